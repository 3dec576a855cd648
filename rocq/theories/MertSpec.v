(** Specification vocabulary for envelopes of lines. *)
From Coq Require Import List Arith QArith Bool Permutation.
From Verif Require Import HG Deriv Mert.
Import ListNotations.
Open Scope Q_scope.

(** A line, with what it stands for. *)
Record line := { lm : Q; lb : Q; lp : prov }.
Definition val (l : line) (x : Q) : Q := lm l * x + lb l.
Definition pval (p : pt) (x : Q) : Q := pm p * x + pb p.
Definition same (p : pt) (l : line) : Prop := pm p == lm l /\ pb p == lb l /\ pp p = lp l.
(** From -infinity, or a number, up; up to a number, or +infinity. *)
Definition from_x (a : ex) (x : Q) : Prop := match a with MInf => True | Fin q => q <= x | PInf => False end.
Definition upto_x (a : ex) (x : Q) : Prop := match a with MInf => False | Fin q => x <= q | PInf => True end.
(** The segment [i] of [S], which is [p], covers [x]: from its own x up to that
    of its successor. *)
Definition covers (S : list pt) (i : nat) (p : pt) (x : Q) : Prop :=
  nth_error S i = Some p /\ from_x (px p) x /\ upto_x (match nth_error S (i + 1) with Some p' => px p' | None => PInf end) x.

(** [S] is the upper envelope of the lines [L]. *)
Record is_env (S : list pt) (L : line -> Prop) : Prop := {
  env_lines : forall p, In p S -> exists l, L l /\ same p l;
  env_first : forall p, nth_error S 0 = Some p -> px p = MInf;
  env_increasing : forall i p p', nth_error S i = Some p -> nth_error S (i + 1) = Some p' -> ltx (px p) (px p') = true /\ ltx (px p') PInf = true /\ pm p < pm p';
  env_maximal : forall i p x, covers S i p x -> forall l, L l -> val l x <= pval p x;
  env_somewhere : (exists l, L l) -> forall x, exists i p, covers S i p x;
  env_needed : forall i p, nth_error S i = Some p -> exists x, forall j q, j <> i -> nth_error S j = Some q -> pval q x < pval p x
}.

(** What std::sort with SlopeCompare guarantees (mert_geometry.cc 38-42, 60). *)
Record sorts (srt : list pt -> list pt) : Prop := {
  srt_perm : forall l, Permutation (srt l) l;
  srt_sorted : forall l i j p q, (i < j)%nat -> nth_error (srt l) i = Some p -> nth_error (srt l) j = Some q -> pm p <= pm q
}.

Definition line_of (p : pt) : line := {| lm := pm p; lb := pb p; lp := pp p |}.
Definition add_line (a b : line) : line := {| lm := lm a + lm b; lb := lb a + lb b; lp := PPair (lp a) (lp b) |}.

(** A hull represents the lines [L]: its points are among them, and its segments
    are their envelope. *)
Definition represents (srt : list pt -> list pt) (h : hull) (L : line -> Prop) : Prop :=
  (forall p, In p (points h) -> exists l, L l /\ same p l) /\ is_env (segs srt h) L.

(** The sum over the edges of a derivation, and the derivation's line. *)
Definition Qsum (l : list Q) : Q := fold_right Qplus 0 l.
Definition tree_sum {P} (g : hg P) (f : edge P -> Q) (t : tree) : Q := Qsum (map (edge_weight 0 f g) (tree_edges t)).
Definition score {P} (g : hg P) (dir ori : edge P -> Q) (t : tree) (x : Q) : Q := tree_sum g dir t * x + tree_sum g ori t.
(** The flags after setting those at the positions [es]. *)
Definition marked (used used' : list bool) (es : list nat) : Prop :=
  length used' = length used /\ forall e b, nth_error used e = Some b -> nth_error used' e = Some (b || if in_dec Nat.eq_dec e es then true else false)%bool.

(** Pointers to different objects of the heap. *)
Definition distinct (h : list pt) (ps : list HeapHull.ptr) : Prop := NoDup ps /\ forall a, In a ps -> (a < length h)%nat.
(** What std::sort of the pointers guarantees. *)
Definition psorts (psort : list pt -> list HeapHull.ptr -> list HeapHull.ptr) : Prop := forall h ps,
  Permutation (psort h ps) ps /\ forall i j a b p q, (i < j)%nat -> nth_error (psort h ps) i = Some a -> nth_error (psort h ps) j = Some b -> nth_error h a = Some p -> nth_error h b = Some q -> pm p <= pm q.
