(** Specification vocabulary for error surfaces. *)
From Coq Require Import List Arith QArith Bool Permutation.
From Verif Require Import HG Deriv KBestSpec Mert MertSpec Stats Surface.
Import ListNotations.
Open Scope Q_scope.

(** The statistics which a set of deltas adds up to at [x]. *)
Definition total_stats (l : list stats) : stats := fold_left ss_plus l no_stats.
Definition stats_at (l : list eseg) (x : Q) : stats := total_stats (map delta (filter (fun s => ltx (sx s) (Fin x)) l)).
(** [x] is not one of the boundaries. *)
Definition inside_x (l : list eseg) (x : Q) : Prop := forall s q, In s l -> sx s = Fin q -> ~ q == x.
Definition no_pinf (l : list eseg) : Prop := forall s, In s l -> sx s <> PInf.
(** Two statistics read the same, two scores are the same. *)
Definition same_stats (a b : stats) : Prop := forall i, ss_at a i == ss_at b i.
Definition oeq (a b : option Q) : Prop := match a, b with Some p, Some q => p == q | None, None => True | _, _ => False end.
(** [v] is not better than [b]. *)
Definition no_better (maximize : bool) (v b : Q) : Prop := if maximize then v <= b else b <= v.
(** What std::sort by x guarantees. *)
Record xsorts (xsort : list eseg -> list eseg) : Prop := {
  xs_perm : forall l, Permutation (xsort l) l;
  xs_sorted : forall l i j p q, (i < j)%nat -> nth_error (xsort l) i = Some p -> nth_error (xsort l) j = Some q -> ltx (sx q) (sx p) = false
}.
(** Different boundaries are more than [eps] apart. *)
Definition separated (eps : Q) (l : list eseg) : Prop :=
  forall s t p q, In s l -> In t l -> sx s = Fin p -> sx t = Fin q -> p < q -> eps < q - p.

(** The translations of a sentence: those of the derivations of the last node of
    its hypergraph; those of the derivations which are best at [x]. *)
Section S.
Context {P Y : Type}.
Variables (dir ori : edge P -> Q) (traverse : edge P -> list Y -> Y) (dflt : Y).
Definition goal (g : hg P) : nat := (length (nodes g) - 1)%nat.
Definition translates (g : hg P) (y : Y) : Prop := exists t, derives g (goal g) t /\ y = tree_yield g traverse dflt t.
Definition best_translation (g : hg P) (x : Q) (y : Y) : Prop :=
  exists t, derives g (goal g) t /\ y = tree_yield g traverse dflt t /\ forall t', derives g (goal g) t' -> score g dir ori t' x <= score g dir ori t x.
(** The statistics of one translation per sentence. *)
Definition corpus (sents : list (hg P * (Y -> stats))) (ys : list Y) : stats :=
  total_stats (map (fun sy => snd (fst sy) (snd sy)) (combine sents ys)).
End S.
