(** Specification vocabulary for intersecting a forest with a reference. *)
From Coq Require Import String List ZArith.
From Verif Require Import Opt HG Deriv TopoSpec PruneSpec Rule RuleSpec Lattice Parser ParserSpec Constrain.
Import ListNotations.
Open Scope opt_scope.
Local Open Scope nat_scope.

Section S.
Context {X : Type}.

(** The rules of a derivation, from the top. *)
Fixpoint deriv_of (g : hg (elab X)) (t : tree) : option deriv :=
  match t with
  | Tree e ts =>
      ed <- nth_error (edges g) e ;;
      ds <- map_opt (deriv_of g) ts ;;
      Some (Node (r_e (rule_ (lab ed))) (r_f (rule_ (lab ed))) ds)
  end.
(** What a derivation translates, and the translation (C37). *)
Definition source (g : hg (elab X)) (t : tree) : option (list Z) := d <- deriv_of g t ;; fsentence d.
Definition translation (g : hg (elab X)) (t : tree) : option (list Z) := d <- deriv_of g t ;; esentence d.

(** Every edge has a well-formed rule with one variable per tail, at most 127. *)
Definition rules_ok (g : hg (elab X)) : Prop := forall e ed, nth_error (edges g) e = Some ed ->
  let r := rule_ (lab ed) in RuleSpec.wf_rule (r_e r) (r_f r) /\ length (tails ed) = length (vars_of (r_f r)) /\ length (tails ed) <= 127.
(** No rule deletes all it covers. *)
Definition no_deletion (g : hg (elab X)) : Prop := forall e ed, nth_error (edges g) e = Some ed -> r_e (rule_ (lab ed)) <> [].

(** [path lat i j p ws]: the arcs [p] lead from [i] to [j] and spell [ws]. *)
Inductive path (lat : list (list arc)) : nat -> nat -> list (nat * nat) -> list Z -> Prop :=
| p_nil i : path lat i i [] []
| p_arc i a x j p ws : arc_at lat i a x -> path lat (i + len x) j p ws -> path lat i j ((i, a) :: p) (label x :: ws).
(** A sentence: one arc per position, to the next one. *)
Definition sentence (ws : list Z) : list (list arc) := map (fun w => [{| label := w; len := 1 |}]) ws.

(** The distances the lattice gives: computed by ComputeDistances (C38), or differences. *)
Definition distances (lat : list (list arc)) (dist : nat -> nat -> Z) : Prop :=
  (forall i j, i < j <= length lat -> dist i j = Z.of_nat (j - i)) \/
  let ls := map (map (fun x => Z.of_nat (len x))) lat in
  exists d, ComputeDistances [] ls = Some d /\
    forall i j, i <= length lat -> j <= length lat -> Distance ls d (Z.of_nat i) (Z.of_nat j) = Some (dist i j).

(** [t'] in [h] is [t] in [g] with source and target exchanged: the parent of each rule is the
    rule of the edge, the features are those of the edge and of the arcs the rule's words were
    read from, and the subderivation at the m-th variable of the target side of the old rule is
    the m-th of the new one. *)
Inductive mirrors (arc_feats : nat * nat -> X) (lat : list (list arc)) (h g : hg (elab X)) : tree -> tree -> Prop :=
| mir e' ed' ts' e ed ts arcs : nth_error (edges h) e' = Some ed' -> nth_error (edges g) e = Some ed ->
    r_parent (rule_ (lab ed')) = Some (rule_ (lab ed)) ->
    feats_ (lab ed') = feats_ (lab ed) ++ map arc_feats arcs -> Forall2 (fun a w => exists x, arc_at lat (fst a) (snd a) x /\ label x = w) arcs (words_of (r_e (rule_ (lab ed)))) ->
    prev_i_ (lab ed') = i_ (lab ed) -> prev_j_ (lab ed') = j_ (lab ed) ->
    length ts' = length ts -> length ts = length (vars_of (r_e (rule_ (lab ed)))) ->
    (forall m c, nth_error (vars_of (r_e (rule_ (lab ed)))) m = Some c ->
       exists s' s, nth_error ts' m = Some s' /\ nth_error ts (Z.to_nat (- c)) = Some s /\ mirrors arc_feats lat h g s' s) ->
    mirrors arc_feats lat h g (Tree e' ts') (Tree e ts).
(** The same below a rule for the goal, without features. *)
Definition mirrors_top arc_feats lat (h g : hg (elab X)) (t' t : tree) : Prop :=
  exists e s' ed, t' = Tree e [s'] /\ nth_error (edges h) e = Some ed /\ r_e (rule_ (lab ed)) = [0%Z] /\
    feats_ (lab ed) = [] /\ r_parent (rule_ (lab ed)) = None /\ mirrors arc_feats lat h g s' t.

(** The derivations of [h] are the pairs of a derivation of [g] and a path through the lattice
    which spells its translation, one for one. *)
Definition constrained (arc_feats : nat * nat -> X) (lat : list (list arc)) (g h : hg (elab X)) : Prop :=
  exists R : tree -> tree -> list (nat * nat) -> Prop,
    (forall t', derives h (goal h) t' -> exists t p, R t' t p) /\
    (forall t p ws, derives g (goal g) t -> translation g t = Some ws -> path lat 0 (length lat) p ws -> exists t', R t' t p) /\
    (forall t' t p, R t' t p -> derives h (goal h) t' /\ derives g (goal g) t /\ mirrors_top arc_feats lat h g t' t /\
       exists ws vs, path lat 0 (length lat) p ws /\ translation g t = Some ws /\ source h t' = Some ws /\
         source g t = Some vs /\ translation h t' = Some vs) /\
    (forall t' t u p q, R t' t p -> R t' u q -> t = u /\ p = q) /\
    (forall t' u' t p, R t' t p -> R u' t p -> t' = u').
End S.

(** ** Trellises: one word per edge without tails *)
Section T.
Context {X : Type}.
Variable target : list (list arc).
(** The word on an edge without tails is for one position of the reference, where there is a word. *)
Definition usable (l : elab X) : Prop :=
  (0 <= prev_i_ l)%Z /\ (exists w, r_e (rule_ l) = [w]) /\ r_arity (rule_ l) = 0%Z /\
  exists x alt, nth_error target (Z.to_nat (prev_i_ l)) = Some (x :: alt).
(** It is the word there. *)
Definition matches (l : elab X) : Prop :=
  exists x alt, nth_error target (Z.to_nat (prev_i_ l)) = Some (x :: alt) /\ r_e (rule_ l) = [label x].
(** All words of a derivation are those of the reference at their positions. *)
Definition matched (g : hg (elab X)) (t : tree) : Prop :=
  forall e ed, In e (tree_edges t) -> nth_error (edges g) e = Some ed -> tails ed = [] -> matches (lab ed).
(** Source and target exchanged: the sides of the rule, and the positions. *)
Definition turned (l l' : elab X) : Prop :=
  r_e (rule_ l') = r_f (rule_ l) /\ r_f (rule_ l') = r_e (rule_ l) /\ feats_ l' = feats_ l /\
  i_ l' = prev_i_ l /\ j_ l' = prev_j_ l /\ prev_i_ l' = i_ l /\ prev_j_ l' = j_ l.
(** The positions only. *)
Definition half_turned (l l' : elab X) : Prop :=
  rule_ l' = rule_ l /\ feats_ l' = feats_ l /\
  i_ l' = prev_i_ l /\ j_ l' = prev_j_ l /\ prev_i_ l' = i_ l /\ prev_j_ l' = j_ l.
(** Edges without tails which have the same rule object have the same rule. *)
Definition heap_ok (g : hg (elab X)) : Prop := forall a b ed fd, nth_error (edges g) a = Some ed -> nth_error (edges g) b = Some fd ->
  tails ed = [] -> tails fd = [] -> r_addr (rule_ (lab ed)) = r_addr (rule_ (lab fd)) -> rule_ (lab ed) = rule_ (lab fd).
(** An edge before [e] whose word matches has the rule object of [e]. *)
Definition used_before (g : hg (elab X)) (e : nat) : Prop := exists b ed fd, b < e /\ nth_error (edges g) e = Some ed /\ nth_error (edges g) b = Some fd /\
  tails fd = [] /\ matches (lab fd) /\ r_addr (rule_ (lab ed)) = r_addr (rule_ (lab fd)).
(** [h] has exactly the matched derivations of [g], one for one; [new e l l'] tells what becomes of
    the label [l] of edge [e] without tails. *)
Definition selected (new : nat -> elab X -> elab X -> Prop) (g h : hg (elab X)) : Prop := exists f : nat -> nat,
  (forall t', derives h (goal h) t' <-> exists t, derives g (goal g) t /\ matched g t /\ t' = rename f t) /\
  (forall t u, derives g (goal g) t -> matched g t -> derives g (goal g) u -> matched g u -> rename f t = rename f u -> t = u) /\
  (forall t e, derives g (goal g) t -> matched g t -> In e (tree_edges t) ->
     exists ed ed', nth_error (edges g) e = Some ed /\ nth_error (edges h) (f e) = Some ed' /\
       (tails ed <> [] -> lab ed' = lab ed) /\ (tails ed = [] -> new e (lab ed) (lab ed'))).
End T.
