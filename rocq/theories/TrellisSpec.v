(** Specification vocabulary for trellises. *)
From Coq Require Import List ZArith.
From Verif Require Import Opt HG Deriv TopoSpec PruneSpec Rule RuleSpec Parser Constrain ConstrainSpec.
Import ListNotations.
Local Open Scope nat_scope.

Section S.
Context {X : Type}.

(** [ls] are the labels with the numbers [ks], one from each cell. *)
Inductive choice : list (list (elab X)) -> list nat -> list (elab X) -> Prop :=
| ch_nil : choice [] [] []
| ch_cons c cells k ks l ls : nth_error c k = Some l -> choice cells ks ls -> choice (c :: cells) (k :: ks) (l :: ls).
(** What is on the edges without tails of a derivation, from left to right. *)
Fixpoint leaves (g : hg (elab X)) (t : tree) : list (elab X) :=
  match t with
  | Tree e [] => match nth_error (edges g) e with Some ed => [lab ed] | None => [] end
  | Tree e ts => flat_map (leaves g) ts
  end.
(** Rules of words. *)
Definition lexical (l : elab X) : Prop := Forall (fun w => (0 < w)%Z) (r_e (rule_ l)) /\ Forall (fun w => (0 < w)%Z) (r_f (rule_ l)).
Definition targets (ls : list (elab X)) : list Z := flat_map (fun l => r_e (rule_ l)) ls.
Definition sources_of (ls : list (elab X)) : list Z := flat_map (fun l => r_f (rule_ l)) ls.

(** The derivations of [g] are the choices of one label from each cell, one for one; a derivation
    reads off the words of the labels. *)
Definition trellis_of (cells : list (list (elab X))) (g : hg (elab X)) : Prop := exists enc : list nat -> tree,
  (forall t, derives g (goal g) t <-> exists ks ls, choice cells ks ls /\ t = enc ks) /\
  (forall ks ls ks' ls', choice cells ks ls -> choice cells ks' ls' -> enc ks = enc ks' -> ks = ks') /\
  (forall ks ls, choice cells ks ls -> leaves g (enc ks) = ls) /\
  ((forall c l, In c cells -> In l c -> lexical l) -> forall ks ls, choice cells ks ls ->
     translation g (enc ks) = Some (targets ls) /\ source g (enc ks) = Some (sources_of ls)).
(** Each rule object is on one edge only. *)
Definition own_rules (g : hg (elab X)) : Prop := forall a b ed fd, nth_error (edges g) a = Some ed -> nth_error (edges g) b = Some fd ->
  tails ed = [] -> tails fd = [] -> r_addr (rule_ (lab ed)) = r_addr (rule_ (lab fd)) -> a = b.
End S.

Section L.
Context {X : Type}.
(** [h] has exactly the derivations of [g] with translation [ws], one for one; the labels of inner
    edges are the same; [new e l l']: what becomes of the label [l] of edge [e] without tails.  If
    every edge without tails has its own rule object, source and translation are exchanged. *)
Definition limited (new : nat -> elab X -> elab X -> Prop) (ws : list Z) (g h : hg (elab X)) : Prop := exists f : nat -> nat,
  (forall t', derives h (goal h) t' <-> exists t, derives g (goal g) t /\ translation g t = Some ws /\ t' = rename f t) /\
  (forall t u, derives g (goal g) t -> translation g t = Some ws -> derives g (goal g) u -> translation g u = Some ws -> rename f t = rename f u -> t = u) /\
  (forall t e, derives g (goal g) t -> translation g t = Some ws -> In e (tree_edges t) ->
     exists ed ed', nth_error (edges g) e = Some ed /\ nth_error (edges h) (f e) = Some ed' /\
       (tails ed <> [] -> lab ed' = lab ed) /\ (tails ed = [] -> new e (lab ed) (lab ed'))) /\
  (own_rules g -> forall t, derives g (goal g) t -> translation g t = Some ws ->
     source h (rename f t) = Some ws /\ translation h (rename f t) = source g t).
End L.

Section G.
Context {X : Type}.
(** The rules for a source word: those of the grammar, or else those of the sentence's own. *)
Definition translations (gram : Z -> option (option (list (trule * list X)))) (sup : option (Z -> option (option (list (trule * list X))))) (w : Z) (rs : list (trule * list X)) : Prop :=
  gram w = Some (Some rs) \/ (gram w = None /\ exists s, sup = Some s /\ s w = Some (Some rs)).
(** No rules at all. *)
Definition untranslatable (gram : Z -> option (option (list (trule * list X)))) (sup : option (Z -> option (option (list (trule * list X))))) (w : Z) : Prop :=
  gram w = None /\ forall s, sup = Some s -> s w = None.
(** Position [j] of the source holds [w]; the empty word is at position -1. *)
Definition source_at (kNULL : Z) (use_null : bool) (src : list Z) (j w : Z) : Prop :=
  (use_null = true /\ j = (-1)%Z /\ w = kNULL) \/ ((0 <= j)%Z /\ nth_error src (Z.to_nat j) = Some w).
(** An edge for position [i] of the target, aligned to [j], with a rule and its features. *)
Definition links (i : nat) (j : Z) (r : trule) (fs : list X) (l : elab X) : Prop :=
  rule_ l = r /\ feats_ l = fs /\ i_ l = j /\ j_ l = (j + 1)%Z /\ prev_i_ l = Z.of_nat i /\ prev_j_ l = (Z.of_nat i + 1)%Z.
(** The rule has one target word and no variables. *)
Definition one_word (r : trule) : Prop := (exists w, r_e r = [w] /\ (0 < w)%Z) /\ r_arity r = 0%Z /\ Forall (fun w => (0 < w)%Z) (r_f r).
End G.
