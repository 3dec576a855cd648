(** Proofs for Constrain.v: HG::Intersect. *)
From Coq Require Import String List ZArith Bool Lia.
From Verif Require Import Opt HG Deriv TopoSpec Prune PruneSpec Rule RuleSpec Lattice Parser ParserSpec Constrain ConstrainSpec ConstrainAllProofs ConstrainFastProofs.
Import ListNotations.
Open Scope opt_scope.
Local Open Scope nat_scope.

Section A.
Context {X : Type}.
Notation hgx := (hg (elab X)).
Lemma single_iff : forall target, IsSentence target = true <-> forall i alt, nth_error target i = Some alt -> length alt <= 1.
Proof.
  intros target. unfold IsSentence. rewrite forallb_forall. split.
  - intros H i alt N. apply Nat.leb_le. apply H. exact (nth_error_In _ _ N).
  - intros H alt I. apply In_nth_error in I as (i & N). apply Nat.leb_le. exact (H i alt N).
Qed.
Theorem intersect_general : forall conv str (arc_feats : nat * nat -> X) linear target dist (g : hgx),
  (forall a b, conv a = conv b -> a = b) -> (forall a, (0 < conv a)%Z) ->
  wf_hg g -> topo g -> nodes g <> [] -> rules_ok g -> no_deletion g ->
  arcs_ok target -> (forall i alt, nth_error target i = Some alt -> alt <> []) ->
  (forall p a x, arc_at target p a x -> (0 < label x)%Z /\ label x <> kEPS conv) ->
  (linear = false /\ exists ws, target = sentence ws /\ (Z.of_nat (length ws) <= 9999)%Z) \/ (exists i alt, nth_error target i = Some alt /\ 1 < length alt) ->
  (Z.of_nat (length target) < 99999998)%Z -> distances target dist ->
  exists ok h, Intersect conv str arc_feats linear target dist g = Some (ok, h) /\
    (ok = true <-> exists t p ws, derives g (goal g) t /\ translation g t = Some ws /\ path target 0 (length target) p ws) /\
    (ok = true -> wf_hg h /\ topo h /\ constrained arc_feats target g h).
Proof.
  intros conv str af linear target dist g CI CP WF TP NE RO ND AR FU WO KI SM DI.
  assert (E : Intersect conv str af linear target dist g = IntersectGeneral conv str af target dist g).
  { unfold Intersect. destruct KI as [(-> & _)|(i & alt & N & L)]; [reflexivity|]. destruct (IsSentence target) eqn:S; [|rewrite andb_false_r; reflexivity]. pose proof (proj1 (single_iff target) S i alt N). lia. }
  rewrite E. apply general_ok; try assumption. destruct KI as [(_ & K)|K]; [left; exact K|right; exact K].
Qed.
Theorem intersect_fast : forall conv str (arc_feats : nat * nat -> X) target dist (g : hgx),
  wf_hg g -> topo g -> nodes g <> [] -> (forall i alt, nth_error target i = Some alt -> length alt <= 1) ->
  (forall e ed, nth_error (edges g) e = Some ed -> tails ed = [] -> usable target (lab ed)) -> heap_ok g ->
  exists ok h, Intersect conv str arc_feats true target dist g = Some (ok, h) /\ wf_hg h /\ topo h /\
    (ok = true <-> forall i, i < length target -> exists e ed, nth_error (edges g) e = Some ed /\ tails ed = [] /\ matches target (lab ed) /\ prev_i_ (lab ed) = Z.of_nat i) /\
    selected target (fun e l l' => (~ used_before target g e -> turned l l') /\ (used_before target g e -> half_turned l l')) g h.
Proof.
  intros conv str af target dist g WF TP NE SI US HP. assert (E : Intersect conv str af true target dist g = FastLinearIntersect target g) by (unfold Intersect; rewrite (proj2 (single_iff target) SI); reflexivity).
  rewrite E. destruct (fast_ok target g WF TP NE US HP) as (ok & h & A & B & C & D & F). exists ok, h. split; [exact A|]. split; [exact B|]. split; [exact C|]. split; [|exact F]. rewrite D. split; intros H i I; destruct (H i I) as (e & ed & Q1 & Q2 & Q3 & Q4); exists e, ed; (split; [exact Q1|split; [exact Q2|split; [exact Q3|]]]); destruct (US e ed Q1 Q2) as (PO & _); lia.
Qed.
End A.
