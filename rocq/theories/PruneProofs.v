(** PruneEdges. *)
From Coq Require Import List Arith Bool Lia Relations ZArith QArith Qcanon.
From Verif Require Import HG HGProofs Deriv Inside InsideProofs Topo TopoSpec TopoProofs TopoDeriv Prune PruneSpec.
Import ListNotations.
Local Open Scope nat_scope.

Section G.
Context {P : Type}.
Variable g : hg P.
Hypothesis WF : wf_hg g.
Hypothesis TP : topo g.
Hypothesis NE : nodes g <> [].

Lemma goal_lt : goal g < length (nodes g).
Proof using NE. unfold goal. destruct (nodes g); [congruence|cbn; lia]. Qed.

Lemma child_lt : forall M n m, child M g n m -> m < n.
Proof using TP.
  intros M n m (nd & e & ed & N & I & _ & ED & T). destruct (proj2 (TP n nd N) e I) as (ed' & ED' & TL).
  assert (ed' = ed) by congruence. subst. exact (TL m T).
Qed.
Lemma no_cycle : forall M k, ~ cycle_below M g k.
Proof using TP.
  intros M k (n & _ & C). assert (H : forall a b, clos_trans nat (child M g) a b -> b < a).
  { intros a b X. induction X as [a b X|a b c _ IH1 _ IH2]; [exact (child_lt _ _ _ X)|lia]. }
  specialize (H _ _ C). lia.
Qed.

Lemma avoids_keep : forall mask t, avoids mask t <-> Forall (keep (Some mask)) (tree_edges t).
Proof using. intros. reflexivity. Qed.

Lemma sorted : forall mask, length mask = length (edges g) ->
  exists g' rn re, TopoSort (length (nodes g) - 1) (Some mask) g = Sorted g' /\ renumbered (Some mask) g (goal g) g' rn re /\
    wf_hg g' /\ topo g' /\ carries (avoids mask) g g'.
Proof using WF TP NE.
  intros mask L. destruct (toposort_ok (Some mask) g WF L (goal g) goal_lt) as [(g' & rn & re & E & _ & R)|(_ & C)]; [|elim (no_cycle _ _ C)].
  exists g', rn, re. split; [exact E|]. split; [exact R|].
  split; [exact (new_wf (Some mask) g g' WF (goal g) goal_lt rn re R)|]. split; [exact (new_topo (Some mask) g g' WF (goal g) goal_lt rn re R)|].
  destruct (derivations_same (Some mask) g g' WF (goal g) goal_lt rn re R) as (D1 & D2).
  exists (get re). split; [exact D1|]. split.
  - intros t u DT KT DU KU. exact (D2 t u DT DU KT KU).
  - intros t e D K I. destruct (derives_edges (Some mask) g g' (goal g) rn re R t (goal g) _ (rn_goal _ _ _ _ _ _ R) D K e I) as (j & J).
    destruct (proj1 (re_dom _ _ _ _ _ _ R e) (ex_intro _ j J)) as (_ & n & nd & _ & N & IN).
    destruct (wf_in g WF n nd e N IN) as (ed & ED & _).
    destruct (edge_new (Some mask) g g' (goal g) rn re R e j ed J ED) as (? & ? & _ & _ & ED'). exists ed. eexists. split; [exact ED|].
    rewrite (get_some _ _ _ J). split; [exact ED'|reflexivity].
Qed.


Lemma choose_all : forall (A B : Type) (Q : A -> B -> Prop) l, (forall t, In t l -> exists u, Q t u) -> exists ss, Forall2 Q l ss.
Proof using.
  induction l as [|t r IH]; intros H; [exists []; constructor|]. destruct (H t (or_introl eq_refl)) as (u & U).
  destruct IH as (ss & S); [intros x X; apply H; right; exact X|]. exists (u :: ss). constructor; assumption.
Qed.
Lemma choose_with : forall (A B : Type) (Q : A -> B -> Prop) l t s, In t l -> Q t s -> (forall t, In t l -> exists u, Q t u) -> exists ss, Forall2 Q l ss /\ In s ss.
Proof using.
  induction l as [|t r IH]; intros t0 s I S H; [destruct I|]. destruct I as [->|I].
  - destruct (choose_all A B Q r) as (ss & F); [intros x X; apply H; right; exact X|]. exists (s :: ss). split; [constructor; assumption|left; reflexivity].
  - destruct (IH t0 s I S) as (ss & F & IS); [intros x X; apply H; right; exact X|]. destruct (H t (or_introl eq_refl)) as (u & U).
    exists (u :: ss). split; [constructor; assumption|right; exact IS].
Qed.
Lemma Forall2_and : forall (A B : Type) (R S : A -> B -> Prop) l m, Forall2 (fun a b => R a b /\ S a b) l m -> Forall2 R l m /\ Forall2 S l m.
Proof using. intros A B R S l m F. induction F as [|a b l m (H1 & H2) F (I1 & I2)]; split; constructor; assumption. Qed.
Lemma Forall2_right : forall (A B : Type) (S : B -> Prop) l (m : list B), Forall2 (fun (_ : A) b => S b) l m -> Forall S m.
Proof using. intros A B S l m F. induction F; constructor; assumption. Qed.

Lemma avoids_tree : forall mask e ts, avoids mask (Tree e ts) <-> nth_error mask e = Some false /\ Forall (avoids mask) ts.
Proof using.
  intros mask e ts. unfold avoids at 1. cbn [tree_edges]. rewrite Forall_app. split.
  - intros (F & E). inversion E; subst. split; [assumption|]. apply Forall_forall. intros t T. apply Forall_forall. intros x X.
    rewrite Forall_forall in F. apply F. apply in_flat_map. exists t. auto.
  - intros (E & F). split; [|constructor; [exact E|constructor]]. apply Forall_forall. intros x X. apply in_flat_map in X. destruct X as (t & T & X).
    rewrite Forall_forall in F. specialize (F t T). unfold avoids in F. rewrite Forall_forall in F. auto.
Qed.

(** What the tails of kept edges below the goal need. *)
Definition tails_derivable (mask : list bool) : Prop := forall n nd e ed t, reach (Some mask) g (goal g) n -> nth_error (nodes g) n = Some nd -> In e (in_edges nd) ->
  keep (Some mask) e -> nth_error (edges g) e = Some ed -> In t (tails ed) -> exists u, derives g t u /\ avoids mask u.

(** A derivation of a node found below another is part of one of that. *)
Lemma climb : forall mask, tails_derivable mask -> forall n, reach (Some mask) g (goal g) n -> forall s, derives g n s -> avoids mask s ->
  exists T, derives g (goal g) T /\ avoids mask T /\ forall e, In e (tree_edges s) -> In e (tree_edges T).
Proof using.
  intros mask TD n RC. apply Operators_Properties.clos_rt_rtn1 in RC. induction RC as [|m n C RC IH]; intros s D A; [exists s; auto|].
  destruct C as (nd & e & ed & N & I & K & ED & T).
  apply Operators_Properties.clos_rtn1_rt in RC. pose proof (fun t => TD m nd e ed t RC N I K ED) as TE.
  destruct (choose_with _ _ (fun t u => derives g t u /\ avoids mask u) (tails ed) n s T (conj D A) TE) as (ss & F & IS).
  destruct (Forall2_and _ _ _ _ _ _ F) as (F1 & F2). apply Forall2_right in F2.
  destruct (IH (Tree e ss)) as (TT & D' & A' & S').
  - exact (d_edge g m nd e ed ss N I ED F1).
  - apply avoids_tree. auto.
  - exists TT. split; [exact D'|]. split; [exact A'|]. intros x X. apply S'. cbn [tree_edges]. apply in_or_app. left.
    apply in_flat_map. exists s. auto.
Qed.

Lemma rename_edges : forall f t, tree_edges (rename f t) = map f (tree_edges t).
Proof using.
  intros f. induction t as [e ts IH] using tree_ind'. cbn [rename tree_edges]. rewrite map_app. cbn [map]. f_equal.
  induction ts as [|t r IHr]; [reflexivity|]. inversion IH; subst. cbn. rewrite map_app. f_equal; [assumption|apply IHr; assumption].
Qed.

Lemma live : forall mask g' rn re, renumbered (Some mask) g (goal g) g' rn re -> tails_derivable mask ->
  (exists t, derives g (goal g) t /\ avoids mask t) -> no_dead_parts g'.
Proof using WF TP NE.
  intros mask g' rn re R TD (t0 & D0 & A0). split.
  - intros j J. apply nth_error_Some in J. destruct (nth_error (edges g') j) as [ed'|] eqn:E; [|congruence]. clear J.
    apply (edges_are _ _ _ _ _ _ R) in E. destruct E as (e & ed & h & RE & ED & _ & _).
    destruct (proj1 (re_dom _ _ _ _ _ _ R e) (ex_intro _ j RE)) as (K & n & nd & RC & N & I).
    destruct (choose_all _ _ (fun t u => derives g t u /\ avoids mask u) (tails ed) (fun t => TD n nd e ed t RC N I K ED)) as (ss & F).
    destruct (Forall2_and _ _ _ _ _ _ F) as (F1 & F2). apply Forall2_right in F2.
    destruct (climb mask TD n RC (Tree e ss) (d_edge g n nd e ed ss N I ED F1) (proj2 (avoids_tree mask e ss) (conj K F2))) as (T & D & A & S).
    exists (rename (get re) T). split.
    + apply (new_derives (Some mask) g g' (goal g) rn re R T (goal g)); [exact (rn_goal _ _ _ _ _ _ R)|exact D|exact A].
    + rewrite rename_edges. rewrite <- (get_some _ _ _ RE). apply in_map. apply S. cbn [tree_edges]. apply in_or_app. right. left. reflexivity.
  - intros k K. apply nth_error_Some in K. destruct (nth_error (nodes g') k) as [nd'|] eqn:E; [|congruence]. clear K.
    apply (nodes_are _ _ _ _ _ _ R) in E. destruct E as (n & nd & RN & N & _).
    assert (X : exists u, derives g n u /\ avoids mask u).
    { assert (RC : reach (Some mask) g (goal g) n) by (apply (rn_dom _ _ _ _ _ _ R); exists k; exact RN).
      apply Operators_Properties.clos_rt_rtn1 in RC. destruct RC as [|m n C RC]; [exists t0; auto|].
      destruct C as (md & e & ed & M & I & KP & ED & T). apply Operators_Properties.clos_rtn1_rt in RC. exact (TD m md e ed n RC M I KP ED T). }
    destruct X as (u & D & A). exists (rename (get re) u).
    exact (new_derives (Some mask) g g' (goal g) rn re R u n k RN D A).
Qed.

(** ** The boolean inside pass *)
Lemma weight_avoids : forall mask, length mask = length (edges g) -> forall t n, derives g n t ->
  (tree_weight andb (edge_weight false (exists_weight mask) g) t = true <-> avoids mask t).
Proof using WF.
  intros mask L. induction t as [e ts IH] using tree_ind'. intros n D. inversion D as [? nd ? ed ? N I ED F]; subst.
  rewrite avoids_tree. cbn [tree_weight].
  assert (W : edge_weight false (exists_weight mask) g e = true <-> nth_error mask e = Some false).
  { unfold edge_weight, exists_weight. rewrite ED, (wf_eid g WF e ed ED).
    assert (LE : e < length mask) by (rewrite L; apply nth_error_Some; congruence).
    rewrite (nth_error_nth' mask false LE). destruct (nth e mask false); cbn; intuition congruence. }
  rewrite <- W. generalize (edge_weight false (exists_weight mask) g e). clear W D.
  revert IH. induction F as [|t s r rs Dt F IHF]; intros IH b; cbn [fold_left].
  - split; [intros ->; auto|tauto].
  - inversion IH as [|? ? H1 H2]; subst. rewrite (IHF H2 (b && _)). rewrite andb_true_iff, (H1 t Dt), Forall_cons_iff. tauto.
Qed.

Lemma sum_or : forall (A : Type) (f : A -> bool) l, sum false orb (map f l) = true <-> exists a, In a l /\ f a = true.
Proof using.
  induction l as [|a r IH]; cbn; [split; [discriminate|intros (? & [] & _)]|]. rewrite orb_true_iff, IH. split.
  - intros [H|(x & X & H)]; eauto.
  - intros (x & [->|X] & H); eauto.
Qed.

Lemma reachable_ok : forall mask, length mask = length (edges g) -> exists sc, Inside false orb andb (exists_weight mask) g = Some sc /\
  length sc = length (nodes g) /\ forall n, n < length (nodes g) -> exists b, nth_error sc n = Some b /\ (b = true <-> exists t, derives g n t /\ avoids mask t).
Proof using WF TP.
  intros mask L. destruct (inside_correct false true orb andb bool_semiring (exists_weight mask) g TP) as (sc & R & LS & V).
  exists sc. split; [exact R|]. split; [exact LS|]. intros n LN. destruct (V n LN) as ((DL & AL) & VV). specialize (VV DL AL).
  eexists. split; [exact VV|]. rewrite sum_or. destruct AL as (_ & AL). split.
  - intros (t & I & H). apply AL in I. exists t. split; [exact I|]. apply (weight_avoids mask L t n I). exact H.
  - intros (t & D & A). exists t. split; [apply AL, D|]. apply (weight_avoids mask L t n D). exact A.
Qed.

Lemma some_unreachable_ok : forall sc ts, (forall t, In t ts -> t < length sc) ->
  exists b, some_unreachable sc ts = Some b /\ (b = false <-> forall t, In t ts -> nth_error sc t = Some true).
Proof using.
  induction ts as [|t r IH]; intros H; cbn [some_unreachable]; [exists false; split; [reflexivity|split; [intros _ t []|reflexivity]]|].
  destruct IH as (b & E & V); [intros x X; apply H; right; exact X|].
  destruct (nth_error sc t) as [[|]|] eqn:N.
  - exists b. split; [exact E|]. rewrite V. split; [intros Q x [<-|X]; auto|intros Q x X; apply Q; right; exact X].
  - exists true. split; [reflexivity|]. split; [discriminate|]. intros Q. specialize (Q t (or_introl eq_refl)). congruence.
  - apply nth_error_None in N. specialize (H t (or_introl eq_refl)). lia.
Qed.
Lemma filter_edges_ok : forall sc (es : list (edge P)) mask, length mask = length es ->
  (forall ed t, In ed es -> In t (tails ed) -> t < length sc) ->
  exists f, filter_edges sc mask es = Some f /\ length f = length mask /\
    forall e ed, nth_error es e = Some ed ->
      (nth_error f e = Some false <-> nth_error mask e = Some false /\ forall t, In t (tails ed) -> nth_error sc t = Some true).
Proof using.
  intros sc. induction es as [|ed r IH]; intros [|m mask] L H; try discriminate.
  - exists []. split; [reflexivity|]. split; [reflexivity|]. intros [|e] ed E; discriminate.
  - destruct (IH mask) as (f & E & LF & V); [cbn in L; lia|intros x t X; apply H; right; exact X|].
    destruct (some_unreachable_ok sc (tails ed)) as (b & EB & VB); [intros t; apply H; left; reflexivity|].
    cbn [filter_edges]. rewrite EB, E. destruct m.
    + exists (true :: f). split; [reflexivity|]. split; [cbn; lia|]. intros [|e] ed' ED; [cbn; intuition discriminate|exact (V e ed' ED)].
    + exists (b :: f). split; [reflexivity|]. split; [cbn; lia|]. intros [|e] ed' ED; [|exact (V e ed' ED)].
      injection ED as <-. cbn. rewrite <- VB. split; [intros [=]; auto|intros (_ & ->); reflexivity].
Qed.

Lemma last_nth : forall (A : Type) (l : list A) d x, nth_error l (length l - 1) = Some x -> last l d = x.
Proof using.
  induction l as [|a r IH]; intros d x H; [discriminate|]. destruct r as [|b r]; [injection H as <-; reflexivity|].
  change (last (a :: b :: r) d) with (last (b :: r) d). apply IH. cbn in H |- *. rewrite Nat.sub_0_r. exact H.
Qed.

Lemma carries_ext : forall ok ok' (g' : hg P), (forall t, derives g (goal g) t -> (ok t <-> ok' t)) -> carries ok g g' -> carries ok' g g'.
Proof using.
  intros ok ok' g' E (f & C1 & C2 & C3). exists f. split; [|split].
  - intros t'. rewrite C1. split; intros (t & D & O & R); exists t; (split; [exact D|]); (split; [apply (E t D); exact O|exact R]).
  - intros t u DT OT DU OU. apply C2; try assumption; apply E; assumption.
  - intros t e D O. apply C3; [exact D|]. apply E; assumption.
Qed.

(** A derivation avoiding the mask only has edges whose tails are derivable
    without it. *)
Lemma filtered_same : forall mask f sc, length mask = length (edges g) ->
  (forall n, n < length (nodes g) -> exists b, nth_error sc n = Some b /\ (b = true <-> exists t, derives g n t /\ avoids mask t)) ->
  (forall e ed, nth_error (edges g) e = Some ed ->
     (nth_error f e = Some false <-> nth_error mask e = Some false /\ forall t, In t (tails ed) -> nth_error sc t = Some true)) ->
  forall t n, derives g n t -> (avoids f t <-> avoids mask t).
Proof using WF.
  intros mask f sc L V VF. induction t as [e ts IH] using tree_ind'. intros n D. inversion D as [? nd ? ed ? N I ED F]; subst.
  rewrite !avoids_tree. split.
  - intros (E & A). apply (VF e ed ED) in E. split; [apply E|]. rewrite Forall_forall in A |- *. intros s S.
    rewrite Forall_forall in IH. specialize (IH s S). clear -IH F S A.
    assert (X : exists t, derives g t s) by (clear -F S; induction F as [|a b l m H F IHF]; [destruct S|destruct S as [<-|S]; [eauto|apply IHF, S]]).
    destruct X as (t & Dt). apply (IH t Dt). apply A, S.
  - intros (E & A). split.
    + apply (VF e ed ED). split; [exact E|]. intros t T.
      assert (X : exists s, derives g t s /\ avoids mask s).
      { clear -F T A. induction F as [|a b l m H F IHF]; [destruct T|]. inversion A; subst. destruct T as [->|T]; [eauto|apply IHF; assumption]. }
      destruct (V t (wf_tails g WF e ed t ED T)) as (b & B & VB). rewrite B. f_equal. apply VB, X.
    + rewrite Forall_forall in A, IH |- *. intros s S.
      assert (X : exists t, derives g t s) by (clear -F S; induction F as [|a b l m H F IHF]; [destruct S|destruct S as [<-|S]; [eauto|apply IHF, S]]).
      destruct X as (t & Dt). apply (IH s S t Dt). apply A, S.
Qed.

(** ** Results *)
Lemma prune_plain : forall mask, length mask = length (edges g) ->
  exists g', PruneEdges mask false g = Pruned g' /\ wf_hg g' /\ topo g' /\ carries (avoids mask) g g'.
Proof using WF TP NE.
  intros mask L. destruct (sorted mask L) as (g' & rn & re & E & _ & W & T & C). exists g'. unfold PruneEdges. rewrite L, Nat.eqb_refl. cbn [negb].
  rewrite E. auto.
Qed.

Lemma prune_safe : forall mask, length mask = length (edges g) -> (exists t, derives g (goal g) t /\ avoids mask t) ->
  exists g', PruneEdges mask true g = Pruned g' /\ wf_hg g' /\ topo g' /\ carries (avoids mask) g g' /\ no_dead_parts g'.
Proof using WF TP NE.
  intros mask L EX. destruct (reachable_ok mask L) as (sc & R & LS & V).
  destruct (filter_edges_ok sc (edges g) mask L) as (f & E & LF & VF).
  { intros ed t I T. apply In_nth_error in I. destruct I as (e & ED). rewrite LS. exact (wf_tails g WF e ed t ED T). }
  unfold PruneEdges. rewrite L, Nat.eqb_refl, R. cbn [negb].
  destruct (V (goal g) goal_lt) as (b & B & VB). rewrite (last_nth _ sc false b) by (rewrite LS; exact B).
  rewrite (proj2 VB EX). cbn [negb]. rewrite E.
  destruct (sorted f) as (g' & rn & re & ES & RN & W & T & C); [lia|]. rewrite ES. exists g'. split; [reflexivity|]. split; [exact W|]. split; [exact T|].
  pose proof (filtered_same mask f sc L V VF) as FS.
  split; [apply (carries_ext (avoids f)); [intros t D; exact (FS t _ D)|exact C]|].
  apply (live f g' rn re RN).
  - intros n nd e ed t _ N I K ED TT. apply (VF e ed ED) in K. destruct K as (_ & K). specialize (K t TT).
    destruct (V t (wf_tails g WF e ed t ED TT)) as (b' & B' & VB'). rewrite K in B'. injection B' as <-.
    destruct (proj1 VB' eq_refl) as (u & D & A). exists u. split; [exact D|]. apply (FS u t D). exact A.
  - destruct EX as (t & D & A). exists t. split; [exact D|]. apply (FS t _ D). exact A.
Qed.

Lemma prune_none : forall mask, length mask = length (edges g) -> (forall t, derives g (goal g) t -> ~ avoids mask t) ->
  exists g', PruneEdges mask true g = Pruned g' /\ wf_hg g' /\ topo g' /\ edges g' = [] /\ length (nodes g') = 1.
Proof using WF TP NE.
  intros mask L NX. destruct (reachable_ok mask L) as (sc & R & LS & V).
  unfold PruneEdges. rewrite L, Nat.eqb_refl, R. cbn [negb].
  destruct (V (goal g) goal_lt) as (b & B & VB). rewrite (last_nth _ sc false b) by (rewrite LS; exact B).
  destruct b; [destruct (proj1 VB eq_refl) as (t & D & A); elim (NX t D A)|]. cbn [negb].
  eexists. split; [reflexivity|]. cbn [nodes edges length]. repeat split; try (intros; destruct n; [injection H as <-|destruct n; discriminate]; cbn in *; try tauto; try reflexivity; try (constructor)).
  all: try (intros [|?] ? H; discriminate). all: try (intros [|?] ? ? H; discriminate).
  all: try (intros [|n] nd H; [injection H as <-; reflexivity|destruct n; discriminate]).
  all: try (intros [|n] nd e H; [injection H as <-; intros []|destruct n; discriminate]).
  all: intros [|n] nd H; [injection H as <-; constructor|destruct n; discriminate].
Qed.
End G.
