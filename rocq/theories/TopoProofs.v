From Coq Require Import List Arith Lia Bool Relations ZArith.
From Verif Require Import HG HGProofs Deriv Topo TopoSpec.
Import ListNotations.

Section D.
Context {P : Type}.
Variable prune : option (list bool).
Variable g : hg P.
Hypothesis WF : wf_hg g.
Hypothesis MASK : mask_ok prune g.
Variable goal : nat.
Hypothesis GOAL : goal < length (nodes g).
Local Notation child := (child prune g).
Local Notation reach := (reach prune g).
Local Notation keep := (keep prune).

Lemma pruned_iff : forall e, e < length (edges g) -> (pruned prune e = Some false /\ keep e) \/ (pruned prune e = Some true /\ ~ keep e).
Proof.
  intros e L. unfold pruned, TopoSpec.keep. unfold mask_ok in MASK. destruct prune as [l|]; [|left; auto].
  destruct (nth_error l e) as [[|]|] eqn:E; [right|left|apply nth_error_None in E; lia]; (split; [reflexivity|congruence]).
Qed.

(** ** Invariant *)
Definition black (c : list color) (t : nat) : Prop := nth_error c t = Some Black.
Definition scanned (c : list color) (n ei k : nat) : Prop :=
  forall nd j e ed i t, nth_error (nodes g) n = Some nd -> nth_error (in_edges nd) j = Some e -> keep e ->
    nth_error (edges g) e = Some ed -> nth_error (tails ed) i = Some t -> (j < ei \/ (j = ei /\ i < k)) -> black c t.

Inductive chain (c : list color) : nat -> list ctx -> Prop :=
| chain_goal : nth_error c goal <> Some Black -> chain c goal []
| chain_up : forall top n ei k nd e ed r, nth_error c top = Some Gray ->
    nth_error (nodes g) n = Some nd -> nth_error (in_edges nd) ei = Some e -> keep e -> nth_error (edges g) e = Some ed ->
    nth_error (tails ed) k = Some top -> scanned c n ei k -> chain c n r -> chain c top ((n, ei, S k) :: r).

Definition cnode (x : ctx) : nat := fst (fst x).

Record inv (s : dfs) : Prop := {
  i_col : length (col s) = length (nodes g);
  i_rn : length (rnode s) = length (nodes g);
  i_re : length (redge s) = length (edges g);
  i_chain : chain (col s) (cnode (cur s)) (stack s);
  i_scan : scanned (col s) (fst (fst (cur s))) (snd (fst (cur s))) (snd (cur s));
  i_pos : exists nd, nth_error (nodes g) (fst (fst (cur s))) = Some nd /\ snd (fst (cur s)) <= length (in_edges nd) /\
    forall e ed, nth_error (in_edges nd) (snd (fst (cur s))) = Some e -> nth_error (edges g) e = Some ed -> snd (cur s) <= length (tails ed);
  i_end : forall nd, nth_error (nodes g) (fst (fst (cur s))) = Some nd -> snd (fst (cur s)) = length (in_edges nd) -> snd (cur s) = 0;
  i_gray : forall t, nth_error (col s) t = Some Gray -> t = cnode (cur s) \/ In t (map cnode (stack s));
  i_black : forall t, black (col s) t <-> exists k, nth_error (rnode s) t = Some (Some k);
  i_lt : forall t k, nth_error (rnode s) t = Some (Some k) -> k < ncount s;
  i_inj : forall t t' k, nth_error (rnode s) t = Some (Some k) -> nth_error (rnode s) t' = Some (Some k) -> t = t';
  i_sur : forall k, k < ncount s -> exists t, nth_error (rnode s) t = Some (Some k);
  i_down : forall n m k, nth_error (rnode s) n = Some (Some k) -> child n m -> exists j, nth_error (rnode s) m = Some (Some j) /\ j < k;
  i_reach : forall t, black (col s) t -> reach goal t;
  i_redge : forall e, (exists k, nth_error (redge s) e = Some (Some k)) <-> keep e /\ exists n nd, black (col s) n /\ nth_error (nodes g) n = Some nd /\ In e (in_edges nd)
}.

Lemma chain_reach : forall c top st, chain c top st -> reach goal top.
Proof.
  intros c top st C. induction C as [|top n ei k nd e ed r G N E K ED T S C IH]; [apply rt_refl|].
  eapply rt_trans; [exact IH|]. apply rt_step. exists nd, e, ed. repeat split; auto; eapply nth_error_In; eassumption.
Qed.
Lemma chain_path : forall c top st, chain c top st -> forall t, In t (map cnode st) -> clos_trans nat child t top.
Proof.
  intros c top st C. induction C as [|top n ei k nd e ed r G N E K ED T S C IH]; intros t I; [destruct I|].
  assert (CH : child n top) by (exists nd, e, ed; repeat split; auto; eapply nth_error_In; eassumption).
  destruct I as [<-|I]; [apply t_step; exact CH|]. eapply t_trans; [apply IH; exact I|apply t_step; exact CH].
Qed.
Lemma chain_bound : forall c top st, chain c top st -> top < length (nodes g) /\ forall x, In x st -> cnode x < length (nodes g).
Proof.
  intros c top st C. induction C as [|top n ei k nd e ed r G N E K ED T S C [IH1 IH2]]; [split; [exact GOAL|intros x []]|].
  split; [apply (wf_tails g WF e ed top ED), (nth_error_In _ _ T)|]. intros x [<-|I]; [exact IH1|apply IH2, I].
Qed.
Lemma chain_notblack : forall c top st, chain c top st -> nth_error c top <> Some Black.
Proof. intros c top st C. destruct C; congruence. Qed.

(** Colours change: [t] from white to gray. *)
Lemma chain_gray : forall c c' t top st, nth_error c t = Some White -> (forall j, nth_error c' j = if t =? j then Some Gray else nth_error c j) ->
  chain c top st -> chain c' top st.
Proof.
  intros c c' t top st WT U C.
  assert (SC : forall n ei k, scanned c n ei k -> scanned c' n ei k).
  { intros n ei k S nd j e ed i u H1 H2 H3 H4 H5 H6. specialize (S nd j e ed i u H1 H2 H3 H4 H5 H6). unfold black in *. rewrite U.
    destruct (Nat.eqb_spec t u) as [<-|NE]; [congruence|exact S]. }
  induction C as [NB|top n ei k nd e ed r G N E K ED T S C IH].
  - apply chain_goal. rewrite U. destruct (t =? goal); [discriminate|exact NB].
  - eapply chain_up; eauto. rewrite U. destruct (Nat.eqb_spec t top); [reflexivity|exact G].
Qed.
(** [n], all of whose children are black, from not black to black. *)
Lemma chain_black : forall c c' n top st, (forall m, child n m -> black c m) ->
  (forall j, nth_error c' j = if n =? j then Some Black else nth_error c j) ->
  (forall t, black c t -> black c' t) ->
  chain c top st -> top <> n -> chain c' top st.
Proof.
  intros c c' n top st CH U MON C NT.
  induction C as [NB|top n' ei k nd e ed r G N E K ED T S C IH].
  - apply chain_goal. rewrite U. destruct (Nat.eqb_spec n goal); [congruence|exact NB].
  - assert (NN : n' <> n).
    { intros ->. assert (X : black c top) by (apply CH; exists nd, e, ed; repeat split; auto; eapply nth_error_In; eassumption). unfold black in X. congruence. }
    eapply chain_up; eauto.
    + rewrite U. destruct (Nat.eqb_spec n top); [congruence|exact G].
    + intros nd0 j e0 ed0 i t H1 H2 H3 H4 H5 H6. apply MON. exact (S nd0 j e0 ed0 i t H1 H2 H3 H4 H5 H6).
Qed.

Lemma set_redges_spec : forall es re ec, length re = length (edges g) -> (forall e, In e es -> e < length (edges g)) ->
  exists re' ec', set_redges prune es re ec = Some (re', ec') /\ length re' = length re /\
    forall x, (exists k, nth_error re' x = Some (Some k)) <-> (exists k, nth_error re x = Some (Some k)) \/ (In x es /\ keep x).
Proof.
  induction es as [|e r IH]; intros re ec L H; cbn [set_redges].
  - exists re, ec. split; [reflexivity|]. split; [reflexivity|]. intros x. split; [left; assumption|]. intros [X|[[] _]]; exact X.
  - destruct (pruned_iff e (H e (or_introl eq_refl))) as [(-> & K)|(-> & K)].
    + destruct (upd_total _ re e (fun _ => Some ec)) as (re1 & U); [rewrite L; apply H; left; reflexivity|]. rewrite U.
      pose proof (upd_length _ _ _ _ _ U) as L1. destruct (IH re1 (S ec)) as (re' & ec' & R & L' & V); [lia|intros x X; apply H; right; exact X|].
      exists re', ec'. split; [exact R|]. split; [lia|]. intros x. rewrite V, (upd_nth _ _ _ _ _ x U).
      destruct (Nat.eqb_spec e x) as [->|NE].
      * split; [intros _; right; split; [left; reflexivity|exact K]|]. intros _. left. exists ec.
        destruct (nth_error re x) eqn:Q; [reflexivity|]. apply nth_error_None in Q. specialize (H x (or_introl eq_refl)). lia.
      * cbn [In]. intuition congruence.
    + destruct (IH re ec L) as (re' & ec' & R & L' & V); [intros x X; apply H; right; exact X|].
      exists re', ec'. split; [exact R|]. split; [exact L'|]. intros x. rewrite V. cbn [In]. intuition (subst; contradiction).
Qed.

(** ** Preservation *)
Definition result_ok (rn re : list (option nat)) : Prop :=
  length rn = length (nodes g) /\ length re = length (edges g) /\
  (forall n, (exists k, nth_error rn n = Some (Some k)) <-> reach goal n) /\
  (forall t t' k, nth_error rn t = Some (Some k) -> nth_error rn t' = Some (Some k) -> t = t') /\
  (exists N, nth_error rn goal = Some (Some N) /\ forall k, k < S N <-> exists t, nth_error rn t = Some (Some k)) /\
  (forall n m k, nth_error rn n = Some (Some k) -> child n m -> exists j, nth_error rn m = Some (Some j) /\ j < k) /\
  (forall e, (exists k, nth_error re e = Some (Some k)) <-> keep e /\ exists n nd, reach goal n /\ nth_error (nodes g) n = Some nd /\ In e (in_edges nd)).

Lemma init_inv : inv (init g goal).
Proof.
  assert (RW : forall j, nth_error (repeat White (length (nodes g))) j <> Some Black).
  { intros j E. apply nth_error_In, repeat_spec in E. discriminate. }
  assert (RN : forall n j k, nth_error (repeat (@None nat) n) j <> Some (Some k)).
  { intros n j k E. apply nth_error_In, repeat_spec in E. discriminate. }
  constructor; cbn.
  - apply repeat_length.
  - apply repeat_length.
  - apply repeat_length.
  - apply chain_goal, RW.
  - intros nd j e ed i t H1 H2 H3 H4 H5 [H|[_ H]]; lia.
  - destruct (nth_error (nodes g) goal) as [nd|] eqn:E; [|apply nth_error_None in E; lia]. exists nd. split; [reflexivity|]. split; [lia|]. intros; lia.
  - reflexivity.
  - intros t E. apply nth_error_In, repeat_spec in E. discriminate.
  - intros t. split; [intros E; destruct (RW t E)|intros (k & E); destruct (RN _ _ _ E)].
  - intros t k E. destruct (RN _ _ _ E).
  - intros t t' k E. destruct (RN _ _ _ E).
  - intros k L. lia.
  - intros n m k E. destruct (RN _ _ _ E).
  - intros t E. destruct (RW t E).
  - intros e. split; [intros (k & E); destruct (RN _ _ _ E)|intros (_ & n & nd & E & _); destruct (RW n E)].
Qed.

Lemma step_inv : forall s, inv s ->
  match step prune g s with
  | Next s' => inv s'
  | Done rn re => result_ok rn re
  | Cycle => cycle_below prune g goal
  | Oob => False
  end.
Proof.
  intros s I. destruct s as [[[n ei] ti] st c rn re nc ec]. unfold step. cbn [cur stack col rnode redge ncount ecount].
  destruct I as [Ic Ir Ie Ich Isc Ipos Iend Igr Ibl Ilt Iinj Isur Idn Irch Ire]. unfold cnode in *. cbn [cur stack col rnode redge ncount ecount fst snd] in *.
  destruct Ipos as (nd & N & EIL & TIL). rewrite N.
  assert (LN : n < length (nodes g)) by (apply nth_error_Some; congruence).
  assert (INR : forall e, In e (in_edges nd) -> e < length (edges g)).
  { intros e E. destruct (wf_in g WF n nd e N E) as (ed & ED & _). apply nth_error_Some. congruence. }
  destruct (Nat.eqb_spec ei (length (in_edges nd))) as [->|NE].
  - (* the node is finished *)
    destruct (upd_total _ c n (fun _ => Black)) as (c' & UC); [lia|]. rewrite UC.
    destruct (upd_total _ rn n (fun _ => Some nc)) as (rn' & UR); [lia|]. rewrite UR.
    destruct (set_redges_spec (in_edges nd) re ec Ie INR) as (re' & ec' & RE & LRE & VRE). rewrite RE.
    pose proof (upd_length _ _ _ _ _ UC) as LC. pose proof (upd_length _ _ _ _ _ UR) as LR.
    assert (NB : nth_error c n <> Some Black) by exact (chain_notblack _ _ _ Ich).
    assert (CN : forall j, nth_error c' j = if n =? j then Some Black else nth_error c j).
    { intros j. rewrite (upd_nth _ _ _ _ _ j UC). destruct (Nat.eqb_spec n j) as [<-|]; [|reflexivity]. destruct (nth_error c n) eqn:Q; [reflexivity|apply nth_error_None in Q; lia]. }
    assert (RN : forall j, nth_error rn' j = if n =? j then Some (Some nc) else nth_error rn j).
    { intros j. rewrite (upd_nth _ _ _ _ _ j UR). destruct (Nat.eqb_spec n j) as [<-|]; [|reflexivity]. destruct (nth_error rn n) eqn:Q; [reflexivity|apply nth_error_None in Q; lia]. }
    assert (MON : forall t, black c t -> black c' t).
    { intros t B. unfold black. rewrite CN. destruct (n =? t); [reflexivity|exact B]. }
    assert (CHB : forall m, child n m -> black c m).
    { intros m (nd' & e & ed & N' & E & K & ED & M). rewrite N in N'. injection N' as <-. destruct (In_nth_error _ _ E) as (j & J). destruct (In_nth_error _ _ M) as (i & T).
      apply (Isc nd j e ed i m N J K ED T). left. apply nth_error_Some. congruence. }
    assert (RNN : forall k, nth_error rn n <> Some (Some k)) by (intros k Q; apply NB, Ibl; exists k; exact Q).
    assert (RO : reach goal n) by exact (chain_reach _ _ _ Ich).
    (* facts about the new tables *)
    assert (Ibl' : forall t, black c' t <-> exists k, nth_error rn' t = Some (Some k)).
    { intros t. unfold black. rewrite CN, RN. destruct (n =? t); [split; [intros _; exists nc; reflexivity|reflexivity]|apply Ibl]. }
    assert (Ilt' : forall t k, nth_error rn' t = Some (Some k) -> k < S nc).
    { intros t k. rewrite RN. destruct (n =? t); intros Q; [injection Q as <-; lia|specialize (Ilt t k Q); lia]. }
    assert (Iinj' : forall t t' k, nth_error rn' t = Some (Some k) -> nth_error rn' t' = Some (Some k) -> t = t').
    { intros t t' k. rewrite !RN. destruct (Nat.eqb_spec n t), (Nat.eqb_spec n t'); intros Q Q'; try congruence.
      - injection Q as <-. specialize (Ilt t' nc Q'). lia.
      - injection Q' as <-. specialize (Ilt t nc Q). lia.
      - exact (Iinj t t' k Q Q'). }
    assert (Isur' : forall k, k < S nc -> exists t, nth_error rn' t = Some (Some k)).
    { intros k L. destruct (Nat.eq_dec k nc) as [->|NK]; [exists n; rewrite RN, Nat.eqb_refl; reflexivity|].
      destruct (Isur k ltac:(lia)) as (t & Q). exists t. rewrite RN. destruct (Nat.eqb_spec n t) as [<-|]; [destruct (RNN _ Q)|exact Q]. }
    assert (Idn' : forall x m k, nth_error rn' x = Some (Some k) -> child x m -> exists j, nth_error rn' m = Some (Some j) /\ j < k).
    { intros x m k. rewrite RN. destruct (Nat.eqb_spec n x) as [<-|]; intros Q CH.
      - injection Q as <-. destruct (proj1 (Ibl m) (CHB m CH)) as (j & J). exists j. split; [|exact (Ilt m j J)].
        rewrite RN. destruct (Nat.eqb_spec n m) as [<-|]; [destruct (RNN _ J)|exact J].
      - destruct (Idn x m k Q CH) as (j & J & L). exists j. split; [|exact L]. rewrite RN. destruct (Nat.eqb_spec n m) as [<-|]; [destruct (RNN _ J)|exact J]. }
    assert (Irch' : forall t, black c' t -> reach goal t).
    { intros t. unfold black. rewrite CN. destruct (Nat.eqb_spec n t) as [<-|]; intros Q; [exact RO|exact (Irch t Q)]. }
    assert (Ire' : forall e, (exists k, nth_error re' e = Some (Some k)) <-> keep e /\ exists n nd, black c' n /\ nth_error (nodes g) n = Some nd /\ In e (in_edges nd)).
    { intros e. rewrite VRE, Ire. split.
      - intros [(K & x & xd & B & X & E)|(E & K)]; (split; [exact K|]); [exists x, xd; auto|exists n, nd; split; [|auto]; unfold black; rewrite CN, Nat.eqb_refl; reflexivity].
      - intros (K & x & xd & B & X & E). unfold black in B. rewrite CN in B. destruct (Nat.eqb_spec n x) as [<-|].
        + right. rewrite N in X. injection X as <-. auto.
        + left. split; [exact K|]. exists x, xd. auto. }
    destruct st as [|p r].
    + (* done *)
      inversion Ich; subst. unfold result_ok. split; [lia|]. split; [lia|].
      assert (DOM : forall x, (exists k, nth_error rn' x = Some (Some k)) <-> reach goal x).
      { intros x. split; [intros Q; apply Irch', Ibl', Q|]. intros RX.
        assert (G0 : exists k, nth_error rn' goal = Some (Some k)) by (exists nc; rewrite RN, Nat.eqb_refl; reflexivity).
        clear - RX G0 Idn'. apply Operators_Properties.clos_rt_rtn1 in RX. induction RX as [|y z C RX IH]; [exact G0|].
        destruct IH as (k & K). destruct (Idn' y z k K C) as (j & J & _). exists j. exact J. }
      split; [exact DOM|]. split; [exact Iinj'|]. split.
      * exists nc. split; [rewrite RN, Nat.eqb_refl; reflexivity|]. intros k. split; [exact (Isur' k)|intros (t & Q); exact (Ilt' t k Q)].
      * split; [exact Idn'|]. intros e. rewrite Ire'. split; intros (K & x & xd & B & X); (split; [exact K|]); exists x, xd; (split; [|exact X]); [apply Irch', B|].
        apply Ibl', DOM, B.
    + inversion Ich as [|top n' ei' k nd' e' ed' r' G' N' E' K' ED' T' S' C']; subst.
      assert (NN : n' <> n).
      { intros ->. assert (X : black c n) by (apply CHB; exists nd', e', ed'; repeat split; auto; eapply nth_error_In; eassumption). exact (NB X). }
      constructor; cbn [cur stack col rnode redge ncount ecount fst snd]; unfold cnode; cbn [fst snd]; auto.
      * lia.
      * lia.
      * lia.
      * apply (chain_black c c' n n' r CHB CN MON C' NN).
      * intros nd0 j e0 ed0 i t H1 H2 H3 H4 H5 H6. rewrite N' in H1. injection H1 as <-.
        destruct H6 as [H6|[-> H6]]; [apply MON, (S' nd' j e0 ed0 i t N' H2 H3 H4 H5); left; exact H6|].
        destruct (Nat.eq_dec i k) as [->|NK]; [|apply MON, (S' nd' ei' e0 ed0 i t N' H2 H3 H4 H5); right; split; [reflexivity|lia]].
        assert (e0 = e') by congruence. subst e0. assert (ed0 = ed') by congruence. subst ed0. assert (t = n) by congruence. subst t.
        unfold black. rewrite CN, Nat.eqb_refl. reflexivity.
      * exists nd'. split; [exact N'|]. split; [apply Nat.lt_le_incl, nth_error_Some; congruence|].
        intros e0 ed0 X Y. assert (e0 = e') by congruence. subst e0. assert (ed0 = ed') by congruence. subst ed0. apply nth_error_Some. congruence.
      * intros ndx X Y. assert (ei' < length (in_edges nd')) by (apply nth_error_Some; congruence). rewrite N' in X. injection X as <-. lia.
      * intros t. rewrite CN. destruct (Nat.eqb_spec n t) as [<-|NT]; [discriminate|]. intros Q. destruct (Igr t Q) as [->|[X|X]]; [congruence|left; symmetry; exact X|right; exact X].
  - destruct (nth_error (in_edges nd) ei) as [e|] eqn:E; [|apply nth_error_None in E; lia].
    assert (EI : In e (in_edges nd)) by exact (nth_error_In _ _ E).
    destruct (nth_error (edges g) e) as [ed|] eqn:ED; [|apply nth_error_None in ED; specialize (INR e EI); lia].
    specialize (TIL e ed eq_refl ED).
    assert (SKIP : (length (tails ed) = ti \/ ~ keep e) -> inv {| cur := (n, S ei, 0); stack := st; col := c; rnode := rn; redge := re; ncount := nc; ecount := ec |}).
    { intros SK. constructor; cbn [cur stack col rnode redge ncount ecount fst snd]; unfold cnode; cbn [fst snd]; auto.
      - intros nd0 j e0 ed0 i t H1 H2 H3 H4 H5 [H6|[_ H6]]; [|lia]. rewrite N in H1. injection H1 as <-.
        destruct (Nat.eq_dec j ei) as [->|NJ]; [|apply (Isc nd j e0 ed0 i t N H2 H3 H4 H5); left; lia].
        assert (e0 = e) by congruence. subst e0. assert (ed0 = ed) by congruence. subst ed0. destruct SK as [SK|SK]; [|contradiction].
        apply (Isc nd ei e ed i t N H2 H3 H4 H5). right. split; [reflexivity|]. rewrite <- SK. apply nth_error_Some. congruence.
      - exists nd. split; [exact N|]. split; [lia|]. intros; lia. }
    destruct (Nat.eqb_spec (length (tails ed)) ti) as [TE|TE]; [apply SKIP; left; exact TE|].
    rewrite (wf_eid g WF e ed ED).
    destruct (pruned_iff e (INR e EI)) as [(-> & K)|(-> & K)]; [|apply SKIP; right; exact K].
    destruct (nth_error (tails ed) ti) as [t|] eqn:T; [|apply nth_error_None in T; lia].
    assert (LT : t < length (nodes g)) by exact (wf_tails g WF e ed t ED (nth_error_In _ _ T)).
    destruct (nth_error c t) as [[| |]|] eqn:CT; [| | |apply nth_error_None in CT; lia].
    + (* white *)
      destruct (upd_total _ c t (fun _ => Gray)) as (c' & UC); [lia|]. rewrite UC.
      pose proof (upd_length _ _ _ _ _ UC) as LC.
      assert (CN : forall j, nth_error c' j = if t =? j then Some Gray else nth_error c j).
      { intros j. rewrite (upd_nth _ _ _ _ _ j UC). destruct (Nat.eqb_spec t j) as [<-|]; [|reflexivity]. rewrite CT. reflexivity. }
      assert (BB : forall x, black c' x <-> black c x).
      { intros x. unfold black. rewrite CN. destruct (Nat.eqb_spec t x) as [<-|]; [|tauto]. rewrite CT. split; discriminate. }
      constructor; cbn [cur stack col rnode redge ncount ecount fst snd]; unfold cnode; cbn [fst snd]; auto.
      * lia.
      * eapply chain_up; try eassumption.
        -- rewrite CN, Nat.eqb_refl. reflexivity.
        -- intros nd0 j e0 ed0 i x H1 H2 H3 H4 H5 H6. apply BB. exact (Isc nd0 j e0 ed0 i x H1 H2 H3 H4 H5 H6).
        -- exact (chain_gray c c' t n st CT CN Ich).
      * intros nd0 j e0 ed0 i x H1 H2 H3 H4 H5 [H6|[_ H6]]; lia.
      * destruct (nth_error (nodes g) t) as [td|] eqn:Q; [|apply nth_error_None in Q; lia]. exists td. split; [reflexivity|]. split; [lia|]. intros; lia.
      * intros x. rewrite CN. destruct (Nat.eqb_spec t x) as [<-|]; [left; reflexivity|]. intros Q. right. cbn [map]. destruct (Igr x Q) as [->|X]; [left; reflexivity|right; exact X].
      * intros x. rewrite BB. apply Ibl.
      * intros x B. apply Irch, BB, B.
      * intros x. rewrite Ire. split; intros (K' & y & yd & B & Y); (split; [exact K'|]); exists y, yd; (split; [apply BB, B|exact Y]).
    + (* gray *)
      assert (CH : child n t) by (exists nd, e, ed; repeat split; auto; eapply nth_error_In; eassumption).
      exists t. destruct (Igr t CT) as [->|X].
      * split; [exact (chain_reach _ _ _ Ich)|apply t_step; exact CH].
      * split; [|eapply t_trans; [exact (chain_path _ _ _ Ich t X)|apply t_step; exact CH]].
        eapply rt_trans; [exact (chain_reach _ _ _ Ich)|apply rt_step; exact CH].
    + (* black *)
      constructor; cbn [cur stack col rnode redge ncount ecount fst snd]; unfold cnode; cbn [fst snd]; auto.
      * intros nd0 j e0 ed0 i x H1 H2 H3 H4 H5 H6. rewrite N in H1. injection H1 as <-.
        destruct H6 as [H6|[-> H6]]; [apply (Isc nd j e0 ed0 i x N H2 H3 H4 H5); left; exact H6|].
        destruct (Nat.eq_dec i ti) as [->|NK]; [|apply (Isc nd ei e0 ed0 i x N H2 H3 H4 H5); right; split; [reflexivity|lia]].
        assert (e0 = e) by congruence. subst e0. assert (ed0 = ed) by congruence. subst ed0. assert (x = t) by congruence. subst x. exact CT.
      * exists nd. split; [exact N|]. split; [exact EIL|]. intros e0 ed0 X Y. assert (e0 = e) by congruence. subst e0. assert (ed0 = ed) by congruence. subst ed0. apply nth_error_Some. congruence.
      * intros ndx X Y. rewrite N in X. injection X as <-. contradiction.
Qed.

(** ** Termination *)
Fixpoint wsum (c : list color) (ns : list node) : nat :=
  match c, ns with
  | White :: c', nd :: ns' => node_cost g nd + wsum c' ns'
  | _ :: c', _ :: ns' => wsum c' ns'
  | _, _ => 0
  end.
Definition rem (x : ctx) : nat :=
  match nth_error (nodes g) (fst (fst x)) with
  | Some nd => S (edges_cost g (skipn (snd (fst x)) (in_edges nd))) - snd x
  | None => 0
  end.
Fixpoint rems (l : list ctx) : nat := match l with [] => 0 | x :: r => rem x + rems r end.
Definition measure (s : dfs) : nat := wsum (col s) (nodes g) + rem (cur s) + rems (stack s).

Lemma wsum_gray : forall c ns t nd c', nth_error c t = Some White -> nth_error ns t = Some nd -> upd c t (fun _ => Gray) = Some c' ->
  wsum c ns = node_cost g nd + wsum c' ns.
Proof.
  induction c as [|x c IH]; intros ns [|t] nd c' W N U; cbn in *; try discriminate; destruct ns as [|y ns]; try discriminate.
  - injection W as ->. injection N as ->. injection U as <-. reflexivity.
  - destruct (upd c t (fun _ => Gray)) as [c1|] eqn:Q; [|discriminate]. injection U as <-. cbn in N.
    specialize (IH ns t nd c1 W N Q). destruct x; cbn; lia.
Qed.
Lemma wsum_black : forall c ns t c', upd c t (fun _ => Black) = Some c' -> wsum c' ns <= wsum c ns.
Proof.
  induction c as [|x c IH]; intros ns [|t] c' U; cbn in *; try discriminate.
  - injection U as <-. destruct ns; cbn; destruct x; lia.
  - destruct (upd c t (fun _ => Black)) as [c1|] eqn:Q; [|discriminate]. injection U as <-. destruct ns as [|y ns]; cbn; [destruct x; lia|].
    specialize (IH ns t c1 Q). destruct x; lia.
Qed.
Lemma skipn_cost : forall es i e, nth_error es i = Some e -> edges_cost g (skipn i es) = edge_cost g e + edges_cost g (skipn (S i) es).
Proof. induction es as [|x r IH]; intros [|i] e H; try discriminate; [injection H as ->; reflexivity|]. exact (IH i e H). Qed.

Lemma step_measure : forall s s', inv s -> step prune g s = Next s' -> measure s' < measure s.
Proof.
  intros s s' I R. destruct s as [[[n ei] ti] st c rn re nc ec]. unfold step in R. cbn [cur stack col rnode redge ncount ecount] in R.
  destruct I as [Ic Ir Ie Ich Isc Ipos Iend Igr Ibl Ilt Iinj Isur Idn Irch Ire]. unfold cnode in *. cbn [cur stack col rnode redge ncount ecount fst snd] in *.
  destruct Ipos as (nd & N & EIL & TIL). rewrite N in R. unfold measure.
  destruct (Nat.eqb_spec ei (length (in_edges nd))) as [->|NE].
  - destruct (upd c n (fun _ => Black)) as [c'|] eqn:UC; [|discriminate]. destruct (upd rn n (fun _ => Some nc)); [|discriminate].
    destruct (set_redges prune (in_edges nd) re ec) as [[re' ec']|]; [|discriminate]. destruct st as [|p r]; [discriminate|]. injection R as <-.
    cbn [cur stack col rems]. pose proof (wsum_black c (nodes g) n c' UC).
    assert (1 <= rem (n, length (in_edges nd), ti)) by (unfold rem; cbn [fst snd]; rewrite N, (Iend nd N eq_refl); lia). lia.
  - destruct (nth_error (in_edges nd) ei) as [e|] eqn:E; [|discriminate]. destruct (nth_error (edges g) e) as [ed|] eqn:ED; [|discriminate].
    specialize (TIL e ed eq_refl ED). pose proof (skipn_cost (in_edges nd) ei e E) as SC.
    assert (EC : edge_cost g e = S (length (tails ed))) by (unfold edge_cost; rewrite ED; reflexivity).
    assert (SK : forall s', Next {| cur := (n, S ei, 0); stack := st; col := c; rnode := rn; redge := re; ncount := nc; ecount := ec |} = Next s' ->
      wsum (col s') (nodes g) + rem (cur s') + rems (stack s') < wsum c (nodes g) + rem (n, ei, ti) + rems st).
    { intros s0 Q. injection Q as <-. cbn [cur stack col]. unfold rem. cbn [fst snd]. rewrite N. lia. }
    destruct (Nat.eqb_spec (length (tails ed)) ti) as [LE|LE]; [exact (SK s' R)|].
    destruct (pruned prune (eid ed)) as [[|]|]; [exact (SK s' R)| |discriminate]. clear SK.
    destruct (nth_error (tails ed) ti) as [t|] eqn:T; [|discriminate].
    destruct (nth_error c t) as [[| |]|] eqn:CT; try discriminate.
    + destruct (upd c t (fun _ => Gray)) as [c'|] eqn:UC; [|discriminate]. injection R as <-. cbn [cur stack col rems].
      assert (LT : t < length (nodes g)) by exact (wf_tails g WF e ed t ED (nth_error_In _ _ T)).
      destruct (nth_error (nodes g) t) as [td|] eqn:Q; [|apply nth_error_None in Q; lia].
      rewrite (wsum_gray c (nodes g) t td c' CT Q UC). unfold rem. cbn [fst snd]. rewrite N, Q. cbn [skipn]. unfold node_cost. lia.
    + injection R as <-. cbn [cur stack col]. unfold rem. cbn [fst snd]. rewrite N. lia.
Qed.

Lemma steps_ok : forall fuel s, inv s -> measure s < fuel ->
  match steps prune g fuel s with DDone rn re => result_ok rn re | DCycle => cycle_below prune g goal | DOob => False | DFuel => False end.
Proof.
  induction fuel as [|f IH]; intros s I L; [lia|]. cbn [steps]. pose proof (step_inv s I) as S1. pose proof (step_measure s) as M.
  destruct (step prune g s) as [s'|rn re| |]; auto. apply IH; [exact S1|]. specialize (M s' I eq_refl). lia.
Qed.

Lemma wsum_all : forall ns k, k = length ns -> wsum (repeat White k) ns = nodes_cost g ns.
Proof. induction ns as [|x r IH]; intros k ->; [reflexivity|]. cbn [length repeat wsum nodes_cost]. f_equal. apply IH. reflexivity. Qed.
Lemma node_cost_in : forall ns n nd, nth_error ns n = Some nd -> node_cost g nd <= nodes_cost g ns.
Proof. induction ns as [|x r IH]; intros [|n] nd H; try discriminate; cbn [nodes_cost]; [injection H as ->; lia|]. specialize (IH n nd H). lia. Qed.

Lemma search_ok :
  match search prune g goal with DDone rn re => result_ok rn re | DCycle => cycle_below prune g goal | DOob => False | DFuel => False end.
Proof.
  unfold search. apply steps_ok; [exact init_inv|]. unfold measure, init. cbn [col cur stack rems]. rewrite wsum_all by reflexivity.
  unfold rem. cbn [fst snd skipn]. destruct (nth_error (nodes g) goal) as [nd|] eqn:E; [|lia].
  pose proof (node_cost_in _ _ _ E) as Q. unfold node_cost in Q. lia.
Qed.

Lemma result_acyclic : forall rn re, result_ok rn re -> ~ cycle_below prune g goal.
Proof.
  intros rn re (_ & _ & DOM & _ & _ & DN & _) (n & R & C).
  assert (H : forall x y, clos_trans nat child x y -> forall k, nth_error rn x = Some (Some k) -> exists j, nth_error rn y = Some (Some j) /\ j < k).
  { intros x y Q. induction Q as [x y Q|x y z Q1 IH1 Q2 IH2]; intros k K; [exact (DN x y k K Q)|].
    destruct (IH1 k K) as (j & J & L). destruct (IH2 j J) as (i & I & L'). exists i. split; [exact I|lia]. }
  destruct (proj2 (DOM n) R) as (k & K). destruct (H n n C k K) as (j & J & L). rewrite K in J. injection J as <-. lia.
Qed.
End D.

(** ** Sorting by distinct keys *)
Fixpoint strictly (l : list nat) : Prop :=
  match l with [] => True | x :: r => (forall y, In y r -> x < y) /\ strictly r end.
Lemma strictly_unique : forall l l', strictly l -> strictly l' -> (forall x, In x l <-> In x l') -> l = l'.
Proof.
  induction l as [|x r IH]; intros [|y r'] S S' H; [reflexivity|destruct (proj2 (H y) (or_introl eq_refl))|destruct (proj1 (H x) (or_introl eq_refl))|].
  destruct S as [S1 S2], S' as [S1' S2'].
  assert (x = y).
  { destruct (proj1 (H x) (or_introl eq_refl)) as [E|E]; [congruence|]. destruct (proj2 (H y) (or_introl eq_refl)) as [E'|E']; [congruence|].
    specialize (S1 y E'). specialize (S1' x E). lia. }
  subst y. f_equal. apply IH; auto. intros z. specialize (H z). cbn in H. split; intros Z.
  - destruct (proj1 H (or_intror Z)) as [->|Q]; [specialize (S1 z Z); lia|exact Q].
  - destruct (proj2 H (or_intror Z)) as [->|Q]; [specialize (S1' z Z); lia|exact Q].
Qed.
Lemma strictly_seq : forall m a, strictly (seq a m).
Proof. induction m as [|m IH]; intros a; cbn; [trivial|]. split; [|apply IH]. intros y Y. apply in_seq in Y. lia. Qed.

Section Sort.
Context {A : Type}.
Variable key : A -> nat.
Lemma insert_in : forall x l y, In y (insert key x l) <-> y = x \/ In y l.
Proof.
  intros x l. induction l as [|z r IH]; intros y; cbn [insert In]; [intuition|]. destruct (key z <? key x); cbn [In]; [rewrite IH|]; intuition.
Qed.
Lemma sort_in : forall l y, In y (sort_by key l) <-> In y l.
Proof. induction l as [|x r IH]; intros y; cbn; [tauto|]. rewrite insert_in, IH. intuition. Qed.
Lemma insert_strictly : forall x l, ~ In (key x) (map key l) -> strictly (map key l) -> strictly (map key (insert key x l)).
Proof.
  intros x l. induction l as [|z r IH]; intros NI S; cbn [insert]; [cbn; split; [intros y []|trivial]|].
  cbn in NI, S. destruct S as [S1 S2]. destruct (Nat.ltb_spec (key z) (key x)) as [L|L]; cbn [map strictly].
  - split; [|apply IH; tauto]. intros y Y. apply in_map_iff in Y. destruct Y as (w & <- & W). apply insert_in in W. destruct W as [->|W]; [exact L|apply S1, in_map, W].
  - assert (key x < key z) by (destruct (Nat.eq_dec (key z) (key x)); [tauto|lia]).
    split; [|split; [exact S1|exact S2]]. intros y [<-|Y]; [assumption|]. specialize (S1 y Y). lia.
Qed.
Lemma sort_strictly : forall l, NoDup (map key l) -> strictly (map key (sort_by key l)).
Proof.
  induction l as [|x r IH]; intros ND; cbn; [trivial|]. inversion ND as [|? ? NI ND']; subst. apply insert_strictly; [|apply IH, ND'].
  intros Q. apply NI. apply in_map_iff in Q. destruct Q as (w & E & W). rewrite <- E. apply in_map. apply sort_in. exact W.
Qed.
Lemma sort_nth : forall l m, NoDup (map key l) -> (forall k, In k (map key l) <-> k < m) ->
  length (sort_by key l) = m /\ forall k x, nth_error (sort_by key l) k = Some x <-> In x l /\ key x = k.
Proof.
  intros l m ND RG.
  assert (Q : map key (sort_by key l) = seq 0 m).
  { apply strictly_unique; [apply sort_strictly, ND|apply strictly_seq|]. intros x. rewrite in_seq, <- (Nat.add_0_l m).
    transitivity (In x (map key l)); [|rewrite RG; lia]. rewrite !in_map_iff. split; intros (w & E & W); exists w; (split; [exact E|apply sort_in; exact W]). }
  assert (KN : forall k x, nth_error (sort_by key l) k = Some x -> key x = k).
  { intros k x H. pose proof (map_nth_error key k _ H) as M. rewrite Q in M. assert (k < m). { rewrite <- (seq_length m 0). apply nth_error_Some. congruence. }
    rewrite (nth_error_nth' _ 0) in M by (rewrite seq_length; assumption). rewrite seq_nth in M by assumption. injection M as M. lia. }
  split; [rewrite <- (map_length key), Q, seq_length; reflexivity|].
  intros k x. split; [intros H; split; [apply sort_in, (nth_error_In _ _ H)|exact (KN k x H)]|].
  intros (I & K). apply sort_in in I. destruct (In_nth_error _ _ I) as (j & J). rewrite <- K, (KN j x J). exact J.
Qed.
End Sort.

(** ** Relocation *)
Definition tab (l : list (option nat)) (x : nat) : option nat := match nth_error l x with Some o => o | None => None end.
Lemma tab_some : forall l x k, tab l x = Some k <-> nth_error l x = Some (Some k).
Proof. intros l x k. unfold tab. destruct (nth_error l x) as [o|]; split; congruence. Qed.

Fixpoint somes (l : list (option nat)) : list nat :=
  match l with [] => [] | Some k :: r => k :: somes r | None :: r => somes r end.
Lemma somes_in : forall l k, In k (somes l) <-> exists i, nth_error l i = Some (Some k).
Proof.
  induction l as [|o r IH]; intros k; cbn; [split; [tauto|intros ([|i] & H); discriminate]|].
  assert (X : (exists i, nth_error (o :: r) i = Some (Some k)) <-> o = Some k \/ In k (somes r)).
  { rewrite IH. split; [intros ([|i] & H); cbn in H; [left; congruence|right; exists i; exact H]|intros [->|(i & H)]; [exists 0; reflexivity|exists (S i); exact H]]. }
  rewrite X. destruct o as [x|]; cbn; [|intuition congruence]. split; intros [H|H]; auto; left; congruence.
Qed.
Lemma somes_nodup : forall l, (forall i j k, nth_error l i = Some (Some k) -> nth_error l j = Some (Some k) -> i = j) -> NoDup (somes l).
Proof.
  induction l as [|o r IH]; intros H; cbn; [constructor|].
  assert (R : NoDup (somes r)). { apply IH. intros i j k I J. specialize (H (S i) (S j) k I J). lia. }
  destruct o as [x|]; [|exact R]. constructor; [|exact R]. intros I. apply somes_in in I. destruct I as (i & I). specialize (H 0 (S i) x eq_refl I). discriminate.
Qed.

Fixpoint keepmap {A B} (f : nat -> A -> B) (rs : list (option nat)) (xs : list A) : list B :=
  match rs, xs with
  | Some k :: r, x :: s => f k x :: keepmap f r s
  | None :: r, _ :: s => keepmap f r s
  | _, _ => []
  end.
Lemma keepmap_in : forall {A B} (f : nat -> A -> B) rs xs y, In y (keepmap f rs xs) <->
  exists i k x, nth_error rs i = Some (Some k) /\ nth_error xs i = Some x /\ y = f k x.
Proof.
  intros A B f. induction rs as [|o r IH]; intros xs y; cbn.
  - split; [tauto|]. intros ([|i] & k & x & H & _); discriminate.
  - destruct xs as [|x s].
    + destruct o; (split; [intros []|intros ([|i] & k & z & _ & H & _); discriminate]).
    + destruct o as [k|]; cbn; rewrite IH; split.
      * intros [<-|(i & j & z & H)]; [exists 0, k, x; auto|exists (S i), j, z; exact H].
      * intros ([|i] & j & z & H1 & H2 & H3); cbn in *; [left; congruence|right; exists i, j, z; auto].
      * intros (i & j & z & H); exists (S i), j, z; exact H.
      * intros ([|i] & j & z & H1 & H2 & H3); cbn in *; [congruence|exists i, j, z; auto].
Qed.
Lemma keepmap_keys : forall {A B} (f : nat -> A -> B) (key : B -> nat), (forall k x, key (f k x) = k) ->
  forall rs xs, length rs = length xs -> map key (keepmap f rs xs) = somes rs.
Proof.
  intros A B f key H. induction rs as [|o r IH]; intros [|x s] L; cbn in *; try discriminate; [reflexivity|].
  destruct o; cbn; [rewrite H; f_equal|]; apply IH; lia.
Qed.

Lemma renumber_length : forall re c, length (renumber re c) = length re.
Proof. induction re as [|[k|] r IH]; intros c; cbn; auto. Qed.
Lemma renumber_dom : forall re c e, (exists k, nth_error (renumber re c) e = Some (Some k)) <-> (exists k, nth_error re e = Some (Some k)).
Proof.
  induction re as [|[k|] r IH]; intros c [|e]; cbn; try tauto; try apply IH.
  - split; intros _; eexists; reflexivity.
Qed.
Lemma renumber_ge : forall re c e k, nth_error (renumber re c) e = Some (Some k) -> c <= k.
Proof.
  induction re as [|[x|] r IH]; intros c [|e] k H; cbn in H; try discriminate.
  - injection H as <-. lia.
  - apply IH in H. lia.
  - apply IH in H. lia.
Qed.
Lemma renumber_order : forall re c e e' k k', nth_error (renumber re c) e = Some (Some k) -> nth_error (renumber re c) e' = Some (Some k') -> e < e' -> k < k'.
Proof.
  induction re as [|[x|] r IH]; intros c [|e] [|e'] k k' H H' L; cbn in H, H'; try discriminate; try lia.
  - injection H as <-. apply renumber_ge in H'. lia.
  - apply (IH _ e e' k k' H H'). lia.
  - apply (IH _ e e' k k' H H'). lia.
Qed.
Lemma renumber_somes : forall re c, somes (renumber re c) = seq c (length (somes re)).
Proof. induction re as [|[x|] r IH]; intros c; cbn; [reflexivity|f_equal; apply IH|apply IH]. Qed.
Lemma renumber_inj : forall re c i j k, nth_error (renumber re c) i = Some (Some k) -> nth_error (renumber re c) j = Some (Some k) -> i = j.
Proof.
  intros re c i j k I J. destruct (Nat.lt_trichotomy i j) as [L|[L|L]]; [|exact L|].
  - pose proof (renumber_order _ _ _ _ _ _ I J L). lia.
  - pose proof (renumber_order _ _ _ _ _ _ J I L). lia.
Qed.

Lemma relocate_eq : forall re es, (forall e, In e es -> e < length re) -> relocate re es = Some (pick (tab re) es).
Proof.
  induction es as [|e r IH]; intros H; [reflexivity|]. cbn [relocate pick flat_map]. rewrite IH by (intros x X; apply H; right; exact X).
  assert (T : tab re e = match nth_error re e with Some o => o | None => None end) by reflexivity. rewrite T.
  destruct (nth_error re e) as [[k|]|] eqn:E; [reflexivity|reflexivity|]. apply nth_error_None in E. specialize (H e (or_introl eq_refl)). lia.
Qed.
Lemma relocate_tails_eq : forall rn ts, (forall e, In e ts -> e < length rn) -> relocate_tails rn ts = Some (map (get (tab rn)) ts).
Proof.
  induction ts as [|e r IH]; intros H; [reflexivity|]. cbn [relocate_tails map]. rewrite IH by (intros x X; apply H; right; exact X).
  assert (T : get (tab rn) e = match nth_error rn e with Some (Some k) => k | _ => 0 end) by (unfold get, tab; destruct (nth_error rn e); reflexivity). rewrite T.
  destruct (nth_error rn e) as [[k|]|] eqn:E; [reflexivity|reflexivity|]. apply nth_error_None in E. specialize (H e (or_introl eq_refl)). lia.
Qed.

Section R.
Context {P : Type}.
Definition new_node (re : list (option nat)) (k : nat) (nd : node) : node :=
  {| nid := k; cat := cat nd; in_edges := pick (tab re) (in_edges nd); out_edges := pick (tab re) (out_edges nd) |}.
Definition new_edge (rn : list (option nat)) (k : nat) (ed : edge P) : edge P :=
  {| head := match head ed with Some h => tab rn h | None => None end; tails := map (get (tab rn)) (tails ed); lab := lab ed; eid := k |}.

Lemma reloc_nodes_eq : forall re rn ns, length rn = length ns ->
  (forall nd e, In nd ns -> In e (in_edges nd) \/ In e (out_edges nd) -> e < length re) ->
  reloc_nodes re rn ns = Some (keepmap (new_node re) rn ns).
Proof.
  intros re. induction rn as [|o r IH]; intros [|nd ns] L H; try discriminate; [reflexivity|]. cbn [reloc_nodes].
  rewrite !relocate_eq by (intros e E; apply (H nd e); [left; reflexivity|auto]).
  rewrite IH; [|cbn in L; lia|intros nd' e I; apply H; right; exact I]. destruct o; reflexivity.
Qed.
Lemma reloc_edges_eq : forall rn re (es : list (edge P)), length re = length es ->
  (forall ed, In ed es -> (exists h, head ed = Some h /\ h < length rn) /\ forall t, In t (tails ed) -> t < length rn) ->
  reloc_edges rn re es = Some (keepmap (new_edge rn) re es).
Proof.
  intros rn. induction re as [|o r IH]; intros [|ed es] L H; try discriminate; [reflexivity|]. cbn [reloc_edges].
  destruct (H ed (or_introl eq_refl)) as ((h & HH & HL) & HT). rewrite HH.
  destruct (nth_error rn h) as [h'|] eqn:Q; [|apply nth_error_None in Q; lia].
  rewrite relocate_tails_eq by exact HT. rewrite IH; [|cbn in L; lia|intros x I; apply H; right; exact I].
  destruct o as [k|]; [|reflexivity]. cbn [keepmap]. f_equal. f_equal. unfold new_edge. rewrite HH. f_equal. unfold tab. rewrite Q. reflexivity.
Qed.

Lemma identity_spec : forall l i, is_identity i l = true -> forall j, j < length l -> nth_error l j = Some (Some (i + j)).
Proof.
  induction l as [|[k|] r IH]; intros i H j L; cbn in H, L; try lia; try discriminate.
  apply andb_true_iff in H. destruct H as (K & H). apply Nat.eqb_eq in K. subst k. destruct j as [|j]; [rewrite Nat.add_0_r; reflexivity|].
  cbn. rewrite (IH (S i) H j) by lia. do 2 f_equal; lia.
Qed.
Lemma pick_id : forall f l, (forall x, In x l -> f x = Some x) -> pick f l = l.
Proof. induction l as [|x r IH]; intros H; [reflexivity|]. cbn. rewrite (H x (or_introl eq_refl)). cbn. f_equal. apply IH. intros y Y. apply H. right. exact Y. Qed.
Lemma get_id : forall f l, (forall x, In x l -> f x = Some x) -> map (get f) l = l.
Proof. induction l as [|x r IH]; intros H; [reflexivity|]. cbn. unfold get at 1. rewrite (H x (or_introl eq_refl)). f_equal. apply IH. intros y Y. apply H. right. exact Y. Qed.

Variable prune : option (list bool).
Variable g : hg P.
Hypothesis WF : wf_hg g.
Hypothesis MASK : mask_ok prune g.
Variable goal : nat.
Hypothesis GOAL : goal < length (nodes g).

Lemma toposort_ok :
  (exists g' rn re, TopoSort goal prune g = Sorted g' /\ ~ cycle_below prune g goal /\ renumbered prune g goal g' rn re) \/
  (TopoSort goal prune g = CycleFound /\ cycle_below prune g goal).
Proof.
  unfold TopoSort. pose proof (search_ok prune g WF MASK goal GOAL) as SO.
  destruct (search prune g goal) as [rn re0| | |]; [|right; auto|destruct SO|destruct SO]. left.
  pose proof (result_acyclic prune g goal GOAL rn re0 SO) as AC.
  destruct SO as (LR & LE & DOM & INJ & (N & GN & RG) & DN & RED).
  set (re := renumber re0 0).
  assert (LRE : length re = length (edges g)) by (unfold re; rewrite renumber_length; exact LE).
  set (ns := keepmap (new_node re) rn (nodes g)). set (es := keepmap (new_edge rn) re (edges g)).
  assert (INR : forall nd e, In nd (nodes g) -> In e (in_edges nd) \/ In e (out_edges nd) -> e < length re).
  { intros nd e I [E|E]; destruct (In_nth_error _ _ I) as (n & Q); rewrite LRE.
    - destruct (wf_in g WF n nd e Q E) as (ed & ED & _). apply nth_error_Some. congruence.
    - exact (wf_out g WF n nd e Q E). }
  assert (EDR : forall ed, In ed (edges g) -> (exists h, head ed = Some h /\ h < length rn) /\ forall t, In t (tails ed) -> t < length rn).
  { intros ed I. destruct (In_nth_error _ _ I) as (e & Q). rewrite LR. split; [exact (wf_head g WF e ed Q)|intros t T; exact (wf_tails g WF e ed t Q T)]. }
  rewrite (reloc_nodes_eq re rn (nodes g) LR INR), (reloc_edges_eq rn re (edges g) LRE EDR). fold ns es.
  assert (RED' : forall e, (exists k, tab re e = Some k) <-> keep prune e /\ exists n nd, reach prune g goal n /\ nth_error (nodes g) n = Some nd /\ In e (in_edges nd)).
  { intros e. rewrite <- RED. unfold re. rewrite <- (renumber_dom re0 0). split; intros (k & K); exists k; apply tab_some, K. }
  assert (DOM' : forall n, (exists k, tab rn n = Some k) <-> reach prune g goal n).
  { intros n. rewrite <- DOM. split; intros (k & K); exists k; apply tab_some, K. }
  assert (COMMON : forall g', 
    (forall k nd', nth_error (nodes g') k = Some nd' <-> exists n nd, nth_error rn n = Some (Some k) /\ nth_error (nodes g) n = Some nd /\ nd' = new_node re k nd) ->
    (forall j ed', nth_error (edges g') j = Some ed' <-> exists e ed, nth_error re e = Some (Some j) /\ nth_error (edges g) e = Some ed /\ ed' = new_edge rn j ed) ->
    renumbered prune g goal g' (tab rn) (tab re)).
  { intros g' NA EA. constructor.
    - exact DOM'.
    - intros n n' k H H'. apply tab_some in H, H'. exact (INJ n n' k H H').
    - apply tab_some. rewrite GN. do 2 f_equal.
      assert (LB : forall k, k < length (nodes g') <-> k < S N).
      { intros k. rewrite RG. split.
        - intros L. destruct (nth_error (nodes g') k) as [nd'|] eqn:Q; [|apply nth_error_None in Q; lia]. apply NA in Q. destruct Q as (n & nd & Q & _). exists n. exact Q.
        - intros (n & Q). apply nth_error_Some. destruct (nth_error (nodes g) n) as [nd|] eqn:E; [|apply nth_error_None in E; assert (n < length rn) by (apply nth_error_Some; congruence); lia].
          rewrite (proj2 (NA k (new_node re k nd))); [discriminate|]. exists n, nd. auto. }
      pose proof (LB N). pose proof (LB (length (nodes g') - 1)). pose proof (LB (length (nodes g'))). lia.
    - intros n m k j C H H'. apply tab_some in H, H'. destruct (DN n m k H C) as (j' & J & L). rewrite J in H'. injection H' as <-. exact L.
    - exact RED'.
    - intros e e' k k' H H' L. apply tab_some in H, H'. exact (renumber_order re0 0 e e' k k' H H' L).
    - intros k nd'. rewrite NA. split; intros (n & nd & H & R); exists n, nd; (split; [apply tab_some; exact H|exact R]).
    - intros j ed'. rewrite EA. split.
      + intros (e & ed & H & E & ->). destruct (wf_head g WF e ed E) as (h & HH & _). exists e, ed, h. split; [apply tab_some, H|]. split; [exact E|]. split; [exact HH|].
        unfold new_edge. rewrite HH. reflexivity.
      + intros (e & ed & h & H & E & HH & ->). exists e, ed. split; [apply tab_some, H|]. split; [exact E|]. unfold new_edge. rewrite HH. reflexivity.
    - intros e k ed H E. destruct (proj1 (RED' e) (ex_intro _ k H)) as (K & n & nd & R & Nn & I).
      destruct (wf_in g WF n nd e Nn I) as (ed2 & E2 & H2). rewrite E in E2. injection E2 as <-. split.
      + destruct (proj2 (DOM' n) R) as (kh & KH). exists n, kh. auto.
      + intros t T. apply DOM'. eapply rt_trans; [exact R|]. apply rt_step. exists nd, e, ed. auto. }
  destruct (is_identity 0 rn && is_identity 0 re) eqn:ID.
  - apply andb_true_iff in ID. destruct ID as (I1 & I2).
    assert (X1 : forall j, j < length (nodes g) -> nth_error rn j = Some (Some j)) by (intros j L; apply (identity_spec rn 0 I1); lia).
    assert (X2 : forall j, j < length (edges g) -> nth_error re j = Some (Some j)) by (intros j L; apply (identity_spec re 0 I2); lia).
    exists g, (tab rn), (tab re). split; [reflexivity|]. split; [exact AC|]. apply COMMON.
    + assert (SAME : forall n nd, nth_error (nodes g) n = Some nd -> new_node re n nd = nd).
      { intros n nd E. unfold new_node. rewrite !pick_id.
        - rewrite <- (wf_nid g WF n nd E). destruct nd; reflexivity.
        - intros x I. apply tab_some, X2. rewrite <- LRE. apply (INR nd x (nth_error_In _ _ E)). auto.
        - intros x I. apply tab_some, X2. rewrite <- LRE. apply (INR nd x (nth_error_In _ _ E)). auto. }
      intros k nd'. split.
      * intros E. exists k, nd'. split; [apply X1, nth_error_Some; congruence|]. split; [exact E|]. symmetry. apply SAME, E.
      * intros (n & nd & H & E & ->). rewrite X1 in H by (apply nth_error_Some; congruence). injection H as ->. rewrite SAME by exact E. exact E.
    + assert (SAME : forall e ed, nth_error (edges g) e = Some ed -> new_edge rn e ed = ed).
      { intros e ed E. destruct (EDR ed (nth_error_In _ _ E)) as ((h & HH & HL) & HT). unfold new_edge. rewrite HH, get_id by (intros x I; apply tab_some, X1; rewrite <- LR; apply HT, I).
        rewrite (proj2 (tab_some rn h h)) by (apply X1; lia). rewrite <- (wf_eid g WF e ed E), <- HH. destruct ed; reflexivity. }
      intros k ed'. split.
      * intros E. exists k, ed'. split; [apply X2, nth_error_Some; congruence|]. split; [exact E|]. symmetry. apply SAME, E.
      * intros (n & nd & H & E & ->). rewrite X2 in H by (apply nth_error_Some; congruence). injection H as ->. rewrite SAME by exact E. exact E.
  - exists {| nodes := sort_by nid ns; edges := sort_by eid es |}, (tab rn), (tab re). split; [reflexivity|]. split; [exact AC|]. apply COMMON; cbn [nodes edges].
    + assert (KEYS : map nid ns = somes rn) by (apply keepmap_keys; [reflexivity|exact LR]).
      destruct (sort_nth nid ns (S N)) as (_ & SN).
      * rewrite KEYS. apply somes_nodup, INJ.
      * intros k. rewrite KEYS, somes_in. symmetry. apply RG.
      * intros k nd'. rewrite SN. unfold ns. rewrite keepmap_in. split.
        -- intros ((i & k' & x & H1 & H2 & ->) & K). cbn in K. subst k'. exists i, x. auto.
        -- intros (n & nd & H1 & H2 & ->). split; [exists n, k, nd; auto|reflexivity].
    + assert (KEYS : map eid es = somes re) by (apply keepmap_keys; [reflexivity|exact LRE]).
      destruct (sort_nth eid es (length (somes re0))) as (_ & SN).
      * rewrite KEYS. apply somes_nodup. apply renumber_inj.
      * intros k. rewrite KEYS. unfold re. rewrite renumber_somes, in_seq. lia.
      * intros k nd'. rewrite SN. unfold es. rewrite keepmap_in. split.
        -- intros ((i & k' & x & H1 & H2 & ->) & K). cbn in K. subst k'. exists i, x. auto.
        -- intros (n & nd & H1 & H2 & ->). split; [exists n, k, nd; auto|reflexivity].
Qed.
End R.
