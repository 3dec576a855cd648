(** Union.v: the sort, and the whole. *)
From Coq Require Import List Arith ZArith Bool Relations Lia.
From Verif Require Import Opt HG HGProofs Deriv Topo TopoSpec TopoProofs TopoDeriv Union UnionSpec UnionProofs.
Import ListNotations.
Local Open Scope nat_scope.
Open Scope opt_scope.

(** ** Closures along a bijection *)
Section C.
Context {A B : Type} (R : A -> A -> Prop) (S : B -> B -> Prop) (H : A -> B -> Prop).
Hypothesis fw : forall a a', R a a' -> exists b b', H a b /\ H a' b' /\ S b b'.
Hypothesis bw : forall b b', S b b' -> exists a a', H a b /\ H a' b' /\ R a a'.
Hypothesis fun_ : forall a b b', H a b -> H a b' -> b = b'.
Hypothesis inj_ : forall a a' b, H a b -> H a' b -> a = a'.
Lemma trans_fw : forall a a', clos_trans A R a a' -> exists b b', H a b /\ H a' b' /\ clos_trans B S b b'.
Proof.
  intros a a' C. induction C as [a a' C|a x a' C1 (b & y & H1 & H2 & H3) C2 (y' & b' & H4 & H5 & H6)].
  - destruct (fw a a' C) as (b & b' & H1 & H2 & H3). exists b, b'. split; [exact H1|]. split; [exact H2|]. apply t_step. exact H3.
  - exists b, b'. split; [exact H1|]. split; [exact H5|]. rewrite (fun_ x y' y H4 H2) in H6. eapply t_trans; eassumption.
Qed.
Lemma refl_fw : forall a a', clos_refl_trans A R a a' -> forall b, H a b -> exists b', H a' b' /\ clos_refl_trans B S b b'.
Proof.
  intros a a' C. induction C as [a a' C|a|a x a' C1 IH1 C2 IH2]; intros b HB.
  - destruct (fw a a' C) as (b1 & b' & H1 & H2 & H3). exists b'. split; [exact H2|]. apply rt_step. rewrite (fun_ a b b1 HB H1). exact H3.
  - exists b. split; [exact HB|apply rt_refl].
  - destruct (IH1 b HB) as (y & HY & C3). destruct (IH2 y HY) as (b' & HB' & C4). exists b'. split; [exact HB'|]. eapply rt_trans; eassumption.
Qed.
End C.

Lemma Forall2_map_some : forall (A B : Type) (f : A -> option B) l m, map f l = map Some m -> Forall2 (fun a b => f a = Some b) l m.
Proof. induction l as [|a l IH]; intros [|b m] E; try discriminate; constructor; cbn in E; injection E as E1 E2; [exact E1|exact (IH m E2)]. Qed.
Lemma nodup_nth : forall (A : Type) (l : list A) i j x, NoDup l -> nth_error l i = Some x -> nth_error l j = Some x -> i = j.
Proof. intros A l i j x ND I J. apply (proj1 (NoDup_nth_error l) ND); [apply nth_error_Some; congruence|congruence]. Qed.
Lemma pick_map : forall f l, (forall x, In x l -> exists k, f x = Some k) -> pick f l = map (get f) l.
Proof. intros f. induction l as [|x l IH]; intros H; [reflexivity|]. cbn [pick flat_map map]. destruct (H x (or_introl eq_refl)) as (k & K). unfold get at 1. rewrite K. cbn [app]. f_equal. apply IH. intros y I. apply H. right. exact I. Qed.

Section S.
Context {X F W : Type}.
Variable close : F -> F -> bool.
Notation L := (ulab X F W).
Variables (g : hg L) (hs : list Z) (goal : nat).
Hypothesis WF : wf_hg g.
Hypothesis LH : length hs = length (nodes g).
Hypothesis ND : NoDup hs.
Hypothesis GB : goal < length (nodes g).
Let gt : hg L := {| nodes := number 0 (nodes g); edges := edges g |}.

Lemma number_nth : forall ns i k, nth_error (number i ns) k = option_map (fun nd => {| nid := nid nd; cat := Z.of_nat (i + k); in_edges := in_edges nd; out_edges := out_edges nd |}) (nth_error ns k).
Proof. induction ns as [|nd ns IH]; intros i [|k]; try reflexivity; cbn [number nth_error option_map]; [rewrite Nat.add_0_r; reflexivity|]. rewrite IH. rewrite Nat.add_succ_l, <- Nat.add_succ_r. reflexivity. Qed.
Lemma number_len : forall ns i, length (number i ns) = length ns.
Proof. induction ns as [|nd ns IH]; intros i; cbn; [reflexivity|]. rewrite IH. reflexivity. Qed.
Lemma gt_node : forall n nd, nth_error (nodes gt) n = Some nd <-> exists nd0, nth_error (nodes g) n = Some nd0 /\ nd = {| nid := nid nd0; cat := Z.of_nat n; in_edges := in_edges nd0; out_edges := out_edges nd0 |}.
Proof.
  intros n nd. unfold gt. cbn [nodes]. rewrite number_nth. destruct (nth_error (nodes g) n) as [nd0|]; cbn [option_map]; split.
  - intros Q. injection Q as <-. exists nd0. split; reflexivity.
  - intros (x & Q & ->). injection Q as <-. reflexivity.
  - discriminate.
  - intros (x & Q & _). discriminate.
Qed.
Lemma gt_wf : wf_hg gt.
Proof.
  split.
  - intros n nd H. apply gt_node in H as (nd0 & H & ->). exact (wf_nid g WF n nd0 H).
  - exact (wf_eid g WF).
  - intros n nd e H I. apply gt_node in H as (nd0 & H & ->). exact (wf_in g WF n nd0 e H I).
  - intros n nd H. apply gt_node in H as (nd0 & H & ->). exact (wf_nodup g WF n nd0 H).
  - intros n nd e H I. apply gt_node in H as (nd0 & H & ->). exact (wf_out g WF n nd0 e H I).
  - intros e ed t H I. unfold gt. cbn [nodes]. rewrite number_len. exact (wf_tails g WF e ed t H I).
  - intros e ed H. unfold gt. cbn [nodes]. rewrite number_len. exact (wf_head g WF e ed H).
Qed.
Definition below (S : Z -> L -> list Z -> Prop) (a b : Z) : Prop := exists l ts, S a l ts /\ In b ts.
Lemma hash_at : forall n, n < length (nodes g) -> exists h, nth_error hs n = Some h.
Proof. intros n H. destruct (nth_error hs n) as [h|] eqn:E; [exists h; reflexivity|]. apply nth_error_None in E. lia. Qed.
Lemma tails_hash : forall e ed, nth_error (edges g) e = Some ed -> exists ts, map (nth_error hs) (tails ed) = map Some ts.
Proof.
  intros e ed E. destruct (hashes_of_ok hs (tails ed)) as (l & _ & Q); [intros t I; rewrite LH; exact (wf_tails g WF e ed t E I)|]. exists l. congruence.
Qed.
Lemma child_below : forall n m, child None gt n m -> exists a b, nth_error hs n = Some a /\ nth_error hs m = Some b /\ below (step_of (g, hs)) a b.
Proof.
  intros n m (nd & e & ed & N & I & _ & E & T). apply gt_node in N as (nd0 & N & ->). cbn [in_edges] in I. cbn [edges gt] in E.
  destruct (hash_at n) as (a & A); [apply nth_error_Some; congruence|]. destruct (hash_at m) as (b & B); [exact (wf_tails g WF e ed m E T)|]. exists a, b. split; [exact A|]. split; [exact B|].
  destruct (tails_hash e ed E) as (ts & TS). exists (lab ed), ts. split; [exists n, nd0, e, ed; auto 10|].
  apply (in_map (nth_error hs)) in T. rewrite TS, B in T. apply in_map_iff in T as (x & Q & T). injection Q as <-. exact T.
Qed.
Lemma below_child : forall a b, below (step_of (g, hs)) a b -> exists n m, nth_error hs n = Some a /\ nth_error hs m = Some b /\ child None gt n m.
Proof.
  intros a b (l & ts & (n & nd & e & ed & A & N & I & E & _ & TS) & T). cbn [fst snd] in *. apply (in_map Some) in T. rewrite <- TS in T. apply in_map_iff in T as (m & B & T). exists n, m. split; [exact A|]. split; [exact B|].
  eexists _, e, ed. split; [apply gt_node; exists nd; split; [exact N|reflexivity]|]. split; [exact I|]. split; [exact Logic.I|]. split; [exact E|exact T].
Qed.
Lemma cycle_iff : forall h, nth_error hs goal = Some h -> cycle_below None gt goal <-> exists a, clos_refl_trans Z (below (step_of (g, hs))) h a /\ clos_trans Z (below (step_of (g, hs))) a a.
Proof.
  intros h HG. pose (H := fun n a => nth_error hs n = Some a).
  assert (FU : forall a b b', H a b -> H a b' -> b = b') by (unfold H; intros; congruence).
  assert (IJ : forall a a' b, H a b -> H a' b -> a = a') by (unfold H; intros a a' b; apply nodup_nth; exact ND).
  split.
  - intros (n & R & C). destruct (refl_fw _ _ H child_below FU _ _ R h HG) as (a & HA & R'). destruct (trans_fw _ _ H child_below FU _ _ C) as (b & b' & HB & HB' & C').
    exists a. split; [exact R'|]. rewrite (FU n b a HB HA), (FU n b' a HB' HA) in C'. exact C'.
  - intros (a & R & C). pose (H' := fun x y => H y x).
    assert (BC : forall b b', below (step_of (g, hs)) b b' -> exists n m, H' b n /\ H' b' m /\ child None gt n m) by exact below_child.
    assert (FU' : forall a b b', H' a b -> H' a b' -> b = b') by (intros x y y' P1 P2; exact (IJ y y' x P1 P2)).
    destruct (refl_fw _ _ H' BC FU' _ _ R goal HG) as (n & HA & R'). destruct (trans_fw _ _ H' BC FU' _ _ C) as (b & b' & HB & HB' & C').
    exists n. split; [exact R'|]. rewrite (FU' a b n HB HA), (FU' a b' n HB' HA) in C'. exact C'.
Qed.

Definition sorted_spec (h : Z) (r : hg L * list Z) : Prop :=
  good r /\ goal_hash r h /\ (forall a l ts, step_of r a l ts -> step_of (g, hs) a l ts) /\
  (forall lt, builds (step_of (g, hs)) h lt -> builds (step_of r) h lt) /\ (irredundant close (g, hs) -> irredundant close r).

Lemma sorted_ok : forall h, nth_error hs goal = Some h ->
  (sorted goal g hs = Some Aborted /\ cycle_below None gt goal) \/ (exists r, sorted goal g hs = Some (Joined r) /\ ~ cycle_below None gt goal /\ sorted_spec h r).
Proof.
  intros h HG. assert (GT : goal < length (nodes gt)) by (unfold gt; cbn [nodes]; rewrite number_len; exact GB).
  destruct (toposort_ok None gt gt_wf I goal GT) as [(g' & rn & re & E & NC & R)|(E & C)]; [right|left; unfold sorted; fold gt; rewrite E; split; [reflexivity|exact C]].
  pose proof (new_topo None gt g' gt_wf goal GT rn re R) as TP. pose proof (new_wf None gt g' gt_wf goal GT rn re R) as W'.
  assert (NG : 0 < length (nodes g')) by (pose proof (node_bound None gt g' gt_wf goal GT rn re R goal _ (rn_goal _ _ _ _ _ _ R)); lia).
  (* what the nodes of the result are *)
  assert (NB : forall k nd', nth_error (nodes g') k = Some nd' -> exists n nd0, rn n = Some k /\ nth_error (nodes g) n = Some nd0 /\ nd' = {| nid := k; cat := Z.of_nat n; in_edges := pick re (in_edges nd0); out_edges := pick re (out_edges nd0) |}).
  { intros k nd' K. apply (nodes_are _ _ _ _ _ _ R) in K as (n & nd & K1 & K2 & ->). apply gt_node in K2 as (nd0 & K2 & ->). exists n, nd0. auto. }
  assert (NF : forall n nd0 k, rn n = Some k -> nth_error (nodes g) n = Some nd0 -> nth_error (nodes g') k = Some {| nid := k; cat := Z.of_nat n; in_edges := pick re (in_edges nd0); out_edges := pick re (out_edges nd0) |}).
  { intros n nd0 k K N. apply (nodes_are _ _ _ _ _ _ R). eexists n, _. split; [exact K|]. split; [apply gt_node; exists nd0; split; [exact N|reflexivity]|reflexivity]. }
  destruct (hashes_of_ok hs (map (fun nd => Z.to_nat (cat nd)) (nodes g'))) as (hs' & HS & HM).
  { intros t T. apply in_map_iff in T as (nd' & <- & T). apply In_nth_error in T as (k & K). destruct (NB k nd' K) as (n & nd0 & _ & N & ->). cbn [cat]. rewrite Nat2Z.id, LH. apply nth_error_Some. congruence. }
  set (r := ({| nodes := map (back (nodes g)) (nodes g'); edges := edges g' |}, hs') : hg L * list Z).
  exists r. split; [unfold sorted; fold gt; rewrite E, HS; reflexivity|]. split; [exact NC|].
  assert (LHS : length hs' = length (nodes g')) by (apply (f_equal (@length _)) in HM; rewrite !map_length in HM; exact HM).
  assert (HK : forall n k, rn n = Some k -> nth_error hs' k = nth_error hs n).
  { intros n k K. assert (LN : n < length (nodes g)). { assert (reach None gt goal n) as RR by (apply (rn_dom _ _ _ _ _ _ R); exists k; exact K). clear - RR GB WF. apply clos_rt_rtn1 in RR. inversion RR as [|y z C _]; subst; [exact GB|]. destruct C as (nd & e & ed & _ & _ & _ & E & T). exact (wf_tails g WF e ed n E T). }
    destruct (nth_error (nodes g) n) as [nd0|] eqn:N; [|apply nth_error_None in N; lia]. pose proof (NF n nd0 k K N) as Q.
    assert (M : nth_error (map Some hs') k = nth_error (map (nth_error hs) (map (fun nd => Z.to_nat (cat nd)) (nodes g'))) k) by (rewrite HM; reflexivity).
    rewrite !nth_error_map, Q in M. cbn [option_map cat] in M. rewrite Nat2Z.id in M. destruct (nth_error hs' k) as [x|]; cbn [option_map] in M; [injection M as M; exact M|discriminate]. }
  assert (RNB : forall k, k < length (nodes g') -> exists n, rn n = Some k).
  { intros k K. destruct (nth_error (nodes g') k) as [nd'|] eqn:Q; [|apply nth_error_None in Q; lia]. destruct (NB k nd' Q) as (n & _ & K1 & _). exists n. exact K1. }
  assert (NDH : NoDup hs').
  { apply NoDup_nth_error. intros i j LI EQ. assert (LJ : j < length hs') by (apply nth_error_Some; rewrite <- EQ; apply nth_error_Some; exact LI).
    destruct (RNB i) as (n & Ni); [lia|]. destruct (RNB j) as (m & Nj); [lia|]. rewrite (HK n i Ni), (HK m j Nj) in EQ.
    assert (n = m). { destruct (nth_error hs n) as [x|] eqn:HX; [|rewrite <- (HK n i Ni) in HX; apply nth_error_None in HX; lia]. eapply nodup_nth; [exact ND|exact HX|symmetry; exact EQ]. } congruence. }
  assert (REK : forall n nd0 k, rn n = Some k -> nth_error (nodes g) n = Some nd0 -> forall e, In e (in_edges nd0) -> exists j, re e = Some j).
  { intros n nd0 k K N e I. apply (re_dom _ _ _ _ _ _ R). split; [exact Logic.I|]. eexists n, _. split; [apply (rn_dom _ _ _ _ _ _ R); exists k; exact K|]. split; [apply gt_node; exists nd0; split; [exact N|reflexivity]|exact I]. }
  assert (REI : forall e e' j, re e = Some j -> re e' = Some j -> e = e').
  { intros e e' j A B. destruct (lt_eq_lt_dec e e') as [[Q|Q]|Q]; [pose proof (re_order _ _ _ _ _ _ R e e' j j A B Q); lia|exact Q|pose proof (re_order _ _ _ _ _ _ R e' e j j B A Q); lia]. }
  assert (BK : forall k nd', nth_error (nodes (fst r)) k = Some nd' -> exists n nd0, rn n = Some k /\ nth_error (nodes g) n = Some nd0 /\ in_edges nd' = map (get re) (in_edges nd0)).
  { intros k nd' K. unfold r in K. cbn [fst nodes] in K. rewrite nth_error_map in K. destruct (nth_error (nodes g') k) as [nd1|] eqn:Q; [|discriminate]. cbn [option_map] in K. injection K as <-. destruct (NB k nd1 Q) as (n & nd0 & K1 & N & ->). exists n, nd0. split; [exact K1|]. split; [exact N|]. cbn [back in_edges]. apply pick_map. exact (REK n nd0 k K1 N). }
  assert (EDG : forall e ed j, re e = Some j -> nth_error (edges g) e = Some ed -> exists ed', nth_error (edges g') j = Some ed' /\ lab ed' = lab ed /\ tails ed' = map (get rn) (tails ed) /\ forall t, In t (tails ed) -> exists kt, rn t = Some kt).
  { intros e ed j K E0. destruct (wf_head g WF e ed E0) as (hd & HD & _). eexists. split; [apply (edges_are _ _ _ _ _ _ R); exists e, ed, hd; split; [exact K|]; split; [exact E0|]; split; [exact HD|reflexivity]|]. cbn [lab tails]. split; [reflexivity|]. split; [reflexivity|]. exact (proj2 (tails_kept _ _ _ _ _ _ R e j ed K E0)). }
  assert (TH : forall ts : list nat, (forall t, In t ts -> exists kt, rn t = Some kt) -> map (nth_error hs') (map (get rn) ts) = map (nth_error hs) ts).
  { induction ts as [|t ts IH]; intros KT; [reflexivity|]. cbn [map]. destruct (KT t (or_introl eq_refl)) as (kt & Q). rewrite IH by (intros x I0; apply KT; right; exact I0). f_equal. unfold get. rewrite Q. exact (HK t kt Q). }
  assert (NN : nodes (fst r) <> []) by (unfold r; cbn [fst nodes]; intros Q; apply (f_equal (@length _)) in Q; rewrite map_length in Q; cbn in Q; lia).
  split; [|split; [|split; [|split]]].
  - split; [|split; [|split; [exact NN|split; [unfold r; cbn [fst snd nodes]; rewrite map_length; exact LHS|exact NDH]]]].
    + assert (BN : forall k nd', nth_error (nodes (fst r)) k = Some nd' -> exists nd1, nth_error (nodes g') k = Some nd1 /\ nid nd' = nid nd1 /\ in_edges nd' = in_edges nd1 /\ out_edges nd' = out_edges nd1).
      { intros k nd' K. unfold r in K. cbn [fst nodes] in K. rewrite nth_error_map in K. destruct (nth_error (nodes g') k) as [nd1|] eqn:Q; [|discriminate]. injection K as <-. exists nd1. auto. }
      assert (LR : length (nodes (fst r)) = length (nodes g')) by (unfold r; cbn [fst nodes]; apply map_length).
      split.
      * intros n nd K. destruct (BN n nd K) as (nd1 & Q & -> & _). exact (wf_nid g' W' n nd1 Q).
      * exact (wf_eid g' W').
      * intros n nd e K I0. destruct (BN n nd K) as (nd1 & Q & _ & Q1 & _). rewrite Q1 in I0. exact (wf_in g' W' n nd1 e Q I0).
      * intros n nd K. destruct (BN n nd K) as (nd1 & Q & _ & -> & _). exact (wf_nodup g' W' n nd1 Q).
      * intros n nd e K I0. destruct (BN n nd K) as (nd1 & Q & _ & _ & Q1). rewrite Q1 in I0. exact (wf_out g' W' n nd1 e Q I0).
      * intros e ed t. rewrite LR. exact (wf_tails g' W' e ed t).
      * intros e ed. rewrite LR. exact (wf_head g' W' e ed).
    + intros n nd K. unfold r in K. cbn [fst nodes] in K. rewrite nth_error_map in K. destruct (nth_error (nodes g') n) as [nd1|] eqn:Q; [|discriminate]. injection K as <-. cbn [back in_edges]. exact (TP n nd1 Q).
  - unfold goal_hash. cbn [snd r]. rewrite LHS. rewrite (HK goal _ (rn_goal _ _ _ _ _ _ R)). exact HG.
  - intros a l ts (k & nd' & e' & ed' & A & N & I0 & E0 & LB & TS). cbn [fst snd] in *. destruct (BK k nd' N) as (n & nd0 & K & N0 & IE). rewrite IE in I0. apply in_map_iff in I0 as (e & Q & I0).
    destruct (REK n nd0 k K N0 e I0) as (j & J). unfold get in Q. rewrite J in Q. subst j. destruct (wf_in g WF n nd0 e N0 I0) as (ed & E1 & _). destruct (EDG e ed e' J E1) as (ed2 & E2 & LB2 & TL2 & KT). unfold r in E0. cbn [fst edges] in E0. rewrite E2 in E0. injection E0 as <-.
    exists n, nd0, e, ed. cbn [fst snd]. split; [rewrite <- (HK n k K); exact A|]. split; [exact N0|]. split; [exact I0|]. split; [exact E1|]. split; [congruence|]. rewrite TL2 in TS. rewrite <- (TH (tails ed) KT). exact TS.
  - assert (GEN : forall lt a, builds (step_of (g, hs)) a lt -> forall n, nth_error hs n = Some a -> reach None gt goal n -> builds (step_of r) a lt).
    { fix SELF 3. intros lt a [h0 l ts sub (n1 & nd & e & ed & A & N & I0 & E0 & LB & TS) F2] n HN RC. cbn [fst snd] in *.
      assert (n1 = n) by (eapply nodup_nth; [exact ND|exact A|exact HN]). subst n1. destruct (proj2 (rn_dom _ _ _ _ _ _ R n) RC) as (k & K). destruct (REK n nd k K N e I0) as (j & J). destruct (EDG e ed j J E0) as (ed' & E1 & LB1 & TL1 & KT).
      apply b_step with (hs := ts).
      - exists k, (back (nodes g) {| nid := k; cat := Z.of_nat n; in_edges := pick re (in_edges nd); out_edges := pick re (out_edges nd) |}), j, ed'. unfold r. cbn [fst snd nodes edges]. split; [rewrite (HK n k K); exact A|]. split; [rewrite nth_error_map, (NF n nd k K N); reflexivity|].
        split; [cbn [back in_edges]; rewrite pick_map by exact (REK n nd k K N); apply in_map_iff; exists e; split; [unfold get; rewrite J; reflexivity|exact I0]|]. split; [exact E1|]. split; [congruence|]. rewrite TL1, (TH (tails ed) KT). exact TS.
      - assert (RT : forall t, In t (tails ed) -> reach None gt goal t). { intros t T0. eapply rt_trans; [exact RC|]. apply rt_step. eexists _, e, ed. split; [apply gt_node; exists nd; split; [exact N|reflexivity]|]. split; [exact I0|]. split; [exact Logic.I|]. split; [exact E0|exact T0]. }
        apply Forall2_map_some in TS. clear - F2 TS RT SELF. revert TS RT. generalize (tails ed) as tl. induction F2 as [|x y xs ys B0 F2 IHF]; intros tl TS RT; [constructor|]. inversion TS as [|t ? tl' ? T1 T2]; subst. constructor; [exact (SELF y x B0 t T1 (RT t (or_introl eq_refl)))|]. apply (IHF tl' T2). intros z Z0. apply RT. right. exact Z0. }
    intros lt B0. apply (GEN lt h B0 goal HG). apply rt_refl.
  - intros IR k nd' i j e1 e2 d1 d2 N LT I1 I2 E1 E2 TT MM. destruct (BK k nd' N) as (n & nd0 & K & N0 & IE). rewrite IE, nth_error_map in I1, I2.
    destruct (nth_error (in_edges nd0) i) as [x1|] eqn:X1; [|discriminate]. destruct (nth_error (in_edges nd0) j) as [x2|] eqn:X2; [|discriminate]. cbn [option_map] in I1, I2. injection I1 as <-. injection I2 as <-.
    destruct (REK n nd0 k K N0 x1 (nth_error_In _ _ X1)) as (j1 & J1). destruct (REK n nd0 k K N0 x2 (nth_error_In _ _ X2)) as (j2 & J2). unfold get in E1, E2. rewrite J1 in E1. rewrite J2 in E2.
    destruct (wf_in g WF n nd0 x1 N0 (nth_error_In _ _ X1)) as (c1 & C1 & _). destruct (wf_in g WF n nd0 x2 N0 (nth_error_In _ _ X2)) as (c2 & C2 & _).
    destruct (EDG x1 c1 j1 J1 C1) as (y1 & Y1 & LB1 & TL1 & KT1). destruct (EDG x2 c2 j2 J2 C2) as (y2 & Y2 & LB2 & TL2 & KT2). unfold r in E1, E2. cbn [fst edges] in E1, E2. rewrite Y1 in E1. injection E1 as <-. rewrite Y2 in E2. injection E2 as <-.
    apply (IR n nd0 i j x1 x2 c1 c2 N0 LT X1 X2 C1 C2); [|rewrite <- LB1, <- LB2; exact MM].
    rewrite TL1, TL2 in TT. clear - TT KT1 KT2 R. revert TT KT1 KT2. generalize (tails c1) (tails c2). induction l as [|a l IH]; intros [|b l2] TT K1 K2; try discriminate; [reflexivity|]. cbn [map] in TT. injection TT as T1 T2.
    f_equal; [|apply IH; [exact T2|intros t I0; apply K1; right; exact I0|intros t I0; apply K2; right; exact I0]].
    destruct (K1 a (or_introl eq_refl)) as (ka & KA). destruct (K2 b (or_introl eq_refl)) as (kb & KB). unfold get in T1. rewrite KA, KB in T1. subst kb. exact (rn_inj _ _ _ _ _ _ R a b ka KA KB).
Qed.
End S.

Section T.
Context {X F W : Type}.
Variable close : F -> F -> bool.
Variable no_prob : W.
Notation L := (ulab X F W).
Lemma unique_ok : forall hs, unique hs = true <-> NoDup hs.
Proof.
  induction hs as [|h hs IH]; cbn [unique]; [split; [constructor|reflexivity]|]. destruct (in_dec Z.eq_dec h hs) as [I|I]; cbn [negb andb]; [split; [discriminate|intros Q; inversion Q; contradiction]|]. rewrite IH. split; [intros Q; constructor; assumption|intros Q; inversion Q; assumption].
Qed.
Lemma step_trans : forall (S S' : Z -> L -> list Z -> Prop) (R : L -> L -> Prop), (forall h l ts, S h l ts -> exists l', S' h l' ts /\ R l l') -> forall lt h, builds S h lt -> exists lt', builds S' h lt' /\ alike R lt lt'.
Proof.
  intros S S' R ST. fix SELF 3. intros lt h [h0 l hs sub ST0 F2]. destruct (ST h0 l hs ST0) as (l' & ST' & RL).
  assert (EX : exists sub', Forall2 (builds S') hs sub' /\ Forall2 (alike R) sub sub').
  { clear - F2 SELF. induction F2 as [|x y xs ys B F2 (s & A1 & A2)]; [exists []; split; constructor|]. destruct (SELF y x B) as (y' & B' & A'). exists (y' :: s). split; constructor; assumption. }
  destruct EX as (sub' & A & B). exists (LT h0 l' sub'). split; [apply b_step with (hs := hs); assumption|constructor; assumption].
Qed.
Lemma step_incl : forall (S S' : Z -> L -> list Z -> Prop), (forall h l ts, S h l ts -> S' h l ts) -> forall lt h, builds S h lt -> builds S' h lt.
Proof.
  intros S S' ST. fix SELF 3. intros lt h [h0 l hs sub ST0 F2]. apply b_step with (hs := hs); [exact (ST _ _ _ ST0)|]. clear - F2 SELF. induction F2 as [|x y xs ys B F2 IH]; constructor; [exact (SELF y x B)|exact IH].
Qed.
Lemma clos_ext : forall (A : Type) (R S : A -> A -> Prop), (forall a b, R a b <-> S a b) -> forall a b, (clos_refl_trans A R a b <-> clos_refl_trans A S a b) /\ (clos_trans A R a b <-> clos_trans A S a b).
Proof.
  assert (HLF : forall (A : Type) (R S : A -> A -> Prop), (forall a b, R a b -> S a b) -> forall a b, (clos_refl_trans A R a b -> clos_refl_trans A S a b) /\ (clos_trans A R a b -> clos_trans A S a b)).
  { intros A R S H a b. split; intros C; induction C; [apply rt_step; auto|apply rt_refl|eapply rt_trans; eassumption|apply t_step; auto|eapply t_trans; eassumption]. }
  intros A R S H a b. destruct (HLF A R S (fun x y => proj1 (H x y)) a b). destruct (HLF A S R (fun x y => proj2 (H x y)) a b). tauto.
Qed.
Theorem union_ok : forall (input out : hg L * list Z) h, good input -> good out -> goal_hash input h -> goal_hash out h ->
  (Union close no_prob input out = Some Aborted /\ cyclic (either no_prob input out) h) \/
  (exists r, Union close no_prob input out = Some (Joined r) /\ ~ cyclic (either no_prob input out) h /\ good r /\ goal_hash r h /\
    (forall lt, builds (step_of r) h lt -> builds (either no_prob input out) h lt) /\
    (forall lt, builds (step_of out) h lt -> builds (step_of r) h lt) /\
    (forall lt, builds (either no_prob input out) h lt -> exists lt', builds (step_of r) h lt' /\ alike (fun l l' => l = l' \/ match_ close l l') lt lt') /\
    (irredundant close out -> irredundant close r)).
Proof.
  intros [gin hin] [g0 h0] h (WI & TI & NI & LI & DI) (WO & TO & NO & LO & DO) GI GO. cbn [fst snd] in *. unfold goal_hash in GI, GO. cbn [snd] in GI, GO.
  unfold Union. cbn [fst snd]. destruct (nodes g0) as [|n0 nr] eqn:NG; [congruence|]. rewrite <- NG in *.
  rewrite (proj2 (unique_ok hin) DI), (proj2 (unique_ok h0) DO). cbn [negb]. rewrite GI, GO. cbn [bind]. rewrite Z.eqb_refl. cbn [negb].
  assert (LG : length (nodes g0) - 1 < length (nodes g0)) by (destruct (nodes g0); [congruence|cbn; lia]).
  assert (CG : nid (last (nodes g0) n0) = length (nodes g0) - 1).
  { apply (wf_nid g0 WO). clear - NO. destruct (exists_last NO) as (l & x & ->). rewrite last_last, app_length. cbn [length]. rewrite Nat.add_sub, nth_error_app2, Nat.sub_diag by lia. reflexivity. }
  rewrite CG. pose proof (index_ok (nodes g0) h0 [] [] (fun k nd K => wf_nid g0 WO k nd K) LO DO) as T0. cbn [app] in T0.
  destruct (add_nodes_ok (nodes gin) hin g0 h0 (index_nodes (nodes g0) h0 []) LI WO LO DO) as (g1 & hs & m & R1 & W1 & L1 & D1 & TK & (GE & GF & GB) & (hx & HX) & INC).
  { apply T0. split; [intros x; cbn; split; [discriminate|intros []]|intros x []]. }
  rewrite R1. cbn [bind fst snd].
  assert (LN : length (nodes g0) <= length (nodes g1)). { rewrite <- L1, HX, app_length. lia. }
  assert (IV0 : Inv close no_prob gin hin g1 hs g1).
  { constructor; [exact W1|symmetry; exact L1|exists []; rewrite app_nil_r; reflexivity| | |auto].
    - intros n nd N. exists nd, []. rewrite app_nil_r. auto.
    - intros e ed n LE E. exfalso. assert (e < length (edges g1)) by (apply nth_error_Some; congruence). lia. }
  destruct (add_all_ok close no_prob gin hin g1 hs m WI LI TK INC (nodes gin) hin 0 g1 (fun i => eq_refl) (fun i => eq_refl) IV0) as (g & R2 & IV & _ & CA).
  rewrite R2. cbn [bind].
  assert (HG : nth_error hs (length (nodes g0) - 1) = Some h) by (rewrite HX, nth_error_app1 by lia; rewrite <- LO; exact GO).
  assert (GB2 : length (nodes g0) - 1 < length (nodes g)) by (rewrite (i_len _ _ _ _ _ _ _ IV), L1; lia).
  (* steps of the merged forest *)
  assert (S1 : forall a l ts, step_of (g, hs) a l ts -> either no_prob (gin, hin) (g0, h0) a l ts).
  { intros a l ts (n & nd & e & ed & A & N & I & E & LB & TS). cbn [fst snd] in *. destruct (le_lt_dec (length (edges g1)) e) as [LE|LT].
    - right. destruct (wf_in g (i_wf _ _ _ _ _ _ _ IV) n nd e N I) as (ed2 & E2 & HD). rewrite E in E2. injection E2 as <-. destruct (i_new _ _ _ _ _ _ _ IV e ed n LE E HD) as (a2 & ni & ndi & ei & edi & A2 & HI & NI2 & II & EI & LB2 & TS2).
      exists (lab edi). split; [|rewrite <- LB; exact LB2]. exists ni, ndi, ei, edi. cbn [fst snd]. rewrite A in A2. injection A2 as <-. split; [exact HI|]. split; [exact NI2|]. split; [exact II|]. split; [exact EI|]. split; [reflexivity|]. congruence.
    - left. assert (LNn : n < length (nodes g1)) by (rewrite <- L1, <- (i_len _ _ _ _ _ _ _ IV); apply nth_error_Some; congruence). destruct (nth_error (nodes g1) n) as [nd1|] eqn:N1; [|apply nth_error_None in N1; lia].
      destruct (i_ins _ _ _ _ _ _ _ IV n nd1 N1) as (nd2 & lx & N2 & _ & IE & FL). rewrite N in N2. injection N2 as <-. rewrite IE in I. apply in_app_or in I as [I|I]; [|rewrite Forall_forall in FL; specialize (FL e I); lia].
      destruct (GB n nd1 N1) as [N0|[_ Q]]; [|rewrite Q in I; destruct I]. destruct (i_old _ _ _ _ _ _ _ IV) as (ex & EX). rewrite EX, nth_error_app1, GE in E by exact LT.
      exists n, nd1, e, ed. cbn [fst snd]. assert (n < length (nodes g0)) by (apply nth_error_Some; congruence). split; [rewrite HX, nth_error_app1 in A by lia; exact A|]. split; [exact N0|]. split; [exact I|]. split; [exact E|]. split; [exact LB|].
      rewrite <- TS. apply map_ext_in. intros t TI0. rewrite HX, nth_error_app1; [reflexivity|]. rewrite LO. exact (wf_tails g0 WO e ed t E TI0). }
  assert (S2 : forall a l ts, step_of (g0, h0) a l ts -> step_of (g, hs) a l ts).
  { intros a l ts (n & nd & e & ed & A & N & I & E & LB & TS). cbn [fst snd] in *. destruct (i_ins _ _ _ _ _ _ _ IV n nd (GF n nd N)) as (nd2 & lx & N2 & _ & IE & FL). destruct (i_old _ _ _ _ _ _ _ IV) as (ex & EX).
    exists n, nd2, e, ed. cbn [fst snd]. split; [rewrite HX, nth_error_app1 by (apply nth_error_Some; congruence); exact A|]. split; [exact N2|]. split; [rewrite IE; apply in_or_app; left; exact I|]. split; [rewrite EX, GE, nth_error_app1 by (apply nth_error_Some; congruence); exact E|]. split; [exact LB|].
    rewrite <- TS. apply map_ext_in. intros t TI0. rewrite HX, nth_error_app1; [reflexivity|]. rewrite LO. exact (wf_tails g0 WO e ed t E TI0). }
  assert (S3 : forall a l ts, either no_prob (gin, hin) (g0, h0) a l ts -> exists l', step_of (g, hs) a l' ts /\ (l = l' \/ match_ close l l')).
  { intros a l ts [S|(l0 & (n & nd & e & ed & A & N & I & E & LB & TS) & ->)]; [exists l; split; [exact (S2 _ _ _ S)|left; reflexivity]|]. cbn [fst snd] in *.
    destruct (CA n a nd e ed A N I E) as (k & nd2 & e2 & ed2 & Q1 & Q2 & Q3 & Q4 & Q5 & Q6). exists (lab ed2). split; [exists k, nd2, e2, ed2; cbn [fst snd]; repeat (split; [first [assumption|reflexivity]|]); congruence|].
    subst l0. destruct Q6 as [Q6|Q6]; [left; symmetry; exact Q6|right; apply copied_match; exact Q6]. }
  assert (BEL : forall a b, below (step_of (g, hs)) a b <-> exists l ts, either no_prob (gin, hin) (g0, h0) a l ts /\ In b ts).
  { intros a b. split; [intros (l & ts & S & I); exists l, ts; split; [exact (S1 _ _ _ S)|exact I]|]. intros (l & ts & S & I). destruct (S3 _ _ _ S) as (l' & S' & _). exists l', ts. auto. }
  assert (CYC : cycle_below None {| nodes := number 0 (nodes g); edges := edges g |} (length (nodes g0) - 1) <-> cyclic (either no_prob (gin, hin) (g0, h0)) h).
  { rewrite (cycle_iff g hs (length (nodes g0) - 1) (i_wf _ _ _ _ _ _ _ IV) (eq_sym (i_len _ _ _ _ _ _ _ IV)) D1 GB2 h HG). unfold cyclic. split; intros (a & Q1 & Q2); exists a; (split; [apply (clos_ext _ _ _ BEL); exact Q1|apply (clos_ext _ _ _ BEL); exact Q2]). }
  destruct (sorted_ok close g hs (length (nodes g0) - 1) (i_wf _ _ _ _ _ _ _ IV) (eq_sym (i_len _ _ _ _ _ _ _ IV)) D1 GB2 h HG) as [(R & C)|(r & R & C & GD & GH & SA & SB & SI)].
  - left. split; [exact R|apply CYC; exact C].
  - right. exists r. split; [exact R|]. split; [intros Q; apply C, CYC; exact Q|]. split; [exact GD|]. split; [exact GH|]. split; [|split; [|split]].
    + intros lt B. apply (step_incl (step_of r)); [|exact B]. intros a l ts Q. exact (S1 _ _ _ (SA _ _ _ Q)).
    + intros lt B. apply SB. apply (step_incl (step_of (g0, h0))); [exact S2|exact B].
    + intros lt B. destruct (step_trans _ _ (fun l l' => l = l' \/ match_ close l l') S3 lt h B) as (lt' & B' & A'). exists lt'. split; [apply SB; exact B'|exact A'].
    + intros IR. apply SI. apply (i_irr _ _ _ _ _ _ _ IV). intros n nd i j e e' ed ed' N LT I1 I2 E1 E2. cbn [fst] in *. destruct (GB n nd N) as [N0|[_ Q]]; [|rewrite Q in I1; destruct i; discriminate]. rewrite GE in E1, E2. exact (IR n nd i j e e' ed ed' N0 LT I1 I2 E1 E2).
Qed.

(** ** A forest joined with itself *)
Lemma at_here : forall m hs n h, table_ok m hs -> NoDup hs -> nth_error hs n = Some h -> at_ m h = n.
Proof. intros m hs n h [_ T] ND N. pose proof (T h (nth_error_In _ _ N)) as Q. eapply nodup_nth; [exact ND|exact Q|exact N]. Qed.
Lemma add_nodes_same : forall ns hn (f : hg L * list Z) m, (forall h, In h hn -> count m h = true) -> add_nodes ns hn f m = Some (f, m).
Proof. induction ns as [|nd ns IH]; intros [|h hn] f m C; try reflexivity. cbn [add_nodes]. rewrite (C h (or_introl eq_refl)). apply IH. intros x I. apply C. right. exact I. Qed.
Theorem union_same : forall (f : hg L * list Z) h, (forall x, close x x = true) -> good f -> goal_hash f h ->
  exists r, Union close no_prob f f = Some (Joined r) /\ good r /\ goal_hash r h /\ (forall lt, builds (step_of r) h lt <-> builds (step_of f) h lt).
Proof.
  intros [g hs] h CR (WF & TP & NE & LH & ND) GH. cbn [fst snd] in *. unfold goal_hash in GH. cbn [snd] in GH.
  unfold Union. cbn [fst snd]. destruct (nodes g) as [|n0 nr] eqn:NG; [congruence|]. rewrite <- NG in *. rewrite (proj2 (unique_ok hs) ND). cbn [negb]. rewrite GH. cbn [bind]. rewrite Z.eqb_refl. cbn [negb].
  assert (LG : length (nodes g) - 1 < length (nodes g)) by (destruct (nodes g); [congruence|cbn; lia]).
  assert (CG : nid (last (nodes g) n0) = length (nodes g) - 1). { apply (wf_nid g WF). clear - NE. destruct (exists_last NE) as (l & x & ->). rewrite last_last, app_length. cbn [length]. rewrite Nat.add_sub, nth_error_app2, Nat.sub_diag by lia. reflexivity. }
  rewrite CG. pose proof (index_ok (nodes g) hs [] [] (fun k nd K => wf_nid g WF k nd K) LH ND) as T0. cbn [app] in T0. specialize (T0 (conj (fun x => conj (fun Q => False_ind _ (Bool.diff_false_true Q)) (fun Q : In x [] => match Q with end)) (fun x (Q : In x []) => match Q with end))).
  rewrite add_nodes_same by (intros x I; apply (proj1 T0); exact I). cbn [bind fst snd].
  set (m := index_nodes (nodes g) hs []) in *.
  assert (AE : forall n nd a, nth_error (nodes g) n = Some nd -> nth_error hs n = Some a -> forall es, incl es (in_edges nd) -> add_edges close no_prob hs hs m g a es g = Some g).
  { intros n nd a N HA. induction es as [|e es IH]; intros IC; [reflexivity|]. cbn [add_edges]. destruct (wf_in g WF n nd e N (IC e (or_introl eq_refl))) as (ed & E & _). rewrite E. cbn [bind]. rewrite (at_here m hs n a T0 ND HA), N. cbn [bind].
    destruct (exists_ok close hs hs g ed) with (oes := in_edges nd) as (b & Q & QI); [intros t I; rewrite LH; exact (wf_tails g WF e ed t E I)|exact WF|exact LH|intros x I; destruct (wf_in g WF n nd x N I) as (d & D & _); exists d; exact D|].
    rewrite Q. cbn [bind]. rewrite (proj2 QI); [apply IH; intros x I; apply IC; right; exact I|]. exists e, ed. split; [apply IC; left; reflexivity|]. split; [exact E|]. split; [|reflexivity]. split; [reflexivity|]. split; [reflexivity|]. apply CR. }
  assert (AA : forall ns hn k, (forall i, nth_error ns i = nth_error (nodes g) (k + i)) -> (forall i, nth_error hn i = nth_error hs (k + i)) -> add_all close no_prob hs hs m g ns hn g = Some g).
  { induction ns as [|nd ns IH]; intros [|a hn] k NS HS; try reflexivity. cbn [add_all]. pose proof (NS 0) as N. pose proof (HS 0) as A. rewrite Nat.add_0_r in N, A. cbn [nth_error] in N, A. rewrite (AE k nd a (eq_sym N) (eq_sym A) _ (incl_refl _)). cbn [bind].
    apply (IH hn (S k)); intros i; [specialize (NS (S i))|specialize (HS (S i))]; rewrite Nat.add_succ_r in *; assumption. }
  rewrite (AA (nodes g) hs 0 (fun i => eq_refl) (fun i => eq_refl)). cbn [bind].
  assert (HG : nth_error hs (length (nodes g) - 1) = Some h) by (rewrite <- LH; exact GH).
  destruct (sorted_ok close g hs (length (nodes g) - 1) WF LH ND LG h HG) as [(_ & n & _ & C)|(r & R & _ & GD & GHR & SA & SB & _)].
  - exfalso. assert (LT : forall a b, clos_trans nat (child None {| nodes := number 0 (nodes g); edges := edges g |}) a b -> b < a).
    { intros a b Q. induction Q as [a b (nd & e & ed & N & I & _ & E & T)|a x b _ Q1 _ Q2]; [|lia]. apply (gt_node g) in N as (nd0 & N & ->). destruct (proj2 (TP a nd0 N) e I) as (d & D & LT). cbn [edges] in E. rewrite E in D. injection D as <-. exact (LT b T). }
    specialize (LT n n C). lia.
  - exists r. split; [exact R|]. split; [exact GD|]. split; [exact GHR|]. intros lt. split; [apply step_incl; exact SA|apply SB].
Qed.
End T.
