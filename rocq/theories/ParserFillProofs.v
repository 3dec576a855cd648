(** The parser's charts: all spans, and the goal. *)
From Coq Require Import List ZArith Bool Lia Permutation.
From Verif Require Import Opt HG Deriv TopoSpec Parser ParserSpec ParserForestProofs ParserProofs ParserChartProofs.
Import ListNotations.
Open Scope nat_scope.
Open Scope opt_scope.

Section Fill.
Variables kGOAL kEPS : Z.
Variable input : list (list arc).
Variable dist : nat -> nat -> Z.
Variable goal_cat : Z.
Variable goal_rule : rule.
Variable gs : list grammar.
Variable us : list rule.
Notation NN := (length input).
Notation fedge := (list nat * payload * nat)%type.
Notation Core := (ParserProofs.Core kGOAL).
Notation unary_edges := (ParserProofs.unary_edges us).
Notation al := (ParserChartProofs.al dist gs).
Notation Tm := (ParserChartProofs.Tm kEPS input).
Notation ItemsOK := (ParserChartProofs.ItemsOK gs).
Hypothesis arcs : arcs_ok input.
Hypothesis gs_nongoal : forall g p r, In g gs -> In r (bin (root g) p) -> lhs r <> kGOAL.
Hypothesis us_nongoal : forall r, In r us -> lhs r <> kGOAL.

Definition inflow (s : state) (g i j q : nat) : list item := flat_map (fun p => if al g i (S p) then Tm (act s g i p) p j else []) (seq i q).
Definition cellpre (fn : list Z) (s : state) (g i j : nat) : list item :=
  inflow s g i j (j - i) ++ (if al g i j then NT fn s g i j (seq (S i) (j - S i)) else []).
Definition rules_part (fn : list Z) (s : state) (i j : nat) : list (rule * shape * list nat) :=
  flat_map (fun g => if al g i j then flat_map item_edges (cellpre fn s g i j) else []) (seq 0 (length gs)).
Definition over (i j : nat) (e : fedge) : bool := let '(_, p, _) := e in andb (Nat.eqb (p_i p) i) (Nat.eqb (p_j p) j).
Definition espan (fe : list fedge) (i j : nat) : list (rule * shape * list nat) := map desc (filter (over i j) fe).

Record Inv (m : nat -> nat) (s : state) (fn : list Z) (fe : list fedge) : Prop := {
  in_core : Core s fn fe;
  in_items : ItemsOK fn s;
  in_ng : forall tl p h, In (tl, p, h) fe -> lhs (p_rule p) <> kGOAL;
  in_seed : forall g i, act s g i i = seeds input gs g i i;
  in_act : forall g i j, i < j -> Permutation (act s g i j) (inflow s g i j (Nat.min (m i) (j - i)) ++
    (if andb (andb (Nat.leb (j - i) (m i)) (Nat.leb j NN)) (al g i j) then NT fn s g i j (seq i (j - i)) else []));
  in_done : forall i j, i < j -> j <= NN -> j - i <= m i -> Permutation (espan fe i j) (rules_part fn s i j ++ flat_map (unary_edges fn) (chart s i j));
  in_not : forall i j, ~ (i < j /\ j <= NN /\ j - i <= m i) -> nodemap s i j = []
}.

Lemma inflow_cut : forall s g i j q, inflow s g i j q = inflow s g i j (Nat.min q (NN - i)).
Proof.
  intros s g i j q. destruct (Nat.le_gt_cases q (NN - i)) as [L|L]; [rewrite Nat.min_l by lia; reflexivity|]. rewrite Nat.min_r by lia. unfold inflow.
  replace q with ((NN - i) + (q - (NN - i))) at 1 by lia. rewrite seq_app, flat_map_app. transitivity (inflow s g i j (NN - i) ++ []); [|apply app_nil_r]. f_equal.
  assert (H : forall k, In k (seq (i + (NN - i)) (q - (NN - i))) -> NN <= k) by (intros k K; apply in_seq in K; lia). revert H. generalize (seq (i + (NN - i)) (q - (NN - i))). intros l. induction l as [|k l IH]; intros H; [reflexivity|]. cbn.
  rewrite IH by (intros x X; apply H; right; exact X). rewrite (Tm_end _ _ _ k j (H k (or_introl eq_refl))). destruct (al g i (S k)); reflexivity.
Qed.
Lemma inflow_ext : forall s s' g i j q, (forall p, i <= p < i + q -> act s' g i p = act s g i p) -> inflow s' g i j q = inflow s g i j q.
Proof. intros s s' g i j q H. unfold inflow. apply flat_map_ext_in. intros p P. apply in_seq in P. rewrite H by lia. reflexivity. Qed.
Lemma NT_ext : forall s s' fn x fe g i j ks, Core s fn fe -> (forall k, In k ks -> act s' g i k = act s g i k /\ chart s' k j = chart s k j) ->
  NT (fn ++ x) s' g i j ks = NT fn s g i j ks.
Proof.
  intros s s' fn x fe g i j ks C H. unfold NT. apply flat_map_ext_in. intros k K. destruct (H k K) as (-> & ->). apply nts_ext. eapply chart_valid, C.
Qed.
Lemma inflow_snoc : forall s g i j q, inflow s g i j (S q) = inflow s g i j q ++ (if al g i (S (i + q)) then Tm (act s g i (i + q)) (i + q) j else []).
Proof. intros. unfold inflow. rewrite seq_S, flat_map_app. cbn. rewrite app_nil_r. reflexivity. Qed.

Lemma Inv_eq : forall m m' s fn fe, (forall i, Nat.min (m i) (NN - i) = Nat.min (m' i) (NN - i)) -> Inv m s fn fe -> Inv m' s fn fe.
Proof.
  intros m m' s fn fe E [C IO NG SD AC DN NT]. constructor; auto.
  - intros g i j L. specialize (AC g i j L). specialize (E i). rewrite inflow_cut. rewrite inflow_cut in AC.
    replace (Nat.min (Nat.min (m' i) (j - i)) (NN - i)) with (Nat.min (Nat.min (m i) (j - i)) (NN - i)) by lia.
    replace (andb (Nat.leb (j - i) (m' i)) (Nat.leb j NN)) with (andb (Nat.leb (j - i) (m i)) (Nat.leb j NN)); [exact AC|].
    destruct (Nat.leb_spec j NN); [|rewrite !andb_false_r; reflexivity]. rewrite !andb_true_r. destruct (Nat.leb_spec (j - i) (m i)), (Nat.leb_spec (j - i) (m' i)); try reflexivity; lia.
  - intros i j L1 L2 L3. apply DN; auto. specialize (E i). lia.
  - intros i j H. apply NT. intros (A & B & D). apply H. specialize (E i). lia.
Qed.

Lemma espan_app : forall fe fe' i j, espan (fe ++ fe') i j = espan fe i j ++ espan fe' i j.
Proof. intros. unfold espan. rewrite filter_app, map_app. reflexivity. Qed.
Lemma espan_here : forall ne i j, (forall tl p h, In (tl, p, h) ne -> p_i p = i /\ p_j p = j) -> espan ne i j = map desc ne.
Proof.
  intros ne i j H. unfold espan. f_equal. induction ne as [|((tl, p), h) ne IH]; [reflexivity|]. cbn. destruct (H tl p h (or_introl eq_refl)) as (-> & ->). rewrite !Nat.eqb_refl. cbn. f_equal. apply IH.
  intros a b c I. eapply H. right. exact I.
Qed.
Lemma espan_other : forall ne i j i' j', (forall tl p h, In (tl, p, h) ne -> p_i p = i /\ p_j p = j) -> (i', j') <> (i, j) -> espan ne i' j' = [].
Proof.
  intros ne i j i' j' H NE. unfold espan. replace (filter (over i' j') ne) with (@nil fedge); [reflexivity|]. symmetry. induction ne as [|((tl, p), h) ne IH]; [reflexivity|]. cbn. destruct (H tl p h (or_introl eq_refl)) as (-> & ->).
  destruct (Nat.eqb_spec i i'), (Nat.eqb_spec j j'); cbn; try congruence; (apply IH; intros a b c I; eapply H; right; exact I).
Qed.
Lemma espan_empty : forall s fn fe i j, Core s fn fe -> nodemap s i j = [] -> espan fe i j = [].
Proof.
  intros s fn fe i j C NM. unfold espan. replace (filter (over i j) fe) with (@nil fedge); [reflexivity|]. pose proof (co_head _ _ _ _ C) as H. clear C. induction fe as [|((tl, p), h) fe IH]; [reflexivity|]. cbn.
  destruct (Nat.eqb_spec (p_i p) i), (Nat.eqb_spec (p_j p) j); cbn; try (apply IH; intros a b c I; eapply H; right; exact I). exfalso. subst. specialize (H tl p h (or_introl eq_refl)). rewrite NM in H. destruct H.
Qed.
Lemma unary_ext : forall fn x ns, valid fn ns -> flat_map (unary_edges (fn ++ x)) ns = flat_map (unary_edges fn) ns.
Proof. intros fn x ns V. apply flat_map_ext_in. intros nd I. unfold ParserProofs.unary_edges. rewrite app_nth1 by (apply V, I). reflexivity. Qed.

Lemma es_ng : forall fn fe s i j, Core s fn fe -> ItemsOK fn s -> forall e ns fn',
  In e (flat_map (fun g => if al g i j then flat_map item_edges (advcell kEPS input fn s i j g) else []) (seq 0 (length gs)) ++ flat_map (unary_edges fn') ns) -> lhs (fst (fst e)) <> kGOAL.
Proof.
  intros fn fe s i j C IO ((r, sh), tl) ns fn' I. apply in_app_iff in I. destruct I as [I|I].
  - cbn. apply in_flat_map in I. destruct I as (g & _ & I). destruct (al g i j); [|destruct I]. apply in_flat_map in I. destruct I as (it & I & R).
    unfold item_edges in R. apply in_map_iff in R. destruct R as (r' & [= -> _ _] & R). apply (item_nongoal kGOAL gs gs_nongoal fn g it); [|exact R]. unfold advcell, adv in I.
    apply in_app_iff in I. destruct I as [I|I]; [exact (IO _ _ _ _ I)|]. rewrite Nat.eqb_refl in I. apply in_app_iff in I. destruct I as [I|I]; [eapply NT_ok; eauto|].
    eapply Tm_ok; [|exact I]. intros it' I'. exact (IO _ _ _ _ I').
  - cbn. apply in_flat_map in I. destruct I as (nd & _ & I). unfold ParserProofs.unary_edges in I. apply in_flat_map in I. destruct I as (r' & R & I). destruct (Z.eqb _ _); [|destruct I]. destruct I as [[=]|[]]. subst. apply us_nongoal, R.
Qed.

Lemma step_inv : forall m s fn fe i0 l, Inv m s fn fe -> m i0 = l -> i0 + S l <= NN -> (forall i, i < i0 -> m i <= S l) ->
  exists s' fn' fe', span kGOAL kEPS input dist gs us i0 (i0 + S l) s = Some s' /\ Inv (fun i => if Nat.eqb i i0 then S l else m i) s' fn' fe' /\ goal_idx s' = goal_idx s.
Proof.
  intros m s fn fe i0 l [C IO NG SD AC DN NO] ML LN MB. set (j0 := i0 + S l).
  assert (NM0 : nodemap s i0 j0 = []) by (apply NO; unfold j0; lia).
  destruct (span_ok kGOAL kEPS input dist gs us arcs gs_nongoal us_nongoal i0 j0 s fn fe) as (s' & fn' & fe' & E & ST); [unfold j0; lia|exact LN|exact C|exact IO|exact NM0|].
  exists s', fn', fe'. split; [exact E|]. split; [|exact (sp_goal _ _ _ _ _ _ _ _ _ _ _ _ ST)].
  set (es := flat_map _ (seq 0 (length gs)) ++ _) in ST. destruct ST as [C' IO' (x & FX) A CH (y & HERE) MP KY (ne & FE & DE & SP) G].
  assert (ACT : forall g a b, a <> i0 \/ b < j0 -> act s' g a b = act s g a b).
  { intros g a b H. rewrite A. destruct (Nat.eqb_spec a i0) as [->|]; [|apply app_nil_r]. destruct H as [H|H]; [contradiction|].
    destruct (al g i0 j0); [|apply app_nil_r]. unfold adv. destruct (Nat.eqb_spec b j0); [lia|]. rewrite Tm_back by (try exact arcs; lia). apply app_nil_r. }
  assert (INF : forall g i j q, i <> i0 \/ i + q <= j0 -> inflow s' g i j q = inflow s g i j q).
  { intros g i j q H. apply inflow_ext. intros p P. apply ACT. destruct H; [left; assumption|right; lia]. }
  (* the equations of a processed span other than this one are untouched *)
  assert (OLDNT : forall g i j ks, j <> j0 \/ (forall k, In k ks -> k <> i0) -> i <> i0 \/ (forall k, In k ks -> k < j0) -> NT fn' s' g i j ks = NT fn s g i j ks).
  { intros g i j ks H1 H2. rewrite FX. eapply NT_ext; [exact C|]. intros k K. split.
    - apply ACT. destruct H2 as [H2|H2]; [left; exact H2|right; apply H2, K].
    - apply CH. intros [= -> ->]. destruct H1 as [H1|H1]; [congruence|]. apply (H1 i0 K). reflexivity. }
  constructor.
  - exact C'.
  - exact IO'.
  - intros tl p h I. rewrite FE in I. apply in_app_iff in I. destruct I as [I|I]; [exact (NG _ _ _ I)|].
    apply (in_map desc) in I. rewrite DE in I. unfold es in I. exact (es_ng fn fe s i0 j0 C IO _ _ _ I).
  - intros g i. rewrite ACT; [apply SD|]. destruct (Nat.eq_dec i i0); [right; unfold j0; lia|left; assumption].
  - intros g i j L. destruct (Nat.eqb_spec i i0) as [->|NI].
    + destruct (lt_eq_lt_dec j j0) as [[LT|EQ]|GT].
      * (* before *) rewrite ACT by (right; exact LT). specialize (AC g i0 j L). rewrite ML in AC. rewrite INF by (unfold j0 in *; lia).
        replace (Nat.min (S l) (j - i0)) with (Nat.min l (j - i0)) by (unfold j0 in *; lia).
        rewrite OLDNT by (try (left; lia); right; intros k K; apply in_seq in K; lia).
        replace (Nat.leb (j - i0) (S l)) with (Nat.leb (j - i0) l); [exact AC|]. destruct (Nat.leb_spec (j - i0) l), (Nat.leb_spec (j - i0) (S l)); try reflexivity; unfold j0 in *; lia.
      * (* here *) subst j. rewrite A, Nat.eqb_refl. specialize (AC g i0 j0 L). rewrite ML in AC. rewrite INF by (unfold j0; lia).
        replace (Nat.min l (j0 - i0)) with l in AC by (unfold j0; lia). replace (Nat.min (S l) (j0 - i0)) with (S l) by (unfold j0; lia).
        replace (andb (Nat.leb (j0 - i0) l) _) with false in AC by (destruct (Nat.leb_spec (j0 - i0) l); [unfold j0 in *; lia|reflexivity]). cbn [andb] in AC. rewrite app_nil_r in AC.
        destruct (Nat.leb_spec (j0 - i0) (S l)); [|unfold j0 in *; lia]. destruct (Nat.leb_spec j0 NN); [|unfold j0 in *; lia]. cbn [andb].
        rewrite inflow_snoc. replace (S (i0 + l)) with j0 by (unfold j0; lia). destruct (al g i0 j0); [|rewrite !app_nil_r; exact AC].
        unfold adv. rewrite Nat.eqb_refl. replace (j0 - 1) with (i0 + l) by (unfold j0; lia).
        replace (seq i0 (j0 - i0)) with (i0 :: seq (S i0) (j0 - S i0)) by (replace (j0 - i0) with (S (j0 - S i0)) by lia; reflexivity).
        unfold NT at 2. cbn [flat_map]. fold (NT fn' s' g i0 j0 (seq (S i0) (j0 - S i0))).
        rewrite OLDNT by (right; intros k K; apply in_seq in K; lia). rewrite ACT by (right; unfold j0; lia).
        rewrite <- !app_assoc. apply Permutation_app; [exact AC|]. rewrite app_assoc. rewrite (Permutation_app_comm (NT fn s g i0 j0 (seq (S i0) (j0 - S i0)))). rewrite <- app_assoc. apply Permutation_app_head. apply Permutation_app_comm.
      * (* after *) rewrite A, Nat.eqb_refl. specialize (AC g i0 j L). rewrite ML in AC. rewrite INF by (unfold j0 in *; lia).
        replace (Nat.min l (j - i0)) with l in AC by (unfold j0 in *; lia). replace (Nat.min (S l) (j - i0)) with (S l) by (unfold j0 in *; lia).
        replace (andb (Nat.leb (j - i0) l) _) with false in AC by (destruct (Nat.leb_spec (j - i0) l); [unfold j0 in *; lia|reflexivity]). cbn [andb] in AC. rewrite app_nil_r in AC.
        destruct (Nat.leb_spec (j - i0) (S l)); [unfold j0 in *; lia|]. cbn [andb]. rewrite app_nil_r.
        rewrite inflow_snoc. replace (S (i0 + l)) with j0 by (unfold j0; lia). unfold adv. destruct (Nat.eqb_spec j j0); [lia|]. rewrite app_nil_r. cbn [app]. replace (j0 - 1) with (i0 + l) by (unfold j0; lia).
        destruct (al g i0 j0); apply Permutation_app; auto.
    + rewrite ACT by (left; exact NI). specialize (AC g i j L). rewrite INF by (left; exact NI).
      destruct (andb (andb (Nat.leb (j - i) (m i)) (Nat.leb j NN)) (al g i j)) eqn:B; [|exact AC]. rewrite OLDNT; [exact AC| |left; exact NI].
      apply andb_prop in B. destruct B as (B & _). apply andb_prop in B. destruct B as (B1 & B2). apply Nat.leb_le in B1, B2.
      destruct (Nat.eq_dec j j0) as [->|]; [|left; assumption]. right. intros k K ->. apply in_seq in K. assert (LI : i < i0) by lia. specialize (MB i LI). unfold j0 in *. lia.
  - intros i j L1 L2 L3. destruct (Nat.eq_dec i i0) as [->|NI]; [destruct (Nat.eq_dec j j0) as [->|NJ]|].
    + clear L3. rewrite FE, espan_app, (espan_empty s fn fe i0 j0 C NM0), (espan_here ne _ _ SP), DE. cbn [app]. unfold es. apply Permutation_app_tail. unfold rules_part.
      assert (CP : forall g, al g i0 j0 = true -> Permutation (advcell kEPS input fn s i0 j0 g) (cellpre fn' s' g i0 j0)).
      { intros g AL. unfold advcell, cellpre, adv. rewrite Nat.eqb_refl, AL. rewrite OLDNT by (right; intros k K; apply in_seq in K; lia). rewrite INF by (unfold j0; lia).
        specialize (AC g i0 j0 L1). rewrite ML in AC. replace (Nat.min l (j0 - i0)) with l in AC by (unfold j0; lia).
        replace (andb (Nat.leb (j0 - i0) l) _) with false in AC by (destruct (Nat.leb_spec (j0 - i0) l); [unfold j0 in *; lia|reflexivity]). cbn [andb] in AC. rewrite app_nil_r in AC.
        replace (j0 - i0) with (S l) by (unfold j0; lia). rewrite inflow_snoc. replace (S (i0 + l)) with j0 by (unfold j0; lia). rewrite AL. replace (j0 - 1) with (i0 + l) by (unfold j0; lia).
        rewrite <- app_assoc. apply Permutation_app; [exact AC|]. apply Permutation_app_comm. }
      clear - CP. induction (seq 0 (length gs)) as [|g l' IHl]; [apply perm_nil|]. cbn [flat_map]. apply Permutation_app; [|exact IHl]. destruct (al g i0 j0) eqn:AL; [|apply perm_nil].
      apply Permutation_flat_map, CP, AL.
    + rewrite Nat.eqb_refl in L3. assert (L4 : j < j0) by (unfold j0 in *; lia).
      rewrite FE, espan_app, (espan_other ne i0 j0 i0 j SP) by congruence. rewrite app_nil_r, CH by congruence. rewrite FX, unary_ext by (eapply chart_valid, C).
      rewrite DN by (unfold j0 in *; lia). apply Permutation_app_tail. unfold rules_part. symmetry. apply Permutation_refl', flat_map_ext_in. intros g _. destruct (al g i0 j) eqn:AL; [|reflexivity]. f_equal. unfold cellpre. rewrite AL.
      rewrite INF by (right; lia). f_equal. rewrite <- FX. apply OLDNT; [left; assumption|right; intros k K; apply in_seq in K; lia].
    + destruct (Nat.eqb_spec i i0); [contradiction|].
      rewrite FE, espan_app, (espan_other ne i0 j0 i j SP) by congruence. rewrite app_nil_r, CH by congruence. rewrite FX, unary_ext by (eapply chart_valid, C).
      rewrite DN by assumption. apply Permutation_app_tail. unfold rules_part. symmetry. apply Permutation_refl', flat_map_ext_in. intros g _. destruct (al g i j) eqn:AL; [|reflexivity]. f_equal. unfold cellpre. rewrite AL.
      rewrite INF by (left; assumption). f_equal. rewrite <- FX. apply OLDNT; [|left; assumption].
      destruct (Nat.eq_dec j j0) as [->|]; [|left; assumption]. right. intros k K ->. apply in_seq in K. assert (LI : i < i0) by lia. specialize (MB i LI). unfold j0 in *. lia.
  - intros i j H. rewrite MP; [apply NO|]; (destruct (Nat.eqb_spec i i0) as [->|NI]; [|try exact H]).
    + intros (H1 & H2 & H3). apply H. lia.
    + intros [= ->]. apply H. unfold j0. lia.
    + congruence.
Qed.

Definition mrow (l i0 : nat) : nat -> nat := fun i => if Nat.ltb i i0 then S l else l.
Lemma row_inv : forall l q i0 s fn fe, Inv (mrow l i0) s fn fe -> i0 + q + l <= NN ->
  exists s' fn' fe', row kGOAL kEPS input dist gs us (S l) (seq i0 q) s = Some s' /\ Inv (mrow l (i0 + q)) s' fn' fe' /\ goal_idx s' = goal_idx s.
Proof.
  intros l. induction q as [|q IH]; intros i0 s fn fe I L; cbn [seq row].
  - exists s, fn, fe. rewrite Nat.add_0_r. auto.
  - destruct (step_inv _ s fn fe i0 l I) as (s1 & fn1 & fe1 & E & I1 & G1); [unfold mrow; rewrite Nat.ltb_irrefl; reflexivity|lia|intros i LI; unfold mrow; destruct (Nat.ltb i i0); lia|].
    rewrite E. cbn [bind]. destruct (IH (S i0) s1 fn1 fe1) as (s2 & fn2 & fe2 & E2 & I2 & G2); [|lia|].
    + eapply Inv_eq; [|exact I1]. intros i. cbn beta. unfold mrow. destruct (Nat.eqb_spec i i0), (Nat.ltb_spec i (S i0)), (Nat.ltb_spec i i0); lia.
    + exists s2, fn2, fe2. split; [exact E2|]. split; [|congruence]. replace (i0 + S q) with (S i0 + q) by lia. exact I2.
Qed.

Lemma start_inv : Inv (fun _ => 0) (start input gs) [] [].
Proof.
  constructor; cbn [start forest chart nodemap act].
  - constructor; cbn; try (intros; contradiction); try (intros; constructor); try reflexivity. apply FV_empty.
  - intros g a b it I. cbn in I. unfold seeds in I. destruct (nth_error gs g) as [gr|] eqn:Q; [|destruct I]. destruct (andb _ _); [|destruct I]. destruct I as [<-|[]]. cbn. split; [intros t []|]. exists gr, []. auto.
  - intros ? ? ? [].
  - reflexivity.
  - intros g i j L. destruct (Nat.leb_spec (j - i) 0); [lia|]. cbn. unfold seeds. destruct (nth_error gs g); [|apply perm_nil]. destruct (Nat.eqb_spec i j); [lia|]. apply perm_nil.
  - intros. lia.
  - reflexivity.
Qed.

Hypothesis goal_lhs : lhs goal_rule = kGOAL.
Lemma fg_none : forall dh s fn fe, FV (forest s) fn fe -> (forall nd, In nd dh -> exists c, nth_error fn nd = Some c /\ c <> goal_cat) ->
  find_goal kGOAL input goal_cat goal_rule dh s = Some s.
Proof.
  induction dh as [|nd dh IH]; intros s fn fe F H; [reflexivity|]. cbn [find_goal]. destruct (H nd (or_introl eq_refl)) as (c & Q & NE).
  pose proof (FV_node _ _ _ nd F) as FN. destruct (nth_error (nodes (forest s)) nd) as [v|]; [|congruence]. destruct FN as (FC & _). cbn [bind].
  destruct (Z.eqb_spec (cat v) goal_cat); [congruence|]. cbn [bind]. eapply IH; [exact F|]. intros x X. apply H. right. exact X.
Qed.
Definition goal_edge (h : nat) (fn : list Z) : fedge := ([h], {| p_rule := goal_rule; p_feats := [None]; p_i := 0; p_j := NN |}, length fn).
Lemma fg_ok : forall dh s fn fe, Core s fn fe -> goal_idx s = None -> ~ In kGOAL (map fst (nodemap s 0 NN)) ->
  (forall nd, In nd dh -> exists c, In (c, nd) (nodemap s 0 NN)) -> NoDup (map (fun nd => nth nd fn 0%Z) dh) ->
  exists s', find_goal kGOAL input goal_cat goal_rule dh s = Some s' /\
    ((s' = s /\ forall nd, In nd dh -> nth nd fn 0%Z <> goal_cat) \/
     exists h, In h dh /\ In (goal_cat, h) (nodemap s 0 NN) /\ goal_idx s' = Some (length fn) /\ FV (forest s') (fn ++ [kGOAL]) (fe ++ [goal_edge h fn])).
Proof.
  induction dh as [|nd dh IH]; intros s fn fe C G NK H ND; cbn [find_goal].
  - exists s. split; [reflexivity|]. left. split; [reflexivity|]. intros ? [].
  - destruct (H nd (or_introl eq_refl)) as (c & I). pose proof (co_cat _ _ _ _ C _ _ _ _ I) as Q. assert (NL : nd < length fn) by (apply nth_error_Some; congruence).
    pose proof (FV_node _ _ _ nd (co_fv _ _ _ _ C)) as FN. destruct (nth_error (nodes (forest s)) nd) as [v|]; [|congruence]. destruct FN as (FC & _). cbn [bind].
    assert (CV : c = cat v) by congruence. rewrite CV in *. clear c CV. cbn in ND. apply NoDup_cons_iff in ND. destruct ND as (NI & ND'). rewrite (nth_error_nth fn nd 0%Z FC) in NI.
    destruct (Z.eqb_spec (cat v) goal_cat) as [EQ|NE].
    + unfold ApplyRule. set (p := {| p_rule := goal_rule; p_feats := [None]; p_i := 0; p_j := NN |}).
      destruct (FV_add_node_edge _ _ _ [nd] p kGOAL (co_fv _ _ _ _ C)) as (g1 & g2 & g3 & A & A2 & L1 & B & F); [intros t [<-|[]]; exact NL|]. rewrite A. cbn [bind].
      destruct (find (lhs goal_rule) (nodemap s 0 NN)) as [h|] eqn:FD.
      { apply pfind_some in FD. rewrite goal_lhs in FD. exfalso. apply NK. apply in_map_iff. exists (kGOAL, h). auto. }
      rewrite goal_lhs, A2. cbn [bind]. rewrite B. cbn [bind]. rewrite Z.eqb_refl, G. cbn [bind].
      rewrite (fg_none dh _ (fn ++ [kGOAL]) (fe ++ [([nd], p, length fn)])); [|exact F|].
      * eexists. split; [reflexivity|]. right. exists nd. split; [left; reflexivity|]. split; [rewrite <- EQ; exact I|]. cbn [goal_idx forest]. split; [rewrite L1; reflexivity|exact F].
      * intros nd' I'. destruct (H nd' (or_intror I')) as (c & I2). pose proof (co_cat _ _ _ _ C _ _ _ _ I2) as Q2. exists c. split; [rewrite nth_error_app1; [exact Q2|]; apply nth_error_Some; congruence|].
        intros ->. apply NI. apply in_map_iff. exists nd'. split; [|exact I']. rewrite (nth_error_nth fn nd' 0%Z Q2). congruence.
    + cbn [bind]. destruct (IH s fn fe C G NK) as (s' & E & R); [intros x X; apply H; right; exact X|exact ND'|]. exists s'. split; [exact E|].
      destruct R as [(-> & R)|(h & I1 & R)]; [left; split; [reflexivity|]; intros x [<-|X]; [rewrite (nth_error_nth fn nd 0%Z FC); exact NE|apply R, X]|]. right. exists h. split; [right; exact I1|exact R].
Qed.

Definition Finished (s : state) : Prop :=
  exists s0 fn fe, Inv (fun _ => NN) s0 fn fe /\
    ((goal_idx s = None /\ forest s = forest s0 /\ forall h, ~ In (goal_cat, h) (nodemap s0 0 NN)) \/
     exists h, In (goal_cat, h) (nodemap s0 0 NN) /\ goal_idx s = Some (length fn) /\ FV (forest s) (fn ++ [kGOAL]) (fe ++ [goal_edge h fn])).

Lemma ng_keys : forall m s fn fe i j c h, Inv m s fn fe -> In (c, h) (nodemap s i j) -> c <> kGOAL /\ In h (chart s i j).
Proof.
  intros m s fn fe i j c h I H. destruct (co_edge _ _ _ _ (in_core _ _ _ _ I) _ _ _ _ H) as (tl & p & E & _ & _ & LH).
  assert (N : c <> kGOAL) by (rewrite <- LH; exact (in_ng _ _ _ _ I _ _ _ E)). split; [exact N|]. rewrite (co_chart _ _ _ _ (in_core _ _ _ _ I)). apply in_map_iff. exists (c, h). split; [reflexivity|].
  apply filter_In. split; [exact H|]. unfold nongoal. cbn. destruct (Z.eqb_spec c kGOAL); [contradiction|reflexivity].
Qed.

Lemma rows_ok : goal_cat <> kGOAL -> forall q l s fn fe, l + q = NN -> Inv (fun _ => l) s fn fe -> goal_idx s = None -> (l = NN -> 0 < NN -> False) ->
  exists s', rows kGOAL kEPS input dist goal_cat goal_rule gs us (seq (S l) q) s = Some s' /\ Finished s'.
Proof.
  intros GC. induction q as [|q IH]; intros l s fn fe EQ I G NZ; cbn [seq rows].
  - exists s. split; [reflexivity|]. exists s, fn, fe. replace NN with l by lia. split; [exact I|]. left. split; [exact G|]. split; [reflexivity|]. intros h H.
    rewrite (in_not _ _ _ _ I) in H; [destruct H|]. intros (A & _). apply NZ; lia.
  - destruct (row_inv l (NN + 1 - S l) 0 s fn fe) as (s1 & fn1 & fe1 & E & I1 & G1); [eapply Inv_eq; [|exact I]; intros i; reflexivity|lia|]. rewrite E. cbn [bind].
    assert (I2 : Inv (fun _ => S l) s1 fn1 fe1). { eapply Inv_eq; [|exact I1]. intros i. unfold mrow. destruct (Nat.ltb_spec i (0 + (NN + 1 - S l))); lia. }
    destruct (fg_ok (chart s1 0 NN) s1 fn1 fe1 (in_core _ _ _ _ I2)) as (s2 & E2 & R).
    + congruence.
    + intros K. apply in_map_iff in K. destruct K as ((c & h) & [= ->] & K). exact (proj1 (ng_keys _ _ _ _ _ _ _ _ I2 K) eq_refl).
    + intros nd H. destruct (co_valid _ _ _ _ _ _ _ (in_core _ _ _ _ I2) H) as (_ & c & H' & _). exists c. exact H'.
    + rewrite (co_chart _ _ _ _ (in_core _ _ _ _ I2)), map_map.
      rewrite (map_ext_in _ fst).
      * pose proof (co_keys _ _ _ _ (in_core _ _ _ _ I2) 0 NN) as ND. induction (nodemap s1 0 NN) as [|q' l' IHl]; [constructor|]. cbn in ND. apply NoDup_cons_iff in ND. destruct ND as (NI & ND'). cbn. destruct (nongoal kGOAL q'); [|apply IHl, ND'].
        cbn. constructor; [|apply IHl, ND']. intros H. apply NI. apply in_map_iff in H. destruct H as (z & Z1 & Z2). apply filter_In in Z2. apply in_map_iff. exists z. split; [exact Z1|apply Z2].
      * intros (c, h) H. apply filter_In in H. destruct H as (H & _). cbn. apply nth_error_nth. exact (co_cat _ _ _ _ (in_core _ _ _ _ I2) _ _ _ _ H).
    + rewrite E2. cbn [bind]. destruct q as [|q].
      * cbn [seq rows]. exists s2. split; [reflexivity|]. exists s1, fn1, fe1. split; [eapply Inv_eq; [|exact I2]; intros i; cbn beta; cbn [length seq] in EQ; lia|].
        destruct R as [(-> & R)|(h & _ & R)]; [left|right; exists h; exact R]. split; [congruence|]. split; [reflexivity|]. intros h H. apply (R h); [exact (proj2 (ng_keys _ _ _ _ _ _ _ _ I2 H))|].
        apply nth_error_nth. exact (co_cat _ _ _ _ (in_core _ _ _ _ I2) _ _ _ _ H).
      * assert (EMP : nodemap s1 0 NN = []) by (apply (in_not _ _ _ _ I2); lia).
        assert (s2 = s1). { destruct R as [(-> & _)|(h & _ & H & _)]; [reflexivity|]. rewrite EMP in H. destruct H. } subst s2.
        apply (IH (S l) s1 fn1 fe1); [lia|exact I2|congruence|lia].
Qed.
Lemma fill_rows : goal_cat <> kGOAL -> exists s', rows kGOAL kEPS input dist goal_cat goal_rule gs us (seq 1 NN) (start input gs) = Some s' /\ Finished s'.
Proof. intros GC. apply (rows_ok GC NN 0 (start input gs) [] []); [lia|exact start_inv|reflexivity|lia]. Qed.
End Fill.
