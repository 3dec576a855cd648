(** The alignment error rate. *)
From Coq Require Import List Arith ZArith QArith Lia Lqa Permutation.
From Verif Require Import Array2D Align AlignProofs Aer AerSpec.
Import ListNotations.
Local Open Scope nat_scope.

Lemma count_ok W hyp ref : wf W hyp -> wf W ref -> exists m p r, count W hyp ref = Some (m, p, r) /\
  counts (fun i j => link W hyp i j /\ link W ref i j) m /\ counts (link W hyp) p /\ counts (link W ref) r.
Proof. exact (fmeasure_ok W hyp ref 0 0 0). Qed.
Lemma counts_iff (P Q : nat -> nat -> Prop) n : (forall i j, P i j <-> Q i j) -> counts P n -> counts Q n.
Proof. intros H (l & N & L & I). exists l. split; auto. split; auto. intros i j. rewrite I. apply H. Qed.
Lemma links_ok ps n : counts (fun i j => In (i, j) ps) n -> n = links ps.
Proof.
  intros (l & ND & <- & H). unfold links. apply Permutation_length. apply NoDup_Permutation; auto; [apply NoDup_nodup|].
  intros (i, j). rewrite H, nodup_In. reflexivity.
Qed.
Lemma common_ok ps qs n : counts (fun i j => In (i, j) ps /\ In (i, j) qs) n -> n = common ps qs.
Proof.
  intros (l & ND & <- & H). unfold common. apply Permutation_length. apply NoDup_Permutation; auto; [apply NoDup_nodup|].
  intros (i, j). rewrite H, nodup_In, filter_In. destruct (in_dec point_dec (i, j) qs); intuition congruence.
Qed.

Theorem sentence_ok W IM a b ta tb : written W IM a ta -> written W IM b tb ->
  score_candidate W IM [tb] ta = Some (common a b, links a, links b).
Proof.
  intros (Pa & A1 & A2 & A3) (Pb & B1 & B2 & B3). unfold score_candidate.
  destruct (read_ok W IM a ta [] Pa I (fun x => x) A1 A2 A3) as ((ga & Ea & Wa & _ & _ & La) & _). rewrite app_nil_r in Ea.
  destruct (read_ok W IM b tb [] Pb I (fun x => x) B1 B2 B3) as ((gb & Eb & Wb & _ & _ & Lb) & _). rewrite app_nil_r in Eb.
  rewrite Ea, Eb. destruct (count_ok W ga gb Wa Wb) as (m & p & r & E & C1 & C2 & C3). rewrite E. do 2 f_equal; [f_equal|].
  - apply common_ok. refine (counts_iff _ _ _ _ C1). intros i j. rewrite La, Lb. reflexivity.
  - apply links_ok. refine (counts_iff _ _ _ _ C2). intros i j. apply La.
  - apply links_ok. refine (counts_iff _ _ _ _ C3). intros i j. apply Lb.
Qed.

Lemma common_le_l a b : common a b <= links a.
Proof.
  unfold common, links. apply NoDup_incl_length; [apply NoDup_nodup|]. intros x. rewrite !nodup_In, filter_In. tauto.
Qed.
Lemma common_le_r a b : common a b <= links b.
Proof.
  unfold common, links. apply NoDup_incl_length; [apply NoDup_nodup|]. intros x. rewrite !nodup_In, filter_In.
  destruct (in_dec point_dec x b); intuition congruence.
Qed.
Lemma common_all a b : common a b = links a -> incl a b.
Proof.
  intros H x Hx. assert (I : incl (nodup point_dec a) (nodup point_dec (filter (fun p => if in_dec point_dec p b then true else false) a))).
  { apply NoDup_length_incl; [apply NoDup_nodup| |].
    - unfold common, links in H. lia.
    - intros y. rewrite !nodup_In, filter_In. tauto. }
  specialize (I x). rewrite !nodup_In, filter_In in I. specialize (I Hx). destruct (in_dec point_dec x b); intuition congruence.
Qed.
Lemma common_sym a b : common a b = common b a.
Proof.
  unfold common. apply Permutation_length. apply NoDup_Permutation; try apply NoDup_nodup. intro x. rewrite !nodup_In, !filter_In.
  destruct (in_dec point_dec x b), (in_dec point_dec x a); intuition congruence.
Qed.

Lemma inj_S n : (inj (S n) == inj n + 1)%Q.
Proof. unfold inj. rewrite Nat2Z.inj_succ. unfold Z.succ. rewrite inject_Z_plus. reflexivity. Qed.
Lemma inj_pos n : n <> 0 -> (0 < inj n)%Q.
Proof. intro H. unfold inj. change 0%Q with (inject_Z 0). rewrite <- Zlt_Qlt. lia. Qed.
Lemma inj_ge n : (0 <= inj n)%Q.
Proof. unfold inj. change 0%Q with (inject_Z 0). rewrite <- Zle_Qle. lia. Qed.
Lemma inj_le m n : m <= n -> (inj m <= inj n)%Q.
Proof. intro H. unfold inj. rewrite <- Zle_Qle. lia. Qed.
Lemma inj_add m n : (inj (m + n) == inj m + inj n)%Q.
Proof. unfold inj. rewrite Nat2Z.inj_add, inject_Z_plus. reflexivity. Qed.
Lemma inj_inv m n : (inj m == inj n)%Q -> m = n.
Proof. unfold inj. intro H. unfold Qeq in H. cbn in H. lia. Qed.
Lemma eqb0 q : ~ (q == 0)%Q -> Qeq_bool q 0 = false.
Proof. intro H. destruct (Qeq_bool q 0) eqn:E; auto. apply Qeq_bool_iff in E. tauto. Qed.
Lemma div_pos a b : b <> 0 -> exists q, fdiv (Num (inj a)) (Num (inj b)) = Num q /\ (q == inj a / inj b)%Q.
Proof. intro H. unfold fdiv. pose proof (inj_pos b H). rewrite eqb0 by lra. eexists. split; reflexivity. Qed.

(** Arithmetic of the score. *)
Lemma score_ok m p r : m <= p -> m <= r -> exists q, compute_score (m, p, r) = Some q /\ (q == error_rate m p r)%Q.
Proof.
  intros Hp Hr. unfold compute_score, precision, recall, error_rate. fold (inj m) (inj (p + r)).
  destruct (Nat.eq_dec m 0) as [->|Hm].
  - assert (Z : forall n, fdiv (Num (inj 0)) (Num (inj n)) = NaN \/ exists q, fdiv (Num (inj 0)) (Num (inj n)) = Num q /\ (q == 0)%Q).
    { intro n. destruct (Nat.eq_dec n 0) as [->|Hn]; [left; reflexivity|]. right. destruct (div_pos 0 n Hn) as (q & E & Eq). exists q. split; auto.
      rewrite Eq. pose proof (inj_pos n Hn). change (inj 0) with 0%Q. field. lra. }
    assert (G : ((if (p + r =? 0)%nat then 1 else 1 - 2 * inj 0 / inj (p + r)) == 1)%Q).
    { destruct (Nat.eqb_spec (p + r) 0); [reflexivity|]. pose proof (inj_pos (p + r) n). change (inj 0) with 0%Q. field. lra. }
    exists 1%Q. split; [|rewrite G; reflexivity]. cbv zeta.
    destruct (Z p) as [E1|(q1 & E1 & Q1)], (Z r) as [E2|(q2 & E2 & Q2)]; rewrite E1, E2; cbn [fmul fadd]; try reflexivity.
    unfold fdiv. assert (X : (q2 + q1 == 0)%Q) by lra. rewrite (proj2 (Qeq_bool_iff _ _) X).
    assert (Y : (2 * q1 * q2 == 0)%Q) by (rewrite Q1; lra). rewrite (proj2 (Qeq_bool_iff _ _) Y). reflexivity.
  - destruct (div_pos m p ltac:(lia)) as (q1 & E1 & Q1). destruct (div_pos m r ltac:(lia)) as (q2 & E2 & Q2). cbv zeta. rewrite E1, E2. cbn [fmul fadd].
    pose proof (inj_pos m Hm) as Pm. pose proof (inj_pos p ltac:(lia)) as Pp. pose proof (inj_pos r ltac:(lia)) as Pr.
    assert (P1 : (0 < q1)%Q). { rewrite Q1. apply Qlt_shift_div_l; lra. }
    assert (P2 : (0 < q2)%Q). { rewrite Q2. apply Qlt_shift_div_l; lra. }
    unfold fdiv. rewrite eqb0 by lra. eexists. split; [reflexivity|]. destruct (Nat.eqb_spec (p + r) 0); [lia|].
    rewrite inj_add, Q1, Q2. field. repeat split; try lra. intro Z. assert (Y : (0 < inj m * (inj p + inj r))%Q) by (apply Qmult_lt_0_compat; lra). lra.
Qed.
Lemma rate_range m p r : m <= p -> m <= r -> (0 <= error_rate m p r <= 1)%Q.
Proof.
  intros Hp Hr. unfold error_rate. fold (inj m) (inj (p + r)). destruct (Nat.eqb_spec (p + r) 0) as [|Hn]; [lra|]. pose proof (inj_pos _ Hn) as P. rewrite inj_add in *.
  pose proof (inj_le _ _ Hp). pose proof (inj_le _ _ Hr). pose proof (inj_ge m).
  assert (A : (2 * inj m / (inj p + inj r) <= 1)%Q) by (apply Qle_shift_div_r; lra).
  assert (B : (0 <= 2 * inj m / (inj p + inj r))%Q) by (apply Qle_shift_div_l; lra). lra.
Qed.
Lemma rate_zero m p r : m <= p -> m <= r -> ((error_rate m p r == 0)%Q <-> p + r <> 0 /\ m = p /\ m = r).
Proof.
  intros Hp Hr. unfold error_rate. fold (inj m) (inj (p + r)). destruct (Nat.eqb_spec (p + r) 0) as [|Hn]; [split; [lra|tauto]|]. pose proof (inj_pos _ Hn) as P. rewrite inj_add in *.
  pose proof (inj_le _ _ Hp). pose proof (inj_le _ _ Hr). split.
  - intro E. split; auto. assert (X : (2 * inj m == inj p + inj r)%Q).
    { assert (Y : (2 * inj m / (inj p + inj r) == 1)%Q) by lra. rewrite <- (Qmult_1_l (inj p + inj r)), <- Y. field. lra. }
    split; apply inj_inv; lra.
  - intros (_ & -> & E). rewrite <- E. field. pose proof (inj_pos p ltac:(lia)). lra.
Qed.

Lemma sums_le {A} (f g : A -> nat) l : (forall x, f x <= g x) -> list_sum (map f l) <= list_sum (map g l).
Proof. intro H. unfold list_sum. induction l as [|a l IH]; cbn; [lia|]. specialize (H a). lia. Qed.
(** A corpus. *)
Theorem corpus_ok W IM (l : list ((list (nat * nat) * list nat) * (list (nat * nat) * list nat))) :
  Forall (fun x => written W IM (fst (fst x)) (snd (fst x)) /\ written W IM (fst (snd x)) (snd (snd x))) l ->
  let m := list_sum (map (fun x => common (fst (fst x)) (fst (snd x))) l) in
  let p := list_sum (map (fun x => links (fst (fst x))) l) in
  let r := list_sum (map (fun x => links (fst (snd x))) l) in
  exists ss, map Some ss = map (fun x => score_candidate W IM [snd (snd x)] (snd (fst x))) l /\
    exists q, compute_score (fold_left plus_equals ss zero) = Some q /\ (q == error_rate m p r)%Q /\ (0 <= q <= 1)%Q /\
    ((q == 0)%Q <-> Forall (fun x => forall i j, In (i, j) (fst (fst x)) <-> In (i, j) (fst (snd x))) l /\ Exists (fun x => fst (snd x) <> []) l).
Proof.
  intros F m p r.
  set (st := fun x : (list (nat * nat) * list nat) * (list (nat * nat) * list nat) => (common (fst (fst x)) (fst (snd x)), links (fst (fst x)), links (fst (snd x)))).
  exists (map st l). split.
  { rewrite map_map. apply map_ext_in. intros x Hx. rewrite Forall_forall in F. destruct (F x Hx). symmetry. now apply sentence_ok. }
  assert (S : forall l a b c, fold_left plus_equals (map st l) (a, b, c) =
    (a + list_sum (map (fun x => common (fst (fst x)) (fst (snd x))) l), b + list_sum (map (fun x => links (fst (fst x))) l), c + list_sum (map (fun x => links (fst (snd x))) l))).
  { clear. induction l as [|x l IH]; intros a b c; [cbn; f_equal; [f_equal|]; lia|].
    cbn [map fold_left list_sum fold_right]. unfold st at 2. cbn [plus_equals]. rewrite IH. unfold list_sum. cbn [fold_right]. f_equal; [f_equal|]; lia. }
  unfold zero. rewrite S, !Nat.add_0_l. fold m p r.
  assert (Mp : m <= p). { apply sums_le. intros; apply common_le_l. }
  assert (Mr : m <= r). { apply sums_le. intros; apply common_le_r. }
  destruct (score_ok m p r Mp Mr) as (q & E & Q). exists q. split; auto. split; auto. split; [rewrite Q; now apply rate_range|].
  rewrite Q, rate_zero by auto. unfold m, p, r. clear. split.
  - intros (N & E1 & E2). split.
    + clear N. induction l as [|x l IH]; constructor.
      * cbn in E1, E2. pose proof (common_le_l (fst (fst x)) (fst (snd x))). pose proof (common_le_r (fst (fst x)) (fst (snd x))).
        assert (T : forall l, list_sum (map (fun x : (list (nat * nat) * list nat) * (list (nat * nat) * list nat) => common (fst (fst x)) (fst (snd x))) l) <= list_sum (map (fun x => links (fst (fst x))) l)).
        { intros; apply sums_le. intros; apply common_le_l. }
        assert (T' : forall l, list_sum (map (fun x : (list (nat * nat) * list nat) * (list (nat * nat) * list nat) => common (fst (fst x)) (fst (snd x))) l) <= list_sum (map (fun x => links (fst (snd x))) l)).
        { intros; apply sums_le. intros; apply common_le_r. }
        specialize (T l). specialize (T' l). intros i j. split; [apply (common_all (fst (fst x)) (fst (snd x)))|apply (common_all (fst (snd x)) (fst (fst x)))]; [|rewrite common_sym]; unfold list_sum in *; lia.
      * apply IH.
        -- cbn in E1. pose proof (common_le_l (fst (fst x)) (fst (snd x))).
           assert (T : forall l, list_sum (map (fun x : (list (nat * nat) * list nat) * (list (nat * nat) * list nat) => common (fst (fst x)) (fst (snd x))) l) <= list_sum (map (fun x => links (fst (fst x))) l)).
           { intros; apply sums_le. intros; apply common_le_l. }
           specialize (T l). unfold list_sum in *. lia.
        -- cbn in E2. pose proof (common_le_r (fst (fst x)) (fst (snd x))).
           assert (T' : forall l, list_sum (map (fun x : (list (nat * nat) * list nat) * (list (nat * nat) * list nat) => common (fst (fst x)) (fst (snd x))) l) <= list_sum (map (fun x => links (fst (snd x))) l)).
           { intros; apply sums_le. intros; apply common_le_r. }
           specialize (T' l). unfold list_sum in *. lia.
    + assert (X : list_sum (map (fun x => links (fst (snd x))) l) <> 0) by lia. clear - X. induction l as [|x l IH]; [cbn in X; lia|].
      destruct (fst (snd x)) as [|y ys] eqn:Ex; [|left; rewrite Ex; discriminate]. right. apply IH. cbn in X. rewrite Ex in X. exact X.
  - intros (A & B).
    assert (EQ : forall x : (list (nat * nat) * list nat) * (list (nat * nat) * list nat), (forall i j, In (i, j) (fst (fst x)) <-> In (i, j) (fst (snd x))) ->
      common (fst (fst x)) (fst (snd x)) = links (fst (fst x)) /\ links (fst (fst x)) = links (fst (snd x))).
    { intros x H. split; unfold common, links; apply Permutation_length, NoDup_Permutation; try apply NoDup_nodup; intros (i, j); rewrite !nodup_In; rewrite ?filter_In; rewrite ?H;
        [destruct (in_dec point_dec (i, j) (fst (snd x))); intuition congruence|reflexivity]. }
    assert (E1 : list_sum (map (fun x => common (fst (fst x)) (fst (snd x))) l) = list_sum (map (fun x => links (fst (fst x))) l)).
    { f_equal. apply map_ext_in. intros x Hx. rewrite Forall_forall in A. apply (EQ x (A x Hx)). }
    assert (E2 : list_sum (map (fun x => links (fst (fst x))) l) = list_sum (map (fun x => links (fst (snd x))) l)).
    { f_equal. apply map_ext_in. intros x Hx. rewrite Forall_forall in A. apply (EQ x (A x Hx)). }
    split; [|lia]. rewrite E2. clear - B. intro Z. induction B as [x l Hx|x l _ IH]; cbn in Z.
    + destruct (fst (snd x)) as [|y ys]; [congruence|]. assert (1 <= links (y :: ys)); [|unfold list_sum in Z; lia].
      unfold links. assert (I : In y (nodup point_dec (y :: ys))) by (apply nodup_In; now left). destruct (nodup point_dec (y :: ys)); [destruct I|cbn; lia].
    + apply IH. unfold list_sum in *. lia.
Qed.
