(** The diagonal alignment distribution. *)
From Coq Require Import Reals List Arith ZArith Lia Lra.
Import ListNotations.
From Verif Require Import FastAlign FastAlignSpec.
Local Open Scope R_scope.

(** * Sums *)
Lemma Rsum_app l1 l2 : Rsum (l1 ++ l2) = Rsum l1 + Rsum l2.
Proof. induction l1 as [|x l1 IH]; [cbn [app]; change (Rsum []) with 0; lra|]. cbn [app]. change (x + Rsum (l1 ++ l2) = x + Rsum l1 + Rsum l2). rewrite IH. lra. Qed.
Lemma Rsum_cons x l : Rsum (x :: l) = x + Rsum l.
Proof. reflexivity. Qed.
Lemma Rsum_ext {A} (f g : A -> R) l : (forall x, In x l -> f x = g x) -> Rsum (map f l) = Rsum (map g l).
Proof. intros H. f_equal. apply map_ext_in, H. Qed.
Lemma Rsum_scale {A} (f : A -> R) k l : Rsum (map (fun x => k * f x) l) = k * Rsum (map f l).
Proof. induction l as [|x l IH]; [cbn; lra|]. cbn [map]. rewrite !Rsum_cons, IH. lra. Qed.
Lemma Rsum_add {A} (f g : A -> R) l : Rsum (map (fun x => f x + g x) l) = Rsum (map f l) + Rsum (map g l).
Proof. induction l as [|x l IH]; [cbn; lra|]. cbn [map]. rewrite !Rsum_cons, IH. lra. Qed.
Lemma Rsum_le {A} (f g : A -> R) l : (forall x, In x l -> f x <= g x) -> Rsum (map f l) <= Rsum (map g l).
Proof. induction l as [|x l IH]; intros H; [cbn; lra|]. cbn [map]. rewrite !Rsum_cons. pose proof (H x (or_introl eq_refl)). pose proof (IH (fun y Hy => H y (or_intror Hy))). lra. Qed.
Lemma Rsum_nonneg {A} (f : A -> R) l : (forall x, In x l -> 0 <= f x) -> 0 <= Rsum (map f l).
Proof. induction l as [|x l IH]; intros H; [cbn; lra|]. cbn [map]. rewrite Rsum_cons. pose proof (H x (or_introl eq_refl)). pose proof (IH (fun y Hy => H y (or_intror Hy))). lra. Qed.
Lemma Rsum_pos {A} (f : A -> R) l : l <> [] -> (forall x, In x l -> 0 < f x) -> 0 < Rsum (map f l).
Proof.
  destruct l as [|x l]; [congruence|]. intros _ H. cbn [map]. rewrite Rsum_cons. pose proof (H x (or_introl eq_refl)).
  pose proof (Rsum_nonneg f l (fun y Hy => Rlt_le _ _ (H y (or_intror Hy)))). lra.
Qed.
Lemma Rsum_const {A} k (l : list A) : Rsum (map (fun _ => k) l) = INR (length l) * k.
Proof. induction l as [|x l IH]; [cbn; lra|]. cbn [map length]. rewrite Rsum_cons, IH, S_INR. lra. Qed.

Lemma seq_shift_map {A} (f : nat -> A) s k n : map f (seq (s + k) n) = map (fun x => f (s + x)%nat) (seq k n).
Proof. revert k. induction n as [|n IH]; intros k; [reflexivity|]. cbn [seq map]. rewrite <- plus_n_Sm || idtac. f_equal. replace (S (s + k)) with (s + S k)%nat by lia. apply IH. Qed.
Lemma seq_down F s : Rsum (map F (seq 1 s)) = Rsum (map (fun k => F (s - k)%nat) (seq 0 s)).
Proof.
  induction s as [|s IH]; [reflexivity|]. rewrite seq_S, map_app, Rsum_app, IH. change (seq 0 (S s)) with (0%nat :: seq 1 s). cbn [map]. rewrite !Rsum_cons. change (Rsum []) with 0. rewrite Nat.sub_0_r. change (1 + s)%nat with (S s).
  rewrite <- seq_shift, map_map. cbn [Nat.sub]. lra.
Qed.
Lemma split_sum F s n : (s <= n)%nat -> Rsum (map F (seq 1 n)) = Rsum (map (fun k => F (s - k)%nat) (seq 0 s)) + Rsum (map (fun k => F (s + 1 + k)%nat) (seq 0 (n - s))).
Proof.
  intros H. replace n with (s + (n - s))%nat at 1 by lia. rewrite seq_app, map_app, Rsum_app, seq_down. f_equal.
  replace (1 + s)%nat with (s + 1 + 0)%nat by lia. rewrite seq_shift_map. reflexivity.
Qed.

(** * Series *)
Lemma geometric r n : r <> 1 -> Rsum (map (fun k => r ^ k) (seq 0 n)) = (1 - r ^ n) / (1 - r).
Proof.
  intros H. assert (H1 : 1 - r <> 0) by lra. induction n as [|n IH]; [cbn; field; exact H1|]. rewrite seq_S, map_app, Rsum_app, IH. cbn [map Nat.add]. rewrite Rsum_cons. cbn [Rsum fold_right pow]. field. exact H1.
Qed.
Lemma arith_geom a g r d n : r <> 1 -> (1 <= n)%nat -> arithmetico_geometric_series a g r d n = Rsum (map (fun k => (a + INR k * d) * (g * r ^ k)) (seq 0 n)).
Proof.
  intros H Hn. assert (H1 : r - 1 <> 0) by lra. destruct n as [|n]; [lia|]. clear Hn. unfold arithmetico_geometric_series. rewrite Nat.sub_succ, Nat.sub_0_r. induction n as [|n IH].
  - cbn. field. exact H1.
  - rewrite seq_S, map_app, Rsum_app, <- IH. cbn [map Nat.add]. rewrite Rsum_cons. cbn [Rsum fold_right]. rewrite S_INR. cbn [pow]. field. exact H1.
Qed.

Lemma usub_le n s : (s <= n)%nat -> (Z.of_nat n < 2 ^ 32)%Z -> usub n s = (n - s)%nat.
Proof. intros H Hn. unfold usub. rewrite Z.mod_small by lia. lia. Qed.

Section Diag.
Variable i m n : nat.
Variable alpha : R.
Hypothesis Hi : (i <= m)%nat.
Hypothesis Hm : (1 <= m)%nat.
Hypothesis Hn : (1 <= n)%nat.
Hypothesis Hbig : (Z.of_nat n < 2 ^ 32)%Z.
Hypothesis Ha : alpha <> 0.
Notation s := (split_floor i m n).
Notation ratio := (exp (- alpha / INR n)).

Lemma n_pos : 0 < INR n. Proof. apply lt_0_INR. lia. Qed.
Lemma m_pos : 0 < INR m. Proof. apply lt_0_INR. lia. Qed.
Lemma ratio_1 : ratio <> 1.
Proof.
  rewrite <- exp_0. intros E. apply exp_inv in E. pose proof n_pos. apply Ha. apply (Rmult_eq_compat_r (INR n)) in E. unfold Rdiv in E. rewrite Rmult_assoc, Rinv_l in E by lra. lra.
Qed.
Lemma floor_le : (s <= n)%nat.
Proof. unfold split_floor. apply (Nat.le_trans _ (m * n / m)); [apply Nat.div_le_mono; [lia|nia]|]. rewrite Nat.mul_comm, Nat.div_mul by lia. lia. Qed.
Lemma below j : (j <= s)%nat -> Feature i j m n = INR j / INR n - INR i / INR m.
Proof.
  intros H. unfold Feature. rewrite Rabs_left1; [lra|]. pose proof n_pos. pose proof m_pos.
  assert (K : (j * m <= i * n)%nat) by (unfold split_floor in H; pose proof (Nat.mul_div_le (i * n) m ltac:(lia)); nia).
  apply le_INR in K. rewrite !mult_INR in K. apply (Rmult_le_reg_r (INR n * INR m)); [nra|]. field_simplify; lra.
Qed.
Lemma above j : (s < j)%nat -> Feature i j m n = INR i / INR m - INR j / INR n.
Proof.
  intros H. unfold Feature. rewrite Rabs_right; [lra|]. pose proof n_pos. pose proof m_pos.
  assert (K : (i * n <= j * m)%nat) by (unfold split_floor in H; pose proof (Nat.mul_succ_div_gt (i * n) m ltac:(lia)); nia).
  apply le_INR in K. rewrite !mult_INR in K. apply Rle_ge. apply (Rmult_le_reg_r (INR n * INR m)); [nra|]. field_simplify; lra.
Qed.
Lemma pow_ratio k : ratio ^ k = exp (- alpha * (INR k / INR n)).
Proof.
  pose proof n_pos. induction k as [|k IH]; [cbn; rewrite <- exp_0; f_equal; unfold Rdiv; ring|]. cbn [pow]. rewrite IH, <- exp_plus. f_equal. rewrite S_INR. field. lra.
Qed.

(** The positions below and above the diagonal, going away from it. *)
Lemma feature_below k : (k <= s)%nat -> Feature i (s - k) m n = Feature i s m n + INR k * (-1 / INR n).
Proof. intros H. pose proof n_pos. rewrite !below by lia. rewrite minus_INR by exact H. field. pose proof m_pos. lra. Qed.
Lemma feature_above k : Feature i (s + 1 + k) m n = Feature i (s + 1) m n + INR k * (-1 / INR n).
Proof. pose proof n_pos. rewrite !above by lia. rewrite plus_INR. field. pose proof m_pos. lra. Qed.
Lemma weight_below k : (k <= s)%nat -> UnnormalizedProb i (s - k) m n alpha = UnnormalizedProb i s m n alpha * ratio ^ k.
Proof. intros H. unfold UnnormalizedProb. rewrite feature_below by exact H. rewrite pow_ratio, <- exp_plus. f_equal. pose proof n_pos. field. lra. Qed.
Lemma weight_above k : UnnormalizedProb i (s + 1 + k) m n alpha = UnnormalizedProb i (s + 1) m n alpha * ratio ^ k.
Proof. unfold UnnormalizedProb. rewrite feature_above. rewrite pow_ratio, <- exp_plus. f_equal. pose proof n_pos. field. lra. Qed.

Lemma in_seq0 k b : In k (seq 0 b) -> (k < b)%nat.
Proof. intros H. apply in_seq in H. lia. Qed.

Lemma ComputeZ_sum : ComputeZ i m n alpha = Rsum (map (fun j => UnnormalizedProb i j m n alpha) (seq 1 n)).
Proof.
  pose proof floor_le as Hs. pose proof ratio_1 as Hr. unfold ComputeZ. rewrite usub_le by (assumption). rewrite (split_sum _ s n Hs).
  rewrite (Rsum_ext (fun k => UnnormalizedProb i (s - k) m n alpha) (fun k => UnnormalizedProb i s m n alpha * ratio ^ k)) by (intros k Hk; apply in_seq0 in Hk; apply weight_below; lia).
  rewrite (Rsum_ext (fun k => UnnormalizedProb i (s + 1 + k) m n alpha) (fun k => UnnormalizedProb i (s + 1) m n alpha * ratio ^ k)) by (intros k Hk; apply weight_above).
  rewrite !Rsum_scale, !geometric by exact Hr. f_equal.
  - destruct (Nat.eqb_spec s 0) as [->|_]; [cbn; unfold Rdiv; ring|unfold Rdiv; ring].
  - destruct (Nat.eqb_spec (n - s) 0) as [->|_]; [cbn; unfold Rdiv; ring|unfold Rdiv; ring].
Qed.

Lemma DLogZ_sum : ComputeDLogZ i m n alpha = Rsum (map (fun j => Feature i j m n * UnnormalizedProb i j m n alpha) (seq 1 n)) / ComputeZ i n m alpha.
Proof.
  pose proof floor_le as Hs. pose proof ratio_1 as Hr. unfold ComputeDLogZ. f_equal. rewrite usub_le by assumption. rewrite (split_sum _ s n Hs). rewrite Rplus_comm. f_equal.
  - rewrite (Rsum_ext (fun k => Feature i (s - k) m n * UnnormalizedProb i (s - k) m n alpha) (fun k => (Feature i s m n + INR k * (-1 / INR n)) * (UnnormalizedProb i s m n alpha * ratio ^ k))).
    2:{ intros k Hk. apply in_seq0 in Hk. rewrite feature_below, weight_below by lia. reflexivity. }
    destruct (Nat.eqb_spec s 0) as [->|N]; [reflexivity|]. apply arith_geom; [exact Hr|lia].
  - rewrite (Rsum_ext (fun k => Feature i (s + 1 + k) m n * UnnormalizedProb i (s + 1 + k) m n alpha) (fun k => (Feature i (s + 1) m n + INR k * (-1 / INR n)) * (UnnormalizedProb i (s + 1) m n alpha * ratio ^ k))).
    2:{ intros k Hk. rewrite feature_above, weight_above. reflexivity. }
    destruct (Nat.eqb_spec (n - s) 0) as [->|N]; [reflexivity|]. apply arith_geom; [exact Hr|lia].
Qed.
End Diag.

Lemma weight_spec i j m n alpha : UnnormalizedProb i j m n alpha = diag_weight alpha i j m n.
Proof. unfold UnnormalizedProb, diag_weight, Feature, offdiag. f_equal. ring. Qed.
Theorem normaliser i m n alpha : (i <= m)%nat -> (1 <= m)%nat -> (1 <= n)%nat -> (Z.of_nat n < 2 ^ 32)%Z -> alpha <> 0 -> ComputeZ i m n alpha = diag_total alpha i m n.
Proof. intros. rewrite ComputeZ_sum by assumption. apply Rsum_ext. intros j _. apply weight_spec. Qed.
Lemma diag_total_pos i m n alpha : (1 <= n)%nat -> 0 < diag_total alpha i m n.
Proof. intros H. apply Rsum_pos; [destruct n; [lia|discriminate]|]. intros j _. apply exp_pos. Qed.

(** * The derivative *)
Lemma derive_sum (f : nat -> R) l alpha : derivable_pt_lim (fun a => Rsum (map (fun j => exp (f j * a)) l)) alpha (Rsum (map (fun j => f j * exp (f j * alpha)) l)).
Proof.
  induction l as [|j l IH]; [apply derivable_pt_lim_const|]. cbn [map]. rewrite Rsum_cons.
  apply (derivable_pt_lim_plus (fun a => exp (f j * a)) (fun a => Rsum (map (fun j => exp (f j * a)) l))); [|exact IH].
  replace (f j * exp (f j * alpha)) with (exp (f j * alpha) * f j) by ring.
  apply (derivable_pt_lim_comp (fun a => f j * a) exp); [|apply derivable_pt_lim_exp].
  replace (f j) with (f j * 1) at 1 by ring. apply (derivable_pt_lim_scal (fun a => a)), derivable_pt_lim_id.
Qed.
Theorem gradient_of_log i m n alpha : (1 <= n)%nat -> derivable_pt_lim (fun a => ln (diag_total a i m n)) alpha (Rsum (map (fun j => Feature i j m n * UnnormalizedProb i j m n alpha) (seq 1 n)) / diag_total alpha i m n).
Proof.
  intros Hn. pose proof (diag_total_pos i m n alpha Hn) as P. unfold Rdiv. rewrite Rmult_comm.
  apply (derivable_pt_lim_comp (fun a => diag_total a i m n) ln); [|apply derivable_pt_lim_ln; exact P].
  assert (E : forall a, diag_total a i m n = Rsum (map (fun j => exp (Feature i j m n * a)) (seq 1 n))) by (intros a; apply Rsum_ext; intros j _; symmetry; apply (weight_spec i j m n a)).
  intros eps He. destruct (derive_sum (fun j => Feature i j m n) (seq 1 n) alpha eps He) as (d & Hd). exists d. intros h Hh Hh2. rewrite !E. apply Hd; assumption.
Qed.
Theorem gradient_square i m alpha : (i <= m)%nat -> (1 <= m)%nat -> (Z.of_nat m < 2 ^ 32)%Z -> alpha <> 0 -> derivable_pt_lim (fun a => ln (diag_total a i m m)) alpha (ComputeDLogZ i m m alpha).
Proof. intros Hi Hm Hb Ha. rewrite DLogZ_sum by assumption. rewrite normaliser by assumption. apply gradient_of_log, Hm. Qed.

(** * The distribution *)
Section Prior.
Variable c : config.
Variable alpha : R.
Lemma prior_diag j m n i : favor_diagonal c = true -> (j < m)%nat -> (1 <= n)%nat -> (Z.of_nat n < 2 ^ 32)%Z -> alpha <> 0 -> prob_align_null c <> 1 -> (1 <= i)%nat ->
  prior c alpha j m n i = (1 - prob_align_null c) * diag_prob alpha (j + 1) i m n.
Proof.
  intros F Hj Hn Hb Ha Hp Hi. unfold prior. rewrite F. destruct i as [|i]; [lia|]. rewrite normaliser by (assumption || lia). rewrite weight_spec. unfold diag_prob. pose proof (diag_total_pos (j + 1) m n alpha Hn). field. split; lra.
Qed.
Lemma diag_prob_sum i m n : (1 <= n)%nat -> Rsum (map (fun j => diag_prob alpha i j m n) (seq 1 n)) = 1.
Proof.
  intros Hn. pose proof (diag_total_pos i m n alpha Hn). unfold diag_prob. rewrite (Rsum_ext _ (fun j => / diag_total alpha i m n * diag_weight alpha i j m n)) by (intros; unfold Rdiv; ring).
  rewrite Rsum_scale. fold (diag_total alpha i m n). field. lra.
Qed.
Theorem diag_sum j m n : favor_diagonal c = true -> (j < m)%nat -> (1 <= n)%nat -> (Z.of_nat n < 2 ^ 32)%Z -> alpha <> 0 -> prob_align_null c <> 1 ->
  Rsum (map (prior c alpha j m n) (seq 1 n)) = 1 - prob_align_null c.
Proof.
  intros F Hj Hn Hb Ha Hp. rewrite (Rsum_ext _ (fun i => (1 - prob_align_null c) * diag_prob alpha (j + 1) i m n)) by (intros i Hi; apply in_seq in Hi; apply prior_diag; (assumption || lia)).
  rewrite Rsum_scale, diag_prob_sum by exact Hn. ring.
Qed.
Theorem uniform_sum j m n : favor_diagonal c = false -> (1 <= n)%nat -> Rsum (map (prior c alpha j m n) (if use_null c then 0%nat :: seq 1 n else seq 1 n)) = 1.
Proof.
  intros F Hn. rewrite (Rsum_ext (prior c alpha j m n) (fun _ => uniform c n)) by (intros [|i] _; unfold prior; rewrite F; reflexivity). rewrite Rsum_const. unfold uniform. destruct (use_null c).
  - cbn [length]. rewrite seq_length. replace (n + 1)%nat with (S n) by lia. field. apply not_0_INR. lia.
  - rewrite seq_length, Nat.add_0_r. field. apply not_0_INR. lia.
Qed.
Theorem closer_is_likelier i j k m n : 0 < alpha -> (1 <= n)%nat -> offdiag i j m n < offdiag i k m n -> diag_prob alpha i k m n < diag_prob alpha i j m n.
Proof.
  intros Ha Hn H. unfold diag_prob. pose proof (diag_total_pos i m n alpha Hn). apply Rmult_lt_compat_r; [apply Rinv_0_lt_compat; assumption|]. apply exp_increasing. nra.
Qed.
End Prior.

(** With its line 44 the function returns the derivative, but for this factor. *)
Theorem gradient_factor i m n alpha : (i <= m)%nat -> (i <= n)%nat -> (1 <= i)%nat -> (Z.of_nat m < 2 ^ 32)%Z -> (Z.of_nat n < 2 ^ 32)%Z -> alpha <> 0 ->
  derivable_pt_lim (fun a => ln (diag_total a i m n)) alpha (ComputeDLogZ i m n alpha * (diag_total alpha i n m / diag_total alpha i m n)).
Proof.
  intros Hm Hn Hi Bm Bn Ha. rewrite DLogZ_sum by (assumption || lia). rewrite normaliser by (assumption || lia).
  pose proof (diag_total_pos i m n alpha ltac:(lia)). pose proof (diag_total_pos i n m alpha ltac:(lia)).
  replace (Rsum (map (fun j => Feature i j m n * UnnormalizedProb i j m n alpha) (seq 1 n)) / diag_total alpha i n m * (diag_total alpha i n m / diag_total alpha i m n)) with (Rsum (map (fun j => Feature i j m n * UnnormalizedProb i j m n alpha) (seq 1 n)) / diag_total alpha i m n) by (field; split; lra).
  apply gradient_of_log. lia.
Qed.
Theorem prior_positions c alpha j m n : favor_diagonal c = true -> use_null c = true -> (j < m)%nat -> (1 <= n)%nat -> (Z.of_nat n < 2 ^ 32)%Z -> alpha <> 0 -> prob_align_null c <> 1 ->
  Rsum (map (prior c alpha j m n) (positions (use_null c) n)) = 1.
Proof.
  intros F U Hj Hn Hb Ha Hp. rewrite U. unfold positions. cbn [app map]. rewrite Rsum_cons, diag_sum by assumption. unfold prior. rewrite F. lra.
Qed.
Theorem uniform_positions c alpha j m n : favor_diagonal c = false -> (1 <= n)%nat -> Rsum (map (prior c alpha j m n) (positions (use_null c) n)) = 1.
Proof. intros F Hn. pose proof (uniform_sum c alpha j m n F Hn) as K. unfold positions. destruct (use_null c); exact K. Qed.
Theorem prior_closer c alpha j m n i k : favor_diagonal c = true -> (j < m)%nat -> (1 <= n)%nat -> (Z.of_nat n < 2 ^ 32)%Z -> 0 < alpha -> prob_align_null c < 1 -> (1 <= i)%nat -> (1 <= k)%nat ->
  offdiag (j + 1) i m n < offdiag (j + 1) k m n -> prior c alpha j m n k < prior c alpha j m n i.
Proof.
  intros F Hj Hn Hb Ha Hp Hi Hk H. rewrite !prior_diag by (assumption || lra). apply Rmult_lt_compat_l; [lra|]. apply closer_is_likelier; assumption.
Qed.
