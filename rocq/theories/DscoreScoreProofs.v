(** Proofs about dtrain's sentence-level scores. *)
From Coq Require Import Reals List Arith Bool Permutation Lia Lra Psatz.
From Verif Require Import Dscore DscoreSpec DscoreProofs.
Import ListNotations.
Local Open Scope R_scope.

(** Counts as they occur: 0 <= clipped <= sum. *)
Definition fine (c : counts) : Prop := Forall (fun p => 0 <= fst p <= snd p) c.

Lemma fine_nth : forall c i, fine c -> 0 <= clipped_ c i <= sum_ c i.
Proof.
  intros c i F. unfold clipped_, sum_. destruct (nth_in_or_default i c (0, 0)) as [I|E].
  - unfold fine in F. rewrite Forall_forall in F. apply F. exact I.
  - rewrite E. cbn. lra.
Qed.

Lemma make_at : forall hyp ref N i, (i < N)%nat ->
  clipped_ (make_ngram_counts hyp ref N) i = INR (matches (S i) hyp ref) /\
  sum_ (make_ngram_counts hyp ref N) i = INR (length hyp + 1 - S i).
Proof.
  intros hyp ref N i Hi. destruct (counts_ok hyp ref N (S i)) as [_ E]; [lia|].
  replace (S i - 1)%nat with i in E by lia. unfold clipped_, sum_. rewrite E. split; reflexivity.
Qed.
Lemma make_length : forall hyp ref N, length (make_ngram_counts hyp ref N) = N.
Proof.
  intros hyp ref N. destruct N as [|N].
  - unfold make_ngram_counts. cbn [zero repeat]. generalize (make_ngrams hyp 0). intros m. induction m as [|e m IH]; [reflexivity|exact IH].
  - apply (counts_ok hyp ref (S N) 1). lia.
Qed.
Lemma make_fine : forall hyp ref N, fine (make_ngram_counts hyp ref N).
Proof.
  intros hyp ref N. unfold fine. rewrite Forall_forall. intros p I. destruct (In_nth _ _ (0, 0) I) as (i & Hi & <-).
  rewrite make_length in Hi. destruct (make_at hyp ref N i Hi) as [A B]. unfold clipped_, sum_ in A, B. rewrite A, B.
  split; [apply pos_INR|apply le_INR, matches_le].
Qed.

Lemma missing_true : forall c i, fine c -> missing c i = true -> clipped_ c i = 0.
Proof.
  intros c i F. pose proof (fine_nth c i F). unfold missing. destruct (Req_EM_T (sum_ c i) 0); [lra|].
  destruct (Req_EM_T (clipped_ c i) 0); [auto|discriminate].
Qed.
Lemma missing_false : forall c i, fine c -> missing c i = false -> 0 < clipped_ c i <= sum_ c i.
Proof.
  intros c i F. pose proof (fine_nth c i F). unfold missing. destruct (Req_EM_T (sum_ c i) 0); [discriminate|].
  destruct (Req_EM_T (clipped_ c i) 0); [discriminate|]. lra.
Qed.

Lemma ratio_in : forall a b, 0 < a <= b -> 0 < a / b <= 1.
Proof.
  intros a b H. split; [apply Rdiv_lt_0_compat; lra|]. apply Rmult_le_reg_r with b; [lra|]. unfold Rdiv. rewrite Rmult_assoc, Rinv_l by lra. lra.
Qed.
Lemma ln_nonpos : forall x, 0 < x <= 1 -> ln x <= 0.
Proof. intros x [A B]. destruct (Req_dec x 1) as [-> |N]; [rewrite ln_1; lra|]. left. rewrite <- ln_1. apply ln_increasing; lra. Qed.

Lemma exp_nonpos : forall x, x <= 0 -> exp x <= 1.
Proof. intros x H. rewrite <- exp_0. destruct (Req_dec x 0) as [-> |N]; [lra|]. left. apply exp_increasing. lra. Qed.
Lemma bp_in : forall h r, (0 < h)%nat -> 0 < brevity_penalty h r <= 1.
Proof.
  intros h r Hh. unfold brevity_penalty. destruct (r <? h)%nat eqn:E; [lra|]. apply Nat.ltb_ge in E.
  split; [apply exp_pos|]. apply exp_nonpos. assert (I : INR h <= INR r) by (apply le_INR; exact E).
  assert (P : 0 < INR h) by (apply lt_0_INR; exact Hh).
  assert (1 <= INR r / INR h). { apply Rmult_le_reg_r with (INR h); [exact P|]. unfold Rdiv. rewrite Rmult_assoc, Rinv_l by lra. lra. }
  lra.
Qed.
Lemma bp_same : forall h, (0 < h)%nat -> brevity_penalty h h = 1.
Proof.
  intros h Hh. unfold brevity_penalty. rewrite Nat.ltb_irrefl. assert (P : 0 < INR h) by (apply lt_0_INR; exact Hh).
  replace (1 - INR h / INR h) with 0 by (field; lra). apply exp_0.
Qed.

Lemma order_le : forall N r, (order N r <= N)%nat /\ (order N r <= r)%nat.
Proof. intros N r. unfold order. destruct (r <? N)%nat eqn:E; [apply Nat.ltb_lt in E; lia|apply Nat.ltb_ge in E; lia]. Qed.
Lemma order_min : forall N r, order N r = Nat.min N r.
Proof. intros N r. unfold order. destruct (r <? N)%nat eqn:E; [apply Nat.ltb_lt in E; lia|apply Nat.ltb_ge in E; lia]. Qed.

Lemma same_at : forall s N i, (i < N)%nat -> (i < length s)%nat ->
  clipped_ (make_ngram_counts s s N) i = sum_ (make_ngram_counts s s N) i /\ 0 < sum_ (make_ngram_counts s s N) i.
Proof.
  intros s N i Hi Hl. destruct (make_at s s N i Hi) as [A B]. rewrite A, B, matches_same. split; [reflexivity|]. apply lt_0_INR. lia.
Qed.
Lemma same_missing : forall s N i, (i < N)%nat -> (i < length s)%nat -> missing (make_ngram_counts s s N) i = false.
Proof.
  intros s N i Hi Hl. destruct (same_at s N i Hi Hl) as [A B]. unfold missing.
  destruct (Req_EM_T _ 0); [lra|]. destruct (Req_EM_T _ 0); [lra|reflexivity].
Qed.
Lemma same_ln : forall s N i, (i < N)%nat -> (i < length s)%nat -> forall a, 0 <= a ->
  ln ((clipped_ (make_ngram_counts s s N) i + a) / (sum_ (make_ngram_counts s s N) i + a)) = 0.
Proof.
  intros s N i Hi Hl a Ha. destruct (same_at s N i Hi Hl) as [A B]. rewrite A. unfold Rdiv. rewrite Rinv_r by lra. apply ln_1.
Qed.

Section Scorers.
Variable N_ : nat.
Variable w_ : list R.
Hypothesis N_pos : (0 < N_)%nat.
Hypothesis w_nonneg : Forall (fun x => 0 <= x) w_.

Lemma weight_nonneg : forall r i, 0 <= weight N_ w_ r i.
Proof.
  intros r i. unfold weight. destruct (r <? N_)%nat.
  - unfold Rdiv. rewrite Rmult_1_l. destruct r as [|r]; [cbn; rewrite Rinv_0; lra|]. left. apply Rinv_0_lt_compat. apply lt_0_INR. lia.
  - destruct (nth_in_or_default i w_ 0) as [I| ->]; [|lra]. rewrite Forall_forall in w_nonneg. apply w_nonneg. exact I.
Qed.

Lemma bleu_loop_le : forall c r is s, fine c -> s <= 0 ->
  match bleu_loop N_ w_ c r is s with Some t => t <= 0 | None => True end.
Proof.
  intros c r is. induction is as [|i is IH]; intros s F Hs; cbn [bleu_loop]; [exact Hs|].
  destruct (missing c i) eqn:M; [exact I|]. apply IH; [exact F|].
  pose proof (missing_false c i F M) as B. pose proof (ln_nonpos _ (ratio_in _ _ B)). pose proof (weight_nonneg r i). nra.
Qed.

Lemma Bleu_range : forall c h r, fine c -> 0 <= Bleu N_ w_ c h r <= 1.
Proof.
  intros c h r F. unfold Bleu. destruct ((h =? 0)%nat || (r =? 0)%nat) eqn:Z; [lra|]. apply orb_false_iff in Z. destruct Z as [Zh Zr].
  apply Nat.eqb_neq in Zh. pose proof (bleu_loop_le c r (seq 0 (order N_ r)) 0 F ltac:(lra)) as L.
  destruct (bleu_loop N_ w_ c r (seq 0 (order N_ r)) 0) as [s|]; [|lra].
  pose proof (bp_in h r ltac:(lia)). pose proof (exp_nonpos s L). pose proof (exp_pos s). nra.
Qed.

Lemma bleu_range : forall hyp ref, 0 <= bleu_score N_ w_ hyp ref <= 1.
Proof.
  intros hyp ref. unfold bleu_score. destruct ((length hyp =? 0)%nat || (length ref =? 0)%nat); [lra|]. apply Bleu_range, make_fine.
Qed.

Lemma bleu_same : forall s, s <> [] -> bleu_score N_ w_ s s = 1.
Proof.
  intros s Ns. unfold bleu_score, Bleu.
  assert (L : (length s =? 0)%nat = false) by (destruct s; [congruence|reflexivity]). rewrite L. cbn [orb].
  assert (G : forall is, (forall i, In i is -> (i < N_)%nat /\ (i < length s)%nat) ->
    bleu_loop N_ w_ (make_ngram_counts s s N_) (length s) is 0 = Some 0).
  { induction is as [|i is IH]; intros Hi; [reflexivity|]. cbn [bleu_loop]. destruct (Hi i (or_introl eq_refl)) as [H1 H2].
    rewrite same_missing by assumption. pose proof (same_ln s N_ i H1 H2 0 ltac:(lra)) as E. rewrite !Rplus_0_r in E. rewrite E.
    rewrite Rmult_0_r, Rplus_0_l. apply IH. intros j Hj. apply Hi. right. exact Hj. }
  rewrite G. { rewrite bp_same by (apply Nat.eqb_neq in L; lia). rewrite exp_0. lra. }
  intros i Hi. apply in_seq in Hi. pose proof (order_le N_ (length s)). lia.
Qed.

(** 'Stupid' scores. *)
Lemma stupid_term : forall c i, fine c -> ((i =? 0)%nat && missing c i) = false ->
  let a := if (i =? 0)%nat then 0 else 1 in 0 < clipped_ c i + a <= sum_ c i + a.
Proof.
  intros c i F M. pose proof (fine_nth c i F). destruct (i =? 0)%nat; cbn in *; [|lra]. pose proof (missing_false c i F M). lra.
Qed.
Lemma stupid_loop_le : forall c r is s, fine c -> s <= 0 ->
  match stupid_loop N_ w_ c r is s with Some t => t <= 0 | None => In 0%nat is /\ missing c 0 = true end.
Proof.
  intros c r is. induction is as [|i is IH]; intros s F Hs; cbn [stupid_loop]; [exact Hs|].
  destruct ((i =? 0)%nat && missing c i) eqn:M.
  - apply andb_true_iff in M. destruct M as [E M]. apply Nat.eqb_eq in E. subst. split; [left; reflexivity|exact M].
  - pose proof (stupid_term c i F M) as B. cbv zeta in B. set (a := if (i =? 0)%nat then 0 else 1) in *. cbv zeta.
    assert (Hs' : s + weight N_ w_ r i * ln ((clipped_ c i + a) / (sum_ c i + a)) <= 0).
    { pose proof (ln_nonpos _ (ratio_in _ _ B)). pose proof (weight_nonneg r i). nra. }
    specialize (IH _ F Hs'). destruct (stupid_loop N_ w_ c r is _); [exact IH|]. split; [right; tauto|tauto].
Qed.
Lemma stupid_loop_none : forall c r is s, In 0%nat is -> missing c 0 = true -> stupid_loop N_ w_ c r is s = None.
Proof.
  intros c r is. induction is as [|i is IH]; intros s I M; [destruct I|]. cbn [stupid_loop].
  destruct ((i =? 0)%nat && missing c i) eqn:E; [reflexivity|]. destruct I as [-> |I]; [cbn in E; congruence|]. apply IH; assumption.
Qed.

Lemma zero_in : forall ref : list nat, ref <> [] -> In 0%nat (seq 0 (order N_ (length ref))).
Proof. intros ref H. apply in_seq. rewrite order_min. destruct ref; [congruence|]. cbn. lia. Qed.

Lemma stupid_ok : forall extra hyp ref, hyp <> [] -> ref <> [] ->
  0 <= stupid_score N_ w_ extra hyp ref <= 1 /\
  (stupid_score N_ w_ extra hyp ref = 0 <-> forall w, In w hyp -> ~ In w ref).
Proof.
  intros extra hyp ref Nh Nr. unfold stupid_score.
  assert (Lh : (length hyp =? 0)%nat = false) by (destruct hyp; [congruence|reflexivity]).
  assert (Lr : (length ref =? 0)%nat = false) by (destruct ref; [congruence|reflexivity]). rewrite Lh, Lr. cbn [orb].
  set (c := make_ngram_counts hyp ref N_). set (is := seq 0 (order N_ (length ref))).
  assert (F : fine c) by apply make_fine.
  assert (M0 : missing c 0 = true <-> forall w, In w hyp -> ~ In w ref).
  { rewrite <- matches_one. destruct (make_at hyp ref N_ 0 N_pos) as [A B]. fold c in A, B. split.
    - intros M. apply (missing_true c 0 F) in M. rewrite A in M. apply INR_eq. rewrite M. reflexivity.
    - intros E. rewrite E in A. unfold missing. destruct (Req_EM_T (sum_ c 0) 0); [reflexivity|].
      destruct (Req_EM_T (clipped_ c 0) 0); [reflexivity|]. exfalso. apply n0. rewrite A. reflexivity. }
  pose proof (stupid_loop_le c (length ref) is 0 F ltac:(lra)) as L.
  destruct (stupid_loop N_ w_ c (length ref) is 0) as [s|] eqn:E.
  - apply Nat.eqb_neq in Lh. pose proof (bp_in (length hyp) (length ref + extra) ltac:(lia)) as P. pose proof (exp_nonpos s L). pose proof (exp_pos s).
    split; [nra|]. split.
    + intros X. assert (0 < brevity_penalty (length hyp) (length ref + extra) * exp s) by (apply Rmult_lt_0_compat; lra). lra.
    + intros X. apply M0 in X. rewrite stupid_loop_none in E; [discriminate|apply zero_in; exact Nr|exact X].
  - split; [lra|]. split; [intros _; apply M0; apply L|reflexivity].
Qed.

Lemma stupid_same : forall s, s <> [] -> stupid_score N_ w_ 0 s s = 1.
Proof.
  intros s Ns. unfold stupid_score.
  assert (L : (length s =? 0)%nat = false) by (destruct s; [congruence|reflexivity]). rewrite L. cbn [orb].
  assert (G : forall is, (forall i, In i is -> (i < N_)%nat /\ (i < length s)%nat) ->
    stupid_loop N_ w_ (make_ngram_counts s s N_) (length s) is 0 = Some 0).
  { induction is as [|i is IH]; intros Hi; [reflexivity|]. cbn [stupid_loop]. destruct (Hi i (or_introl eq_refl)) as [H1 H2].
    rewrite same_missing by assumption. rewrite andb_false_r. cbv zeta.
    rewrite (same_ln s N_ i H1 H2) by (destruct (i =? 0)%nat; lra). rewrite Rmult_0_r, Rplus_0_l.
    apply IH. intros j Hj. apply Hi. right. exact Hj. }
  rewrite G. { rewrite Nat.add_0_r, bp_same by (apply Nat.eqb_neq in L; lia). rewrite exp_0. lra. }
  intros i Hi. apply in_seq in Hi. pose proof (order_le N_ (length s)). lia.
Qed.

(** Approximate BLEU. *)
Lemma plus_eq_ok : forall a b, length a = length b -> exists c, plus_eq a b = Some c /\ length c = length a /\ (fine a -> fine b -> fine c).
Proof.
  induction a as [|x a IH]; intros [|y b] L; try discriminate.
  - exists []. split; [reflexivity|]. split; [reflexivity|]. intros _ _. constructor.
  - cbn in L. destruct (IH b) as (c & E & Lc & F); [lia|]. cbn [plus_eq]. rewrite E. eexists. split; [reflexivity|]. split; [cbn; lia|].
    intros Fa Fb. inversion Fa; inversion Fb; subst. constructor; [cbn; lra|]. apply F; assumption.
Qed.
Lemma times_ok : forall a x, 0 <= x -> fine a -> length (times a x) = length a /\ fine (times a x).
Proof.
  intros a x Hx F. unfold times. rewrite map_length. split; [reflexivity|]. unfold fine in *. rewrite Forall_map.
  eapply Forall_impl; [|exact F]. intros [p q] [A B]. cbn in *. split; [nra|nra].
Qed.
Lemma zero_fine : forall n, fine (zero n) /\ length (zero n) = n.
Proof. intros n. unfold zero. rewrite repeat_length. split; [|reflexivity]. apply Forall_forall. intros p I. apply repeat_spec in I. subst. cbn. lra. Qed.

Lemma approx_step : forall d g hyp ref rank, 0 <= d -> fine g -> length g = N_ ->
  exists v g', approx_score N_ w_ d g hyp ref rank = Some (v, g') /\ 0 <= v <= 1 /\ fine g' /\ length g' = N_.
Proof.
  intros d g hyp ref rank Hd F L. unfold approx_score. destruct (length ref =? 0)%nat; [exists 0, g; repeat split; auto; lra|].
  set (c := if (length hyp =? 0)%nat then zero N_ else make_ngram_counts hyp ref N_).
  assert (C : fine c /\ length c = N_).
  { unfold c. destruct (length hyp =? 0)%nat; [apply zero_fine|]. split; [apply make_fine|apply make_length]. }
  destruct C as [Fc Lc]. destruct (plus_eq_ok g c) as (t & Et & Lt & Ft); [lia|]. specialize (Ft F Fc).
  cbv zeta. rewrite Et. cbn [option_map].
  destruct (times_ok t d Hd Ft) as [L1 L2].
  destruct (length hyp =? 0)%nat.
  - destruct (rank =? 0)%nat; [exists 0, (times t d)|exists 0, g]; repeat split; auto; try lra; lia.
  - pose proof (Bleu_range t (length hyp) (length ref) Ft) as B.
    destruct (rank =? 0)%nat; [exists (Bleu N_ w_ t (length hyp) (length ref)), (times t d)|exists (Bleu N_ w_ t (length hyp) (length ref)), g]; repeat split; auto; try lra; lia.
Qed.

Lemma approx_ok : forall d calls, 0 <= d -> exists vs, approx_run N_ w_ d (zero N_) calls = Some vs /\
  length vs = length calls /\ Forall (fun v => 0 <= v <= 1) vs.
Proof.
  intros d calls Hd. destruct (zero_fine N_) as [F L]. revert F L. generalize (zero N_).
  induction calls as [|[[hyp ref] rank] calls IH]; intros g F L; [exists []; repeat split; constructor|].
  destruct (approx_step d g hyp ref rank Hd F L) as (v & g' & E & V & F' & L'). cbn [approx_run]. rewrite E.
  destruct (IH g' F' L') as (vs & Ev & Lv & Fv). rewrite Ev. exists (v :: vs). cbn. repeat split; [lia|]. constructor; assumption.
Qed.
End Scorers.

(** BLEU with default weights is a geometric mean. *)
Lemma exp_pow : forall x n, exp x ^ n = exp (INR n * x).
Proof.
  intros x n. induction n as [|n IH]; [cbn; rewrite Rmult_0_l, exp_0; reflexivity|]. cbn [pow]. rewrite IH, <- exp_plus, S_INR. f_equal. ring.
Qed.

Lemma default_weight : forall N r i, (0 < r)%nat -> (i < order N r)%nat -> weight N (default_weights N) r i = 1 / INR (order N r).
Proof.
  intros N r i Hr Hi. unfold weight, order in *. destruct (r <? N)%nat; [reflexivity|]. unfold default_weights.
  assert (I : In (nth i (repeat (1 / INR N) N) 0) (repeat (1 / INR N) N)) by (apply nth_In; rewrite repeat_length; exact Hi).
  apply repeat_spec in I. exact I.
Qed.

Lemma bleu_geometric : forall N hyp ref, (0 < N)%nat -> hyp <> [] -> ref <> [] ->
  let M := Nat.min N (length ref) in
  bleu_score N (default_weights N) hyp ref ^ M =
  bp (length hyp) (length ref) ^ M * product (map (fun n => precision n hyp ref) (seq 1 M)).
Proof.
  intros N hyp ref HN Nh Nr M. unfold bleu_score, Bleu.
  assert (Lh : (length hyp =? 0)%nat = false) by (destruct hyp; [congruence|reflexivity]).
  assert (Lr : (length ref =? 0)%nat = false) by (destruct ref; [congruence|reflexivity]). rewrite Lh, Lr. cbn [orb].
  rewrite order_min. fold M.
  assert (HM : (0 < M)%nat) by (unfold M; apply Nat.eqb_neq in Lr; lia). assert (HMN : (M <= N)%nat) by (unfold M; lia).
  set (c := make_ngram_counts hyp ref N). assert (F : fine c) by apply make_fine.
  assert (P : forall i, (i < M)%nat -> clipped_ c i / sum_ c i = precision (S i) hyp ref).
  { intros i Hi. destruct (make_at hyp ref N i) as [A B]; [lia|]. fold c in A, B. rewrite A, B. reflexivity. }
  assert (W : forall i, (i < M)%nat -> weight N (default_weights N) (length ref) i = 1 / INR M).
  { intros i Hi. apply Nat.eqb_neq in Lr. rewrite default_weight; [f_equal; f_equal; apply order_min|lia|rewrite order_min; exact Hi]. }
  assert (G : forall k a s, (a + k <= M)%nat ->
    match bleu_loop N (default_weights N) c (length ref) (seq a k) s with
    | Some t => exp (INR M * t) = exp (INR M * s) * product (map (fun n => precision n hyp ref) (seq (S a) k))
    | None => product (map (fun n => precision n hyp ref) (seq (S a) k)) = 0
    end).
  { induction k as [|k IH]; intros a s Ha; cbn [seq bleu_loop map product fold_right]; [rewrite Rmult_1_r; reflexivity|].
    fold (product (map (fun n => precision n hyp ref) (seq (S (S a)) k))).
    destruct (missing c a) eqn:E.
    - apply (missing_true c a F) in E. rewrite <- (P a) by lia. rewrite E. unfold Rdiv. rewrite Rmult_0_l, Rmult_0_l. reflexivity.
    - pose proof (missing_false c a F E) as B. specialize (IH (S a) (s + weight N (default_weights N) (length ref) a * ln (clipped_ c a / sum_ c a)) ltac:(lia)).
      destruct (bleu_loop _ _ _ _ _ _) as [t|].
      + rewrite IH. rewrite W by lia. rewrite Rmult_plus_distr_l, exp_plus.
        replace (INR M * (1 / INR M * ln (clipped_ c a / sum_ c a))) with (ln (clipped_ c a / sum_ c a)) by (field; apply not_0_INR; lia).
        rewrite exp_ln by (apply ratio_in; exact B). rewrite P by lia. ring.
      + rewrite IH. ring. }
  specialize (G M 0%nat 0 ltac:(lia)). destruct (bleu_loop _ _ _ _ _ _) as [t|].
  - rewrite Rpow_mult_distr, exp_pow, G, Rmult_0_r, exp_0, Rmult_1_l. unfold brevity_penalty, bp. reflexivity.
  - rewrite G, Rmult_0_r. apply pow_i. exact HM.
Qed.

(** Smooth and sum BLEU. *)
Lemma halves : forall N M, (M <= N)%nat -> fold_right Rplus 0 (map (fun i => 1 / 2 ^ (N - i)) (seq 0 M)) = / 2 ^ (N - M) - / 2 ^ N.
Proof.
  intros N M. induction M as [|M IH]; intros H.
  - cbn. rewrite Nat.sub_0_r. ring.
  - rewrite seq_S, map_app, fold_right_app. cbn [map fold_right Nat.add].
    assert (A : forall l x, fold_right Rplus x l = fold_right Rplus 0 l + x).
    { induction l as [|y l IHl]; intros x; cbn; [ring|]. rewrite IHl. ring. }
    rewrite A, IH by lia. replace (N - M)%nat with (S (N - S M)) by lia. cbn [pow]. field; split; apply pow_nonzero; lra.
Qed.

Lemma halves_le : forall N M, (M <= N)%nat -> fold_right Rplus 0 (map (fun i => 1 / 2 ^ (N - i)) (seq 0 M)) <= 1 - / 2 ^ N.
Proof.
  intros N M H. rewrite halves by exact H. assert (1 <= 2 ^ (N - M)) by (apply pow_R1_Rle; lra).
  assert (/ 2 ^ (N - M) <= / 1) by (apply Rinv_le_contravar; lra). rewrite Rinv_1 in *. lra.
Qed.

Lemma pow2_pos : forall n, 0 < 2 ^ n.
Proof. intros. apply pow_lt. lra. Qed.

Lemma smooth_loop_in : forall N c k a ib s, fine c -> (forall j, (a <= j)%nat -> ib j <= 0) ->
  s <= smooth_loop N c (seq a k) ib s <= s + fold_right Rplus 0 (map (fun i => 1 / 2 ^ (N - i)) (seq a k)).
Proof.
  intros N c k. induction k as [|k IH]; intros a ib s F Hib; cbn [seq smooth_loop map fold_right]; [lra|].
  assert (Nn : forall l, 0 <= fold_right Rplus 0 (map (fun i => 1 / 2 ^ (N - i)) l)).
  { induction l as [|x l IHl]; cbn; [lra|]. pose proof (pow2_pos (N - x)). assert (0 < 1 / 2 ^ (N - x)) by (apply Rdiv_lt_0_compat; lra). lra. }
  pose proof (pow2_pos (N - a)) as P2. assert (Pa : 0 < 1 / 2 ^ (N - a)) by (apply Rdiv_lt_0_compat; lra).
  destruct (missing c a) eqn:M; [specialize (Nn (seq (S a) k)); lra|]. cbv zeta.
  pose proof (ln_nonpos _ (ratio_in _ _ (missing_false c a F M))) as Ln. set (lg := ln (clipped_ c a / sum_ c a)) in *.
  set (ib' := fun j => if (a <=? j)%nat then ib j + 1 / (INR j + 1) * lg else ib j).
  assert (Hib' : forall j, (a <= j)%nat -> ib' j <= 0).
  { intros j Hj. unfold ib'. assert (E : (a <=? j)%nat = true) by (apply Nat.leb_le; exact Hj). rewrite E. specialize (Hib j Hj).
    assert (0 < 1 / (INR j + 1)) by (apply Rdiv_lt_0_compat; [lra|pose proof (pos_INR j); lra]). nra. }
  specialize (IH (S a) ib' (s + exp (ib' a) / 2 ^ (N - a)) F ltac:(intros j Hj; apply Hib'; lia)).
  assert (E1 : 0 <= exp (ib' a) / 2 ^ (N - a) <= 1 / 2 ^ (N - a)).
  { pose proof (exp_pos (ib' a)). pose proof (exp_nonpos _ (Hib' a (Nat.le_refl a))).
    assert (Pi : 0 < / 2 ^ (N - a)) by (apply Rinv_0_lt_compat; exact P2). unfold Rdiv. split; [nra|]. apply Rmult_le_compat_r; lra. }
  change (if (a <=? a)%nat then ib a + 1 / (INR a + 1) * lg else ib a) with (ib' a). lra.
Qed.

Lemma smooth_range : forall N hyp ref, 0 <= smooth_score N hyp ref <= 1 - / 2 ^ N.
Proof.
  intros N hyp ref. unfold smooth_score.
  assert (U : 0 <= 1 - / 2 ^ N). { pose proof (halves_le N 0 ltac:(lia)). cbn in H. exact H. }
  destruct ((length hyp =? 0)%nat || (length ref =? 0)%nat) eqn:Z; [lra|]. apply orb_false_iff in Z. destruct Z as [Zh _]. apply Nat.eqb_neq in Zh.
  pose proof (smooth_loop_in N _ (order N (length ref)) 0 (fun _ => 0) 0 (make_fine hyp ref N) ltac:(intros; lra)) as L.
  pose proof (halves_le N (order N (length ref)) ltac:(rewrite order_min; lia)) as Hh.
  pose proof (bp_in (length hyp) (length ref) ltac:(lia)) as B. set (v := smooth_loop _ _ _ _ _) in *. nra.
Qed.

Lemma smooth_same : forall N s, s <> [] -> smooth_score N s s = / 2 ^ (N - Nat.min N (length s)) - / 2 ^ N.
Proof.
  intros N s Ns. unfold smooth_score. assert (L : (length s =? 0)%nat = false) by (destruct s; [congruence|reflexivity]). rewrite L. cbn [orb].
  apply Nat.eqb_neq in L. rewrite bp_same by lia. rewrite Rmult_1_l, order_min, <- halves by lia.
  set (c := make_ngram_counts s s N).
  assert (G : forall k a ib x, (a + k <= Nat.min N (length s))%nat -> (forall j, ib j = 0) ->
    smooth_loop N c (seq a k) ib x = x + fold_right Rplus 0 (map (fun i => 1 / 2 ^ (N - i)) (seq a k))).
  { induction k as [|k IH]; intros a ib x Ha Hib; cbn [seq smooth_loop map fold_right]; [ring|]. unfold c at 1. rewrite same_missing by lia. cbv zeta.
    pose proof (same_ln s N a ltac:(lia) ltac:(lia) 0 ltac:(lra)) as E. rewrite !Rplus_0_r in E. fold c in E. rewrite E.
    rewrite IH; [|lia|].
    - rewrite Nat.leb_refl, Hib. rewrite Rmult_0_r, Rplus_0_r, exp_0. ring.
    - intros j. rewrite Hib, Rmult_0_r, Rplus_0_r. destruct (a <=? j)%nat; reflexivity. }
  rewrite G; [ring|lia|reflexivity].
Qed.

Lemma sum_loop_in : forall N c k a s, fine c -> (a + k <= N)%nat ->
  s <= sum_loop N c (seq a k) s <= s + fold_right Rplus 0 (map (fun i => 1 / 2 ^ (N - i)) (seq a k)).
Proof.
  intros N c k. induction k as [|k IH]; intros a s F Ha; cbn [seq sum_loop map fold_right]; [lra|].
  assert (Nn : forall l, 0 <= fold_right Rplus 0 (map (fun i => 1 / 2 ^ (N - i)) l)).
  { induction l as [|x l IHl]; cbn; [lra|]. pose proof (pow2_pos (N - x)). assert (0 < 1 / 2 ^ (N - x)) by (apply Rdiv_lt_0_compat; lra). lra. }
  pose proof (pow2_pos (N - a)) as P2. assert (Pa : 0 < 1 / 2 ^ (N - a)) by (apply Rdiv_lt_0_compat; lra).
  destruct (missing c a) eqn:M; [specialize (Nn (seq (S a) k)); lra|].
  pose proof (ratio_in _ _ (missing_false c a F M)) as B. replace (N - S a + 1)%nat with (N - a)%nat by lia.
  specialize (IH (S a) (s + clipped_ c a / sum_ c a / 2 ^ (N - a)) F ltac:(lia)).
  assert (Pi : 0 < / 2 ^ (N - a)) by (apply Rinv_0_lt_compat; exact P2).
  assert (E1 : 0 <= clipped_ c a / sum_ c a / 2 ^ (N - a) <= 1 / 2 ^ (N - a)).
  { set (r := clipped_ c a / sum_ c a) in *. unfold Rdiv. split; [nra|]. apply Rmult_le_compat_r; lra. }
  lra.
Qed.

Lemma sum_range : forall N hyp ref, 0 <= sum_score N hyp ref <= 1 - / 2 ^ N.
Proof.
  intros N hyp ref. unfold sum_score.
  assert (U : 0 <= 1 - / 2 ^ N). { pose proof (halves_le N 0 ltac:(lia)). cbn in H. exact H. }
  destruct ((length hyp =? 0)%nat || (length ref =? 0)%nat) eqn:Z; [lra|]. apply orb_false_iff in Z. destruct Z as [Zh _]. apply Nat.eqb_neq in Zh.
  pose proof (sum_loop_in N _ (order N (length ref)) 0 0 (make_fine hyp ref N) ltac:(rewrite order_min; lia)) as L.
  pose proof (halves_le N (order N (length ref)) ltac:(rewrite order_min; lia)) as Hh.
  pose proof (bp_in (length hyp) (length ref) ltac:(lia)) as B. set (v := sum_loop _ _ _ _) in *. nra.
Qed.

Lemma sum_same : forall N s, s <> [] -> sum_score N s s = / 2 ^ (N - Nat.min N (length s)) - / 2 ^ N.
Proof.
  intros N s Ns. unfold sum_score. assert (L : (length s =? 0)%nat = false) by (destruct s; [congruence|reflexivity]). rewrite L. cbn [orb].
  apply Nat.eqb_neq in L. rewrite bp_same by lia. rewrite Rmult_1_l, order_min, <- halves by lia.
  set (c := make_ngram_counts s s N).
  assert (G : forall k a x, (a + k <= Nat.min N (length s))%nat ->
    sum_loop N c (seq a k) x = x + fold_right Rplus 0 (map (fun i => 1 / 2 ^ (N - i)) (seq a k))).
  { induction k as [|k IH]; intros a x Ha; cbn [seq sum_loop map fold_right]; [ring|]. unfold c at 1. rewrite same_missing by lia.
    rewrite IH by lia. destruct (same_at s N a ltac:(lia) ltac:(lia)) as [A B]. fold c in A, B. rewrite A.
    replace (N - S a + 1)%nat with (N - a)%nat by lia. unfold Rdiv. rewrite Rinv_r by lra. ring. }
  rewrite G; [ring|lia].
Qed.

(** Linear BLEU. *)
Lemma linear_lengths_only : forall N st hyp ref ref' rank v s v' s', length ref = length ref' ->
  linear_score N st hyp ref rank = Some (v, s) -> linear_score N st hyp ref' rank = Some (v', s') -> v = v'.
Proof.
  intros N [ol o] hyp ref ref' rank v s v' s' L E E'. unfold linear_score in *. rewrite <- L in E'.
  destruct (length ref =? 0)%nat; [congruence|]. set (M := order N (length ref)) in *.
  set (c := if (length hyp =? 0)%nat then zero M else make_ngram_counts hyp ref M) in *.
  set (c' := if (length hyp =? 0)%nat then zero M else make_ngram_counts hyp ref' M) in *. cbv zeta in E, E'.
  assert (S : forall i, (i < M)%nat -> sum_ c i = sum_ c' i).
  { intros i Hi. unfold c, c'. destruct (length hyp =? 0)%nat; [reflexivity|].
    rewrite (proj2 (make_at hyp ref M i Hi)), (proj2 (make_at hyp ref' M i Hi)). reflexivity. }
  assert (G : forall is x, (forall i, In i is -> (i < M)%nat) -> linear_loop c o is x = linear_loop c' o is x).
  { induction is as [|i is IH]; intros x Hi; [reflexivity|]. cbn [linear_loop]. rewrite (S i (Hi i (or_introl eq_refl))).
    destruct (Req_EM_T _ 0); [reflexivity|]. destruct (Req_EM_T _ 0); [reflexivity|]. apply IH. intros j Hj. apply Hi. right. exact Hj. }
  rewrite (G (seq 0 M) 0) in E by (intros i Hi; apply in_seq in Hi; lia).
  destruct (rank =? 0)%nat.
  - destruct (plus_eq o c); [|discriminate]. destruct (plus_eq o c'); [|discriminate]. cbn in E, E'. congruence.
  - congruence.
Qed.

Lemma plus_eq_short : forall a b, (length b < length a)%nat -> plus_eq a b = None.
Proof.
  induction a as [|x a IH]; intros b L; [cbn in L; lia|]. destruct b as [|y b]; [reflexivity|]. cbn [plus_eq]. rewrite IH by (cbn in L; lia). reflexivity.
Qed.
Lemma linear_short : forall N hyp ref, ref <> [] -> (length ref < N)%nat -> linear_score N (1%nat, one N) hyp ref 0 = None.
Proof.
  intros N hyp ref Nr L. unfold linear_score. assert (Lr : (length ref =? 0)%nat = false) by (destruct ref; [congruence|reflexivity]). rewrite Lr.
  cbv zeta. cbn [Nat.eqb]. rewrite plus_eq_short; [reflexivity|]. unfold one. rewrite repeat_length.
  assert (O : order N (length ref) = length ref) by (rewrite order_min; lia). rewrite O.
  destruct (length hyp =? 0)%nat; [rewrite (proj2 (zero_fine (length ref))); exact L|rewrite make_length; exact L].
Qed.
