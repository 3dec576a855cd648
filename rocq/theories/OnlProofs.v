(** Proofs about the online optimiser with cumulative L1 penalty and RProp. *)
From Coq Require Import Reals List Arith Lia Lra Psatz.
From Verif Require Import Onl OnlSpec.
Import ListNotations.
Local Open Scope R_scope.

Lemma set_same : forall v i x, set_value v i x i = x.
Proof. intros. unfold set_value. rewrite Nat.eqb_refl. reflexivity. Qed.
Lemma set_other : forall v i x j, j <> i -> set_value v i x j = v j.
Proof. intros v i x j H. unfold set_value. destruct (Nat.eqb j i) eqn:E; [apply Nat.eqb_eq in E; congruence|reflexivity]. Qed.

Section Optimizer.
Variable eta : nat -> R.
Variable N_ : nat.
Variable C_ : R.
Variable frozen_ : list nat.

Lemma add_gradient_at : forall e g w i,
  add_gradient frozen_ e g w i = if is_frozen frozen_ i then w i else w i + e * component g i.
Proof.
  intros e g. unfold add_gradient. induction g as [|[j x] g IH]; intros w i.
  - cbn. destruct (is_frozen _ i); [reflexivity|]. unfold component. cbn. ring.
  - cbn [fold_left]. rewrite IH. cbn [fst snd]. unfold component. cbn [map fold_right fst snd]. fold (component g i).
    destruct (is_frozen frozen_ i) eqn:Fi.
    + destruct (is_frozen frozen_ j) eqn:Fj; [reflexivity|]. apply set_other. congruence.
    + destruct (is_frozen frozen_ j) eqn:Fj.
      * destruct (Nat.eqb j i) eqn:E; [apply Nat.eqb_eq in E; congruence|]. ring.
      * destruct (Nat.eqb j i) eqn:E.
        -- apply Nat.eqb_eq in E. subst j. rewrite set_same. ring.
        -- apply Nat.eqb_neq in E. rewrite set_other by congruence. ring.
Qed.

Definition pen (u q z : R) : R :=
  if Rlt_dec 0 z then Rmax 0 (z - (u + q)) else if Rlt_dec z 0 then Rmin 0 (z + (u - q)) else z.

Lemma penalty_fold : forall u l q w i, NoDup l ->
  let r := fold_left (fun qw i => if is_frozen frozen_ i then qw else ApplyPenalty u i qw) l (q, w) in
  (In i l /\ is_frozen frozen_ i = false -> snd r i = pen u (q i) (w i) /\ fst r i = q i + (snd r i - w i)) /\
  (~ In i l \/ is_frozen frozen_ i = true -> snd r i = w i /\ fst r i = q i).
Proof.
  intros u l. induction l as [|j l IH]; intros q w i ND r.
  - split; [intros [[] _]|]. intros _. split; reflexivity.
  - inversion ND as [|j' l' Nj ND']; subst. unfold r. cbn [fold_left]. clear r.
    destruct (is_frozen frozen_ j) eqn:Fj.
    + destruct (IH q w i ND') as [A B]. split.
      * intros [[<-|H] Fi]; [congruence|]. apply A. auto.
      * intros H. apply B. destruct H as [H|H]; [left; intros X; apply H; right; exact X|right; exact H].
    + unfold ApplyPenalty at 2 4 6 8 10. fold (pen u (q j) (w j)).
      match goal with |- context [fold_left _ l (?a, ?b)] => set (q1 := a); set (w1 := b) end.
      destruct (IH q1 w1 i ND') as [A B]. destruct (Nat.eq_dec j i) as [<-|Ne].
      * destruct (B (or_introl Nj)) as [B1 B2]. split.
        -- intros _. rewrite B1, B2. unfold q1, w1. rewrite !set_same. split; reflexivity.
        -- intros [H|H]; [exfalso; apply H; left; reflexivity|congruence].
      * assert (E1 : q1 i = q i) by (unfold q1; apply set_other; congruence).
        assert (E2 : w1 i = w i) by (unfold w1; apply set_other; congruence).
        rewrite E1, E2 in A, B. split.
        -- intros [[H|H] Fi]; [congruence|]. apply A. auto.
        -- intros H. apply B. destruct H as [H|H]; [left; intros X; apply H; right; exact X|right; exact H].
Qed.

Definition covered (i m : nat) : Prop := (1 <= i < m)%nat /\ is_frozen frozen_ i = false.

Lemma covered_dec : forall i m, {covered i m} + {~ covered i m}.
Proof.
  intros i m. unfold covered. destruct (is_frozen frozen_ i); [right; intros [_ H]; discriminate|].
  destruct (le_dec 1 i); [|right; intros [H _]; lia]. destruct (lt_dec i m); [left; auto|right; intros [H _]; lia].
Qed.

(** One update seen from one feature. *)
Lemma update_at : forall g m o w i, let e := eta (S (k_ o)) in
  let s' := UpdateWeights eta N_ C_ frozen_ g m (o, w) in
  let z := if is_frozen frozen_ i then w i else w i + e * component g i in
  k_ (fst s') = S (k_ o) /\ u_ (fst s') = u_ o + e * C_ / INR N_ /\
  (covered i m -> snd s' i = pen (u_ (fst s')) (q_ o i) z /\ q_ (fst s') i = q_ o i + (snd s' i - z)) /\
  (~ covered i m -> snd s' i = z /\ q_ (fst s') i = q_ o i).
Proof.
  intros g m o w i e s' z. unfold s', UpdateWeights. fold e.
  set (u := u_ o + e * C_ / INR N_). set (w1 := add_gradient frozen_ e g w).
  pose proof (penalty_fold u (seq 1 (m - 1)) (q_ o) w1 i (seq_NoDup _ _)) as P. cbv zeta in P.
  destruct (fold_left _ _ _) as [q2 w2]. cbn [fst snd k_ u_ q_] in *.
  assert (Ez : w1 i = z) by (unfold w1; apply add_gradient_at). rewrite Ez in P. destruct P as [A B].
  split; [reflexivity|]. split; [reflexivity|]. split.
  - intros [H F]. apply A. split; [apply in_seq; lia|exact F].
  - intros H. apply B. destruct (is_frozen frozen_ i) eqn:F; [right; reflexivity|]. left. intros X. apply in_seq in X.
    apply H. split; [lia|exact F].
Qed.

Hypothesis eta_nonneg : forall k, 0 <= eta k.
Hypothesis C_nonneg : 0 <= C_.

Lemma pen_ok : forall u0 u q z, u0 <= u -> - u0 <= q <= u0 ->
  let w := pen u q z in let q' := q + (w - z) in
  - u <= q' <= u /\ w = soft u (z - q).
Proof.
  intros u0 u q z Hu Hq. unfold pen, soft. cbv zeta.
  repeat match goal with
  | |- context [Rlt_dec ?a ?b] => destruct (Rlt_dec a b)
  | |- context [Rmax ?a ?b] => unfold Rmax
  | |- context [Rmin ?a ?b] => unfold Rmin
  | |- context [Rle_dec ?a ?b] => destruct (Rle_dec a b)
  end; split; try lra.
Qed.

Lemma rate_nonneg : 0 <= C_ / INR N_.
Proof.
  unfold Rdiv. apply Rmult_le_pos; [exact C_nonneg|]. destruct N_ as [|n]; [cbn; rewrite Rinv_0; lra|].
  left. apply Rinv_0_lt_compat. apply lt_0_INR. lia.
Qed.

(** The books: what was taken off a weight is remembered and never exceeds the total penalty. *)
Definition inv (i : nat) (base : R) (s : onl * vec) : Prop :=
  - u_ (fst s) <= q_ (fst s) i <= u_ (fst s) /\ snd s i = base + q_ (fst s) i.

Lemma update_inv : forall g m s i base, inv i base s -> is_frozen frozen_ i = false ->
  let s' := UpdateWeights eta N_ C_ frozen_ g m s in
  inv i (base + eta (S (k_ (fst s))) * component g i) s' /\
  ((1 <= i < m)%nat -> snd s' i = soft (u_ (fst s')) (base + eta (S (k_ (fst s))) * component g i)).
Proof.
  intros g m [o w] i base [I1 I2] F s'. cbn [fst snd] in *.
  destruct (update_at g m o w i) as (_ & U & A & B). fold s' in U, A, B. rewrite F in A, B. cbv zeta in A, B.
  set (e := eta (S (k_ o))) in *. set (z := w i + e * component g i) in *.
  assert (Hu : u_ o <= u_ (fst s')).
  { rewrite U. pose proof (eta_nonneg (S (k_ o))) as He. fold e in He. pose proof rate_nonneg as Hr.
    replace (e * C_ / INR N_) with (e * (C_ / INR N_)) by (unfold Rdiv; ring). nra. }
  destruct (covered_dec i m) as [C|C].
  - destruct (A C) as [A1 A2]. destruct (pen_ok (u_ o) (u_ (fst s')) (q_ o i) z Hu I1) as [P1 P2].
    rewrite A1 in A2. rewrite <- A2 in P1. split.
    + split; [exact P1|]. rewrite A2, A1. unfold z. rewrite I2. ring.
    + intros _. rewrite A1, P2. f_equal. unfold z. rewrite I2. ring.
  - destruct (B C) as [B1 B2]. split.
    + split; [rewrite B2; lra|]. rewrite B1, B2. unfold z. rewrite I2. ring.
    + intros H. exfalso. apply C. split; assumption.
Qed.

Lemma update_k : forall g m s, k_ (fst (UpdateWeights eta N_ C_ frozen_ g m s)) = S (k_ (fst s)).
Proof. intros g m [o w]. exact (proj1 (update_at g m o w 0%nat)). Qed.
Lemma update_u : forall g m s, u_ (fst (UpdateWeights eta N_ C_ frozen_ g m s)) = u_ (fst s) + eta (S (k_ (fst s))) * (C_ / INR N_).
Proof. intros g m [o w]. rewrite (proj1 (proj2 (update_at g m o w 0%nat))). cbn. unfold Rdiv. ring. Qed.

Lemma updates_inv : forall l s i base, inv i base s -> is_frozen frozen_ i = false ->
  inv i (base + total_step eta (S (k_ (fst s))) (map fst l) i) (updates eta N_ C_ frozen_ l s).
Proof.
  unfold updates. induction l as [|[g m] l IH]; intros s i base I F; cbn [fold_left map fst snd total_step].
  - rewrite Rplus_0_r. exact I.
  - destruct (update_inv g m s i base I F) as [I' _]. specialize (IH _ _ _ I' F). rewrite update_k in IH.
    rewrite Rplus_assoc in IH. exact IH.
Qed.
Lemma updates_k : forall l s, k_ (fst (updates eta N_ C_ frozen_ l s)) = (length l + k_ (fst s))%nat.
Proof. unfold updates. induction l as [|[g m] l IH]; intros s; cbn [fold_left length]; [reflexivity|]. rewrite IH, update_k. lia. Qed.
Lemma updates_u : forall l s, u_ (fst (updates eta N_ C_ frozen_ l s)) =
  u_ (fst s) + total_rate eta (S (k_ (fst s))) (length l) * (C_ / INR N_).
Proof.
  unfold updates. induction l as [|[g m] l IH]; intros s; cbn [fold_left length total_rate]; [ring|].
  rewrite IH, update_k, update_u. cbn [fst snd]. ring.
Qed.

Lemma total_step_app : forall gs gs' k i,
  total_step eta k (gs ++ gs') i = total_step eta k gs i + total_step eta (length gs + k) gs' i.
Proof.
  induction gs as [|g gs IH]; intros; cbn [app total_step length Nat.add]; [ring|].
  rewrite IH. rewrite Nat.add_succ_r. ring.
Qed.
Lemma total_rate_S : forall n k, total_rate eta k (S n) = total_rate eta k n + eta (n + k).
Proof.
  induction n as [|n IH]; intros k; [cbn; ring|].
  change (total_rate eta k (S (S n))) with (eta k + total_rate eta (S k) (S n)). rewrite IH. cbn [total_rate].
  replace (n + S k)%nat with (S n + k)%nat by lia. ring.
Qed.

Lemma epoch_ok : forall l g m w0 i, (1 <= i < m)%nat -> ~ In i frozen_ ->
  let hist := l ++ [(g, m)] in
  snd (updates eta N_ C_ frozen_ hist (fresh, w0)) i =
  soft (C_ / INR N_ * total_rate eta 1 (length hist)) (w0 i + total_step eta 1 (map fst hist) i).
Proof.
  intros l g m w0 i Hi Fi hist.
  assert (F : is_frozen frozen_ i = false).
  { unfold is_frozen. destruct (existsb _ _) eqn:E; [|reflexivity]. apply existsb_exists in E. destruct E as (j & Hj & E).
    apply Nat.eqb_eq in E. congruence. }
  assert (I0 : inv i (w0 i) (fresh, w0)) by (split; cbn; lra).
  pose proof (updates_inv l _ _ _ I0 F) as I. unfold hist, updates. rewrite fold_left_app. cbn [fold_left fst snd].
  fold (updates eta N_ C_ frozen_ l (fresh, w0)).
  destruct (update_inv g m _ _ _ I F) as [_ E]. rewrite (E Hi). rewrite update_u, updates_k, updates_u.
  cbn [fst snd fresh k_ u_]. rewrite map_app, total_step_app, app_length, map_length. cbn [map fst total_step length].
  rewrite !Nat.add_0_r, (Nat.add_1_r (length l)), total_rate_S, (Nat.add_1_r (length l)). f_equal; ring.
Qed.

Lemma frozen_ok : forall hist s i, In i frozen_ ->
  snd (updates eta N_ C_ frozen_ hist s) i = snd s i.
Proof.
  intros hist s i H. assert (F : is_frozen frozen_ i = true).
  { apply existsb_exists. exists i. split; [exact H|apply Nat.eqb_refl]. }
  revert s. unfold updates. induction hist as [|[g m] l IH]; intros s; cbn [fold_left]; [reflexivity|].
  rewrite IH. destruct s as [o w]. destruct (update_at g m o w i) as (_ & _ & _ & B). cbn [fst snd]. rewrite F in B.
  apply B. intros [_ X]. congruence.
Qed.

Lemma unpenalised_ok : forall hist w0 i, ~ In i frozen_ -> (forall x, In x hist -> i = 0%nat \/ (snd x <= i)%nat) ->
  snd (updates eta N_ C_ frozen_ hist (fresh, w0)) i = w0 i + total_step eta 1 (map fst hist) i.
Proof.
  intros hist w0 i Fi H.
  assert (F : is_frozen frozen_ i = false).
  { unfold is_frozen. destruct (existsb _ _) eqn:E; [|reflexivity]. apply existsb_exists in E. destruct E as (j & Hj & E).
    apply Nat.eqb_eq in E. congruence. }
  assert (G : forall l s, (forall x, In x l -> i = 0%nat \/ (snd x <= i)%nat) ->
    snd (updates eta N_ C_ frozen_ l s) i = snd s i + total_step eta (S (k_ (fst s))) (map fst l) i).
  { unfold updates. induction l as [|[g m] l IH]; intros s Hl; cbn [fold_left map total_step fst snd]; [ring|].
    rewrite IH by (intros x Hx; apply Hl; right; exact Hx). rewrite update_k. destruct s as [o w].
    destruct (update_at g m o w i) as (_ & _ & _ & B). rewrite F in B.
    destruct B as [-> _]; [|cbn [fst snd]; ring]. intros [X _]. destruct (Hl (g, m) (or_introl eq_refl)); cbn in *; lia. }
  rewrite G by exact H. reflexivity.
Qed.
End Optimizer.

Lemma standard_rate_ok : forall n e k, 0 < e -> (0 < n)%nat ->
  0 < StandardLearningRate n e (S k) < StandardLearningRate n e k.
Proof.
  intros n e k He Hn. unfold StandardLearningRate.
  assert (Hn' : 0 < INR n) by (apply lt_0_INR; exact Hn).
  assert (A : forall j, 0 < 1 + INR j / INR n).
  { intros j. assert (0 <= INR j / INR n); [|lra]. apply Rmult_le_pos; [apply pos_INR|]. left. apply Rinv_0_lt_compat. exact Hn'. }
  split; [apply Rdiv_lt_0_compat; [exact He|apply A]|].
  apply Rmult_lt_compat_l; [exact He|]. apply Rinv_lt_contravar; [apply Rmult_lt_0_compat; apply A|].
  rewrite S_INR. unfold Rdiv. assert (0 < / INR n) by (apply Rinv_0_lt_compat; exact Hn'). lra.
Qed.

Lemma exponential_rate_ok : forall n e a k, 0 < e -> 0 < a < 1 -> (0 < n)%nat ->
  0 < ExponentialDecayLearningRate n e a (S k) < ExponentialDecayLearningRate n e a k.
Proof.
  intros n e a k He Ha Hn. unfold ExponentialDecayLearningRate.
  assert (Hn' : 0 < / INR n) by (apply Rinv_0_lt_compat, lt_0_INR; exact Hn).
  split; [apply Rmult_lt_0_compat; [exact He|apply exp_pos]|].
  apply Rmult_lt_compat_l; [exact He|]. unfold Rpower. apply exp_increasing. rewrite S_INR.
  assert (ln a < 0) by (rewrite <- ln_1; apply ln_increasing; lra). unfold Rdiv. nra.
Qed.

Lemma standard_passes_ok : forall n e p, (0 < n)%nat -> StandardLearningRate n e (p * n) = e / (1 + INR p).
Proof.
  intros n e p Hn. unfold StandardLearningRate. rewrite mult_INR. do 2 f_equal. apply lt_0_INR in Hn. field. lra.
Qed.
Lemma exponential_passes_ok : forall n e a p, 0 < a -> (0 < n)%nat -> ExponentialDecayLearningRate n e a (p * n) = e * a ^ p.
Proof.
  intros n e a p Ha Hn. unfold ExponentialDecayLearningRate. rewrite mult_INR. f_equal. apply lt_0_INR in Hn.
  replace (INR p * INR n / INR n) with (INR p) by (field; lra). apply Rpower_pow. exact Ha.
Qed.

(** ** RProp *)
Lemma same_refl : forall x, same_sign x x.
Proof. intros. split; tauto. Qed.

Section RProp.
Variables eta_plus_ eta_minus_ delta_max_ delta_min_ : R.
Hypothesis plus_gt : 1 < eta_plus_.
Hypothesis minus_in : 0 < eta_minus_ < 1.
Hypothesis min_max : 0 < delta_min_ <= delta_max_.
Notation coord := (coord eta_plus_ eta_minus_ delta_max_ delta_min_).
Notation loop := (optimize_loop eta_plus_ eta_minus_ delta_max_ delta_min_).
Notation Optimize := (Optimize eta_plus_ eta_minus_ delta_max_ delta_min_).
Notation run := (run eta_plus_ eta_minus_ delta_max_ delta_min_).

Definition within (d : R) : Prop := delta_min_ <= d <= delta_max_.

Lemma coord_ok : forall g p d x, within d -> let '(p2, d2, x2) := coord g p d x in
  within d2 /\ Rabs (x2 - x) <= delta_max_ /\ (0 < g -> x2 <= x) /\ (g < 0 -> x <= x2).
Proof.
  intros g p d x D. unfold within in *. unfold Onl.coord. cbv zeta.
  assert (M : delta_min_ <= Rmin (d * eta_plus_) delta_max_ <= delta_max_).
  { split; [|apply Rmin_r]. apply Rmin_glb; nra. }
  assert (M2 : delta_min_ <= Rmax (d * eta_minus_) delta_min_ <= delta_max_).
  { split; [apply Rmax_r|]. apply Rmax_lub; nra. }
  set (a := Rmin _ _) in *. set (b := Rmax _ _) in *.
  destruct (Rlt_dec 0 (g * p)); [|destruct (Rlt_dec (g * p) 0)]; destruct (Rlt_dec g 0);
  (split; [lra|]); (split; [unfold Rabs; destruct (Rcase_abs _); lra|]); split; intros; lra.
Qed.

Lemma loop_length : forall g p d x, length g = length x -> length p = length x -> length d = length x ->
  exists ps ds xs, loop g p d x = Some (ps, ds, xs) /\ length ps = length x /\ length ds = length x /\ length xs = length x.
Proof.
  induction g as [|gi g IH]; intros p d x Hg Hp Hd; destruct x as [|xi x]; try discriminate.
  - cbn. exists p, d, []. auto.
  - destruct p as [|pi p]; [discriminate|]. destruct d as [|di d]; [discriminate|]. cbn in Hg, Hp, Hd.
    destruct (IH p d x) as (ps & ds & xs & E & L1 & L2 & L3); try lia. cbn [optimize_loop]. rewrite E.
    destruct (coord gi pi di xi) as [[p2 d2] x2]. exists (p2 :: ps), (d2 :: ds), (x2 :: xs). cbn. repeat split; lia.
Qed.

Lemma loop_nth : forall g p d x ps ds xs, loop g p d x = Some (ps, ds, xs) ->
  forall i, (i < length g)%nat ->
  coord (nth i g 0) (nth i p 0) (nth i d 0) (nth i x 0) = (nth i ps 0, nth i ds 0, nth i xs 0).
Proof.
  induction g as [|gi g IH]; intros p d x ps ds xs E i Hi; [cbn in Hi; lia|]. cbn [optimize_loop] in E.
  destruct p as [|pi p]; [discriminate|]. destruct d as [|di d]; [discriminate|]. destruct x as [|xi x]; [discriminate|].
  destruct (loop g p d x) as [[[ps' ds'] xs']|] eqn:E'; [|discriminate].
  destruct (coord gi pi di xi) as [[p2 d2] x2] eqn:Ec. injection E as <- <- <-.
  destruct i as [|i]; [exact Ec|]. cbn [nth]. apply (IH _ _ _ _ _ _ E'). cbn in Hi. lia.
Qed.

(** States of an optimiser over n variables with admissible step sizes. *)
Definition sound (n : nat) (s : rprop * list R) : Prop :=
  length (snd s) = n /\ length (prev_g_ (fst s)) = n /\ length (delta_ij_ (fst s)) = n /\ Forall within (delta_ij_ (fst s)).

Lemma nth_within : forall n s i, sound n s -> (i < n)%nat -> within (nth i (delta_ij_ (fst s)) 0).
Proof. intros n s i (_ & _ & L & F) H. rewrite Forall_forall in F. apply F. apply nth_In. lia. Qed.

Lemma optimize_ok : forall n g s, length g = n -> sound n s ->
  exists s', Optimize g s = Some s' /\ sound n s' /\
  forall i, (i < n)%nat ->
    Rabs (nth i (snd s') 0 - nth i (snd s) 0) <= delta_max_ /\
    (0 < nth i g 0 -> nth i (snd s') 0 <= nth i (snd s) 0) /\ (nth i g 0 < 0 -> nth i (snd s) 0 <= nth i (snd s') 0).
Proof.
  intros n g s Hg S. pose proof S as (L1 & L2 & L3 & F).
  destruct (loop_length g (prev_g_ (fst s)) (delta_ij_ (fst s)) (snd s)) as (ps & ds & xs & E & A1 & A2 & A3); try lia.
  exists ({| prev_g_ := ps; delta_ij_ := ds |}, xs). unfold Onl.Optimize. rewrite E. split; [reflexivity|].
  pose proof (loop_nth _ _ _ _ _ _ _ E) as Hn. rewrite Hg in Hn.
  assert (C : forall i, (i < n)%nat -> within (nth i ds 0) /\ Rabs (nth i xs 0 - nth i (snd s) 0) <= delta_max_ /\
    (0 < nth i g 0 -> nth i xs 0 <= nth i (snd s) 0) /\ (nth i g 0 < 0 -> nth i (snd s) 0 <= nth i xs 0)).
  { intros i Hi. pose proof (coord_ok (nth i g 0) (nth i (prev_g_ (fst s)) 0) _ (nth i (snd s) 0) (nth_within n s i S Hi)) as K.
    rewrite (Hn i Hi) in K. exact K. }
  split.
  - repeat split; cbn [fst snd prev_g_ delta_ij_]; try lia. rewrite Forall_forall. intros d Hd.
    destruct (In_nth _ _ 0 Hd) as (i & Hi & <-). apply C. lia.
  - intros i Hi. cbn [snd]. exact (proj2 (C i Hi)).
Qed.

Lemma new_sound : forall d0 x, within d0 -> sound (length x) (new_rprop (length x) d0, x).
Proof.
  intros d0 x H. repeat split; cbn; rewrite ?repeat_length; auto. apply Forall_forall. intros d Hd.
  apply repeat_spec in Hd. subst. exact H.
Qed.

Lemma run_ok : forall n gs s, Forall (fun g => length g = n) gs -> sound n s ->
  exists s', run gs s = Some s' /\ sound n s'.
Proof.
  intros n gs. induction gs as [|g gs IH]; intros s H S; [exists s; split; [reflexivity|exact S]|].
  inversion H; subst. destruct (optimize_ok _ g s eq_refl S) as (s1 & E & S1 & _). cbn [Onl.run]. rewrite E.
  apply IH; assumption.
Qed.

(** Only the signs matter. *)
Lemma coord_sign : forall g g' p p' d x, same_sign g g' -> same_sign p p' ->
  let '(p2, d2, x2) := coord g p d x in let '(p2', d2', x2') := coord g' p' d x in
  d2 = d2' /\ x2 = x2' /\ same_sign p2 p2'.
Proof.
  intros g g' p p' d x [G1 G2] [P1 P2]. unfold Onl.coord. cbv zeta.
  assert (T1 : 0 < g * p <-> 0 < g' * p').
  { split; intros H.
    - destruct (Rtotal_order g 0) as [Hg|[Hg|Hg]]; [|subst; lra|].
      + assert (p < 0) by nra. apply G2 in Hg. apply P2 in H0. nra.
      + assert (0 < p) by nra. apply G1 in Hg. apply P1 in H0. nra.
    - destruct (Rtotal_order g' 0) as [Hg|[Hg|Hg]]; [|subst; lra|].
      + assert (p' < 0) by nra. apply G2 in Hg. apply P2 in H0. nra.
      + assert (0 < p') by nra. apply G1 in Hg. apply P1 in H0. nra. }
  assert (T2 : g * p < 0 <-> g' * p' < 0).
  { split; intros H.
    - destruct (Rtotal_order g 0) as [Hg|[Hg|Hg]]; [|subst; lra|].
      + assert (0 < p) by nra. apply G2 in Hg. apply P1 in H0. nra.
      + assert (p < 0) by nra. apply G1 in Hg. apply P2 in H0. nra.
    - destruct (Rtotal_order g' 0) as [Hg|[Hg|Hg]]; [|subst; lra|].
      + assert (0 < p') by nra. apply G2 in Hg. apply P1 in H0. nra.
      + assert (p' < 0) by nra. apply G1 in Hg. apply P2 in H0. nra. }
  destruct (Rlt_dec 0 (g * p)), (Rlt_dec 0 (g' * p')); try tauto;
  destruct (Rlt_dec g 0), (Rlt_dec g' 0); try tauto;
  destruct (Rlt_dec (g * p) 0), (Rlt_dec (g' * p') 0); try tauto;
  (split; [reflexivity|split; [reflexivity|split; tauto]]).
Qed.

Lemma loop_sign : forall g g' p p' d x, Forall2 same_sign g g' -> Forall2 same_sign p p' ->
  match loop g p d x, loop g' p' d x with
  | Some (ps, ds, xs), Some (ps', ds', xs') => ds = ds' /\ xs = xs' /\ Forall2 same_sign ps ps'
  | None, None => True
  | _, _ => False
  end.
Proof.
  intros g g' p p' d x G. revert p p' d x. induction G as [|a a' g g' Ga G IH]; intros p p' d x P; cbn [optimize_loop].
  - split; [reflexivity|split; [reflexivity|exact P]].
  - destruct P as [|b b' p p' Pb P]; [exact I|]. destruct d as [|di d]; [exact I|]. destruct x as [|xi x]; [exact I|].
    specialize (IH p p' d x P). pose proof (coord_sign a a' b b' di xi Ga Pb) as K.
    destruct (loop g p d x) as [[[ps ds] xs]|], (loop g' p' d x) as [[[ps' ds'] xs']|]; try contradiction; [|exact I].
    destruct (coord a b di xi) as [[p2 d2] x2], (coord a' b' di xi) as [[p2' d2'] x2'].
    destruct IH as (-> & -> & F), K as (-> & -> & K). split; [reflexivity|split; [reflexivity|constructor; assumption]].
Qed.

Lemma run_sign : forall gs gs' s s', Forall2 (Forall2 same_sign) gs gs' ->
  delta_ij_ (fst s) = delta_ij_ (fst s') -> snd s = snd s' -> Forall2 same_sign (prev_g_ (fst s)) (prev_g_ (fst s')) ->
  option_map (fun s => (delta_ij_ (fst s), snd s)) (run gs s) = option_map (fun s => (delta_ij_ (fst s), snd s)) (run gs' s').
Proof.
  intros gs gs' s s' G. revert s s'. induction G as [|g g' gs gs' Gg G IH]; intros [o x] [o' x'] D X P; cbn [fst snd] in *.
  - cbn. rewrite D, X. reflexivity.
  - cbn [Onl.run]. unfold Onl.Optimize. cbn [fst snd]. subst x'. rewrite <- D.
    pose proof (loop_sign g g' _ _ (delta_ij_ o) x Gg P) as K.
    destruct (loop g _ _ x) as [[[ps ds] xs]|], (loop g' _ _ x) as [[[ps' ds'] xs']|]; try contradiction; [|reflexivity].
    destruct K as (-> & -> & F). apply IH; cbn [fst snd prev_g_ delta_ij_]; auto.
Qed.

Lemma signs_ok : forall gs gs' n d0 x, Forall2 (Forall2 same_sign) gs gs' ->
  option_map snd (run gs (new_rprop n d0, x)) = option_map snd (run gs' (new_rprop n d0, x)).
Proof.
  intros gs gs' n d0 x G. pose proof (run_sign gs gs' (new_rprop n d0, x) (new_rprop n d0, x) G eq_refl eq_refl) as K.
  assert (F : Forall2 same_sign (repeat 0 n) (repeat 0 n)) by (clear; induction n; [apply Forall2_nil|apply Forall2_cons; [apply same_refl|assumption]]).
  specialize (K F). destruct (run gs _) as [s|], (run gs' _) as [s'|]; cbn in *; try discriminate; [|reflexivity].
  injection K as _ ->. reflexivity.
Qed.

(** A change of direction. *)
Lemma turn_ok : forall n g1 g2 s s1 s2 i, length g1 = n -> length g2 = n -> sound n s ->
  Optimize g1 s = Some s1 -> Optimize g2 s1 = Some s2 -> (i < n)%nat ->
  nth i g1 0 * nth i (prev_g_ (fst s)) 0 >= 0 -> nth i g1 0 * nth i g2 0 < 0 ->
  nth i (snd s2) 0 = nth i (snd s1) 0 /\
  nth i (delta_ij_ (fst s2)) 0 = Rmax (eta_minus_ * nth i (delta_ij_ (fst s1)) 0) delta_min_.
Proof.
  intros n g1 g2 s s1 s2 i L1 L2 S E1 E2 Hi H0 Ht.
  unfold Onl.Optimize in E1, E2.
  destruct (loop g1 _ _ _) as [[[ps ds] xs]|] eqn:K1; [|discriminate]. injection E1 as <-. cbn [fst snd prev_g_ delta_ij_] in *.
  destruct (loop g2 _ _ _) as [[[ps2 ds2] xs2]|] eqn:K2; [|discriminate]. injection E2 as <-. cbn [fst snd prev_g_ delta_ij_] in *.
  pose proof (loop_nth _ _ _ _ _ _ _ K1 i ltac:(lia)) as N1. pose proof (loop_nth _ _ _ _ _ _ _ K2 i ltac:(lia)) as N2.
  assert (P : nth i ps 0 = nth i g1 0).
  { unfold Onl.coord in N1. cbv zeta in N1. destruct (Rlt_dec 0 _); [injection N1; congruence|].
    destruct (Rlt_dec _ 0); [lra|injection N1; congruence]. }
  rewrite P in N2. unfold Onl.coord in N2. cbv zeta in N2.
  destruct (Rlt_dec 0 (nth i g2 0 * nth i g1 0)); [lra|].
  destruct (Rlt_dec (nth i g2 0 * nth i g1 0) 0); [|lra]. injection N2 as _ <- <-.
  split; [reflexivity|]. f_equal. ring.
Qed.
End RProp.

(** Going on in the same direction. *)
Section Straight.
Variables eta_plus_ eta_minus_ delta_max_ delta_min_ delta_0 : R.
Hypothesis plus_gt : 1 < eta_plus_.
Hypothesis d0_in : 0 < delta_0 <= delta_max_.

Lemma pow_min : forall k, Rmin (Rmin (delta_0 * eta_plus_ ^ k) delta_max_ * eta_plus_) delta_max_ =
  Rmin (delta_0 * eta_plus_ ^ S k) delta_max_.
Proof.
  intros k. cbn [pow]. unfold Rmin. repeat destruct (Rle_dec _ _); try reflexivity; try nra.
Qed.

Lemma straight_step : forall gs x k p, Forall (fun g => exists y, g = [y] /\ 0 < y) gs -> 0 < p ->
  exists p', run eta_plus_ eta_minus_ delta_max_ delta_min_ gs
    ({| prev_g_ := [p]; delta_ij_ := [Rmin (delta_0 * eta_plus_ ^ k) delta_max_] |}, [x]) =
  Some ({| prev_g_ := [p']; delta_ij_ := [Rmin (delta_0 * eta_plus_ ^ (length gs + k)) delta_max_] |},
    [x - fold_right Rplus 0 (map (fun j => Rmin (delta_0 * eta_plus_ ^ (S (j + k))) delta_max_) (seq 0 (length gs)))]).
Proof.
  intros gs x k p H. revert x k p. induction H as [|g gs (y & -> & Hy) H IH]; intros x k p Hp.
  - exists p. cbn. rewrite Rminus_0_r. reflexivity.
  - cbn [run]. unfold Optimize. cbn [fst snd prev_g_ delta_ij_ optimize_loop]. unfold coord. cbv zeta.
    destruct (Rlt_dec 0 (y * p)); [|nra]. destruct (Rlt_dec y 0); [lra|]. rewrite pow_min.
    destruct (IH (x - Rmin (delta_0 * eta_plus_ ^ S k) delta_max_ * 1) (S k) y Hy) as (p' & E).
    exists p'. rewrite E. cbn [length]. rewrite (Nat.add_succ_r (length gs) k). cbn [Nat.add].
    rewrite <- cons_seq, <- seq_shift. cbn [map fold_right]. rewrite map_map. cbn [Nat.add]. do 3 f_equal.
    assert (M : map (fun j => Rmin (delta_0 * eta_plus_ ^ S (j + S k)) delta_max_) (seq 0 (length gs)) =
      map (fun j => Rmin (delta_0 * eta_plus_ ^ S (S (j + k))) delta_max_) (seq 0 (length gs))).
    { apply map_ext. intros j. rewrite Nat.add_succ_r. reflexivity. }
    rewrite M. ring.
Qed.

Lemma straight_ok : forall gs x, Forall (fun g => exists y, g = [y] /\ 0 < y) gs ->
  option_map snd (run eta_plus_ eta_minus_ delta_max_ delta_min_ gs (new_rprop 1 delta_0, [x])) =
  Some [x - fold_right Rplus 0 (map (fun j => Rmin (delta_0 * eta_plus_ ^ j) delta_max_) (seq 0 (length gs)))].
Proof.
  intros gs x H. destruct gs as [|g gs]; [cbn; rewrite Rminus_0_r; reflexivity|].
  inversion H as [|g0 gs0 (y & -> & Hy) H']; subst. cbn [run]. unfold Optimize, new_rprop.
  cbn [fst snd repeat prev_g_ delta_ij_ optimize_loop]. unfold coord. cbv zeta. rewrite Rmult_0_r.
  destruct (Rlt_dec 0 0); [lra|]. destruct (Rlt_dec y 0); [lra|].
  destruct (straight_step gs (x - delta_0 * 1) 0 y H' Hy) as (p' & E). cbn [pow] in E. rewrite Rmult_1_r in E.
  assert (E0 : Rmin delta_0 delta_max_ = delta_0) by (apply Rmin_left; lra). rewrite E0 in E. rewrite Rmult_1_r, E. cbn [option_map snd].
  cbn [length]. rewrite <- cons_seq, <- seq_shift. cbn [map fold_right]. rewrite map_map. cbn [pow]. rewrite Rmult_1_r, E0.
  do 2 f_equal.
  assert (M : map (fun j => Rmin (delta_0 * eta_plus_ ^ S (j + 0)) delta_max_) (seq 0 (length gs)) =
    map (fun j => Rmin (delta_0 * eta_plus_ ^ S j) delta_max_) (seq 0 (length gs))).
  { apply map_ext. intros j. rewrite Nat.add_0_r. reflexivity. }
  cbn [pow] in M. rewrite M. ring.
Qed.
End Straight.

(** The variables do not influence one another. *)
Section Independent.
Variables eta_plus_ eta_minus_ delta_max_ delta_min_ : R.

Definition proj (i : nat) (s : rprop * list R) : rprop * list R :=
  ({| prev_g_ := [nth i (prev_g_ (fst s)) 0]; delta_ij_ := [nth i (delta_ij_ (fst s)) 0] |}, [nth i (snd s) 0]).

Lemma proj_run : forall n gs s s' i, Forall (fun g => length g = n) gs -> (i < n)%nat ->
  run eta_plus_ eta_minus_ delta_max_ delta_min_ gs s = Some s' ->
  run eta_plus_ eta_minus_ delta_max_ delta_min_ (map (fun g => [nth i g 0]) gs) (proj i s) = Some (proj i s').
Proof.
  intros n gs. induction gs as [|g gs IH]; intros s s' i H Hi E; [cbn in *; congruence|].
  inversion H as [|g0 gs0 Hg H']; subst. cbn [run map] in *. unfold Optimize in *.
  destruct (optimize_loop _ _ _ _ g _ _ _) as [[[ps ds] xs]|] eqn:El; [|discriminate].
  pose proof (loop_nth _ _ _ _ _ _ _ _ _ _ _ El i Hi) as K. unfold proj at 1 2 3. cbn [fst snd prev_g_ delta_ij_ optimize_loop].
  rewrite K. specialize (IH _ _ i H' Hi E). exact IH.
Qed.

Lemma independent_ok : forall gs d0 x s i, Forall (fun g => length g = length x) gs -> (i < length x)%nat ->
  run eta_plus_ eta_minus_ delta_max_ delta_min_ gs (new_rprop (length x) d0, x) = Some s ->
  option_map snd (run eta_plus_ eta_minus_ delta_max_ delta_min_ (map (fun g => [nth i g 0]) gs)
    (new_rprop 1 d0, [nth i x 0])) = Some [nth i (snd s) 0].
Proof.
  intros gs d0 x s i H Hi E. pose proof (proj_run _ _ _ _ _ H Hi E) as K.
  assert (P : proj i (new_rprop (length x) d0, x) = (new_rprop 1 d0, [nth i x 0])).
  { unfold proj, new_rprop. cbn [fst snd prev_g_ delta_ij_ repeat].
    assert (R0 : forall c, nth i (repeat c (length x)) 0 = c).
    { intros c. assert (I : In (nth i (repeat c (length x)) 0) (repeat c (length x))) by (apply nth_In; rewrite repeat_length; exact Hi).
      apply repeat_spec in I. exact I. }
    rewrite !R0. reflexivity. }
  rewrite P in K. rewrite K. reflexivity.
Qed.
End Independent.

Lemma steps_ok : forall ep em dmax dmin d0 gs g x, 1 < ep -> 0 < em < 1 -> 0 < dmin <= dmax -> dmin <= d0 <= dmax ->
  Forall (fun g => length g = length x) (gs ++ [g]) ->
  exists o y o' y', run ep em dmax dmin gs (new_rprop (length x) d0, x) = Some (o, y) /\
    Optimize ep em dmax dmin g (o, y) = Some (o', y') /\ length y' = length x /\
    Forall (fun d => dmin <= d <= dmax) (delta_ij_ o') /\
    forall i, (i < length x)%nat -> Rabs (nth i y' 0 - nth i y 0) <= dmax /\
      (0 < nth i g 0 -> nth i y' 0 <= nth i y 0) /\ (nth i g 0 < 0 -> nth i y 0 <= nth i y' 0).
Proof.
  intros ep em dmax dmin d0 gs g x H1 H2 H3 H4 F. apply Forall_app in F. destruct F as [F Fg].
  destruct (run_ok ep em dmax dmin H1 H2 H3 _ gs _ F (new_sound dmax dmin d0 x H4)) as ([o y] & E & S).
  inversion Fg as [|g0 l0 Lg _]; subst.
  destruct (optimize_ok ep em dmax dmin H1 H2 H3 _ g _ Lg S) as ([o' y'] & E' & S' & K).
  exists o, y, o', y'. split; [exact E|]. split; [exact E'|]. destruct S' as (L & _ & _ & W). cbn [fst snd] in *.
  split; [exact L|]. split; [exact W|]. exact K.
Qed.

Lemma reset_grows : exists (eta : nat -> R) (w0 : vec) (o : onl) (w : vec),
  (forall k, 0 < eta (S k) < eta k) /\
  updates eta 1 1 [] [([], 2%nat); ([], 2%nat)] (fresh, w0) = (o, w) /\
  0 < w 1%nat < snd (updates eta 1 1 [] [([], 2%nat)] (ResetEpoch o, w)) 1%nat.
Proof.
  exists (StandardLearningRate 1 (1/5)), (fun _ => 2).
  destruct (updates (StandardLearningRate 1 (1/5)) 1 1 [] [([], 2%nat); ([], 2%nat)] (@pair onl vec fresh (fun _ => 2))) as [o w] eqn:E. exists o, w.
  split; [intros k; apply standard_rate_ok; [lra|lia]|]. split; [reflexivity|].
  assert (R1 : StandardLearningRate 1 (1 / 5) 1 = 1 / 10) by (unfold StandardLearningRate; cbn; field).
  assert (R2 : StandardLearningRate 1 (1 / 5) 2 = 1 / 15) by (unfold StandardLearningRate; cbn; field).
  set (st := StandardLearningRate 1 (1/5)) in *.
  assert (NN : forall k, 0 <= st k).
  { intros k. left. pose proof (standard_rate_ok 1 (1/5) k). fold st in H. specialize (H ltac:(lra) ltac:(lia)). lra. }
  pose proof (epoch_ok st 1 1 [] NN ltac:(lra) [([], 2%nat)] [] 2 (fun _ => 2) 1 ltac:(lia) (fun x => x)) as W.
  cbv zeta in W. cbn [app] in W. rewrite E in W. cbn [fst snd map total_step total_rate length INR] in W. rewrite R1, R2 in W.
  unfold component in W. cbn [map fold_right] in W.
  assert (Q : q_ o 1%nat = - (1/6)).
  { assert (I0 : inv 1 2 (@pair onl vec fresh (fun _ => 2))) by (split; cbn; lra).
    pose proof (updates_inv st 1 1 [] NN ltac:(lra) [([], 2%nat); ([], 2%nat)] _ 1%nat 2 I0 eq_refl) as [_ I].
    rewrite E in I. cbn [fst snd map total_step k_ fresh] in I. unfold component in I. cbn [map fold_right] in I.
    unfold soft in W. repeat destruct (Rlt_dec _ _) in W; lra. }
  assert (Wv : w 1%nat = 11/6). { rewrite W. unfold soft. repeat destruct (Rlt_dec _ _); lra. }
  split; [lra|].
  unfold updates. cbn [fold_left fst snd].
  destruct (update_at st 1 1 [] [] 2 (ResetEpoch o) w 1%nat) as (_ & U & A & _).
  cbn [fst snd k_ u_ q_ ResetEpoch INR is_frozen existsb] in U, A. unfold component in A. cbn [map fold_right] in A.
  destruct A as [A _]; [split; [lia|reflexivity]|]. rewrite U, R1, Q, Wv in A. rewrite A, Wv. unfold pen.
  unfold Rmax. repeat (destruct (Rlt_dec _ _) || destruct (Rle_dec _ _)); lra.
Qed.

Lemma zero_moves : forall ep em dmax dmin d0 x n, 0 < d0 ->
  option_map snd (run ep em dmax dmin (repeat [0] (S n)) (new_rprop 1 d0, [x])) <> Some [x] /\
  option_map snd (run ep em dmax dmin (repeat [0] (S n)) (new_rprop 1 d0, [x])) = Some [x - INR (S n) * d0].
Proof.
  intros ep em dmax dmin d0 x n H.
  assert (G : forall m y, option_map snd (run ep em dmax dmin (repeat [0] m) (new_rprop 1 d0, [y])) = Some [y - INR m * d0]).
  { induction m as [|m IH]; intros y; [cbn; rewrite Rmult_0_l, Rminus_0_r; reflexivity|]. cbn [repeat run]. unfold Optimize, new_rprop.
    cbn [repeat fst snd prev_g_ delta_ij_ optimize_loop]. unfold coord. cbv zeta. rewrite Rmult_0_l.
    destruct (Rlt_dec 0 0); [lra|]. specialize (IH (y - d0 * 1)). unfold new_rprop in IH. cbn [repeat] in IH. rewrite IH.
    rewrite S_INR. do 2 f_equal. ring. }
  rewrite G. split; [|reflexivity]. intros E. assert (0 < INR (S n)) by (apply lt_0_INR; lia).
  pose proof (Rmult_lt_0_compat _ _ H0 H). assert (x - INR (S n) * d0 = x) by congruence. lra.
Qed.
