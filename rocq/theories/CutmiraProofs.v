(** Proofs about the optimisation of cutting-plane MIRA. *)
From Coq Require Import Reals List Arith Bool Lia Lra Psatz.
From Verif Require Import Mira MiraSpec MiraProofs Cutmira CutmiraSpec.
Import ListNotations.
Local Open Scope R_scope.

Lemma sum_S : forall k f, sum (S k) f = sum k f + f k.
Proof.
  intros k f. unfold sum. rewrite seq_S, map_app, fold_right_app. cbn [map fold_right Nat.add].
  generalize (map f (seq 0 k)). intros l. induction l as [|x l IH]; cbn; [ring|]. rewrite IH. ring.
Qed.
Lemma sum_ext : forall k f g, (forall i, (i < k)%nat -> f i = g i) -> sum k f = sum k g.
Proof.
  induction k as [|k IH]; intros f g H; [reflexivity|]. rewrite !sum_S, (IH f g), (H k); auto.
Qed.
Lemma sum_plus : forall k f g, sum k (fun i => f i + g i) = sum k f + sum k g.
Proof. induction k as [|k IH]; intros f g; [cbn; ring|]. rewrite !sum_S, IH. ring. Qed.
Lemma sum_scale : forall k c f, sum k (fun i => c * f i) = c * sum k f.
Proof. induction k as [|k IH]; intros c f; [cbn; ring|]. rewrite !sum_S, IH. ring. Qed.
Lemma sum_le : forall k f g, (forall i, (i < k)%nat -> f i <= g i) -> sum k f <= sum k g.
Proof.
  induction k as [|k IH]; intros f g H; [cbn; lra|]. rewrite !sum_S. pose proof (IH f g ltac:(intros; apply H; lia)). specialize (H k ltac:(lia)). lra.
Qed.
Lemma sum_indicator : forall k p x, (p < k)%nat -> sum k (fun i => if (i =? p)%nat then x else 0) = x.
Proof.
  induction k as [|k IH]; intros p x H; [lia|]. rewrite sum_S. destruct (Nat.eq_dec p k) as [-> |N].
  - rewrite Nat.eqb_refl. rewrite (sum_ext k _ (fun _ => 0 * 0)).
    + rewrite sum_scale. ring.
    + intros i Hi. destruct (i =? k)%nat eqn:E; [apply Nat.eqb_eq in E; lia|ring].
  - rewrite IH by lia. destruct (k =? p)%nat eqn:E; [apply Nat.eqb_eq in E; lia|ring].
Qed.
Lemma sum_move : forall k alpha p q d g, (p < k)%nat -> (q < k)%nat -> p <> q ->
  sum k (fun i => move alpha p q d i * g i) = sum k (fun i => alpha i * g i) + d * (g p - g q).
Proof.
  intros k alpha p q d g Hp Hq N.
  rewrite (sum_ext k _ (fun i => alpha i * g i + ((if (i =? p)%nat then d * g p else 0) + (if (i =? q)%nat then - d * g q else 0)))).
  - rewrite sum_plus, sum_plus, !sum_indicator by assumption. ring.
  - intros i Hi. unfold move. destruct (i =? p)%nat eqn:E1.
    + apply Nat.eqb_eq in E1. subst. destruct (p =? q)%nat eqn:E2; [apply Nat.eqb_eq in E2; congruence|]. ring.
    + destruct (i =? q)%nat eqn:E2; [apply Nat.eqb_eq in E2; subst; ring|ring].
Qed.

Lemma largest_ge : forall k f i, (i < k)%nat -> f i <= largest k f.
Proof.
  intros k f i Hi. unfold largest. assert (I : In (f i) (map f (seq 0 k))) by (apply in_map, in_seq; lia).
  revert I. generalize (map f (seq 0 k)), (f i), (f 0%nat). intros l x m. induction l as [|y l IH]; intros I; [destruct I|].
  cbn. destruct I as [-> |I]; [apply Rmax_l|]. eapply Rle_trans; [apply IH; exact I|apply Rmax_r].
Qed.
Lemma largest_in : forall k f, (0 < k)%nat -> exists i, (i < k)%nat /\ largest k f = f i.
Proof.
  intros k f Hk. assert (H : forall l m, In (fold_right Rmax m l) (m :: l)).
  { induction l as [|y l IH]; intros m; cbn [fold_right]; [left; reflexivity|]. specialize (IH m). revert IH. generalize (fold_right Rmax m l). intros r IH.
    unfold Rmax. destruct (Rle_dec y r); [|right; left; reflexivity]. destruct IH as [E|E]; [left; exact E|right; right; exact E]. }
  specialize (H (map f (seq 0 k)) (f 0%nat)). unfold largest. destruct H as [E|E]; [exists 0%nat; split; [lia|symmetry; exact E]|].
  apply in_map_iff in E. destruct E as (i & E & I). apply in_seq in I. exists i. split; [lia|symmetry; exact E].
Qed.

(** Inner products of the weights of multipliers. *)
Lemma sum_zero : forall k, sum k (fun _ => 0) = 0.
Proof. induction k as [|k IH]; [reflexivity|]. rewrite sum_S, IH. ring. Qed.
Lemma weights_inner : forall n C k w0 o f alpha w, length w0 = n -> length o = n -> (forall i, (i < k)%nat -> length (f i) = n) ->
  weights_of C k w0 o f alpha w ->
  forall u, length u = n -> inner u w = inner u w0 + C * sum k (fun i => alpha i * (inner u o - inner u (f i))).
Proof.
  induction n as [|n IH]; intros C k w0 o f alpha w L0 Lo Lf [Lw W] u Lu.
  - destruct u; [|discriminate]. cbn [inner]. rewrite (sum_ext k _ (fun _ => 0)) by (intros; ring). rewrite sum_zero. ring.
  - destruct w0 as [|a0 w0], o as [|b0 o], u as [|u0 u], w as [|c0 w]; try discriminate. cbn [inner].
    rewrite (IH C k w0 o (fun i => tl (f i)) alpha w).
    + specialize (W 0%nat). cbn [nth] in W. rewrite W.
      rewrite (sum_ext k (fun i => alpha i * (u0 * b0 + inner u o - match f i with [] => 0 | y :: b' => u0 * y + inner u b' end))
        (fun i => u0 * (alpha i * (b0 - nth 0 (f i) 0)) + alpha i * (inner u o - inner u (tl (f i))))).
      * rewrite sum_plus, sum_scale. ring.
      * intros i Hi. specialize (Lf i Hi). destruct (f i) as [|x t]; [discriminate|]. cbn [inner nth tl]. ring.
    + cbn in L0; lia.
    + cbn in Lo; lia.
    + intros i Hi. specialize (Lf i Hi). destruct (f i); cbn in *; lia.
    + split; [cbn in Lw; lia|]. intros j. specialize (W (S j)). cbn [nth] in W. rewrite W. f_equal. f_equal. apply sum_ext. intros i Hi.
      specialize (Lf i Hi). destruct (f i); [discriminate|reflexivity].
    + cbn in Lu; lia.
Qed.

Lemma dist2_inner : forall n a b, length a = n -> length b = n -> dist2 a b = inner a a - 2 * inner a b + inner b b.
Proof.
  induction n as [|n IH]; intros a b A B; destruct a as [|x a], b as [|y b]; try discriminate; cbn [dist2 inner]; [ring|].
  cbn in A, B. rewrite IH by lia. ring.
Qed.
Lemma inner_comm : forall a b, inner a b = inner b a.
Proof. induction a as [|x a IH]; intros [|y b]; try reflexivity. cbn. rewrite IH. ring. Qed.

Lemma diff_zero : forall n a b, length a = n -> length b = n -> inner (vsub a b) (vsub a b) = 0 -> a = b.
Proof.
  induction n as [|m IH]; intros a b A B Z; destruct a as [|x a], b as [|y b]; try discriminate; [reflexivity|].
  change (vsub (x :: a) (y :: b)) with (x - y :: vsub a b) in Z. cbn [inner] in Z. pose proof (inner_self (vsub a b)). pose proof (Rle_0_sqr (x - y)) as S. unfold Rsqr in S.
  cbn in A, B. f_equal; [nra|apply IH; [lia|lia|lra]].
Qed.
Lemma clamp_best : forall raw a b t, - a <= t <= b -> 0 <= (Rmax (- a) (Rmin raw b) - t) * (raw - (Rmax (- a) (Rmin raw b) + t) / 2).
Proof.
  intros raw a b t H. unfold Rmax, Rmin.
  assert (P : forall x y, 0 <= x -> 0 <= y -> 0 <= x * y) by (intros; apply Rmult_le_pos; assumption).
  assert (Q : forall x y, x <= 0 -> y <= 0 -> 0 <= x * y) by (intros x y X Y; replace (x * y) with (- x * - y) by ring; apply P; lra).
  destruct (Rle_dec raw b); [|].
  - destruct (Rle_dec (- a) raw).
    + replace ((raw - t) * (raw - (raw + t) / 2)) with ((raw - t) * (raw - t) / 2) by field. pose proof (Rle_0_sqr (raw - t)) as S. unfold Rsqr in S. lra.
    + apply Q; lra.
  - destruct (Rle_dec (- a) b); [apply P; lra|lra].
Qed.

(** The pairs chosen. *)
Lemma max_fear_ok : forall fear u is m, match max_fear fear u is m with
  | None => m = None /\ forall i, In i is -> i = u
  | Some x => (forall i, In i is -> i <> u -> fear i <= x) /\ (forall y, m = Some y -> y <= x) /\
              ((exists i, In i is /\ i <> u /\ x = fear i) \/ m = Some x) end.
Proof.
  intros fear u is. induction is as [|i is IH]; intros m; cbn [max_fear].
  - destruct m; [split; [intros ? []|]; split; [intros y E; inversion E; lra|right; reflexivity]|split; [reflexivity|intros ? []]].
  - destruct (i =? u)%nat eqn:E.
    + apply Nat.eqb_eq in E. specialize (IH m). destruct (max_fear fear u is m) as [x|].
      * destruct IH as (I1 & I2 & I3). split; [intros j [<- |J] NJ; [congruence|apply I1; assumption]|]. split; [exact I2|].
        destruct I3 as [(j & J1 & J2)|I3]; [left; exists j; split; [right; exact J1|exact J2]|right; exact I3].
      * destruct IH as [I1 I2]. split; [exact I1|]. intros j [<- |J]; [exact E|apply I2; exact J].
    + apply Nat.eqb_neq in E. set (m' := match m with None => Some (fear i) | Some x => if Rlt_dec x (fear i) then Some (fear i) else m end).
      assert (M' : exists y, m' = Some y /\ fear i <= y /\ (forall z, m = Some z -> z <= y) /\ (y = fear i \/ m = Some y)).
      { unfold m'. destruct m as [x|].
        - destruct (Rlt_dec x (fear i)); [exists (fear i)|exists x]; (split; [reflexivity|]); (split; [lra|]); (split; [intros z Z; inversion Z; lra|]); [left|right]; reflexivity.
        - exists (fear i). split; [reflexivity|]. split; [lra|]. split; [discriminate|left; reflexivity]. }
      destruct M' as (y & Y0 & Y1 & Y2 & Y3). specialize (IH m'). rewrite Y0 in *. destruct (max_fear fear u is (Some y)) as [x|].
      * destruct IH as (I1 & I2 & I3). specialize (I2 y eq_refl). split; [intros j [<- |J] NJ; [lra|apply I1; assumption]|].
        split; [intros z Z; specialize (Y2 z Z); lra|].
        destruct I3 as [(j & J1 & J2)|I3]; [left; exists j; split; [right; exact J1|exact J2]|]. inversion I3; subst y.
        destruct Y3 as [-> |Y3]; [left; exists i; split; [left; reflexivity|split; [exact E|reflexivity]]|right; exact Y3].
      * destruct IH as [I1 _]. discriminate.
Qed.

Lemma lt_true : forall x y, lt x y = true -> x < y.
Proof. intros x y. unfold lt. destruct (Rlt_dec x y); [auto|discriminate]. Qed.
Lemma lt_false : forall x y, lt x y = false -> y <= x.
Proof. intros x y. unfold lt. destruct (Rlt_dec x y); [discriminate|lra]. Qed.

Lemma select_range : forall K alpha fear us p q, (forall u, In u us -> (u < K)%nat) ->
  select_loop K alpha fear us = Some (p, q) -> (p < K)%nat /\ (q < K)%nat /\ p <> q.
Proof.
  intros K alpha fear us. induction us as [|u us IH]; intros p q Hu E; [discriminate|]. cbn [select_loop] in E.
  destruct (max_fear fear u (seq 0 K) None) as [m|]; [|discriminate].
  assert (Find : forall g i, find (fun i => negb (i =? u)%nat && g i) (seq 0 K) = Some i -> (i < K)%nat /\ u <> i).
  { intros g i F. apply find_some in F. destruct F as [I G]. apply in_seq in I. apply andb_true_iff in G. destruct G as [G _].
    apply negb_true_iff, Nat.eqb_neq in G. split; [lia|congruence]. }
  cbv zeta in E.
  match type of E with match ?X with _ => _ end = _ => destruct X as [i|] eqn:F1 end.
  - destruct (Req_EM_T (alpha u) 0); [|discriminate]. destruct (lt (m + SMO_EPSILON) (fear u)); [|discriminate].
    apply Find in F1. inversion E; subst. split; [apply Hu; left; reflexivity|]. tauto.
  - match type of E with match ?X with _ => _ end = _ => destruct X as [i|] eqn:F2 end.
    + destruct (lt 0 (alpha u) && lt (fear u) (m - SMO_EPSILON)); [|discriminate]. apply Find in F2. inversion E; subst.
      split; [apply Hu; left; reflexivity|]. tauto.
    + apply IH; [intros v V; apply Hu; right; exact V|exact E].
Qed.

Lemma select_none : forall K alpha fear us u, (forall u, In u us -> (u < K)%nat) -> (2 <= K)%nat ->
  select_loop K alpha fear us = None -> In u us -> 0 < alpha u -> forall i, (i < K)%nat -> fear i - SMO_EPSILON <= fear u.
Proof.
  intros K alpha fear us u. induction us as [|v us IH]; intros Hu HK E I A i Hi; [destruct I|]. cbn [select_loop] in E.
  pose proof (max_fear_ok fear v (seq 0 K) None) as M. destruct (max_fear fear v (seq 0 K) None) as [m|].
  2: { exfalso. destruct M as [_ M]. assert (0%nat = v) by (apply M, in_seq; lia). assert (1%nat = v) by (apply M, in_seq; lia). lia. }
  cbv zeta in E.
  match type of E with match ?X with _ => _ end = _ => destruct X as [j|] eqn:F1; [discriminate|] end.
  match type of E with match ?X with _ => _ end = _ => destruct X as [j|] eqn:F2; [discriminate|] end.
  destruct I as [-> |I]; [|apply IH; auto; intros x X; apply Hu; right; exact X].
  destruct (Nat.eq_dec i u) as [-> |N]; [unfold SMO_EPSILON; lra|].
  destruct M as (M1 & _ & M3). specialize (M1 i ltac:(apply in_seq; lia) N).
  destruct (lt 0 (alpha u)) eqn:L1; [|apply lt_false in L1; lra]. cbn [andb] in F2.
  destruct (lt (fear u) (m - SMO_EPSILON)) eqn:L2; [|apply lt_false in L2; lra]. exfalso. apply lt_true in L2.
  destruct M3 as [(j & J1 & J2 & J3)|M3]; [|discriminate]. pose proof (find_none _ _ F2 j J1) as X. cbn beta in X.
  assert (Y : (j =? u)%nat = false) by (apply Nat.eqb_neq; exact J2). rewrite Y in X. cbn [negb andb] in X. apply lt_false in X.
  unfold SMO_EPSILON in L2. lra.
Qed.

Section Opt.
Variable n : nat.
Variable C : R.
Variable k : nat.
Variables w0 o : list R.
Variable f : nat -> list R.
Variable l : nat -> R.
Hypothesis C_pos : 0 < C.
Hypothesis L0 : length w0 = n.
Hypothesis Lo : length o = n.
Hypothesis Lf : forall i, (i < k)%nat -> length (f i) = n.

(** The weights of the multipliers minimise the Lagrangian. *)
Lemma lagrangian_min : forall alpha w v, weights_of C k w0 o f alpha w -> length v = n ->
  lagrangian C k w0 o f l alpha v = lagrangian C k w0 o f l alpha w + dist2 v w / 2.
Proof.
  intros alpha w v W V. pose proof (weights_inner n C k w0 o f alpha w L0 Lo Lf W) as I. destruct W as [Lw _].
  assert (Lw' : length w = n) by lia.
  unfold lagrangian. rewrite !(dist2_inner n) by lia.
  pose proof (I v V) as Iv. pose proof (I w Lw') as Iw.
  set (sv := sum k (fun i => alpha i * (inner v o - inner v (f i)))) in *.
  set (sw := sum k (fun i => alpha i * (inner w o - inner w (f i)))) in *.
  assert (E : forall u, sum k (fun i => alpha i * violation o f l u i) = sum k (fun i => alpha i * l i) - sum k (fun i => alpha i * (inner u o - inner u (f i)))).
  { intros u. rewrite (sum_ext k (fun i => alpha i * violation o f l u i) (fun i => alpha i * l i + -1 * (alpha i * (inner u o - inner u (f i))))).
    - rewrite sum_plus, sum_scale. ring.
    - intros i Hi. unfold violation. rewrite (inner_comm o u), (inner_comm (f i) u). ring. }
  rewrite !E. fold sv sw.
  replace (inner v w) with (inner v w0 + C * sv) by lra. replace (inner w w0) with (inner w w - C * sw) by lra. field.
Qed.

Lemma weak_duality : forall alpha w v, (0 < k)%nat -> simplex k alpha -> weights_of C k w0 o f alpha w -> length v = n ->
  lagrangian C k w0 o f l alpha w + dist2 v w / 2 <= primal C k w0 o f l v.
Proof.
  intros alpha w v Hk [A1 A2] W V. rewrite <- (lagrangian_min alpha w v W V). unfold lagrangian, primal.
  set (m := largest k (violation o f l v)).
  assert (sum k (fun i => alpha i * violation o f l v i) <= m).
  { replace m with (m * sum k alpha) by (rewrite A2; ring). rewrite <- sum_scale. apply sum_le. intros i Hi.
    pose proof (largest_ge k (violation o f l v) i Hi) as G. fold m in G. specialize (A1 i Hi). nra. }
  nra.
Qed.

Variable cs : list cons.
Hypothesis cs_length : length cs = k.
Hypothesis cs_ok : forall i c, nth_error cs i = Some c -> features c = f i /\ oracle_loss c = l i /\ oracleN c = Some o.

Lemma cs_get : forall i, (i < k)%nat -> exists c, nth_error cs i = Some c.
Proof. intros i Hi. destruct (nth_error cs i) as [c|] eqn:E; [exists c; reflexivity|]. apply nth_error_None in E. lia. Qed.

(** One step of the optimisation. *)
Lemma step_ok : forall alpha w p q, (p < k)%nat -> (q < k)%nat -> p <> q -> simplex k alpha -> weights_of C k w0 o f alpha w ->
  exists delta w', smo_step C cs (alpha, w) p q = Some (delta, (move alpha p q delta, w')) /\
    simplex k (move alpha p q delta) /\ weights_of C k w0 o f (move alpha p q delta) w' /\
    - alpha p <= delta <= alpha q /\
    lagrangian C k w0 o f l alpha w <= lagrangian C k w0 o f l (move alpha p q delta) w' /\
    (f p <> f q -> forall t w'', - alpha p <= t <= alpha q -> weights_of C k w0 o f (move alpha p q t) w'' ->
       lagrangian C k w0 o f l (move alpha p q t) w'' <= lagrangian C k w0 o f l (move alpha p q delta) w').
Proof.
  intros alpha w p q Hp Hq N [A1 A2] W.
  destruct (cs_get p Hp) as [c0 E0]. destruct (cs_get q Hq) as [c1 E1].
  destruct (cs_ok p c0 E0) as (F0 & Ls0 & O0). destruct (cs_ok q c1 E1) as (F1 & Ls1 & O1).
  assert (Lw : length w = n) by (destruct W; lia).
  pose proof (Lf p Hp) as Lp. pose proof (Lf q Hq) as Lq.
  unfold smo_step. rewrite E0, E1. cbn [fst snd]. unfold ComputeDelta. rewrite O0, O1, F0, F1, Ls0, Ls1. cbv zeta. rewrite !dot_inner.
  set (d := vsub (f p) (f q)). set (D := inner d d).
  set (num := - (inner o w - inner (f p) w) + (inner o w - inner (f q) w) + (l p - l q)).
  set (raw := if Rlt_dec 0 D then num / (D * C) else 0). set (delta := Rmax (- alpha p) (Rmin raw (alpha q))).
  set (w' := vsub (vadd w (vscale (delta * C) (f q))) (vscale (delta * C) (f p))).
  exists delta, w'. split; [reflexivity|].
  pose proof (A1 p Hp) as Pp. pose proof (A1 q Hq) as Pq.
  assert (B : - alpha p <= delta <= alpha q).
  { unfold delta. split; [apply Rmax_l|]. apply Rmax_lub; [lra|apply Rmin_r]. }
  assert (Sx : forall t, - alpha p <= t <= alpha q -> simplex k (move alpha p q t)).
  { intros t Ht. split.
    - intros i Hi. unfold move. destruct (i =? p)%nat eqn:X; [apply Nat.eqb_eq in X; subst; lra|].
      destruct (i =? q)%nat eqn:Y; [apply Nat.eqb_eq in Y; subst; lra|apply A1; exact Hi].
    - rewrite (sum_ext k _ (fun i => move alpha p q t i * 1)) by (intros; ring). rewrite sum_move by assumption.
      rewrite (sum_ext k _ alpha) by (intros; ring). rewrite A2. ring. }
  assert (Wx : forall t, weights_of C k w0 o f (move alpha p q t) (shift w (t * C) (f q) (f p))).
  { intros t. destruct W as [WL WV]. split; [rewrite shift_length; lia|]. intros j. rewrite (nth_shift n) by assumption. rewrite WV.
    rewrite (sum_move k alpha p q t (fun i => nth j o 0 - nth j (f i) 0)) by assumption. ring. }
  split; [apply Sx; exact B|]. split; [apply Wx|]. split; [exact B|].
  (* the gain of a step t *)
  assert (Gain : forall t v, weights_of C k w0 o f (move alpha p q t) v ->
    lagrangian C k w0 o f l (move alpha p q t) v = lagrangian C k w0 o f l alpha w + C * (t * num) - C * C * (t * t) * D / 2).
  { intros t v Wv.
    assert (E : v = shift w (t * C) (f q) (f p)).
    { apply nth_ext with (d := 0) (d' := 0).
      - destruct Wv as [X _]. rewrite shift_length by lia. lia.
      - intros j _. destruct Wv as [_ X]. destruct (Wx t) as [_ Y]. rewrite X, Y. reflexivity. }
    pose proof (lagrangian_min (move alpha p q t) v w Wv Lw) as M.
    assert (Mw : lagrangian C k w0 o f l (move alpha p q t) w = lagrangian C k w0 o f l alpha w + C * (t * num)).
    { unfold lagrangian. rewrite (sum_move k alpha p q t (violation o f l w)) by assumption. unfold violation, num. ring. }
    assert (Dw : dist2 w v = C * C * (t * t) * D).
    { rewrite E. assert (Sy : forall a b, dist2 a b = dist2 b a). { induction a as [|x a IH]; intros [|y b]; try reflexivity. cbn. rewrite IH. ring. }
      rewrite Sy, (shift_dist n) by assumption.
      assert (Neg : inner (vsub (f q) (f p)) (vsub (f q) (f p)) = D).
      { unfold D, d. generalize Lp Lq. generalize (f p), (f q). clear. induction n as [|m IH]; intros a b A B; destruct a as [|x a], b as [|y b]; try discriminate; [reflexivity|].
        change (vsub (x :: a) (y :: b)) with (x - y :: vsub a b). change (vsub (y :: b) (x :: a)) with (y - x :: vsub b a). cbn [inner].
        cbn in A, B. rewrite (IH a b) by lia. ring. }
      rewrite Neg. ring. }
    lra. }
  pose proof (inner_self d) as DP. fold D in DP.
  assert (Opt : 0 < D -> forall t, - alpha p <= t <= alpha q -> t * num - C * (t * t) * D / 2 <= delta * num - C * (delta * delta) * D / 2).
  { intros D0 t Ht. assert (R0 : raw = num / (D * C)) by (unfold raw; destruct (Rlt_dec 0 D); [reflexivity|lra]).
    assert (Nm : num = raw * (D * C)) by (rewrite R0; field; split; lra).
    assert (K : (delta - t) * (raw - (delta + t) / 2) >= 0).
    { apply Rle_ge. unfold delta. apply clamp_best; lra. }
    rewrite Nm. assert (DC : 0 < D * C) by nra.
    assert (K2 : 0 <= (D * C) * ((delta - t) * (raw - (delta + t) / 2))) by (apply Rmult_le_pos; lra). lra. }
  split.
  - rewrite (Gain delta w' (Wx delta)). destruct (Req_dec D 0) as [Z|NZ].
    + assert (Dz : delta = 0). { unfold delta, raw. destruct (Rlt_dec 0 D); [lra|]. rewrite Rmin_left by lra. rewrite Rmax_right by lra. reflexivity. }
      rewrite Dz. lra.
    + specialize (Opt ltac:(lra) 0 ltac:(lra)). nra.
  - intros Nf t w'' Ht W''. rewrite (Gain t w'' W''), (Gain delta w' (Wx delta)).
    assert (D0 : 0 < D).
    { destruct (Req_dec D 0) as [Z|NZ]; [|lra]. exfalso. apply Nf. apply (diff_zero n); assumption. }
    specialize (Opt D0 t Ht). nra.
Qed.

(** Any number of steps. *)
Lemma smo_ok : forall iter ns fear alpha w, (2 <= k)%nat -> simplex k alpha -> weights_of C k w0 o f alpha w ->
  exists alpha' w', smo iter ns C cs fear (alpha, w) = Some (alpha', w') /\ simplex k alpha' /\ weights_of C k w0 o f alpha' w' /\
    lagrangian C k w0 o f l alpha w <= lagrangian C k w0 o f l alpha' w'.
Proof.
  induction iter as [|iter IH]; intros ns fear alpha w Hk A W; cbn [smo].
  - exists alpha, w. split; [reflexivity|]. split; [exact A|]. split; [exact W|lra].
  - cbn [fst]. destruct (SelectPair ns (length cs) alpha fear) as [[p q]|] eqn:Sp.
    + assert (Pq : (p < k)%nat /\ (q < k)%nat /\ p <> q).
      { unfold SelectPair in Sp. destruct ns; [inversion Sp; subst; lia|]. rewrite cs_length in Sp. eapply select_range; [|exact Sp].
        intros u U. apply in_seq in U. lia. }
      destruct Pq as (Hp & Hq & N). destruct (step_ok alpha w p q Hp Hq N A W) as (delta & w' & E & A' & W' & _ & Mo & _). rewrite E.
      destruct (ns && (if Req_EM_T delta 0 then true else false)).
      * exists (move alpha p q delta), w'. split; [reflexivity|]. split; [exact A'|]. split; [exact W'|exact Mo].
      * destruct (IH ns fear _ _ Hk A' W') as (a2 & w2 & E2 & A2 & W2 & M2). exists a2, w2. split; [exact E2|]. split; [exact A2|]. split; [exact W2|lra].
    + exists alpha, w. split; [reflexivity|]. split; [exact A|]. split; [exact W|lra].
Qed.

(** When no pair is left the weights are as good as any, up to C * epsilon. *)
Lemma stop_ok : forall alpha w v, (2 <= k)%nat -> simplex k alpha -> weights_of C k w0 o f alpha w -> length v = n ->
  SelectPair false k alpha (violation o f l w) = None ->
  primal C k w0 o f l w <= primal C k w0 o f l v + C * SMO_EPSILON.
Proof.
  clear cs cs_length cs_ok. intros alpha w v Hk A W V Sp. pose proof (weak_duality alpha w v ltac:(lia) A W V) as Wd. pose proof (dist2_nonneg v w) as Dn.
  assert (G : primal C k w0 o f l w <= lagrangian C k w0 o f l alpha w + C * SMO_EPSILON).
  { unfold primal, lagrangian. destruct A as [A1 A2]. set (m := largest k (violation o f l w)).
    assert (m - SMO_EPSILON <= sum k (fun i => alpha i * violation o f l w i)).
    { replace (m - SMO_EPSILON) with ((m - SMO_EPSILON) * sum k alpha) by (rewrite A2; ring). rewrite <- sum_scale. apply sum_le. intros i Hi.
      specialize (A1 i Hi). destruct (Req_dec (alpha i) 0) as [Z|NZ]; [rewrite Z; lra|].
      destruct (largest_in k (violation o f l w) ltac:(lia)) as (j & Hj & Ej). fold m in Ej.
      unfold SelectPair in Sp. pose proof (select_none k alpha (violation o f l w) (seq 0 k) i ltac:(intros u U; apply in_seq in U; lia) Hk Sp ltac:(apply in_seq; lia) ltac:(lra) j Hj) as X.
      rewrite <- Ej in X. nra. }
    nra. }
  lra.
Qed.
End Opt.

Lemma simplex0 : forall k, (0 < k)%nat -> simplex k alpha0.
Proof.
  intros k Hk. split; [intros i _; unfold alpha0; destruct (i =? 0)%nat; lra|]. unfold alpha0. apply (sum_indicator k 0 1 Hk).
Qed.
Lemma weights0 : forall C k w o f, (0 < k)%nat -> f 0%nat = o -> weights_of C k w o f alpha0 w.
Proof.
  intros C k w o f Hk E. split; [reflexivity|]. intros j. rewrite (sum_ext k _ (fun _ => 0)); [rewrite sum_zero; ring|].
  intros i Hi. unfold alpha0. destruct (i =? 0)%nat eqn:X; [apply Nat.eqb_eq in X; subst i; rewrite E; ring|ring].
Qed.

(** A round of --optimizer 3: the first constraint is the oracle. *)
Lemma round_ok : forall n C w o cs ns fear, 0 < C -> length w = n -> length o = n -> (2 <= length cs)%nat ->
  (forall c, In c cs -> length (features c) = n /\ oracleN c = Some o) -> option_map features (nth_error cs 0) = Some o ->
  let f i := match nth_error cs i with Some c => features c | None => [] end in
  let l i := match nth_error cs i with Some c => oracle_loss c | None => 0 end in
  exists alpha w', round ns C cs fear w = Some (alpha, w') /\ simplex (length cs) alpha /\ weights_of C (length cs) w o f alpha w' /\
    lagrangian C (length cs) w o f l alpha0 w <= lagrangian C (length cs) w o f l alpha w'.
Proof.
  intros n C w o cs ns fear HC Lw Lo Hk Hc H0 f l. unfold round. apply (smo_ok n); auto.
  - intros i Hi. unfold f. destruct (nth_error cs i) eqn:E; [|apply nth_error_None in E; lia]. apply nth_error_In in E. apply Hc in E. tauto.
  - intros i c E. unfold f, l. rewrite E. apply nth_error_In in E. apply Hc in E. tauto.
  - apply simplex0. lia.
  - apply weights0; [lia|]. unfold f. destruct (nth_error cs 0); [|discriminate]. cbn in H0. congruence.
Qed.

(** The passive-aggressive update. *)
Lemma pa_ok : forall n C w good bad, 0 < C -> length w = n -> length (fst good) = n -> length (fst bad) = n ->
  let m := snd good - snd bad in
  let f := objective C m w (fst good) (fst bad) in
  exists w', pa_update 1 C w good bad = Some w' /\ length w' = n /\
    (m - (inner (fst good) w - inner (fst bad) w) <= SMO_EPSILON -> w' = w) /\
    (SMO_EPSILON < m - (inner (fst good) w - inner (fst bad) w) -> forall v, length v = n -> f w' + dist2 v w' / 2 <= f v).
Proof.
  intros n C w [g mg] [b mb] HC Lw Lg Lb m f. cbn [fst snd] in *. unfold pa_update, annotate. cbn [Nat.eqb fst snd]. rewrite !dot_inner.
  destruct (Rlt_dec _ _) as [V|V].
  2: { exists w. split; [reflexivity|]. split; [exact Lw|]. split; [reflexivity|]. intros H. exfalso. apply V. unfold m in H. lra. }
  unfold smo_step. cbn [nth_error fst snd]. unfold ComputeDelta. cbn [oracleN oracle_loss features]. cbv zeta. rewrite !dot_inner. cbn [option_map snd].
  set (D := inner (vsub g b) (vsub g b)).
  set (raw := if Rlt_dec 0 D then _ else 0). set (delta := Rmax (- alpha0 0) (Rmin raw (alpha0 1))).
  set (viol := m - (inner g w - inner b w)) in *.
  eexists. split; [reflexivity|].
  assert (Es : vsub (vadd w (vscale (delta * C) b)) (vscale (delta * C) g) = shift w (- (delta * C)) g b).
  { change (vsub (vadd w (vscale (delta * C) b)) (vscale (delta * C) g)) with (shift w (delta * C) b g). apply nth_ext with (d := 0) (d' := 0).
    - rewrite !shift_length by lia. reflexivity.
    - intros j _. rewrite !(nth_shift n) by assumption. ring. }
  rewrite Es. split; [rewrite shift_length; lia|].
  assert (Vp : SMO_EPSILON < viol) by (unfold viol, m; lra). assert (Ve : 0 < SMO_EPSILON) by (unfold SMO_EPSILON; lra).
  split; [intros H; exfalso; lra|]. intros _ v Lv.
  assert (Sl : forall t, m - (inner g (shift w t g b) - inner b (shift w t g b)) = viol - t * D).
  { intros t. rewrite (shift_inner n w t g b g), (shift_inner n w t g b b) by assumption.
    assert (X : D = inner g (vsub g b) - inner b (vsub g b)).
    { unfold D. apply (inner_sub n); auto. rewrite vsub_length. lia. } rewrite X. unfold viol. ring. }
  pose proof (inner_self (vsub g b)) as DP. fold D in DP.
  assert (T : exists tau, shift w (- (delta * C)) g b = shift w tau g b /\ 0 <= tau <= C /\ C * Rmax 0 (viol - tau * D) = tau * (viol - tau * D)).
  { destruct (Req_dec D 0) as [Z|NZ].
    - exists C. split; [|split; [lra|]].
      + assert (Eq : g = b) by (apply (diff_zero n); assumption). rewrite Eq. apply nth_ext with (d := 0) (d' := 0); [rewrite !shift_length by lia; reflexivity|].
        intros j _. rewrite !(nth_shift n) by assumption. ring.
      + rewrite Z, Rmult_0_r, Rminus_0_r, Rmax_right by lra. reflexivity.
    - exists (- (delta * C)). split; [reflexivity|]. assert (D0 : 0 < D) by lra.
      assert (Er : raw = - viol / (D * C)). { unfold raw. destruct (Rlt_dec 0 D); [|lra]. unfold viol, m. f_equal. ring. }
      assert (Er2 : raw * C * D = - viol) by (rewrite Er; field; split; lra).
      assert (Rn : raw < 0). { assert (0 < C * D) by nra. nra. }
      unfold delta, alpha0. cbn [Nat.eqb]. rewrite (Rmin_left raw 0) by lra. destruct (Rle_dec (-1) raw) as [K|K].
      + rewrite Rmax_right by lra. split; [nra|]. replace (viol - - (raw * C) * D) with 0 by lra. rewrite Rmax_left by lra. ring.
      + rewrite Rmax_left by lra. split; [nra|]. rewrite Rmax_right; [ring|]. assert (0 < C * D) by nra. nra. }
  destruct T as (tau & -> & T1 & T2). apply (step_optimal n); auto. unfold hinge. rewrite Sl. exact T2.
Qed.

(** The witness of the second round. *)
Definition wf (i : nat) : list R := match i with O => [0] | S O => [-1] | _ => [-2] end.
Definition wl (i : nat) : R := match i with O => 0 | S O => 10 | _ => 30 end.
Definition wc (i : nat) : cons := Cons (wf i) (wl i) (Some [0]).
Definition fear1 : nat -> R := violation [0] wf wl [0].
Definition fear2 : nat -> R := fun i => if (i <? 2)%nat then violation [0] wf wl [0] i else violation [0] wf wl [1] i.

Ltac dec := repeat match goal with
  | |- context [Rlt_dec ?a ?b] => destruct (Rlt_dec a b); try (exfalso; lra)
  | |- context [Req_EM_T ?a ?b] => destruct (Req_EM_T a b); try (exfalso; lra) end.

Lemma delta1 : forall x a la b lb al be, 0 < (a - b) * (a - b) -> a * x - b * x + la - lb <= - al * ((a - b) * (a - b)) -> 0 <= al -> 0 <= be ->
  ComputeDelta 1 [x] (Cons [a] la (Some [0])) (Cons [b] lb (Some [0])) al be = Some (- al).
Proof.
  intros x a la b lb al be D H A B. unfold ComputeDelta. cbn [oracleN oracle_loss features]. cbv zeta. rewrite !dot_inner. unfold vsub. cbn [combine map fst snd inner].
  set (d2 := (a - b) * (a - b) + 0). destruct (Rlt_dec 0 d2) as [P|P]; [|unfold d2 in P; lra].
  set (q := (_ / _)). assert (Q : q <= - al).
  { unfold q. rewrite Rmult_1_r. apply Rmult_le_reg_r with d2; [exact P|]. unfold Rdiv. rewrite Rmult_assoc, Rinv_l, Rmult_1_r by lra. unfold d2. lra. }
  rewrite Rmin_left by lra. rewrite Rmax_left by lra. reflexivity.
Qed.

Lemma fears : fear1 0 = 0 /\ fear1 1 = 10 /\ fear2 0 = 0 /\ fear2 1 = 10 /\ fear2 2 = 28.
Proof. unfold fear1, fear2, violation, wf, wl. cbn [Nat.ltb Nat.leb inner]. repeat split; lra. Qed.

Lemma stepw : forall alpha x p q, (p < 3)%nat -> (q < 3)%nat -> forall cs, nth_error cs p = Some (wc p) -> nth_error cs q = Some (wc q) ->
  ComputeDelta 1 [x] (wc p) (wc q) (alpha p) (alpha q) = Some (- alpha p) ->
  forall y, y = x + - alpha p * 1 * nth 0 (wf q) 0 - - alpha p * 1 * nth 0 (wf p) 0 ->
  smo_step 1 cs (alpha, [x]) p q = Some (- alpha p, (move alpha p q (- alpha p), [y])).
Proof.
  intros alpha x p q Hp Hq cs Ep Eq Ed y Ey. unfold smo_step. rewrite Ep, Eq. cbn [fst snd]. rewrite Ed. f_equal. f_equal. f_equal.
  assert (Wn : forall i, exists z, wf i = [z]) by (intros [|[|i]]; eexists; reflexivity).
  destruct (Wn p) as [zp Zp], (Wn q) as [zq Zq]. unfold wc. cbn [features]. rewrite Zp, Zq in *. unfold vsub, vadd, vscale. cbn [map combine fst snd].
  cbn [nth] in Ey. rewrite Ey. reflexivity.
Qed.

Ltac sel := unfold SelectPair; cbn [seq select_loop max_fear Nat.eqb find negb andb]; unfold lt, SMO_EPSILON;
  repeat match goal with H : _ = _ |- _ => rewrite H end; dec; cbn [andb]; dec; try reflexivity.
Lemma sel_a : forall alpha, alpha 0%nat = 1 -> SelectPair false 2 alpha fear1 = Some (0, 1)%nat.
Proof. intros alpha A. destruct fears as (F0 & F1 & _). sel. Qed.
Lemma sel_b : forall alpha, alpha 0%nat = 0 -> alpha 1%nat = 1 -> SelectPair false 2 alpha fear1 = None.
Proof. intros alpha A B. destruct fears as (F0 & F1 & _). sel. Qed.
Lemma sel_c : forall alpha, alpha 0%nat = 1 -> SelectPair false 3 alpha fear2 = Some (0, 1)%nat.
Proof. intros alpha A. destruct fears as (_ & _ & F0 & F1 & F2). sel. Qed.
Lemma sel_d : forall alpha, alpha 0%nat = 0 -> alpha 1%nat = 1 -> SelectPair false 3 alpha fear2 = Some (1, 2)%nat.
Proof. intros alpha A B. destruct fears as (_ & _ & F0 & F1 & F2). sel. Qed.
Lemma sel_e : forall alpha, alpha 0%nat = 0 -> alpha 1%nat = 0 -> alpha 2%nat = 1 -> SelectPair false 3 alpha fear2 = None.
Proof. intros alpha A B D. destruct fears as (_ & _ & F0 & F1 & F2). sel. Qed.

Lemma smo_S : forall i ns C cs fear st, smo (S i) ns C cs fear st =
  match SelectPair ns (length cs) (fst st) fear with
  | None => Some st
  | Some (p, q) => match smo_step C cs st p q with
    | None => None
    | Some (delta, st') => if ns && (if Req_EM_T delta 0 then true else false) then Some st' else smo i ns C cs fear st' end
  end.
Proof. reflexivity. Qed.

Ltac mv := unfold move, alpha0; cbn [Nat.eqb]; lra.
Lemma round_one : exists a, round false 1 [wc 0; wc 1] fear1 [0] = Some (a, [1]).
Proof.
  unfold round, MAX_SMO. rewrite smo_S. cbn [length fst]. rewrite sel_a by reflexivity.
  rewrite (stepw alpha0 0 0 1) with (y := 1); [|lia|lia|reflexivity|reflexivity|unfold wc, wf, wl, alpha0; cbn [Nat.eqb]; apply delta1; lra|unfold alpha0; cbn [Nat.eqb nth wf]; lra].
  cbn [andb]. rewrite smo_S. cbn [length fst]. rewrite sel_b by mv. eexists. reflexivity.
Qed.
Lemma round_two : exists a, round false 1 [wc 0; wc 1; wc 2] fear2 [1] = Some (a, [3]).
Proof.
  unfold round, MAX_SMO. rewrite smo_S. cbn [length fst]. rewrite sel_c by reflexivity.
  rewrite (stepw alpha0 1 0 1) with (y := 2); [|lia|lia|reflexivity|reflexivity|unfold wc, wf, wl, alpha0; cbn [Nat.eqb]; apply delta1; lra|unfold alpha0; cbn [Nat.eqb nth wf]; lra].
  set (a1 := move alpha0 0 1 (- alpha0 0)). assert (A0 : a1 0%nat = 0) by (unfold a1; mv). assert (A1 : a1 1%nat = 1) by (unfold a1; mv). assert (A2 : a1 2%nat = 0) by (unfold a1; mv).
  cbn [andb]. rewrite smo_S. cbn [length fst]. rewrite sel_d by assumption.
  rewrite (stepw a1 2 1 2) with (y := 3); [|lia|lia|reflexivity|reflexivity|unfold wc, wf, wl; apply delta1; lra|rewrite A1; cbn [nth wf]; lra].
  cbn [andb]. rewrite smo_S. cbn [length fst]. rewrite sel_e; [eexists; reflexivity| | |]; unfold move; cbn [Nat.eqb]; lra.
Qed.
Lemma rounds_refuted : exists a1 a2,
  round false 1 [wc 0; wc 1] fear1 [0] = Some (a1, [1]) /\
  round false 1 [wc 0; wc 1; wc 2] fear2 [1] = Some (a2, [3]) /\
  primal 1 3 [0] [0] wf wl [2] + 1 * SMO_EPSILON < primal 1 3 [0] [0] wf wl [3].
Proof.
  destruct round_one as [a1 E1], round_two as [a2 E2]. exists a1, a2. split; [exact E1|]. split; [exact E2|].
  assert (P2 : primal 1 3 [0] [0] wf wl [2] = 28).
  { unfold primal, largest, violation. cbn [seq map fold_right wf wl inner dist2]. 
    match goal with |- _ + 1 * Rmax ?a (Rmax ?b (Rmax ?c ?d)) = _ => rewrite (Rmax_left c d) by lra; rewrite (Rmax_right b c) by lra; rewrite (Rmax_right a c) by lra end. lra. }
  assert (P3 : primal 1 3 [0] [0] wf wl [3] = 57 / 2).
  { unfold primal, largest, violation. cbn [seq map fold_right wf wl inner dist2]. 
    match goal with |- _ + 1 * Rmax ?a (Rmax ?b (Rmax ?c ?d)) = _ => rewrite (Rmax_left c d) by lra; rewrite (Rmax_right b c) by lra; rewrite (Rmax_right a c) by lra end. lra. }
  rewrite P2, P3. unfold SMO_EPSILON. lra.
Qed.

(** The settings under which nothing is learned, or a null pointer is read. *)
Lemma fear_refuted : forall fs C w good bad, fs <> 1%nat -> pa_update fs C w good bad = Some w.
Proof.
  intros fs C w good bad N. unfold pa_update, annotate. destruct (fs =? 1)%nat eqn:E; [apply Nat.eqb_eq in E; congruence|].
  destruct (Rlt_dec _ _); [unfold SMO_EPSILON in *; lra|reflexivity].
Qed.
Lemma no_reweight_refuted : forall w bad set, In 0 set -> cut_no_reweight w [bad] set = None.
Proof.
  intros w bad set I. unfold cut_no_reweight. destruct set as [|s ss]; [reflexivity|]. cbn [best_by]. destruct (Rlt_dec _ _) as [H|]; [|reflexivity]. exfalso.
  assert (G : 0 <= fold_left Rmax ss s).
  { clear H. revert s I. induction ss as [|x ss IH]; intros s I; cbn [fold_left]; [destruct I as [-> |[]]; lra|].
    destruct I as [E|[E|I]].
    - assert (M : forall l a, a <= fold_left Rmax l a). { induction l as [|y l IHl]; intros a; cbn; [lra|]. eapply Rle_trans; [apply Rmax_l|apply IHl]. }
      eapply Rle_trans; [|apply M]. rewrite E. apply Rmax_l.
    - assert (M : forall l a, a <= fold_left Rmax l a). { induction l as [|y l IHl]; intros a; cbn; [lra|]. eapply Rle_trans; [apply Rmax_l|apply IHl]. }
      eapply Rle_trans; [|apply M]. rewrite E. apply Rmax_r.
    - apply IH. right. exact I. }
  unfold cut_fear, SMO_EPSILON in H. lra.
Qed.
Lemma sweep_none : forall C cs dense l, fold_left (sweep_step C cs dense) l None = None.
Proof. intros C cs dense l. induction l as [|x l IH]; [reflexivity|exact IH]. Qed.
Lemma sweep_null : forall C cs dense l st i j, In (i, j) l -> (exists c, nth_error cs j = Some c /\ oracleN c = None) ->
  fold_left (sweep_step C cs dense) l st = None.
Proof.
  intros C cs dense l. induction l as [|x l IH]; intros st i j I [c [E N]]; [destruct I|]. cbn [fold_left]. destruct I as [-> |I]; [|apply (IH _ i j I); exists c; split; assumption].
  assert (Z : sweep_step C cs dense st (i, j) = None).
  { unfold sweep_step. destruct st as [[alpha w]|]; [|reflexivity]. cbn [fst snd]. rewrite E. destruct (nth_error cs i); [|reflexivity]. unfold ComputeDelta. rewrite N. reflexivity. }
  rewrite Z. apply sweep_none.
Qed.
Lemma nbest_refuted : forall fs C w oracle goods bests bads, goods <> [] -> bests <> [] ->
  sweep C (nbest_constraints fs w oracle goods bests bads) w = None.
Proof.
  intros fs C w oracle goods bests bads G B. unfold sweep. apply (sweep_null _ _ _ _ _ 0 (length goods)).
  - unfold pairs. apply in_flat_map. exists 0%nat. unfold nbest_constraints. rewrite !app_length, !map_length.
    assert (0 < length goods)%nat by (destruct goods; [congruence|cbn; lia]). assert (0 < length bests)%nat by (destruct bests; [congruence|cbn; lia]).
    split; [apply in_seq; lia|]. apply in_map_iff. exists (length goods). split; [reflexivity|apply in_seq; lia].
  - unfold nbest_constraints. destruct bests as [|b bests]; [congruence|]. eexists. rewrite nth_error_app2; rewrite map_length; [|lia].
    rewrite Nat.sub_diag. cbn. split; reflexivity.
Qed.

Lemma ex_stop : exists a, simplex 2 a /\ weights_of 1 2 [0] [0] wf a [1] /\ SelectPair false 2 a (violation [0] wf wl [1]) = None.
Proof.
  exists (fun i => if (i =? 1)%nat then 1 else 0). split; [split|split; [split|]].
  - intros i _. destruct (i =? 1)%nat; lra.
  - apply (sum_indicator 2 1 1). lia.
  - reflexivity.
  - intros j. unfold sum. cbn [seq map fold_right Nat.eqb wf]. destruct j as [|[|j]]; cbn [nth]; lra.
  - assert (F0 : violation [0] wf wl [1] 0 = 0) by (unfold violation; cbn [inner wf wl]; lra).
    assert (F1 : violation [0] wf wl [1] 1 = 9) by (unfold violation; cbn [inner wf wl]; lra).
    unfold SelectPair. cbn [seq select_loop max_fear Nat.eqb find negb andb]. unfold lt, SMO_EPSILON. rewrite F0, F1. cbn [Nat.eqb]. dec; cbn [andb]; dec; reflexivity.
Qed.
