(** Specification and proofs for [LogVal.v]. *)
From Coq Require Import Reals Bool List Lra Lia.
From Verif Require Import LogVal.
Local Open Scope R_scope.

(** * Specification: which real number a [LogVal] stands for.
    [v = -inf] stands for zero (with either sign bit); a finite [v] stands for
    plus or minus [exp v].  [+inf] and NaN stand for no real number. *)
Inductive denotes : lv -> R -> Prop :=
| den_zero : forall s, denotes (LV s NInf) 0
| den_pos : forall l, denotes (LV false (Fin l)) (exp l)
| den_neg : forall l, denotes (LV true (Fin l)) (- exp l).

(** The sign bit of a [double] agrees with its value (a zero may carry either). *)
Definition sign_ok (sb : bool) (x : R) : Prop := if sb then x <= 0 else 0 <= x.

(** * Lemmas *)

Lemma rltb_true : forall x y, rltb x y = true <-> x < y.
Proof. intros; unfold rltb; destruct (Rlt_dec x y); split; intros; auto; try discriminate; contradiction. Qed.
Lemma rltb_false : forall x y, rltb x y = false <-> y <= x.
Proof. intros; unfold rltb; destruct (Rlt_dec x y); split; intros; auto; try discriminate; lra. Qed.
Lemma reqb_true : forall x y, reqb x y = true <-> x = y.
Proof. intros; unfold reqb; destruct (Req_EM_T x y); split; intros; auto; try discriminate; contradiction. Qed.
Lemma reqb_false : forall x y, reqb x y = false <-> x <> y.
Proof. intros; unfold reqb; destruct (Req_EM_T x y); split; intros; auto; try discriminate; contradiction. Qed.
Lemma rltb_t : forall x y, x < y -> rltb x y = true. Proof. intros; now apply rltb_true. Qed.
Lemma rltb_f : forall x y, y <= x -> rltb x y = false. Proof. intros; now apply rltb_false. Qed.
Lemma reqb_t : forall x y, x = y -> reqb x y = true. Proof. intros; now apply reqb_true. Qed.
Lemma reqb_f : forall x y, x <> y -> reqb x y = false. Proof. intros; now apply reqb_false. Qed.

Lemma exp_lt1 : forall x y, x < y -> exp (x - y) < 1.
Proof. intros. rewrite <- exp_0. apply exp_increasing. lra. Qed.
Lemma exp_le1 : forall x y, x <= y -> exp (x - y) <= 1.
Proof. intros. destruct (Req_dec x y). subst. replace (y-y) with 0 by lra. rewrite exp_0; lra.
  left; apply exp_lt1; lra. Qed.

Lemma flog_pos : forall x, 0 < x -> flog (Fin x) = Fin (ln x).
Proof. intros; unfold flog. now rewrite rltb_t. Qed.
Lemma flog_zero : flog (Fin 0) = NInf.
Proof. unfold flog. rewrite rltb_f by lra. now rewrite reqb_t. Qed.

Lemma exp_plus_ln : forall x y, 0 < y -> exp (x + ln y) = exp x * y.
Proof. intros. rewrite exp_plus, exp_ln; auto. Qed.

Lemma exp_sub : forall x y, exp y * exp (x - y) = exp x.
Proof. intros. rewrite <- exp_plus. f_equal. lra. Qed.

Lemma den_sgn : forall s l, denotes (LV s (Fin l)) (if s then - exp l else exp l).
Proof. destruct s; constructor. Qed.

Lemma den_fun : forall a x y, denotes a x -> denotes a y -> x = y.
Proof. intros a x y H K; inversion H; subst; inversion K; auto. Qed.

Lemma den_eq : forall a x y, denotes a x -> x = y -> denotes a y.
Proof. intros; subst; auto. Qed.

Lemma of_denotes : forall sb x, sign_ok sb x -> denotes (lv_of sb x) x.
Proof.
  intros sb x H. unfold lv_of, sign_ok in *. destruct sb.
  - destruct (Req_dec x 0) as [->|N].
    + replace (-0) with 0 by lra. rewrite flog_zero. constructor.
    + rewrite flog_pos by lra. eapply den_eq; [constructor|]. rewrite exp_ln; lra.
  - destruct (Req_dec x 0) as [->|N].
    + rewrite flog_zero. constructor.
    + rewrite flog_pos by lra. eapply den_eq; [constructor|]. rewrite exp_ln; lra.
Qed.

Lemma as_float_denotes : forall a x, denotes a x -> as_float a = Fin x.
Proof.
  intros a x H; inversion H; subst; unfold as_float; simpl; auto.
  destruct s; simpl; auto. f_equal; lra.
Qed.

Lemma is0_denotes : forall a x, denotes a x -> (is_0 a = true <-> x = 0).
Proof.
  intros a x H; inversion H; subst; unfold is_0; simpl; split; intros; auto; try discriminate;
    exfalso; pose proof (exp_pos l); lra.
Qed.

Lemma exp_eq_1 : forall l, exp l = 1 <-> l = 0.
Proof. intros; split; intros; [apply exp_inv; now rewrite exp_0|subst; apply exp_0]. Qed.

Lemma is1_denotes : forall a x, denotes a x -> (is_1 a = true <-> x = 1).
Proof.
  intros a x H; inversion H; subst; unfold is_1; simpl; split; intros K; try discriminate; try lra.
  - rewrite andb_true_r in K. apply reqb_true in K. now apply exp_eq_1.
  - rewrite andb_true_r. apply reqb_true. now apply exp_eq_1.
  - exfalso; try rewrite andb_false_r in K; try discriminate K; pose proof (exp_pos l); lra.
Qed.

Lemma add_denotes : forall a b x y, denotes a x -> denotes b y -> denotes (lv_add a b) (x + y).
Proof.
  intros a b x y Ha Hb. unfold lv_add.
  destruct Hb as [sb|m|m]; cbn [is_0 feqb v_ s_].
  - cbn. rewrite Rplus_0_r; auto.
  - destruct Ha as [sa|l|l]; unfold is_0; cbn [is_0 feqb v_ s_ fltb Bool.eqb].
    + destruct sa; cbn [Bool.eqb fltb fsub fopp fadd fexp negb].
      * unfold flog1p, fsub; cbn [fadd fopp fexp]. replace (1 + -0) with 1 by lra. rewrite flog_pos by lra. rewrite ln_1.
        cbn. replace (m+0) with m by lra. eapply den_eq; [constructor|lra].
      * unfold flog1p, fsub; cbn [fadd fopp fexp]. replace (1 + 0) with 1 by lra. rewrite flog_pos by lra. rewrite ln_1.
        cbn. replace (m+0) with m by lra. eapply den_eq; [constructor|lra].
    + unfold flog1p, fsub; cbn [fopp fadd fexp].
      destruct (rltb m l) eqn:E.
      * assert (0 < exp (m + - l)) by apply exp_pos.
        rewrite flog_pos by lra. cbn. eapply den_eq; [constructor|].
        rewrite exp_plus_ln by lra. rewrite Rmult_plus_distr_l. pose proof (exp_sub m l) as K. unfold Rminus in K. lra.
      * assert (0 < exp (l + - m)) by apply exp_pos.
        rewrite flog_pos by lra. cbn. eapply den_eq; [constructor|].
        rewrite exp_plus_ln by lra. rewrite Rmult_plus_distr_l. pose proof (exp_sub l m) as K. unfold Rminus in K. lra.
    + unfold flog1p, fsub; cbn [fopp fadd fexp].
      destruct (rltb m l) eqn:E.
      * apply rltb_true in E. pose proof (exp_lt1 m l E) as K. unfold Rminus in K.
        rewrite flog_pos by lra. cbn. eapply den_eq; [constructor|].
        rewrite exp_plus_ln by lra. rewrite Rmult_plus_distr_l.
        pose proof (exp_sub m l) as K'. unfold Rminus in K'. lra.
      * apply rltb_false in E. destruct (Req_dec l m) as [->|N].
        { replace (m + - m) with 0 by lra. rewrite exp_0. replace (1 + - (1)) with 0 by lra.
          rewrite flog_zero. cbn. eapply den_eq; [constructor|lra]. }
        assert (l < m) as E' by lra. pose proof (exp_lt1 l m E') as K. unfold Rminus in K.
        rewrite flog_pos by lra. cbn. eapply den_eq; [constructor|].
        rewrite exp_plus_ln by lra. rewrite Rmult_plus_distr_l.
        pose proof (exp_sub l m) as K'. unfold Rminus in K'. lra.
  - destruct Ha as [sa|l|l]; unfold is_0; cbn [is_0 feqb v_ s_ fltb Bool.eqb].
    + destruct sa; cbn [Bool.eqb fltb fsub fopp fadd fexp negb].
      * unfold flog1p, fsub; cbn [fadd fopp fexp]. replace (1 + 0) with 1 by lra. rewrite flog_pos by lra. rewrite ln_1.
        cbn. replace (m+0) with m by lra. eapply den_eq; [constructor|lra].
      * unfold flog1p, fsub; cbn [fadd fopp fexp]. replace (1 + -0) with 1 by lra. rewrite flog_pos by lra. rewrite ln_1.
        cbn. replace (m+0) with m by lra. eapply den_eq; [constructor|lra].
    + unfold flog1p, fsub; cbn [fopp fadd fexp].
      destruct (rltb m l) eqn:E.
      * apply rltb_true in E. pose proof (exp_lt1 m l E) as K. unfold Rminus in K.
        rewrite flog_pos by lra. cbn. eapply den_eq; [constructor|].
        rewrite exp_plus_ln by lra. rewrite Rmult_plus_distr_l.
        pose proof (exp_sub m l) as K'. unfold Rminus in K'. lra.
      * apply rltb_false in E. destruct (Req_dec l m) as [->|N].
        { replace (m + - m) with 0 by lra. rewrite exp_0. replace (1 + - (1)) with 0 by lra.
          rewrite flog_zero. cbn. eapply den_eq; [constructor|lra]. }
        assert (l < m) as E' by lra. pose proof (exp_lt1 l m E') as K. unfold Rminus in K.
        rewrite flog_pos by lra. cbn. eapply den_eq; [constructor|].
        rewrite exp_plus_ln by lra. rewrite Rmult_plus_distr_l.
        pose proof (exp_sub l m) as K'. unfold Rminus in K'. lra.
    + unfold flog1p, fsub; cbn [fopp fadd fexp].
      destruct (rltb m l) eqn:E.
      * assert (0 < exp (m + - l)) by apply exp_pos.
        rewrite flog_pos by lra. cbn. eapply den_eq; [constructor|].
        rewrite exp_plus_ln by lra. rewrite Rmult_plus_distr_l. pose proof (exp_sub m l) as K. unfold Rminus in K. lra.
      * assert (0 < exp (l + - m)) by apply exp_pos.
        rewrite flog_pos by lra. cbn. eapply den_eq; [constructor|].
        rewrite exp_plus_ln by lra. rewrite Rmult_plus_distr_l. pose proof (exp_sub l m) as K. unfold Rminus in K. lra.
Qed.

Lemma neg_denotes : forall a x, denotes a x -> denotes (lv_neg a) (- x).
Proof.
  intros a x H; inversion H; subst; unfold lv_neg; cbn; (eapply den_eq; [constructor|lra]).
Qed.

Lemma sub_denotes : forall a b x y, denotes a x -> denotes b y -> denotes (lv_sub a b) (x - y).
Proof. intros. apply add_denotes; auto. now apply neg_denotes. Qed.

Lemma mul_denotes : forall a b x y, denotes a x -> denotes b y -> denotes (lv_mul a b) (x * y).
Proof.
  intros a b x y Ha Hb; destruct Ha; destruct Hb; unfold lv_mul; cbn;
    (eapply den_eq; [constructor|rewrite ?exp_plus; lra]).
Qed.

Lemma div_denotes : forall a b x y, denotes a x -> denotes b y -> y <> 0 -> denotes (lv_div a b) (x / y).
Proof.
  intros a b x y Ha Hb N; destruct Hb; [congruence| |]; destruct Ha; unfold lv_div, fsub; cbn;
    (eapply den_eq; [constructor|]); rewrite ?exp_plus, ?exp_Ropp; try field; pose proof (exp_pos l); lra.
Qed.

Lemma inverse_denotes : forall a x, denotes a x -> x <> 0 -> denotes (lv_inverse a) (/ x).
Proof.
  intros a x Ha N; destruct Ha; [congruence| |]; unfold lv_inverse; cbn;
    (eapply den_eq; [constructor|]); rewrite ?exp_Ropp; try field; pose proof (exp_pos l); lra.
Qed.

Lemma abs_denotes : forall a x, denotes a x -> denotes (lv_abs a) (Rabs x).
Proof.
  intros a x Ha; destruct Ha; unfold lv_abs; cbn.
  - rewrite Rabs_R0. destruct s; constructor.
  - rewrite Rabs_right. constructor. left; apply exp_pos.
  - rewrite Rabs_Ropp, Rabs_right. constructor. left; apply exp_pos.
Qed.

Lemma pow_denotes : forall a x p, denotes a x -> 0 < x -> denotes (lv_pow a p) (Rpower x p).
Proof.
  intros a x p Ha P; destruct Ha; [lra| |]; unfold lv_pow; cbn.
  - unfold Rpower. rewrite ln_exp, Rmult_comm. constructor.
  - pose proof (exp_pos l); lra.
Qed.

Lemma pow_zero : forall a p, denotes a 0 -> 0 < p -> denotes (lv_pow a p) 0.
Proof.
  intros a p Ha P. inversion Ha; subst; unfold lv_pow; cbn.
  - rewrite reqb_f, rltb_f by lra. constructor.
  - pose proof (exp_pos l); lra.
  - pose proof (exp_pos l); lra.
Qed.

Lemma zero_denotes : denotes lv_zero 0. Proof. constructor. Qed.
Lemma init1_denotes : denotes lv_init1 1. Proof. eapply den_eq; [constructor|apply exp_0]. Qed.
Lemma initm1_denotes : denotes lv_initm1 (-1). Proof. eapply den_eq; [constructor|rewrite exp_0; auto]. Qed.
Lemma one_denotes : denotes lv_one 1. Proof. apply of_denotes. unfold sign_ok; lra. Qed.

Lemma exp_lt_iff : forall x y, exp x < exp y <-> x < y.
Proof. intros; split; [apply exp_lt_inv|apply exp_increasing]. Qed.

(** Order *)
Lemma ltb_nonneg : forall a b x y, denotes a x -> denotes b y -> s_ a = false -> s_ b = false ->
  (lv_ltb a b = true <-> x < y).
Proof.
  intros a b x y Ha Hb Sa Sb; destruct Ha; destruct Hb; cbn in Sa, Sb; subst; try discriminate;
   unfold lv_ltb; cbn; rewrite ?rltb_true, ?exp_lt_iff;
   try pose proof (exp_pos l); try pose proof (exp_pos l0);
   split; intros; auto; try discriminate; try lra.
Qed.

Lemma ltb_neg : forall a b x y, denotes a x -> denotes b y -> x < 0 -> y < 0 ->
  (lv_ltb a b = true <-> y < x).
Proof.
  intros a b x y Ha Hb Sa Sb; destruct Ha; destruct Hb; try lra;
   try (pose proof (exp_pos l); pose proof (exp_pos l0); lra).
  unfold lv_ltb; cbn; rewrite ?rltb_true.
  split; intros; [apply exp_increasing in H; lra|apply exp_lt_inv; lra].
Qed.

Lemma eqb_nonzero : forall a b x y, denotes a x -> denotes b y -> x <> 0 ->
  (lv_eqb a b = true <-> x = y).
Proof.
  intros a b x y Ha Hb N; destruct Ha; [congruence| |]; destruct Hb; unfold lv_eqb; cbn;
   rewrite ?andb_true_r, ?andb_false_r, ?reqb_true;
   try pose proof (exp_pos l); try pose proof (exp_pos l0); split; intros; subst; auto; try discriminate; try lra.
  - now apply exp_inv.
  - apply exp_inv; lra.
Qed.

Lemma eqb_nonneg : forall a b x y, denotes a x -> denotes b y -> s_ a = false -> s_ b = false ->
  (lv_eqb a b = true <-> x = y).
Proof.
  intros a b x y Ha Hb Sa Sb. destruct (Req_dec x 0) as [->|N].
  - destruct Ha; destruct Hb; cbn in *; subst; try discriminate; unfold lv_eqb; cbn;
    try pose proof (exp_pos l); try pose proof (exp_pos l0); split; intros; subst; auto; try discriminate; try lra.
    rewrite andb_true_r in H1; apply reqb_true in H1; subst; auto.
    rewrite andb_true_r; apply reqb_true; now apply exp_inv.
  - now apply eqb_nonzero.
Qed.

(** Sums and products of lists, as in [sum += x] loops. *)
Lemma sum_denotes : forall l xs acc a, denotes acc a -> Forall2 denotes l xs ->
  denotes (fold_left lv_add l acc) (fold_left Rplus xs a).
Proof.
  induction l; intros xs acc a0 H F; inversion F; subst; cbn; auto.
  apply IHl; auto. now apply add_denotes.
Qed.
Lemma prod_denotes : forall l xs acc a, denotes acc a -> Forall2 denotes l xs ->
  denotes (fold_left lv_mul l acc) (fold_left Rmult xs a).
Proof.
  induction l; intros xs acc a0 H F; inversion F; subst; cbn; auto.
  apply IHl; auto. now apply mul_denotes.
Qed.

(** Zero with a set sign bit never arises from sums and products of values
    whose sign bit is clear. *)
Lemma add_sign : forall a b, s_ a = false -> s_ b = false -> s_ (lv_add a b) = false.
Proof. intros a b Ha Hb. unfold lv_add. rewrite Ha, Hb. cbn. destruct (is_0 b), (fltb (v_ b) (v_ a)); auto. Qed.
Lemma mul_sign : forall a b, s_ a = false -> s_ b = false -> s_ (lv_mul a b) = false.
Proof. intros a b Ha Hb. unfold lv_mul. now rewrite Ha, Hb. Qed.

(** star *)
Lemma star_denotes : forall a x, denotes a x -> 0 < x < 1 -> denotes (lv_star a) (/ (1 - x)).
Proof.
  intros a x Ha [P1 P2]; destruct Ha; [lra| |]; [|pose proof (exp_pos l); lra].
  unfold lv_star, fgeb, is_0, as_float, flog1p; cbn -[flog rltb reqb]. rewrite <- exp_0 in P2. apply exp_lt_inv in P2.
  rewrite rltb_f by lra. rewrite reqb_f by lra. cbn [negb orb feqb s_ as_float v_ fexp fopp]. unfold as_float, flog1p. cbn [fadd fopp fexp v_ s_].
  assert (exp l < 1) by (rewrite <- exp_0; now apply exp_increasing).
  rewrite flog_pos by lra. cbn. eapply den_eq; [constructor|].
  rewrite exp_Ropp, exp_ln by lra. f_equal.
Qed.

Lemma star_series : forall a x, denotes a x -> 0 < x < 1 ->
  exists r, denotes (lv_star a) r /\ infinite_sum (fun n => x ^ n) r.
Proof.
  intros a x Ha P. exists (/ (1 - x)). split; [now apply star_denotes|].
  assert (Rabs x < 1) as A by (rewrite Rabs_right; lra).
  pose proof (GP_infinite x A) as G. unfold Pser in G.
  intros eps He. destruct (G eps He) as [N HN]. exists N. intros n Hn.
  specialize (HN n Hn). erewrite sum_eq in HN. exact HN. intros; cbn; lra.
Qed.

Lemma star_zero : forall a, denotes a 0 -> lv_star a = a.
Proof. intros a H. unfold lv_star. apply is0_denotes in H. destruct H as [_ H]. now rewrite H. Qed.

Lemma star_negative : forall a x, denotes a x -> -1 < x < 0 -> denotes (lv_star a) (- / (1 - x)).
Proof.
  intros a x Ha [P1 P2]; destruct Ha; [lra|pose proof (exp_pos l); lra|].
  unfold lv_star, fgeb, is_0, as_float, flog1p; cbn -[flog rltb reqb].
  assert (l < 0) by (apply exp_lt_inv; rewrite exp_0; lra).
  rewrite rltb_f by lra. rewrite reqb_f by lra. cbn [negb orb feqb s_ as_float v_ fexp fopp]. unfold as_float, flog1p. cbn [fadd fopp fexp v_ s_].
  assert (0 < exp l) by apply exp_pos.
  rewrite flog_pos by lra. cbn. eapply den_eq; [constructor|].
  rewrite exp_Ropp, exp_ln by lra. f_equal.
Qed.

Lemma log_of : forall a x, denotes a x -> 0 < x -> lv_log a = Fin (ln x).
Proof.
  intros a x Ha P; destruct Ha; [lra| |pose proof (exp_pos l); lra]. unfold lv_log; cbn. now rewrite ln_exp.
Qed.

(** * Refutations *)
Lemma sub_self_not_Zero : forall a x, denotes a x -> 0 < x -> lv_eqb (lv_sub a a) lv_zero = false
  /\ denotes (lv_sub a a) 0 /\ lv_ltb (lv_sub a a) lv_zero = true.
Proof.
  intros a x Ha P; destruct Ha; [lra| |pose proof (exp_pos l); lra].
  assert (lv_sub (LV false (Fin l)) (LV false (Fin l)) = LV true NInf) as E.
  { unfold lv_sub, lv_add, is_0, fsub, flog1p; cbn -[flog rltb]. rewrite rltb_f by lra. unfold fsub, flog1p. cbn [fadd fopp fexp].
    replace (l + - l) with 0 by lra. rewrite exp_0. replace (1 + - (1)) with 0 by lra.
    now rewrite flog_zero. }
  rewrite E. cbn. split; auto. split; auto. constructor.
Qed.
