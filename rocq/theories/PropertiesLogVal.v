(** C08: LogVal arithmetic (utils/logval.h) is exact signed real arithmetic.
    [denotes a x] (LogValProofs.v): the pair (sign, log magnitude) [a] stands
    for the real [x]. *)
From Coq Require Import Reals Bool List Lra.
From Verif Require Import LogVal LogValProofs.
Local Open Scope R_scope.

(** Conversion from and to [double] is exact, and is_0/is_1 test the value. *)
Theorem C08_conversion :
  (forall sb x, sign_ok sb x -> denotes (lv_of sb x) x) /\
  (forall a x, denotes a x -> as_float a = Fin x) /\
  (forall a x, denotes a x -> (is_0 a = true <-> x = 0) /\ (is_1 a = true <-> x = 1)) /\
  (forall a x, denotes a x -> 0 < x -> lv_log a = Fin (ln x)) /\
  denotes lv_zero 0 /\ denotes lv_one 1 /\ denotes lv_init1 1 /\ denotes lv_initm1 (-1).
Proof.
  exact (conj of_denotes (conj as_float_denotes (conj (fun a x H => conj (is0_denotes a x H) (is1_denotes a x H))
   (conj log_of (conj zero_denotes (conj one_denotes (conj init1_denotes initm1_denotes))))))).
Qed.
Print Assumptions C08_conversion.
Example C08_conversion_ex : as_float (lv_of true (-3)) = Fin (-3).
Proof. apply as_float_denotes, of_denotes. unfold sign_ok; lra. Qed.

(** Every arithmetic operation is the one on the denoted reals, including
    zeros, opposite signs and equal magnitudes. *)
Theorem C08_arithmetic :
  forall a b x y, denotes a x -> denotes b y ->
    denotes (lv_add a b) (x + y) /\
    denotes (lv_sub a b) (x - y) /\
    denotes (lv_mul a b) (x * y) /\
    denotes (lv_neg a) (- x) /\
    denotes (lv_abs a) (Rabs x) /\
    (y <> 0 -> denotes (lv_div a b) (x / y)) /\
    (x <> 0 -> denotes (lv_inverse a) (/ x)) /\
    (forall p, 0 < x -> denotes (lv_pow a p) (Rpower x p)) /\
    (forall p, x = 0 -> 0 < p -> denotes (lv_pow a p) 0).
Proof.
  exact (fun a b x y Ha Hb => conj (add_denotes a b x y Ha Hb) (conj (sub_denotes a b x y Ha Hb)
   (conj (mul_denotes a b x y Ha Hb) (conj (neg_denotes a x Ha) (conj (abs_denotes a x Ha)
   (conj (div_denotes a b x y Ha Hb) (conj (inverse_denotes a x Ha)
   (conj (fun p => pow_denotes a x p Ha)
     (fun p E => pow_zero a p (eq_ind x (denotes a) Ha 0 E)))))))))).
Qed.
Print Assumptions C08_arithmetic.
Example C08_arithmetic_ex : (* 2 + (-5) = -3 *)
  as_float (lv_add (lv_of false 2) (lv_of true (-5))) = Fin (2 + -5).
Proof. apply as_float_denotes, C08_arithmetic; apply of_denotes; unfold sign_ok; lra. Qed.

(** Accumulation loops of any length. *)
Theorem C08_sums_and_products :
  forall l xs, Forall2 denotes l xs ->
    denotes (fold_left lv_add l lv_zero) (fold_left Rplus xs 0) /\
    denotes (fold_left lv_mul l lv_one) (fold_left Rmult xs 1).
Proof. exact (fun l xs H => conj (sum_denotes l xs _ _ zero_denotes H) (prod_denotes l xs _ _ one_denotes H)). Qed.
Print Assumptions C08_sums_and_products.
Example C08_sums_ex :
  as_float (fold_left lv_add (lv_of false 1 :: lv_of true (-1) :: lv_of false 4 :: nil) lv_zero) = Fin (0 + 1 + -1 + 4).
Proof.
  apply as_float_denotes.
  apply (C08_sums_and_products _ (1 :: -1 :: 4 :: nil)).
  repeat constructor; apply of_denotes; unfold sign_ok; lra.
Qed.

(** On values with a clear sign bit - closed under + and * - the comparison
    operators are those of the reals. *)
Theorem C08_order_nonnegative :
  (forall a b x y, denotes a x -> denotes b y -> s_ a = false -> s_ b = false ->
     (lv_ltb a b = true <-> x < y) /\ (lv_eqb a b = true <-> x = y)) /\
  (forall a b, s_ a = false -> s_ b = false -> s_ (lv_add a b) = false /\ s_ (lv_mul a b) = false).
Proof.
  exact (conj (fun a b x y Ha Hb Sa Sb => conj (ltb_nonneg a b x y Ha Hb Sa Sb) (eqb_nonneg a b x y Ha Hb Sa Sb))
              (fun a b Sa Sb => conj (add_sign a b Sa Sb) (mul_sign a b Sa Sb))).
Qed.
Print Assumptions C08_order_nonnegative.
Example C08_order_ex : lv_ltb (lv_of false 2) (lv_of false 3) = true.
Proof. apply (proj1 C08_order_nonnegative _ _ 2 3); auto; try (apply of_denotes; unfold sign_ok); lra. Qed.

(** [==] is equality of the denoted reals when one of them is not zero. *)
Theorem C08_equality_nonzero :
  forall a b x y, denotes a x -> denotes b y -> x <> 0 -> (lv_eqb a b = true <-> x = y).
Proof. exact eqb_nonzero. Qed.
Print Assumptions C08_equality_nonzero.
Example C08_equality_ex : lv_eqb (lv_of true (-2)) (lv_of false 2) = false.
Proof.
  apply Bool.not_true_iff_false. intro H.
  apply (C08_equality_nonzero _ _ (-2) 2) in H; [lra| | |lra]; apply of_denotes; unfold sign_ok; lra.
Qed.

(** Finding: on two negative numbers [<] is exactly reversed. *)
Theorem C08_order_negative_refuted :
  (forall a b x y, denotes a x -> denotes b y -> x < 0 -> y < 0 -> (lv_ltb a b = true <-> y < x)) /\
  exists a b, denotes a (-1) /\ denotes b (-2) /\ lv_ltb a b = true.
Proof.
  refine (conj ltb_neg (ex_intro _ (lv_of true (-1)) (ex_intro _ (lv_of true (-2)) _))).
  assert (denotes (lv_of true (-1)) (-1)) by (apply of_denotes; unfold sign_ok; lra).
  assert (denotes (lv_of true (-2)) (-2)) by (apply of_denotes; unfold sign_ok; lra).
  repeat split; auto. apply (ltb_neg _ _ (-1) (-2)); auto; lra.
Qed.
Print Assumptions C08_order_negative_refuted.

(** Finding: for every positive number, [x - x] denotes zero but compares
    different from - and smaller than - [Zero()]. *)
Theorem C08_zero_equality_refuted :
  forall a x, denotes a x -> 0 < x ->
    lv_eqb (lv_sub a a) lv_zero = false /\ denotes (lv_sub a a) 0 /\ lv_ltb (lv_sub a a) lv_zero = true.
Proof. exact sub_self_not_Zero. Qed.
Print Assumptions C08_zero_equality_refuted.
Example C08_zero_equality_ex : lv_eqb (lv_sub (lv_of false 1) (lv_of false 1)) lv_zero = false.
Proof. apply (C08_zero_equality_refuted _ 1); [apply of_denotes; unfold sign_ok|]; lra. Qed.

(** [star(x)] is documented (utils/star.h) to be the infinite sum
    x^0 + x^1 + ...; true strictly between 0 and 1. *)
Theorem C08_star_between_0_and_1 :
  forall a x, denotes a x -> 0 < x < 1 ->
    exists r, denotes (lv_star a) r /\ infinite_sum (fun n => x ^ n) r.
Proof. exact star_series. Qed.
Print Assumptions C08_star_between_0_and_1.
Example C08_star_ex : exists r, denotes (lv_star (lv_of false (1/2))) r /\ infinite_sum (fun n => (1/2)^n) r.
Proof. apply C08_star_between_0_and_1; [apply of_denotes; unfold sign_ok|]; lra. Qed.

(** Finding: [star] of zero is zero (should be 1), and of a number between -1
    and 0 it has the wrong sign. *)
Theorem C08_star_refuted :
  (forall a, denotes a 0 -> denotes (lv_star a) 0) /\
  (forall a x, denotes a x -> -1 < x < 0 -> denotes (lv_star a) (- / (1 - x))).
Proof. exact (conj (fun a H => eq_ind_r (fun b => denotes b 0) H (star_zero a H)) star_negative). Qed.
Print Assumptions C08_star_refuted.
Example C08_star_refuted_ex : denotes (lv_star lv_zero) 0 /\ ~ infinite_sum (fun n => 0 ^ n) 0.
Proof.
  split. apply C08_star_refuted, zero_denotes.
  intros H. destruct (H (1/2)) as [N HN]; [lra|]. specialize (HN N (le_n _)).
  assert (E : sum_f_R0 (fun n => 0 ^ n) N = 1).
  { clear. induction N; cbn; auto. cbn in IHN. rewrite IHN. lra. }
  rewrite E in HN. unfold R_dist in HN. rewrite Rabs_right in HN; lra.
Qed.
