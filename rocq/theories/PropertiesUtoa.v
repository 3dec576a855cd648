(** C07: decimal printing (utils/utoa.h).  [is_decimal t n] / [is_integer_text t n]
    (UtoaProofs.v): [t] is the canonical decimal text of [n]. *)
From Coq Require Import List ZArith Bool.
From Verif Require Import Utoa UtoaProofs.
Import ListNotations.
Open Scope Z_scope.

(** utos on every value of an unsigned type; never outside its buffer. *)
Theorem C07_utos : forall w sgn n, width_ok w -> 0 <= n < 2 ^ w ->
  exists t, utos w sgn n = Some t /\ is_decimal t n.
Proof. exact utos_correct. Qed.
Print Assumptions C07_utos.

(** itos on every value of the signed and unsigned types. *)
Theorem C07_itos : forall w sgn n, width_ok w -> - 2 ^ (w - 1) <= n < 2 ^ w ->
  exists t, itos w sgn n = Some t /\ is_integer_text t n.
Proof. exact itos_correct. Qed.
Print Assumptions C07_itos.

Theorem C07_itoa_positive_sign : forall w sgn n ps, width_ok w -> - 2 ^ (w - 1) <= n < 2 ^ w ->
  exists r t, itoa w n ps (toa_bufsize w sgn, []) = Some (r, t) /\
    (if ps && (0 <=? n) then exists t', t = 43 :: t' /\ is_decimal t' n
     else is_integer_text t n).
Proof. exact itoa_correct. Qed.
Print Assumptions C07_itoa_positive_sign.

Theorem C07_text_determines_number : forall t n m,
  is_integer_text t n -> is_integer_text t m -> n = m.
Proof. exact is_integer_text_inj. Qed.
Print Assumptions C07_text_determines_number.

Theorem C07_left_pad : forall w width n, width_ok w -> 0 <= n < 2 ^ w -> (maxdig w <= width)%nat ->
  exists t, utoa_left_pad w width n 48 = Some t /\
    length t = width /\ Forall is_digit t /\ dec_value t = n.
Proof. exact left_pad_correct. Qed.
Print Assumptions C07_left_pad.

Theorem C07_drop_trailing_zeros : forall w n room,
  width_ok w -> 0 < n < 2 ^ w -> (maxdig w <= room)%nat ->
  exists r t sk, utoa_drop_trailing_0 w n (room, []) = Some ((r, t), sk) /\
    0 <= sk /\ is_decimal t (n / 10 ^ sk) /\ (n / 10 ^ sk) * 10 ^ sk = n /\ (n / 10 ^ sk) mod 10 <> 0.
Proof. exact drop_trailing_0_correct. Qed.
Print Assumptions C07_drop_trailing_zeros.

(** append_itoa prints the unsigned reinterpretation of its argument ... *)
Theorem C07_append_itoa_unsigned : forall w sgn n, width_ok w -> - 2 ^ (w - 1) <= n < 2 ^ (w - 1) ->
  exists t, append_itoa w sgn n = Some t /\ is_decimal t (n mod 2 ^ w).
Proof. exact append_itoa_behaviour. Qed.
Print Assumptions C07_append_itoa_unsigned.

(** ... so it is wrong for negative numbers. *)
Theorem C07_append_itoa_refuted : exists n t,
  - 2 ^ 31 <= n < 2 ^ 31 /\ append_itoa 32 true n = Some t /\ ~ is_integer_text t n.
Proof. exact append_itoa_false. Qed.
Print Assumptions C07_append_itoa_refuted.

Example C07_min_int : itos 32 true (- 2 ^ 31) = Some [45; 50; 49; 52; 55; 52; 56; 51; 54; 52; 56].
Proof. vm_compute. reflexivity. Qed.
Example C07_max_uint64 : utos 64 false (2 ^ 64 - 1) =
  Some [49; 56; 52; 52; 54; 55; 52; 52; 48; 55; 51; 55; 48; 57; 53; 53; 49; 54; 49; 53].
Proof. vm_compute. reflexivity. Qed.
Example C07_drop : utoa_drop_trailing_0 32 1200 (10%nat, []) = Some ((8%nat, [49; 50]), 2).
Proof. vm_compute. reflexivity. Qed.
