From Coq Require Import List ZArith Bool Lia.
From Verif Require Import Utoa.
Import ListNotations.
Open Scope Z_scope.

(** ** Specification: decimal text *)
Definition is_digit (c : Z) : Prop := 48 <= c <= 57.
(** Value of a digit string, most significant first. *)
Definition dec_value (l : list Z) : Z := fold_left (fun a c => 10 * a + (c - 48)) l 0.
(** Canonical decimal text of [n >= 0]. *)
Definition is_decimal (l : list Z) (n : Z) : Prop :=
  l <> [] /\ Forall is_digit l /\ dec_value l = n /\
  ((1 < length l)%nat -> hd 0 l <> 48).
(** Canonical text of any integer. *)
Definition is_integer_text (l : list Z) (n : Z) : Prop :=
  if n <? 0 then exists l', l = 45 :: l' /\ is_decimal l' (- n) else is_decimal l n.

Definition width_ok (w : Z) : Prop := w = 8 \/ w = 16 \/ w = 32 \/ w = 64.

Lemma dec_value_snoc l c : dec_value (l ++ [c]) = 10 * dec_value l + (c - 48).
Proof. unfold dec_value. rewrite fold_left_app. reflexivity. Qed.

Lemma to_u_small w n : 0 <= n < 2 ^ w -> to_u w n = n.
Proof. intros. unfold to_u. apply Z.mod_small; auto. Qed.

(** One loop iteration yields the last decimal digit. *)
Lemma rem_digit w n : 0 < n < 2 ^ w -> to_u w (n - to_u w (10 * (n / 10))) = n mod 10.
Proof.
  intros H. pose proof (Z.mul_div_le n 10 ltac:(lia)).
  pose proof (Z.div_pos n 10 ltac:(lia) ltac:(lia)).
  pose proof (Z.mod_pos_bound n 10 ltac:(lia)).
  pose proof (Z.mod_le n 10 ltac:(lia) ltac:(lia)).
  rewrite (to_u_small w (10 * (n/10))) by lia.
  rewrite <- Z.mod_eq by lia. apply to_u_small. lia.
Qed.

Lemma digit_char d : 0 <= d < 10 -> digit_to_char d = Some (48 + d).
Proof.
  intros. unfold digit_to_char.
  destruct (Z.leb_spec 0 d); destruct (Z.leb_spec d 9); try lia. reflexivity.
Qed.

(** The digit text produced by the loop for [n > 0]. *)
Fixpoint digs (fuel : nat) (n : Z) : list Z :=
  match fuel with
  | O => []
  | S f => if n =? 0 then [] else digs f (n / 10) ++ [48 + n mod 10]
  end.

Lemma digs_spec : forall fuel n, 0 <= n < 2 ^ Z.of_nat fuel ->
  Forall is_digit (digs fuel n) /\ dec_value (digs fuel n) = n /\
  (n <> 0 -> digs fuel n <> [] /\ hd 0 (digs fuel n) <> 48).
Proof.
  induction fuel; intros n H.
  - simpl in H. assert (n = 0) by lia. subst. simpl. repeat split; auto; lia.
  - cbn [digs]. rewrite Nat2Z.inj_succ, Z.pow_succ_r in H by lia.
    destruct (Z.eqb_spec n 0).
    + subst. repeat split; auto; lia.
    + assert (0 <= n / 10 < 2 ^ Z.of_nat fuel).
      { split; [apply Z.div_pos; lia|]. apply Z.div_lt_upper_bound; lia. }
      destruct (IHfuel _ H0) as (A & B & C).
      pose proof (Z.mod_pos_bound n 10 ltac:(lia)).
      split; [|split].
      * apply Forall_app; split; auto. constructor; auto. unfold is_digit; lia.
      * rewrite dec_value_snoc, B. pose proof (Z.div_mod n 10 ltac:(lia)). lia.
      * intros _. destruct (Z.eq_dec (n / 10) 0) as [E|E].
        -- rewrite E. assert (digs fuel 0 = []) as -> by (destruct fuel; reflexivity).
           cbn [app hd]. split; [discriminate|]. pose proof (Z.div_mod n 10 ltac:(lia)). lia.
        -- destruct (C E) as [D1 D2]. destruct (digs fuel (n/10)); [congruence|].
           simpl in *. split; [discriminate|auto].
Qed.

Lemma digs_len : forall fuel n d, 0 <= n < 10 ^ Z.of_nat d -> (length (digs fuel n) <= d)%nat.
Proof.
  induction fuel; intros n d H; simpl; [lia|].
  destruct (Z.eqb_spec n 0); [simpl; lia|].
  destruct d; [simpl in H; lia|].
  rewrite Nat2Z.inj_succ, Z.pow_succ_r in H by lia.
  rewrite app_length; simpl.
  assert (length (digs fuel (n / 10)) <= d)%nat; [|lia].
  apply IHfuel. split; [apply Z.div_pos; lia|]. apply Z.div_lt_upper_bound; lia.
Qed.

Lemma utoa_loop_spec w : forall fuel n room out,
  0 <= n < 2 ^ w -> n < 2 ^ Z.of_nat fuel -> (length (digs fuel n) <= room)%nat ->
  utoa_loop w fuel n (room, out) =
    Some ((room - length (digs fuel n))%nat, digs fuel n ++ out).
Proof.
  induction fuel; intros n room out Hn Hf Hr.
  - assert (n = 0) by (simpl in Hf; lia). subst. simpl. f_equal. f_equal. lia.
  - cbn [utoa_loop digs] in *. destruct (Z.eqb_spec n 0).
    + simpl. do 2 f_equal. lia.
    + rewrite rem_digit by lia.
      pose proof (Z.mod_pos_bound n 10 ltac:(lia)).
      rewrite digit_char by lia.
      rewrite app_length in *. cbn [length] in *.
      unfold push. cbn [fst snd]. destruct room as [|room]; [lia|].
      rewrite Nat2Z.inj_succ, Z.pow_succ_r in Hf by lia.
      rewrite IHfuel.
      * f_equal. f_equal; [lia|]. rewrite <- app_assoc. reflexivity.
      * split; [apply Z.div_pos; lia|]. apply Z.div_lt_upper_bound; lia.
      * apply Z.div_lt_upper_bound; lia.
      * lia.
Qed.

(** Number of digits that fit: [maxdig w] digits suffice for width [w]. *)
Definition maxdig (w : Z) : nat := if w =? 8 then 3%nat else if w =? 16 then 5%nat else if w =? 32 then 10%nat else 20%nat.
Lemma maxdig_ok w : width_ok w -> 2 ^ w <= 10 ^ Z.of_nat (maxdig w).
Proof. intros [ -> | [ -> | [ -> | -> ]]]; vm_compute; discriminate. Qed.

Lemma utoa_spec w n room : width_ok w -> (maxdig w <= room)%nat ->
  exists room' out, utoa w n (room, []) = Some (room', out) /\
    is_decimal out (n mod 2 ^ w) /\ (room' + length out = room)%nat /\
    (length out <= maxdig w)%nat.
Proof.
  intros Hw Hr. assert (Hw0 : 0 <= w) by (destruct Hw as [|[|[|]]]; lia).
  assert (Hpos : 0 < 2 ^ w) by (apply Z.pow_pos_nonneg; lia).
  pose proof (Z.mod_pos_bound n (2^w) Hpos) as Hb.
  unfold utoa. unfold to_u. destruct (Z.eqb_spec (n mod 2 ^ w) 0) as [E|E].
  - rewrite E. destruct room; [destruct Hw as [ -> | [ -> | [ -> | -> ]]]; vm_compute in Hr; lia|].
    exists room, [48]. cbn. repeat split; auto; try discriminate.
    + constructor; auto. unfold is_digit; lia.
    + cbn. lia.
    + lia.
    + destruct Hw as [ -> | [ -> | [ -> | -> ]]]; vm_compute; lia.
  - pose proof (digs_spec (Z.to_nat w) (n mod 2 ^ w)) as D.
    rewrite Z2Nat.id in D by lia. destruct (D Hb) as (D1 & D2 & D3).
    destruct (D3 E) as [D4 D5].
    assert (L : (length (digs (Z.to_nat w) (n mod 2 ^ w)) <= maxdig w)%nat).
    { apply digs_len. pose proof (maxdig_ok w Hw). lia. }
    rewrite utoa_loop_spec; auto; [| rewrite Z2Nat.id by lia; lia | lia].
    eexists _, _; split; [reflexivity|]. rewrite app_nil_r.
    repeat split; auto; lia.
Qed.

Lemma bufsize_ok w sgn : width_ok w -> (maxdig w + 1 <= toa_bufsize w sgn)%nat.
Proof. intros [ -> | [ -> | [ -> | -> ]]]; destruct sgn; vm_compute; lia. Qed.

Lemma utos_correct w sgn n : width_ok w -> 0 <= n < 2 ^ w ->
  exists t, utos w sgn n = Some t /\ is_decimal t n.
Proof.
  intros Hw Hn. pose proof (bufsize_ok w sgn Hw).
  destruct (utoa_spec w n (toa_bufsize w sgn) Hw ltac:(lia)) as (r & t & E & D & _).
  exists t. unfold utos. rewrite E. simpl. split; auto.
  rewrite Z.mod_small in D; auto.
Qed.

Lemma itoa_correct w sgn n ps : width_ok w -> - 2 ^ (w - 1) <= n < 2 ^ w ->
  exists r t, itoa w n ps (toa_bufsize w sgn, []) = Some (r, t) /\
    (if ps && (0 <=? n) then exists t', t = 43 :: t' /\ is_decimal t' n
     else is_integer_text t n).
Proof.
  intros Hw Hn. assert (Hw1 : 1 <= w) by (destruct Hw as [|[|[|]]]; lia).
  assert (Hp : 2 ^ w = 2 * 2 ^ (w - 1)).
  { rewrite <- Z.pow_succ_r by lia. f_equal. lia. }
  assert (0 < 2 ^ (w - 1)) by (apply Z.pow_pos_nonneg; lia).
  pose proof (bufsize_ok w sgn Hw).
  unfold itoa. set (n0 := if n <? 0 then to_u w (- to_u w n) else to_u w n).
  assert (Hn0 : n0 = Z.abs n).
  { unfold n0. destruct (Z.ltb_spec n 0).
    - unfold to_u. rewrite <- (Z_mod_plus_full n 1). rewrite (Z.mod_small (n + 1 * 2 ^ w)) by lia.
      rewrite <- (Z_mod_plus_full _ 1). rewrite Z.mod_small by lia. lia.
    - rewrite to_u_small by lia. lia. }
  destruct (utoa_spec w n0 (toa_bufsize w sgn) Hw ltac:(lia)) as (r & t & E & D & L & M).
  rewrite E. rewrite Z.mod_small in D by lia.
  unfold is_integer_text. unfold push. cbn [fst snd].
  destruct (Z.ltb_spec n 0).
  - destruct (Z.leb_spec 0 n); [lia|]. rewrite andb_false_r.
    destruct r; [lia|]. eexists _, _; split; [reflexivity|].
    exists t; split; auto. replace (- n) with n0 by lia. auto.
  - destruct (Z.leb_spec 0 n); [|lia]. rewrite andb_true_r.
    destruct ps.
    + destruct r; [lia|]. eexists _, _; split; [reflexivity|]. exists t; split; auto.
      replace n with n0 by lia. auto.
    + eexists _, _; split; [reflexivity|]. replace n with n0 by lia. auto.
Qed.

Lemma itos_correct w sgn n : width_ok w -> - 2 ^ (w - 1) <= n < 2 ^ w ->
  exists t, itos w sgn n = Some t /\ is_integer_text t n.
Proof.
  intros Hw Hn. destruct (itoa_correct w sgn n false Hw Hn) as (r & t & E & D).
  exists t. unfold itos. rewrite E. auto.
Qed.

(** The text determines the number, so two different numbers never print alike. *)
Lemma is_integer_text_inj t n m : is_integer_text t n -> is_integer_text t m -> n = m.
Proof.
  unfold is_integer_text. intros A B.
  destruct (Z.ltb_spec n 0); destruct (Z.ltb_spec m 0).
  - destruct A as (a & -> & A). destruct B as (b & E & B). inversion E; subst.
    destruct A as (_ & _ & A & _). destruct B as (_ & _ & B & _). lia.
  - destruct A as (a & -> & A). destruct B as (_ & B & _). inversion B; subst.
    unfold is_digit in *; lia.
  - destruct B as (a & -> & B). destruct A as (_ & A & _). inversion A; subst.
    unfold is_digit in *; lia.
  - destruct A as (_ & _ & A & _). destruct B as (_ & _ & B & _). lia.
Qed.

(** append_itoa prints the two's complement reinterpretation. *)
Lemma append_itoa_behaviour w sgn n : width_ok w -> - 2 ^ (w - 1) <= n < 2 ^ (w - 1) ->
  exists t, append_itoa w sgn n = Some t /\ is_decimal t (n mod 2 ^ w).
Proof.
  intros Hw Hn. pose proof (bufsize_ok w sgn Hw).
  destruct (utoa_spec w n (toa_bufsize w sgn) Hw ltac:(lia)) as (r & t & E & D & _).
  exists t. unfold append_itoa. rewrite E. auto.
Qed.

(** left padding *)
Lemma dec_value_zeros k l : dec_value (repeat 48 k ++ l) = dec_value l.
Proof. unfold dec_value. rewrite fold_left_app. f_equal. induction k; auto. Qed.

Lemma left_pad_correct w width n : width_ok w -> 0 <= n < 2 ^ w -> (maxdig w <= width)%nat ->
  exists t, utoa_left_pad w width n 48 = Some t /\
    length t = width /\ Forall is_digit t /\ dec_value t = n.
Proof.
  intros Hw Hn Hr. destruct (utoa_spec w n width Hw Hr) as (r & t & E & D & L & _).
  unfold utoa_left_pad. rewrite E. eexists; split; [reflexivity|].
  rewrite Z.mod_small in D by auto. destruct D as (_ & D1 & D2 & _).
  rewrite app_length, repeat_length. split; auto. split.
  - apply Forall_app; split; auto. apply Forall_forall. intros x Hx.
    apply repeat_spec in Hx. subst. unfold is_digit; lia.
  - rewrite dec_value_zeros. auto.
Qed.

(** dropping trailing zeros *)
Lemma drop0_spec w : width_ok w -> forall fuel n sk room,
  0 < n < 2 ^ w -> n < 2 ^ Z.of_nat fuel -> (maxdig w <= room)%nat ->
  exists r t sk', drop0_loop w (S fuel) n sk (room, []) = Some ((r, t), sk') /\
    sk <= sk' /\ is_decimal t (n / 10 ^ (sk' - sk)) /\ n mod 10 ^ (sk' - sk) = 0 /\
    (n / 10 ^ (sk' - sk)) mod 10 <> 0.
Proof.
  intros Hw. induction fuel; intros n sk room Hn Hf Hr.
  - simpl in Hf. lia.
  - rewrite Nat2Z.inj_succ, Z.pow_succ_r in Hf by lia.
    remember (S fuel) as fu. cbn [drop0_loop].
    destruct (Z.eqb_spec n 0); [lia|].
    rewrite rem_digit by lia.
    pose proof (Z.mod_pos_bound n 10 ltac:(lia)).
    pose proof (Z.div_mod n 10 ltac:(lia)) as DM.
    assert (Hq : 0 <= n / 10 < 2 ^ w).
    { split; [apply Z.div_pos; lia|]. apply Z.div_lt_upper_bound; lia. }
    destruct (Z.eqb_spec (n mod 10) 0) as [E|E].
    + assert (0 < n / 10) by lia.
      subst fu. destruct (IHfuel (n / 10) (sk + 1) room) as (r & t & sk' & E' & Hs & D & M & N); auto; try lia.
      exists r, t, sk'. rewrite E'. split; auto. split; [lia|].
      assert (P : 10 ^ (sk' - sk) = 10 * 10 ^ (sk' - (sk + 1))).
      { rewrite <- Z.pow_succ_r by lia. f_equal; lia. }
      assert (0 < 10 ^ (sk' - (sk + 1))) by (apply Z.pow_pos_nonneg; lia).
      assert (Q : n / 10 ^ (sk' - sk) = n / 10 / 10 ^ (sk' - (sk + 1))).
      { rewrite P, Z.div_div by lia. auto. }
      rewrite Q. split; auto. split; auto.
      rewrite P. rewrite Z.rem_mul_r by lia. rewrite E, M. lia.
    + rewrite digit_char by lia.
      unfold push. cbn [fst snd].
      assert (Hroom : (0 < maxdig w)%nat) by (destruct Hw as [ -> | [ -> | [ -> | -> ]]]; vm_compute; lia).
      destruct room as [|room]; [lia|].
      assert (Hw0 : 0 <= w) by (destruct Hw as [|[|[|]]]; lia).
      assert (Lq : (length (digs (Z.to_nat w) (n / 10)) + 1 <= maxdig w)%nat).
      { pose proof (digs_len (S (Z.to_nat w)) n (maxdig w)) as L.
        cbn [digs] in L. destruct (Z.eqb_spec n 0); [lia|]. rewrite app_length in L. simpl length in L.
        apply L. pose proof (maxdig_ok w Hw). lia. }
      rewrite utoa_loop_spec; [|lia|rewrite Z2Nat.id by lia; lia|lia].
      cbn [option_map]. eexists _, _, sk. split; [reflexivity|]. split; [lia|].
      replace (sk - sk) with 0 by lia. change (10 ^ 0) with 1. rewrite Z.div_1_r, Z.mod_1_r.
      split; [|split; auto].
      pose proof (digs_spec (S (Z.to_nat w)) n) as D. cbn [digs] in D.
      destruct (Z.eqb_spec n 0); [lia|].
      rewrite Nat2Z.inj_succ, Z2Nat.id, Z.pow_succ_r in D by lia.
      destruct D as (D1 & D2 & D3); [lia|]. destruct (D3 n0) as [D4 D5].
      repeat split; auto.
Qed.

Lemma drop_trailing_0_correct w n room : width_ok w -> 0 < n < 2 ^ w -> (maxdig w <= room)%nat ->
  exists r t sk, utoa_drop_trailing_0 w n (room, []) = Some ((r, t), sk) /\
    0 <= sk /\ is_decimal t (n / 10 ^ sk) /\ (n / 10 ^ sk) * 10 ^ sk = n /\ (n / 10 ^ sk) mod 10 <> 0.
Proof.
  intros Hw Hn Hr. unfold utoa_drop_trailing_0. rewrite to_u_small by lia.
  destruct (Z.eqb_spec n 0); [lia|].
  assert (Hw0 : 0 <= w) by (destruct Hw as [|[|[|]]]; lia).
  destruct (drop0_spec w Hw (Z.to_nat w) n 0 room) as (r & t & sk & E & H & D & M & N); auto.
  { rewrite Z2Nat.id by lia. lia. }
  rewrite Z.sub_0_r in *. exists r, t, sk. split; auto. split; auto. split; auto. split; auto.
  assert (0 < 10 ^ sk) by (apply Z.pow_pos_nonneg; lia).
  pose proof (Z.div_mod n (10 ^ sk) ltac:(lia)). lia.
Qed.

Lemma append_itoa_false : exists n t,
  - 2 ^ 31 <= n < 2 ^ 31 /\ append_itoa 32 true n = Some t /\ ~ is_integer_text t n.
Proof.
  exists (-1), [52; 50; 57; 52; 57; 54; 55; 50; 57; 53]. split; [lia|]. split.
  - vm_compute. reflexivity.
  - unfold is_integer_text. cbn. intros (l & E & _). discriminate.
Qed.
