From Coq Require Import List NArith ZArith Bool Lia ZifyN ZifyNat.
From Verif Require Import B64.
Import ListNotations.
Open Scope N_scope.
Ltac Zify.zify_post_hook ::= Z.div_mod_to_equations.

(** Finite checks over bytes / sextets. *)
Fixpoint upto (n : nat) : list N := match n with O => [] | S k => upto k ++ [N.of_nat k] end.
Lemma upto_in : forall n x, x < N.of_nat n -> In x (upto n).
Proof.
  induction n; intros x H; [lia|]. simpl. apply in_or_app.
  destruct (N.eq_dec x (N.of_nat n)); [right; left; auto|left; apply IHn; lia].
Qed.
Lemma forall_below (P : N -> bool) n :
  forallb P (upto n) = true -> forall x, x < N.of_nat n -> P x = true.
Proof. intros H x Hx. rewrite forallb_forall in H. apply H, upto_in, Hx. Qed.

Lemma code_inv s : s < 64 -> decode_char (tab cb64 s) = Some s.
Proof.
  intros H.
  pose (P := fun s => match decode_char (tab cb64 s) with Some v => v =? s | None => false end).
  assert (P s = true).
  { apply (forall_below P 64); [vm_compute; reflexivity|]. exact H. }
  unfold P in H0. destruct decode_char; [|discriminate]. apply N.eqb_eq in H0. congruence.
Qed.

Lemma code_pad : decode_char EQ = Some 0.
Proof. reflexivity. Qed.

Lemma hi4 b : b < 256 -> N.shiftr (N.land b 240) 4 = b / 16.
Proof.
  intros H. apply N.eqb_eq.
  apply (forall_below (fun b => N.shiftr (N.land b 240) 4 =? b / 16) 256); [vm_compute; reflexivity|exact H].
Qed.
Lemma hi2 b : b < 256 -> N.shiftr (N.land b 192) 6 = b / 64.
Proof.
  intros H. apply N.eqb_eq.
  apply (forall_below (fun b => N.shiftr (N.land b 192) 6 =? b / 64) 256); [vm_compute; reflexivity|exact H].
Qed.
Lemma land_low b k : N.land b (N.ones k) = b mod 2 ^ k.
Proof. apply N.land_ones. Qed.

Lemma lor_add a k b : b < 2 ^ k -> N.lor (N.shiftl a k) b = a * 2 ^ k + b.
Proof.
  intros H. rewrite N.shiftl_mul_pow2. symmetry. rewrite <- N.lxor_lor.
  - apply N.add_nocarry_lxor.
    apply N.bits_inj_0. intros n. rewrite N.land_spec.
    destruct (N.lt_ge_cases n k).
    + rewrite N.mul_pow2_bits_low by auto. reflexivity.
    + destruct (N.eq_dec b 0) as [->|Hb]; [rewrite N.bits_0; apply andb_false_r|].
      rewrite (N.bits_above_log2 b); [apply andb_false_r|].
      apply N.log2_lt_pow2; [lia|]. eapply N.lt_le_trans; [exact H|].
      apply N.pow_le_mono_r; lia.
  - apply N.bits_inj_0. intros n. rewrite N.land_spec.
    destruct (N.lt_ge_cases n k).
    + rewrite N.mul_pow2_bits_low by auto. reflexivity.
    + destruct (N.eq_dec b 0) as [->|Hb]; [rewrite N.bits_0; apply andb_false_r|].
      rewrite (N.bits_above_log2 b); [apply andb_false_r|].
      apply N.log2_lt_pow2; [lia|]. eapply N.lt_le_trans; [exact H|].
      apply N.pow_le_mono_r; lia.
Qed.

Lemma sext1 a b : a < 256 -> b < 256 ->
  N.lor (N.shiftl (N.land a 3) 4) (N.shiftr (N.land b 240) 4) = (a mod 4) * 16 + b / 16.
Proof.
  intros. rewrite hi4 by auto. change 3 with (N.ones 2). rewrite land_low.
  rewrite lor_add; [reflexivity|]. change (2^4) with 16. lia.
Qed.
Lemma sext1' a : N.lor (N.shiftl (N.land a 3) 4) 0 = (a mod 4) * 16.
Proof.
  change 3 with (N.ones 2). rewrite land_low, N.lor_0_r, N.shiftl_mul_pow2. reflexivity.
Qed.
Lemma sext2 b c : b < 256 -> c < 256 ->
  N.lor (N.shiftl (N.land b 15) 2) (N.shiftr (N.land c 192) 6) = (b mod 16) * 4 + c / 64.
Proof.
  intros. rewrite hi2 by auto. change 15 with (N.ones 4). rewrite land_low.
  rewrite lor_add; [reflexivity|]. change (2^2) with 4. lia.
Qed.
Lemma sext3 c : N.land c 63 = c mod 64.
Proof. change 63 with (N.ones 6). apply land_low. Qed.
Lemma sext0 a : N.shiftr a 2 = a / 4.
Proof. rewrite N.shiftr_div_pow2. reflexivity. Qed.

Lemma dec0 i0 i1 : i0 < 64 -> i1 < 64 ->
  u8 (N.lor (N.shiftl i0 2) (N.shiftr i1 4)) = i0 * 4 + i1 / 16.
Proof.
  intros. rewrite N.shiftr_div_pow2. change (2^4) with 16.
  rewrite lor_add by (change (2^2) with 4; lia). change (2^2) with 4. unfold u8. try (rewrite N.mod_small; [reflexivity|lia]).
Qed.
Lemma dec1 i1 i2 : i1 < 64 -> i2 < 64 ->
  u8 (N.lor (N.shiftl i1 4) (N.shiftr i2 2)) = (i1 mod 16) * 16 + i2 / 4.
Proof.
  intros. rewrite N.shiftr_div_pow2. change (2^2) with 4.
  rewrite lor_add by (change (2^4) with 16; lia). change (2^4) with 16. unfold u8.
  assert (Hq : i1 = 16 * (i1 / 16) + i1 mod 16) by (apply N.div_mod; lia).
  rewrite Hq at 1. replace ((16 * (i1 / 16) + i1 mod 16) * 16 + i2 / 4)
    with ((i1 mod 16 * 16 + i2 / 4) + (i1 / 16) * 256) by lia.
  rewrite N.mod_add by lia. apply N.mod_small. lia.
Qed.
Lemma land192 i2 : i2 < 64 -> N.land (N.shiftl i2 6) 192 = N.shiftl (i2 mod 4) 6.
Proof.
  intros H. apply N.eqb_eq.
  apply (forall_below (fun i => N.land (N.shiftl i 6) 192 =? N.shiftl (i mod 4) 6) 64);
    [vm_compute; reflexivity|exact H].
Qed.
Lemma dec2 i2 i3 : i2 < 64 -> i3 < 64 ->
  u8 (N.lor (N.land (N.shiftl i2 6) 192) i3) = (i2 mod 4) * 64 + i3.
Proof.
  intros. rewrite land192 by auto.
  rewrite lor_add by (change (2^6) with 64; lia). change (2^6) with 64. unfold u8. rewrite N.mod_small; [reflexivity|]. pose proof (N.mod_lt i2 4). lia.
Qed.

Lemma decodeblock_spec i0 i1 i2 i3 : i0 < 64 -> i1 < 64 -> i2 < 64 -> i3 < 64 ->
  decodeblock i0 i1 i2 i3 =
  [ i0 * 4 + i1 / 16; (i1 mod 16) * 16 + i2 / 4; (i2 mod 4) * 64 + i3 ].
Proof. intros. unfold decodeblock. rewrite dec0, dec1, dec2 by auto. reflexivity. Qed.

Lemma dml q m r : r < m -> (q * m + r) / m = q.
Proof. intros. rewrite N.div_add_l by lia. rewrite N.div_small by auto. lia. Qed.
Lemma mml q m r : r < m -> (q * m + r) mod m = r.
Proof. intros. rewrite N.add_comm, N.mod_add by lia. apply N.mod_small; auto. Qed.
Lemma dml0 q m : 0 < m -> (q * m) / m = q.
Proof. intros. apply N.div_mul. lia. Qed.
Lemma mml0 q m : 0 < m -> (q * m) mod m = 0.
Proof. intros. apply N.mod_mul. lia. Qed.
Ltac fields := repeat first [rewrite dml by lia | rewrite mml by lia | rewrite dml0 by lia | rewrite mml0 by lia].

(** What the decoder returns for the encoding of [bs] (three bytes per group). *)
Fixpoint padded (bs : list N) : list N :=
  match bs with
  | [] => []
  | [a] => [a; 0; 0]
  | [a; b] => [a; b / 16 * 16; 0]
  | a :: b :: c :: r => a :: b :: c :: padded r
  end.

Lemma list3_ind {A} (P : list A -> Prop) :
  P [] -> (forall a, P [a]) -> (forall a b, P [a; b]) ->
  (forall a b c r, P r -> P (a :: b :: c :: r)) -> forall l, P l.
Proof.
  intros H0 H1 H2 H3.
  assert (forall n l, (length l <= n)%nat -> P l).
  { induction n; intros l Hl.
    - destruct l; [auto|simpl in Hl; lia].
    - destruct l as [|a [|b [|c r]]]; auto. apply H3, IHn. simpl in Hl. lia. }
  intros l. eapply H. reflexivity.
Qed.

Lemma decode_one a b c rest len ocur outsize i0 i1 i2 i3 :
  decode_char (nth 0 (encodeblock a b c len) 0) = Some i0 ->
  decode_char (nth 1 (encodeblock a b c len) 0) = Some i1 ->
  decode_char (nth 2 (encodeblock a b c len) 0) = Some i2 ->
  decode_char (nth 3 (encodeblock a b c len) 0) = Some i3 ->
  ocur + 3 <= outsize ->
  b64decode (encodeblock a b c len ++ rest) ocur outsize =
  match b64decode rest (ocur + 3) outsize with
  | DOk out => DOk (decodeblock i0 i1 i2 i3 ++ out)
  | e => e
  end.
Proof.
  intros E0 E1 E2 E3 H. unfold encodeblock in *.
  cbn [nth] in E0, E1, E2, E3. cbn [app b64decode].
  rewrite E0, E1, E2, E3.
  destruct (N.ltb_spec ocur outsize); [|lia].
  destruct (N.leb_spec (ocur + 3) outsize); [|lia]. reflexivity.
Qed.

Lemma decode_encode : forall bs, Forall byte_ok bs -> forall ocur outsize,
  ocur + N.of_nat (length (padded bs)) <= outsize ->
  b64decode (b64encode bs) ocur outsize = DOk (padded bs).
Proof.
  unfold byte_ok. intros bs. induction bs using list3_ind; intros F ocur outsize Ho.
  - reflexivity.
  - inversion F; subst. cbn [b64encode]. rewrite <- (app_nil_r (encodeblock _ _ _ _)).
    cbn [padded length] in Ho.
    rewrite decode_one with (i0 := a / 4) (i1 := (a mod 4) * 16) (i2 := 0) (i3 := 0).
    + cbn [b64decode]. rewrite app_nil_r. rewrite decodeblock_spec by lia.
      cbn [padded]. fields. f_equal. repeat (f_equal; try lia).
    + cbn [encodeblock nth]. rewrite sext0. apply code_inv; lia.
    + unfold encodeblock; cbn [nth]. change (1 <? 1) with false. cbv iota.
      rewrite sext1'. apply code_inv; lia.
    + reflexivity.
    + reflexivity.
    + lia.
  - inversion F; subst. inversion H2; subst. cbn [b64encode].
    rewrite <- (app_nil_r (encodeblock _ _ _ _)).
    cbn [padded length] in Ho.
    erewrite decode_one with (i0 := a / 4) (i1 := (a mod 4) * 16 + b / 16) (i2 := 0) (i3 := 0).
    + cbn [b64decode]. rewrite app_nil_r. rewrite decodeblock_spec by lia.
      cbn [padded]. fields. f_equal. repeat (f_equal; try lia).
    + cbn [encodeblock nth]. rewrite sext0. apply code_inv; lia.
    + unfold encodeblock; cbn [nth]. change (1 <? 2) with true. cbv iota.
      rewrite sext1 by auto. apply code_inv; lia.
    + reflexivity.
    + reflexivity.
    + lia.
  - inversion F; subst. inversion H2; subst. inversion H4; subst.
    cbn [b64encode]. cbn [padded length] in Ho.
    rewrite decode_one with (i0 := a / 4) (i1 := (a mod 4) * 16 + b / 16)
       (i2 := (b mod 16) * 4 + c / 64) (i3 := c mod 64).
    + rewrite IHbs; auto; [|lia]. rewrite decodeblock_spec by lia.
      cbn [padded app]. fields. f_equal. repeat (f_equal; try lia).
    + cbn [encodeblock nth]. rewrite sext0. apply code_inv; lia.
    + unfold encodeblock; cbn [nth]. change (1 <? 3) with true. cbv iota.
      rewrite sext1 by auto. apply code_inv; lia.
    + unfold encodeblock; cbn [nth]. change (2 <? 3) with true. cbv iota.
      rewrite sext2 by auto. apply code_inv; lia.
    + unfold encodeblock; cbn [nth]. change (2 <? 3) with true. cbv iota.
      rewrite sext3. apply code_inv; lia.
    + lia.
Qed.

Lemma padded_prefix : forall bs, (length bs mod 3 <> 2)%nat ->
  firstn (length bs) (padded bs) = bs.
Proof.
  intros bs. induction bs using list3_ind; intros H; auto.
  - exfalso. apply H. reflexivity.
  - cbn [padded length firstn]. do 3 f_equal. apply IHbs.
    cbn [length] in H. intros E. apply H.
    replace (S (S (S (length bs)))) with (length bs + 1 * 3)%nat by lia.
    rewrite Nat.mod_add by lia. auto.
Qed.

Lemma padded_length : forall bs, length (padded bs) = ((length bs + 2) / 3 * 3)%nat.
Proof.
  intros bs. induction bs using list3_ind; auto.
  cbn [padded length]. rewrite IHbs.
  replace (S (S (S (length bs))) + 2)%nat with (length bs + 2 + 1 * 3)%nat by lia.
  rewrite Nat.div_add by lia. lia.
Qed.

Lemma padded_bad : forall bs, (length bs mod 3 = 2)%nat ->
  (firstn (length bs) (padded bs) = bs <-> (last bs 0) mod 16 = 0).
Proof.
  intros bs. induction bs using list3_ind; intros H; try discriminate H.
  - cbn [padded length firstn last]. split.
    + intros E. injection E. intros. rewrite <- H0. lia.
    + intros. do 2 f_equal. lia.
  - assert (Hm : (length bs mod 3 = 2)%nat).
    { cbn [length] in H. replace (S (S (S (length bs)))) with (length bs + 1 * 3)%nat in H by lia.
      rewrite Nat.mod_add in H by lia. auto. }
    specialize (IHbs Hm). cbn [padded length firstn].
    assert (Hl : last (a :: b :: c :: bs) 0 = last bs 0).
    { destruct bs; [discriminate Hm|reflexivity]. }
    rewrite Hl. rewrite <- IHbs. split; [intros E; injection E; auto|intros ->; auto].
Qed.

Lemma encode_length : forall bs, length (b64encode bs) = ((length bs + 2) / 3 * 4)%nat.
Proof.
  intros bs. induction bs using list3_ind; auto.
  cbn [b64encode]. rewrite app_length, IHbs.
  change (length (encodeblock a b c 3)) with 4%nat. cbn [length].
  replace (S (S (S (length bs))) + 2)%nat with (length bs + 2 + 1 * 3)%nat by lia.
  rewrite Nat.div_add by lia. lia.
Qed.

(** Round trip, stated on the buffer the caller sees. *)
Lemma roundtrip bs outsize :
  Forall byte_ok bs -> (length bs mod 3 <> 2)%nat ->
  N.of_nat ((length bs + 2) / 3 * 3) <= outsize ->
  exists out, b64decode (b64encode bs) 0 outsize = DOk out /\ firstn (length bs) out = bs.
Proof.
  intros F Hm Ho. exists (padded bs). split; [|apply padded_prefix; auto].
  apply decode_encode; auto. rewrite padded_length. lia.
Qed.

Lemma roundtrip_iff bs outsize :
  Forall byte_ok bs -> (length bs mod 3 = 2)%nat ->
  N.of_nat ((length bs + 2) / 3 * 3) <= outsize ->
  exists out, b64decode (b64encode bs) 0 outsize = DOk out /\
     (firstn (length bs) out = bs <-> (last bs 0) mod 16 = 0).
Proof.
  intros F Hm Ho. exists (padded bs). split; [|apply padded_bad; auto].
  apply decode_encode; auto. rewrite padded_length. lia.
Qed.

Lemma roundtrip_false : exists bs out,
  Forall byte_ok bs /\ b64decode (b64encode bs) 0 3 = DOk out /\ firstn (length bs) out <> bs.
Proof.
  exists [72; 105], [72; 96; 0]. split; [|split].
  - repeat constructor.
  - vm_compute. reflexivity.
  - discriminate.
Qed.
