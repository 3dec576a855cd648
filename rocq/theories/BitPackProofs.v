From Coq Require Import List Arith NArith ZArith Bool Lia ZifyN ZifyNat.
From Verif Require Import BitPack.
Import ListNotations.
Ltac Zify.zify_post_hook ::= Z.div_mod_to_equations.

(** * Specification *)

(** Number of bits a field occupies. *)
Definition width (k : kind) : nat :=
  match k with Int57 l => l | Int25 l => l | Float32 => 32 | Float31 => 31 end.

(** Bytes touched by an access. *)
Definition access (k : kind) : nat := match k with Int25 _ => 4 | _ => 8 end.

(** The documented preconditions on a field in a buffer of [size] bytes. *)
Definition field_ok (size : nat) (f : nat * kind * N) : Prop :=
  let '(off, k, v) := f in
  off / 8 + access k <= size /\
  match k with
  | Int57 l => l <= 57 /\ (v < 2 ^ N.of_nat l)%N
  | Int25 l => l <= 25 /\ (v < 2 ^ N.of_nat l)%N
  | Float32 | Float31 => (v < 2 ^ 32)%N
  end.

(** What a read of the field should give: the value, except that a
    "non-positive float" always comes back with its sign bit set. *)
Definition expected (f : nat * kind * N) : N :=
  let '(_, k, v) := f in
  match k with Float31 => N.lor v (2 ^ 31) | _ => v end.

Definition disjoint (f g : nat * kind * N) : Prop :=
  let '(o1, k1, _) := f in let '(o2, k2, _) := g in
  o1 + width k1 <= o2 \/ o2 + width k2 <= o1.

Fixpoint pairwise {A} (R : A -> A -> Prop) (l : list A) : Prop :=
  match l with [] => True | x :: r => Forall (R x) r /\ pairwise R r end.

(** Fields which big-endian machines can hold: not the 25-bit kind, and not
    empty. *)
Definition be_ok (f : nat * kind * N) : Prop :=
  match f with (_, Int25 _, _) | (_, Int57 0, _) => False | _ => True end.

(** * Byte sequences as numbers *)

Definition isbytes (l : list N) := Forall (fun b => (b < 256)%N) l.

Lemma testbit_small : forall x k i, (x < 2 ^ k)%N -> (k <= i)%N -> N.testbit x i = false.
Proof.
  intros x k i H K. destruct (N.eq_dec x 0) as [->|X]. { apply N.bits_0. }
  apply N.bits_above_log2. apply N.log2_lt_pow2 in H; lia.
Qed.

Lemma small_of_bits : forall x k, (forall i, (k <= i)%N -> N.testbit x i = false) -> (x < 2 ^ k)%N.
Proof.
  intros x k H. destruct (N.eq_dec x 0) as [->|X].
  { apply N.neq_0_lt_0. apply N.pow_nonzero. lia. }
  apply N.log2_lt_pow2; [lia|].
  destruct (N.lt_ge_cases (N.log2 x) k) as [L|L]; [exact L|].
  specialize (H _ L). rewrite N.bit_log2 in H by exact X. discriminate.
Qed.

Lemma testbit_mod : forall x k i, N.testbit (x mod 2 ^ k) i = (i <? k)%N && N.testbit x i.
Proof.
  intros x k i. destruct (N.ltb_spec i k) as [L|L].
  - rewrite N.mod_pow2_bits_low by exact L. reflexivity.
  - rewrite N.mod_pow2_bits_high by exact L. reflexivity.
Qed.

Lemma testbit_shl : forall x s i, N.testbit (N.shiftl x s) i = (s <=? i)%N && N.testbit x (i - s).
Proof.
  intros x s i. destruct (N.leb_spec s i) as [L|L].
  - rewrite N.shiftl_spec_high' by exact L. reflexivity.
  - rewrite N.shiftl_spec_low by exact L. reflexivity.
Qed.

Lemma testbit_shr : forall x s i, N.testbit (N.shiftr x s) i = N.testbit x (i + s).
Proof. intros. rewrite N.shiftr_spec'. reflexivity. Qed.

Lemma dec_bound : forall l, isbytes l -> (dec l < 2 ^ (8 * N.of_nat (length l)))%N.
Proof.
  induction l as [|b r IH]; intros H; cbn [dec length].
  { reflexivity. }
  inversion H; subst. specialize (IH H3).
  apply small_of_bits. intros i L. rewrite N.lor_spec, testbit_shl.
  rewrite (testbit_small b 8 i) by lia. cbn [orb].
  rewrite (testbit_small (dec r) _ (i - 8) IH) by lia. apply andb_false_r.
Qed.

Lemma dec_app : forall a b i, isbytes a ->
  N.testbit (dec (a ++ b)) i =
  if (i <? 8 * N.of_nat (length a))%N then N.testbit (dec a) i
  else N.testbit (dec b) (i - 8 * N.of_nat (length a)).
Proof.
  induction a as [|x r IH]; intros b i H; cbn [app dec length].
  { destruct (N.ltb_spec i (8 * N.of_nat 0)); [lia|]. f_equal. lia. }
  inversion H; subst. rewrite !N.lor_spec, !testbit_shl.
  destruct (N.leb_spec 8 i) as [L|L]; cbn [andb].
  - rewrite (testbit_small x 8 i) by lia. cbn [orb]. rewrite IH by assumption.
    destruct (N.ltb_spec (i - 8) (8 * N.of_nat (length r)));
      destruct (N.ltb_spec i (8 * N.of_nat (S (length r)))); try lia; [reflexivity|].
    f_equal. lia.
  - destruct (N.ltb_spec i (8 * N.of_nat (S (length r)))); [reflexivity|lia].
Qed.

Lemma enc_length : forall n v, length (enc n v) = n.
Proof. induction n; intros; cbn; [|rewrite IHn]; reflexivity. Qed.

Lemma enc_bytes : forall n v, isbytes (enc n v).
Proof.
  induction n; intros v; cbn [enc]; constructor; [|apply IHn].
  change 255%N with (N.ones 8). rewrite N.land_ones.
  apply N.mod_lt. discriminate.
Qed.

Lemma dec_enc : forall n v i,
  N.testbit (dec (enc n v)) i = (i <? 8 * N.of_nat n)%N && N.testbit v i.
Proof.
  induction n; intros v i; cbn [enc dec].
  { rewrite N.bits_0. destruct (N.ltb_spec i (8 * N.of_nat 0)); [lia|reflexivity]. }
  rewrite N.lor_spec, testbit_shl, IHn, testbit_shr.
  change 255%N with (N.ones 8). rewrite N.land_ones, testbit_mod.
  destruct (N.ltb_spec i 8), (N.leb_spec 8 i), (N.ltb_spec i (8 * N.of_nat (S n))),
    (N.ltb_spec (i - 8) (8 * N.of_nat n)); try lia; cbn [andb orb];
    rewrite ?orb_false_r; try reflexivity.
  f_equal; lia.
Qed.

Lemma isbytes_app : forall a b, isbytes (a ++ b) <-> isbytes a /\ isbytes b.
Proof. intros. apply Forall_app. Qed.

Lemma isbytes_split : forall l n, isbytes l -> isbytes (firstn n l) /\ isbytes (skipn n l).
Proof. intros l n H. apply isbytes_app. rewrite firstn_skipn. exact H. Qed.

Lemma isbytes_rev : forall l, isbytes l -> isbytes (rev l).
Proof. intros. apply Forall_rev. assumption. Qed.

(** * The memory as one number

    In little-endian order bit [p] of the buffer is bit [p] of the number; in
    big-endian order the field at [off] of length [len] starts at bit
    [8*size - off - len]. *)
Section E.
Variable e : endian.

Definition base (size n at_ : nat) : nat :=
  match e with LE => 8 * at_ | BE => 8 * (size - at_ - n) end.
Definition fpos (size off len : nat) : nat :=
  match e with LE => off | BE => 8 * size - off - len end.

Lemma skipn_plus : forall (A : Type) a n (l : list A), skipn n (skipn a l) = skipn (a + n) l.
Proof.
  intros A. induction a; intros n l; cbn [Nat.add]; [reflexivity|].
  destruct l; cbn [skipn]; [apply skipn_nil|apply IHa].
Qed.

Lemma split3 : forall (mem : list N) a n, a + n <= length mem ->
  mem = firstn a mem ++ firstn n (skipn a mem) ++ skipn (a + n) mem.
Proof.
  intros. rewrite <- skipn_plus, firstn_skipn, firstn_skipn. reflexivity.
Qed.

Lemma num_mid : forall a b c i, isbytes a -> isbytes b -> isbytes c ->
  N.testbit (num e (a ++ b ++ c)) i =
  let s := N.of_nat (base (length (a ++ b ++ c)) (length b) (length a)) in
  if (i <? s)%N then N.testbit (num e (match e with LE => a | BE => c end)) i
  else if (i <? s + 8 * N.of_nat (length b))%N then N.testbit (num e b) (i - s)
  else N.testbit (num e (match e with LE => c | BE => a end)) (i - s - 8 * N.of_nat (length b)).
Proof.
  intros a b c i A B C. unfold num, base. destruct e; cbn zeta.
  - rewrite dec_app, dec_app by assumption.
    destruct (N.ltb_spec i (8 * N.of_nat (length a)));
    destruct (N.ltb_spec i (N.of_nat (8 * length a))); try lia; [reflexivity|].
    replace (N.of_nat (8 * length a)) with (8 * N.of_nat (length a))%N by lia.
    destruct (N.ltb_spec (i - 8 * N.of_nat (length a)) (8 * N.of_nat (length b)));
    destruct (N.ltb_spec i (8 * N.of_nat (length a) + 8 * N.of_nat (length b))); try lia; reflexivity.
  - rewrite !rev_app_distr, <- app_assoc.
    rewrite dec_app, dec_app by (apply isbytes_rev; assumption).
    rewrite !rev_length, !app_length.
    replace (length a + (length b + length c) - length a - length b) with (length c) by lia.
    destruct (N.ltb_spec i (8 * N.of_nat (length c)));
    destruct (N.ltb_spec i (N.of_nat (8 * length c))); try lia; [reflexivity|].
    replace (N.of_nat (8 * length c)) with (8 * N.of_nat (length c))%N by lia.
    destruct (N.ltb_spec (i - 8 * N.of_nat (length c)) (8 * N.of_nat (length b)));
    destruct (N.ltb_spec i (8 * N.of_nat (length c) + 8 * N.of_nat (length b))); try lia; reflexivity.
Qed.

Lemma load_spec : forall n mem a, isbytes mem -> a + n <= length mem ->
  exists w, load e n mem a = Some w /\
    forall i, N.testbit w i =
      (i <? 8 * N.of_nat n)%N && N.testbit (num e mem) (i + N.of_nat (base (length mem) n a)).
Proof.
  intros n mem a B L. unfold load.
  destruct (Nat.leb_spec (a + n) (length mem)); [|lia].
  eexists. split; [reflexivity|]. intros i.
  destruct (isbytes_split mem a B) as [B1 B2].
  destruct (isbytes_split _ n B2) as [B3 _].
  destruct (isbytes_split mem (a + n) B) as [_ B4].
  pose proof (num_mid (firstn a mem) (firstn n (skipn a mem)) (skipn (a + n) mem)
    (i + N.of_nat (base (length mem) n a)) B1 B3 B4) as M.
  rewrite <- split3 in M by exact L.
  replace (length (firstn n (skipn a mem))) with n in M
    by (rewrite firstn_length, skipn_length; lia).
  replace (length (firstn a mem)) with a in M by (rewrite firstn_length; lia).
  cbn zeta in M. rewrite M.
  destruct (N.ltb_spec (i + N.of_nat (base (length mem) n a)) (N.of_nat (base (length mem) n a))); [lia|].
  destruct (N.ltb_spec i (8 * N.of_nat n));
  destruct (N.ltb_spec (i + N.of_nat (base (length mem) n a)) (N.of_nat (base (length mem) n a) + 8 * N.of_nat n));
    try lia; cbn [andb].
  - f_equal. lia.
  - unfold num. set (b := firstn n (skipn a mem)) in *.
    assert (LB : length b = n) by (unfold b; rewrite firstn_length, skipn_length; lia).
    destruct e.
    + apply (testbit_small _ (8 * N.of_nat n)); [|lia]. rewrite <- LB. apply dec_bound; assumption.
    + apply (testbit_small _ (8 * N.of_nat n)); [|lia]. rewrite <- LB, <- rev_length.
      apply dec_bound, isbytes_rev; assumption.
Qed.

Lemma bytes_length : forall n v, length (bytes e n v) = n.
Proof. intros. unfold bytes. destruct e; rewrite ?rev_length; apply enc_length. Qed.
Lemma bytes_bytes : forall n v, isbytes (bytes e n v).
Proof. intros. unfold bytes. destruct e; [|apply isbytes_rev]; apply enc_bytes. Qed.
Lemma num_bytes : forall n v i, N.testbit (num e (bytes e n v)) i = (i <? 8 * N.of_nat n)%N && N.testbit v i.
Proof. intros. unfold num, bytes. destruct e; rewrite ?rev_involutive; apply dec_enc. Qed.

(** Storing [w lor x] where [w] was loaded sets the bits of [x] and no others. *)
Lemma store_spec : forall n mem a w x, isbytes mem -> a + n <= length mem ->
  load e n mem a = Some w -> (x < 2 ^ (8 * N.of_nat n))%N ->
  exists mem', store e n mem a (N.lor w x) = Some mem' /\ isbytes mem' /\ length mem' = length mem /\
    forall i, N.testbit (num e mem') i =
      N.testbit (num e mem) i || N.testbit (N.shiftl x (N.of_nat (base (length mem) n a))) i.
Proof.
  intros n mem a w x B L LW X. unfold store.
  destruct (Nat.leb_spec (a + n) (length mem)); [|lia].
  eexists. split; [reflexivity|].
  destruct (isbytes_split mem a B) as [B1 B2].
  destruct (isbytes_split _ n B2) as [B3 _].
  destruct (isbytes_split mem (a + n) B) as [_ B4].
  assert (LL : length (firstn a mem ++ bytes e n (N.lor w x) ++ skipn (a + n) mem) = length mem).
  { rewrite !app_length, bytes_length, firstn_length, skipn_length. lia. }
  split; [|split; [exact LL|]].
  { apply isbytes_app. split; [exact B1|]. apply isbytes_app. split; [apply bytes_bytes|exact B4]. }
  intros i.
  rewrite (num_mid _ _ _ i B1 (bytes_bytes n (N.lor w x)) B4).
  pose proof (num_mid _ _ _ i B1 B3 B4) as M.
  rewrite <- split3 in M by exact L.
  rewrite LL, bytes_length in *.
  replace (length (firstn n (skipn a mem))) with n in M
    by (rewrite firstn_length, skipn_length; lia).
  replace (length (firstn a mem)) with a in * by (rewrite firstn_length; lia).
  cbn zeta in M |- *. rewrite M. set (s := N.of_nat (base (length mem) n a)) in *.
  rewrite testbit_shl.
  destruct (N.ltb_spec i s) as [I|I]; destruct (N.leb_spec s i) as [J|J]; try lia; cbn [andb].
  { rewrite orb_false_r. reflexivity. }
  destruct (N.ltb_spec i (s + 8 * N.of_nat n)) as [K|K].
  - rewrite num_bytes. destruct (N.ltb_spec (i - s) (8 * N.of_nat n)); [|lia]. cbn [andb].
    rewrite N.lor_spec. f_equal. unfold load in LW.
    destruct (Nat.leb_spec (a + n) (length mem)); [|lia]. injection LW as <-. reflexivity.
  - rewrite (testbit_small x _ (i - s) X) by lia. rewrite orb_false_r. reflexivity.
Qed.

(** Relation between the in-word shift and the position in the buffer. *)
Lemma base_shift : forall size off len, off / 8 + 8 <= size -> len <= 57 ->
  (e = BE -> 1 <= len) ->
  bps e (off mod 8) len < 64 /\ bps e (off mod 8) len + len <= 64 /\
  base size 8 (off / 8) + bps e (off mod 8) len = fpos size off len.
Proof.
  intros size off len S L NZ. unfold base, bps, fpos.
  pose proof (Nat.div_mod off 8 ltac:(lia)) as D.
  pose proof (Nat.mod_upper_bound off 8 ltac:(lia)) as U.
  revert S D U. generalize (off / 8) as q, (off mod 8) as r. intros q r S D U.
  destruct e.
  - lia.
  - specialize (NZ eq_refl). rewrite Z.mod_small by lia. lia.
Qed.

Lemma shl_bits : forall v len s, (v < 2 ^ N.of_nat len)%N -> s + len <= 64 -> s < 64 ->
  exists x, shl 64 v s = Some x /\ (x < 2 ^ (8 * N.of_nat 8))%N /\
   forall i, N.testbit x i = N.testbit (N.shiftl v (N.of_nat s)) i.
Proof.
  intros v len s V L S. unfold shl. destruct (Nat.ltb_spec s 64); [|lia].
  eexists. split; [reflexivity|]. split.
  { apply N.mod_lt. discriminate. }
  intros i. change (N.of_nat 64) with 64%N. rewrite testbit_mod.
  destruct (N.ltb_spec i 64); [reflexivity|]. cbn [andb].
  rewrite testbit_shl. destruct (N.leb_spec (N.of_nat s) i); [|reflexivity]. cbn [andb].
  symmetry. apply (testbit_small v _ _ V). lia.
Qed.

Lemma write57_spec : forall mem off len v, isbytes mem -> off / 8 + 8 <= length mem ->
  len <= 57 -> (e = BE -> 1 <= len) -> (v < 2 ^ N.of_nat len)%N ->
  exists mem', WriteInt57 e mem off len v = Some mem' /\ isbytes mem' /\ length mem' = length mem /\
   forall i, N.testbit (num e mem') i =
     N.testbit (num e mem) i || N.testbit (N.shiftl v (N.of_nat (fpos (length mem) off len))) i.
Proof.
  intros mem off len v B L LEN NZ V. unfold WriteInt57.
  destruct (load_spec 8 mem (off / 8) B L) as (w & LW & _). rewrite LW.
  destruct (base_shift (length mem) off len L LEN NZ) as (S1 & S2 & S3).
  destruct (shl_bits v len (bps e (off mod 8) len) V S2 S1) as (x & -> & X & XB).
  destruct (store_spec 8 mem (off / 8) w x B L LW X) as (mem' & ST & B' & L' & M).
  exists mem'. split; [exact ST|]. split; [exact B'|]. split; [exact L'|].
  intros i. rewrite M. f_equal. rewrite !testbit_shl, XB, testbit_shl, <- S3.
  destruct (N.leb_spec (N.of_nat (base (length mem) 8 (off / 8))) i);
  destruct (N.leb_spec (N.of_nat (bps e (off mod 8) len)) (i - N.of_nat (base (length mem) 8 (off / 8))));
  destruct (N.leb_spec (N.of_nat (base (length mem) 8 (off / 8) + bps e (off mod 8) len)) i);
  try lia; cbn [andb]; try reflexivity.
  f_equal. lia.
Qed.

(** The word shifted down, before masking: bits of the buffer from [fpos]. *)
Lemma readshift_spec : forall mem off len, isbytes mem -> off / 8 + 8 <= length mem -> len <= 57 ->
  (e = BE -> 1 <= len) ->
  exists x, (do w <- ReadOff e mem off ; shr 64 w (bps e (off mod 8) len)) = Some x /\
   forall i, (i < N.of_nat len)%N ->
     N.testbit x i = N.testbit (num e mem) (i + N.of_nat (fpos (length mem) off len)).
Proof.
  intros mem off len B L LEN NZ. unfold ReadOff.
  destruct (load_spec 8 mem (off / 8) B L) as (w & -> & W).
  destruct (base_shift (length mem) off len L LEN NZ) as (S1 & S2 & S3).
  unfold shr. destruct (Nat.ltb_spec (bps e (off mod 8) len) 64); [|lia].
  eexists. split; [reflexivity|]. intros i I. rewrite testbit_shr, W.
  destruct (N.ltb_spec (i + N.of_nat (bps e (off mod 8) len)) (8 * N.of_nat 8)); [|lia].
  cbn [andb]. f_equal. lia.
Qed.

Lemma mask_ok : forall b, b < 64 -> mask_of b = Some (N.ones (N.of_nat b)).
Proof.
  intros b H. unfold mask_of. destruct (Nat.ltb_spec b 64); [|lia]. f_equal.
  rewrite N.shiftl_1_l, N.mod_small.
  - unfold N.ones. rewrite N.shiftl_1_l. lia.
  - apply N.pow_lt_mono_r; lia.
Qed.

Lemma read57_spec : forall mem off len, isbytes mem -> off / 8 + 8 <= length mem -> len <= 57 ->
  (e = BE -> 1 <= len) ->
  exists x, ReadInt57 e mem off len (N.ones (N.of_nat len)) = Some x /\
   forall i, N.testbit x i =
     (i <? N.of_nat len)%N && N.testbit (num e mem) (i + N.of_nat (fpos (length mem) off len)).
Proof.
  intros mem off len B L LEN NZ. unfold ReadInt57.
  destruct (readshift_spec mem off len B L LEN NZ) as (x & R & X).
  destruct (ReadOff e mem off) as [w|]; [|discriminate]. rewrite R.
  eexists. split; [reflexivity|]. intros i. rewrite N.land_spec.
  destruct (N.ltb_spec i (N.of_nat len)).
  - rewrite N.ones_spec_low, X by assumption. rewrite andb_true_r. reflexivity.
  - rewrite N.ones_spec_high by assumption. apply andb_false_r.
Qed.

Lemma readf32_spec : forall mem off, isbytes mem -> off / 8 + 8 <= length mem ->
  exists x, ReadFloat32 e mem off = Some x /\
   forall i, N.testbit x i =
     (i <? 32)%N && N.testbit (num e mem) (i + N.of_nat (fpos (length mem) off 32)).
Proof.
  intros mem off B L. unfold ReadFloat32.
  destruct (readshift_spec mem off 32 B L ltac:(lia) ltac:(lia)) as (x & R & X).
  destruct (ReadOff e mem off) as [w|]; [|discriminate]. rewrite R.
  eexists. split; [reflexivity|]. intros i. rewrite testbit_mod.
  destruct (N.ltb_spec i 32); [|reflexivity]. cbn [andb]. apply X. lia.
Qed.

Lemma testbit_sign : forall i, N.testbit (2 ^ 31) i = (i =? 31)%N.
Proof. intros. rewrite N.pow2_bits_eqb. apply N.eqb_sym. Qed.

Lemma readf31_spec : forall mem off, isbytes mem -> off / 8 + 8 <= length mem ->
  exists x, ReadNonPositiveFloat31 e mem off = Some x /\
   forall i, N.testbit x i =
     ((i <? 31)%N && N.testbit (num e mem) (i + N.of_nat (fpos (length mem) off 31))) || (i =? 31)%N.
Proof.
  intros mem off B L. unfold ReadNonPositiveFloat31.
  destruct (readshift_spec mem off 31 B L ltac:(lia) ltac:(lia)) as (x & R & X).
  destruct (ReadOff e mem off) as [w|]; [|discriminate]. rewrite R.
  eexists. split; [reflexivity|]. intros i. unfold kSignBit.
  rewrite N.lor_spec, testbit_mod, testbit_sign.
  destruct (N.ltb_spec i 31).
  - destruct (N.ltb_spec i 32); [|lia]. cbn [andb]. rewrite X by lia. reflexivity.
  - destruct (N.eqb_spec i 31); cbn [andb orb]; [apply orb_true_r|].
    destruct (N.ltb_spec i 32); [lia|reflexivity].
Qed.
End E.

(** * 25-bit accesses, little endian *)
Lemma write25_spec : forall mem off len v, isbytes mem -> off / 8 + 4 <= length mem ->
  len <= 25 -> (v < 2 ^ N.of_nat len)%N ->
  exists mem', WriteInt25 LE mem off len v = Some mem' /\ isbytes mem' /\ length mem' = length mem /\
   forall i, N.testbit (num LE mem') i =
     N.testbit (num LE mem) i || N.testbit (N.shiftl v (N.of_nat off)) i.
Proof.
  intros mem off len v B L LEN V. unfold WriteInt25.
  destruct (load_spec LE 4 mem (off / 8) B L) as (w & LW & _). rewrite LW.
  pose proof (Nat.div_mod off 8 ltac:(lia)) as D.
  pose proof (Nat.mod_upper_bound off 8 ltac:(lia)) as U.
  unfold shl, bps. destruct (Nat.ltb_spec (off mod 8) 32); [|lia].
  set (x := (N.shiftl v (N.of_nat (off mod 8)) mod 2 ^ N.of_nat 32)%N).
  assert (X : (x < 2 ^ (8 * N.of_nat 4))%N) by (apply N.mod_lt; discriminate).
  destruct (store_spec LE 4 mem (off / 8) w x B L LW X) as (mem' & ST & B' & L' & M).
  exists mem'. split; [exact ST|]. split; [exact B'|]. split; [exact L'|].
  intros i. rewrite M. f_equal. unfold base, x. rewrite !testbit_shl, testbit_mod, testbit_shl.
  destruct (N.leb_spec (N.of_nat off) i) as [O|O]; cbn [andb].
  - destruct (N.leb_spec (N.of_nat (8 * (off / 8))) i); [|lia].
    destruct (N.leb_spec (N.of_nat (off mod 8)) (i - N.of_nat (8 * (off / 8)))); [|lia].
    cbn [andb].
    replace (i - N.of_nat (8 * (off / 8)) - N.of_nat (off mod 8))%N with (i - N.of_nat off)%N by lia.
    destruct (N.ltb_spec (i - N.of_nat (8 * (off / 8))) (N.of_nat 32)); cbn [andb]; [reflexivity|].
    symmetry. apply (testbit_small v _ _ V). lia.
  - destruct (N.leb_spec (N.of_nat (8 * (off / 8))) i); [|reflexivity].
    destruct (N.leb_spec (N.of_nat (off mod 8)) (i - N.of_nat (8 * (off / 8)))); [lia|].
    apply andb_false_r.
Qed.

Lemma read25_spec : forall mem off len, isbytes mem -> off / 8 + 4 <= length mem -> len <= 25 ->
  exists x, ReadInt25 LE mem off len (N.ones (N.of_nat len)) = Some x /\
   forall i, N.testbit x i =
     (i <? N.of_nat len)%N && N.testbit (num LE mem) (i + N.of_nat off).
Proof.
  intros mem off len B L LEN. unfold ReadInt25.
  destruct (load_spec LE 4 mem (off / 8) B L) as (w & -> & W).
  pose proof (Nat.div_mod off 8 ltac:(lia)) as D.
  pose proof (Nat.mod_upper_bound off 8 ltac:(lia)) as U.
  unfold shr, bps. destruct (Nat.ltb_spec (off mod 8) 32); [|lia].
  eexists. split; [reflexivity|]. intros i. rewrite N.land_spec, testbit_shr, W. unfold base.
  destruct (N.ltb_spec i (N.of_nat len)).
  - rewrite N.ones_spec_low by assumption. rewrite andb_true_r.
    destruct (N.ltb_spec (i + N.of_nat (off mod 8)) (8 * N.of_nat 4)); [|lia].
    cbn [andb]. f_equal. lia.
  - rewrite N.ones_spec_high by assumption. apply andb_false_r.
Qed.

(** * Sequences of writes *)

(** The bits a field contributes. *)
Definition payload (f : nat * kind * N) : N :=
  let '(_, k, v) := f in match k with Float31 => N.land v (2 ^ 31 - 1) | _ => v end.
Definition pos (e : endian) (size : nat) (f : nat * kind * N) : nat :=
  let '(off, k, _) := f in fpos e size off (width k).

Lemma payload_small : forall size f, field_ok size f ->
  (payload f < 2 ^ N.of_nat (width (snd (fst f))))%N.
Proof.
  intros size [[off k] v] [_ H]. cbn [payload fst snd]. destruct k; cbn [width]; try tauto.
  change (2 ^ 31 - 1)%N with (N.ones 31). rewrite N.land_ones. apply N.mod_lt. discriminate.
Qed.

Lemma be_len : forall e off len v, (e = BE -> be_ok (off, Int57 len, v)) -> e = BE -> 1 <= len.
Proof. intros e off len v H E. specialize (H E). destruct len; [destruct H|lia]. Qed.

Lemma write_spec : forall e mem f, isbytes mem -> field_ok (length mem) f ->
  (e = BE -> be_ok f) ->
  exists mem', write e mem f = Some mem' /\ isbytes mem' /\ length mem' = length mem /\
   forall i, N.testbit (num e mem') i =
     N.testbit (num e mem) i || N.testbit (N.shiftl (payload f) (N.of_nat (pos e (length mem) f))) i.
Proof.
  intros e mem [[off k] v] B OK NB.
  pose proof (payload_small _ _ OK) as P. destruct OK as [L K].
  cbn [write payload pos fst snd] in *. destruct k; cbn [width access] in *.
  - apply write57_spec; try tauto. exact (be_len _ _ _ _ NB).
  - destruct e; [|destruct (NB eq_refl)].
    apply write25_spec; tauto.
  - apply write57_spec; [exact B|exact L|lia|lia|exact P].
  - apply write57_spec; [exact B|exact L|lia|lia|exact P].
Qed.

Lemma read_spec : forall e mem f, isbytes mem -> field_ok (length mem) f ->
  (e = BE -> be_ok f) ->
  (forall i, (i < N.of_nat (width (snd (fst f))))%N ->
     N.testbit (num e mem) (i + N.of_nat (pos e (length mem) f)) = N.testbit (payload f) i) ->
  read e mem (fst (fst f)) (snd (fst f)) = Some (expected f).
Proof.
  intros e mem [[off k] v] B OK NB HB.
  pose proof (payload_small _ _ OK) as P. destruct OK as [L K].
  cbn [payload pos fst snd expected] in *. destruct k; cbn [width access read] in *.
  - rewrite mask_ok by lia.
    destruct (read57_spec e mem off len B L ltac:(tauto) (be_len _ _ _ _ NB)) as (x & -> & X). f_equal.
    apply N.bits_inj. intros i. rewrite X. destruct (N.ltb_spec i (N.of_nat len)).
    + apply HB. assumption.
    + symmetry. exact (testbit_small v _ i P H).
  - rewrite mask_ok by lia. destruct e; [|destruct (NB eq_refl)].
    destruct (read25_spec mem off len B L ltac:(tauto)) as (x & -> & X). f_equal.
    apply N.bits_inj. intros i. rewrite X. destruct (N.ltb_spec i (N.of_nat len)).
    + apply HB. assumption.
    + symmetry. exact (testbit_small v _ i P H).
  - destruct (readf32_spec e mem off B L) as (x & -> & X). f_equal.
    apply N.bits_inj. intros i. rewrite X. destruct (N.ltb_spec i 32).
    + apply HB. assumption.
    + symmetry. exact (testbit_small v _ i P H).
  - destruct (readf31_spec e mem off B L) as (x & -> & X). f_equal.
    apply N.bits_inj. intros i. rewrite X, N.lor_spec, testbit_sign.
    destruct (N.ltb_spec i 31); cbn [andb].
    + rewrite HB by assumption. change (2 ^ 31 - 1)%N with (N.ones 31).
      rewrite N.land_ones, testbit_mod. destruct (N.ltb_spec i 31); [reflexivity|lia].
    + destruct (N.eqb_spec i 31); cbn [orb]; [rewrite orb_true_r; reflexivity|].
      rewrite orb_false_r. symmetry. apply (testbit_small v _ i K). lia.
Qed.

Lemma write_all_spec : forall e fs mem, isbytes mem -> Forall (field_ok (length mem)) fs ->
  (e = BE -> Forall (fun f => be_ok f) fs) ->
  exists mem', write_all e mem fs = Some mem' /\ isbytes mem' /\ length mem' = length mem /\
   forall i, N.testbit (num e mem') i =
     N.testbit (num e mem) i ||
     existsb (fun f => N.testbit (N.shiftl (payload f) (N.of_nat (pos e (length mem) f))) i) fs.
Proof.
  intros e fs. induction fs as [|f r IH]; intros mem B OK NB; cbn [write_all existsb].
  { exists mem. repeat split; auto. intros. rewrite orb_false_r. reflexivity. }
  inversion OK; subst.
  destruct (write_spec e mem f B H1) as (m1 & -> & B1 & L1 & M1).
  { intros E. specialize (NB E). inversion NB; assumption. }
  destruct (IH m1 B1) as (m2 & -> & B2 & L2 & M2).
  { rewrite L1. assumption. }
  { intros E. specialize (NB E). inversion NB; assumption. }
  exists m2. split; [reflexivity|]. split; [exact B2|]. split; [congruence|].
  intros i. rewrite M2, M1, L1, orb_assoc. reflexivity.
Qed.

Lemma field_in : forall size f, field_ok size f ->
  fst (fst f) + width (snd (fst f)) <= 8 * size.
Proof.
  intros size [[off k] v] [L K]. cbn [fst snd].
  pose proof (Nat.div_mod off 8 ltac:(lia)) as D.
  pose proof (Nat.mod_upper_bound off 8 ltac:(lia)) as U.
  destruct k; cbn [width access] in *; lia.
Qed.

(** Disjoint fields stay out of each other's bits. *)
Lemma disjoint_bits : forall e size f g i, field_ok size f -> field_ok size g -> disjoint f g ->
  (i < N.of_nat (width (snd (fst f))))%N ->
  N.testbit (N.shiftl (payload g) (N.of_nat (pos e size g))) (i + N.of_nat (pos e size f)) = false.
Proof.
  intros e size f g i F G D I.
  pose proof (payload_small _ _ G) as P.
  pose proof (field_in _ _ F) as IF. pose proof (field_in _ _ G) as IG.
  rewrite testbit_shl.
  destruct (N.leb_spec (N.of_nat (pos e size g)) (i + N.of_nat (pos e size f))) as [C|C]; [|reflexivity].
  cbn [andb]. apply (testbit_small _ _ _ P).
  destruct f as [[o1 k1] v1], g as [[o2 k2] v2]. cbn [disjoint pos fst snd] in *.
  unfold fpos in *. destruct e; lia.
Qed.

Lemma payload_bits : forall e size f i,
  N.testbit (N.shiftl (payload f) (N.of_nat (pos e size f))) (i + N.of_nat (pos e size f))
  = N.testbit (payload f) i.
Proof.
  intros. rewrite testbit_shl.
  destruct (N.leb_spec (N.of_nat (pos e size f)) (i + N.of_nat (pos e size f))); [|lia].
  cbn [andb]. f_equal. lia.
Qed.

Lemma pairwise_in : forall (A : Type) (R : A -> A -> Prop) l x y,
  (forall a b, R a b -> R b a) -> pairwise R l -> In x l -> In y l -> x = y \/ R x y.
Proof.
  intros A R l x y S. induction l as [|a r IH]; cbn; [tauto|].
  intros [F P] [->|X] [->|Y].
  - left. reflexivity.
  - right. rewrite Forall_forall in F. apply F, Y.
  - right. rewrite Forall_forall in F. apply S, F, X.
  - apply IH; assumption.
Qed.

Lemma disjoint_sym : forall f g, disjoint f g -> disjoint g f.
Proof. intros [[? ?] ?] [[? ?] ?]. unfold disjoint. tauto. Qed.

Lemma zero_bytes : forall n, isbytes (repeat 0%N n).
Proof. induction n; cbn; constructor; [reflexivity|assumption]. Qed.

Lemma dec_zero : forall n, dec (repeat 0%N n) = 0%N.
Proof. induction n; cbn; [|rewrite IHn]; reflexivity. Qed.

Lemma rev_repeat : forall n, rev (repeat 0%N n) = repeat 0%N n.
Proof.
  induction n; cbn [repeat rev]; [reflexivity|].
  rewrite IHn. symmetry. apply repeat_cons.
Qed.

Lemma num_zero : forall e n, num e (repeat 0%N n) = 0%N.
Proof. intros. unfold num. destruct e; rewrite ?rev_repeat; apply dec_zero. Qed.

Lemma pack_roundtrip : forall e size fs,
  Forall (field_ok size) fs -> pairwise disjoint fs ->
  (e = BE -> Forall (fun f => be_ok f) fs) ->
  exists mem, write_all e (repeat 0%N size) fs = Some mem /\ length mem = size /\
    forall off k v, In (off, k, v) fs -> read e mem off k = Some (expected (off, k, v)).
Proof.
  intros e size fs OK D NB.
  assert (LZ : length (repeat 0%N size) = size) by apply repeat_length.
  destruct (write_all_spec e fs (repeat 0%N size) (zero_bytes size)) as (mem & W & B & L & M).
  { rewrite LZ. exact OK. }
  { exact NB. }
  exists mem. split; [exact W|]. split; [congruence|].
  intros off k v I.
  pose proof (proj1 (Forall_forall _ _) OK _ I) as OKf.
  refine (read_spec e mem (off, k, v) B _ _ _).
  - rewrite L, LZ. exact OKf.
  - intros E. exact (proj1 (Forall_forall _ _) (NB E) _ I).
  - intros i Hi. rewrite M, num_zero, N.bits_0. cbn [orb]. rewrite L, LZ.
    rewrite <- (payload_bits e size (off, k, v) i).
    set (f := (off, k, v)) in *.
    set (b := N.testbit (N.shiftl (payload f) (N.of_nat (pos e size f))) (i + N.of_nat (pos e size f))).
    destruct b eqn:Eb.
    + apply existsb_exists. exists f. split; [exact I|exact Eb].
    + apply Bool.not_true_iff_false. intros X. apply existsb_exists in X as (g & G & X).
      destruct (pairwise_in _ _ fs f g disjoint_sym D I G) as [<-|DD].
      * unfold b in Eb. congruence.
      * pose proof (disjoint_bits e size f g i OKf (proj1 (Forall_forall _ _) OK _ G) DD Hi). congruence.
Qed.

(** Writing to memory that already holds other fields leaves every bit outside
    the field as it was, even when the field itself was not clear. *)
Lemma write_frame : forall e mem f, isbytes mem -> field_ok (length mem) f ->
  (e = BE -> be_ok f) ->
  exists mem', write e mem f = Some mem' /\ length mem' = length mem /\ isbytes mem' /\
   forall g, field_ok (length mem) g -> (e = BE -> be_ok g) -> disjoint g f ->
     read e mem' (fst (fst g)) (snd (fst g)) = read e mem (fst (fst g)) (snd (fst g)).
Proof.
  intros e mem f B OK NB.
  destruct (write_spec e mem f B OK NB) as (m & W & B' & L & M).
  exists m. split; [exact W|]. split; [exact L|]. split; [exact B'|].
  intros g G NG D.
  (* both reads see the same payload *)
  assert (H : forall i, (i < N.of_nat (width (snd (fst g))))%N ->
    N.testbit (num e m) (i + N.of_nat (pos e (length mem) g)) =
    N.testbit (num e mem) (i + N.of_nat (pos e (length mem) g))).
  { intros i I. rewrite M, (disjoint_bits e (length mem) g f i G OK D I). apply orb_false_r. }
  destruct g as [[off k] v]. cbn [fst snd pos] in *. destruct G as [GL GK].
  destruct k; cbn [read width access] in *.
  - rewrite mask_ok by lia.
    destruct (read57_spec e mem off len B ltac:(assumption) ltac:(tauto) (be_len _ _ _ _ NG)) as (x & -> & X).
    destruct (read57_spec e m off len B' ltac:(rewrite L; assumption) ltac:(tauto) (be_len _ _ _ _ NG)) as (y & -> & Y).
    f_equal. apply N.bits_inj. intros i. rewrite X, Y, L.
    destruct (N.ltb_spec i (N.of_nat len)); [apply H; assumption|reflexivity].
  - rewrite mask_ok by lia. destruct e; [|destruct (NG eq_refl)].
    destruct (read25_spec mem off len B ltac:(assumption) ltac:(tauto)) as (x & -> & X).
    destruct (read25_spec m off len B' ltac:(rewrite L; assumption) ltac:(tauto)) as (y & -> & Y).
    f_equal. apply N.bits_inj. intros i. rewrite X, Y.
    destruct (N.ltb_spec i (N.of_nat len)); [apply H; assumption|reflexivity].
  - destruct (readf32_spec e mem off B ltac:(assumption)) as (x & -> & X).
    destruct (readf32_spec e m off B' ltac:(rewrite L; assumption)) as (y & -> & Y).
    f_equal. apply N.bits_inj. intros i. rewrite X, Y, L.
    destruct (N.ltb_spec i 32); [apply H; assumption|reflexivity].
  - destruct (readf31_spec e mem off B ltac:(assumption)) as (x & -> & X).
    destruct (readf31_spec e m off B' ltac:(rewrite L; assumption)) as (y & -> & Y).
    f_equal. apply N.bits_inj. intros i. rewrite X, Y, L.
    destruct (N.ltb_spec i 31); [rewrite H by assumption|]; reflexivity.
Qed.

(** On a big-endian machine every 25-bit access shifts a 32-bit word by at
    least 32. *)
Lemma be_int25_undefined : forall mem off len v mask, len <= 25 ->
  WriteInt25 BE mem off len v = None /\ ReadInt25 BE mem off len mask = None.
Proof.
  intros mem off len v mask L. unfold WriteInt25, ReadInt25, shl, shr, bps.
  pose proof (Nat.mod_upper_bound off 8 ltac:(lia)) as U.
  assert (S : (Z.to_nat ((64 - Z.of_nat len - Z.of_nat (off mod 8)) mod 256) <? 32) = false).
  { apply Nat.ltb_ge. rewrite Z.mod_small; lia. }
  rewrite S. destruct (load BE 4 mem (off / 8)); split; reflexivity.
Qed.

(** * RequiredBits *)
Lemma req_loop_spec : forall fuel v r, (0 < v)%N -> (v < 2 ^ N.of_nat (S fuel))%N ->
  req_loop fuel v r = r + N.to_nat (N.log2 v).
Proof.
  induction fuel as [|f IH]; intros v r P B; cbn [req_loop].
  { assert (v = 1)%N as -> by (change (2 ^ N.of_nat 1)%N with 2%N in B; lia). cbn. lia. }
  rewrite N.shiftr_div_pow2. change (2 ^ 1)%N with 2%N.
  destruct (N.eqb_spec (v / 2) 0) as [Z|NZ].
  - assert (v = 1)%N as -> by lia. cbn. lia.
  - rewrite IH.
    + assert (E : N.log2 v = N.succ (N.log2 (v / 2))).
      { rewrite <- N.div2_div. rewrite N.div2_spec, N.log2_shiftr.
        assert (0 < N.log2 v)%N by (apply N.log2_pos; lia). lia. }
      lia.
    + lia.
    + rewrite Nat2N.inj_succ, N.pow_succ_r' in B. apply N.div_lt_upper_bound; lia.
Qed.

Lemma RequiredBits_spec : forall max, (max < 2 ^ 64)%N ->
  RequiredBits max = N.to_nat (N.size max).
Proof.
  intros max B. unfold RequiredBits. destruct (N.eqb_spec max 0) as [->|N0]; [reflexivity|].
  rewrite req_loop_spec.
  - rewrite N.size_log2 by exact N0. lia.
  - lia.
  - eapply N.lt_trans; [exact B|]. reflexivity.
Qed.

Lemma RequiredBits_least : forall max b, (max < 2 ^ 64)%N ->
  (RequiredBits max <= b <-> (forall v, (v <= max)%N -> (v < 2 ^ N.of_nat b)%N)).
Proof.
  intros max b B. rewrite RequiredBits_spec by exact B. split.
  - intros L v V. apply N.le_lt_trans with max; [exact V|].
    apply N.lt_le_trans with (2 ^ N.size max)%N; [apply N.size_gt|].
    apply N.pow_le_mono_r; lia.
  - intros H. specialize (H max (N.le_refl _)).
    destruct (N.eq_dec max 0) as [->|N0]; [cbn; lia|].
    rewrite N.size_log2 by exact N0.
    apply N.log2_lt_pow2 in H; lia.
Qed.

Lemma FromMax_spec : forall max, (max < 2 ^ 63)%N ->
  exists b, FromMax max = Some (b, N.ones (N.of_nat b)) /\
    forall v, (v <= max)%N -> (v < 2 ^ N.of_nat b)%N /\ N.land v (N.ones (N.of_nat b)) = v.
Proof.
  intros max B. assert (B64 : (max < 2 ^ 64)%N) by (eapply N.lt_trans; [exact B|reflexivity]).
  exists (RequiredBits max). unfold FromMax.
  assert (L : RequiredBits max <= 63).
  { apply RequiredBits_least; [exact B64|]. intros v V. change (N.of_nat 63) with 63%N. lia. }
  rewrite mask_ok by lia. split; [reflexivity|].
  intros v V.
  pose proof (proj1 (RequiredBits_least max _ B64) (le_n _) v V) as K.
  split; [exact K|]. rewrite N.land_ones. apply N.mod_small, K.
Qed.

Lemma FromMax_undefined : forall max, (2 ^ 63 <= max < 2 ^ 64)%N -> FromMax max = None.
Proof.
  intros max [L U]. unfold FromMax, mask_of.
  destruct (Nat.ltb_spec (RequiredBits max) 64) as [H|H]; [|reflexivity].
  assert (RequiredBits max <= 63) as K by lia.
  pose proof (proj1 (RequiredBits_least max 63 U) K max (N.le_refl _)) as X.
  change (N.of_nat 63) with 63%N in X. lia.
Qed.
