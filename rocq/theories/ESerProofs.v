From Coq Require Import List Arith ZArith NArith QArith Bool Lia ZifyN ZifyNat.
From Verif Require Import B64 B64Proofs ESer.
Import ListNotations.
Open Scope N_scope.
Ltac Zify.zify_post_hook ::= Z.div_mod_to_equations.

Lemma size_bound : forall n, n < 2 ^ N.of_nat (N.size_nat n).
Proof.
  intros [|p]; [reflexivity|]. cbn [N.size_nat]. induction p as [p IH|p IH|]; cbn [Pos.size_nat]; try reflexivity; rewrite Nat2N.inj_succ, N.pow_succ_r' by lia; [change (N.pos p~1) with (2 * N.pos p + 1)|change (N.pos p~0) with (2 * N.pos p)]; lia.
Qed.
Lemma digits_fuel : forall n, n < 10 ^ N.of_nat (S (N.size_nat n)).
Proof.
  intros n. pose proof (size_bound n) as B. eapply N.lt_le_trans; [exact B|]. rewrite Nat2N.inj_succ, N.pow_succ_r'. transitivity (10 ^ N.of_nat (N.size_nat n)); [apply N.pow_le_mono_l; lia|]. lia.
Qed.
Lemma digit_ok : forall d, d < 10 -> digit (48 + d) = true.
Proof. intros d H. unfold digit. apply andb_true_iff. split; apply N.leb_le; lia. Qed.
Lemma take_dec : forall f n rest k, n < 10 ^ N.of_nat f -> take_digits (dec f n ++ rest) 0 k = take_digits rest n (k + length (dec f n)) /\ (f <> O -> dec f n <> []) /\ Forall (fun c => 48 <= c <= 57) (dec f n).
Proof.
  induction f as [|f IH]; intros n rest k B; cbn [dec].
  - change (10 ^ N.of_nat 0) with 1 in B. assert (n = 0) as -> by lia. cbn. rewrite Nat.add_0_r. split; [reflexivity|]. split; [congruence|constructor].
  - rewrite Nat2N.inj_succ, N.pow_succ_r' in B. destruct (N.ltb_spec n 10) as [L|L].
    + cbn [app take_digits length]. rewrite digit_ok by exact L. replace (10 * 0 + (48 + n - 48)) with n by lia. rewrite Nat.add_1_r. split; [reflexivity|]. split; [discriminate|]. constructor; [lia|constructor].
    + destruct (IH (n / 10) ([48 + n mod 10] ++ rest) k) as (E & _ & F); [lia|]. rewrite <- app_assoc, E. cbn [app take_digits]. rewrite digit_ok by lia. replace (10 * (n / 10) + (48 + n mod 10 - 48)) with n by lia. rewrite app_length. cbn [length].
      split; [f_equal; lia|]. split; [intros _; destruct (dec f (n / 10)); discriminate|]. apply Forall_app. split; [exact F|]. constructor; [lia|constructor].
Qed.
Lemma dec_length : forall k f n, n < 10 ^ N.of_nat k -> (length (dec f n) <= max 1 k)%nat.
Proof.
  induction k as [|k IH]; intros f n B.
  - change (10 ^ N.of_nat 0) with 1 in B. assert (n = 0) as -> by lia. destruct f; cbn; lia.
  - destruct f as [|f]; cbn [dec]; [cbn; lia|]. destruct (N.ltb_spec n 10) as [L|L]; [cbn; lia|]. rewrite app_length. cbn [length]. rewrite Nat2N.inj_succ, N.pow_succ_r' in B. assert (n / 10 < 10 ^ N.of_nat k) by lia. 
    destruct k as [|k]; [change (10 ^ N.of_nat 0) with 1 in *; lia|]. pose proof (IH f (n / 10) H). lia.
Qed.

Definition stop (rest : list N) : Prop := rest = [] \/ exists r, rest = 32 :: r.
Lemma stop_digits : forall rest a k, stop rest -> take_digits rest a k = (a, k, rest).
Proof. intros rest a k [-> |(r & ->)]; reflexivity. Qed.
Lemma print_digits : forall z, (Z.abs z < 1000000)%Z -> exists n, print_float z = (if (z <? 0)%Z then [45] else []) ++ digits n /\ Z.of_N n = Z.abs z.
Proof.
  intros z B. unfold print_float, print_nat. destruct (Z.ltb_spec z 0).
  - exists (Z.to_N (- z)). destruct (N.ltb_spec (Z.to_N (- z)) 1000000) as [L|L]; [|lia]. split; [reflexivity|lia].
  - exists (Z.to_N z). destruct (N.ltb_spec (Z.to_N z) 1000000) as [L|L]; [|lia]. split; [reflexivity|lia].
Qed.
Lemma digits_first : forall n, exists c r, digits n = c :: r /\ 48 <= c <= 57 /\ Forall (fun c => 48 <= c <= 57) r.
Proof.
  intros n. destruct (take_dec (S (N.size_nat n)) n [] 0 (digits_fuel n)) as (_ & NE & F). unfold digits. destruct (dec (S (N.size_nat n)) n) as [|c r]; [destruct NE; [discriminate|reflexivity]|]. inversion F; subst. exists c, r. auto.
Qed.
Lemma read_print : forall z rest, (Z.abs z < 1000000)%Z -> stop rest -> read_float (32 :: print_float z ++ rest) = Some (inject_Z z, rest).
Proof.
  intros z rest B ST. destruct (print_digits z B) as (n & -> & AN). unfold read_float. change (skip_ws (32 :: ?x)) with (skip_ws x).
  destruct (digits_first n) as (c & r & DG & CR & _).
  assert (SK : skip_ws (((if (z <? 0)%Z then [45] else []) ++ digits n) ++ rest) = ((if (z <? 0)%Z then [45] else []) ++ digits n) ++ rest).
  { destruct (z <? 0)%Z; [reflexivity|]. rewrite DG. cbn [app skip_ws]. unfold space. destruct (N.eqb_spec c 32); [lia|]. destruct (N.leb_spec 9 c); [|lia]. destruct (N.leb_spec c 13); [lia|]. reflexivity. }
  change (skip_ws (32 :: (((if (z <? 0)%Z then [45] else []) ++ digits n) ++ rest))) with (skip_ws (((if (z <? 0)%Z then [45] else []) ++ digits n) ++ rest)). rewrite SK.
  assert (SG : take_sign (((if (z <? 0)%Z then [45] else []) ++ digits n) ++ rest) = ((z <? 0)%Z, digits n ++ rest)).
  { destruct (z <? 0)%Z; [reflexivity|]. rewrite DG. cbn [app]. unfold take_sign. repeat match goal with |- context [match ?x with N0 => _ | _ => _ end] => is_var x; destruct x; try lia; try reflexivity | |- context [match ?x with xI _ => _ | _ => _ end] => is_var x; destruct x; try lia; try reflexivity end. }
  rewrite SG. destruct (take_dec (S (N.size_nat n)) n rest 0 (digits_fuel n)) as (E & NE & _). fold (digits n) in E, NE. rewrite E, stop_digits by exact ST. cbn [Nat.add].
  assert (LD : (length (digits n) <> 0)%nat) by (rewrite DG; discriminate).
  assert (M : match rest with 46 :: r0 => take_digits r0 n 0 | _ => (n, O, rest) end = (n, O, rest)) by (destruct ST as [-> |(r0 & ->)]; reflexivity).
  rewrite M. rewrite Nat.add_0_r. destruct (Nat.eqb_spec (length (digits n)) 0) as [X|_]; [contradiction|].
  assert (V : (inject_Z (if (z <? 0)%Z then - Z.of_N n else Z.of_N n) * p10 (0 - Z.of_nat 0))%Q = inject_Z z).
  { assert ((if (z <? 0)%Z then - Z.of_N n else Z.of_N n)%Z = z) as -> by (destruct (Z.ltb_spec z 0); lia). unfold inject_Z, p10, Qmult. cbn. f_equal. lia. }
  rewrite V. destruct ST as [-> |(r0 & ->)]; reflexivity.
Qed.
Lemma print_len : forall z, (Z.abs z < 1000000)%Z -> (1 <= length (print_float z) <= 7)%nat.
Proof.
  intros z B. destruct (print_digits z B) as (n & -> & AN). rewrite app_length. assert (L : (length (digits n) <= 6)%nat) by (apply (dec_length 6 (S (N.size_nat n)) n); change (10 ^ N.of_nat 6) with 1000000; lia).
  destruct (digits_first n) as (c & r & DG & _). rewrite DG in *. destruct (z <? 0)%Z; cbn [length] in *; lia.
Qed.
Definition body (fs : list Z) : list N := concat (map (fun z => 32 :: print_float z) fs).
Lemma body_stop : forall fs, stop (body fs).
Proof. intros [|z fs]; [left; reflexivity|right]. cbn. eauto. Qed.
Lemma read_body : forall fs fuel, Forall (fun z => (Z.abs z < 1000000)%Z) fs -> (length fs <= fuel)%nat -> read_floats fuel (body fs) = map inject_Z fs.
Proof.
  induction fs as [|z fs IH]; intros fuel B L; [destruct fuel; reflexivity|]. inversion B; subst. destruct fuel as [|fuel]; [cbn in L; lia|]. unfold body. cbn [map concat app]. fold (body fs). cbn [read_floats]. rewrite read_print by (try assumption; apply body_stop). f_equal. apply IH; [assumption|cbn in L; lia].
Qed.
Lemma body_length : forall fs, Forall (fun z => (Z.abs z < 1000000)%Z) fs -> (length fs <= length (body fs) <= 8 * length fs)%nat.
Proof.
  induction 1 as [|z fs B F IH]; [cbn; lia|]. unfold body in *. cbn [map concat]. rewrite app_length. cbn [length]. pose proof (print_len z B). lia.
Qed.
Lemma token_spec : forall t rest, Forall (fun c => space c = false) t -> stop rest -> token (t ++ rest) = (t, rest).
Proof.
  intros t rest F ST. induction F as [|c t C F IH]; cbn [app token]; [destruct ST as [-> |(r & ->)]; reflexivity|]. rewrite C, IH. reflexivity.
Qed.

(** A statistic and a segment which survive. *)
Record stat_ok (s : istats) : Prop := {
  so_id : iid s <> [] /\ Forall (fun c => space c = false) (iid s);
  so_fields : Forall (fun z => (Z.abs z < 1000000)%Z) (ifields s);
  so_size : (length (iid s) + 8 * length (ifields s) < 256)%nat
}.
Definition read_back (s : iseg) : rseg := {| rx := ix s; rdelta := {| rid := iid (idelta s); rfields := map inject_Z (ifields (idelta s)) |} |}.
Lemma encode_spec : forall s, stat_ok s -> Encode s = iid s ++ body (ifields s) /\ (length (Encode s) < 256)%nat /\ Parse (Encode s) = {| rid := iid s; rfields := map inject_Z (ifields s) |}.
Proof.
  intros s [(I1 & I2) F SZ]. assert (E : Encode s = iid s ++ body (ifields s)) by (unfold Encode; destruct (iid s); [congruence|reflexivity]). split; [exact E|]. pose proof (body_length _ F) as BL. split; [rewrite E, app_length; lia|].
  rewrite E. unfold Parse. assert (SK : skip_ws (iid s ++ body (ifields s)) = iid s ++ body (ifields s)) by (destruct (iid s) as [|c t]; [congruence|]; inversion I2; subst; cbn [app skip_ws]; rewrite H1; reflexivity).
  rewrite SK, (token_spec _ _ I2 (body_stop _)). destruct (iid s) as [|c t] eqn:EI; [congruence|]. f_equal. apply read_body; [exact F|lia].
Qed.
Lemma int_roundtrip : forall n, n < 2147483648 -> int_value (int_bytes n) = Some n.
Proof. intros n B. unfold int_value, int_bytes. f_equal. lia. Qed.

Definition seg_ok (s : iseg) : Prop := length (ix s) = 8%nat /\ stat_ok (idelta s).
Lemma read_app : forall a b, read (length a) (a ++ b) = Some (a, b).
Proof. intros. unfold read. rewrite app_length. destruct (Nat.leb_spec (length a) (length a + length b)); [|lia]. rewrite firstn_app, firstn_all, Nat.sub_diag, skipn_app, skipn_all, Nat.sub_diag. cbn. rewrite app_nil_r. reflexivity. Qed.
Lemma segs_roundtrip : forall l, Forall seg_ok l -> exists s, ser_segs l = Some s /\ forall extra, deser_segs (length l) (s ++ extra) = Some (map read_back l).
Proof.
  induction 1 as [|sg l (LX & OK) F (s & R & D)]; [exists []; split; reflexivity|]. cbn [ser_segs]. destruct (encode_spec _ OK) as (E & LN & PA). set (senc := Encode (idelta sg)) in *.
  destruct (Nat.ltb_spec (length senc) 1024) as [_|X]; [|lia]. rewrite R. rewrite N.mod_small by lia. rewrite Nat2N.id, firstn_all. eexists. split; [reflexivity|]. intros extra. cbn [length deser_segs map].
  rewrite <- !app_assoc. rewrite <- LX, read_app. cbn [app]. rewrite Nat2N.id. rewrite read_app. rewrite D, PA. reflexivity.
Qed.
Lemma serialize_roundtrip_extra : forall l, Forall seg_ok l -> N.of_nat (length l) < 2147483648 -> exists s, Serialize l = Some s /\ forall extra, Deserialize (s ++ extra) = Some (map read_back l).
Proof.
  intros l F B. destruct (segs_roundtrip l F) as (s & R & D). unfold Serialize. rewrite R. eexists. split; [reflexivity|]. intros extra. unfold Deserialize. rewrite <- app_assoc. set (ib := int_bytes (N.of_nat (length l))). 
  change 4%nat with (length ib). rewrite read_app. unfold ib. rewrite int_roundtrip by exact B. destruct (N.ltb_spec (N.of_nat (length l)) 2147483648); [|lia]. rewrite Nat2N.id. apply D.
Qed.
Theorem serialize_roundtrip : forall l, Forall seg_ok l -> N.of_nat (length l) < 2147483648 -> exists s, Serialize l = Some s /\ Deserialize s = Some (map read_back l).
Proof. intros l F B. destruct (serialize_roundtrip_extra l F B) as (s & R & D). exists s. split; [exact R|]. rewrite <- (D []), app_nil_r. reflexivity. Qed.

Definition bytes (l : list N) : Prop := Forall (fun c => c < 256) l.
Lemma body_bytes : forall fs, Forall (fun z => (Z.abs z < 1000000)%Z) fs -> bytes (body fs).
Proof.
  induction 1 as [|z fs B F IH]; [constructor|]. unfold body in *. cbn [map concat]. apply Forall_app. split; [|exact IH]. constructor; [lia|]. destruct (print_digits z B) as (n & -> & _). destruct (digits_first n) as (c & r & -> & C & R).
  apply Forall_app. split; [destruct (z <? 0)%Z; repeat constructor|]. constructor; [lia|]. eapply Forall_impl; [|exact R]. cbn. intros. lia.
Qed.
Lemma segs_bytes : forall l s, Forall seg_ok l -> Forall (fun s => bytes (ix s) /\ bytes (iid (idelta s))) l -> ser_segs l = Some s -> bytes s.
Proof.
  intros l s F. revert s. induction F as [|sg l (LX & OK) F IH]; intros s G R; cbn [ser_segs] in R; [injection R as <-; constructor|]. inversion G as [|? ? (G1 & G2) G3]; subst. destruct (encode_spec _ OK) as (E & LN & _).
  destruct (length (Encode (idelta sg)) <? 1024)%nat; [|discriminate]. destruct (ser_segs l) as [t|] eqn:RT; [|discriminate]. injection R as <-. specialize (IH t G3 eq_refl).
  apply Forall_app. split; [exact G1|]. constructor; [lia|]. apply Forall_app. split; [|exact IH]. rewrite N.mod_small by lia. rewrite Nat2N.id, firstn_all, E. apply Forall_app. split; [exact G2|]. apply body_bytes. apply OK.
Qed.
Theorem transport_roundtrip : forall l s, Forall seg_ok l -> N.of_nat (length l) < 2147483648 -> Forall (fun s => bytes (ix s) /\ bytes (iid (idelta s))) l ->
  Serialize l = Some s -> (length s mod 3 <> 2)%nat -> transport l = Some (map read_back l).
Proof.
  intros l s F B G R M. unfold transport. destruct (serialize_roundtrip_extra l F B) as (s' & R' & D). rewrite R in R'. injection R' as <-. rewrite R.
  assert (BS : Forall byte_ok s). { unfold Serialize in R. destruct (ser_segs l) as [t|] eqn:RT; [|discriminate]. injection R as <-. change (Forall byte_ok (int_bytes (N.of_nat (length l)) ++ t)). apply Forall_app. split; [|apply (segs_bytes l t F G RT)]. unfold byte_ok, int_bytes. repeat constructor; lia. }
  rewrite encode_length. replace ((length s + 2) / 3 * 4 / 4)%nat with ((length s + 2) / 3)%nat by (rewrite Nat.div_mul by discriminate; reflexivity).
  destruct (roundtrip s (N.of_nat ((length s + 2) / 3 * 3)) BS M (N.le_refl _)) as (out & -> & FO).
  rewrite <- (firstn_skipn (length s) out), FO. apply D.
Qed.
