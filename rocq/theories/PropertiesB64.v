(** C06: base64 (utils/b64tools.cc). *)
From Coq Require Import List Arith NArith.
From Verif Require Import B64 B64Proofs.
Import ListNotations.
Open Scope N_scope.

(** The encoding has four characters per started group of three bytes. *)
Theorem C06_encoded_length : forall bs, length (b64encode bs) = ((length bs + 2) / 3 * 4)%nat.
Proof. exact encode_length. Qed.
Print Assumptions C06_encoded_length.

(** Decoding succeeds and returns the bytes whenever the length is not 2 mod 3. *)
Theorem C06_roundtrip_partial : forall bs outsize,
  Forall byte_ok bs -> (length bs mod 3 <> 2)%nat ->
  N.of_nat ((length bs + 2) / 3 * 3) <= outsize ->
  exists out, b64decode (b64encode bs) 0 outsize = DOk out /\ firstn (length bs) out = bs.
Proof. exact roundtrip. Qed.
Print Assumptions C06_roundtrip_partial.

(** When the length is 2 mod 3 the round trip succeeds exactly when the low four
    bits of the last byte are zero. *)
Theorem C06_roundtrip_two_mod_three : forall bs outsize,
  Forall byte_ok bs -> (length bs mod 3 = 2)%nat ->
  N.of_nat ((length bs + 2) / 3 * 3) <= outsize ->
  exists out, b64decode (b64encode bs) 0 outsize = DOk out /\
     (firstn (length bs) out = bs <-> (last bs 0) mod 16 = 0).
Proof. exact roundtrip_iff. Qed.
Print Assumptions C06_roundtrip_two_mod_three.

(** The full claim is false of the code. *)
Theorem C06_roundtrip_refuted : exists bs out,
  Forall byte_ok bs /\ b64decode (b64encode bs) 0 3 = DOk out /\ firstn (length bs) out <> bs.
Proof. exact roundtrip_false. Qed.
Print Assumptions C06_roundtrip_refuted.

Example C06_example : b64decode (b64encode [77; 97; 110; 33]) 0 6 = DOk [77; 97; 110; 33; 0; 0].
Proof. vm_compute. reflexivity. Qed.
Example C06_example_bad : b64decode (b64encode [72; 105]) 0 3 = DOk [72; 96; 0].
Proof. vm_compute. reflexivity. Qed.
