(** C25: bit packing (klm/util/bit_packing.hh).  [field_ok], [expected],
    [disjoint], [be_ok] are the small specification at the top of
    BitPackProofs.v.  A field is (bit offset, kind, value). *)
From Coq Require Import List Arith NArith Bool Lia.
From Verif Require Import BitPack BitPackProofs.
Import ListNotations.

(** Any sequence of writes of disjoint fields of any kinds into a cleared
    buffer succeeds, and every field then reads back as written. *)
Theorem C25_pack_roundtrip : forall e size fs,
  Forall (field_ok size) fs -> pairwise disjoint fs ->
  (e = BE -> Forall be_ok fs) ->
  exists mem, write_all e (repeat 0%N size) fs = Some mem /\ length mem = size /\
    forall off k v, In (off, k, v) fs -> read e mem off k = Some (expected (off, k, v)).
Proof. exact pack_roundtrip. Qed.
Print Assumptions C25_pack_roundtrip.

(** A write into arbitrary memory changes no field disjoint from it. *)
Theorem C25_write_frame : forall e mem f,
  Forall (fun b => (b < 256)%N) mem -> field_ok (length mem) f -> (e = BE -> be_ok f) ->
  exists mem', write e mem f = Some mem' /\ length mem' = length mem /\
   Forall (fun b => (b < 256)%N) mem' /\
   forall g, field_ok (length mem) g -> (e = BE -> be_ok g) -> disjoint g f ->
     read e mem' (fst (fst g)) (snd (fst g)) = read e mem (fst (fst g)) (snd (fst g)).
Proof. exact write_frame. Qed.
Print Assumptions C25_write_frame.

(** RequiredBits is the least width that holds every value up to the maximum. *)
Theorem C25_required_bits_least : forall max b, (max < 2 ^ 64)%N ->
  (RequiredBits max <= b <-> (forall v, (v <= max)%N -> (v < 2 ^ N.of_nat b)%N)).
Proof. exact RequiredBits_least. Qed.
Print Assumptions C25_required_bits_least.

Theorem C25_mask_by_max : forall max, (max < 2 ^ 63)%N ->
  exists b, FromMax max = Some (b, N.ones (N.of_nat b)) /\
    forall v, (v <= max)%N -> (v < 2 ^ N.of_nat b)%N /\ N.land v (N.ones (N.of_nat b)) = v.
Proof. exact FromMax_spec. Qed.
Print Assumptions C25_mask_by_max.

(** Findings: masks for 64-bit maxima, and 25-bit accesses on big-endian
    machines, are undefined shifts. *)
Theorem C25_mask_by_max_large_refuted : forall max, (2 ^ 63 <= max < 2 ^ 64)%N -> FromMax max = None.
Proof. exact FromMax_undefined. Qed.
Print Assumptions C25_mask_by_max_large_refuted.

Theorem C25_big_endian_int25_refuted : forall mem off len v mask, len <= 25 ->
  WriteInt25 BE mem off len v = None /\ ReadInt25 BE mem off len mask = None.
Proof. exact be_int25_undefined. Qed.
Print Assumptions C25_big_endian_int25_refuted.

(** A concrete case: four fields of different kinds, written out of order and
    sharing bytes. *)
Definition ex_fields : list (nat * kind * N) :=
  [(3 + 57, Int25 25, 33554431%N); (3, Int57 57, 81985529216486895%N);
   (116, Float31, 1065353216%N); (85, Float31, 3221225472%N); (0, Int57 3, 5%N)].
Example C25_ex_hyp : Forall (field_ok 24) ex_fields /\ pairwise disjoint ex_fields.
Proof.
  split.
  - repeat constructor; try (cbn; lia); reflexivity.
  - unfold ex_fields. cbn [pairwise].
    repeat (split || apply Forall_cons || apply Forall_nil); cbn [disjoint width];
      first [left; apply Nat.leb_le; reflexivity | right; apply Nat.leb_le; reflexivity].
Qed.
Example C25_ex_run : option_map (fun m => map (fun f => read LE m (fst (fst f)) (snd (fst f))) ex_fields)
    (write_all LE (repeat 0%N 24) ex_fields)
  = Some [Some 33554431; Some 81985529216486895; Some 3212836864; Some 3221225472; Some 5]%N.
Proof. vm_compute. reflexivity. Qed.
