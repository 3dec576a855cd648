(** C40: error surfaces on their way from the mappers to the reducer. *)
From Coq Require Import List Arith ZArith NArith QArith Bool.
From Verif Require Import B64 ESer ESerProofs.
Import ListNotations.
Open Scope N_scope.

(** Serialising and reading back. *)
Theorem C40_roundtrip : forall l,
  Forall (fun s => length (ix s) = 8%nat /\ iid (idelta s) <> [] /\ Forall (fun c => space c = false) (iid (idelta s)) /\
    Forall (fun z => (Z.abs z < 1000000)%Z) (ifields (idelta s)) /\ (length (iid (idelta s)) + 8 * length (ifields (idelta s)) < 256)%nat) l ->
  N.of_nat (length l) < 2147483648 ->
  exists s, Serialize l = Some s /\
    Deserialize s = Some (map (fun s => {| rx := ix s; rdelta := {| rid := iid (idelta s); rfields := map inject_Z (ifields (idelta s)) |} |}) l).
Proof.
  exact (fun l F B => serialize_roundtrip l (Forall_impl seg_ok (fun s H => match H with conj A (conj B (conj C (conj D E))) => conj A {| so_id := conj B C; so_fields := D; so_size := E |} end) F) B).
Qed.
Print Assumptions C40_roundtrip.

(** Through base64, from mapper to reducer. *)
Theorem C40_transport : forall l s,
  Forall (fun s => length (ix s) = 8%nat /\ iid (idelta s) <> [] /\ Forall (fun c => space c = false) (iid (idelta s)) /\
    Forall (fun z => (Z.abs z < 1000000)%Z) (ifields (idelta s)) /\ (length (iid (idelta s)) + 8 * length (ifields (idelta s)) < 256)%nat) l ->
  N.of_nat (length l) < 2147483648 ->
  Forall (fun s => Forall (fun c => c < 256) (ix s) /\ Forall (fun c => c < 256) (iid (idelta s))) l ->
  Serialize l = Some s -> (length s mod 3 <> 2)%nat ->
  transport l = Some (map (fun s => {| rx := ix s; rdelta := {| rid := iid (idelta s); rfields := map inject_Z (ifields (idelta s)) |} |}) l).
Proof.
  exact (fun l s F B => transport_roundtrip l s (Forall_impl seg_ok (fun s H => match H with conj A (conj B (conj C (conj D E))) => conj A {| so_id := conj B C; so_fields := D; so_size := E |} end) F) B).
Qed.
Print Assumptions C40_transport.

(** "IBM 3 -12", "IBM 99999". *)
Definition seg (l : list Z) : iseg := {| ix := [0; 0; 0; 0; 0; 0; 240; 63]; idelta := {| iid := [73; 66; 77]; ifields := l |} |}.
Example C40_case : option_map (map (fun s => rfields (rdelta s))) (transport [seg [3; -12]; seg [99999]]%Z) = Some [[3; -12]; [99999]]%Q.
Proof. vm_compute. reflexivity. Qed.
Example C40_case_hypotheses : exists s, Serialize [seg [3; -12]; seg [99999]]%Z = Some s /\ (length s mod 3 <> 2)%nat.
Proof. eexists. split; [vm_compute; reflexivity|vm_compute; discriminate]. Qed.

(** When the length is 2 modulo 3 the last digit arrives as 0: the reducer gets
    10 for 17. *)
Theorem C40_transport_refuted : exists l s, Serialize l = Some s /\ (length s mod 3 = 2)%nat /\
  option_map (map (fun s => rfields (rdelta s))) (transport l) = Some [[3; 4; 10]]%Q /\ map (fun s => ifields (idelta s)) l = [[3; 4; 17]]%Z.
Proof. exists [seg [3; 4; 17]%Z]. eexists. split; [vm_compute; reflexivity|]. split; [reflexivity|]. split; [vm_compute; reflexivity|reflexivity]. Qed.
Print Assumptions C40_transport_refuted.

(** The length is kept in one byte, the assertion allows 1023. *)
Theorem C40_length_refuted : exists l s, Serialize l = Some s /\ map (fun s => length (ifields (idelta s))) l = [128%nat] /\
  option_map (map (fun s => length (rfields (rdelta s)))) (Deserialize s) = Some [0%nat].
Proof. exists [seg (repeat 7%Z 128)]. eexists. split; [vm_compute; reflexivity|]. split; [reflexivity|vm_compute; reflexivity]. Qed.
Print Assumptions C40_length_refuted.

(** Six significant digits. *)
Theorem C40_million_refuted : exists l s, Serialize l = Some s /\ map (fun s => ifields (idelta s)) l = [[1234567]]%Z /\
  option_map (map (fun s => map Qred (rfields (rdelta s)))) (Deserialize s) = Some [[1234570]]%Q.
Proof. exists [seg [1234567%Z]]. eexists. split; [vm_compute; reflexivity|]. split; [reflexivity|vm_compute; reflexivity]. Qed.
Print Assumptions C40_million_refuted.
