(** C03, C04, C05: FastSparseVector (utils/fast_sparse_vector.h).

    Specification vocabulary (SparseVecProofs.v): a program [p] is a list of
    commands over a store of vectors; [sexec] is the ideal semantics on finite
    maps; [run init p st] is an execution of the code's operations from empty
    vectors, with arbitrary reordering of the hash maps at any point. *)
From Coq Require Import List NArith ZArith ZArithRing Lia Ring_theory.
From Verif Require Import SparseVec SparseVecProofs.
Import ListNotations.

Section Generic.
Variable T : Type.
Variables (zero one : T) (tadd tsub tmul : T -> T -> T) (topp : T -> T).
Variable teqb : T -> T -> bool.
Hypothesis Rth : ring_theory zero one tadd tmul tsub topp eq.
Hypothesis teqb_ok : forall a b, teqb a b = true <-> a = b.
Variable LM : nat.
Hypothesis LM_ok : (1 <= LM < 255)%nat.
Notation run_from_empty := (run T zero tadd tsub tmul LM (init T zero LM)).
Notation program_ok := (prog_ok T zero tadd tsub tmul (sinit T)).
(** What the ideal map of vector [x] is after program [p]. *)
Notation ideal p x := (fold_left (sexec T zero tadd tsub tmul) p (sinit T) x).

(** Every value read is the ideal one, whatever representation was used. *)
Theorem C03_value_is_ideal : forall p st, run_from_empty p st -> program_ok p ->
  forall x k, value T zero (st x) k = Some (pget T zero (ideal p x) k).
Proof. exact (reach_value T zero one tadd tsub tmul topp Rth LM LM_ok). Qed.

(** No operation is undefined. *)
Theorem C03_no_undefined_behaviour : forall p st c, run_from_empty p st -> program_ok p ->
  scmd_ok T (fun x => ideal p x) c -> exec T zero tadd tsub tmul LM st c <> None.
Proof. exact (reach_progress T zero one tadd tsub tmul topp Rth LM LM_ok). Qed.

(** size() is the number of keys. *)
Theorem C03_size_is_key_count : forall p st, run_from_empty p st -> program_ok p ->
  forall x, exists l, NoDup l /\ (forall k, In k l <-> ideal p x k <> None) /\
            size T (st x) = length l.
Proof. exact (reach_size T zero one tadd tsub tmul topp Rth LM LM_ok). Qed.

(** dot() is the mathematical inner product (over any list of keys covering the
    support of the left vector). *)
Theorem C03_dot_is_inner_product : forall p st, run_from_empty p st -> program_ok p ->
  forall x y l, NoDup l -> (forall k, ideal p x k <> None -> In k l) ->
  dot T zero tadd tmul (st x) (st y) =
    Some (tsum T zero tadd (fun k => tmul (pget T zero (ideal p x) k) (pget T zero (ideal p y) k)) l).
Proof. exact (reach_dot T zero one tadd tsub tmul topp Rth LM LM_ok). Qed.

(** erase(k) removes exactly k when the vector is in hash form or k is stored. *)
Theorem C04_erase_partial : forall p st x k, run_from_empty p st -> program_ok p ->
  is_remote (st x) = true \/ ideal p x k <> None ->
  exists s', erase T (st x) k = Some s' /\
    forall k', value T zero s' k' = Some (if N.eqb k k' then zero else pget T zero (ideal p x) k').
Proof.
  exact (fun p st x k R O H => match H with
   | or_introl A => reach_erase_remote T zero one tadd tsub tmul topp Rth LM LM_ok p st x k R O A
   | or_intror B => reach_erase_present T zero one tadd tsub tmul topp Rth LM LM_ok p st x k R O B
   end).
Qed.

(** operator== is equality of the maps when no zero is stored explicitly. *)
Theorem C05_equality_partial : forall p st, run_from_empty p st -> program_ok p ->
  forall x y, (forall k, ideal p x k <> Some zero) -> (forall k, ideal p y k <> Some zero) ->
  exists b, fsv_eq T zero teqb (st x) (st y) = Some b /\
   (b = true <-> forall k, pget T zero (ideal p x) k = pget T zero (ideal p y) k).
Proof. exact (reach_eq T zero one tadd tsub tmul topp teqb Rth teqb_ok LM LM_ok). Qed.
End Generic.
Print Assumptions C03_value_is_ideal.
Print Assumptions C03_no_undefined_behaviour.
Print Assumptions C03_size_is_key_count.
Print Assumptions C03_dot_is_inner_product.
Print Assumptions C04_erase_partial.
Print Assumptions C05_equality_partial.

(** Integer instance with the code's LOCAL_MAX = 7 for the examples and
    counterexamples. *)
Notation zrun p := (run Z 0%Z Z.add Z.sub Z.mul 7 (init Z 0%Z 7) p).
Notation zok p := (prog_ok Z 0%Z Z.add Z.sub Z.mul (sinit Z) p).
Notation zideal p x := (fold_left (sexec Z 0%Z Z.add Z.sub Z.mul) p (sinit Z) x).

(** Erasing an absent key from a small vector loses another feature. *)
Theorem C04_erase_absent_refuted : exists p st k k' s',
  zrun p st /\ zok p /\ k <> k' /\ erase Z (st 0%nat) k = Some s' /\
  value Z 0%Z s' k' <> Some (pget Z 0%Z (zideal p 0%nat) k').
Proof. exact erase_absent_false. Qed.
Print Assumptions C04_erase_absent_refuted.

(** Erasing from an empty small vector makes the next read undefined. *)
Theorem C04_erase_empty_refuted : exists p st k s',
  zrun p st /\ zok p /\ erase Z (st 0%nat) k = Some s' /\ size Z s' = 255%nat /\
  value Z 0%Z s' 5 = None.
Proof. exact erase_empty_false. Qed.
Print Assumptions C04_erase_empty_refuted.

(** With explicit zeros operator== can be true for different maps, and is not
    symmetric. *)
Theorem C05_equality_refuted : exists p st,
  zrun p st /\ zok p /\
  fsv_eq Z 0%Z Z.eqb (st 0%nat) (st 1%nat) = Some true /\
  fsv_eq Z 0%Z Z.eqb (st 1%nat) (st 0%nat) = Some false /\
  exists k, pget Z 0%Z (zideal p 0%nat) k <> pget Z 0%Z (zideal p 1%nat) k.
Proof. exact equality_false. Qed.
Print Assumptions C05_equality_refuted.

(** A program that crosses from the small to the hash form and back. *)
Example C03_prog : list (cmd Z) :=
  [CSet Z 0 1 10; CSet Z 0 2 20; CSet Z 0 3 30; CSet Z 0 4 40; CSet Z 0 5 50;
   CSet Z 0 6 60; CSet Z 0 7 70; CAdd Z 1 8 5; CAdd Z 1 1 5; CPlusEq Z 0 1; CErase Z 0 4;
   CCopy Z 2 0; CScale Z 2 (-1); CSum Z 3 0 2; CClear Z 0; CSet Z 0 1 3]%Z.
Example C03_example_runs : exists st, zrun C03_prog st /\ zok C03_prog /\
  is_remote (st 2%nat) = true /\ is_remote (st 0%nat) = false /\
  value Z 0%Z (st 2%nat) 1 = Some (-15)%Z /\ value Z 0%Z (st 3%nat) 7 = Some 0%Z.
Proof.
  eexists. split; [|split].
  - unfold C03_prog. repeat (eapply run_cmd; [vm_compute; reflexivity|]). apply run_nil.
  - vm_compute. repeat split; discriminate.
  - vm_compute. repeat split.
Qed.
