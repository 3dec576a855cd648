(** C02: SmallVector (utils/small_vector.h).

    Programs are lists of commands over numbered variables (SmallVec.v); [sexec]
    (SmallVecProofs.v) is their meaning on ideal sequences and [prog_ok] the
    client's obligations (lifetimes, index ranges, sizes below 2^16, sizes given
    to constructors below 0xA000).  A cell is [None] when its value is
    indeterminate. *)
From Coq Require Import List Arith Bool Lia.
From Verif Require Import SmallVec SmallVecProofs.
Import ListNotations.

Section Generic.
Variable T : Type.
Variable teqb : T -> T -> bool.
Variable tdef : T.
(** [M] = SV_MAX, [W] = number of values of uint16_t, [A] = 0xA000. *)
Variables M W A : nat.
Hypothesis M_ok : 1 <= M.
Hypothesis W_ok : 2 * M < W.
Hypothesis A_ok : A <= W.
Hypothesis teqb_ok : forall a b, teqb a b = true <-> a = b.
Notation run p := (exec_all T tdef M W A (state0 T) p).
Notation ideal p x := (fold_left (sexec T tdef M) p (spec0 T) x).
Notation obligations p := (prog_ok T tdef M W A (spec0 T) p).

(** Every program meeting the obligations runs without failed assertion or
    undefined behaviour (no access outside a block or after free, no double
    free), every live vector has the ideal size and elements, and a heap-form
    vector's capacity covers its size. *)
Theorem C02_refines_sequences : forall p, obligations p ->
  exists s, run p = Ok s /\
   (forall x, match env T s x, ideal p x with
     | Some o, Some l => size T o = length l /\ (M < size T o -> size T o <= cap T o) /\
         (forall i, i < length l -> exists c, get T M (hp T s) o i = Ok c /\ nth_error l i = Some c)
     | None, None => True
     | _, _ => False end).
Proof. exact (sv_refines T tdef M W A M_ok W_ok A_ok). Qed.

(** When all vectors are gone no block is left allocated. *)
Theorem C02_no_leak : forall p, obligations p ->
  exists s, run p = Ok s /\
   ((forall x, ideal p x = None) -> Forall (fun b => b = None) (hp T s)).
Proof. exact (sv_no_leak T tdef M W A M_ok W_ok A_ok). Qed.

(** operator== is equality of the sequences. *)
Theorem C02_equality : forall p x y lx ly, obligations p ->
  ideal p x = Some (map Some lx) -> ideal p y = Some (map Some ly) ->
  exists s o o' r, run p = Ok s /\ env T s x = Some o /\ env T s y = Some o' /\
    sv_eq T teqb M (hp T s) o o' = Ok r /\ (r = true <-> lx = ly).
Proof. exact (sv_eq_correct T teqb tdef M W A M_ok W_ok A_ok teqb_ok). Qed.

(** push_back(v[i]) of an own element: right when no reallocation is needed,
    undefined when the inline buffer is full (std::vector allows it). *)
Theorem C02_push_own_element_refuted : forall p x l i v, obligations p ->
  ideal p x = Some l -> nth_error l i = Some (Some v) -> length l + 1 < W ->
  exists s o r, run p = Ok s /\ env T s x = Some o /\ elem_ref T M o i = Ok r /\
   (length l = M -> push_back T M W (hp T s) o r = UB) /\
   (length l < M \/ M < length l < cap T o ->
    exists h' o', push_back T M W (hp T s) o r = Ok (h', o') /\
                  contents T M h' o' = Ok (l ++ [Some v])).
Proof. exact (sv_push_own T tdef M W A M_ok W_ok A_ok). Qed.

(** resize(n) with n beyond 16 bits truncates the requested capacity and then
    writes outside the block. *)
Theorem C02_resize_beyond_16_bits_refuted : forall (l : list T) k v,
  M < length l < A -> M < k < length l ->
  run [CNewRange T 0 l; CResize T 0 (W + k) v] = UB.
Proof. exact (sv_resize_wraps T tdef M W A M_ok W_ok A_ok). Qed.
End Generic.
Print Assumptions C02_refines_sequences.
Print Assumptions C02_no_leak.
Print Assumptions C02_equality.
Print Assumptions C02_push_own_element_refuted.
Print Assumptions C02_resize_beyond_16_bits_refuted.

(** A program crossing the inline/heap boundary both ways, with SV_MAX = 2. *)
Example C02_prog : list (cmd nat) :=
  [CNewRange nat 0 [1; 2]; CPush nat 0 3; CPush nat 0 4; CPush nat 0 5; CNewCopy nat 1 0;
   CErase nat 0 1 3; CPop nat 0; CNew nat 2; CAssign nat 2 0; CAssign nat 0 1; CSwap nat 1 2;
   CResize nat 1 5 9; CPut nat 1 1 8; CClear nat 2; CPush nat 2 6; CAssign nat 2 2; CDelete nat 0].
Example C02_example_ok : prog_ok nat 0 2 1000 900 (spec0 nat) C02_prog.
Proof.
  unfold C02_prog. cbn -[Nat.add]. unfold is_live. cbn.
  repeat split; try discriminate; try lia; intros H; apply H; reflexivity.
Qed.
Example C02_example_result :
  fold_left (sexec nat 0 2) C02_prog (spec0 nat) 1 = Some (map Some [1; 8; 9; 9; 9]) /\
  fold_left (sexec nat 0 2) C02_prog (spec0 nat) 2 = Some (map Some [6]).
Proof. split; reflexivity. Qed.
(** The limits of the code satisfy the hypotheses. *)
Example C02_limits : 1 <= 2 /\ 2 * 2 < 2 ^ 16 /\ 10 * 2 ^ 12 <= 2 ^ 16.
Proof.
  split; [lia|]. split.
  - apply Nat.lt_le_trans with (2 ^ 3); [simpl; lia|]. apply Nat.pow_le_mono_r; lia.
  - replace (2 ^ 16) with (2 ^ 4 * 2 ^ 12) by (rewrite <- Nat.pow_add_r; reflexivity).
    apply Nat.mul_le_mono_r. simpl; lia.
Qed.
