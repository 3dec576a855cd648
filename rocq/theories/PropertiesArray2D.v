(** C09: Array2D (utils/array2d.h).  The specification (Array2DProofs.v) is a
    grid: dimensions and a function from index pairs to values; [gexec] is the
    ideal effect of a command, [aprog_ok] asks that writes are in range and that
    width*height fits an unsigned. *)
From Coq Require Import List Arith Bool Lia.
From Verif Require Import Array2D Array2DProofs.
Import ListNotations.

(** After every history of writes, fills, resizes and clears, the array has
    exactly width*height cells and every in-range read succeeds and returns the
    value the ideal grid has there. *)
Theorem C09_refines_grid : forall T W w h d p, w * h < W -> aprog_ok T W (g_new T w h d) p ->
  exists a, aexec_all T W (a_new T W w h d) p = Some a /\
    let g := fold_left (gexec T) p (g_new T w h d) in
    width_ a = gw T g /\ height_ a = gh T g /\ length (data_ a) = gw T g * gh T g /\
    forall i j, g_in T g i j -> a_get T W a i j = cell T g i j /\ a_get T W a i j <> None.
Proof. exact array_refines. Qed.
Print Assumptions C09_refines_grid.

(** begin_col(j)..end_col(j) are the cells (0,j), (1,j), ... *)
Theorem C09_columns : forall T W w h d p j, 0 < w * h < W -> aprog_ok T W (g_new T w h d) p ->
  let g := fold_left (gexec T) p (g_new T w h d) in j < gh T g -> 0 < gw T g ->
  exists a c, aexec_all T W (a_new T W w h d) p = Some a /\ a_col T W a j = Some c /\
    length c = gw T g /\ forall i, i < gw T g -> nth_error c i = cell T g i j.
Proof. exact col_ok. Qed.
Print Assumptions C09_columns.

(** resize with unchanged width keeps all common cells ... *)
Theorem C09_resize_same_width : forall T (g : grid T) h d i j, i < gw T g -> j < h ->
  cell T (g_resize T g (gw T g) h d) i j = if j <? gh T g then cell T g i j else Some d.
Proof. exact resize_same_width. Qed.
Print Assumptions C09_resize_same_width.

(** ... but with a different width it moves values to other cells. *)
Theorem C09_resize_keeps_cells_refuted : exists (p : list (acmd nat)) a,
  aprog_ok nat 1000 (g_new nat 2 2 0) p /\
  aexec_all nat 1000 (a_new nat 1000 2 2 0) (p ++ [AResize nat 3 3 0]) = Some a /\
  cell nat (fold_left (gexec nat) p (g_new nat 2 2 0)) 0 1 = Some 7 /\ a_get nat 1000 a 0 1 = Some 0.
Proof. exact resize_moves. Qed.
Print Assumptions C09_resize_keeps_cells_refuted.

(** += adds, and -= computes argument minus array, cell by cell. *)
Theorem C09_elementwise : forall T W op w h d p w' h' d' q, w * h < W -> w' * h' < W ->
  aprog_ok T W (g_new T w h d) p -> aprog_ok T W (g_new T w' h' d') q ->
  let g := fold_left (gexec T) p (g_new T w h d) in
  let gm := fold_left (gexec T) q (g_new T w' h' d') in
  gw T g = gw T gm -> gh T g = gh T gm ->
  exists a m r, aexec_all T W (a_new T W w h d) p = Some a /\
    aexec_all T W (a_new T W w' h' d') q = Some m /\ a_op_eq T op a m = Some r /\
    forall i j, g_in T g i j -> exists x y, cell T g i j = Some x /\ cell T gm i j = Some y /\
      a_get T W r i j = Some (op y x).
Proof. exact op_eq_prog. Qed.
Print Assumptions C09_elementwise.

(** When width*height is exactly 2^32 the buffer is empty. *)
Theorem C09_dimension_overflow_refuted : forall T W w h d, 0 < w -> 0 < h -> w * h = W ->
  a_get T W (a_new T W w h d) 0 0 = None.
Proof. exact overflow_dims. Qed.
Print Assumptions C09_dimension_overflow_refuted.

Example C09_prog : list (acmd nat) :=
  [ASet nat 2 1 5; ASet nat 0 0 4; AResize nat 3 4 9; ASet nat 2 3 8; ASet nat 2 1 6].
Example C09_example_ok : aprog_ok nat 100 (g_new nat 3 2 0) C09_prog.
Proof. unfold C09_prog. simpl. unfold g_in. simpl. repeat split; lia. Qed.
Example C09_example_run : exists a, aexec_all nat 100 (a_new nat 100 3 2 0) C09_prog = Some a /\
  a_get nat 100 a 2 1 = Some 6 /\ a_get nat 100 a 0 0 = Some 4 /\ a_get nat 100 a 1 3 = Some 9 /\
  a_get nat 100 a 2 3 = Some 8.
Proof. eexists. vm_compute. repeat split. Qed.
