(** C10 (Pharaoh alignment format, utils/alignment_io.cc) and C11 (alignment
    symmetrisation, utils/atools.cc).  Specification terms are in
    AlignProofs.v: [link a i j] (the grid has that link), [wf] (the buffer has
    width*height cells), [points_text], [pharaoh], [adjacent], [row_used]. *)
From Coq Require Import List Arith ZArith Bool Lia Sorted.
From Verif Require Import Array2D Align AlignProofs.
Import ListNotations.

(** Printing lists exactly the links, each once, in increasing row then
    column order. *)
Theorem C10_printed_points : forall W a, wf W a ->
  exists ps, serialize W a = Some (pharaoh ps ++ [10]) /\ StronglySorted plt ps /\
    forall i j, In (i, j) ps <-> link W a i j.
Proof. exact serialize_ok. Qed.
Print Assumptions C10_printed_points.

(** Numbers are printed in canonical decimal. *)
Theorem C10_printed_numbers : forall n,
  numeral (show n) n /\ (1 < length (show n) -> hd 0 (show n) <> 48).
Proof. exact show_ok. Qed.
Print Assumptions C10_printed_numbers.

(** Printing and reading back gives exactly the same links. *)
Theorem C10_roundtrip : forall W IM a, wf W a -> width_ a < IM -> height_ a < IM -> 1 < IM -> 1 < W ->
  exists t g, serialize W a = Some t /\ read_grid W IM t = Some g /\ wf W g /\
    forall i j, link W g i j <-> link W a i j.
Proof. exact roundtrip. Qed.
Print Assumptions C10_roundtrip.

(** Reading: any list of points in any order, with repetitions, leading zeros
    and any positive number of spaces, optionally behind "... ||| " and
    optionally followed by an end of line and further text, gives the smallest
    grid with exactly those links (1x1 if there are none). *)
Theorem C10_read_any_points : forall W IM ps t tail, points_text ps t -> eol tail -> ~ In 124 tail ->
  rows_of ps < IM -> cols_of ps < IM -> rows_of ps * cols_of ps < W ->
  reads W ps (read_grid W IM (t ++ tail)) /\
  forall pre, reads W ps (read_grid W IM (pre ++ sep ++ t ++ tail)).
Proof. exact read_ok. Qed.
Print Assumptions C10_read_any_points.

Definition ex_grid : option (arr bool) :=
  foldM (fun g p => set 1000 g (fst p) (snd p) true) [(0, 1); (2, 0); (2, 10)] (a_new bool 1000 3 11 false).
Example C10_example : exists a, ex_grid = Some a /\ wf 1000 a /\
  serialize 1000 a = Some ([48;45;49;32] ++ [50;45;48;32] ++ [50;45;49;48;10]) /\
  exists g, read_grid 1000 500 [48;45;49;32;50;45;48;32;50;45;49;48;10] = Some g /\ link 1000 g 2 10.
Proof.
  destruct ex_grid as [a|] eqn:E; [|discriminate]. exists a. split; auto.
  vm_compute in E. inversion E; subst. split; [unfold wf; vm_compute; split; auto; repeat constructor|].
  split; [reflexivity|]. eexists. split; [vm_compute; reflexivity|reflexivity].
Qed.

(** invert transposes and is an involution; intersect and union are pointwise. *)
Theorem C11_invert : forall W a, wf W a ->
  (exists r, invert W a (a_empty bool) = Some r /\ wf W r /\ width_ r = height_ a /\ height_ r = width_ a /\
     forall i j, get W r i j = get W a j i) /\
  (exists r r', invert W a (a_empty bool) = Some r /\ invert W r (a_empty bool) = Some r' /\
     width_ r' = width_ a /\ height_ r' = height_ a /\ forall i j, get W r' i j = get W a i j).
Proof. exact (fun W a H => conj (invert_ok W a H) (invert_involution W a H)). Qed.
Print Assumptions C11_invert.

Theorem C11_intersect_union : forall W a b, fits W a b ->
  (exists r, intersect W a b (a_empty bool) = Some r /\ wf W r /\ max_dims a b r /\
     forall i j, link W r i j <-> link W a i j /\ link W b i j) /\
  (exists r, union W a b (a_empty bool) = Some r /\ wf W r /\ max_dims a b r /\
     forall i j, link W r i j <-> link W a i j \/ link W b i j).
Proof. exact (fun W a b H => conj (intersect_ok W a b H) (union_ok W a b H)). Qed.
Print Assumptions C11_intersect_union.

(** grow-diag, from every earlier state of the command object: terminates,
    lies between intersection and union, every added link touches another
    link of the result, no further union link may be added, and the result is
    built from the intersection by adding union links one by one, each
    adjacent to a link present and with its row or column still empty. *)
Theorem C11_grow_diag : forall W prev pun a b, fits W a b ->
  exists r, grow_diag W prev pun a b = Some r /\ wf W r /\ max_dims a b r /\ between W a b r /\
    (forall i j, link W r i j -> ~ (link W a i j /\ link W b i j) ->
        exists i' j', adjacent i j i' j' /\ link W r i' j') /\
    (forall i j, link W a i j \/ link W b i j -> ~ link W r i j -> ~ growable (link W r) i j) /\
    built growable (fun i j => link W a i j \/ link W b i j) (fun i j => link W a i j /\ link W b i j) (link W r).
Proof. exact grow_diag_ok. Qed.
Print Assumptions C11_grow_diag.

(** grow-diag-final: contains grow-diag; every union link left out has its row
    and its column covered. *)
Theorem C11_grow_diag_final : forall W prev pun a b, fits W a b ->
  exists r g, grow_diag_final W prev pun a b = Some r /\ grow_diag W prev pun a b = Some g /\
    wf W r /\ max_dims a b r /\ between W a b r /\ sub W g r /\
    (forall i j, link W a i j \/ link W b i j -> ~ link W r i j -> row_used W r i /\ col_used W r j) /\
    built not_both_covered (fun i j => link W a i j \/ link W b i j) (link W g) (link W r).
Proof. exact gdf_ok. Qed.
Print Assumptions C11_grow_diag_final.

(** grow-diag-final-and: adds only links whose row and column grow-diag left
    empty; every union link left out has its row or its column covered. *)
Theorem C11_grow_diag_final_and : forall W prev pun a b, fits W a b ->
  exists r g, grow_diag_final_and W prev pun a b = Some r /\ grow_diag W prev pun a b = Some g /\
    wf W r /\ max_dims a b r /\ between W a b r /\ sub W g r /\
    (forall i j, link W r i j -> ~ link W g i j -> ~ row_used W g i /\ ~ col_used W g j) /\
    (forall i j, link W a i j \/ link W b i j -> ~ link W r i j -> row_used W r i \/ col_used W r j) /\
    built neither_covered (fun i j => link W a i j \/ link W b i j) (link W g) (link W r).
Proof. exact gdfa_ok. Qed.
Print Assumptions C11_grow_diag_final_and.

(** fmeasure: the accumulated statistics are the numbers of common, predicted
    and reference links. *)
Theorem C11_fmeasure_counts : forall W hyp ref m0 np0 nr0, wf W hyp -> wf W ref ->
  exists m np nr, fmeasure W (m0, np0, nr0) hyp ref = Some (m0 + m, np0 + np, nr0 + nr) /\
    counts (fun i j => link W hyp i j /\ link W ref i j) m /\
    counts (link W hyp) np /\ counts (link W ref) nr.
Proof. exact fmeasure_ok. Qed.
Print Assumptions C11_fmeasure_counts.

Definition mk (w h : nat) (ps : list (nat * nat)) : arr bool :=
  match foldM (fun g p => set 1000 g (fst p) (snd p) true) ps (a_new bool 1000 w h false) with
  | Some a => a | None => a_empty bool end.
Definition pts (a : arr bool) : list (nat * nat) :=
  filter (fun p => match get 1000 a (fst p) (snd p) with Some true => true | _ => false end)
         (cells (width_ a) (height_ a)).
Definition exA := mk 4 4 [(0,0); (1,1); (2,3); (3,0)].
Definition exB := mk 4 3 [(0,0); (1,2); (2,2)].
Example C11_fits : fits 1000 exA exB.
Proof. unfold fits, wf. vm_compute. repeat split; repeat constructor. Qed.
Definition noprev := RS (a_empty bool) [] [].
Example C11_run :
  option_map pts (grow_diag 1000 noprev (a_empty bool) exA exB) = Some [(0,0); (1,1); (1,2); (2,2); (2,3)] /\
  option_map pts (grow_diag_final 1000 noprev (a_empty bool) exA exB) = Some [(0,0); (1,1); (1,2); (2,2); (2,3); (3,0)] /\
  option_map pts (grow_diag_final_and 1000 noprev (a_empty bool) exA exB) = Some [(0,0); (1,1); (1,2); (2,2); (2,3)] /\
  fmeasure 1000 (0,0,0) exA exB = Some (1, 4, 3).
Proof. vm_compute. auto. Qed.
