(** Model of the string subsequence kernel (utils/kernel_string_subseq.h) and of
    the metric based on it (mteval/ns_ssk.cc).  float arithmetic is modelled by
    real arithmetic (simplification: no rounding), words by numbers; [None] is an
    access outside an array. *)
From Coq Require Import Bool List Arith Reals.
Import ListNotations.
Local Open Scope nat_scope.

(** for (i = from; i < from + n; ++i) f *)
Fixpoint loop {S} (n from : nat) (f : nat -> S -> option S) (st : S) : option S :=
  match n with O => Some st | Datatypes.S n' => match f from st with Some st' => loop n' (Datatypes.S from) f st' | None => None end end.

(** boost::multi_array<float, 3> with extents [N + 1][m + 1][n + 1] (kernel_string_subseq.h:11), zero at first. *)
Record arr := { d1 : nat; d2 : nat; d3 : nat; elt : nat -> nat -> nat -> R }.
Definition inb (a : arr) (i j k : nat) : bool := (i <? d1 a) && (j <? d2 a) && (k <? d3 a).
Definition rd (a : arr) (i j k : nat) : option R := if inb a i j k then Some (elt a i j k) else None.
Definition wr (a : arr) (i j k : nat) (x : R) : option arr :=
  if inb a i j k then Some {| d1 := d1 a; d2 := d2 a; d3 := d3 a;
    elt := fun i' j' k' => if (i' =? i) && (j' =? j) && (k' =? k) then x else elt a i' j' k' |} else None.

Section Kernel.
Variables (N : nat) (lambda : R) (s t : list nat).
Definition eq_at (j k : nat) : option R :=
  match nth_error s j, nth_error t k with Some a, Some b => Some (if a =? b then 1 else 0)%R | _, _ => None end.
(** kernel_string_subseq.h:13-15. *)
Definition ones (a : arr) : option arr :=
  loop (length s) 0 (fun j a => loop (length t) 0 (fun k a => wr a 0 j k 1%R) a) a.
(** kernel_string_subseq.h:20-23. *)
Definition inner (i j k : nat) (st : R * arr) : option (R * arr) :=
  let (kpp, a) := st in
  match eq_at j k, rd a i j k, rd a (S i) j (S k) with
  | Some e, Some x, Some y =>
    let kpp' := (lambda * (kpp + lambda * e * x))%R in
    match wr a (S i) (S j) (S k) (lambda * y + kpp')%R with Some a' => Some (kpp', a') | None => None end
  | _, _, _ => None
  end.
(** kernel_string_subseq.h:16-25. *)
Definition fill (a : arr) : option arr :=
  loop N 0 (fun i a => loop (length s) 0 (fun j a =>
    match loop (length t) 0 (inner i j) (0%R, a) with Some (_, a') => Some a' | None => None end) a) a.
(** kernel_string_subseq.h:26-30. *)
Definition gather (a : arr) : option R :=
  loop N 0 (fun i kn => loop (length s) 0 (fun j kn => loop (length t) 0 (fun k kn =>
    match eq_at j k, rd a i j k with Some e, Some x => Some (kn + lambda * lambda * e * x)%R | _, _ => None end) kn) kn) 0%R.
(** kernel_string_subseq.h:9-32. *)
Definition ssk : option R :=
  match ones {| d1 := N + 1; d2 := length s + 1; d3 := length t + 1; elt := fun _ _ _ => 0%R |} with
  | Some a => match fill a with Some a' => gather a' | None => None end
  | None => None
  end.
End Kernel.

(** kernel_string_subseq.h:34-41 and 43-50. *)
Definition nssk (N : nat) (lambda : R) (s t : list nat) : option R :=
  match ssk N lambda s t with
  | None => None
  | Some kst =>
    if Req_EM_T kst 0 then Some 0%R else
    match ssk N lambda s s, ssk N lambda t t with
    | Some kss, Some ktt => Some (kst / sqrt (kss * ktt))%R
    | _, _ => None
    end
  end.

(** mteval/ns_ssk.cc:18-27: the similarity to the most similar reference, and a count of 1. *)
Definition best (hyp : list nat) (refs : list (list nat)) : option R :=
  loop (length refs) 0 (fun i b => match nth_error refs i with
    | Some r => match nssk 4 0.8 hyp r with Some x => Some (if Rlt_dec b x then x else b) | None => None end
    | None => None end) 0%R.
Definition stats (hyp : list nat) (refs : list (list nat)) : option (R * R) :=
  match best hyp refs with Some b => Some (b, 1%R) | None => None end.
(** ns_ssk.cc:29-31, on the sum of the statistics of the sentences. *)
Definition score (st : R * R) : R := (fst st / snd st)%R.
Fixpoint corpus (l : list (list nat * list (list nat))) : option (R * R) :=
  match l with
  | [] => Some (0, 0)%R
  | (h, rs) :: l' => match stats h rs, corpus l' with Some (a, b), Some (c, d) => Some (a + c, b + d)%R | _, _ => None end
  end.
