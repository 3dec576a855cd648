(** Model of the alias sampler (utils/alias_sampler.h).  Numbers are exact rationals
    (simplification: no rounding); [None] for an alias is
    numeric_limits<unsigned>::max(). *)
From Coq Require Import List Arith ZArith QArith Qround.
Import ListNotations.
Local Open Scope nat_scope.

(** v[i] = x; [None] is out of bounds. *)
Fixpoint store {A} (l : list A) (i : nat) (x : A) : option (list A) :=
  match l, i with
  | [], _ => None
  | _ :: r, O => Some (x :: r)
  | y :: r, S j => match store r j x with Some r' => Some (y :: r') | None => None end
  end.

(** utils/alias_sampler.h:48-49. *)
Record sampler := { cutoffs : list Q; aliases : list (option nat) }.
(** The two stacks, s and g, with the back of the vector first (alias_sampler.h:27). *)
Record work := { w_f : list Q; w_l : list (option nat); w_s : list nat; w_g : list nat }.

(** alias_sampler.h:28-31: the cutoffs N * p[i], and the outcomes below and above 1. *)
Definition scaled (p : list Q) : list Q := map (fun x => (inject_Z (Z.of_nat (length p)) * x)%Q) p.
Fixpoint divide (i : nat) (f : list Q) (s g : list nat) : list nat * list nat :=
  match f with
  | [] => (s, g)
  | c :: f' => if Qle_bool 1 c then divide (S i) f' s (i :: g) else divide (S i) f' (i :: s) g
  end.

(** alias_sampler.h:33-41: one iteration of the loop. *)
Definition fill (w : work) (j k : nat) (s g : list nat) : option work :=
  match nth_error (w_f w) j, nth_error (w_f w) k with
  | Some fj, Some fk =>
    let fk' := (fk - (1 - fj))%Q in
    match store (w_f w) k fk', store (w_l w) j (Some k) with
    | Some f', Some l' =>
      if Qle_bool 1 fk' then Some {| w_f := f'; w_l := l'; w_s := s; w_g := k :: g |}
      else Some {| w_f := f'; w_l := l'; w_s := k :: s; w_g := g |}
    | _, _ => None
    end
  | _, _ => None
  end.
(** alias_sampler.h:32-42; [None] is an access out of bounds, or the fuel running out. *)
Fixpoint fill_all (fuel : nat) (w : work) : option work :=
  match w_s w, w_g w with
  | j :: s, k :: g => match fuel with O => None | S fuel' => match fill w j k s g with Some w' => fill_all fuel' w' | None => None end end
  | _, _ => Some w
  end.
(** alias_sampler.h:22-43. *)
Definition init (p : list Q) : option sampler :=
  let f := scaled p in let (s, g) := divide 0 f [] [] in
  match fill_all (length p) {| w_f := f; w_l := map (fun _ => None) p; w_s := s; w_g := g |} with
  | Some w => Some {| cutoffs := w_f w; aliases := w_l w |}
  | None => None
  end.

(** What a draw returns. *)
Inductive drawn := Outcome (i : nat) | Invalid (* UINT_MAX *) | OutOfBounds.
(** alias_sampler.h:44-48, with the two random numbers. *)
Definition draw (a : sampler) (u v : Q) : drawn :=
  let n := Z.to_nat (Qfloor (u * inject_Z (Z.of_nat (length (cutoffs a))))) in
  match nth_error (cutoffs a) n, nth_error (aliases a) n with
  | Some c, Some l => if Qle_bool v c then Outcome n else match l with Some k => Outcome k | None => Invalid end
  | _, _ => OutOfBounds
  end.
