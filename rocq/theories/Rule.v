(** decoder/trule.h, trule.cc: translation rules.  In the target side [e_] a symbol below 1
    is a variable (0 the first, -1 the second, …), in the source side [f_] a category. *)
From Coq Require Import String List ZArith Bool.
From Verif Require Import Opt Dict.
Import ListNotations.
Open Scope Z_scope.
Open Scope opt_scope.

(** trule.h 83-93; [None]: no such antecedent (undefined) *)
Fixpoint esub_loop (e : list Z) (vars : list (list Z)) (vc : nat) (result : list Z) : option (list Z * nat) :=
  match e with
  | [] => Some (result, vc)
  | c :: r =>
      if c <? 1 then
        v <- nth_error vars (Z.to_nat (- c)) ;; esub_loop r vars (S vc) (result ++ v)
      else esub_loop r vars vc (result ++ [c])
  end.
(** TRule::ESubstitute (79-95) *)
Definition ESubstitute (e : list Z) (vars : list (list Z)) : option (list Z) :=
  ' (result, vc) <- esub_loop e vars 0 [] ;;
  if Nat.eqb vc (length vars) then Some result else None.
(** trule.h 101-110 *)
Fixpoint fsub_loop (f : list Z) (vars : list (list Z)) (vc : nat) (result : list Z) : option (list Z * nat) :=
  match f with
  | [] => Some (result, vc)
  | c :: r =>
      if c <? 1 then
        v <- nth_error vars vc ;; fsub_loop r vars (S vc) (result ++ v)
      else fsub_loop r vars vc (result ++ [c])
  end.
(** TRule::FSubstitute (97-112) *)
Definition FSubstitute (f : list Z) (vars : list (list Z)) : option (list Z) :=
  ' (result, vc) <- fsub_loop f vars 0 [] ;;
  if Nat.eqb vc (length vars) then Some result else None.
(** conversion to (signed) char, the type of arity_ (trule.h 148) *)
Definition to_char (z : Z) : Z := (z + 128) mod 256 - 128.
(** TRule::ComputeArity (trule.cc 68-73) *)
Definition ComputeArity (e : list Z) : Z :=
  to_char (1 - fold_left (fun min i => if i <? min then i else min) e 1).
(** EWords, FWords (trule.h 130-134) *)
Definition EWords (e : list Z) (arity : Z) : Z := Z.of_nat (length e) - arity.
Definition FWords (f : list Z) (arity : Z) : Z := Z.of_nat (length f) - arity.
(** ReadFromString with mono (trule.cc 59-64): e_ = f_, then numbered *)
Fixpoint renumber (f : list Z) (ntc : Z) : list Z :=
  match f with
  | [] => []
  | i :: r => if i <? 0 then - ntc :: renumber r (ntc + 1) else i :: renumber r ntc
  end.

(** ** Derivations: a rule and one derivation per variable *)
Inductive deriv := Node (e f : list Z) (kids : list deriv).
Definition map_opt {A B} (g : A -> option B) : list A -> option (list B) :=
  fix go l := match l with [] => Some [] | x :: r => y <- g x ;; ys <- go r ;; Some (y :: ys) end.
(** ESentenceTraversal, FSentenceTraversal (viterbi.h 110-117, 129-136) *)
Fixpoint esentence (d : deriv) : option (list Z) :=
  let 'Node e _ kids := d in ys <- map_opt esentence kids ;; ESubstitute e ys.
Fixpoint fsentence (d : deriv) : option (list Z) :=
  let 'Node _ f kids := d in ys <- map_opt fsentence kids ;; FSubstitute f ys.
(** ELengthTraversal (viterbi.h 119-127), the arity computed by ComputeArity *)
Fixpoint elength (d : deriv) : Z :=
  let 'Node e _ kids := d in EWords e (ComputeArity e) + fold_right Z.add 0 (map elength kids).

(** ** Serialisation (trule.h 168-225): the archive is the sequence of the values written *)
Section Archive.
Variable scores : Type.
Record trule := { lhs : Z; f_ : list Z; e_ : list Z; arity : Z; scores_ : scores; a_ : list (Z * Z) }.
Inductive item := IStr (s : string) | IUns (n : Z) | IMask (m : Z) | IInt (n : Z) | IChar (n : Z) | IScores (s : scores).
(** 175-179, 185-190; size_t has 64 bits *)
Definition nt_mask (l : list Z) : Z :=
  fold_right (fun x m => Z.lor (Z.shiftl m 1 mod 2 ^ 64) (if x <=? 0 then 1 else 0)) 0 l.
(** 181-182 *)
Definition save_f (s : dict) (f : list Z) : option (list item) :=
  map_opt (fun x => w <- convert_id s (if x <? 0 then - x else x) ;; Some (IStr w)) f.
(** 192-193 *)
Definition save_e (s : dict) (e : list Z) : option (list item) :=
  map_opt (fun x => if x <=? 0 then Some (IInt x) else w <- convert_id s x ;; Some (IStr w)) e.
(** save (170-196) *)
Definition save (s : dict) (r : trule) : option (list item) :=
  l <- convert_id s (- lhs r) ;;
  if Nat.ltb 64 (length (f_ r)) then None else
  fs <- save_f s (f_ r) ;;
  if Nat.ltb 64 (length (e_ r)) then None else
  es <- save_e s (e_ r) ;;
  Some ([IStr l; IUns (Z.of_nat (length (f_ r))); IMask (nt_mask (f_ r))] ++ fs ++
        [IUns (Z.of_nat (length (e_ r))); IMask (nt_mask (e_ r))] ++ es ++ [IChar (arity r); IScores (scores_ r)]).
(** 204-209 *)
Fixpoint load_f (n : nat) (mask : Z) (s : dict) (ar : list item) : option (list Z * dict * list item) :=
  match n with
  | O => Some ([], s, ar)
  | S n' =>
      match ar with
      | IStr sym :: ar' =>
          let '(i, s1) := convert_word s sym false in
          ' (xs, s2, ar2) <- load_f n' (Z.shiftr mask 1) s1 ar' ;;
          Some (i * (if Z.land mask 1 =? 0 then 1 else -1) :: xs, s2, ar2)
      | _ => None
      end
  end.
(** 213-222 *)
Fixpoint load_e (n : nat) (mask : Z) (s : dict) (ar : list item) : option (list Z * dict * list item) :=
  match n with
  | O => Some ([], s, ar)
  | S n' =>
      if Z.land mask 1 =? 0 then
        match ar with
        | IStr sym :: ar' =>
            let '(i, s1) := convert_word s sym false in
            ' (xs, s2, ar2) <- load_e n' (Z.shiftr mask 1) s1 ar' ;; Some (i :: xs, s2, ar2)
        | _ => None
        end
      else
        match ar with
        | IInt i :: ar' =>
            ' (xs, s2, ar2) <- load_e n' (Z.shiftr mask 1) s ar' ;; Some (i :: xs, s2, ar2)
        | _ => None
        end
  end.
(** load (198-225) into a fresh rule, with the dictionary of the reading program *)
Definition load (s : dict) (ar : list item) : option (trule * dict * list item) :=
  match ar with
  | IStr l :: IUns fn :: IMask fm :: ar =>
      let '(li, s1) := convert_word s l false in
      ' (fs, s2, ar) <- load_f (Z.to_nat fn) fm s1 ar ;;
      match ar with
      | IUns en :: IMask em :: ar =>
          ' (es, s3, ar) <- load_e (Z.to_nat en) em s2 ar ;;
          match ar with
          | IChar a :: IScores sc :: ar =>
              Some ({| lhs := - li; f_ := fs; e_ := es; arity := a; scores_ := sc; a_ := [] |}, s3, ar)
          | _ => None
          end
      | _ => None
      end
  | _ => None
  end.
End Archive.
