(** Model of the pair sampling of dtrain (training/dtrain/pairsampling.h).
    Simplified: scores and model scores are rational numbers; std::sort, which may
    order equal elements in any way, is the relation [sorts]; the counter of pairs is
    not bounded (in the code it is an unsigned). *)
From Coq Require Import List Arith QArith Qabs Bool Permutation Sorting.
Import ListNotations.
Local Open Scope nat_scope.

(** std::sort with the comparison "key of a > key of b": some permutation in falling order. *)
Definition sorts {A} (key : A -> Q) (l l' : list A) : Prop :=
  Permutation l l' /\ StronglySorted (fun a b => (key b <= key a)%Q) l'.

Section Pairs.
Variable H : Type.                   (* ScoredHyp, dtrain.h:52-59 *)
Variables score model : H -> Q.

(** pairsampling.h:8-13 *)
Definition accept_pair (a b threshold : Q) : bool := Qle_bool threshold (Qabs (a - b)%Q).

(** pairsampling.h:31-37, 69-75, 88-94: whether a pair is pushed *)
Definition pushed (threshold : Q) (x y : H) : bool :=
  if negb (Qle_bool threshold 0) then accept_pair (score x) (score y) threshold
  else negb (Qeq_bool (score x) (score y)).

(** pairsampling.h:30-41, 68-79, 87-95: the body of the loops over pairs, which ends
    everything once [max] pairs were looked at; count, whether ended, pairs *)
Fixpoint walk (threshold : Q) (max : nat) (misranked_only : bool) (ps : list (H * H)) (count : nat) (training : list (H * H))
  : nat * bool * list (H * H) :=
  match ps with
  | [] => (count, false, training)
  | (x, y) :: ps' =>
    if misranked_only && negb (Qle_bool (model x) (model y)) then walk threshold max misranked_only ps' count training
    else
      let training' := if pushed threshold x y then training ++ [(x, y)] else training in
      if S count =? max then (S count, true, training')
      else walk threshold max misranked_only ps' (S count) training'
  end.

(** The pairs of positions i < j in the order of the loops (pairsampling.h:28-29). *)
Fixpoint ordered_pairs (s : list H) : list (H * H) :=
  match s with [] => [] | x :: s' => map (fun y => (x, y)) s' ++ ordered_pairs s' end.

(** pairsampling.h:21-45: all_pairs, after the sort *)
Definition all_pairs (s : list H) (training : list (H * H)) (threshold : Q) (max : nat) (misranked_only : bool) : list (H * H) :=
  snd (walk threshold max misranked_only (ordered_pairs s) 0 training).

(** pairsampling.h:62-63: the loop moving the upper boundary down the list over equal
    scores; None: read outside the vector *)
Fixpoint move_hi (fuel : nat) (s : list H) (sep_hi : nat) : option nat :=
  if length s <=? sep_hi then Some sep_hi else
  match fuel with
  | O => None
  | S fuel' =>
    match sep_hi with
    | O => None
    | S k => match nth_error s k, nth_error s (S k) with
             | Some a, Some b => if Qeq_bool (score a) (score b) then move_hi fuel' s (S (S k)) else Some (S k)
             | _, _ => None
             end
    end
  end.

(** pairsampling.h:84: the loop moving sep_lo *)
Fixpoint move_lo (s : list H) (sep_lo : nat) : option nat :=
  match sep_lo with
  | O => Some O
  | S k => match nth_error s k, nth_error s (S k) with
           | Some a, Some b => if Qeq_bool (score a) (score b) then move_lo s k else Some (S k)
           | _, _ => None
           end
  end.

(** pairsampling.h:54-98: partXYX, after the sort; [sep] is round(sz*hi_lo); None: a
    read outside the vector *)
Definition partXYX (s : list H) (training : list (H * H)) (threshold : Q) (max : nat) (misranked_only : bool) (sep : nat)
  : option (list (H * H)) :=
  let sz := length s in
  if sz <? 2 then Some training else
  if sz <? sep then None else
  match (if 4 <? sz then move_hi sz s sep else Some 1) with
  | None => None
  | Some sep_hi =>
    let '(count, _, tr) := walk threshold max misranked_only (list_prod (firstn sep_hi s) (skipn sep_hi s)) 0 training in
    match move_lo s (sz - sep) with
    | None => None
    | Some sep_lo =>
      let lo := sz - sep_lo in
      Some (snd (walk threshold max misranked_only (list_prod (skipn sep_hi (firstn lo s)) (skipn lo s)) count tr))
    end
  end.

(** pairsampling.h:118-129: the loops of PROsampling, which end after [max_count] accepted pairs *)
Fixpoint pro_walk (threshold : Q) (max_count : nat) (ps : list (H * H)) (count : nat) (training : list (H * H)) : list (H * H) :=
  match ps with
  | [] => training
  | (x, y) :: ps' =>
    if accept_pair (score x) (score y) threshold then
      if S count =? max_count then training ++ [(x, y)]
      else pro_walk threshold max_count ps' (S count) (training ++ [(x, y)])
    else pro_walk threshold max_count ps' count training
  end.

(** pairsampling.h:107-111 *)
Definition diff (p : H * H) : Q := Qabs (score (fst p) - score (snd p))%Q.

(** pairsampling.h:112-135: PROsampling, after the sort of the hypotheses: the results it may
    give for an initially empty list of pairs (5000 and 50 in the code) *)
Definition PROsampling (max_count top : nat) (s : list H) (threshold : Q) (out : list (H * H)) : Prop :=
  let tr := pro_walk threshold max_count (ordered_pairs s) 0 [] in
  if top <? length tr then exists tr', sorts diff tr tr' /\ out = firstn top tr' else out = tr.
End Pairs.
