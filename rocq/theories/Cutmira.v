(** Model of the optimisation of cutting-plane and passive-aggressive MIRA
    (training/mira/kbest_cut_mira.cc).
    Simplified: doubles are the real numbers, vectors are lists of equal length (see
    Mira.v). The decoder, the metric and the choice of the hypotheses are left open: the
    constraint set is any list of hypotheses with their losses. *)
From Coq Require Import Reals List Arith Bool.
From Verif Require Import Mira.
Import ListNotations.
Local Open Scope R_scope.

(** kbest_cut_mira.cc:136-147 HypothesisInfo: what the optimisation reads; no oracle: the
    pointer oracleN is null *)
Record cons := Cons { features : vec; oracle_loss : R; oracleN : option vec }.

(** kbest_cut_mira.cc:131: SMO_EPSILON *)
Definition SMO_EPSILON : R := 1 / 10000.
(** kbest_cut_mira.cc:133 *)
Definition MAX_SMO : nat := 10.

(** kbest_cut_mira.cc:232-255 ComputeDelta; None: a null pointer is read *)
Definition ComputeDelta (C : R) (dense : vec) (c0 c1 : cons) (alpha0 alpha1 : R) : option R :=
  match oracleN c0, oracleN c1 with
  | Some o0, Some o1 =>
    let loss := oracle_loss c0 - oracle_loss c1 in
    let margin := - (dot o0 dense - dot (features c0) dense) + (dot o1 dense - dot (features c1) dense) in
    let num := margin + loss in
    let diff := vsub (features c0) (features c1) in
    let diffsqnorm := dot diff diff in
    let delta := if Rlt_dec 0 diffsqnorm then num / (diffsqnorm * C) else 0 in
    Some (Rmax (- alpha0) (Rmin delta alpha1))
  | _, _ => None
  end.

(** kbest_cut_mira.cc:275-283: the largest violation of the other constraints *)
Fixpoint max_fear (fear : nat -> R) (u : nat) (is : list nat) (m : option R) : option R :=
  match is with
  | [] => m
  | i :: is' =>
    if (i =? u)%nat then max_fear fear u is' m else
    max_fear fear u is' (match m with None => Some (fear i) | Some x => if Rlt_dec x (fear i) then Some (fear i) else m end)
  end.

Definition lt (x y : R) : bool := if Rlt_dec x y then true else false.

(** kbest_cut_mira.cc:273-314: the loop of the selection heuristic over u *)
Fixpoint select_loop (k : nat) (alpha fear : nat -> R) (us : list nat) : option (nat * nat) :=
  match us with
  | [] => None
  | u :: us' =>
    match max_fear fear u (seq 0 k) None with
    | None => None
    | Some m =>
      let first := if Req_EM_T (alpha u) 0 then
                     if lt (m + SMO_EPSILON) (fear u) then find (fun i => negb (i =? u)%nat && lt 0 (alpha i)) (seq 0 k) else None
                   else None in
      match first with
      | Some i => Some (u, i)
      | None =>
        let second := if lt 0 (alpha u) && lt (fear u) (m - SMO_EPSILON)
                      then find (fun i => negb (i =? u)%nat && lt (fear u) (fear i)) (seq 0 k) else None in
        match second with
        | Some i => Some (u, i)
        | None => select_loop k alpha fear us'
        end
      end
    end
  end.

(** kbest_cut_mira.cc:258-317 SelectPair: the places of the two constraints *)
Definition SelectPair (no_select : bool) (k : nat) (alpha fear : nat -> R) : option (nat * nat) :=
  if no_select then Some (0%nat, 1%nat) else select_loop k alpha fear (seq 0 k).

(** cur_pair[0]->alpha += delta, cur_pair[1]->alpha -= delta (kbest_cut_mira.cc:919-920) *)
Definition move (alpha : nat -> R) (p q : nat) (delta : R) : nat -> R :=
  fun i => if (i =? p)%nat then alpha i + delta else if (i =? q)%nat then alpha i - delta else alpha i.

(** kbest_cut_mira.cc:917-933: one step for a pair; the weights are reloaded *)
Definition smo_step (C : R) (cs : list cons) (st : (nat -> R) * vec) (p q : nat) : option (R * ((nat -> R) * vec)) :=
  match nth_error cs p, nth_error cs q with
  | Some c0, Some c1 =>
    match ComputeDelta C (snd st) c0 c1 (fst st p) (fst st q) with
    | None => None
    | Some delta => Some (delta, (move (fst st) p q delta,
        vsub (vadd (snd st) (vscale (delta * C) (features c1))) (vscale (delta * C) (features c0))))
    end
  | _, _ => None
  end.

(** kbest_cut_mira.cc:904-946: the loop; the violations are not computed again in it *)
Fixpoint smo (iter : nat) (no_select : bool) (C : R) (cs : list cons) (fear : nat -> R) (st : (nat -> R) * vec) : option ((nat -> R) * vec) :=
  match iter with
  | O => Some st
  | S iter' =>
    match SelectPair no_select (length cs) (fst st) fear with
    | None => Some st
    | Some (p, q) =>
      match smo_step C cs st p q with
      | None => None
      | Some (delta, st') => if no_select && (if Req_EM_T delta 0 then true else false) then Some st' else smo iter' no_select C cs fear st'
      end
    end
  end.

(** kbest_cut_mira.cc:898-902: alpha is 1 for the oracle, which is the first constraint, and 0
    for the others *)
Definition alpha0 : nat -> R := fun i => if (i =? 0)%nat then 1 else 0.
(** kbest_cut_mira.cc:896-946: one round *)
Definition round (no_select : bool) (C : R) (cs : list cons) (fear : nat -> R) (w : vec) : option ((nat -> R) * vec) :=
  smo MAX_SMO no_select C cs fear (alpha0, w).

(** kbest_cut_mira.cc:519-548: what UpdateOracles leaves in the hypotheses, for the settings
    of --fear: violation and constraint *)
Definition annotate (fear_select : nat) (w : vec) (oracle h : hyp) : R * cons :=
  if (fear_select =? 1)%nat
  then (-1 * snd h + 1 * snd oracle - dot (fst oracle) w + dot (fst h) w,
        Cons (fst h) (-1 * snd h + 1 * snd oracle) (Some (fst oracle)))
  else (0, Cons (fst h) 0 None).

(** kbest_cut_mira.cc:869-946: the passive-aggressive update (--optimizer 2) *)
Definition pa_update (fear_select : nat) (C : R) (w : vec) (good bad : hyp) : option vec :=
  let '(fear_g, cg) := annotate fear_select w good good in
  let '(fear_b, cb) := annotate fear_select w good bad in
  if Rlt_dec (fear_g + SMO_EPSILON) fear_b
  then option_map (fun r => snd (snd r)) (smo_step C [cg; cb] (alpha0, w) 0 1)
  else Some w.

(** kbest_cut_mira.cc:822-854 (--optimizer 5): the steps of one sweep, for all pairs i < j; the
    loss is computed with the weights at the beginning (dense_weights is not reloaded) *)
Definition sweep_step (C : R) (cs : list cons) (dense : vec) (st : option ((nat -> R) * vec)) (ij : nat * nat) : option ((nat -> R) * vec) :=
  match st with
  | None => None
  | Some (alpha, w) =>
    match nth_error cs (snd ij), nth_error cs (fst ij) with
    | Some cj, Some ci =>
      match ComputeDelta C dense cj ci (alpha (snd ij)) (alpha (fst ij)) with
      | None => None
      | Some delta => Some (move alpha (snd ij) (fst ij) delta,
          vsub (vadd w (vscale (delta * C) (features ci))) (vscale (delta * C) (features cj)))
      end
    | _, _ => None
    end
  end.
Definition pairs (k : nat) : list (nat * nat) := flat_map (fun i => map (fun j => (i, j)) (seq (S i) (k - S i))) (seq 0 k).
Definition sweep (C : R) (cs : list cons) (w : vec) : option ((nat -> R) * vec) :=
  fold_left (sweep_step C cs w) (pairs (length cs)) (Some (alpha0, w)).

(** kbest_cut_mira.cc:814-817: the constraints of --optimizer 5: good, then the hypotheses of
    the decoder (made anew, kbest_cut_mira.cc:470, and never given an oracle), then bad *)
Definition nbest_constraints (fear_select : nat) (w : vec) (oracle : hyp) (goods bests bads : list hyp) : list cons :=
  map (fun h => snd (annotate fear_select w oracle h)) goods ++
  map (fun h => Cons (fst h) 0 None) bests ++
  map (fun h => snd (annotate fear_select w oracle h)) bads.

(** kbest_cut_mira.cc:185-229 CuttingPlane with --no_reweight: the hope and then the fear
    hypothesis are looked for in the list of the bad hypotheses; set: the violations of the
    constraints there are. The constraint which is added, if any. *)
Fixpoint best_by (g : hyp -> R) (h : hyp) (l : list hyp) : hyp :=
  match l with [] => h | x :: l' => best_by g (if Rlt_dec (g h) (g x) then x else h) l' end.
Definition cut_fear (w : vec) (hope h : hyp) : R := -1 * snd h + 1 * snd hope - dot (fst hope) w + dot (fst h) w.
Definition cut_no_reweight (w : vec) (bads : list hyp) (set : list R) : option hyp :=
  match bads, set with
  | b :: bs, s :: ss =>
    let hope := best_by (fun h => 1 * snd h + dot (fst h) w) b bs in
    let worst := best_by (cut_fear w hope) b bs in
    if Rlt_dec (fold_left Rmax ss s + SMO_EPSILON) (cut_fear w hope worst) then Some worst else None
  | _, _ => None
  end.
