(** Model of hypergraph pruning, decoder/hg.cc: PruneEdges (257-288),
    MarginPrune (292-317), nth_greatest (319-323) and PruneInsideOutside
    (325-375) with use_sum_prod_semiring = false, which is how the decoder
    calls it (decoder.cc 197, scfg_translator.cc 231); and of
    InsideOutsides::compute and compute_edge_marginals (inside_outside.h
    114-130, 151-167).

    A prob_t is held as its logarithm (logval.h): here a rational number, or
    [None] for log 0.  Floating-point rounding is not modelled.  Tropical
    values (hg.cc 120-140) are such logarithms with maximum and sum.  What is
    printed is left out. *)
From Coq Require Import List Arith Bool ZArith QArith Qround Qcanon.
From Verif Require Import HG Inside Topo Viterbi.
Import ListNotations.
Local Open Scope nat_scope.

(** ** Log-probabilities *)
Definition lp := option Qc.
(** prob_t(), prob_t(1) *)
Definition lzero : lp := None.
Definition lone : lp := Some 0%Qc.
(** logval.h, operator*= : sum of the logarithms *)
Definition ltimes (a b : lp) : lp :=
  match a, b with Some x, Some y => Some (x + y)%Qc | _, _ => None end.
Definition qltb (x y : Qc) : bool := match Qccompare x y with Lt => true | _ => false end.
(** logval.h 219-226 *)
Definition lltb (a b : lp) : bool :=
  match a, b with
  | None, Some _ => true
  | Some x, Some y => qltb x y
  | _, None => false
  end.
(** hg.cc 130-133 *)
Definition lmax (a b : lp) : lp := if lltb a b then b else a.

Inductive prune_out (G : Type) :=
| Pruned (g : G)
| Asserts            (* an assertion fails *)
| Cyclic             (* the topological sort finds a cycle and aborts *)
| NoBest             (* no derivation of non-zero probability: 1/0, not modelled further *)
| Oob.               (* an index is out of range *)
Arguments Pruned {G}. Arguments Asserts {G}. Arguments Cyclic {G}. Arguments NoBest {G}. Arguments Oob {G}.

Section Prune.
Context {P : Type}.

Definition of_topo (o : topo_out (hg P)) : prune_out (hg P) :=
  match o with Sorted g => Pruned g | CycleFound => Cyclic | OutOfBounds | NoFuel => Oob end.

(** hg.cc 248-255.  The mask has one entry per edge (258) and ids are
    positions, so the index is in range. *)
Definition exists_weight (mask : list bool) (ed : edge P) : bool := negb (nth (eid ed) mask false).

(** 276-281 *)
Fixpoint some_unreachable (reachable : list bool) (ts : list nat) : option bool :=
  match ts with
  | [] => Some false
  | t :: r => match nth_error reachable t with Some true => some_unreachable reachable r | Some false => Some true | None => None end
  end.
(** 271-284 *)
Fixpoint filter_edges (reachable mask : list bool) (es : list (edge P)) : option (list bool) :=
  match mask, es with
  | [], [] => Some []
  | true :: m, _ :: r => match filter_edges reachable m r with Some l => Some (true :: l) | None => None end
  | false :: m, ed :: r =>
    match some_unreachable reachable (tails ed), filter_edges reachable m r with Some b, Some l => Some (b :: l) | _, _ => None end
  | _, _ => None
  end.

(** hg.h 158: Node() *)
Definition new_node : node := {| nid := 0; cat := 0%Z; in_edges := []; out_edges := [] |}.

(** 257-288 *)
Definition PruneEdges (mask : list bool) (run_inside : bool) (g : hg P) : prune_out (hg P) :=
  if negb (length mask =? length (edges g)) then Asserts else
  if run_inside then
    match Inside false orb andb (exists_weight mask) g with
    | None => Oob
    | Some reachable =>
      if negb (last reachable false) then Pruned {| nodes := [new_node]; edges := [] |}
      else match filter_edges reachable mask (edges g) with
           | Some filtered => of_topo (TopoSort (length (nodes g) - 1) (Some filtered) g)
           | None => Oob
           end
    end
  else of_topo (TopoSort (length (nodes g) - 1) (Some mask) g).

(** edge_prob_ *)
Variable prob : P -> lp.
Definition eprob (ed : edge P) : lp := prob (lab ed).

(** inside_outside.h 151-166: the marginal of each edge which some node lists;
    others keep the default value. *)
Fixpoint marg_edges (g : hg P) (ins : list lp) (o : lp) (es : list nat) (mm : list lp) : option (list lp) :=
  match es with
  | [] => Some mm
  | e :: r =>
    match nth_error (edges g) e with
    | Some ed =>
      match mul_tails ltimes ins (tails ed) (ltimes (eprob ed) o) with
      | Some x => match upd mm e (fun _ => x) with Some mm' => marg_edges g ins o r mm' | None => None end
      | None => None
      end
    | None => None
    end
  end.
Fixpoint marg_nodes (g : hg P) (ins out : list lp) (ns : list node) (mm : list lp) : option (list lp) :=
  match ns, out with
  | [], _ => Some mm
  | nd :: r, o :: os => match marg_edges g ins o (in_edges nd) mm with Some mm' => marg_nodes g ins os r mm' | None => None end
  | _, [] => None
  end.

Inductive marg_out := Marg (mm : list lp) | MNoBest | MOob.
(** 345-352: inside scores, outside scores scaled by one over the goal's inside
    score (inside_outside.h 100, 123-129), marginals. *)
Definition Marginals (g : hg P) : marg_out :=
  match Inside lzero lmax ltimes eprob g with
  | None => MOob
  | Some ins =>
    match nth_error ins (length ins - 1) with
    | None => MOob
    | Some None => MNoBest
    | Some (Some b) =>
      match Outside lzero lone lmax ltimes eprob g ins (Some (- b)%Qc) with
      | None => MOob
      | Some out =>
        match marg_nodes g ins out (nodes g) (repeat lzero (length (edges g))) with
        | Some mm => Marg mm
        | None => MOob
        end
      end
    end
  end.

(** 298-312.  [cut] is the cutoff before the edge, [creep] the factor.  A
    cutoff of log 0 becomes not-a-number in the first multiplication ([None]
    here), and nothing is smaller than that. *)
Fixpoint margin_loop (preserve : option (list bool)) (creep : Qc) (cut : lp) (i : nat) (io : list lp) : option (list bool) :=
  match io with
  | [] => Some []
  | m :: r =>
    let cut' := match cut with Some c => Some (c + creep)%Qc | None => None end in
    match margin_loop preserve creep cut' (S i) r with
    | None => None
    | Some l =>
      if match cut' with Some c => lltb m (Some c) | None => false end then
        match preserve with
        | None => Some (true :: l)
        | Some p => match nth_error p i with Some b => Some (negb b :: l) | None => None end
        end
      else Some (false :: l)
    end
  end.
(** 298: abslog(cutoff).pow(1e-6) *)
Definition creep_of (cut : lp) : Qc :=
  match cut with
  | Some c => ((if qltb c 0 then - c else c) * Q2Qc (1 # 1000000))%Qc
  | None => 0%Qc
  end.
(** 292-317 *)
Definition MarginPrune (io : list lp) (cut : lp) (preserve : option (list bool)) (safe : bool) (g : hg P) : prune_out (hg P) :=
  if negb (length io =? length (edges g)) then Asserts else
  match margin_loop preserve (creep_of cut) cut 0 io with
  | Some mask => PruneEdges mask safe g
  | None => Oob
  end.

(** 319-323: the entry at place [n] in descending order.  (nth_element puts
    there what sorting would.) *)
Fixpoint insert_desc (x : lp) (l : list lp) : list lp :=
  match l with [] => [x] | y :: r => if lltb x y then y :: insert_desc x r else x :: l end.
Definition sort_desc (l : list lp) : list lp := fold_right insert_desc [] l.
Definition nth_greatest (n : nat) (vs : list lp) : option lp := nth_error (sort_desc vs) n.

(** viterbi.cc, ViterbiPathLength: the number of edges of the Viterbi
    derivation (viterbi.h 99-108). *)
Definition ViterbiPathLength (g : hg P) : option nat :=
  match Viterbi lzero lone ltimes lltb eprob 0 PathLengthTraversal g with
  | Some (_, Some k) => Some k
  | Some (_, None) => Some 0
  | None => None
  end.

(** 336: static_cast<unsigned>(density * plen), for density >= 1 *)
Definition scaled (density : Q) (plen : nat) : nat := Z.to_nat (Qround.Qfloor (density * inject_Z (Z.of_nat plen))).

(** 353-373, once the marginals are known; [rnum] is given if density pruning
    is on. *)
Definition choose_cutoff (rnum : option nat) (alpha : Qc) (mm : list lp) : option (lp * bool) :=
  let use_beam := negb (Qc_eq_bool alpha 0) in
  match (match rnum with Some n => option_map Some (nth_greatest n mm) | None => Some None end) with
  | None => None
  | Some dens =>
    if use_beam then
      let beam_cut : lp := Some (- alpha)%Qc in
      match dens with
      | Some c => if lltb beam_cut c then Some (c, true) else Some (beam_cut, false)
      | None => Some (beam_cut, false)
      end
    else match dens with Some c => Some (c, true) | None => Some (lone, false) end
  end.

(** 325-375.  The second component is the value returned. *)
Definition PruneInsideOutside (alpha : Qc) (density : Q) (preserve : option (list bool)) (safe : bool) (g : hg P)
  : prune_out (hg P * bool) :=
  let use_density := negb (Qeq_bool density 0) in
  let use_beam := negb (Qc_eq_bool alpha 0) in
  if (use_beam && qltb alpha 0) || (use_density && negb (Qle_bool 1 density)) then Asserts else
  let run (rnum : option nat) :=
    match Marginals g with
    | MOob => Oob
    | MNoBest => NoBest
    | Marg mm =>
      match choose_cutoff rnum alpha mm with
      | None => Oob
      | Some (cut, won) =>
        match MarginPrune mm cut preserve safe g with
        | Pruned g' => Pruned (g', won)
        | Asserts => Asserts | Cyclic => Cyclic | NoBest => NoBest | Oob => Oob
        end
      end
    end in
  if use_density then
    match ViterbiPathLength g with
    | None => Oob
    | Some plen =>
      let rnum := Nat.min (length (edges g)) (scaled density plen) in
      if rnum =? length (edges g) then
        (if use_beam then run None else Pruned (g, false))
      else run (Some rnum)
    end
  else if use_beam then run None else Asserts.
End Prune.
