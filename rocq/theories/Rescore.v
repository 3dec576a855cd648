(** Model of full model intersection, decoder/apply_models.cc 523-614
    (NoPruningRescorer).

    [P] is the payload of an input edge, [Q] of an output edge: its features and
    probability after the models were applied.  A model set is given by two
    functions: [feat] for AddFeaturesToEdge (ffset.cc 30-60), which takes the
    states of the tails and returns the payload and the state of the head, and
    [final] for AddFinalFeatures (62-76).  Their arguments are the input edge
    and the states: that a feature function could also look at the numbers of
    the output tails is left out, as are node hashes.  [eqS] is equality of
    state vectors; the map from states to nodes is an association list.  An
    access out of bounds or a failed assertion is [None]. *)
From Coq Require Import List Arith ZArith Bool.
From Verif Require Import HG.
Import ListNotations.

Section M.
Context {P Q St : Type}.
Variable eqS : St -> St -> bool.
Variable empty : St.
Variable feat : edge P -> list St -> Q * St.
Variable final : edge P -> St -> Q.
Variable lhs : edge P -> Z.

(** 609-612 *)
Record rescorer := { out : hg Q; nodemap : list (list nat); node_states : list St }.

(** 546-547 *)
Fixpoint get_tail (nm : list (list nat)) (ts it : list nat) : option (list nat) :=
  match ts, it with
  | [], [] => Some []
  | t :: ts', i :: it' =>
    match nth_error nm t with
    | Some l => match nth_error l i, get_tail nm ts' it' with Some x, Some r => Some (x :: r) | _, _ => None end
    | None => None
    end
  | _, _ => None
  end.
(** The states which AddFeaturesToEdge reads (ffset.cc 51-53). *)
Fixpoint get_states (ns : list St) (ts : list nat) : option (list St) :=
  match ts with
  | [] => Some []
  | t :: r => match nth_error ns t, get_states ns r with Some s, Some l => Some (s :: l) | _, _ => None end
  end.
Fixpoint find_state (s2n : list (St * nat)) (s : St) : option nat :=
  match s2n with
  | [] => None
  | (s', n) :: r => if eqS s s' then Some n else find_state r s
  end.

(** 549-557; the state of a goal node is the empty vector. *)
Definition apply_models (is_goal : bool) (ed : edge P) (ants : list St) : option (Q * St) :=
  if is_goal then match ants with [a] => Some (final ed a, empty) | _ => None end
  else Some (feat ed ants).

(** 545-567: one combination of tails *)
Definition expand_one (is_goal : bool) (ed : edge P) (it : list nat) (s : rescorer) (s2n : list (St * nat))
    : option (rescorer * list (St * nat)) :=
  match get_tail (nodemap s) (tails ed) it with
  | None => None
  | Some ts =>
    match get_states (node_states s) ts with
    | None => None
    | Some ants =>
      match apply_models is_goal ed ants with
      | None => None
      | Some (l, hs) =>
        match AddEdge ts l (out s) with
        | None => None
        | Some g1 =>
          match find_state s2n hs with
          | Some h =>
            match Connect (length (edges (out s))) h g1 with
            | Some g2 => Some ({| out := g2; nodemap := nodemap s; node_states := node_states s |}, s2n)
            | None => None
            end
          | None =>
            let h := length (nodes g1) in
            match AddNode (lhs ed) g1, head ed with
            | Some g2, Some hd =>
              match upd (nodemap s) hd (fun l => l ++ [h]), Connect (length (edges (out s))) h g2 with
              | Some nm, Some g3 => Some ({| out := g3; nodemap := nm; node_states := node_states s ++ [hs] |}, (hs, h) :: s2n)
              | _, _ => None
              end
            | _, _ => None
            end
          end
        end
      end
    end
  end.

(** 569-575: the next combination; [None] when all have been seen *)
Fixpoint advance (ends it : list nat) : option (list nat) :=
  match ends, it with
  | e :: es, i :: is => if S i <? e then Some (S i :: is) else option_map (cons 0) (advance es is)
  | _, _ => None
  end.

(** 543-576 *)
Fixpoint expand_loop (fuel : nat) (is_goal : bool) (ed : edge P) (ends it : list nat) (s : rescorer) (s2n : list (St * nat)) :=
  match fuel with
  | O => None
  | S f =>
    match expand_one is_goal ed it s s2n with
    | None => None
    | Some (s', s2n') => match advance ends it with Some it' => expand_loop f is_goal ed ends it' s' s2n' | None => Some (s', s2n') end
    end
  end.
Fixpoint prod (l : list nat) : nat := match l with [] => 1 | x :: r => x * prod r end.
(** 538-540 *)
Fixpoint sizes (nm : list (list nat)) (ts : list nat) : option (list nat) :=
  match ts with
  | [] => Some []
  | t :: r => match nth_error nm t, sizes nm r with Some l, Some k => Some (length l :: k) | _, _ => None end
  end.
(** 536-577 *)
Definition expand_edge (is_goal : bool) (ed : edge P) (s : rescorer) (s2n : list (St * nat)) :=
  match sizes (nodemap s) (tails ed) with
  | Some ends => expand_loop (S (prod ends)) is_goal ed ends (map (fun _ => 0) ends) s s2n
  | None => None
  end.

Variable g : hg P.
(** 579-586 *)
Fixpoint process_edges (is_goal : bool) (es : list nat) (s : rescorer) (s2n : list (St * nat)) :=
  match es with
  | [] => Some s
  | e :: r =>
    match nth_error (edges g) e with
    | Some ed => match expand_edge is_goal ed s s2n with Some (s', s2n') => process_edges is_goal r s' s2n' | None => None end
    | None => None
    end
  end.
Fixpoint process_nodes (i : nat) (ns : list node) (s : rescorer) : option rescorer :=
  match ns with
  | [] => Some s
  | nd :: r =>
    match process_edges (i =? length (nodes g) - 1) (in_edges nd) s [] with
    | Some s' => process_nodes (S i) r s'
    | None => None
    end
  end.
(** 588-603; the assertion is the one of line 592 *)
Definition Rescore : option (hg Q) :=
  match nth_error (nodes g) (length (nodes g) - 2) with
  | Some pregoal =>
    if (2 <=? length (nodes g)) && (length (out_edges pregoal) =? 1) then
      option_map out (process_nodes 0 (nodes g) {| out := empty_hg; nodemap := map (fun _ => []) (nodes g); node_states := [] |})
    else None
  | None => None
  end.
End M.
