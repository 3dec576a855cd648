(** decoder/phrasebased_translator.cc and decoder/phrasetable_fst.cc: the phrase-based decoder.
    Rules are abstract (what TRule::CreateRulePhrasetable makes of a line is not modelled: a line is its source words and its rule);
    features and weights are left out. A pointer to a trie node is the node itself.
    The reference to the arcs of the position behind the last (142) is formed but not used, and left out.
    [None]: an access out of bounds, a failed assertion, an abort, or the bound [fuel] on the number of states reached. *)
From Coq Require Import List Arith ZArith Bool.
From Verif Require Import Opt HG Topo.
Import ListNotations.
Local Open Scope nat_scope.
Open Scope opt_scope.

Section T.
Context {R : Type}.
(** phrasetable_fst.cc 31-50 *)
Inductive trie := Node (data_ : option (list R)) (kids_ : list (Z * trie)).
Definition data (t : trie) : option (list R) := match t with Node d _ => d end.
Definition kids (t : trie) : list (Z * trie) := match t with Node _ k => k end.
Definition no_trie : trie := Node None [].
Fixpoint find (w : Z) (ks : list (Z * trie)) : option trie := match ks with [] => None | (v, t) :: r => if Z.eqb v w then Some t else find w r end.
Fixpoint put (w : Z) (t : trie) (ks : list (Z * trie)) : list (Z * trie) :=
  match ks with [] => [(w, t)] | (v, x) :: r => if Z.eqb v w then (v, t) :: r else (v, x) :: put w t r end.
Fixpoint erase (w : Z) (ks : list (Z * trie)) : list (Z * trie) := match ks with [] => [] | (v, x) :: r => if Z.eqb v w then erase w r else (v, x) :: erase w r end.
(** 36-40 *)
Definition Extend (t : trie) (w : Z) : option trie := find w (kids t).
(** operator[] of a map *)
Definition child_of (t : trie) (w : Z) : trie := match find w (kids t) with Some k => k | None => no_trie end.
(** 60-77 *)
Fixpoint AddPhrase (f : list Z) (r : R) (t : trie) : trie :=
  match f with
  | [] => Node (Some (match data t with Some l => l ++ [r] | None => [r] end)) (kids t)
  | w :: f' => Node (data t) (put w (AddPhrase f' r (child_of t w)) (kids t))
  end.
(** 103-124 *)
Definition LoadTextPhrasetable (table : list (list Z * R)) : trie := fold_left (fun t p => AddPhrase (fst p) (snd p) t) table no_trie.

Variable pass : Z -> R.
(** 79-95, with the list of the words added *)
Definition AddPassThroughTranslation (s : trie * list Z) (w : Z) : trie * list Z :=
  let '(t, ps) := s in
  let next := child_of t w in
  match data next with
  | Some _ => (Node (data t) (put w next (kids t)), ps)
  | None => (Node (data t) (put w (Node (Some [pass w]) (kids next)) (kids t)), ps ++ [w])
  end.
(** 97-101 *)
Definition ClearPassThroughTranslations (s : trie * list Z) : trie := Node (data (fst s)) (fold_left (fun ks w => erase w ks) (snd s) (kids (fst s))).
End T.
Arguments trie : clear implicits.

(** phrasebased_translator.cc 27-53 *)
Record coverage := { bits : list bool; first_gap : nat }.
Fixpoint set_bits (k i : nat) (c : list bool) : option (list bool) := match k with O => Some c | S k' => c' <- upd c i (fun _ => true) ;; set_bits k' (S i) c' end.
Fixpoint leading (c : list bool) : nat := match c with true :: r => S (leading r) | _ => 0 end.
(** 29-42; what is read behind the last element (37) makes no difference and is left out *)
Definition Cover (i j : nat) (cov : coverage) : option coverage :=
  b <- set_bits (j - i) i (bits cov) ;;
  Some {| bits := b; first_gap := if first_gap cov =? i then j + leading (skipn j b) else first_gap cov |}.
Fixpoint any_bit (k i : nat) (c : list bool) : option bool := match k with O => Some false | S k' => b <- nth_error c i ;; if b : bool then Some true else any_bit k' (S i) c end.
(** 43-49 *)
Definition Collides (i j : nat) (cov : coverage) : option bool := any_bit (j - i) i (bits cov).

Inductive plabel (R : Type) := Phrase (i j : nat) (r : R) | Concat | GoalRule.
Arguments Phrase {R}. Arguments Concat {R}. Arguments GoalRule {R}.

Section P.
Context {R : Type}.
Variable pass : Z -> R.
Variable max_distortion : nat.
Variables kNT_TYPE kGOAL : Z.
Notation L := (plabel R).

(** 90-97 *)
Record state := { s_cov : coverage; s_i : nat; s_j : nat; s_fst : trie R }.
(** 132-134: the queue, the coverages extended, the nodes of coverages (plus one) and the forest *)
Record work := { queue : list state; ucs : list (list bool); cmap : list (list bool * nat); forest : hg L }.
Definition same (a b : list bool) : bool := if list_eq_dec bool_dec a b then true else false.
Fixpoint node_of (c : list bool) (m : list (list bool * nat)) : option nat := match m with [] => None | (k, v) :: r => if same k c then Some v else node_of c r end.
(** 102-109 *)
Definition EnqueuePossibleContinuations (root : trie R) (cov : coverage) (w : work) : work :=
  if existsb (same (bits cov)) (ucs w) then w
  else
    let gap := first_gap cov in
    let stop := Nat.min (length (bits cov)) (gap + max_distortion + 1) in
    {| queue := queue w ++ map (fun i => {| s_cov := cov; s_i := i; s_j := i; s_fst := root |}) (filter (fun i => negb (nth i (bits cov) true)) (seq gap (stop - gap)));
       ucs := bits cov :: ucs w; cmap := cmap w; forest := forest w |}.
(** 150-156 *)
Fixpoint add_phrases (i j : nat) (rs : list R) (p : nat) (g : hg L) : option (hg L) :=
  match rs with
  | [] => Some g
  | r :: rest => g1 <- AddEdge [] (Phrase i j r) g ;; g2 <- Connect (length (edges g)) p g1 ;; add_phrases i j rest p g2
  end.
(** 144-172 *)
Definition apply_phrases (root : trie R) (s : state) (w : work) : option work :=
  match data (s_fst s) with
  | None => Some w
  | Some phrases =>
      cov <- Cover (s_i s) (s_j s) (s_cov s) ;;
      let w1 := EnqueuePossibleContinuations root cov w in
      g1 <- AddNode kNT_TYPE (forest w1) ;;
      let p := length (nodes (forest w1)) in
      g2 <- add_phrases (s_i s) (s_j s) phrases p g1 ;;
      tail <- node_of (bits (s_cov s)) (cmap w1) ;;
      match tail with
      | O => Some {| queue := queue w1; ucs := ucs w1; cmap := (bits cov, S p) :: cmap w1; forest := g2 |}
      | S t =>
          ' (h, g3, m) <- match node_of (bits cov) (cmap w1) with
                          | Some (S h) => Some (h, g2, cmap w1)
                          | _ => g3 <- AddNode kNT_TYPE g2 ;; Some (length (nodes g2), g3, (bits cov, S (length (nodes g2))) :: cmap w1)
                          end ;;
          g4 <- AddEdge [t; p] Concat g3 ;;
          g5 <- Connect (length (edges g3)) h g4 ;;
          Some {| queue := queue w1; ucs := ucs w1; cmap := m; forest := g5 |}
      end
  end.
(** 174-184 *)
Fixpoint extend_all (s : state) (arcs : list (Z * nat)) (q : list state) : option (list state) :=
  match arcs with
  | [] => Some q
  | (label, dist) :: r =>
      match Extend (s_fst s) label with
      | None => extend_all s r q
      | Some k =>
          col <- Collides (s_i s) (s_j s + dist) (s_cov s) ;;
          if col : bool then extend_all s r q else extend_all s r (q ++ [{| s_cov := s_cov s; s_i := s_i s; s_j := s_j s + dist; s_fst := k |}])
      end
  end.
(** 139-185 *)
Fixpoint loop (lattice : list (list (Z * nat))) (root : trie R) (fuel : nat) (w : work) : option work :=
  match queue w with
  | [] => Some w
  | s :: q =>
      match fuel with
      | O => None
      | S f =>
          w1 <- apply_phrases root s {| queue := q; ucs := ucs w; cmap := cmap w; forest := forest w |} ;;
          if s_j s =? length lattice then loop lattice root f w1
          else
            arcs <- nth_error lattice (s_j s) ;;
            q2 <- extend_all s arcs (queue w1) ;;
            loop lattice root f {| queue := q2; ucs := ucs w1; cmap := cmap w1; forest := forest w1 |}
      end
  end.
(** 132-204: [Some None] if it returns false *)
Definition Translate (lattice : list (list (Z * nat))) (root : trie R) (fuel : nat) : option (option (hg L)) :=
  let empty_cov := {| bits := repeat false (length lattice); first_gap := 0 |} in
  w <- loop lattice root fuel (EnqueuePossibleContinuations root empty_cov {| queue := []; ucs := []; cmap := [(repeat false (length lattice), 0)]; forest := empty_hg |}) ;;
  match node_of (repeat true (length lattice)) (cmap w) with
  | Some (S p) =>
      g1 <- AddNode kGOAL (forest w) ;;
      let goal := length (nodes (forest w)) in
      g2 <- AddEdge [p] GoalRule g1 ;;
      g3 <- Connect (length (edges g1)) goal g2 ;;
      match TopoSort goal None g3 with Sorted g => Some (Some g) | _ => None end
  | _ => Some None
  end.
(** 111-204 with the pass-through rules: the forest and the trie the next sentence is translated with *)
Definition TranslateLine (add_pass_through_rules : bool) (lattice : list (list (Z * nat))) (fst_ : trie R) (fuel : nat) : option (option (hg L) * trie R) :=
  if add_pass_through_rules
  then let s := fold_left (AddPassThroughTranslation pass) (map fst (concat lattice)) (fst_, []) in
       r <- Translate lattice (fst s) fuel ;; Some (r, ClearPassThroughTranslations s)
  else r <- Translate lattice fst_ fuel ;; Some (r, fst_).
(** The decoder run on one input after the other. *)
Fixpoint TranslateLines (add_pass_through_rules : bool) (lattices : list (list (list (Z * nat)))) (fst_ : trie R) (fuel : nat) : option (list (option (hg L))) :=
  match lattices with
  | [] => Some []
  | l :: r => ' (g, t) <- TranslateLine add_pass_through_rules l fst_ fuel ;; gs <- TranslateLines add_pass_through_rules r t fuel ;; Some (g :: gs)
  end.
End P.
