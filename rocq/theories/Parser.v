(** decoder/bottom_up_parser.cc: exhaustive bottom-up parsing of a lattice, with the text
    grammars of decoder/grammar.cc (AddRule 98-116, Extend 60-64, HasRuleForSpan) and the
    glue and pass-through span tests of decoder/scfg_translator.cc 56-58, 89-91.
    Simplifications: a rule is its identity, left-hand side, source side and arity; the
    summed lattice features of an item or edge are the list of the arcs they come from; for
    reference, that list also shows where the antecedents lie between the arcs ([None]).
    Array2D and the maps are taken at their specification (C09), as functions; node hashes
    and coarse-to-fine levels are left out.  Positions are naturals, so an arc cannot go
    backwards.  [None]: an access out of bounds, a failed assertion, a list extended while
    it is traversed, abort() on a cyclic forest, or (never, it is shown) no end. *)
From Coq Require Import List ZArith Bool Lia.
From Verif Require Import Opt HG Topo.
Import ListNotations.
Open Scope opt_scope.

(** decoder/trule.h; categories are negative *)
Record rule := { rid : nat; lhs : Z; rf : list Z; arity : Z }.
(** trule.h 135 *)
Definition IsUnary (r : rule) : bool := andb (Z.eqb (arity r) 1) (Nat.eqb (length (rf r)) 1).

(** ** Grammars *)
(** TextGrammarNode (grammar.cc 55-75): rb_ (no bin and an empty bin are the same) and tree_ *)
Inductive trie := Trie (bin : list rule) (kids : list (Z * trie)).
Definition GetRules (t : trie) : list rule := let 'Trie b _ := t in b.
Definition find {A} (s : Z) (m : list (Z * A)) : option A :=
  option_map snd (List.find (fun p => Z.eqb (fst p) s) m).
(** 60-64 *)
Definition Extend (s : Z) (t : trie) : option trie := let 'Trie _ k := t in find s k.
Fixpoint insert {A} (s : Z) (v : A) (m : list (Z * A)) : list (Z * A) :=
  match m with
  | [] => [(s, v)]
  | (k, x) :: r => if Z.eqb k s then (k, v) :: r else (k, x) :: insert s v r
  end.
(** 109-114 *)
Fixpoint add_path (f : list Z) (r : rule) (t : trie) : trie :=
  let 'Trie b k := t in
  match f with
  | [] => Trie (b ++ [r]) k
  | s :: f' => Trie b (insert s (add_path f' r (match find s k with Some t' => t' | None => Trie [] [] end)) k)
  end.
Record grammar := { root : trie; unaries : list rule; has_span : nat -> nat -> Z -> bool }.
(** TextGrammar::AddRule (98-116), ctf_level 0 *)
Definition AddRule (g : grammar) (r : rule) : grammar :=
  if IsUnary r then {| root := root g; unaries := unaries g ++ [r]; has_span := has_span g |}
  else {| root := add_path (rf r) r (root g); unaries := unaries g; has_span := has_span g |}.
(** A text grammar with the given span test, to which the rules are added in turn. *)
Definition load_grammar (hs : nat -> nat -> Z -> bool) (rs : list rule) : grammar :=
  fold_left AddRule rs {| root := Trie [] []; unaries := []; has_span := hs |}.
(** grammar.cc 131-133; scfg_translator.cc 56-58, 89-91 *)
Definition text_span (max_span : Z) : nat -> nat -> Z -> bool := fun _ _ d => Z.leb d max_span.
Definition glue_span : nat -> nat -> Z -> bool := fun i _ _ => Nat.eqb i 0.
Definition pass_span : nat -> nat -> Z -> bool := fun _ _ d => Z.ltb d 4.

(** ** Sorting the unary rules (178-227) *)
Definition upd_mark (m : Z -> nat) (c : Z) (v : nat) : Z -> nat := fun x => if Z.eqb x c then v else m x.
Section Sort.
(** g (207): the unary rules by the category on their right *)
Variable from : Z -> list rule.
(** 189-195; [visit] is the recursive call *)
Fixpoint visit_edges (visit : Z -> list rule -> (Z -> nat) -> option (bool * list rule * (Z -> nat)))
    (es : list rule) (u : list rule) (mark : Z -> nat) : option (list rule * list rule * (Z -> nat)) :=
  match es with
  | [] => Some ([], u, mark)
  | e :: r =>
      ' (ok, u1, m1) <- visit (lhs e) u mark ;;
      ' (oks, u2, m2) <- visit_edges visit r u1 m1 ;;
      Some (if ok : bool then e :: oks else oks, u2, m2)
  end.
(** TopoSortVisit (178-203); [fuel] bounds the depth of the recursion *)
Fixpoint TopoSortVisit (fuel : nat) (node : Z) (u : list rule) (mark : Z -> nat) : option (bool * list rule * (Z -> nat)) :=
  match fuel with
  | O => None
  | S k =>
      if Nat.eqb (mark node) 1 then Some (false, u, mark)
      else if Nat.eqb (mark node) 2 then Some (true, u, mark)
      else
        ' (oks, u1, m1) <- visit_edges (TopoSortVisit k) (from node) u (upd_mark mark node 1) ;;
        Some (true, u1 ++ oks, upd_mark m1 node 2)
  end.
(** 216-223 *)
Fixpoint visit_all (fuel : nat) (keys : list Z) (u : list rule) (mark : Z -> nat) : option (list rule) :=
  match keys with
  | [] => Some u
  | c :: r =>
      if Nat.ltb 0 (mark c) then visit_all fuel r u mark
      else ' (_, u1, m1) <- TopoSortVisit fuel c u mark ;; visit_all fuel r u1 m1
  end.
End Sort.
(** f()[0]; unary rules have one symbol *)
Definition rhs (r : rule) : Z := hd 0%Z (rf r).
(** keys of a std::map: ascending, once each *)
Fixpoint key_insert (c : Z) (l : list Z) : list Z :=
  match l with
  | [] => [c]
  | x :: r => if Z.eqb c x then l else if Z.ltb c x then c :: l else x :: key_insert c r
  end.
(** TopoSortUnaries (205-227) *)
Definition TopoSortUnaries (goal_cat : Z) (us : list rule) : option (list rule) :=
  let from c := filter (fun r => Z.eqb (rhs r) c) us in
  let keys := fold_left (fun l r => key_insert (rhs r) l) us [] in
  u <- visit_all from (S (S (length us))) keys [] (upd_mark (fun _ => 0%nat) goal_cat 2) ;;
  Some (rev u).

(** ** The charts *)
Record arc := { label : Z; len : nat }.
(** (position, number) of an arc, or an antecedent *)
Definition shape := list (option (nat * nat)).
Record item := { gptr : trie; ants : list nat; feats : shape }.
Record payload := { p_rule : rule; p_feats : shape; p_i : nat; p_j : nat }.
Record state := {
  forest : hg payload;
  chart : nat -> nat -> list nat;
  nodemap : nat -> nat -> list (Z * nat);
  act : nat -> nat -> nat -> list item;
  goal_idx : option nat }.
Definition set2 {A} (m : nat -> nat -> A) (i j : nat) (v : A) : nat -> nat -> A :=
  fun a b => if andb (Nat.eqb a i) (Nat.eqb b j) then v else m a b.
Definition set_act (s : state) (gi i j : nat) (v : list item) : state :=
  {| forest := forest s; chart := chart s; nodemap := nodemap s;
     act := fun g => if Nat.eqb g gi then set2 (act s g) i j v else act s g; goal_idx := goal_idx s |}.

Section Parse.
(** [Goal], *EPS* *)
Variables kGOAL kEPS : Z.
Variable input : list (list arc).
Variable dist : nat -> nat -> Z.
Variable goal_cat : Z.
Variable goal_rule : rule.
Let n := length input.

(** ApplyRule (229-259) *)
Definition ApplyRule (i j : nat) (r : rule) (tl : list nat) (lf : shape) (s : state) : option state :=
  g1 <- AddEdge tl {| p_rule := r; p_feats := lf; p_i := i; p_j := j |} (forest s) ;;
  let e := length (edges (forest s)) in
  match find (lhs r) (nodemap s i j) with
  | Some nd =>
      g2 <- ConnectPtr e nd g1 ;;
      Some {| forest := g2; chart := chart s; nodemap := nodemap s; act := act s; goal_idx := goal_idx s |}
  | None =>
      g2 <- AddNode (lhs r) g1 ;;
      let nd := length (nodes g1) in
      g3 <- ConnectPtr e nd g2 ;;
      let nm := set2 (nodemap s) i j (nodemap s i j ++ [(lhs r, nd)]) in
      if Z.eqb (lhs r) kGOAL then
        match goal_idx s with
        | Some _ => None
        | None => Some {| forest := g3; chart := chart s; nodemap := nm; act := act s; goal_idx := Some nd |}
        end
      else Some {| forest := g3; chart := set2 (chart s) i j (chart s i j ++ [nd]); nodemap := nm; act := act s; goal_idx := goal_idx s |}
  end.
(** ApplyRules (261-272) *)
Fixpoint ApplyRules (i j : nat) (rs : list rule) (tl : list nat) (lf : shape) (s : state) : option state :=
  match rs with [] => Some s | r :: q => s1 <- ApplyRule i j r tl lf s ;; ApplyRules i j q tl lf s1 end.
(** 278-285 *)
Fixpoint apply_unaries (i j : nat) (c : Z) (nd : nat) (us : list rule) (s : state) : option state :=
  match us with
  | [] => Some s
  | r :: q =>
      s1 <- (if Z.eqb (rhs r) c then ApplyRule i j r [nd] [None] s else Some s) ;;
      apply_unaries i j c nd q s1
  end.
(** 276-286: the list of nodes grows during the loop *)
Fixpoint unary_loop (fuel : nat) (i j : nat) (us : list rule) (di : nat) (s : state) : option state :=
  match fuel with
  | O => None
  | S k =>
      match nth_error (chart s i j) di with
      | None => Some s
      | Some nd =>
          v <- nth_error (nodes (forest s)) nd ;;
          s1 <- apply_unaries i j (cat v) nd us s ;;
          unary_loop k i j us (S di) s1
      end
  end.
(** ApplyUnaryRules (274-287) *)
Definition ApplyUnaryRules (us : list rule) (i j : nat) (s : state) : option state :=
  unary_loop (S (length (chart s i j) + length us)) i j us 0 s.

(** ExtendTerminal (81-89): what is appended *)
Definition ExtendTerminal (p a : nat) (symbol : Z) (it : item) : list item :=
  if Z.eqb symbol kEPS then [{| gptr := gptr it; ants := ants it; feats := feats it ++ [Some (p, a)] |}]
  else match Extend symbol (gptr it) with
       | Some t => [{| gptr := t; ants := ants it; feats := feats it ++ [Some (p, a)] |}]
       | None => []
       end.
(** ExtendNonTerminal (90-99) *)
Definition ExtendNonTerminal (h : hg payload) (nd : nat) (it : item) : option (list item) :=
  v <- nth_error (nodes h) nd ;;
  match Extend (cat v) (gptr it) with
  | Some t => Some [{| gptr := t; ants := ants it ++ [nd]; feats := feats it ++ [None] |}]
  | None => Some []
  end.
(** 121-123 *)
Fixpoint extend_nodes (h : hg payload) (it : item) (ns : list nat) : option (list item) :=
  match ns with
  | [] => Some []
  | nd :: r => x <- ExtendNonTerminal h nd it ;; y <- extend_nodes h it r ;; Some (x ++ y)
  end.
(** 120-124 *)
Fixpoint extend_items (h : hg payload) (its : list item) (ns : list nat) : option (list item) :=
  match its with
  | [] => Some []
  | it :: r => x <- extend_nodes h it ns ;; y <- extend_items h r ns ;; Some (x ++ y)
  end.
(** ExtendActiveItems (114-125); always k < j, so that the cell read is not the one written *)
Definition ExtendActiveItems (gi i k j : nat) (s : state) : option state :=
  if Nat.leb j k then None else
  new <- extend_items (forest s) (act s gi i k) (chart s k j) ;;
  Some (set_act s gi i j (act s gi i j ++ new)).
(** 129-130 *)
Fixpoint extend_from (gi i j : nat) (ks : list nat) (s : state) : option state :=
  match ks with [] => Some s | k :: r => s1 <- ExtendActiveItems gi i k j s ;; extend_from gi i j r s1 end.
(** 133-144; [a] is the number of the next arc *)
Fixpoint extend_arcs (gi i j : nat) (a : nat) (arcs : list arc) (s : state) : option state :=
  match arcs with
  | [] => Some s
  | x :: r =>
      let ec := act s gi i (j - 1) in
      s1 <- match ec with
            | [] => Some s
            | _ =>
                if Nat.eqb (len x) 0 then None
                else if Nat.ltb n (j + len x - 1) then None
                else Some (set_act s gi i (j + len x - 1)
                             (act s gi i (j + len x - 1) ++ flat_map (ExtendTerminal (j - 1) a (label x)) ec))
            end ;;
      extend_arcs gi i j (S a) r s1
  end.
(** AdvanceDotsForAllItemsInCell (127-145) *)
Definition AdvanceDots (gi i j : nat) (s : state) : option state :=
  s1 <- extend_from gi i j (seq (S i) (j - S i)) s ;;
  arcs <- nth_error input (j - 1) ;;
  extend_arcs gi i j 0 arcs s1.
(** 309-314 *)
Fixpoint apply_cell (i j : nat) (cell : list item) (s : state) : option state :=
  match cell with
  | [] => Some s
  | it :: r => s1 <- ApplyRules i j (GetRules (gptr it)) (ants it) (feats it) s ;; apply_cell i j r s1
  end.
(** 303-316; [gi] is the number of the next grammar *)
Fixpoint advance_all (i j : nat) (gi : nat) (gs : list grammar) (s : state) : option state :=
  match gs with
  | [] => Some s
  | g :: r =>
      s1 <- (if has_span g i j (dist i j) then
               s' <- AdvanceDots gi i j s ;; apply_cell i j (act s' gi i j) s'
             else Some s) ;;
      advance_all i j (S gi) r s1
  end.
(** 319-324 *)
Fixpoint extend_all (i j : nat) (gi : nat) (gs : list grammar) (s : state) : option state :=
  match gs with
  | [] => Some s
  | g :: r =>
      s1 <- (if has_span g i j (dist i j) then ExtendActiveItems gi i i j s else Some s) ;;
      extend_all i j (S gi) r s1
  end.
(** 302-324 *)
Definition span (gs : list grammar) (us : list rule) (i j : nat) (s : state) : option state :=
  s1 <- advance_all i j 0 gs s ;;
  s2 <- ApplyUnaryRules us i j s1 ;;
  extend_all i j 0 gs s2.
(** 327-333 *)
Fixpoint find_goal (dh : list nat) (s : state) : option state :=
  match dh with
  | [] => Some s
  | nd :: r =>
      v <- nth_error (nodes (forest s)) nd ;;
      s1 <- (if Z.eqb (cat v) goal_cat then ApplyRule 0 n goal_rule [nd] [None] s else Some s) ;;
      find_goal r s1
  end.
(** 301-325 *)
Fixpoint row (gs : list grammar) (us : list rule) (l : nat) (is : list nat) (s : state) : option state :=
  match is with [] => Some s | i :: r => s1 <- span gs us i (i + l) s ;; row gs us l r s1 end.
(** 299-334 *)
Fixpoint rows (gs : list grammar) (us : list rule) (ls : list nat) (s : state) : option state :=
  match ls with
  | [] => Some s
  | l :: r =>
      s1 <- row gs us l (seq 0 (n + 1 - l)) s ;;
      s2 <- find_goal (chart s1 0 n) s1 ;;
      rows gs us r s2
  end.
(** SeedActiveChart (107-112) for every grammar, on empty charts *)
Definition seeds (gs : list grammar) (gi i j : nat) : list item :=
  match nth_error gs gi with
  | Some g => if andb (andb (Nat.eqb i j) (Nat.leb i n)) (has_span g i i 0) then [{| gptr := root g; ants := []; feats := [] |}] else []
  | None => []
  end.
(** the constructor (153-176) and Parse (289-340) on an empty forest; the forest and whether
    the goal was found *)
Definition start (gs : list grammar) : state :=
  {| forest := empty_hg; chart := fun _ _ => []; nodemap := fun _ _ => []; act := seeds gs; goal_idx := None |}.
Definition fill (gs : list grammar) : option state :=
  us <- TopoSortUnaries goal_cat (flat_map unaries gs) ;;
  rows gs us (seq 1 n) (start gs).
Definition Parse (gs : list grammar) : option (bool * hg payload) :=
  s <- fill gs ;;
  match goal_idx s with
  | None => Some (false, forest s)
  | Some _ =>
      match TopoSort (length (nodes (forest s)) - 1) None (forest s) with
      | Sorted h => Some (true, h)
      | _ => None
      end
  end.
End Parse.
