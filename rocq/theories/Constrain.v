(** decoder/hg_intersect.cc: intersecting a forest with a reference sentence or lattice.
    What is on an edge (hg.h 46-66): its rule object, its features and the four positions.
    A rule object (trule.h) is its address, its two sides, its arity and its parent rule; a
    feature vector is the list of the vectors it is the sum of.  The dictionary is any
    function [conv] from words to ids with [str] going back (C01); [cats] follow lines 111-116.
    Simplifications: node hashes are left out; int, short and unsigned are unbounded.  [None]: an
    access out of bounds, a failed assertion, or an abort in pruning or parsing. *)
From Coq Require Import Ascii String DecimalString DecimalNat List ZArith Bool.
From Verif Require Import Opt HG Prune Rule Parser.
Import ListNotations.
Open Scope opt_scope.

Inductive trule := TR (addr : option nat) (e f : list Z) (arity : Z) (parent : option trule).
Definition r_addr (r : trule) : option nat := let 'TR a _ _ _ _ := r in a.
Definition r_e (r : trule) : list Z := let 'TR _ e _ _ _ := r in e.
Definition r_f (r : trule) : list Z := let 'TR _ _ f _ _ := r in f.
Definition r_arity (r : trule) : Z := let 'TR _ _ _ a _ := r in a.
Definition r_parent (r : trule) : option trule := let 'TR _ _ _ _ p := r in p.

(** lexical_cast<string> of an unsigned *)
Definition dec (n : nat) : string := NilZero.string_of_uint (Nat.to_uint n).

Section Constrain.
Context {X : Type}.
Record elab := { rule_ : trule; feats_ : list X; i_ : Z; j_ : Z; prev_i_ : Z; prev_j_ : Z }.

(** ** RuleFilter (23-55) *)
(** 33: target[j][0].label; no arc there: undefined *)
Definition first_label (target : list (list arc)) (j : nat) : option Z :=
  arcs <- nth_error target j ;; x <- nth_error arcs 0 ;; Some (label x).
(** 31-35, [k] positions from [j] on; the phrases entered, and true_lattice *)
Fixpoint phrases_from (target : list (list arc)) (k j : nat) (phrase : list Z) : option (list (list Z) * bool) :=
  match k with
  | O => Some ([], false)
  | S k' =>
      arcs <- nth_error target j ;;
      if Nat.ltb 1 (length arcs) then Some ([], true) else
      w <- first_label target j ;;
      ' (ps, tl) <- phrases_from target k' (S j) (phrase ++ [w]) ;;
      Some ((phrase ++ [w]) :: ps, tl)
  end.
(** 28-36, for the positions [is] *)
Fixpoint phrases_all (target : list (list arc)) (max_phrase_size : Z) (is : list nat) : option (list (list Z) * bool) :=
  match is with
  | [] => Some ([], false)
  | i :: r =>
      ' (ps, tl) <- phrases_from target (Z.to_nat (Z.min (Z.of_nat (length target)) (Z.of_nat i + max_phrase_size)) - i) i [] ;;
      ' (qs, tl') <- phrases_all target max_phrase_size r ;;
      Some (ps ++ qs, orb tl tl')
  end.
(** 26-39; [sos] is the id of <s> *)
Definition RuleFilter (sos : Z) (target : list (list arc)) (max_phrase_size : Z) : option (list (list Z) * bool) :=
  ' (ps, tl) <- phrases_all target max_phrase_size (seq 0 (length target)) ;; Some (ps ++ [[sos]], tl).
Definition zlist_eqb (a b : list Z) : bool := if list_eq_dec Z.eq_dec a b then true else false.
Definition present (ps : list (list Z)) (p : list Z) : bool := existsb (zlist_eqb p) ps.
(** 47-51: true if some phrase is not there *)
Fixpoint run_missing (ps : list (list Z)) (e : list Z) (phrase : list Z) : bool :=
  match e with
  | [] => false
  | c :: r => if Z.leb c 0 then false else if present ps (phrase ++ [c]) then run_missing ps r (phrase ++ [c]) else true
  end.
(** 44-52 *)
Fixpoint some_missing (ps : list (list Z)) (e : list Z) : bool :=
  match e with
  | [] => false
  | c :: r => if Z.leb c 0 then some_missing ps r else if run_missing ps e [] then true else some_missing ps r
  end.
(** operator() (40-54) *)
Definition filter_rule (fl : list (list Z) * bool) (e : list Z) : bool := if snd fl then false else some_missing (fst fl) e.

(** ** The general case (94-166) *)
Variable conv : string -> Z.
Variable str : Z -> string.
Definition kGOAL : Z := (- conv "Goal")%Z.
Definition kEPS : Z := conv "*EPS*".
(** 111-116 *)
Definition cat_name (i : nat) (c : Z) : string := append (if Z.ltb c 0 then str (- c) else "CAT"%string) (append "_" (dec i)).
Definition cats_of (ns : list node) : list Z := map (fun q => (- conv (cat_name (fst q) (cat (snd q))))%Z) (combine (seq 0 (length ns)) ns).
(** 133-143: f, and tn; tn holds the negated places *)
Fixpoint fill_f (cats : list Z) (tl : list nat) (tgt : list Z) (tn : list Z) (ntc : Z) : option (list Z * list Z) :=
  match tgt with
  | [] => Some ([], tn)
  | cur :: r =>
      if Z.ltb 0 cur then ' (f, tn') <- fill_f cats tl r tn ntc ;; Some (cur :: f, tn')
      else
        tn1 <- put tn (- cur) (- ntc) ;;
        t <- nth_error tl (Z.to_nat (- cur)) ;;
        c <- nth_error cats t ;;
        ' (f, tn') <- fill_f cats tl r tn1 (ntc + 1) ;;
        Some (c :: f, tn')
  end.
(** 144-152 *)
Fixpoint fill_e (src : list Z) (tn : list Z) (ntc : Z) : option (list Z) :=
  match src with
  | [] => Some []
  | cur :: r =>
      if Z.ltb 0 cur then e <- fill_e r tn ntc ;; Some (cur :: e)
      else v <- get tn ntc ;; e <- fill_e r tn (ntc + 1) ;; Some (v :: e)
  end.
(** A rule of the new grammar: as the parser sees it, its target side, the features and source
    positions it carries, and its parent *)
Record irule := { ir : rule; ir_e : list Z; ir_feats : list X; ir_prev_i : Z; ir_prev_j : Z; ir_parent : option trule }.
(** 119-156; number of the edge, the edge *)
Definition invert (cats : list Z) (q : nat * edge elab) : option irule :=
  let ed := snd q in let l := lab ed in
  h <- head ed ;;
  c <- nth_error cats h ;;
  ' (f, tn) <- fill_f cats (tails ed) (r_e (rule_ l)) (repeat 0%Z (length (tails ed))) 0 ;;
  e <- fill_e (r_f (rule_ l)) tn 0 ;;
  Some {| ir := {| rid := fst q; lhs := c; rf := f; arity := ComputeArity e |}; ir_e := e;
          ir_feats := feats_ l; ir_prev_i := i_ l; ir_prev_j := j_ l; ir_parent := Some (rule_ l) |}.
(** 118-160 *)
Definition invert_all (cats : list Z) (es : list (edge elab)) : option (list irule) :=
  map_opt (invert cats) (combine (seq 0 (length es)) es).
(** bottom_up_parser.cc 163: the rule [Goal] ||| [cat] ||| [1] *)
Definition goal_irule (id : nat) (c : Z) : irule :=
  {| ir := {| rid := id; lhs := kGOAL; rf := [c]; arity := 1 |}; ir_e := [0%Z]; ir_feats := []; ir_prev_i := (-1)%Z; ir_prev_j := (-1)%Z; ir_parent := None |}.
(** the features of a lattice arc *)
Variable arc_feats : nat * nat -> X.
Definition arcs_of (s : shape) : list (nat * nat) := flat_map (fun o => match o with Some a => [a] | None => [] end) s.
(** ApplyRule (bottom_up_parser.cc 229-241): what is on the edges of the parser *)
Definition out_label (rs : list irule) (p : payload) : option elab :=
  r <- nth_error rs (rid (p_rule p)) ;;
  Some {| rule_ := TR None (ir_e r) (rf (ir r)) (arity (ir r)) (ir_parent r);
          feats_ := ir_feats r ++ map arc_feats (arcs_of (p_feats p));
          i_ := Z.of_nat (p_i p); j_ := Z.of_nat (p_j p); prev_i_ := ir_prev_i r; prev_j_ := ir_prev_j r |}.
Definition out_edge (rs : list irule) (ed : edge payload) : option (edge elab) :=
  l <- out_label rs (lab ed) ;; Some {| head := head ed; tails := tails ed; lab := l; eid := eid ed |}.
(** 94-166: whether the reference was found, and the forest *)
Definition IntersectGeneral (target : list (list arc)) (dist : nat -> nat -> Z) (g : hg elab) : option (bool * hg elab) :=
  fl <- RuleFilter (conv "<s>") target 9999 ;;
  match PruneEdges (map (fun ed => filter_rule fl (r_e (rule_ (lab ed)))) (edges g)) true g with
  | Pruned h =>
      let cats := cats_of (nodes h) in
      rs <- invert_all cats (edges h) ;;
      new_goal <- nth_error cats (length cats - 1) ;;
      let top := goal_irule (length (edges h)) new_goal in
      let gr := load_grammar (text_span (Z.of_nat (length target) + 1)) (map ir rs) in
      ' (ok, p) <- Parse kGOAL kEPS target dist new_goal (ir top) [gr] ;;
      if ok : bool then es <- map_opt (out_edge (rs ++ [top])) (edges p) ;; Some (true, {| nodes := nodes p; edges := es |})
      else Some (false, h)
  | _ => None
  end.

(** ** The fast case (57-84) *)
Definition with_rule (l : elab) (r : trule) : elab :=
  {| rule_ := r; feats_ := feats_ l; i_ := prev_i_ l; j_ := prev_j_ l; prev_i_ := i_ l; prev_j_ := j_ l |}.
(** 70-71: a copy (trule.h 50) with the sides exchanged *)
Definition swapped (r : trule) : trule := TR None (r_f r) (r_e r) (r_arity r) None.
Definition addr_eqb (a b : option nat) : bool :=
  match a, b with Some x, Some y => Nat.eqb x y | None, None => true | _, _ => false end.
(** inverted_rules *)
Definition rule_map := list (option nat * trule).
Definition lookup (a : option nat) (m : rule_map) : option trule := option_map snd (List.find (fun p => addr_eqb (fst p) a) m).
Definition store (a : option nat) (r : trule) (m : rule_map) : rule_map := (a, r) :: m.
(** 62-81: the edges with their new labels, prune, the covered positions *)
Fixpoint fast_edges (target : list (list arc)) (es : list (edge elab)) (m : rule_map) : option (list (edge elab) * list bool * list nat) :=
  match es with
  | [] => Some ([], [], [])
  | ed :: r =>
      match tails ed with
      | _ :: _ => ' (es', pr, cov) <- fast_edges target r m ;; Some (ed :: es', false :: pr, cov)
      | [] =>
          let l := lab ed in
          if Z.ltb (prev_i_ l) 0 then None else
          let ti := Z.to_nat (prev_i_ l) in
          trg <- first_label target ti ;;
          if negb (Z.eqb (EWords (r_e (rule_ l)) (r_arity (rule_ l))) 1) then None else
          let inv := match lookup (r_addr (rule_ l)) m with Some x => x | None => swapped (rule_ l) end in
          w <- nth_error (r_e (rule_ l)) 0 ;;
          if Z.eqb w trg then
            ' (es', pr, cov) <- fast_edges target r (store (r_addr (rule_ l)) (rule_ l) m) ;;
            Some ({| head := head ed; tails := tails ed; lab := with_rule l inv; eid := eid ed |} :: es', false :: pr, ti :: cov)
          else
            ' (es', pr, cov) <- fast_edges target r (store (r_addr (rule_ l)) inv m) ;;
            Some (ed :: es', true :: pr, cov)
      end
  end.
(** 57-84 *)
Definition FastLinearIntersect (target : list (list arc)) (g : hg elab) : option (bool * hg elab) :=
  ' (es, pr, cov) <- fast_edges target (edges g) [] ;;
  match PruneEdges pr true {| nodes := nodes g; edges := es |} with
  | Pruned h => Some (Nat.eqb (length (nodup Nat.eq_dec cov)) (length target), h)
  | _ => None
  end.

(** lattice.h 43-48 *)
Definition IsSentence (target : list (list arc)) : bool := forallb (fun alt => Nat.leb (length alt) 1) target.
(** HG::Intersect (88-166); [linear] is is_linear_chain_ *)
Definition Intersect (linear : bool) (target : list (list arc)) (dist : nat -> nat -> Z) (g : hg elab) : option (bool * hg elab) :=
  if andb linear (IsSentence target) then FastLinearIntersect target g else IntersectGeneral target dist g.
(** decoder.cc 1026-1031: remove_intersected_rule_annotations *)
Definition restore (ed : edge elab) : edge elab :=
  match r_parent (rule_ (lab ed)) with
  | Some p => {| head := head ed; tails := tails ed; eid := eid ed;
                 lab := {| rule_ := p; feats_ := feats_ (lab ed); i_ := i_ (lab ed); j_ := j_ (lab ed); prev_i_ := prev_i_ (lab ed); prev_j_ := prev_j_ (lab ed) |} |}
  | None => ed
  end.
Definition RemoveAnnotations (g : hg elab) : hg elab := {| nodes := nodes g; edges := map restore (edges g) |}.
End Constrain.
Arguments elab : clear implicits.
Arguments irule : clear implicits.
