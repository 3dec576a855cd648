(** decoder/tree2string_translator.cc: the composition of an input tree with tree-to-string grammars.
    A rule is anything ([R]): its target side and features are not looked at here.  Nodes of the forest are named by the node of the input
    tree they are made for (x2hg, 298 and 317-332, is one to one).  There is one transducer state (0).  Left out: reading the lines of the grammar
    (the fragment of a rule is in Frag.v), sorting and pruning the forest afterwards (C16, C53), the goal node, reweighting, the assertion
    that a rule has as many variables as its fragment has sites.
    [None]: a failed assertion, an access outside of a vector, "This can never happen", or no fuel. *)
From Coq Require Import Ascii List Arith Bool.
From Verif Require Import Opt Frag.
Import ListNotations.
Open Scope opt_scope.
Local Open Scope nat_scope.

Definition text_eq_dec : forall a b : list ascii, {a = b} + {a <> b} := list_eq_dec ascii_dec.
Definition tsym_eq_dec (a b : tsym) : {a = b} + {a <> b}.
Proof. decide equality; apply text_eq_dec. Defined.
Definition frame_eq_dec (a b : frame) : {a = b} + {a <> b}.
Proof. decide equality; [apply bool_dec|apply Nat.eq_dec|apply Nat.eq_dec]. Defined.

Section T2s.
Variable R_ : Type.

(** Tree2StringGrammarNode (21-24) *)
Inductive gnode := G (next_ : list (tsym * gnode)) (rules : list R_).
Definition gnext (g : gnode) := match g with G n _ => n end.
Definition grules (g : gnode) := match g with G _ r => r end.
(** next.find *)
Fixpoint look (x : tsym) (l : list (tsym * gnode)) : option gnode :=
  match l with [] => None | (y, g) :: r => if tsym_eq_dec x y then Some g else look x r end.
Fixpoint replace (x : tsym) (g : gnode) (l : list (tsym * gnode)) : list (tsym * gnode) :=
  match l with [] => [(x, g)] | (y, h) :: r => if tsym_eq_dec x y then (y, g) :: r else (y, h) :: replace x g r end.
(** cur = &cur->next[sym] for the symbols of the fragment, then rules.push_back (44-61, 80; 266-268, 278) *)
Fixpoint insert (p : list tsym) (r : R_) (g : gnode) : gnode :=
  match p with
  | [] => G (gnext g) (grules g ++ [r])
  | x :: p' => G (replace x (insert p' r (match look x (gnext g) with Some h => h | None => G [] [] end)) (gnext g)) (grules g)
  end.
(** the trie below transducer state 0: there is none if there is no rule (46: root->next[0] is made by the first rule) *)
Definition read_grammar (rules : list (list tsym * R_)) : option gnode :=
  match rules with [] => None | _ => Some (fold_left (fun g pr => insert (fst pr) (snd pr) g) rules (G [] [])) end.
(** a pointer to a trie node is the path to it *)
Fixpoint at_ (g : gnode) (p : list tsym) : option gnode :=
  match p with [] => Some g | x :: p' => h <- look x (gnext g) ;; at_ h p' end.

(** ParserState (98-117); [gi]: which grammar, [path]: the trie node in it *)
Record pstate := { iter : list frame * tsym; future_work : list nat; task : nat; gi : nat; path : list tsym }.
(** operator== (110-113); iterators are compared by their stacks (tree_fragment.h 120-122) *)
Definition same (a b : pstate) : bool :=
  (if list_eq_dec frame_eq_dec (fst (iter a)) (fst (iter b)) then true else false)
  && (if list_eq_dec Nat.eq_dec (future_work a) (future_work b) then true else false)
  && (task a =? task b) && (gi a =? gi b) && (if list_eq_dec tsym_eq_dec (path a) (path b) then true else false).
(** the first constructor (101-104) with input_tree.begin(n) *)
Definition start (ns : list (option (list ascii * list sym))) (n g : nat) : option pstate :=
  it <- begin_ ns n ;; Some {| iter := it; future_work := []; task := n; gi := g; path := [] |}.
(** truncate (tree_fragment.h 156-162) *)
Definition truncate (it : list frame * tsym) : option (list frame * tsym) :=
  match it with (_ :: q, R w) => Some (q, F w) | _ => None end.
Definition child_node (it : list frame * tsym) : option nat := match it with (f :: _, R _) => Some (fnode f) | _ => None end.
Definition grammar_at (gs : list (option gnode)) (g : nat) (p : list tsym) : option gnode := o <- nth_error gs g ;; t <- o ;; at_ t p.
(** ++s.in_iter, and the trie node reached with [x] (361-367, 387-391, 394-400) *)
Definition full (ns : list (option (list ascii * list sym))) (gs : list (option gnode)) (s : pstate) (x : tsym) : option (list pstate) :=
  match grammar_at gs (gi s) (path s ++ [x]) with
  | None => Some []
  | Some _ => it <- inc ns (fst (iter s)) (snd (iter s)) ;;
      Some [{| iter := it; future_work := future_work s; task := task s; gi := gi s; path := path s ++ [x] |}]
  end.
(** 370-386 *)
Definition variable (ns : list (option (list ascii * list sym))) (gs : list (option gnode)) (s : pstate) : option (list pstate) :=
  var <- truncate (iter s) ;;
  match grammar_at gs (gi s) (path s ++ [snd var]) with
  | None => Some []
  | Some _ => it <- inc ns (fst var) (snd var) ;; c <- child_node (iter s) ;;
      Some [{| iter := it; future_work := future_work s ++ [c]; task := task s; gi := gi s; path := path s ++ [snd var] |}]
  end.
(** 359-404: the states made from a state with more input *)
Definition more (ns : list (option (list ascii * list sym))) (gs : list (option gnode)) (s : pstate) : option (list pstate) :=
  match snd (iter s) with
  | R w => a <- variable ns gs s ;; b <- full ns gs s (R w) ;; Some (a ++ b)
  | F _ => None
  | x => full ns gs s x
  end.
Record edge := { head : nat; tails : list nat; rule : R_ }.
(** the states for new work: every grammar which has the state (300-307, 345-354) *)
Fixpoint starts (ns : list (option (list ascii * list sym))) (gs : list (option gnode)) (g : nat) (n : nat) : option (list pstate) :=
  match gs with
  | [] => Some []
  | None :: r => starts ns r (g + 1) n
  | Some _ :: r => s <- start ns n g ;; l <- starts ns r (g + 1) n ;; Some (s :: l)
  end.
Fixpoint all_starts (ns : list (option (list ascii * list sym))) (gs : list (option gnode)) (w : list nat) : option (list pstate) :=
  match w with [] => Some [] | n :: r => a <- starts ns gs 0 n ;; b <- all_starts ns gs r ;; Some (a ++ b) end.
(** one turn of the loop (310-407): new states and new edges *)
Definition process (ns : list (option (list ascii * list sym))) (gs : list (option gnode)) (s : pstate) : option (list pstate * list edge) :=
  match fst (iter s) with
  | [] =>
      match grammar_at gs (gi s) (path s) with
      | None => None
      | Some t =>
          match grules t with
          | [] => Some ([], [])
          | rs => l <- all_starts ns gs (future_work s) ;; Some (l, map (fun r => {| head := task s; tails := future_work s; rule := r |}) rs)
          end
      end
  | _ => l <- more ns gs s ;; Some (l, [])
  end.
(** if (unique.insert(s).second) q.push(s) *)
Fixpoint push (l : list pstate) (q unique : list pstate) : list pstate * list pstate :=
  match l with
  | [] => (q, unique)
  | s :: r => if existsb (same s) unique then push r q unique else push r (q ++ [s]) (unique ++ [s])
  end.
Fixpoint loop (fuel : nat) (ns : list (option (list ascii * list sym))) (gs : list (option gnode)) (q unique : list pstate) : option (list edge) :=
  match fuel with
  | O => None
  | S k =>
      match q with
      | [] => Some []
      | s :: q' =>
          ' (l, es) <- process ns gs s ;;
          let '(q2, u2) := push l q' unique in
          es' <- loop k ns gs q2 u2 ;; Some (es ++ es')
      end
  end.
(** Translate (287-407): the edges in the order they are made *)
Definition compose (fuel : nat) (ns : list (option (list ascii * list sym))) (grammars : list (list (list tsym * R_))) : option (list edge) :=
  let gs := map read_grammar grammars in
  q <- starts ns gs 0 (length ns - 1) ;; loop fuel ns gs q q.

(** ** pass-through rules (CreatePassThroughRules, 210-279; DoesAbstractPassThroughRuleExist, 185-208) *)
(** [mk]: the new rule; [is_copy r n]: the target side of the rule is its [n] variables in order (r->e_ == trg) *)
Variables (mk : list tsym -> R_) (is_copy : R_ -> nat -> bool).
(** the key of unique_rule_check (229-256) after the left side: words, and labels of children.
    A frontier site as a child, which input trees do not have, would be taken for a node number *)
Fixpoint rhs_walk (ns : list (option (list ascii * list sym))) (rhs : list sym) : option (list tsym) :=
  match rhs with
  | [] => Some []
  | Term w :: r => l <- rhs_walk ns r ;; Some (T w :: l)
  | Node i :: r => m <- get ns i ;; l <- rhs_walk ns r ;; Some (F (fst m) :: l)
  | Front _ :: _ => None
  end.
(** the text of the fragment (237-257) *)
Fixpoint rhs_text (ns : list (option (list ascii * list sym))) (rhs : list sym) : option (list ascii) :=
  match rhs with
  | [] => Some []
  | Term w :: r => l <- rhs_text ns r ;; Some ([" "%char] ++ w ++ l)
  | Node i :: r => m <- get ns i ;; l <- rhs_text ns r ;; Some ([" "%char] ++ (["["%char] ++ fst m ++ ["]"%char]) ++ l)
  | Front _ :: _ => None
  end.
(** rule_src, read from the text (259), and its symbols *)
Definition rule_src (ns : list (option (list ascii * list sym))) (n : list ascii * list sym) : option (list tsym) :=
  txt <- rhs_text ns (snd n) ;;
  match TreeFragment 0 0 (["("%char] ++ fst n ++ txt ++ [")"%char]) true with
  | Ok f => dfs (S (S (length (snd n)))) (f_nodes f)
  | _ => None
  end.
(** has_nt && !has_lex (263) *)
Definition abstract_rule (p : list tsym) : bool :=
  existsb (fun x => match x with F _ => true | _ => false end) p && negb (existsb (fun x => match x with T _ => true | _ => false end) p).
Definition DoesAbstractPassThroughRuleExist (others : list (option gnode)) (p : list tsym) : bool :=
  existsb (fun g => match g with
    | Some tr => match at_ tr p with
        | Some n => existsb (fun r => is_copy r (length (filter (fun x => match x with F _ => true | _ => false end) p))) (grules n)
        | None => false end
    | None => false end) others.
(** 221-278; [others]: the grammars before *)
Fixpoint pass_rules (ns : list (option (list ascii * list sym))) (others : list (option gnode)) (prods : list (option (list ascii * list sym)))
  (seen : list (list tsym)) : option (list (list tsym * R_)) :=
  match prods with
  | [] => Some []
  | None :: _ => None
  | Some n :: r =>
      l <- rhs_walk ns (snd n) ;;
      let key := L (fst n) :: l in
      if in_dec (list_eq_dec tsym_eq_dec) key seen then pass_rules ns others r seen
      else
        src <- rule_src ns n ;;
        if abstract_rule l && DoesAbstractPassThroughRuleExist others src then pass_rules ns others r (key :: seen)
        else rest <- pass_rules ns others r (key :: seen) ;; Some ((src, mk key) :: rest)
  end.
(** Translate with add_pass_through_rules (294): the rules are one more grammar *)
Definition compose_pass (fuel : nat) (ns : list (option (list ascii * list sym))) (grammars : list (list (list tsym * R_))) : option (list edge) :=
  pt <- pass_rules ns (map read_grammar grammars) ns [] ;; compose fuel ns (grammars ++ [pt]).
End T2s.
Arguments G {R_}. Arguments gnext {R_}. Arguments grules {R_}. Arguments look {R_}. Arguments replace {R_}. Arguments insert {R_}.
Arguments read_grammar {R_}. Arguments at_ {R_}. Arguments grammar_at {R_}. Arguments full {R_}. Arguments variable {R_}. Arguments more {R_}.
Arguments head {R_}. Arguments tails {R_}. Arguments rule {R_}. Arguments starts {R_}. Arguments all_starts {R_}. Arguments process {R_}.
Arguments pass_rules {R_}. Arguments compose_pass {R_}. Arguments DoesAbstractPassThroughRuleExist {R_}. Arguments loop {R_}. Arguments compose {R_}. Arguments Build_edge {R_}.
