(** Specification vocabulary for the parser: parses of a lattice. *)
From Coq Require Import List ZArith.
From Verif Require Import HG Deriv Parser.
Import ListNotations.

(** The input ends after its last position, and arcs go forward. *)
Definition arcs_ok (input : list (list arc)) : Prop :=
  forall p arcs x, nth_error input p = Some arcs -> In x arcs -> 1 <= len x /\ p + len x <= length input.
(** Arc number [a] at position [p]. *)
Definition arc_at (input : list (list arc)) (p a : nat) (x : arc) : Prop :=
  exists arcs, nth_error input p = Some arcs /\ nth_error arcs a = Some x.

(** A parse: a rule and what its source side covers, from left to right: arcs and sub-parses. *)
Inductive parse := PT (r : rule) (steps : list (nat * nat + parse)).

Section S.
Variables (kEPS : Z) (input : list (list arc)).
(** A grammar: its rules, and the spans at which they may be used. *)
Variable gs : list (list rule * (nat -> nat -> bool)).
(** The unary rules in use. *)
Variable us : list rule.

(** [parses d i j c]: [d] is a parse of some path from [i] to [j] with category [c].
    [covers i j steps f]: the steps lead from [i] to [j] and spell the symbols [f]. *)
Inductive parses : parse -> nat -> nat -> Z -> Prop :=
| ps_rule : forall rs ok r steps i j, In (rs, ok) gs -> In r rs -> IsUnary r = false -> i < j -> ok i j = true ->
    covers i j steps (rf r) -> parses (PT r steps) i j (lhs r)
| ps_unary : forall r d i j c, In r us -> rf r = [c] -> parses d i j c -> parses (PT r [inr d]) i j (lhs r)
with covers : nat -> nat -> list (nat * nat + parse) -> list Z -> Prop :=
| c_end : forall i, covers i i [] []
| c_word : forall i a x j steps f, arc_at input i a x -> label x <> kEPS -> covers (i + len x) j steps f ->
    covers i j (inl (i, a) :: steps) (label x :: f)
| c_eps : forall i a x j steps f, arc_at input i a x -> label x = kEPS -> covers (i + len x) j steps f ->
    covers i j (inl (i, a) :: steps) f
| c_sub : forall i k j d c steps f, parses d i k c -> covers k j steps f ->
    covers i j (inr d :: steps) (c :: f).
End S.

(** Reading a parse off a derivation of the forest. *)
Fixpoint fill_steps (s : shape) (ds : list parse) : option (list (nat * nat + parse)) :=
  match s, ds with
  | [], [] => Some []
  | Some a :: s', _ => option_map (cons (inl a)) (fill_steps s' ds)
  | None :: s', d :: ds' => option_map (cons (inr d)) (fill_steps s' ds')
  | _, _ => None
  end.
Fixpoint all_some {A} (l : list (option A)) : option (list A) :=
  match l with
  | [] => Some []
  | Some x :: r => option_map (cons x) (all_some r)
  | None :: _ => None
  end.
Fixpoint read (g : hg payload) (t : tree) : option parse :=
  match t with
  | Tree e ts =>
      match nth_error (edges g) e, all_some (map (read g) ts) with
      | Some ed, Some ds => option_map (PT (p_rule (lab ed))) (fill_steps (p_feats (lab ed)) ds)
      | _, _ => None
      end
  end.

(** Category codes are negative, and the arity is the number of categories in the source. *)
Definition wf_rule (r : rule) : Prop :=
  (lhs r < 0)%Z /\ arity r = Z.of_nat (length (filter (fun s => Z.ltb s 0) (rf r))).
(** A span test which allows, with a span of an input of [n] positions, all its prefixes. *)
Definition prefix_closed (n : nat) (hs : nat -> nat -> Z -> bool) (dist : nat -> nat -> Z) : Prop :=
  forall i j, i < j <= n -> hs i j (dist i j) = true -> hs i i 0%Z = true /\ forall k, i < k <= j -> hs i k (dist i k) = true.
(** No category can be derived from itself by unary rules. *)
Definition acyclic (us : list rule) : Prop :=
  exists rank : Z -> nat, forall r c, In r us -> rf r = [c] -> rank c < rank (lhs r).
(** Grammars: rules and a span test each; loaded for the parser, and as the parses above see them. *)
Definition load_all (rgs : list (list rule * (nat -> nat -> Z -> bool))) : list grammar :=
  map (fun q => load_grammar (snd q) (fst q)) rgs.
Definition all_rules (rgs : list (list rule * (nat -> nat -> Z -> bool))) : list rule := flat_map fst rgs.
Definition at_spans (dist : nat -> nat -> Z) (rgs : list (list rule * (nat -> nat -> Z -> bool))) : list (list rule * (nat -> nat -> bool)) :=
  map (fun q => (fst q, fun i j => snd q i j (dist i j))) rgs.
Definition all_unaries (rgs : list (list rule * (nat -> nat -> Z -> bool))) : list rule := filter IsUnary (all_rules rgs).
(** The derivations of the last node read as the parses of the whole input, below the goal rule, one for one. *)
Definition one_for_one (kEPS : Z) (input : list (list arc)) gs us (goal_cat : Z) (goal_rule : rule) (h : hg payload) : Prop :=
  let last := length (nodes h) - 1 in
  let whole d := parses kEPS input gs us d 0 (length input) goal_cat in
  (forall t, derives h last t -> exists d, read h t = Some (PT goal_rule [inr d]) /\ whole d) /\
  (forall d, whole d -> exists t, derives h last t /\ read h t = Some (PT goal_rule [inr d])) /\
  (forall t t', derives h last t -> derives h last t' -> read h t = read h t' -> t = t').
