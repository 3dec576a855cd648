(** C48: bottom-up parsing. *)
From Coq Require Import List ZArith Lia.
From Verif Require Lattice.
From Verif Require Import HG Deriv TopoSpec Parser ParserSpec ParserMainProofs.
Import ListNotations.

(** Parsing ends, without an access out of bounds, a failed assertion or an abort; it reports
    success exactly if the input has a parse with the goal category; and then the result is
    sorted, and its derivations are the parses, one for one. *)
Theorem C48_parse : forall kGOAL kEPS input dist goal_cat goal_rule rgs,
  arcs_ok input -> (forall r, In r (all_rules rgs) -> wf_rule r /\ lhs r <> kGOAL) -> NoDup (all_rules rgs) ->
  lhs goal_rule = kGOAL -> goal_cat <> kGOAL ->
  (forall rs hs, In (rs, hs) rgs -> prefix_closed (length input) hs dist) ->
  acyclic (all_unaries rgs) -> (forall r, In r (all_unaries rgs) -> rf r <> [goal_cat]) ->
  exists ok h, Parse kGOAL kEPS input dist goal_cat goal_rule (load_all rgs) = Some (ok, h) /\
    (ok = true <-> exists d, parses kEPS input (at_spans dist rgs) (all_unaries rgs) d 0 (length input) goal_cat) /\
    (ok = true -> topo h /\ wf_hg h /\ one_for_one kEPS input (at_spans dist rgs) (all_unaries rgs) goal_cat goal_rule h).
Proof. exact parser_all. Qed.
Print Assumptions C48_parse.
(** Any unary rules, any span tests: some acyclic part of the unary rules is used (all of them,
    but those which rewrite the goal category, if they are acyclic); what is found is a parse
    with these; and all of them are found if the span tests are closed under prefixes. *)
Theorem C48_any_grammar : forall kGOAL kEPS input dist goal_cat goal_rule rgs,
  arcs_ok input -> (forall r, In r (all_rules rgs) -> wf_rule r /\ lhs r <> kGOAL) -> NoDup (all_rules rgs) ->
  lhs goal_rule = kGOAL -> goal_cat <> kGOAL ->
  exists us, incl us (all_unaries rgs) /\ acyclic us /\
    (acyclic (all_unaries rgs) -> forall r, In r (all_unaries rgs) -> rf r <> [goal_cat] -> In r us) /\
    (forall r, In r us -> rf r <> [goal_cat]) /\
    exists ok h, Parse kGOAL kEPS input dist goal_cat goal_rule (load_all rgs) = Some (ok, h) /\
      (ok = true -> (exists d, parses kEPS input (at_spans dist rgs) us d 0 (length input) goal_cat) /\ topo h /\ wf_hg h /\
        (forall t, derives h (length (nodes h) - 1) t -> exists d, read h t = Some (PT goal_rule [inr d]) /\
           parses kEPS input (at_spans dist rgs) us d 0 (length input) goal_cat)) /\
      ((forall rs hs, In (rs, hs) rgs -> prefix_closed (length input) hs dist) ->
        (ok = true <-> exists d, parses kEPS input (at_spans dist rgs) us d 0 (length input) goal_cat) /\
        (ok = true -> one_for_one kEPS input (at_spans dist rgs) us goal_cat goal_rule h)).
Proof. exact parser_ok. Qed.
Print Assumptions C48_any_grammar.
(** The span tests of text, glue and pass-through grammars are closed on a plain sentence
    (where distances are differences: C38_sentence). *)
Theorem C48_sentence_spans : forall n dist, (forall i j, i < j -> dist i j = Z.of_nat (j - i)) ->
  (forall m, prefix_closed n (text_span m) dist) /\ prefix_closed n glue_span dist /\ prefix_closed n pass_span dist.
Proof. intros n dist D. split; [intros m; exact (text_closed n m dist D)|]. split; [exact (glue_closed n dist)|exact (pass_closed n dist D)]. Qed.
Print Assumptions C48_sentence_spans.

(** A unary rule which rewrites the goal category is never used (bottom_up_parser.cc 210): S -> a,
    X -> S, S -> X b parses a b, but no parse is found. *)
Theorem C48_goal_unary_refuted : exists input dist goal_rule rgs, arcs_ok input /\ (forall r, In r (all_rules rgs) -> wf_rule r /\ lhs r <> (-9)%Z) /\ NoDup (all_rules rgs) /\
  lhs goal_rule = (-9)%Z /\ (forall rs hs, In (rs, hs) rgs -> prefix_closed (length input) hs dist) /\ acyclic (all_unaries rgs) /\
  (exists h, Parse (-9) (-100) input dist (-1) goal_rule (load_all rgs) = Some (false, h)) /\
  exists d, parses (-100) input (at_spans dist rgs) (all_unaries rgs) d 0 (length input) (-1).
Proof. exact goal_unary_refuted. Qed.
Print Assumptions C48_goal_unary_refuted.
(** On a lattice, a rule may be used over a span within the limit and still be lost, since a prefix
    of it is over the limit (303): the distance from 0 to 4 is 1, but from 0 to 3 it is 3. *)
Theorem C48_span_refuted : exists input lat d dist goal_rule rgs, map (map (fun x => Z.of_nat (len x))) input = lat /\ Lattice.ComputeDistances [] lat = Some d /\
  (forall i j, Lattice.Distance lat d (Z.of_nat i) (Z.of_nat j) = Some (dist i j) \/ length input < i \/ length input < j) /\
  arcs_ok input /\ (forall r, In r (all_rules rgs) -> wf_rule r /\ lhs r <> (-9)%Z) /\ NoDup (all_rules rgs) /\ lhs goal_rule = (-9)%Z /\ all_unaries rgs = [] /\
  (exists rs, rgs = [(rs, text_span 2)]) /\
  (exists h, Parse (-9) (-100) input dist (-1) goal_rule (load_all rgs) = Some (false, h)) /\
  exists d, parses (-100) input (at_spans dist rgs) [] d 0 (length input) (-1).
Proof. exact span_refuted. Qed.
Print Assumptions C48_span_refuted.
(** A rule of the grammar for [Goal] makes parsing succeed from any span (243-247): no category
    has a parse over the whole input. *)
Theorem C48_goal_lhs_refuted : exists input dist goal_rule rgs, arcs_ok input /\ (forall r, In r (all_rules rgs) -> wf_rule r) /\ NoDup (all_rules rgs) /\
  lhs goal_rule = (-9)%Z /\ (forall rs hs, In (rs, hs) rgs -> prefix_closed (length input) hs dist) /\ all_unaries rgs = [] /\
  (exists h, Parse (-9) (-100) input dist (-1) goal_rule (load_all rgs) = Some (true, h)) /\
  forall d c, ~ parses (-100) input (at_spans dist rgs) [] d 0 (length input) c.
Proof. exact goal_lhs_refuted. Qed.
Print Assumptions C48_goal_lhs_refuted.
(** Unary rules are used at spans where their grammar is not to be used: the glue rule S -> X, allowed
    at position 0 only, is part of the result at position 1 (277-286). *)
Theorem C48_unary_span_refuted : exists input dist goal_rule rgs rs hs, arcs_ok input /\ (forall r, In r (all_rules rgs) -> wf_rule r /\ lhs r <> (-9)%Z) /\ NoDup (all_rules rgs) /\
  lhs goal_rule = (-9)%Z /\ (forall rs hs, In (rs, hs) rgs -> prefix_closed (length input) hs dist) /\ acyclic (all_unaries rgs) /\ In (rs, hs) rgs /\
  exists h, Parse (-9) (-100) input dist (-1) goal_rule (load_all rgs) = Some (true, h) /\
  exists e ed, nth_error (edges h) e = Some ed /\ In (p_rule (lab ed)) rs /\ hs (p_i (lab ed)) (p_j (lab ed)) (dist (p_i (lab ed)) (p_j (lab ed))) = false.
Proof. exact unary_span_refuted. Qed.
Print Assumptions C48_unary_span_refuted.

(** ** Examples.  Words a b c d are 1 2 3 4; categories S X Y are -1 -2 -3; the goal is -9. *)
Definition word (w : Z) : list arc := [{| label := w; len := 1 |}].
Definition diff (i j : nat) : Z := Z.of_nat (j - i).
Definition mk (id : nat) (l : Z) (f : list Z) (k : Z) : rule := {| rid := id; lhs := l; rf := f; arity := k |}.
Definition top : rule := mk 0 (-9) [(-1)%Z] 1.
(** S -> X and S -> S X only at position 0; X -> a | b | X a X | Y, Y -> b *)
Definition ex_rgs : list (list rule * (nat -> nat -> Z -> bool)) :=
  [([mk 1 (-2) [1%Z] 0; mk 2 (-2) [2%Z] 0; mk 3 (-2) [(-2)%Z; 1%Z; (-2)%Z] 2; mk 4 (-2) [(-3)%Z] 1; mk 5 (-3) [2%Z] 0], text_span 3);
   ([mk 6 (-1) [(-2)%Z] 1; mk 7 (-1) [(-1)%Z; (-2)%Z] 2], glue_span)].
(** b a b, with an arc a directly from 1 to 3 *)
Definition ex_input : list (list arc) := [word 2; [{| label := 1; len := 1 |}; {| label := 1; len := 2 |}]; word 2].
Example C48_ex : arcs_ok ex_input /\ (forall r, In r (all_rules ex_rgs) -> wf_rule r /\ lhs r <> (-9)%Z) /\ NoDup (all_rules ex_rgs) /\
  (forall rs hs, In (rs, hs) ex_rgs -> prefix_closed (length ex_input) hs diff) /\ acyclic (all_unaries ex_rgs) /\
  (forall r, In r (all_unaries ex_rgs) -> rf r <> [(-1)%Z]) /\
  match Parse (-9) (-100) ex_input diff (-1) top (load_all ex_rgs) with
  | Some (true, h) => length (nodes h) = 11 /\ length (dvs h 10) = 10
  | _ => False
  end.
Proof.
  split. { intros p arcs x E I. destruct p as [|[|[|p]]]; [| | |destruct p; discriminate]; injection E as <-; cbn in I; repeat (destruct I as [<-|I]; [cbn; lia|]); destruct I. }
  split. { intros r I. cbn in I. repeat (destruct I as [<-|I]; [split; [split; [cbn; lia|reflexivity]|cbn; discriminate]|]). destruct I. }
  split. { cbn. repeat constructor; cbn; intuition discriminate. }
  split. { intros rs hs [[= <- <-]|[[= <- <-]|[]]]; [apply text_closed; reflexivity|apply glue_closed]. }
  split. { exists (fun c => if Z.eqb c (-1) then 2 else if Z.eqb c (-2) then 1 else 0). intros r c I E. cbn in I. destruct I as [<-|[<-|[]]]; cbn in E; injection E as <-; cbn; lia. }
  split. { intros r I. cbn in I. destruct I as [<-|[<-|[]]]; discriminate. }
  vm_compute. auto.
Qed.
