(** Inside and outside scores computed with [prob_t] denote those computed with
    real numbers; [prob_t] is ordered. *)
From Coq Require Import Reals Lra List Arith Bool.
From Verif Require Import HG HGProofs Deriv Inside InsideProofs OutsideProofs Viterbi ViterbiProofs LogVal LogValProofs.
Import ListNotations.

Definition orel {A B : Type} (R : A -> B -> Prop) (x : option A) (y : option B) : Prop :=
  match x, y with Some a, Some b => R a b | None, None => True | _, _ => False end.

Section Rel.
Context {P W V : Type}.
Variables (zero one : W) (plus times : W -> W -> W) (zero' one' : V) (plus' times' : V -> V -> V) (R : W -> V -> Prop).
Hypothesis RZ : R zero zero'.
Hypothesis RO : R one one'.
Hypothesis RP : forall a b a' b', R a a' -> R b b' -> R (plus a b) (plus' a' b').
Hypothesis RT : forall a b a' b', R a a' -> R b b' -> R (times a b) (times' a' b').
Variables (weight : edge P -> W) (weight' : edge P -> V).
Variable g : hg P.
Hypothesis RW : forall e ed, nth_error (edges g) e = Some ed -> R (weight ed) (weight' ed).

Lemma rel_nth : forall l l' i, Forall2 R l l' -> orel R (nth_error l i) (nth_error l' i).
Proof. intros l l' i F. revert i. induction F; intros [|i]; cbn; auto. Qed.
Lemma rel_upd : forall l l' f f', Forall2 R l l' -> (forall x y, R x y -> R (f x) (f' y)) -> forall i, orel (Forall2 R) (upd l i f) (upd l' i f').
Proof.
  intros l l' f f' F H. induction F as [|x y l l' X F IH]; intros [|i]; cbn; auto.
  specialize (IH i). destruct (upd l i f), (upd l' i f'); cbn in *; try contradiction; auto.
Qed.
Lemma rel_repeat : forall n, Forall2 R (repeat zero n) (repeat zero' n).
Proof. induction n; cbn; constructor; auto. Qed.
Lemma rel_mul_tails : forall sc sc', Forall2 R sc sc' -> forall ts a a', R a a' -> orel R (mul_tails times sc ts a) (mul_tails times' sc' ts a').
Proof.
  intros sc sc' F. induction ts as [|t r IH]; intros a a' A; cbn; [exact A|].
  pose proof (rel_nth sc sc' t F) as N. destruct (nth_error sc t), (nth_error sc' t); cbn in N; try contradiction; [apply IH, RT; assumption|exact I].
Qed.
Lemma rel_in_loop : forall i es sc sc', Forall2 R sc sc' -> orel (Forall2 R) (in_loop plus times weight g i es sc) (in_loop plus' times' weight' g i es sc').
Proof.
  intros i. induction es as [|e r IH]; intros sc sc' F; cbn; [exact F|].
  destruct (nth_error (edges g) e) as [ed|] eqn:ED; [|exact I].
  pose proof (rel_mul_tails sc sc' F (tails ed) _ _ (RW e ed ED)) as M.
  destruct (mul_tails times sc (tails ed) (weight ed)), (mul_tails times' sc' (tails ed) (weight' ed)); cbn in M; try contradiction; [|exact I].
  pose proof (rel_upd sc sc' _ _ F (fun x y X => RP _ _ _ _ X M) i) as U.
  destruct (upd sc i _), (upd sc' i _); cbn in U; try contradiction; [apply IH, U|exact I].
Qed.
Lemma rel_node_loop : forall ns i sc sc', Forall2 R sc sc' -> orel (Forall2 R) (node_loop plus times weight g i ns sc) (node_loop plus' times' weight' g i ns sc').
Proof.
  induction ns as [|nd r IH]; intros i sc sc' F; cbn; [exact F|].
  pose proof (rel_in_loop i (in_edges nd) sc sc' F) as L.
  destruct (in_loop plus times weight g i _ sc), (in_loop plus' times' weight' g i _ sc'); cbn in L; try contradiction; [apply IH, L|exact I].
Qed.
Lemma rel_inside : orel (Forall2 R) (Inside zero plus times weight g) (Inside zero' plus' times' weight' g).
Proof. apply rel_node_loop, rel_repeat. Qed.

Lemma rel_others : forall sc sc', Forall2 R sc sc' -> forall u ts a a', R a a' -> orel R (others times sc u ts a) (others times' sc' u ts a').
Proof.
  intros sc sc' F u. induction ts as [|t r IH]; intros a a' A; cbn; [exact A|]. destruct (u =? t); [apply IH, A|].
  pose proof (rel_nth sc sc' t F) as N. destruct (nth_error sc t), (nth_error sc' t); cbn in N; try contradiction; [apply IH, RT; assumption|exact I].
Qed.
Lemma rel_tail_loop : forall sc sc', Forall2 R sc sc' -> forall ts hw hw', R hw hw' -> forall todo out out', Forall2 R out out' ->
  orel (Forall2 R) (tail_loop one plus times sc ts hw todo out) (tail_loop one' plus' times' sc' ts hw' todo out').
Proof.
  intros sc sc' F ts hw hw' H. induction todo as [|u r IH]; intros out out' O; cbn; [exact O|].
  pose proof (rel_others sc sc' F u ts _ _ RO) as M.
  destruct (others times sc u ts one) as [c|], (others times' sc' u ts one') as [c'|]; cbn in M; try contradiction; [|exact I].
  pose proof (rel_upd out out' _ _ O (fun x y X => RP _ _ _ _ X (RT _ _ _ _ M H)) u) as U.
  destruct (upd out u _), (upd out' u _); cbn in U; try contradiction; [apply IH, U|exact I].
Qed.
Lemma rel_out_loop : forall sc sc', Forall2 R sc sc' -> forall i es out out', Forall2 R out out' ->
  orel (Forall2 R) (out_loop one plus times weight g sc i es out) (out_loop one' plus' times' weight' g sc' i es out').
Proof.
  intros sc sc' F i. induction es as [|e r IH]; intros out out' O; cbn; [exact O|].
  destruct (nth_error (edges g) e) as [ed|] eqn:ED; [|exact I].
  pose proof (rel_nth out out' i O) as N. destruct (nth_error out i) as [h|], (nth_error out' i) as [h'|]; cbn in N; try contradiction; [|exact I].
  pose proof (rel_tail_loop sc sc' F (tails ed) _ _ (RT _ _ _ _ (RW e ed ED) N) (tails ed) out out' O) as U.
  destruct (tail_loop one plus times _ _ _ _ out), (tail_loop one' plus' times' _ _ _ _ out'); cbn in U; try contradiction; [apply IH, U|exact I].
Qed.
Lemma rel_out_nodes : forall sc sc', Forall2 R sc sc' -> forall n out out', Forall2 R out out' ->
  orel (Forall2 R) (out_nodes one plus times weight g sc n out) (out_nodes one' plus' times' weight' g sc' n out').
Proof.
  intros sc sc' F. induction n as [|n IH]; intros out out' O; cbn; [exact O|].
  destruct (nth_error (nodes g) n) as [nd|]; [|exact I].
  pose proof (rel_out_loop sc sc' F n (in_edges nd) out out' O) as U.
  destruct (out_loop one plus times _ _ _ _ _ out), (out_loop one' plus' times' _ _ _ _ _ out'); cbn in U; try contradiction; [apply IH, U|exact I].
Qed.
Lemma rel_outside : forall sc sc' k k', Forall2 R sc sc' -> R k k' -> orel (Forall2 R) (Outside zero one plus times weight g sc k) (Outside zero' one' plus' times' weight' g sc' k').
Proof.
  intros sc sc' k k' F K. unfold Outside.
  pose proof (rel_upd _ _ (fun _ => k) (fun _ => k') (rel_repeat (length (nodes g))) (fun _ _ _ => K) (length (nodes g) - 1)) as U.
  destruct (upd (repeat zero _) _ _), (upd (repeat zero' _) _ _); cbn in U; try contradiction; [apply rel_out_nodes; assumption|exact I].
Qed.
Lemma rel_post_edges : forall sc sc', Forall2 R sc sc' -> forall o o', R o o' -> forall es ps ps', Forall2 R ps ps' ->
  orel (Forall2 R) (post_edges plus times weight g sc o es ps) (post_edges plus' times' weight' g sc' o' es ps').
Proof.
  intros sc sc' F o o' O. induction es as [|e r IH]; intros ps ps' H; cbn; [exact H|].
  destruct (nth_error (edges g) e) as [ed|] eqn:ED; [|exact I].
  pose proof (rel_mul_tails sc sc' F (tails ed) _ _ O) as M.
  destruct (mul_tails times sc (tails ed) o) as [k|], (mul_tails times' sc' (tails ed) o') as [k'|]; cbn in M; try contradiction; [|exact I].
  pose proof (rel_upd ps ps' _ _ H (fun x y X => RP _ _ _ _ X (RT _ _ _ _ (RW e ed ED) M)) (eid ed)) as U.
  destruct (upd ps _ _), (upd ps' _ _); cbn in U; try contradiction; [apply IH, U|exact I].
Qed.
Lemma rel_post_nodes : forall sc sc', Forall2 R sc sc' -> forall ns out out' ps ps', Forall2 R out out' -> Forall2 R ps ps' ->
  orel (Forall2 R) (post_nodes plus times weight g sc out ns ps) (post_nodes plus' times' weight' g sc' out' ns ps').
Proof.
  intros sc sc' F. induction ns as [|nd r IH]; intros out out' ps ps' O H; destruct O as [|o o' os os' O OS]; cbn; try exact H; try exact I.
  pose proof (rel_post_edges sc sc' F o o' O (in_edges nd) ps ps' H) as U.
  destruct (post_edges plus times _ _ _ _ _ ps), (post_edges plus' times' _ _ _ _ _ ps'); cbn in U; try contradiction; [apply IH; assumption|exact I].
Qed.
Lemma rel_posteriors : orel (fun x y => Forall2 R (fst x) (fst y) /\ Forall2 R (snd x) (snd y))
  (EdgePosteriors zero one plus times weight g) (EdgePosteriors zero' one' plus' times' weight' g).
Proof.
  unfold EdgePosteriors. pose proof rel_inside as HI.
  destruct (Inside zero plus times weight g) as [sc|], (Inside zero' plus' times' weight' g) as [sc'|]; cbn in HI; try contradiction; [|exact I].
  pose proof (rel_outside sc sc' one one' HI RO) as HO.
  destruct (Outside zero one plus times weight g sc one) as [o|], (Outside zero' one' plus' times' weight' g sc' one') as [o'|]; cbn in HO; try contradiction; [|exact I].
  pose proof (rel_post_nodes sc sc' HI (nodes g) o o' _ _ HO (rel_repeat (length (edges g)))) as HP.
  destruct (post_nodes plus times _ _ _ _ _ _), (post_nodes plus' times' _ _ _ _ _ _); cbn in HP; try contradiction; [|exact I].
  cbn. split; assumption.
Qed.
End Rel.

Lemma R_semiring : semiring 0%R 1%R Rplus Rmult.
Proof. constructor; intros; ring. Qed.

(** Non-negative [prob_t] values. *)
Definition prob (a : lv) : Prop := s_ a = false /\ exists x, denotes a x.

Lemma prob_ordered : ordered prob lv_ltb lv_mul.
Proof.
  assert (NN : forall a x, s_ a = false -> denotes a x -> (0 <= x)%R).
  { intros a x S D. revert S. destruct D as [s|l|l]; intros S; [lra|apply Rlt_le, exp_pos|discriminate]. }
  assert (LF : forall a b x y, prob a -> prob b -> denotes a x -> denotes b y -> (lv_ltb a b = false <-> (y <= x)%R)).
  { intros a b x y [Sa _] [Sb _] Da Db. pose proof (ltb_nonneg a b x y Da Db Sa Sb) as H. destruct (lv_ltb a b).
    - split; [discriminate|]. assert (x < y)%R by (apply H; reflexivity). intros; lra.
    - split; [|reflexivity]. intros _. apply Rnot_lt_le. intros L. apply H in L. discriminate. }
  constructor.
  - intros a A. pose proof A as [_ (x & X)]. apply (LF a a x x A A X X). lra.
  - intros a b A B H. pose proof A as [Sa (x & X)]. pose proof B as [Sb (y & Y)]. apply (LF b a y x B A Y X).
    apply Rlt_le. apply (ltb_nonneg a b x y X Y Sa Sb). exact H.
  - intros a b c A B C. pose proof A as [_ (x & X)]. pose proof B as [_ (y & Y)]. pose proof C as [_ (z & Z)].
    rewrite (LF a b x y), (LF b c y z), (LF a c x z) by assumption. lra.
  - intros a b [Sa (x & X)] [Sb (y & Y)]. split; [cbn; rewrite Sa, Sb; reflexivity|]. exists (x * y)%R. apply mul_denotes; assumption.
  - intros a b c d A B C D. pose proof A as [Sa (x & X)]. pose proof B as [Sb (y & Y)]. pose proof C as [Sc (z & Z)]. pose proof D as [Sd (v & V)].
    assert (M : forall a b, prob a -> prob b -> prob (lv_mul a b)).
    { intros a' b' [Sa' (x' & X')] [Sb' (y' & Y')]. split; [cbn; rewrite Sa', Sb'; reflexivity|]. exists (x' * y')%R. apply mul_denotes; assumption. }
    rewrite (LF a b x y), (LF c d z v) by assumption.
    rewrite (LF _ _ (x * z)%R (y * v)%R) by (try apply M; try assumption; apply mul_denotes; assumption).
    intros H1 H2. apply Rmult_le_compat; [exact (NN b y Sb Y)|exact (NN d v Sd V)|assumption|assumption].
Qed.

(** Inside and posteriors with [prob_t]. *)
Lemma tree_denotes : forall (P : Type) (g : hg P) (weight : edge P -> lv) (w : edge P -> R),
  (forall e ed, nth_error (edges g) e = Some ed -> denotes (weight ed) (w ed)) ->
  forall t n, derives g n t -> denotes (tree_weight lv_mul (edge_weight lv_zero weight g) t) (tree_weight Rmult (edge_weight 0%R w g) t).
Proof.
  intros P g weight w H. induction t as [e ts IH] using tree_ind'. intros n D. inversion D as [? nd ? ed ? N E ED F]; subst. cbn [tree_weight].
  assert (DE : denotes (edge_weight lv_zero weight g e) (edge_weight 0%R w g e)) by (unfold edge_weight; rewrite ED; exact (H e ed ED)).
  revert DE. generalize (edge_weight lv_zero weight g e) (edge_weight 0%R w g e). clear D N E ED.
  induction F as [|u s us ss Du F IHF]; intros a x DE; cbn; [exact DE|]. inversion IH as [|? ? H1 H2]; subst.
  apply IHF; [exact H2|]. apply mul_denotes; [exact DE|exact (H1 u Du)].
Qed.

Lemma rel_at : forall (l : list lv) (m : list R) i x, Forall2 denotes l m -> nth_error m i = Some x -> exists a, nth_error l i = Some a /\ denotes a x.
Proof. intros l m i x F. revert i. induction F as [|a b l m D F IH]; intros [|i] H; cbn in *; try discriminate; [injection H as <-; exists a; auto|exact (IH i H)]. Qed.

Lemma inside_prob : forall (P : Type) (weight : edge P -> lv) (w : edge P -> R) (g : hg P), topo g ->
  (forall e ed, nth_error (edges g) e = Some ed -> denotes (weight ed) (w ed)) ->
  exists sc, Inside lv_zero lv_add lv_mul weight g = Some sc /\ length sc = length (nodes g) /\
  forall n, n < length (nodes g) ->
    (exists L, all_derivations g n L) /\
    forall L, all_derivations g n L -> exists a, nth_error sc n = Some a /\ denotes a (sum 0%R Rplus (map (tree_weight Rmult (edge_weight 0%R w g)) L)).
Proof.
  intros P weight w g T H. destruct (inside_correct 0%R 1%R Rplus Rmult R_semiring w g T) as (sc & R & L & V).
  pose proof (rel_inside lv_zero lv_add lv_mul 0%R Rplus Rmult denotes zero_denotes
    (fun a b a' b' X Y => add_denotes a b a' b' X Y) (fun a b a' b' X Y => mul_denotes a b a' b' X Y) weight w g H) as REL.
  rewrite R in REL. destruct (Inside lv_zero lv_add lv_mul weight g) as [ls|]; [|destruct REL]. cbn in REL.
  exists ls. split; [reflexivity|]. split.
  - rewrite <- L. clear - REL. induction REL; cbn; auto.
  - intros n LN. destruct (V n LN) as (E & VL). split; [exact E|]. intros M AM. exact (rel_at _ _ n _ REL (VL M AM)).
Qed.

Lemma posteriors_prob : forall (P : Type) (weight : edge P -> lv) (w : edge P -> R) (g : hg P), topo g -> distinct_tails g -> ids_ok g -> length (nodes g) <> 0 ->
  (forall e ed, nth_error (edges g) e = Some ed -> denotes (weight ed) (w ed)) ->
  exists sc posts, EdgePosteriors lv_zero lv_one lv_add lv_mul weight g = Some (sc, posts) /\
    (exists L, all_derivations g (length (nodes g) - 1) L) /\
    forall L, all_derivations g (length (nodes g) - 1) L -> forall x, x < length (edges g) ->
      exists a, nth_error posts x = Some a /\ denotes a (sum 0%R Rplus (map (fun t =>
        (INR (uses (fun e => e =? x) t) * tree_weight Rmult (edge_weight 0%R w g) t)%R) L)).
Proof.
  intros P weight w g T DT IDS NE H. destruct (posteriors_correct 0%R 1%R Rplus Rmult R_semiring Rmult_comm w g T DT IDS NE) as (sc & posts & R & LP & E & V).
  pose proof (rel_posteriors lv_zero lv_one lv_add lv_mul 0%R 1%R Rplus Rmult denotes zero_denotes one_denotes
    (fun a b a' b' X Y => add_denotes a b a' b' X Y) (fun a b a' b' X Y => mul_denotes a b a' b' X Y) weight w g H) as REL.
  rewrite R in REL. destruct (EdgePosteriors lv_zero lv_one lv_add lv_mul weight g) as [[ls lp]|]; [|destruct REL]. cbn in REL. destruct REL as [_ REL].
  exists ls, lp. split; [reflexivity|]. split; [exact E|]. intros L AL x LX.
  apply (rel_at _ _ x _ REL). rewrite (proj2 (V L AL) x LX). do 2 f_equal. apply map_ext. intros t.
  generalize (uses (fun e => e =? x) t). intros k. induction k as [|k IH]; [cbn; ring|]. rewrite S_INR. cbn [nmul]. rewrite IH. ring.
Qed.

Lemma viterbi_prob : forall (P T : Type) (weight : edge P -> lv) (w : edge P -> R) (dflt : T) (traverse : edge P -> list T -> T -> T) (g : hg P),
  topo g -> (forall e ed, nth_error (edges g) e = Some ed -> s_ (weight ed) = false /\ denotes (weight ed) (w ed)) ->
  (forall n nd, nth_error (nodes g) n = Some nd -> in_edges nd <> []) -> length (nodes g) <> 0 ->
  exists v r t, Viterbi lv_zero lv_one lv_mul lv_ltb weight dflt traverse g = Some (v, Some r) /\
    derives g (length (nodes g) - 1) t /\ r = tree_eval g dflt traverse t /\
    denotes v (tree_weight Rmult (edge_weight 0%R w g) t) /\
    forall t', derives g (length (nodes g) - 1) t' ->
      (tree_weight Rmult (edge_weight 0 w g) t' <= tree_weight Rmult (edge_weight 0 w g) t)%R.
Proof.
  intros P T weight w dflt traverse g TP H LEAF NE.
  assert (OKW : forall e ed, nth_error (edges g) e = Some ed -> prob (weight ed)).
  { intros e ed ED. destruct (H e ed ED) as (S & D). split; [exact S|]. exists (w ed). exact D. }
  assert (DEN : forall e ed, nth_error (edges g) e = Some ed -> denotes (weight ed) (w ed)) by (intros e ed ED; apply (H e ed ED)).
  destruct (viterbi_correct lv_zero lv_one lv_mul lv_ltb prob prob_ordered weight dflt traverse g TP OKW LEAF NE) as (v & r & t & R & D & V & E & M).
  exists v, r, t. split; [exact R|]. split; [exact D|]. split; [exact E|].
  assert (Dt := tree_denotes P g weight w DEN t _ D). split; [rewrite V; exact Dt|].
  intros t' D'. specialize (M t' D'). assert (Dt' := tree_denotes P g weight w DEN t' _ D').
  pose proof (tw_ok lv_zero lv_mul lv_ltb prob prob_ordered weight g OKW t _ D) as [S _].
  pose proof (tw_ok lv_zero lv_mul lv_ltb prob prob_ordered weight g OKW t' _ D') as [S' _].
  apply Rnot_lt_le. intros L. apply (ltb_nonneg _ _ _ _ Dt Dt' S S') in L. rewrite V in M. congruence.
Qed.
