From Coq Require Import List Arith Lia Reals Lra Bool.
From Verif Require Import HG HGProofs Deriv Inside InsideProofs OutsideProofs Push LogVal LogValProofs ProbProofs.
Import ListNotations.

(** * Specification *)
(** [part g n t m s]: [s] is the part of the derivation [t] of [n] that derives [m]. *)
Inductive part {P} (g : hg P) : nat -> tree -> nat -> tree -> Prop :=
| part_self : forall n t, part g n t n t
| part_sub : forall n e ed ts k u s m s',
    nth_error (edges g) e = Some ed -> nth_error (tails ed) k = Some u -> nth_error ts k = Some s ->
    part g u s m s' -> part g n (Tree e ts) m s'.

(** * What is stored *)
Section G.
Context {W : Type}.
Variables (zero : W) (plus div : W -> W -> W).

Lemma post_total_spec : forall posts es z, (forall e, In e es -> e < length posts) ->
  post_total plus posts es z = Some (fold_left plus (map (fun e => nth e posts zero) es) z).
Proof.
  intros posts. induction es as [|e r IH]; intros z H; cbn; [reflexivity|].
  rewrite (nth_error_look zero posts e) by (apply H; left; reflexivity). apply IH. intros x X. apply H. right. exact X.
Qed.

Definition relab (ed : edge W) (w : W) : edge W := {| head := head ed; tails := tails ed; lab := w; eid := eid ed |}.

Lemma set_probs_spec : forall posts z es eds, (forall e, In e es -> e < length posts) -> length posts = length eds ->
  exists eds', set_probs div posts z es eds = Some eds' /\ length eds' = length eds /\
    forall x, nth_error eds' x = if existsb (Nat.eqb x) es then option_map (fun ed => relab ed (div (nth x posts zero) z)) (nth_error eds x) else nth_error eds x.
Proof.
  intros posts z. induction es as [|e r IH]; intros eds H L; cbn [set_probs].
  - exists eds. cbn. auto.
  - assert (LE : e < length posts) by (apply H; left; reflexivity).
    rewrite (nth_error_look zero posts e LE).
    match goal with |- context [upd eds e ?f] => destruct (upd_total _ eds e f ltac:(lia)) as (e1 & U) end. rewrite U.
    pose proof (upd_length _ _ _ _ _ U) as L1.
    destruct (IH e1) as (eds' & R & L' & V); [intros x X; apply H; right; exact X|lia|].
    exists eds'. split; [exact R|]. split; [lia|]. intros x. rewrite V, (upd_nth _ _ _ _ _ x U). cbn [existsb].
    rewrite (Nat.eqb_sym x e). destruct (Nat.eqb_spec e x) as [->|NE]; cbn [orb]; [|reflexivity].
    destruct (nth_error eds x) as [ed|]; cbn; destruct (existsb (Nat.eqb x) r); reflexivity.
Qed.

Lemma existsb_in : forall x l, existsb (Nat.eqb x) l = true <-> In x l.
Proof.
  intros x l. rewrite existsb_exists. split.
  - intros (y & I & E). apply Nat.eqb_eq in E. subst. exact I.
  - intros I. exists x. split; [exact I|apply Nat.eqb_refl].
Qed.

Lemma push_nodes_spec : forall (sel : node -> list nat) posts ns eds, length posts = length eds ->
  (forall nd e, In nd ns -> In e (sel nd) -> e < length posts) ->
  (forall i j ni nj e, nth_error ns i = Some ni -> nth_error ns j = Some nj -> In e (sel ni) -> In e (sel nj) -> i = j) ->
  exists eds', push_nodes zero plus div sel posts ns eds = Some eds' /\ length eds' = length eds /\
    (forall x, (forall nd, In nd ns -> ~ In x (sel nd)) -> nth_error eds' x = nth_error eds x) /\
    forall nd x, In nd ns -> In x (sel nd) ->
      nth_error eds' x = option_map (fun ed => relab ed (div (nth x posts zero) (fold_left plus (map (fun e => nth e posts zero) (sel nd)) zero))) (nth_error eds x).
Proof.
  intros sel posts. induction ns as [|nd r IH]; intros eds L H D; cbn [push_nodes].
  - exists eds. split; [reflexivity|]. split; [reflexivity|]. split; [reflexivity|]. intros nd x [].
  - rewrite post_total_spec by (intros e E; apply (H nd); [left; reflexivity|exact E]).
    set (z := fold_left plus (map (fun e => nth e posts zero) (sel nd)) zero).
    destruct (set_probs_spec posts z (sel nd) eds) as (e1 & R1 & L1 & V1); [intros e E; apply (H nd); [left; reflexivity|exact E]|exact L|].
    rewrite R1. destruct (IH e1) as (eds' & R & L' & K & V); [lia|intros nd' e I E; apply (H nd'); [right; exact I|exact E]| |].
    { intros i j ni nj e Ni Nj Ei Ej. specialize (D (S i) (S j) ni nj e Ni Nj Ei Ej). lia. }
    exists eds'. split; [exact R|]. split; [lia|]. split.
    + intros x NI. rewrite K by (intros nd' I; apply NI; right; exact I). rewrite V1.
      destruct (existsb (Nat.eqb x) (sel nd)) eqn:E; [|reflexivity]. apply existsb_in in E. exfalso. apply (NI nd); [left; reflexivity|exact E].
    + intros nd' x [<-|I] E.
      * rewrite K.
        -- rewrite V1. assert (E' : existsb (Nat.eqb x) (sel nd) = true) by (apply existsb_in, E). rewrite E'. reflexivity.
        -- intros nd' I E'. destruct (In_nth_error _ _ I) as (j & J). specialize (D 0 (S j) nd nd' x eq_refl J E E'). discriminate.
      * rewrite (V nd' x I E). f_equal. rewrite V1.
        destruct (existsb (Nat.eqb x) (sel nd)) eqn:E'; [|reflexivity]. apply existsb_in in E'. exfalso.
        destruct (In_nth_error _ _ I) as (j & J). specialize (D 0 (S j) nd nd' x eq_refl J E' E). discriminate.
Qed.

(** The model, characterised without algebra. *)
Lemma push_goal_spec : forall (one : W) (times : W -> W -> W) (scale : W -> W) (g : hg W) sc posts,
  EdgePosteriors zero one plus times (fun ed => scale (lab ed)) g = Some (sc, posts) ->
  topo g -> one_head g -> length posts = length (edges g) ->
  exists g', PushWeightsToGoal zero one plus times div scale g = Some (last sc zero, g') /\ nodes g' = nodes g /\
    length (edges g') = length (edges g) /\
    (forall x, (forall nd, In nd (nodes g) -> ~ In x (in_edges nd)) -> nth_error (edges g') x = nth_error (edges g) x) /\
    forall nd x, In nd (nodes g) -> In x (in_edges nd) ->
      nth_error (edges g') x = option_map (fun ed => relab ed (div (nth x posts zero) (fold_left plus (map (fun e => nth e posts zero) (in_edges nd)) zero))) (nth_error (edges g) x).
Proof.
  intros one times scale g sc posts EP T OH LP. unfold PushWeightsToGoal, push_weights. rewrite EP.
  destruct (push_nodes_spec in_edges posts (nodes g) (edges g) LP) as (eds & R & L & K & V).
  - intros nd e I E. destruct (In_nth_error _ _ I) as (j & J). destruct (proj2 (T j nd J) e E) as (ed & ED & _).
    rewrite LP. apply nth_error_Some. congruence.
  - intros i j ni nj e Ni Nj Ei Ej. exact (OH i j ni nj e Ni Nj Ei Ej).
  - rewrite R. eexists. split; [reflexivity|]. cbn. auto.
Qed.
End G.

(** * Positivity of the outside scores *)
Section Pos.
Local Open Scope R_scope.
Context {P : Type}.
Variable weight : edge P -> R.
Variable g : hg P.
Hypothesis T : topo g.
Hypothesis WP : forall e ed, nth_error (edges g) e = Some ed -> 0 < weight ed.
Local Notation look l n := (nth n l 0).
Local Notation we := (edge_weight 0 weight g).
Local Notation tw := (tree_weight Rmult we).
Variable sc : list R.
Hypothesis SCL : length sc = length (nodes g).
Hypothesis SCP : forall n, 0 <= look sc n.

Lemma others_pos : forall u ts a, (forall t, In t ts -> (t < length sc)%nat) -> 0 <= a ->
  exists c, others Rmult sc u ts a = Some c /\ 0 <= c /\ (0 < a -> (forall t, In t ts -> 0 < look sc t) -> 0 < c).
Proof.
  intros u. induction ts as [|t r IH]; intros a H A; cbn [others].
  - exists a. auto.
  - destruct (u =? t)%nat.
    + destruct (IH a) as (c & R & C & X); [intros x Hx; apply H; right; exact Hx|exact A|].
      exists c. split; [exact R|]. split; [exact C|]. intros A' HP. apply X; [exact A'|]. intros x Hx. apply HP. right. exact Hx.
    + rewrite (nth_error_look 0 sc t) by (apply H; left; reflexivity).
      destruct (IH (a * look sc t)) as (c & R & C & X); [intros x Hx; apply H; right; exact Hx|apply Rmult_le_pos; [exact A|apply SCP]|].
      exists c. split; [exact R|]. split; [exact C|]. intros A' HP. apply X; [|intros x Hx; apply HP; right; exact Hx].
      apply Rmult_lt_0_compat; [exact A'|apply HP; left; reflexivity].
Qed.

Lemma tail_loop_pos : forall ts hw, (forall t, In t ts -> (t < length sc)%nat) -> 0 <= hw ->
  forall todo out out', tail_loop 1 Rplus Rmult sc ts hw todo out = Some out' ->
  (forall j, look out j <= look out' j) /\
  (0 < hw -> (forall t, In t ts -> 0 < look sc t) -> (forall j, 0 <= look out j) -> forall u, In u todo -> 0 < look out' u).
Proof.
  intros ts hw HT HW. induction todo as [|u r IH]; intros out out' R; cbn [tail_loop] in R.
  - injection R as <-. split; [intros; lra|]. intros _ _ _ u [].
  - destruct (others_pos u ts 1 HT ltac:(lra)) as (c & C1 & C2 & C3). rewrite C1 in R.
    destruct (upd out u (fun x => x + c * hw)) as [o1|] eqn:U; [|discriminate].
    destruct (IH o1 out' R) as (M & Q).
    assert (M1 : forall j, look out j <= look o1 j).
    { intros j. rewrite (upd_look 0 _ _ _ _ j U). destruct (u =? j)%nat; [|lra]. pose proof (Rmult_le_pos c hw C2 HW). lra. }
    split; [intros j; specialize (M j); specialize (M1 j); lra|].
    intros HW' HP HO v [->|I].
    + assert (X : 0 < look o1 v).
      { rewrite (upd_look 0 _ _ _ _ v U), Nat.eqb_refl. pose proof (Rmult_lt_0_compat c hw (C3 ltac:(lra) HP) HW'). specialize (HO v). lra. }
      specialize (M v). lra.
    + apply Q; auto. intros j. specialize (M1 j). specialize (HO j). lra.
Qed.

Lemma out_loop_pos : forall i es out out', (forall e, In e es -> exists ed, nth_error (edges g) e = Some ed /\ forall t, In t (tails ed) -> (t < i)%nat) ->
  (i <= length sc)%nat -> (forall j, 0 <= look out j) -> out_loop 1 Rplus Rmult weight g sc i es out = Some out' ->
  (forall j, look out j <= look out' j) /\
  (0 < look out i -> forall e ed u, In e es -> nth_error (edges g) e = Some ed -> (forall t, In t (tails ed) -> 0 < look sc t) -> In u (tails ed) -> 0 < look out' u).
Proof.
  intros i. induction es as [|e r IH]; intros out out' H LI NN R; cbn [out_loop] in R.
  - injection R as <-. split; [intros; lra|]. intros _ e ed u [].
  - destruct (H e (or_introl eq_refl)) as (ed & ED & TL). rewrite ED in R.
    destruct (nth_error out i) as [h|] eqn:O; [|discriminate].
    assert (h = look out i) by (symmetry; apply nth_error_nth; exact O). subst h.
    destruct (tail_loop 1 Rplus Rmult sc (tails ed) (weight ed * look out i) (tails ed) out) as [o1|] eqn:TLP; [|discriminate].
    assert (HW : 0 <= weight ed * look out i) by (apply Rmult_le_pos; [apply Rlt_le, (WP e ed ED)|apply NN]).
    destruct (tail_loop_pos (tails ed) (weight ed * look out i) (fun t TT => ltac:(specialize (TL t TT); lia)) HW _ _ _ TLP) as (M1 & Q1).
    destruct (IH o1 out') as (M & Q); [intros x X; apply H; right; exact X|exact LI|intros j; specialize (M1 j); specialize (NN j); lra|exact R|].
    split; [intros j; specialize (M j); specialize (M1 j); lra|].
    intros HI e' ed' u [<-|I] ED' HP UU.
    + rewrite ED in ED'. injection ED' as <-. assert (X := Q1 ltac:(apply Rmult_lt_0_compat; [apply (WP e ed ED)|exact HI]) HP NN u UU).
      specialize (M u). lra.
    + apply (Q ltac:(specialize (M1 i); lra) e' ed' u I ED' HP UU).
Qed.

Lemma out_nodes_pos : forall n out out', (n <= length (nodes g))%nat -> length out = length (nodes g) -> (forall j, 0 <= look out j) -> out_nodes 1 Rplus Rmult weight g sc n out = Some out' ->
  (forall j, look out j <= look out' j) /\
  forall i nd e ed u, (i < n)%nat -> nth_error (nodes g) i = Some nd -> In e (in_edges nd) -> nth_error (edges g) e = Some ed ->
    0 < look out' i -> (forall t, In t (tails ed) -> 0 < look sc t) -> In u (tails ed) -> 0 < look out' u.
Proof.
  induction n as [|i IH]; intros out out' LE LO NN R.
  - cbn [out_nodes] in R. injection R as <-. split; [intros; lra|]. intros; lia.
  - assert (R0 := R). cbn [out_nodes] in R. destruct (nth_error (nodes g) i) as [nd|] eqn:N; [|discriminate].
    destruct (out_loop 1 Rplus Rmult weight g sc i (in_edges nd) out) as [o1|] eqn:OL; [|discriminate].
    destruct (out_loop_pos i (in_edges nd) out o1 (proj2 (T i nd N)) ltac:(lia) NN OL) as (M1 & Q1).
    destruct (out_loop_spec 0 1 Rplus Rmult R_semiring Rmult_comm weight g sc SCL i (in_edges nd) out) as (o1' & OL' & L1 & S1 & _); [lia|lia|exact (proj2 (T i nd N))|].
    rewrite OL in OL'. injection OL' as <-.
    assert (NN1 : forall j, 0 <= look o1 j) by (intros j; specialize (M1 j); specialize (NN j); lra).
    destruct (IH o1 out' ltac:(lia) ltac:(lia) NN1 R) as (M & Q).
    destruct (out_nodes_spec 0 1 Rplus Rmult R_semiring Rmult_comm weight g T sc SCL i o1) as (out2 & R2 & _ & S2 & _); [lia|lia|].
    rewrite R in R2. injection R2 as <-.
    split; [intros j; specialize (M j); specialize (M1 j); lra|].
    intros k kd e ed u LK NK E ED PK HP UU. destruct (Nat.eq_dec k i) as [->|NE].
    + rewrite N in NK. injection NK as <-. rewrite (S2 i ltac:(lia)), (S1 i ltac:(lia)) in PK.
      assert (X := Q1 PK e ed u E ED HP UU). specialize (M u). lra.
    + exact (Q k kd e ed u ltac:(lia) NK E ED PK HP UU).
Qed.

Lemma outside_pos : forall out, length (nodes g) <> 0%nat -> Outside 0 1 Rplus Rmult weight g sc 1 = Some out ->
  0 < look out (length (nodes g) - 1) /\
  forall i nd e ed u, nth_error (nodes g) i = Some nd -> In e (in_edges nd) -> nth_error (edges g) e = Some ed ->
    0 < look out i -> (forall t, In t (tails ed) -> 0 < look sc t) -> In u (tails ed) -> 0 < look out u.
Proof.
  intros out NE R. unfold Outside in R.
  destruct (upd (repeat 0 (length (nodes g))) (length (nodes g) - 1) (fun _ => 1)) as [o0|] eqn:U; [|discriminate].
  pose proof (upd_length _ _ _ _ _ U) as L0. rewrite repeat_length in L0.
  assert (NN : forall j, 0 <= look o0 j).
  { intros j. rewrite (upd_look 0 _ _ _ _ j U). destruct (_ =? j)%nat; [lra|]. rewrite (look_repeat 0). lra. }
  destruct (out_nodes_pos _ _ _ (le_n _) L0 NN R) as (M & Q). split.
  - specialize (M (length (nodes g) - 1)%nat). rewrite (upd_look 0 _ _ _ _ _ U), Nat.eqb_refl in M. lra.
  - intros i nd e ed u N. apply (Q i nd e ed u); [|exact N]. apply nth_error_Some. congruence.
Qed.
End Pos.

(** * Pushing *)
Section Real.
Local Open Scope R_scope.
Context {P : Type}.
Variable sw : edge P -> R.
Variable g : hg P.
Hypothesis T : topo g.
Hypothesis WP : forall e ed, nth_error (edges g) e = Some ed -> 0 < sw ed.
Local Notation look l n := (nth n l 0).
Local Notation we := (edge_weight 0 sw g).
Local Notation tw := (tree_weight Rmult we).

Lemma tw_pos : forall t n, derives g n t -> 0 < tw t.
Proof.
  induction t as [e ts IH] using tree_ind'. intros n D. inversion D as [? nd ? ed ? N E ED F]; subst. cbn [tree_weight].
  assert (O : 0 < we e) by (unfold edge_weight; rewrite ED; exact (WP e ed ED)).
  revert O. generalize (we e). clear D N E ED. induction F as [|t s r rs Dt F IHF]; intros a O; cbn; [exact O|].
  inversion IH as [|? ? H1 H2]; subst. apply IHF; [exact H2|]. apply Rmult_lt_0_compat; [exact O|exact (H1 _ Dt)].
Qed.
Lemma sum_nonneg : forall (A : Type) (h : A -> R) l, (forall a, In a l -> 0 <= h a) -> 0 <= sum 0 Rplus (map h l).
Proof.
  induction l as [|a r IH]; intros H; cbn; [lra|]. pose proof (H a (or_introl eq_refl)). specialize (IH (fun x X => H x (or_intror X))). lra.
Qed.
Lemma sum_pos : forall (A : Type) (h : A -> R) l a, (forall a, In a l -> 0 < h a) -> In a l -> 0 < sum 0 Rplus (map h l).
Proof.
  intros A h l a H I. destruct l as [|b r]; [destruct I|]. cbn. pose proof (H b (or_introl eq_refl)).
  assert (0 <= sum 0 Rplus (map h r)) by (apply sum_nonneg; intros x X; apply Rlt_le, H; right; exact X). lra.
Qed.
Lemma sum_div : forall (A : Type) (h : A -> R) l z, sum 0 Rplus (map (fun a => h a / z) l) = sum 0 Rplus (map h l) / z.
Proof. induction l as [|a r IH]; intros z; cbn; [unfold Rdiv; ring|]. rewrite IH. unfold Rdiv. ring. Qed.

(** The new weight of an edge of a node with positive outside score. *)
Lemma push_edge : one_head g -> ids_ok g -> length (nodes g) <> 0%nat ->
  exists sc out posts, EdgePosteriors 0 1 Rplus Rmult sw g = Some (sc, posts) /\ length posts = length (edges g) /\ length sc = length (nodes g) /\
    (forall n, (n < length (nodes g))%nat -> look sc n = sum 0 Rplus (map tw (dvs g n))) /\
    0 < look out (length (nodes g) - 1) /\
    (forall n nd e ed ts u, nth_error (nodes g) n = Some nd -> In e (in_edges nd) -> nth_error (edges g) e = Some ed ->
       0 < look out n -> derives g n (Tree e ts) -> In u (tails ed) -> 0 < look out u) /\
    forall n nd e t, nth_error (nodes g) n = Some nd -> In e (in_edges nd) -> 0 < look out n -> derives g n t ->
      sum 0 Rplus (map (fun x => look posts x) (in_edges nd)) = look out n * look sc n /\ 0 < look out n * look sc n /\
      look posts e / sum 0 Rplus (map (fun x => look posts x) (in_edges nd)) = we e * Pi 1 Rmult (fun t => look sc t) (etails g e) / look sc n.
Proof.
  intros OH IDS NE. destruct (posts_product 0 1 Rplus Rmult R_semiring Rmult_comm sw g T IDS OH NE) as (sc & out & posts & RI & RO & RP & LP & LS & LO & VI & VP).
  exists sc, out, posts. split; [exact RP|]. split; [exact LP|]. split; [exact LS|]. split; [exact VI|].
  assert (NN : forall n, 0 <= look sc n).
  { intros n. destruct (Nat.lt_ge_cases n (length (nodes g))) as [L|L].
    - rewrite VI by exact L. apply sum_nonneg. intros t I. apply Rlt_le. apply (tw_pos t n). apply (dvs_all g T n), I.
    - rewrite nth_overflow by lia. lra. }
  assert (PP : forall n t, (n < length (nodes g))%nat -> derives g n t -> 0 < look sc n).
  { intros n t L D. rewrite VI by exact L. apply (sum_pos tree tw _ t); [|apply (dvs_all g T n), D]. intros s I. apply (tw_pos s n). apply (dvs_all g T n), I. }
  destruct (outside_pos sw g T WP sc LS NN out NE RO) as (OG & OS). split; [exact OG|]. split.
  - intros n nd e ed ts u N E ED PO D UU. apply (OS n nd e ed u N E ED PO); [|exact UU]. intros t TT.
    inversion D as [? nd' ? ed' ? N' E' ED' F]; subst. rewrite ED in ED'. injection ED' as <-.
    destruct (proj2 (T n nd N) e E) as (ed2 & ED2 & TL). rewrite ED in ED2. injection ED2 as <-.
    assert (LN : (n < length (nodes g))%nat) by (apply nth_error_Some; congruence).
    destruct (In_nth_error _ _ TT) as (k & K). 
    assert (X : exists s, derives g t s).
    { clear - F K. revert k K. induction F as [|x y l m D F IH]; intros [|k] K; cbn in K; try discriminate; [injection K as <-; exists y; exact D|exact (IH k K)]. }
    destruct X as (s & S). apply (PP t s); [specialize (TL t TT); lia|exact S].
  - intros n nd e t N E PO D. assert (LN : (n < length (nodes g))%nat) by (apply nth_error_Some; congruence).
    assert (IO : in_of g n = in_edges nd) by (unfold in_of; rewrite N; reflexivity).
    assert (PI := PP n t LN D).
    assert (SM : sum 0 Rplus (map (fun x => look posts x) (in_edges nd)) = look out n * look sc n).
    { rewrite (VI n LN), (dvs_rec 0 1 Rplus Rmult R_semiring P g we T n LN), IO.
      rewrite (sum_mul_l 0 1 Rplus Rmult R_semiring). f_equal. apply map_ext_in. intros x X. rewrite (VP n x LN ltac:(rewrite IO; exact X)). f_equal.
      rewrite (fold_Pi 0 1 Rplus Rmult R_semiring Rmult_comm). f_equal. apply (Pi_ext 0 1 Rplus Rmult R_semiring Rmult_comm).
      intros u U. destruct (in_of_tails g T n x u ltac:(rewrite IO; exact X) U). apply VI. lia. }
    split; [exact SM|]. split; [apply Rmult_lt_0_compat; assumption|]. rewrite SM, (VP n e LN ltac:(rewrite IO; exact E)). field. lra.
Qed.

(** Telescoping over a derivation. *)
Variable nw : nat -> R.
Variables (sc out : list R).
Hypothesis CHILD : forall n nd e ed ts u, nth_error (nodes g) n = Some nd -> In e (in_edges nd) -> nth_error (edges g) e = Some ed ->
       0 < look out n -> derives g n (Tree e ts) -> In u (tails ed) -> 0 < look out u.
Hypothesis SCP : forall n t, derives g n t -> 0 < look sc n.
Hypothesis NW : forall n nd e t, nth_error (nodes g) n = Some nd -> In e (in_edges nd) -> 0 < look out n -> derives g n t ->
  nw e = we e * Pi 1 Rmult (fun t => look sc t) (etails g e) / look sc n.

Lemma telescope : forall t n, derives g n t -> 0 < look out n -> tree_weight Rmult nw t = tw t / look sc n.
Proof.
  induction t as [e ts IH] using tree_ind'. intros n D PO. assert (D0 := D). inversion D as [? nd ? ed ? N E ED F]; subst. cbn [tree_weight].
  rewrite (NW n nd e _ N E PO D0). assert (PS := SCP n _ D0).
  assert (ET : etails g e = tails ed) by (unfold etails; rewrite ED; reflexivity). rewrite ET.
  assert (CH : forall u, In u (tails ed) -> 0 < look out u) by (intros u U; exact (CHILD n nd e ed ts u N E ED PO D0 U)).
  assert (X : forall us ss, Forall2 (derives g) us ss -> (forall u, In u us -> 0 < look out u) ->
    Forall (fun t => forall n, derives g n t -> 0 < look out n -> tree_weight Rmult nw t = tw t / look sc n) ss ->
    forall a, fold_left (fun x s => x * tree_weight Rmult nw s) ss (a * Pi 1 Rmult (fun t => look sc t) us) = fold_left (fun x s => x * tw s) ss a).
  { intros us ss F'. induction F' as [|u s us ss Du F' IHF]; intros C H a; cbn [fold_left].
    - unfold Pi. cbn. ring.
    - inversion H as [|? ? H1 H2]; subst. rewrite (Pi_cons 0 1 Rplus Rmult R_semiring Rmult_comm).
      rewrite (H1 u Du (C u (or_introl eq_refl))). pose proof (SCP u s Du).
      replace (a * (look sc u * Pi 1 Rmult (fun t => look sc t) us) * (tw s / look sc u)) with (a * tw s * Pi 1 Rmult (fun t => look sc t) us) by (field; lra).
      apply IHF; [intros x Y; apply C; right; exact Y|exact H2]. }
  replace (we e * Pi 1 Rmult (fun t => look sc t) (tails ed) / look sc n) with (we e / look sc n * Pi 1 Rmult (fun t => look sc t) (tails ed)) by (field; lra).
  rewrite (X (tails ed) ts F CH IH).
  assert (L : forall ss a z, fold_left (fun x s => x * tw s) ss (a / z) = fold_left (fun x s => x * tw s) ss a / z).
  { induction ss as [|s r IHs]; intros a z; cbn; [reflexivity|]. rewrite <- IHs. f_equal. unfold Rdiv. ring. }
  apply L.
Qed.
End Real.

(** * With [prob_t] *)
Section Prob.
Local Open Scope R_scope.

Lemma Forall2_len : forall (A B : Type) (Q : A -> B -> Prop) l m, Forall2 Q l m -> length l = length m.
Proof. intros A B Q l m F. induction F; cbn; auto. Qed.

(** The number a [prob_t] stands for. *)
Definition lv_val (a : lv) : R := match as_float a with Fin r => r | _ => 0 end.
Lemma lv_val_denotes : forall a x, denotes a x -> lv_val a = x.
Proof. intros a x D. unfold lv_val. rewrite (as_float_denotes a x D). reflexivity. Qed.

Lemma part_ind_out : forall (P : Type) (g : hg P) (sw : edge P -> R) (out : list R), topo g ->
  (forall n nd e ed ts u, nth_error (nodes g) n = Some nd -> In e (in_edges nd) -> nth_error (edges g) e = Some ed ->
       0 < nth n out 0 -> derives g n (Tree e ts) -> In u (tails ed) -> 0 < nth u out 0) ->
  forall n t m s, part g n t m s -> derives g n t -> 0 < nth n out 0 -> derives g m s /\ 0 < nth m out 0.
Proof.
  intros P g sw out T CH n t m s Pt. induction Pt as [n t|n e ed ts k u s m s' ED K KS Pt IH]; intros D PO; [split; assumption|].
  assert (D0 := D). inversion D as [? nd ? ed' ? N E ED' F]; subst. rewrite ED in ED'. injection ED' as <-.
  apply IH.
  - clear - F K KS. revert k K KS. induction F as [|x y l m D F IH]; intros [|k] K KS; cbn in *; try discriminate; [congruence|exact (IH k K KS)].
  - exact (CH n nd e ed ts u N E ED PO D0 (nth_error_In _ _ K)).
Qed.

Lemma derives_node : forall (P : Type) (g : hg P) n t, derives g n t -> (n < length (nodes g))%nat.
Proof. intros P g n t D. inversion D; subst. apply nth_error_Some. congruence. Qed.

Lemma nth_error_ext' : forall (A : Type) (l m : list A), (forall n, nth_error l n = nth_error m n) -> l = m.
Proof.
  induction l as [|x r IH]; intros [|y m] H; [reflexivity|discriminate (H 0%nat)|discriminate (H 0%nat)|].
  f_equal; [specialize (H 0%nat); cbn in H; congruence|]. apply IH. intros n. exact (H (S n)).
Qed.
Lemma last_look : forall (l : list lv), last l lv_zero = nth (length l - 1) l lv_zero.
Proof.
  induction l as [|x r IH]; [reflexivity|]. destruct r as [|y s]; [reflexivity|].
  change (last (x :: y :: s) lv_zero) with (last (y :: s) lv_zero). rewrite IH. cbn [length]. rewrite !Nat.sub_succ, !Nat.sub_0_r.
  reflexivity.
Qed.

Lemma push_goal_correct : forall (p : R) (g : hg lv), topo g -> one_head g -> ids_ok g -> length (nodes g) <> 0%nat ->
  (forall e ed, nth_error (edges g) e = Some ed -> exists x, denotes (lab ed) x /\ 0 < x) ->
  exists z g', PushWeightsToGoal lv_zero lv_one lv_add lv_mul lv_div (fun w => lv_pow w p) g = Some (z, g') /\
    nodes g' = nodes g /\ map (fun ed => (tails ed, head ed, eid ed)) (edges g') = map (fun ed => (tails ed, head ed, eid ed)) (edges g) /\
    let w := tree_weight Rmult (edge_weight 0 (fun ed => Rpower (lv_val (lab ed)) p) g) in
    let w' := tree_weight lv_mul (edge_weight lv_zero lab g') in
    let goal := (length (nodes g) - 1)%nat in
    (forall L, all_derivations g goal L -> denotes z (sum 0 Rplus (map w L))) /\
    forall t m s nd, derives g goal t -> part g goal t m s -> nth_error (nodes g) m = Some nd ->
      (exists xs, Forall2 (fun e x => exists ed, nth_error (edges g') e = Some ed /\ denotes (lab ed) x) (in_edges nd) xs /\ sum 0 Rplus xs = 1) /\
      forall L, all_derivations g m L -> denotes (w' s) (w s / sum 0 Rplus (map w L)).
Proof.
  intros p g T OH IDS NE PW.
  set (sw := fun ed : edge lv => Rpower (lv_val (lab ed)) p).
  assert (WP : forall e ed, nth_error (edges g) e = Some ed -> 0 < sw ed) by (intros; unfold sw, Rpower; apply exp_pos).
  assert (RW : forall e ed, nth_error (edges g) e = Some ed -> denotes (lv_pow (lab ed) p) (sw ed)).
  { intros e ed ED. destruct (PW e ed ED) as (x & D & X). unfold sw. rewrite (lv_val_denotes _ _ D). apply pow_denotes; assumption. }
  destruct (push_edge sw g T WP OH IDS NE) as (sc & out & posts & RP & LP & LS & VI & OG & CH & PE).
  pose proof (rel_posteriors lv_zero lv_one lv_add lv_mul 0 1 Rplus Rmult denotes zero_denotes one_denotes
    (fun a b a' b' X Y => add_denotes a b a' b' X Y) (fun a b a' b' X Y => mul_denotes a b a' b' X Y) (fun ed => lv_pow (lab ed) p) sw g RW) as REL.
  rewrite RP in REL. destruct (EdgePosteriors lv_zero lv_one lv_add lv_mul (fun ed => lv_pow (lab ed) p) g) as [[lsc lposts]|] eqn:LEP; [|destruct REL].
  cbn in REL. destruct REL as (RS & RPo).
  pose proof (Forall2_len _ _ _ _ _ RS) as LSC. pose proof (Forall2_len _ _ _ _ _ RPo) as LPO.
  destruct (push_goal_spec lv_zero lv_add lv_div lv_one lv_mul (fun w => lv_pow w p) g lsc lposts LEP T OH ltac:(lia)) as (g' & RG & NG & LG & KEEP & NEW).
  exists (last lsc lv_zero), g'. split; [exact RG|]. split; [exact NG|].
  assert (DN : forall l l' d d' i, Forall2 denotes l l' -> (i < length l)%nat -> denotes (nth i l d) (nth i l' d')).
  { intros l l' d d' i F. revert i. induction F as [|a b l l' D F IH]; intros [|i] L; cbn in *; try lia; [exact D|apply IH; lia]. }
  assert (PP : forall n t, derives g n t -> 0 < nth n sc 0).
  { intros n t D. assert (L := derives_node _ g n t D). rewrite VI by exact L. apply (sum_pos tree _ _ t); [|apply (dvs_all g T n), D].
    intros s I. apply (tw_pos sw g WP s n). apply (dvs_all g T n), I. }
  (* the new label of an edge of a node in use *)
  assert (NEWD : forall n nd e t, nth_error (nodes g) n = Some nd -> In e (in_edges nd) -> 0 < nth n out 0 -> derives g n t ->
    exists ed, nth_error (edges g') e = Some ed /\ denotes (lab ed) (nth e posts 0 / sum 0 Rplus (map (fun x => nth x posts 0) (in_edges nd)))).
  { intros n nd e t N E PO D. destruct (proj2 (T n nd N) e E) as (ed & ED & TL).
    rewrite (NEW nd e (nth_error_In _ _ N) E), ED. eexists. split; [reflexivity|]. cbn [lab relab].
    assert (EL : forall x, In x (in_edges nd) -> (x < length posts)%nat).
    { intros x X. destruct (proj2 (T n nd N) x X) as (xd & XD & _). rewrite LP. apply nth_error_Some. congruence. }
    apply div_denotes.
    - apply DN; [exact RPo|rewrite LPO; apply EL, E].
    - rewrite <- (plus_zero _ _ _ _ R_semiring (sum 0 Rplus _)), <- (fold_left_sum 0 1 Rplus Rmult R_semiring).
      apply sum_denotes; [apply zero_denotes|]. clear - EL RPo DN LPO. induction (in_edges nd) as [|x r IH]; cbn; constructor.
      + apply DN; [exact RPo|rewrite LPO; apply EL; left; reflexivity].
      + apply IH. intros y Y. apply EL. right. exact Y.
    - destruct (PE n nd e t N E PO D) as (SM & POS & _). rewrite SM. lra. }
  split.
  { apply nth_error_ext'. intros x. rewrite !nth_error_map.
    destruct (In_dec (Nat.eq_dec) x (flat_map in_edges (nodes g))) as [I|NI].
    - apply in_flat_map in I. destruct I as (nd & I1 & I2). rewrite (NEW nd x I1 I2). destruct (nth_error (edges g) x); reflexivity.
    - rewrite KEEP; [reflexivity|]. intros nd I1 I2. apply NI, in_flat_map. exists nd. split; assumption. }
  cbn zeta. split.
  { intros L AL. rewrite last_look, LSC, LS.
    eapply den_eq; [apply (DN lsc sc lv_zero 0 (length (nodes g) - 1)%nat RS); lia|]. rewrite VI by lia.
    apply (all_derivations_sum 0 1 Rplus Rmult R_semiring g (length (nodes g) - 1)); [apply dvs_all, T|exact AL]. }
  intros t m s nd D Pt ND.
  destruct (part_ind_out lv g sw out T CH _ t m s Pt D OG) as (Ds & PO). split.
  - exists (map (fun e => nth e posts 0 / sum 0 Rplus (map (fun x => nth x posts 0) (in_edges nd))) (in_edges nd)). split.
    + assert (X : forall es, (forall e, In e es -> In e (in_edges nd)) -> Forall2 (fun e x => exists ed, nth_error (edges g') e = Some ed /\ denotes (lab ed) x) es
        (map (fun e => nth e posts 0 / sum 0 Rplus (map (fun x => nth x posts 0) (in_edges nd))) es)).
      { induction es as [|e r IH]; intros H; cbn; constructor; [|apply IH; intros y Y; apply H; right; exact Y].
        exact (NEWD m nd e s ND (H e (or_introl eq_refl)) PO Ds). }
      apply X. trivial.
    + rewrite sum_div. inversion Ds as [? nd' e ed ? N' E' ED' F']; subst. rewrite ND in N'. injection N' as <-.
      destruct (PE m nd e _ ND E' PO Ds) as (SM & POS & _). rewrite SM. field. split; intros Z; rewrite Z in POS; lra.
  - intros L AL.
    rewrite (all_derivations_sum 0 1 Rplus Rmult R_semiring g m L (dvs g m) AL (dvs_all g T m)).
    rewrite <- VI by (eapply derives_node; exact Ds).
    set (nw := edge_weight 0 (fun ed => lv_val (lab ed)) g').
    assert (NWE : forall n nd e t, nth_error (nodes g) n = Some nd -> In e (in_edges nd) -> 0 < nth n out 0 -> derives g n t ->
      denotes (edge_weight lv_zero lab g' e) (nw e) /\ nw e = edge_weight 0 sw g e * Pi 1 Rmult (fun t => nth t sc 0) (etails g e) / nth n sc 0).
    { intros n nd0 e t0 N E PO0 D0. destruct (NEWD n nd0 e t0 N E PO0 D0) as (ed & ED & DD). destruct (PE n nd0 e t0 N E PO0 D0) as (_ & _ & V).
      assert (NV : nw e = nth e posts 0 / sum 0 Rplus (map (fun x => nth x posts 0) (in_edges nd0))) by (unfold nw, edge_weight; rewrite ED; exact (lv_val_denotes _ _ DD)).
      rewrite NV. split; [unfold edge_weight; rewrite ED; exact DD|exact V]. }
    rewrite <- (telescope sw g nw sc out CH PP (fun n nd0 e t0 N E PO0 D0 => proj2 (NWE n nd0 e t0 N E PO0 D0)) s m Ds PO).
    (* the product in prob_t *)
    assert (TD : forall t n, derives g n t -> 0 < nth n out 0 -> denotes (tree_weight lv_mul (edge_weight lv_zero lab g') t) (tree_weight Rmult nw t)).
    { clear t m s nd D Pt ND Ds PO L AL. induction t as [e ts IH] using tree_ind'. intros n D PO. assert (D0 := D).
      inversion D as [? nd ? ed ? N E ED F]; subst. cbn [tree_weight].
      assert (C : forall u, In u (tails ed) -> 0 < nth u out 0) by (intros u U; exact (CH n nd e ed ts u N E ED PO D0 U)).
      pose proof (proj1 (NWE n nd e _ N E PO D0)) as DE. revert DE. generalize (edge_weight lv_zero lab g' e) (nw e).
      clear D N E ED D0 PO. revert C IH. induction F as [|u s us ss Du F IHF]; intros C IH a x DE; cbn; [exact DE|].
      inversion IH as [|? ? H1 H2]; subst. apply IHF; [intros v V; apply C; right; exact V|exact H2|].
      apply mul_denotes; [exact DE|]. apply (H1 u Du). apply C. left. reflexivity. }
    apply (TD s m Ds PO).
Qed.
End Prob.
