From Coq Require Import List Arith Lia Permutation Ring.
From Verif Require Import HG HGProofs Deriv Inside.
Import ListNotations.

(** * The Inside loop solves the recursion *)
Section Rec.
Context {P W : Type}.
Variables (zero : W) (plus times : W -> W -> W).
Variable weight : edge P -> W.
Variable g : hg P.

Local Notation look sc n := (nth n sc zero).

Definition etails (e : nat) : list nat := match nth_error (edges g) e with Some ed => tails ed | None => [] end.
Local Notation we := (edge_weight zero weight g).

(** Product of an edge's weight with the scores of its tails. *)
Definition edge_val (I : nat -> W) (e : nat) : W := fold_left (fun a t => times a (I t)) (etails e) (we e).

Lemma nth_error_look : forall (sc : list W) n, n < length sc -> nth_error sc n = Some (look sc n).
Proof. intros sc n L. apply nth_error_nth'. exact L. Qed.

Lemma mul_tails_spec : forall sc ts a, (forall t, In t ts -> t < length sc) ->
  mul_tails times sc ts a = Some (fold_left (fun b t => times b (look sc t)) ts a).
Proof.
  induction ts as [|t r IH]; intros a H; cbn; [reflexivity|].
  rewrite (nth_error_look sc t) by (apply H; left; reflexivity). apply IH. intros x X. apply H. right. exact X.
Qed.

Lemma fold_left_ext_in : forall (A B : Type) (f h : A -> B -> A) l a, (forall x b, In b l -> f x b = h x b) -> fold_left f l a = fold_left h l a.
Proof.
  induction l as [|b r IH]; intros a H; cbn; [reflexivity|]. rewrite H by (left; reflexivity). apply IH.
  intros x y Y. apply H. right. exact Y.
Qed.

Lemma upd_look : forall (l : list W) i f l' j, upd l i f = Some l' -> look l' j = if i =? j then f (look l j) else look l j.
Proof.
  intros l i f l' j U. pose proof (upd_nth _ _ _ _ _ j U) as N. pose proof (upd_length _ _ _ _ _ U) as LL. pose proof (upd_bound _ _ _ _ _ U) as B.
  destruct (Nat.eqb_spec i j) as [->|NE].
  - rewrite (nth_error_look l j B) in N. cbn in N. apply (nth_error_nth l' j zero) in N. exact N.
  - destruct (Nat.lt_ge_cases j (length l)) as [LT|GE].
    + rewrite (nth_error_look l j LT) in N. apply (nth_error_nth l' j zero) in N. exact N.
    + rewrite !nth_overflow by lia. reflexivity.
Qed.

Lemma in_loop_spec : forall i es sc, i < length sc ->
  (forall e, In e es -> exists ed, nth_error (edges g) e = Some ed /\ forall t, In t (tails ed) -> t < i) ->
  exists sc', in_loop plus times weight g i es sc = Some sc' /\ length sc' = length sc /\
    (forall j, j <> i -> look sc' j = look sc j) /\
    look sc' i = fold_left plus (map (edge_val (fun t => look sc t)) es) (look sc i).
Proof.
  induction es as [|e r IH]; intros sc L H; cbn [in_loop map fold_left].
  - exists sc. repeat split; reflexivity.
  - destruct (H e (or_introl eq_refl)) as (ed & ED & TL). rewrite ED.
    rewrite mul_tails_spec by (intros t T; specialize (TL t T); lia).
    destruct (upd_total _ sc i (fun x => plus x (fold_left (fun b t => times b (look sc t)) (tails ed) (weight ed))) L) as (sc1 & U).
    rewrite U. pose proof (upd_length _ _ _ _ _ U) as L1.
    destruct (IH sc1) as (sc' & R & L' & O & V); [lia|intros x X; apply H; right; exact X|].
    exists sc'. split; [exact R|]. split; [lia|]. split.
    + intros j J. rewrite (O j J), (upd_look _ _ _ _ j U). destruct (Nat.eqb_spec i j); [congruence|reflexivity].
    + rewrite V, (upd_look _ _ _ _ i U), Nat.eqb_refl.
      assert (EV : forall x, In x r -> edge_val (fun t => look sc1 t) x = edge_val (fun t => look sc t) x).
      { intros x X. unfold edge_val, etails. destruct (H x (or_intror X)) as (xd & XD & XT). rewrite XD.
        apply fold_left_ext_in. intros a t T. f_equal. rewrite (upd_look _ _ _ _ t U).
        destruct (Nat.eqb_spec i t); [|reflexivity]. specialize (XT t T). lia. }
      rewrite (map_ext_in _ _ r EV). f_equal. f_equal.
      unfold edge_val, etails, edge_weight. rewrite ED. reflexivity.
Qed.

Definition in_of (n : nat) : list nat := match nth_error (nodes g) n with Some nd => in_edges nd | None => [] end.

Lemma node_loop_spec : topo g -> forall ns i sc, (forall k, nth_error ns k = nth_error (nodes g) (i + k)) -> i + length ns = length sc ->
  exists sc', node_loop plus times weight g i ns sc = Some sc' /\ length sc' = length sc /\
    (forall j, j < i -> look sc' j = look sc j) /\
    (forall j, i <= j < length sc -> look sc' j = fold_left plus (map (edge_val (fun t => look sc' t)) (in_of j)) (look sc j)).
Proof.
  intros T. induction ns as [|nd r IH]; intros i sc N L; cbn [node_loop length] in *.
  - exists sc. split; [reflexivity|]. split; [reflexivity|]. split; [reflexivity|]. intros j J. lia.
  - pose proof (N 0) as N0. rewrite Nat.add_0_r in N0. cbn in N0. symmetry in N0.
    destruct (T i nd N0) as [_ TE].
    destruct (in_loop_spec i (in_edges nd) sc ltac:(lia) TE) as (sc1 & R1 & L1 & O1 & V1). rewrite R1.
    destruct (IH (S i) sc1) as (sc' & R & L' & O & V).
    { intros k. specialize (N (S k)). cbn in N. rewrite N. f_equal. lia. }
    { lia. }
    exists sc'. split; [exact R|]. split; [lia|]. split.
    + intros j J. rewrite O by lia. apply O1. lia.
    + intros j J. destruct (Nat.eq_dec j i) as [->|NE].
      * rewrite (O i) by lia. rewrite V1. unfold in_of. rewrite N0.
        f_equal. apply map_ext_in. intros e E. unfold edge_val, etails. destruct (TE e E) as (ed & ED & TL). rewrite ED.
        apply fold_left_ext_in. intros a t TT. f_equal. specialize (TL t TT). rewrite (O t) by lia. rewrite O1 by lia. reflexivity.
      * rewrite V by lia. f_equal. apply O1. lia.
Qed.

Lemma look_repeat : forall n j, look (repeat zero n) j = zero.
Proof. induction n; intros [|j]; cbn; try reflexivity. apply IHn. Qed.

Lemma inside_rec : topo g -> exists sc, Inside zero plus times weight g = Some sc /\ length sc = length (nodes g) /\
  forall j, j < length (nodes g) -> look sc j = fold_left plus (map (edge_val (fun t => look sc t)) (in_of j)) zero.
Proof.
  intros T. unfold Inside.
  destruct (node_loop_spec T (nodes g) 0 (repeat zero (length (nodes g)))) as (sc & R & L & _ & V).
  { intros k. reflexivity. } { rewrite repeat_length. reflexivity. }
  rewrite repeat_length in *. exists sc. split; [exact R|]. split; [exact L|].
  intros j J. rewrite V by lia. rewrite look_repeat. reflexivity.
Qed.
End Rec.

(** * Sums over derivations *)
Section Sum.
Context {W : Type}.
Variables (zero one : W) (plus times : W -> W -> W).
Hypothesis SR : semiring zero one plus times.
Local Infix "+" := plus.
Local Infix "*" := times.
Local Notation sum := (sum zero plus).

Lemma plus_zero_r : forall a, a + zero = a.
Proof. intros a. rewrite (plus_comm _ _ _ _ SR). apply (plus_zero _ _ _ _ SR). Qed.

Lemma fold_left_sum : forall l a, fold_left plus l a = a + sum l.
Proof.
  induction l as [|x r IH]; intros a; cbn; [symmetry; apply plus_zero_r|]. rewrite IH, <- (plus_assoc _ _ _ _ SR). reflexivity.
Qed.
Lemma sum_app : forall a b, sum (a ++ b) = sum a + sum b.
Proof.
  induction a as [|x r IH]; intros b; cbn; [symmetry; apply (plus_zero _ _ _ _ SR)|].
  rewrite IH. apply (plus_assoc _ _ _ _ SR).
Qed.
Lemma sum_flat_map : forall (A B : Type) (f : A -> list B) (h : B -> W) l, sum (map h (flat_map f l)) = sum (map (fun a => sum (map h (f a))) l).
Proof.
  induction l as [|a r IH]; cbn; [reflexivity|]. rewrite map_app, sum_app, IH. reflexivity.
Qed.
Lemma sum_perm : forall a b, Permutation a b -> sum a = sum b.
Proof.
  induction 1 as [|x a b _ IH|x y a|a b c _ IH1 _ IH2]; cbn.
  - reflexivity.
  - rewrite IH. reflexivity.
  - rewrite !(plus_assoc _ _ _ _ SR). f_equal. apply (plus_comm _ _ _ _ SR).
  - congruence.
Qed.
Lemma sum_mul_r : forall (A : Type) (h : A -> W) l c, sum (map h l) * c = sum (map (fun a => h a * c) l).
Proof.
  induction l as [|a r IH]; intros c; cbn; [apply (times_zero_l _ _ _ _ SR)|]. rewrite (distr_r _ _ _ _ SR). f_equal. apply IH.
Qed.
Lemma sum_mul_l : forall (A : Type) (h : A -> W) l c, c * sum (map h l) = sum (map (fun a => c * h a) l).
Proof.
  induction l as [|a r IH]; intros c; cbn; [apply (times_zero_r _ _ _ _ SR)|]. rewrite (distr_l _ _ _ _ SR). f_equal. apply IH.
Qed.

(** The product over lists of subtrees distributes. *)
Lemma sum_prods : forall (w : nat -> W) Ls a,
  sum (map (fun ts => fold_left (fun b s => b * tree_weight times w s) ts a) (prods Ls)) =
  fold_left (fun b L => b * sum (map (tree_weight times w) L)) Ls a.
Proof.
  intros w.
  assert (LIN : forall (A : Type) (h : A -> W) Ls l, fold_left (fun b L => b * sum (map (tree_weight times w) L)) Ls (sum (map h l)) =
                sum (map (fun x => fold_left (fun b L => b * sum (map (tree_weight times w) L)) Ls (h x)) l)).
  { intros A h Ls. revert h. induction Ls as [|L r IH]; intros h l; cbn [fold_left]; [reflexivity|].
    rewrite sum_mul_r. apply IH. }
  induction Ls as [|L r IH]; intros a; cbn [prods fold_left].
  - cbn. apply plus_zero_r.
  - rewrite sum_flat_map, sum_mul_l, LIN. f_equal. apply map_ext. intros t. rewrite map_map. cbn [fold_left]. apply IH.
Qed.

Lemma fold_left_map : forall (A B C : Type) (f : A -> B -> A) (h : C -> B) l a, fold_left f (map h l) a = fold_left (fun x c => f x (h c)) l a.
Proof. induction l; intros; cbn; auto. Qed.

(** The total weight of the derivations satisfies the recursion. *)
Lemma dvs_rec : forall (P : Type) (g : hg P) (w : nat -> W), topo g -> forall n, n < length (nodes g) ->
  sum (map (tree_weight times w) (dvs g n)) =
  sum (map (fun e => fold_left (fun a t => a * sum (map (tree_weight times w) (dvs g t))) (etails g e) (w e)) (in_of g n)).
Proof.
  intros P g w T n LN. destruct (nth_error (nodes g) n) as [nd|] eqn:N; [|apply nth_error_None in N; lia].
  rewrite (dvs_eq g T n nd N), sum_flat_map. unfold in_of. rewrite N. f_equal.
  apply map_ext_in. intros e E. destruct (proj2 (T n nd N) e E) as (ed & ED & TL). rewrite ED, map_map.
  cbn [tree_weight]. rewrite sum_prods, fold_left_map. unfold etails. rewrite ED. reflexivity.
Qed.

Section G.
Context {P : Type}.
Variable weight : edge P -> W.
Variable g : hg P.
Local Notation we := (edge_weight zero weight g).
Local Notation tw := (tree_weight times we).

Lemma inside_sum : topo g -> exists sc, Inside zero plus times weight g = Some sc /\ length sc = length (nodes g) /\
  forall n, n < length (nodes g) -> nth n sc zero = sum (map tw (dvs g n)).
Proof.
  intros T. destruct (inside_rec zero plus times weight g T) as (sc & R & L & V).
  exists sc. split; [exact R|]. split; [exact L|].
  intros n. induction n as [n IH] using (well_founded_induction lt_wf). intros LN.
  rewrite V by exact LN. rewrite fold_left_sum, (plus_zero _ _ _ _ SR).
  rewrite (dvs_rec P g we T n LN). f_equal.
  destruct (nth_error (nodes g) n) as [nd|] eqn:N; [|apply nth_error_None in N; lia].
  apply map_ext_in. intros e E. unfold in_of in E. rewrite N in E.
  destruct (proj2 (T n nd N) e E) as (ed & ED & TL). unfold edge_val, etails. rewrite ED.
  apply fold_left_ext_in. intros a t TT. f_equal. specialize (TL t TT). apply IH; lia.
Qed.

Lemma all_derivations_sum : forall n L L', all_derivations g n L -> all_derivations g n L' -> forall h : tree -> W, sum (map h L) = sum (map h L').
Proof.
  intros n L L' [N1 I1] [N2 I2] h. apply sum_perm, Permutation_map, NoDup_Permutation; [assumption|assumption|].
  intros t. rewrite I1, I2. tauto.
Qed.

Lemma inside_correct : topo g -> exists sc, Inside zero plus times weight g = Some sc /\ length sc = length (nodes g) /\
  forall n, n < length (nodes g) ->
    (exists L, all_derivations g n L) /\
    forall L, all_derivations g n L -> nth_error sc n = Some (sum (map tw L)).
Proof.
  intros T. destruct (inside_sum T) as (sc & R & L & V). exists sc. split; [exact R|]. split; [exact L|].
  intros n LN. split; [exists (dvs g n); apply dvs_all, T|]. intros M AM.
  rewrite (nth_error_nth' sc zero) by lia. f_equal. rewrite V by exact LN.
  apply (all_derivations_sum n); [apply dvs_all, T|exact AM].
Qed.
End G.
End Sum.

Lemma nat_semiring : semiring 0 1 Nat.add Nat.mul.
Proof. constructor; intros; lia. Qed.
Lemma bool_semiring : semiring false true orb andb.
Proof. constructor; intros; repeat match goal with b : bool |- _ => destruct b end; reflexivity. Qed.

Lemma tree_count : forall (P : Type) (g : hg P) n t, derives g n t -> tree_weight Nat.mul (edge_weight 0 (fun _ => 1) g) t = 1.
Proof.
  intros P g n t. revert n. induction t as [e ts IH] using tree_ind'. intros n D. inversion D as [? nd ? ed ? N E ED F]; subst.
  cbn [tree_weight]. unfold edge_weight at 2. rewrite ED. clear D N E ED. revert IH. induction F as [|t s r rs D F IHF]; intros IH; [reflexivity|].
  inversion IH as [|? ? H1 H2]; subst. cbn [fold_left]. rewrite (H1 _ D). apply IHF, H2.
Qed.
Lemma sum_ones : forall (A : Type) (h : A -> nat) l, (forall a, In a l -> h a = 1) -> sum 0 Nat.add (map h l) = length l.
Proof. induction l as [|a r IH]; intros H; cbn; [reflexivity|]. rewrite H by (left; reflexivity). rewrite IH; [reflexivity|]. intros x X. apply H. right. exact X. Qed.

Lemma inside_count : forall (P : Type) (g : hg P), topo g ->
  exists sc, Inside 0 Nat.add Nat.mul (fun _ => 1) g = Some sc /\ length sc = length (nodes g) /\
  forall n, n < length (nodes g) ->
    (exists L, all_derivations g n L) /\ forall L, all_derivations g n L -> nth_error sc n = Some (length L).
Proof.
  intros P g T. destruct (inside_correct 0 1 Nat.add Nat.mul nat_semiring (fun _ => 1) g T) as (sc & R & L & V).
  exists sc. split; [exact R|]. split; [exact L|]. intros n LN. destruct (V n LN) as (X & Y). split; [exact X|].
  intros M AM. rewrite (Y M AM). f_equal. apply sum_ones. intros t TT. apply AM in TT. exact (tree_count P g n t TT).
Qed.

Lemma tree_true : forall (P : Type) (g : hg P) n t, derives g n t -> tree_weight andb (edge_weight false (fun _ => true) g) t = true.
Proof.
  intros P g n t. revert n. induction t as [e ts IH] using tree_ind'. intros n D. inversion D as [? nd ? ed ? N E ED F]; subst.
  cbn [tree_weight]. unfold edge_weight at 2. rewrite ED. clear D N E ED. revert IH. induction F as [|t s r rs D F IHF]; intros IH; [reflexivity|].
  inversion IH as [|? ? H1 H2]; subst. cbn [fold_left]. rewrite (H1 _ D). apply IHF, H2.
Qed.

Lemma inside_derivable : forall (P : Type) (g : hg P), topo g ->
  exists sc, Inside false orb andb (fun _ => true) g = Some sc /\ length sc = length (nodes g) /\
  forall n, n < length (nodes g) -> exists b, nth_error sc n = Some b /\ (b = true <-> exists t, derives g n t).
Proof.
  intros P g T. destruct (inside_correct false true orb andb bool_semiring (fun _ => true) g T) as (sc & R & L & V).
  exists sc. split; [exact R|]. split; [exact L|]. intros n LN. destruct (V n LN) as ((M & AM) & Y).
  eexists. split; [exact (Y M AM)|]. destruct AM as [_ AM].
  assert (H : forall t, In t M -> tree_weight andb (edge_weight false (fun _ => true) g) t = true) by (intros t TT; apply AM in TT; exact (tree_true P g n t TT)).
  destruct M as [|t r]; cbn.
  - split; [discriminate|]. intros (t & D). apply AM in D. destruct D.
  - rewrite H by (left; reflexivity). cbn. split; [|reflexivity]. intros _. exists t. apply AM. left. reflexivity.
Qed.

Lemma inside_leaf : forall (P W : Type) (zero : W) (plus times : W -> W -> W) (weight : edge P -> W) (g : hg P) sc n nd,
  topo g -> Inside zero plus times weight g = Some sc -> nth_error (nodes g) n = Some nd -> in_edges nd = [] ->
  nth_error sc n = Some zero.
Proof.
  intros P W zero plus times weight g sc n nd T R N E.
  destruct (inside_rec zero plus times weight g T) as (sc' & R' & L & V). rewrite R in R'. injection R' as <-.
  assert (LN : n < length (nodes g)) by (apply nth_error_Some; congruence).
  rewrite (nth_error_nth' sc zero) by lia. rewrite V by exact LN. unfold in_of. rewrite N, E. reflexivity.
Qed.
