From Coq Require Import List Arith Lia Permutation Ring Bool.
From Verif Require Import HG HGProofs Deriv Inside InsideProofs.
Import ListNotations.

Section O.
Context {P W : Type}.
Variables (zero one : W) (plus times : W -> W -> W).
Hypothesis SR : semiring zero one plus times.
Hypothesis COMM : forall a b, times a b = times b a.
Variable weight : edge P -> W.
Variable g : hg P.
Hypothesis T : topo g.

Lemma SRT : semi_ring_theory zero one plus times eq.
Proof.
  constructor.
  - apply (plus_zero _ _ _ _ SR).
  - apply (plus_comm _ _ _ _ SR).
  - apply (plus_assoc _ _ _ _ SR).
  - apply (times_one_l _ _ _ _ SR).
  - apply (times_zero_l _ _ _ _ SR).
  - exact COMM.
  - apply (times_assoc _ _ _ _ SR).
  - apply (distr_r _ _ _ _ SR).
Qed.
Add Ring SRing : SRT.

Local Infix "+" := plus.
Local Infix "*" := times.
Local Notation sum := (sum zero plus).
Local Notation nmul := (nmul zero plus).
Local Notation look sc n := (nth n sc zero).
Local Notation we := (edge_weight zero weight g).
Local Notation tw := (tree_weight times we).
Local Notation etails := (etails g).
Local Notation in_of := (in_of g).

(** ** Algebra *)
Lemma nmul_add : forall a b x, nmul (Nat.add a b) x = nmul a x + nmul b x.
Proof. induction a; intros; cbn; [ring|]. rewrite IHa. ring. Qed.
Lemma nmul_mul : forall k x y, nmul k x * y = nmul k (x * y).
Proof. induction k; intros; cbn; [ring|]. rewrite <- IHk. ring. Qed.

Definition Pi (I : nat -> W) (ts : list nat) : W := fold_left (fun a t => a * I t) ts one.
Lemma fold_Pi : forall I ts a, fold_left (fun b t => b * I t) ts a = a * Pi I ts.
Proof.
  intros I. unfold Pi. induction ts as [|t r IH]; intros a; cbn; [ring|]. rewrite IH. symmetry. rewrite IH. ring.
Qed.
Lemma Pi_cons : forall I t r, Pi I (t :: r) = I t * Pi I r.
Proof. intros. unfold Pi at 1. cbn. rewrite fold_Pi. ring. Qed.

(** Derivative of the product. *)
Fixpoint DP (I r : nat -> W) (ts : list nat) : W :=
  match ts with [] => zero | t :: rest => r t * Pi I rest + I t * DP I r rest end.

Definition pplus (x y : W * W) : W * W := (fst x + fst y, snd x + snd y).
Definition ptimes (x y : W * W) : W * W := (fst x * fst y, fst x * snd y + snd x * fst y).
Lemma ptimes_pair : forall a b c d, ptimes (a, b) (c, d) = (a * c, a * d + b * c).
Proof. reflexivity. Qed.
Lemma PSR : semiring (zero, zero) (one, zero) pplus ptimes.
Proof.
  constructor; unfold pplus, ptimes; intros; repeat match goal with x : (W * W)%type |- _ => destruct x end; cbn; f_equal; ring.
Qed.

Lemma pfold : forall I r ts a b, fold_left (fun x t => ptimes x (I t, r t)) ts (a, b) = (a * Pi I ts, b * Pi I ts + a * DP I r ts).
Proof.
  intros I r. induction ts as [|t rest IH]; intros a b; cbn [fold_left].
  - unfold Pi. cbn. f_equal; ring.
  - rewrite ptimes_pair, IH, Pi_cons. cbn [DP]. f_equal; ring.
Qed.

Lemma sum_pair : forall (A : Type) (h : A -> W * W) l,
  Deriv.sum (zero, zero) pplus (map h l) = (sum (map (fun a => fst (h a)) l), sum (map (fun a => snd (h a)) l)).
Proof. induction l as [|a r IH]; cbn; [reflexivity|]. rewrite IH. reflexivity. Qed.

(** Weight of a derivation times its uses of edges satisfying [p]. *)
Variable p : nat -> bool.
Definition pw (e : nat) : W * W := (we e, if p e then we e else zero).

Lemma uses_tree : forall e ts, uses p (Tree e ts) = Nat.add (if p e then 1 else 0) (list_sum (map (uses p) ts)).
Proof.
  intros e ts. unfold uses. cbn [tree_edges]. rewrite filter_app, app_length. cbn [filter].
  rewrite Nat.add_comm. f_equal; [destruct (p e); reflexivity|].
  induction ts as [|t r IH]; [reflexivity|]. cbn [flat_map map]. rewrite filter_app, app_length, IH. reflexivity.
Qed.

Lemma tree_pair : forall t, tree_weight ptimes pw t = (tw t, nmul (uses p t) (tw t)).
Proof.
  induction t as [e ts IH] using tree_ind'. cbn [tree_weight]. rewrite uses_tree.
  assert (X : forall ts k x, Forall (fun t => tree_weight ptimes pw t = (tw t, nmul (uses p t) (tw t))) ts ->
    fold_left (fun a s => ptimes a (tree_weight ptimes pw s)) ts (x, nmul k x) =
    (fold_left (fun a s => a * tw s) ts x, nmul (Nat.add k (list_sum (map (uses p) ts))) (fold_left (fun a s => a * tw s) ts x))).
  { clear ts IH. induction ts as [|s r IH]; intros k x F; cbn [fold_left map list_sum fold_right].
    - rewrite Nat.add_0_r. reflexivity.
    - inversion F as [|? ? F1 F2]; subst. rewrite F1, ptimes_pair.
      replace (x * nmul (uses p s) (tw s) + nmul k x * tw s) with (nmul (Nat.add k (uses p s)) (x * tw s)).
      + rewrite IH by exact F2. f_equal. f_equal. unfold list_sum. cbn [fold_right]. lia.
      + rewrite nmul_add, !nmul_mul. replace (x * nmul (uses p s) (tw s)) with (nmul (uses p s) (tw s) * x) by ring.
        rewrite nmul_mul. replace (tw s * x) with (x * tw s) by ring. ring. }
  rewrite <- X by exact IH. f_equal. unfold pw. f_equal. destruct (p e); cbn; ring.
Qed.

Definition Isum (n : nat) : W := sum (map tw (dvs g n)).
Definition Rsum (n : nat) : W := sum (map (fun t => nmul (uses p t) (tw t)) (dvs g n)).
Definition loc (I : nat -> W) (e : nat) : W := if p e then we e * Pi I (etails e) else zero.

Lemma pair_rec : forall n, n < length (nodes g) ->
  Isum n = sum (map (fun e => we e * Pi Isum (etails e)) (in_of n)) /\
  Rsum n = sum (map (fun e => loc Isum e + we e * DP Isum Rsum (etails e)) (in_of n)).
Proof.
  intros n L. pose proof (dvs_rec _ _ _ _ PSR P g pw T n L) as H.
  assert (S : forall m, Deriv.sum (zero, zero) pplus (map (tree_weight ptimes pw) (dvs g m)) = (Isum m, Rsum m)).
  { intros m. rewrite sum_pair. unfold Isum, Rsum. f_equal; f_equal; apply map_ext; intros t; rewrite tree_pair; reflexivity. }
  rewrite S in H.
  assert (E : map (fun e => fold_left (fun a t => ptimes a (Deriv.sum (zero, zero) pplus (map (tree_weight ptimes pw) (dvs g t)))) (etails e) (pw e)) (in_of n)
            = map (fun e => (we e * Pi Isum (etails e), loc Isum e + we e * DP Isum Rsum (etails e))) (in_of n)).
  { apply map_ext. intros e. rewrite (fold_left_ext_in _ _ _ (fun a t => ptimes a (Isum t, Rsum t))) by (intros; rewrite S; reflexivity).
    unfold pw. rewrite pfold. f_equal. unfold loc. destruct (p e); ring. }
  rewrite E, sum_pair in H. cbn [fst snd] in H. injection H as H1 H2. split; assumption.
Qed.

(** ** The loops *)
Variable sc : list W.
Hypothesis SCL : length sc = length (nodes g).
Local Notation I := (fun t => nth t sc zero).

(** Product over the tails different from [u]. *)
Definition Pne (u : nat) (ts : list nat) : W := Pi I (filter (fun t => negb (u =? t)) ts).

Lemma others_spec : forall u ts a, (forall t, In t ts -> t < length sc) -> others times sc u ts a = Some (a * Pne u ts).
Proof.
  intros u. unfold Pne. induction ts as [|t r IH]; intros a H; cbn [others filter].
  - unfold Pi. cbn. f_equal. ring.
  - destruct (u =? t) eqn:E; cbn [negb].
    + apply IH. intros x X. apply H. right. exact X.
    + rewrite (nth_error_look zero sc t) by (apply H; left; reflexivity).
      rewrite IH by (intros x X; apply H; right; exact X). rewrite Pi_cons. f_equal. ring.
Qed.

Fixpoint dot (n : nat) (o r : nat -> W) : W := match n with O => zero | S k => dot k o r + o k * r k end.
Lemma dot_ext : forall n o o' r r', (forall j, j < n -> o j = o' j) -> (forall j, j < n -> r j = r' j) -> dot n o r = dot n o' r'.
Proof. induction n; intros o o' r r' H H'; cbn; [reflexivity|]. rewrite H, H' by lia. f_equal. apply IHn; intros; [apply H|apply H']; lia. Qed.
Lemma dot_upd : forall n o o' r u c, u < n -> o' u = o u + c -> (forall j, j <> u -> o' j = o j) -> dot n o' r = dot n o r + c * r u.
Proof.
  induction n as [|n IH]; intros o o' r u c L E N; [lia|]. cbn. destruct (Nat.eq_dec u n) as [->|NE].
  - rewrite E. rewrite (dot_ext n o' o r r) by (intros; try apply N; try reflexivity; lia). ring.
  - rewrite (IH o o' r u c) by (try assumption; lia). rewrite (N n) by lia. ring.
Qed.

Lemma tail_loop_spec : forall ts hw i todo out, (forall t, In t ts -> t < length sc) -> (forall t, In t todo -> t < i) -> i <= length out ->
  exists out', tail_loop one plus times sc ts hw todo out = Some out' /\ length out' = length out /\
    (forall j, i <= j -> look out' j = look out j) /\
    forall r, dot i (fun j => look out' j) r = dot i (fun j => look out j) r + sum (map (fun u => Pne u ts * hw * r u) todo).
Proof.
  intros ts hw i. induction todo as [|u rest IH]; intros out HT HI L; cbn [tail_loop map Deriv.sum].
  - exists out. split; [reflexivity|]. split; [reflexivity|]. split; [reflexivity|]. intros r. ring.
  - rewrite others_spec by exact HT.
    assert (UI : u < i) by (apply HI; left; reflexivity).
    destruct (upd_total _ out u (fun x => x + one * Pne u ts * hw) ltac:(lia)) as (o1 & U). rewrite U.
    pose proof (upd_length _ _ _ _ _ U) as L1.
    destruct (IH o1 HT) as (out' & R & L' & O & V); [intros t TT; apply HI; right; exact TT|lia|].
    exists out'. split; [exact R|]. split; [lia|]. split.
    + intros j J. rewrite O by exact J. rewrite (upd_look zero _ _ _ _ j U). destruct (Nat.eqb_spec u j); [lia|reflexivity].
    + intros r. rewrite V. rewrite (dot_upd i (fun j => look out j) (fun j => look o1 j) r u (Pne u ts * hw)).
      * ring.
      * exact UI.
      * rewrite (upd_look zero _ _ _ _ u U), Nat.eqb_refl. ring.
      * intros j J. rewrite (upd_look zero _ _ _ _ j U). destruct (Nat.eqb_spec u j); [congruence|reflexivity].
Qed.

Definition contrib (r : nat -> W) (e : nat) : W := sum (map (fun u => Pne u (etails e) * r u) (etails e)).

Lemma out_loop_spec : forall i es out, i < length sc -> i < length out ->
  (forall e, In e es -> exists ed, nth_error (edges g) e = Some ed /\ forall t, In t (tails ed) -> t < i) ->
  exists out', out_loop one plus times weight g sc i es out = Some out' /\ length out' = length out /\
    (forall j, i <= j -> look out' j = look out j) /\
    forall r, dot i (fun j => look out' j) r = dot i (fun j => look out j) r + sum (map (fun e => look out i * (we e * contrib r e)) es).
Proof.
  intros i. induction es as [|e rest IH]; intros out LS LO H; cbn [out_loop map Deriv.sum].
  - exists out. split; [reflexivity|]. split; [reflexivity|]. split; [reflexivity|]. intros r. ring.
  - destruct (H e (or_introl eq_refl)) as (ed & ED & TL). rewrite ED.
    rewrite (nth_error_look zero out i LO).
    destruct (tail_loop_spec (tails ed) (weight ed * look out i) i (tails ed) out) as (o1 & R1 & L1 & O1 & V1).
    { intros t TT. specialize (TL t TT). lia. } { exact TL. } { lia. }
    rewrite R1. destruct (IH o1) as (out' & R & L' & O & V); [exact LS|lia|intros x X; apply H; right; exact X|].
    exists out'. split; [exact R|]. split; [lia|]. split.
    + intros j J. rewrite O by exact J. apply O1, J.
    + intros r. rewrite V, V1. rewrite (O1 i) by lia.
      assert (E : sum (map (fun u => Pne u (tails ed) * (weight ed * look out i) * r u) (tails ed)) = look out i * (we e * contrib r e)).
      { unfold contrib, InsideProofs.etails, edge_weight. rewrite ED.
        rewrite !(sum_mul_l _ _ _ _ SR). f_equal. apply map_ext. intros u. ring. }
      rewrite E. ring.
Qed.

Lemma out_nodes_spec : forall n out, n <= length (nodes g) -> length out = length (nodes g) ->
  exists out', out_nodes one plus times weight g sc n out = Some out' /\ length out' = length out /\
    (forall j, n <= S j -> look out' j = look out j) /\
    forall r L, (forall j, j < n -> r j = sum (map (fun e => L e + we e * contrib r e) (in_of j))) ->
      dot n (fun j => look out j) r = dot n (fun j => look out' j) (fun j => sum (map L (in_of j))).
Proof.
  induction n as [|i IH]; intros out LE LO; cbn [out_nodes].
  - exists out. split; [reflexivity|]. split; [reflexivity|]. split; reflexivity.
  - destruct (nth_error (nodes g) i) as [nd|] eqn:N; [|apply nth_error_None in N; lia].
    destruct (out_loop_spec i (in_edges nd) out) as (o1 & R1 & L1 & O1 & V1); [lia|lia|exact (proj2 (T i nd N))|].
    rewrite R1. destruct (IH o1) as (out' & R & L' & O & V); [lia|lia|].
    exists out'. split; [exact R|]. split; [lia|]. split.
    + intros j J. rewrite O by lia. apply O1. lia.
    + intros r L H. cbn [dot]. rewrite (O i) by lia. rewrite (O1 i) by lia. rewrite <- (V r L) by (intros j J; apply H; lia).
      rewrite V1, (H i) by lia. unfold InsideProofs.in_of. rewrite N.
      rewrite <- (sum_mul_l _ _ _ _ SR).
      assert (X : forall es, sum (map (fun e => L e + we e * contrib r e) es) = sum (map L es) + sum (map (fun e => we e * contrib r e) es)).
      { induction es as [|e rest IHe]; cbn; [ring|]. rewrite IHe. ring. }
      rewrite X. ring.
Qed.

Lemma dot_single : forall n scale r o, o n = scale -> (forall j, j < n -> o j = zero) -> dot (S n) o r = scale * r n.
Proof.
  intros n scale r o E Z. cbn. rewrite E.
  assert (D0 : forall k, k <= n -> dot k o r = zero).
  { induction k; intros K; cbn; [reflexivity|]. rewrite IHk, Z by lia. ring. }
  rewrite D0 by lia. ring.
Qed.

Lemma outside_dot : forall scale, length (nodes g) <> 0 ->
  exists out, Outside zero one plus times weight g sc scale = Some out /\ length out = length (nodes g) /\
    look out (length (nodes g) - 1) = scale /\
    forall r L, (forall j, j < length (nodes g) -> r j = sum (map (fun e => L e + we e * contrib r e) (in_of j))) ->
      scale * r (Nat.sub (length (nodes g)) 1) = dot (length (nodes g)) (fun j => look out j) (fun j => sum (map L (in_of j))).
Proof.
  intros scale NE. unfold Outside.
  destruct (upd_total _ (repeat zero (length (nodes g))) (length (nodes g) - 1) (fun _ => scale)) as (o0 & U).
  { rewrite repeat_length. lia. }
  rewrite U. pose proof (upd_length _ _ _ _ _ U) as L0. rewrite repeat_length in L0.
  destruct (out_nodes_spec (length (nodes g)) o0) as (out & R & LO & O & V); [lia|lia|].
  exists out. split; [exact R|]. split; [lia|]. split.
  - rewrite O by lia. rewrite (upd_look zero _ _ _ _ _ U), Nat.eqb_refl. reflexivity.
  - intros r L H. rewrite <- (V r L H).
    assert (E : length (nodes g) = S (length (nodes g) - 1)) by lia. rewrite E at 2.
    symmetry. apply dot_single.
    + rewrite (upd_look zero _ _ _ _ _ U), Nat.eqb_refl. reflexivity.
    + intros j J. rewrite (upd_look zero _ _ _ _ _ U). destruct (Nat.eqb_spec (length (nodes g) - 1) j); [lia|]. apply look_repeat.
Qed.

(** With distinct tails, skipping equal node indices is skipping the position. *)
Lemma filter_id : forall u ts, ~ In u ts -> filter (fun t => negb (u =? t)) ts = ts.
Proof.
  induction ts as [|t r IH]; intros H; cbn; [reflexivity|]. destruct (Nat.eqb_spec u t) as [->|NE]; cbn.
  - exfalso. apply H. left. reflexivity.
  - f_equal. apply IH. intros X. apply H. right. exact X.
Qed.
Lemma contrib_DP : forall r ts, NoDup ts -> sum (map (fun u => Pne u ts * r u) ts) = DP I r ts.
Proof.
  intros r. induction ts as [|t rest IH]; intros ND; cbn [map Deriv.sum DP]; [reflexivity|].
  inversion ND as [|? ? NI ND']; subst. rewrite <- IH by exact ND'. f_equal.
  - unfold Pne. cbn [filter]. rewrite Nat.eqb_refl. cbn [negb]. rewrite filter_id by exact NI. ring.
  - rewrite (sum_mul_l _ _ _ _ SR). f_equal. apply map_ext_in. intros u U. unfold Pne. cbn [filter].
    destruct (Nat.eqb_spec u t) as [->|NE]; [contradiction|]. cbn [negb]. rewrite Pi_cons. ring.
Qed.

Lemma etails_NoDup : distinct_tails g -> forall e, NoDup (etails e).
Proof. intros D e. unfold InsideProofs.etails. destruct (nth_error (edges g) e) as [ed|] eqn:E; [exact (D e ed E)|constructor]. Qed.

Lemma Pi_ext : forall I1 I2 ts, (forall t, In t ts -> I1 t = I2 t) -> Pi I1 ts = Pi I2 ts.
Proof.
  induction ts as [|t r IH]; intros H; [reflexivity|]. rewrite !Pi_cons, H by (left; reflexivity). f_equal. apply IH. intros x X. apply H. right. exact X.
Qed.
Lemma DP_ext : forall I1 I2 r ts, (forall t, In t ts -> I1 t = I2 t) -> DP I1 r ts = DP I2 r ts.
Proof.
  induction ts as [|t rest IH]; intros H; cbn; [reflexivity|]. rewrite H by (left; reflexivity).
  rewrite IH by (intros x X; apply H; right; exact X). f_equal. f_equal. apply Pi_ext. intros x X. apply H. right. exact X.
Qed.

Lemma in_of_tails : forall n e t, In e (in_of n) -> In t (etails e) -> t < n /\ n < length (nodes g).
Proof.
  intros n e t E TT. unfold InsideProofs.in_of in E. destruct (nth_error (nodes g) n) as [nd|] eqn:N; [|destruct E].
  destruct (proj2 (T n nd N) e E) as (ed & ED & TL). unfold InsideProofs.etails in TT. rewrite ED in TT.
  split; [exact (TL t TT)|]. apply nth_error_Some. congruence.
Qed.

(** The identity behind edge posteriors. *)
Lemma outside_uses : distinct_tails g -> length (nodes g) <> 0 -> (forall n, n < length (nodes g) -> I n = Isum n) ->
  forall scale, exists out, Outside zero one plus times weight g sc scale = Some out /\ length out = length (nodes g) /\
    scale * Rsum (Nat.sub (length (nodes g)) 1) = dot (length (nodes g)) (fun j => look out j) (fun j => sum (map (loc I) (in_of j))).
Proof.
  intros DT NE IS scale. destruct (outside_dot scale NE) as (out & R & LO & _ & V).
  exists out. split; [exact R|]. split; [exact LO|]. apply V. intros j J.
  rewrite (proj2 (pair_rec j J)). f_equal. apply map_ext_in. intros e E. unfold contrib. rewrite contrib_DP by (apply etails_NoDup, DT).
  assert (EQ : forall t, In t (etails e) -> Isum t = I t).
  { intros t TT. destruct (in_of_tails j e t E TT). symmetry. apply IS. lia. }
  rewrite (DP_ext _ _ Rsum _ EQ). f_equal. unfold loc. rewrite (Pi_ext _ _ _ EQ). reflexivity.
Qed.
End O.

(** * Posteriors *)
Section Post.
Context {P W : Type}.
Variables (zero one : W) (plus times : W -> W -> W).
Hypothesis SR : semiring zero one plus times.
Hypothesis COMM : forall a b, times a b = times b a.
Variable weight : edge P -> W.
Variable g : hg P.
Hypothesis T : topo g.
Add Ring SRing2 : (SRT zero one plus times SR COMM).
Local Infix "+" := plus.
Local Infix "*" := times.
Local Notation sum := (sum zero plus).
Local Notation look sc n := (nth n sc zero).
Local Notation we := (edge_weight zero weight g).
Local Notation Pi := (Pi one times).

Lemma post_edges_spec : ids_ok g -> forall (sc : list W) i o es posts, i < length sc -> length posts = length (edges g) ->
  (forall e, In e es -> exists ed, nth_error (edges g) e = Some ed /\ forall t, In t (tails ed) -> t < i) ->
  exists p', post_edges plus times weight g sc o es posts = Some p' /\ length p' = length posts /\
    forall x, look p' x = look posts x + sum (map (fun e => if e =? x then we e * (o * Pi (fun t => look sc t) (etails g e)) else zero) es).
Proof.
  intros IDS sc i o. induction es as [|e r IH]; intros posts LI LP H; cbn [post_edges map Deriv.sum].
  - exists posts. split; [reflexivity|]. split; [reflexivity|]. intros x. ring.
  - destruct (H e (or_introl eq_refl)) as (ed & ED & TL). rewrite ED.
    rewrite (mul_tails_spec zero) by (intros t TT; specialize (TL t TT); lia).
    assert (LE : e < length (edges g)) by (apply nth_error_Some; congruence).
    rewrite (IDS e ed ED).
    match goal with |- context [upd posts e ?f] => destruct (upd_total _ posts e f ltac:(lia)) as (p1 & U); rewrite U end.
    pose proof (upd_length _ _ _ _ _ U) as L1.
    destruct (IH p1) as (p' & R & L' & V); [exact LI|lia|intros x X; apply H; right; exact X|].
    exists p'. split; [exact R|]. split; [lia|]. intros x. rewrite V, (upd_look zero _ _ _ _ x U).
    destruct (Nat.eqb_spec e x) as [->|NE]; [|ring].
    rewrite (fold_Pi zero one plus times SR COMM). unfold etails, edge_weight. rewrite ED. ring.
Qed.

Definition lx (sc : list W) (x e : nat) : W := if e =? x then we e * Pi (fun t => look sc t) (etails g e) else zero.

Lemma post_nodes_spec : ids_ok g -> forall (sc : list W), length sc = length (nodes g) ->
  forall ns out i posts, (forall k, nth_error ns k = nth_error (nodes g) (Nat.add i k)) -> Nat.add i (length ns) = length (nodes g) ->
  length out = length ns -> length posts = length (edges g) ->
  exists p', post_nodes plus times weight g sc out ns posts = Some p' /\ length p' = length posts /\
    forall x, look p' x = look posts x + sum (map (fun k => look out k * sum (map (lx sc x) (in_of g (Nat.add i k)))) (seq 0 (length ns))).
Proof.
  intros IDS sc LS. induction ns as [|nd r IH]; intros out i posts N L LO LP.
  - destruct out; [|discriminate]. exists posts. cbn. split; [reflexivity|]. split; [reflexivity|]. intros x. ring.
  - destruct out as [|o0 os]; [discriminate|]. cbn [post_nodes length] in *.
    pose proof (N 0) as N0. rewrite Nat.add_0_r in N0. cbn in N0. symmetry in N0.
    destruct (post_edges_spec IDS sc i o0 (in_edges nd) posts) as (p1 & R1 & L1 & V1); [lia|exact LP|exact (proj2 (T i nd N0))|].
    rewrite R1. destruct (IH os (S i) p1) as (p' & R & L' & V).
    { intros k. specialize (N (S k)). cbn in N. rewrite N. f_equal. lia. } { lia. } { lia. } { lia. }
    exists p'. split; [exact R|]. split; [lia|]. intros x.
    rewrite V, V1. cbn [seq map Deriv.sum nth]. rewrite Nat.add_0_r, <- seq_shift, map_map.
    assert (S0 : sum (map (fun e => if e =? x then we e * (o0 * Pi (fun t => look sc t) (etails g e)) else zero) (in_edges nd)) =
                 o0 * sum (map (lx sc x) (in_of g i))).
    { unfold in_of. rewrite N0, (sum_mul_l _ _ _ _ SR). f_equal. apply map_ext. intros e. unfold lx. destruct (e =? x); ring. }
    rewrite S0.
    rewrite (map_ext (fun k => look os k * sum (map (lx sc x) (in_of g (Nat.add (S i) k)))) (fun k => nth (S k) (o0 :: os) zero * sum (map (lx sc x) (in_of g (Nat.add i (S k)))))).
    + cbn [nth]. ring.
    + intros k. cbn [nth]. do 4 f_equal. lia.
Qed.

Lemma dot_sum : forall n o r, dot zero plus times n o r = sum (map (fun k => o k * r k) (seq 0 n)).
Proof.
  induction n as [|n IH]; intros o r; [reflexivity|]. cbn [dot]. rewrite IH, seq_S, map_app, (sum_app _ _ _ _ SR). cbn. f_equal. ring.
Qed.

Lemma posteriors_uses : distinct_tails g -> ids_ok g -> length (nodes g) <> 0 ->
  exists sc posts, EdgePosteriors zero one plus times weight g = Some (sc, posts) /\ Inside zero plus times weight g = Some sc /\
    length posts = length (edges g) /\
    forall x, look posts x = Rsum zero plus times weight g (fun e => e =? x) (Nat.sub (length (nodes g)) 1).
Proof.
  intros DT IDS NE. unfold EdgePosteriors.
  destruct (inside_sum zero one plus times SR weight g T) as (sc & R & L & V). rewrite R.
  pose proof (fun x => outside_uses zero one plus times SR COMM weight g T (fun e => e =? x) sc L DT NE V one) as OU.
  destruct (OU 0) as (out & RO & LO & _). rewrite RO.
  destruct (post_nodes_spec IDS sc L (nodes g) out 0 (repeat zero (length (edges g)))) as (posts & RP & LP & VP);
    [reflexivity|reflexivity|exact LO|apply repeat_length|].
  rewrite RP. exists sc, posts. split; [reflexivity|]. split; [reflexivity|]. split; [rewrite LP; apply repeat_length|].
  intros x. rewrite VP, look_repeat, (plus_zero _ _ _ _ SR). destruct (OU x) as (out' & RO' & _ & VO).
  rewrite RO in RO'. injection RO' as <-. rewrite (times_one_l _ _ _ _ SR) in VO. rewrite VO, dot_sum. reflexivity.
Qed.

(** Posteriors, in terms of derivations. *)
Lemma posteriors_correct : distinct_tails g -> ids_ok g -> length (nodes g) <> 0 ->
  exists sc posts, EdgePosteriors zero one plus times weight g = Some (sc, posts) /\
    length posts = length (edges g) /\
    (exists L, all_derivations g (Nat.sub (length (nodes g)) 1) L) /\
    forall L, all_derivations g (Nat.sub (length (nodes g)) 1) L ->
      nth_error sc (Nat.sub (length (nodes g)) 1) = Some (sum (map (tree_weight times we) L)) /\
      forall x, x < length (edges g) ->
        nth_error posts x = Some (sum (map (fun t => nmul zero plus (uses (fun e => e =? x) t) (tree_weight times we t)) L)).
Proof.
  intros DT IDS NE. destruct (posteriors_uses DT IDS NE) as (sc & posts & R & RI & LP & V).
  exists sc, posts. split; [exact R|]. split; [exact LP|]. split; [exists (dvs g (Nat.sub (length (nodes g)) 1)); apply dvs_all, T|].
  intros L AL. split.
  - destruct (inside_correct zero one plus times SR weight g T) as (sc' & R' & _ & V'). rewrite RI in R'. injection R' as <-.
    apply V'; [lia|exact AL].
  - intros x LX. rewrite (nth_error_nth' posts zero) by lia. f_equal. rewrite V. unfold Rsum.
    apply (all_derivations_sum zero one plus times SR g (Nat.sub (length (nodes g)) 1)); [apply dvs_all, T|exact AL].
Qed.

(** Inside times outside, per node. *)
Lemma node_correct : distinct_tails g -> one_head g -> length (nodes g) <> 0 -> forall scale,
  exists sc out, Inside zero plus times weight g = Some sc /\ Outside zero one plus times weight g sc scale = Some out /\
    length out = length (nodes g) /\
    forall v nd, nth_error (nodes g) v = Some nd -> forall L, all_derivations g (Nat.sub (length (nodes g)) 1) L ->
      exists a o, nth_error sc v = Some a /\ nth_error out v = Some o /\
        o * a = scale * sum (map (fun t => nmul zero plus (uses (fun e => existsb (Nat.eqb e) (in_edges nd)) t) (tree_weight times we t)) L).
Proof.
  intros DT OH NE scale.
  destruct (inside_sum zero one plus times SR weight g T) as (sc & R & L & V).
  pose proof (fun v => outside_uses zero one plus times SR COMM weight g T (fun e => existsb (Nat.eqb e) (in_of g v)) sc L DT NE V scale) as OU.
  destruct (OU 0) as (out & RO & LO & _). exists sc, out. split; [exact R|]. split; [exact RO|]. split; [exact LO|].
  intros v nd ND M AM. assert (LV : v < length (nodes g)) by (apply nth_error_Some; congruence). exists (look sc v), (look out v).
  assert (IO : in_of g v = in_edges nd) by (unfold in_of; rewrite ND; reflexivity). rewrite <- IO.
  split; [apply nth_error_nth'; lia|]. split; [apply nth_error_nth'; lia|].
  destruct (OU v) as (out' & RO' & _ & VO). rewrite RO in RO'. injection RO' as <-.
  unfold Rsum in VO. rewrite (all_derivations_sum zero one plus times SR g (Nat.sub (length (nodes g)) 1) _ M (dvs_all g T _) AM) in VO.
  rewrite VO. clear VO OU.
  assert (E : forall j, j < length (nodes g) -> sum (map (loc zero one times weight g (fun e => existsb (Nat.eqb e) (in_of g v)) (fun t => look sc t)) (in_of g j)) =
              if j =? v then look sc v else zero).
  { intros j J. destruct (Nat.eqb_spec j v) as [->|NJ].
    - rewrite (V v LV). change (sum (map (tree_weight times we) (dvs g v))) with (Isum zero plus times weight g v).
      rewrite (proj1 (pair_rec zero one plus times SR COMM weight g T (fun _ => false) v LV)). f_equal. apply map_ext_in.
      intros e E. unfold loc. assert (X : existsb (Nat.eqb e) (in_of g v) = true) by (apply existsb_exists; exists e; split; [exact E|apply Nat.eqb_refl]).
      rewrite X. f_equal. apply (Pi_ext zero one plus times SR COMM). intros t TT. destruct (in_of_tails g T v e t E TT). apply V. lia.
    - assert (Z : forall es, (forall e, In e es -> In e (in_of g j)) -> sum (map (loc zero one times weight g (fun e => existsb (Nat.eqb e) (in_of g v)) (fun t => look sc t)) es) = zero).
      { induction es as [|e r IH]; intros H; cbn; [reflexivity|]. rewrite IH by (intros x X; apply H; right; exact X).
        unfold loc. destruct (existsb (Nat.eqb e) (in_of g v)) eqn:X; [|ring]. exfalso. apply existsb_exists in X. destruct X as (e' & X1 & X2).
        apply Nat.eqb_eq in X2. subst e'. specialize (H e (or_introl eq_refl)). unfold in_of in H, X1.
        destruct (nth_error (nodes g) j) as [nj|] eqn:Ej; [|destruct H]. destruct (nth_error (nodes g) v) as [nv|] eqn:Ev; [|destruct X1].
        apply NJ. exact (OH j v nj nv e Ej Ev H X1). }
      apply Z. trivial. }
  rewrite (dot_ext zero plus times g sc L _ _ (fun j => look out j) _ (fun j => if j =? v then look sc v else zero)) by (intros; auto).
  clear E. revert LV. generalize (length (nodes g)).
  intros n. assert (Z : forall k, k <= v -> dot zero plus times k (fun j => look out j) (fun j => if j =? v then look sc v else zero) = zero).
  { induction k; intros K; cbn; [reflexivity|]. rewrite IHk by lia. destruct (Nat.eqb_spec k v); [lia|]. ring. }
  induction n as [|n IH]; intros LV; [lia|]. cbn. destruct (Nat.eq_dec n v) as [->|NE1].
  - rewrite Z, Nat.eqb_refl by lia. ring.
  - rewrite <- IH by lia. destruct (Nat.eqb_spec n v); [congruence|]. ring.
Qed.
End Post.

(** * Selective addition: maxima *)
Section Sel.
Context {P W : Type}.
Variables (zero one : W) (plus times : W -> W -> W).
Hypothesis SR : semiring zero one plus times.
Hypothesis COMM : forall a b, times a b = times b a.
Hypothesis SEL : forall a b, plus a b = a \/ plus a b = b.

Lemma sel_idem : forall a, plus a a = a.
Proof. intros a. destruct (SEL a a); assumption. Qed.
Lemma nmul_sel : forall k a, nmul zero plus k a = if k =? 0 then zero else a.
Proof.
  induction k as [|k IH]; intros a; cbn; [reflexivity|]. rewrite IH. destruct (k =? 0).
  - rewrite (plus_comm _ _ _ _ SR). apply (plus_zero _ _ _ _ SR).
  - apply sel_idem.
Qed.
Lemma sum_sel_max : forall (A : Type) (h : A -> W) l a, In a l -> plus (h a) (sum zero plus (map h l)) = sum zero plus (map h l).
Proof.
  induction l as [|b r IH]; intros a I; [destruct I|]. cbn. destruct I as [->|I].
  - rewrite (plus_assoc _ _ _ _ SR), sel_idem. reflexivity.
  - rewrite (plus_assoc _ _ _ _ SR), (plus_comm _ _ _ _ SR (h a) (h b)), <- (plus_assoc _ _ _ _ SR), (IH a I). reflexivity.
Qed.
Lemma sum_sel_in : forall (A : Type) (h : A -> W) l, sum zero plus (map h l) = zero \/ exists a, In a l /\ h a = sum zero plus (map h l).
Proof.
  induction l as [|b r IH]; cbn; [left; reflexivity|]. destruct (SEL (h b) (sum zero plus (map h r))) as [E|E]; rewrite E.
  - right. exists b. split; [left; reflexivity|reflexivity].
  - destruct IH as [Z|(a & I & H)]; [left; exact Z|right; exists a; split; [right; exact I|exact H]].
Qed.

Lemma uses_pos : forall x t, (uses (fun e => e =? x) t =? 0) = false <-> In x (tree_edges t).
Proof.
  intros x t. unfold uses. rewrite Nat.eqb_neq. split.
  - intros H. destruct (filter (fun e => e =? x) (tree_edges t)) as [|y r] eqn:E; [exfalso; apply H; reflexivity|].
    assert (I : In y (filter (fun e => e =? x) (tree_edges t))) by (rewrite E; left; reflexivity).
    apply filter_In in I. destruct I as (I & Q). apply Nat.eqb_eq in Q. subst y. exact I.
  - intros I H. assert (J : In x (filter (fun e => e =? x) (tree_edges t))) by (apply filter_In; split; [exact I|apply Nat.eqb_refl]).
    apply length_zero_iff_nil in H. rewrite H in J. destruct J.
Qed.

Lemma best_through : forall (weight : edge P -> W) (g : hg P), topo g -> distinct_tails g -> ids_ok g -> length (nodes g) <> 0 ->
  exists sc posts, EdgePosteriors zero one plus times weight g = Some (sc, posts) /\ length posts = length (edges g) /\
    forall x, x < length (edges g) -> exists m, nth_error posts x = Some m /\
      (forall t, derives g (length (nodes g) - 1) t -> In x (tree_edges t) -> plus (tree_weight times (edge_weight zero weight g) t) m = m) /\
      (m = zero \/ exists t, derives g (length (nodes g) - 1) t /\ In x (tree_edges t) /\ tree_weight times (edge_weight zero weight g) t = m).
Proof.
  intros weight g T DT IDS NE. destruct (posteriors_correct zero one plus times SR COMM weight g T DT IDS NE) as (sc & posts & R & LP & (L & AL) & V).
  exists sc, posts. split; [exact R|]. split; [exact LP|]. intros x LX. destruct (V L AL) as (_ & Vx). specialize (Vx x LX).
  eexists. split; [exact Vx|]. destruct AL as (_ & AL). split.
  - intros t D I. apply AL in D.
    pose proof (sum_sel_max tree (fun t => nmul zero plus (uses (fun e => e =? x) t) (tree_weight times (edge_weight zero weight g) t)) L t D) as M.
    cbn beta in M. rewrite nmul_sel, (proj2 (uses_pos x t) I) in M. exact M.
  - destruct (sum_sel_in tree (fun t => nmul zero plus (uses (fun e => e =? x) t) (tree_weight times (edge_weight zero weight g) t)) L) as [Z|(t & I & H)]; [left; exact Z|].
    rewrite <- H. rewrite nmul_sel. destruct (uses (fun e => e =? x) t =? 0) eqn:U; [left; reflexivity|].
    right. exists t. split; [apply AL, I|]. split; [apply uses_pos, U|reflexivity].
Qed.
End Sel.

(** * Posteriors as products, whatever the tails *)
Section Prod.
Context {P W : Type}.
Variables (zero one : W) (plus times : W -> W -> W).
Hypothesis SR : semiring zero one plus times.
Hypothesis COMM : forall a b, times a b = times b a.
Variable weight : edge P -> W.
Variable g : hg P.
Hypothesis T : topo g.
Add Ring SRing3 : (SRT zero one plus times SR COMM).
Local Infix "+" := plus.
Local Infix "*" := times.
Local Notation sum := (sum zero plus).
Local Notation look sc n := (nth n sc zero).
Local Notation we := (edge_weight zero weight g).

Lemma sum_single : forall (h : nat -> W) l x, NoDup l -> In x l -> sum (map (fun e => if e =? x then h e else zero) l) = h x.
Proof.
  intros h. induction l as [|e r IH]; intros x ND I; [destruct I|]. inversion ND as [|? ? NI ND']; subst. cbn [map Deriv.sum].
  assert (Z : forall l, ~ In x l -> sum (map (fun e => if e =? x then h e else zero) l) = zero).
  { induction l as [|y s IHs]; intros N; cbn; [reflexivity|]. destruct (Nat.eqb_spec y x) as [->|NE]; [exfalso; apply N; left; reflexivity|].
    rewrite IHs by (intros X; apply N; right; exact X). ring. }
  destruct (Nat.eqb_spec e x) as [->|NE].
  - rewrite Z by exact NI. ring.
  - destruct I as [->|I]; [congruence|]. rewrite (IH x ND' I). ring.
Qed.
Lemma sum_none : forall (h : nat -> W) l x, ~ In x l -> sum (map (fun e => if e =? x then h e else zero) l) = zero.
Proof.
  intros h l x. induction l as [|y s IHs]; intros N; cbn; [reflexivity|]. destruct (Nat.eqb_spec y x) as [->|NE]; [exfalso; apply N; left; reflexivity|].
  rewrite IHs by (intros X; apply N; right; exact X). ring.
Qed.

Lemma posts_product : ids_ok g -> one_head g -> length (nodes g) <> 0 ->
  exists sc out posts, Inside zero plus times weight g = Some sc /\ Outside zero one plus times weight g sc one = Some out /\
    EdgePosteriors zero one plus times weight g = Some (sc, posts) /\ length posts = length (edges g) /\
    length sc = length (nodes g) /\ length out = length (nodes g) /\
    (forall n, n < length (nodes g) -> look sc n = sum (map (tree_weight times we) (dvs g n))) /\
    forall n x, n < length (nodes g) -> In x (in_of g n) -> look posts x = look out n * (we x * Pi one times (fun t => look sc t) (etails g x)).
Proof.
  intros IDS OH NE. destruct (inside_sum zero one plus times SR weight g T) as (sc & R & L & V).
  destruct (outside_dot zero one plus times SR COMM weight g T sc L one NE) as (out & RO & LO & _ & _).
  destruct (post_nodes_spec zero one plus times SR COMM weight g T IDS sc L (nodes g) out 0 (repeat zero (length (edges g)))) as (posts & RP & LP & VP);
    [reflexivity|reflexivity|exact LO|apply repeat_length|].
  exists sc, out, posts. split; [exact R|]. split; [exact RO|]. split; [unfold EdgePosteriors; rewrite R, RO, RP; reflexivity|].
  split; [rewrite LP; apply repeat_length|]. split; [exact L|]. split; [exact LO|]. split; [exact V|].
  intros n x LN I. rewrite VP, look_repeat, (plus_zero _ _ _ _ SR).
  rewrite <- (sum_single (fun k => look out k * (we x * Pi one times (fun t => look sc t) (etails g x))) (seq 0 (length (nodes g))) n);
    [|apply seq_NoDup|apply in_seq; lia].
  f_equal. apply map_ext_in. intros k K. apply in_seq in K. cbn [Nat.add]. unfold lx.
  destruct (Nat.eqb_spec k n) as [->|NK].
  - f_equal. apply (sum_single (fun e => we e * Pi one times (fun t => look sc t) (etails g e))); [|exact I].
    unfold in_of in I |- *. destruct (nth_error (nodes g) n) as [nd|] eqn:N; [exact (proj1 (T n nd N))|destruct I].
  - rewrite (sum_none (fun e => we e * Pi one times (fun t => look sc t) (etails g e))); [ring|].
    intros J. apply NK. unfold in_of in I, J. destruct (nth_error (nodes g) n) as [nd|] eqn:N; [|destruct I].
    destruct (nth_error (nodes g) k) as [kd|] eqn:NK'; [|destruct J]. exact (OH k n kd nd x NK' N J I).
Qed.
End Prod.
