(** Proofs about expectations over forests. *)
From Coq Require Import List Arith Reals Lra Lia FunctionalExtensionality.
From Verif Require Import HG Deriv Inside InsideProofs OutsideProofs ProbProofs GradSpec Grad Expect GradLoss GradProofs.
Import ListNotations.
Local Open Scope R_scope.

Lemma sum_Rsum : forall l, sum 0 Rplus l = Rsum l.
Proof. induction l as [|a l IH]; [reflexivity|]. cbn [sum]. rewrite IH. reflexivity. Qed.

(** ** The expectation semiring *)
Lemma pr_semiring : semiring pr_zero pr_one pr_plus pr_times.
Proof. constructor; intros; unfold pr_zero, pr_one, pr_plus, pr_times; try destruct a; try destruct b; try destruct c; cbn [fst snd]; f_equal; ring. Qed.

Section PR.
Context {P : Type}.
Variables (p r : edge P -> R) (g : hg P).
Notation we := (edge_weight 0 p g).
Notation re := (edge_weight 0 r g).
Notation tw := (tree_weight Rmult we).
Definition tree_r (t : tree) : R := Rsum (map re (tree_edges t)).

Lemma pr_edge : forall e, edge_weight pr_zero (pr_weight p r) g e = (we e, re e * we e).
Proof. intros e. unfold edge_weight. destruct (nth_error (edges g) e); [reflexivity|]. unfold pr_zero. f_equal. ring. Qed.
Lemma pr_tree : forall t, tree_weight pr_times (edge_weight pr_zero (pr_weight p r) g) t = (tw t, tree_r t * tw t).
Proof.
  apply tree_ind'. intros e ts H. cbn [tree_weight]. rewrite pr_edge. unfold tree_r. cbn [tree_edges]. rewrite map_app, Rsum_app.
  replace (Rsum (map re [e])) with (re e) by (cbn; ring).
  assert (G : forall l a s, Forall (fun t => tree_weight pr_times (edge_weight pr_zero (pr_weight p r) g) t = (tw t, tree_r t * tw t)) l ->
    fold_left (fun a t => pr_times a (tree_weight pr_times (edge_weight pr_zero (pr_weight p r) g) t)) l (a, s * a) =
    (fold_left (fun a t => a * tw t) l a, (Rsum (map re (flat_map tree_edges l)) + s) * fold_left (fun a t => a * tw t) l a)).
  { clear. induction l as [|t l IH]; intros a s H; [cbn; f_equal; ring|]. inversion H as [|? ? H1 H2]; subst. cbn [fold_left flat_map].
    assert (E : pr_times (a, s * a) (tw t, tree_r t * tw t) = (a * tw t, (s + tree_r t) * (a * tw t))) by (unfold pr_times; cbn [fst snd]; f_equal; ring).
    rewrite H1, E.
    rewrite IH by exact H2. f_equal. rewrite map_app, Rsum_app. unfold tree_r. ring. }
  exact (G ts (we e) (re e) H).
Qed.
Lemma sum_pr : forall (A : Type) (h h' : A -> R) l, sum pr_zero pr_plus (map (fun t => (h t, h' t)) l) = (Rsum (map h l), Rsum (map h' l)).
Proof. intros A h h'. induction l as [|a l IH]; [reflexivity|]. cbn [map sum]. rewrite IH. reflexivity. Qed.
Lemma pr_inside : topo g -> exists sc, Inside pr_zero pr_plus pr_times (pr_weight p r) g = Some sc /\ length sc = length (nodes g) /\
  forall n, (n < length (nodes g))%nat -> (exists L, all_derivations g n L) /\
    forall L, all_derivations g n L -> nth_error sc n = Some (Rsum (map tw L), Rsum (map (fun t => tree_r t * tw t) L)).
Proof.
  intros T. destruct (inside_correct pr_zero pr_one pr_plus pr_times pr_semiring (pr_weight p r) g T) as (sc & R & LE & V).
  exists sc. split; [exact R|]. split; [exact LE|]. intros n N. destruct (V n N) as [EX V']. split; [exact EX|]. intros L AL. rewrite (V' L AL). f_equal.
  rewrite <- sum_pr. f_equal. apply map_ext. exact pr_tree.
Qed.

(** ** expect *)
Fixpoint wsum (c : nat -> R) (i : nat) (l : list R) : R := match l with [] => 0 | a :: s => c i * a + wsum c (S i) s end.
Lemma wsum_upd : forall c (l : list R) j v l' i, upd l j (fun a => a + v) = Some l' -> wsum c i l' = wsum c i l + c (i + j)%nat * v.
Proof.
  intros c. induction l as [|a l IH]; intros j v l' i H; [destruct j; discriminate H|]. destruct j as [|j]; cbn [upd] in H.
  - injection H as <-. cbn [wsum]. rewrite Nat.add_0_r. ring.
  - destruct (upd l j (fun a => a + v)) as [m|] eqn:U; [|discriminate H]. injection H as <-. cbn [wsum]. rewrite (IH j v m (S i) U).
    replace (i + S j)%nat with (S i + j)%nat by lia. ring.
Qed.
Lemma wsum_repeat : forall c n i, wsum c i (repeat 0 n) = 0.
Proof. intros c. induction n as [|n IH]; intros i; [reflexivity|]. cbn [repeat wsum]. rewrite IH. ring. Qed.

Variable rk : edge P -> dense.
Definition rkn (k e : nat) : R := edge_weight 0 (fun ed => rk ed k) g e.
Hypothesis IDS : ids_ok g.
Notation xw := (fun ed k => rk ed k * p ed).
Lemma expect_edges_posts : forall sc o es posts posts' x, post_edges Rplus Rmult p g sc o es posts = Some posts' ->
  exists x', expect_edges xw g sc o es x = Some x' /\ forall k, x' k = x k + (wsum (rkn k) 0 posts' - wsum (rkn k) 0 posts).
Proof.
  intros sc o. induction es as [|e es IH]; intros posts posts' x H; cbn [post_edges expect_edges] in *.
  - injection H as <-. exists x. split; [reflexivity|]. intros. ring.
  - destruct (nth_error (edges g) e) as [ed|] eqn:E; [|discriminate H]. destruct (mul_tails Rmult sc (tails ed) o) as [kb|]; [|discriminate H].
    destruct (upd posts (eid ed) (fun x0 => x0 + p ed * kb)) as [ps|] eqn:U; [|discriminate H].
    destruct (IH ps posts' (fun k => x k + rk ed k * p ed * kb) H) as (x' & R & V). exists x'. split; [exact R|]. intros k. rewrite V.
    rewrite (wsum_upd (rkn k) posts (eid ed) (p ed * kb) ps 0 U). cbn [Nat.add]. rewrite (IDS e ed E). unfold rkn at 3. unfold edge_weight. rewrite E. ring.
Qed.
Lemma expect_nodes_posts : forall sc ns out posts posts' x, post_nodes Rplus Rmult p g sc out ns posts = Some posts' ->
  exists x', expect_nodes xw g sc out ns x = Some x' /\ forall k, x' k = x k + (wsum (rkn k) 0 posts' - wsum (rkn k) 0 posts).
Proof.
  intros sc. induction ns as [|nd ns IH]; intros out posts posts' x H.
  - assert (posts = posts') as <- by (destruct out; cbn [post_nodes] in H; congruence). assert (Q : forall o, expect_nodes xw g sc o [] x = Some x) by (intros [|]; reflexivity). rewrite Q. exists x. split; [reflexivity|]. intros. ring.
  - destruct out as [|o os]; [discriminate H|]. cbn [post_nodes expect_nodes] in *. destruct (post_edges Rplus Rmult p g sc o (in_edges nd) posts) as [ps|] eqn:E; [|discriminate H].
    destruct (expect_edges_posts sc o (in_edges nd) posts ps x E) as (x1 & R1 & V1). rewrite R1.
    destruct (IH os ps posts' x1 H) as (x' & R & V). exists x'. split; [exact R|]. intros k. rewrite V, V1. ring.
Qed.

Lemma count_sum : forall (c : nat -> R) n es, (forall e, In e es -> (e < n)%nat) ->
  Rsum (map (fun x => c x * INR (length (filter (fun e => Nat.eqb e x) es))) (seq 0 n)) = Rsum (map c es).
Proof.
  intros c n. induction es as [|e es IH]; intros H.
  - cbn [filter length map]. rewrite (Rsum_ext _ _ (fun x => c x * 0)) by reflexivity. rewrite Rsum_mul. cbn. ring.
  - cbn [map]. rewrite Rsum_cons, <- IH by (intros; apply H; right; assumption).
    rewrite (Rsum_ext _ _ (fun x => (if Nat.eqb x e then c x else 0) + c x * INR (length (filter (fun e => Nat.eqb e x) es)))).
    + rewrite Rsum_plus. f_equal. rewrite <- sum_Rsum. apply (sum_single 0 1 Rplus Rmult R_semiring Rmult_comm c); [apply seq_NoDup|].
      apply in_seq. specialize (H e (or_introl eq_refl)). lia.
    + intros x _. cbn [filter]. rewrite (Nat.eqb_sym x e). destruct (Nat.eqb e x); [|ring]. cbn [length]. rewrite S_INR. ring.
Qed.
Lemma nmul_INR : forall k a, nmul 0 Rplus k a = INR k * a.
Proof. induction k as [|k IH]; intros a; [cbn; ring|]. cbn [nmul]. rewrite IH, S_INR. ring. Qed.
Lemma derives_edges : forall n t, derives g n t -> forall e, In e (tree_edges t) -> (e < length (edges g))%nat.
Proof.
  intros n t. revert n. induction t as [e ts IH] using tree_ind'. intros n D. inversion D as [n' nd e' ed ts' H1 H2 H3 H4]; subst.
  intros x I. cbn [tree_edges] in I. apply in_app_iff in I. destruct I as [I|[<-|[]]]; [|apply nth_error_Some; congruence].
  apply in_flat_map in I. destruct I as (s & IS & IX). clear - IH H4 IS IX.
  revert IH IS. induction H4 as [|t s' tl sl HD HF IHF]; intros IH IS; [destruct IS|]. inversion IH as [|? ? Q1 Q2]; subst.
  destruct IS as [<-|IS]; [exact (Q1 _ HD x IX)|exact (IHF Q2 IS)].
Qed.
Lemma wsum_nth : forall c (h : nat -> R) l i, (forall j, (j < length l)%nat -> nth_error l j = Some (h (i + j)%nat)) -> wsum c i l = Rsum (map (fun x => c x * h x) (seq i (length l))).
Proof.
  intros c h. induction l as [|a l IH]; intros i H; [reflexivity|]. cbn [wsum length seq map]. rewrite Rsum_cons. rewrite (IH (S i)).
  - pose proof (H 0%nat ltac:(cbn; lia)) as E. cbn in E. injection E as ->. rewrite Nat.add_0_r. reflexivity.
  - intros j J. specialize (H (S j) ltac:(cbn; lia)). cbn [nth_error] in H. rewrite H. do 2 f_equal. lia.
Qed.
Lemma Rsum_swap : forall (A B : Type) (h : A -> B -> R) l m, Rsum (map (fun a => Rsum (map (h a) m)) l) = Rsum (map (fun b => Rsum (map (fun a => h a b) l)) m).
Proof.
  intros A B h l m. induction l as [|a l IH]; cbn [map].
  - rewrite (Rsum_ext _ _ (fun b => 1 * 0)) by (intros; cbn; ring). rewrite Rsum_mul. cbn. ring.
  - rewrite Rsum_cons, IH, <- Rsum_plus. apply Rsum_ext. intros b _. rewrite Rsum_cons. reflexivity.
Qed.

Lemma expect_correct : topo g -> distinct_tails g -> length (nodes g) <> 0%nat -> forall L, all_derivations g (goal_of g) L ->
  exists e, InsideOutside p xw g = Some (Rsum (map tw L), e) /\
    forall k, e k = Rsum (map (fun t => Rsum (map (rkn k) (tree_edges t)) * tw t) L).
Proof.
  intros T DT NE L AL. destruct (posteriors_correct 0 1 Rplus Rmult R_semiring Rmult_comm p g T DT IDS NE) as (sc & posts & EP & LP & _ & V).
  destruct (V L AL) as [VZ VP]. unfold InsideOutside. unfold EdgePosteriors in EP.
  destruct (Inside 0 Rplus Rmult p g) as [sc'|]; [|discriminate EP]. destruct (Outside 0 1 Rplus Rmult p g sc' 1) as [out|]; [|discriminate EP].
  destruct (post_nodes Rplus Rmult p g sc' out (nodes g) (repeat 0 (length (edges g)))) as [ps|] eqn:PN; [|discriminate EP]. injection EP as -> ->.
  destruct (expect_nodes_posts sc (nodes g) out _ posts dzero PN) as (e & R & VE). rewrite VZ, R. exists e. split; [rewrite sum_Rsum; reflexivity|].
  intros k. rewrite VE, wsum_repeat. unfold dzero.
  rewrite (wsum_nth (rkn k) (fun x => Rsum (map (fun t => INR (uses (fun e => Nat.eqb e x) t) * tw t) L)) posts 0).
  - rewrite (Rsum_ext _ _ (fun x => Rsum (map (fun t => rkn k x * INR (uses (fun e => Nat.eqb e x) t) * tw t) L))).
    + rewrite Rsum_swap, Rplus_0_l, Rminus_0_r. apply Rsum_ext. intros t IT.
      rewrite (Rsum_mul _ (fun x => rkn k x * INR (uses (fun e => Nat.eqb e x) t))). f_equal. rewrite LP. apply count_sum.
      intros x IX. apply (derives_edges (goal_of g) t); [|exact IX]. apply AL. exact IT.
    + intros x _. rewrite Rmult_comm, <- Rsum_mul. apply Rsum_ext. intros t _. ring.
  - intros j J. rewrite LP in J. rewrite (VP j J), sum_Rsum. do 2 f_equal. apply map_ext. intros t. apply nmul_INR.
Qed.
End PR.

(** ** Log-linear forests *)
Lemma deriv_partial : forall g t x k, partial (deriv_score g t) x k (deriv_value g t k).
Proof. intros g t x k. apply (partial_sum _ (fun e => dot (feats_of g e)) (fun e => value (feats_of g e) k)). intros e _. apply partial_dot. Qed.
Lemma tree_exp : forall g x t, (forall e, In e (tree_edges t) -> (e < length (edges g))%nat) ->
  tree_weight Rmult (edge_weight 0 (EdgeProb x) g) t = exp (deriv_score g t x).
Proof.
  intros g x. apply (tree_ind' (fun t => (forall e, In e (tree_edges t) -> (e < length (edges g))%nat) ->
    tree_weight Rmult (edge_weight 0 (EdgeProb x) g) t = exp (deriv_score g t x))). intros e ts IH B. cbn [tree_weight]. unfold deriv_score. cbn [tree_edges]. rewrite map_app, Rsum_app.
  replace (Rsum (map (fun e => dot (feats_of g e) x) [e])) with (dot (feats_of g e) x) by (cbn; ring). cbn [tree_edges] in B.
  assert (W : edge_weight 0 (EdgeProb x) g e = exp (dot (feats_of g e) x)).
  { unfold edge_weight, feats_of, EdgeProb. destruct (nth_error (edges g) e) eqn:E; [reflexivity|]. apply nth_error_None in E.
    specialize (B e ltac:(apply in_or_app; right; left; reflexivity)). lia. }
  rewrite W. assert (B' : forall t, In t ts -> forall e, In e (tree_edges t) -> (e < length (edges g))%nat).
  { intros t I y Y. apply B, in_or_app. left. apply in_flat_map. exists t. split; assumption. }
  clear B W. generalize (dot (feats_of g e) x). clear e. induction IH as [|t ts H HF IHF]; intros a; [cbn; f_equal; ring|].
  cbn [fold_left flat_map]. rewrite H by (apply B'; left; reflexivity). rewrite <- exp_plus, IHF by (intros; eapply B'; [right; eassumption|eassumption]).
  f_equal. rewrite map_app, Rsum_app. unfold deriv_score. ring.
Qed.

Lemma loglinear : forall g L x, forest_with g L -> exists e, InsideOutside (EdgeProb x) (FeaturesAndProb x) g = Some (Zsum (deriv_score g) L x, e) /\
  0 < Zsum (deriv_score g) L x /\ gradient (fun y => ln (Zsum (deriv_score g) L y)) x (fun k => e k / Zsum (deriv_score g) L x) /\
  forall k, e k / Zsum (deriv_score g) L x = expected (deriv_score g) L (fun t => deriv_value g t k) x.
Proof.
  intros g L x (T & DT & IDS & NE & AL & NN).
  destruct (expect_correct (EdgeProb x) g (fun ed k => value (lab ed) k) IDS T DT NE L AL) as (e & R & V).
  assert (TE : forall t, In t L -> tree_weight Rmult (edge_weight 0 (EdgeProb x) g) t = exp (deriv_score g t x)).
  { intros t I. apply tree_exp. apply (derives_edges g (goal_of g)). apply AL, I. }
  assert (ZE : Rsum (map (tree_weight Rmult (edge_weight 0 (EdgeProb x) g)) L) = Zsum (deriv_score g) L x) by (apply Rsum_ext; exact TE).
  assert (ZP : 0 < Zsum (deriv_score g) L x) by (apply Rsum_pos; [intros; apply exp_pos|exact NN]).
  assert (EE : forall k, e k / Zsum (deriv_score g) L x = expected (deriv_score g) L (fun t => deriv_value g t k) x).
  { intros k. rewrite V. unfold Rdiv. rewrite <- Rsum_mul. apply Rsum_ext. intros t I. rewrite (TE t I). unfold prob_of.
    replace (Rsum (map (rkn g (fun ed k0 => value (lab ed) k0) k) (tree_edges t))) with (deriv_value g t k); [unfold Rdiv; ring|].
    apply Rsum_ext. intros y _. unfold feats_of, rkn, edge_weight. destruct (nth_error (edges g) y); reflexivity. }
  exists e. split; [rewrite <- ZE; exact R|]. split; [exact ZP|]. split; [|exact EE].
  intros k. apply (partial_val _ _ _ (expected (deriv_score g) L (fun t => deriv_value g t k) x)); [|symmetry; apply EE].
  apply (partial_lnZ (deriv_score g) (deriv_value g) (deriv_partial g) L NN).
Qed.

(** ** The likelihood and its gradient *)
Lemma observe_all_correct : forall x ss o g0,
  (forall s Ls, In (s, Ls) ss -> analysed s Ls /\ ref_within s Ls x) ->
  exists o' g, observe_all x (map fst ss) (o, g0) = Some (o', g) /\ o' = o + corpus_loss ss x /\
    exists d, gradient (corpus_loss ss) x d /\ forall k, g k = g0 k + d k.
Proof.
  intros x. induction ss as [|[s Ls] ss IH]; intros o g0 H.
  - exists o, g0. split; [reflexivity|]. split; [cbn; ring|]. exists dzero. split; [intros k; exact (partial_const 0 x k)|intros; unfold dzero; ring].
  - destruct (H s Ls (or_introl eq_refl)) as [AN RW]. assert (H' : forall s' Ls', In (s', Ls') ss -> analysed s' Ls' /\ ref_within s' Ls' x) by (intros; apply H; right; assumption).
    assert (ST : exists g1 d1, observe x s (o, g0) = Some (o + sent_loss s Ls x, g1) /\ gradient (sent_loss s Ls) x d1 /\ forall k, g1 k = g0 k + d1 k).
    { destruct s as [|m|m r]; cbn [observe sent_loss analysed ref_within] in *.
      - exists g0, dzero. split; [do 2 f_equal; ring|]. split; [intros k; apply (partial_const 0)|intros; unfold dzero; ring].
      - destruct (loglinear m (fst Ls) x AN) as (e & R & _). rewrite R. exists g0, dzero. split; [do 2 f_equal; ring|]. split; [intros k; apply (partial_const 0)|intros; unfold dzero; ring].
      - destruct AN as [AM AR]. destruct (loglinear m (fst Ls) x AM) as (e & R & ZP & GR & _). destruct (loglinear r (snd Ls) x AR) as (e' & R' & ZP' & GR' & _).
        rewrite R, R'. destruct (Rlt_dec _ _) as [BAD|_].
        + exfalso. assert (LE : ln (Zsum (deriv_score r) (snd Ls) x) <= ln (Zsum (deriv_score m) (fst Ls) x)).
          { destruct RW as [LT|EQ]; [left; apply ln_increasing; assumption|right; rewrite EQ; reflexivity]. }
          assert (0 < / 1000000) by (apply Rinv_0_lt_compat; lra). lra.
        + eexists. exists (fun k => e k / Zsum (deriv_score m) (fst Ls) x - e' k / Zsum (deriv_score r) (snd Ls) x). split; [reflexivity|]. split.
          * intros k. apply (partial_minus (fun y => ln (Zsum (deriv_score m) (fst Ls) y))); [apply GR|apply GR'].
          * intros k. cbv beta. ring. }
    destruct ST as (g1 & d1 & OB & GD & V1). cbn [map fst observe_all]. rewrite OB. destruct (IH (o + sent_loss s Ls x) g1 H') as (o' & g & R & E & d & GD' & V).
    exists o', g. split; [exact R|]. split; [rewrite E; unfold corpus_loss; cbn [map fst snd]; rewrite Rsum_cons; ring|].
    exists (fun k => d1 k + d k). split; [|intros k; rewrite V, V1; ring].
    intros k. apply (partial_plus (sent_loss s Ls) (corpus_loss ss)); [apply GD|apply GD'].
Qed.
Lemma crf_correct : forall x ss, (forall s Ls, In (s, Ls) ss -> analysed s Ls /\ ref_within s Ls x) ->
  exists o g, crf_objective x (map fst ss) = Some (o, g) /\ o = corpus_loss ss x /\ gradient (corpus_loss ss) x g.
Proof.
  intros x ss H. destruct (observe_all_correct x ss 0 dzero H) as (o & g & R & E & d & GD & V). exists o, g. split; [exact R|]. split; [rewrite E; ring|].
  intros k. apply (partial_val _ _ _ (d k)); [apply GD|]. rewrite V. unfold dzero. ring.
Qed.
