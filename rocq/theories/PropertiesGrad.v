(** C62-C65: expectations over forests, training objectives and gradients. *)
From Coq Require Import List Arith Reals.
From Verif Require Import HG Deriv Inside GradSpec Grad Expect GradLoss GradProofs ExpectProofs GradWitness PropertiesInside PropertiesOutside.
Import ListNotations.
Local Open Scope R_scope.

(** C62: the inside algorithm over the expectation semiring gives, at every
    node, the total weight of its derivations and the sum over derivations of
    weight times value, the value of a derivation being the sum over its edges
    of [r].  Their quotient is an expectation (show_expected_length). *)
Theorem C62_expectation_semiring : forall (P : Type) (p r : edge P -> R) (g : hg P), topo g ->
  exists sc, Inside pr_zero pr_plus pr_times (pr_weight p r) g = Some sc /\ length sc = length (nodes g) /\
  forall n, (n < length (nodes g))%nat -> (exists L, all_derivations g n L) /\
    forall L, all_derivations g n L ->
      nth_error sc n = Some (Rsum (map (tree_weight Rmult (edge_weight 0 p g)) L),
                             Rsum (map (fun t => Rsum (map (edge_weight 0 r g) (tree_edges t)) * tree_weight Rmult (edge_weight 0 p g) t) L)).
Proof. exact @pr_inside. Qed.
Print Assumptions C62_expectation_semiring.
Example C62_ex_semiring : topo ex_forest /\
  exists sc, Inside pr_zero pr_plus pr_times (pr_weight real_lab one_each) ex_forest = Some sc /\ nth_error sc 3 = Some (230, 635).
Proof. split; [exact ex_forest_topo|exact forest_pairs]. Qed.

(** InsideOutside, which avoids the vector-valued semiring, gives the same. *)
Theorem C62_inside_outside : forall (P : Type) (p : edge P -> R) (r : edge P -> dense) (g : hg P),
  topo g -> distinct_tails g -> ids_ok g -> length (nodes g) <> 0%nat ->
  forall L, all_derivations g (length (nodes g) - 1) L ->
  exists e, InsideOutside p (fun ed k => r ed k * p ed) g = Some (Rsum (map (tree_weight Rmult (edge_weight 0 p g)) L), e) /\
    forall k, e k = Rsum (map (fun t => Rsum (map (edge_weight 0 (fun ed => r ed k) g) (tree_edges t)) * tree_weight Rmult (edge_weight 0 p g) t) L).
Proof. intros P p r g T D I N. exact (@expect_correct P p g r I T D N). Qed.
Print Assumptions C62_inside_outside.
Example C62_ex_inside_outside : exists e, InsideOutside real_lab (fun ed _ => one_each ed * real_lab ed) ex_forest = Some (230, e) /\ e 0%nat = 635.
Proof. exact forest_expect. Qed.

(** With edge weights exp(w . features): the inside score is the partition
    function, and the normalised vector is both the expected feature vector
    and the gradient of its logarithm. *)
Theorem C62_partition_gradient : forall (g : hg fvec) (L : list tree) (x : dense), forest_with g L ->
  exists e, InsideOutside (EdgeProb x) (FeaturesAndProb x) g = Some (Zsum (deriv_score g) L x, e) /\ 0 < Zsum (deriv_score g) L x /\
    gradient (fun y => ln (Zsum (deriv_score g) L y)) x (fun k => e k / Zsum (deriv_score g) L x) /\
    forall k, e k / Zsum (deriv_score g) L x = expected (deriv_score g) L (fun t => deriv_value g t k) x.
Proof. exact loglinear. Qed.
Print Assumptions C62_partition_gradient.
Example C62_ex_forest : forest_with ex_model ex_model_L.
Proof. exact ex_model_ok. Qed.

(** Finding: when an edge has a node twice among its tails, InsideOutside and
    the expectation semiring disagree: Outside (inside_outside.h 84-88) skips
    both positions.  Expected number of edges: 35/25 instead of 75/25. *)
Theorem C62_duplicate_tail_refuted : exists (g : hg nat) (p r : edge nat -> R) sc e,
  topo g /\ ids_ok g /\ length (nodes g) = 2%nat /\
  Inside pr_zero pr_plus pr_times (pr_weight p r) g = Some sc /\ nth_error sc 1 = Some (25, 75) /\
  InsideOutside p (fun ed _ => r ed * p ed) g = Some (25, e) /\ e 0%nat = 35.
Proof.
  destruct twice_expect as (e & E1 & E2). destruct twice_inside as (sc & S1 & S2).
  exists ex_twice, real_lab, one_each, sc, e. split; [exact twice_topo|]. split; [exact twice_ids|]. split; [reflexivity|]. split; [exact S1|]. split; [exact S2|]. split; [exact E1|exact E2].
Qed.
Print Assumptions C62_duplicate_tail_refuted.

(** C63: the value accumulated over the corpus is minus the log probability of
    the references, log Z - log Z(reference) per sentence which has both
    forests, and the vector accumulated is its gradient. *)
Theorem C63_likelihood : forall (x : dense) (ss : list (decoded * (list tree * list tree))),
  (forall s Ls, In (s, Ls) ss -> analysed s Ls /\ ref_within s Ls x) ->
  exists o g, crf_objective x (map fst ss) = Some (o, g) /\ o = corpus_loss ss x /\ gradient (corpus_loss ss) x g.
Proof. exact crf_correct. Qed.
Print Assumptions C63_likelihood.
Example C63_ex : forall x, let ss := [(Both ex_model ex_ref, (ex_model_L, ex_ref_L)); (NoForest, ([], [])); (NoReference ex_model, (ex_model_L, []))] in
  forall s Ls, In (s, Ls) ss -> analysed s Ls /\ ref_within s Ls x.
Proof.
  intros x ss s Ls I. destruct I as [[= <- <-]|[[= <- <-]|[[= <- <-]|[]]]].
  - split; [split; [exact ex_model_ok|exact ex_ref_ok]|exact (ex_within x)].
  - split; exact I.
  - split; [exact ex_model_ok|exact I].
Qed.

(** The Gaussian prior adds its value and its gradient, provided that no
    weight is zero unless the mean of the prior is. *)
Theorem C63_prior_partial : forall sigsq n (l means : dense) obj (g0 : dense), sigsq <> 0 -> (forall k, (1 <= k < n)%nat -> l k = 0 -> means k = 0) ->
  fst (GaussianPrior sigsq n l means obj g0) = obj + prior_spec sigsq n means l /\
  exists d, gradient (prior_spec sigsq n means) l d /\ forall k, snd (GaussianPrior sigsq n l means obj g0) k = g0 k + d k.
Proof. exact prior_correct. Qed.
Print Assumptions C63_prior_partial.
Example C63_ex_prior : forall k, (1 <= k < 3)%nat -> (fun _ : nat => 2) k = 0 -> (fun _ : nat => 1) k = 0.
Proof. intros k _ H. exfalso. revert H. apply Rgt_not_eq. apply Rlt_0_2. Qed.

(** Finding: a weight which is zero is skipped (mpi_batch_optimize.cc 325)
    even if the prior's mean is not zero: the penalty 1/2 and the derivative
    -1 are both missing, so training which starts at zero is not pulled
    towards the means. *)
Theorem C63_prior_at_zero_refuted : exists sigsq n (l means : dense), sigsq <> 0 /\
  GaussianPrior sigsq n l means 0 dzero = (0, dzero) /\ prior_spec sigsq n means l = / 2 /\ partial (prior_spec sigsq n means) l 1 (-1).
Proof.
  exists 1, 2%nat, dzero, (fun _ => 1). split; [apply R1_neq_R0|]. split; [exact prior_zero|]. split; [exact prior_at_zero|exact prior_partial].
Qed.
Print Assumptions C63_prior_at_zero_refuted.

(** C64: the risk of a candidate set is the expected cost under p(c)
    proportional to exp(w . features), and its gradient is added to [g0]. *)
Theorem C64_risk : forall is_error (cs : list cand) (x g0 : dense), cs <> [] ->
  let c := fun cd => if is_error : bool then mscore cd else 1 - mscore cd in
  fst (CandidateSetRisk is_error cs x g0) = expected cscore cs c x /\
  exists d, gradient (expected cscore cs c) x d /\ forall k, snd (CandidateSetRisk is_error cs x g0) k = g0 k + d k.
Proof. exact risk_correct. Qed.
Print Assumptions C64_risk.

(** The entropy is returned with its sign; the vector added is minus its
    gradient. *)
Theorem C64_entropy : forall (cs : list cand) (x g0 : dense), cs <> [] ->
  fst (CandidateSetEntropy cs x g0) = entropy_of cscore cs x /\
  exists d, gradient (entropy_of cscore cs) x d /\ forall k, snd (CandidateSetEntropy cs x g0) k = g0 k - d k.
Proof. exact entropy_correct. Qed.
Print Assumptions C64_entropy.

(** Finding: the vector computed with the entropy is documented as its gradient
    (training/utils/entropy.h) but is the gradient of minus the entropy. *)
Theorem C64_entropy_gradient_refuted : exists (cs : list cand) (x : dense), cs <> [] /\
  ~ gradient (entropy_of cscore cs) x (snd (CandidateSetEntropy cs x dzero)).
Proof.
  exists two_cands, x_one. split; [discriminate|]. intros H. destruct (entropy_correct two_cands x_one dzero) as (_ & d & D & V); [discriminate|].
  destruct two_entropy as (p & q & P & Q & E). pose proof (partial_unique _ _ _ _ _ (H 0%nat) (D 0%nat)) as U. specialize (V 0%nat).
  pose proof (Rmult_lt_0_compat p q P Q) as PQ. rewrite U in E, V. unfold dzero in V. rewrite Rminus_0_l in V.
  assert (Z : d 0%nat + d 0%nat = 0) by (rewrite V at 1; apply Rplus_opp_l). rewrite E in Z.
  apply (Rlt_irrefl 0). rewrite <- Z at 2. apply Rplus_lt_0_compat; exact PQ.
Qed.
Print Assumptions C64_entropy_gradient_refuted.

(** The objective of minimum risk training, risk - T * entropy, and its
    gradient: the two signs agree. *)
Theorem C64_minrisk : forall is_error T (training : list (list cand)) (x : dense), (forall cs, In cs training -> cs <> []) ->
  let c := fun cd => if is_error : bool then mscore cd else 1 - mscore cd in
  fst (RiskObjective is_error T training x) = minrisk_spec c T training x /\
  gradient (minrisk_spec c T training) x (snd (RiskObjective is_error T training x)).
Proof. exact minrisk_correct. Qed.
Print Assumptions C64_minrisk.
Example C64_ex : forall cs, In cs [two_cands; two_cands] -> cs <> [].
Proof. intros cs [<-|[<-|[]]]; discriminate. Qed.

(** C65: without held-out examples, the value given to the optimiser is the
    negative log likelihood of the labels plus the two quadratic penalties, and
    the vector is its gradient. *)
Theorem C65_pro_partial : forall (training : list (bool * fvec)) C T n (prev x : dense),
  fst (ProLoss training [] C T n prev x) = cll_spec training x + reg_spec C T n prev x /\
  gradient (fun y => cll_spec training y + reg_spec C T n prev y) x (snd (ProLoss training [] C T n prev x)).
Proof.
  intros tr C T n prev x. destruct (pro_general tr [] C T n prev x) as [E G]. split; [exact E|]. intros k.
  eapply partial_ext; [|exact (G k)]. intros y. cbv beta. unfold cll_spec at 2. cbn [map Rsum fold_right]. rewrite Rplus_0_r. reflexivity.
Qed.
Print Assumptions C65_pro_partial.

(** With held-out examples the value is the same, but the vector is the
    gradient with the held-out loss added. *)
Theorem C65_heldout : forall (training testing : list (bool * fvec)) C T n (prev x : dense),
  fst (ProLoss training testing C T n prev x) = cll_spec training x + reg_spec C T n prev x /\
  gradient (fun y => cll_spec training y + cll_spec testing y + reg_spec C T n prev y) x (snd (ProLoss training testing C T n prev x)).
Proof. exact pro_general. Qed.
Print Assumptions C65_heldout.

(** Finding: evaluating the held-out set passes the gradient accumulator
    (mr_pro_reduce.cc 165), so with a held-out set the optimiser is given a
    vector which is not the gradient of the value it is given. *)
Theorem C65_heldout_refuted : exists (training testing : list (bool * fvec)) C T n (prev x : dense), length training = 2%nat /\ 0 < C /\ 0 < T /\
  ~ gradient (fun y => fst (ProLoss training testing C T n prev y)) x (snd (ProLoss training testing C T n prev x)).
Proof.
  exists tr1, te1, 1, 1, 2%nat, dzero, dzero. split; [reflexivity|]. split; [apply Rlt_0_1|]. split; [apply Rlt_0_1|]. intros H.
  destruct (pro_general tr1 te1 1 1 2 dzero dzero) as [_ G].
  assert (K : partial (cll_spec te1) dzero 0 (snd (ProLoss tr1 te1 1 1 2 dzero dzero) 0%nat - snd (ProLoss tr1 te1 1 1 2 dzero dzero) 0%nat)).
  { eapply partial_ext; [|exact (partial_minus _ _ _ _ _ _ (G 0%nat) (H 0%nat))]. intros y. cbv beta. rewrite (proj1 (pro_general tr1 te1 1 1 2 dzero y)). ring. }
  apply (te1_partial _ K). ring.
Qed.
Print Assumptions C65_heldout_refuted.
