(** Concrete cases for the training objectives. *)
From Coq Require Import List Arith Reals Lra Lia FunctionalExtensionality.
From Verif Require Import HG Deriv Inside InsideProofs GradSpec Grad Expect GradLoss GradProofs ExpectProofs PropertiesInside PropertiesOutside.
Import ListNotations.
Local Open Scope R_scope.

Lemma partial_unique : forall F x k a b, partial F x k a -> partial F x k b -> a = b.
Proof. intros F x k a b H K. exact (uniqueness_limite _ _ _ _ H K). Qed.

(** ** The edge with a node twice among its tails *)
Definition real_lab (e : edge nat) : R := INR (lab e).
Definition one_each (e : edge nat) : R := 1.
Lemma twice_topo : topo ex_twice.
Proof.
  intros n nd H. do 2 (destruct n as [|n]; [injection H as <-; cbn; split;
      [repeat constructor; cbn; intuition discriminate|
       intros e E; repeat (destruct E as [<-|E]; [eexists; split; [reflexivity|cbn; intros; lia]|]); destruct E]|]).
  destruct n; discriminate.
Qed.
Lemma twice_ids : ids_ok ex_twice.
Proof. intros e ed H. do 3 (destruct e as [|e]; [injection H as <-; reflexivity|]). destruct e; discriminate. Qed.
Lemma twice_expect : exists e, InsideOutside real_lab (fun ed _ => one_each ed * real_lab ed) ex_twice = Some (25, e) /\ e 0%nat = 35.
Proof.
  eexists. split.
  - unfold InsideOutside, Inside, Outside. cbn -[INR]. refine (f_equal (fun z => Some (z, _)) _). unfold real_lab. cbn. ring.
  - unfold dzero, one_each, real_lab. cbn. ring.
Qed.
Lemma twice_inside : exists sc, Inside pr_zero pr_plus pr_times (pr_weight real_lab one_each) ex_twice = Some sc /\ nth_error sc 1 = Some (25, 75).
Proof.
  eexists. split; [unfold Inside; cbn -[INR pr_times pr_plus pr_weight]; reflexivity|]. cbn -[INR]. unfold real_lab, one_each. cbn. apply f_equal. unfold pr_plus, pr_times, pr_weight, pr_zero, real_lab, one_each. cbn. f_equal; ring.
Qed.

(** ** The prior skips weights which are zero *)
Lemma prior_zero : GaussianPrior 1 2 dzero (fun _ => 1) 0 dzero = (0, dzero).
Proof.
  unfold GaussianPrior. cbn [Nat.sub seq fold_left]. destruct (Req_EM_T (dzero 1%nat) 0) as [_|N]; [|exfalso; apply N; reflexivity]. f_equal. field.
Qed.
Lemma prior_at_zero : prior_spec 1 2 (fun _ => 1) dzero = / 2.
Proof. unfold prior_spec, dzero, Rsqr. cbn. field. Qed.
Lemma prior_partial : partial (prior_spec 1 2 (fun _ => 1)) dzero 1 (-1).
Proof.
  apply (partial_ext (fun y => / 2 * ((y 1%nat - 1) * (y 1%nat - 1)))); [intros y; unfold prior_spec, Rsqr; cbn; field|].
  assert (DF : partial (fun y => y 1%nat - 1) dzero 1 (1 - 0)) by (apply (partial_minus (fun y => y 1%nat)); [apply (partial_coord 1)|apply partial_const]).
  apply (partial_val _ _ _ (/ 2 * ((1 - 0) * (dzero 1%nat - 1) + (dzero 1%nat - 1) * (1 - 0)))); [|unfold dzero; field].
  apply partial_scal. apply (partial_mult (fun y => y 1%nat - 1) (fun y => y 1%nat - 1)); exact DF.
Qed.

(** ** The sign of the entropy gradient *)
Definition two_cands : list cand := [{| fmap := [(0%nat, 1)]; mscore := 0 |}; {| fmap := []; mscore := 1 |}].
Definition x_one : dense := fun _ => 1.
Lemma two_entropy : exists p q, 0 < p /\ 0 < q /\ snd (CandidateSetEntropy two_cands x_one dzero) 0%nat = p * q.
Proof.
  set (lz := log_z two_cands x_one).
  assert (LZ : lz = ln (exp 1 + exp 0)) by (unfold lz, log_z, x_one, dot; cbn; f_equal; replace (1 * 1 + 0) with 1 by ring; ring).
  pose proof (exp_pos 1) as P1. pose proof (exp_pos 0) as P0.
  assert (SUM : exp (1 - lz) + exp (0 - lz) = 1).
  { rewrite LZ. unfold Rminus. rewrite !exp_plus, exp_Ropp, exp_ln by lra. field. lra. }
  exists (exp (1 - lz)), (exp (0 - lz)). split; [apply exp_pos|]. split; [apply exp_pos|].
  unfold CandidateSetEntropy. fold lz. unfold two_cands at 1. cbn [fold_left fmap snd]. unfold add_scaled, dzero, value. cbn [map fst snd fold_right Nat.eqb].
  assert (D1 : dot [(0%nat, 1)] x_one = 1) by (unfold dot, x_one; cbn; ring). assert (D0 : dot [] x_one = 0) by reflexivity. rewrite D1, D0.
  set (a := exp (1 - lz)) in *. set (b := exp (0 - lz)) in *. replace b with (1 - a) by lra. ring.
Qed.

(** ** The held-out examples in the gradient *)
Definition tr1 : list (bool * fvec) := [(true, [(1%nat, 2)]); (false, [(1%nat, -1)])].
Definition te1 : list (bool * fvec) := [(true, [(1%nat, 1)])].
Lemma te1_partial : forall l, partial (cll_spec te1) dzero 0 l -> l <> 0.
Proof.
  intros l H E. subst l. assert (K : partial (cll_spec te1) dzero 0 ((- exp (- ln (1 + exp 0))) * bias_value [(1%nat, 1)] 0 + 0)).
  { unfold cll_spec, te1. cbn [map]. apply (partial_plus (ex_loss (true, [(1%nat, 1)])) (fun _ => 0)); [|exact (partial_const 0 _ _)].
    pose proof (ex_loss_partial (true, [(1%nat, 1)]) dzero 0) as Q. cbn [fst snd] in Q.
    replace (dot [(1%nat, 1)] dzero + dzero 0%nat) with 0 in Q by (unfold dot, dzero; cbn; ring). exact Q. }
  pose proof (partial_unique _ _ _ _ _ H K) as U. unfold bias_value, value in U. cbn in U. pose proof (exp_pos (- ln (1 + exp 0))). lra.
Qed.

(** ** A forest with two derivations, and its restriction to a reference *)
Definition fe (ts : list nat) (h : nat) (f : fvec) (i : nat) : edge fvec := {| head := Some h; tails := ts; lab := f; eid := i |}.
Definition ex_model : hg fvec := {|
  nodes := ([mk_node 0 [0; 1] [2]; mk_node 1 [2] []])%nat;
  edges := [fe [] 0%nat [(1%nat, 1)] 0%nat; fe [] 0%nat [(2%nat, 1)] 1%nat; fe [0%nat] 1%nat [(1%nat, / 2)] 2%nat] |}.
Definition ex_ref : hg fvec := {|
  nodes := ([mk_node 0 [0] [1]; mk_node 1 [1] []])%nat;
  edges := [fe [] 0%nat [(1%nat, 1)] 0%nat; fe [0%nat] 1%nat [(1%nat, / 2)] 1%nat] |}.
Definition ex_model_L : list tree := [Tree 2 [Tree 0 []]; Tree 2 [Tree 1 []]].
Definition ex_ref_L : list tree := [Tree 1 [Tree 0 []]].
Lemma ex_model_ok : forest_with ex_model ex_model_L.
Proof.
  assert (T : topo ex_model).
  { intros n nd H. do 2 (destruct n as [|n]; [injection H as <-; cbn; split; [repeat constructor; cbn; intuition discriminate|
      intros e E; repeat (destruct E as [<-|E]; [eexists; split; [reflexivity|cbn; intros; lia]|]); destruct E]|]). destruct n; discriminate. }
  split; [exact T|]. split; [|split; [|split; [cbn; lia|split; [exact (dvs_all ex_model T 1)|discriminate]]]].
  - intros e ed H. do 3 (destruct e as [|e]; [injection H as <-; cbn; repeat constructor; cbn; intuition|]). destruct e; discriminate.
  - intros e ed H. do 3 (destruct e as [|e]; [injection H as <-; reflexivity|]). destruct e; discriminate.
Qed.
Lemma ex_ref_ok : forest_with ex_ref ex_ref_L.
Proof.
  assert (T : topo ex_ref).
  { intros n nd H. do 2 (destruct n as [|n]; [injection H as <-; cbn; split; [repeat constructor; cbn; intuition discriminate|
      intros e E; repeat (destruct E as [<-|E]; [eexists; split; [reflexivity|cbn; intros; lia]|]); destruct E]|]). destruct n; discriminate. }
  split; [exact T|]. split; [|split; [|split; [cbn; lia|split; [exact (dvs_all ex_ref T 1)|discriminate]]]].
  - intros e ed H. do 2 (destruct e as [|e]; [injection H as <-; cbn; repeat constructor; cbn; intuition|]). destruct e; discriminate.
  - intros e ed H. do 2 (destruct e as [|e]; [injection H as <-; reflexivity|]). destruct e; discriminate.
Qed.
Lemma ex_within : forall x, ref_within (Both ex_model ex_ref) (ex_model_L, ex_ref_L) x.
Proof.
  intros x. cbn [ref_within fst snd]. unfold Zsum, ex_model_L, ex_ref_L. cbn [map]. rewrite !Rsum_cons.
  change (deriv_score ex_ref (Tree 1 [Tree 0 []]) x) with (deriv_score ex_model (Tree 2 [Tree 0 []]) x). pose proof (exp_pos (deriv_score ex_model (Tree 2 [Tree 1 []]) x)).
  cbn [Rsum fold_right]. lra.
Qed.
Lemma forest_pairs : exists sc, Inside pr_zero pr_plus pr_times (pr_weight real_lab one_each) ex_forest = Some sc /\ nth_error sc 3 = Some (230, 635).
Proof.
  eexists. split; [unfold Inside; cbn -[INR pr_times pr_plus pr_weight]; reflexivity|]. cbn -[INR]. apply f_equal. unfold pr_plus, pr_times, pr_weight, pr_zero, real_lab, one_each. cbn. f_equal; ring.
Qed.
Lemma forest_expect : exists e, InsideOutside real_lab (fun ed _ => one_each ed * real_lab ed) ex_forest = Some (230, e) /\ e 0%nat = 635.
Proof.
  eexists. split.
  - unfold InsideOutside, Inside, Outside. cbn -[INR]. refine (f_equal (fun z => Some (z, _)) _). unfold real_lab. cbn. ring.
  - unfold dzero, one_each, real_lab. cbn. ring.
Qed.
