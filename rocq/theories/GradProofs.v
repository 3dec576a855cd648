(** Proofs about the training objectives. *)
From Coq Require Import List Arith Reals Lra Lia FunctionalExtensionality.
From Verif Require Import GradSpec Grad GradLoss.
Import ListNotations.
Local Open Scope R_scope.

(** ** Sums *)
Lemma Rsum_cons : forall a l, Rsum (a :: l) = a + Rsum l.
Proof. reflexivity. Qed.
Lemma Rsum_app : forall a b, Rsum (a ++ b) = Rsum a + Rsum b.
Proof. induction a as [|x a IH]; intros b; cbn [app]; rewrite ?Rsum_cons; [cbn; ring|]. rewrite IH. ring. Qed.
Lemma fold_add : forall (A : Type) (h : A -> R) l a, fold_left (fun z c => z + h c) l a = a + Rsum (map h l).
Proof. intros A h. induction l as [|c l IH]; intros a; [cbn; ring|]. cbn [fold_left map]. rewrite IH, Rsum_cons. ring. Qed.
Lemma Rsum_ext : forall (A : Type) (h h' : A -> R) l, (forall c, In c l -> h c = h' c) -> Rsum (map h l) = Rsum (map h' l).
Proof. intros A h h' l H. f_equal. apply map_ext_in. exact H. Qed.
Lemma Rsum_mul : forall (A : Type) (h : A -> R) l s, Rsum (map (fun c => h c * s) l) = Rsum (map h l) * s.
Proof. intros A h l s. induction l as [|c l IH]; cbn [map]; rewrite ?Rsum_cons; [cbn; ring|]. rewrite IH. ring. Qed.
Lemma Rsum_plus : forall (A : Type) (h h' : A -> R) l, Rsum (map (fun c => h c + h' c) l) = Rsum (map h l) + Rsum (map h' l).
Proof. intros A h h' l. induction l as [|c l IH]; cbn [map]; rewrite ?Rsum_cons; [cbn; ring|]. rewrite IH. ring. Qed.
Lemma Rsum_minus : forall (A : Type) (h h' : A -> R) l, Rsum (map (fun c => h c - h' c) l) = Rsum (map h l) - Rsum (map h' l).
Proof. intros A h h' l. induction l as [|c l IH]; cbn [map]; rewrite ?Rsum_cons; [cbn; ring|]. rewrite IH. ring. Qed.
Lemma Rsum_pos : forall (A : Type) (h : A -> R) l, (forall c, 0 < h c) -> l <> [] -> 0 < Rsum (map h l).
Proof.
  intros A h l H N. destruct l as [|c l]; [congruence|]. clear N. revert c. induction l as [|d l IH]; intros c.
  - cbn. specialize (H c). lra.
  - change (0 < h c + Rsum (map h (d :: l))). specialize (IH d). specialize (H c). lra.
Qed.

(** ** Partial derivatives *)
Lemma set_same : forall x k, set_at x k (x k) = x.
Proof. intros x k. apply functional_extensionality. intros j. unfold set_at. destruct (Nat.eqb_spec j k) as [->|]; reflexivity. Qed.
Lemma partial_val : forall F x k l l', partial F x k l -> l = l' -> partial F x k l'.
Proof. intros F x k l l' H <-. exact H. Qed.
Lemma partial_ext : forall F G x k l, (forall y, F y = G y) -> partial F x k l -> partial G x k l.
Proof. intros F G x k l E H. unfold partial in *. replace (fun t => G (set_at x k t)) with (fun t => F (set_at x k t)); [exact H|]. apply functional_extensionality. intros t. apply E. Qed.
Lemma partial_const : forall c x k, partial (fun _ => c) x k 0.
Proof. intros. apply derivable_pt_lim_const. Qed.
Lemma partial_coord : forall j x k, partial (fun y => y j) x k (if Nat.eqb j k then 1 else 0).
Proof. intros j x k. unfold partial, set_at. destruct (Nat.eqb j k); [apply derivable_pt_lim_id|apply derivable_pt_lim_const]. Qed.
Lemma partial_plus : forall F G x k a b, partial F x k a -> partial G x k b -> partial (fun y => F y + G y) x k (a + b).
Proof. intros. apply (derivable_pt_lim_plus (fun t => F (set_at x k t)) (fun t => G (set_at x k t))); assumption. Qed.
Lemma partial_minus : forall F G x k a b, partial F x k a -> partial G x k b -> partial (fun y => F y - G y) x k (a - b).
Proof. intros. apply (derivable_pt_lim_minus (fun t => F (set_at x k t)) (fun t => G (set_at x k t))); assumption. Qed.
Lemma partial_opp : forall F x k a, partial F x k a -> partial (fun y => - F y) x k (- a).
Proof. intros. apply (derivable_pt_lim_opp (fun t => F (set_at x k t))); assumption. Qed.
Lemma partial_scal : forall F x k c a, partial F x k a -> partial (fun y => c * F y) x k (c * a).
Proof. intros. apply (derivable_pt_lim_scal (fun t => F (set_at x k t))); assumption. Qed.
Lemma partial_mult : forall F G x k a b, partial F x k a -> partial G x k b -> partial (fun y => F y * G y) x k (a * G x + F x * b).
Proof.
  intros F G x k a b HF HG. pose proof (derivable_pt_lim_mult (fun t => F (set_at x k t)) (fun t => G (set_at x k t)) _ _ _ HF HG) as M.
  cbv beta in M. rewrite set_same in M. exact M.
Qed.
Lemma partial_comp : forall F h x k a b, partial F x k a -> derivable_pt_lim h (F x) b -> partial (fun y => h (F y)) x k (b * a).
Proof.
  intros F h x k a b HF HH. apply (derivable_pt_lim_comp (fun t => F (set_at x k t)) h); [exact HF|]. rewrite set_same. exact HH.
Qed.
Lemma partial_exp : forall F x k a, partial F x k a -> partial (fun y => exp (F y)) x k (exp (F x) * a).
Proof. intros. apply partial_comp; [assumption|apply derivable_pt_lim_exp]. Qed.
Lemma partial_ln : forall F x k a, 0 < F x -> partial F x k a -> partial (fun y => ln (F y)) x k (/ F x * a).
Proof. intros. apply partial_comp; [assumption|apply derivable_pt_lim_ln; assumption]. Qed.
Lemma partial_sum : forall (A : Type) (F : A -> dense -> R) (D : A -> R) x k l, (forall c, In c l -> partial (F c) x k (D c)) ->
  partial (fun y => Rsum (map (fun c => F c y) l)) x k (Rsum (map D l)).
Proof.
  intros A F D x k. induction l as [|c l IH]; intros H; [exact (partial_const 0 x k)|]. cbn [map]. rewrite Rsum_cons.
  apply (partial_plus (F c) (fun y => Rsum (map (fun c => F c y) l))); [apply H; left; reflexivity|apply IH; intros; apply H; right; assumption].
Qed.
Lemma partial_dot : forall f x k, partial (dot f) x k (value f k).
Proof.
  intros f x k. apply (partial_sum _ (fun kv y => snd kv * y (fst kv)) (fun kv => if Nat.eqb (fst kv) k then snd kv else 0)).
  intros kv _. apply (partial_val _ _ _ (snd kv * (if Nat.eqb (fst kv) k then 1 else 0))); [apply partial_scal, partial_coord|].
  destruct (Nat.eqb (fst kv) k); ring.
Qed.

(** ** Distributions proportional to exp(score) *)
Section Soft.
Context {A : Type}.
Variables (score : A -> dense -> R) (D : A -> nat -> R).
Hypothesis SC : forall c x k, partial (score c) x k (D c k).
Variable cs : list A.
Hypothesis NE : cs <> [].
Notation Z := (Zsum score cs).

Lemma Z_pos : forall x, 0 < Z x.
Proof. intros x. apply Rsum_pos; [intros; apply exp_pos|exact NE]. Qed.
Lemma partial_Z : forall x k, partial Z x k (Rsum (map (fun c => exp (score c x) * D c k) cs)).
Proof. intros x k. apply (partial_sum _ (fun c y => exp (score c y)) (fun c => exp (score c x) * D c k)). intros c _. apply partial_exp, SC. Qed.
Lemma prob_exp : forall x c, exp (score c x - ln (Z x)) = prob_of score cs x c.
Proof. intros x c. unfold prob_of. unfold Rminus. rewrite exp_plus, exp_Ropp, exp_ln by apply Z_pos. reflexivity. Qed.
Lemma prob_pos : forall x c, 0 < prob_of score cs x c.
Proof. intros x c. apply Rdiv_lt_0_compat; [apply exp_pos|apply Z_pos]. Qed.
Lemma ln_prob : forall x c, ln (prob_of score cs x c) = score c x - ln (Z x).
Proof. intros x c. rewrite <- prob_exp. apply ln_exp. Qed.
Lemma prob_sum : forall x, Rsum (map (prob_of score cs x) cs) = 1.
Proof.
  intros x. unfold prob_of, Rdiv. rewrite (Rsum_mul _ (fun c => exp (score c x))). change (Rsum (map (fun c => exp (score c x)) cs)) with (Z x).
  apply Rinv_r. pose proof (Z_pos x). lra.
Qed.
(** d log Z = E[D] *)
Lemma partial_lnZ : forall x k, partial (fun y => ln (Z y)) x k (expected score cs (fun c => D c k) x).
Proof.
  intros x k. apply (partial_val _ _ _ (/ Z x * Rsum (map (fun c => exp (score c x) * D c k) cs))); [apply partial_ln; [apply Z_pos|apply partial_Z]|].
  rewrite Rmult_comm, <- (Rsum_mul _ (fun c => exp (score c x) * D c k)). apply Rsum_ext. intros c _. unfold prob_of. field. pose proof (Z_pos x). lra.
Qed.
Lemma partial_prob : forall c x k, partial (fun y => prob_of score cs y c) x k (prob_of score cs x c * (D c k - expected score cs (fun c => D c k) x)).
Proof.
  intros c x k. apply (partial_ext (fun y => exp (score c y - ln (Z y)))); [intros; apply prob_exp|].
  rewrite <- prob_exp. apply (partial_exp (fun y => score c y - ln (Z y))). apply partial_minus; [apply SC|apply partial_lnZ].
Qed.
Lemma partial_expected : forall h x k, partial (expected score cs h) x k
  (Rsum (map (fun c => prob_of score cs x c * h c * (D c k - expected score cs (fun c => D c k) x)) cs)).
Proof.
  intros h x k. apply (partial_val _ _ _ (Rsum (map (fun c => prob_of score cs x c * (D c k - expected score cs (fun c => D c k) x) * h c) cs))).
  - apply (partial_sum _ (fun c y => prob_of score cs y c * h c)). intros c _.
    apply (partial_val _ _ _ (prob_of score cs x c * (D c k - expected score cs (fun c => D c k) x) * h c + prob_of score cs x c * 0)); [|ring].
    apply (partial_mult (fun y => prob_of score cs y c) (fun _ => h c)); [apply partial_prob|apply partial_const].
  - apply Rsum_ext. intros c _. ring.
Qed.
Lemma partial_entropy : forall x k, partial (entropy_of score cs) x k
  (- (Rsum (map (fun c => prob_of score cs x c * ln (prob_of score cs x c) * D c k) cs) + entropy_of score cs x * expected score cs (fun c => D c k) x)).
Proof.
  intros x k. set (E := expected score cs (fun c => D c k) x). set (p := prob_of score cs x).
  apply (partial_val _ _ _ (Rsum (map (fun c => - (p c * (D c k - E) * ln (p c) + p c * (D c k - E))) cs))).
  - apply (partial_sum _ (fun c y => - (prob_of score cs y c * ln (prob_of score cs y c)))). intros c _. apply partial_opp.
    apply (partial_val _ _ _ (p c * (D c k - E) * ln (p c) + p c * (/ p c * (p c * (D c k - E))))); [|field; pose proof (prob_pos x c) as Q; fold p in Q; lra].
    apply (partial_mult (fun y => prob_of score cs y c) (fun y => ln (prob_of score cs y c))); [apply partial_prob|].
    apply (partial_ln (fun y => prob_of score cs y c)); [apply prob_pos|apply partial_prob].
  - rewrite (Rsum_ext _ _ (fun c => (p c * E) - p c * D c k + (p c * ln (p c) * E - p c * ln (p c) * D c k))) by (intros; ring).
    rewrite Rsum_plus, !Rsum_minus, !Rsum_mul. unfold p at 1. rewrite prob_sum.
    change (Rsum (map (fun c => p c * D c k) cs)) with E. unfold entropy_of. fold p.
    rewrite (Rsum_ext _ (fun c => - (p c * ln (p c))) (fun c => 0 - p c * ln (p c))) by (intros; ring). rewrite Rsum_minus.
    rewrite (Rsum_ext _ (fun _ : A => 0) (fun c => p c * 0)) by (intros; ring). rewrite Rsum_mul. ring.
Qed.
End Soft.

(** ** Candidate sets *)
Definition cval (c : cand) : nat -> R := value (fmap c).
Lemma cscore_partial : forall c x k, partial (cscore c) x k (cval c k).
Proof. intros. apply partial_dot. Qed.
Lemma log_z_eq : forall cs x, log_z cs x = ln (Zsum cscore cs x).
Proof. intros cs x. unfold log_z. rewrite (fold_add _ (fun c => exp (dot (fmap c) x))), Rplus_0_l. reflexivity. Qed.
Lemma model_prob : forall cs x c, cs <> [] -> exp (dot (fmap c) x - log_z cs x) = prob_of cscore cs x c.
Proof. intros cs x c N. rewrite log_z_eq. apply (prob_exp cscore cs N). Qed.
Lemma fold_scaled : forall (h : cand -> R) l a k, fold_left (fun a c => add_scaled a (fmap c) (h c)) l a k = a k + Rsum (map (fun c => h c * cval c k) l).
Proof. intros h. induction l as [|c l IH]; intros a k; [cbn; ring|]. cbn [fold_left map]. rewrite IH, Rsum_cons. unfold add_scaled, cval. ring. Qed.
Lemma exp_feats_eq : forall cs x k, cs <> [] -> exp_feats cs x k = expected cscore cs (fun c => cval c k) x.
Proof.
  intros cs x k N. unfold exp_feats. rewrite fold_scaled. unfold dzero. rewrite Rplus_0_l. apply Rsum_ext. intros c _. rewrite model_prob by exact N. reflexivity.
Qed.

Lemma risk_fold : forall (r : cand -> R) (ef : dense) l a g,
  let res := fold_left (fun '(risk, g) c => (risk + r c, fun k => g k + (value (fmap c) k - ef k) * r c)) l (a, g) in
  fst res = a + Rsum (map r l) /\ forall k, snd res k = g k + Rsum (map (fun c => r c * (cval c k - ef k)) l).
Proof.
  intros r ef. induction l as [|c l IH]; intros a g; cbv zeta.
  - cbn. split; [ring|intros; ring].
  - cbn [fold_left map]. destruct (IH (a + r c) (fun k => g k + (value (fmap c) k - ef k) * r c)) as [E1 E2].
    split; [rewrite E1, Rsum_cons; ring|]. intros k. rewrite E2, Rsum_cons. unfold cval. ring.
Qed.
Lemma risk_correct : forall ie cs x g0, cs <> [] ->
  fst (CandidateSetRisk ie cs x g0) = expected cscore cs (cost ie) x /\
  exists d, gradient (expected cscore cs (cost ie)) x d /\ forall k, snd (CandidateSetRisk ie cs x g0) k = g0 k + d k.
Proof.
  intros ie cs x g0 N. unfold CandidateSetRisk.
  destruct (risk_fold (fun c => exp (dot (fmap c) x - log_z cs x) * cost ie c) (exp_feats cs x) cs 0 g0) as [E1 E2].
  split.
  - etransitivity; [exact E1|]. rewrite Rplus_0_l. apply Rsum_ext. intros c _. rewrite model_prob by exact N. reflexivity.
  - eexists. split; [intros k; apply (partial_expected cscore cval cscore_partial cs N)|]. intros k. etransitivity; [exact (E2 k)|].
    f_equal. apply Rsum_ext. intros c _. rewrite model_prob, exp_feats_eq by exact N. reflexivity.
Qed.
Lemma entropy_fold : forall (lp : cand -> R) l h g ef,
  let res := fold_left (fun '(h, g, ef) c => (h - exp (lp c) * lp c, add_scaled g (fmap c) (exp (lp c) * lp c), add_scaled ef (fmap c) (exp (lp c)))) l (h, g, ef) in
  fst (fst res) = h + Rsum (map (fun c => - (exp (lp c) * lp c)) l) /\
  (forall k, snd (fst res) k = g k + Rsum (map (fun c => exp (lp c) * lp c * cval c k) l)) /\
  (forall k, snd res k = ef k + Rsum (map (fun c => exp (lp c) * cval c k) l)).
Proof.
  intros lp. induction l as [|c l IH]; intros h g ef; cbv zeta.
  - cbn. split; [ring|]. split; intros; ring.
  - cbn [fold_left map]. destruct (IH (h - exp (lp c) * lp c) (add_scaled g (fmap c) (exp (lp c) * lp c)) (add_scaled ef (fmap c) (exp (lp c)))) as (E1 & E2 & E3).
    split; [rewrite E1, Rsum_cons; ring|]. unfold add_scaled, cval in *. split; intros k; [rewrite E2|rewrite E3]; rewrite Rsum_cons; ring.
Qed.
Lemma entropy_correct : forall cs x g0, cs <> [] ->
  fst (CandidateSetEntropy cs x g0) = entropy_of cscore cs x /\
  exists d, gradient (entropy_of cscore cs) x d /\ forall k, snd (CandidateSetEntropy cs x g0) k = g0 k - d k.
Proof.
  intros cs x g0 N. destruct (entropy_fold (fun c => dot (fmap c) x - log_z cs x) cs 0 g0 dzero) as (E1 & E2 & E3). cbv zeta in E1, E2, E3.
  match type of E1 with fst (fst ?r) = _ => change (CandidateSetEntropy cs x g0) with (let '(h, g, ef) := r in (h, fun k => g k + ef k * h)); destruct r as [[h g] ef] end.
  cbn [fst snd] in *.
  assert (LP : forall c, dot (fmap c) x - log_z cs x = ln (prob_of cscore cs x c)) by (intros c; rewrite log_z_eq, (ln_prob cscore cs N); reflexivity).
  assert (H : h = entropy_of cscore cs x).
  { rewrite E1, Rplus_0_l. apply Rsum_ext. intros c _. rewrite LP, exp_ln by apply (prob_pos cscore cs N). reflexivity. }
  split; [exact H|]. eexists. split; [intros k; apply (partial_entropy cscore cval cscore_partial cs N)|]. intros k. cbv beta.
  rewrite E2, E3, H. unfold dzero, expected.
  rewrite (Rsum_ext _ _ (fun c => prob_of cscore cs x c * ln (prob_of cscore cs x c) * cval c k)) by (intros; rewrite LP, exp_ln by apply (prob_pos cscore cs N); reflexivity).
  rewrite (Rsum_ext _ (fun c => exp (dot (fmap c) x - log_z cs x) * cval c k) (fun c => prob_of cscore cs x c * cval c k)) by (intros; rewrite model_prob by exact N; reflexivity).
  ring.
Qed.

(** ** minrisk *)
Lemma minrisk_fold : forall ie T x tr o h g, (forall cs, In cs tr -> cs <> []) ->
  let res := fold_left (fun '(obj, h, g) cs =>
    let '(r, tg) := CandidateSetRisk ie cs x dzero in
    let '(hh, hg) := CandidateSetEntropy cs x dzero in
    (obj + r, h + hh, fun k => g k + tg k + (if Req_EM_T T 0 then 0 else T * hg k))) tr (o, h, g) in
  fst (fst res) = o + Rsum (map (fun cs => expected cscore cs (cost ie) x) tr) /\
  snd (fst res) = h + Rsum (map (fun cs => entropy_of cscore cs x) tr) /\
  exists d, gradient (minrisk_spec (cost ie) T tr) x d /\ forall k, snd res k = g k + d k.
Proof.
  intros ie T x. induction tr as [|cs tr IH]; intros o h g NE; cbv zeta.
  - cbn [fold_left map fst snd]. split; [cbn; ring|]. split; [cbn; ring|]. exists dzero. split; [|intros; unfold dzero; ring].
    intros k. unfold dzero. apply (partial_val _ _ _ (0 - T * 0)); [|ring].
    apply (partial_minus (fun _ => 0) (fun _ => T * 0)); [apply partial_const|]. apply (partial_scal (fun _ => 0)), partial_const.
  - cbn [fold_left map]. assert (N : cs <> []) by (apply NE; left; reflexivity).
    destruct (risk_correct ie cs x dzero N) as (R1 & dr & RG & R2). destruct (entropy_correct cs x dzero N) as (H1 & dh & HG & H2).
    destruct (CandidateSetRisk ie cs x dzero) as [r tg]. destruct (CandidateSetEntropy cs x dzero) as [hh hg]. cbn [fst snd] in *.
    destruct (IH (o + r) (h + hh) (fun k => g k + tg k + (if Req_EM_T T 0 then 0 else T * hg k)) (fun c I => NE c (or_intror I))) as (E1 & E2 & d & DG & E3).
    cbv beta zeta in E1, E2, E3. rewrite !Rsum_cons. split; [rewrite E1, R1; ring|]. split; [rewrite E2, H1; ring|].
    exists (fun k => dr k - T * dh k + d k). split.
    + intros k. apply (partial_ext (fun y => (expected cscore cs (cost ie) y - T * entropy_of cscore cs y) + minrisk_spec (cost ie) T tr y));
        [intros y; unfold minrisk_spec; cbn [map]; rewrite !Rsum_cons; ring|].
      apply (partial_plus (fun y => expected cscore cs (cost ie) y - T * entropy_of cscore cs y)); [|apply DG].
      apply (partial_minus (expected cscore cs (cost ie))); [apply RG|]. apply partial_scal, HG.
    + intros k. rewrite E3, R2, H2. unfold dzero. destruct (Req_EM_T T 0) as [->|]; ring.
Qed.
Lemma minrisk_correct : forall ie T tr x, (forall cs, In cs tr -> cs <> []) ->
  fst (RiskObjective ie T tr x) = minrisk_spec (cost ie) T tr x /\ gradient (minrisk_spec (cost ie) T tr) x (snd (RiskObjective ie T tr x)).
Proof.
  intros ie T tr x NE. unfold RiskObjective. destruct (minrisk_fold ie T x tr 0 0 dzero NE) as (E1 & E2 & d & DG & E3). cbv beta zeta in E1, E2, E3.
  match type of E1 with fst (fst ?r) = _ => change (fst (let '(obj, h, g) := r in (obj - T * h, g)) = minrisk_spec (cost ie) T tr x /\ gradient (minrisk_spec (cost ie) T tr) x (snd (let '(obj, h, g) := r in (obj - T * h, g)))); destruct r as [[o h] g] end.
  cbn [fst snd] in *.
  split; [unfold minrisk_spec; rewrite E1, E2; ring|]. intros k. apply (partial_val _ _ _ (d k)); [apply DG|]. rewrite E3. unfold dzero. ring.
Qed.

(** ** PRO *)
Lemma GradAdd_eq : forall s v g k, GradAdd v s g k = g k + value v k * s.
Proof.
  intros s. unfold GradAdd. induction v as [|[j a] v IH]; intros g k; [cbn; ring|]. cbn [fold_left]. rewrite IH. unfold value. cbn [map fst snd].
  change (fold_right Rplus 0 ((if Nat.eqb j k then a else 0) :: map (fun kv => if Nat.eqb (fst kv) k then snd kv else 0) v))
    with ((if Nat.eqb j k then a else 0) + value v k). unfold value. destruct (Nat.eqb j k); ring.
Qed.
Lemma pro_lps_eq : forall d, pro_lps d = (- ln (1 + exp (- d)), - ln (1 + exp d)).
Proof.
  intros d. assert (K : forall y, y + ln (1 + exp (- y)) = ln (1 + exp y)).
  { intros y. rewrite <- (ln_exp y) at 1. pose proof (exp_pos y). pose proof (exp_pos (- y)). rewrite <- ln_mult by lra. f_equal.
    rewrite Rmult_plus_distr_l, <- exp_plus, Rplus_opp_r, exp_0. ring. }
  unfold pro_lps, log1p. destruct (Rlt_dec 0 (- d)).
  - rewrite K. f_equal; ring.
  - rewrite K. f_equal; ring.
Qed.
Lemma ex_loss_eq : forall ex x, ex_loss ex x = if fst ex then ln (1 + exp (- (dot (snd ex) x + x 0%nat))) else ln (1 + exp (dot (snd ex) x + x 0%nat)).
Proof.
  intros [b f] x. unfold ex_loss. cbn [fst snd]. cbv zeta. pose proof (exp_pos (dot f x + x 0%nat)). pose proof (exp_pos (- (dot f x + x 0%nat))).
  destruct b; rewrite ln_Rinv by lra; ring.
Qed.
Definition bias_value (f : fvec) (k : nat) : R := value f k + (if Nat.eqb 0 k then 1 else 0).
Lemma ex_loss_partial : forall ex x k, partial (ex_loss ex) x k
  ((if fst ex then - exp (- ln (1 + exp (dot (snd ex) x + x 0%nat))) else exp (- ln (1 + exp (- (dot (snd ex) x + x 0%nat))))) * bias_value (snd ex) k).
Proof.
  intros [b f] x k. cbn [fst snd].
  assert (S : partial (fun y => dot f y + y 0%nat) x k (bias_value f k)) by (apply (partial_plus (dot f) (fun y => y 0%nat)); [apply partial_dot|apply partial_coord]).
  set (s := dot f x + x 0%nat). pose proof (exp_pos s) as P1. pose proof (exp_pos (- s)) as P2.
  assert (I : exp s * exp (- s) = 1) by (rewrite <- exp_plus, Rplus_opp_r; apply exp_0).
  apply (partial_ext (fun y => if b then ln (1 + exp (- (dot f y + y 0%nat))) else ln (1 + exp (dot f y + y 0%nat)))); [intros y; symmetry; apply (ex_loss_eq (b, f))|].
  destruct b.
  - apply (partial_val _ _ _ (/ (1 + exp (- s)) * (0 + exp (- s) * - bias_value f k))).
    + apply (partial_ln (fun y => 1 + exp (- (dot f y + y 0%nat)))); [fold s; lra|].
      apply (partial_plus (fun _ => 1)); [apply partial_const|]. apply (partial_exp (fun y => - (dot f y + y 0%nat))). apply (partial_opp (fun y => dot f y + y 0%nat)), S.
    + rewrite (exp_Ropp (ln (1 + exp s))), exp_ln by lra. rewrite Rplus_0_l.
      replace (/ (1 + exp s)) with (exp (- s) * / (1 + exp (- s))); [ring|]. apply (Rmult_eq_reg_l ((1 + exp s) * (1 + exp (- s)))); [|apply Rmult_integral_contrapositive_currified; lra].
      field_simplify; [|lra|lra]. rewrite I. ring.
  - apply (partial_val _ _ _ (/ (1 + exp s) * (0 + exp s * bias_value f k))).
    + apply (partial_ln (fun y => 1 + exp (dot f y + y 0%nat))); [fold s; lra|].
      apply (partial_plus (fun _ => 1)); [apply partial_const|]. apply (partial_exp (fun y => dot f y + y 0%nat)), S.
    + rewrite (exp_Ropp (ln (1 + exp (- s)))), exp_ln by lra. rewrite Rplus_0_l.
      replace (/ (1 + exp (- s))) with (exp s * / (1 + exp s)); [ring|]. apply (Rmult_eq_reg_l ((1 + exp s) * (1 + exp (- s)))); [|apply Rmult_integral_contrapositive_currified; lra].
      field_simplify; [|lra|lra]. rewrite I. ring.
Qed.
Lemma inference_gen : forall x corpus c0 g0,
  let res := fold_left (fun '(cll, g) ex =>
    let '(lp_true, lp_false) := pro_lps (dot (snd ex) x + x 0%nat) in
    if fst ex : bool then (cll - lp_true, add_bias (GradAdd (snd ex) (- exp lp_false) g) (- exp lp_false))
    else (cll - lp_false, add_bias (GradAdd (snd ex) (exp lp_true) g) (exp lp_true))) corpus (c0, g0) in
  fst res = c0 + cll_spec corpus x /\ exists d, gradient (cll_spec corpus) x d /\ forall k, snd res k = g0 k + d k.
Proof.
  intros x. induction corpus as [|ex corpus IH]; intros c0 g0; cbv zeta.
  - cbn [fold_left fst snd]. split; [cbn; ring|]. exists dzero. split; [intros k; first [exact (partial_const 0 _ k)|exact (partial_const (0 / (2 * sigsq)) _ k)]|intros; unfold dzero; ring].
  - cbn [fold_left].
    set (v := if fst ex then - exp (- ln (1 + exp (dot (snd ex) x + x 0%nat))) else exp (- ln (1 + exp (- (dot (snd ex) x + x 0%nat))))).
    assert (E : (let '(lp_true, lp_false) := pro_lps (dot (snd ex) x + x 0%nat) in
      if fst ex : bool then (c0 - lp_true, add_bias (GradAdd (snd ex) (- exp lp_false) g0) (- exp lp_false))
      else (c0 - lp_false, add_bias (GradAdd (snd ex) (exp lp_true) g0) (exp lp_true)))
      = (c0 + ex_loss ex x, add_bias (GradAdd (snd ex) v g0) v)).
    { rewrite pro_lps_eq, ex_loss_eq. unfold v. destruct (fst ex); f_equal; ring. }
    rewrite E. destruct (IH (c0 + ex_loss ex x) (add_bias (GradAdd (snd ex) v g0) v)) as (E1 & d & DG & E2). cbv beta zeta in E1, E2.
    split; [rewrite E1; unfold cll_spec; cbn [map]; rewrite Rsum_cons; ring|].
    exists (fun k => v * bias_value (snd ex) k + d k). split.
    + intros k. apply (partial_plus (ex_loss ex) (cll_spec corpus)); [apply ex_loss_partial|apply DG].
    + intros k. rewrite E2. unfold add_bias, bias_value. rewrite (Nat.eqb_sym k 0). destruct (Nat.eqb 0 k); rewrite GradAdd_eq; ring.
Qed.
Lemma inference_correct : forall x corpus g0, fst (TrainingInference x corpus g0) = cll_spec corpus x /\
  exists d, gradient (cll_spec corpus) x d /\ forall k, snd (TrainingInference x corpus g0) k = g0 k + d k.
Proof. intros x corpus g0. destruct (inference_gen x corpus 0 g0) as [E1 E2]. split; [etransitivity; [exact E1|ring]|exact E2]. Qed.

(** Regularisation, per coordinate. *)
Lemma reg_gen : forall C T pn pw w l r0 g0,
  let res := fold_left (fun '(reg, g) i =>
    let prev := if Nat.ltb i pn then pw i else 0 in
    let diff := w i - prev in
    (reg + C * w i * w i + T * diff * diff, fun k => if Nat.eqb i k then g k + 2 * C * w i + 2 * T * diff else g k)) l (r0, g0) in
  fst res = r0 + Rsum (map (fun i => C * w i * w i + T * (w i - (if Nat.ltb i pn then pw i else 0)) * (w i - (if Nat.ltb i pn then pw i else 0))) l) /\
  exists d, gradient (fun w => Rsum (map (fun i => C * w i * w i + T * (w i - (if Nat.ltb i pn then pw i else 0)) * (w i - (if Nat.ltb i pn then pw i else 0))) l)) w d /\
    forall k, snd res k = g0 k + d k.
Proof.
  intros C T pn pw w. induction l as [|i l IH]; intros r0 g0; cbv zeta.
  - cbn [fold_left fst snd]. split; [cbn; ring|]. exists dzero. split; [intros k; first [exact (partial_const 0 _ k)|exact (partial_const (0 / (2 * sigsq)) _ k)]|intros; unfold dzero; ring].
  - cbn [fold_left map]. set (pv := if Nat.ltb i pn then pw i else 0).
    destruct (IH (r0 + C * w i * w i + T * (w i - pv) * (w i - pv)) (fun k => if Nat.eqb i k then g0 k + 2 * C * w i + 2 * T * (w i - pv) else g0 k)) as (E1 & d & DG & E2).
    cbv beta zeta in E1, E2. split; [rewrite E1, Rsum_cons; ring|].
    exists (fun k => (if Nat.eqb i k then 2 * C * w i + 2 * T * (w i - pv) else 0) + d k). split.
    + intros k. apply (partial_plus (fun y => C * y i * y i + T * (y i - pv) * (y i - pv))
        (fun w => Rsum (map (fun i => C * w i * w i + T * (w i - (if Nat.ltb i pn then pw i else 0)) * (w i - (if Nat.ltb i pn then pw i else 0))) l))); [|apply DG].
      set (b := if Nat.eqb i k then 1 else 0). assert (B : partial (fun y => y i) w k b) by apply partial_coord.
      assert (DF : partial (fun y => y i - pv) w k (b - 0)) by (apply (partial_minus (fun y => y i)); [exact B|apply partial_const]).
      apply (partial_val _ _ _ ((C * b * w i + C * w i * b) + (T * (b - 0) * (w i - pv) + T * (w i - pv) * (b - 0)))); [|unfold b; destruct (Nat.eqb i k); ring].
      apply (partial_plus (fun y => C * y i * y i)).
      * apply (partial_mult (fun y => C * y i) (fun y => y i)); [apply partial_scal, B|exact B].
      * apply (partial_mult (fun y => T * (y i - pv)) (fun y => y i - pv)); [apply (partial_scal (fun y => y i - pv)), DF|exact DF].
    + intros k. rewrite E2. destruct (Nat.eqb i k); ring.
Qed.
Lemma reg_eq : forall C T n prev w, Rsum (map (fun i => C * w i * w i + T * (w i - (if Nat.ltb i n then prev i else 0)) * (w i - (if Nat.ltb i n then prev i else 0))) (seq 0 n)) = reg_spec C T n prev w.
Proof.
  intros C T n prev w. apply Rsum_ext. intros i I. apply in_seq in I. replace (Nat.ltb i n) with true by (symmetry; apply Nat.ltb_lt; lia). unfold Rsqr. ring.
Qed.
Lemma reg_correct : forall C T n w pw g0, fst (ApplyRegularizationTerms C T n w n pw g0) = reg_spec C T n pw w /\
  exists d, gradient (reg_spec C T n pw) w d /\ forall k, snd (ApplyRegularizationTerms C T n w n pw g0) k = g0 k + d k.
Proof.
  intros. destruct (reg_gen C T n pw w (seq 0 n) 0 g0) as (E1 & d & GD & E2). split; [etransitivity; [exact E1|rewrite Rplus_0_l; apply reg_eq]|].
  exists d. split; [|exact E2]. intros k. eapply partial_ext; [intros y; apply reg_eq|apply GD].
Qed.

Lemma pro_general : forall tr te C T n prev x,
  fst (ProLoss tr te C T n prev x) = cll_spec tr x + reg_spec C T n prev x /\
  gradient (fun y => cll_spec tr y + cll_spec te y + reg_spec C T n prev y) x (snd (ProLoss tr te C T n prev x)).
Proof.
  intros tr te C T n prev x. unfold ProLoss. destruct (inference_correct x tr dzero) as (E1 & d1 & D1 & G1).
  destruct (TrainingInference x tr dzero) as [cll g]. cbn [fst snd] in *.
  assert (X : exists d2, gradient (cll_spec te) x d2 /\ forall k, (match te with [] => g | _ => snd (TrainingInference x te g) end) k = g k + d2 k).
  { destruct te as [|e te]; [exists dzero; split; [intros k; exact (partial_const 0 x k)|intros; unfold dzero; ring]|].
    destruct (inference_correct x (e :: te) g) as (_ & d2 & D2 & G2). exists d2. split; [exact D2|exact G2]. }
  destruct X as (d2 & D2 & G2). set (g' := match te with [] => g | _ => snd (TrainingInference x te g) end) in *.
  destruct (reg_correct C T n x prev g') as (E3 & d3 & D3 & G3). destruct (ApplyRegularizationTerms C T n x n prev g') as [reg g3]. cbn [fst snd] in *.
  split; [rewrite E1, E3; reflexivity|]. intros k. apply (partial_val _ _ _ (d1 k + d2 k + d3 k)).
  - apply (partial_plus (fun y => cll_spec tr y + cll_spec te y)); [|apply D3]. apply partial_plus; [apply D1|apply D2].
  - rewrite G3, G2, G1. unfold dzero. ring.
Qed.

(** ** Gaussian prior *)
Lemma prior_gen : forall sigsq means l ks n0 g0, (forall k, In k ks -> l k = 0 -> means k = 0) -> sigsq <> 0 ->
  let res := fold_left (fun '(norm, g) k =>
    if Req_EM_T (l k) 0 then (norm, g)
    else let param := l k - means k in
      (norm + param * param, fun j => if Nat.eqb k j then g j + param / sigsq else g j)) ks (n0, g0) in
  fst res = n0 + Rsum (map (fun k => (l k - means k) * (l k - means k)) ks) /\
  exists d, gradient (fun l => Rsum (map (fun k => (l k - means k) * (l k - means k)) ks) / (2 * sigsq)) l d /\ forall k, snd res k = g0 k + d k.
Proof.
  intros sigsq means l ks n0 g0 H S. revert n0 g0. induction ks as [|i ks IH]; intros n0 g0; cbv zeta.
  - cbn [fold_left fst snd map]. split; [cbn; ring|]. exists dzero. split; [intros k; first [exact (partial_const 0 _ k)|exact (partial_const (0 / (2 * sigsq)) _ k)]|intros; unfold dzero; ring].
  - cbn [fold_left map].
    assert (IH' := IH (fun k I => H k (or_intror I))). clear IH. set (pm := l i - means i).
    assert (E : (if Req_EM_T (l i) 0 then (n0, g0) else let param := l i - means i in (n0 + param * param, fun j => if Nat.eqb i j then g0 j + param / sigsq else g0 j))
      = (n0 + pm * pm, fun j => if Nat.eqb i j then g0 j + pm / sigsq else g0 j)).
    { destruct (Req_EM_T (l i) 0) as [Z|]; [|reflexivity]. assert (PZ : pm = 0) by (unfold pm; rewrite Z, (H i (or_introl eq_refl) Z); ring). rewrite PZ. f_equal; [ring|].
      apply functional_extensionality. intros j. destruct (Nat.eqb i j); [field; exact S|reflexivity]. }
    repeat lazymatch goal with |- context [fold_left ?f ks (if Req_EM_T (l i) 0 then ?p else ?q)] => replace (if Req_EM_T (l i) 0 then p else q) with (n0 + pm * pm, fun j => if Nat.eqb i j then g0 j + pm / sigsq else g0 j) by (symmetry; exact E) end.
    destruct (IH' (n0 + pm * pm) (fun j => if Nat.eqb i j then g0 j + pm / sigsq else g0 j)) as (E1 & d & DG & E2). cbv beta zeta in E1, E2.
    split; [rewrite E1, Rsum_cons; unfold pm; ring|].
    exists (fun k => (if Nat.eqb i k then pm / sigsq else 0) + d k). split.
    + intros k. apply (partial_ext (fun y => / (2 * sigsq) * ((y i - means i) * (y i - means i)) + Rsum (map (fun k => (y k - means k) * (y k - means k)) ks) / (2 * sigsq)));
        [intros y; rewrite Rsum_cons; field; exact S|].
      apply (partial_plus (fun y => / (2 * sigsq) * ((y i - means i) * (y i - means i)))); [|apply DG].
      set (b := if Nat.eqb i k then 1 else 0). assert (B : partial (fun y => y i) l k b) by apply partial_coord.
      assert (DF : partial (fun y => y i - means i) l k (b - 0)) by (apply (partial_minus (fun y => y i)); [exact B|apply partial_const]).
      apply (partial_val _ _ _ (/ (2 * sigsq) * ((b - 0) * pm + pm * (b - 0)))); [|unfold b; destruct (Nat.eqb i k); field; exact S].
      apply partial_scal. apply (partial_mult (fun y => y i - means i) (fun y => y i - means i)); exact DF.
    + intros k. rewrite E2. destruct (Nat.eqb i k); ring.
Qed.
Lemma prior_correct : forall sigsq n l means obj g0, sigsq <> 0 -> (forall k, (1 <= k < n)%nat -> l k = 0 -> means k = 0) ->
  fst (GaussianPrior sigsq n l means obj g0) = obj + prior_spec sigsq n means l /\
  exists d, gradient (prior_spec sigsq n means) l d /\ forall k, snd (GaussianPrior sigsq n l means obj g0) k = g0 k + d k.
Proof.
  intros sigsq n l means obj g0 S H. unfold GaussianPrior.
  destruct (prior_gen sigsq means l (seq 1 (n - 1)) 0 g0) as (E1 & d & DG & E2); [intros k K; apply in_seq in K; apply H; lia|exact S|]. cbv beta zeta in E1, E2.
  match type of E1 with fst ?r = _ => change (fst (let '(norm, g) := r in (obj + norm / (2 * sigsq), g)) = obj + prior_spec sigsq n means l /\
    exists d, gradient (prior_spec sigsq n means) l d /\ forall k, snd (let '(norm, g) := r in (obj + norm / (2 * sigsq), g)) k = g0 k + d k); destruct r as [norm g] end.
  cbn [fst snd] in *.
  split; [rewrite E1, Rplus_0_l; reflexivity|]. exists d. split; [exact DG|exact E2].
Qed.
