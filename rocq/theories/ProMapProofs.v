(** Proofs about the sampling of PRO. *)
From Coq Require Import Reals List Arith Bool Lia Lra Psatz Permutation Sorting.
From Verif Require Import Mira MiraSpec MiraProofs ProMap ProMapSpec.
Import ListNotations.
Local Open Scope R_scope.

Section S.
Variable J : nat -> option cand.
Variable error : bool.

Local Notation features_of := (features_of J).
Local Notation score_of := (score_of J).
Local Notation inst_ok := (inst_ok J error).

Lemma zero_vec_ok : forall v, zero_vec v = false -> exists r, In r v /\ r <> 0.
Proof.
  induction v as [|r v IH]; cbn; [discriminate|]. destruct (Req_EM_T r 0) as [E|E]; cbn [andb].
  - intros H. destruct (IH H) as (s & S1 & S2). exists s. split; [right; exact S1|exact S2].
  - intros _. exists r. split; [left; reflexivity|exact E].
Qed.

Lemma first_loop_ok : forall gamma sd draws v1 avg v1' total, first_loop J error gamma sd draws v1 avg = Some (v1', total) ->
  Forall (inst_ok sd) v1 -> Forall (inst_ok sd) v1' /\ (length v1' <= length v1 + gamma)%nat.
Proof.
  induction gamma as [|gamma IH]; intros sd draws v1 avg v1' total E F.
  - cbn in E. inversion E; subst. split; [exact F|lia].
  - cbn [first_loop] in E. revert E. induction draws as [|[a b] draws IHd]; intros E; [discriminate|].
    destruct (a =? b)%nat eqn:Eab; [apply IHd; exact E|]. apply Nat.eqb_neq in Eab.
    destruct (J a) as [ca|] eqn:Ja; [|discriminate]. destruct (J b) as [cb|] eqn:Jb; [|discriminate].
    destruct (Rlt_dec z_score_threshold (z_score sd ca cb)) as [Z|Z]; [apply IHd; exact E|]. cbv zeta in E.
    destruct (Req_EM_T (Rabs (score ca - score cb)) 0) as [G|G].
    + destruct (IH _ _ _ _ _ _ E F) as [I1 I2]. split; [exact I1|lia].
    + destruct (zero_vec (vsub (fmap ca) (fmap cb))) eqn:Zv.
      * destruct (IH _ _ _ _ _ _ E F) as [I1 I2]. split; [exact I1|lia].
      * destruct (IH _ _ _ _ _ _ E) as [I1 I2].
        -- apply Forall_app. split; [exact F|]. constructor; [|constructor]. exists a, b, ca, cb.
           assert (Ns : score ca <> score cb) by (intros X; apply G; rewrite X, Rminus_diag_eq by reflexivity; apply Rabs_R0).
           split; [exact Ja|]. split; [exact Jb|]. split; [exact Eab|]. split; [unfold z_score_threshold, z_score in Z; lra|]. split; [exact Ns|].
           cbn [x y gdiff]. split; [reflexivity|]. split; [|split; [reflexivity|apply zero_vec_ok; exact Zv]].
           unfold better. destruct error; destruct (Rlt_dec (score cb) (score ca)) as [L|L]; cbn [negb]; split; intros H; try discriminate; try reflexivity; try lra.
        -- split; [exact I1|]. rewrite app_length in I2. cbn in I2. lia.
Qed.

Lemma second_loop_ok : forall avg v1 u, incl (second_loop avg v1 u) v1 /\ (length (second_loop avg v1 u) <= length v1)%nat.
Proof.
  intros avg v1. induction v1 as [|i v1 IH]; intros u; cbn [second_loop]; [split; [intros z []|reflexivity]|]. cbv zeta.
  destruct (IH (fun n => u (S n))) as [I1 I2]. destruct (Rlt_dec _ _).
  - split; [intros z [<- |Z]; [left; reflexivity|right; apply I1; exact Z]|cbn; lia].
  - split; [intros z Z; right; apply I1; exact Z|cbn; lia].
Qed.

Lemma sample_ok : forall n gamma xi draws u out, Sample J error n gamma xi draws u out ->
  (length out <= xi)%nat /\ (length out <= gamma)%nat /\ StronglySorted (fun a b => gdiff b <= gdiff a) out /\
  exists sd, 2 <= sd /\ Forall (inst_ok sd) out.
Proof.
  intros n gamma xi draws u out (sd & draws' & v1 & total & E1 & E2 & rest & P & L & So & _).
  destruct (first_loop_ok _ _ _ _ _ _ _ E2 ltac:(constructor)) as [F Lg]. destruct (second_loop_ok (total / INR (length v1)) v1 u) as [Inc Len].
  cbn in Lg. split; [lia|]. split; [lia|]. split; [exact So|]. exists sd. split.
  - unfold LengthDifferenceStdDev in E1. destruct (length_loop J n draws 0) as [[s d]|]; [|discriminate]. inversion E1. apply Rmax_r.
  - apply Forall_forall. intros i I. rewrite Forall_forall in F. apply F, Inc. eapply Permutation_in; [symmetry; exact P|]. apply in_or_app. left. exact I.
Qed.

Lemma second_loop_in : forall avg v1 u i, In i (second_loop avg v1 u) <-> exists k, nth_error v1 k = Some i /\ u k < 1 / (1 + exp (- avg - gdiff i)).
Proof.
  intros avg v1. induction v1 as [|j v1 IH]; intros u i; cbn [second_loop]; [split; [intros []|intros ([|k] & E & _); discriminate E]|]. cbv zeta.
  split.
  - intros H. assert (C : (i = j /\ u 0%nat < 1 / (1 + exp (- avg - gdiff j))) \/ In i (second_loop avg v1 (fun n => u (S n)))) by (destruct (Rlt_dec _ _); [destruct H as [<- |H]; [left; split; [reflexivity|assumption]|right; exact H]|right; exact H]).
    destruct C as [[-> C]|C]; [exists 0%nat; split; [reflexivity|exact C]|]. apply IH in C. destruct C as (k & E & U). exists (S k). split; [exact E|exact U].
  - intros ([|k] & E & U); cbn in E.
    + inversion E; subst j. destruct (Rlt_dec _ _); [left; reflexivity|contradiction].
    + assert (C : In i (second_loop avg v1 (fun n => u (S n)))) by (apply IH; exists k; split; [exact E|exact U]). destruct (Rlt_dec _ _); [right; exact C|exact C].
Qed.
Lemma sample_kept : forall n gamma xi draws u out, Sample J error n gamma xi draws u out ->
  exists drawn avg sd, Forall (inst_ok sd) drawn /\
    (forall i, In i out -> exists k, nth_error drawn k = Some i /\ u k < 1 / (1 + exp (- avg - gdiff i))) /\
    (forall k i, nth_error drawn k = Some i -> u k < 1 / (1 + exp (- avg - gdiff i)) ->
      In i out \/ (length out = xi /\ forall j, In j out -> gdiff i <= gdiff j)).
Proof.
  intros n gamma xi draws u out (sd & draws' & v1 & total & E1 & E2 & rest & P & L & So & Hr).
  destruct (first_loop_ok _ _ _ _ _ _ _ E2 ltac:(constructor)) as [F _]. exists v1, (total / INR (length v1)), sd. split; [exact F|]. split.
  - intros i I. apply second_loop_in. eapply Permutation_in; [symmetry; exact P|]. apply in_or_app. left. exact I.
  - intros k i E U. assert (I : In i (out ++ rest)) by (eapply Permutation_in; [exact P|]; apply second_loop_in; exists k; split; assumption).
    apply in_app_or in I. destruct I as [I|I]; [left; exact I|right]. split; [|intros j Hj; apply Hr; assumption].
    apply Permutation_length in P. rewrite app_length in P. destruct rest; [destruct I|]. cbn in P. lia.
Qed.

(** Both lines of an instance. *)
Lemma nth_vsub : forall a b j, length a = length b -> nth j (vsub a b) 0 = nth j a 0 - nth j b 0.
Proof.
  induction a as [|r a IH]; intros [|s b] j L; try discriminate; [destruct j; cbn; ring|].
  change (vsub (r :: a) (s :: b)) with (r - s :: vsub a b). destruct j; [reflexivity|]. cbn [nth]. apply IH. cbn in L. lia.
Qed.
Lemma nth_vscale : forall c a j, nth j (vscale c a) 0 = c * nth j a 0.
Proof. intros c a. induction a as [|r a IH]; intros [|j]; cbn; try ring. apply IH. Qed.

Lemma written_says : forall d n gamma xi draws u out, (forall a c, J a = Some c -> length (fmap c) = d) ->
  Sample J error n gamma xi draws u out ->
  forall label v, In (label, v) (written out) -> exists a b, says features_of score_of error a b label v.
Proof.
  intros d n gamma xi draws u out D S label v I. destruct (sample_ok _ _ _ _ _ _ S) as (_ & _ & _ & sd & _ & F). rewrite Forall_forall in F.
  unfold written in I. apply in_flat_map in I. destruct I as (i & I & K).
  destruct (F i I) as (a & b & ca & cb & Ja & Jb & N & _ & Ns & X & Y & _ & _).
  assert (Lab : length (fmap ca) = length (fmap cb)) by (rewrite (D a ca Ja), (D b cb Jb); reflexivity).
  assert (Fa : features_of a = Some (fmap ca)) by (unfold features_of; rewrite Ja; reflexivity).
  assert (Fb : features_of b = Some (fmap cb)) by (unfold features_of; rewrite Jb; reflexivity).
  assert (Sa : score_of a = score ca) by (unfold score_of; rewrite Ja; reflexivity).
  assert (Sb : score_of b = score cb) by (unfold score_of; rewrite Jb; reflexivity).
  destruct K as [K|[K|[]]]; inversion K; subst label v.
  - exists a, b, (fmap ca), (fmap cb). rewrite Sa, Sb. split; [exact Fa|]. split; [exact Fb|]. split; [exact N|]. split; [exact Ns|]. split; [|exact Y].
    intros j. rewrite X. apply nth_vsub. exact Lab.
  - exists b, a, (fmap cb), (fmap ca). rewrite Sa, Sb. split; [exact Fb|]. split; [exact Fa|]. split; [congruence|]. split; [congruence|]. split.
    + intros j. rewrite nth_vscale, X, nth_vsub by exact Lab. ring.
    + assert (Q : ~ better error (score ca) (score cb) <-> better error (score cb) (score ca)) by (unfold better; destruct error; lra).
      destruct (y i); cbn [negb].
      * split; [discriminate|]. intros H. apply Q in H. exfalso. apply H, Y. reflexivity.
      * split; [|reflexivity]. intros _. apply Q. intros H. apply Y in H. discriminate.
Qed.

(** There is always a pair which the first loop takes. *)
Lemma length_loop_ok : forall n draws sum s draws', length_loop J n draws sum = Some (s, draws') ->
  exists ds : list (nat * nat), length ds = n /\ Forall (fun p => fst p <> snd p /\ exists ca cb, J (fst p) = Some ca /\ J (snd p) = Some cb) ds /\
    s = sum + fold_right Rplus 0 (map (fun p => match J (fst p), J (snd p) with Some ca, Some cb => (len ca - len cb) * (len ca - len cb) | _, _ => 0 end) ds).
Proof.
  induction n as [|n IH]; intros draws sum s draws' E.
  - cbn in E. inversion E; subst. exists []. split; [reflexivity|]. split; [constructor|]. cbn. ring.
  - cbn [length_loop] in E. revert E. induction draws as [|[a b] draws IHd]; intros E; [discriminate|].
    destruct (a =? b)%nat eqn:Eab; [apply IHd; exact E|]. apply Nat.eqb_neq in Eab.
    destruct (J a) as [ca|] eqn:Ja; [|discriminate]. destruct (J b) as [cb|] eqn:Jb; [|discriminate].
    destruct (IH _ _ _ _ E) as (ds & L & F & Es). exists ((a, b) :: ds). split; [cbn; lia|]. split.
    + constructor; [|exact F]. cbn. split; [exact Eab|]. exists ca, cb. split; assumption.
    + rewrite Es. cbn [map fold_right fst snd]. rewrite Ja, Jb. ring.
Qed.
Lemma min_mean : forall (l : list R) m, l <> [] -> Forall (fun r => m < r) l -> m < fold_right Rplus 0 l / INR (length l).
Proof.
  intros l m N F. assert (K : INR (length l) * m <= fold_right Rplus 0 l /\ (l <> [] -> INR (length l) * m < fold_right Rplus 0 l)).
  { clear N. induction l as [|r l IH]; [cbn; split; [lra|congruence]|]. inversion F; subst. specialize (IH H2). cbn [length fold_right]. rewrite S_INR. split; [lra|intros _; lra]. }
  destruct K as [_ K]. specialize (K N). assert (P : 0 < INR (length l)) by (apply lt_0_INR; destruct l; [congruence|cbn; lia]).
  apply Rmult_lt_reg_r with (INR (length l)); [exact P|]. unfold Rdiv. rewrite Rmult_assoc, Rinv_l, Rmult_1_r by lra. lra.
Qed.
Lemma progress : forall n draws sd draws', (0 < n)%nat -> LengthDifferenceStdDev J n draws = Some (sd, draws') ->
  exists a b ca cb, a <> b /\ J a = Some ca /\ J b = Some cb /\ z_score sd ca cb <= z_score_threshold.
Proof.
  intros n draws sd draws' Hn E. unfold LengthDifferenceStdDev in E. destruct (length_loop J n draws 0) as [[s d]|] eqn:El; [|discriminate].
  inversion E; subst d. destruct (length_loop_ok _ _ _ _ _ El) as (ds & L & F & Es). rewrite Rplus_0_l in Es.
  set (g := fun p : nat * nat => match J (fst p), J (snd p) with Some ca, Some cb => (len ca - len cb) * (len ca - len cb) | _, _ => 0 end) in *.
  assert (Ex : exists p, In p ds /\ g p <= s / INR n).
  { destruct (Forall_Exists_dec (fun p => s / INR n < g p) (fun p => Rlt_dec _ _) ds) as [A|A].
    - exfalso. assert (M : s / INR n < fold_right Rplus 0 (map g ds) / INR (length (map g ds))).
      { apply min_mean; [destruct ds; [cbn in L; lia|discriminate]|]. apply Forall_map. exact A. }
      rewrite map_length, L, <- Es in M. lra.
    - apply Exists_exists in A. destruct A as (p & P1 & P2). exists p. split; [exact P1|lra]. }
  destruct Ex as ([a b] & P1 & P2). rewrite Forall_forall in F. destruct (F _ P1) as (N & ca & cb & Ja & Jb). cbn [fst snd] in *.
  exists a, b, ca, cb. split; [exact N|]. split; [exact Ja|]. split; [exact Jb|]. unfold g in P2. cbn [fst snd] in P2. rewrite Ja, Jb in P2.
  unfold z_score, z_score_threshold. set (dl := len ca - len cb) in *. set (sd0 := Rmax (sqrt (s / INR n)) 2).
  assert (S2 : 2 <= sd0) by apply Rmax_r. assert (Ab : Rabs dl <= sd0).
  { eapply Rle_trans; [|apply Rmax_l]. rewrite <- sqrt_Rsqr_abs. apply sqrt_le_1_alt. exact P2. }
  unfold Rdiv. rewrite Rabs_mult, (Rabs_right (/ sd0)) by (apply Rle_ge; left; apply Rinv_0_lt_compat; lra).
  apply Rmult_le_reg_r with sd0; [lra|]. rewrite Rmult_assoc, Rinv_l by lra. pose proof (Rabs_pos dl). lra.
Qed.

(** One candidate: no number of draws is enough. *)
Lemma single_refuted : forall n gamma xi draws u out, (0 < n)%nat -> Forall (fun p => (fst p <= 1 - 1)%nat /\ (snd p <= 1 - 1)%nat) draws ->
  ~ Sample J error n gamma xi draws u out.
Proof.
  intros n gamma xi draws u out Hn F (sd & draws' & v1 & total & E1 & _). unfold LengthDifferenceStdDev in E1.
  assert (E : length_loop J n draws 0 = None).
  { destruct n as [|n]; [lia|]. cbn [length_loop]. clear E1. induction draws as [|[a b] draws IH]; [reflexivity|].
    inversion F as [|? ? [A B] F']; subst. cbn in A, B. assert (a = 0%nat) by lia. assert (b = 0%nat) by lia. subst. rewrite Nat.eqb_refl. apply IH. exact F'. }
  rewrite E in E1. discriminate.
Qed.
End S.

(** A run. *)
Definition exJ (a : nat) : option cand := match a with O => Some (Cand [3]%nat [1; 0] 5) | S O => Some (Cand [4]%nat [0; 1] 2) | _ => None end.
Lemma ex_sample : exists out, Sample exJ true 1 1 10 [(0, 0); (0, 1); (1, 1); (0, 1)]%nat (fun _ => 0) out /\ written out = [(false, [1 - 0; 0 - 1]); (true, [-1 * (1 - 0); -1 * (0 - 1)])].
Proof.
  eexists. split.
  - exists 2, [(1, 1); (0, 1)]%nat, [Inst [1 - 0; 0 - 1] false 3], 3. split; [|split].
    + unfold LengthDifferenceStdDev. cbn [length_loop Nat.eqb exJ]. f_equal. f_equal. unfold len. cbn [ewords length INR]. replace ((0 + (1 - 1) * (1 - 1)) / 1) with 0 by field. rewrite sqrt_0. apply Rmax_right. lra.
    + cbn [first_loop Nat.eqb exJ]. cbn [score fmap]. unfold z_score, len, z_score_threshold. cbn [ewords length INR].
      replace ((1 - 1) / 2) with 0 by field. rewrite Rabs_R0. destruct (Rlt_dec 2 0); [lra|]. cbv zeta.
      assert (A : Rabs (5 - 2) = 3) by (rewrite Rabs_right; lra). rewrite A. destruct (Req_EM_T 3 0); [lra|].
      unfold vsub, zero_vec. cbn [combine map fst snd forallb]. destruct (Req_EM_T (1 - 0) 0); [lra|]. cbn [andb app]. destruct (Rlt_dec 2 5); [|lra]. cbn [negb]. f_equal. f_equal. lra.
    + cbn [second_loop length INR gdiff]. cbv zeta. destruct (Rlt_dec 0 _) as [L|L].
      * exists []. rewrite app_nil_r. split; [apply Permutation_refl|]. split; [reflexivity|]. split; [repeat constructor|]. intros a b _ [].
      * exfalso. apply L. apply Rdiv_lt_0_compat; [lra|]. pose proof (exp_pos (- (3 / 1) - 3)). lra.
  - reflexivity.
Qed.
