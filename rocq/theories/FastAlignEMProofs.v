(** Likelihood, EM and best alignments. *)
From Coq Require Import Reals List Arith ZArith Lia Lra Bool.
Import ListNotations.
From Verif Require Import FastAlign FastAlignSpec FastAlignDiagProofs.
Local Open Scope R_scope.

(** * Sums *)
Lemma fold_sum {A} (g : A -> R) l s : fold_left (fun s x => s + g x) l s = s + Rsum (map g l).
Proof. revert s. induction l as [|x l IH]; intros s; cbn [fold_left map]; [change (Rsum []) with 0; lra|]. rewrite IH, Rsum_cons. lra. Qed.
Lemma psum_eq ps : psum ps = Rsum (map snd ps).
Proof. unfold psum. rewrite (fold_sum (fun x : nat * nat * R => snd x)). rewrite Rplus_0_l. reflexivity. Qed.
Lemma Rsum_flat {A B} (f : B -> R) (g : A -> list B) l : Rsum (map f (flat_map g l)) = Rsum (map (fun x => Rsum (map f (g x))) l).
Proof. induction l as [|x l IH]; [reflexivity|]. cbn [flat_map map]. rewrite map_app, Rsum_app, Rsum_cons, IH. reflexivity. Qed.
Lemma ln_le_sub x : 0 < x -> ln x <= x - 1.
Proof.
  intros H. destruct (Req_dec x 1) as [->|N]; [rewrite ln_1; lra|].
  pose proof (exp_ineq1 (ln x)) as K. rewrite exp_ln in K by exact H. assert (ln x <> 0); [|specialize (K H0); lra].
  intros E. apply N. rewrite <- (exp_ln x H), E. apply exp_0.
Qed.

(** * Jensen's inequality for the logarithm *)
Lemma jensen {A} (w x : A -> R) l : (forall a, In a l -> 0 < w a /\ 0 < x a) -> Rsum (map w l) = 1 -> Rsum (map (fun a => w a * ln (x a)) l) <= ln (Rsum (map (fun a => w a * x a) l)).
Proof.
  intros H W. set (A0 := Rsum (map (fun a => w a * x a) l)).
  assert (N : l <> []) by (intros ->; cbn in W; lra).
  assert (P : 0 < A0) by (apply Rsum_pos; [exact N|intros a Ha; destruct (H a Ha); nra]).
  assert (K : Rsum (map (fun a => w a * ln (x a)) l) <= Rsum (map (fun a => / A0 * (w a * x a) + (ln A0 - 1) * w a) l)).
  { apply Rsum_le. intros a Ha. destruct (H a Ha) as (Hw & Hx). assert (Hq : 0 < x a / A0) by (apply Rdiv_lt_0_compat; assumption).
    pose proof (ln_le_sub _ Hq) as L. unfold Rdiv in L. rewrite ln_mult in L by (try apply Rinv_0_lt_compat; assumption). rewrite ln_Rinv in L by exact P.
    replace (/ A0 * (w a * x a) + (ln A0 - 1) * w a) with (w a * (x a * / A0 - 1 + ln A0)) by ring. apply Rmult_le_compat_l; lra. }
  rewrite Rsum_add, !Rsum_scale, W in K. fold A0 in K. rewrite Rinv_l in K by lra. lra.
Qed.

(** * Tables *)
Section Weight.
Variable G : nat -> nat -> R.
Definition row_weight (e : nat) (r : row) : R := Rsum (map (fun p => snd p * G e (fst p)) r).
Fixpoint weight (e : nat) (t : table) : R := match t with [] => 0 | r :: t' => row_weight e r + weight (S e) t' end.
Lemma row_weight_bump e r f x : row_weight e (bump r f x) = row_weight e r + x * G e f.
Proof.
  unfold row_weight. induction r as [|[k v] r IH]; cbn [bump].
  - cbn [map fst snd]. rewrite Rsum_cons. change (Rsum (map _ [])) with 0. lra.
  - destruct (Nat.eqb_spec k f) as [->|_]; cbn [map fst snd]; rewrite !Rsum_cons; [ring|]. rewrite IH. lra.
Qed.
Lemma weight_Increment : forall t e0 e f x, weight e0 (Increment t e f x) = weight e0 t + x * G (e0 + e)%nat f.
Proof.
  assert (Z : forall e e0 f x, weight e0 (Increment [] e f x) = x * G (e0 + e)%nat f).
  { induction e as [|e IH]; intros e0 f x; cbn [Increment weight].
    - change [(f, 0 + x)] with (bump [] f x). rewrite row_weight_bump, Nat.add_0_r. unfold row_weight. change (Rsum (map _ [])) with 0. lra.
    - rewrite IH. unfold row_weight. change (Rsum (map _ [])) with 0. replace (S e0 + e)%nat with (e0 + S e)%nat by lia. lra. }
  induction t as [|r t IH]; intros e0 e f x; [rewrite Z; cbn [weight]; lra|]. destruct e as [|e]; cbn [Increment weight].
  - rewrite row_weight_bump, Nat.add_0_r. lra.
  - rewrite IH. replace (S e0 + e)%nat with (e0 + S e)%nat by lia. lra.
Qed.
End Weight.

(** Which pairs a table has, and in what order, depends only on the pairs counted. *)
Definition shape (t : table) : list (list nat) := map (map fst) t.
Lemma fst_bump r f x r' x' : map fst r = map fst r' -> map fst (bump r f x) = map fst (bump r' f x').
Proof.
  revert r'. induction r as [|[k v] r IH]; intros [|[k' v'] r'] H; try discriminate; [reflexivity|]. cbn [map fst] in H. injection H as -> H. cbn [bump]. destruct (k' =? f)%nat; cbn [map fst]; f_equal; [exact H|apply IH, H].
Qed.
Lemma shape_Increment : forall t t' e f x x', shape t = shape t' -> shape (Increment t e f x) = shape (Increment t' e f x').
Proof.
  assert (Z : forall e f x x', shape (Increment [] e f x) = shape (Increment [] e f x')) by (induction e as [|e IH]; intros f x x'; cbn; [reflexivity|f_equal; apply IH]).
  induction t as [|r t IH]; intros [|r' t'] e f x x' H; try discriminate; [apply Z|]. cbn [shape map] in H. injection H as H1 H2. destruct e as [|e]; cbn [Increment shape map]; f_equal; auto using fst_bump. 
Qed.
Lemma shape_Normalize t : shape (Normalize t) = shape t.
Proof. unfold shape, Normalize. rewrite map_map. apply map_ext. intros r. unfold NormalizeRow. rewrite map_map. reflexivity. Qed.

(** All counts are positive, and no pair has two. *)
Definition fine_row (r : row) : Prop := NoDup (map fst r) /\ Forall (fun p => 0 < snd p) r.
Definition fine (t : table) : Prop := Forall fine_row t.
Lemma in_bump r f x k : In k (map fst (bump r f x)) -> k = f \/ In k (map fst r).
Proof. induction r as [|[k' v] r IH]; cbn; [intuition|]. destruct (k' =? f)%nat; cbn; [intuition|]. intros [H|H]; [auto|]. destruct (IH H); auto. Qed.
Lemma fine_bump r f x : 0 < x -> fine_row r -> fine_row (bump r f x).
Proof.
  intros Hx (N & P). split.
  - clear P. induction r as [|[k v] r IH]; cbn [bump]; [constructor; [intros []|constructor]|]. cbn [map fst] in N. apply NoDup_cons_iff in N as (N1 & N2).
    destruct (Nat.eqb_spec k f) as [->|K]; cbn [map fst]; constructor; auto. intros H. apply in_bump in H as [->|H]; auto.
  - clear N. induction r as [|[k v] r IH]; cbn [bump]; [constructor; [cbn; lra|constructor]|]. apply Forall_cons_iff in P as (P1 & P2). cbn in P1.
    destruct (k =? f)%nat; constructor; cbn; auto. lra.
Qed.
Lemma fine_nil_row : fine_row []. Proof. split; constructor. Qed.
Lemma fine_Increment : forall t e f x, 0 < x -> fine t -> fine (Increment t e f x).
Proof.
  assert (Z : forall e f x, 0 < x -> fine (Increment [] e f x)) by (induction e as [|e IH]; intros f x Hx; cbn [Increment]; constructor; [apply (fine_bump []); [exact Hx|apply fine_nil_row]|constructor|apply fine_nil_row|apply IH, Hx]).
  induction t as [|r t IH]; intros e f x Hx F; [apply Z, Hx|]. apply Forall_cons_iff in F as (F1 & F2). destruct e as [|e]; cbn [Increment]; constructor; auto. - apply fine_bump; assumption. - apply IH; assumption.
Qed.

Definition total (r : row) : R := Rsum (map snd r).
Lemma NormalizeRow_eq r : 0 < total r -> NormalizeRow r = map (fun p => (fst p, snd p / total r)) r.
Proof.
  intros H. unfold NormalizeRow. rewrite (fold_sum (@snd nat R)). fold (total r). rewrite Rplus_0_l. destruct (Req_EM_T (total r) 0); [lra|reflexivity].
Qed.
Lemma total_pos r : fine_row r -> r <> [] -> 0 < total r.
Proof. intros (_ & P) N. apply Rsum_pos; [exact N|]. intros p Hp. rewrite Forall_forall in P. apply P, Hp. Qed.
Lemma lookup_in r f v : NoDup (map fst r) -> In (f, v) r -> lookup f r = Some v.
Proof.
  induction r as [|[k w] r IH]; cbn; [intros _ []|]. intros N [H|H]; apply NoDup_cons_iff in N as (N1 & N2).
  - injection H as -> ->. rewrite Nat.eqb_refl. reflexivity.
  - destruct (Nat.eqb_spec k f) as [->|_]; [|apply IH; assumption]. exfalso. apply N1. apply (in_map fst) in H. exact H.
Qed.
Lemma lookup_some r f v : lookup f r = Some v -> In (f, v) r.
Proof. induction r as [|[k w] r IH]; cbn; [discriminate|]. destruct (Nat.eqb_spec k f) as [->|_]; [intros [= ->]; left; reflexivity|right; auto]. Qed.
Lemma fine_NormalizeRow r : fine_row r -> fine_row (NormalizeRow r).
Proof.
  intros F. destruct r as [|p r]; [split; constructor|]. assert (T : 0 < total (p :: r)) by (apply total_pos; [exact F|discriminate]). rewrite NormalizeRow_eq by exact T. destruct F as (N & P). split.
  - rewrite map_map. exact N.
  - apply Forall_map. revert P. apply Forall_impl. intros q Hq. cbn. apply Rdiv_lt_0_compat; assumption.
Qed.
Lemma fine_Normalize t : fine t -> fine (Normalize t).
Proof. intros F. apply Forall_map. revert F. apply Forall_impl. intros r. apply fine_NormalizeRow. Qed.
Lemma unseen_pos : 0 < unseen. Proof. unfold unseen. apply Rdiv_lt_0_compat; [lra|]. apply pow_lt. lra. Qed.
Lemma tprob_pos t e f : fine t -> 0 < tprob t e f.
Proof.
  intros F. unfold tprob. destruct (nth_error t e) as [r|] eqn:E; [|apply unseen_pos]. destruct (lookup f r) as [p|] eqn:L; [|apply unseen_pos].
  apply nth_error_In in E. unfold fine in F. rewrite Forall_forall in F. destruct (F r E) as (_ & P). rewrite Forall_forall in P. apply (P (f, p)), lookup_some, L.
Qed.

(** * The M step *)
(** [t'] is [t] renormalised from counts [cs]: the expected log probability does not fall. *)
Definition gain (t t' : table) (e f : nat) : R := ln (tprob t' e f) - ln (tprob t e f).
(** The old table gives the words of no row of the counts more than 1 together. *)
Definition bounded (t : table) (ks : list (list nat)) : Prop := forall e ws, nth_error ks e = Some ws -> Rsum (map (tprob t e) ws) <= 1.
Lemma row_gain t cs e r : fine t -> fine cs -> nth_error cs e = Some r -> Rsum (map (tprob t e) (map fst r)) <= 1 -> 0 <= row_weight (gain t (Normalize cs)) e r.
Proof.
  intros F Fc E B. destruct r as [|p0 r0] eqn:Er; [unfold row_weight; cbn; lra|]. rewrite <- Er in *. assert (Nr : r <> []) by (subst; discriminate). clear Er p0 r0.
  assert (Fr : fine_row r) by (unfold fine in Fc; rewrite Forall_forall in Fc; apply Fc; eapply nth_error_In, E).
  pose proof (total_pos r Fr Nr) as T.
  assert (Q : forall p, In p r -> tprob (Normalize cs) e (fst p) = snd p / total r).
  { intros [f v] Hp. unfold tprob, Normalize. rewrite nth_error_map, E. cbn [option_map fst snd]. rewrite NormalizeRow_eq by exact T. rewrite (lookup_in _ f (v / total r)); [reflexivity| |].
    - rewrite map_map. apply Fr.
    - apply (in_map (fun p => (fst p, snd p / total r)) r (f, v)), Hp. }
  assert (K : Rsum (map (fun p => snd p + - total r * tprob t e (fst p)) r) <= row_weight (gain t (Normalize cs)) e r).
  { apply Rsum_le. intros [f v] Hp. unfold gain. rewrite (Q (f, v) Hp). cbn [fst snd]. destruct Fr as (_ & P). rewrite Forall_forall in P. pose proof (P _ Hp) as Hv. cbn in Hv.
    pose proof (tprob_pos t e f F) as Ht. set (q := tprob t e f) in *.
    assert (Hq : 0 < q * (total r / v)) by (apply Rmult_lt_0_compat; [exact Ht|apply Rdiv_lt_0_compat; assumption]).
    pose proof (ln_le_sub _ Hq) as L. unfold Rdiv in *. rewrite !ln_mult in L by (try apply Rmult_lt_0_compat; try apply Rinv_0_lt_compat; assumption). rewrite ln_mult by (try apply Rinv_0_lt_compat; assumption). rewrite !ln_Rinv in * by assumption.
    apply (Rmult_le_compat_l v) in L; [|lra]. replace (v * (q * (total r * / v) - 1)) with (q * total r - v) in L by (field; lra). nra. }
  rewrite Rsum_add, Rsum_scale in K. fold (total r) in K. rewrite map_map in B. nra.
Qed.
Lemma weight_app_from G t : forall e0, weight G e0 t = Rsum (map (fun e => match nth_error t (e - e0) with Some r => row_weight G e r | None => 0 end) (seq e0 (length t))).
Proof.
  induction t as [|r t IH]; intros e0; [reflexivity|]. cbn [weight length seq map]. rewrite Rsum_cons, Nat.sub_diag, IH. f_equal. apply Rsum_ext. intros e He. apply in_seq in He. replace (e - e0)%nat with (S (e - S e0)) by lia. reflexivity.
Qed.
Lemma mstep t cs : fine t -> fine cs -> bounded t (shape cs) -> 0 <= weight (gain t (Normalize cs)) 0 cs.
Proof.
  intros F Fc B. rewrite weight_app_from. apply Rsum_nonneg. intros e _. rewrite Nat.sub_0_r. destruct (nth_error cs e) as [r|] eqn:E; [|lra]. apply row_gain; auto. apply B. apply (map_nth_error (map fst)), E.
Qed.
Lemma nth_shape : forall t e ws, nth_error (shape t) e = Some ws -> exists r : row, nth_error t e = Some r /\ ws = map fst r.
Proof. induction t as [|r t IH]; intros [|e] ws H; try discriminate; cbn in *; [injection H as <-; eauto|apply IH, H]. Qed.
Lemma bounded_Normalize cs : fine cs -> bounded (Normalize cs) (shape cs).
Proof.
  intros F e ws H. destruct (nth_shape cs e ws H) as (r & E & ->). destruct r as [|p0 r0] eqn:Er; [cbn; lra|]. rewrite <- Er in *. assert (Nr : r <> []) by (subst; discriminate). clear Er p0 r0.
  assert (Fr : fine_row r) by (unfold fine in F; rewrite Forall_forall in F; apply F; eapply nth_error_In, E). pose proof (total_pos r Fr Nr) as T.
  rewrite map_map. rewrite (Rsum_ext _ (fun p => / total r * snd p)).
  - rewrite Rsum_scale. fold (total r). rewrite Rinv_l by lra. lra.
  - intros [f v] Hp. unfold tprob, Normalize. rewrite nth_error_map, E. cbn [option_map fst snd]. rewrite NormalizeRow_eq by exact T. rewrite (lookup_in _ f (v / total r)); [unfold Rdiv; ring| |].
    + rewrite map_map. apply Fr.
    + apply (in_map (fun p => (fst p, snd p / total r)) r (f, v)), Hp.
Qed.
