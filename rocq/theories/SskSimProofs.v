(** The normalised kernel is a similarity. *)
From Coq Require Import Bool List Arith Reals Lia Lra.
From Verif Require Import Ssk SskSpec SskProofs.
Import ListNotations.
Local Open Scope nat_scope.

(** Items: words with weights. *)
Definition pairing (l l' : list (list nat * R)) : R :=
  sum (fun p => sum (fun q => if same_words (fst p) (fst q) then (snd p * snd q)%R else 0%R) l') l.
Definition items (N : nat) (lam : R) (s : list nat) : list (list nat * R) := map (fun I => (words s I, (lam ^ span I)%R)) (places N (length s)).
Lemma kernel_items N lam s t : kernel N lam s t = pairing (items N lam s) (items N lam t).
Proof.
  unfold kernel, pairing, items. rewrite sum_map. apply sum_ext. intros I _. rewrite sum_map. apply sum_ext. intros J _. cbn [fst snd].
  destruct (same_words _ _); [apply pow_add|reflexivity].
Qed.
Lemma same_sym u v : same_words u v = same_words v u.
Proof. unfold same_words. destruct (list_eq_dec _ u v), (list_eq_dec _ v u); congruence. Qed.
Lemma pairing_sym l l' : pairing l l' = pairing l' l.
Proof.
  unfold pairing. rewrite sum_swap. apply sum_ext. intros q _. apply sum_ext. intros p _. rewrite same_sym.
  destruct (same_words _ _); [apply Rmult_comm|reflexivity].
Qed.
Lemma pairing_app_l a b c : pairing (a ++ b) c = (pairing a c + pairing b c)%R.
Proof. apply sum_app. Qed.
Lemma pairing_app_r a b c : pairing c (a ++ b) = (pairing c a + pairing c b)%R.
Proof. rewrite pairing_sym, pairing_app_l, (pairing_sym a), (pairing_sym b). reflexivity. Qed.
Definition scale (x : R) (l : list (list nat * R)) := map (fun p => (fst p, (x * snd p)%R)) l.
Lemma pairing_scale_l x a c : pairing (scale x a) c = (x * pairing a c)%R.
Proof.
  unfold pairing, scale. rewrite sum_map, <- sum_scale. apply sum_ext. intros p _. rewrite <- sum_scale. apply sum_ext. intros q _. cbn [fst snd].
  destruct (same_words _ _); lra.
Qed.
Lemma pairing_scale_r x a c : pairing c (scale x a) = (x * pairing c a)%R.
Proof. rewrite pairing_sym, pairing_scale_l, pairing_sym. reflexivity. Qed.

(** Positive semi-definite: group the items by their words. *)
Definition mine (u : list nat) (p : list nat * R) : bool := same_words u (fst p).
Lemma split_sum {A} (f : A -> bool) (h : A -> R) l : sum h l = (sum h (filter f l) + sum h (filter (fun x => negb (f x)) l))%R.
Proof.
  induction l as [|a l IH]; [cbn [filter]; rewrite !sum_nil; lra|]. cbn [filter]. destruct (f a); cbn [negb]; rewrite !sum_cons, IH; ring.
Qed.
Lemma same_true u v : same_words u v = true -> u = v.
Proof. unfold same_words. destruct (list_eq_dec _ u v); [auto|discriminate]. Qed.
Lemma same_false u v : same_words u v = false -> u <> v.
Proof. unfold same_words. destruct (list_eq_dec _ u v); [discriminate|auto]. Qed.
Lemma group_sq u l : pairing (filter (mine u) l) (filter (mine u) l) = (sum snd (filter (mine u) l) * sum snd (filter (mine u) l))%R.
Proof.
  unfold pairing. rewrite <- sum_scale. apply sum_ext. intros p Hp. apply filter_In in Hp. destruct Hp as (_ & Hp). apply same_true in Hp.
  rewrite Rmult_comm, <- sum_scale. apply sum_ext. intros q Hq. apply filter_In in Hq. destruct Hq as (_ & Hq). apply same_true in Hq.
  rewrite <- Hp, <- Hq, same_refl. reflexivity.
Qed.
Lemma cross u l : pairing (filter (mine u) l) (filter (fun p => negb (mine u p)) l) = 0%R.
Proof.
  apply sum_zero. intros p Hp. apply sum_zero. intros q Hq. apply filter_In in Hp. apply filter_In in Hq.
  destruct Hp as (_ & Hp). destruct Hq as (_ & Hq). apply same_true in Hp. apply negb_true_iff in Hq. apply same_false in Hq.
  destruct (same_words (fst p) (fst q)) eqn:E; [|reflexivity]. apply same_true in E. congruence.
Qed.
Lemma pairing_split u l : pairing l l = (pairing (filter (mine u) l) (filter (mine u) l) + pairing (filter (fun p => negb (mine u p)) l) (filter (fun p => negb (mine u p)) l))%R.
Proof.
  set (a := filter (mine u) l). set (b := filter (fun p => negb (mine u p)) l).
  assert (X : forall c, pairing l c = (pairing a c + pairing b c)%R) by (intro; apply split_sum).
  rewrite X. rewrite (pairing_sym a l), (pairing_sym b l), !X. pose proof (cross u l) as C. fold a b in C. rewrite (pairing_sym b a), C. lra.
Qed.
Lemma filter_le {A} (f : A -> bool) l : length (filter f l) <= length l.
Proof. induction l as [|a l IH]; cbn; auto. destruct (f a); cbn; lia. Qed.
Lemma pairing_psd : forall k l, length l <= k -> (0 <= pairing l l)%R.
Proof.
  induction k as [|k IH]; intros l H.
  - destruct l; [|cbn in H; lia]. cbn. lra.
  - destruct l as [|p l]; [cbn; lra|]. rewrite (pairing_split (fst p)). rewrite group_sq.
    apply Rplus_le_le_0_compat; [nra|]. apply IH. cbn. unfold mine at 1. rewrite same_refl. cbn. pose proof (filter_le (fun q => negb (mine (fst p) q)) l). cbn in H. lia.
Qed.
Lemma cauchy a b : (pairing a b * pairing a b <= pairing a a * pairing b b)%R.
Proof.
  assert (P : forall x y, (0 <= x * x * pairing a a + 2 * (x * y) * pairing a b + y * y * pairing b b)%R).
  { intros x y. pose proof (pairing_psd _ (scale x a ++ scale y b) (le_n _)) as H.
    rewrite pairing_app_l, !pairing_app_r, !pairing_scale_l, !pairing_scale_r, (pairing_sym b a) in H. lra. }
  set (A := pairing a a) in *. set (B := pairing b b) in *. set (C := pairing a b) in *.
  pose proof (P B (- C)%R) as H1. pose proof (P 1%R 0%R) as HA. pose proof (P 0%R 1%R) as HB.
  assert (HB' : (0 <= B)%R) by lra. destruct (Rle_lt_or_eq_dec _ _ HB') as [Bp|Bz].
  - assert (E : (B * B * A + 2 * (B * - C) * C + - C * - C * B = B * (A * B - C * C))%R) by ring. rewrite E in H1.
    assert (0 <= A * B - C * C)%R; [|lra]. apply (Rmult_le_reg_l B); auto. rewrite Rmult_0_r. exact H1.
  - destruct (Req_dec C 0) as [->|Hc]; [nra|]. exfalso.
    pose proof (P 1%R (- (A + 1) / (2 * C))%R) as H2. rewrite <- Bz in H2.
    replace (1 * 1 * A + 2 * (1 * (- (A + 1) / (2 * C))) * C + - (A + 1) / (2 * C) * (- (A + 1) / (2 * C)) * 0)%R with (-1)%R in H2 by (field; auto). lra.
Qed.

Section Sim.
Variables (N : nat) (lam : R).
Hypothesis lam_pos : (0 < lam)%R.

Lemma sum_nonneg {A} (h : A -> R) l : (forall x, In x l -> (0 <= h x)%R) -> (0 <= sum h l)%R.
Proof.
  induction l as [|a l IH]; intro H; [rewrite sum_nil; lra|]. rewrite sum_cons. pose proof (H a ltac:(now left)). specialize (IH ltac:(intros; apply H; now right)). lra.
Qed.
Lemma sum_pos {A} (h : A -> R) l x : (forall x, In x l -> (0 <= h x)%R) -> In x l -> (0 < h x)%R -> (0 < sum h l)%R.
Proof.
  induction l as [|a l IH]; intros H Hx Hp; [destruct Hx|]. rewrite sum_cons. destruct Hx as [-> | Hx].
  - pose proof (sum_nonneg h l ltac:(intros; apply H; now right)). lra.
  - pose proof (H a ltac:(now left)). specialize (IH ltac:(intros; apply H; now right) Hx Hp). lra.
Qed.
Lemma term_nonneg s t I J : (0 <= if same_words (words s I) (words t J) then lam ^ (span I + span J) else 0)%R.
Proof. destruct (same_words _ _); [|lra]. apply Rlt_le, pow_lt. auto. Qed.
Lemma kernel_nonneg s t : (0 <= kernel N lam s t)%R.
Proof. apply sum_nonneg. intros I _. apply sum_nonneg. intros J _. apply term_nonneg. Qed.
Lemma single l : forall i, In i l -> In [i] (choose 1 l).
Proof.
  induction l as [|x l IH]; intros i Hi; [destruct Hi|]. cbn [choose]. apply in_or_app. destruct Hi as [-> | Hi].
  - left. rewrite choose_0. now left.
  - right. now apply IH.
Qed.
Lemma kernel_pos s t : 0 < N -> (exists w, In w s /\ In w t) -> (0 < kernel N lam s t)%R.
Proof.
  intros HN (w & Hs & Ht). apply (In_nth _ _ 0) in Hs. apply (In_nth _ _ 0) in Ht. destruct Hs as (i & Li & Ei). destruct Ht as (j & Lj & Ej).
  assert (P : forall l i, i < l -> In [i] (places N l)).
  { intros l x Hx. unfold places. apply in_flat_map. exists 1. split; [apply in_seq; lia|]. apply single, in_seq. lia. }
  apply (sum_pos _ _ [i]); auto.
  - intros I _. apply sum_nonneg. intros J _. apply term_nonneg.
  - apply (sum_pos _ _ [j]); auto.
    + intros J _. apply term_nonneg.
    + unfold words. cbn [map]. rewrite Ei, Ej, same_refl. apply pow_lt. auto.
Qed.
Lemma places_ne l I : In I (places N l) -> exists x I', I = x :: I' /\ Forall (fun i => i < l) I.
Proof.
  intro H. unfold places in H. apply in_flat_map in H. destruct H as (n & Hn & H). apply in_seq in Hn. pose proof (choose_len _ _ _ H) as L.
  apply choose_lt in H. destruct I as [|x I]; [cbn in L; lia|]. eauto.
Qed.
Lemma kernel_zero s t : (forall w, In w s -> ~ In w t) -> kernel N lam s t = 0%R.
Proof.
  intro H. apply sum_zero. intros I HI. apply sum_zero. intros J HJ. destruct (same_words _ _) eqn:E; [|reflexivity]. exfalso. apply same_true in E.
  destruct (places_ne _ _ HI) as (x & I' & -> & FI). destruct (places_ne _ _ HJ) as (y & J' & -> & FJ). cbn in E. injection E as E _.
  inversion FI; subst. inversion FJ; subst. apply (H (nth x s 0)); [now apply nth_In|]. rewrite E. now apply nth_In.
Qed.
Lemma kernel_sym s t : kernel N lam s t = kernel N lam t s.
Proof. rewrite !kernel_items. apply pairing_sym. Qed.

Theorem nssk_ok s t : nssk N lam s t = Some (similarity N lam s t).
Proof.
  unfold nssk. rewrite !ssk_ok. destruct (Req_EM_T _ _) as [E|E]; [|reflexivity]. unfold similarity. rewrite E. f_equal. lra.
Qed.
Theorem similarity_sym s t : similarity N lam s t = similarity N lam t s.
Proof. unfold similarity. rewrite kernel_sym. f_equal. f_equal. apply Rmult_comm. Qed.
Theorem similarity_range s t : (0 <= similarity N lam s t <= 1)%R.
Proof.
  unfold similarity. pose proof (kernel_nonneg s t) as K0. pose proof (cauchy (items N lam s) (items N lam t)) as C. rewrite <- !kernel_items in C.
  set (k := kernel N lam s t) in *. set (q := (kernel N lam s s * kernel N lam t t)%R) in *.
  destruct (Rle_lt_or_eq_dec _ _ (sqrt_pos q)) as [P|Z].
  - split.
    + apply Rmult_le_pos; [auto|]. apply Rlt_le, Rinv_0_lt_compat. auto.
    + apply (Rmult_le_reg_r (sqrt q)); auto. unfold Rdiv. rewrite Rmult_assoc, Rinv_l by lra. rewrite Rmult_1_r, Rmult_1_l.
      apply Rsqr_incr_0_var; [|lra]. unfold Rsqr. rewrite sqrt_sqrt; auto. nra.
  - rewrite <- Z. unfold Rdiv. assert (k = 0)%R.
    { assert (q <= 0)%R. { apply sqrt_eq_0; [|auto] || idtac. destruct (Rle_dec q 0); auto. exfalso. assert (0 < sqrt q)%R by (apply sqrt_lt_R0; lra). lra. }
      nra. }
    rewrite H. lra.
Qed.
Theorem similarity_self s : 0 < N -> s <> [] -> similarity N lam s s = 1%R.
Proof.
  intros HN Hs. unfold similarity. destruct s as [|w s]; [congruence|]. set (s' := w :: s).
  assert (P : (0 < kernel N lam s' s')%R). { apply kernel_pos; auto. exists w. split; now left. }
  rewrite sqrt_square by lra. field. lra.
Qed.
Theorem similarity_zero s t : 0 < N -> (similarity N lam s t = 0%R <-> forall w, In w s -> ~ In w t).
Proof.
  intro HN. split.
  - intros H w Hs Ht. assert (P : (0 < kernel N lam s t)%R) by (apply kernel_pos; eauto).
    assert (P1 : (0 < kernel N lam s s)%R) by (apply kernel_pos; eauto). assert (P2 : (0 < kernel N lam t t)%R) by (apply kernel_pos; eauto).
    unfold similarity in H. assert (Q : (0 < sqrt (kernel N lam s s * kernel N lam t t))%R) by (apply sqrt_lt_R0; nra).
    apply Rmult_integral in H. destruct H as [H|H]; [lra|]. apply Rinv_neq_0_compat in H; [auto|lra].
  - intro H. unfold similarity. rewrite kernel_zero by auto. lra.
Qed.
End Sim.

(** The metric. *)
Lemma lam_ok : (0 < 0.8)%R.
Proof. lra. Qed.
Theorem best_ok hyp refs : exists b, best hyp refs = Some b /\ (0 <= b <= 1)%R /\ (forall r, In r refs -> (similarity 4 0.8 hyp r <= b)%R) /\
  (b = 0%R \/ exists r, In r refs /\ b = similarity 4 0.8 hyp r).
Proof.
  unfold best.
  destruct (loop_inv (fun i b => (0 <= b <= 1)%R /\ (forall j r, j < i -> nth_error refs j = Some r -> (similarity 4 0.8 hyp r <= b)%R) /\
    (b = 0%R \/ exists r, In r refs /\ b = similarity 4 0.8 hyp r)) (fun i b => match nth_error refs i with
    | Some r => match nssk 4 0.8 hyp r with Some x => Some (if Rlt_dec b x then x else b) | None => None end
    | None => None end) (length refs) 0 0%R) as (b & E & R & H & W).
  - split; [lra|]. split; [intros; lia|auto].
  - intros i b Hi (R & H & W). destruct (nth_error refs i) as [r|] eqn:Er; [|apply nth_error_None in Er; lia]. rewrite nssk_ok.
    eexists. split; [reflexivity|]. pose proof (similarity_range 4 0.8 lam_ok hyp r) as S.
    destruct (Rlt_dec b (similarity 4 0.8 hyp r)) as [L|L].
    + split; [lra|]. split; [|right; exists r; split; auto; eapply nth_error_In; eauto].
      intros j r' Hj Ej. destruct (Nat.eq_dec j i) as [->|]; [rewrite Er in Ej; injection Ej as <-; lra|]. pose proof (H j r' ltac:(lia) Ej). lra.
    + split; auto. split; auto. intros j r' Hj Ej. destruct (Nat.eq_dec j i) as [->|]; [rewrite Er in Ej; injection Ej as <-; lra|]. apply (H j r'); auto. lia.
  - exists b. repeat split; auto; try lra. intros r Hr. apply In_nth_error in Hr. destruct Hr as (j & Ej). apply (H j r); auto.
    cbn. apply nth_error_Some. congruence.
Qed.
Theorem corpus_ok l : exists bs, map Some bs = map (fun hr => best (fst hr) (snd hr)) l /\
  corpus l = Some (fold_right Rplus 0%R bs, INR (length l)) /\
  (l <> [] -> (0 <= score (fold_right Rplus 0%R bs, INR (length l)) <= 1)%R).
Proof.
  assert (X : exists bs, map Some bs = map (fun hr => best (fst hr) (snd hr)) l /\ corpus l = Some (fold_right Rplus 0%R bs, INR (length l)) /\
    (0 <= fold_right Rplus 0 bs <= INR (length l))%R).
  { induction l as [|(h, rs) l IH].
    - exists []. cbn. repeat split; auto; lra.
    - destruct IH as (bs & E & C & R). destruct (best_ok h rs) as (b & Eb & Rb & _). exists (b :: bs). cbn [map fst snd]. rewrite E, Eb. split; auto.
      cbn [corpus]. unfold stats. rewrite Eb, C. cbn [fold_right length]. rewrite S_INR. split; [do 2 f_equal; lra|lra]. }
  destruct X as (bs & E & C & R). exists bs. repeat split; auto.
  - unfold score. cbn [fst snd]. apply Rmult_le_pos; [lra|]. destruct l; [congruence|]. apply Rlt_le, Rinv_0_lt_compat, lt_0_INR. cbn. lia.
  - unfold score. cbn [fst snd]. destruct l as [|x l]; [congruence|]. assert (P : (0 < INR (length (x :: l)))%R) by (apply lt_0_INR; cbn; lia).
    apply (Rmult_le_reg_r (INR (length (x :: l)))); auto. unfold Rdiv. rewrite Rmult_assoc, Rinv_l by lra. lra.
Qed.
