From Coq Require Import List Arith ZArith Bool Lia Permutation.
From Verif Require Import Leven LevenSpec.
Import ListNotations.
Open Scope nat_scope.

(** * Alignments *)
Inductive align : list Z -> list Z -> nat -> Prop :=
| al_nil : align [] [] 0
| al_mat x u v n : align u v n -> align (x :: u) (x :: v) n
| al_sub x y u v n : align u v n -> align (x :: u) (y :: v) (S n)
| al_del x u v n : align u v n -> align (x :: u) v (S n)
| al_ins y u v n : align u v n -> align u (y :: v) (S n).
#[global] Hint Constructors align : core.

Lemma align_refl u : align u u 0.
Proof. induction u; auto. Qed.
Lemma align_app u v n u' v' n' : align u v n -> align u' v' n' -> align (u ++ u') (v ++ v') (n + n').
Proof. induction 1; intros; simpl; auto. Qed.
Lemma align_split u v w n : align u (v ++ w) n ->
  exists u1 u2 n1 n2, u = u1 ++ u2 /\ n = n1 + n2 /\ align u1 v n1 /\ align u2 w n2.
Proof.
  intros H. remember (v ++ w) as t eqn:E. revert v w E.
  induction H as [|x u t n H IH|x y u t n H IH|x u t n H IH|y u t n H IH]; intros v w E.
  - symmetry in E. apply app_eq_nil in E. destruct E as [-> ->]. exists [], [], 0, 0. auto.
  - destruct v as [|z v]; simpl in E.
    + subst w. exists [], (x :: u), 0, n. repeat split; auto.
    + injection E as -> E. destruct (IH v w E) as (u1 & u2 & n1 & n2 & -> & -> & A & B).
      exists (z :: u1), u2, n1, n2. repeat split; auto.
  - destruct v as [|z v]; simpl in E.
    + subst w. exists [], (x :: u), 0, (S n). repeat split; auto.
    + injection E as -> E. destruct (IH v w E) as (u1 & u2 & n1 & n2 & -> & -> & A & B).
      exists (x :: u1), u2, (S n1), n2. repeat split; auto.
  - destruct (IH v w E) as (u1 & u2 & n1 & n2 & -> & -> & A & B).
    exists (x :: u1), u2, (S n1), n2. repeat split; auto.
  - destruct v as [|z v]; simpl in E.
    + subst w. exists [], u, 0, (S n). repeat split; auto.
    + injection E as -> E. destruct (IH v w E) as (u1 & u2 & n1 & n2 & -> & -> & A & B).
      exists u1, u2, (S n1), n2. repeat split; auto.
Qed.
Lemma align_cons_r u y v n : align u (y :: v) n -> exists m, m <= S n /\ align u v m.
Proof.
  intros H. remember (y :: v) as t eqn:E. revert y v E.
  induction H as [|x u t n H IH|x y u t n H IH|x u t n H IH|y u t n H IH]; intros y' v E; try discriminate.
  - injection E as -> ->. exists (S n). auto.
  - injection E as -> ->. exists (S n). auto.
  - destruct (IH _ _ E) as (m & A & B). exists (S m). split; [lia|auto].
  - injection E as -> ->. exists n. split; [lia|auto].
Qed.
Lemma align_replace u x y v n : align u (x :: v) n -> exists m, m <= S n /\ align u (y :: v) m.
Proof.
  intros H. remember (x :: v) as t eqn:E. revert x v E.
  induction H as [|z u t n H IH|z z' u t n H IH|z u t n H IH|z u t n H IH]; intros x v E; try discriminate.
  - injection E as -> ->. exists (S n). auto.
  - injection E as -> ->. exists (S n). auto.
  - destruct (IH _ _ E) as (m & A & B). exists (S m). split; [lia|auto].
  - injection E as -> ->. exists (S n). split; [lia|auto].
Qed.
Lemma align_edit u v w n : align u v n -> one_edit v w -> exists m, m <= S n /\ align u w m.
Proof.
  intros H E. destruct E as [p q x|p q x|p q x y];
    apply align_split in H; destruct H as (u1 & u2 & n1 & n2 & -> & -> & A & B).
  - exists (n1 + S n2). split; [lia|]. apply align_app; auto.
  - apply align_cons_r in B. destruct B as (m & L & B). exists (n1 + m). split; [lia|]. apply align_app; auto.
  - apply align_replace with (y := y) in B. destruct B as (m & L & B). exists (n1 + m). split; [lia|]. apply align_app; auto.
Qed.
Lemma align_edits n u v : edits n u v -> forall s k, align s u k -> exists m, m <= k + n /\ align s v m.
Proof.
  induction 1 as [u|n u v w E H IH]; intros s k A.
  - exists k. split; [lia|auto].
  - destruct (align_edit _ _ _ _ A E) as (m & L & B). destruct (IH _ _ B) as (m' & L' & C). exists m'. split; [lia|auto].
Qed.
Lemma edits_align n u v : edits n u v -> exists m, m <= n /\ align u v m.
Proof. intros H. destruct (align_edits _ _ _ H u 0 (align_refl u)) as (m & L & A). exists m. auto. Qed.

Lemma edit_ctx p q u v : one_edit u v -> one_edit (p ++ u ++ q) (p ++ v ++ q).
Proof.
  intros [a b x|a b x|a b x y]; rewrite <- !app_assoc; simpl; rewrite !(app_assoc p a); constructor.
Qed.
Lemma edits_ctx p q n u v : edits n u v -> edits n (p ++ u ++ q) (p ++ v ++ q).
Proof. induction 1; econstructor; [apply edit_ctx; eauto|auto]. Qed.
Lemma edits_cons x n u v : edits n u v -> edits n (x :: u) (x :: v).
Proof. intros H. generalize (edits_ctx [x] [] _ _ _ H). simpl. rewrite !app_nil_r. auto. Qed.
Lemma align_to_edits u v n : align u v n -> edits n u v.
Proof.
  induction 1 as [|x u v n H IH|x y u v n H IH|x u v n H IH|y u v n H IH].
  - constructor.
  - apply edits_cons. auto.
  - econstructor; [apply (oe_replace [] u x y)|]. apply edits_cons. auto.
  - econstructor; [apply (oe_delete [] u x)|]. auto.
  - econstructor; [apply (oe_insert [] u y)|]. apply edits_cons. auto.
Qed.

(** * The recursion *)
Fixpoint L (u : list Z) : list Z -> nat :=
  match u with
  | [] => fun v => length v
  | x :: u' =>
    fix inner (v : list Z) : nat :=
      match v with
      | [] => S (length u')
      | y :: v' => Nat.min (Nat.min (S (inner v')) (S (L u' v))) (L u' v' + if (x =? y)%Z then 0 else 1)
      end
  end.
Lemma L_cons x u y v :
  L (x :: u) (y :: v) = Nat.min (Nat.min (S (L (x :: u) v)) (S (L u (y :: v)))) (L u v + if (x =? y)%Z then 0 else 1).
Proof. reflexivity. Qed.
Lemma L_nil_r u : L u [] = length u.
Proof. destruct u; reflexivity. Qed.
Lemma L_nil_l v : L [] v = length v.
Proof. reflexivity. Qed.
Lemma L_del x u v : L (x :: u) v <= S (L u v).
Proof. destruct v as [|y v]; [rewrite !L_nil_r; simpl; lia|]. rewrite L_cons. lia. Qed.
Lemma L_ins u y v : L u (y :: v) <= S (L u v).
Proof. destruct u as [|x u]; [simpl; lia|]. rewrite L_cons. lia. Qed.
Lemma L_le u v n : align u v n -> L u v <= n.
Proof.
  induction 1 as [|x u v n H IH|x y u v n H IH|x u v n H IH|y u v n H IH].
  - reflexivity.
  - rewrite L_cons, Z.eqb_refl. lia.
  - rewrite L_cons. destruct (x =? y)%Z; lia.
  - pose proof (L_del x u v). lia.
  - pose proof (L_ins u y v). lia.
Qed.
Lemma align_nil_r u : align u [] (length u).
Proof. induction u; simpl; auto. Qed.
Lemma align_nil_l v : align [] v (length v).
Proof. induction v; simpl; auto. Qed.
Lemma L_align u : forall v, align u v (L u v).
Proof.
  induction u as [|x u IHu]; [apply align_nil_l|].
  induction v as [|y v IHv]; [apply (align_nil_r (x :: u))|].
  rewrite L_cons.
  destruct (Nat.min_spec (Nat.min (S (L (x :: u) v)) (S (L u (y :: v)))) (L u v + if (x =? y)%Z then 0 else 1)) as [[_ ->]|[_ ->]].
  - destruct (Nat.min_spec (S (L (x :: u) v)) (S (L u (y :: v)))) as [[_ ->]|[_ ->]]; auto.
  - destruct (Z.eqb_spec x y) as [->|_].
    + rewrite Nat.add_0_r. auto.
    + rewrite Nat.add_1_r. auto.
Qed.

(** * Distance *)
Lemma L_distance u v : is_distance u v (L u v).
Proof.
  split; [apply align_to_edits, L_align|].
  intros n H. apply edits_align in H. destruct H as (m & A & B). apply L_le in B. lia.
Qed.
Lemma distance_unique u v d d' : is_distance u v d -> is_distance u v d' -> d = d'.
Proof. intros [A B] [A' B']. specialize (B _ A'). specialize (B' _ A). lia. Qed.
Lemma distance_L u v d : is_distance u v d <-> d = L u v.
Proof.
  split; [intros H; eapply distance_unique; [exact H|apply L_distance]|intros ->; apply L_distance].
Qed.
Lemma edit_rev u v : one_edit u v -> one_edit (rev u) (rev v).
Proof.
  intros [a b x|a b x|a b x y]; rewrite !rev_app_distr; simpl; rewrite <- ?app_assoc; simpl; constructor.
Qed.
Lemma edits_rev n u v : edits n u v -> edits n (rev u) (rev v).
Proof. induction 1; econstructor; [apply edit_rev; eauto|auto]. Qed.
Lemma distance_rev u v d : is_distance u v d -> is_distance (rev u) (rev v) d.
Proof.
  intros [A B]. split; [apply edits_rev; auto|].
  intros n H. apply edits_rev in H. rewrite !rev_involutive in H. auto.
Qed.
Lemma L_rev u v : L (rev u) (rev v) = L u v.
Proof. symmetry. apply distance_L, distance_rev, L_distance. Qed.
Lemma edit_sym u v : one_edit u v -> one_edit v u.
Proof. intros []; constructor. Qed.
Lemma edits_snoc n u v w : edits n u v -> one_edit v w -> edits (S n) u w.
Proof. induction 1; intros; econstructor; eauto; constructor. Qed.
Lemma edits_sym n u v : edits n u v -> edits n v u.
Proof. induction 1; [constructor|]. eapply edits_snoc; [eauto|]. apply edit_sym. auto. Qed.
Lemma L_sym u v : L u v = L v u.
Proof.
  apply distance_L. destruct (L_distance u v) as [A B]. split; [apply edits_sym; auto|].
  intros n H. apply B, edits_sym, H.
Qed.
Lemma edit_len u v : one_edit u v -> length v <= S (length u) /\ length u <= S (length v).
Proof. intros []; rewrite !app_length; simpl; lia. Qed.
Lemma edits_len n u v : edits n u v -> length v <= length u + n /\ length u <= length v + n.
Proof. induction 1 as [|n u v w E H IH]; [lia|]. apply edit_len in E. lia. Qed.
Lemma L_zero u v : L u v = 0 <-> u = v.
Proof.
  split.
  - intros H. pose proof (L_distance u v) as [A _]. rewrite H in A. inversion A. auto.
  - intros ->. pose proof (L_le _ _ _ (align_refl v)). lia.
Qed.
(** * The two rows *)
Definition P (a b : list Z) (i j : nat) : nat := L (firstn j a) (firstn i b).
Lemma firstn_snoc (l : list Z) i y : nth_error l i = Some y -> firstn (S i) l = firstn i l ++ [y].
Proof.
  revert i. induction l as [|x l IH]; intros [|i] H; simpl in *; try discriminate.
  - injection H as ->. reflexivity.
  - rewrite <- IH; auto.
Qed.
Lemma P_0 a b j : j <= length a -> P a b 0 j = j.
Proof. intros H. unfold P. simpl. rewrite L_nil_r, firstn_length. lia. Qed.
Lemma P_i0 a b i : i <= length b -> P a b i 0 = i.
Proof. intros H. unfold P. simpl. rewrite firstn_length. lia. Qed.
Lemma P_SS a b i j x y : nth_error a j = Some x -> nth_error b i = Some y ->
  P a b (S i) (S j) = Nat.min (Nat.min (S (P a b (S i) j)) (S (P a b i (S j)))) (P a b i j + if (x =? y)%Z then 0 else 1).
Proof.
  intros A B. unfold P. rewrite <- !(L_rev (firstn _ a)).
  rewrite (firstn_snoc _ _ _ A), (firstn_snoc _ _ _ B), !rev_app_distr. cbn [rev app].
  rewrite L_cons. f_equal. apply Nat.min_comm.
Qed.

Lemma put_some l : forall i v, i < length l -> exists l', put l i v = Some l' /\ length l' = length l /\
  forall k, nth_error l' k = if k =? i then Some v else nth_error l k.
Proof.
  induction l as [|x l IH]; intros i v H; simpl in H; [lia|].
  destruct i as [|i]; simpl.
  - exists (v :: l). repeat split. intros [|k]; reflexivity.
  - destruct (IH i v ltac:(lia)) as (l' & -> & E & N). exists (x :: l'). simpl. repeat split; [lia|].
    intros [|k]; simpl; [reflexivity|]. apply N.
Qed.

Section Rows.
Variables a b : list Z.
Let m := length a.
Let n := length b.
(** after row i up to column j (exclusive) *)
Definition ok (i j : nat) (e : list nat) : Prop :=
  length e = (m + 1) * 2 /\
  (forall k, k < j -> nth_error e ((i mod 2) * (m + 1) + k) = Some (P a b i k)) /\
  (0 < i -> forall k, k <= m -> nth_error e (((i - 1) mod 2) * (m + 1) + k) = Some (P a b (i - 1) k)).

Lemma mod2 i : i mod 2 = 0 \/ i mod 2 = 1.
Proof. pose proof (Nat.mod_upper_bound i 2). lia. Qed.
Lemma mod2_S i : (S i mod 2 = 0 /\ i mod 2 = 1) \/ (S i mod 2 = 1 /\ i mod 2 = 0).
Proof.
  pose proof (Nat.div_mod i 2). pose proof (Nat.div_mod (S i) 2).
  pose proof (Nat.mod_upper_bound i 2). pose proof (Nat.mod_upper_bound (S i) 2). lia.
Qed.

Lemma lev_cell_ok i j e : i <= n -> j <= m -> ok i j e ->
  exists e', lev_cell a b m i j e = Some e' /\ ok i (S j) e'.
Proof.
  intros Hi Hj (Hl & Hc & Hp). unfold lev_cell.
  destruct (Nat.eqb_spec i 0) as [->|Hi0].
  - destruct (put_some e j j) as (e' & -> & El & En); [lia|]. exists e'. split; [reflexivity|].
    split; [lia|]. split; [|lia]. intros k Hk. simpl. rewrite En.
    destruct (Nat.eqb_spec k j) as [->|Hne]; [rewrite P_0; auto|]. apply (Hc k). lia.
  - destruct i as [|i]; [lia|]. specialize (Hp ltac:(lia)).
    replace (S i - 1) with i in * by lia.
    destruct (Nat.eqb_spec j 0) as [->|Hj0].
    + destruct (put_some e ((S i mod 2) * (m + 1)) (S i)) as (e' & -> & El & En).
      { destruct (mod2 (S i)) as [-> | ->]; lia. }
      exists e'. split; [reflexivity|]. split; [lia|]. split.
      * intros k Hk. replace k with 0 by lia. rewrite Nat.add_0_r, En, Nat.eqb_refl, P_i0; auto.
      * intros _ k Hk. replace (S i - 1) with i by lia. rewrite En.
        destruct (Nat.eqb_spec (i mod 2 * (m + 1) + k) (S i mod 2 * (m + 1))) as [E|E]; [|apply Hp; auto].
        exfalso. destruct (mod2_S i) as [[A B]|[A B]]; rewrite A, B in E; lia.
    + destruct j as [|j]; [lia|]. replace (S j - 1) with j by lia.
      replace (S i mod 2 * (m + 1) + S j - 1) with (S i mod 2 * (m + 1) + j) by lia.
      rewrite (Hc j) by lia. rewrite !Hp by lia.
      destruct (nth_error a j) as [x|] eqn:Ea; [|apply nth_error_None in Ea; unfold m in *; lia].
      destruct (nth_error b i) as [y|] eqn:Eb; [|apply nth_error_None in Eb; unfold n in *; lia].
      match goal with |- exists e', put e ?q ?v = _ /\ _ => destruct (put_some e q v) as (e' & -> & El & En) end.
      { destruct (mod2 (S i)) as [-> | ->]; lia. }
      exists e'. split; [reflexivity|]. split; [lia|]. split.
      * intros k Hk. rewrite En.
        destruct (Nat.eqb_spec (S i mod 2 * (m + 1) + k) (S i mod 2 * (m + 1) + S j)) as [E|E].
        -- replace k with (S j) by lia. rewrite (P_SS _ _ _ _ _ _ Ea Eb), !Nat.add_1_r. reflexivity.
        -- apply Hc. lia.
      * intros _ k Hk. replace (S i - 1) with i by lia. rewrite En.
        destruct (Nat.eqb_spec (i mod 2 * (m + 1) + k) (S i mod 2 * (m + 1) + S j)) as [E|E]; [|apply Hp; auto].
        exfalso. destruct (mod2_S i) as [[A B]|[A B]]; rewrite A, B in E; lia.
Qed.
Lemma lev_row_ok i e : i <= n -> ok i 0 e -> exists e', lev_row a b m i (Some e) = Some e' /\ ok i (m + 1) e'.
Proof.
  intros Hi H. unfold lev_row.
  assert (G : forall k j e, j + k = m + 1 -> ok i j e ->
    exists e', fold_left (fun e j => match e with Some e' => lev_cell a b m i j e' | None => None end) (seq j k) (Some e) = Some e' /\ ok i (m + 1) e').
  { induction k as [|k IH]; intros j e0 E O.
    - exists e0. replace j with (m + 1) in O by lia. auto.
    - cbn [seq fold_left]. destruct (lev_cell_ok i j e0 Hi ltac:(lia) O) as (e1 & -> & O1). apply (IH (S j)); [lia|auto]. }
  apply (G (m + 1) 0); auto.
Qed.
Lemma ok_next i e : ok i (m + 1) e -> ok (S i) 0 e.
Proof.
  intros (A & B & C). split; [auto|]. split; [intros; lia|].
  intros _ k Hk. replace (S i - 1) with i by lia. apply B. lia.
Qed.
Lemma lev_ok : LevenshteinDistance a b = Some (L a b).
Proof.
  unfold LevenshteinDistance. fold m. fold n.
  assert (G : forall k i e, i + k = n -> ok i 0 e ->
    exists e', fold_left (fun e i => lev_row a b m i e) (seq i (k + 1)) (Some e) = Some e' /\ ok n (m + 1) e').
  { induction k as [|k IH]; intros i e E O.
    - cbn [seq fold_left Nat.add]. replace i with n in * by lia. apply lev_row_ok; auto.
    - cbn [seq fold_left Nat.add]. destruct (lev_row_ok i e ltac:(lia) O) as (e1 & -> & O1).
      apply (IH (S i)); [lia|]. apply ok_next. auto. }
  destruct (G n 0 (repeat 0 ((m + 1) * 2))) as (e & -> & O); [lia| |].
  - split; [apply repeat_length|]. split; intros; lia.
  - destruct O as (_ & O & _). rewrite O by lia. unfold P, m, n. rewrite !firstn_all. reflexivity.
Qed.
End Rows.

Theorem lev_distance a b : exists d, LevenshteinDistance a b = Some d /\ is_distance a b d.
Proof. exists (L a b). split; [apply lev_ok|apply L_distance]. Qed.

(** * WER and CER *)
Lemma wer_loop_ok hyp refs : forall before r after0 out,
  (forall r', In r' before -> L hyp r < L hyp r') -> (forall r', In r' after0 -> L hyp r <= L hyp r') ->
  out = (L hyp r, length r) ->
  exists d len, wer_loop hyp refs false (L hyp r) out = Some (d, len) /\
    nearest hyp (before ++ r :: after0 ++ refs) d len.
Proof.
  induction refs as [|r1 refs IH]; intros before r after0 out Hb Ha ->.
  - exists (L hyp r), (length r). split; [reflexivity|]. rewrite app_nil_r.
    exists before, r, after0. split; [auto|]. split; [auto|]. split; [apply L_distance|]. split.
    + intros r' d' I D. apply distance_L in D. subst d'. auto.
    + intros r' d' I D. apply distance_L in D. subst d'. auto.
  - cbn [wer_loop]. rewrite lev_ok, orb_false_r. destruct (Nat.ltb_spec (L hyp r1) (L hyp r)) as [H|H].
    + destruct (IH (before ++ r :: after0) r1 [] (L hyp r1, length r1)) as (d & len & -> & N); auto.
      * intros r' I. apply in_app_or in I. destruct I as [I|[<-|I]]; [specialize (Hb _ I)| |specialize (Ha _ I)]; lia.
      * intros r' [].
      * exists d, len. split; [reflexivity|]. rewrite <- app_assoc in N. exact N.
    + destruct (IH before r (after0 ++ [r1]) (L hyp r, length r)) as (d & len & -> & N); auto.
      * intros r' I. apply in_app_or in I. destruct I as [I|[<-|[]]]; auto.
      * exists d, len. split; [reflexivity|]. rewrite <- app_assoc in N. exact N.
Qed.
Theorem wer_nearest hyp refs : refs <> [] -> exists d len, wer_stats hyp refs = Some (d, len) /\ nearest hyp refs d len.
Proof.
  intros H. destruct refs as [|r refs]; [congruence|]. unfold wer_stats. cbn [wer_loop]. rewrite lev_ok, orb_true_r.
  apply (wer_loop_ok hyp refs [] r [] _); auto; intros r' [].
Qed.
Lemma nearest_L hyp refs d len : nearest hyp refs d len -> forall r, In r refs -> d <= L hyp r.
Proof.
  intros (bf & r0 & af & -> & _ & D & B & A) r I. apply in_app_or in I. destruct I as [I|[<-|I]].
  - specialize (B _ _ I (L_distance _ _)). lia.
  - apply distance_L in D. lia.
  - apply (A _ _ I (L_distance _ _)).
Qed.

Lemma cer_loop_ok hyp refs : forall before r after0 out,
  (forall r', In r' before -> L hyp r < L hyp r') -> (forall r', In r' after0 -> L hyp r <= L hyp r') ->
  out = (L hyp r, length r) ->
  exists d len, cer_loop hyp refs (L hyp r) out = Some (d, len) /\
    nearest hyp (before ++ r :: after0 ++ refs) d len.
Proof.
  intros before r after0 out Hb Ha E.
  replace (cer_loop hyp refs (L hyp r) out) with (wer_loop hyp refs false (L hyp r) out).
  - apply wer_loop_ok; auto.
  - clear. generalize (L hyp r). revert out. induction refs as [|r1 refs IH]; intros out k; [reflexivity|].
    simpl. rewrite lev_ok, orb_false_r. destruct (_ <? _); auto.
Qed.
Lemma cer_some hyp refs : (exists r, In r refs /\ L hyp r < length hyp) ->
  exists d len, cer_stats hyp refs = Some (d, len) /\ nearest hyp refs d len.
Proof.
  unfold cer_stats. intros H.
  assert (G : forall before, (forall r', In r' before -> length hyp <= L hyp r') ->
    exists d len, cer_loop hyp refs (length hyp) (0, 0) = Some (d, len) /\ nearest hyp (before ++ refs) d len);
    [|apply (G []); intros r' []].
  induction refs as [|r1 refs IH]; intros before Hb; [destruct H as (r & [] & _)|].
  cbn [cer_loop]. rewrite lev_ok. destruct (Nat.ltb_spec (L hyp r1) (length hyp)) as [Q|Q].
  - apply (cer_loop_ok hyp refs before r1 [] _); auto; [intros r' I; specialize (Hb _ I); lia|intros r' []].
  - destruct H as (r & [<-|I] & Hr); [lia|]. destruct (IH (ex_intro _ r (conj I Hr)) (before ++ [r1])) as (d & len & -> & N).
    + intros r' J. apply in_app_or in J. destruct J as [J|[<-|[]]]; auto.
    + exists d, len. split; [reflexivity|]. rewrite <- app_assoc in N. exact N.
Qed.
Lemma cer_none hyp refs : (forall r, In r refs -> length hyp <= L hyp r) -> cer_stats hyp refs = Some (0, 0).
Proof.
  unfold cer_stats. induction refs as [|r refs IH]; intros H; [reflexivity|]. cbn [cer_loop]. rewrite lev_ok.
  destruct (Nat.ltb_spec (L hyp r) (length hyp)) as [Q|Q].
  - specialize (H r (or_introl eq_refl)). lia.
  - apply IH. intros; apply H; right; auto.
Qed.

(** CER statistics are right exactly when some reference is nearer than the length of
    the hypothesis; otherwise they are zeros. *)
Theorem cer_nearest hyp refs : refs <> [] ->
  (exists r d, In r refs /\ is_distance hyp r d /\ d < length hyp) ->
  exists d len, cer_stats hyp refs = Some (d, len) /\ nearest hyp refs d len.
Proof.
  intros _ (r & d & I & D & H). apply distance_L in D. subst d. apply cer_some. eauto.
Qed.
Theorem cer_lost hyp refs :
  (forall r d, In r refs -> is_distance hyp r d -> length hyp <= d) -> cer_stats hyp refs = Some (0, 0).
Proof. intros H. apply cer_none. intros r I. apply (H r _ I). apply L_distance. Qed.
