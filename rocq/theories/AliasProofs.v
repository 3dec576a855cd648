(** The alias sampler draws each outcome with its probability. *)
From Coq Require Import List Arith ZArith QArith Qround Permutation Lia Lqa.
From Verif Require Import Alias AliasSpec.
Import ListNotations.
Local Open Scope nat_scope.

Lemma store_some {A} (l : list A) : forall i x, i < length l -> exists l', store l i x = Some l'.
Proof.
  induction l as [|y l IH]; intros [|i] x H; cbn in *; try lia; [eauto|].
  destruct (IH i x) as (l' & ->); [lia|eauto].
Qed.
Lemma store_nth {A} (l : list A) : forall i x l', store l i x = Some l' ->
  i < length l /\ forall k, nth_error l' k = if k =? i then Some x else nth_error l k.
Proof.
  induction l as [|y l IH]; intros [|i] x l' H; cbn in *; try discriminate.
  - injection H as <-. split; [lia|]. intros [|k]; reflexivity.
  - destruct (store l i x) as [r|] eqn:E; [|discriminate]. injection H as <-. destruct (IH _ _ _ E) as (L & Hn).
    split; [lia|]. intros [|k]; cbn; auto.
Qed.
Lemma store_len {A} (l : list A) : forall i x l', store l i x = Some l' -> length l' = length l.
Proof.
  induction l as [|y l IH]; intros [|i] x l' H; cbn in *; try discriminate.
  - injection H as <-. reflexivity.
  - destruct (store l i x) as [r|] eqn:E; [|discriminate]. injection H as <-. cbn. f_equal. eauto.
Qed.

Definition Fn (f : list Q) (i : nat) : Q := nth i f 0%Q.
Lemma Fn_nth f i c : nth_error f i = Some c -> Fn f i = c.
Proof. intro H. unfold Fn. erewrite nth_error_nth; eauto. Qed.
Lemma Fn_store f i x f' k : store f i x = Some f' -> Fn f' k = if k =? i then x else Fn f k.
Proof.
  intro H. destruct (store_nth _ _ _ _ H) as (L & Hn). pose proof (store_len _ _ _ _ H) as HL. specialize (Hn k).
  unfold Fn. destruct (k =? i) eqn:E.
  - erewrite nth_error_nth; eauto.
  - destruct (nth_error f k) as [y|] eqn:Ek.
    + erewrite nth_error_nth by eauto. erewrite nth_error_nth; eauto.
    + rewrite !nth_overflow; [reflexivity| |]; apply nth_error_None; auto.
Qed.
Definition Ln (l : list (option nat)) (i : nat) : option nat := nth i l None.
Lemma Ln_store l i x l' k : store l i x = Some l' -> Ln l' k = if k =? i then x else Ln l k.
Proof.
  intro H. destruct (store_nth _ _ _ _ H) as (L & Hn). pose proof (store_len _ _ _ _ H) as HL. specialize (Hn k).
  unfold Ln. destruct (k =? i) eqn:E.
  - erewrite nth_error_nth; eauto.
  - destruct (nth_error l k) as [y|] eqn:Ek.
    + erewrite nth_error_nth by eauto. erewrite nth_error_nth; eauto.
    + rewrite !nth_overflow; [reflexivity| |]; apply nth_error_None; auto.
Qed.

(** Sums over indices. *)
Definition sum (h : nat -> Q) (l : list nat) : Q := total (map h l).
Lemma sum_cons h a l : sum h (a :: l) = (h a + sum h l)%Q.
Proof. reflexivity. Qed.
Lemma sum_nil h : sum h [] = 0%Q.
Proof. reflexivity. Qed.
Lemma of_S n : (inject_Z (Z.of_nat (S n)) == inject_Z (Z.of_nat n) + 1)%Q.
Proof. rewrite Nat2Z.inj_succ. unfold Z.succ. rewrite inject_Z_plus. reflexivity. Qed.
Lemma sum_ext h h' l : (forall i, In i l -> (h i == h' i)%Q) -> (sum h l == sum h' l)%Q.
Proof.
  unfold sum. induction l as [|a l IH]; intro H; cbn; [reflexivity|].
  rewrite (H a) by now left. rewrite IH by (intros; apply H; now right). reflexivity.
Qed.
Lemma sum_app h l l' : (sum h (l ++ l') == sum h l + sum h l')%Q.
Proof. induction l as [|a l IH]; cbn [app]; rewrite ?sum_cons, ?sum_nil; [lra|]. rewrite IH. lra. Qed.
Lemma sum_one h l k : NoDup l -> In k l -> forall d, (sum (fun i => if i =? k then h i + d else h i) l == sum h l + d)%Q.
Proof.
  induction l as [|a l IH]; intros ND HI d; [destruct HI|]. inversion ND as [|? ? Hn ND']; subst. rewrite !sum_cons.
  destruct HI as [-> | HI].
  - rewrite Nat.eqb_refl. rewrite (sum_ext _ h).
    + lra.
    + intros i Hi. destruct (Nat.eqb_spec i k); [subst; tauto|reflexivity].
  - rewrite IH; auto. destruct (Nat.eqb_spec a k); [subst; tauto|lra].
Qed.
Lemma sum_ge h l : (forall i, In i l -> (1 <= h i)%Q) -> (inject_Z (Z.of_nat (length l)) <= sum h l)%Q.
Proof.
  induction l as [|a l IH]; intro H; [apply Qle_refl|]. cbn [length]. rewrite sum_cons, of_S.
  specialize (IH ltac:(intros; apply H; now right)). pose proof (H a ltac:(now left)). lra.
Qed.
Lemma sum_ge_eq h l : (forall i, In i l -> (1 <= h i)%Q) -> (sum h l == inject_Z (Z.of_nat (length l)))%Q -> forall i, In i l -> (h i == 1)%Q.
Proof.
  induction l as [|a l IH]; intros H E i Hi; [destruct Hi|].
  pose proof (sum_ge h l ltac:(intros; apply H; now right)) as G. pose proof (H a ltac:(now left)) as Ga.
  cbn [length] in E. rewrite sum_cons, of_S in E.
  destruct Hi as [<- | Hi]; [lra|]. apply IH; auto; [intros; apply H; now right|]. lra.
Qed.
Lemma sum_lt h l : l <> [] -> (forall i, In i l -> (h i < 1)%Q) -> (sum h l < inject_Z (Z.of_nat (length l)))%Q.
Proof.
  induction l as [|a l IH]; intros Hn H; [congruence|]. cbn [length]. rewrite sum_cons, of_S.
  pose proof (H a ltac:(now left)). destruct l as [|b l].
  - rewrite sum_nil. change (inject_Z (Z.of_nat (length (@nil nat)))) with 0%Q. lra.
  - specialize (IH ltac:(discriminate) ltac:(intros; apply H; now right)). lra.
Qed.

(** What an outcome receives as an alias. *)
Definition given (f : list Q) (l : list (option nat)) (i j : nat) : Q :=
  match Ln l j with Some k => if k =? i then (1 - Fn f j)%Q else 0%Q | None => 0%Q end.

Record Inv (p : list Q) (w : work) : Prop := {
  i_f : length (w_f w) = length p;
  i_l : length (w_l w) = length p;
  i_nd : NoDup (w_s w ++ w_g w);
  i_live : forall j, In j (w_s w ++ w_g w) <-> j < length p /\ Ln (w_l w) j = None;
  i_done : forall j k, Ln (w_l w) j = Some k -> k < length p /\ k <> j /\ (0 <= Fn (w_f w) j < 1)%Q;
  i_s : forall j, In j (w_s w) -> (0 <= Fn (w_f w) j < 1)%Q;
  i_g : forall j, In j (w_g w) -> (1 <= Fn (w_f w) j)%Q;
  i_sum : (sum (Fn (w_f w)) (w_s w ++ w_g w) == inject_Z (Z.of_nat (length (w_s w ++ w_g w))))%Q;
  i_mass : forall i, i < length p -> (Fn (w_f w) i + sum (given (w_f w) (w_l w) i) (seq 0 (length p)) == inject_Z (Z.of_nat (length p)) * Fn p i)%Q }.

Lemma nth_len {A} (l : list A) i : i < length l -> exists x, nth_error l i = Some x.
Proof. intro H. destruct (nth_error l i) eqn:E; [eauto|]. apply nth_error_None in E. lia. Qed.

Lemma fill_ok p w j k s g : Inv p w -> w_s w = j :: s -> w_g w = k :: g ->
  exists w', fill w j k s g = Some w' /\ Inv p w' /\ S (length (w_s w' ++ w_g w')) = length (w_s w ++ w_g w).
Proof.
  intros [If Il Ind Ilv Idn Is Ig Isum Im] Es Eg. unfold fill.
  assert (Hj : In j (w_s w ++ w_g w)) by (rewrite Es; now left).
  assert (Hk : In k (w_s w ++ w_g w)) by (rewrite Eg; apply in_or_app; right; now left).
  destruct (proj1 (Ilv j) Hj) as (Lj & Nj). destruct (proj1 (Ilv k) Hk) as (Lk & Nk).
  assert (Hne : j <> k).
  { intros ->. rewrite Es, Eg in Ind. cbn in Ind. inversion Ind as [|? ? Hx _]; subst. apply Hx. apply in_or_app. right. now left. }
  destruct (nth_len (w_f w) j) as (fj & Ej); [lia|]. destruct (nth_len (w_f w) k) as (fk & Ek); [lia|]. rewrite Ej, Ek.
  cbv zeta.
  destruct (store_some (w_f w) k (fk - (1 - fj))%Q ltac:(lia)) as (f' & Hf').
  destruct (store_some (w_l w) j (Some k) ltac:(lia)) as (l' & Hl'). rewrite Hf', Hl'.
  pose proof (fun i => Fn_store _ _ _ _ i Hf') as FF. pose proof (fun i => Ln_store _ _ _ _ i Hl') as LL.
  pose proof (Fn_nth _ _ _ Ej) as Fj. pose proof (Fn_nth _ _ _ Ek) as Fk.
  pose proof (Is j ltac:(rewrite Es; now left)) as Bj. pose proof (Ig k ltac:(rewrite Eg; now left)) as Bk. rewrite Fj in Bj. rewrite Fk in Bk.
  assert (ND : NoDup (s ++ k :: g)). { rewrite Es, Eg in Ind. cbn in Ind. now inversion Ind. }
  assert (Nin : ~ In j (s ++ k :: g)). { rewrite Es, Eg in Ind. cbn in Ind. now inversion Ind. }
  assert (Live : forall i, In i (s ++ k :: g) <-> i < length p /\ Ln l' i = None).
  { intro i. rewrite LL. destruct (Nat.eqb_spec i j) as [->|Hij].
    - split; [tauto|intros (_ & X); discriminate].
    - rewrite <- (Ilv i). rewrite Es, Eg. cbn. intuition congruence. }
  assert (Done : forall i m, Ln l' i = Some m -> m < length p /\ m <> i /\ (0 <= Fn f' i < 1)%Q).
  { intros i m. rewrite LL, FF. destruct (Nat.eqb_spec i j) as [->|Hij].
    - intros [= <-]. destruct (Nat.eqb_spec j k); [congruence|]. rewrite Fj. auto.
    - intro Hi. destruct (Nat.eqb_spec i k) as [->|]; [congruence|]. auto. }
  assert (Sum : (sum (Fn f') (s ++ k :: g) == inject_Z (Z.of_nat (length (s ++ k :: g))))%Q).
  { assert (E1 : (sum (Fn f') (s ++ k :: g) == sum (Fn (w_f w)) (s ++ k :: g) + - (1 - fj))%Q).
    { rewrite <- (sum_one (Fn (w_f w)) _ k ND) by (apply in_or_app; right; now left).
      apply sum_ext. intros i _. rewrite FF. destruct (Nat.eqb_spec i k) as [->|]; [rewrite Fk; lra|reflexivity]. }
    rewrite E1. rewrite Es, Eg in Isum. cbn [app length] in Isum. rewrite sum_cons, of_S, Fj in Isum. lra. }
  assert (Mass : forall i, i < length p -> (Fn f' i + sum (given f' l' i) (seq 0 (length p)) == inject_Z (Z.of_nat (length p)) * Fn p i)%Q).
  { intros i Hi. rewrite <- (Im i Hi). rewrite FF.
    assert (G : forall x, (given f' l' i x == if x =? j then given (w_f w) (w_l w) i x + (if k =? i then 1 - fj else 0) else given (w_f w) (w_l w) i x)%Q).
    { intro x. unfold given. rewrite LL. destruct (Nat.eqb_spec x j) as [->|Hx].
      - rewrite Nj. rewrite FF. destruct (Nat.eqb_spec j k); [congruence|]. rewrite Fj. destruct (k =? i); lra.
      - destruct (Ln (w_l w) x) as [m|] eqn:Em; [|reflexivity]. rewrite FF. destruct (Nat.eqb_spec x k) as [->|]; [congruence|reflexivity]. }
    rewrite (sum_ext _ _ _ (fun x _ => G x)). rewrite (sum_one (given (w_f w) (w_l w) i)).
    - destruct (Nat.eqb_spec i k) as [->|Hik].
      + rewrite Nat.eqb_refl. rewrite Fk. lra.
      + destruct (Nat.eqb_spec k i); [congruence|]. lra.
    - apply seq_NoDup.
    - apply in_seq. lia. }
  assert (Bs : forall i, In i s -> (0 <= Fn f' i < 1)%Q).
  { intros i Hi. rewrite FF. destruct (Nat.eqb_spec i k) as [->|].
    - exfalso. apply NoDup_remove_2 in ND. apply ND. apply in_or_app. now left.
    - apply Is. rewrite Es. now right. }
  assert (Bg : forall i, In i g -> (1 <= Fn f' i)%Q).
  { intros i Hi. rewrite FF. destruct (Nat.eqb_spec i k) as [->|].
    - exfalso. apply NoDup_remove_2 in ND. apply ND. apply in_or_app. now right.
    - apply Ig. rewrite Eg. now right. }
  assert (FFk : Fn f' k = (fk - (1 - fj))%Q) by (rewrite FF, Nat.eqb_refl; reflexivity).
  pose proof (store_len _ _ _ _ Hf') as Lf'. pose proof (store_len _ _ _ _ Hl') as Ll'.
  destruct (Qle_bool 1 (fk - (1 - fj))) eqn:EB.
  - eexists. split; [reflexivity|]. split.
    + constructor; cbn [w_f w_l w_s w_g]; try (rewrite ?Lf', ?Ll'; assumption); auto.
      intros i [<- | Hi]; auto. rewrite FFk. now apply Qle_bool_iff.
    + rewrite Es, Eg. reflexivity.
  - eexists. split; [reflexivity|].
    assert (P : forall i, In i ((k :: s) ++ g) <-> In i (s ++ k :: g)). { intro i. cbn. rewrite !in_app_iff. cbn. tauto. }
    split.
    + constructor; cbn [w_f w_l w_s w_g]; try (rewrite ?Lf', ?Ll'; assumption); auto.
      * apply NoDup_remove in ND. destruct ND. cbn. constructor; auto.
      * intro i. rewrite P. apply Live.
      * intros i [<- | Hi]; auto. rewrite FFk. split; [lra|].
        apply Qnot_le_lt. intro X. apply Qle_bool_iff in X. congruence.
      * cbn [app]. assert (E2 : (sum (Fn f') (k :: s ++ g) == sum (Fn f') (s ++ k :: g))%Q).
        { rewrite sum_cons, !sum_app, sum_cons. lra. }
        rewrite E2, Sum. rewrite app_length. cbn [length]. rewrite app_length. rewrite Nat.add_succ_r. reflexivity.
    + cbn [w_s w_g]. rewrite Es, Eg. cbn. rewrite !app_length. cbn. lia.
Qed.

Lemma fill_all_ok p : forall fuel w, Inv p w -> length (w_s w ++ w_g w) <= fuel ->
  exists w', fill_all fuel w = Some w' /\ Inv p w' /\ (w_s w' = [] \/ w_g w' = []).
Proof.
  induction fuel as [|fuel IH]; intros w I L; cbn.
  - destruct (w_s w) as [|j s] eqn:Es; [eexists; eauto|]. destruct (w_g w) as [|k g] eqn:Eg; [eexists; eauto|]. cbn in L. lia.
  - destruct (w_s w) as [|j s] eqn:Es; [eexists; eauto|]. destruct (w_g w) as [|k g] eqn:Eg; [eexists; eauto|].
    destruct (fill_ok _ _ _ _ _ _ I Es Eg) as (w' & -> & I' & L'). rewrite Es, Eg in L'. apply IH; auto. lia.
Qed.

Lemma divide_spec f : forall i s g s' g', divide i f s g = (s', g') ->
  exists a b, s' = a ++ s /\ g' = b ++ g /\ length a + length b = length f /\ NoDup (a ++ b) /\
    (forall j, In j (a ++ b) <-> i <= j < i + length f) /\
    (forall j, In j a -> (nth (j - i) f 0 < 1)%Q) /\ (forall j, In j b -> (1 <= nth (j - i) f 0)%Q).
Proof.
  induction f as [|c f IH]; intros i s g s' g' H; cbn in H.
  - injection H as <- <-. exists [], []. cbn. repeat split; auto; try constructor; intros; try lia; contradiction.
  - destruct (Qle_bool 1 c) eqn:E; destruct (IH _ _ _ _ _ H) as (a & b & -> & -> & L & ND & HI & Ha & Hb).
    + exists a, (b ++ [i]). rewrite <- app_assoc. repeat split; auto.
      * rewrite app_length. cbn. lia.
      * rewrite app_assoc. apply NoDup_rev in ND. rewrite <- (rev_involutive ((a ++ b) ++ [i])). apply NoDup_rev. rewrite rev_app_distr. cbn.
        constructor; auto. rewrite <- in_rev. rewrite HI. lia.
      * rewrite app_assoc, in_app_iff, HI in H0. cbn. destruct H0 as [X|[X|[]]]; lia.
      * rewrite app_assoc, in_app_iff, HI in H0. cbn. destruct H0 as [X|[X|[]]]; lia.
      * intro X. rewrite app_assoc, in_app_iff, HI. cbn in *. destruct (Nat.eq_dec i j); [right; left; auto|left; lia].
      * intros j Hj. assert (S i <= j) by (apply HI, in_or_app; now left). specialize (Ha j Hj). destruct (j - i) eqn:Ej; [lia|].
        cbn. replace n with (j - S i) by lia. auto.
      * intros j Hj. apply in_app_or in Hj. destruct Hj as [Hj|[<- |[]]].
        -- assert (S i <= j) by (apply HI, in_or_app; now right). specialize (Hb j Hj). destruct (j - i) eqn:Ej; [lia|].
           cbn. replace n with (j - S i) by lia. auto.
        -- rewrite Nat.sub_diag. cbn. now apply Qle_bool_iff.
    + exists (a ++ [i]), b. rewrite <- app_assoc.
      assert (P : forall j, In j ((a ++ [i]) ++ b) <-> In j (a ++ b) \/ i = j). { intro j. rewrite !in_app_iff. cbn. tauto. }
      repeat split; auto.
      * rewrite app_length. cbn. lia.
      * rewrite <- app_assoc. cbn. assert (Hni : ~ In i (a ++ b)) by (rewrite HI; lia). apply (NoDup_Add (Add_app i a b)). auto.
      * apply P in H0. rewrite HI in H0. cbn. lia.
      * apply P in H0. rewrite HI in H0. cbn. lia.
      * intro X. apply P. rewrite HI. cbn in X. lia.
      * intros j Hj. apply in_app_or in Hj. destruct Hj as [Hj|[<- |[]]].
        -- assert (S i <= j) by (apply HI, in_or_app; now left). specialize (Ha j Hj). destruct (j - i) eqn:Ej; [lia|].
           cbn. replace n with (j - S i) by lia. auto.
        -- rewrite Nat.sub_diag. cbn. apply Qnot_le_lt. intro X. apply Qle_bool_iff in X. congruence.
      * intros j Hj. assert (S i <= j) by (apply HI, in_or_app; now right). specialize (Hb j Hj). destruct (j - i) eqn:Ej; [lia|].
        cbn. replace n with (j - S i) by lia. auto.
Qed.

Lemma scaled_nth p : forall i, i < length p -> (Fn (scaled p) i == inject_Z (Z.of_nat (length p)) * Fn p i)%Q.
Proof.
  intros i H. unfold scaled, Fn. destruct (nth_len p i H) as (x & E).
  rewrite (nth_error_nth (map _ p) i 0%Q (x := (inject_Z (Z.of_nat (length p)) * x)%Q)).
  - rewrite (nth_error_nth p i 0%Q E). reflexivity.
  - erewrite map_nth_error; eauto.
Qed.
Lemma total_sum p : total p = sum (Fn p) (seq 0 (length p)).
Proof.
  unfold sum. f_equal. apply nth_ext with (d := 0%Q) (d' := 0%Q); [now rewrite map_length, seq_length|].
  intros n H. rewrite (nth_indep (map _ _) _ (Fn p 0)) by (now rewrite map_length, seq_length). rewrite map_nth. now rewrite seq_nth.
Qed.
Lemma sum_scale c h l : (sum (fun i => c * h i) l == c * sum h l)%Q.
Proof. induction l as [|a l IH]; rewrite ?sum_cons, ?sum_nil; [lra|]. rewrite IH. lra. Qed.
Lemma sum_zero h l : (forall i, In i l -> (h i == 0)%Q) -> (sum h l == 0)%Q.
Proof. intro H. induction l as [|a l IH]; rewrite ?sum_cons, ?sum_nil; [lra|]. rewrite (H a) by now left. rewrite IH; [lra|]. intros; apply H; now right. Qed.
Lemma sum_perm h l l' : Permutation l l' -> (sum h l == sum h l')%Q.
Proof. induction 1; rewrite ?sum_cons; try lra. Qed.

(** The tables built. *)
Record Built (p : list Q) (a : sampler) : Prop := {
  b_f : length (cutoffs a) = length p;
  b_l : length (aliases a) = length p;
  b_none : forall j, j < length p -> Ln (aliases a) j = None -> (Fn (cutoffs a) j == 1)%Q;
  b_some : forall j k, Ln (aliases a) j = Some k -> k < length p /\ (0 <= Fn (cutoffs a) j < 1)%Q;
  b_mass : forall i, i < length p -> (Fn (cutoffs a) i + sum (given (cutoffs a) (aliases a) i) (seq 0 (length p)) == inject_Z (Z.of_nat (length p)) * Fn p i)%Q }.

Theorem init_ok p : distribution p -> exists a, init p = Some a /\ Built p a.
Proof.
  intros (Pos & Tot). unfold init. destruct (divide 0 (scaled p) [] []) as (s, g) eqn:Ed.
  destruct (divide_spec _ _ _ _ _ _ Ed) as (a & b & -> & -> & L & ND & HI & Ha & Hb). rewrite !app_nil_r in *.
  assert (Ls : length (scaled p) = length p) by (unfold scaled; apply map_length). rewrite Ls in *.
  set (w0 := {| w_f := scaled p; w_l := map (fun _ => None) p; w_s := a; w_g := b |}).
  assert (LN : forall j, Ln (w_l w0) j = None).
  { intro j. unfold Ln. cbn. destruct (nth_error (map (fun _ : Q => @None nat) p) j) as [x|] eqn:E.
    - erewrite nth_error_nth by eauto. apply nth_error_In, in_map_iff in E. destruct E as (? & <- & _). reflexivity.
    - apply nth_overflow. now apply nth_error_None. }
  assert (I : Inv p w0).
  { constructor; cbn [w0 w_f w_l w_s w_g].
    - auto.
    - apply map_length.
    - auto.
    - intro j. rewrite HI. fold (w_l w0). rewrite LN. split; [intro; split; [lia|reflexivity]|intros (? & _); lia].
    - intros j k. fold (w_l w0). rewrite LN. discriminate.
    - intros j Hj. pose proof (Ha j Hj) as X. rewrite Nat.sub_0_r in X. fold (Fn (scaled p) j) in X. split; auto.
      assert (Lj : j < length p) by (apply (proj1 (HI j)), in_or_app; now left). rewrite scaled_nth by auto.
      apply Qmult_le_0_compat; [change 0%Q with (inject_Z 0); rewrite <- Zle_Qle; lia|].
      destruct (nth_len p j Lj) as (x & E). rewrite (Fn_nth _ _ _ E). rewrite Forall_forall in Pos. apply Pos. eapply nth_error_In; eauto.
    - intros j Hj. pose proof (Hb j Hj) as X. rewrite Nat.sub_0_r in X. exact X.
    - assert (PM : Permutation (a ++ b) (seq 0 (length p))).
      { apply NoDup_Permutation; auto; [apply seq_NoDup|]. intro j. rewrite HI, in_seq. lia. }
      rewrite (sum_perm _ _ _ PM). rewrite (sum_ext _ (fun i => inject_Z (Z.of_nat (length p)) * Fn p i)%Q).
      + rewrite sum_scale. rewrite <- total_sum, Tot, app_length, L. apply Qmult_1_r.
      + intros i Hi. apply in_seq in Hi. apply scaled_nth. lia.
    - intros i Hi. rewrite sum_zero; [rewrite scaled_nth by auto; apply Qplus_0_r|]. intros j _. unfold given. fold (w_l w0). rewrite LN. reflexivity. }
  destruct (fill_all_ok p (length p) w0 I) as (w & -> & J & End).
  { cbn. rewrite app_length. lia. }
  eexists. split; [reflexivity|]. destruct J as [If Il Ind Ilv Idn Is Ig Isum Im]. constructor; cbn [cutoffs aliases]; auto.
  - intros j Lj Nj. assert (Hj : In j (w_s w ++ w_g w)) by (apply Ilv; auto).
    destruct End as [E|E].
    + rewrite E in *. cbn [app] in *. eapply sum_ge_eq; eauto.
    + rewrite E, app_nil_r in *. exfalso. assert (Hn : w_s w <> []) by (intro X; rewrite X in Hj; destruct Hj).
      pose proof (sum_lt (Fn (w_f w)) (w_s w) Hn (fun i Hi => proj2 (Is i Hi))). lra.
  - intros j k E. destruct (Idn _ _ E) as (? & ? & ?). auto.
Qed.

(** The cell of the first random number. *)
Definition cell (N : nat) (u : Q) : nat := Z.to_nat (Qfloor (u * inject_Z (Z.of_nat N))).
Definition left (N n : nat) : Q := (inject_Z (Z.of_nat n) / inject_Z (Z.of_nat N))%Q.
Lemma inj_pos N : 0 < N -> (0 < inject_Z (Z.of_nat N))%Q.
Proof. intro H. change 0%Q with (inject_Z 0). rewrite <- Zlt_Qlt. lia. Qed.
Lemma left_le N n u : 0 < N -> ((left N n <= u)%Q <-> (inject_Z (Z.of_nat n) <= u * inject_Z (Z.of_nat N))%Q).
Proof.
  intro H. pose proof (inj_pos N H) as P. unfold left. split; intro X.
  - apply (Qmult_le_r _ _ _ P) in X. unfold Qdiv in X. rewrite <- Qmult_assoc, (Qmult_comm (/ _)), Qmult_inv_r, Qmult_1_r in X; [exact X|lra].
  - apply Qle_shift_div_r; auto.
Qed.
Lemma cell_iff N u n : 0 < N -> (0 <= u)%Q -> (u < 1)%Q -> (cell N u = n <-> (left N n <= u)%Q /\ (u < left N (S n))%Q).
Proof.
  intros H Hu Hu1. pose proof (inj_pos N H) as P.
  assert (E : (u < left N (S n))%Q <-> (u * inject_Z (Z.of_nat N) < inject_Z (Z.of_nat (S n)))%Q).
  { split; intro X.
    - apply Qnot_le_lt. intro Y. apply (left_le N (S n) u H) in Y. lra.
    - apply Qnot_le_lt. intro Y. apply (left_le N (S n) u H) in Y. lra. }
  rewrite (left_le N n u H), E. unfold cell. set (x := (u * inject_Z (Z.of_nat N))%Q).
  assert (X0 : (0 <= x)%Q) by (unfold x; apply Qmult_le_0_compat; lra).
  pose proof (Qfloor_le x) as F1. pose proof (Qlt_floor x) as F2.
  assert (F0 : (0 <= Qfloor x)%Z) by (change 0%Z with (Qfloor 0); now apply Qfloor_resp_le).
  split.
  - intros <-. rewrite of_S. rewrite Z2Nat.id by auto. split; auto. rewrite inject_Z_plus in F2. exact F2.
  - intros (A & B). rewrite Nat2Z.inj_succ in B.
    assert (A' : (Z.of_nat n < Qfloor x + 1)%Z). { rewrite Zlt_Qlt. lra. }
    assert (B' : (Qfloor x < Z.succ (Z.of_nat n))%Z). { rewrite Zlt_Qlt. lra. }
    lia.
Qed.
Lemma left_full N : 0 < N -> (left N N == 1)%Q.
Proof. intro H. pose proof (inj_pos N H). unfold left. apply Qmult_inv_r. lra. Qed.
Lemma left_mono N n m : 0 < N -> n <= m -> (left N n <= left N m)%Q.
Proof.
  intros H L. rewrite left_le by auto. unfold left. pose proof (inj_pos N H).
  unfold Qdiv. rewrite <- Qmult_assoc, (Qmult_comm (/ _)), Qmult_inv_r, Qmult_1_r by lra. rewrite <- Zle_Qle. lia.
Qed.
Lemma left_zero N : (left N 0 == 0)%Q.
Proof. reflexivity. Qed.
Lemma left_width N n : 0 < N -> (left N (S n) - left N n == / inject_Z (Z.of_nat N))%Q.
Proof. intro H. pose proof (inj_pos N H). unfold left. rewrite of_S. field. lra. Qed.
Lemma cell_lt N u : 0 < N -> (0 <= u)%Q -> (u < 1)%Q -> cell N u < N.
Proof.
  intros H A B. destruct (proj1 (cell_iff N u (cell N u) H A B) eq_refl) as (X & _).
  destruct (Nat.lt_ge_cases (cell N u) N) as [|G]; auto. exfalso.
  pose proof (left_mono N N (cell N u) H G). rewrite left_full in H0 by auto. lra.
Qed.

Section Draw.
Variables (p : list Q) (a : sampler).
Hypothesis B : Built p a.
Hypothesis PN : 0 < length p.
Let N := length p.
Let F := Fn (cutoffs a).
Let L := Ln (aliases a).

Lemma draw_eq u v : (0 <= u)%Q -> (u < 1)%Q -> draw a u v =
  let n := cell N u in if Qle_bool v (F n) then Outcome n else match L n with Some k => Outcome k | None => Invalid end.
Proof.
  intros Hu Hu1. pose proof (cell_lt N u PN Hu Hu1) as C. unfold draw. rewrite (b_f _ _ B). fold N (cell N u). cbv zeta.
  destruct (nth_len (cutoffs a) (cell N u)) as (c & E1); [rewrite (b_f _ _ B); exact C|].
  destruct (nth_len (aliases a) (cell N u)) as (l & E2); [rewrite (b_l _ _ B); exact C|].
  fold (cell N u). rewrite E1, E2. unfold F, L, Ln. rewrite (Fn_nth _ _ _ E1), (nth_error_nth _ _ None E2). reflexivity.
Qed.

Lemma F_range n : n < N -> (0 <= F n <= 1)%Q.
Proof.
  intro H. destruct (L n) as [k|] eqn:E.
  - destruct (b_some _ _ B n k E). fold (F n) in *. lra.
  - pose proof (b_none _ _ B n H E). fold (F n) in *. lra.
Qed.

Lemma draw_valid u v : (0 <= u)%Q -> (u < 1)%Q -> (v <= 1)%Q -> exists i, i < N /\ draw a u v = Outcome i.
Proof.
  intros Hu Hu1 Hv. rewrite draw_eq by auto. cbv zeta. pose proof (cell_lt N u PN Hu Hu1) as C. set (n := cell N u) in *.
  destruct (Qle_bool v (F n)) eqn:E; [eauto|]. destruct (L n) as [k|] eqn:EL.
  - exists k. split; auto. apply (b_some _ _ B n k EL).
  - exfalso. pose proof (b_none _ _ B n C EL) as X. fold (F n) in X. assert (Y : (v <= F n)%Q) by lra. apply Qle_bool_iff in Y. congruence.
Qed.

(** The rectangles of outcome [i] in cell [n]. *)
Definition own (i n : nat) : list box := if n =? i then [{| x0 := left N n; x1 := left N (S n); y0 := 0; y1 := F n |}] else [].
Definition lent (i n : nat) : list box :=
  match L n with Some k => if k =? i then [{| x0 := left N n; x1 := left N (S n); y0 := F n; y1 := 1 |}] else [] | None => [] end.
Definition boxes (i : nat) : list box := flat_map (fun n => own i n ++ lent i n) (seq 0 N).

Lemma in_boxes i n b : In b (own i n ++ lent i n) -> x0 b = left N n /\ x1 b = left N (S n).
Proof.
  intro H. apply in_app_or in H. destruct H as [H|H].
  - unfold own in H. destruct (n =? i); [destruct H as [<- |[]]|destruct H]. auto.
  - unfold lent in H. destruct (L n) as [k|]; [|destruct H]. destruct (k =? i); [destruct H as [<- |[]]|destruct H]. auto.
Qed.
Lemma ord_app {A} (R : A -> A -> Prop) l l' : ForallOrdPairs R l -> ForallOrdPairs R l' -> (forall x y, In x l -> In y l' -> R x y) -> ForallOrdPairs R (l ++ l').
Proof.
  induction 1 as [|x l Hx Hl IH]; intros H' Hc; cbn; auto. constructor.
  - apply Forall_app. split; auto. apply Forall_forall. intros; apply Hc; auto. now left.
  - apply IH; auto. intros; apply Hc; auto. now right.
Qed.
Lemma boxes_from i : forall m s, ForallOrdPairs disjoint (flat_map (fun n => own i n ++ lent i n) (seq s m)).
Proof.
  induction m as [|m IH]; intro s; cbn; [constructor|]. apply ord_app; auto.
  - apply ord_app.
    + unfold own. destruct (s =? i); repeat constructor.
    + unfold lent. destruct (L s) as [k|]; [|constructor]. destruct (k =? i); repeat constructor.
    + intros x y Hx Hy u v (_ & _ & X1 & X2) (_ & _ & Y1 & Y2).
      unfold own in Hx. destruct (s =? i); [destruct Hx as [<- |[]]|destruct Hx].
      unfold lent in Hy. destruct (L s) as [k|]; [|destruct Hy]. destruct (k =? i); [destruct Hy as [<- |[]]|destruct Hy]. cbn in *. lra.
  - intros x y Hx Hy u v (X1 & X2 & _) (Y1 & Y2 & _). apply in_flat_map in Hy. destruct Hy as (n & Hn & Hy). apply in_seq in Hn.
    apply in_boxes in Hx. apply in_boxes in Hy. destruct Hx as (_ & Hx). destruct Hy as (Hy & _).
    rewrite Hx in X2. rewrite Hy in Y1. pose proof (left_mono N (S s) n PN ltac:(lia)). lra.
Qed.

Lemma boxes_square i : Forall in_square (boxes i).
Proof.
  apply Forall_forall. intros b Hb. unfold boxes in Hb. apply in_flat_map in Hb. destruct Hb as (n & Hn & Hb). apply in_seq in Hn.
  assert (Ln' : n < N) by lia. pose proof (F_range n Ln'). pose proof (left_mono N 0 n PN ltac:(lia)) as M1. rewrite left_zero in M1.
  pose proof (left_mono N n (S n) PN ltac:(lia)). pose proof (left_mono N (S n) N PN ltac:(lia)) as M2. rewrite left_full in M2 by exact PN.
  unfold in_square. apply in_app_or in Hb. destruct Hb as [Hb|Hb].
  - unfold own in Hb. destruct (n =? i); [destruct Hb as [<- |[]]|destruct Hb]. cbn. intuition lra.
  - unfold lent in Hb. destruct (L n) as [k|]; [|destruct Hb]. destruct (k =? i); [destruct Hb as [<- |[]]|destruct Hb]. cbn. intuition lra.
Qed.

Lemma total_app l l' : (total (l ++ l') == total l + total l')%Q.
Proof. unfold total. induction l as [|x l IH]; cbn [app fold_right]; [lra|]. rewrite IH. lra. Qed.
Lemma area_flat (h : nat -> list box) l : (total (map area (flat_map h l)) == sum (fun n => total (map area (h n))) l)%Q.
Proof. induction l as [|n l IH]; cbn [flat_map]; [reflexivity|]. rewrite map_app, total_app, IH, sum_cons. reflexivity. Qed.

Lemma boxes_area i : i < N -> (total (map area (boxes i)) == Fn p i)%Q.
Proof.
  intro Hi. unfold boxes. rewrite area_flat. pose proof (inj_pos N PN) as P.
  set (iN := (/ inject_Z (Z.of_nat N))%Q).
  rewrite (sum_ext _ (fun n => iN * (if n =? i then given (cutoffs a) (aliases a) i n + F i else given (cutoffs a) (aliases a) i n))%Q).
  - rewrite sum_scale, (sum_one (given (cutoffs a) (aliases a) i)); [|apply seq_NoDup|apply in_seq; lia].
    pose proof (b_mass _ _ B i Hi) as M. fold N in M. fold (F i) in M. fold N.
    assert (M' : (sum (given (cutoffs a) (aliases a) i) (seq 0 N) + F i == inject_Z (Z.of_nat N) * Fn p i)%Q) by lra.
    rewrite M'. unfold iN. field. lra.
  - intros n Hn. apply in_seq in Hn. rewrite map_app, total_app.
    assert (E1 : (total (map area (own i n)) == iN * (if n =? i then F i else 0))%Q).
    { unfold own. destruct (Nat.eqb_spec n i) as [->|]; [|cbn; lra]. unfold area, total. cbn [map fold_right x0 x1 y0 y1].
      rewrite (left_width N i PN). fold iN. lra. }
    assert (E2 : (total (map area (lent i n)) == iN * given (cutoffs a) (aliases a) i n)%Q).
    { unfold lent, given. fold (L n). fold (F n). destruct (L n) as [k|]; [|cbn; lra]. destruct (k =? i); [|cbn; lra].
      unfold area, total. cbn [map fold_right x0 x1 y0 y1]. rewrite (left_width N n PN). fold iN. lra. }
    rewrite E1, E2. destruct (n =? i); lra.
Qed.

Lemma boxes_draw i u v : (0 <= u)%Q -> (u < 1)%Q -> (0 < v)%Q -> (v <= 1)%Q -> (draw a u v = Outcome i <-> Exists (inside u v) (boxes i)).
Proof.
  intros Hu Hu1 Hv Hv1. rewrite draw_eq by auto. cbv zeta. pose proof (cell_lt N u PN Hu Hu1) as C.
  assert (X : forall n, cell N u = n <-> (left N n <= u)%Q /\ (u < left N (S n))%Q) by (intro; apply cell_iff; auto).
  rewrite Exists_exists. split.
  - intro H. destruct (proj1 (X (cell N u)) eq_refl) as (A1 & A2). set (n := cell N u) in *.
    assert (S : forall b, In b (own i n ++ lent i n) -> In b (boxes i)). { intros b Hb. apply in_flat_map. exists n. split; auto. apply in_seq. lia. }
    destruct (Qle_bool v (F n)) eqn:E.
    + injection H as H. exists {| x0 := left N n; x1 := left N (Datatypes.S n); y0 := 0; y1 := F n |}. split.
      * apply S, in_or_app. left. unfold own. rewrite (proj2 (Nat.eqb_eq n i) H). now left.
      * apply Qle_bool_iff in E. unfold inside. cbn. auto.
    + destruct (L n) as [k|] eqn:EL; [|discriminate]. injection H as H. exists {| x0 := left N n; x1 := left N (Datatypes.S n); y0 := F n; y1 := 1 |}. split.
      * apply S, in_or_app. right. unfold lent. rewrite EL, (proj2 (Nat.eqb_eq k i) H). now left.
      * unfold inside. cbn. repeat split; auto. apply Qnot_le_lt. intro Y. apply Qle_bool_iff in Y. congruence.
  - intros (b & Hb & I1 & I2 & I3 & I4). apply in_flat_map in Hb. destruct Hb as (n & Hn & Hb). pose proof (in_boxes _ _ _ Hb) as (Bx & By).
    rewrite Bx in I1. rewrite By in I2. rewrite (proj2 (X n) (conj I1 I2)). apply in_app_or in Hb. destruct Hb as [Hb|Hb].
    + unfold own in Hb. destruct (Nat.eqb_spec n i) as [->|]; [destruct Hb as [<- |[]]|destruct Hb]. cbn in *.
      apply Qle_bool_iff in I4. rewrite I4. reflexivity.
    + unfold lent in Hb. destruct (L n) as [k|] eqn:EL; [|destruct Hb]. destruct (Nat.eqb_spec k i) as [->|]; [destruct Hb as [<- |[]]|destruct Hb]. cbn in *.
      destruct (Qle_bool v (F n)) eqn:E; [|reflexivity]. apply Qle_bool_iff in E. lra.
Qed.
End Draw.

Theorem alias_ok p : distribution p -> exists a, init p = Some a /\
  (forall u v, (0 <= u)%Q -> (u < 1)%Q -> (v <= 1)%Q -> exists i, i < length p /\ draw a u v = Outcome i) /\
  forall i x, nth_error p i = Some x -> has_probability (fun u v => draw a u v = Outcome i) x.
Proof.
  intro D. destruct (init_ok p D) as (a & E & Bt). exists a. split; auto.
  assert (PN : 0 < length p). { destruct p; [|cbn; lia]. destruct D as (_ & D). cbn in D. discriminate. }
  split.
  - intros. eapply draw_valid; eauto.
  - intros i x Hi. assert (Li : i < length p) by (apply nth_error_Some; congruence). exists (boxes p a i). repeat split.
    + eapply boxes_square; eauto.
    + eapply boxes_from; eauto.
    + rewrite (boxes_area p a Bt PN i Li). now rewrite (Fn_nth _ _ _ Hi).
    + apply (boxes_draw p a Bt PN i u v); auto.
    + apply (boxes_draw p a Bt PN i u v); auto.
Qed.
