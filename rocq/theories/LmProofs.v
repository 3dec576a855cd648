(** N-gram scoring: matching, back-off, states. *)
From Coq Require Import List ZArith Bool Lia.
Import ListNotations.
From Verif Require Import Opt Lm LmSpec.
Open Scope Z_scope.

Lemma zsum_app a b : zsum (a ++ b) = zsum a + zsum b.
Proof. unfold zsum. induction a; cbn [app fold_right] in *; lia. Qed.

Ltac sp := repeat match goal with |- _ /\ _ => split end.

Section P.
Variable m : search.
Hypothesis WB : well_built m.
Notation entry := (entry m).
Notation bow := (bow m).
Notation logprob := (logprob m).
Notation seq_score := (seq_score m).
Notation N := (order m).

Lemma order_ge : (2 <= N)%nat. Proof. apply wb_order in WB. lia. Qed.
Lemma order_max : (N <= max_order m)%nat. Proof. apply wb_order in WB. lia. Qed.

Lemma entry_uni w : entry [w] = Some (unigram m w). Proof. reflexivity. Qed.

Lemma entry_len g w : entry g = Some w -> (1 <= length g <= N)%nat.
Proof.
  pose proof order_ge. unfold LmSpec.entry. destruct g as [|a [|b g]]; cbn [length]; try discriminate; [lia|].
  destruct (Nat.ltb_spec (S (S (length g))) N); [lia|]. destruct (Nat.eqb_spec (S (S (length g))) N); [lia|discriminate].
Qed.

Lemma entry_too_long g : (N < length g)%nat -> entry g = None.
Proof. intros H. destruct (entry g) eqn:Eg; [|reflexivity]. apply entry_len in Eg. lia. Qed.

Lemma entry_mid g : (2 <= length g < N)%nat -> entry g = middle m (length g - 2) g.
Proof.
  unfold LmSpec.entry. destruct g as [|a [|b g]]; cbn [length]; [lia|lia|]. intros H.
  destruct (Nat.ltb_spec (S (S (length g))) N); [reflexivity|lia].
Qed.

Lemma entry_long g : length g = N -> entry g = option_map (fun p => Wt p false 0 false p) (longest m g).
Proof.
  pose proof order_ge. unfold LmSpec.entry. destruct g as [|a [|b g]]; cbn [length]; [lia|lia|]. intros E.
  destruct (Nat.ltb_spec (S (S (length g))) N); [lia|]. destruct (Nat.eqb_spec (S (S (length g))) N); [reflexivity|lia].
Qed.

Lemma has_ext_len g w : entry g = Some w -> has_ext w = true -> (length g < N)%nat.
Proof.
  intros E H. pose proof (entry_len _ _ E). destruct (Nat.eq_dec (length g) N) as [e|]; [|lia].
  rewrite entry_long in E by exact e. destruct (longest m g); [|discriminate]. injection E as <-. discriminate.
Qed.

Lemma entry_prefix a b w : a <> [] -> entry (a ++ b) = Some w -> exists v, entry a = Some v /\ (b <> [] -> ext_left v = true).
Proof.
  intros Ha. revert w. induction b as [|x b IH] using rev_ind; intros w E.
  - rewrite app_nil_r in E. exists w. split; [exact E|intros F; destruct (F eq_refl)].
  - rewrite app_assoc in E. apply (wb_left _ WB) in E; [|destruct a; discriminate + (intros ?; destruct (Ha eq_refl))].
    destruct E as (v & Ev & Xv). destruct (IH _ Ev) as (v2 & E2 & X2). exists v2. split; [exact E2|]. intros _.
    destruct b as [|y b]; [|apply X2; discriminate]. rewrite app_nil_r in Ev. congruence.
Qed.

Lemma entry_none_app a b : a <> [] -> entry a = None -> entry (a ++ b) = None.
Proof. intros Ha E. destruct (entry (a ++ b)) eqn:F; [|reflexivity]. apply entry_prefix in F; [|exact Ha]. destruct F as (v & F & _). congruence. Qed.

Lemma entry_context a b w : a <> [] -> b <> [] -> entry (a ++ b) = Some w -> exists v, entry b = Some v /\ has_ext v = true.
Proof.
  intros Ha Hb. revert w. induction a as [|x a IH]; [destruct (Ha eq_refl)|]. intros w E.
  destruct a as [|y a].
  - cbn in E. apply (wb_right _ WB) in E; assumption.
  - change ((x :: y :: a) ++ b) with (x :: ((y :: a) ++ b)) in E. apply (wb_right _ WB) in E; [|discriminate].
    destruct E as (v & E & _). eapply IH; [discriminate|exact E].
Qed.

Definition nx (g : ngram) : Prop := forall w, entry g = Some w -> has_ext w = false.

Lemma nx_bow g : nx g -> bow g = 0.
Proof. intros H. unfold LmSpec.bow. destruct (entry g) eqn:E; [|reflexivity]. apply (wb_zero _ WB) with g; auto. Qed.

Lemma nx_right g y : g <> [] -> nx g -> entry (y :: g) = None.
Proof.
  intros Hg H. destruct (entry (y :: g)) eqn:E; [|reflexivity]. apply (wb_right _ WB) in E; [|exact Hg].
  destruct E as (v & E & X). rewrite (H _ E) in X. discriminate.
Qed.

Lemma bow_long g : (N <= length g)%nat -> bow g = 0.
Proof.
  intros H. apply nx_bow. intros w E. destruct (has_ext w) eqn:X; [|reflexivity]. pose proof (has_ext_len _ _ E X). lia.
Qed.

(** back-offs of [g] extended by the prefixes of [h] *)
Fixpoint BL (g : ngram) (h : list word) : list Z :=
  match h with [] => [] | x :: h' => bow (g ++ [x]) :: BL (g ++ [x]) h' end.
Definition E (g : ngram) (h : list word) : Z := zsum (BL g h).

Lemma BL_app g a b : BL g (a ++ b) = BL g a ++ BL (g ++ a) b.
Proof.
  revert g. induction a as [|x a IH]; intros g; cbn [app BL]; [rewrite app_nil_r; reflexivity|].
  rewrite IH, <- app_assoc. reflexivity.
Qed.
Lemma E_app g a b : E g (a ++ b) = E g a + E (g ++ a) b.
Proof. unfold E. rewrite BL_app. apply zsum_app. Qed.
Lemma E_nil g : E g [] = 0. Proof. reflexivity. Qed.
Lemma BL_length g h : length (BL g h) = length h.
Proof. revert g. induction h; intros; cbn [BL length]; auto. Qed.
Lemma BL_firstn g h k : firstn k (BL g h) = BL g (firstn k h).
Proof. revert g k. induction h as [|x h IH]; intros g [|k]; cbn [BL firstn]; try reflexivity. f_equal. apply IH. Qed.

Lemma E_zero g h : (forall l1 l2, h = l1 ++ l2 -> l1 <> [] -> bow (g ++ l1) = 0) -> E g h = 0.
Proof.
  revert g. induction h as [|x h IH]; intros g H; [reflexivity|]. unfold E in *. cbn [BL zsum fold_right].
  rewrite (H [x] h eq_refl) by discriminate. cbn. apply IH. intros l1 l2 -> Hl. rewrite <- app_assoc. cbn. apply H with l2; [reflexivity|discriminate].
Qed.

Lemma E_long g h : (N <= S (length g))%nat -> E g h = 0.
Proof. intros H. apply E_zero. intros l1 l2 _ Hl. apply bow_long. rewrite app_length. destruct l1; [destruct (Hl eq_refl)|cbn; lia]. Qed.

Definition stops (g : ngram) (h : list word) : Prop := match h with [] => True | x :: _ => entry (g ++ [x]) = None end.

Lemma katz_char k w h e n : (k <= n)%nat -> (k <= length h)%nat -> entry (w :: firstn k h) = Some e ->
  (forall i, (k < i <= n)%nat -> (i <= length h)%nat -> entry (w :: firstn i h) = None) ->
  katz m n w h = prob e + E (firstn k h) (skipn k (firstn n h)).
Proof.
  intros Hk Hh He. induction n as [|n IH]; intros Hn.
  - assert (k = 0%nat) as -> by lia. cbn in He |- *. injection He as <-. unfold E. cbn. lia.
  - cbn [katz]. destruct (Nat.eq_dec k (S n)) as [->|Ne].
    + destruct (Nat.ltb_spec (length h) (S n)); [lia|]. rewrite He. rewrite skipn_all2, E_nil by (rewrite firstn_length; lia). lia.
    + destruct (Nat.ltb_spec (length h) (S n)) as [Lt|Ge].
      * rewrite IH by (lia || (intros; apply Hn; lia)). rewrite !firstn_all2 with (n := n) by lia. rewrite firstn_all2 with (n := S n) by lia. reflexivity.
      * rewrite (Hn (S n)) by lia. rewrite IH by (lia || (intros; apply Hn; lia)).
        assert (F : exists x, firstn (S n) h = firstn n h ++ [x]).
        { destruct (nth_error h n) as [x|] eqn:Ex; [|apply nth_error_None in Ex; lia]. exists x.
          rewrite <- (firstn_skipn n h) at 1. rewrite firstn_app, firstn_length, Nat.min_l by lia.
          replace (S n - n)%nat with 1%nat by lia. rewrite firstn_all2 by (rewrite firstn_length; lia). f_equal.
          assert (G : nth_error (skipn n h) 0 = Some x). { rewrite <- Ex. clear - Ge. rewrite <- (firstn_skipn n h) at 2. rewrite nth_error_app2; rewrite firstn_length, Nat.min_l by lia; [|lia]. f_equal. lia. }
          destruct (skipn n h); [discriminate|]. cbn in G. injection G as ->. reflexivity. }
        destruct F as (x & F). rewrite F. rewrite skipn_app, firstn_length, Nat.min_l by lia. replace (k - n)%nat with 0%nat by lia. cbn [skipn].
        rewrite E_app. unfold E at 3. cbn [BL zsum fold_right].
        replace (firstn k h ++ skipn k (firstn n h)) with (firstn n h); [lia|].
        replace (firstn k h) with (firstn k (firstn n h)); [symmetry; apply firstn_skipn|]. rewrite firstn_firstn. f_equal. lia.
Qed.

Lemma lp_char w c h e : entry (w :: c) = Some e -> stops (w :: c) h -> logprob w (c ++ h) = prob e + E c h.
Proof.
  intros He Hs. pose proof (entry_len _ _ He) as Hl. cbn [length] in Hl. unfold LmSpec.logprob.
  rewrite (katz_char (length c) w (c ++ h) e).
  - rewrite firstn_app, Nat.sub_diag, firstn_all. cbn [firstn]. rewrite app_nil_r. f_equal.
    rewrite firstn_app, (firstn_all2 c) by lia. rewrite skipn_app, skipn_all, Nat.sub_diag. cbn [skipn app].
    rewrite <- (firstn_skipn (N - 1 - length c) h) at 2. rewrite E_app.
    rewrite (E_zero (c ++ firstn _ h) _).
    + lia.
    + intros l1 l2 Es Hl1. apply bow_long. rewrite !app_length. assert (length (firstn (N - 1 - length c) h) = (N - 1 - length c)%nat).
      { apply firstn_length_le. destruct (Nat.le_gt_cases (N - 1 - length c) (length h)); [lia|]. rewrite skipn_all2 in Es by lia. destruct l1; [destruct (Hl1 eq_refl)|discriminate]. }
      destruct l1; [destruct (Hl1 eq_refl)|cbn [length]; lia].
  - lia.
  - rewrite app_length. lia.
  - rewrite firstn_app, Nat.sub_diag, firstn_all. cbn [firstn]. rewrite app_nil_r. exact He.
  - intros i Hi Hi2. rewrite app_length in Hi2. rewrite firstn_app, firstn_all2 by lia. destruct h as [|x h]; [cbn in Hi2; lia|].
    cbn in Hs. destruct (i - length c)%nat as [|j] eqn:Ej; [lia|]. cbn [firstn].
    replace (w :: c ++ x :: firstn j h) with ((w :: c ++ [x]) ++ firstn j h) by (cbn; rewrite <- app_assoc; reflexivity).
    apply entry_none_app; [discriminate|exact Hs].
Qed.

Lemma lp_match w h : exists c h' e, h = c ++ h' /\ entry (w :: c) = Some e /\ stops (w :: c) h' /\ logprob w h = prob e + E c h'.
Proof.
  assert (G : forall h c e, entry (w :: c) = Some e -> exists d h' e', h = d ++ h' /\ entry (w :: c ++ d) = Some e' /\ stops (w :: c ++ d) h').
  { clear h. induction h as [|x h IH]; intros c e He.
    - exists [], [], e. rewrite !app_nil_r. split; [reflexivity|]. split; [exact He|exact I].
    - destruct (entry (w :: c ++ [x])) as [v|] eqn:Ev.
      + destruct (IH (c ++ [x]) v Ev) as (d & h' & e' & -> & H1 & H2). exists (x :: d), h', e'. rewrite <- app_assoc in H1, H2. sp; auto.
      + exists [], (x :: h), e. rewrite !app_nil_r. split; [reflexivity|]. split; [exact He|exact Ev]. }
  destruct (G h [] _ (entry_uni w)) as (d & h' & e' & -> & H1 & H2). exists d, h', e'. sp; auto. apply lp_char; auto.
Qed.

(** no n-gram continues [g] extended by the first word of [h] *)
Definition norx (g : ngram) (h : list word) : Prop := match h with [] => True | x :: _ => forall y, entry (y :: g ++ [x]) = None end.

Lemma lp_norx w c h : norx c h -> logprob w (c ++ h) = logprob w c + E c h.
Proof.
  intros Hn. destruct (lp_match w c) as (d & h' & e & -> & He & Hs & ->). rewrite <- app_assoc. rewrite (lp_char w d (h' ++ h) e He).
  - rewrite E_app. lia.
  - destruct h' as [|y h']; [|exact Hs]. rewrite app_nil_r in Hn. destruct h as [|x h]; [exact I|]. apply Hn.
Qed.

Definition NX (g : ngram) (h : list word) : Prop := forall l1 l2, h = l1 ++ l2 -> l1 <> [] -> nx (g ++ l1).

Lemma NX_E g h : NX g h -> E g h = 0.
Proof. intros H. apply E_zero. intros l1 l2 Hh Hl. apply nx_bow. eapply H; eauto. Qed.
Lemma NX_norx g h : NX g h -> norx g h.
Proof. destruct h as [|x h]; cbn; [auto|]. intros H y. apply nx_right; [destruct g; discriminate|]. apply (H [x] h eq_refl). discriminate. Qed.
Lemma NX_none g h : g <> [] -> match h with [] => True | x :: _ => entry (g ++ [x]) = None end -> NX g h.
Proof.
  intros Hg H l1 l2 -> Hl w Ew. destruct l1 as [|x l1]; [destruct (Hl eq_refl)|]. cbn in H.
  replace (g ++ x :: l1) with ((g ++ [x]) ++ l1) in Ew by (rewrite <- app_assoc; reflexivity).
  rewrite entry_none_app in Ew; [discriminate|destruct g; discriminate|exact H].
Qed.
Lemma NX_app g a b : NX g a -> NX (g ++ a) b -> NX g (a ++ b).
Proof.
  intros H1 H2 l1 l2 Hh Hl. destruct (le_lt_dec (length l1) (length a)) as [L|L].
  - assert (exists q, a = l1 ++ q) as (q & ->).
    { exists (skipn (length l1) a). rewrite <- (firstn_skipn (length l1) a) at 1. f_equal.
      assert (F : firstn (length l1) (a ++ b) = firstn (length l1) (l1 ++ l2)) by (rewrite Hh; reflexivity).
      rewrite !firstn_app in F. replace (length l1 - length a)%nat with 0%nat in F by lia. rewrite Nat.sub_diag, firstn_all in F. cbn in F. rewrite !app_nil_r in F. exact F. }
    eapply H1; eauto.
  - assert (exists q, l1 = a ++ q /\ q <> []) as (q & -> & Hq).
    { exists (skipn (length a) l1). split.
      - rewrite <- (firstn_skipn (length a) l1) at 1. f_equal.
        assert (F : firstn (length a) (a ++ b) = firstn (length a) (l1 ++ l2)) by (rewrite Hh; reflexivity).
        rewrite !firstn_app in F. replace (length a - length l1)%nat with 0%nat in F by lia. rewrite Nat.sub_diag, firstn_all in F. cbn in F. rewrite !app_nil_r in F. auto.
      - intros F. apply (f_equal (@length _)) in F. rewrite skipn_length in F. cbn in F. lia. }
    rewrite app_assoc. rewrite <- app_assoc in Hh. apply app_inv_head in Hh. eapply H2; eauto.
Qed.
Lemma NX_sub g a b : NX g (a ++ b) -> NX g a.
Proof. intros H l1 l2 -> Hl. apply (H l1 (l2 ++ b)); [symmetry; apply app_assoc|exact Hl]. Qed.
Lemma NX_nil g : NX g []. Proof. intros l1 l2 H Hl. symmetry in H. apply app_eq_nil in H. tauto. Qed.

(** ** ResumeScore *)

Ltac fin := sp; auto; try lia; try discriminate; try congruence; try (intros _; sp; auto; lia); try (let F := fresh in intros F; destruct (F eq_refl); fail); try apply NX_nil.


Lemma resume_ok hist : forall om2 g wg nu r, entry g = Some wg -> length g = S om2 -> (length g <= N - 1)%nat ->
  r_prob r = prob wg -> r_rest r = rest wg -> r_len r = length g -> r_ext r = g ->
  (r_indep r = true -> forall x, entry (g ++ [x]) = None) ->
  exists bs nu' q c hist' e j,
    ResumeScore m hist om2 g nu r = Some (bs, nu', q) /\ hist = c ++ hist' /\ entry (g ++ c) = Some e /\ stops (g ++ c) hist'
    /\ r_prob q = prob e /\ r_rest q = rest e /\ r_len q = (length g + length c)%nat
    /\ (r_indep q = false -> hist' = [] /\ r_ext q = g ++ c /\ (length g + length c < N)%nat)
    /\ (r_indep q = true -> forall x, entry (g ++ hist ++ [x]) = None)
    /\ (j <= length c)%nat /\ (j <= length bs)%nat /\ (length g + length bs <= N - 1)%nat
    /\ nu' = (if Nat.eqb j 0 then nu else length g + j)%nat
    /\ firstn j bs = BL g (firstn j c)
    /\ (j <> 0%nat -> useful m (g ++ firstn j c))
    /\ NX (g ++ firstn j hist) (skipn j hist).
Proof.
  induction hist as [|h hist IH]; intros om2 g wg nu r Eg Lg LN Rp Rr Rl Rx Ri; cbn [ResumeScore].
  - exists [], nu, r, [], [], wg, 0%nat. rewrite !app_nil_r. cbn. pose proof order_ge. fin.
  - assert (gn : g <> []) by (destruct g; [discriminate Lg|discriminate]).
    destruct (r_indep r) eqn:Hi.
    { exists [], nu, r, [], (h :: hist), wg, 0%nat. rewrite !app_nil_r. cbn. fin.
      - intros _ x. replace (g ++ h :: hist ++ [x]) with ((g ++ [h]) ++ hist ++ [x]) by (rewrite <- app_assoc; reflexivity). apply entry_none_app; [destruct g; discriminate|auto].
      - apply NX_none; auto. }
    destruct (Nat.eqb_spec om2 (N - 2)) as [Eo|No].
    { unfold LookupLongest. pose proof order_ge as OG.
      assert (Lh : length (g ++ [h]) = N) by (rewrite app_length; cbn; lia).
      assert (Lx : forall x, entry (g ++ (h :: hist) ++ [x]) = None).
      { intros x. apply entry_too_long. rewrite app_length in Lh |- *. cbn in Lh |- *. rewrite app_length. cbn. lia. }
      assert (NXh : NX g (h :: hist)).
      { intros l1 l2 Hh Hl w Ew. destruct (has_ext w) eqn:X; [|reflexivity]. apply has_ext_len in Ew; [|exact X].
        destruct l1 as [|y l1]; [destruct (Hl eq_refl)|]. rewrite app_length in Ew, Lh. cbn in Ew, Lh. lia. }
      destruct (longest m (g ++ [h])) as [p|] eqn:El.
      - exists [], nu, (Ret p N true (r_ext r) p), [h], hist, (Wt p false 0 false p), 0%nat. cbn [firstn skipn length app Nat.eqb]. rewrite app_nil_r.
        fin.
        + rewrite entry_long by exact Lh. rewrite El. reflexivity.
        + destruct hist as [|y hist]; [exact I|]. cbn. apply entry_too_long. rewrite !app_length. rewrite app_length in Lh. cbn in Lh |- *. lia.
        + cbn. rewrite app_length in Lh. cbn in Lh. lia.
      - exists [], nu, (set_indep r), [], (h :: hist), wg, 0%nat. cbn [firstn skipn length app Nat.eqb]. rewrite !app_nil_r.
        fin.
        + cbn. rewrite entry_long by exact Lh. rewrite El. reflexivity.
        + cbn. lia.
        }
    unfold LookupMiddle. pose proof order_ge as OG.
    destruct (Nat.ltb_spec om2 (N - 2)) as [Lo|]; [|lia]. cbn [bind].
    assert (Lh : length (g ++ [h]) = S (S om2)) by (rewrite app_length; cbn; lia).
    assert (Em : entry (g ++ [h]) = middle m om2 (g ++ [h])).
    { rewrite entry_mid by lia. f_equal. lia. }
    destruct (middle m om2 (g ++ [h])) as [w|] eqn:Ew.
    + set (r' := Ret (prob w) (om2 + 2) (negb (ext_left w)) (g ++ [h]) (rest w)).
      destruct (IH (S om2) (g ++ [h]) w (if has_ext w then r_len r' else nu) r') as (bs & nu' & q & c & hist' & e & j & H1 & H2 & H3 & H4 & H5 & H6 & H7 & H8 & H9 & H10 & H11 & H12 & H13 & H14 & H15 & H16); try reflexivity; auto; try lia.
      { cbn. lia. }
      { cbn. intros Hx x. destruct (entry ((g ++ [h]) ++ [x])) eqn:Ex; [|reflexivity]. apply (wb_left _ WB) in Ex; [|destruct g; discriminate].
        destruct Ex as (v & Ev & Xv). rewrite Em in Ev. injection Ev as ->. rewrite Xv in Hx. discriminate. }
      rewrite H1. cbn [bind]. rewrite <- app_assoc in H3, H4. rewrite Lh in *.
      destruct j as [|j].
      * cbn [firstn skipn] in *. rewrite app_nil_r in *. cbn [Nat.eqb] in H13.
        exists (backoff w :: bs), nu', q, (h :: c), hist', e, (if has_ext w then 1 else 0)%nat.
        split; [reflexivity|]. split; [rewrite H2; reflexivity|]. split; [exact H3|]. split; [exact H4|]. split; [exact H5|]. split; [exact H6|].
        split; [rewrite H7; cbn; lia|]. split. { intros Hq. destruct (H8 Hq) as (A1 & A2 & A3). rewrite A2, <- app_assoc. cbn. sp; auto. lia. }
        split. { intros Hq x. specialize (H9 Hq x). rewrite <- app_assoc in H9. exact H9. }
        split; [destruct (has_ext w); cbn; lia|]. split; [destruct (has_ext w); cbn; lia|]. split; [cbn; lia|].
        split. { rewrite H13. destruct (has_ext w); cbn; lia. }
        split. { destruct (has_ext w); cbn; [|reflexivity]. unfold LmSpec.bow. rewrite Em. reflexivity. }
        split. { destruct (has_ext w) eqn:X; [|intros F; destruct (F eq_refl)]. intros _. cbn. exists w. split; [exact Em|exact X]. }
        destruct (has_ext w) eqn:X; cbn; [exact H16|]. rewrite app_nil_r. change (h :: hist) with ([h] ++ hist). apply NX_app; [|exact H16].
        intros l1 l2 Hh Hl. destruct l1 as [|y [|z l1]]; [destruct (Hl eq_refl)| |discriminate]. cbn in Hh. injection Hh as <- _. intros v Ev. rewrite Em in Ev. injection Ev as <-. exact X.
      * exists (backoff w :: bs), nu', q, (h :: c), hist', e, (S (S j)).
        split; [reflexivity|]. split; [rewrite H2; reflexivity|]. split; [exact H3|]. split; [exact H4|]. split; [exact H5|]. split; [exact H6|].
        split; [rewrite H7; cbn; lia|]. split. { intros Hq. destruct (H8 Hq) as (A1 & A2 & A3). rewrite A2, <- app_assoc. cbn. sp; auto. lia. }
        split. { intros Hq x. specialize (H9 Hq x). rewrite <- app_assoc in H9. exact H9. }
        split; [cbn; lia|]. split; [cbn; lia|]. split; [cbn; lia|].
        split. { cbn in H13 |- *. lia. }
        split. { change (firstn (S (S j)) (backoff w :: bs)) with (backoff w :: firstn (S j) bs). change (firstn (S (S j)) (h :: c)) with (h :: firstn (S j) c). cbn [BL]. rewrite H14. f_equal. unfold LmSpec.bow. rewrite Em. reflexivity. }
        split. { intros _. specialize (H15 ltac:(discriminate)). rewrite <- app_assoc in H15. exact H15. }
        rewrite <- app_assoc in H16. exact H16.
    + exists [], nu, (set_indep r), [], (h :: hist), wg, 0%nat. cbn [firstn skipn length app Nat.eqb]. rewrite !app_nil_r.
      fin.
      * cbn. lia.
      * intros _ x. replace (g ++ h :: hist ++ [x]) with ((g ++ [h]) ++ hist ++ [x]) by (rewrite <- app_assoc; reflexivity). apply entry_none_app; [destruct g; discriminate|exact Em].
      * apply NX_none; [exact gn|exact Em].
Qed.

(** ** States *)

(** [s] stands for the history [h]; [pend] is the total of the back-offs of the part of the
    history that the state has forgotten. *)
Definition stands (h : list word) (s : state) (pend : Z) : Prop :=
  exists h', h = words s ++ h' /\ backoffs s = BL [] (words s) /\ norx (words s) h' /\ pend = E (words s) h' /\ (length (words s) <= N - 1)%nat.

Lemma fits_ok {A} (l : list A) : (length l <= N - 1)%nat -> fits m l = true.
Proof. intros H. pose proof order_max. unfold fits. apply Nat.leb_le. lia. Qed.

Lemma indep_sound w v : entry [w] = Some v -> negb (ext_left v) = true -> forall x, entry ([w] ++ [x]) = None.
Proof.
  intros Ev H x. destruct (entry ([w] ++ [x])) eqn:Ex; [|reflexivity]. apply (wb_left _ WB) in Ex; [|discriminate].
  destruct Ex as (u & Eu & Xu). rewrite Ev in Eu. injection Eu as ->. rewrite Xu in H. discriminate.
Qed.

Lemma score_except ctx w : (length ctx <= N - 1)%nat ->
  exists r out c ctx' e n,
    ScoreExceptBackoff m ctx w = Some (r, out) /\ ctx = c ++ ctx' /\ entry (w :: c) = Some e /\ stops (w :: c) ctx'
    /\ r_prob r = prob e /\ r_rest r = rest e /\ r_len r = S (length c)
    /\ (r_indep r = false -> ctx' = [] /\ r_ext r = w :: c /\ (S (length c) < N)%nat)
    /\ (r_indep r = true -> forall x, entry (w :: ctx ++ [x]) = None)
    /\ (n <= S (length ctx))%nat /\ (n <= N - 1)%nat /\ words out = firstn n (w :: ctx) /\ backoffs out = BL [] (firstn n (w :: ctx))
    /\ (n <> 0%nat -> useful m (firstn n (w :: ctx)))
    /\ NX (firstn n (w :: ctx)) (skipn n (w :: ctx)).
Proof.
  intros Lc. pose proof order_ge as OG. unfold ScoreExceptBackoff. cbn [LookupUnigram].
  set (u := unigram m w). assert (Eu : entry [w] = Some u) by reflexivity.
  assert (B0 : bow [w] = backoff u) by reflexivity.
  assert (Nil : forall X : Type, (has_ext u = false -> nx [w])).
  { intros _ X v Ev. rewrite Eu in Ev. injection Ev as <-. exact X. }
  assert (NX0 : NX (firstn (if has_ext u then 1 else 0)%nat [w]) (skipn (if has_ext u then 1 else 0)%nat [w])).
  { destruct (has_ext u) eqn:X; cbn; [apply NX_nil|]. intros l1 l2 Hh Hl. destruct l1 as [|y [|z l1]]; [destruct (Hl eq_refl)| |discriminate].
    cbn in Hh |- *. injection Hh as <- _. apply (Nil nat eq_refl). }
  destruct ctx as [|c0 ctx].
  - eexists _, _, [], [], u, (if has_ext u then 1 else 0)%nat. split; [reflexivity|]. cbn [r_prob r_rest r_len r_indep r_ext words backoffs app length].
    split; [reflexivity|]. split; [exact Eu|]. split; [exact I|]. split; [reflexivity|]. split; [reflexivity|]. split; [reflexivity|].
    split; [intros _; sp; auto; lia|]. split; [intros H x; apply (indep_sound w u Eu H)|].
    split; [destruct (has_ext u); lia|]. split; [destruct (has_ext u); lia|]. split; [reflexivity|].
    split; [destruct (has_ext u); cbn; rewrite ?B0; reflexivity|]. split; [|exact NX0].
    destruct (has_ext u) eqn:X; [|intros F; destruct (F eq_refl)]. intros _. exists u. auto.
  - set (ctx1 := c0 :: ctx) in *.
    destruct (resume_ok ctx1 0 [w] u (if has_ext u then 1 else 0)%nat (Ret (prob u) 1 (negb (ext_left u)) [w] (rest u))) as (bs & nu' & q & c & hist' & e & j & H1 & H2 & H3 & H4 & H5 & H6 & H7 & H8 & H9 & H10 & H11 & H12 & H13 & H14 & H15 & H16); try reflexivity; try (cbn; lia).
    { cbn. intros H x. apply (indep_sound w u Eu H). }
    rewrite H1. cbn [bind]. rewrite (fits_ok (backoff u :: bs)) by (cbn in H12 |- *; lia).
    cbn [length app] in *.
    assert (Lc2 : (length c <= length ctx1)%nat) by (rewrite H2, app_length; lia).
    assert (Fj : firstn j c = firstn j ctx1). { rewrite H2, firstn_app. replace (j - length c)%nat with 0%nat by lia. cbn. rewrite app_nil_r. reflexivity. }
    exists q, (State (firstn nu' (w :: ctx1)) (firstn nu' (backoff u :: bs))), c, hist', e, nu'. cbn [words backoffs].
    split; [reflexivity|]. split; [exact H2|]. split; [exact H3|]. split; [exact H4|]. split; [exact H5|]. split; [exact H6|]. split; [exact H7|].
    split; [exact H8|]. split; [exact H9|].
    destruct j as [|j].
    + cbn [Nat.eqb] in H13. subst nu'. cbn [firstn skipn app] in H16.
      split; [destruct (has_ext u); lia|]. split; [destruct (has_ext u); lia|]. split; [reflexivity|].
      split; [destruct (has_ext u); cbn; rewrite ?B0; reflexivity|].
      split. { destruct (has_ext u) eqn:X; [|intros F; destruct (F eq_refl)]. intros _. exists u. auto. }
      destruct (has_ext u) eqn:X; [exact H16|]. cbn. change (w :: ctx1) with ([w] ++ ctx1). apply NX_app; [exact NX0|exact H16].
    + cbn [Nat.eqb] in H13. subst nu'. cbn [Nat.add].
      split; [lia|]. split; [lia|]. split; [reflexivity|].
      split. { change (firstn (S (S j)) (backoff u :: bs)) with (backoff u :: firstn (S j) bs). rewrite H14, Fj.
        change (firstn (S (S j)) (w :: ctx1)) with (w :: firstn (S j) ctx1). cbn [BL app]. rewrite B0. reflexivity. }
      split. { intros _. specialize (H15 ltac:(discriminate)). rewrite Fj in H15. exact H15. }
      exact H16.
Qed.

Lemma full_score h s pend w : stands h s pend -> exists r out,
  FullScore m s w = Some (r, out) /\ r_prob r + pend = logprob w h /\ stands (w :: h) out 0
  /\ (slen out <= S (slen s))%nat /\ words out = firstn (slen out) (w :: words s)
  /\ (r_indep r = true -> forall x, entry (w :: words s ++ [x]) = None)
  /\ (r_indep r = false -> exists e, entry (w :: words s) = Some e /\ r_ext r = w :: words s /\ r_rest r = rest e /\ (S (slen s) < N)%nat).
Proof.
  intros (h' & Hh & Hb & Hn & Hp & Hl). unfold FullScore.
  destruct (score_except (words s) w Hl) as (r & out & c & ctx' & e & n & H1 & H2 & H3 & H4 & H5 & H6 & H7 & H8 & H9 & H10 & H11 & H12 & H13 & H14 & H15).
  rewrite H1. cbn [bind]. eexists _, out. split; [reflexivity|]. cbn [add_prob r_prob r_len r_indep r_ext r_rest].
  assert (Ln : slen out = n). { unfold slen. rewrite H12, firstn_length. cbn [length]. lia. }
  split.
  { assert (Hlp : logprob w h = prob e + E c (ctx' ++ h')).
    { rewrite Hh, H2, <- app_assoc. apply lp_char; [exact H3|]. destruct ctx' as [|y ctx']; [|exact H4]. rewrite app_nil_r in H2. rewrite <- H2.
      destruct h' as [|y h']; [exact I|]. apply Hn. }
    rewrite Hlp, E_app, Hp, H5, H7, Hb, H2, BL_app. cbn [app]. rewrite skipn_app.
    replace (S (length c) - 1)%nat with (length c) by lia. rewrite skipn_all2 by (rewrite BL_length; lia). rewrite BL_length, Nat.sub_diag. cbn [skipn app].
    unfold E. lia. }
  split.
  { exists (skipn n (w :: words s) ++ h'). rewrite H12, H13. split; [rewrite app_assoc, firstn_skipn, Hh; reflexivity|]. split; [reflexivity|].
    assert (NXf : NX (firstn n (w :: words s)) (skipn n (w :: words s) ++ h')).
    { apply NX_app; [exact H15|]. rewrite firstn_skipn. apply NX_none; [discriminate|]. destruct h' as [|x h']; [exact I|]. apply Hn. }
    split; [apply NX_norx; exact NXf|]. split; [symmetry; apply NX_E; exact NXf|]. rewrite firstn_length. lia. }
  split; [unfold slen in *; lia|]. split; [rewrite Ln; exact H12|]. split; [exact H9|].
  intros Hi. destruct (H8 Hi) as (-> & A2 & A3). rewrite app_nil_r in H2. rewrite <- H2 in *. exists e. unfold slen. sp; auto.
Qed.

Lemma stands_begin b : stands [b] (BeginSentenceState m b) 0.
Proof. pose proof order_ge. exists []. cbn. sp; auto. lia. Qed.
Lemma stands_empty : stands [] (State [] []) 0.
Proof. exists []. cbn. sp; auto. lia. Qed.

End P.
