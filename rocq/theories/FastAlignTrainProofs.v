(** Training: what its results mean. *)
From Coq Require Import Reals List Arith ZArith Lia Lra Bool Sorted.
Import ListNotations.
From Verif Require Import FastAlign FastAlignSpec FastAlignDiagProofs FastAlignEMProofs FastAlignProofs.
Local Open Scope R_scope.

Section Aligner.
Variable c : config.
Notation nulls := (use_null c).
Notation diag := (favor_diagonal c).
Notation p0 := (prob_align_null c).
Notation null := (kNULL c).
Notation wd := (word_at null).
Notation pos src := (positions (use_null c) (@length nat src)).

(** * The likelihood is that of the model *)
Lemma sum_alignments (ps : list nat) (P : nat -> nat -> R) (tr : nat -> nat -> R) nl src : forall trg j,
  Rsum (map (joint P tr nl src j trg) (alignments ps (length trg))) =
  Rprod (map (fun q : nat * nat => Rsum (map (fun i => tr (word_at nl src i) (snd q) * P (fst q) i) ps)) (combine (seq j (length trg)) trg)).
Proof.
  induction trg as [|f trg IH]; intros j; [cbn; lra|]. cbn [length alignments seq combine map]. rewrite Rsum_flat. cbn [Rprod fold_right fst snd].
  rewrite (Rsum_ext _ (fun i => Rsum (map (joint P tr nl src (S j) trg) (alignments ps (length trg))) * (tr (word_at nl src i) f * P j i))).
  - rewrite Rsum_scale, IH. unfold Rprod. ring.
  - intros i _. rewrite map_map. rewrite (Rsum_ext _ (fun al => (tr (word_at nl src i) f * P j i) * joint P tr nl src (S j) trg al)) by (intros al _; cbn [joint]; ring). rewrite Rsum_scale. ring.
Qed.
Lemma pair_prob_lik tension t p : good_prior c tension -> usable_pair p -> fine t ->
  ln (pair_prob nulls diag null p0 tension (tprob t) p) = pair_lik c tension t p.
Proof.
  intros G (H1 & H2 & H3) F. unfold pair_prob, pair_alignments, aligned_prob, pair_lik. rewrite sum_alignments.
  assert (K : forall trg j, (j + length trg <= length (snd p))%nat ->
    let w := Rprod (map (fun q : nat * nat => Rsum (map (fun i => tprob t (wd (fst p) i) (snd q) * position_prob nulls diag p0 tension (length (snd p)) (length (fst p)) (fst q) i) (pos (fst p)))) (combine (seq j (length trg)) trg)) in
    0 < w /\ ln w = words_lik c tension t (fst p) (length (snd p)) j trg).
  { induction trg as [|f trg IH]; intros j Hj; cbn [length seq combine map Rprod fold_right words_lik fst snd] in *; [split; [lra|apply ln_1]|].
    destruct (IH (S j) ltac:(lia)) as (W & L).
    rewrite (Rsum_ext _ (share c tension t (fst p) (length (snd p)) j f)).
    2:{ intros i Hi. unfold share. f_equal. symmetry. apply prior_ok; auto; [lia|]. destruct (fst p); [congruence|cbn; lia]. }
    fold (wprob c tension t (fst p) (length (snd p)) j f). assert (P : 0 < wprob c tension t (fst p) (length (snd p)) j f) by (apply wprob_pos; auto; lia).
    unfold Rprod in W, L. split; [apply Rmult_lt_0_compat; assumption|]. rewrite ln_mult by assumption. rewrite L. reflexivity. }
  apply (K (snd p) 0%nat). lia.
Qed.
Lemma corpus_lik_spec tension t corpus : good_prior c tension -> Forall usable_pair corpus -> fine t -> log_likelihood nulls diag null p0 tension (tprob t) corpus = corpus_lik c tension t corpus.
Proof.
  intros G GP F. unfold log_likelihood, corpus_lik. apply Rsum_ext. intros p Hp. rewrite Forall_forall in GP. apply pair_prob_lik; auto.
Qed.

(** * Tuning keeps the tension in range *)
Lemma tune_once_range corpus e k x : 1 / 10 <= tune_once corpus e k x <= 14.
Proof. unfold tune_once. destruct (Rle_lt_dec _ _); destruct (Rlt_le_dec _ _); lra. Qed.
Lemma tune_range corpus e k x : 1 / 10 <= tune corpus e k x <= 14.
Proof. unfold tune. cbn [Nat.iter nat_rect]. apply tune_once_range. Qed.

Section Corpus.
Variable corpus : list sentence.
Hypothesis GP : Forall usable_pair corpus.
Definition next_tension (first : bool) (tension : R) (t : table) : R :=
  let s := count_corpus c tension t corpus in
  if andb (andb diag (optimize_tension c)) (negb first) then tune corpus (emp_feat s / toks s) (toks s) tension else tension.
Lemma next_good first tension t : good_prior c tension -> good_prior c (next_tension first tension t).
Proof.
  intros G D. destruct (G D) as (Ha & Hp). split; [|exact Hp]. unfold next_tension. destruct (_ && _); [|exact Ha]. match goal with |- tune ?a ?b ?d ?e <> _ => pose proof (tune_range a b d e) end. lra.
Qed.
Definition next_table (tension : R) (t : table) : table := Normalize (counts (count_corpus c tension t corpus)).
Lemma iterate_S k first tension t : iterate c (S (S k)) first corpus tension t =
  let '(ls, t2, tension2, f) := iterate c (S k) false corpus (next_tension first tension t) (next_table tension t) in
  (corpus_lik c tension t corpus :: ls, t2, tension2, f).
Proof. rewrite <- (corpus_likelihood c corpus tension t). reflexivity. Qed.
Lemma iterate_1 first tension t : iterate c 1 first corpus tension t = ([corpus_lik c tension t corpus], t, tension, final_corpus c tension t corpus).
Proof. cbn [iterate]. rewrite final_lik. reflexivity. Qed.

(** What is known after [S k] iterations. *)
Definition outcome (k : nat) (r : list R * table * R * final) : Prop :=
  let '(ls, t, tension, f) := r in
  length ls = S k /\ fine t /\ good_prior c tension /\ nth_error ls k = Some (corpus_lik c tension t corpus) /\ f = final_corpus c tension t corpus.
Lemma iterate_outcome : forall k first tension t, good_prior c tension -> fine t -> outcome k (iterate c (S k) first corpus tension t).
Proof.
  induction k as [|k IH]; intros first tension t G F; [rewrite iterate_1; cbn; auto 6|]. rewrite iterate_S.
  specialize (IH false (next_tension first tension t) (next_table tension t) (next_good first tension t G) (fine_Normalize _ (corpus_fine c corpus GP tension t G F))).
  destruct (iterate c (S k) false corpus _ _) as [[[ls t2] tension2] f]. unfold outcome in *. cbn [length nth_error]. intuition.
Qed.
(** Fewer iterations: the same likelihoods. *)
Lemma iterate_prefix : forall k k' first tension t, (1 <= k' <= k)%nat -> fst (fst (fst (iterate c k' first corpus tension t))) = firstn k' (fst (fst (fst (iterate c k first corpus tension t)))).
Proof.
  induction k as [|k IH]; intros k' first tension t H; [lia|]. destruct k' as [|k']; [lia|]. destruct k as [|k]; [assert (k' = 0)%nat as -> by lia; rewrite iterate_1; reflexivity|]. rewrite iterate_S.
  destruct k' as [|k'].
  - rewrite iterate_1. destruct (iterate c (S k) false corpus _ _) as [[[ls t2] tension2] f]. reflexivity.
  - rewrite iterate_S. specialize (IH (S k') false (next_tension first tension t) (next_table tension t) ltac:(lia)).
    destruct (iterate c (S k') false corpus _ _) as [[[ls' t2'] tension2'] f']. destruct (iterate c (S k) false corpus _ _) as [[[ls t2] tension2] f]. cbn [fst firstn] in *. rewrite IH. reflexivity.
Qed.
Lemma iterate_first k first tension t : exists ls, fst (fst (fst (iterate c (S k) first corpus tension t))) = corpus_lik c tension t corpus :: ls.
Proof. destruct k as [|k]; [rewrite iterate_1; eexists; reflexivity|]. rewrite iterate_S. destruct (iterate c (S k) false corpus _ _) as [[[ls t2] tension2] f]. eexists. reflexivity. Qed.
Lemma iterate_rises (fixed : diag && optimize_tension c = false) : forall k first tension t, good_prior c tension -> em_ready c corpus tension t ->
  forall n a b, nth_error (fst (fst (fst (iterate c k first corpus tension t)))) n = Some a -> nth_error (fst (fst (fst (iterate c k first corpus tension t)))) (S n) = Some b -> a <= b.
Proof.
  induction k as [|k IH]; intros first tension t G E n a b; [destruct n; discriminate|]. destruct k as [|k]; [rewrite iterate_1; destruct n as [|[|n]]; discriminate|]. rewrite iterate_S.
  assert (T : next_tension first tension t = tension) by (unfold next_tension; rewrite fixed; reflexivity). rewrite T. destruct (em_step c corpus GP tension t G E) as (E' & L). fold (next_table tension t) in E', L.
  specialize (IH false tension (next_table tension t) G E'). destruct (iterate_first k false tension (next_table tension t)) as (ls0 & Ef).
  destruct (iterate c (S k) false corpus tension (next_table tension t)) as [[[ls t2] tension2] f]. cbn [fst] in *. destruct n as [|n].
  - cbn [nth_error]. intros [= <-]. rewrite Ef. cbn [nth_error]. intros [= <-]. exact L.
  - cbn [nth_error]. apply IH.
Qed.
(** The table after at least two iterations is one of normalised counts. *)
Lemma iterate_table : forall k first tension t, good_prior c tension -> fine t -> exists tension' t', fine t' /\ good_prior c tension' /\ snd (fst (fst (iterate c (S (S k)) first corpus tension t))) = next_table tension' t'.
Proof.
  induction k as [|k IH]; intros first tension t G F; rewrite iterate_S.
  - rewrite iterate_1. cbn [fst snd]. eauto.
  - pose proof (next_good first tension t G) as G2. pose proof (fine_Normalize _ (corpus_fine c corpus GP tension t G F)) as F2. fold (next_table tension t) in F2.
    destruct (IH false _ _ G2 F2) as (x & t' & H). exists x, t'. destruct (iterate c (S (S k)) false corpus _ _) as [[[ls t2] tension2] f]. exact H.
Qed.
Lemma next_table_dist tension t e : good_prior c tension -> fine t -> (exists f, together nulls null corpus e f) ->
  exists ws, NoDup ws /\ (forall f, In f ws <-> together nulls null corpus e f) /\ (forall f, In f ws -> 0 < tprob (next_table tension t) e f) /\ Rsum (map (tprob (next_table tension t) e) ws) = 1.
Proof.
  intros G F (f0 & H0). pose proof (corpus_fine c corpus GP tension t G F) as Fc. apply (corpus_has c corpus tension t) in H0 as (r & E & I0).
  assert (Fr : fine_row r) by (unfold fine in Fc; rewrite Forall_forall in Fc; apply Fc; eapply nth_error_In, E).
  assert (Nr : r <> []) by (intros ->; exact I0). pose proof (total_pos r Fr Nr) as T. exists (map fst r). split; [apply Fr|]. split.
  { intros f. rewrite <- (corpus_has c corpus tension t). split; [intros H; exists r; auto|]. intros (r' & E' & I). congruence. }
  split; [intros f _; apply tprob_pos, fine_Normalize, Fc|].
  rewrite map_map. rewrite (Rsum_ext _ (fun p => / total r * snd p)).
  - rewrite Rsum_scale. fold (total r). apply Rinv_l. lra.
  - intros [f v] Hp. unfold tprob, next_table, Normalize. rewrite nth_error_map, E. cbn [option_map fst snd]. rewrite NormalizeRow_eq by exact T. rewrite (lookup_in _ f (v / total r)); [unfold Rdiv; ring| |].
    + rewrite map_map. apply Fr.
    + apply (in_map (fun p => (fst p, snd p / total r)) r (f, v)), Hp.
Qed.
End Corpus.

(** * Best alignments *)
(** The first of the best indices. *)
Definition first_best (g : nat -> R) (l : list nat) (b : nat) : Prop := In b l /\ forall i, In i l -> g i <= g b /\ (g i = g b -> (b <= i)%nat).
Lemma fold_best (g : nat -> R) (w : nat -> nat) : forall l b, StronglySorted lt (b :: l) ->
  exists b', fold_left best_one (map (fun i => ((i, w i), g i)) l) (Some (b, w b), g b) = (Some (b', w b'), g b') /\ first_best g (b :: l) b'.
Proof.
  induction l as [|i l IH]; intros b S; cbn [map fold_left].
  - exists b. split; [reflexivity|]. split; [left; reflexivity|]. intros i [<-|[]]. split; [lra|auto].
  - apply StronglySorted_inv in S as (S1 & S2). pose proof (StronglySorted_inv S1) as (S3 & _). apply Forall_cons_iff in S2 as (Hbi & S2). unfold best_one at 2. cbn [fst snd]. destruct (Rlt_le_dec (g b) (g i)) as [L|L].
    + destruct (IH i S1) as (b' & E & I & B). exists b'. split; [exact E|]. split; [right; exact I|]. intros k [<-|Hk]; [|apply B, Hk]. destruct (B i (or_introl eq_refl)) as (Bi & _). split; [lra|intros; exfalso; lra].
    + destruct (IH b) as (b' & E & I & B); [constructor; assumption|]. exists b'. split; [exact E|]. split; [destruct I as [<-|I]; [left; reflexivity|right; right; exact I]|].
      intros k [<-|[<-|Hk]]; [apply B; left; reflexivity| |apply B; right; exact Hk]. destruct (B b (or_introl eq_refl)) as (Bb & Bb2). split; [lra|]. intros Ek. assert (g b = g b') by lra. specialize (Bb2 H). lia.
Qed.
Lemma fold_test (g : nat -> R) (w : nat -> nat) : forall l b o, fst (fold_left test_one (map (fun i => ((i, w i), g i)) l) (b, o)) = match fst (fold_left best_one (map (fun i => ((i, w i), g i)) l) (Some (b, w b), o)) with Some (i, _) => i | None => 0%nat end.
Proof.
  induction l as [|i l IH]; intros b o; [reflexivity|]. cbn [map fold_left]. unfold test_one at 2, best_one at 2. cbn [fst snd]. destruct (Rlt_le_dec o (g i)); apply IH.
Qed.
Lemma seq_sorted n : forall k, StronglySorted lt (seq k n).
Proof. induction n as [|n IH]; intros k; constructor; [apply IH|]. apply Forall_forall. intros i Hi. apply in_seq in Hi. lia. Qed.
Lemma positions_sorted nw n : StronglySorted lt (positions nw n).
Proof. unfold positions. destruct nw; [|apply seq_sorted]. apply (seq_sorted (S n) 0). Qed.

Section Sentence.
Variable tension : R.
Variable t : table.
Variable src : list nat.
Variable m : nat.
Hypothesis G : good_prior c tension.
Hypothesis F : fine t.
Hypothesis Hs : src <> [].
Hypothesis Hb : (Z.of_nat (length src) < 2 ^ 32)%Z.
Lemma choice j f : (j < m)%nat -> exists b, best_choice c (probs c tension t src m j f) = Some (b, wd src b) /\ test_choice c (probs c tension t src m j f) = b /\ first_best (share c tension t src m j f) (pos src) b.
Proof.
  intros Hj. rewrite probs_eq. pose proof (positions_sorted nulls (length src)) as S. pose proof (pos_nonempty c src Hs) as N.
  assert (P : forall i, In i (pos src) -> 0 < share c tension t src m j f i) by (intros; apply share_pos; auto).
  unfold best_choice, test_choice. destruct nulls eqn:U.
  - unfold positions in *. cbn [app] in *. destruct (fold_best (share c tension t src m j f) (wd src) _ _ S) as (b & E & B). exists b. cbn [map fst snd]. rewrite E, fold_test, E. auto.
  - destruct (positions false (length src)) as [|i l]; [congruence|]. cbn [map fold_left]. specialize (P i (or_introl eq_refl)).
    unfold best_one at 2, test_one at 2. cbn [fst snd]. destruct (Rlt_le_dec (-1) _) as [_|L]; [|lra]. destruct (Rlt_le_dec 0 _) as [_|L]; [|lra].
    destruct (fold_best (share c tension t src m j f) (wd src) _ _ S) as (b & E & B). exists b. rewrite fold_test, E. auto.
Qed.

(** The best choices for the words from number [j] on. *)
Lemma choices_words : forall trg j, (j + length trg <= m)%nat -> exists al, length al = length trg /\ (forall k b f, nth_error al k = Some b -> nth_error trg k = Some f -> best_choice c (probs c tension t src m (j + k) f) = Some (b, wd src b) /\ test_choice c (probs c tension t src m (j + k) f) = b /\ first_best (share c tension t src m (j + k) f) (pos src) b).
Proof.
  induction trg as [|f trg IH]; intros j Hj; cbn [length] in Hj.
  - exists []. split; [reflexivity|]. intros [|k] b f' H; discriminate.
  - destruct (IH (S j) ltac:(lia)) as (al & L & K). destruct (choice j f ltac:(lia)) as (b & B). exists (b :: al). split; [cbn; congruence|]. intros [|k] b' f' H1 H2.
    + injection H1 as <-. injection H2 as <-. rewrite Nat.add_0_r. exact B.
    + rewrite <- Nat.add_succ_comm. apply K; assumption.
Qed.
Lemma final_links : forall trg j al v lik, (j + length trg <= m)%nat -> length al = length trg ->
  (forall k b f, nth_error al k = Some b -> nth_error trg k = Some f -> best_choice c (probs c tension t src m (j + k) f) = Some (b, wd src b)) ->
  fst (fst (final_words c tension t src m j trg v lik)) = links_from j al.
Proof.
  induction trg as [|f trg IH]; intros j [|b al] v lik Hj L K; try discriminate; [reflexivity|]. cbn [length] in *.
  pose proof (K 0%nat b f eq_refl eq_refl) as K0. rewrite Nat.add_0_r in K0. cbn [final_words]. rewrite K0.
  match goal with |- context [final_words _ _ _ _ _ (S j) trg ?a ?d] => assert (I : fst (fst (final_words c tension t src m (S j) trg a d)) = links_from (S j) al) end.
  { apply IH; [lia|congruence|]. intros k b' f' H1 H2. rewrite Nat.add_succ_comm. apply K; assumption. }
  match goal with |- context [final_words _ _ _ _ _ (S j) trg ?a ?d] => destruct (final_words c tension t src m (S j) trg a d) as [[ls v2] lik2] end. cbn [fst] in *. rewrite I. destruct b; reflexivity.
Qed.
Lemma test_links : forall trg j al, length al = length trg ->
  (forall k b f, nth_error al k = Some b -> nth_error trg k = Some f -> test_choice c (probs c tension t src m (j + k) f) = b) ->
  test_words c tension t src m j trg = links_from j al.
Proof.
  induction trg as [|f trg IH]; intros j [|b al] L K; try discriminate; [reflexivity|]. cbn [length] in *.
  pose proof (K 0%nat b f eq_refl eq_refl) as K0. rewrite Nat.add_0_r in K0. cbn [test_words]. rewrite K0. rewrite (IH (S j) al); [destruct b; reflexivity|congruence|].
  intros k b' f' H1 H2. rewrite Nat.add_succ_comm. apply K; assumption.
Qed.

(** Choosing each link best makes the whole alignment best. *)
Lemma in_alignments ps : forall k al, In al (alignments ps k) <-> length al = k /\ (forall i, In i al -> In i ps).
Proof.
  induction k as [|k IH]; intros al; cbn [alignments].
  - split; [intros [<-|[]]; split; [reflexivity|intros i []]|]. intros (L & _). destruct al; [left; reflexivity|discriminate].
  - rewrite in_flat_map. split.
    + intros (i & Hi & H). apply in_map_iff in H as (al' & <- & H). apply IH in H as (L & H). split; [cbn; congruence|]. intros x [<-|Hx]; auto.
    + intros (L & H). destruct al as [|i al]; [discriminate|]. exists i. split; [apply H; left; reflexivity|]. apply in_map, IH. split; [cbn in L; congruence|]. intros x Hx. apply H. right. exact Hx.
Qed.
Notation J := (joint (position_prob nulls diag p0 tension m (length src)) (tprob t) null src).
Lemma joint_best : forall (trg : list nat) j (al : list nat), (j + length trg <= m)%nat -> length al = length trg ->
  (forall k b f, nth_error al k = Some b -> nth_error trg k = Some f -> first_best (share c tension t src m (j + k) f) (pos src) b) ->
  0 < J j trg al /\ (forall i, In i al -> In i (pos src)) /\ forall al', In al' (alignments (pos src) (length trg)) -> 0 < J j trg al' <= J j trg al /\ (J j trg al' = J j trg al -> Forall2 le al al').
Proof.
  induction trg as [|f trg IH]; intros j [|b al] Hj L K; try discriminate.
  - cbn. split; [lra|]. split; [intros i []|]. intros al' [<-|[]]. split; [lra|constructor].
  - cbn [length] in *. destruct (IH (S j) al ltac:(lia) ltac:(congruence)) as (P & I & B).
    { intros k b' f' H1 H2. rewrite Nat.add_succ_comm. apply K; assumption. }
    destruct (K 0%nat b f eq_refl eq_refl) as (Ib & Bb). rewrite Nat.add_0_r in Bb.
    assert (Q : forall i, In i (pos src) -> tprob t (wd src i) f * position_prob nulls diag p0 tension m (length src) j i = share c tension t src m j f i).
    { intros i Hi. unfold share. f_equal. symmetry. apply prior_ok; auto; [lia|]. destruct src; [congruence|cbn; lia]. }
    assert (Sp : forall i, In i (pos src) -> 0 < share c tension t src m j f i) by (intros; apply share_pos; auto; lia).
    cbn [joint]. rewrite (Q b Ib). split; [apply Rmult_lt_0_compat; auto|]. split; [intros i [<-|Hi]; auto|].
    intros al' H. cbn [alignments] in H. apply in_flat_map in H as (i & Hi & H). apply in_map_iff in H as (al2 & <- & H). cbn [joint]. rewrite (Q i Hi). destruct (B al2 H) as ((B1 & B2) & B3). destruct (Bb i Hi) as (C1 & C2). pose proof (Sp i Hi). pose proof (Sp b Ib).
    split; [split; [apply Rmult_lt_0_compat; assumption|apply Rmult_le_compat; lra]|]. intros E.
    assert (E1 : share c tension t src m j f i = share c tension t src m j f b) by nra. constructor; [apply C2, E1|]. apply B3. rewrite E1 in E. apply Rmult_eq_reg_l in E; [exact E|lra].
Qed.
End Sentence.
End Aligner.

(** * The whole program *)
Section Train.
Variable c : config.
Notation nulls := (use_null c).
Notation diag := (favor_diagonal c).
Notation p0 := (prob_align_null c).
Notation null := (kNULL c).
Notation wd := (word_at null).
Notation pos src := (positions (use_null c) (@length nat src)).
Variable corpus : list sentence.
Variable tension : R.
Hypothesis U : usable_prior nulls diag p0 tension.
Hypothesis Small : forall p, In p corpus -> (Z.of_nat (length (fst p)) < 2 ^ 32)%Z.

Lemma train_some iters r : train c iters corpus tension = Some r -> Forall usable_pair corpus /\ r = iterate c iters true corpus tension [].
Proof.
  unfold train. destruct (existsb _ corpus) eqn:E; [discriminate|]. intros [= <-]. split; [|reflexivity]. apply Forall_forall. intros p Hp.
  assert (K : ((length (fst p) =? 0) || (length (snd p) =? 0))%nat = false).
  { destruct ((length (fst p) =? 0) || (length (snd p) =? 0))%nat eqn:X; [|reflexivity]. rewrite <- E. symmetry. apply existsb_exists. exists p. split; [exact Hp|exact X]. }
  apply orb_false_iff in K as (K1 & K2). apply Nat.eqb_neq in K1, K2. repeat split; [intros H; rewrite H in K1; apply K1; reflexivity|intros H; rewrite H in K2; apply K2; reflexivity|apply Small, Hp].
Qed.
Lemma train_eq iters r : train c iters corpus tension = Some r -> r = iterate c iters true corpus tension [].
Proof. clear. unfold train. destruct (existsb _ corpus); [discriminate|]. intros [= <-]. reflexivity. Qed.
Lemma train_none iters : train c iters corpus tension = None <-> exists p, In p corpus /\ (fst p = [] \/ snd p = []).
Proof.
  clear. unfold train. destruct (existsb _ corpus) eqn:E.
  - split; [intros _|reflexivity]. apply existsb_exists in E as (p & Hp & H). exists p. split; [exact Hp|]. apply orb_true_iff in H as [H|H]; apply Nat.eqb_eq in H; [left; destruct (fst p)|right; destruct (snd p)]; (reflexivity || discriminate).
  - split; [discriminate|]. intros (p & Hp & H). exfalso. assert (K : existsb (fun p : sentence => ((length (fst p) =? 0) || (length (snd p) =? 0))%nat) corpus = true) by (apply existsb_exists; exists p; split; [exact Hp|]; destruct H as [-> | ->]; cbn; rewrite ?orb_true_r; reflexivity). congruence.
Qed.

Section Result.
Variable iters : nat.
Variable ls : list R.
Variable t : table.
Variable tension' : R.
Variable fin : final.
Hypothesis Hi : (1 <= iters)%nat.
Hypothesis T : train c iters corpus tension = Some (ls, t, tension', fin).
Lemma fine_nil : fine []. Proof. constructor. Qed.
Lemma train_outcome : Forall usable_pair corpus /\ outcome c corpus (iters - 1) (ls, t, tension', fin).
Proof.
  destruct (train_some _ _ T) as (GP & E). split; [exact GP|]. rewrite E. destruct iters as [|k]; [lia|]. rewrite Nat.sub_succ, Nat.sub_0_r. apply iterate_outcome; [exact GP|exact U|apply fine_nil].
Qed.
Lemma train_likelihood : length ls = iters /\ nth_error ls (iters - 1) = Some (log_likelihood nulls diag null p0 tension' (tprob t) corpus).
Proof.
  destruct train_outcome as (GP & L & F & G & N & _). split; [lia|]. rewrite N. f_equal. symmetry. apply corpus_lik_spec; assumption.
Qed.
Lemma train_prefix k : (1 <= k <= iters)%nat -> exists t1 tension1 fin1, train c k corpus tension = Some (firstn k ls, t1, tension1, fin1).
Proof.
  intros Hk. destruct (train_some _ _ T) as (GP & E). pose proof (iterate_prefix c corpus iters k true tension [] Hk) as P. rewrite <- E in P. cbn [fst] in P.
  unfold train in *. destruct (existsb _ corpus); [discriminate|]. destruct (iterate c k true corpus tension []) as [[[ls1 t1] tension1] fin1]. cbn [fst] in P. subst ls1. eauto.
Qed.
Lemma train_rises (V : list nat) : diag && optimize_tension c = false -> (forall p f, In p corpus -> In f (snd p) -> In f V) -> INR (length V) <= 10 ^ 9 ->
  forall n a b, nth_error ls n = Some a -> nth_error ls (S n) = Some b -> a <= b.
Proof.
  intros O HV HL n a b. destruct (train_some _ _ T) as (GP & E). pose proof (iterate_rises c corpus GP O iters true tension [] U (em_start c corpus GP tension V U HV HL) n a b) as K. rewrite <- E in K. exact K.
Qed.
Lemma train_table e : (2 <= iters)%nat -> (exists f, together nulls null corpus e f) ->
  exists ws, NoDup ws /\ (forall f, In f ws <-> together nulls null corpus e f) /\ (forall f, In f ws -> 0 < tprob t e f) /\ Rsum (map (tprob t e) ws) = 1.
Proof.
  intros H2 He. destruct (train_some _ _ T) as (GP & E). destruct iters as [|[|k]]; [lia|lia|]. destruct (iterate_table c corpus GP k true tension [] U fine_nil) as (x & t' & F' & G' & K). rewrite <- E in K. cbn [fst snd] in K. rewrite K. apply next_table_dist; assumption.
Qed.
Lemma train_range : tension' = tension \/ 1 / 10 <= tension' <= 14.
Proof.
  pose proof (train_eq _ _ T) as E. clear T. revert E. generalize true as first. generalize ([] : table) as t0. revert ls t tension' fin. pose (x := tension). assert (Ex : tension = tension \/ 1 / 10 <= tension <= 14) by auto. revert Ex. generalize tension at 1 3 4 5 as y. revert Hi. clear Small U. 
  induction iters as [|[|k] IH]; intros _ y Hy ls t tension' fin t0 first E; [injection E as _ _ -> _; exact Hy|rewrite iterate_1 in E; injection E as _ _ -> _; exact Hy|].
  rewrite iterate_S in E. destruct (iterate c (S k) false corpus (next_tension c corpus first y t0) (next_table c corpus y t0)) as [[[ls1 t1] x1] f1] eqn:E1. injection E as _ -> -> ->. symmetry in E1. eapply IH; [lia| |exact E1]. unfold next_tension. destruct (_ && _); [right; apply tune_range|exact Hy].
Qed.

(** ** Alignments *)
Definition best_alignment (p : sentence) (al : list nat) : Prop :=
  length al = length (snd p) /\
  (forall k b f, nth_error al k = Some b -> nth_error (snd p) k = Some f -> best_choice c (probs c tension' t (fst p) (length (snd p)) k f) = Some (b, wd (fst p) b) /\ test_choice c (probs c tension' t (fst p) (length (snd p)) k f) = b /\ first_best (share c tension' t (fst p) (length (snd p)) k f) (pos (fst p)) b).
Lemma best_exists : exists als, Forall2 best_alignment corpus als.
Proof.
  destruct train_outcome as (GP & L & F & G & _). clear - GP F G. induction GP as [|p l (H1 & H2 & H3) _ (als & IH)]; [exists []; constructor|].
  destruct (choices_words c tension' t (fst p) (length (snd p)) G F H1 H3 (snd p) 0 ltac:(lia)) as (al & B). exists (al :: als). constructor; [exact B|exact IH].
Qed.
Lemma links_of als : Forall2 best_alignment corpus als -> links fin = map (links_from 0) als.
Proof.
  intros B. destruct train_outcome as (GP & L & F & G & _ & ->). clear - B. unfold final_corpus.
  assert (K : forall s, links (fold_left (final_sentence c tension' t) corpus s) = links s ++ map (links_from 0) als); [|rewrite K; reflexivity].
  induction B as [|p al l als (B1 & B2) _ IH]; intros s; cbn [fold_left map]; [rewrite app_nil_r; reflexivity|]. rewrite IH. unfold final_sentence.
  pose proof (final_links c tension' t (fst p) (length (snd p)) (snd p) 0 al (viterbi s) (flik s) ltac:(lia) B1 (fun k b f H1 H2 => proj1 (B2 k b f H1 H2))) as K.
  destruct (final_words c tension' t (fst p) (length (snd p)) 0 (snd p) (viterbi s) (flik s)) as [[ls1 v] lik]. cbn [fst links] in *. rewrite K, <- app_assoc. reflexivity.
Qed.
Lemma tests_of als : Forall2 best_alignment corpus als -> map (test_sentence c tension' t) corpus = map (links_from 0) als.
Proof.
  intros B. clear - B. induction B as [|p al l als (B1 & B2) _ IH]; [reflexivity|]. cbn [map]. rewrite IH. f_equal. apply test_links; [exact B1|]. intros k b f H1 H2. apply (B2 k b f H1 H2).
Qed.
Lemma best_is_best p al : In p corpus -> best_alignment p al -> In al (pair_alignments nulls p) /\
  forall al', In al' (pair_alignments nulls p) -> aligned_prob nulls diag null p0 tension' (tprob t) p al' <= aligned_prob nulls diag null p0 tension' (tprob t) p al /\
    (aligned_prob nulls diag null p0 tension' (tprob t) p al' = aligned_prob nulls diag null p0 tension' (tprob t) p al -> Forall2 le al al').
Proof.
  intros Hp (B1 & B2). destruct train_outcome as (GP & L & F & G & _). rewrite Forall_forall in GP. destruct (GP p Hp) as (H1 & H2 & H3).
  destruct (joint_best c tension' t (fst p) (length (snd p)) G F H1 H3 (snd p) 0 al ltac:(lia) B1) as (_ & I & B); [intros k b f Hk Hf; apply (B2 k b f Hk Hf)|].
  split; [apply in_alignments; auto|]. intros al' H. specialize (B al' H). unfold aligned_prob. split; [apply B|apply B].
Qed.
Theorem train_best : Forall2 (fun p ls => exists al, In al (pair_alignments nulls p) /\ ls = links_from 0 al /\
  forall al', In al' (pair_alignments nulls p) -> aligned_prob nulls diag null p0 tension' (tprob t) p al' <= aligned_prob nulls diag null p0 tension' (tprob t) p al /\
    (aligned_prob nulls diag null p0 tension' (tprob t) p al' = aligned_prob nulls diag null p0 tension' (tprob t) p al -> Forall2 le al al')) corpus (links fin).
Proof.
  destruct best_exists as (als & B). rewrite (links_of als B).
  assert (K : forall l als, (forall p, In p l -> In p corpus) -> Forall2 best_alignment l als -> Forall2 (fun p ls => exists al, In al (pair_alignments nulls p) /\ ls = links_from 0 al /\
  forall al', In al' (pair_alignments nulls p) -> aligned_prob nulls diag null p0 tension' (tprob t) p al' <= aligned_prob nulls diag null p0 tension' (tprob t) p al /\
    (aligned_prob nulls diag null p0 tension' (tprob t) p al' = aligned_prob nulls diag null p0 tension' (tprob t) p al -> Forall2 le al al')) l (map (links_from 0) als)).
  { clear B. intros l als' Hl B. induction B as [|p al l als' B1 _ IH]; [constructor|]. cbn [map]. constructor; [|apply IH; intros q Hq; apply Hl; right; exact Hq].
    destruct (best_is_best p al (Hl p (or_introl eq_refl)) B1) as (I & BB'). exists al. auto. }
  apply K; auto.
Qed.
Theorem train_test : map (test_sentence c tension' t) corpus = links fin.
Proof. destruct best_exists as (als & B). rewrite (links_of als B), (tests_of als B). reflexivity. Qed.

(** ** The parameters written *)
Definition marked (v : list (list nat)) (e f : nat) : Prop := exists r, nth_error v e = Some r /\ In f r.
Lemma marked_add : forall v e f e' f', marked v e' f' \/ (e' = e /\ f' = f) -> marked (add_pair v e f) e' f'.
Proof.
  clear. assert (Z : forall e f, marked (add_pair [] e f) e f) by (induction e as [|e IH]; intros f; [exists [f]; cbn; auto|apply IH]).
  induction v as [|r v IH]; intros e f e' f' H.
  - destruct H as [(r & H & _)|(-> & ->)]; [destruct e'; discriminate|apply Z].
  - destruct e as [|e], e' as [|e']; cbn [add_pair].
    + exists (f :: r). split; [reflexivity|]. destruct H as [(r' & [= <-] & H)|(_ & ->)]; cbn; auto.
    + destruct H as [H|(H & _)]; [exact H|discriminate].
    + destruct H as [H|(H & _)]; [exact H|discriminate].
    + apply IH. destruct H as [H|(H & ->)]; [left; exact H|right; auto].
Qed.
Hypothesis Show : add_viterbi c || negb (hide_training_alignments c) = true.
Lemma words_marked x tb src m e' f' : forall trg j al v lik, length al = length trg ->
  (forall k b f, nth_error al k = Some b -> nth_error trg k = Some f -> best_choice c (probs c x tb src m (j + k) f) = Some (b, wd src b)) ->
  (marked v e' f' \/ exists k b, nth_error al k = Some b /\ nth_error trg k = Some f' /\ e' = wd src b) ->
  marked (snd (fst (final_words c x tb src m j trg v lik))) e' f'.
Proof.
  clear - Show. induction trg as [|f trg IH]; intros j [|b al] v lik L K H; try discriminate.
  - cbn [final_words fst snd]. destruct H as [H|(k & b & H & _)]; [exact H|destruct k; discriminate].
  - cbn [length] in L. pose proof (K 0%nat b f eq_refl eq_refl) as K0. rewrite Nat.add_0_r in K0. cbn [final_words]. rewrite K0, Show.
    match goal with |- context [final_words _ _ _ _ _ (S j) trg ?a ?d] => specialize (IH (S j) al a d) end.
    match goal with |- context [final_words _ _ _ _ _ (S j) trg ?a ?d] => destruct (final_words c x tb src m (S j) trg a d) as [[ls1 v2] lik2] end. cbn [fst snd] in *. apply IH; [congruence| |].
    + intros k b' f0 H1 H2. rewrite Nat.add_succ_comm. apply K; assumption.
    + destruct H as [H|([|k] & b' & H1 & H2 & H3)].
      * left. apply marked_add. auto.
      * left. apply marked_add. right. injection H1 as ->. injection H2 as ->. auto.
      * right. exists k, b'. auto.
Qed.
Lemma corpus_marked als : Forall2 best_alignment corpus als -> forall q p al k b f, nth_error corpus q = Some p -> nth_error als q = Some al -> nth_error al k = Some b -> nth_error (snd p) k = Some f ->
  marked (viterbi fin) (wd (fst p) b) f.
Proof.
  intros B q p al k b f Hq Ha Hb Hf. destruct train_outcome as (GP & L & F & G & _ & ->). unfold final_corpus.
  assert (K : forall l als s q, Forall2 best_alignment l als -> (marked (viterbi s) (wd (fst p) b) f \/ (nth_error l q = Some p /\ nth_error als q = Some al)) -> marked (viterbi (fold_left (final_sentence c tension' t) l s)) (wd (fst p) b) f).
  { clear - Show Hb Hf. intros l als s q B. revert s q. induction B as [|p1 al1 l als (B1 & B2) _ IH]; intros s q H.
    - cbn [fold_left]. destruct H as [H|(H & _)]; [exact H|destruct q; discriminate].
    - cbn [fold_left]. apply (IH _ (q - 1)%nat).
      assert (M : marked (viterbi s) (wd (fst p) b) f \/ (p1 = p /\ al1 = al) -> marked (viterbi (final_sentence c tension' t s p1)) (wd (fst p) b) f).
      { intros H0. unfold final_sentence. pose proof (words_marked tension' t (fst p1) (length (snd p1)) (wd (fst p) b) f (snd p1) 0 al1 (viterbi s) (flik s) B1 (fun k b f H1 H2 => proj1 (B2 k b f H1 H2))) as W.
        destruct (final_words c tension' t (fst p1) (length (snd p1)) 0 (snd p1) (viterbi s) (flik s)) as [[ls1 v2] lik2]. cbn [fst snd viterbi] in *. apply W. destruct H0 as [H0|(-> & ->)]; [left; exact H0|]. right. exists k, b. auto. }
      destruct H as [H|(H1 & H2)]; [left; apply M; auto|]. destruct q as [|q]; [left; apply M; right; cbn in *; split; congruence|]. right. rewrite Nat.sub_succ, Nat.sub_0_r. auto. }
  apply (K corpus als _ q); auto.
Qed.
Lemma write_rows_in beam : forall tb v e0 out, write_rows beam e0 tb v = Some out ->
  (forall e f lp, In (e, f, lp) out -> (e0 <= e)%nat /\ exists r, nth_error tb (e - e0) = Some r /\ exists p, In (f, p) r /\ lp = ln p) /\
  (forall e r f p, nth_error tb e = Some r -> In (f, p) r -> marked v e f -> In (e0 + e, f, ln p)%nat out).
Proof.
  clear. induction tb as [|cpd tb IH]; intros [|vit v] e0 out H; cbn [write_rows] in H; try discriminate.
  - injection H as <-. split; [intros e f lp []|intros [|e] r f p H; discriminate].
  - injection H as <-. split; [intros e f lp []|intros [|e] r f p H; discriminate].
  - destruct (write_rows beam (S e0) tb v) as [l|] eqn:E; [|discriminate]. injection H as <-. destruct (IH v (S e0) l E) as (I1 & I2). split.
    + intros e f lp H. apply in_app_iff in H as [H|H].
      * unfold write_row in H. apply in_flat_map in H as ([f1 p1] & Hin & H). destruct (_ || _); [|destruct H]. destruct H as [H|[]]. cbn [fst snd] in H. injection H as <- <- <-. split; [lia|]. rewrite Nat.sub_diag. exists cpd. split; [reflexivity|]. exists p1. auto.
      * destruct (I1 e f lp H) as (H1 & r & H2 & H3). split; [lia|]. exists r. replace (e - e0)%nat with (S (e - S e0)) by lia. auto.
    + intros [|e] r f p Hr Hin (vr & Hv & Hf); apply in_app_iff.
      * left. injection Hr as ->. injection Hv as ->. rewrite Nat.add_0_r. unfold write_row. apply in_flat_map. exists (f, p). split; [exact Hin|]. assert (X : existsb (Nat.eqb (fst (f, p))) vr = true) by (apply existsb_exists; exists f; split; [exact Hf|apply Nat.eqb_refl]). rewrite X, orb_true_r. left. reflexivity.
      * right. rewrite Nat.add_succ_r, <- Nat.add_succ_l. eapply I2; [exact Hr|exact Hin|exists vr; auto].
Qed.
Theorem params_written beam out : (2 <= iters)%nat -> write_params beam t (viterbi fin) = Some out ->
  (forall e f lp, In (e, f, lp) out -> together nulls null corpus e f /\ lp = ln (tprob t e f)) /\
  (forall q p ls1 i j e f, nth_error corpus q = Some p -> nth_error (links fin) q = Some ls1 -> In (i, j) ls1 -> nth_error (fst p) i = Some e -> nth_error (snd p) j = Some f -> (1 <= e)%nat -> In (e, f, ln (tprob t e f)) out).
Proof.
  intros H2 W. destruct (train_some _ _ T) as (GP & E). assert (KT : exists x t', fine t' /\ good_prior c x /\ t = next_table c corpus x t').
  { destruct iters as [|[|k]]; [lia|lia|]. destruct (iterate_table c corpus GP k true tension [] U fine_nil) as (x & t' & F' & G' & K). rewrite <- E in K. cbn [fst snd] in K. eauto 6. }
  destruct KT as (x & t' & F' & G' & Et). assert (F : fine t) by (rewrite Et; apply fine_Normalize, corpus_fine; assumption).
  assert (HT : forall e f, has t e f <-> together nulls null corpus e f).
  { intros e f. rewrite <- (corpus_has c corpus x t'). rewrite Et. split; apply has_shape; unfold next_table; rewrite shape_Normalize; reflexivity. }
  assert (TP : forall e r f p, nth_error t e = Some r -> In (f, p) r -> tprob t e f = p).
  { intros e r f p Hr Hp. unfold tprob. rewrite Hr. rewrite (lookup_in r f p); [reflexivity| |exact Hp]. unfold fine in F. rewrite Forall_forall in F. apply (F r). eapply nth_error_In, Hr. }
  assert (TL : forall e, nth_error t (S e) = nth_error (tl t) e) by (intros e; destruct t; [destruct e; reflexivity|reflexivity]).
  unfold write_params in W. destruct (write_rows_in beam (tl t) (tl (viterbi fin)) 1 out W) as (W1 & W2). split.
  - intros e f lp Hin. destruct (W1 e f lp Hin) as (He & r & Hr & p & Hp & ->). destruct e as [|e]; [lia|]. rewrite Nat.sub_succ, Nat.sub_0_r in Hr. rewrite <- TL in Hr. split; [|rewrite (TP _ _ _ _ Hr Hp); reflexivity].
    apply HT. exists r. split; [exact Hr|]. apply (in_map fst) in Hp. exact Hp.
  - intros q p ls1 i j e f Hq Hl Hij Hsi Htj He. destruct best_exists as (als & B). rewrite (links_of als B) in Hl. 
    assert (KA : exists al, nth_error als q = Some al /\ ls1 = links_from 0 al).
    { rewrite nth_error_map in Hl. destruct (nth_error als q) as [al|]; [|discriminate]. injection Hl as <-. eauto. }
    destruct KA as (al & Ha & ->).
    assert (KL : forall al j0 i j, In (i, j) (links_from j0 al) -> (j0 <= j)%nat /\ nth_error al (j - j0) = Some (S i)).
    { clear. induction al as [|[|b] al IH]; intros j0 i j H; [destruct H| |].
      - destruct (IH (S j0) i j H) as (H1 & H2). split; [lia|]. replace (j - j0)%nat with (S (j - S j0)) by lia. exact H2.
      - cbn [links_from] in H. destruct H as [H|H]; [injection H as -> ->; rewrite Nat.sub_diag; auto|]. destruct (IH (S j0) i j H) as (H1 & H2). split; [lia|]. replace (j - j0)%nat with (S (j - S j0)) by lia. exact H2. }
    destruct (KL al 0%nat i j Hij) as (_ & Hal). rewrite Nat.sub_0_r in Hal.
    pose proof (corpus_marked als B q p al j (S i) f Hq Ha Hal Htj) as M. cbn [word_at] in M. rewrite (nth_error_nth _ _ 0%nat Hsi) in M.
    assert (Hh : has t e f).
    { apply HT. exists p. split; [eapply nth_error_In, Hq|]. split; [eapply nth_error_In, Htj|]. left. eapply nth_error_In, Hsi. }
    destruct Hh as (r & Hr & Hf). apply in_map_iff in Hf as ([f1 v] & <- & Hv). cbn [fst] in *. rewrite (TP _ _ _ _ Hr Hv). destruct e as [|e]; [lia|]. apply (W2 e r f1 v); [rewrite <- TL; exact Hr|exact Hv|].
    destruct M as (vr & Hv1 & Hv2). exists vr. split; [|exact Hv2]. destruct (viterbi fin); [discriminate|exact Hv1].
Qed.
End Result.
End Train.
