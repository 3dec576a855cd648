(** The aligner as a whole. *)
From Coq Require Import Reals List Arith ZArith Lia Lra Bool.
Import ListNotations.
From Verif Require Import FastAlign FastAlignSpec FastAlignDiagProofs FastAlignEMProofs.
Local Open Scope R_scope.

(** * Tables: which pairs they have *)
Definition has (t : table) (e f : nat) : Prop := exists r, nth_error t e = Some r /\ In f (map fst r).
Lemma in_bump_iff r f x k : In k (map fst (bump r f x)) <-> k = f \/ In k (map fst r).
Proof.
  split; [apply in_bump|]. induction r as [|[k' v] r IH]; cbn; [intuition|]. destruct (Nat.eqb_spec k' f) as [->|]; cbn; intuition.
Qed.
Lemma has_nil e f : ~ has [] e f.
Proof. intros (r & H & _). destruct e; discriminate. Qed.
Lemma has_Increment : forall t e f x e' f', has (Increment t e f x) e' f' <-> has t e' f' \/ (e' = e /\ f' = f).
Proof.
  assert (C0 : forall r t f', has (r :: t) 0 f' <-> In f' (map fst r)) by (intros r t f'; split; [intros (r' & [= <-] & H); exact H|intros H; exists r; split; [reflexivity|exact H]]).
  assert (CS : forall r t e' f', has (r :: t) (S e') f' <-> has t e' f') by (intros; reflexivity).
  assert (Z : forall e f x e' f', has (Increment [] e f x) e' f' <-> e' = e /\ f' = f).
  { induction e as [|e IH]; intros f x [|e'] f'; cbn [Increment].
    - rewrite C0. cbn. intuition.
    - rewrite CS. split; [intros H; exfalso; exact (has_nil _ _ H)|intros (? & _); discriminate].
    - rewrite C0. cbn. intuition discriminate.
    - rewrite CS, IH. intuition. }
  induction t as [|r t IH]; intros e f x e' f'.
  - rewrite Z. pose proof (has_nil e' f'). intuition.
  - destruct e as [|e], e' as [|e']; cbn [Increment]; rewrite ?C0, ?CS, ?in_bump_iff, ?IH; intuition; discriminate.
Qed.
Lemma has_shape t t' e f : shape t = shape t' -> has t e f -> has t' e f.
Proof.
  intros E (r & H & I). assert (K : nth_error (shape t') e = Some (map fst r)) by (rewrite <- E; apply (map_nth_error (map fst)), H).
  apply nth_shape in K as (r' & H' & Er). exists r'. split; [exact H'|]. rewrite <- Er. exact I.
Qed.

Section Aligner.
Variable c : config.
Notation nulls := (use_null c).
Notation diag := (favor_diagonal c).
Notation p0 := (prob_align_null c).
Notation null := (kNULL c).
Notation wd := (word_at null).

(** * Parameters for which the program makes sense *)
Definition good_prior (tension : R) : Prop := usable_prior nulls diag p0 tension.
Notation good_pair := usable_pair.

Lemma prior_ok tension j m n i : good_prior tension -> (j < m)%nat -> (1 <= n)%nat -> (Z.of_nat n < 2 ^ 32)%Z -> In i (positions nulls n) ->
  prior c tension j m n i = position_prob nulls diag p0 tension m n j i /\ 0 < prior c tension j m n i.
Proof.
  intros G Hj Hn Hb Hi. destruct diag eqn:D.
  - destruct (G D) as (Ha & Hp & H0). destruct i as [|i].
    + unfold prior, position_prob. rewrite D. split; [reflexivity|]. apply H0. unfold positions in Hi. destruct nulls; [reflexivity|]. apply in_seq in Hi. lia.
    + rewrite (prior_diag c tension j m n (S i)) by (assumption || lia || lra). unfold position_prob. split; [reflexivity|]. apply Rmult_lt_0_compat; [lra|]. apply Rdiv_lt_0_compat; [apply exp_pos|apply diag_total_pos; exact Hn].
  - unfold prior, position_prob. rewrite D. unfold uniform, positions. split.
    + rewrite app_length, seq_length. destruct nulls; cbn [length]; f_equal; f_equal; lia.
    + apply Rdiv_lt_0_compat; [lra|]. apply lt_0_INR. clear - Hn. destruct nulls; lia.
Qed.

(** * One target word *)
Lemma combine_nth (src : list nat) : forall k, combine (seq k (length src)) src = map (fun i => (i, nth (i - k) src 0%nat)) (seq k (length src)).
Proof.
  induction src as [|w src IH]; intros k; [reflexivity|]. cbn [length seq combine map]. rewrite Nat.sub_diag. f_equal. rewrite IH. apply map_ext_in. intros i Hi. apply in_seq in Hi. replace (i - k)%nat with (S (i - S k)) by lia. reflexivity.
Qed.
Lemma choices_eq src : choices c src = map (fun i => (i, wd src i)) (positions nulls (length src)).
Proof.
  unfold choices, positions. rewrite map_app. f_equal; [destruct nulls; reflexivity|]. rewrite combine_nth. apply map_ext_in. intros [|i] Hi; apply in_seq in Hi; [lia|]. cbn [word_at]. do 2 f_equal. lia.
Qed.
(** The probability of each choice, and of the word. *)
Definition share (tension : R) (t : table) (src : list nat) (m j f i : nat) : R := tprob t (wd src i) f * prior c tension j m (length src) i.
Notation pos src := (positions (use_null c) (@length nat src)).
Lemma probs_eq tension t src m j f : probs c tension t src m j f = map (fun i => ((i, wd src i), share tension t src m j f i)) (pos src).
Proof. unfold probs. rewrite choices_eq, map_map. reflexivity. Qed.
Definition wprob (tension : R) (t : table) (src : list nat) (m j f : nat) : R := Rsum (map (share tension t src m j f) (pos src)).
Lemma psum_probs tension t src m j f : psum (probs c tension t src m j f) = wprob tension t src m j f.
Proof. rewrite psum_eq, probs_eq, map_map. reflexivity. Qed.

Lemma pos_nonempty src : src <> [] -> pos src <> [].
Proof. unfold positions. destruct src as [|w src]; [congruence|]. intros _. destruct nulls; discriminate. Qed.

Section Word.
Variable tension : R.
Variable src : list nat.
Variable m j f : nat.
Hypothesis G : good_prior tension.
Hypothesis Hs : src <> [].
Hypothesis Hb : (Z.of_nat (length src) < 2 ^ 32)%Z.
Hypothesis Hj : (j < m)%nat.
Lemma src_len : (1 <= length src)%nat. Proof. destruct src; [congruence|cbn; lia]. Qed.
Lemma share_pos t i : fine t -> In i (pos src) -> 0 < share tension t src m j f i.
Proof. intros F Hi. apply Rmult_lt_0_compat; [apply tprob_pos, F|]. apply (prior_ok tension j m (length src) i); auto using src_len. Qed.
Lemma wprob_pos t : fine t -> 0 < wprob tension t src m j f.
Proof. intros F. apply Rsum_pos; [apply pos_nonempty, Hs|]. intros i Hi. apply share_pos; assumption. Qed.

Definition post (t : table) (i : nat) : R := share tension t src m j f i / wprob tension t src m j f.
Lemma post_pos t i : fine t -> In i (pos src) -> 0 < post t i.
Proof. intros F Hi. apply Rdiv_lt_0_compat; [apply share_pos; assumption|apply wprob_pos, F]. Qed.
Lemma post_sum t : fine t -> Rsum (map (post t) (pos src)) = 1.
Proof.
  intros F. pose proof (wprob_pos t F). unfold post. rewrite (Rsum_ext _ (fun i => / wprob tension t src m j f * share tension t src m j f i)) by (intros; unfold Rdiv; ring). rewrite Rsum_scale. fold (wprob tension t src m j f). field. lra.
Qed.
(** Jensen. *)
Lemma word_gain t t' : fine t -> fine t' -> Rsum (map (fun i => post t i * gain t t' (wd src i) f) (pos src)) <= ln (wprob tension t' src m j f) - ln (wprob tension t src m j f).
Proof.
  intros F F'. pose proof (wprob_pos t F) as P. pose proof (wprob_pos t' F') as P'.
  pose proof (jensen (post t) (fun i => tprob t' (wd src i) f / tprob t (wd src i) f) (pos src)) as J.
  assert (Q : forall i, In i (pos src) -> 0 < post t i /\ 0 < tprob t' (wd src i) f / tprob t (wd src i) f).
  { intros i Hi. split; [apply post_pos; assumption|]. apply Rdiv_lt_0_compat; apply tprob_pos; assumption. }
  specialize (J Q (post_sum t F)). cbv beta in J.
  rewrite (Rsum_ext (fun a => post t a * (tprob t' (wd src a) f / tprob t (wd src a) f)) (fun a => / wprob tension t src m j f * share tension t' src m j f a)) in J.
  - rewrite Rsum_scale in J. fold (wprob tension t' src m j f) in J. rewrite ln_mult, ln_Rinv in J by (try apply Rinv_0_lt_compat; assumption).
    rewrite (Rsum_ext (fun i => post t i * gain t t' (wd src i) f) (fun a => post t a * ln (tprob t' (wd src a) f / tprob t (wd src a) f))); [lra|].
    intros i Hi. unfold gain, Rdiv. pose proof (tprob_pos t (wd src i) f F). pose proof (tprob_pos t' (wd src i) f F'). rewrite ln_mult, ln_Rinv by (try apply Rinv_0_lt_compat; assumption). reflexivity.
  - intros i Hi. unfold post, share. pose proof (tprob_pos t (wd src i) f F). field. lra.
Qed.

(** What counting one word does. *)
Lemma fold_counts n sum : forall l s, counts (fold_left (count_one m n j f sum) l s) = fold_left (fun t (x : nat * nat * R) => Increment t (snd (fst x)) f (snd x / sum)) l (counts s).
Proof. induction l as [|[[i e] q] l IH]; intros s; [reflexivity|]. cbn [fold_left]. rewrite IH. f_equal. destruct i; reflexivity. Qed.
Lemma fold_lik n sum : forall l s, likelihood (fold_left (count_one m n j f sum) l s) = likelihood s.
Proof. induction l as [|[[i e] q] l IH]; intros s; [reflexivity|]. cbn [fold_left]. rewrite IH. destruct i; reflexivity. Qed.
Lemma count_word_lik t s : likelihood (count_word c tension t src m j f s) = likelihood s + ln (wprob tension t src m j f).
Proof. unfold count_word. cbn [likelihood]. rewrite fold_lik, psum_probs. reflexivity. Qed.
Lemma count_word_counts t s : counts (count_word c tension t src m j f s) = fold_left (fun cs i => Increment cs (wd src i) f (post t i)) (pos src) (counts s).
Proof.
  unfold count_word. cbn [counts]. rewrite fold_counts, psum_probs, probs_eq. generalize (counts s). unfold post. generalize (pos src). intros l. induction l as [|i l IH]; intros cs; [reflexivity|]. cbn [map fold_left fst snd]. apply IH.
Qed.
Lemma incs_weight G0 (w : nat -> R) : forall l cs, weight G0 0 (fold_left (fun cs i => Increment cs (wd src i) f (w i)) l cs) = weight G0 0 cs + Rsum (map (fun i => w i * G0 (wd src i) f) l).
Proof. induction l as [|i l IH]; intros cs; cbn [fold_left map]; [change (Rsum []) with 0; lra|]. rewrite IH, weight_Increment, Rsum_cons. cbn [Nat.add]. lra. Qed.
Lemma incs_fine (w : nat -> R) : forall l cs, (forall i, In i l -> 0 < w i) -> fine cs -> fine (fold_left (fun cs i => Increment cs (wd src i) f (w i)) l cs).
Proof. induction l as [|i l IH]; intros cs H F; [exact F|]. cbn [fold_left]. apply IH; [intros k Hk; apply H; right; exact Hk|]. apply fine_Increment; [apply H; left; reflexivity|exact F]. Qed.
Lemma incs_shape (w w' : nat -> R) : forall l cs cs', shape cs = shape cs' -> shape (fold_left (fun cs i => Increment cs (wd src i) f (w i)) l cs) = shape (fold_left (fun cs i => Increment cs (wd src i) f (w' i)) l cs').
Proof. induction l as [|i l IH]; intros cs cs' E; [exact E|]. cbn [fold_left]. apply IH, shape_Increment, E. Qed.
Lemma incs_has (w : nat -> R) e' f' : forall l cs, has (fold_left (fun cs i => Increment cs (wd src i) f (w i)) l cs) e' f' <-> has cs e' f' \/ (f' = f /\ In e' (map (wd src) l)).
Proof. induction l as [|i l IH]; intros cs; cbn [fold_left map]; [cbn; tauto|]. rewrite IH, has_Increment. cbn [In]. assert (e' = wd src i <-> wd src i = e') by (split; apply eq_sym). tauto. Qed.
End Word.

(** * Words, sentences *)
Fixpoint words_lik (tension : R) (t : table) (src : list nat) (m j : nat) (trg : list nat) : R :=
  match trg with [] => 0 | f :: trg' => ln (wprob tension t src m j f) + words_lik tension t src m (S j) trg' end.
Definition pair_lik (tension : R) (t : table) (p : sentence) : R := words_lik tension t (fst p) (length (snd p)) 0 (snd p).
Definition corpus_lik (tension : R) (t : table) (corpus : list sentence) : R := Rsum (map (pair_lik tension t) corpus).

Section Words.
Variable tension : R.
Variable src : list nat.
Hypothesis G : good_prior tension.
Hypothesis Hs : src <> [].
Hypothesis Hb : (Z.of_nat (length src) < 2 ^ 32)%Z.
Variable m : nat.
Lemma words_likelihood t : forall trg j s, likelihood (count_words c tension t src m j trg s) = likelihood s + words_lik tension t src m j trg.
Proof. clear. induction trg as [|f trg IH]; intros j s; cbn [count_words words_lik]; [lra|]. rewrite IH, count_word_lik. lra. Qed.
Lemma words_fine t : fine t -> forall trg j s, (j + length trg <= m)%nat -> fine (counts s) -> fine (counts (count_words c tension t src m j trg s)).
Proof.
  intros F. induction trg as [|f trg IH]; intros j s Hj Fs; [exact Fs|]. cbn [count_words length] in *. apply IH; [lia|]. rewrite count_word_counts. apply incs_fine; [|exact Fs]. intros i Hi. apply post_pos; auto; lia.
Qed.
Lemma words_gain t t' : fine t -> fine t' -> forall trg j s, (j + length trg <= m)%nat ->
  weight (gain t t') 0 (counts (count_words c tension t src m j trg s)) - weight (gain t t') 0 (counts s) <= words_lik tension t' src m j trg - words_lik tension t src m j trg.
Proof.
  intros F F'. induction trg as [|f trg IH]; intros j s Hj; cbn [count_words words_lik length] in *; [lra|].
  specialize (IH (S j) (count_word c tension t src m j f s) ltac:(lia)). rewrite (count_word_counts tension src m j f) in IH. rewrite incs_weight in IH.
  pose proof (word_gain tension src m j f G Hs Hb ltac:(lia) t t' F F') as W. lra.
Qed.
Lemma words_shape t t' : forall trg j s s', shape (counts s) = shape (counts s') -> shape (counts (count_words c tension t src m j trg s)) = shape (counts (count_words c tension t' src m j trg s')).
Proof. clear. induction trg as [|f trg IH]; intros j s s' E; [exact E|]. cbn [count_words]. apply IH. rewrite !count_word_counts. apply incs_shape, E. Qed.
Lemma words_has t e' f' : forall trg j s, has (counts (count_words c tension t src m j trg s)) e' f' <-> has (counts s) e' f' \/ (In f' trg /\ In e' (map (wd src) (pos src))).
Proof.
  clear. induction trg as [|f trg IH]; intros j s; cbn [count_words In]; [tauto|]. rewrite IH, count_word_counts, (incs_has src m f). assert (f' = f <-> f = f') by (split; congruence). tauto.
Qed.
End Words.
Lemma words_shape2 tension tension' src m t t' : forall trg j s s', shape (counts s) = shape (counts s') -> shape (counts (count_words c tension t src m j trg s)) = shape (counts (count_words c tension' t' src m j trg s')).
Proof. induction trg as [|f trg IH]; intros j s s' E; [exact E|]. cbn [count_words]. apply IH. rewrite !count_word_counts. apply incs_shape, E. Qed.

Notation together := (FastAlignSpec.together nulls null).
Lemma in_words e src : In e (map (wd src) (pos src)) <-> In e src \/ (nulls = true /\ e = null).
Proof.
  unfold positions. rewrite map_app, in_app_iff. assert (E : map (wd src) (seq 1 (length src)) = src).
  { rewrite <- seq_shift, map_map. cbn [word_at]. clear. induction src as [|w src IH]; [reflexivity|]. cbn [length seq map nth]. f_equal. rewrite <- seq_shift, map_map. exact IH. }
  rewrite E. destruct nulls; cbn [map In word_at]; assert (null = e <-> e = null) by (split; apply eq_sym); [tauto|]. split; [tauto|]. intros [H1|(H1 & _)]; [tauto|discriminate].
Qed.

Section Corpus.
Variable corpus : list sentence.
Hypothesis GP : Forall good_pair corpus.

Lemma corpus_likelihood tension t : likelihood (count_corpus c tension t corpus) = corpus_lik tension t corpus.
Proof.
  unfold count_corpus, corpus_lik. transitivity (likelihood start + Rsum (map (pair_lik tension t) corpus)); [|cbn; lra]. generalize start. clear GP. induction corpus as [|p l IH]; intros s; cbn [fold_left map]; [change (Rsum []) with 0; lra|].
  rewrite IH, Rsum_cons. unfold count_sentence. rewrite words_likelihood. cbn [likelihood]. unfold pair_lik. lra.
Qed.
Lemma corpus_fine tension t : good_prior tension -> fine t -> fine (counts (count_corpus c tension t corpus)).
Proof.
  intros G F. unfold count_corpus. assert (Fs : fine (counts start)) by constructor. revert Fs. generalize start. pose proof GP as GP2; clear GP; induction GP2 as [|p l (H1 & H2 & H3) _ IH]; intros s Fs; [exact Fs|]. cbn [fold_left]. apply IH. unfold count_sentence. apply words_fine; auto; lia.
Qed.
Lemma corpus_gain tension t t' : good_prior tension -> fine t -> fine t' -> weight (gain t t') 0 (counts (count_corpus c tension t corpus)) <= corpus_lik tension t' corpus - corpus_lik tension t corpus.
Proof.
  intros G F F'. assert (K : forall s, weight (gain t t') 0 (counts (fold_left (count_sentence c tension t) corpus s)) - weight (gain t t') 0 (counts s) <= corpus_lik tension t' corpus - corpus_lik tension t corpus).
  { unfold corpus_lik. pose proof GP as GP2; clear GP; induction GP2 as [|p l (H1 & H2 & H3) _ IH]; intros s; cbn [fold_left map]; [lra|]. rewrite !Rsum_cons. specialize (IH (count_sentence c tension t s p)).
    pose proof (words_gain tension (fst p) G H1 H3 (length (snd p)) t t' F F' (snd p) 0 (Stats (counts s) (c0 s) (emp_feat s) (toks s + INR (length (snd p)))%R (likelihood s)) ltac:(lia)) as W. fold (count_sentence c tension t s p) in W. cbn [counts] in W. unfold pair_lik at 1 3. lra. }
  specialize (K start). cbn [start counts weight] in K. unfold count_corpus. lra.
Qed.
Lemma corpus_shape tension tension' t t' : shape (counts (count_corpus c tension t corpus)) = shape (counts (count_corpus c tension' t' corpus)).
Proof.
  unfold count_corpus. assert (E : shape (counts start) = shape (counts start)) by reflexivity. revert E. generalize start at 1 3. generalize start. clear GP. induction corpus as [|p l IH]; intros s s' E; [exact E|]. cbn [fold_left]. apply IH. unfold count_sentence. apply words_shape2, E.
Qed.
Lemma corpus_has tension t e f : has (counts (count_corpus c tension t corpus)) e f <-> together corpus e f.
Proof.
  unfold count_corpus. assert (K : forall s, has (counts (fold_left (count_sentence c tension t) corpus s)) e f <-> has (counts s) e f \/ together corpus e f).
  { clear GP. induction corpus as [|p l IH]; intros s; cbn [fold_left].
    - split; [auto|]. intros [H|(p & [] & _)]. exact H.
    - rewrite IH. unfold count_sentence. rewrite words_has. cbn [counts]. rewrite in_words. unfold together. split.
      + intros [[H|(H1 & H2)]|(q & H1 & H2)]; [auto|right; exists p; cbn; auto|right; exists q; cbn; auto].
      + intros [H|(q & [<-|H1] & H2)]; [auto|tauto|right; exists q; auto]. }
  rewrite K. cbn [start counts]. pose proof (has_nil e f). intuition.
Qed.

(** * EM *)
Definition em_ready (tension : R) (t : table) : Prop := fine t /\ bounded t (shape (counts (count_corpus c tension [] corpus))).
Lemma em_step tension t : good_prior tension -> em_ready tension t -> let t' := Normalize (counts (count_corpus c tension t corpus)) in
  em_ready tension t' /\ corpus_lik tension t corpus <= corpus_lik tension t' corpus.
Proof.
  intros G (F & B) t'. pose proof (corpus_fine tension t G F) as Fc. assert (F' : fine t') by (apply fine_Normalize, Fc). split.
  - split; [exact F'|]. rewrite (corpus_shape tension tension [] t). apply bounded_Normalize, Fc.
  - pose proof (corpus_gain tension t t' G F F') as K. rewrite (corpus_shape tension tension [] t) in B. pose proof (mstep t _ F Fc B) as M. fold t' in M. lra.
Qed.
Lemma em_start tension V : good_prior tension -> (forall p f, In p corpus -> In f (snd p) -> In f V) -> INR (length V) <= 10 ^ 9 -> em_ready tension [].
Proof.
  intros G HV HL. split; [constructor|]. intros e ws H. pose proof (corpus_fine tension [] G (Forall_nil _)) as Fc.
  destruct (nth_shape _ e ws H) as (r & E & ->). rewrite (Rsum_ext _ (fun _ => unseen)) by (intros f _; destruct e; reflexivity). rewrite Rsum_const.
  assert (N : NoDup (map fst r)) by (unfold fine in Fc; rewrite Forall_forall in Fc; apply (Fc r); eapply nth_error_In, E).
  assert (L : (length (map fst r) <= length V)%nat).
  { apply NoDup_incl_length; [exact N|]. intros f Hf. assert (Hh : has (counts (count_corpus c tension [] corpus)) e f) by (exists r; auto). apply corpus_has in Hh as (p & H1 & H2 & _). eapply HV; eassumption. }
  apply le_INR in L. unfold unseen. assert (0 < 10 ^ 9) by (apply pow_lt; lra). apply (Rmult_le_reg_r (10 ^ 9)); [assumption|]. replace (INR (length (map fst r)) * (1 / 10 ^ 9) * 10 ^ 9) with (INR (length (map fst r))) by (field; lra). lra.
Qed.

Lemma final_words_lik tension t src m : forall trg j v lik, snd (final_words c tension t src m j trg v lik) = lik + words_lik tension t src m j trg.
Proof.
  induction trg as [|f trg IH]; intros j v lik; cbn [final_words words_lik]; [cbn; lra|]. match goal with |- context [final_words _ _ _ _ _ (S j) trg ?a ?b] => specialize (IH (S j) a b); destruct (final_words c tension t src m (S j) trg a b) as [[ls v2] lik2] end.
  cbn [snd] in *. rewrite IH, psum_probs. lra.
Qed.
Lemma final_lik tension t : flik (final_corpus c tension t corpus) = corpus_lik tension t corpus.
Proof.
  unfold final_corpus, corpus_lik. transitivity (flik (Final [] [] 0) + Rsum (map (pair_lik tension t) corpus)); [|cbn [flik]; lra]. generalize (Final [] [] 0). clear GP. induction corpus as [|p l IH]; intros s; cbn [fold_left map]; [change (Rsum []) with 0; lra|].
  rewrite IH, Rsum_cons. unfold final_sentence. pose proof (final_words_lik tension t (fst p) (length (snd p)) (snd p) 0 (viterbi s) (flik s)) as K.
  destruct (final_words c tension t (fst p) (length (snd p)) 0 (snd p) (viterbi s) (flik s)) as [[ls v] lik]. cbn [snd flik] in *. rewrite K. unfold pair_lik. lra.
Qed.
End Corpus.
End Aligner.
