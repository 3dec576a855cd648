(** Chart-state scoring adds up to the score of the whole sequence. *)
From Coq Require Import List ZArith Bool Lia.
Import ListNotations.
From Verif Require Import Opt Lm LmSpec LmProofs.
Open Scope Z_scope.

Section P.
Variable m : search.
Hypothesis WB : well_built m.
Notation entry := (entry m).
Notation logprob := (logprob m).
Notation seq_score := (seq_score m).
Notation N := (order m).
Notation BL := (BL m).
Notation E := (E m).
Notation norx := (norx m).
Notation NX := (NX m).
Notation stands := (stands m).

Definition PL (L : list word) : list ngram := map (fun i => rev (firstn i L)) (seq 1 (length L)).

Lemma PL_snoc L x : PL (L ++ [x]) = PL L ++ [x :: rev L].
Proof.
  unfold PL. rewrite app_length. cbn [length]. rewrite Nat.add_1_r, seq_S, map_app. f_equal.
  - apply map_ext_in. intros i Hi. apply in_seq in Hi. f_equal. rewrite firstn_app. replace (i - length L)%nat with 0%nat by lia. cbn. apply app_nil_r.
  - cbn [map Nat.add]. rewrite firstn_all2 by (rewrite app_length; cbn; lia). rewrite rev_app_distr. reflexivity.
Qed.
Lemma PL_length L : length (PL L) = length L.
Proof. unfold PL. rewrite map_length, seq_length. reflexivity. Qed.
Lemma PL_nth A x B : nth_error (PL (A ++ x :: B)) (length A) = Some (x :: rev A).
Proof.
  unfold PL. erewrite map_nth_error with (d := S (length A)).
  - f_equal. rewrite firstn_app. replace (S (length A) - length A)%nat with 1%nat by lia. rewrite firstn_all2 by lia. cbn. rewrite rev_app_distr. reflexivity.
  - rewrite nth_error_nth' with (d := 0%nat) by (rewrite seq_length, app_length; cbn; lia). rewrite seq_nth by (rewrite app_length; cbn; lia). reflexivity.
Qed.

Definition lefts_ok (L : list word) : Prop := (length L <= N - 1)%nat /\ forall A x B, L = A ++ x :: B -> exists w, entry (x :: rev A) = Some w.

Lemma lefts_snoc L x w : lefts_ok L -> entry (x :: rev L) = Some w -> (S (length L) <= N - 1)%nat -> lefts_ok (L ++ [x]).
Proof.
  intros (H1 & H2) Hx Hl. split; [rewrite app_length; cbn; lia|]. intros A y B HE.
  destruct B as [|z B'] using rev_ind.
  - apply app_inj_tail in HE. destruct HE as [-> ->]. eauto.
  - clear IHB'. replace (A ++ y :: B' ++ [z]) with ((A ++ y :: B') ++ [z]) in HE by (rewrite <- app_assoc; reflexivity). apply app_inj_tail in HE. destruct HE as [-> _]. eapply H2. reflexivity.
Qed.
Lemma lefts_nil : lefts_ok []. Proof. split; [cbn; lia|]. intros [|] ? ? H; discriminate. Qed.

Definition rst (g : ngram) : Z := match entry g with Some w => rest w | None => 0 end.
Definition rests (L : list word) : Z := zsum (map rst (PL L)).
Lemma rests_snoc L x : rests (L ++ [x]) = rests L + rst (x :: rev L).
Proof. unfold rests. rewrite PL_snoc, map_app, zsum_app. cbn. lia. Qed.

Lemma seq_score_app h a b : seq_score h (a ++ b) = seq_score h a + seq_score (rev a ++ h) b.
Proof.
  revert h. induction a as [|x a IH]; intros h; [reflexivity|]. cbn [app LmSpec.seq_score rev]. rewrite IH, <- app_assoc. cbn. lia.
Qed.
Lemma seq_score_snoc h a x : seq_score h (a ++ [x]) = seq_score h a + logprob x (rev a ++ h).
Proof. rewrite seq_score_app. cbn. lia. Qed.

(** A partly scored sequence: [L] are its leftmost words, which still wait for their left
    context; [SC h] is the score of the sequence after the history [h], [H h] the history
    it leaves behind. *)
Definition JJ (L : list word) (ptrs : list ngram) (d : bool) (st : state) (p : Z) (SC : list word -> Z) (H : list word -> list word) : Prop :=
  ptrs = PL L /\ lefts_ok L /\ exists V, p = rests L + V /\
  if d then forall h, exists pend, stands (H h) st pend /\ SC h + pend = seq_score h L + E (rev L) h + V
  else V = 0 /\ st = State (rev L) (BL [] (rev L)) /\ (forall h, H h = rev L ++ h) /\ (forall h, SC h = seq_score h L).

Definition J (L : list word) (s : rule_score) (x : Z) SC H : Prop := JJ L (o_left s) (left_done s) (o_right s) (rs_prob s + x) SC H.
Definition JC (L : list word) (c : chart) (p : Z) SC H : Prop := JJ L (pointers c) (full c) (right c) p SC H.

Lemma J_new : J [] NewRule 0 (fun _ => 0) (fun h => h).
Proof. split; [reflexivity|]. split; [apply lefts_nil|]. exists 0. cbn. repeat split; reflexivity. Qed.

Lemma J_begin_sentence b : J [] (BeginSentence m b NewRule) 0 (fun h => E [] h) (fun _ => [b]).
Proof.
  split; [reflexivity|]. split; [apply lefts_nil|]. exists 0. split; [reflexivity|]. cbn [left_done BeginSentence].
  intros h. exists 0. split; [apply (stands_begin m WB)|]. cbn [LmSpec.seq_score rev]. lia.
Qed.

Lemma J_begin_nonterminal L c p SC H : JC L c p SC H -> J L (BeginNonTerminal c 0) p SC H.
Proof. intros HJ. exact HJ. Qed.

Lemma finish_J L s x SC H : J L s x SC H -> let '(p, c) := Finish m s in JC L c (p + x) SC H.
Proof.
  intros (H1 & H2 & V & H3 & H4). cbn [Finish]. split; [exact H1|]. split; [exact H2|]. exists V. split; [exact H3|].
  cbn [full right]. destruct (left_done s); [exact H4|]. cbn [orb]. destruct (Nat.eqb_spec (length (o_left s)) (N - 1)) as [Hn|]; [|exact H4].
  destruct H4 as (-> & H5 & H6 & H7). rewrite H1, PL_length in Hn. intros h. exists (E (rev L) h). rewrite H7. split; [|lia].
  pose proof (order_ge m WB). exists h. rewrite H5, H6. cbn [words backoffs]. split; [reflexivity|]. split; [reflexivity|]. split.
  - destruct h as [|z h]; [exact I|]. intros y. apply (entry_too_long m WB). cbn [length]. rewrite app_length, rev_length. cbn. lia.
  - split; [reflexivity|]. rewrite rev_length. lia.
Qed.

Lemma stands_extend h st pend t : stands h st pend -> norx h t -> stands (h ++ t) st (pend + E h t).
Proof.
  intros (h' & -> & H2 & H3 & H4 & H5) Hn. exists (h' ++ t). rewrite <- app_assoc. split; [reflexivity|]. split; [exact H2|]. split.
  - destruct h' as [|z h']; [|exact H3]. rewrite app_nil_r in Hn. exact Hn.
  - split; [|exact H5]. rewrite (E_app m), H4. reflexivity.
Qed.

Lemma push_ok (l : list ngram) p : (S (length l) <= N - 1)%nat -> push_left m l p = Some (l ++ [p]).
Proof. intros H. unfold push_left. rewrite (fits_ok m WB); [reflexivity|]. rewrite app_length. cbn. lia. Qed.

Lemma terminal_J L s x SC H w : J L s x SC H ->
  exists L' s', Terminal m s w = Some s' /\ J L' s' x (fun h => SC h + logprob w (H h)) (fun h => w :: H h)
  /\ (left_done s = true -> left_done s' = true /\ L' = L /\
      exists V, rs_prob s' + x = rests L + V /\ forall h, SC h + logprob w (H h) = seq_score h L + E (rev L) h + V).
Proof.
  intros (H1 & H2 & V & H3 & H4). unfold Terminal. destruct (left_done s) eqn:Hd.
  - destruct (H4 []) as (p0 & S0 & _). destruct (full_score m WB _ _ _ w S0) as (r & out & Ef & _).
    rewrite Ef. cbn [bind].
    assert (K : forall h, stands (w :: H h) out 0 /\ SC h + logprob w (H h) = seq_score h L + E (rev L) h + (V + r_prob r)).
    { intros h. destruct (H4 h) as (pend & Sh & Eh). destruct (full_score m WB _ _ _ w Sh) as (r' & out' & Ef' & Ep & So & _).
      rewrite Ef in Ef'. injection Ef' as <- <-. split; [exact So|]. lia. }
    exists L, (RS (o_left s) out true (rs_prob s + r_prob r)). split; [reflexivity|]. split.
    + split; [exact H1|]. split; [exact H2|]. exists (V + r_prob r). cbn [rs_prob left_done o_right]. split; [lia|].
      intros h. exists 0. destruct (K h) as (K1 & K2). split; [exact K1|lia].
    + intros _. split; [reflexivity|]. split; [reflexivity|]. exists (V + r_prob r). cbn [rs_prob]. split; [lia|]. intros h. apply K.
  - destruct H4 as (-> & Hst & HH & HS).
    assert (Sl : stands (rev L) (o_right s) 0).
    { exists []. rewrite Hst. cbn [words backoffs]. rewrite app_nil_r. split; [reflexivity|]. split; [reflexivity|]. split; [exact I|]. split; [reflexivity|]. rewrite rev_length. apply H2. }
    destruct (full_score m WB _ _ _ w Sl) as (r & out & Ef & Ep & So & Lo & Wo & Hi1 & Hi0).
    assert (Hw : words (o_right s) = rev L) by (rewrite Hst; reflexivity).
    assert (Hsl : slen (o_right s) = length L) by (unfold slen; rewrite Hw; apply rev_length).
    rewrite Ef. cbn [bind]. rewrite Hw in *. rewrite Hsl in *.
    destruct (r_indep r) eqn:Hi.
    + specialize (Hi1 eq_refl). exists L, (RS (o_left s) out true (rs_prob s + r_prob r)). split; [reflexivity|]. split; [|discriminate].
      split; [exact H1|]. split; [exact H2|]. exists (r_prob r). cbn [rs_prob left_done o_right]. split; [lia|].
      intros h. exists 0. rewrite HH, HS. split.
      * assert (NXh : NX (w :: rev L) h).
        { apply (NX_none m WB); [discriminate|]. destruct h as [|y h]; [exact I|]. apply Hi1. }
        replace 0 with (0 + E (w :: rev L) h) by (rewrite (NX_E m WB _ _ NXh); reflexivity).
        apply (stands_extend (w :: rev L)); [exact So|]. apply (NX_norx m WB). exact NXh.
      * assert (Hlp : logprob w (rev L ++ h) = logprob w (rev L) + E (rev L) h).
        { destruct (lp_match m WB w (rev L)) as (c & h' & e & Hc & He & Hs & ->). rewrite Hc, <- app_assoc. rewrite (lp_char m WB w c (h' ++ h) e He).
          - rewrite (E_app m). lia.
          - destruct h' as [|z h']; [|exact Hs]. rewrite app_nil_r in Hc. destruct h as [|z h]; [exact I|]. cbn. rewrite <- Hc. apply Hi1. }
        lia.
    + destruct (Hi0 eq_refl) as (e & He & Hx & Hr & HN). rewrite H1, push_ok by (rewrite PL_length; lia). cbn [bind].
      rewrite Hx, Hr.
      assert (LO : lefts_ok (L ++ [w])) by (eapply lefts_snoc; [exact H2|exact He|lia]).
      exists (L ++ [w]), (RS (PL L ++ [w :: rev L]) out (negb (Nat.eqb (slen out) (length L + 1))) (rs_prob s + rest e)). split; [reflexivity|]. split; [|discriminate].
      split; [symmetry; apply PL_snoc|]. split; [exact LO|]. exists 0. cbn [rs_prob left_done o_right].
      split. { rewrite rests_snoc. unfold rst. rewrite He. lia. }
      destruct (Nat.eqb_spec (slen out) (length L + 1)) as [Hs|Hs]; cbn [negb].
      * split; [reflexivity|]. rewrite rev_app_distr. cbn [rev app]. split.
        { destruct So as (h' & Ho & Hb & _). destruct out as [wo bo]. cbn [words backoffs slen] in *.
          assert (wo = w :: rev L) as ->. { rewrite Wo. apply firstn_all2. unfold slen in Hs. cbn in Hs. cbn. rewrite rev_length. lia. }
          rewrite Hb. reflexivity. }
        split; [intros h; rewrite HH; reflexivity|]. intros h. rewrite HS, HH, seq_score_snoc. reflexivity.
      * intros h. rewrite rev_app_distr. cbn [rev app]. exists (0 + E (w :: rev L) h). rewrite HH, HS, seq_score_snoc. split; [|lia].
        apply (stands_extend (w :: rev L)); [exact So|]. destruct So as (h' & Ho & Hb & Hn & _).
        destruct h as [|y h]; [exact I|]. intros z. destruct h' as [|a h'].
        { rewrite app_nil_r in Ho. apply (f_equal (@length _)) in Ho. unfold slen in Hs. rewrite <- Ho in Hs. cbn in Hs. rewrite rev_length in Hs. lia. }
        rewrite Ho. replace (z :: (words out ++ a :: h') ++ [y]) with ((z :: words out ++ [a]) ++ h' ++ [y]) by (cbn; rewrite <- !app_assoc; reflexivity).
        apply (entry_none_app m WB); [discriminate|apply Hn].
Qed.

(** ** Nonterminals *)

Lemma extend_ok A x wg cur back : entry (x :: rev A) = Some wg -> (S (length A) <= N - 1)%nat ->
  (length cur <= length back)%nat -> firstn (length cur) back = BL (rev A) cur ->
  exists r bs j, ExtendLeft m cur back (x :: rev A) (S (length A)) = Some (r, bs, j)
  /\ r_prob r = logprob x (rev A ++ cur) - rest wg
  /\ (r_indep r = true -> forall y, entry (x :: rev A ++ cur ++ [y]) = None)
  /\ (r_indep r = false -> exists e, entry (x :: rev A ++ cur) = Some e /\ r_ext r = x :: rev A ++ cur /\ r_rest r = rest e - rest wg /\ (S (length A) + length cur < N)%nat)
  /\ (j <= length cur)%nat /\ (j <= length bs)%nat /\ firstn j bs = BL (x :: rev A) (firstn j cur)
  /\ (j <> 0%nat -> useful m (x :: rev A ++ firstn j cur)) /\ NX (x :: rev A ++ firstn j cur) (skipn j cur).
Proof.
  intros He HN Hb HB. set (g := x :: rev A) in *. unfold ExtendLeft. assert (Lg : length g = S (length A)) by (unfold g; cbn; rewrite rev_length; reflexivity).
  assert (exists r, (if Nat.eqb (S (length A)) 1
        then match g with
             | [w] => let '(u, node) := LookupUnigram m w in Some (u, Ret (prob u) 1 (negb (ext_left u)) node (rest u))
             | _ => None
             end
        else bind (Unpack m g (S (length A))) (fun w => Some (w, Ret (prob w) (S (length A)) false g (rest w)))) = Some (wg, r)
      /\ r_prob r = prob wg /\ r_rest r = rest wg /\ r_len r = S (length A) /\ r_ext r = g /\ (r_indep r = true -> forall y, entry (g ++ [y]) = None)) as (r0 & Er & R1 & R2 & R3 & R4 & R5).
  { destruct A as [|a A].
    - cbn in *. injection He as <-. eexists. split; [reflexivity|]. cbn. sp; auto. intros Hi y. apply (indep_sound m WB x (unigram m x) eq_refl Hi).
    - cbn [Nat.eqb length]. unfold Unpack. cbn [length Nat.leb Nat.sub]. cbn [length] in *. cbn [andb]. rewrite (entry_mid m) in He by lia. rewrite Lg in He. cbn [Nat.sub] in He. rewrite Nat.sub_0_r in *. rewrite He. rewrite (proj2 (Nat.ltb_lt (length A) (N - 2))) by lia. cbn [bind].
      eexists. split; [reflexivity|]. cbn. sp; auto. discriminate. }
  rewrite Er. cbn [bind]. clear Er.
  destruct (resume_ok m WB cur (S (length A) - 1) g wg (S (length A)) r0) as (bs & nu' & q & c & hist' & e & j & H1 & H2 & H3 & H4 & H5 & H6 & H7 & H8 & H9 & H10 & H11 & H12 & H13 & H14 & H15 & H16); auto; try lia.
  rewrite H1. cbn [bind]. rewrite (fits_ok m WB bs) by lia. destruct (Nat.leb_spec (length cur) (length back)) as [_|]; [|lia]. cbn [andb].
  assert (Fj : firstn j c = firstn j cur). { rewrite H2, firstn_app. replace (j - length c)%nat with 0%nat by lia. cbn. rewrite app_nil_r. reflexivity. }
  assert (Lc : (length c <= length cur)%nat) by (rewrite H2, app_length; lia).
  eexists _, bs, j. split. { f_equal. f_equal. rewrite H13. destruct (Nat.eqb_spec j 0); lia. }
  cbn [r_prob r_indep r_ext r_rest].
  split.
  { rewrite H7, Lg, HB, H5. replace (S (length A) + length c - S (length A))%nat with (length c) by lia.
    rewrite H2. rewrite (BL_app m), skipn_app, skipn_all2 by (rewrite (BL_length m); lia). rewrite (BL_length m), Nat.sub_diag. cbn [skipn app].
    rewrite app_assoc. rewrite (lp_char m WB x (rev A ++ c) hist' e); [unfold LmProofs.E; lia| |].
    - rewrite app_comm_cons. exact H3.
    - rewrite app_comm_cons. exact H4. }
  split; [exact H9|]. split.
  { intros Hi. destruct (H8 Hi) as (-> & A2 & A3). rewrite app_nil_r in H2. rewrite <- H2 in *. exists e. unfold g in *. sp; auto; [congruence|lia]. }
  split; [lia|]. split; [exact H11|]. rewrite <- Fj. split; [exact H14|]. split; [exact H15|]. rewrite Fj. exact H16.
Qed.

(** a history in front of the words [A], its first words [cur] in use *)
Definition tst (A : list word) (cur hh : list word) (pd : Z) : Prop :=
  exists t, hh = cur ++ t /\ norx (rev A ++ cur) t /\ pd = E (rev A ++ cur) t /\ (length A + length cur <= N - 1)%nat.

(** scoring without further use of the history *)
Lemma unrest_ok B : forall A hh, lefts_ok (A ++ B) -> norx (rev A) hh ->
  norx (rev (A ++ B)) hh /\
  seq_score (rev A ++ hh) B + E (rev (A ++ B)) hh = zsum (map (fun g => match entry g with Some w => prob w | None => 0 end) (skipn (length A) (PL (A ++ B)))) + E (rev A) hh.
Proof.
  induction B as [|x B IH]; intros A hh HL Hn.
  - rewrite app_nil_r. split; [exact Hn|]. rewrite skipn_all2 by (rewrite PL_length; lia). reflexivity.
  - assert (Hx : A ++ x :: B = (A ++ [x]) ++ B) by (rewrite <- app_assoc; reflexivity).
    destruct (proj2 HL A x B eq_refl) as (w & Hw).
    assert (Nx : NX (x :: rev A) hh).
    { apply (NX_none m WB); [discriminate|]. destruct hh as [|y hh]; [exact I|]. apply (Hn x). }
    destruct (IH (A ++ [x]) hh) as (I1 & I2).
    { rewrite <- Hx. exact HL. }
    { rewrite rev_app_distr. apply (NX_norx m WB). exact Nx. }
    rewrite Hx. split; [exact I1|]. cbn [LmSpec.seq_score]. rewrite rev_app_distr in I2. cbn [rev app] in I2.
    rewrite (NX_E m WB _ _ Nx) in I2.
    assert (Hs : skipn (length A) (PL ((A ++ [x]) ++ B)) = (x :: rev A) :: skipn (length (A ++ [x])) (PL ((A ++ [x]) ++ B))).
    { rewrite <- Hx. pose proof (PL_nth A x B) as Hnth. rewrite app_length. cbn [length]. clear - Hnth.
      revert Hnth. generalize (PL (A ++ x :: B)) (length A). intros l n. revert l. induction n as [|n IHn]; intros [|a l] Hn; try discriminate Hn.
      - cbn in Hn. injection Hn as ->. reflexivity.
      - cbn. cbn in Hn. rewrite (IHn l Hn). reflexivity. }
    rewrite Hs. cbn [map zsum fold_right]. rewrite Hw. fold (zsum (map (fun g : ngram => match entry g with Some w0 => prob w0 | None => 0 end) (skipn (length (A ++ [x])) (PL ((A ++ [x]) ++ B))))).
    rewrite (lp_char m WB x (rev A) hh w Hw). { lia. }
    destruct hh as [|y hh]; [exact I|]. apply (Hn x).
Qed.

Lemma unrest_loop_ok B : forall A, A <> [] -> lefts_ok (A ++ B) ->
  unrest_loop m (skipn (length A) (PL (A ++ B))) (S (length A)) =
  Some (zsum (map (fun g => match entry g with Some w => prob w | None => 0 end) (skipn (length A) (PL (A ++ B)))) - zsum (map rst (skipn (length A) (PL (A ++ B))))).
Proof.
  induction B as [|x B IH]; intros A HA HL.
  - rewrite app_nil_r, skipn_all2 by (rewrite PL_length; lia). reflexivity.
  - assert (Hx : A ++ x :: B = (A ++ [x]) ++ B) by (rewrite <- app_assoc; reflexivity).
    destruct (proj2 HL A x B eq_refl) as (w & Hw).
    assert (Hs : skipn (length A) (PL (A ++ x :: B)) = (x :: rev A) :: skipn (length (A ++ [x])) (PL ((A ++ [x]) ++ B))).
    { rewrite <- Hx. pose proof (PL_nth A x B) as Hnth. rewrite app_length. cbn [length]. clear - Hnth.
      revert Hnth. generalize (PL (A ++ x :: B)) (length A). intros l n. revert l. induction n as [|n IHn]; intros [|a l] Hn; try discriminate Hn.
      - cbn in Hn. injection Hn as ->. reflexivity.
      - cbn. cbn in Hn. rewrite (IHn l Hn). reflexivity. }
    rewrite Hs. cbn [unrest_loop map]. destruct HL as (HL1 & HL2). rewrite app_length in HL1. cbn in HL1.
    assert (length A <> 0%nat) by (destruct A; [destruct (HA eq_refl)|discriminate]).
    assert (Up : Unpack m (x :: rev A) (S (length A)) = Some w).
    { unfold Unpack. destruct (Nat.leb_spec 2 (S (length A))); [|lia]. destruct (Nat.ltb_spec (S (length A) - 2) (N - 2)); [|lia]. cbn [andb].
      rewrite (entry_mid m) in Hw by (cbn; rewrite rev_length; lia). cbn [length] in Hw. rewrite rev_length in Hw. exact Hw. }
    rewrite Up. cbn [bind]. replace (S (S (length A))) with (S (length (A ++ [x]))) by (rewrite app_length; cbn; lia).
    rewrite (IH (A ++ [x])); [|destruct A; discriminate|].
    + cbn [bind]. f_equal. unfold zsum. cbn [fold_right]. unfold rst at 2. rewrite Hw. lia.
    + rewrite <- Hx. split; [rewrite app_length; cbn; lia|exact HL2].
Qed.

Lemma unrest_all_ok L : lefts_ok L ->
  UnRest m (PL L) 1 = Some (zsum (map (fun g => match entry g with Some w => prob w | None => 0 end) (PL L)) - rests L).
Proof.
  intros HL. destruct L as [|x B]; [reflexivity|]. unfold UnRest. cbn [Nat.eqb].
  assert (HP : PL (x :: B) = [x] :: skipn 1 (PL ([x] ++ B))). { reflexivity. }
  pose proof (unrest_loop_ok B [x] ltac:(discriminate) HL) as U. cbn [length] in U. unfold ngram in *.
  unfold rests. rewrite HP. rewrite U. cbn [bind map zsum fold_right]. f_equal.
  change (rst [x]) with (rest (unigram m x)). cbn [LmSpec.entry]. match goal with |- ?a - ?b + (?c - ?d) = _ => change (a - b + (c - d) = a + c - (b + d)) end. lia.
Qed.

Lemma unrest_from_ok A B : A <> [] -> lefts_ok (A ++ B) ->
  UnRest m (skipn (length A) (PL (A ++ B))) (S (length A)) =
  Some (zsum (map (fun g => match entry g with Some w => prob w | None => 0 end) (skipn (length A) (PL (A ++ B)))) - zsum (map rst (skipn (length A) (PL (A ++ B))))).
Proof.
  intros HA HL. unfold UnRest. destruct A as [|a A]; [destruct (HA eq_refl)|]. cbn [length Nat.eqb]. apply (unrest_loop_ok B (a :: A)); auto.
Qed.

Lemma rests_split A B : rests (A ++ B) = rests A + zsum (map rst (skipn (length A) (PL (A ++ B)))).
Proof.
  unfold rests. rewrite <- (firstn_skipn (length A) (PL (A ++ B))) at 1. rewrite map_app, zsum_app. f_equal. f_equal. f_equal.
  unfold PL. rewrite firstn_map. rewrite app_length. assert (Hs : firstn (length A) (seq 1 (length A + length B)) = seq 1 (length A)).
  { rewrite seq_app, firstn_app, seq_length, Nat.sub_diag. cbn. rewrite app_nil_r. apply firstn_all2. rewrite seq_length. lia. }
  rewrite Hs. apply map_ext_in. intros i Hi. apply in_seq in Hi. f_equal. rewrite firstn_app. replace (i - length A)%nat with 0%nat by lia. cbn. apply app_nil_r.
Qed.

Section Join.
Variables (L1 : list word) (d1 : bool) (x0 : Z) (SC1 : list word -> Z) (H1 : list word -> list word) (R : state).
Hypothesis Rb : backoffs R = BL [] (words R).
Notation rw := (words R).

(** after the words [A] of the nonterminal *)
Definition LI (A : list word) (s : rule_score) (nu : nat) (back : list Z) : Prop :=
  o_right s = R /\ (nu <= length rw)%nat /\ (nu <= length back)%nat /\ firstn nu back = BL (rev A) (firstn nu rw) /\
  exists L', o_left s = PL L' /\ lefts_ok L' /\ (d1 = true -> L' = L1) /\ exists V, rs_prob s + x0 + rests A = rests L' + V /\
  if left_done s then forall h, exists pd, tst A (firstn nu rw) (H1 h) pd /\ SC1 h + seq_score (H1 h) A + pd = seq_score h L' + E (rev L') h + V
  else V = 0 /\ d1 = false /\ L' = L1 ++ A /\ nu = length rw /\ rw = rev L1 /\ (forall h, H1 h = rev L1 ++ h) /\ (forall h, SC1 h = seq_score h L1).

(** the history is used up *)
Definition SI (A : list word) (s : rule_score) (st : state) : Prop :=
  o_right s = st /\ left_done s = true /\
  exists L', o_left s = PL L' /\ lefts_ok L' /\ (d1 = true -> L' = L1) /\ exists V, rs_prob s + x0 + rests A = rests L' + V /\
  forall h, norx (rev A) (H1 h) /\ SC1 h + seq_score (H1 h) A + E (rev A) (H1 h) = seq_score h L' + E (rev L') h + V.

Lemma step_ok c A x B s nu back : pointers c = PL (A ++ x :: B) -> lefts_ok (A ++ x :: B) -> (0 < length rw)%nat -> LI A s nu back ->
  exists s1 bs j stop, RuleExtendLeft m s c nu (S (length A)) back = Some (s1, bs, j, stop)
  /\ if stop : bool then SI (A ++ x :: B) s1 (right c) else LI (A ++ [x]) s1 j bs /\ (0 < j)%nat /\ (length A + 1 + j <= N - 1)%nat.
Proof.
  intros HP HL Hrw (Hr & Hn1 & Hn2 & HB & L' & Hl & Hlo & Hd1 & V & HV & HI).
  destruct (proj2 HL A x B eq_refl) as (wg & Hw).
  assert (LN : (S (length A) <= N - 1)%nat). { destruct HL as (HL & _). rewrite app_length in HL. cbn in HL. lia. }
  unfold RuleExtendLeft. cbn [Nat.sub]. rewrite Nat.sub_0_r. rewrite HP, PL_nth. cbn [bind]. rewrite Hr.
  assert (Lcur : length (firstn nu rw) = nu) by (apply firstn_length_le; exact Hn1).
  destruct (extend_ok A x wg (firstn nu rw) back Hw LN) as (r & bs & j & E1 & E2 & E3 & E4 & E5 & E6 & E7 & E8 & E9); [lia|rewrite Lcur; exact HB|].
  rewrite E1. cbn [bind]. rewrite Lcur in *.
  assert (Fj : firstn j (firstn nu rw) = firstn j rw) by (rewrite firstn_firstn; f_equal; lia).
  assert (Sj : forall t, skipn j (firstn nu rw) ++ skipn nu rw ++ t = skipn j rw ++ t).
  { intros t. rewrite app_assoc. f_equal. rewrite <- (firstn_skipn nu rw) at 3. rewrite skipn_app, Lcur. replace (j - nu)%nat with 0%nat by lia. reflexivity. }
  rewrite Fj in *.
  assert (rstg : rst (x :: rev A) = rest wg) by (unfold rst; rewrite Hw; reflexivity).
  assert (RS1 : rests (A ++ [x]) = rests A + rest wg) by (rewrite rests_snoc, rstg; reflexivity).
  assert (Jlen : (0 < j)%nat -> (length A + 1 + j <= N - 1)%nat).
  { intros Hj. destruct (E8 ltac:(lia)) as (w & W1 & W2). pose proof (has_ext_len m WB _ _ W1 W2) as Q. cbn [length] in Q. rewrite app_length, rev_length, firstn_length in Q. lia. }
  assert (Slen : slen R = length rw) by reflexivity.
  (* the invariant for the history once the left side is settled *)
  assert (Core : exists s1, ProcessRet m s r = Some s1 /\ o_right s1 = R /\
     exists L2, o_left s1 = PL L2 /\ lefts_ok L2 /\ (d1 = true -> L2 = L1) /\ exists V2, rs_prob s1 + x0 + rests (A ++ [x]) = rests L2 + V2 /\
     if orb (left_done s1) (negb (Nat.eqb j (length rw)))
     then forall h, exists pd, tst (A ++ [x]) (firstn j rw) (H1 h) pd /\ SC1 h + seq_score (H1 h) (A ++ [x]) + pd = seq_score h L2 + E (rev L2) h + V2
     else V2 = 0 /\ d1 = false /\ L2 = L1 ++ A ++ [x] /\ j = length rw /\ rw = rev L1 /\ (forall h, H1 h = rev L1 ++ h) /\ (forall h, SC1 h = seq_score h L1)).
  { assert (LAj : (length (A ++ [x]) + length (firstn j rw) <= N - 1)%nat).
    { rewrite app_length, firstn_length. cbn [length]. destruct (Nat.eq_dec j 0) as [->|]; [lia|]. specialize (Jlen ltac:(lia)). lia. }
    unfold ProcessRet. destruct (left_done s) eqn:Hd.
    - eexists. split; [reflexivity|]. cbn [o_right o_left rs_prob left_done orb]. split; [exact Hr|]. exists L'. split; [exact Hl|]. split; [exact Hlo|]. split; [exact Hd1|].
      exists (V + r_prob r + rest wg). split; [lia|]. intros h. destruct (HI h) as (pd & (t & T1 & T2 & T3 & T4) & HS). exists 0.
      assert (NXt : NX ((x :: rev A) ++ firstn j rw) (skipn j (firstn nu rw) ++ t)).
      { apply (NX_app m). { exact E9. } rewrite <- app_assoc. replace (firstn j rw ++ skipn j (firstn nu rw)) with (firstn nu rw) by (rewrite <- Fj; symmetry; apply firstn_skipn).
        apply (NX_none m WB); [discriminate|]. destruct t as [|z t]; [exact I|]. cbn. apply T2. }
      split.
      + exists (skipn j (firstn nu rw) ++ t). split. { rewrite T1, app_assoc. f_equal. rewrite <- Fj. symmetry. apply firstn_skipn. }
        rewrite rev_app_distr. cbn [rev app]. split; [apply (NX_norx m WB); exact NXt|]. split; [symmetry; apply (NX_E m WB); exact NXt|exact LAj].
      + rewrite seq_score_snoc. rewrite T1, app_assoc. rewrite (lp_norx m WB _ _ _ T2). rewrite <- T1. lia.
    - destruct HI as (-> & D1 & -> & -> & Hrv & HH & HS). rewrite firstn_all in *.
      assert (Lr : length rw = length L1) by (rewrite Hrv; apply rev_length).
      assert (RLA : rev A ++ rw = rev (L1 ++ A)) by (rewrite rev_app_distr, Hrv; reflexivity).
      destruct (r_indep r) eqn:Hi.
      + eexists. split; [reflexivity|]. cbn [o_right o_left rs_prob left_done orb]. split; [exact Hr|]. exists (L1 ++ A). split; [exact Hl|]. split; [exact Hlo|]. split; [congruence|].
        exists (r_prob r + rest wg). split; [lia|]. intros h. exists 0.
        assert (NXt : NX ((x :: rev A) ++ firstn j rw) (skipn j rw ++ h)).
        { apply (NX_app m). { exact E9. } rewrite <- app_assoc, firstn_skipn. apply (NX_none m WB); [discriminate|]. destruct h as [|z h]; [exact I|].
          specialize (E3 eq_refl z). rewrite app_assoc in E3. exact E3. }
        split.
        * exists (skipn j rw ++ h). split. { rewrite HH, app_assoc, firstn_skipn, Hrv. reflexivity. }
          rewrite rev_app_distr. cbn [rev app]. split; [apply (NX_norx m WB); exact NXt|]. split; [symmetry; apply (NX_E m WB); exact NXt|exact LAj].
        * rewrite seq_score_snoc, HS, HH, seq_score_app. rewrite !app_assoc, <- Hrv, RLA.
          assert (Hlp : logprob x (rev (L1 ++ A) ++ h) = logprob x (rev (L1 ++ A)) + E (rev (L1 ++ A)) h).
          { destruct (lp_match m WB x (rev (L1 ++ A))) as (c' & h' & e & Hc & He & Hs & ->). rewrite Hc, <- app_assoc. rewrite (lp_char m WB x c' (h' ++ h) e He).
            - rewrite (E_app m). lia.
            - destruct h' as [|z h']; [|exact Hs]. rewrite app_nil_r in Hc. destruct h as [|z h]; [exact I|]. cbn. rewrite <- Hc, <- RLA, <- app_assoc. apply E3. reflexivity. }
          rewrite RLA in E2. lia.
      + destruct (E4 eq_refl) as (e & F1 & F2 & F3 & F4). rewrite Hl, push_ok by (rewrite PL_length, app_length; lia). cbn [bind]. rewrite F2, RLA.
        eexists. split; [reflexivity|]. cbn [o_right o_left rs_prob left_done orb]. split; [exact Hr|]. exists (L1 ++ A ++ [x]).
        split. { rewrite app_assoc, PL_snoc. reflexivity. }
        split. { rewrite app_assoc. eapply lefts_snoc; [exact Hlo|rewrite <- RLA; exact F1|rewrite app_length; lia]. }
        split; [congruence|]. exists 0. split. { rewrite (app_assoc L1 A), (rests_snoc (L1 ++ A)), RS1. unfold rst. rewrite <- RLA, F1. lia. }
        destruct (Nat.eqb_spec j (length rw)) as [Hj|Hj]; cbn [negb].
        * sp; auto.
        * intros h. assert (RL3 : rev (L1 ++ A ++ [x]) = (x :: rev A) ++ rw) by (rewrite app_assoc, rev_app_distr; cbn [rev app]; rewrite <- RLA; reflexivity).
          exists (E (rev (L1 ++ A ++ [x])) h). split; [|rewrite HH, HS, (seq_score_app h L1); lia].
          exists (skipn j rw ++ h). split. { rewrite HH, app_assoc, firstn_skipn, Hrv. reflexivity. }
          rewrite rev_app_distr. cbn [rev app].
          assert (Hne : skipn j rw <> []). { intros Hq. apply (f_equal (@length _)) in Hq. rewrite skipn_length in Hq. cbn in Hq. lia. }
          split. { pose proof (NX_norx m WB _ _ E9) as Q. destruct (skipn j rw); [destruct (Hne eq_refl)|exact Q]. }
          split; [|exact LAj]. rewrite (E_app m). change (x :: rev A ++ firstn j rw) with ((x :: rev A) ++ firstn j rw) in *. rewrite (NX_E m WB _ _ E9), <- app_assoc, firstn_skipn, RL3. reflexivity. }
  destruct Core as (s1 & P1 & P2 & L2 & P3 & P4 & P5 & V2 & P6 & P7). rewrite P1. cbn [bind]. rewrite Slen.
  assert (BJ : firstn j bs = BL (rev (A ++ [x])) (firstn j rw)) by (rewrite rev_app_distr; exact E7).
  destruct (Nat.eqb_spec j (length rw)) as [Hj|Hj].
  - exists s1, bs, j, false. split; [reflexivity|]. split; [|split; [lia|apply Jlen; lia]].
    split; [exact P2|]. split; [lia|]. split; [exact E6|]. split; [exact BJ|]. exists L2. split; [exact P3|]. split; [exact P4|]. split; [exact P5|].
    exists V2. split; [exact P6|]. destruct (left_done s1); cbn [orb negb] in P7; exact P7.
  - rewrite orb_true_r in P7. destruct (Nat.eqb_spec j 0) as [->|Hj0].
    + cbn [firstn] in P7.
      assert (HX : A ++ x :: B = (A ++ [x]) ++ B) by (rewrite <- app_assoc; reflexivity).
      replace (S (length A)) with (length (A ++ [x])) by (rewrite app_length; cbn; lia). rewrite HX.
      rewrite unrest_from_ok; [|destruct A; discriminate|rewrite <- HX; exact HL]. cbn [bind].
      eexists _, bs, 0%nat, true. split; [reflexivity|]. split; [reflexivity|]. split; [reflexivity|]. cbn [o_left rs_prob].
      exists L2. split; [exact P3|]. split; [exact P4|]. split; [exact P5|].
      exists (V2 + zsum (map (fun g => match entry g with Some w => prob w | None => 0 end) (skipn (length (A ++ [x])) (PL ((A ++ [x]) ++ B))))).
      split. { rewrite rests_split. lia. }
      intros h. destruct (P7 h) as (pd & (t & T1 & T2 & T3 & T4) & HS). cbn [app] in T1. subst t. rewrite app_nil_r in *.
      destruct (unrest_ok B (A ++ [x]) (H1 h)) as (U1 & U2); [rewrite <- HX; exact HL|exact T2|]. split; [exact U1|].
      rewrite seq_score_app. rewrite T3 in HS. lia.
    + eexists _, bs, j, false. split; [reflexivity|]. split; [|split; [lia|apply Jlen; lia]].
      split; [exact P2|]. split; [lia|]. split; [exact E6|]. split; [exact BJ|]. exists L2. split; [exact P3|]. split; [exact P4|]. split; [exact P5|].
      exists V2. split; [exact P6|]. exact P7.
Qed.

Lemma loop_ok c B : forall A s nu back, pointers c = PL (A ++ B) -> lefts_ok (A ++ B) -> (0 < length rw)%nat -> LI A s nu back ->
  (0 < nu)%nat -> (length A + nu <= N - 1)%nat ->
  exists s1 bs j stop, extend_loop m (length B) s c nu (S (length A)) back = Some (s1, bs, j, stop)
  /\ if stop : bool then SI (A ++ B) s1 (right c) else LI (A ++ B) s1 j bs /\ (0 < j)%nat /\ (length (A ++ B) + j <= N - 1)%nat.
Proof.
  induction B as [|x B IH]; intros A s nu back HP HL Hrw HI H0 HN.
  - exists s, back, nu, false. rewrite app_nil_r. sp; auto.
  - cbn [extend_loop length]. destruct (step_ok c A x B s nu back HP HL Hrw HI) as (s1 & bs & j & stop & E1 & E2). rewrite E1. cbn [bind].
    destruct stop.
    + exists s1, bs, j, true. split; [reflexivity|exact E2].
    + assert (HX : A ++ x :: B = (A ++ [x]) ++ B) by (rewrite <- app_assoc; reflexivity). rewrite HX in *.
      replace (S (S (length A))) with (S (length (A ++ [x]))) by (rewrite app_length; cbn; lia).
      apply IH; auto; try tauto. rewrite app_length. cbn [length]. lia.
Qed.

End Join.

Lemma nonterminal_J L1 s x SC1 H1 L2 c p2 SC2 H2 : J L1 s x SC1 H1 -> JC L2 c p2 SC2 H2 ->
  exists L' s', NonTerminal m s c 0 = Some s' /\ J L' s' (x + p2) (fun h => SC1 h + SC2 (H1 h)) (fun h => H2 (H1 h))
  /\ (left_done s = true -> left_done s' = true /\ L' = L1).
Proof.
  intros HJ1 (P1 & P2 & V2 & P3 & P4). destruct HJ1 as (Q1 & Q2 & V1 & Q3 & Q4). pose proof (order_ge m WB) as OG.
  unfold NonTerminal. rewrite Z.add_0_r.
  assert (Rb : backoffs (o_right s) = BL [] (words (o_right s))).
  { destruct (left_done s); [|destruct Q4 as (_ & -> & _); reflexivity]. destruct (Q4 []) as (pend & (h' & _ & Hb & _) & _). exact Hb. }
  assert (Rl : (length (words (o_right s)) <= N - 1)%nat).
  { destruct (left_done s). - destruct (Q4 []) as (pend & (h' & _ & _ & _ & _ & Hb) & _). exact Hb.
    - destruct Q4 as (_ & -> & _). cbn. rewrite rev_length. apply Q2. }
  destruct L2 as [|x2 L2'] eqn:EL2.
  - (* no left words *)
    assert (pointers c = []) as -> by (rewrite P1; reflexivity). cbn [rests PL length seq map zsum fold_right] in P3.
    destruct (full c) eqn:Hf.
    + set (sb := zsum (backoffs (o_right s))). eexists L1, _. split; [reflexivity|]. cbn [left_done]. split; [|auto].
      split; [exact Q1|]. split; [exact Q2|]. cbn [rs_prob left_done o_right].
      assert (sbE : sb = E [] (words (o_right s))) by (unfold sb, LmProofs.E; rewrite Rb; reflexivity).
      exists (V1 + sb + V2). split; [cbn in P3; lia|]. intros h. destruct (P4 (H1 h)) as (pend2 & S2 & HS2). cbn [LmSpec.seq_score rev] in HS2.
      exists pend2. split; [exact S2|]. destruct (left_done s).
      * destruct (Q4 h) as (pend1 & (h' & Hh & _ & _ & Hp & _) & HS1). rewrite Hh in HS2. rewrite (E_app m) in HS2. cbn [app] in HS2. rewrite <- Hh in HS2. lia.
      * destruct Q4 as (-> & Hst & HH & HS). rewrite HS. rewrite HH in *. rewrite (E_app m) in HS2. cbn [app] in HS2. rewrite Hst in sbE. cbn [words] in sbE. lia.
    + destruct P4 as (-> & Hst2 & HH2 & HS2). eexists L1, _. split; [reflexivity|]. cbn [left_done]. split; [|auto].
      split; [exact Q1|]. split; [exact Q2|]. cbn [rs_prob left_done o_right]. exists V1. split; [cbn in P3; lia|].
      cbn [rev app] in HH2. cbn [LmSpec.seq_score] in HS2. destruct (left_done s).
      * intros h. destruct (Q4 h) as (pend1 & S1 & HS1). exists pend1. rewrite HH2, HS2. split; [exact S1|lia].
      * destruct Q4 as (-> & Hst & HH & HS). sp; auto. { intros h. rewrite HH2. apply HH. } intros h. rewrite HS2, HS. lia.
  - rewrite <- EL2 in *. assert (NE : L2 <> []) by (rewrite EL2; discriminate).
    destruct (pointers c) as [|pt pts] eqn:Ept. { exfalso. apply (f_equal (@length _)) in P1. rewrite PL_length, EL2 in P1. discriminate P1. }
    rewrite <- Ept in *. clear Ept pt pts. cbn [o_right o_left left_done rs_prob].
    (* result once the whole nonterminal has been taken up, the history settled *)
    assert (Fin : forall s1 cur L' V' bs,
       left_done s1 = true -> o_left s1 = PL L' -> lefts_ok L' -> bs = BL (rev L2) cur ->
       (length L2 + length cur <= N - 1)%nat ->
       (forall h, exists pd, tst L2 cur (H1 h) pd /\ SC1 h + seq_score (H1 h) L2 + pd = seq_score h L' + E (rev L') h + V') ->
       rs_prob s1 + x + rests L2 = rests L' + V' ->
       (if full c then J L' (RS (o_left s1) (right c) true (rs_prob s1 + zsum bs)) (x + p2) (fun h => SC1 h + SC2 (H1 h)) (fun h => H2 (H1 h))
        else J L' (RS (o_left s1) (State (words (right c) ++ cur) (backoffs (right c) ++ bs)) true (rs_prob s1)) (x + p2) (fun h => SC1 h + SC2 (H1 h)) (fun h => H2 (H1 h)))).
    { intros s1 cur L' V' bs Hd Hl Hlo -> Hlen HT HV. destruct (full c).
      - split; [exact Hl|]. split; [exact Hlo|]. cbn [rs_prob left_done o_right]. exists (V' + zsum (BL (rev L2) cur) + V2). split; [lia|].
        intros h. destruct (HT h) as (pd & (t & T1 & T2 & T3 & T4) & HS). destruct (P4 (H1 h)) as (pend2 & S2 & HS2). exists pend2. split; [exact S2|].
        assert (HE : E (rev L2) (H1 h) = zsum (BL (rev L2) cur) + pd) by (rewrite T1, (E_app m), T3; reflexivity). rewrite HE in HS2. lia.
      - destruct P4 as (-> & Hst2 & HH2 & HS2). split; [exact Hl|]. split; [exact Hlo|]. cbn [rs_prob left_done o_right]. exists V'. split; [lia|].
        intros h. destruct (HT h) as (pd & (t & T1 & T2 & T3 & T4) & HS). exists pd. rewrite HS2, HH2. split; [|lia].
        exists t. rewrite Hst2. cbn [words backoffs]. split; [rewrite T1, app_assoc; reflexivity|]. split; [rewrite (BL_app m); reflexivity|]. split; [exact T2|]. split; [exact T3|].
        rewrite app_length, rev_length. lia. }
    destruct (Nat.eqb_spec (slen (o_right s)) 0) as [Hz|Hz].
    + assert (Wz : words (o_right s) = []) by (apply length_zero_iff_nil; exact Hz).
      destruct (left_done s) eqn:Hd.
      * rewrite P1, unrest_all_ok by exact P2. cbn [bind]. set (u := zsum _ - rests L2). eexists L1, _. split; [reflexivity|]. split; [|auto].
        specialize (Fin (RS (o_left s) (right c) true (rs_prob s + u)) [] L1 (V1 + (u + rests L2)) []).
        cbn [o_left rs_prob left_done] in Fin. rewrite !app_nil_r in Fin. cbn [zsum fold_right] in Fin. rewrite Z.add_0_r in Fin.
        assert (FF : if full c then J L1 (RS (o_left s) (right c) true (rs_prob s + u)) (x + p2) (fun h => SC1 h + SC2 (H1 h)) (fun h => H2 (H1 h)) else J L1 (RS (o_left s) (State (words (right c)) (backoffs (right c))) true (rs_prob s + u)) (x + p2) (fun h => SC1 h + SC2 (H1 h)) (fun h => H2 (H1 h))).
        { apply Fin; auto; try (cbn [length]; destruct P2; lia); try lia.
          intros h. destruct (Q4 h) as (pend1 & (h' & Hh & _ & Hn & Hp & _) & HS1). rewrite Wz in *. cbn [app] in Hh. subst h'.
          destruct (unrest_ok L2 [] (H1 h) P2 Hn) as (U1 & U2). cbn [rev app length skipn] in U1, U2.
          exists (E (rev L2) (H1 h)). split. { exists (H1 h). rewrite app_nil_r. sp; auto. cbn [length]. destruct P2; lia. }
          unfold u. lia. }
        destruct (full c); [exact FF|]. destruct (right c); exact FF.
      * destruct Q4 as (-> & Hst & HH & HS). assert (L1 = []) as ->. { rewrite Hst in Wz. cbn in Wz. rewrite <- (rev_involutive L1), Wz. reflexivity. }
        rewrite Q1. cbn [PL length seq map]. eexists L2, _. split; [reflexivity|]. split; [|discriminate].
        split; [exact P1|]. split; [exact P2|]. cbn [rs_prob left_done o_right]. exists V2. split; [cbn in Q3; lia|].
        cbn [LmSpec.seq_score rev app] in *. destruct (full c).
        -- intros h. destruct (P4 h) as (pend2 & S2 & HS2). exists pend2. rewrite HH, HS. split; [exact S2|lia].
        -- destruct P4 as (-> & Hst2 & HH2 & HS2). sp; auto; intros h; rewrite ?HH, ?HS, ?HH2, ?HS2; [reflexivity|lia].
    + set (s0 := RS (o_left s) (o_right s) (left_done s) (rs_prob s)).
      assert (HI : LI L1 (left_done s) x SC1 H1 (o_right s) [] s0 (slen (o_right s)) (backoffs (o_right s))).
      { split; [reflexivity|]. split; [unfold slen; lia|]. split; [rewrite Rb, (BL_length m); unfold slen; lia|]. unfold slen. rewrite firstn_all. cbn [rev].
        split. { rewrite Rb, <- (BL_length m [] (words (o_right s))), firstn_all. reflexivity. }
        exists L1. split; [exact Q1|]. split; [exact Q2|]. split; [auto|]. exists V1. split; [cbn; lia|]. cbn [left_done s0].
        destruct (left_done s).
        - intros h. destruct (Q4 h) as (pend1 & (h' & Hh & _ & Hn & Hp & _) & HS1). exists pend1. split; [exists h'; sp; auto; cbn; lia|]. cbn [LmSpec.seq_score]. lia.
        - destruct Q4 as (-> & Hst & HH & HS). sp; auto. + rewrite app_nil_r. reflexivity. + rewrite Hst. reflexivity. }
      destruct (loop_ok L1 (left_done s) x SC1 H1 (o_right s) c L2 [] s0 (slen (o_right s)) (backoffs (o_right s))) as (s1 & back & nu & stop & E1 & E2); auto; try (unfold slen in *; cbn [length] in *; lia).
      assert (Hlp : length (pointers c) = length L2) by (rewrite P1; apply PL_length).
      cbn [length] in E1. rewrite Hlp, E1. cbn [bind app] in *. destruct stop.
      * destruct E2 as (S1 & S2 & L' & S3 & S4 & S5 & V' & S6 & S7). exists L', s1. split; [reflexivity|].
        split; [|intros Hd; split; [exact S2|apply S5; exact Hd]].
        specialize (Fin s1 [] L' V' []). rewrite !app_nil_r in Fin. cbn [zsum fold_right] in Fin. rewrite Z.add_0_r in Fin.
        assert (FF : if full c then J L' (RS (o_left s1) (right c) true (rs_prob s1)) (x + p2) (fun h => SC1 h + SC2 (H1 h)) (fun h => H2 (H1 h)) else J L' (RS (o_left s1) (State (words (right c)) (backoffs (right c))) true (rs_prob s1)) (x + p2) (fun h => SC1 h + SC2 (H1 h)) (fun h => H2 (H1 h))).
        { apply Fin; auto; try (cbn [length]; destruct P2; lia).
          intros h. destruct (S7 h) as (U1 & U2). exists (E (rev L2) (H1 h)). split; [|exact U2]. exists (H1 h). rewrite app_nil_r. sp; auto. cbn [length]. destruct P2; lia. }
        destruct s1 as [ol orr ld pr]. cbn in S1, S2. subst. destruct (full c); [exact FF|]. destruct (right c); exact FF.
      * destruct E2 as ((S1 & S2 & S3 & S4 & L' & S5 & S6 & S7 & V' & S8 & S9) & N0 & NL). rewrite S4.
        destruct (Nat.leb_spec nu (length back)) as [_|]; [|lia].
        destruct (left_done s1) eqn:Hd1.
        -- specialize (Fin s1 (firstn nu (words (o_right s))) L' V' (BL (rev L2) (firstn nu (words (o_right s))))).
           destruct (full c) eqn:Hf.
           ++ eexists L', _. split; [reflexivity|]. split; [|intros Hd; split; [reflexivity|apply S7; exact Hd]].
              apply Fin; auto. rewrite firstn_length. lia.
           ++ destruct P4 as (-> & Hst2 & HH2 & HS2). assert (Hsl : slen (right c) = length L2) by (rewrite Hst2; unfold slen; cbn; apply rev_length).
              rewrite Hsl. destruct (Nat.ltb_spec (length L2) (length L2)); [lia|]. rewrite S1.
              rewrite (fits_ok m WB) by (rewrite app_length, firstn_length; unfold slen in Hsl; rewrite Hsl; lia). cbn [andb].
              eexists L', _. split; [reflexivity|]. split; [|intros Hd; split; [reflexivity|apply S7; exact Hd]].
              apply Fin; auto. rewrite firstn_length. lia.
        -- destruct S9 as (-> & D1 & -> & -> & Hrw & HH & HS). rewrite firstn_all. rewrite D1 in *.
           assert (RLL : rev L2 ++ words (o_right s) = rev (L1 ++ L2)) by (rewrite rev_app_distr, Hrw; reflexivity).
           destruct (full c) eqn:Hf.
           ++ eexists (L1 ++ L2), _. split; [reflexivity|]. split; [|discriminate]. split; [exact S5|]. split; [exact S6|]. cbn [rs_prob left_done o_right].
              exists (zsum (BL (rev L2) (words (o_right s))) + V2). split; [lia|]. intros h. destruct (P4 (H1 h)) as (pend2 & S2' & HS2). exists pend2. split; [exact S2'|].
              rewrite HS. rewrite HH in *. 
              assert (EE : E (rev L2) (rev L1 ++ h) = zsum (BL (rev L2) (words (o_right s))) + E (rev (L1 ++ L2)) h).
              { rewrite <- Hrw, (E_app m), RLL. reflexivity. }
              rewrite EE in HS2. rewrite seq_score_app. lia.
           ++ destruct P4 as (-> & Hst2 & HH2 & HS2). assert (Hsl : slen (right c) = length L2) by (rewrite Hst2; unfold slen; cbn; apply rev_length).
              rewrite Hsl. destruct (Nat.ltb_spec (length L2) (length L2)); [lia|]. rewrite S1, firstn_all.
              rewrite (fits_ok m WB) by (rewrite app_length; unfold slen in Hsl; rewrite Hsl; lia). cbn [andb].
              eexists (L1 ++ L2), _. split; [reflexivity|]. split; [|discriminate]. split; [exact S5|]. split; [exact S6|]. cbn [rs_prob left_done o_right].
              exists 0. split; [lia|]. split; [reflexivity|]. split; [rewrite Hst2; cbn [words backoffs]; rewrite <- RLL, (BL_app m); reflexivity|].
              split; intros h; rewrite ?HH2, ?HS2, HH. { rewrite rev_app_distr, app_assoc. reflexivity. } rewrite HS, seq_score_app. reflexivity.
Qed.

End P.
