(** The n-gram features of a derivation. *)
From Coq Require Import List ZArith Bool Lia Permutation.
Import ListNotations.
From Verif Require Import Opt Lm LmSpec LmFeatureProofs Ngrams NgramsSpec.
Open Scope opt_scope.
Open Scope Z_scope.

(** ** Lists *)
Fixpoint nz (l : list Z) : list Z := match l with [] => [] | x :: l' => if x =? 0 then [] else x :: nz l' end.
Lemma nz_firstn l : forall k, nz (firstn k l) = firstn k (nz l).
Proof. induction l as [|x l IH]; intros [|k]; cbn [firstn nz]; try reflexivity. destruct (x =? 0); [reflexivity|]. cbn [firstn]. rewrite IH. reflexivity. Qed.
Lemma nz_length l : (length (nz l) <= length l)%nat.
Proof. induction l as [|x l IH]; cbn [nz]; [lia|]. destruct (x =? 0); cbn [length]; lia. Qed.
Lemma firstn_cons_firstn {A} n (x : A) l : firstn n (x :: firstn n l) = firstn n (x :: l).
Proof. destruct n as [|n]; [reflexivity|]. rewrite !firstn_cons. f_equal. rewrite firstn_firstn. f_equal. lia. Qed.

Fixpoint gl (h buf : list Z) : list (list Z) := buf :: match h with [] => [] | c :: h' => gl h' (c :: buf) end.
Definition grams (h : list Z) (w : Z) : list (list Z) := gl h [w].

Lemma gl_map h : forall buf, gl h buf = map (fun k => rev (firstn k h) ++ buf) (seq 0 (S (length h))).
Proof.
  induction h as [|c h IH]; intros buf; [reflexivity|]. cbn [gl length]. rewrite IH. cbn [seq map firstn rev app]. f_equal. rewrite <- !seq_shift, !map_map. f_equal.
  apply map_ext. intros k. destruct k; cbn [firstn rev]; rewrite <- ?app_assoc; reflexivity.
Qed.
Lemma ending_grams om x w : ending (S om) (x ++ [w]) = grams (firstn om (rev x)) w.
Proof.
  unfold ending, grams. rewrite gl_map, <- seq_shift, map_map, app_length. cbn [length]. rewrite firstn_length, rev_length.
  replace (min (S om) (length x + 1)) with (S (min om (length x))) by lia. cbn [seq map firstn rev]. f_equal.
  - rewrite skipn_app. replace (length x + 1 - 1)%nat with (length x) by lia. rewrite skipn_all, Nat.sub_diag. reflexivity.
  - rewrite <- seq_shift, !map_map. apply map_ext_in. intros k Hk. apply in_seq in Hk. rewrite skipn_app. replace (length x + 1 - S (S k) - length x)%nat with 0%nat by lia. cbn [skipn].
    rewrite firstn_firstn. replace (min (S k) om) with (S k) by lia. rewrite firstn_rev, rev_involutive. f_equal. f_equal. lia.
Qed.

Section Run.
Variable om : nat.
Variables kSOS : Z.
Variable name : list Z -> Z.
Variable B : list Z.

Definition pf (h : list Z) (w : Z) : Z -> Z := fun f => if existsb (fun g => name g =? f) (grams h w) then 1 else 0.
Definition hs (h : list Z) (w : Z) : list Z := if w =? kSOS then B else firstn om (w :: h).
Definition pw (h : list Z) (w : Z) : Z -> Z := if w =? kSOS then vzero else pf h w.
Definition hst (h ws : list Z) : list Z := fold_left hs ws h.
Fixpoint runf (h ws : list Z) (f : Z) : Z := match ws with [] => 0 | w :: ws' => pw h w f + runf (hs h w) ws' f end.

Lemma hst_app h a b : hst h (a ++ b) = hst (hst h a) b.
Proof. apply fold_left_app. Qed.
Lemma runf_app a : forall h b f, runf h (a ++ b) f = runf h a f + runf (hst h a) b f.
Proof. induction a as [|w a IH]; intros h b f; cbn [app runf hst fold_left]; [lia|]. rewrite IH. unfold hst. lia. Qed.

Lemma hst_free vs : forall h, ~ In kSOS vs -> (length h <= om)%nat -> hst h vs = firstn om (rev vs ++ h).
Proof.
  induction vs as [|w vs IH] using rev_ind; intros h Hn Hl.
  - cbn. symmetry. apply firstn_all2. exact Hl.
  - rewrite hst_app, IH; [|intros H; apply Hn, in_or_app; auto|exact Hl]. cbn [hst fold_left]. unfold hs. destruct (Z.eqb_spec w kSOS) as [->|_]; [exfalso; apply Hn, in_or_app; right; left; reflexivity|].
    rewrite firstn_cons_firstn, rev_app_distr. reflexivity.
Qed.
Lemma hst_same vs h h' : ~ In kSOS vs -> (length h <= om)%nat -> (length h' <= om)%nat -> (om <= length vs)%nat -> hst h vs = hst h' vs.
Proof.
  intros. rewrite !hst_free by assumption. rewrite !firstn_app, rev_length. replace (om - length vs)%nat with 0%nat by lia. cbn [firstn]. reflexivity.
Qed.
Lemma hst_length (HB : (length B <= om)%nat) vs : forall h, (length h <= om)%nat -> (length (hst h vs) <= om)%nat.
Proof. induction vs as [|w vs IH]; intros h Hh; cbn; [exact Hh|]. apply IH. unfold hs. destruct (w =? kSOS); [exact HB|]. rewrite firstn_length. lia. Qed.

Definition lim (ws : list Z) : nat := match ws with w :: _ => if w =? kSOS then min 1 om else om | [] => om end.
Definition fired (ws : list Z) (f : Z) : Z := runf (hst [] (firstn (lim ws) ws)) (skipn (lim ws) ws) f.
Lemma lim_le ws : (lim ws <= om)%nat.
Proof. destruct ws as [|w ws]; unfold lim; [lia|]. destruct (w =? kSOS); lia. Qed.
Lemma lim_app ws vs : ws <> [] -> lim (ws ++ vs) = lim ws.
Proof. destruct ws as [|w ws]; [congruence|]. intros _. reflexivity. Qed.
Lemma lim_free ws : ~ In kSOS ws -> lim ws = om.
Proof. destruct ws as [|w ws]; [reflexivity|]. intros H. cbn. destruct (Z.eqb_spec w kSOS) as [->|]; [exfalso; apply H; left; reflexivity|reflexivity]. Qed.

Lemma fired_app u v f : lim (u ++ v) = lim u -> (lim u <= length u)%nat -> fired (u ++ v) f = fired u f + runf (hst [] u) v f.
Proof.
  intros E L. unfold fired. rewrite E, firstn_app, skipn_app. replace (lim u - length u)%nat with 0%nat by lia. cbn [firstn skipn]. rewrite app_nil_r, runf_app, <- hst_app, firstn_skipn. reflexivity.
Qed.
Lemma fired_short u f : (length u <= lim u)%nat -> fired u f = 0.
Proof. intros L. unfold fired. rewrite skipn_all2 by exact L. reflexivity. Qed.

(** counting *)
Hypothesis Hlen : forall g h, (length g <= S om)%nat -> (length h <= S om)%nat -> name g = name h -> length g = length h.
Lemma pf_count h : forall buf f, (length h + length buf <= S om)%nat -> (if existsb (fun g => name g =? f) (gl h buf) then 1 else 0) = count_named name f (gl h buf).
Proof.
  assert (L : forall h buf g, In g (gl h buf) -> (length buf <= length g <= length h + length buf)%nat).
  { clear. induction h as [|c h IH]; intros buf g [<-|Hg]; cbn [length]; try lia; [destruct Hg|]. apply IH in Hg. cbn in Hg. lia. }
  unfold count_named. induction h as [|c h IH]; intros buf f Hb; cbn [gl existsb filter].
  - destruct (name buf =? f); reflexivity.
  - destruct (Z.eqb_spec (name buf) f) as [E|N]; [|cbn [orb]; apply IH; cbn [length] in *; lia]. cbn [orb length]. replace (filter (fun g => name g =? f) (gl h (c :: buf))) with (@nil (list Z)); [reflexivity|].
    symmetry. assert (A : forall g, In g (gl h (c :: buf)) -> (name g =? f) = false).
    { intros g Hg. apply Z.eqb_neq. intros E'. apply L in Hg. cbn [length] in *. rewrite (Hlen g buf) in Hg by (first [lia|congruence]). lia. }
    revert A. generalize (gl h (c :: buf)). clear. induction l as [|g l IH]; intros A; [reflexivity|]. cbn [filter]. rewrite (A g) by (left; reflexivity). apply IH. intros g' Hg'. apply A. right. exact Hg'.
Qed.
Lemma count_app f a b : count_named name f (a ++ b) = count_named name f a + count_named name f b.
Proof. unfold count_named. rewrite filter_app, app_length. lia. Qed.
Lemma windows_snoc n pre l w : windows n pre (l ++ [w]) = windows n pre l ++ ending n (pre ++ l ++ [w]).
Proof.
  unfold windows. rewrite app_length. cbn [length]. rewrite Nat.add_1_r, seq_S, flat_map_app. cbn [flat_map]. rewrite app_nil_r. f_equal.
  - rewrite !flat_map_concat_map. f_equal. apply map_ext_in. intros i Hi. apply in_seq in Hi. rewrite firstn_app. replace (i - length l)%nat with 0%nat by lia. cbn [firstn]. rewrite app_nil_r. reflexivity.
  - f_equal. f_equal. apply firstn_all2. rewrite app_length. cbn. lia.
Qed.
Lemma runf_windows (HB : (length B <= om)%nat) l f : ~ In kSOS l -> runf B l f = count_named name f (windows (S om) (rev B) l).
Proof.
  induction l as [|w l IH] using rev_ind; intros Hn; [reflexivity|]. rewrite runf_app, windows_snoc, count_app, IH by (intros H; apply Hn, in_or_app; auto).
  f_equal. cbn [runf]. unfold pw. destruct (Z.eqb_spec w kSOS) as [->|_]; [exfalso; apply Hn, in_or_app; right; left; reflexivity|].
  rewrite hst_free; [|intros H; apply Hn, in_or_app; auto|exact HB]. rewrite app_assoc, ending_grams, rev_app_distr, rev_involutive. unfold pf, grams. rewrite pf_count; [lia|]. rewrite firstn_length. cbn [length]. lia.
Qed.
End Run.

(** ** The code *)
Section Code.
Variable order : nat.
Variables kSOS kEOS malformed : Z.
Variable cls : Z -> Z.
Variable name : list Z -> Z.
Hypothesis Hord : (1 <= order <= 5)%nat.
Hypothesis Hsos : kSOS <> 0.
Notation om := (order - 1)%nat.
Notation Begin := (BeginSentenceState order kSOS).
Definition ctx (s : list Z) : list Z := nz (rev s).
Notation B := (ctx Begin).
Notation hst := (hst om kSOS B).
Notation runf := (runf om kSOS name B).
Notation lim := (lim om kSOS).
Notation fired := (fired om kSOS name B).
Notation step := (step order kSOS kEOS malformed name).
Notation steps := (steps order kSOS kEOS malformed name).
Notation symbol := (symbol order kSOS kEOS malformed cls name).
Notation symbols := (symbols order kSOS kEOS malformed cls name).

Lemma Begin_length : length Begin = om.
Proof. unfold BeginSentenceState, no_words. destruct om as [|n]; cbn; [reflexivity|]. rewrite repeat_length. reflexivity. Qed.
Lemma ctx_length s : (length (ctx s) <= length s)%nat.
Proof. unfold ctx. rewrite <- (rev_length s). apply nz_length. Qed.
Lemma B_length : (length B <= om)%nat.
Proof. rewrite <- Begin_length. apply ctx_length. Qed.
Lemma B_eq : B = if Nat.eqb order 2 then [kSOS] else [].
Proof.
  destruct (Nat.eqb_spec order 2) as [->|N].
  - cbn. destruct (Z.eqb_spec kSOS 0); [contradiction|reflexivity].
  - destruct Hord as (H1 & H2). assert (C : order = 1%nat \/ order = 3%nat \/ order = 4%nat \/ order = 5%nat) by lia. decompose [or] C; subst; reflexivity.
Qed.
Lemma ctx_none : ctx (no_words order) = [].
Proof. unfold ctx, no_words. destruct om as [|n]; [reflexivity|]. change (repeat 0 (S n)) with (0 :: repeat 0 n). rewrite repeat_cons, rev_app_distr. reflexivity. Qed.
Lemma Extend_length s w : length (Extend s w) = length s.
Proof. destruct s as [|a s]; cbn; [reflexivity|]. rewrite app_length. cbn. lia. Qed.
Lemma ctx_Extend s w : w <> 0 -> ctx (Extend s w) = firstn (length s) (w :: ctx s).
Proof.
  intros Hw. unfold ctx. destruct s as [|a s]; [reflexivity|]. cbn [Extend length firstn]. rewrite rev_app_distr. cbn [rev app nz]. destruct (Z.eqb_spec w 0); [contradiction|]. f_equal.
  rewrite <- nz_firstn. f_equal. rewrite firstn_app, rev_length, Nat.sub_diag. cbn [firstn]. rewrite app_nil_r, firstn_all2; [reflexivity|]. rewrite rev_length. lia.
Qed.

Lemma fire_ok c : forall buf w p, w <> 0 -> (length buf + 1 + length c <= 5)%nat ->
  exists q, fire name c buf w p = Some q /\ forall f, q f = if existsb (fun g => name g =? f) (gl (nz c) (w :: buf)) then 1 else p f.
Proof.
  induction c as [|x c IH]; intros buf w p Hw Hl; cbn [fire nz]; destruct (Z.eqb_spec w 0); try contradiction; cbn [length] in *; destruct (Nat.ltb_spec 5 (S (length buf))); try lia.
  - eexists. split; [reflexivity|]. intros f. cbn. rewrite orb_false_r. unfold vset. rewrite (Z.eqb_sym f). reflexivity.
  - destruct (Z.eqb_spec x 0) as [->|Nx].
    + eexists. split; [destruct c; reflexivity|]. intros f. cbn. rewrite orb_false_r. unfold vset. rewrite (Z.eqb_sym f). reflexivity.
    + destruct (IH (w :: buf) x (vset p (name (w :: buf)) 1) Nx) as (q & E & Q); [cbn [length]; lia|]. exists q. split; [exact E|]. intros f. rewrite Q. cbn [gl existsb]. unfold vset. rewrite (Z.eqb_sym f).
      destruct (name (w :: buf) =? f); destruct (existsb _ _); reflexivity.
Qed.
Lemma FireFeatures_ok s w : w <> 0 -> length s = om -> exists q, FireFeatures name s w vzero = Some q /\ forall f, q f = pf name (ctx s) w f.
Proof. intros Hw Hl. apply fire_ok; [exact Hw|]. rewrite rev_length, Hl. cbn. lia. Qed.

(** *** Sentences with their markers in place *)
Definition clean (ws : list Z) : Prop := ~ In kSOS (tl ws) /\ ~ In kEOS (removelast ws) /\ Forall (fun w => w <> 0) ws.

Lemma clean_app a b : clean (a ++ b) -> clean a /\ clean b /\ (a <> [] -> ~ In kSOS b) /\ (b <> [] -> ~ In kEOS a).
Proof.
  intros (H1 & H2 & H3). apply Forall_app in H3. destruct H3 as (H3 & H4). split; [|split; [|split]].
  - split; [|split; [|exact H3]].
    + intros H. apply H1. destruct a as [|x a]; [destruct H|]. cbn in *. apply in_or_app. auto.
    + intros H. apply H2. destruct b as [|y b]; [rewrite app_nil_r; exact H|]. rewrite removelast_app by discriminate. apply in_or_app. left.
      revert H. clear. induction a as [|x a IH]; [intros []|]. cbn. destruct a; [intros []|]. intros [<-|H]; [left; reflexivity|right; apply IH; exact H].
  - split; [|split; [|exact H4]].
    + intros H. apply H1. destruct a as [|x a]; [exact H|]. cbn. apply in_or_app. right. destruct b; [destruct H|right; exact H].
    + intros H. apply H2. destruct b as [|y b]; [destruct H|]. rewrite removelast_app by discriminate. apply in_or_app. right. exact H.
  - intros Na H. apply H1. destruct a as [|x a]; [congruence|]. cbn. apply in_or_app. right. exact H.
  - intros Nb H. apply H2. rewrite removelast_app by exact Nb. apply in_or_app. left. exact H.
Qed.

Record Inv (k : work) (ws : list Z) (T : Z -> Z) : Prop := {
  i_len : length (st k) = om;
  i_ctx : ctx (st k) = hst [] ws;
  i_uns : out_unscored k = firstn (lim ws) ws;
  i_cc : context_complete k = Nat.ltb (lim ws) (length ws);
  i_num : context_complete k = false -> num_scored k = (length ws + (om - lim ws))%nat;
  i_hist : ws = [] -> has_some_history k = false;
  i_eos : saw_eos k = true -> exists u, ws = u ++ [kEOS];
  i_feats : forall f, feats k f + T f = fired ws f }.

Lemma Inv_start : Inv (start order) [] vzero.
Proof.
  constructor; cbn; try reflexivity; try discriminate.
  - unfold no_words. apply repeat_length.
  - apply ctx_none.
  - rewrite firstn_nil. reflexivity.
  - lia.
  - intros f. unfold NgramsProofs.fired. cbn. rewrite firstn_nil, skipn_nil. reflexivity.
Qed.

Lemma step_ok bad k ws T w : Inv k ws T -> clean (ws ++ [w]) -> exists k', step true bad k w = Some k' /\ Inv k' (ws ++ [w]) T.
Proof.
  intros [I1 I2 I3 I4 I5 I6 I7 I8] C. destruct (clean_app _ _ C) as (Ca & (_ & _ & Cw) & Cs & Ce). inversion Cw as [|? ? Hw _]; subst.
  pose proof (lim_le om kSOS ws) as LL.
  assert (Eos : saw_eos k = false). { destruct (saw_eos k) eqn:E; [|reflexivity]. destruct (I7 eq_refl) as (u & ->). exfalso. apply Ce; [discriminate|]. apply in_or_app. right. left. reflexivity. }
  unfold Ngrams.step. destruct (Z.eqb_spec w kSOS) as [->|Nw].
  - (* <s>: only at the front *)
    assert (Hws : ws = []). { destruct ws as [|x ws]; [reflexivity|]. exfalso. apply Cs; [discriminate|left; reflexivity]. } subst ws. rewrite (I6 eq_refl). cbn [bind].
    cbn [length] in *. rewrite I4 in *. cbn [NgramsProofs.lim] in I4, I3. rewrite firstn_nil in I3. rewrite I3.
    change (lim []) with om in *. destruct (Nat.ltb_spec om 0) as [|_]; [lia|]. cbn [orb].
    assert (Lm : lim [kSOS] = min 1 om) by (cbn; rewrite Z.eqb_refl; reflexivity).
    assert (HC : hst [] [kSOS] = B) by (cbn; unfold hs; rewrite Z.eqb_refl; reflexivity).
    assert (HF : forall f, fired [kSOS] f = 0).
    { intros f. unfold NgramsProofs.fired. rewrite Lm. destruct om; cbn; [|reflexivity]. unfold pw. rewrite Z.eqb_refl. reflexivity. }
    assert (H0 : forall f, feats k f + T f = 0) by (intros f; rewrite I8; apply fired_short; cbn; lia).
    destruct (Nat.leb_spec order (S (order - 2))) as [L1|L1].
    + assert (order = 1%nat) by lia. eexists. split; [reflexivity|]. constructor; cbn [st num_scored saw_eos has_some_history context_complete feats out_unscored app]; rewrite ?Lm; cbn [length]; auto.
      * apply Begin_length.
      * replace (min 1 om) with 0%nat by lia. reflexivity.
      * symmetry. apply Nat.ltb_lt. lia.
      * discriminate.
      * discriminate.
      * congruence.
      * intros f. unfold vplus, vzero. rewrite HF. specialize (H0 f). lia.
    + cbn [length]. destruct (Nat.ltb_spec 0 om) as [_|]; [|lia]. eexists. split; [reflexivity|].
      constructor; cbn [st num_scored saw_eos has_some_history context_complete feats out_unscored app]; rewrite ?Lm; cbn [length]; auto.
      * apply Begin_length.
      * replace (min 1 om) with 1%nat by lia. reflexivity.
      * symmetry. apply Nat.ltb_ge. lia.
      * lia.
      * discriminate.
      * congruence.
      * intros f. rewrite HF. apply H0.
  - destruct (FireFeatures_ok (st k) w Hw I1) as (q & Eq & Hq). rewrite Eq. cbn [bind]. rewrite Eos.
    assert (Lm : lim (ws ++ [w]) = lim ws). { destruct ws as [|x ws]; [|reflexivity]. cbn. destruct (Z.eqb_spec w kSOS); [contradiction|reflexivity]. }
    assert (HC : ctx (Extend (st k) w) = hst [] (ws ++ [w])).
    { rewrite ctx_Extend by exact Hw. rewrite hst_app, <- I2, I1. cbn. unfold hs. destruct (Z.eqb_spec w kSOS); [contradiction|reflexivity]. }
    assert (CC : (context_complete k || Nat.leb order (S (num_scored k)))%bool = Nat.ltb (lim (ws ++ [w])) (length (ws ++ [w]))).
    { rewrite Lm, app_length. cbn [length]. rewrite I4 in *. destruct (Nat.ltb_spec (lim ws) (length ws)) as [L|L]; cbn [orb].
      - symmetry. apply Nat.ltb_lt. lia.
      - rewrite (I5 eq_refl). destruct (Nat.leb_spec order (S (length ws + (om - lim ws)))); symmetry; [apply Nat.ltb_lt|apply Nat.ltb_ge]; lia. }
    rewrite CC. rewrite Lm, app_length in *. cbn [length] in *.
    assert (HE : (w =? kEOS) = true -> exists u, ws ++ [w] = u ++ [kEOS]) by (intros E; apply Z.eqb_eq in E; exists ws; congruence).
    destruct (Nat.ltb_spec (lim ws) (length ws + 1)) as [L|L].
    + eexists. split; [reflexivity|]. constructor; cbn [st num_scored saw_eos has_some_history context_complete feats out_unscored]; rewrite ?Extend_length, ?Lm, ?app_length; cbn [length]; auto.
      * rewrite I3, firstn_app. replace (lim ws - length ws)%nat with 0%nat by lia. cbn [firstn]. rewrite app_nil_r. reflexivity.
      * symmetry. apply Nat.ltb_lt. exact L.
      * discriminate.
      * intros E. destruct ws; discriminate E.
      * intros f. unfold vplus. rewrite Hq, fired_app by (first [exact Lm|lia]). rewrite <- I8. cbn [NgramsProofs.runf]. unfold pw. destruct (Z.eqb_spec w kSOS); [contradiction|]. rewrite I2. lia.
    + assert (Hcc : context_complete k = false) by (rewrite I4; apply Nat.ltb_ge; lia).
      rewrite I3, firstn_all2 by lia. destruct (Nat.ltb_spec (length ws) om) as [_|]; [|lia].
      eexists. split; [reflexivity|]. constructor; cbn [st num_scored saw_eos has_some_history context_complete feats out_unscored]; rewrite ?Extend_length, ?Lm, ?app_length; cbn [length]; auto.
      * rewrite firstn_all2; [reflexivity|]. rewrite app_length. cbn. lia.
      * symmetry. apply Nat.ltb_ge. lia.
      * intros _. rewrite (I5 Hcc). lia.
      * intros E. destruct ws; discriminate E.
      * intros f. rewrite I8, !fired_short; [reflexivity| |]; rewrite ?Lm, ?app_length; cbn; lia.
Qed.

Lemma steps_ok bad vs : forall k ws T, Inv k ws T -> clean (ws ++ vs) -> exists k', steps true bad k vs = Some k' /\ Inv k' (ws ++ vs) T.
Proof.
  induction vs as [|w vs IH]; intros k ws T I C; cbn [Ngrams.steps].
  - rewrite app_nil_r. eauto.
  - change (w :: vs) with ([w] ++ vs) in *. rewrite app_assoc in *. destruct (step_ok bad k ws T w I (proj1 (clean_app _ _ C))) as (k1 & E1 & I1). rewrite E1. cbn [bind]. apply IH; assumption.
Qed.

Record good (vs : list Z) (t : Z -> Z) (a : span) : Prop := {
  g_len : length (remnant a) = om;
  g_ctx : ctx (remnant a) = hst [] vs;
  g_uns : unscored a = firstn (lim vs) vs;
  g_full : full_context a = Nat.ltb (lim vs) (length vs);
  g_eos : eos_on_right a = true -> exists u, vs = u ++ [kEOS];
  g_feats : forall f, t f = fired vs f }.

Lemma span_ok keep_k ws T vs t a bad : Inv keep_k ws T -> good vs t a -> clean (ws ++ vs) ->
  exists k, steps true bad keep_k (unscored a) = Some k /\
    Inv (let k := Work (st k) (num_scored k) (eos_on_right a) (has_some_history k) (context_complete k) (feats k) (est_feats k) (out_unscored k) in
         if full_context a then Work (remnant a) (num_scored k) (saw_eos k) (has_some_history k) true (feats k) (est_feats k) (out_unscored k) else k) (ws ++ vs) (vplus T t).
Proof.
  intros I [G1 G2 G3 G4 G5 G6] C. pose proof (lim_le om kSOS vs) as LV. set (lv := lim vs) in *.
  assert (C1 : clean (ws ++ firstn lv vs)). { rewrite <- (firstn_skipn lv vs), app_assoc in C. exact (proj1 (clean_app _ _ C)). }
  destruct (steps_ok bad (unscored a) keep_k ws T I) as (k & E & [J1 J2 J3 J4 J5 J6 J7 J8]); [rewrite G3; exact C1|]. exists k. split; [exact E|]. rewrite G3 in *. clear E.
  destruct (clean_app _ _ C) as (_ & _ & Cs & _).
  assert (HE : eos_on_right a = true -> exists u, ws ++ vs = u ++ [kEOS]) by (intros E; destruct (G5 E) as (u & ->); exists (ws ++ u); apply app_assoc).
  rewrite G4. destruct (Nat.ltb_spec lv (length vs)) as [L|L]; cbn zeta.
  - assert (W : ws = [] \/ (ws <> [] /\ ~ In kSOS vs /\ lv = om)).
    { destruct ws as [|x ws]; [left; reflexivity|right]. split; [discriminate|]. assert (N : ~ In kSOS vs) by (apply Cs; discriminate). split; [exact N|]. apply lim_free. exact N. }
    assert (Lim : lim (ws ++ vs) = lim (ws ++ firstn lv vs) /\ (lim (ws ++ vs) <= length ws + lv)%nat).
    { destruct W as [->|(N & _ & Ev)].
      - cbn [app length]. destruct vs as [|v vs]; [cbn in L; lia|]. fold lv. split; [|lia]. destruct lv as [|n] eqn:El; [|change (lim (firstn (S n) (v :: vs))) with lv; rewrite El; reflexivity]. cbn [firstn].
        change (lim []) with om. unfold lv, NgramsProofs.lim in El. destruct (v =? kSOS); lia.
      - rewrite !lim_app by exact N. split; [reflexivity|]. pose proof (lim_le om kSOS ws). lia. }
    destruct Lim as (Lim & LL). assert (Lf : length (firstn lv vs) = lv) by (rewrite firstn_length; lia).
    assert (HH : hst [] (ws ++ firstn lv vs) = hst [] (firstn lv vs) /\ hst [] (ws ++ vs) = hst [] vs).
    { destruct W as [->|(N & Nv & Ev)]; [split; reflexivity|]. rewrite !hst_app. assert (LH : (length (hst [] ws) <= om)%nat) by (apply hst_length; [apply B_length|cbn; lia]).
      split; apply hst_same; cbn [length]; try lia; auto. intros H. apply Nv. rewrite <- (firstn_skipn lv vs). apply in_or_app. auto. }
    destruct HH as (HH1 & HH2).
    constructor; cbn [st num_scored saw_eos has_some_history context_complete feats out_unscored]; auto.
    + rewrite HH2. exact G2.
    + rewrite J3, <- Lim, !firstn_app. f_equal. rewrite firstn_firstn. f_equal. lia.
    + symmetry. apply Nat.ltb_lt. rewrite app_length. lia.
    + discriminate.
    + intros Enil. apply app_eq_nil in Enil. destruct Enil as (_ & ->). cbn in L. lia.
    + intros f. unfold vplus. rewrite G6. rewrite Z.add_assoc, J8. replace (ws ++ vs) with ((ws ++ firstn lv vs) ++ skipn lv vs) by (rewrite <- app_assoc, firstn_skipn; reflexivity). rewrite (fired_app om kSOS name B (ws ++ firstn lv vs)).
      * rewrite HH1. reflexivity.
      * rewrite <- app_assoc, firstn_skipn. exact Lim.
      * rewrite <- Lim, app_length, Lf. exact LL.
  - assert (FE : firstn lv vs = vs) by (apply firstn_all2; exact L). rewrite FE in J2, J3, J4, J5, J6, J7, J8. constructor; cbn [st num_scored saw_eos has_some_history context_complete feats out_unscored]; auto.
    intros f. unfold vplus. rewrite G6, (fired_short om kSOS name B vs) by exact L. specialize (J8 f). lia.
Qed.

(** *** Derivations *)
Definition words (d : deriv) : list Z := map cls (yield d).
Definition idx (x : Z) : nat := Z.to_nat (- x).
Definition nts (e : list Z) : list nat := map idx (filter (fun x => x <=? 0) e).
Definition item (subs : list deriv) (x : Z) : list Z := if x <=? 0 then nth (idx x) (map words subs) [] else [cls x].
Lemma words_eq e subs : words (Apply e subs) = flat_map (item subs) e.
Proof.
  unfold words at 1. cbn [yield]. induction e as [|x e IH]; [reflexivity|]. cbn [flat_map]. rewrite map_app, IH. f_equal. unfold item. destruct (x <=? 0); [|reflexivity].
  fold (idx x). generalize (idx x). clear. induction subs as [|d subs IH]; intros [|n]; cbn; auto.
Qed.
Definition psum (l : list Z) (is : list nat) : Z := zsum (map (fun i => nth i l 0) is).
Lemma psum_all l e n : Permutation (nts e) (seq 0 n) -> length l = n -> psum l (nts e) = zsum l.
Proof.
  intros HP <-. unfold psum. assert (P : forall a b, Permutation a b -> zsum a = zsum b) by (unfold zsum; induction 1; cbn; lia).
  rewrite (P _ _ (Permutation_map _ HP)). f_equal. clear. induction l as [|x l IH]; [reflexivity|].
  cbn [length seq map nth]. f_equal. rewrite <- seq_shift, map_map. exact IH.
Qed.

Lemma symbols_ok subs ants ts : length ants = length subs -> length ts = length subs ->
  (forall i d a t, nth_error subs i = Some d -> nth_error ants i = Some a -> nth_error ts i = Some t -> good (words d) t a) ->
  forall e k ws T, Forall (fun i => (i < length subs)%nat) (nts e) -> Inv k ws T -> clean (ws ++ flat_map (item subs) e) ->
  exists k', symbols true ants k e = Some k' /\ Inv k' (ws ++ flat_map (item subs) e) (fun f => T f + psum (map (fun t => t f) ts) (nts e)).
Proof.
  intros LA LT G. induction e as [|x e IH]; intros k ws T HN I C.
  - cbn [Ngrams.symbols flat_map]. rewrite app_nil_r. exists k. split; [reflexivity|]. destruct I. constructor; auto. intros f. cbn. rewrite Z.add_0_r. auto.
  - cbn [Ngrams.symbols flat_map] in *. rewrite app_assoc in *. destruct (clean_app _ _ C) as (C1 & _ & _ & _). unfold Ngrams.symbol.
    unfold nts in HN. cbn [filter] in HN. unfold nts at 1. cbn [filter]. unfold item at 1 in C1. unfold item at 1 in C. unfold item at 1.
    destruct (Z.leb_spec x 0) as [Hx|Hx].
    + destruct (Z.ltb_spec x 1) as [_|]; [|lia]. inversion HN as [|? ? Hi HN']; subst. fold (idx x). 
      destruct (nth_error subs (idx x)) as [d|] eqn:Q1; [|apply nth_error_None in Q1; lia]. destruct (nth_error ants (idx x)) as [a|] eqn:Q2; [|apply nth_error_None in Q2; lia].
      destruct (nth_error ts (idx x)) as [t|] eqn:Q3; [|apply nth_error_None in Q3; lia]. cbn [bind].
      assert (Ew : nth (idx x) (map words subs) [] = words d) by (apply nth_error_nth; rewrite nth_error_map, Q1; reflexivity). rewrite Ew in *.
      destruct (span_ok k ws T (words d) t a 1 I (G _ _ _ _ Q1 Q2 Q3) C1) as (k1 & E1 & I1). rewrite E1. cbn [bind]. cbn zeta in I1.
      assert (HM : exists k2, (if full_context a then Some (Work (remnant a) (num_scored k1) (eos_on_right a) (has_some_history k1) true (feats k1) (est_feats k1) (out_unscored k1)) else
                   Some (Work (st k1) (num_scored k1) (eos_on_right a) (has_some_history k1) (context_complete k1) (feats k1) (est_feats k1) (out_unscored k1))) = Some k2 /\ Inv k2 (ws ++ words d) (vplus T t)).
      { destruct (full_context a); eexists; split; try reflexivity; exact I1. }
      destruct HM as (k2 & E2 & I2). cbn [num_scored saw_eos has_some_history feats est_feats out_unscored]. rewrite E2. cbn [bind].
      destruct (IH k2 _ _ HN' I2 C) as (k' & E' & I'). exists k'. split; [exact E'|]. destruct I'. constructor; auto. intros f. rewrite <- i_feats0. unfold vplus. cbn [map]. unfold psum. cbn [map zsum fold_right].
      rewrite (nth_error_nth (map (fun t => t f) ts) (idx x) 0 (x := t f)) by (rewrite nth_error_map, Q3; reflexivity). unfold nts, zsum. lia.
    + destruct (Z.ltb_spec x 1) as [|_]; [lia|]. destruct (step_ok (-100) k ws T (cls x) I C1) as (k1 & E1 & I1). rewrite E1. cbn [bind]. apply IH; assumption.
Qed.

Lemma eval_ok d : linear d -> clean (words d) -> exists t a, eval order kSOS kEOS malformed cls name d = Some (t, a) /\ good (words d) t a.
Proof.
  induction d as [e subs IH] using deriv_ind'. intros HL C. inversion HL as [e' s' HP HF He]. subst e' s'. change (Permutation (nts e) (seq 0 (length subs))) in HP.
  assert (Sub : Forall (fun d => exists t a, eval order kSOS kEOS malformed cls name d = Some (t, a) /\ good (words d) t a) subs).
  { apply Forall_forall. intros d Hd. rewrite Forall_forall in IH, HF. apply IH; auto. apply In_nth_error in Hd. destruct Hd as (i & Hi).
    assert (Hn : In i (nts e)). { apply (Permutation_in (l := seq 0 (length subs))); [symmetry; exact HP|]. apply in_seq. assert (i < length subs)%nat by (apply nth_error_Some; congruence). lia. }
    unfold nts in Hn. apply in_map_iff in Hn. destruct Hn as (x & <- & Hx). apply filter_In in Hx. destruct Hx as (Hx & Hle). apply in_split in Hx. destruct Hx as (e1 & e2 & ->).
    rewrite words_eq, flat_map_app in C. cbn [flat_map] in C. apply clean_app in C. destruct C as (_ & C & _). apply clean_app in C. destruct C as (C & _). unfold item in C. rewrite Hle in C.
    erewrite nth_error_nth in C by (rewrite nth_error_map, Hi; reflexivity). exact C. }
  cbn [eval].
  set (evals := fix evals (ds : list deriv) : option ((Z -> Z) * list span) := match ds with [] => Some (vzero, []) | d1 :: ds' => '(f1, a1) <- eval order kSOS kEOS malformed cls name d1 ;; '(f2, as2) <- evals ds' ;; Some (vplus f1 f2, a1 :: as2) end).
  assert (HV : exists F ants ts, evals subs = Some (F, ants) /\ length ants = length subs /\ length ts = length subs /\ (forall f, F f = zsum (map (fun t => t f) ts)) /\
     (forall i d a t, nth_error subs i = Some d -> nth_error ants i = Some a -> nth_error ts i = Some t -> good (words d) t a)).
  { clear - Sub. induction Sub as [|d subs (t & a & E & G) _ (F & ants & ts & E' & L1 & L2 & HF & HG)].
    - exists vzero, [], []. repeat split; auto. all: intros; destruct i; discriminate.
    - exists (vplus t F), (a :: ants), (t :: ts). cbn [evals]. rewrite E. cbn [bind]. rewrite E'. cbn [bind length map]. split; [reflexivity|]. split; [lia|]. split; [lia|]. split.
      + intros f. unfold vplus. rewrite HF. reflexivity.
      + intros [|i] d' a' t' Q1 Q2 Q3; cbn in *; [congruence|eauto]. }
  destruct HV as (F & ants & ts & E & L1 & L2 & HS & HG). rewrite E. cbn [bind]. unfold LookupWords.
  rewrite words_eq in C.
  destruct (symbols_ok subs ants ts L1 L2 HG e (start order) [] vzero) as (k & Ek & [J1 J2 J3 J4 J5 J6 J7 J8]); [|apply Inv_start|exact C|].
  { apply Forall_forall. intros i Hi. apply (Permutation_in _ HP) in Hi. apply in_seq in Hi. lia. }
  rewrite Ek. cbn [bind]. eexists. eexists. split; [reflexivity|]. rewrite words_eq. cbn [app] in *. constructor; cbn [remnant unscored full_context eos_on_right]; auto.
  - rewrite J4. destruct (Nat.ltb_spec (lim (flat_map (item subs) e)) (length (flat_map (item subs) e))) as [L|L]; [reflexivity|]. cbn [orb]. rewrite J5 by exact J4.
    apply Nat.leb_gt. pose proof (lim_le om kSOS (flat_map (item subs) e)). lia.
  - intros f. unfold vplus. rewrite HS, <- J8. unfold vzero. rewrite (psum_all _ e (length subs)) by (auto; rewrite map_length; exact L2). lia.
Qed.

(** *** The end of the sentence *)
Lemma steps_final ws : forall k h, context_complete k = true -> saw_eos k = false -> length (st k) = om -> ctx (st k) = h -> ~ In kSOS ws -> ~ In kEOS ws -> Forall (fun w => w <> 0) ws ->
  exists k', steps false 1 k ws = Some k' /\ context_complete k' = true /\ saw_eos k' = false /\ length (st k') = om /\ ctx (st k') = hst h ws /\ forall f, feats k' f = feats k f + runf h ws f.
Proof.
  induction ws as [|w ws IH]; intros k h Hc He Hl Hh Ns Ne Nz; cbn [Ngrams.steps].
  - exists k. repeat split; auto. intros f. cbn. lia.
  - inversion Nz as [|? ? Hw Nz']; subst. unfold Ngrams.step. assert (Nw : w <> kSOS) by (intros ->; apply Ns; left; reflexivity). assert (Nw' : w <> kEOS) by (intros ->; apply Ne; left; reflexivity).
    apply Z.eqb_neq in Nw, Nw'. rewrite Nw. destruct (FireFeatures_ok (st k) w Hw Hl) as (q & Eq & Hq). rewrite Eq. cbn [bind]. rewrite Hc, He, Nw'. cbn [orb bind].
    match goal with |- context [steps false 1 ?x ws] => destruct (IH x (ctx (st x))) as (k' & E' & I1 & I2 & I3 & I4 & I5); cbn [st context_complete saw_eos]; auto end.
    + rewrite Extend_length. exact Hl.
    + intros H. apply Ns. right. exact H.
    + intros H. apply Ne. right. exact H.
    + exists k'. split; [exact E'|]. cbn [st feats] in *. rewrite (ctx_Extend _ _ Hw), Hl in *. repeat split; auto.
      * rewrite I4. cbn. unfold hs. rewrite Nw. reflexivity.
      * intros f. rewrite I5. unfold vplus. rewrite Hq. cbn [NgramsProofs.runf]. unfold pw, hs. rewrite Nw. lia.
Qed.

Lemma final_unfold b a eos : 0 < eos -> symbols false [b; a] (start order) [0; -1; eos] =
  (k <- steps false 1 (start order) (unscored b) ;;
   let k := if full_context b then Work (remnant b) (num_scored k) (eos_on_right b) (has_some_history k) true (feats k) (est_feats k) (out_unscored k) else Work (st k) (num_scored k) (eos_on_right b) (has_some_history k) (context_complete k) (feats k) (est_feats k) (out_unscored k) in
   k <- steps false 1 k (unscored a) ;;
   let k := if full_context a then Work (remnant a) (num_scored k) (eos_on_right a) (has_some_history k) true (feats k) (est_feats k) (out_unscored k) else Work (st k) (num_scored k) (eos_on_right a) (has_some_history k) (context_complete k) (feats k) (est_feats k) (out_unscored k) in
   step false (-100) k (cls eos)).
Proof.
  intros He. cbn [Ngrams.symbols]. unfold Ngrams.symbol. change (0 <? 1) with true. change (-1 <? 1) with true. cbn iota.
  change (nth_error [b; a] (Z.to_nat (- 0))) with (Some b). change (nth_error [b; a] (Z.to_nat (- -1))) with (Some a). cbn [bind].
  destruct (Z.ltb_spec eos 1) as [|_]; [lia|].
  destruct (steps false 1 (start order) (unscored b)) as [k|]; [|reflexivity]. cbn [bind]. cbn zeta. cbn [st num_scored saw_eos has_some_history context_complete feats est_feats out_unscored].
  destruct (full_context b); cbn [bind]; match goal with |- context [steps false 1 ?x (unscored a)] => destruct (steps false 1 x (unscored a)) as [k2|]; [|reflexivity] end; cbn [bind];
    cbn [st num_scored saw_eos has_some_history context_complete feats est_feats out_unscored]; destruct (full_context a); cbn [bind]; match goal with |- (_ <- ?x ;; _) = ?y => change y with x; destruct x; reflexivity end.
Qed.

Theorem features_implicit eos d : linear d -> ~ In kSOS (words d) -> ~ In kEOS (words d) -> Forall (fun w => w <> 0) (words d) -> 0 < eos -> cls eos = kEOS -> kEOS <> 0 -> kEOS <> kSOS ->
  exists F, Features order kSOS kEOS malformed cls name false eos d = Some F /\ forall f, F f = runf B (words d ++ [kEOS]) f.
Proof.
  intros HL Ns Ne Nz Pe He Ze Se. assert (C : clean (words d)).
  { split; [|split; [|exact Nz]].
    - intros H. apply Ns. destruct (words d); [destruct H|right; exact H].
    - intros H. apply Ne. revert H. generalize (words d). clear. induction l as [|x l IH]; [intros []|]. cbn [removelast]. destruct l; [intros []|]. intros [->|H]; [left; reflexivity|right; apply IH; exact H]. }
  destruct (eval_ok d HL C) as (t & a & E & [G1 G2 G3 G4 G5 G6]). unfold Features. rewrite E. cbn [bind]. unfold FinalTraversal.
  assert (Lm : lim (words d) = om) by (apply lim_free; exact Ns). rewrite Lm in *.
  assert (Ea : eos_on_right a = false). { destruct (eos_on_right a) eqn:Q; [|reflexivity]. destruct (G5 eq_refl) as (u & Hu). exfalso. apply Ne. rewrite Hu. apply in_or_app. right. left. reflexivity. }
  rewrite final_unfold by exact Pe. cbn [unscored full_context Ngrams.steps bind remnant eos_on_right].
  match goal with |- context [steps false 1 ?x (unscored a)] => destruct (steps_final (unscored a) x B) as (k & Ek & K1 & K2 & K3 & K4 & K5); cbn [st context_complete saw_eos]; auto end.
  { apply Begin_length. }
  { rewrite G3. intros H. apply Ns. rewrite <- (firstn_skipn om (words d)). apply in_or_app. auto. }
  { rewrite G3. intros H. apply Ne. rewrite <- (firstn_skipn om (words d)). apply in_or_app. auto. }
  { rewrite G3. rewrite <- (firstn_skipn om (words d)) in Nz. apply Forall_app in Nz. tauto. }
  rewrite Ek. cbn [bind]. rewrite Ea, K1. cbn [st num_scored saw_eos has_some_history context_complete feats est_feats out_unscored].
  assert (HM : exists k2, (if full_context a then Work (remnant a) (num_scored k) false (has_some_history k) true (feats k) (est_feats k) (out_unscored k) else
                   Work (st k) (num_scored k) false (has_some_history k) true (feats k) (est_feats k) (out_unscored k)) = k2
       /\ context_complete k2 = true /\ saw_eos k2 = false /\ length (st k2) = om /\ ctx (st k2) = hst B (words d) /\ forall f, feats k2 f + t f = runf B (words d) f).
  { rewrite G4. destruct (Nat.ltb_spec om (length (words d))) as [L|L].
    - eexists. split; [reflexivity|]. cbn [st context_complete saw_eos feats]. repeat split; auto.
      + rewrite G2. apply hst_same; cbn [length]; [exact Ns|lia|apply B_length|lia].
      + intros f. rewrite K5, G6. cbn [feats]. unfold NgramsProofs.fired, vzero. rewrite Lm, G3. rewrite <- (firstn_skipn om (words d)) at 4. rewrite runf_app.
        rewrite (hst_same om kSOS B (firstn om (words d)) [] B); [cbn [start feats]; unfold vzero; lia| |cbn; lia|apply B_length|rewrite firstn_length; lia].
        intros H. apply Ns. rewrite <- (firstn_skipn om (words d)). apply in_or_app. auto.
    - eexists. split; [reflexivity|]. cbn [st context_complete saw_eos feats]. rewrite G3, firstn_all2 in K4, K5 by exact L. repeat split; auto.
      intros f. rewrite K5, G6, fired_short by (rewrite Lm; exact L). cbn [start feats]. unfold vzero. lia. }
  destruct HM as (k2 & E2 & M1 & M2 & M3 & M4 & M5). rewrite E2. rewrite He. unfold Ngrams.step. destruct (Z.eqb_spec kEOS kSOS); [contradiction|].
  destruct (FireFeatures_ok (st k2) kEOS Ze M3) as (q & Eq & Hq). rewrite Eq. cbn [bind]. rewrite M1, M2. cbn [orb bind feats].
  eexists. split; [reflexivity|]. intros f. unfold vplus. rewrite Hq, M4, runf_app. cbn [NgramsProofs.runf]. unfold pw. destruct (Z.eqb_spec kEOS kSOS); [contradiction|]. specialize (M5 f). lia.
Qed.

Theorem features_explicit eos d ws : linear d -> words d = kSOS :: ws -> ~ In kSOS ws -> ~ In kEOS (removelast (kSOS :: ws)) -> Forall (fun w => w <> 0) ws ->
  exists F, Features order kSOS kEOS malformed cls name true eos d = Some F /\ forall f, F f = runf B ws f.
Proof.
  intros HL Hw Ns Ne Nz. assert (C : clean (words d)) by (rewrite Hw; split; [exact Ns|split; [exact Ne|constructor; assumption]]).
  destruct (eval_ok d HL C) as (t & a & E & [_ _ _ _ _ G6]). unfold Features. rewrite E. cbn. eexists. split; [reflexivity|]. intros f. unfold vplus, vzero. rewrite G6, Hw, Z.add_0_r.
  unfold NgramsProofs.fired. cbn [NgramsProofs.lim]. rewrite Z.eqb_refl. destruct (order - 1)%nat as [|n] eqn:Eo; cbn [Nat.min firstn skipn NgramsProofs.runf NgramsProofs.hst fold_left]; unfold pw, hs; rewrite Z.eqb_refl; [unfold vzero; lia|reflexivity].
Qed.
End Code.

Lemma count_inj name g gs n : (forall h, (length h <= n)%nat -> name g = name h -> g = h) -> Forall (fun h => (length h <= n)%nat) gs -> count_named name (name g) gs = count_gram g gs.
Proof.
  intros Hi. unfold count_named, count_gram. induction 1 as [|h gs Hh _ IH]; [reflexivity|]. cbn [filter count_occ]. destruct (list_eq_dec Z.eq_dec h g) as [->|N].
  - rewrite Z.eqb_refl. cbn [length]. lia.
  - destruct (Z.eqb_spec (name h) (name g)) as [E|_]; [|exact IH]. exfalso. apply N. symmetry. apply Hi; congruence.
Qed.
Lemma windows_short n pre l : Forall (fun h => (length h <= n)%nat) (windows n pre l).
Proof.
  unfold windows. apply Forall_forall. intros g Hg. apply in_flat_map in Hg. destruct Hg as (i & _ & Hg). unfold ending in Hg. apply in_map_iff in Hg. destruct Hg as (k & <- & Hk).
  apply in_seq in Hk. rewrite skipn_length. lia.
Qed.

Theorem features_ok order kSOS kEOS malformed cls name eos d :
  (1 <= order <= 5)%nat -> kSOS <> 0 -> kEOS <> 0 -> kEOS <> kSOS -> 0 < eos -> cls eos = kEOS ->
  (forall g h, (length g <= order)%nat -> (length h <= order)%nat -> name g = name h -> length g = length h) ->
  linear d -> ~ In kSOS (map cls (yield d)) -> ~ In kEOS (map cls (yield d)) -> ~ In 0 (map cls (yield d)) ->
  exists F, Features order kSOS kEOS malformed cls name false eos d = Some F
  /\ forall f, F f = count_named name f (windows order (if Nat.eqb order 2 then [kSOS] else []) (map cls (yield d) ++ [kEOS])).
Proof.
  intros Ho Hs He Hes Pe Ce Hn HL N1 N2 N3. destruct (features_implicit order kSOS kEOS malformed cls name Ho Hs eos d) as (F & E & HF); auto.
  { apply Forall_forall. intros w Hw ->. exact (N3 Hw). }
  exists F. split; [exact E|]. intros f. rewrite HF. replace order with (S (order - 1)) in Hn by lia. rewrite (runf_windows _ _ _ _ Hn).
  - replace (S (order - 1)) with order by lia. rewrite B_eq by assumption. destruct (Nat.eqb order 2); reflexivity.
  - apply B_length.
  - intros H. apply in_app_or in H. destruct H as [H|[H|[]]]; [exact (N1 H)|congruence].
Qed.
Theorem features_marked order kSOS kEOS malformed cls name eos d ws :
  (1 <= order <= 5)%nat -> kSOS <> 0 -> kEOS <> 0 -> kEOS <> kSOS ->
  (forall g h, (length g <= order)%nat -> (length h <= order)%nat -> name g = name h -> length g = length h) ->
  linear d -> map cls (yield d) = kSOS :: ws ++ [kEOS] -> ~ In kSOS ws -> ~ In kEOS ws -> ~ In 0 ws ->
  exists F, Features order kSOS kEOS malformed cls name true eos d = Some F
  /\ forall f, F f = count_named name f (windows order (if Nat.eqb order 2 then [kSOS] else []) (ws ++ [kEOS])).
Proof.
  intros Ho Hs He Hes Hn HL W N1 N2 N3.
  assert (NS : ~ In kSOS (ws ++ [kEOS])) by (intros H; apply in_app_or in H; destruct H as [H|[H|[]]]; [exact (N1 H)|congruence]).
  destruct (features_explicit order kSOS kEOS malformed cls name Ho Hs eos d (ws ++ [kEOS])) as (F & E & HF); auto.
  { change (kSOS :: ws ++ [kEOS]) with ((kSOS :: ws) ++ [kEOS]). rewrite removelast_app by discriminate. cbn [removelast]. rewrite app_nil_r. intros [H|H]; [congruence|exact (N2 H)]. }
  { apply Forall_forall. intros w Hw ->. apply in_app_or in Hw. destruct Hw as [H|[H|[]]]; [exact (N3 H)|congruence]. }
  exists F. split; [exact E|]. intros f. rewrite HF. replace order with (S (order - 1)) in Hn by lia. rewrite (runf_windows _ _ _ _ Hn); [|apply B_length|exact NS].
  replace (S (order - 1)) with order by lia. rewrite B_eq by assumption. destruct (Nat.eqb order 2); reflexivity.
Qed.
