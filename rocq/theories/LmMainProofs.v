(** Whole derivations, word-by-word scoring, and the feature's maps. *)
From Coq Require Import List ZArith Bool Lia Permutation.
Import ListNotations.
From Verif Require Import Opt Lm LmSpec LmProofs LmChartProofs LmFeatureProofs.
Open Scope Z_scope.

Section M.
Variable m : search.
Hypothesis WB : well_built m.
Notation entry := (entry m).
Notation logprob := (logprob m).
Notation seq_score := (seq_score m).
Notation N := (order m).
Notation BL := (BL m).
Notation E := (E m).
Notation norx := (norx m).
Notation NX := (NX m).
Notation stands := (stands m).

(** ** Derivations *)
Section F.
Variable f : feature.
Variable eosw : Z.
Hypothesis LD : loaded f eosw.
Notation lmw := (lm_word f).
Notation toks := (toks f).
Notation tscore := (tscore m f).
Notation thist := (thist f).

Lemma tscore_words l : forall h, tscore h (map TW l) = seq_score h l.
Proof. induction l as [|w l IH]; intros h; cbn; [reflexivity|]. rewrite IH. reflexivity. Qed.
Lemma thist_words l : forall h, thist h (map TW l) = rev l ++ h.
Proof. induction l as [|w l IH]; intros h; cbn; [reflexivity|]. rewrite IH, <- app_assoc. reflexivity. Qed.

Lemma toks_words d : no_sos_rule f d -> toks d = map TW (map lmw (yield d)).
Proof.
  induction d as [e subs IH] using deriv_ind'. intros HN. inversion HN as [e' s' H1 H2]; subst e' s'.
  assert (HX : forall x, item f subs x = map TW (map lmw (if x <=? 0 then nth (Z.to_nat (- x)) (map yield subs) [] else [x]))).
  { intros x. unfold item. destruct (x <=? 0); [|reflexivity]. unfold idx. generalize (Z.to_nat (- x)). clear - IH H2. induction subs as [|d subs IHs]; intros [|n]; cbn; auto.
    - inversion IH; inversion H2; subst. auto.
    - inversion IH; inversion H2; subst. apply IHs; assumption. }
  assert (HY : forall l, flat_map (item f subs) l = map TW (map lmw (flat_map (fun x => if x <=? 0 then nth (Z.to_nat (- x)) (map yield subs) [] else [x]) l))).
  { induction l as [|x l IHl]; [reflexivity|]. cbn [flat_map]. rewrite !map_app, HX, IHl. reflexivity. }
  destruct e as [|x e]; [reflexivity|]. cbn [yield LmSpec.toks flat_map]. fold (item f subs). destruct (Z.eqb_spec x (kCDEC_SOS f)) as [->|]; [destruct (H1 eq_refl)|].
  rewrite !map_app, <- HY, <- HX. reflexivity.
Qed.

Lemma hasS_words l : hasS (map TW l) = false.
Proof. induction l; cbn; auto. Qed.
Lemma hasE_words l : ~ In (kEOS f) l -> hasE f (map TW l) = false.
Proof. induction l as [|w l IH]; intros H; cbn; [reflexivity|]. destruct (Nat.eqb_spec w (kEOS f)) as [->|]; [destruct H; left; reflexivity|]. apply IH. intros Q. apply H. right. exact Q. Qed.

Theorem score_implicit d : linear d -> no_sos_rule f d -> ~ In (kEOS f) (map lmw (yield d)) ->
  Score m f true d = Some (seq_score [kSOS f] (map lmw (yield d) ++ [kEOS f]), count_oov f (yield d), sum_emission f (yield d)).
Proof.
  intros HL HN HE. destruct (eval_good m WB f eosw LD d HL) as (p & o & em & a & k & E1 & (L & G1 & G2 & G3 & G4 & G5 & G6 & G7 & G8) & -> & ->).
  pose proof (toks_words d HN) as HT. assert (HS0 : hasS (toks d) = false) by (rewrite HT; apply hasS_words). assert (HE0 : hasE f (toks d) = false) by (rewrite HT; apply hasE_words; exact HE).
  specialize (G7 HS0 HE0). subst k. rewrite Z.mul_0_r, Z.add_0_r in G1.
  unfold Score. rewrite E1. cbn [bind]. unfold FinalTraversalCost. rewrite G2, G3, HS0, HE0. cbn [orb].
  destruct (nonterminal_J m WB _ _ _ _ _ _ _ _ _ _ (J_begin_sentence m WB (kSOS f)) G1) as (L1 & s1 & N1 & N2 & N3). rewrite N1. cbn [bind].
  destruct (N3 eq_refl) as (D1 & ->).
  destruct (terminal_J m WB _ _ _ _ _ (kEOS f) N2) as (L2 & s2 & T1 & T2 & T3). rewrite T1. cbn [bind Finish fst].
  destruct (T3 D1) as (D2 & -> & V & V1 & V2). cbn in V1. specialize (V2 []). rewrite HT in V2. rewrite tscore_words, thist_words in V2. cbn [LmSpec.seq_score rev] in V2.
  f_equal. f_equal. f_equal. rewrite seq_score_snoc. lia.
Qed.

Theorem score_implicit_assert d : linear d -> (Score m f true d = None <-> In TSOS (toks d) \/ In (TW (kEOS f)) (toks d)).
Proof.
  intros HL. destruct (eval_good m WB f eosw LD d HL) as (p & o & em & a & k & E1 & (L & G1 & G2 & G3 & G4 & G5 & G6 & G7 & G8) & -> & ->).
  unfold Score. rewrite E1. cbn [bind]. unfold FinalTraversalCost. rewrite G2, G3. split.
  - intros H. destruct (hasS (toks d)) eqn:HS. { left. apply hasS_split in HS. destruct HS as (x & y & ->). apply in_elt. }
    destruct (hasE f (toks d)) eqn:HE. { right. apply hasE_split in HE. destruct HE as (x & y & ->). apply in_elt. }
    exfalso. cbn [orb] in H. destruct (nonterminal_J m WB _ _ _ _ _ _ _ _ _ _ (J_begin_sentence m WB (kSOS f)) G1) as (L1 & s1 & N1 & N2 & N3). rewrite N1 in H. cbn [bind] in H.
    destruct (terminal_J m WB _ _ _ _ _ (kEOS f) N2) as (L2 & s2 & T1 & T2 & T3). rewrite T1 in H. discriminate H.
  - intros [H|H]; apply in_split in H; destruct H as (x & y & ->).
    + rewrite hasS_in. reflexivity.
    + rewrite hasE_in, orb_true_r. reflexivity.
Qed.

Lemma sos_first d : linear d -> nonempty d -> hd_error (yield d) = Some (kCDEC_SOS f) -> hd_error (toks d) = Some TSOS.
Proof.
  induction d as [e subs IH] using deriv_ind'. intros HL Hne Hh. inversion HL as [e' s' HP HF]; subst e' s'. inversion Hne as [e' s' HY HNE]; subst e' s'.
  destruct e as [|x e]; [discriminate Hh|]. cbn [yield LmSpec.toks flat_map] in *.
  destruct (Z.eqb_spec x (kCDEC_SOS f)) as [->|Hx]; [reflexivity|].
  destruct (x <=? 0) eqn:Hle; [|cbn in Hh; injection Hh as ->; destruct (Hx eq_refl)].
  assert (Hi : (Z.to_nat (- x) < length subs)%nat).
  { assert (In (Z.to_nat (- x)) (seq 0 (length subs))) as Q by (apply (Permutation_in _ HP); apply (in_map (fun x => Z.to_nat (- x))); apply filter_In; split; [left; reflexivity|exact Hle]). apply in_seq in Q. lia. }
  destruct (nth_error subs (Z.to_nat (- x))) as [d|] eqn:Hn; [|apply nth_error_None in Hn; lia].
  assert (Hy : nth (Z.to_nat (- x)) (map yield subs) [] = yield d) by (apply nth_error_nth; rewrite nth_error_map, Hn; reflexivity).
  assert (Ht : nth (Z.to_nat (- x)) (map toks subs) [] = toks d) by (apply nth_error_nth; rewrite nth_error_map, Hn; reflexivity).
  rewrite Hy in Hh. rewrite Ht. pose proof (nth_error_In _ _ Hn) as Hin.
  assert (Ld : linear d) by (eapply Forall_forall in HF; eauto). assert (Nd : nonempty d) by (eapply Forall_forall in HNE; eauto).
  assert (Yd : yield d <> []) by (inversion Nd; assumption).
  assert (Hd : hd_error (yield d) = Some (kCDEC_SOS f)) by (destruct (yield d); [destruct (Yd eq_refl)|exact Hh]).
  eapply Forall_forall in IH; [|exact Hin]. specialize (IH Ld Nd Hd). destruct (toks d); [discriminate IH|exact IH].
Qed.

Lemma rel_words ws ts : Forall2 (rel f) ws ts -> ~ In (kCDEC_SOS f) ws -> ts = map TW (map lmw ws).
Proof.
  induction 1 as [|x t ws ts Hr H IH]; intros Hn; [reflexivity|]. cbn. rewrite <- IH by (intros Q; apply Hn; right; exact Q). f_equal.
  destruct Hr as [(-> & _)|]; [destruct Hn; left; reflexivity|assumption].
Qed.

Lemma well_marked_yield d ws x : linear d -> nonempty d -> yield d = kCDEC_SOS f :: ws ++ [x] -> ~ In (kCDEC_SOS f) (ws ++ [x]) -> lmw x = kEOS f -> ~ In (kEOS f) (map lmw ws) ->
  toks d = TSOS :: map TW (map lmw ws ++ [kEOS f]) /\ well_marked f (toks d).
Proof.
  intros HL Hne HY Hs Hx He. pose proof (toks_rel f eosw LD d HL) as HR. pose proof (sos_first d HL Hne) as HF. rewrite HY in HR, HF. specialize (HF eq_refl).
  inversion HR as [|y t ys ts Hr HR' E1 E2]; subst. rewrite <- E2 in *. cbn in HF. injection HF as ->.
  assert (ts = map TW (map lmw ws ++ [kEOS f])) as ->. { rewrite <- Hx. change [lmw x] with (map lmw [x]). rewrite <- map_app. apply rel_words; assumption. }
  split; [reflexivity|]. exists (map TW (map lmw ws)). rewrite map_app. split; [reflexivity|]. split.
  - intros Q. apply in_map_iff in Q. destruct Q as (z & Q & _). discriminate.
  - intros Q. apply in_map_iff in Q. destruct Q as (z & Q & Q2). injection Q as ->. contradiction.
Qed.

Lemma well_marked_ok ts : well_marked f ts -> ok_toks f ts /\ hasS ts = true /\ hasE f ts = true.
Proof.
  intros (ts' & -> & H1 & H2). split; [|split; [reflexivity|apply (hasE_in f (TSOS :: ts') [])]].
  assert (K : forall a b, TSOS :: ts' ++ [TW (kEOS f)] = a ++ TSOS :: b -> a = []).
  { intros [|y a] b Q; [reflexivity|]. injection Q as <- Q. exfalso. assert (In TSOS (ts' ++ [TW (kEOS f)])) as I by (rewrite Q; apply in_elt). apply in_app_or in I. destruct I as [I|[I|[]]]; [contradiction|discriminate]. }
  split; [exact K|]. intros a b Q. destruct b as [|z b] using rev_ind; [reflexivity|]. clear IHb. exfalso.
  replace (TSOS :: ts' ++ [TW (kEOS f)]) with ((TSOS :: ts') ++ [TW (kEOS f)]) in Q by reflexivity. replace (a ++ TW (kEOS f) :: b ++ [z]) with ((a ++ TW (kEOS f) :: b) ++ [z]) in Q by (rewrite <- app_assoc; reflexivity).
  apply app_inj_tail in Q. destruct Q as (Q & _). assert (In (TW (kEOS f)) (TSOS :: ts')) as I by (rewrite Q; apply in_elt). destruct I as [I|I]; [discriminate|contradiction].
Qed.

Lemma ok_well_marked ts : ok_toks f ts -> hasS ts = true -> hasE f ts = true -> well_marked f ts.
Proof.
  intros (H1 & H2) HS HE. apply hasS_split in HS. destruct HS as (a & b & HS). pose proof (H1 _ _ HS). subst a. cbn in HS. subst ts.
  apply hasE_split in HE. destruct HE as (a & c & HE). pose proof (H2 _ _ HE). subst c. destruct a as [|y a]; [discriminate|]. cbn in HE. injection HE as <- ->.
  exists a. split; [reflexivity|]. split; intros Q; apply in_split in Q; destruct Q as (u & v & ->).
  - discriminate (H1 (TSOS :: u) (v ++ [TW (kEOS f)])). cbn. rewrite <- app_assoc. reflexivity.
  - assert (K : v ++ [TW (kEOS f)] = []) by (apply (H2 (TSOS :: u)); cbn; rewrite <- app_assoc; reflexivity). destruct v; discriminate K.
Qed.

Lemma pend_zero h st pend x r : stands h st pend -> h = x :: r -> (forall g, bow m (x :: g) = 0) -> pend = 0.
Proof.
  intros (h' & H1 & _ & _ & -> & _) -> Hb. apply (E_zero m). intros l1 l2 -> Hl. destruct (words st) as [|y w]; cbn in H1 |- *.
  - destruct l1 as [|z l1]; [destruct (Hl eq_refl)|]. injection H1 as <- _. apply Hb.
  - injection H1 as <- _. apply Hb.
Qed.

Theorem score_explicit d ws x : linear d -> nonempty d -> yield d = kCDEC_SOS f :: ws ++ [x] -> ~ In (kCDEC_SOS f) (ws ++ [x]) -> lmw x = kEOS f -> ~ In (kEOS f) (map lmw ws) ->
  (forall g, bow m (kEOS f :: g) = 0) ->
  Score m f false d = Some (seq_score [kSOS f] (map lmw ws ++ [kEOS f]), count_oov f (yield d), sum_emission f (yield d)).
Proof.
  intros HL Hne HY Hs Hx He Hb. destruct (well_marked_yield d ws x HL Hne HY Hs Hx He) as (HT & WM). destruct (well_marked_ok _ WM) as (OK & HS & HE).
  destruct (eval_good m WB f eosw LD d HL) as (p & o & em & a & k & E1 & (L & G1 & G2 & G3 & G4 & G5 & G6 & G7 & G8) & -> & ->).
  specialize (G6 Hne OK). subst k. destruct (G8 eq_refl HS) as (-> & Hf).
  unfold Score. rewrite E1. cbn [bind]. unfold FinalTraversalCost. rewrite G2, G3, HS, HE. cbn [bind].
  destruct G1 as (_ & _ & V & V1 & V2). rewrite Hf in V2. destruct (V2 []) as (pend & S1 & S2). cbn in V1.
  rewrite HT in S1, S2. cbn [LmSpec.tscore LmSpec.thist] in S1, S2. rewrite tscore_words in S2. rewrite thist_words, rev_app_distr in S1. cbn [rev app] in S1.
  assert (pend = 0) by (eapply pend_zero; [exact S1|reflexivity|exact Hb]). cbn in S2. f_equal. f_equal. f_equal. lia.
Qed.

Lemma seq_add_map k n : forall s, map (Nat.add k) (seq s n) = seq (k + s) n.
Proof. induction n as [|n IH]; intros s; [reflexivity|]. cbn [seq map]. f_equal. rewrite IH. f_equal. lia. Qed.

Lemma E_pending a b : E a b = pending m (length a) (a ++ b).
Proof.
  unfold LmProofs.E, pending. f_equal. rewrite app_length. replace (length a + length b - length a)%nat with (length b) by lia.
  rewrite <- (BL_map m b a). replace (S (length a)) with (length a + 1)%nat by lia. rewrite <- seq_add_map, map_map. apply map_ext. intros i. rewrite firstn_app_2. reflexivity.
Qed.

Lemma rests_ordinary L : ordinary m -> lefts_ok m L -> rests m L = seq_score [] L.
Proof.
  intros HO. induction L as [|x L IH] using rev_ind; intros (H1 & H2); [reflexivity|].
  rewrite rests_snoc, seq_score_snoc, app_nil_r. rewrite IH.
  - f_equal. destruct (H2 L x [] eq_refl) as (w & Hw). unfold rst. rewrite Hw. rewrite <- (app_nil_r (rev L)). rewrite (lp_char m WB x (rev L) [] w Hw I). rewrite (HO _ _ Hw). cbn. lia.
  - rewrite app_length in H1. split; [lia|]. intros A y B ->. apply (H2 A y (B ++ [x])). rewrite <- app_assoc. reflexivity.
Qed.

Theorem score_explicit_any d : linear d -> ordinary m ->
  exists k j, 0 <= k /\ (j <= length (thist [] (toks d)))%nat
  /\ Score m f false d = Some (tscore [] (toks d) + pending m j (thist [] (toks d)) - hundred * k, count_oov f (yield d), sum_emission f (yield d))
  /\ (k = 0 -> well_marked f (toks d)) /\ (nonempty d -> well_marked f (toks d) -> k = 0).
Proof.
  intros HL HO. destruct (eval_good m WB f eosw LD d HL) as (p & o & em & a & k & E1 & (L & G1 & G2 & G3 & G4 & G5 & G6 & G7 & G8) & -> & ->).
  assert (Raw : exists j, (j <= length (thist [] (toks d)))%nat /\ p + hundred * k = tscore [] (toks d) + pending m j (thist [] (toks d))).
  { destruct G1 as (_ & LO & V & V1 & V2). rewrite (rests_ordinary L HO LO) in V1. destruct (full (a_state a)).
    - destruct (V2 []) as (pend & (h' & S1 & _ & _ & S3 & _) & S4). exists (length (words (right (a_state a)))). rewrite S1, app_length. split; [lia|]. rewrite <- E_pending, <- S3. cbn in S4. lia.
    - destruct V2 as (-> & _ & HH & HS). exists (length (thist [] (toks d))). split; [lia|]. unfold pending. rewrite Nat.sub_diag. rewrite HS. cbn [seq map zsum fold_right]. lia. }
  destruct Raw as (j & J1 & J2). exists (k + (if hasS (toks d) then 0 else 1) + (if hasE f (toks d) then 0 else 1)), j.
  unfold Score. rewrite E1. cbn [bind]. unfold FinalTraversalCost. rewrite G2, G3. cbn [bind]. sp; auto.
  - destruct (hasS (toks d)), (hasE f (toks d)); lia.
  - f_equal. f_equal. f_equal. destruct (hasS (toks d)), (hasE f (toks d)); lia.
  - intros Hk. destruct (hasS (toks d)) eqn:HS, (hasE f (toks d)) eqn:HE; try lia. apply ok_well_marked; auto. apply G5. lia.
  - intros Hne WM. destruct (well_marked_ok _ WM) as (OK & -> & ->). rewrite G6 by assumption. reflexivity.
Qed.

End F.

(** ** Word by word *)

Definition kept (h : list word) (s : state) : Prop :=
  exists k, (k <= length h)%nat /\ words s = firstn k h /\ backoffs s = map (fun i => bow m (firstn i h)) (seq 1 k)
  /\ forall i, (k < i <= length h)%nat -> ~ useful m (firstn i h).

Lemma state_of_kept h s : state_of m h s -> kept h s.
Proof. intros (k & H1 & H2 & H3 & _ & H4). exists k. auto. Qed.

Lemma map_BL h k : (k <= length h)%nat -> map (fun i => bow m (firstn i h)) (seq 1 k) = BL [] (firstn k h).
Proof.
  intros Hk. rewrite <- (BL_map m (firstn k h) []). rewrite firstn_length, Nat.min_l by exact Hk. apply map_ext_in. intros i Hi. apply in_seq in Hi.
  cbn [app]. rewrite firstn_firstn, Nat.min_l by lia. reflexivity.
Qed.

Lemma not_useful_nx g : ~ useful m g -> nx m g.
Proof. intros H w Hw. destruct (has_ext w) eqn:X; [|reflexivity]. destruct H. exists w. auto. Qed.

Lemma kept_stands h s : kept h s -> (length (words s) <= N - 1)%nat -> stands h s 0 /\ NX (words s) (skipn (length (words s)) h).
Proof.
  intros (k & H1 & H2 & H3 & H4) HN. assert (Lk : length (words s) = k) by (rewrite H2, firstn_length; lia). rewrite Lk.
  assert (Q : NX (words s) (skipn k h)).
  { intros l1 l2 Hs Hl. apply not_useful_nx. rewrite H2. replace (firstn k h ++ l1) with (firstn (k + length l1) h).
    - apply H4. assert (length l1 <> 0)%nat by (destruct l1; [destruct (Hl eq_refl)|discriminate]). apply (f_equal (@length _)) in Hs. rewrite skipn_length, app_length in Hs. lia.
    - rewrite <- (firstn_skipn k h) at 1. rewrite Hs. rewrite firstn_app, firstn_length, Nat.min_l by lia. rewrite firstn_firstn, Nat.min_r by lia. f_equal. replace (k + length l1 - k)%nat with (length l1 + 0)%nat by lia. rewrite firstn_app_2. cbn. apply app_nil_r. }
  split; [|exact Q]. exists (skipn k h). split; [rewrite H2; symmetry; apply firstn_skipn|]. split; [rewrite H3, H2; apply map_BL; exact H1|]. split; [apply (NX_norx m WB); exact Q|].
  split; [symmetry; apply (NX_E m WB); exact Q|lia].
Qed.

Lemma useful_len g : useful m g -> (length g <= N - 1)%nat.
Proof. intros (w & H1 & H2). pose proof (has_ext_len m WB _ _ H1 H2). lia. Qed.

Lemma state_of_len h s : state_of m h s -> (length (words s) <= N - 1)%nat.
Proof. intros (k & H1 & H2 & _ & [->|H3] & _); rewrite H2; [cbn; lia|]. apply useful_len. exact H3. Qed.

(** the state written by ScoreExceptBackoff is the one for the longer history *)
Lemma next_state c t w out n : (n <= S (length c))%nat -> words out = firstn n (w :: c) -> backoffs out = BL [] (firstn n (w :: c)) ->
  (n <> 0%nat -> useful m (firstn n (w :: c))) -> NX (firstn n (w :: c)) (skipn n (w :: c)) -> NX c t ->
  state_of m (w :: c ++ t) out.
Proof.
  intros Hn Hw Hb Hu Hx Hc. assert (Ff : forall i, (i <= S (length c))%nat -> firstn i (w :: c ++ t) = firstn i (w :: c)).
  { intros i Hi. change (w :: c ++ t) with ((w :: c) ++ t). rewrite firstn_app. cbn [length]. replace (i - S (length c))%nat with 0%nat by lia. cbn. apply app_nil_r. }
  exists n. cbn [length]. rewrite app_length. split; [lia|]. rewrite Ff by exact Hn. split; [exact Hw|]. split.
  { rewrite Hb. rewrite <- map_BL by (cbn; lia). apply map_ext_in. intros i Hi. apply in_seq in Hi. rewrite Ff by lia. reflexivity. }
  split; [destruct n; [left; reflexivity|right; apply Hu; lia]|].
  intros i Hi (v & V1 & V2). destruct (Nat.le_gt_cases i (S (length c))) as [Hle|Hgt].
  - rewrite Ff in V1 by exact Hle. assert (K : has_ext v = false); [|congruence].
    apply (Hx (skipn n (firstn i (w :: c))) (skipn i (w :: c))).
    + rewrite <- (firstn_skipn i (w :: c)) at 1. rewrite skipn_app. f_equal. rewrite firstn_length. cbn [length]. replace (n - Nat.min i (S (length c)))%nat with 0%nat by lia. reflexivity.
    + intros Q. apply (f_equal (@length _)) in Q. rewrite skipn_length, firstn_length in Q. cbn [length] in Q. lia.
    + replace (firstn n (w :: c)) with (firstn n (firstn i (w :: c))) by (rewrite firstn_firstn, Nat.min_l by lia; reflexivity). rewrite firstn_skipn. exact V1.
  - destruct i as [|i]; [lia|]. cbn [firstn] in V1. rewrite firstn_app, firstn_all2 in V1 by lia. change (w :: c ++ firstn (i - length c) t) with ([w] ++ (c ++ firstn (i - length c) t)) in V1.
    assert (Hne : firstn (i - length c) t <> []). { intros Q. apply (f_equal (@length _)) in Q. rewrite firstn_length in Q. cbn in Q. lia. }
    destruct (entry_context m WB [w] (c ++ firstn (i - length c) t) v) as (u & U1 & U2); auto; [discriminate|destruct c; [exact Hne|discriminate]|].
    rewrite (Hc (firstn (i - length c) t) (skipn (i - length c) t)) in U2; [discriminate|symmetry; apply firstn_skipn|exact Hne|exact U1].
Qed.

Lemma full_score_state h s w : kept h s -> (length (words s) <= N - 1)%nat -> exists r out, FullScore m s w = Some (r, out) /\ r_prob r = logprob w h /\ state_of m (w :: h) out.
Proof.
  intros HK HN. destruct (kept_stands h s HK HN) as (S0 & Q). destruct (full_score m WB _ _ _ w S0) as (r & out & F1 & F2 & _). exists r, out. split; [exact F1|]. split; [lia|].
  unfold FullScore in F1. destruct (score_except m WB (words s) w HN) as (r' & out' & c & ctx' & e & n & A1 & A2 & A3 & A4 & A5 & A6 & A7 & A8 & A9 & A10 & A11 & A12 & A13 & A14 & A15).
  rewrite A1 in F1. cbn [bind] in F1. injection F1 as _ <-. destruct HK as (k & K1 & K2 & _). assert (h = words s ++ skipn (length (words s)) h) as ->.
  { rewrite K2 at 1. rewrite K2, firstn_length, Nat.min_l by exact K1. symmetry. apply firstn_skipn. }
  eapply next_state; eauto.
Qed.

Theorem run_ok ws : forall h s, kept h s -> (length (words s) <= N - 1)%nat ->
  exists s', run m s ws = Some (seq_score h ws, s') /\ (ws <> [] -> state_of m (rev ws ++ h) s').
Proof.
  induction ws as [|w ws IH]; intros h s HK HN; [exists s; split; [reflexivity|intros []; reflexivity]|].
  destruct (full_score_state h s w HK HN) as (r & out & F1 & F2 & F3). cbn [run]. rewrite F1. cbn [bind].
  destruct (IH (w :: h) out (state_of_kept _ _ F3) (state_of_len _ _ F3)) as (s' & R1 & R2). rewrite R1. cbn [bind]. exists s'. cbn [LmSpec.seq_score]. rewrite F2. split; [reflexivity|].
  intros _. cbn [rev]. rewrite <- app_assoc. cbn [app]. destruct ws as [|w2 ws]; [|apply R2; discriminate]. cbn in R1. injection R1 as <-. exact F3.
Qed.

Lemma kept_begin b : kept [b] (BeginSentenceState m b).
Proof. exists 1%nat. sp; auto. cbn [length]. intros i Hi. lia. Qed.
Lemma kept_null : kept [] (State [] []).
Proof. exists 0%nat. sp; auto. cbn [length]. intros i Hi. lia. Qed.

Theorem run_begin b ws : exists s, run m (BeginSentenceState m b) ws = Some (seq_score [b] ws, s) /\ (ws <> [] -> state_of m (rev ws ++ [b]) s).
Proof. pose proof (order_ge m WB). apply run_ok; [apply kept_begin|cbn; lia]. Qed.
Theorem run_null ws : exists s, run m (State [] []) ws = Some (seq_score [] ws, s) /\ state_of m (rev ws) s.
Proof.
  destruct (run_ok ws [] (State [] []) kept_null ltac:(cbn; lia)) as (s & R1 & R2). exists s. split; [exact R1|]. rewrite app_nil_r in R2. destruct ws; [|apply R2; discriminate].
  cbn in R1. injection R1 as <-. exists 0%nat. sp; auto. cbn. intros i Hi. lia.
Qed.

Lemma state_of_unique h s1 s2 : state_of m h s1 -> state_of m h s2 -> s1 = s2.
Proof.
  intros (k & A1 & A2 & A3 & A4 & A5) (l & B1 & B2 & B3 & B4 & B5). assert (k = l) as ->.
  { destruct (Nat.lt_trichotomy k l) as [H|[H|H]]; [|exact H|]; exfalso.
    - destruct B4 as [->|B4]; [lia|]. apply (A5 l); auto; lia.
    - destruct A4 as [->|A4]; [lia|]. apply (B5 k); auto; lia. }
  destruct s1, s2. cbn in *. congruence.
Qed.

Lemma get_state_loop_ok ctx : forall om2 g wg len, entry g = Some wg -> length g = S om2 -> (length g + length ctx <= N - 1)%nat ->
  exists bs len' j, get_state_loop m ctx om2 g len = Some (bs, len') /\ (j <= length ctx)%nat /\ (j <= length bs)%nat /\ firstn j bs = BL g (firstn j ctx)
  /\ len' = (if Nat.eqb j 0 then len else length g + j)%nat /\ (j <> 0%nat -> useful m (g ++ firstn j ctx)) /\ NX (g ++ firstn j ctx) (skipn j ctx).
Proof.
  induction ctx as [|w ctx IH]; intros om2 g wg len Eg Lg LN; cbn [get_state_loop].
  - exists [], len, 0%nat. cbn. sp; auto; [intros []; reflexivity|]. apply NX_nil.
  - cbn [length] in LN. unfold LookupMiddle. destruct (Nat.ltb_spec om2 (N - 2)) as [_|]; [|lia]. cbn [bind].
    assert (gn : g <> []) by (destruct g; [discriminate Lg|discriminate]).
    assert (Em : middle m om2 (g ++ [w]) = entry (g ++ [w])).
    { rewrite (entry_mid m) by (rewrite app_length; cbn; lia). f_equal. rewrite app_length. cbn. lia. }
    rewrite Em. destruct (entry (g ++ [w])) as [v|] eqn:Ev.
    + destruct (IH (S om2) (g ++ [w]) v (if has_ext v then om2 + 2 else len)%nat Ev) as (bs & len' & j & I1 & I2 & I3 & I4 & I5 & I6 & I7); [rewrite app_length; cbn; lia|rewrite app_length; cbn; lia|].
      rewrite I1. cbn [bind]. destruct j as [|j].
      * cbn [Nat.eqb firstn skipn] in I5, I6, I7. rewrite app_nil_r in I7. destruct (has_ext v) eqn:X.
        -- exists (backoff v :: bs), len', 1%nat. cbn [length firstn skipn Nat.eqb]. sp; auto; try lia.
           ++ cbn. unfold bow. rewrite Ev. reflexivity.
           ++ intros _. exists v. auto.
        -- exists (backoff v :: bs), len', 0%nat. cbn [length firstn skipn Nat.eqb]. rewrite app_nil_r. sp; auto; try lia.
           replace (w :: ctx) with ([w] ++ ctx) by reflexivity. apply (NX_app m); [|exact I7]. intros l1 l2 Hl Hn u Hu. destruct l1 as [|a l1]; [destruct (Hn eq_refl)|]. cbn in Hl. injection Hl as <- Hl. symmetry in Hl. apply app_eq_nil in Hl. destruct Hl as (-> & ->). congruence.
      * exists (backoff v :: bs), len', (S (S j)). cbn [length firstn skipn Nat.eqb] in *. rewrite <- !app_assoc in *. cbn [app] in *. sp; auto; try lia.
        -- cbn [LmProofs.BL]. unfold bow at 1. rewrite Ev. f_equal. exact I4.
        -- rewrite I5, app_length. cbn. lia.
    + exists [], len, 0%nat. cbn [length firstn skipn Nat.eqb]. rewrite app_nil_r. sp; auto; try lia. apply (NX_none m WB); assumption.
Qed.

Lemma state_of_cut h s : state_of m (firstn (N - 1) h) s -> state_of m h s.
Proof.
  intros (k & H1 & H2 & H3 & H4 & H5). rewrite firstn_length in H1, H5. exists k. split; [lia|].
  assert (Ff : forall i, (i <= k)%nat -> firstn i (firstn (N - 1) h) = firstn i h) by (intros i Hi; rewrite firstn_firstn, Nat.min_l by lia; reflexivity).
  rewrite Ff in H2, H4 by lia. split; [exact H2|]. split; [rewrite H3; apply map_ext_in; intros i Hi; apply in_seq in Hi; rewrite Ff by lia; reflexivity|]. split; [exact H4|].
  intros i Hi Hu. destruct (Nat.le_gt_cases i (N - 1)).
  - apply (H5 i); [lia|]. rewrite firstn_firstn, Nat.min_l by lia. exact Hu.
  - apply useful_len in Hu. rewrite firstn_length in Hu. lia.
Qed.

Theorem get_state_ok h : exists s, GetState m h = Some s /\ state_of m h s.
Proof.
  pose proof (order_ge m WB) as OG. unfold GetState. destruct (firstn (N - 1) h) as [|c ctx] eqn:Ef.
  - exists (State [] []). split; [reflexivity|]. apply state_of_cut. rewrite Ef. exists 0%nat. sp; auto. cbn. intros i Hi. lia.
  - assert (Lc : (S (length ctx) <= N - 1)%nat) by (change (S (length ctx)) with (length (c :: ctx)); rewrite <- Ef, firstn_length; lia).
    cbn [LookupUnigram]. destruct (get_state_loop_ok ctx 0 [c] (unigram m c) (if has_ext (unigram m c) then 1 else 0)%nat eq_refl eq_refl ltac:(cbn; lia)) as (bs & len' & j & I1 & I2 & I3 & I4 & I5 & I6 & I7).
    rewrite I1. cbn [bind]. eexists. split; [reflexivity|]. apply state_of_cut. rewrite Ef.
    destruct (next_state ctx [] c (State (firstn len' (c :: ctx)) (firstn len' (backoff (unigram m c) :: bs))) len') as (k & K); try (cbn [words backoffs]; rewrite ?app_nil_r in *).
    + destruct (Nat.eqb_spec j 0); destruct (has_ext (unigram m c)); cbn [length] in *; lia.
    + reflexivity.
    + destruct (Nat.eqb_spec j 0) as [->|Hj].
      * subst len'. destruct (has_ext (unigram m c)); [|reflexivity]. cbn. reflexivity.
      * subst len'. cbn [length Nat.add firstn LmProofs.BL app]. f_equal. exact I4.
    + intros Hl. destruct (Nat.eqb_spec j 0) as [->|Hj].
      * subst len'. destruct (has_ext (unigram m c)) eqn:X; [|destruct (Hl eq_refl)]. exists (unigram m c). split; [reflexivity|exact X].
      * subst len'. cbn [length Nat.add firstn]. apply I6. exact Hj.
    + destruct (Nat.eqb_spec j 0) as [->|Hj].
      * subst len'. cbn [firstn skipn app] in I7. destruct (has_ext (unigram m c)) eqn:X; cbn [firstn skipn]; [exact I7|].
        replace (c :: ctx) with ([c] ++ ctx) by reflexivity. apply (NX_app m); [|exact I7]. intros l1 l2 Hl Hn u Hu. destruct l1 as [|a l1]; [destruct (Hn eq_refl)|]. cbn in Hl. injection Hl as <- Hl. symmetry in Hl. apply app_eq_nil in Hl. destruct Hl as (-> & ->). cbn in Hu. congruence.
      * subst len'. cbn [length Nat.add firstn skipn]. exact I7.
    + apply NX_nil.
    + exists k. exact K.
Qed.

Lemma charge_ok ctx : forall om2 g, length g = S om2 -> (length g + length ctx <= N - 1)%nat -> charge m ctx om2 g = Some (E g ctx).
Proof.
  induction ctx as [|w ctx IH]; intros om2 g Lg LN; cbn [charge]; [reflexivity|]. cbn [length] in LN.
  unfold LookupMiddle. destruct (Nat.ltb_spec om2 (N - 2)) as [_|]; [|lia]. cbn [bind].
  assert (gn : g <> []) by (destruct g; [discriminate Lg|discriminate]).
  assert (Em : middle m om2 (g ++ [w]) = entry (g ++ [w])).
  { rewrite (entry_mid m) by (rewrite app_length; cbn; lia). f_equal. rewrite app_length. cbn. lia. }
  rewrite Em. destruct (entry (g ++ [w])) as [v|] eqn:Ev.
  - rewrite IH by (rewrite app_length; cbn; lia). cbn [bind]. unfold LmProofs.E. cbn [LmProofs.BL zsum fold_right]. unfold bow at 1. rewrite Ev. reflexivity.
  - f_equal. symmetry. apply (NX_E m WB). apply (NX_none m WB); assumption.
Qed.

Theorem forgot_ok h w : exists r s, FullScoreForgotState m h w = Some (r, s) /\ r_prob r = logprob w h /\ state_of m (w :: h) s.
Proof.
  pose proof (order_ge m WB) as OG. unfold FullScoreForgotState. set (ctx := firstn (N - 1) h). assert (Lc : (length ctx <= N - 1)%nat) by (unfold ctx; rewrite firstn_length; lia).
  assert (Hh : h = ctx ++ skipn (N - 1) h) by (unfold ctx; symmetry; apply firstn_skipn).
  assert (Nh : NX ctx (skipn (N - 1) h)).
  { intros l1 l2 Hs Hl u Hu. destruct (has_ext u) eqn:X; [|reflexivity]. pose proof (has_ext_len m WB _ _ Hu X) as Q. rewrite app_length in Q. assert (length l1 <> 0)%nat by (destruct l1; [destruct (Hl eq_refl)|discriminate]).
    assert (N - 1 < length h)%nat by (apply (f_equal (@length _)) in Hs; rewrite skipn_length, app_length in Hs; lia). unfold ctx in Q. rewrite firstn_length in Q. lia. }
  assert (Lp : logprob w h = logprob w ctx) by (rewrite Hh at 1; rewrite (lp_norx m WB) by (apply (NX_norx m WB); exact Nh); rewrite (NX_E m WB _ _ Nh); lia).
  destruct (score_except m WB ctx w Lc) as (r & out & c & ctx' & e & n & A1 & A2 & A3 & A4 & A5 & A6 & A7 & A8 & A9 & A10 & A11 & A12 & A13 & A14 & A15).
  rewrite A1. cbn [bind]. assert (So : state_of m (w :: h) out) by (rewrite Hh; eapply next_state; eauto).
  pose proof (lp_char m WB w c ctx' e A3 A4) as LC. rewrite <- A2 in LC. rewrite A7.
  destruct (Nat.ltb_spec (length ctx) (S (length c))) as [Hlt|Hge].
  - exists r, out. split; [reflexivity|]. split; [|exact So]. assert (ctx' = []) as ->. { apply length_zero_iff_nil. rewrite A2, app_length in Hlt. lia. } rewrite Lp, LC. cbn. lia.
  - destruct (Nat.leb_spec (S (length c)) 1) as [H1|H1].
    + assert (c = []) as -> by (apply length_zero_iff_nil; lia). cbn [app] in A2. rewrite A2 in *. destruct ctx' as [|c0 ctx'']; [cbn in Hge; lia|].
      cbn [LookupUnigram]. rewrite charge_ok by (cbn [length] in *; lia). cbn [bind]. eexists _, out. split; [reflexivity|]. split; [|exact So]. cbn [add_prob r_prob].
      rewrite Lp, LC, A5. unfold LmProofs.E. cbn [LmProofs.BL zsum fold_right app]. unfold zsum. change (bow m [c0]) with (backoff (unigram m c0)). lia.
    + cbn [Nat.sub]. rewrite !Nat.sub_0_r. rewrite A2, skipn_app, skipn_all, Nat.sub_diag, firstn_app, firstn_all, Nat.sub_diag. cbn [skipn firstn app]. rewrite app_nil_r.
      rewrite charge_ok; [|lia|rewrite A2, app_length in Lc; lia]. cbn [bind]. eexists _, out. split; [reflexivity|]. split; [|exact So]. cbn [add_prob r_prob]. rewrite Lp, LC, A5. lia.
Qed.

End M.

(** ** The maps *)


Lemma assign_nth {A} (l : list A) : forall i x j d, (i < length l)%nat -> nth j (assign l i x) d = if Nat.eqb i j then x else nth j l d.
Proof.
  induction l as [|y l IH]; intros i x j d Hi; cbn [length] in Hi; [lia|]. destruct i as [|i], j as [|j]; cbn [assign nth Nat.eqb]; try reflexivity. apply IH. lia.
Qed.
Lemma grow_length {A} (l : list A) n x : length (grow l n x) = Nat.max (length l) n.
Proof. unfold grow. rewrite app_length, repeat_length. lia. Qed.
Lemma repeat_nth {A} (x : A) n : forall j, nth j (repeat x n) x = x.
Proof. induction n as [|n IH]; intros [|j]; cbn; auto. Qed.
Lemma grow_nth {A} (l : list A) n x j : nth j (grow l n x) x = nth j l x.
Proof.
  unfold grow. destruct (Nat.lt_ge_cases j (length l)); [rewrite app_nth1 by assumption; reflexivity|]. rewrite app_nth2 by assumption. rewrite repeat_nth. symmetry. apply nth_overflow. assumption.
Qed.

Lemma vmadd_nth out i w x : nth x (VMAdd out i w) 0%nat = if Nat.eqb i x then w else nth x out 0%nat.
Proof. unfold VMAdd. rewrite assign_nth by (rewrite grow_length; lia). rewrite grow_nth. reflexivity. Qed.
Lemma vocab_nth vocab x : forall out, nth x (fold_left (fun out p => VMAdd out (fst p) (snd p)) vocab out) 0%nat = fold_left (fun acc p => if Nat.eqb (fst p) x then snd p else acc) vocab (nth x out 0%nat).
Proof. induction vocab as [|(i, w) v IH]; intros out; cbn [fold_left fst snd]; [reflexivity|]. rewrite IH, vmadd_nth. reflexivity. Qed.

Lemma class_add unk m w c e m' x : AddWordToClassMapping unk m w c e = Some m' ->
  nth x m' (unk, 0) = (if Nat.eqb w x then (c, e) else nth x m (unk, 0)) /\ fst (nth w m (unk, 0)) = unk /\ m' <> [].
Proof.
  unfold AddWordToClassMapping. set (m1 := if Nat.leb (length m) w then _ else _).
  assert (H1 : forall j, nth j m1 (unk, 0) = nth j m (unk, 0)) by (intros j; unfold m1; destruct (Nat.leb (length m) w); [apply grow_nth|reflexivity]).
  destruct (nth_error m1 w) as [(c0, e0)|] eqn:Hn; [|discriminate]. destruct (Z.eqb_spec c0 unk) as [->|]; [|discriminate]. cbn [negb]. intros H. injection H as <-.
  assert (Lw : (w < length m1)%nat) by (apply nth_error_Some; congruence). split; [rewrite assign_nth by exact Lw; rewrite H1; reflexivity|]. split.
  - rewrite <- H1. erewrite nth_error_nth by exact Hn. reflexivity.
  - intros Q. apply (f_equal (@length _)) in Q. revert Q. clear - Lw. destruct m1 as [|y m1]; [cbn in Lw; lia|]. destruct w; discriminate.
Qed.

Lemma class_lines unk lines x : forall m m', AddClassLines unk m lines = Some m' -> m <> [] ->
  nth x m' (unk, 0) = fold_left (fun acc l => if Nat.eqb (fst (fst l)) x then (snd (fst l), snd l) else acc) lines (nth x m (unk, 0)) /\ m' <> []
  /\ (fst (nth x m (unk, 0)) <> unk -> nth x m' (unk, 0) = nth x m (unk, 0)).
Proof.
  induction lines as [|((w, c), e) lines IH]; intros m m' H Hm; cbn [AddClassLines fold_left fst snd] in *.
  - injection H as <-. auto.
  - destruct (AddWordToClassMapping unk m w c e) as [m1|] eqn:Ha; [|discriminate]. cbn [bind] in H. destruct (class_add _ _ _ _ _ _ x Ha) as (C1 & C2 & C3).
    destruct (IH _ _ H C3) as (I1 & I2 & I3). rewrite C1 in I1, I3. split; [exact I1|]. split; [exact I2|]. intros Hne. destruct (Nat.eqb_spec w x) as [->|]; [contradiction|]. apply I3. exact Hne.
Qed.

Lemma nth_to_error (l : list (Z * Z)) j d : nth j l d = match nth_error l j with Some p => p | None => d end.
Proof. revert j. induction l as [|y l IH]; intros [|j]; cbn; auto. Qed.

Theorem load_ok vocab unk sos eos classes f : LoadFeature vocab unk sos eos classes = Some f -> (0 < sos)%nat -> sos <> unk -> eos <> unk -> sos <> eos ->
  loaded f (Z.of_nat eos)
  /\ (classes = None -> forall x, lm_word f (Z.of_nat x) = vocab_index vocab x /\ emission f (Z.of_nat x) = 0)
  /\ (forall lines, classes = Some lines -> forall x, let ce := class_entry (Z.of_nat unk) ((sos, Z.of_nat sos, 0) :: (eos, Z.of_nat eos, 0) :: lines) x in
      lm_word f (Z.of_nat x) = vocab_index vocab (Z.to_nat (fst ce)) /\ emission f (Z.of_nat x) = snd ce).
Proof.
  unfold LoadFeature. set (mp := fold_left _ vocab []). intros H Hs Hsu Heu Hse.
  assert (MW : forall ks ke a b cm c, MapWord (Feature ks ke a b mp cm) c = vocab_index vocab (Z.to_nat c)).
  { intros. unfold MapWord. cbn [cdec2klm_map]. unfold mp. rewrite vocab_nth. destruct (Z.to_nat c); reflexivity. }
  rewrite !MW, !Nat2Z.id in H.
  destruct (Nat.eqb_spec (vocab_index vocab sos) 0) as [|Ks]; [discriminate|]. destruct (Nat.eqb_spec (vocab_index vocab eos) 0) as [|Ke]; [discriminate|].
  destruct (Nat.eqb_spec (vocab_index vocab unk) 0) as [Ku|]; [|discriminate]. cbn [orb negb] in H.
  destruct classes as [lines|].
  - destruct (LoadWordClasses (Z.of_nat unk) sos eos lines) as [cm|] eqn:HC; [|discriminate]. cbn [bind] in H. injection H as <-.
    unfold LoadWordClasses in HC. destruct (AddWordToClassMapping (Z.of_nat unk) [] sos (Z.of_nat sos) 0) as [m1|] eqn:A1; [|discriminate]. cbn [bind] in HC.
    destruct (AddWordToClassMapping (Z.of_nat unk) m1 eos (Z.of_nat eos) 0) as [m2|] eqn:A2; [|discriminate]. cbn [bind] in HC.
    assert (CL : forall x, ClassifyWordIfNecessary (Feature (vocab_index vocab sos) (vocab_index vocab eos) (Z.of_nat sos) (Z.of_nat unk) mp cm) (Z.of_nat x) = class_entry (Z.of_nat unk) ((sos, Z.of_nat sos, 0) :: (eos, Z.of_nat eos, 0) :: lines) x).
    { intros x. destruct (class_add _ _ _ _ _ _ x A1) as (B1 & _ & B2). destruct (class_add _ _ _ _ _ _ x A2) as (C1 & _ & C2). destruct (class_lines _ _ x _ _ HC C2) as (D1 & D2 & _).
      unfold ClassifyWordIfNecessary. cbn [word2class_map kCDEC_UNK]. destruct cm as [|c0 cm]; [destruct (D2 eq_refl)|]. rewrite Nat2Z.id.
      unfold class_entry. cbn [fold_left fst snd]. rewrite <- (B1), <- C1 in D1 || idtac.
      rewrite C1, B1 in D1. assert (nth x [] (Z.of_nat unk, 0) = (Z.of_nat unk, 0)) as Q by (destruct x; reflexivity). rewrite Q in D1. rewrite <- D1. rewrite nth_to_error. destruct (nth_error (c0 :: cm) x) as [(u, v)|]; reflexivity. }
    assert (LS : forall y, (y = sos \/ y = eos) -> class_entry (Z.of_nat unk) ((sos, Z.of_nat sos, 0) :: (eos, Z.of_nat eos, 0) :: lines) y = (Z.of_nat y, 0)).
    { intros y Hy. destruct (class_add _ _ _ _ _ _ y A1) as (B1 & _ & B2). destruct (class_add _ _ _ _ _ _ y A2) as (C1 & _ & C2). destruct (class_lines _ _ y _ _ HC C2) as (D1 & D2 & D3).
      unfold class_entry. cbn [fold_left fst snd].
      assert (V : nth y m2 (Z.of_nat unk, 0) = (Z.of_nat y, 0)).
      { rewrite C1. destruct (Nat.eqb_spec eos y) as [->|]; [reflexivity|]. rewrite B1. destruct (Nat.eqb_spec sos y) as [->|]; [reflexivity|]. destruct Hy; congruence. }
      assert (Hu : y <> unk) by (destruct Hy; congruence). rewrite D3 in D1 by (rewrite V; cbn; lia). rewrite V in D1.
      assert (Q : (if Nat.eqb eos y then (Z.of_nat eos, 0) else if Nat.eqb sos y then (Z.of_nat sos, 0) else (Z.of_nat unk, 0)) = (Z.of_nat y, 0)).
      { destruct (Nat.eqb_spec eos y) as [->|]; [reflexivity|]. destruct (Nat.eqb_spec sos y) as [->|]; [reflexivity|]. destruct Hy; congruence. }
      rewrite Q. symmetry. exact D1. }
    split; [|split; [discriminate|]].
    + constructor; unfold lm_word, emission; cbn [kCDEC_SOS kSOS kEOS].
      * lia.
      * rewrite CL, LS by auto. cbn [fst]. rewrite MW, Nat2Z.id. reflexivity.
      * rewrite CL, LS by auto. cbn [fst]. rewrite MW, Nat2Z.id. reflexivity.
      * auto.
      * rewrite CL, LS by auto. reflexivity.
    + intros l Hl x. injection Hl as <-. unfold lm_word, emission. rewrite CL. cbn zeta. rewrite MW. auto.
  - cbn [bind] in H. injection H as <-. split; [|split; [|discriminate]].
    + constructor; unfold lm_word, emission; cbn [kCDEC_SOS kSOS kEOS ClassifyWordIfNecessary word2class_map fst snd]; rewrite ?MW, ?Nat2Z.id; auto; lia.
    + intros _ x. unfold lm_word, emission. cbn [ClassifyWordIfNecessary word2class_map fst snd]. rewrite MW, Nat2Z.id. auto.
Qed.
