(** Proofs for Trellis.v: lextrans.cc and lexalign.cc. *)
From Coq Require Import String List ZArith Bool Lia.
From Verif Require Import Opt OptProofs HG HGProofs Deriv TopoSpec Prune PruneSpec Rule RuleSpec RuleProofs Parser Constrain ConstrainSpec ConstrainProofs ConstrainFastProofs Trellis TrellisSpec TrellisProofs TrellisChainProofs TrellisMainProofs TrellisAllProofs.
Import ListNotations.
Open Scope opt_scope.
Local Open Scope nat_scope.

Section A.
Context {X : Type}.
Notation hgx := (hg (elab X)).
Variables (kXCAT kGOALCAT kNULL : Z) (bin_addr goal_addr : nat).
Hypothesis xneg : (kXCAT < 0)%Z.

Lemma mo_cons : forall A B (f : A -> option B) x r, map_opt f (x :: r) = (y <- f x ;; ys <- map_opt f r ;; Some (y :: ys)).
Proof. reflexivity. Qed.
Lemma labels_sentence : forall ws, first_labels (sentence ws) = Some ws.
Proof. intros ws. unfold first_labels, sentence. induction ws as [|w r IH]; [reflexivity|]. cbn [map]. rewrite mo_cons, IH. reflexivity. Qed.
Lemma sources_in : forall b ws j w, In (j, w) (sources kNULL b ws) <-> source_at kNULL b ws j w.
Proof.
  intros b ws j w. unfold sources, source_at. rewrite in_app_iff. split; intros [H|H].
  - left. destruct b; [|destruct H]. destruct H as [[= <- <-]|[]]. auto.
  - right. assert (G : forall a, In (j, w) (combine (map Z.of_nat (List.seq a (length ws))) ws) -> (0 <= j)%Z /\ exists i, j = Z.of_nat (a + i) /\ nth_error ws i = Some w).
    { clear. induction ws as [|x r IH]; intros a H; [destruct H|]. cbn in H. destruct H as [[= <- <-]|H]; [split; [lia|]; exists 0; split; [f_equal; lia|reflexivity]|]. destruct (IH (S a) H) as (P & i & J & N). split; [exact P|]. exists (S i). split; [rewrite J; f_equal; lia|exact N]. }
    destruct (G 0 H) as (P & i & J & N). split; [exact P|]. rewrite J, Nat2Z.id. exact N.
  - left. destruct H as (-> & -> & ->). left. reflexivity.
  - right. destruct H as (P & N). assert (G : forall a i, nth_error ws i = Some w -> In (Z.of_nat (a + i), w) (combine (map Z.of_nat (List.seq a (length ws))) ws)).
    { clear. induction ws as [|x r IH]; intros a i N; [destruct i; discriminate|]. destruct i as [|i]; cbn in *; [injection N as ->; left; rewrite Nat.add_0_r; reflexivity|]. right. replace (a + S i) with (S a + i) by lia. apply IH; exact N. }
    specialize (G 0 _ N). rewrite Nat.add_0_l, Z2Nat.id in G by exact P. exact G.
Qed.
Lemma sources_fst : forall b ws, NoDup (map fst (sources kNULL b ws)).
Proof.
  intros b ws. unfold sources. rewrite map_app. assert (E : map fst (combine (map Z.of_nat (List.seq 0 (length ws))) ws) = map Z.of_nat (List.seq 0 (length ws))).
  { generalize 0. induction ws as [|x r IH]; intros a; [reflexivity|]. cbn. f_equal. apply IH. }
  rewrite E. assert (N : NoDup (map Z.of_nat (List.seq 0 (length ws)))) by (apply FinFun.Injective_map_NoDup; [intros x y; lia|apply seq_NoDup]). destruct b; cbn; [|exact N]. constructor; [|exact N]. intros I. apply in_map_iff in I as (x & I & _). lia.
Qed.

(** ** lextrans.cc *)
Section Lex.
Variables (gram : Z -> option (option (list (trule * list X)))) (sup : option (Z -> option (option (list (trule * list X))))).
Variables (use_null align_only : bool) (src trg : list Z).
Notation at_ := (source_at kNULL use_null src).
(** a rule bin for every word found, and rules with a target word *)
Hypothesis bins : forall j w, at_ j w -> gram w <> Some None /\ (forall s, sup = Some s -> gram w = None -> s w <> Some None).
Hypothesis words : forall j w rs r fs, at_ j w -> translations gram sup w rs -> In (r, fs) rs -> r_e r <> [].
Hypothesis trg_ne : trg <> [].

Lemma for_cases : forall j w, at_ j w -> (exists rs, rules_for gram sup w = Some (Some rs) /\ translations gram sup w rs) \/ (rules_for gram sup w = Some None /\ untranslatable gram sup w).
Proof.
  intros j w A. destruct (bins j w A) as (B1 & B2). unfold rules_for, translations, untranslatable. destruct (gram w) as [[rs|]|] eqn:G; [left; exists rs; cbn; auto|congruence|]. destruct sup as [s|] eqn:S; [|right; split; [reflexivity|split; [reflexivity|intros s Q; discriminate]]]. destruct (s w) as [[rs|]|] eqn:SW; [left; exists rs; cbn; split; [reflexivity|right; eauto]|exfalso; exact (B2 s eq_refl eq_refl SW)|right; split; [reflexivity|split; [reflexivity|intros s' [= <-]; exact SW]]].
Qed.
Lemma tr_fun : forall w rs, translations gram sup w rs -> rules_for gram sup w = Some (Some rs).
Proof. intros w rs [H|(H & s & S & SW)]; unfold rules_for; [rewrite H; reflexivity|rewrite H, S, SW; reflexivity]. Qed.
Definition wanted (vocab : option (list Z)) (r : trule) : Prop := forall v, vocab = Some v -> exists w, nth_error (r_e r) 0 = Some w /\ In w v.
Lemma rule_edges_ok : forall vocab i j (rs : list (trule * list X)), (forall r fs, In (r, fs) rs -> r_e r <> []) -> exists es, rule_edges vocab i j rs = Some es /\
  forall l, In l es <-> exists r fs, In (r, fs) rs /\ wanted vocab r /\ links i j r fs l.
Proof.
  intros vocab i j rs. induction rs as [|(r, fs) q IH]; intros NE; [exists []; split; [reflexivity|]; intros l; split; [intros []|intros (r & fs & [] & _)]|].
  destruct (IH ltac:(intros r' fs' I; apply (NE r' fs'); right; exact I)) as (es & E & SP). cbn. destruct (r_e r) as [|w e] eqn:RE; [exfalso; exact (NE r fs (or_introl eq_refl) RE)|]. cbn [nth_error bind]. rewrite E. cbn [bind].
  assert (LK : forall l, links i j r fs l <-> l = lex_edge i j r fs). { intros l. unfold links, lex_edge. split; [intros (A1 & A2 & A3 & A4 & A5 & A6); destruct l; cbn in *; congruence|intros ->; cbn; repeat split]. }
  assert (ST : forall l, In l es <-> exists r fs, In (r, fs) q /\ wanted vocab r /\ links i j r fs l) by exact SP.
  destruct (match vocab with Some v => existsb (Z.eqb w) v | None => true end) eqn:V.
  - exists (lex_edge i j r fs :: es). split; [reflexivity|]. intros l. cbn [In]. rewrite ST. split.
    + intros [H|(r' & fs' & I & W & L)]; [exists r, fs; split; [left; reflexivity|]; split; [|apply LK; auto]|exists r', fs'; auto]. intros v ->. apply existsb_exists in V as (x & I & EQ). apply Z.eqb_eq in EQ. subst x. exists w. split; [rewrite RE; reflexivity|exact I].
    + intros (r' & fs' & [[= <- <-]|I] & W & L); [left; symmetry; apply LK; exact L|right; eauto].
  - exists es. split; [reflexivity|]. intros l. rewrite ST. split.
    + intros (r' & fs' & I & W & L). exists r', fs'. cbn. auto.
    + intros (r' & fs' & [[= <- <-]|I] & W & L); [exfalso|eauto]. destruct vocab as [v|]; [|discriminate]. destruct (W v eq_refl) as (x & NX & I). rewrite RE in NX. injection NX as <-. assert (existsb (Z.eqb w) v = true) by (apply existsb_exists; exists w; split; [exact I|apply Z.eqb_refl]). congruence.
Qed.
Let vocab := if align_only then Some trg else None.
Definition cell_spec (i : nat) (c : list (elab X)) (P : Z -> Z -> Prop) : Prop :=
  forall l, In l c <-> exists j w rs r fs, P j w /\ translations gram sup w rs /\ In (r, fs) rs /\ wanted vocab r /\ links i j r fs l.
Lemma lex_cell_ok : forall i ps, (forall j w, In (j, w) ps -> at_ j w) ->
  (exists c, lex_cell gram sup vocab i ps = Some (Some c) /\ cell_spec i c (fun j w => In (j, w) ps) /\ forall j w, In (j, w) ps -> ~ untranslatable gram sup w) \/
  (lex_cell gram sup vocab i ps = Some None /\ exists j w, In (j, w) ps /\ untranslatable gram sup w).
Proof.
  intros i ps. induction ps as [|(j, w) q IH]; intros A.
  - left. exists []. split; [reflexivity|]. split; [|intros j w []]. intros l. split; [intros []|intros (j & w & rs & r & fs & [] & _)].
  - cbn [lex_cell]. destruct (for_cases j w (A j w (or_introl eq_refl))) as [(rs & RF & TR)|(RF & UN)]; rewrite RF; cbn [bind].
    + destruct (rule_edges_ok vocab i j rs (fun r fs I => words j w rs r fs (A j w (or_introl eq_refl)) TR I)) as (es & ES & SP). rewrite ES. cbn [bind]. destruct (IH ltac:(intros j' w' I; apply A; right; exact I)) as [(c & C & CS & NU)|(C & j' & w' & I & U)]; rewrite C; cbn [bind].
      * left. exists (es ++ c). split; [reflexivity|]. split.
        -- intros l. rewrite in_app_iff, SP, (CS l). split.
           ++ intros [(r & fs & I & W & L)|(j' & w' & rs' & r & fs & P & R)]; [exists j, w, rs, r, fs; split; [left; reflexivity|auto]|exists j', w', rs', r, fs; split; [right; exact P|exact R]].
           ++ intros (j' & w' & rs' & r & fs & [[= <- <-]|P] & T' & I & W & L); [left; assert (rs' = rs) by (apply tr_fun in T'; congruence); subst rs'; eauto|right; exists j', w', rs', r, fs; auto].
        -- intros j' w' [[= <- <-]|I]; [|exact (NU j' w' I)]. intros (U1 & U2). destruct TR as [T|(T & s & S & SW)]; [congruence|]. rewrite (U2 s S) in SW. discriminate.
      * right. split; [reflexivity|]. exists j', w'. split; [right; exact I|exact U].
    + right. split; [reflexivity|]. exists j, w. split; [left; reflexivity|exact UN].
Qed.
(** The forest has one cell for each position; [None]: some source word has no translation. *)
Lemma lex_built :
  (LexTrellis kXCAT kGOALCAT kNULL bin_addr goal_addr gram sup use_null align_only (sentence src) (sentence trg) = Some None /\ exists j w, at_ j w /\ untranslatable gram sup w) \/
  (exists (g : hgx) cells, LexTrellis kXCAT kGOALCAT kNULL bin_addr goal_addr gram sup use_null align_only (sentence src) (sentence trg) = Some (Some g) /\ CH g cells /\ length cells = length trg /\
     (forall i c, nth_error cells i = Some c -> cell_spec i c at_) /\ (forall j w, at_ j w -> ~ untranslatable gram sup w)).
Proof.
  assert (REF : LexTrellis kXCAT kGOALCAT kNULL bin_addr goal_addr gram sup use_null align_only (sentence src) (sentence trg) =
    (o <- lex_cells (fun i => lex_cell gram sup vocab i (sources kNULL use_null src)) (List.seq 0 (length trg)) ;;
     match o with None => Some None | Some cells => g <- chain kXCAT (fun _ => plain (kBINARY kXCAT bin_addr) (-1) (-1)) cells 0 None empty_hg ;; h <- finish kXCAT kGOALCAT goal_addr g ;; Some (Some h) end)).
  { unfold LexTrellis. rewrite !labels_sentence. unfold sentence at 1. destruct trg as [|t r]; [congruence|]. cbn [map bind]. unfold vocab. unfold sentence. rewrite map_length. reflexivity. }
  assert (LT : length trg <> 0) by (intros Q; apply trg_ne; exact (proj1 (length_zero_iff_nil _) Q)). rewrite REF. assert (A : forall j w, In (j, w) (sources kNULL use_null src) -> at_ j w) by (intros j w; apply sources_in).
  assert (LC : forall n a, (exists cells, lex_cells (fun i => lex_cell gram sup vocab i (sources kNULL use_null src)) (List.seq a n) = Some (Some cells) /\ length cells = n /\
      (forall i c, nth_error cells i = Some c -> cell_spec (a + i) c at_) /\ (0 < n -> forall j w, at_ j w -> ~ untranslatable gram sup w)) \/
    (lex_cells (fun i => lex_cell gram sup vocab i (sources kNULL use_null src)) (List.seq a n) = Some None /\ exists j w, at_ j w /\ untranslatable gram sup w)).
  { induction n as [|n IH]; intros a; [left; exists []; split; [reflexivity|]; split; [reflexivity|]; split; [intros [|i]; discriminate|intros H; inversion H]|]. cbn [List.seq lex_cells]. destruct (lex_cell_ok a _ A) as [(c & C & CS & NU)|(C & j & w & I & U)]; rewrite C; cbn [bind]; [|right; split; [reflexivity|]; exists j, w; split; [apply A; exact I|exact U]].
    destruct (IH (S a)) as [(cells & E & L & SP & _)|(E & U)]; rewrite E; cbn [bind]; [left|right; split; [reflexivity|exact U]]. exists (c :: cells). split; [reflexivity|]. split; [cbn; congruence|]. split.
    - intros i c' N. destruct i as [|i]; cbn in N; [injection N as <-|rewrite Nat.add_succ_r; exact (SP i c' N)]. rewrite Nat.add_0_r. intros l. rewrite (CS l). split; intros (j & w & R & P & Q); exists j, w, R, P; destruct Q as (fs & Q & REST); exists fs; (split; [apply sources_in; exact Q|exact REST]).
    - intros _ j w P. apply (NU j w). apply sources_in. exact P. }
  destruct (LC (length trg) 0) as [(cells & E & L & SP & NU)|(E & U)]; rewrite E; cbn [bind]; [right|left; split; [reflexivity|exact U]].
  destruct cells as [|c r]; [cbn in L; congruence|]. destruct (build_ok (X := X) kXCAT kGOALCAT bin_addr goal_addr xneg (fun _ => plain (kBINARY kXCAT bin_addr) (-1) (-1)) (fun i => eq_refl) c r) as (g1 & g & B1 & B2 & H). exists g, (c :: r). rewrite B1. cbn [bind]. rewrite B2. cbn [bind]. split; [reflexivity|]. split; [exact H|]. split; [exact L|]. split; [exact SP|]. apply NU. lia.
Qed.
Theorem lextrans_ok :
  (LexTrellis kXCAT kGOALCAT kNULL bin_addr goal_addr gram sup use_null align_only (sentence src) (sentence trg) = Some None <-> exists j w, at_ j w /\ untranslatable gram sup w) /\
  ((forall j w, at_ j w -> ~ untranslatable gram sup w) -> exists (g : hgx) cells, LexTrellis kXCAT kGOALCAT kNULL bin_addr goal_addr gram sup use_null align_only (sentence src) (sentence trg) = Some (Some g) /\
     wf_hg g /\ topo g /\ trellis_of cells g /\ length cells = length trg /\
     (forall i c l, nth_error cells i = Some c -> In l c <-> exists j w rs r fs, at_ j w /\ translations gram sup w rs /\ In (r, fs) rs /\ (align_only = true -> exists v, hd_error (r_e r) = Some v /\ In v trg) /\ links i j r fs l)).
Proof.
  assert (WV : forall r, wanted vocab r <-> (align_only = true -> exists v, hd_error (r_e r) = Some v /\ In v trg)). { intros r. unfold wanted, vocab. destruct align_only; split; intros H. - intros _. destruct (H trg eq_refl) as (w & N & I). exists w. split; [destruct (r_e r); [discriminate|exact N]|exact I]. - intros v [= <-]. destruct (H eq_refl) as (w & N & I). exists w. split; [destruct (r_e r); [discriminate|exact N]|exact I]. - discriminate. - discriminate. }
  destruct lex_built as [(E & U)|(g & cells & E & H & L & SP & NU)].
  - split; [tauto|]. intros NU. destruct U as (j & w & P & Q). destruct (NU j w P Q).
  - split; [split; [intros Q; congruence|intros (j & w & P & Q); destruct (NU j w P Q)]|]. intros _. exists g, cells. split; [exact E|]. split; [exact (c_wf _ _ H)|]. split; [exact (c_topo _ _ H)|]. split; [exact (ch_trellis g cells H)|]. split; [exact L|]. intros i c l N. rewrite (SP i c N l). split; intros (j & w & rs & r & fs & P1 & P2 & P3 & P4 & P5); exists j, w, rs, r, fs; (split; [exact P1|split; [exact P2|split; [exact P3|split; [apply WV; exact P4|exact P5]]]]).
Qed.
(** Constrained to a sentence of the same length. *)
Hypothesis one : forall j w rs r fs, at_ j w -> translations gram sup w rs -> In (r, fs) rs -> one_word r.
Hypothesis objects : forall j w rs r fs j' w' rs' r' fs', at_ j w -> translations gram sup w rs -> In (r, fs) rs -> at_ j' w' -> translations gram sup w' rs' -> In (r', fs') rs' -> r_addr r = r_addr r' -> r = r'.
Theorem lextrans_limited : (forall j w, at_ j w -> ~ untranslatable gram sup w) -> forall ws conv str arc_feats dist, length ws = length trg -> exists (g : hgx) ok h,
  LexTrellis kXCAT kGOALCAT kNULL bin_addr goal_addr gram sup use_null align_only (sentence src) (sentence trg) = Some (Some g) /\
  Intersect conv str arc_feats true (sentence ws) dist g = Some (ok, h) /\ wf_hg h /\ topo h /\
  (ok = true <-> forall v, In v ws -> (align_only = true -> In v trg) /\ exists j w rs r fs, at_ j w /\ translations gram sup w rs /\ In (r, fs) rs /\ r_e r = [v]) /\
  limited (fun e l l' => (~ used_before (sentence ws) g e -> turned l l') /\ (used_before (sentence ws) g e -> half_turned l l')) ws g h.
Proof.
  intros NU0 ws conv str af dist LW. destruct lex_built as [(_ & j & w & P & Q)|(g & cells & E & H & L & SP & NU)]; [destruct (NU0 j w P Q)|].
  assert (GOOD : forall i c l, nth_error cells i = Some c -> In l c -> prev_i_ l = Z.of_nat i /\ (exists w, r_e (rule_ l) = [w] /\ (0 < w)%Z) /\ r_arity (rule_ l) = 0%Z /\ Forall (fun w => (0 < w)%Z) (r_f (rule_ l))).
  { intros i c l N I. apply (SP i c N) in I as (j & w & rs & r & fs & P1 & P2 & P3 & P4 & (L1 & L2 & L3 & L4 & L5 & L6)). rewrite L1. destruct (one j w rs r fs P1 P2 P3) as (O1 & O2 & O3). auto. }
  assert (HEAP : heap_ok g).
  { intros a b ed fd A B TA TB AE. destruct (c_at _ _ H) as (at' & AT). destruct (AT a ed A TA) as (i & c & k & C & K & _). destruct (AT b fd B TB) as (i' & c' & k' & C' & K' & _). apply nth_error_In in K, K'. apply (SP i c C) in K as (j & w & rs & r & fs & P1 & P2 & P3 & P4 & (L1 & _)). apply (SP i' c' C') in K' as (j' & w' & rs' & r' & fs' & P1' & P2' & P3' & P4' & (L1' & _)). rewrite L1, L1' in *. exact (objects j w rs r fs j' w' rs' r' fs' P1 P2 P3 P1' P2' P3' AE). }
  destruct (limited_ok g cells H HEAP GOOD ws ltac:(congruence) conv str af dist) as (ok & h & IE & WH & TH & OK & LM). exists g, ok, h. split; [exact E|]. split; [exact IE|]. split; [exact WH|]. split; [exact TH|]. split; [|exact LM].
  rewrite OK. destruct (ch_trellis g cells H) as (enc & E1 & E2 & E3 & E4). pose proof (fun c l I J => all_lexical cells GOOD c l I J) as LX. split.
  - intros (t & D & T) v I. apply E1 in D as (ks & ls & CC & ->). destruct (E4 LX ks ls CC) as (TT & _). rewrite T in TT. injection TT as ->. unfold targets in I. apply in_flat_map in I as (l & I & J). apply In_nth_error in I as (i & I). destruct (choice_nth _ _ _ CC) as (_ & _ & NTH). destruct (NTH i l I) as (c & k & C & _ & N). apply nth_error_In in N. apply (SP i c C) in N as (j & w & rs & r & fs & P1 & P2 & P3 & P4 & (L1 & _)). rewrite L1 in J. destruct (one j w rs r fs P1 P2 P3) as ((v' & RE & _) & _). rewrite RE in J. destruct J as [->|[]]. split; [|exists j, w, rs, r, fs; auto]. intros AO. unfold vocab in P4. rewrite AO in P4. destruct (P4 trg eq_refl) as (x & NX & IX). rewrite RE in NX. injection NX as ->. exact IX.
  - intros HY. assert (CH2 : forall i v c, nth_error ws i = Some v -> nth_error cells i = Some c -> exists k l, nth_error c k = Some l /\ r_e (rule_ l) = [v]).
    { intros i v c V C. destruct (HY v (nth_error_In _ _ V)) as (AO & j & w & rs & r & fs & P1 & P2 & P3 & RE). assert (I : In (lex_edge i j r fs) c). { apply (SP i c C). exists j, w, rs, r, fs. split; [exact P1|]. split; [exact P2|]. split; [exact P3|]. split; [|unfold links, lex_edge; cbn; repeat split]. unfold wanted, vocab. intros v0 Q. destruct (Bool.bool_dec align_only true) as [BT|BT]; [|apply Bool.not_true_is_false in BT; rewrite BT in Q; discriminate]. pose proof (AO BT) as IV. rewrite BT in Q. injection Q as <-. exists v. rewrite RE. split; [reflexivity|]. exact IV. }
      apply In_nth_error in I as (k & K). exists k, (lex_edge i j r fs). split; [exact K|exact RE]. }
    assert (L2 : length ws = length cells) by congruence. assert (CS : exists ks ls, choice cells ks ls /\ targets ls = ws).
    { clear - CH2 L2. revert ws L2 CH2. induction cells as [|c r IH]; intros [|v ws] L2 CH2; try discriminate; [exists [], []; split; [constructor|reflexivity]|]. destruct (IH ws ltac:(cbn in L2; lia) ltac:(intros i; exact (CH2 (S i)))) as (ks & ls & CC & T). destruct (CH2 0 v c eq_refl eq_refl) as (k & l & N & RE). exists (k :: ks), (l :: ls). split; [constructor; assumption|]. unfold targets in *. cbn. rewrite RE, T. reflexivity. }
    destruct CS as (ks & ls & CC & T). exists (enc ks). split; [apply E1; eauto|]. destruct (E4 LX ks ls CC) as (TT & _). congruence.
Qed.
End Lex.

(** ** lexalign.cc *)
Section Align.
Variable lexrule : Z -> Z -> option (trule * list X).
Variables (use_null : bool) (src trg : list Z).
Notation at_ := (source_at kNULL use_null src).
Hypothesis lex_words : forall f e r fs, lexrule f e = Some (r, fs) -> r_e r = [e] /\ r_f r = [f] /\ r_arity r = 0%Z.
Hypothesis src_pos : Forall (fun w => (0 < w)%Z) src.
Hypothesis null_pos : (0 < kNULL)%Z.
Hypothesis trg_pos : Forall (fun w => (0 < w)%Z) trg.
Hypothesis trg_ne : trg <> [].

Definition acell (i : nat) (e : Z) (ps : list (Z * Z)) : list (elab X) := flat_map (fun q => match lexrule (snd q) e with Some (r, fs) => [lex_edge i (fst q) r fs] | None => [] end) ps.
Lemma acell_in : forall i e ps l, In l (acell i e ps) <-> exists j w r fs, In (j, w) ps /\ lexrule w e = Some (r, fs) /\ links i j r fs l.
Proof.
  intros i e ps l. unfold acell. rewrite in_flat_map. split.
  - intros ((j, w) & I & J). cbn in J. destruct (lexrule w e) as [(r, fs)|] eqn:E; [|destruct J]. destruct J as [<-|[]]. exists j, w, r, fs. split; [exact I|]. split; [exact E|]. unfold links. cbn. repeat split.
  - intros (j & w & r & fs & I & E & LK). exists (j, w). split; [exact I|]. cbn. rewrite E. left. unfold links in LK. destruct l. cbn in *. destruct LK as (-> & -> & -> & -> & -> & ->). reflexivity.
Qed.
Lemma acell_nodup : forall i e ps, NoDup (map fst ps) -> NoDup (map i_ (acell i e ps)).
Proof.
  intros i e ps. induction ps as [|(j, w) q IH]; intros N; [constructor|]. cbn in *. inversion N as [|? ? N1 N2]; subst. destruct (lexrule w e) as [(r, fs)|]; cbn; [|exact (IH N2)]. constructor; [|exact (IH N2)]. intros I. apply N1. apply in_map_iff in I as (l & EL & I). apply acell_in in I as (j' & w' & r' & fs' & I & _ & (_ & _ & L3 & _)). apply in_map_iff. exists (j', w'). cbn. split; [congruence|exact I].
Qed.
Definition possible (e : Z) : Prop := exists j w r fs, at_ j w /\ lexrule w e = Some (r, fs).
Let ps := sources kNULL use_null src.
Definition acells := map (fun q => acell (fst q) (snd q) ps) (combine (List.seq 0 (length trg)) trg).
Lemma acells_nth : forall i c, nth_error acells i = Some c <-> exists e, nth_error trg i = Some e /\ c = acell i e ps.
Proof.
  intros i c. unfold acells. rewrite nth_error_map. destruct (nth_error (combine (List.seq 0 (length trg)) trg) i) as [(a, e)|] eqn:E.
  - apply nth_index in E as (A & B). cbn in A, B. subst a. cbn. split; [intros [= <-]; eauto|]. intros (e' & B' & ->). rewrite B in B'. injection B' as <-. reflexivity.
  - cbn. split; [discriminate|]. intros (w & B & _). exfalso. assert (H : nth_error (combine (List.seq 0 (length trg)) trg) i = Some (i, w)) by (apply nth_index; auto). congruence.
Qed.
Lemma acells_len : length acells = length trg.
Proof. unfold acells. rewrite map_length, combine_length, seq_length. lia. Qed.
Lemma align_built : ((forall e, In e trg -> possible e) -> exists g : hgx, AlignTrellis kXCAT kGOALCAT kNULL bin_addr goal_addr lexrule use_null (sentence src) (sentence trg) = Some g /\ CH g acells) /\
  ((exists e, In e trg /\ ~ possible e) -> AlignTrellis (X := X) kXCAT kGOALCAT kNULL bin_addr goal_addr lexrule use_null (sentence src) (sentence trg) = None).
Proof.
  unfold AlignTrellis. rewrite !labels_sentence. cbn [bind]. fold ps.
  assert (AC : forall i e, align_cell lexrule i e ps = match acell i e ps with [] => None | c => Some c end) by reflexivity.
  assert (PO : forall i e, acell i e ps <> [] <-> possible e). { intros i e. unfold possible. split.
    - intros NE. destruct (acell i e ps) as [|l r] eqn:E; [congruence|]. assert (I : In l (acell i e ps)) by (rewrite E; left; reflexivity). apply acell_in in I as (j & w & r' & fs & I & L & _). exists j, w, r', fs. split; [apply sources_in; exact I|exact L].
    - intros (j & w & r & fs & I & L) E. assert (IN : In (lex_edge i j r fs) (acell i e ps)). { apply acell_in. exists j, w, r, fs. split; [apply sources_in; exact I|]. split; [exact L|]. unfold links. cbn. repeat split. } rewrite E in IN. destruct IN. }
  split.
  - intros P. assert (MO : forall l a, (forall e, In e l -> possible e) -> map_opt (fun q => align_cell lexrule (fst q) (snd q) ps) (combine (List.seq a (length l)) l) = Some (map (fun q => acell (fst q) (snd q) ps) (combine (List.seq a (length l)) l))).
    { intros l. induction l as [|e r IH]; intros a Q; [reflexivity|]. cbn [List.seq length combine map]. rewrite mo_cons. cbn [fst snd]. rewrite AC. destruct (acell a e ps) as [|c0 c1] eqn:E; [exfalso; exact (proj2 (PO a e) (Q e (or_introl eq_refl)) E)|]. cbn [bind]. rewrite IH by (intros x I; apply Q; right; exact I). cbn [bind]. rewrite <- E. reflexivity. }
    rewrite (MO trg 0 P). cbn [bind]. fold acells. pose proof acells_len as L. destruct acells as [|c r]; [destruct trg; [congruence|discriminate]|].
    destruct (build_ok (X := X) kXCAT kGOALCAT bin_addr goal_addr xneg (fun _ => plain (kBINARY kXCAT bin_addr) (-1) (-1)) (fun i => eq_refl) c r) as (g1 & g & B1 & B2 & H). exists g. rewrite B1. cbn [bind]. auto.
  - intros (e & I & NP). assert (MO : forall l a, In e l -> map_opt (fun q => align_cell lexrule (fst q) (snd q) ps) (combine (List.seq a (length l)) l) = None).
    { intros l. induction l as [|x r IH]; intros a J; [destruct J|]. cbn [List.seq length combine]. rewrite mo_cons. cbn [fst snd]. destruct J as [->|J].
      - rewrite AC. destruct (acell a e ps) as [|c0 c1] eqn:E; [reflexivity|]. exfalso. apply NP. apply (PO a e). rewrite E. discriminate.
      - destruct (align_cell lexrule a x ps); [|reflexivity]. cbn [bind]. rewrite (IH (S a) J). reflexivity. }
    rewrite (MO trg 0 I). reflexivity.
Qed.
(** [a]: a source position for each target position *)
Definition alignment (a : list Z) : Prop := Forall2 (fun e j => exists w r fs, at_ j w /\ lexrule w e = Some (r, fs)) trg a.
Lemma at_pos : forall j w, at_ j w -> (0 < w)%Z.
Proof. intros j w [(_ & _ & ->)|(_ & N)]; [exact null_pos|exact (pos_nth _ _ _ src_pos N)]. Qed.
Lemma align_good : forall i c l, nth_error acells i = Some c -> In l c -> prev_i_ l = Z.of_nat i /\ (exists w, r_e (rule_ l) = [w] /\ (0 < w)%Z) /\ r_arity (rule_ l) = 0%Z /\ Forall (fun w => (0 < w)%Z) (r_f (rule_ l)).
Proof.
  intros i c l C I. apply acells_nth in C as (e & E & ->). apply acell_in in I as (j & w & r & fs & I & L & (L1 & _ & _ & _ & L5 & _)). apply sources_in in I. rewrite L1. destruct (lex_words w e r fs L) as (A1 & A2 & A3). split; [exact L5|]. split; [exists e; split; [exact A1|exact (pos_nth _ _ _ trg_pos E)]|]. split; [exact A3|]. rewrite A2. constructor; [exact (at_pos j w I)|constructor].
Qed.
Lemma choice_i : forall ks ls ks' ls', choice acells ks ls -> choice acells ks' ls' -> map i_ ls = map i_ ls' -> ks = ks'.
Proof.
  assert (ND : forall c, In c acells -> NoDup (map i_ c)). { intros c I. apply In_nth_error in I as (i & I). apply acells_nth in I as (e & _ & ->). apply acell_nodup. apply sources_fst. }
  intros ks ls ks' ls' A. revert ks' ls'. generalize dependent acells. intros cs ND A. revert ND. induction A as [|c cells k ks l ls N A IH]; intros ND ks' ls' B M; inversion B as [|c' cells' k' ks'' l' ls'' N' B']; subst; [reflexivity|]. cbn in M. injection M as M1 M2. f_equal; [|apply (IH ltac:(intros x I; apply ND; right; exact I) _ _ B' M2)].
  apply (proj1 (NoDup_nth_error (map i_ c)) (ND c (or_introl eq_refl)) k k'); [apply nth_error_Some; rewrite nth_error_map, N; discriminate|]. rewrite !nth_error_map, N, N'. cbn. congruence.
Qed.
Lemma choice_make : forall a, alignment a -> exists ks ls, choice acells ks ls /\ map i_ ls = a.
Proof.
  intros a F. unfold alignment in F. unfold acells. clear trg_pos trg_ne. generalize 0 as s. induction F as [|e j l r (w & r0 & fs & P & L) F IH]; intros s; [exists [], []; split; [constructor|reflexivity]|]. destruct (IH (S s)) as (ks & ls & CC & M). cbn [length List.seq combine map fst snd].
  assert (I : In (lex_edge s j r0 fs) (acell s e ps)). { apply acell_in. exists j, w, r0, fs. split; [apply sources_in; exact P|]. split; [exact L|]. unfold links. cbn. repeat split. }
  apply In_nth_error in I as (k & K). exists (k :: ks), (lex_edge s j r0 fs :: ls). split; [constructor; assumption|]. cbn. congruence.
Qed.
Lemma choice_valid : forall ks ls, choice acells ks ls -> alignment (map i_ ls) /\ targets ls = trg /\ Forall2 at_ (map i_ ls) (sources_of ls).
Proof.
  intros ks ls. unfold alignment, acells. clear trg_pos trg_ne. generalize 0 as s. revert ks ls. induction trg as [|e r IH]; intros ks ls s CC.
  - inversion CC; subst. cbn. repeat split; constructor.
  - cbn [length List.seq combine map fst snd] in CC. inversion CC as [|c cells k ks' l ls' N A]; subst. destruct (IH _ _ _ A) as (B1 & B2 & B3). apply nth_error_In in N. apply acell_in in N as (j & w & r0 & fs & I & L & (L1 & _ & L3 & _)). apply sources_in in I. destruct (lex_words w e r0 fs L) as (A1 & A2 & A3). unfold targets, sources_of in *. cbn. rewrite L1, L3, A1, A2. cbn. split; [constructor; [exists w, r0, fs; auto|exact B1]|]. split; [f_equal; exact B2|]. constructor; assumption.
Qed.
Theorem lexalign_ok :
  (AlignTrellis (X := X) kXCAT kGOALCAT kNULL bin_addr goal_addr lexrule use_null (sentence src) (sentence trg) = None <-> exists e, In e trg /\ ~ possible e) /\
  ((forall e, In e trg -> possible e) -> exists g : hgx, AlignTrellis kXCAT kGOALCAT kNULL bin_addr goal_addr lexrule use_null (sentence src) (sentence trg) = Some g /\ wf_hg g /\ topo g /\
     (forall t, derives g (goal g) t -> alignment (map i_ (leaves g t)) /\ translation g t = Some trg /\ exists ws, source g t = Some ws /\ Forall2 at_ (map i_ (leaves g t)) ws) /\
     (forall a, alignment a -> exists! t, derives g (goal g) t /\ map i_ (leaves g t) = a)).
Proof.
  split; [split|].
  - intros E. destruct align_built as (B & _). assert (D : forall l, (forall e, In e l -> possible e) \/ exists e, In e l /\ ~ possible e).
    { assert (DE : forall e, possible e \/ ~ possible e). { intros e. destruct (acell 0 e ps) as [|l r] eqn:AE.
        - right. intros (j & w & r & fs & P & L). assert (I : In (lex_edge 0 j r fs) (acell 0 e ps)) by (apply acell_in; exists j, w, r, fs; split; [apply sources_in; exact P|]; split; [exact L|]; unfold links; cbn; repeat split). rewrite AE in I. destruct I.
        - left. assert (I : In l (acell 0 e ps)) by (rewrite AE; left; reflexivity). apply acell_in in I as (j & w & r0 & fs & I & L & _). exists j, w, r0, fs. split; [apply sources_in; exact I|exact L]. }
      induction l as [|e r IH]; [left; intros e []|]. destruct (DE e) as [P|P]; [|right; exists e; split; [left; reflexivity|exact P]]. destruct IH as [IH|(x & I & Q)]; [left; intros x [<-|I]; [exact P|exact (IH x I)]|right; exists x; split; [right; exact I|exact Q]]. }
    destruct (D trg) as [P|P]; [|exact P]. destruct (B P) as (g & BG & _). congruence.
  - apply (proj2 align_built).
  - intros P. destruct (proj1 align_built P) as (g & B & H). exists g. split; [exact B|]. split; [exact (c_wf _ _ H)|]. split; [exact (c_topo _ _ H)|].
    destruct (ch_trellis g acells H) as (enc & E1 & E2 & E3 & E4). pose proof (fun c l I J => all_lexical acells align_good c l I J) as LX. split.
    + intros t D. apply E1 in D as (ks & ls & CC & ->). rewrite (E3 ks ls CC). destruct (choice_valid ks ls CC) as (V1 & V2 & V3). destruct (E4 LX ks ls CC) as (T1 & T2). split; [exact V1|]. split; [congruence|]. eauto.
    + intros a A. destruct (choice_make a A) as (ks & ls & CC & M). exists (enc ks). split; [split; [apply E1; eauto|rewrite (E3 ks ls CC); exact M]|]. intros t (D & M'). apply E1 in D as (ks' & ls' & CC' & ->). rewrite (E3 ks' ls' CC') in M'. f_equal. apply (choice_i ks ls ks' ls' CC CC'). congruence.
Qed.
End Align.
End A.
