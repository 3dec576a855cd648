(** Proofs for Trellis.v: the three builders. *)
From Coq Require Import String List ZArith Bool Lia.
From Verif Require Import Opt OptProofs HG HGProofs Deriv TopoSpec Prune PruneSpec Rule RuleSpec RuleProofs Parser Constrain ConstrainSpec ConstrainProofs ConstrainFastProofs Trellis TrellisSpec TrellisProofs TrellisChainProofs TrellisMainProofs.
Import ListNotations.
Open Scope opt_scope.
Local Open Scope nat_scope.

Section A.
Context {X : Type}.
Notation hgx := (hg (elab X)).
Variables (kXCAT kGOALCAT kNULL : Z) (bin_addr goal_addr : nat).
Hypothesis xneg : (kXCAT < 0)%Z.

Lemma nth_index : forall A (l : list A) a i q, nth_error (combine (List.seq a (length l)) l) i = Some q <-> fst q = a + i /\ nth_error l i = Some (snd q).
Proof.
  intros A l. induction l as [|x r IH]; intros a i q; [destruct i; cbn; split; [discriminate|intros (_ & H); discriminate|discriminate|intros (_ & H); discriminate]|]. destruct i as [|i]; cbn.
  - split; [intros [= <-]; cbn; auto|]. destruct q as (u, v). cbn. intros (-> & [= ->]). rewrite Nat.add_0_r. reflexivity.
  - rewrite IH. replace (S a + i) with (a + S i) by lia. reflexivity.
Qed.

(** ** The tagger *)
Section Tag.
Variables tagset ts : list Z.
Let nt := length tagset.
Let cells := tag_cells (X := X) tagset ts.
Lemma tag_cell : forall i c, nth_error cells i = Some c <-> exists w, nth_error ts i = Some w /\ c = map (fun kt => tag_edge nt i w (fst kt) (snd kt)) (combine (List.seq 0 (length tagset)) tagset).
Proof.
  intros i c. unfold cells, tag_cells. rewrite nth_error_map. destruct (nth_error (combine _ ts) i) as [(a, w)|] eqn:E.
  - apply nth_index in E as (A & B). cbn in A, B. subst a. cbn. split; [intros [= <-]; eauto|]. intros (w' & B' & ->). rewrite B in B'. injection B' as <-. reflexivity.
  - cbn. split; [discriminate|]. intros (w & B & _). exfalso. assert (H : nth_error (combine (List.seq 0 (length ts)) ts) i = Some (i, w)) by (apply nth_index; auto). congruence.
Qed.
Lemma tag_in : forall i c k l, nth_error cells i = Some c -> nth_error c k = Some l <-> exists w tag, nth_error ts i = Some w /\ nth_error tagset k = Some tag /\ l = tag_edge nt i w k tag.
Proof.
  intros i c k l C. apply tag_cell in C as (w & W & ->). rewrite nth_error_map. destruct (nth_error (combine _ tagset) k) as [(a, tag)|] eqn:E.
  - apply nth_index in E as (A & B). cbn in A, B. subst a. cbn. split; [intros [= <-]; eauto|]. intros (w' & tag' & W' & B' & ->). rewrite B in B'. injection B' as <-. rewrite W in W'. injection W' as <-. reflexivity.
  - cbn. split; [discriminate|]. intros (w' & tag & _ & B & _). exfalso. assert (H : nth_error (combine (List.seq 0 (length tagset)) tagset) k = Some (k, tag)) by (apply nth_index; auto). congruence.
Qed.
Lemma tag_len : length cells = length ts.
Proof. unfold cells, tag_cells. rewrite map_length, combine_length, seq_length. lia. Qed.
Hypothesis tags_pos : Forall (fun w => (0 < w)%Z) tagset.
Hypothesis ts_pos : Forall (fun w => (0 < w)%Z) ts.
Hypothesis ts_ne : ts <> [].

Lemma pos_nth : forall l i (w : Z), Forall (fun w => (0 < w)%Z) l -> nth_error l i = Some w -> (0 < w)%Z.
Proof. intros l i w F N. rewrite Forall_forall in F. exact (F w (nth_error_In _ _ N)). Qed.
Lemma tag_built : exists g : hgx, TaggerTrellis kXCAT kGOALCAT bin_addr goal_addr tagset ts = Some g /\ CH g cells.
Proof.
  destruct cells as [|c r] eqn:E; [pose proof tag_len as L; rewrite E in L; destruct ts; [congruence|discriminate]|].
  destruct (build_ok (X := X) kXCAT kGOALCAT bin_addr goal_addr xneg (fun i => plain (kBINARY kXCAT bin_addr) 0 (Z.of_nat i + 1)) (fun i => eq_refl) c r) as (g1 & g & A & B & H). exists g. split; [|exact H]. unfold TaggerTrellis. fold cells. rewrite E, A. cbn [bind]. exact B.
Qed.
Lemma tag_good : forall i c l, nth_error cells i = Some c -> In l c -> prev_i_ l = Z.of_nat i /\ (exists w, r_e (rule_ l) = [w] /\ (0 < w)%Z) /\ r_arity (rule_ l) = 0%Z /\ Forall (fun w => (0 < w)%Z) (r_f (rule_ l)).
Proof.
  intros i c l C I. apply In_nth_error in I as (k & K). apply (tag_in i c k l C) in K as (w & tag & W & T & ->). cbn. split; [reflexivity|]. split; [exists tag; split; [reflexivity|exact (pos_nth _ _ _ tags_pos T)]|]. split; [reflexivity|]. constructor; [exact (pos_nth _ _ _ ts_pos W)|constructor].
Qed.
Lemma tag_own : forall g : hgx, CH g cells -> own_rules g.
Proof.
  intros g H a b ed fd A B TA TB AE. destruct (c_at _ _ H) as (at_ & AT). destruct (AT a ed A TA) as (i & c & k & C & K & ->). destruct (AT b fd B TB) as (i' & c' & k' & C' & K' & ->). apply (tag_in i c k _ C) in K as (w & tag & _ & T & EQ). apply (tag_in i' c' k' _ C') in K' as (w' & tag' & _ & T' & EQ').
  rewrite EQ, EQ' in AE. cbn in AE. injection AE as AE. assert (k < nt) by (apply nth_error_Some; congruence). assert (k' < nt) by (apply nth_error_Some; congruence).
  assert (i = i'). { assert (Q1 : i = (i * nt + k) / nt) by (apply (Nat.div_unique _ nt i k); lia). assert (Q2 : i' = (i' * nt + k') / nt) by (apply (Nat.div_unique _ nt i' k'); lia). congruence. } subst i'. f_equal. lia.
Qed.
Lemma own_heap : forall g : hgx, own_rules g -> heap_ok g.
Proof. intros g O a b ed fd A B TA TB AE. pose proof (O a b ed fd A B TA TB AE). subst b. congruence. Qed.
Lemma tag_choice : forall ks, (exists ls, choice cells ks ls) <-> length ks = length ts /\ Forall (fun k => k < length tagset) ks.
Proof.
  intros ks. split.
  - intros (ls & CC). destruct (choice_nth _ _ _ CC) as (LL & LK & NTH). split; [rewrite LK; exact tag_len|]. apply Forall_forall. intros k I. apply In_nth_error in I as (i & I). assert (i < length ls) by (rewrite LL, <- LK; apply nth_error_Some; congruence). destruct (nth_error ls i) as [l|] eqn:L; [|apply nth_error_None in L; lia]. destruct (NTH i l L) as (c & k' & C & K' & N). assert (k' = k) by congruence. subst k'. apply (tag_in i c k l C) in N as (w & tag & _ & T & _). apply nth_error_Some. congruence.
  - intros (L & F). assert (H : forall i c k, nth_error cells i = Some c -> nth_error ks i = Some k -> exists l, nth_error c k = Some l).
    { intros i c k C K. rewrite Forall_forall in F. pose proof (F k (nth_error_In _ _ K)) as LT. destruct (nth_error tagset k) as [tag|] eqn:T; [|apply nth_error_None in T; lia]. pose proof C as C'. apply tag_cell in C' as (w & W & _). eexists. apply (tag_in i c k _ C). eauto. }
    assert (L2 : length ks = length cells) by (rewrite tag_len; exact L). clear F L. revert ks H L2. generalize cells as cs. induction cs as [|c r IH]; intros [|k ks] H L; try discriminate; [exists []; constructor|]. destruct (H 0 c k eq_refl eq_refl) as (l & N). destruct (IH ks) as (ls & CC); [intros i c0 k0; exact (H (S i) c0 k0)|cbn in L; lia|]. exists (l :: ls). constructor; assumption.
Qed.
Lemma tag_words : forall ks ls, choice cells ks ls -> targets ls = map (fun k => nth k tagset 0%Z) ks /\ sources_of ls = ts.
Proof.
  intros ks ls CC. destruct (choice_nth _ _ _ CC) as (LL & LK & NTH). assert (W1 : forall l, In l ls -> exists w, r_e (rule_ l) = [w]) by (intros l I; apply In_nth_error in I as (i & I); destruct (NTH i l I) as (c & k & C & _ & N); apply (tag_in i c k l C) in N as (w & tag & _ & _ & ->); cbn; eauto).
  assert (W2 : forall l, In l (map (fun l => {| rule_ := TR None (r_f (rule_ l)) [] 0 None; feats_ := @nil X; i_ := 0; j_ := 0; prev_i_ := 0; prev_j_ := 0 |}) ls) -> exists w, r_e (rule_ l) = [w]). { intros l I. apply in_map_iff in I as (l0 & <- & I). apply In_nth_error in I as (i & I). destruct (NTH i l0 I) as (c & k & C & _ & N). apply (tag_in i c k l0 C) in N as (w & tag & _ & _ & ->). cbn. eauto. }
  destruct (targets_map ls W1) as (L1 & N1). destruct (targets_map _ W2) as (L2 & N2). rewrite map_length in L2.
  assert (EQ : targets (map (fun l => {| rule_ := TR None (r_f (rule_ l)) [] 0 None; feats_ := @nil X; i_ := 0; j_ := 0; prev_i_ := 0; prev_j_ := 0 |}) ls) = sources_of ls) by (clear; unfold targets, sources_of; induction ls as [|l r IH]; [reflexivity|cbn in *; f_equal; exact IH]). rewrite EQ in *.
  split; apply (list_ext (X := X) [] [] eq_refl).
  - rewrite L1, map_length. congruence.
  - intros i x y T M. rewrite nth_error_map in M. destruct (nth_error ks i) as [k|] eqn:K; [|discriminate]. injection M as <-. assert (LI : i < length ls) by (rewrite LL, <- LK; apply nth_error_Some; congruence). destruct (nth_error ls i) as [l|] eqn:L; [|apply nth_error_None in L; lia]. destruct (N1 i l L) as (w & RE & TW). destruct (NTH i l L) as (c & k' & C & K' & N). assert (k' = k) by congruence. subst k'. apply (tag_in i c k l C) in N as (v & tag & V & TG & ->). cbn in RE. injection RE as <-. rewrite (nth_error_nth _ _ _ TG). congruence.
  - rewrite L2, LL. exact tag_len.
  - intros i x y T M. assert (LI : i < length ls) by (rewrite <- L2; apply nth_error_Some; congruence). destruct (nth_error ls i) as [l|] eqn:L; [|apply nth_error_None in L; lia]. destruct (NTH i l L) as (c & k' & C & K' & N). apply (tag_in i c k' l C) in N as (v & tag & V & TG & EL). destruct (N2 i _ ltac:(rewrite nth_error_map, L; reflexivity)) as (w & RE & TW). cbn in RE. rewrite EL in RE. cbn in RE. injection RE as <-. congruence.
Qed.
Theorem tagger_ok : exists (g : hgx) (enc : list nat -> tree), TaggerTrellis kXCAT kGOALCAT bin_addr goal_addr tagset ts = Some g /\ wf_hg g /\ topo g /\ own_rules g /\
  let valid ks := length ks = length ts /\ Forall (fun k => k < length tagset) ks in
  (forall t, derives g (goal g) t <-> exists ks, valid ks /\ t = enc ks) /\
  (forall ks ks', valid ks -> valid ks' -> enc ks = enc ks' -> ks = ks') /\
  (forall ks, valid ks -> translation g (enc ks) = Some (map (fun k => nth k tagset 0%Z) ks) /\ source g (enc ks) = Some ts).
Proof.
  destruct tag_built as (g & B & H). destruct (ch_trellis g cells H) as (enc & E1 & E2 & E3 & E4). exists g, enc. split; [exact B|]. split; [exact (c_wf _ _ H)|]. split; [exact (c_topo _ _ H)|]. split; [exact (tag_own g H)|]. cbv zeta. split; [|split].
  - intros t. rewrite E1. split.
    + intros (ks & ls & CC & ->). exists ks. split; [apply tag_choice; eauto|reflexivity].
    + intros (ks & V & ->). apply tag_choice in V as (ls & CC). eauto.
  - intros ks ks' V V'. apply tag_choice in V as (ls & CC). apply tag_choice in V' as (ls' & CC'). exact (E2 _ _ _ _ CC CC').
  - intros ks V. apply tag_choice in V as (ls & CC). destruct (tag_words ks ls CC) as (T1 & T2). destruct (E4 (fun c l I J => all_lexical cells tag_good c l I J) ks ls CC) as (Q1 & Q2). rewrite Q1, Q2, T1, T2. split; reflexivity.
Qed.
Theorem tagger_limited : forall ws conv str arc_feats dist, length ws = length ts -> exists (g : hgx) ok h, TaggerTrellis kXCAT kGOALCAT bin_addr goal_addr tagset ts = Some g /\
  Intersect conv str arc_feats true (sentence ws) dist g = Some (ok, h) /\ wf_hg h /\ topo h /\ (ok = true <-> forall w, In w ws -> In w tagset) /\ limited (fun _ => turned) ws g h /\ own_rules g.
Proof.
  intros ws conv str af dist LW. destruct tag_built as (g & B & H). pose proof (tag_own g H) as OWN. assert (CNE : cells <> []) by (intros E; pose proof tag_len as L; rewrite E in L; destruct ts; [congruence|discriminate]).
  destruct (limited_ok g cells H (own_heap g OWN) tag_good ws ltac:(rewrite LW; symmetry; exact tag_len) conv str af dist) as (ok & h & IE & WH & TH & OK & (f & F1 & F2 & F3 & F4)).
  exists g, ok, h. split; [exact B|]. split; [exact IE|]. split; [exact WH|]. split; [exact TH|]. split; [|split; [|exact OWN]].
  - rewrite OK. destruct (ch_trellis g cells H) as (enc & E1 & E2 & E3 & E4). pose proof (fun c l I J => all_lexical cells tag_good c l I J) as LX. split.
    + intros (t & D & T) w I. apply E1 in D as (ks & ls & CC & ->). destruct (E4 LX ks ls CC) as (TT & _). rewrite T in TT. injection TT as TT. destruct (tag_words ks ls CC) as (TW & _). rewrite TT, TW in I. apply in_map_iff in I as (k & <- & I). assert (V : exists ls, choice cells ks ls) by eauto. apply tag_choice in V as (_ & F). rewrite Forall_forall in F. apply nth_In. exact (F k I).
    + intros A. assert (K : exists ks, length ks = length ws /\ Forall (fun k => k < length tagset) ks /\ map (fun k => nth k tagset 0%Z) ks = ws).
      { clear - A. induction ws as [|w r IH]; [exists []; repeat split; constructor|]. destruct (IH ltac:(intros x I; apply A; right; exact I)) as (ks & L & F & M). destruct (In_nth tagset w 0%Z (A w (or_introl eq_refl))) as (k & LK & NK). exists (k :: ks). cbn. split; [congruence|]. split; [constructor; assumption|congruence]. }
      destruct K as (ks & L & F & M). destruct (proj2 (tag_choice ks) (conj (eq_trans L LW) F)) as (ls & CC). exists (enc ks). split; [apply E1; eauto|]. destruct (E4 LX ks ls CC) as (TT & _). destruct (tag_words ks ls CC) as (TW & _). congruence.
  - exists f. split; [exact F1|]. split; [exact F2|]. split; [|exact F4]. intros t e D T I. destruct (F3 t e D T I) as (ed & ed' & E & E' & LI & LF). exists ed, ed'. split; [exact E|]. split; [exact E'|]. split; [exact LI|]. intros TL. apply (LF TL). intros (b & ed2 & fd & LB & E2 & B2 & TF & MF & AE). assert (ed2 = ed) by congruence. subst ed2. pose proof (OWN e b ed fd E B2 TL TF AE). lia.
Qed.
End Tag.
End A.
