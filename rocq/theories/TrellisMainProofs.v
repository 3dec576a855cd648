(** Proofs for Trellis.v: a trellis limited to a reference. *)
From Coq Require Import String List ZArith Bool Lia.
From Verif Require Import Opt OptProofs HG HGProofs Deriv TopoSpec Prune PruneSpec Rule RuleSpec RuleProofs Parser Constrain ConstrainSpec ConstrainProofs ConstrainMainProofs ConstrainAllProofs ConstrainFastProofs Trellis TrellisSpec TrellisProofs TrellisChainProofs.
Import ListNotations.
Open Scope opt_scope.
Local Open Scope nat_scope.

Section T.
Context {X : Type}.
Notation hgx := (hg (elab X)).

Lemma choice_nth : forall (cells : list (list (elab X))) ks ls, choice cells ks ls -> length ls = length cells /\ length ks = length cells /\ forall i l, nth_error ls i = Some l -> exists c k, nth_error cells i = Some c /\ nth_error ks i = Some k /\ nth_error c k = Some l.
Proof.
  intros cells ks ls H. induction H as [|c cells k ks l ls N H (IH1 & IH2 & IH3)]; [split; [reflexivity|]; split; [reflexivity|]; intros [|?]; discriminate|]. cbn. split; [congruence|]. split; [congruence|]. intros [|i] l0 L; cbn in L; [injection L as <-; exists c, k; auto|]. exact (IH3 i l0 L).
Qed.
Lemma leaf_in : forall (g : hgx) t n, derives g n t -> forall l, In l (leaves g t) <-> exists e ed, In e (tree_edges t) /\ nth_error (edges g) e = Some ed /\ tails ed = [] /\ lab ed = l.
Proof.
  intros g t. induction t as [e ts IH] using tree_ind'. intros n D l. inversion D as [? nd ? ed ? N J E F]; subst. destruct ts as [|t0 r].
  - inversion F as [TL|]; subst. cbn [leaves tree_edges flat_map app]. rewrite E. split.
    + intros [<-|[]]. exists e, ed. split; [left; reflexivity|]. auto.
    + intros (e1 & ed1 & [<-|[]] & E1 & T1 & <-). left. congruence.
  - change (leaves g (Tree e (t0 :: r))) with (flat_map (leaves g) (t0 :: r)). rewrite in_flat_map. rewrite Forall_forall in IH. split.
    + intros (s & S & I). pose proof S as S0. apply In_nth_error in S0 as (k & K). destruct (F2_nth_r _ _ _ _ _ F _ _ K) as (m & _ & DM). apply (IH s S m DM) in I as (e1 & ed1 & I1 & R). exists e1, ed1. split; [|exact R]. cbn [tree_edges]. apply in_or_app. left. apply in_flat_map. eauto.
    + intros (e1 & ed1 & I1 & E1 & T1 & <-). cbn [tree_edges] in I1. apply in_app_or in I1 as [I1|[<-|[]]].
      * apply in_flat_map in I1 as (s & S & I1). pose proof S as S0. apply In_nth_error in S0 as (k & K). destruct (F2_nth_r _ _ _ _ _ F _ _ K) as (m & _ & DM). exists s. split; [exact S|]. apply (IH s S m DM). exists e1, ed1. auto.
      * assert (ed1 = ed) by congruence. subst ed1. rewrite T1 in F. inversion F.
Qed.
(** the tails along two copies of a derivation *)
Lemma same_tails : forall (g h : hgx) f t n m, derives g n t -> derives h m (rename f t) -> forall e ed ed', In e (tree_edges t) -> nth_error (edges g) e = Some ed -> nth_error (edges h) (f e) = Some ed' -> length (tails ed') = length (tails ed).
Proof.
  intros g h f t. induction t as [e0 ts IH] using tree_ind'. intros n m D D' e ed ed' I E E'. inversion D as [? nd ? ed0 ? N J E0 F]; subst. cbn [rename] in D'. inversion D' as [? nd' ? ed0' ? N' J' E0' F']; subst. cbn [tree_edges] in I. apply in_app_or in I as [I|[<-|[]]].
  - apply in_flat_map in I as (s & S & I). pose proof S as S0. apply In_nth_error in S0 as (k & K). destruct (F2_nth_r _ _ _ _ _ F _ _ K) as (a & _ & DA). assert (K' : nth_error (map (rename f) ts) k = Some (rename f s)) by (rewrite nth_error_map, K; reflexivity). destruct (F2_nth_r _ _ _ _ _ F' _ _ K') as (b & _ & DB). rewrite Forall_forall in IH. exact (IH s S a b DA DB e ed ed' I E E').
  - assert (ed0 = ed) by congruence. assert (ed0' = ed') by congruence. subst. rewrite (F2_len _ _ _ _ _ F), (F2_len _ _ _ _ _ F'), map_length. reflexivity.
Qed.
Lemma leaves_rename : forall (g h : hgx) f (R : elab X -> elab X -> Prop) t n, derives g n t ->
  (forall e ed, In e (tree_edges t) -> nth_error (edges g) e = Some ed -> tails ed = [] -> exists ed', nth_error (edges h) (f e) = Some ed' /\ R (lab ed) (lab ed')) -> Forall2 R (leaves g t) (leaves h (rename f t)).
Proof.
  intros g h f R t. induction t as [e ts IH] using tree_ind'. intros n D ALL. inversion D as [? nd ? ed ? N J E F]; subst. destruct ts as [|t0 r].
  - inversion F as [TL|]; subst. cbn. rewrite E. destruct (ALL e ed) as (ed' & E' & RR); [cbn; auto|exact E|auto|]. rewrite E'. constructor; [exact RR|constructor].
  - change (Forall2 R (flat_map (leaves g) (t0 :: r)) (flat_map (leaves h) (map (rename f) (t0 :: r)))). assert (A2 : forall e0 ed0, In e0 (flat_map tree_edges (t0 :: r)) -> nth_error (edges g) e0 = Some ed0 -> tails ed0 = [] -> exists ed', nth_error (edges h) (f e0) = Some ed' /\ R (lab ed0) (lab ed')) by (intros e0 ed0 I; apply ALL; cbn [tree_edges]; apply in_or_app; left; exact I).
    clear ALL D E J N. revert IH F A2. generalize (tails ed) (t0 :: r). intros tl ts IH F. revert IH. induction F as [|x y l l' H F IHF]; intros IH A2; [constructor|]. inversion IH; subst. cbn [flat_map map] in *. apply Forall2_app; [apply (H2 x H); intros e0 ed0 I; apply A2, in_or_app; left; exact I|]. apply IHF; [assumption|]. intros e0 ed0 I. apply A2, in_or_app. right. exact I.
Qed.

Variable g : hgx.
Variable cells : list (list (elab X)).
Hypothesis ch : CH g cells.
Hypothesis heap : heap_ok g.
(** one word per label, for its position *)
Hypothesis good : forall i c l, nth_error cells i = Some c -> In l c -> prev_i_ l = Z.of_nat i /\ (exists w, r_e (rule_ l) = [w] /\ (0 < w)%Z) /\ r_arity (rule_ l) = 0%Z /\ Forall (fun w => (0 < w)%Z) (r_f (rule_ l)).
Variable ws : list Z.
Hypothesis len_ws : length ws = length cells.
Hypothesis cne : cells <> [].

Lemma all_lexical : forall c l, In c cells -> In l c -> lexical l.
Proof. intros c l I J. apply In_nth_error in I as (i & I). destruct (good i c l I J) as (_ & (w & RE & W) & _ & RF). split; [rewrite RE; constructor; [exact W|constructor]|exact RF]. Qed.
Lemma nth_sent : forall (l : list Z) i, nth_error (sentence l) i = option_map (fun w => [{| label := w; len := 1 |}]) (nth_error l i).
Proof. intros l i. unfold sentence. apply nth_error_map. Qed.
Lemma leaf_good : forall e ed, nth_error (edges g) e = Some ed -> tails ed = [] -> usable (sentence ws) (lab ed).
Proof.
  intros e ed E TL. destruct (c_at _ _ ch) as (at_ & AT). destruct (AT e ed E TL) as (i & c & k & CA & CK & _). destruct (good i c _ CA (nth_error_In _ _ CK)) as (PI & (w & RE & _) & AR & _). split; [lia|]. split; [eauto|]. split; [exact AR|].
  rewrite PI, Nat2Z.id, nth_sent. assert (i < length ws) by (rewrite len_ws; apply nth_error_Some; congruence). destruct (nth_error ws i) as [v|] eqn:V; [|apply nth_error_None in V; lia]. cbn. eauto.
Qed.
Lemma match_word : forall i c l, nth_error cells i = Some c -> In l c -> matches (sentence ws) l <-> exists w, nth_error ws i = Some w /\ r_e (rule_ l) = [w].
Proof.
  intros i c l CA I. destruct (good i c l CA I) as (PI & _). unfold matches. rewrite PI, Nat2Z.id, nth_sent. destruct (nth_error ws i) as [w|]; cbn; split.
  - intros (x & alt & [= <- <-] & RE). eauto.
  - intros (v & [= <-] & RE). eexists _, _. split; [reflexivity|exact RE].
  - intros (x & alt & H & _). discriminate.
  - intros (v & H & _). discriminate.
Qed.
Lemma targets_map : forall ls : list (elab X), (forall l, In l ls -> exists w, r_e (rule_ l) = [w]) -> length (targets ls) = length ls /\ forall i l, nth_error ls i = Some l -> exists w, r_e (rule_ l) = [w] /\ nth_error (targets ls) i = Some w.
Proof.
  induction ls as [|l r IH]; intros H; [split; [reflexivity|intros [|?]; discriminate]|]. destruct IH as (A & B); [intros x I; apply H; right; exact I|]. destruct (H l (or_introl eq_refl)) as (w & RE). unfold targets in *. cbn [flat_map]. rewrite RE. cbn. split; [congruence|]. intros [|i] l0 L; cbn in L; [injection L as <-; eauto|exact (B i l0 L)].
Qed.
Lemma list_ext : forall A (a b : list A), length a = length b -> (forall i x y, nth_error a i = Some x -> nth_error b i = Some y -> x = y) -> a = b.
Proof. induction a as [|x a IH]; intros [|y b] L H; try discriminate; [reflexivity|]. f_equal; [exact (H 0 x y eq_refl eq_refl)|]. apply IH; [cbn in L; lia|]. intros i u v; exact (H (S i) u v). Qed.
Lemma matched_iff : forall t, derives g (goal g) t -> (matched (sentence ws) g t <-> translation g t = Some ws).
Proof.
  intros t D. destruct (ch_trellis g cells ch) as (enc & E1 & E2 & E3 & E4). destruct (proj1 (E1 t) D) as (ks & ls & CC & ->). destruct (E4 all_lexical ks ls CC) as (TT & _). rewrite TT. destruct (choice_nth _ _ _ CC) as (LL & _ & NTH).
  destruct (targets_map ls) as (TL & TN). { intros l I. apply In_nth_error in I as (i & I). destruct (NTH i l I) as (c & k & CA & _ & CK). destruct (good i c l CA (nth_error_In _ _ CK)) as (_ & (w & RE & _) & _). eauto. }
  assert (M : matched (sentence ws) g (enc ks) <-> forall l, In l ls -> matches (sentence ws) l).
  { unfold matched. rewrite <- (E3 ks ls CC). split.
    - intros M l I. apply (leaf_in g _ _ D) in I as (e & ed & I & E & T & <-). exact (M e ed I E T).
    - intros M e ed I E T. apply M. apply (leaf_in g _ _ D). exists e, ed. auto. }
  rewrite M. split.
  - intros H. f_equal. apply list_ext; [congruence|]. intros i x y TX WY. assert (LI : i < length ls) by (rewrite <- TL; apply nth_error_Some; congruence). destruct (nth_error ls i) as [l|] eqn:L; [|apply nth_error_None in L; lia]. destruct (TN i l L) as (w & RE & TW). destruct (NTH i l L) as (c & k & CA & _ & CK).
    destruct (proj1 (match_word i c l CA (nth_error_In _ _ CK)) (H l (nth_error_In _ _ L))) as (v & WV & RV). congruence.
  - intros [= H] l I. apply In_nth_error in I as (i & L). destruct (TN i l L) as (w & RE & TW). destruct (NTH i l L) as (c & k & CA & _ & CK). apply (match_word i c l CA (nth_error_In _ _ CK)). exists w. split; [congruence|exact RE].
Qed.
Lemma make_choice : (forall i, i < length ws -> exists e ed, nth_error (edges g) e = Some ed /\ tails ed = [] /\ matches (sentence ws) (lab ed) /\ i = Z.to_nat (prev_i_ (lab ed))) <-> exists t, derives g (goal g) t /\ translation g t = Some ws.
Proof.
  destruct (ch_trellis g cells ch) as (enc & E1 & E2 & E3 & E4). split.
  - intros H. assert (K : exists ks ls, choice cells ks ls /\ Forall (matches (sentence ws)) ls).
    { assert (H' : forall i c, nth_error cells i = Some c -> exists k l, nth_error c k = Some l /\ matches (sentence ws) l).
      { intros i c CA. destruct (H i) as (e & ed & E & TL & M & EI); [rewrite len_ws; apply nth_error_Some; congruence|]. destruct (c_at _ _ ch) as (at_ & AT). destruct (AT e ed E TL) as (i' & c' & k & CA' & CK & _). destruct (good i' c' _ CA' (nth_error_In _ _ CK)) as (PI & _). assert (i' = i) by lia. subst i'. assert (c' = c) by congruence. subst c'. eauto. }
      clear - H'. induction cells as [|c r IH]; [exists [], []; split; constructor|]. destruct (H' 0 c eq_refl) as (k & l & CK & M). destruct IH as (ks & ls & CC & F); [intros i c0; exact (H' (S i) c0)|]. exists (k :: ks), (l :: ls). split; constructor; assumption. }
    destruct K as (ks & ls & CC & F). assert (D : derives g (goal g) (enc ks)) by (apply E1; eauto). exists (enc ks). split; [exact D|]. apply (matched_iff _ D). intros e ed I E TL. rewrite Forall_forall in F. apply F. rewrite <- (E3 ks ls CC). apply (leaf_in g _ _ D). exists e, ed. auto.
  - intros (t & D & T) i LI. apply (matched_iff t D) in T. destruct (proj1 (E1 t) D) as (ks & ls & CC & ->). destruct (choice_nth _ _ _ CC) as (LL & _ & NTH). destruct (nth_error ls i) as [l|] eqn:L; [|apply nth_error_None in L; lia]. destruct (NTH i l L) as (c & k & CA & _ & CK).
    assert (IL : In l (leaves g (enc ks))) by (rewrite (E3 ks ls CC); exact (nth_error_In _ _ L)). apply (leaf_in g _ _ D) in IL as (e & ed & I & E & TL & <-). exists e, ed. split; [exact E|]. split; [exact TL|]. split; [exact (T e ed I E TL)|]. destruct (good i c _ CA (nth_error_In _ _ CK)) as (PI & _). lia.
Qed.
Lemma is_sentence : IsSentence (sentence ws) = true.
Proof. unfold IsSentence, sentence. apply forallb_forall. intros x I. apply in_map_iff in I as (w & <- & _). reflexivity. Qed.

Theorem limited_ok : forall conv str arc_feats dist, exists ok h, Intersect conv str arc_feats true (sentence ws) dist g = Some (ok, h) /\ wf_hg h /\ topo h /\
  (ok = true <-> exists t, derives g (goal g) t /\ translation g t = Some ws) /\
  limited (fun e l l' => (~ used_before (sentence ws) g e -> turned l l') /\ (used_before (sentence ws) g e -> half_turned l l')) ws g h.
Proof.
  intros conv str af dist. unfold Intersect. rewrite is_sentence. cbn [andb]. destruct (fast_ok (sentence ws) g (c_wf _ _ ch) (c_topo _ _ ch) (c_ne _ _ ch) leaf_good heap) as (ok & h & FE & WH & TH & OK & (f & S1 & S2 & S3)).
  exists ok, h. split; [exact FE|]. split; [exact WH|]. split; [exact TH|]. split.
  { rewrite OK, <- make_choice. unfold sentence at 1. rewrite map_length. reflexivity. }
  exists f. split; [|split; [|split]].
  - intros t'. rewrite S1. split; intros (t & D & M & EQ); exists t; (split; [exact D|]); (split; [apply (matched_iff t D); exact M|exact EQ]).
  - intros t u D T D' T' EQ. apply S2; [exact D|apply (matched_iff t D); exact T|exact D'|apply (matched_iff u D'); exact T'|exact EQ].
  - intros t e D T I. exact (S3 t e D (proj2 (matched_iff t D) T) I).
  - intros OWN t D T. pose proof (proj2 (matched_iff t D) T) as M. assert (D' : derives h (goal h) (rename f t)) by (apply S1; eauto).
    assert (NU : forall e ed, nth_error (edges g) e = Some ed -> tails ed = [] -> ~ used_before (sentence ws) g e).
    { intros e ed E TL (b & ed2 & fd & LB & E2 & B & TF & MF & AE). assert (ed2 = ed) by congruence. subst ed2. pose proof (OWN e b ed fd E B TL TF AE). lia. }
    assert (LV : Forall2 turned (leaves g t) (leaves h (rename f t))).
    { apply (leaves_rename g h f turned t _ D). intros e ed I E TL. destruct (S3 t e D M I) as (ed2 & ed' & E2 & E' & _ & LF). assert (ed2 = ed) by congruence. subst ed2. exists ed'. split; [exact E'|]. apply (LF TL), (NU e ed E TL). }
    assert (LEAFLEX : forall e ed, nth_error (edges g) e = Some ed -> tails ed = [] -> lexical (lab ed)). { intros e ed E TL. destruct (c_at _ _ ch) as (at_ & AT). destruct (AT e ed E TL) as (i & c & k & CA & CK & _). exact (all_lexical c _ (nth_error_In _ _ CA) (nth_error_In _ _ CK)). }
    destruct (mono_yield h (rename f t) (goal h) D') as (_ & TH' & SH').
    { intros e' ed' I E'. assert (EX : exists e, In e (tree_edges t) /\ e' = f e).
      { clear - I. induction t as [e ts IH] using tree_ind'. cbn [rename tree_edges] in I. apply in_app_or in I as [I|[<-|[]]]; [|exists e; split; [cbn [tree_edges]; apply in_or_app; right; left; reflexivity|reflexivity]].
        apply in_flat_map in I as (s' & S & I). apply in_map_iff in S as (s & <- & S). rewrite Forall_forall in IH. destruct (IH s S I) as (e0 & I0 & ->). exists e0. split; [|reflexivity]. cbn [tree_edges]. apply in_or_app. left. apply in_flat_map. eauto. }
      destruct EX as (e & IE & ->). destruct (S3 t e D M IE) as (ed & ed2 & E & E2 & LI & LF). assert (ed2 = ed') by congruence. subst ed2. pose proof (same_tails g h f t _ _ D D' e ed ed' IE E E') as LT. split.
      - intros TL'. rewrite TL' in LT. assert (TL : tails ed = []) by (destruct (tails ed); [reflexivity|discriminate]). destruct (proj1 (LF TL) (NU e ed E TL)) as (A & B & _). destruct (LEAFLEX e ed E TL) as (L1 & L2). split; [rewrite A; exact L2|rewrite B; exact L1].
      - intros TL'. assert (TL : tails ed <> []) by (intros Q; rewrite Q in LT; destruct (tails ed'); [congruence|discriminate]). unfold inner. rewrite (LI TL). destruct (c_inner _ _ ch e ed E TL) as [(a & c & TA & R)|(a & b & c & d & TA & R)]; rewrite TA in LT.
        + left. destruct (tails ed') as [|x [|y r]]; try discriminate. exists x, c. auto.
        + right. destruct (tails ed') as [|x [|y [|z r]]]; try discriminate. exists x, y, c, d. auto. }
    destruct (mono_yield g t (goal g) D) as (_ & TG & SG). { intros e ed I E. split; [exact (LEAFLEX e ed E)|exact (c_inner _ _ ch e ed E)]. }
    assert (SW : sources_of (leaves h (rename f t)) = targets (leaves g t) /\ targets (leaves h (rename f t)) = sources_of (leaves g t)).
    { clear - LV. unfold sources_of, targets. induction LV as [|x y l l' (A & B & _) F (IH1 & IH2)]; [split; reflexivity|]. cbn [flat_map]. rewrite A, B, IH1, IH2. split; reflexivity. }
    destruct SW as (SW1 & SW2). rewrite SH', TH', SG, SW1, SW2. split; congruence.
Qed.
End T.
