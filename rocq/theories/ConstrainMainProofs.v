(** Proofs for Constrain.v: the forest which the parser builds, and all together. *)
From Coq Require Import String List ZArith Bool Lia Permutation.
From Verif Require PruneProofs PruneIOProofs LatticeSpec LatticeProofs ParserMainProofs.
From Verif Require Import Opt OptProofs HG Deriv TopoSpec Prune PruneSpec Rule RuleSpec RuleProofs Lattice Parser ParserSpec Constrain ConstrainSpec ConstrainProofs ConstrainRuleProofs ConstrainParseProofs.
Import ListNotations.
Open Scope opt_scope.
Local Open Scope nat_scope.

(** ** Distances *)
Section Dist.
Variable lat : list (list arc).
Variable dist : nat -> nat -> Z.
Hypothesis arcs : arcs_ok lat.
Hypothesis small : (Z.of_nat (length lat) < 99999998)%Z.
Hypothesis ds : distances lat dist.
Let ls := map (map (fun x => Z.of_nat (len x))) lat.
Let n := length lat.

Lemma ls_arc : forall i a x, arc_at lat i a x -> LatticeSpec.arc ls (Z.of_nat i) (Z.of_nat (i + len x)).
Proof.
  intros i a x (al & N & A). exists i, (map (fun x => Z.of_nat (len x)) al), (Z.of_nat (len x)). split; [unfold ls; rewrite nth_error_map, N; reflexivity|]. split; [apply in_map_iff; exists x; split; [reflexivity|exact (nth_error_In _ _ A)]|]. lia.
Qed.
Lemma ls_fwd : LatticeSpec.forward ls.
Proof.
  intros i j (k & alts & d & N & I & -> & ->). unfold ls in *. rewrite nth_error_map in N. destruct (nth_error lat k) as [al|] eqn:A; [|discriminate]. cbn in N. injection N as <-. apply in_map_iff in I as (x & <- & I). destruct (arcs k al x A I). rewrite map_length. lia.
Qed.
Lemma walk_cons : forall i l, LatticeSpec.arc ls i l -> forall j m, LatticeSpec.walk ls l j m -> LatticeSpec.walk ls i j (m + 1).
Proof.
  intros i l A j m W. induction W as [j B|k j m W IH B].
  - change (1 + 1)%Z with (1 + 1)%Z. apply LatticeSpec.walk_step with (l := l); [constructor; exact A|exact B].
  - apply LatticeSpec.walk_step with (l := k); assumption.
Qed.
Lemma path_walk : forall i j p ws, path lat i j p ws -> ws <> [] -> LatticeSpec.walk ls (Z.of_nat i) (Z.of_nat j) (Z.of_nat (length p)).
Proof.
  intros i j p ws P. induction P as [i|i a x j p ws AT P IH]; intros NE; [congruence|]. destruct ws as [|w ws].
  - inversion P; subst. constructor. exact (ls_arc _ _ _ AT).
  - cbn [length]. rewrite Nat2Z.inj_succ. apply (walk_cons _ _ (ls_arc _ _ _ AT)). apply IH. discriminate.
Qed.
Lemma walk_len : forall i j m, LatticeSpec.walk ls i j m -> (0 <= i /\ m <= j - i /\ j <= Z.of_nat n)%Z.
Proof.
  assert (AL : forall i j, LatticeSpec.arc ls i j -> (0 <= i /\ i < j <= Z.of_nat n)%Z). { intros i j A. pose proof (ls_fwd i j A) as B. unfold ls in B. rewrite map_length in B. destruct A as (k & _ & _ & _ & _ & -> & _). fold n in B. lia. }
  intros i j m W. induction W as [j A|l j m W IH A]; [apply AL in A; lia|]. apply AL in A. lia.
Qed.
Lemma dist_table : forall i j, i <= n -> j <= n -> i < j -> dist i j = Z.of_nat (j - i) \/ LatticeSpec.distance_of ls (Z.of_nat i) (Z.of_nat j) (dist i j).
Proof.
  intros i j I J L. destruct ds as [D|(d & C & D)]; [left; apply D; fold n; lia|]. right. destruct (LatticeProofs.distances ls ls_fwd) as (d' & C' & H); [unfold ls, kUNREACHABLE; rewrite map_length; lia|]. fold ls in C. rewrite C in C'. injection C' as <-.
  assert (LL : Z.of_nat (length ls) = Z.of_nat n) by (unfold ls; rewrite map_length; reflexivity).
  destruct (H (Z.of_nat i) (Z.of_nat j)) as (v & V & DV); [lia|lia|]. fold ls in D. rewrite (D i j I J) in V. injection V as ->. exact DV.
Qed.
Lemma span_path : forall i j p ws, path lat i j p ws -> ws <> [] -> text_span (Z.of_nat n + 1) i j (dist i j) = true.
Proof.
  intros i j p ws P NE. unfold text_span. apply Z.leb_le. destruct (path_le _ _ _ _ _ arcs P) as (L1 & L2 & L3 & _). specialize (L2 NE). specialize (L3 L2). fold n in L3. pose proof (path_walk _ _ _ _ P NE) as W. pose proof (walk_len _ _ _ W) as WL.
  destruct (dist_table i j ltac:(lia) ltac:(lia) L2) as [->|[(j' & J & (W' & MIN) & NO)|(NO & _)]]; [lia| |elim (NO (Z.of_nat j) ltac:(lia)); exists (Z.of_nat (length p)); exact W].
  apply walk_len in W'. lia.
Qed.
Lemma span_closed : prefix_closed n (text_span (Z.of_nat n + 1)) dist.
Proof.
  intros i j (L & J) H. unfold text_span in *. apply Z.leb_le in H. split; [apply Z.leb_le; lia|]. intros k K. apply Z.leb_le.
  destruct (dist_table i j ltac:(lia) J L) as [E|[(j' & JJ & (W' & _) & _)|(_ & E)]]; [| |rewrite E in H; unfold n in H; lia].
  - destruct (dist_table i k ltac:(lia) ltac:(lia) ltac:(lia)) as [->|[(k' & _ & (W & _) & _)|(NO & E2)]]; [lia|apply walk_len in W; lia|].
    destruct ds as [D|(d & C & D)]; [rewrite D by (fold n; lia); lia|]. 
    destruct (LatticeProofs.distances ls ls_fwd) as (d' & C' & HH); [unfold ls, kUNREACHABLE; rewrite map_length; lia|]. fold ls in C. rewrite C in C'. injection C' as <-.
    assert (LL : Z.of_nat (length ls) = Z.of_nat n) by (unfold ls; rewrite map_length; reflexivity).
    destruct (HH (Z.of_nat i) (Z.of_nat j)) as (v & V & DV); [lia|lia|]. fold ls in D. rewrite (D i j) in V by lia. injection V as <-. destruct DV as [(j' & JJ & (W & _) & _)|(_ & E3)]; [|unfold n in *; lia]. elim (NO j' ltac:(lia)). eexists; exact W.
  - destruct (dist_table i k ltac:(lia) ltac:(lia) ltac:(lia)) as [->|[(k' & _ & (W & _) & _)|(NO & _)]]; [lia|apply walk_len in W; lia|]. elim (NO j' ltac:(lia)). eexists; exact W'.
Qed.
End Dist.

(** ** The edges of the result *)
Lemma arcs_fill : forall sh ds st, fill_steps sh ds = Some st -> arcs_of sh = flat_map (fun x => match x with inl a => [a] | inr _ => [] end) st /\ ds = flat_map (fun x => match x with inl _ => [] | inr d => [d] end) st.
Proof.
  induction sh as [|[a|] sh IH]; intros [|d ds] st E; cbn [fill_steps] in E; try discriminate.
  - injection E as <-. split; reflexivity.
  - destruct (fill_steps sh []) as [st'|] eqn:F; [|discriminate]. injection E as <-. destruct (IH _ _ F) as (A & B). unfold arcs_of in *. cbn. rewrite A. split; [reflexivity|exact B].
  - destruct (fill_steps sh (d :: ds)) as [st'|] eqn:F; [|discriminate]. injection E as <-. destruct (IH _ _ F) as (A & B). unfold arcs_of in *. cbn. rewrite A. split; [reflexivity|exact B].
  - destruct (fill_steps sh ds) as [st'|] eqn:F; [|discriminate]. injection E as <-. destruct (IH _ _ F) as (A & B). unfold arcs_of in *. cbn. rewrite A. split; [reflexivity|]. rewrite <- B. reflexivity.
Qed.
Lemma all_some_iff : forall (A : Type) (l : list (option A)) r, all_some l = Some r -> l = map Some r.
Proof.
  induction l as [|[x|] l IH]; intros r E; cbn in E; try discriminate; [injection E as <-; reflexivity|]. destruct (all_some l) as [r'|]; [|discriminate]. injection E as <-. cbn. rewrite <- (IH r' eq_refl). reflexivity.
Qed.

Section Out.
Context {X : Type}.
Variables (h : hg (elab X)) (cats : list Z) (rs : list (irule X)) (top : irule X) (lat : list (list arc)) (arc_feats : nat * nat -> X).
Variables (pf : hg payload) (h' : hg (elab X)).
Hypothesis ro : rules_ok h.
Hypothesis wf : wf_hg h.
Hypothesis cats_len : length cats = length (nodes h).
Hypothesis cats_neg : forall c, In c cats -> (c < 0)%Z.
Hypothesis rs_ok : forall e ed, nth_error (edges h) e = Some ed -> exists q tn, nth_error rs e = Some q /\ inv_of cats e ed q tn.
Hypothesis out : map_opt (out_edge arc_feats (rs ++ [top])) (edges pf) = Some (edges h').
Hypothesis nds : nodes h' = nodes pf.
Notation pt := (pt h rs lat).
Notation ptw := (ptw h rs lat).

Lemma out_at : forall e ed, nth_error (edges pf) e = Some ed -> exists ed', nth_error (edges h') e = Some ed' /\ out_edge arc_feats (rs ++ [top]) ed = Some ed'.
Proof. intros e ed E. apply map_opt_iff in out. exact (F2_nth _ _ _ _ _ out _ _ E). Qed.
Lemma ptw_vars : forall ts e i j p st, ptw ts e i j p st ->
  Forall2 (fun c d => exists s i k p, nth_error ts (Z.to_nat (- c)) = Some s /\ pt s i k p d) (vars_of e) (flat_map (fun x => match x with inl _ => [] | inr d => [d] end) st) /\
  Forall2 (fun a w => exists x, arc_at lat (fst a) (snd a) x /\ label x = w) (flat_map (fun x => match x with inl a => [a] | inr _ => [] end) st) (words_of e).
Proof.
  intros ts e i j p st W. induction W as [ts i|ts w e i a x j p st PW AT LX W IH|ts c e i k j s d p1 p2 st C S PD W IH].
  - split; constructor.
  - destruct IH as (A & B). unfold vars_of, words_of in *. cbn. destruct (Z.ltb_spec w 1); [lia|]. destruct (Z.leb_spec 1 w); [|lia]. split; [exact A|]. constructor; [exists x; auto|exact B].
  - destruct IH as (A & B). unfold vars_of, words_of in *. cbn. destruct (Z.ltb_spec c 1); [|lia]. destruct (Z.leb_spec 1 c); [lia|]. split; [|exact B]. constructor; [|exact A]. exists s, i, k, p1. auto.
Qed.
Lemma trans_deriv : forall (g : hg (elab X)) t ws, translation g t = Some ws -> exists d, deriv_of g t = Some d.
Proof. intros g t ws T. unfold translation in T. destruct (deriv_of g t) as [d|]; [eauto|discriminate]. Qed.
Lemma F2_map_r : forall (A B C : Type) (R : A -> C -> Prop) (f : B -> C) l m, Forall2 (fun a b => R a (f b)) l m -> Forall2 R l (map f m).
Proof. intros A B C R f l m F. induction F; constructor; assumption. Qed.
Lemma nth_error_def : forall (A : Type) (l : list A) k x d, nth_error l k = Some x -> nth k l d = x.
Proof. intros. apply nth_error_nth. assumption. Qed.

Lemma out_tree : forall t' t i j p d, read pf t' = Some d -> pt t i j p d ->
  mirrors arc_feats lat h' h t' t /\
  forall n ws vs, derives h n t -> translation h t = Some ws -> source h t = Some vs -> source h' t' = Some ws /\ translation h' t' = Some vs.
Proof.
  intros t'. induction t' as [e' ts' IH] using tree_ind'. intros t i j p d RD PT. cbn [read] in RD. destruct (nth_error (edges pf) e') as [pe|] eqn:PE; [|discriminate].
  destruct (all_some (map (read pf) ts')) as [ds|] eqn:AS; [|discriminate]. destruct (fill_steps (p_feats (lab pe)) ds) as [st|] eqn:FS; [|discriminate]. cbn in RD. injection RD as <-.
  inversion PT as [e ed q ts ? ? ? ? E Q L PW T1 T2 T3 T4 (T5 & T6)]; subst. destruct (rs_ok e ed E) as (q' & tn & Q' & IO). assert (q' = q) by congruence. subst q'.
  destruct (out_at e' pe PE) as (oe & OE & OO). unfold out_edge, out_label in OO. rewrite <- T5, (io_rid _ _ _ _ _ IO) in OO. rewrite nth_error_app1 in OO by (apply nth_error_Some; congruence). rewrite Q in OO. cbn [bind] in OO. injection OO as <-.
  destruct (ptw_vars _ _ _ _ _ _ PW) as (V & A). destruct (arcs_fill _ _ _ FS) as (AR & DS). rewrite <- DS in V. rewrite <- AR in A. apply all_some_iff in AS.
  destruct (edge_facts h cats wf ro cats_len e ed E) as (TI & VI & ND & LV & ALL).
  assert (LD : length ds = length (tails ed)) by (rewrite <- (F2_len _ _ _ _ _ V); lia). assert (LT' : length ts' = length ds) by (rewrite <- (map_length (read pf)), AS; apply map_length).
  assert (SUB : forall m c, nth_error (vars_of (r_e (rule_ (lab ed)))) m = Some c -> exists s' s d i k p, nth_error ts' m = Some s' /\ In s' ts' /\ nth_error ts (Z.to_nat (- c)) = Some s /\ read pf s' = Some d /\ pt s i k p d).
  { intros m c C. destruct (F2_nth _ _ _ _ _ V m c C) as (d & D & s & i0 & k0 & p0 & S & PS). assert (ML : m < length ts') by (rewrite LT'; apply nth_error_Some; congruence). apply nth_error_Some in ML. destruct (nth_error ts' m) as [s'|] eqn:S'; [|congruence].
    exists s', s, d, i0, k0, p0. split; [reflexivity|]. split; [exact (nth_error_In _ _ S')|]. split; [exact S|]. split; [|exact PS].
    assert (X1 : nth_error (map (read pf) ts') m = Some (read pf s')) by (rewrite nth_error_map, S'; reflexivity). rewrite AS, nth_error_map, D in X1. cbn in X1. congruence. }
  rewrite Forall_forall in IH. split.
  - eapply mir; [exact OE|exact E|cbn; exact (io_parent _ _ _ _ _ IO)|cbn; rewrite (io_feats _ _ _ _ _ IO); reflexivity|exact A|cbn; exact (io_pi _ _ _ _ _ IO)|cbn; exact (io_pj _ _ _ _ _ IO)|lia|lia|].
    intros m c C. destruct (SUB m c C) as (s' & s & d & i0 & k0 & p0 & S' & I' & S & R & PS). exists s', s. split; [exact S'|]. split; [exact S|]. exact (proj1 (IH s' I' s i0 k0 p0 d R PS)).
  - intros n ws vs D T SR. inversion D as [? nd ? ed' ? N I E' F]; subst. assert (ed' = ed) by congruence. subst ed'.
    apply (translation_tree h e ed ts ws E ro L) in T as (ys & FY & _ & ->). apply (source_tree h e ed ts vs E) in SR as (zs & FZ & _ & SO).
    pose proof (F2_len _ _ _ _ _ FY) as LY. pose proof (F2_len _ _ _ _ _ FZ) as LZ.
    set (vr := vars_of (r_e (rule_ (lab ed)))) in *.
    assert (YI : forall m c, nth_error vr m = Some c -> exists s' y z, nth_error ts' m = Some s' /\ nth_error ys (Z.to_nat (- c)) = Some y /\ nth_error zs (Z.to_nat (- c)) = Some z /\ source h' s' = Some y /\ translation h' s' = Some z).
    { intros m c C. destruct (SUB m c C) as (s' & s & d & i0 & k0 & p0 & S' & I' & S & R & PS). destruct (F2_nth _ _ _ _ _ FY _ _ S) as (y & Y & TY). destruct (F2_nth _ _ _ _ _ FZ _ _ S) as (z & Z & SZ). destruct (F2_nth_r _ _ _ _ _ F _ _ S) as (n' & _ & D').
      destruct (proj2 (IH s' I' s i0 k0 p0 d R PS) n' y z D' TY SZ) as (A1 & A2). exists s', y, z. auto. }
    assert (BY : Forall2 (fun t y => source h' t = Some y) ts' (map (fun c => nth (Z.to_nat (- c)) ys []) vr)).
    { apply F2_map_r. apply F2_build; [lia|]. intros m s' c S' C. destruct (YI m c C) as (s2 & y & z & S2 & Y & _ & SY & _). rewrite (nth_error_def _ _ _ _ [] Y). congruence. }
    assert (BZ : Forall2 (fun t y => translation h' t = Some y) ts' (map (fun c => nth (Z.to_nat (- c)) zs []) vr)).
    { apply F2_map_r. apply F2_build; [lia|]. intros m s' c S' C. destruct (YI m c C) as (s2 & y & z & S2 & _ & Z & _ & TZ). rewrite (nth_error_def _ _ _ _ [] Z). congruence. }
    assert (DD : exists ds, map_opt (deriv_of h') ts' = Some ds).
    { apply map_opt_all. intros s' I'. apply In_nth_error in I' as (m & S'). destruct (F2_nth _ _ _ _ _ BZ m s' S') as (z & _ & TZ). exact (trans_deriv _ _ _ TZ). }
    split.
    + apply (source_tree h' e' _ ts' _ OE). eexists. split; [exact BY|]. split; [exact DD|]. cbn [lab rule_ r_f]. rewrite (io_rf _ _ _ _ _ IO). apply sym_source; assumption.
    + apply (translation_node h' e' _ ts' _ OE). eexists. split; [exact BZ|]. split; [exact DD|]. cbn [lab rule_ r_e]. rewrite (io_e _ _ _ _ _ IO).
      pose proof (io_tn _ _ _ _ _ IO) as LTN. pose proof (io_neg _ _ _ _ _ IO) as NEG. destruct (ro e ed E) as (W & LF & _).
      assert (PL : forall k, k < length tn -> exists m, nth_error vr m = Some (- Z.of_nat k)%Z /\ nth_error tn k = Some (- Z.of_nat m)%Z).
      { intros k K. destruct (In_nth_error _ _ (ALL k ltac:(lia))) as (m & M). exists m. split; [exact M|]. pose proof (io_at _ _ _ _ _ IO m _ M) as H. replace (Z.to_nat (- - Z.of_nat k)) with k in H by lia. exact H. }
      apply esub_iff. rewrite back_vars by (auto; lia). rewrite map_length. split; [lia|]. split.
      * intros v V1. apply In_nth_error in V1 as (k & K). destruct (PL k) as (m & M & TM); [apply nth_error_Some; congruence|]. rewrite K in TM. injection TM as ->. rewrite Z.opp_involutive, Nat2Z.id. apply nth_error_Some. congruence.
      * symmetry. apply (back_target _ _ tn zs vs SO NEG). apply F2_build; [lia|]. intros k v z K Z. destruct (PL k) as (m & M & TM); [apply nth_error_Some; congruence|]. rewrite K in TM. injection TM as ->. rewrite Z.opp_involutive, Nat2Z.id.
        rewrite (nth_error_def _ (map (fun c => nth (Z.to_nat (- c)) zs []) vr) m (nth k zs []) []); [exact (nth_error_def _ _ _ _ [] Z)|]. rewrite nth_error_map, M. cbn. do 2 f_equal. lia.
Qed.
(** The same derivations. *)
Lemma out_derives : forall t n, derives h' n t <-> derives pf n t.
Proof.
  intros t. induction t as [e ts IH] using tree_ind'. rewrite Forall_forall in IH. pose proof (proj1 (map_opt_iff _ _ _ _ _) out) as FO.
  intros n. split; intros D; inversion D as [? nd ? ed ? N I E F]; subst.
  - destruct (F2_nth_r _ _ _ _ _ FO _ _ E) as (pe & PE & OO). unfold out_edge in OO. destruct (out_label arc_feats (rs ++ [top]) (lab pe)) as [l|]; [|discriminate]. cbn in OO. injection OO as <-. cbn in F.
    econstructor; [rewrite <- nds; exact N|exact I|exact PE|]. eapply ParserMainProofs.Forall2_in2; [|exact F]. intros a b _ B DB. apply IH; assumption.
  - destruct (out_at e ed E) as (oe & OE & OO). unfold out_edge in OO. destruct (out_label arc_feats (rs ++ [top]) (lab ed)) as [l|]; [|discriminate]. cbn in OO. injection OO as <-.
    econstructor; [rewrite nds; exact N|exact I|exact OE|]. cbn. eapply ParserMainProofs.Forall2_in2; [|exact F]. intros a b _ B DB. apply IH; assumption.
Qed.
Lemma out_wf : wf_hg pf -> wf_hg h'.
Proof.
  intros W. pose proof (proj1 (map_opt_iff _ _ _ _ _) out) as FO.
  assert (BK : forall e ed, nth_error (edges h') e = Some ed -> exists pe, nth_error (edges pf) e = Some pe /\ head ed = head pe /\ tails ed = tails pe /\ eid ed = eid pe).
  { intros e ed E. destruct (F2_nth_r _ _ _ _ _ FO _ _ E) as (pe & PE & OO). unfold out_edge in OO. destruct (out_label arc_feats (rs ++ [top]) (lab pe)) as [l|]; [|discriminate]. cbn in OO. injection OO as <-. exists pe. auto. }
  assert (FW : forall e pe, nth_error (edges pf) e = Some pe -> exists ed, nth_error (edges h') e = Some ed /\ head ed = head pe).
  { intros e pe E. destruct (out_at e pe E) as (oe & OE & OO). unfold out_edge in OO. destruct (out_label arc_feats (rs ++ [top]) (lab pe)) as [l|]; [|discriminate]. cbn in OO. injection OO as <-. eexists. split; [exact OE|reflexivity]. }
  assert (LE : length (edges h') = length (edges pf)) by (symmetry; exact (F2_len _ _ _ _ _ FO)).
  constructor; rewrite ?nds, ?LE.
  - exact (wf_nid _ W).
  - intros e ed E. destruct (BK e ed E) as (pe & PE & _ & _ & ->). exact (wf_eid _ W e pe PE).
  - intros n nd e N I. destruct (wf_in _ W n nd e N I) as (pe & PE & HD). destruct (FW e pe PE) as (ed & E & H). exists ed. split; [exact E|congruence].
  - exact (wf_nodup _ W).
  - exact (wf_out _ W).
  - intros e ed t E T. destruct (BK e ed E) as (pe & PE & _ & TL & _). rewrite TL in T. exact (wf_tails _ W e pe t PE T).
  - intros e ed E. destruct (BK e ed E) as (pe & PE & -> & _). exact (wf_head _ W e pe PE).
Qed.
Lemma out_topo : topo pf -> topo h'.
Proof.
  intros T n nd N. rewrite nds in N. destruct (T n nd N) as (ND & A). split; [exact ND|]. intros e I. destruct (A e I) as (pe & PE & B). destruct (out_at e pe PE) as (oe & OE & OO).
  unfold out_edge in OO. destruct (out_label arc_feats (rs ++ [top]) (lab pe)) as [l|]; [|discriminate]. cbn in OO. injection OO as <-. eexists. split; [exact OE|exact B].
Qed.
End Out.

(** ** Renamed derivations *)
Section Ren.
Context {X : Type}.
Variables g h : hg (elab X).
Variable f : nat -> nat.
Definition same_labels (t : tree) : Prop := forall e, In e (tree_edges t) -> exists ed ed', nth_error (edges g) e = Some ed /\ nth_error (edges h) (f e) = Some ed' /\ lab ed' = lab ed.
Lemma same_kids : forall e ts, same_labels (Tree e ts) -> forall t, In t ts -> same_labels t.
Proof. intros e ts S t T x I. apply S. cbn [tree_edges]. apply in_or_app. left. apply in_flat_map. exists t. auto. Qed.
Lemma deriv_rename : forall t, same_labels t -> deriv_of h (rename f t) = deriv_of g t.
Proof.
  intros t. induction t as [e ts IH] using tree_ind'. intros S. cbn [rename deriv_of]. destruct (S e) as (ed & ed' & E & E' & L); [cbn [tree_edges]; apply in_or_app; right; left; reflexivity|]. rewrite E, E'. cbn [bind]. rewrite L.
  assert (M : map_opt (deriv_of h) (map (rename f) ts) = map_opt (deriv_of g) ts); [|rewrite M; reflexivity].
  pose proof (same_kids e ts S) as K. clear - IH K. induction ts as [|t ts IHt]; [reflexivity|]. inversion IH as [|? ? H1 H2]; subst. cbn [map map_opt]. rewrite H1 by (apply K; left; reflexivity). rewrite IHt; [reflexivity|exact H2|]. intros x I. apply K. right; exact I.
Qed.
Lemma mirrors_rename : forall af lat h' t t', same_labels t -> mirrors af lat h' h t' (rename f t) -> mirrors af lat h' g t' t.
Proof.
  intros af lat h' t. induction t as [e ts IH] using tree_ind'. intros t' S M. rewrite Forall_forall in IH. pose proof (same_kids e ts S) as K.
  destruct (S e) as (ed & ed1 & E & E1 & L); [cbn [tree_edges]; apply in_or_app; right; left; reflexivity|]. cbn [rename] in M. inversion M as [e' ed' ts' ? ed2 ? arcs EE' E2 PA FE FA PI PJ L1 L2 SUB T1 (T2 & T3)]; subst.
  assert (ed2 = ed1) by congruence. subst ed2. rewrite L in *. rewrite map_length in *. eapply mir; [exact EE'|exact E|exact PA|exact FE|exact FA|exact PI|exact PJ|exact L1|exact L2|].
  intros m c C. destruct (SUB m c C) as (s' & s & S' & SS & MM). rewrite nth_error_map in SS. destruct (nth_error ts (Z.to_nat (- c))) as [u|] eqn:U; [|discriminate]. cbn in SS. injection SS as <-. exists s', u. split; [exact S'|]. split; [reflexivity|].
  apply IH; [exact (nth_error_In _ _ U)|apply K; exact (nth_error_In _ _ U)|exact MM].
Qed.
End Ren.
