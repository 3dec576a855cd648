(** Proofs for Constrain.v: the general case. *)
From Coq Require Import String List ZArith Bool Lia Permutation.
From Verif Require PruneProofs PruneIOProofs ParserMainProofs.
From Verif Require Import Opt OptProofs HG Deriv TopoSpec Prune PruneSpec Rule RuleSpec RuleProofs Lattice Parser ParserSpec Constrain ConstrainSpec ConstrainProofs ConstrainRuleProofs ConstrainParseProofs ConstrainMainProofs.
Import ListNotations.
Open Scope opt_scope.
Local Open Scope nat_scope.

Lemma path_sentence : forall w0 i j p ws, path (sentence w0) i j p ws -> j = length w0 -> i <= j -> ws = skipn i w0.
Proof.
  intros w0 i j p ws P. induction P as [i|i a x j p ws AT P IH]; intros J L; [subst i; rewrite skipn_all; reflexivity|].
  destruct AT as (al & N & A). rewrite nth_sentence in N. destruct (nth_error w0 i) as [w|] eqn:W; [|discriminate]. cbn in N. injection N as <-. destruct a as [|[|a]]; try discriminate. injection A as <-. cbn [label len] in *.
  assert (LI : i < length w0) by (apply nth_error_Some; congruence). rewrite IH by lia. replace (i + 1) with (S i) by lia. clear - W. revert w0 W. induction i as [|i IHi]; intros [|y w0] W; try discriminate; [injection W as ->; reflexivity|]. exact (IHi w0 W).
Qed.
Lemma tree_edge : forall (P : Type) (g : hg P) t n, derives g n t -> forall e, In e (tree_edges t) -> exists ed, nth_error (edges g) e = Some ed.
Proof.
  intros P g t. induction t as [e0 ts IH] using tree_ind'. intros n D e I. inversion D as [? nd ? ed ? N J E F]; subst. cbn [tree_edges] in I. apply in_app_or in I as [I|[<-|[]]]; [|eauto].
  apply in_flat_map in I as (t & T & I). apply In_nth_error in T as (k & T). destruct (F2_nth_r _ _ _ _ _ F _ _ T) as (m & _ & DM). rewrite Forall_forall in IH. exact (IH t (nth_error_In _ _ T) m DM e I).
Qed.
Lemma tree_linked : forall (P : Type) (g : hg P), wf_hg g -> forall t n, derives g n t -> forall e ed h, In e (tree_edges t) -> nth_error (edges g) e = Some ed -> head ed = Some h -> exists nd, nth_error (nodes g) h = Some nd /\ In e (in_edges nd).
Proof.
  intros P g W t. induction t as [e0 ts IH] using tree_ind'. intros n D e ed h I E H. inversion D as [? nd ? ed0 ? N J E0 F]; subst. cbn [tree_edges] in I. apply in_app_or in I as [I|[<-|[]]].
  - apply in_flat_map in I as (t & T & I). apply In_nth_error in T as (k & T). destruct (F2_nth_r _ _ _ _ _ F _ _ T) as (m & _ & DM). rewrite Forall_forall in IH. exact (IH t (nth_error_In _ _ T) m DM e ed h I E H).
  - destruct (wf_in g W n nd e0 N J) as (ed1 & E1 & H1). assert (ed1 = ed) by congruence. subst ed1. assert (h = n) by congruence. subst h. eauto.
Qed.
Lemma index_of : forall (cats : list Z), (forall i j c, nth_error cats i = Some c -> nth_error cats j = Some c -> i = j) -> exists rank : Z -> nat, forall n c, nth_error cats n = Some c -> rank c = n.
Proof.
  intros cats INJ. exists (fun c => match List.find (fun k => Z.eqb (nth k cats 0%Z) c) (seq 0 (length cats)) with Some k => k | None => 0 end). intros n c N.
  assert (L : n < length cats) by (apply nth_error_Some; congruence). destruct (List.find _ _) as [k|] eqn:F.
  - apply find_some in F as (K & E). apply in_seq in K. apply Z.eqb_eq in E. destruct (nth_error cats k) as [x|] eqn:KX; [|apply nth_error_None in KX; lia]. rewrite (nth_error_nth _ _ _ KX) in E. subst x. exact (INJ _ _ _ KX N).
  - pose proof (find_none _ _ F n ltac:(apply in_seq; lia)) as H. cbn in H. rewrite (nth_error_nth _ _ _ N), Z.eqb_refl in H. discriminate.
Qed.

Section G.
Context {X : Type}.
Variable conv : string -> Z.
Variable str : Z -> string.
Variable arc_feats : nat * nat -> X.
Hypothesis conv_inj : forall a b, conv a = conv b -> a = b.
Hypothesis conv_pos : forall a, (0 < conv a)%Z.
Variable target : list (list arc).
Variable dist : nat -> nat -> Z.
Variable g : hg (elab X).
Hypothesis wf : wf_hg g.
Hypothesis tp : topo g.
Hypothesis ne : nodes g <> [].
Hypothesis ro : rules_ok g.
Hypothesis nodel : no_deletion g.
Hypothesis arcs : arcs_ok target.
Hypothesis full : forall i alt, nth_error target i = Some alt -> alt <> [].
Hypothesis words : forall p a x, arc_at target p a x -> (0 < label x)%Z /\ label x <> kEPS conv.
Hypothesis kind : (exists ws, target = sentence ws /\ (Z.of_nat (length ws) <= 9999)%Z) \/ exists i alt, nth_error target i = Some alt /\ 1 < length alt.
Hypothesis small : (Z.of_nat (length target) < 99999998)%Z.
Hypothesis dst : distances target dist.
Let n := length target.

Lemma filter_ok : exists fl, RuleFilter (conv "<s>") target 9999 = Some fl /\
  forall t p ws, derives g (goal g) t -> translation g t = Some ws -> path target 0 n p ws -> avoids (map (fun ed => filter_rule fl (r_e (rule_ (lab ed)))) (edges g)) t.
Proof.
  destruct kind as [(w0 & E & L)|TW].
  - destruct (filter_sentence (conv "<s>") w0 L) as (ps & F & A). exists (ps, false). split; [rewrite E; exact F|]. intros t p ws D T P. unfold n in P. rewrite E in P. pose proof (path_sentence w0 0 _ p ws P) as EW.
    unfold sentence in EW at 1. rewrite map_length in EW. specialize (EW eq_refl ltac:(unfold sentence; lia)). cbn [skipn] in EW. subst ws. unfold avoids. apply Forall_forall. intros e I. destruct (tree_edge _ g t _ D e I) as (ed & N). rewrite nth_error_map, N. cbn [option_map]. f_equal. cbn.
    apply all_there. intros a IA NA PA. apply A; [|exact NA]. exact (run_infix X g ro t _ w0 D T e ed a I N IA PA).
  - destruct (filter_lattice (conv "<s>") target full TW) as (ps & F). exists (ps, true). split; [exact F|]. intros t p ws D T P. unfold avoids. apply Forall_forall. intros e I. destruct (tree_edge _ g t _ D e I) as (ed & N). rewrite nth_error_map, N. reflexivity.
Qed.

Theorem general_ok : exists ok h, IntersectGeneral conv str arc_feats target dist g = Some (ok, h) /\
  (ok = true <-> exists t p ws, derives g (goal g) t /\ translation g t = Some ws /\ path target 0 n p ws) /\
  (ok = true -> wf_hg h /\ topo h /\ constrained arc_feats target g h).
Proof.
  destruct filter_ok as (fl & FE & AV). unfold IntersectGeneral. rewrite FE. cbn [bind]. set (mask := map _ (edges g)) in *.
  assert (LM : length mask = length (edges g)) by apply map_length.
  destruct (PruneIOProofs.prune_all g wf tp ne mask true LM) as (h & PE & WH & TH & (f & C1 & C2 & C3) & _ & NDP & NONE). rewrite PE.
  assert (ROH : rules_ok h). { intros e ed E. destruct (prune_edge _ g h mask true wf ne PE e ed E) as (e0 & ed0 & E0 & L & TL). rewrite L, TL. exact (ro e0 ed0 E0). }
  assert (NDH : no_deletion h). { intros e ed E. destruct (prune_edge _ g h mask true wf ne PE e ed E) as (e0 & ed0 & E0 & L & TL). rewrite L. exact (nodel e0 ed0 E0). }
  pose proof (prune_nodes _ g h mask true wf ne PE) as NNE.
  assert (LK : forall e ed n, nth_error (edges h) e = Some ed -> head ed = Some n -> exists nd, nth_error (nodes h) n = Some nd /\ In e (in_edges nd)).
  { intros e ed n0 E H. assert (DEC : (exists t, derives g (goal g) t /\ avoids mask t) \/ forall t, derives g (goal g) t -> ~ avoids mask t).
    { destruct (PruneProofs.reachable_ok g wf tp mask LM) as (sc & R & LS & V). destruct (V (goal g)) as ([|] & _ & B).
      - unfold goal. assert (length (nodes g) <> 0) by (destruct (nodes g); [congruence|discriminate]). lia.
      - left. apply B. reflexivity.
      - right. intros t D A. assert (false = true) by (apply B; eauto). discriminate. }
    destruct DEC as [EX|NX]; [|rewrite (NONE eq_refl NX) in E; destruct e; discriminate].
    destruct (proj1 (NDP eq_refl EX) e) as (t & D & I); [apply nth_error_Some; congruence|]. exact (tree_linked _ h WH t _ D e ed n0 I E H). }
  set (cats := cats_of conv str (nodes h)).
  assert (CL : length cats = length (nodes h)) by apply cats_len.
  assert (CN : forall c, In c cats -> (c < 0)%Z) by (intros c I; apply In_nth_error in I as (k & K); exact (cats_neg conv str conv_pos _ _ _ K)).
  assert (CI : forall i j c, nth_error cats i = Some c -> nth_error cats j = Some c -> i = j) by (intros i j c; exact (cats_inj conv str conv_inj _ i j c)).
  destruct (invert_all_ok X cats h CN CL WH ROH) as (rs & RS & LR & RO'). rewrite RS. cbn [bind].
  assert (GL : length cats - 1 < length cats) by (rewrite CL; destruct (nodes h); [congruence|cbn; lia]).
  destruct (nth_error cats (length cats - 1)) as [ng|] eqn:NG; [|apply nth_error_None in NG; lia]. cbn [bind].
  set (top := goal_irule conv (length (edges h)) ng).
  pose (hs := text_span (Z.of_nat n + 1)). pose (rgs := [(map ir rs, hs)]).
  assert (AR : all_rules rgs = map ir rs) by (unfold all_rules, rgs; cbn; apply app_nil_r).
  assert (AU : all_unaries rgs = filter IsUnary (map ir rs)) by (unfold all_unaries; rewrite AR; reflexivity).
  assert (FROM := rule_from h cats rs LR RO').
  assert (RULE : forall r, In r (all_rules rgs) -> wf_rule r /\ lhs r <> kGOAL conv).
  { rewrite AR. intros r I. destruct (FROM r I) as (e & ed & q & tn & E & Q & <- & IO). destruct (io_lhs _ _ _ _ _ IO) as (hh & HD & CH). destruct (edge_facts h cats WH ROH CL e ed E) as (TI & VI & _).
    split; [|exact (cats_goal conv str conv_inj _ _ _ CH)]. split; [exact (CN _ (nth_error_In _ _ CH))|]. rewrite (io_ar _ _ _ _ _ IO), (io_rf _ _ _ _ _ IO). destruct (sym_vars cats (tails ed) TI CN (r_e (rule_ (lab ed))) VI) as (-> & _). rewrite map_length. reflexivity. }
  assert (NDR : NoDup (all_rules rgs)).
  { rewrite AR. apply NoDup_nth_error. intros i j LI EQ. rewrite map_length, LR in LI. apply nth_error_Some in LI. destruct (nth_error (edges h) i) as [ed|] eqn:E; [|congruence]. destruct (RO' i ed E) as (q & tn & Q & IO).
    rewrite !nth_error_map, Q in EQ. destruct (nth_error rs j) as [q'|] eqn:Q'; [|discriminate]. cbn in EQ. injection EQ as EQ. assert (LJ : j < length (edges h)) by (rewrite <- LR; apply nth_error_Some; congruence). apply nth_error_Some in LJ.
    destruct (nth_error (edges h) j) as [ed'|] eqn:E'; [|congruence]. destruct (RO' j ed' E') as (q2 & tn' & Q2 & IO'). assert (q2 = q') by congruence. subst q2. rewrite <- (io_rid _ _ _ _ _ IO), <- (io_rid _ _ _ _ _ IO'). congruence. }
  assert (GNE : ng <> kGOAL conv) by exact (cats_goal conv str conv_inj _ _ _ NG).
  assert (PC : forall rs0 hs0, In (rs0, hs0) rgs -> prefix_closed (length target) hs0 dist) by (intros rs0 hs0 [[= <- <-]|[]]; exact (span_closed target dist arcs small dst)).
  assert (UN : forall r c, In r (all_unaries rgs) -> rf r = [c] -> exists x m, nth_error cats x = Some c /\ nth_error cats m = Some (lhs r) /\ x < m /\ m < length cats).
  { rewrite AU. intros r c I RF. apply filter_In in I as (I & U). destruct (FROM r I) as (e & ed & q & tn & E & Q & <- & IO). destruct (edge_facts h cats WH ROH CL e ed E) as (TI & VI & _).
    destruct (proj1 (unary_var h cats rs CL LR e ed q tn E IO) U) as (c0 & C0 & RE). destruct (unary_zero h cats rs ROH CL LR e ed c0 E C0 RE) as (-> & L1). destruct (sym_neg h cats rs CL CN LR (tails ed) 0%Z TI C0 ltac:(cbn; lia)) as (_ & x & XN & XC).
    rewrite (io_rf _ _ _ _ _ IO), RE in RF. cbn [map] in RF. injection RF as RF. rewrite RF in XC. destruct (io_lhs _ _ _ _ _ IO) as (m & HD & CM). exists x, m. split; [exact XC|]. split; [exact CM|]. split; [|apply nth_error_Some; congruence].
    destruct (LK e ed m E HD) as (nd & N & IE). destruct (proj2 (TH m nd N) e IE) as (ed2 & E2 & LT). assert (ed2 = ed) by congruence. subst ed2. apply LT. exact (nth_error_In _ _ XN). }
  assert (AC : acyclic (all_unaries rgs)). { destruct (index_of cats CI) as (rank & RK). exists rank. intros r c I RF. destruct (UN r c I RF) as (x & m & XC & MC & L & _). rewrite (RK _ _ XC), (RK _ _ MC). exact L. }
  assert (NGU : forall r, In r (all_unaries rgs) -> rf r <> [ng]). { intros r I RF. destruct (UN r ng I RF) as (x & m & XC & MC & L & L2). pose proof (CI _ _ _ XC NG). lia. }
  destruct (ParserMainProofs.parser_all (kGOAL conv) (kEPS conv) target dist ng (ir top) rgs arcs RULE NDR eq_refl GNE PC AC NGU) as (ok & pf & PP & OK & RES).
  pose proof (ParserMainProofs.parser_rules (kGOAL conv) (kEPS conv) target dist ng (ir top) rgs arcs RULE NDR eq_refl GNE) as EDR.
  change [load_grammar (text_span (Z.of_nat (length target) + 1)) (map ir rs)] with (load_all rgs). rewrite PP. cbn [bind].
  change (at_spans dist rgs) with [(map ir rs, fun i j => hs i j (dist i j))] in OK, RES. rewrite AU in OK, RES.
  assert (NOE : forall p a x, arc_at target p a x -> label x <> kEPS conv) by (intros p a x A; exact (proj2 (words p a x A))).
  assert (POS : forall p a x, arc_at target p a x -> (0 < label x)%Z) by (intros p a x A; exact (proj1 (words p a x A))).
  assert (SP : forall i j p ws, path target i j p ws -> ws <> [] -> hs i j (dist i j) = true) by (intros i j p ws; exact (span_path target dist arcs small dst i j p ws)).
  pose proof (to_parse h cats rs target (kEPS conv) (fun i j => hs i j (dist i j)) WH ROH NDH CL LR RO' arcs NOE SP) as TOP.
  pose proof (proj1 (from_parse h cats rs target (kEPS conv) (fun i j => hs i j (dist i j)) WH LK ROH CL CN CI LR RO' NOE POS)) as FROMP.
  assert (GC : length cats - 1 = goal h) by (unfold goal; rewrite CL; reflexivity).
  assert (SL : forall t, derives g (goal g) t -> avoids mask t -> same_labels g h f t) by (intros t D A e I; exact (C3 t e D A I)).
  assert (TR : forall t, derives g (goal g) t -> avoids mask t -> translation h (rename f t) = translation g t /\ source h (rename f t) = source g t) by (intros t D A; unfold translation, source; rewrite (deriv_rename g h f t (SL t D A)); auto).
  (* derivations with paths, and parses *)
  assert (TO : forall t p ws, derives g (goal g) t -> translation g t = Some ws -> path target 0 n p ws -> exists d, pt h rs target (rename f t) 0 n p d /\ parses (kEPS conv) target [(map ir rs, fun i j => hs i j (dist i j))] (filter IsUnary (map ir rs)) d 0 n ng).
  { intros t p ws D T P. pose proof (AV t p ws D T P) as A. destruct (TOP (rename f t) (goal h) ws 0 n p) as (d & c & PT & CC & PS); [apply C1; exists t; auto|rewrite (proj1 (TR t D A)); exact T|exact P|]. rewrite <- GC, NG in CC. injection CC as <-. exists d. auto. }
  assert (BACK : forall d, parses (kEPS conv) target [(map ir rs, fun i j => hs i j (dist i j))] (filter IsUnary (map ir rs)) d 0 n ng -> exists t p ws, derives g (goal g) t /\ avoids mask t /\ translation g t = Some ws /\ path target 0 n p ws /\ pt h rs target (rename f t) 0 n p d).
  { intros d PS. destruct (FROMP d 0 n ng PS) as (m & t1 & p & CM & D1 & PT). assert (m = goal h) by (rewrite <- GC; exact (CI _ _ _ CM NG)). subst m. destruct (proj1 (C1 t1) D1) as (t & D & A & ->).
    destruct (derives_yield g ro t _ D) as (ws & vs & TW & _). exists t, p, ws. split; [exact D|]. split; [exact A|]. split; [exact TW|]. split; [|exact PT]. apply (proj1 (pt_path h cats rs target ROH CL LR) _ _ _ _ _ PT (goal h)); [exact D1|rewrite (proj1 (TR t D A)); exact TW]. }
  destruct ok; cycle 1.
  { exists false, h. split; [reflexivity|]. split; [|discriminate]. split; [discriminate|]. intros (t & p & ws & D & T & P). destruct (TO t p ws D T P) as (d & _ & PS). apply OK. exists d. exact PS. }
  destruct (RES eq_refl) as (TPF & WPF & (O1 & O2 & O3)). clear RES.
  assert (OUT : exists es, map_opt (out_edge arc_feats (rs ++ [top])) (edges pf) = Some es).
  { apply map_opt_all. intros ed I. apply In_nth_error in I as (e & E). unfold out_edge, out_label.
    assert (RI : exists q, nth_error (rs ++ [top]) (rid (p_rule (lab ed))) = Some q).
    { destruct (EDR pf PP e ed E) as [->|IR]; [exists top; cbn; rewrite <- LR, nth_error_app2, Nat.sub_diag by lia; reflexivity|]. rewrite AR in IR. destruct (FROM _ IR) as (e0 & ed0 & q & tn & E0 & Q & <- & IO). exists q. rewrite (io_rid _ _ _ _ _ IO). rewrite nth_error_app1; [exact Q|apply nth_error_Some; congruence]. }
    destruct RI as (q & ->). cbn [bind]. eexists; reflexivity. }
  destruct OUT as (es & OUT). rewrite OUT. cbn [bind]. set (h' := {| nodes := nodes pf; edges := es |}). exists true, h'. split; [reflexivity|]. split.
  { split; [|reflexivity]. intros _. destruct (proj1 OK eq_refl) as (d & PS). destruct (BACK d PS) as (t & p & ws & D & _ & T & P & _). exists t, p, ws. auto. }
  intros _. change es with (edges h') in OUT. split; [exact (out_wf rs top arc_feats pf h' OUT eq_refl WPF)|]. split; [exact (out_topo rs top arc_feats pf h' OUT eq_refl TPF)|].
  assert (GH : goal h' = length (nodes pf) - 1) by reflexivity.
  assert (DH : forall t m, derives h' m t <-> derives pf m t) by exact (out_derives rs top arc_feats pf h' OUT eq_refl).
  exists (fun t' t p => derives h' (goal h') t' /\ derives g (goal g) t /\ avoids mask t /\ exists d, read pf t' = Some (PT (ir top) [inr d]) /\ pt h rs target (rename f t) 0 n p d).
  split; [|split; [|split; [|split]]].
  - intros t' D'. rewrite DH, GH in D'. destruct (O1 t' D') as (d & RD & PS). destruct (BACK d PS) as (t & p & ws & D & A & T & P & PT). exists t, p. split; [rewrite DH, GH; exact D'|]. split; [exact D|]. split; [exact A|]. exists d. auto.
  - intros t p ws D T P. destruct (TO t p ws D T P) as (d & PT & PS). destruct (O2 d PS) as (t' & D' & RD). exists t'. split; [rewrite DH, GH; exact D'|]. split; [exact D|]. split; [exact (AV t p ws D T P)|]. exists d. auto.
  - intros t' t p (D' & D & A & d & RD & PT). split; [exact D'|]. split; [exact D|]. rewrite DH, GH in D'.
    destruct t' as [e ts']. cbn [read] in RD. destruct (nth_error (edges pf) e) as [pe|] eqn:E; [|discriminate]. destruct (all_some (map (read pf) ts')) as [ds|] eqn:AS; [|discriminate]. destruct (fill_steps (p_feats (lab pe)) ds) as [st|] eqn:FS; [|discriminate]. cbn in RD. injection RD as RR ->.
    destruct (arcs_fill _ _ _ FS) as (AA & DD). cbn in AA, DD. subst ds. apply all_some_iff in AS. destruct ts' as [|s' [|? ?]]; try discriminate. cbn in AS. injection AS as RS'.
    destruct (out_at rs top arc_feats pf h' OUT e pe E) as (oe & OE & OO). unfold out_edge, out_label in OO. rewrite RR in OO. cbn [ir top goal_irule rid] in OO. rewrite <- LR, nth_error_app2, Nat.sub_diag in OO by lia. cbn [nth_error bind] in OO. injection OO as <-.
    destruct (out_tree h cats rs top target arc_feats pf h' ROH WH CL CN RO' OUT s' _ _ _ _ _ RS' PT) as (MI & YI).
    pose proof (proj2 (C1 _) (ex_intro _ t (conj D (conj A eq_refl)))) as DR. destruct (derives_yield g ro t _ D) as (ws & vs & TW & SV). destruct (TR t D A) as (T1 & T2).
    destruct (YI (goal h) ws vs DR ltac:(congruence) ltac:(congruence)) as (Y1 & Y2).
    split. { exists e, s'; eexists. split; [reflexivity|]. split; [exact OE|]. cbn. rewrite AA. repeat (split; [reflexivity|]). exact (mirrors_rename g h f arc_feats target h' t s' (SL t D A) MI). }
    exists ws, vs. split; [apply (proj1 (pt_path h cats rs target ROH CL LR) _ _ _ _ _ PT (goal h)); [exact DR|congruence]|]. split; [exact TW|].
    assert (DD : exists ds, map_opt (deriv_of h') [s'] = Some ds). { destruct (trans_deriv h' s' vs Y2) as (dd & DD). exists [dd]. cbn. rewrite DD. reflexivity. }
    split; [|split; [exact SV|]].
    + apply (source_tree h' e _ [s'] _ OE). exists [ws]. split; [constructor; [exact Y1|constructor]|]. split; [exact DD|]. cbn. rewrite <- (app_nil_r ws) at 2. constructor; [pose proof (CN ng (nth_error_In _ _ NG)); lia|constructor].
    + apply (translation_node h' e _ [s'] _ OE). exists [vs]. split; [constructor; [exact Y2|constructor]|]. split; [exact DD|]. cbn. unfold ESubstitute. cbn. rewrite ?app_nil_r. reflexivity.
  - intros t' t u p q (D' & D & A & d & RD & PT) (_ & Du & Au & d' & RD' & PT'). rewrite RD in RD'. injection RD' as <-. destruct (proj1 (pt_inj h cats rs target WH ROH CL LR RO') _ _ _ _ _ PT _ _ _ _ PT') as (RE & ->). split; [|reflexivity]. exact (C2 t u D A Du Au RE).
  - intros t' u' t p (D' & D & A & d & RD & PT) (Du' & _ & _ & d' & RD' & PT'). destruct (proj1 (pt_fun h cats rs target CL LR) _ _ _ _ _ PT _ _ _ [] [] PT' eq_refl) as (_ & _ & ->). rewrite DH, GH in D', Du'. apply O3; [exact D'|exact Du'|congruence].
Qed.
End G.
