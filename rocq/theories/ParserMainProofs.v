(** The parser's result: no cycle, sorted, and exactly the parses. *)
From Coq Require Import List ZArith Bool Lia Permutation Relations.
From Verif Require Lattice.
From Verif Require Import Opt HG Deriv Topo TopoSpec TopoProofs TopoDeriv Parser ParserSpec ParserForestProofs ParserProofs ParserChartProofs ParserFillProofs ParserBijProofs ParserUnaryProofs.
Import ListNotations.
Open Scope nat_scope.

Notation fedge := (list nat * payload * nat)%type.

Lemma Forall2_in2 : forall (A B : Type) (R S : A -> B -> Prop) l m, (forall a b, In a l -> In b m -> R a b -> S a b) -> Forall2 R l m -> Forall2 S l m.
Proof.
  intros A B R S l m H F. induction F as [|a b l m X F IH]; constructor; [apply H; [left; reflexivity|left; reflexivity|exact X]|]. apply IH. intros x y I J. apply H; right; assumption.
Qed.
(** ** Derivations of a forest and of its list of edges *)
Lemma der_fder : forall g fn fe, FV g fn fe -> forall t h, derives g h t <-> fder fe h t.
Proof.
  intros g fn fe V t. induction t as [e ts IH] using tree_ind'. intros h.
  assert (SUB : forall tl, Forall2 (derives g) tl ts <-> Forall2 (fder fe) tl ts).
  { intros tl. split; intros F; (eapply Forall2_in2; [|exact F]; intros x t I J D; rewrite Forall_forall in IH; apply (IH t J x), D). }
  split; intros D.
  - inversion D as [? nd ? ed ? N I E F]; subst. pose proof (FV_node _ _ _ h V) as A. rewrite N in A. apply A in I. destruct I as (tl & p & Q). pose proof (FV_edge _ _ _ e V) as B. rewrite E in B. destruct B as (h' & B & _).
    rewrite Q in B. injection B as -> -> ->. econstructor; [exact Q|]. apply SUB, F.
  - inversion D as [? tl p ? ? Q F]; subst. pose proof (FV_edge _ _ _ e V) as B. destruct (nth_error (edges g) e) as [ed|] eqn:E; [|congruence]. destruct B as (h' & B & HD). rewrite Q in B. injection B as -> -> <-.
    destruct (wf_head _ (FV_wf _ _ _ V) e ed E) as (h' & HD' & L). rewrite HD in HD'. injection HD' as <-. destruct (nth_error (nodes g) h) as [nd|] eqn:N; [|apply nth_error_None in N; lia].
    pose proof (FV_node _ _ _ h V) as A. rewrite N in A. econstructor; [exact N|apply A; eexists; eexists; exact Q|exact E|]. apply SUB, F.
Qed.
Lemma read_fread : forall g fn fe, FV g fn fe -> forall t, read g t = fread fe t.
Proof.
  intros g fn fe V t. induction t as [e ts IH] using tree_ind'. cbn. pose proof (FV_edge _ _ _ e V) as B.
  assert (M : map (read g) ts = map (fread fe) ts) by (apply map_ext_in; rewrite Forall_forall in IH; exact IH). rewrite M.
  destruct (nth_error (edges g) e) as [ed|]; [|rewrite B; reflexivity]. destruct B as (h & -> & _). reflexivity.
Qed.

Section Ext.
Variables (fe : list fedge) (x : fedge) (N : nat).
Hypothesis valid : forall tl p h t, In (tl, p, h) fe -> In t tl -> t < N.
Hypothesis new : N <= snd x.
Lemma fder_ext : forall t h, h < N -> (fder fe h t <-> fder (fe ++ [x]) h t).
Proof.
  intros t. induction t as [e ts IH] using tree_ind'. intros h L. rewrite Forall_forall in IH. split; intros D; inversion D as [? tl p ? ? Q F]; subst.
  - assert (B : e < length fe) by (apply nth_error_Some; congruence). econstructor; [rewrite nth_error_app1; [exact Q|exact B]|]. eapply Forall2_in2; [|exact F]. intros y t I J D'. apply IH; [exact J| |exact D'].
    exact (valid _ _ _ _ (nth_error_In _ _ Q) I).
  - destruct (Nat.lt_ge_cases e (length fe)) as [B|B].
    + rewrite nth_error_app1 in Q by exact B. econstructor; [exact Q|]. eapply Forall2_in2; [|exact F]. intros y t I J D'. apply IH; [exact J| |exact D']. exact (valid _ _ _ _ (nth_error_In _ _ Q) I).
    + rewrite nth_error_app2 in Q by exact B. destruct (e - length fe) as [|k]; [|destruct k; discriminate]. cbn in Q. injection Q as E. rewrite E in new. cbn in new. lia.
Qed.
Lemma fread_ext : forall t h, fder fe h t -> fread (fe ++ [x]) t = fread fe t.
Proof.
  intros t. induction t as [e ts IH] using tree_ind'. intros h D. inversion D as [? tl p ? ? Q F]; subst. cbn.
  assert (B : e < length fe) by (apply nth_error_Some; congruence). rewrite nth_error_app1 by exact B.
  assert (M : map (fread (fe ++ [x])) ts = map (fread fe) ts); [|rewrite M; reflexivity].
  clear - IH F. revert ts IH F. induction tl as [|h tl IHt]; intros ts IH F; inversion F as [|? t ? ts' D F']; subst; [reflexivity|]. inversion IH; subst. cbn. f_equal; [eauto|]. apply IHt; assumption.
Qed.
End Ext.

(** ** Renumbering does not change what is read *)
Lemma read_rename : forall (g g' : hg payload) goal rn re, wf_hg g -> goal < length (nodes g) -> renumbered None g goal g' rn re ->
  forall t n k, rn n = Some k -> derives g n t -> read g' (rename (get re) t) = read g t.
Proof.
  intros g g' goal rn re WF GB R t. induction t as [e ts IH] using tree_ind'. intros n k RN D. inversion D as [? nd ? ed ? N I E F]; subst.
  assert (RC : reach None g goal n) by (apply (rn_dom _ _ _ _ _ _ R); eexists; exact RN).
  destruct (proj2 (re_dom _ _ _ _ _ _ R e)) as (j & RE).
  { split; [exact Logic.I|]. exists n, nd. auto. }
  assert (GE : nth_error (edges g') j = Some {| head := rn n; tails := map (get rn) (tails ed); lab := lab ed; eid := j |}).
  { apply (edges_are _ _ _ _ _ _ R). destruct (wf_in _ WF n nd e N I) as (ed' & E' & H'). rewrite E in E'. injection E' as <-. exists e, ed, n. auto. }
  cbn [rename read]. unfold get at 1. rewrite RE, GE, E. cbn [lab].
  assert (M : map (read g') (map (rename (get re)) ts) = map (read g) ts); [|rewrite M; reflexivity].
  destruct (tails_kept _ _ _ _ _ _ R e j ed RE E) as (_ & TK). clear - IH F TK. revert ts IH F. induction (tails ed) as [|h tl IHt]; intros ts IH F; inversion F as [|? t ? ts' D F']; subst; [reflexivity|].
  inversion IH as [|? ? P Q]; subst. cbn. destruct (TK h (or_introl eq_refl)) as (kt & KT). f_equal; [exact (P h kt KT D)|]. apply IHt; [|exact Q|exact F']. intros z Z. apply TK. right. exact Z.
Qed.

Section Main.
Variables kGOAL kEPS : Z.
Variable input : list (list arc).
Variable dist : nat -> nat -> Z.
Variable goal_cat : Z.
Variable goal_rule : rule.
Variable rgs : list (list rule * (nat -> nat -> Z -> bool)).
Variable us : list rule.
Notation NN := (length input).
Hypothesis arcs : arcs_ok input.
Hypothesis wf : forall r, In r (rules rgs) -> wf_rule r.
Hypothesis ngoal : forall r, In r (rules rgs) -> lhs r <> kGOAL.
Hypothesis ndr : NoDup (rules rgs).
Hypothesis us_in : forall r, In r us -> In r (rules rgs) /\ IsUnary r = true.
Hypothesis us_nd : NoDup us.
Variable rank : Z -> nat.
Hypothesis us_ac : forall r, In r us -> rank (rhs r) < rank (lhs r).
Hypothesis goal_lhs : lhs goal_rule = kGOAL.
Hypothesis goal_ne : goal_cat <> kGOAL.

Section Cycle.
Variables (s : state) (fn : list Z) (fe : list fedge).
Hypothesis inv : Inv kGOAL kEPS input dist (grammars rgs) us (fun _ => NN) s fn fe.
Notation core := (in_core _ _ _ _ _ _ _ _ _ _ inv).

Lemma icov_smaller : forall g i j sh tl f, icov kEPS input dist rgs s g i j sh tl f -> (i = j -> f = []) /\
  forall h, In h tl -> exists k l c, In (c, h) (nodemap s k l) /\ i <= k /\ k < l /\ l <= j /\ (k = i -> l = j -> f = [c]).
Proof.
  intros g i j sh tl f H. induction H as [L SD|p sh tl f a x C IH A NE AL|p sh tl f a x C IH A NE AL|k j sh tl f c h C IH L L2 H AL].
  - split; [reflexivity|intros h []].
  - destruct (arc_len _ arcs _ _ _ A) as (X & _). pose proof (icov_le _ _ _ _ arcs _ _ _ _ _ _ _ C) as LE. split; [lia|]. intros h I. destruct (proj2 IH h I) as (k & l & c & B1 & B2 & B3 & B4 & _). exists k, l, c. repeat split; try assumption; lia.
  - destruct (arc_len _ arcs _ _ _ A) as (X & _). pose proof (icov_le _ _ _ _ arcs _ _ _ _ _ _ _ C) as LE. split; [lia|]. intros h I. destruct (proj2 IH h I) as (k & l & c & B1 & B2 & B3 & B4 & _). exists k, l, c. repeat split; try assumption; lia.
  - pose proof (icov_le _ _ _ _ arcs _ _ _ _ _ _ _ C) as LE. split; [lia|]. intros h' I. apply in_app_iff in I. destruct I as [I|[<-|[]]].
    + destruct (proj2 IH h' I) as (k' & l & c' & B1 & B2 & B3 & B4 & _). exists k', l, c'. repeat split; try assumption; lia.
    + exists k, j, c. split; [exact H|]. split; [lia|]. split; [lia|]. split; [lia|]. intros -> _. rewrite (proj1 IH eq_refl). reflexivity.
Qed.

(** size of a node: length of its span, then rank of its category *)
Definition size (h a b : nat) : Prop := (exists i j c, In (c, h) (nodemap s i j) /\ a = j - i /\ b = rank c) \/ (h = length fn /\ a = S NN /\ b = 0).
Lemma size_fun : forall h a b a' b', size h a b -> size h a' b' -> a = a' /\ b = b'.
Proof.
  assert (LT : forall h i j c, In (c, h) (nodemap s i j) -> h < length fn) by (intros h i j c I; apply nth_error_Some; rewrite (co_cat _ _ _ _ core _ _ _ _ I); discriminate).
  intros h a b a' b' [(i & j & c & I & -> & ->)|(-> & -> & ->)] [(i' & j' & c' & I' & -> & ->)|(E' & -> & ->)].
  - destruct (co_place _ _ _ _ core _ _ _ _ _ _ _ I I') as (-> & ->). pose proof (co_cat _ _ _ _ core _ _ _ _ I). pose proof (co_cat _ _ _ _ core _ _ _ _ I'). split; [reflexivity|congruence].
  - apply LT in I. lia.
  - apply LT in I'. lia.
  - auto.
Qed.
Lemma tails_size : forall tl p h, In (tl, p, h) fe -> exists a b, size h a b /\ forall t, In t tl -> exists a' b', size t a' b' /\ (a' < a \/ a' = a /\ b' < b).
Proof.
  intros tl p h I. pose proof (co_head _ _ _ _ core _ _ _ I) as H. exists (p_j p - p_i p), (rank (lhs (p_rule p))). split; [left; exists (p_i p), (p_j p), (lhs (p_rule p)); auto|]. intros t T.
  assert (I' : In (p_rule p, p_feats p, tl) (espan fe (p_i p) (p_j p))) by (apply In_nth_error in I; destruct I as (e & E); exact (edge_desc _ _ _ _ _ E)).
  apply (edge_in kGOAL kEPS input dist rgs us arcs wf us_in s fn fe inv) in I'. destruct I' as (L1 & L2 & [(g & rs & hs & Q & AL & R & U & C)|(R & SH & c & h' & -> & RF & H')]).
  - destruct (proj2 (icov_smaller _ _ _ _ _ _ C) t T) as (k & l & c & B1 & B2 & B3 & B4 & B5). exists (l - k), (rank c). split; [left; exists k, l, c; auto|]. left.
    destruct (Nat.eq_dec k (p_i p)) as [K|K]; [|lia]. destruct (Nat.eq_dec l (p_j p)) as [K'|K']; [|lia]. exfalso. specialize (B5 K K').
    rewrite (unary_single (p_rule p) c) in U; [discriminate| |exact (cat_neg _ _ _ _ _ _ arcs wf us_in _ _ _ inv _ _ _ _ B1)|exact B5]. apply wf. eapply in_rules; [exact Q|exact R].
  - destruct T as [<-|[]]. exists (p_j p - p_i p), (rank c). split; [left; exists (p_i p), (p_j p), c; auto|]. right. split; [reflexivity|]. specialize (us_ac _ R). unfold rhs in us_ac. rewrite RF in us_ac. exact us_ac.
Qed.
Lemma has_tree : forall a b h i j c, In (c, h) (nodemap s i j) -> j - i <= a -> rank c <= b -> exists t, fder fe h t.
Proof.
  induction a as [a IHa] using lt_wf_ind. induction b as [b IHb] using lt_wf_ind. intros h i j c I LA LB.
  destruct (co_edge _ _ _ _ core _ _ _ _ I) as (tl & p & E & <- & <- & LH). destruct (tails_size _ _ _ E) as (a1 & b1 & SZ & H).
  assert (SZ' : size h (p_j p - p_i p) (rank c)) by (left; exists (p_i p), (p_j p), c; auto). destruct (size_fun _ _ _ _ _ SZ SZ') as (-> & ->). destruct (map_place _ _ _ _ _ _ _ _ _ inv _ _ _ _ I) as (M1 & M2).
  assert (TS : forall l, incl l tl -> exists ts, Forall2 (fder fe) l ts).
  { induction l as [|t l IHl]; intros IN; [exists []; constructor|]. destruct (IHl (fun z Z => IN z (or_intror Z))) as (ts & F). destruct (H t (IN t (or_introl eq_refl))) as (a' & b' & S2 & LT).
    assert (D : exists t', fder fe t t'); [|destruct D as (t' & D); exists (t' :: ts); constructor; assumption].
    destruct S2 as [(i' & j' & c' & I' & -> & ->)|(-> & -> & ->)]; [|lia].
    destruct LT as [LT|(EQ & LT)]; [apply (IHa (j' - i') ltac:(lia) (rank c') t i' j' c' I'); lia|]. apply (IHb (rank c') ltac:(lia) t i' j' c' I'); lia. }
  destruct (TS tl (incl_refl _)) as (ts & F). apply In_nth_error in E. destruct E as (e & E). exists (Tree e ts). econstructor; [exact E|exact F].
Qed.
Lemma tails_valid : forall tl p h t, In (tl, p, h) fe -> In t tl -> t < length fn.
Proof.
  intros tl p h t I T. destruct (tails_size _ _ _ I) as (a & b & SZ & H). destruct (H t T) as (a' & b' & [(i & j & c & I' & _)|(-> & -> & ->)] & LT).
  - apply nth_error_Some. rewrite (co_cat _ _ _ _ core _ _ _ _ I'). discriminate.
  - exfalso. pose proof (co_head _ _ _ _ core _ _ _ I) as HH. destruct (map_place _ _ _ _ _ _ _ _ _ inv _ _ _ _ HH).
    assert (SZ' : size h (p_j p - p_i p) (rank (lhs (p_rule p)))) by (left; exists (p_i p), (p_j p), (lhs (p_rule p)); auto). destruct (size_fun _ _ _ _ _ SZ SZ'). lia.
Qed.

Variable g : hg payload.
Variable h0 : nat.
Hypothesis h0_in : In (goal_cat, h0) (nodemap s 0 NN).
Hypothesis V : FV g (fn ++ [kGOAL]) (fe ++ [goal_edge input goal_rule h0 fn]).
Lemma child_size : forall n m, child None g n m -> exists a b a' b', size n a b /\ size m a' b' /\ (a' < a \/ a' = a /\ b' < b).
Proof.
  intros n m (nd & e & ed & N & I & _ & E & T). pose proof (FV_node _ _ _ n V) as A. rewrite N in A. apply A in I. destruct I as (tl & p & Q). pose proof (FV_edge _ _ _ e V) as B. rewrite E in B. destruct B as (h' & B & _). rewrite Q in B. injection B as -> -> <-.
  apply nth_error_In in Q. apply in_app_iff in Q. destruct Q as [Q|[Q|[]]].
  - destruct (tails_size _ _ _ Q) as (a & b & SZ & H). destruct (H m T) as (a' & b' & R). exists a, b, a', b'. tauto.
  - unfold goal_edge in Q. injection Q as Q _ Q'. rewrite <- Q in T. destruct T as [<-|[]]. exists (S NN), 0, (NN - 0), (rank goal_cat). split; [right; auto|]. split; [left; exists 0, NN, goal_cat; auto|]. lia.
Qed.
Lemma no_cycle : forall goal, ~ cycle_below None g goal.
Proof.
  assert (T : forall n m, clos_trans nat (child None g) n m -> exists a b a' b', size n a b /\ size m a' b' /\ (a' < a \/ a' = a /\ b' < b)).
  { induction 1 as [n m C|n k m _ (a & b & a' & b' & A1 & A2 & A3) _ (x & y & x' & y' & B1 & B2 & B3)]; [apply child_size, C|]. destruct (size_fun _ _ _ _ _ A2 B1) as (-> & ->). exists a, b, x', y'. split; [exact A1|]. split; [exact B2|]. lia. }
  intros goal (n & _ & C). destruct (T _ _ C) as (a & b & a' & b' & A & B & L). destruct (size_fun _ _ _ _ _ A B) as (-> & ->). lia.
Qed.
Lemma goal_tree : forall t, derives g (length fn) t <-> exists t', t = Tree (length fe) [t'] /\ fder fe h0 t'.
Proof.
  clear goal_lhs. assert (L0 : h0 < length fn) by (apply nth_error_Some; rewrite (co_cat _ _ _ _ core _ _ _ _ h0_in); discriminate).
  intros t. rewrite (der_fder _ _ _ V). split.
  - intros D. inversion D as [e tl p ? ts Q F]; subst. destruct (Nat.lt_ge_cases e (length fe)) as [B|B].
    + rewrite nth_error_app1 in Q by exact B. exfalso. pose proof (co_head _ _ _ _ core _ _ _ (nth_error_In _ _ Q)) as HH. pose proof (co_cat _ _ _ _ core _ _ _ _ HH) as C. assert (length fn < length fn) by (apply nth_error_Some; congruence). lia.
    + assert (e = length fe).
      { assert (e < length (fe ++ [goal_edge input goal_rule h0 fn])) by (apply nth_error_Some; congruence). rewrite app_length in H. cbn in H. lia. }
      subst e. rewrite nth_error_app2 in Q by lia. rewrite Nat.sub_diag in Q. cbn in Q. unfold goal_edge in Q. injection Q as <- <-. inversion F as [|? t' ? ts' D' F']; subst. inversion F'; subst. exists t'. split; [reflexivity|].
      revert D'. apply fder_ext with (N := length fn); [exact tails_valid|cbn; lia|exact L0].
  - intros (t' & -> & D). econstructor; [rewrite nth_error_app2 by lia; rewrite Nat.sub_diag; cbn; unfold goal_edge; reflexivity|]. constructor; [|constructor]. revert D. apply fder_ext with (N := length fn); [exact tails_valid|cbn; lia|exact L0].
Qed.
Lemma goal_read : forall t', fder fe h0 t' -> read g (Tree (length fe) [t']) = option_map (fun d => PT goal_rule [inr d]) (fread fe t').
Proof.
  intros t' D. rewrite (read_fread _ _ _ V). cbn [fread map]. rewrite nth_error_app2 by lia. rewrite Nat.sub_diag. cbn [nth_error]. unfold goal_edge at 1. cbn [p_rule p_feats].
  rewrite (fread_ext fe (goal_edge input goal_rule h0 fn) _ _ D). destruct (fread fe t'); reflexivity.
Qed.
End Cycle.

Notation parses := (parses kEPS input (gspec dist rgs) us).
Definition good (h : hg payload) : Prop :=
  topo h /\ wf_hg h /\
  (forall t, derives h (length (nodes h) - 1) t -> exists d, read h t = Some (PT goal_rule [inr d]) /\ parses d 0 NN goal_cat) /\
  (forall d, (forall rs hs, In (rs, hs) rgs -> prefix_closed (length input) hs dist) -> parses d 0 NN goal_cat -> exists t, derives h (length (nodes h) - 1) t /\ read h t = Some (PT goal_rule [inr d])) /\
  (forall t t', derives h (length (nodes h) - 1) t -> derives h (length (nodes h) - 1) t' -> read h t = read h t' -> t = t') /\
  (forall e ed, nth_error (edges h) e = Some ed -> p_rule (lab ed) = goal_rule \/ In (p_rule (lab ed)) (rules rgs)).

Lemma bins_nongoal : forall g p r, In g (grammars rgs) -> In r (bin (root g) p) -> lhs r <> kGOAL.
Proof.
  intros g p r G I. unfold grammars in G. apply in_map_iff in G. destruct G as ((rs, hs) & <- & G). cbn [fst snd] in I.
  unfold bin in I. destruct (at_path (root (load_grammar hs rs)) p) as [t|] eqn:T; [|destruct I]. apply (bin_in _ _ _ _ _ T) in I. apply ngoal. apply In_nth_error in G. destruct G as (k & G). eapply in_rules; [exact G|apply I].
Qed.
Lemma fill_good : exists s, rows kGOAL kEPS input dist goal_cat goal_rule (grammars rgs) us (seq 1 NN) (start input (grammars rgs)) = Some s /\
  ((goal_idx s = None /\ ((forall rs hs, In (rs, hs) rgs -> prefix_closed (length input) hs dist) -> forall d, ~ parses d 0 NN goal_cat)) \/
   (exists k, goal_idx s = Some k) /\ (exists d, parses d 0 NN goal_cat) /\ exists h, TopoSort (length (nodes (forest s)) - 1) None (forest s) = Sorted h /\ good h).
Proof.
  destruct (fill_rows kGOAL kEPS input dist goal_cat goal_rule (grammars rgs) us arcs bins_nongoal (fun r I => ngoal r (proj1 (us_in r I))) goal_lhs goal_ne) as (s & E & s0 & fn & fe & inv & [(G & _ & NO)|(h0 & H0 & G & V)]).
  { exists s. split; [exact E|]. left. split; [exact G|]. intros pc d D. destruct (proj1 (complete kGOAL kEPS input dist rgs us arcs wf us_in s0 fn fe inv pc) d 0 NN goal_cat D) as (h & H & _). exact (NO h H). }
  exists s. split; [exact E|]. right. split; [eexists; exact G|].
  pose proof (FV_wf _ _ _ V) as WF. pose proof (proj1 (FV_len _ _ _ V)) as LN. rewrite app_length in LN. cbn in LN.
  assert (GB : length (nodes (forest s)) - 1 < length (nodes (forest s))) by lia.
  assert (GI : length (nodes (forest s)) - 1 = length fn) by lia.
  assert (SND : forall t', fder fe h0 t' -> exists d, fread fe t' = Some d /\ parses d 0 NN goal_cat).
  { intros t' D. destruct (sound kGOAL kEPS input dist rgs us arcs wf us_in s0 fn fe inv t' h0 D) as (d & R & P). exists d. split; [exact R|exact (P _ _ _ H0)]. }
  destruct (toposort_ok None (forest s) WF Logic.I _ GB) as [(g' & rn & re & TS & _ & R)|(_ & CY)]; [|destruct (no_cycle s0 fn fe inv (forest s) h0 H0 V _ CY)].
  assert (RG : rn (length (nodes (forest s)) - 1) = Some (length (nodes g') - 1)) by exact (rn_goal _ _ _ _ _ _ R).
  destruct (derivations_same None (forest s) g' WF _ GB rn re R) as (DS & DI).
  assert (KP : forall t, Forall (keep None) (tree_edges t)) by (intros t; rewrite Forall_forall; intros e _; exact Logic.I).
  assert (DER : forall t, derives g' (length (nodes g') - 1) t <-> exists t', fder fe h0 t' /\ t = rename (get re) (Tree (length fe) [t'])).
  { intros t. rewrite DS. split.
    - intros (t1 & D & _ & ->). rewrite GI in D. apply (goal_tree s0 fn fe inv (forest s) h0 H0 V) in D. destruct D as (t' & -> & D). exists t'. auto.
    - intros (t' & D & ->). exists (Tree (length fe) [t']). split; [rewrite GI; apply (goal_tree s0 fn fe inv (forest s) h0 H0 V); exists t'; auto|]. auto. }
  assert (RD : forall t', fder fe h0 t' -> read g' (rename (get re) (Tree (length fe) [t'])) = option_map (fun d => PT goal_rule [inr d]) (fread fe t')).
  { intros t' D. rewrite (read_rename (forest s) g' _ rn re WF GB R _ _ _ RG); [apply (goal_read fn fe (forest s) h0 V _ D)|]. rewrite GI. apply (goal_tree s0 fn fe inv (forest s) h0 H0 V). exists t'. auto. }
  split.
  { destruct (has_tree s0 fn fe inv NN (rank goal_cat) h0 0 NN goal_cat H0) as (t' & D); [lia|lia|]. destruct (SND t' D) as (d & _ & P). exists d. exact P. }
  exists g'. split; [exact TS|]. split; [exact (new_topo None (forest s) g' WF _ GB rn re R)|]. split; [exact (new_wf None (forest s) g' WF _ GB rn re R)|]. split; [|split; [|split]].
  - intros t D. apply DER in D. destruct D as (t' & D & ->). destruct (SND t' D) as (d & RR & P). exists d. rewrite (RD t' D), RR. auto.
  - intros d pc P. destruct (proj1 (complete kGOAL kEPS input dist rgs us arcs wf us_in s0 fn fe inv pc) d 0 NN goal_cat P) as (h & H & t' & D & RR). rewrite (map_fun _ _ _ _ _ _ _ _ _ inv _ _ _ _ _ H H0) in D. exists (rename (get re) (Tree (length fe) [t'])).
    split; [apply DER; exists t'; auto|]. rewrite (RD t' D), RR. reflexivity.
  - intros t t' D D' RR. apply DER in D, D'. destruct D as (u & D & ->), D' as (u' & D' & ->). rewrite (RD u D), (RD u' D') in RR. destruct (SND u D) as (d & R1 & _), (SND u' D') as (d' & R2 & _). rewrite R1, R2 in RR. cbn in RR. injection RR as ->.
    rewrite (inj kGOAL kEPS input dist rgs us arcs wf ndr us_in us_nd s0 fn fe inv u h0 u' D D'); [reflexivity|congruence].
  - intros e ed' E1. apply (edges_are _ _ _ _ _ _ R) in E1. destruct E1 as (e0 & ed & hh & _ & E1 & _ & ->). cbn [lab]. pose proof (FV_edge _ _ _ e0 V) as B. rewrite E1 in B. destruct B as (h1 & B & _).
    apply nth_error_In in B. apply in_app_iff in B. destruct B as [B|[B|[]]].
    + right. apply In_nth_error in B. destruct B as (k & B). pose proof (edge_desc _ _ _ _ _ B) as I. apply (edge_in kGOAL kEPS input dist rgs us arcs wf us_in s0 fn fe inv) in I.
      destruct I as (_ & _ & [(gi & rs & hs & Q & AL & RR & U & C)|(RR & _)]); [eapply in_rules; eassumption|apply us_in; exact RR].
    + left. unfold goal_edge in B. injection B as _ B _. rewrite <- B. reflexivity.
Qed.
End Main.

(** ** All together *)
Lemma flat_map_map_ : forall (A B C : Type) (f : A -> B) (g : B -> list C) l, flat_map g (map f l) = flat_map (fun x => g (f x)) l.
Proof. induction l as [|x l IH]; cbn; [reflexivity|]. rewrite IH. reflexivity. Qed.
Lemma unaries_all : forall rgs, flat_map unaries (grammars rgs) = all_unaries rgs.
Proof.
  intros rgs. unfold grammars, all_unaries, all_rules. rewrite flat_map_map_. induction rgs as [|(rs, hs) rgs IH]; [reflexivity|]. cbn [flat_map fst snd]. rewrite filter_app, IH. f_equal. apply (load_ok hs rs).
Qed.
Lemma single : forall r, IsUnary r = true -> rf r = [rhs r].
Proof. intros r U. unfold IsUnary in U. apply andb_prop in U. destruct U as (_ & U). apply Nat.eqb_eq in U. unfold rhs. destruct (rf r) as [|y [|z w]]; try discriminate. reflexivity. Qed.

Section All.
Variables kGOAL kEPS : Z.
Variable input : list (list arc).
Variable dist : nat -> nat -> Z.
Variable goal_cat : Z.
Variable goal_rule : rule.
Variable rgs : list (list rule * (nat -> nat -> Z -> bool)).
Hypothesis arcs : arcs_ok input.
Hypothesis wf : forall r, In r (all_rules rgs) -> wf_rule r /\ lhs r <> kGOAL.
Hypothesis ndr : NoDup (all_rules rgs).
Hypothesis goal_lhs : lhs goal_rule = kGOAL.
Hypothesis goal_ne : goal_cat <> kGOAL.
Notation parse_it := (Parse kGOAL kEPS input dist goal_cat goal_rule (load_all rgs)).
Notation pcl := (forall rs hs, In (rs, hs) rgs -> prefix_closed (length input) hs dist).

Theorem parser_ok : exists us, incl us (all_unaries rgs) /\ acyclic us /\
  (acyclic (all_unaries rgs) -> forall r, In r (all_unaries rgs) -> rf r <> [goal_cat] -> In r us) /\
  (forall r, In r us -> rf r <> [goal_cat]) /\
  exists ok h, parse_it = Some (ok, h) /\
   (ok = true -> (exists d, parses kEPS input (at_spans dist rgs) us d 0 (length input) goal_cat) /\ topo h /\ wf_hg h /\
     (forall t, derives h (length (nodes h) - 1) t -> exists d, read h t = Some (PT goal_rule [inr d]) /\ parses kEPS input (at_spans dist rgs) us d 0 (length input) goal_cat)) /\
   (pcl -> (ok = true <-> exists d, parses kEPS input (at_spans dist rgs) us d 0 (length input) goal_cat) /\
     (ok = true -> one_for_one kEPS input (at_spans dist rgs) us goal_cat goal_rule h)).
Proof.
  assert (NU : NoDup (all_unaries rgs)) by (apply NoDup_filter, ndr).
  destruct (TopoSortUnaries_ok goal_cat (all_unaries rgs) NU) as (us & TS & ND & IN & (rank & RK) & ALL & NG).
  assert (UI : forall r, In r us -> In r (rules rgs) /\ IsUnary r = true) by (intros r I; apply IN, filter_In in I; exact I).
  exists us. split; [exact IN|].
  split; [exists rank; intros r c I RF; specialize (RK r I); unfold rhs in RK; rewrite RF in RK; exact RK|].
  split. { intros (R & AC) r I NE. apply (ALL R); [|exact I|]. - intros q Q. apply AC; [exact Q|]. apply single. apply filter_In in Q. apply Q. - intros E. apply NE. rewrite <- E. apply single. apply filter_In in I. apply I. }
  split. { intros r I E. apply (NG r I). unfold rhs. rewrite E. reflexivity. }
  destruct (fill_good kGOAL kEPS input dist goal_cat goal_rule rgs us arcs (fun r I => proj1 (wf r I)) (fun r I => proj2 (wf r I)) ndr UI ND rank RK goal_lhs goal_ne) as (s & E & RES).
  unfold Parse, fill. change (load_all rgs) with (grammars rgs). rewrite unaries_all, TS. cbn [bind]. rewrite E. cbn [bind].
  destruct RES as [(-> & NO)|((k & ->) & EX & h & -> & (G1 & G2 & G3 & G4 & G5 & G6))].
  - exists false, (forest s). split; [reflexivity|]. split; [discriminate|]. intros pc. split; [|discriminate]. split; [discriminate|]. intros (d & D). destruct (NO pc d D).
  - exists true, h. split; [reflexivity|]. split; [intros _; split; [exact EX|]; split; [exact G1|]; split; [exact G2|exact G3]|]. intros pc. split; [split; [intros _; exact EX|reflexivity]|]. intros _.
    split; [exact G3|]. split; [intros d D; apply G4; [exact pc|exact D]|exact G5].
Qed.

(** The edges have rules of the grammar, or the goal rule. *)
Theorem parser_rules : forall h, parse_it = Some (true, h) -> forall e ed, nth_error (edges h) e = Some ed -> p_rule (lab ed) = goal_rule \/ In (p_rule (lab ed)) (all_rules rgs).
Proof.
  assert (NU : NoDup (all_unaries rgs)) by (apply NoDup_filter, ndr).
  destruct (TopoSortUnaries_ok goal_cat (all_unaries rgs) NU) as (us & TS & ND & IN & (rank & RK) & ALL & NG).
  assert (UI : forall r, In r us -> In r (rules rgs) /\ IsUnary r = true) by (intros r I; apply IN, filter_In in I; exact I).
  destruct (fill_good kGOAL kEPS input dist goal_cat goal_rule rgs us arcs (fun r I => proj1 (wf r I)) (fun r I => proj2 (wf r I)) ndr UI ND rank RK goal_lhs goal_ne) as (s & E & RES).
  unfold Parse, fill. change (load_all rgs) with (grammars rgs). rewrite unaries_all, TS. cbn [bind]. rewrite E. cbn [bind].
  destruct RES as [(-> & NO)|((k & ->) & EX & h & -> & (G1 & G2 & G3 & G4 & G5 & G6))]; [discriminate|]. intros h' [= <-]. exact G6.
Qed.

Lemma parses_incl : forall gs us us', incl us us' ->
  (forall d i j c, parses kEPS input gs us d i j c -> parses kEPS input gs us' d i j c) /\
  (forall i j st f, covers kEPS input gs us i j st f -> covers kEPS input gs us' i j st f).
Proof.
  intros gs us us' IN. apply parses_covers; intros.
  - eapply ps_rule; eauto.
  - eapply ps_unary; eauto.
  - constructor.
  - eapply c_word; eauto.
  - eapply c_eps; eauto.
  - eapply c_sub; eauto.
Qed.
Theorem parser_all : pcl -> acyclic (all_unaries rgs) -> (forall r, In r (all_unaries rgs) -> rf r <> [goal_cat]) ->
  exists ok h, parse_it = Some (ok, h) /\
    (ok = true <-> exists d, parses kEPS input (at_spans dist rgs) (all_unaries rgs) d 0 (length input) goal_cat) /\
    (ok = true -> topo h /\ wf_hg h /\ one_for_one kEPS input (at_spans dist rgs) (all_unaries rgs) goal_cat goal_rule h).
Proof.
  intros pc AC NG. destruct parser_ok as (us & IN & _ & ALL & _ & ok & h & E & A & B). exists ok, h. split; [exact E|].
  assert (IN' : incl (all_unaries rgs) us) by (intros r I; apply (ALL AC r I (NG r I))).
  assert (EQ : forall d, parses kEPS input (at_spans dist rgs) us d 0 (length input) goal_cat <-> parses kEPS input (at_spans dist rgs) (all_unaries rgs) d 0 (length input) goal_cat) by (intros d; split; apply parses_incl; assumption).
  destruct (B pc) as (B1 & B2). split; [rewrite B1; split; intros (d & D); exists d; apply EQ, D|].
  intros OK. destruct (A OK) as (_ & T & W & _). split; [exact T|]. split; [exact W|]. destruct (B2 OK) as (X & Y & Z0). split; [|split; [|exact Z0]].
  - intros t D. destruct (X t D) as (d & R & P). exists d. split; [exact R|]. apply EQ, P.
  - intros d D. apply Y. apply EQ, D.
Qed.
End All.

(** ** Span tests on a sentence *)
Lemma text_closed : forall n m dist, (forall i j, i < j -> dist i j = Z.of_nat (j - i)) -> prefix_closed n (text_span m) dist.
Proof.
  intros n m dist D i j L H. unfold text_span in *. apply Z.leb_le in H. rewrite D in H by apply L. split; [apply Z.leb_le; lia|]. intros k K. apply Z.leb_le. rewrite D by lia. lia.
Qed.
Lemma glue_closed : forall n dist, prefix_closed n glue_span dist.
Proof. intros n dist i j L H. split; [exact H|]. intros k _. exact H. Qed.
Lemma pass_closed : forall n dist, (forall i j, i < j -> dist i j = Z.of_nat (j - i)) -> prefix_closed n pass_span dist.
Proof.
  intros n dist D i j L H. unfold pass_span in *. apply Z.ltb_lt in H. rewrite D in H by apply L. split; [reflexivity|]. intros k K. apply Z.ltb_lt. rewrite D by lia. lia.
Qed.

(** ** Findings *)
Ltac norules := intros r I; cbn in I; repeat (destruct I as [<-|I]; [split; [split; [cbn; lia|reflexivity]|cbn; discriminate]|]); destruct I.
Ltac noarcs := intros p arcs x E I; do 8 (try destruct p as [|p]); try discriminate; injection E as <-; cbn in I; repeat (destruct I as [<-|I]; [cbn; lia|]); destruct I.
Definition w1 (w : Z) (l : nat) : arc := {| label := w; len := l |}.
Definition rl (id : nat) (l : Z) (f : list Z) (k : Z) : rule := {| rid := id; lhs := l; rf := f; arity := k |}.

(** S -> a, X -> S, S -> X b; the input a b *)
Definition gu_rgs : list (list rule * (nat -> nat -> Z -> bool)) := [([rl 1 (-1) [1%Z] 0; rl 2 (-2) [(-1)%Z] 1; rl 3 (-1) [(-2)%Z; 2%Z] 1], text_span 10)].
Lemma goal_unary_refuted : exists input dist goal_rule rgs, arcs_ok input /\ (forall r, In r (all_rules rgs) -> wf_rule r /\ lhs r <> (-9)%Z) /\ NoDup (all_rules rgs) /\
  lhs goal_rule = (-9)%Z /\ (forall rs hs, In (rs, hs) rgs -> prefix_closed (length input) hs dist) /\ acyclic (all_unaries rgs) /\
  (exists h, Parse (-9) (-100) input dist (-1) goal_rule (load_all rgs) = Some (false, h)) /\
  exists d, parses (-100) input (at_spans dist rgs) (all_unaries rgs) d 0 (length input) (-1).
Proof.
  exists [[w1 1 1]; [w1 2 1]], (fun i j => Z.of_nat (j - i)), (rl 0 (-9) [(-1)%Z] 1), gu_rgs.
  split; [noarcs|]. split; [norules|]. split; [cbn; repeat constructor; cbn; intuition discriminate|]. split; [reflexivity|].
  split; [intros rs hs [[= <- <-]|[]]; apply text_closed; reflexivity|].
  split. { exists (fun c => if Z.eqb c (-2) then 1 else 0). intros r c I E. cbn in I. destruct I as [<-|[]]; cbn in E; injection E as <-; cbn; lia. }
  split. { destruct (Parse (-9) (-100) [[w1 1 1]; [w1 2 1]] (fun i j => Z.of_nat (j - i)) (-1) (rl 0 (-9) [(-1)%Z] 1) (load_all gu_rgs)) as [(ok, h)|] eqn:E; [|vm_compute in E; discriminate].
    exists h. assert (ok = false) by (vm_compute in E; congruence). subst ok. reflexivity. }
  exists (PT (rl 3 (-1) [(-2)%Z; 2%Z] 1) [inr (PT (rl 2 (-2) [(-1)%Z] 1) [inr (PT (rl 1 (-1) [1%Z] 0) [inl (0, 0)])]); inl (1, 0)]).
  eapply (ps_rule _ _ _ _ _ _ (rl 3 (-1) [(-2)%Z; 2%Z] 1)); [left; reflexivity|cbn; tauto|reflexivity|cbn; lia|reflexivity|].
  apply (c_sub _ _ _ _ 0 1).
  - eapply (ps_unary _ _ _ _ (rl 2 (-2) [(-1)%Z] 1)); [cbn; tauto|reflexivity|].
    eapply (ps_rule _ _ _ _ _ _ (rl 1 (-1) [1%Z] 0)); [left; reflexivity|cbn; tauto|reflexivity|lia|reflexivity|].
    apply (c_word _ _ _ _ 0 0 (w1 1 1)); [eexists; split; reflexivity|discriminate|constructor].
  - apply (c_word _ _ _ _ 1 0 (w1 2 1)); [eexists; split; reflexivity|discriminate|constructor].
Qed.

(** arcs 0-a->1-a->2-a->3, 2-b->4 and 0-c->4; the rule S -> a a b, spans of at most 2 *)
Definition sp_lat : list (list Z) := [[1; 4]; [1]; [1; 2]; []]%Z.
Definition sp_input : list (list arc) := [[w1 1 1; w1 3 4]; [w1 1 1]; [w1 1 1; w1 2 2]; []].
Definition sp_rgs : list (list rule * (nat -> nat -> Z -> bool)) := [([rl 1 (-1) [1; 1; 2]%Z 0], text_span 2)].
Lemma span_refuted : exists input lat d dist goal_rule rgs, map (map (fun x => Z.of_nat (len x))) input = lat /\ Lattice.ComputeDistances [] lat = Some d /\
  (forall i j, Lattice.Distance lat d (Z.of_nat i) (Z.of_nat j) = Some (dist i j) \/ length input < i \/ length input < j) /\
  arcs_ok input /\ (forall r, In r (all_rules rgs) -> wf_rule r /\ lhs r <> (-9)%Z) /\ NoDup (all_rules rgs) /\ lhs goal_rule = (-9)%Z /\ all_unaries rgs = [] /\
  (exists rs, rgs = [(rs, text_span 2)]) /\
  (exists h, Parse (-9) (-100) input dist (-1) goal_rule (load_all rgs) = Some (false, h)) /\
  exists d, parses (-100) input (at_spans dist rgs) [] d 0 (length input) (-1).
Proof.
  destruct (Lattice.ComputeDistances [] sp_lat) as [d|] eqn:E; [|vm_compute in E; discriminate].
  exists sp_input, sp_lat, d, (fun i j => match Lattice.Distance sp_lat d (Z.of_nat i) (Z.of_nat j) with Some v => v | None => 0%Z end), (rl 0 (-9) [(-1)%Z] 1), sp_rgs.
  vm_compute in E. injection E as <-.
  split; [reflexivity|]. split; [vm_compute; reflexivity|].
  split. { intros i j. destruct (Nat.le_gt_cases i 4) as [L|L]; [|right; left; exact L]. destruct (Nat.le_gt_cases j 4) as [L'|L']; [|right; right; exact L']. left.
    do 5 (destruct i as [|i]; [do 5 (destruct j as [|j]; [vm_compute; reflexivity|]); lia|]). lia. }
  split; [noarcs|]. split; [norules|]. split; [cbn; repeat constructor; cbn; intuition discriminate|]. split; [reflexivity|]. split; [reflexivity|]. split; [eexists; reflexivity|].
  match goal with |- (exists h, ?P = Some (false, h)) /\ _ => split; [destruct P as [(ok, h)|] eqn:E; [|vm_compute in E; discriminate]; exists h; assert (ok = false) by (vm_compute in E; congruence); subst ok; reflexivity|] end.
  exists (PT (rl 1 (-1) [1; 1; 2]%Z 0) [inl (0, 0); inl (1, 0); inl (2, 1)]).
  eapply (ps_rule _ _ _ _ _ _ (rl 1 (-1) [1; 1; 2]%Z 0)); [left; reflexivity|cbn; tauto|reflexivity|cbn; lia|vm_compute; reflexivity|].
  apply (c_word _ _ _ _ 0 0 (w1 1 1)); [eexists; split; reflexivity|discriminate|].
  apply (c_word _ _ _ _ 1 0 (w1 1 1)); [eexists; split; reflexivity|discriminate|].
  apply (c_word _ _ _ _ 2 1 (w1 2 2)); [eexists; split; reflexivity|discriminate|constructor].
Qed.

(** [Goal] -> a; the input a b *)
Definition gl_rgs : list (list rule * (nat -> nat -> Z -> bool)) := [([rl 1 (-9) [1%Z] 0], text_span 10)].
Lemma goal_lhs_refuted : exists input dist goal_rule rgs, arcs_ok input /\ (forall r, In r (all_rules rgs) -> wf_rule r) /\ NoDup (all_rules rgs) /\
  lhs goal_rule = (-9)%Z /\ (forall rs hs, In (rs, hs) rgs -> prefix_closed (length input) hs dist) /\ all_unaries rgs = [] /\
  (exists h, Parse (-9) (-100) input dist (-1) goal_rule (load_all rgs) = Some (true, h)) /\
  forall d c, ~ parses (-100) input (at_spans dist rgs) [] d 0 (length input) c.
Proof.
  exists [[w1 1 1]; [w1 2 1]], (fun i j => Z.of_nat (j - i)), (rl 0 (-9) [(-1)%Z] 1), gl_rgs.
  split; [noarcs|]. split; [intros r [<-|[]]; split; [cbn; lia|reflexivity]|]. split; [cbn; repeat constructor; cbn; intuition discriminate|]. split; [reflexivity|].
  split; [intros rs hs [[= <- <-]|[]]; apply text_closed; reflexivity|]. split; [reflexivity|].
  match goal with |- (exists h, ?P = Some (true, h)) /\ _ => split; [destruct P as [(ok, h)|] eqn:E; [|vm_compute in E; discriminate]; exists h; assert (ok = true) by (vm_compute in E; congruence); subst ok; reflexivity|] end.
  assert (NC : forall d i j c, parses (-100) [[w1 1 1]; [w1 2 1]] (at_spans (fun i j => Z.of_nat (j - i)) gl_rgs) [] d i j c -> c = (-9)%Z).
  { intros d i j c D. inversion D as [rs ok r steps i' j' I R U L OK C|r d' i' j' c' R]; [|destruct R]. destruct I as [[= <- <-]|[]]. destruct R as [<-|[]]. reflexivity. }
  intros d c D. inversion D as [rs ok r steps i j I R U L OK C|r d' i j c' R]; subst; [|destruct R]. destruct I as [[= <- <-]|[]]. destruct R as [<-|[]]. cbn in C.
  inversion C as [|? a x ? st f A N C'|? a x ? st f A N C'|? k ? d' c' st f D' C']; subst.
  - destruct A as (l & [= <-] & A). destruct a as [|[|a]]; cbn in A; try discriminate. match goal with H : label x = 1%Z |- _ => rewrite H in A, C' end. injection A as A. subst x. cbn in C'.
    inversion C' as [|? a x ? st' f' A' N' C''|? a x ? st' f' A' N' C''|]; subst. destruct A' as (l & [= <-] & A'). destruct a as [|[|a]]; cbn in A'; try discriminate. injection A' as <-. cbn in N'. discriminate.
  - destruct A as (l & [= <-] & A). destruct a as [|[|a]]; cbn in A; try discriminate. injection A as <-. cbn in N. discriminate.
  - apply NC in D'. discriminate.
Qed.

(** X -> b, X -> a S; S -> X only at position 0; the input a b *)
Definition ug_glue : list rule := [rl 3 (-1) [(-2)%Z] 1].
Definition ug_rgs : list (list rule * (nat -> nat -> Z -> bool)) := [([rl 1 (-2) [2%Z] 0; rl 2 (-2) [1; -1]%Z 1], text_span 10); (ug_glue, glue_span)].
Lemma unary_span_refuted : exists input dist goal_rule rgs rs hs, arcs_ok input /\ (forall r, In r (all_rules rgs) -> wf_rule r /\ lhs r <> (-9)%Z) /\ NoDup (all_rules rgs) /\
  lhs goal_rule = (-9)%Z /\ (forall rs hs, In (rs, hs) rgs -> prefix_closed (length input) hs dist) /\ acyclic (all_unaries rgs) /\ In (rs, hs) rgs /\
  exists h, Parse (-9) (-100) input dist (-1) goal_rule (load_all rgs) = Some (true, h) /\
  exists e ed, nth_error (edges h) e = Some ed /\ In (p_rule (lab ed)) rs /\ hs (p_i (lab ed)) (p_j (lab ed)) (dist (p_i (lab ed)) (p_j (lab ed))) = false.
Proof.
  exists [[w1 1 1]; [w1 2 1]], (fun i j => Z.of_nat (j - i)), (rl 0 (-9) [(-1)%Z] 1), ug_rgs, ug_glue, glue_span.
  split; [noarcs|]. split; [norules|]. split; [cbn; repeat constructor; cbn; intuition discriminate|]. split; [reflexivity|].
  split; [intros rs hs [[= <- <-]|[[= <- <-]|[]]]; [apply text_closed; reflexivity|apply glue_closed]|].
  split. { exists (fun c => if Z.eqb c (-1) then 1 else 0). intros r c I E. cbn in I. destruct I as [<-|[]]; cbn in E; injection E as <-; cbn; lia. }
  split; [right; left; reflexivity|].
  match goal with |- exists h, ?P = Some (true, h) /\ _ => destruct P as [(ok, h)|] eqn:E; [|vm_compute in E; discriminate] end.
  exists h. vm_compute in E. injection E as <- <-. split; [reflexivity|]. exists 1. eexists. split; [cbn [nth_error edges]; reflexivity|]. cbn. split; [left; reflexivity|reflexivity].
Qed.
