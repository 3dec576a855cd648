(** The derivations in the parser's forest are the parses, one for one. *)
From Coq Require Import List ZArith Bool Lia Permutation.
From Verif Require Import Opt HG Deriv TopoSpec Parser ParserSpec ParserForestProofs ParserProofs ParserChartProofs ParserFillProofs.
Import ListNotations.
Open Scope nat_scope.

Lemma in_seq_combine : forall (A : Type) (xs : list A) a x k, In (a, x) (combine (seq k (length xs)) xs) <-> k <= a /\ nth_error xs (a - k) = Some x.
Proof.
  induction xs as [|y xs IH]; intros a x k; cbn.
  - split; [intros []|]. intros (_ & H). destruct (a - k); discriminate.
  - split.
    + intros [[= <- <-]|I]; [rewrite Nat.sub_diag; auto|]. apply IH in I. destruct I as (L & E). split; [lia|]. replace (a - k) with (S (a - S k)) by lia. exact E.
    + intros (L & E). destruct (Nat.eq_dec a k) as [->|NE]; [rewrite Nat.sub_diag in E; cbn in E; left; congruence|]. right. apply IH. split; [lia|]. replace (a - k) with (S (a - S k)) in E by lia. exact E.
Qed.
Lemma NoDup_filter_map_nth : forall (A B : Type) (f : A -> B) (P : A -> bool) l e e' x x', NoDup (map f (filter P l)) ->
  nth_error l e = Some x -> nth_error l e' = Some x' -> P x = true -> P x' = true -> f x = f x' -> e = e'.
Proof.
  induction l as [|y l IH]; intros e e' x x' N E E' PX PX' F; [destruct e; discriminate|]. cbn in N.
  destruct e as [|e], e' as [|e']; cbn in E, E'; [reflexivity| | |].
  - injection E as ->. rewrite PX in N. cbn in N. inversion N as [|? ? NI N']; subst. destruct NI. rewrite F. apply in_map. apply filter_In. split; [exact (nth_error_In _ _ E')|exact PX'].
  - injection E' as ->. rewrite PX' in N. cbn in N. inversion N as [|? ? NI N']; subst. destruct NI. rewrite <- F. apply in_map. apply filter_In. split; [exact (nth_error_In _ _ E)|exact PX].
  - f_equal. eapply (IH e e' x x'); eauto. destruct (P y); [inversion N; assumption|exact N].
Qed.

Section Bij.
Variables kGOAL kEPS : Z.
Variable input : list (list arc).
Variable dist : nat -> nat -> Z.
Variable rgs : list (list rule * (nat -> nat -> Z -> bool)).
Variable us : list rule.
Notation NN := (length input).
Notation fedge := (list nat * payload * nat)%type.
Definition grammars : list grammar := map (fun q => load_grammar (snd q) (fst q)) rgs.
Notation gs := grammars.
Definition rules : list rule := flat_map fst rgs.
Notation al := (ParserChartProofs.al dist gs).
Notation Tm := (ParserChartProofs.Tm kEPS input).
Hypothesis arcs : arcs_ok input.
Hypothesis wf : forall r, In r rules -> wf_rule r.
Hypothesis ngoal : forall r, In r rules -> lhs r <> kGOAL.
Hypothesis ndr : NoDup rules.
Hypothesis us_in : forall r, In r us -> In r rules /\ IsUnary r = true.
Hypothesis us_nd : NoDup us.

Variables (s : state) (fn : list Z) (fe : list fedge).
Hypothesis inv : Inv kGOAL kEPS input dist gs us (fun _ => NN) s fn fe.
Notation core := (in_core _ _ _ _ _ _ _ _ _ _ inv).

Lemma al_some : forall g i j, al g i j = true <-> exists rs hs, nth_error rgs g = Some (rs, hs) /\ hs i j (dist i j) = true.
Proof.
  intros g i j. unfold ParserChartProofs.al, grammars. rewrite nth_error_map. destruct (nth_error rgs g) as [(rs, hs)|]; cbn [option_map fst snd].
  - rewrite (proj1 (load_ok hs rs)). split; [intros H; exists rs, hs; auto|]. intros (rs' & hs' & [= <- <-] & H). exact H.
  - split; [discriminate|]. intros (rs & hs & H & _). discriminate.
Qed.
Definition seeded (g i : nat) : bool := match nth_error rgs g with Some (_, hs) => hs i i 0%Z | None => false end.
Lemma seeds_in : forall g i it, In it (seeds input gs g i i) <-> i <= NN /\ seeded g i = true /\ exists rs hs, nth_error rgs g = Some (rs, hs) /\ it = {| gptr := root (load_grammar hs rs); ants := []; feats := [] |}.
Proof.
  intros g i it. unfold seeds, seeded, grammars. rewrite nth_error_map. destruct (nth_error rgs g) as [(rs, hs)|] eqn:Q; cbn [option_map fst snd].
  - rewrite (proj1 (load_ok hs rs)), Nat.eqb_refl. destruct (Nat.leb_spec i NN); cbn [andb].
    + destruct (hs i i 0%Z); cbn [andb].
      * split; [intros [<-|[]]; split; [assumption|]; split; [reflexivity|]; exists rs, hs; auto|]. intros (_ & _ & rs' & hs' & [= <- <-] & ->). left. reflexivity.
      * split; [intros []|]. intros (_ & H9 & _). discriminate.
    + split; [intros []|]. lia.
  - split; [intros []|]. intros (_ & H & _). discriminate.
Qed.

(** What an item has covered: shape, antecedents, source symbols. *)
Inductive icov (g i : nat) : nat -> shape -> list nat -> list Z -> Prop :=
| ic_nil : i <= NN -> seeded g i = true -> icov g i i [] [] []
| ic_word : forall p sh tl f a x, icov g i p sh tl f -> arc_at input p a x -> label x <> kEPS -> al g i (S p) = true ->
    icov g i (p + len x) (sh ++ [Some (p, a)]) tl (f ++ [label x])
| ic_eps : forall p sh tl f a x, icov g i p sh tl f -> arc_at input p a x -> label x = kEPS -> al g i (S p) = true ->
    icov g i (p + len x) (sh ++ [Some (p, a)]) tl f
| ic_nt : forall k j sh tl f c h, icov g i k sh tl f -> k < j -> j <= NN -> In (c, h) (nodemap s k j) -> al g i j = true ->
    icov g i j (sh ++ [None]) (tl ++ [h]) (f ++ [c]).

Lemma arc_len : forall p a x, arc_at input p a x -> 1 <= len x /\ p + len x <= NN /\ p < NN.
Proof.
  intros p a x (xs & E & X). destruct (arcs p xs x E (nth_error_In _ _ X)). split; [assumption|]. split; [assumption|]. apply nth_error_Some. congruence.
Qed.
Lemma icov_le : forall g i j sh tl f, icov g i j sh tl f -> i <= j /\ j <= NN.
Proof. induction 1 as [L _|p sh tl f a x _ (IH & _) A _ _|p sh tl f a x _ (IH & _) A _ _|k j sh tl f c h _ (IH & _) L L' _ _]; [auto| | |lia]; destruct (arc_len _ _ _ A); lia. Qed.

Lemma Tm_in : forall ac p j it, In it (Tm ac p j) <-> exists a x it', arc_at input p a x /\ p + len x = j /\ In it' ac /\ In it (ExtendTerminal kEPS p a (label x) it').
Proof.
  intros ac p j it. unfold ParserChartProofs.Tm, arc_at. destruct (nth_error input p) as [xs|].
  - rewrite in_flat_map. split.
    + intros ((a, x) & I & J). apply in_seq_combine in I. rewrite Nat.sub_0_r in I. cbn [fst snd] in J. destruct (Nat.eqb_spec (p + len x) j); [|destruct J]. apply in_flat_map in J. destruct J as (it' & I' & J).
      exists a, x, it'. split; [exists xs; split; [reflexivity|apply I]|auto].
    + intros (a & x & it' & (xs' & [= <-] & X) & E & I & J). exists (a, x). split; [apply in_seq_combine; rewrite Nat.sub_0_r; split; [lia|exact X]|]. cbn [fst snd]. rewrite E, Nat.eqb_refl. apply in_flat_map. exists it'. auto.
  - split; [intros []|]. intros (a & x & it' & (xs' & H & _) & _). discriminate.
Qed.
Lemma chart_in : forall i j h, In h (chart s i j) <-> exists c, In (c, h) (nodemap s i j).
Proof.
  intros i j h. split.
  - intros I. destruct (co_valid _ _ _ _ _ _ _ core I) as (_ & c & H & _). exists c. exact H.
  - intros (c & I). exact (proj2 (ng_keys _ _ _ _ _ _ _ _ _ _ _ _ _ _ inv I)).
Qed.
Lemma cat_of : forall i j c h, In (c, h) (nodemap s i j) -> nth h fn 0%Z = c.
Proof. intros i j c h I. apply nth_error_nth. exact (co_cat _ _ _ _ core _ _ _ _ I). Qed.

Lemma act_eq : forall g i j, i < j -> j <= NN -> Permutation (act s g i j) (inflow kEPS input dist gs s g i j (j - i) ++ (if al g i j then NT fn s g i j (seq i (j - i)) else [])).
Proof.
  intros g i j L1 L2. pose proof (in_act _ _ _ _ _ _ _ _ _ _ inv g i j L1) as A. cbn beta in A. replace (Nat.min NN (j - i)) with (j - i) in A by lia.
  destruct (Nat.leb_spec (j - i) NN); [|lia]. destruct (Nat.leb_spec j NN); [|lia]. exact A.
Qed.
Lemma inflow_in : forall g i j q it, In it (inflow kEPS input dist gs s g i j q) <-> exists p a x it', i <= p < i + q /\ al g i (S p) = true /\ arc_at input p a x /\ p + len x = j /\
  In it' (act s g i p) /\ In it (ExtendTerminal kEPS p a (label x) it').
Proof.
  intros g i j q it. unfold inflow. rewrite in_flat_map. split.
  - intros (p & P & I). apply in_seq in P. destruct (al g i (S p)) eqn:AL; [|destruct I]. apply Tm_in in I. destruct I as (a & x & it' & R). exists p, a, x, it'. auto.
  - intros (p & a & x & it' & P & AL & R). exists p. split; [apply in_seq; exact P|]. rewrite AL. apply Tm_in. exists a, x, it'. exact R.
Qed.
Lemma NT_in : forall g i j ks it, In it (NT fn s g i j ks) <-> exists k it' c h t, In k ks /\ In it' (act s g i k) /\ In (c, h) (nodemap s k j) /\ Extend c (gptr it') = Some t /\
  it = {| gptr := t; ants := ants it' ++ [h]; feats := feats it' ++ [None] |}.
Proof.
  intros g i j ks it. unfold NT, nts. rewrite in_flat_map. split.
  - intros (k & K & I). apply in_flat_map in I. destruct I as (it' & I' & I). apply in_flat_map in I. destruct I as (h & H & I). apply chart_in in H. destruct H as (c & H).
    unfold ntx in I. rewrite (cat_of _ _ _ _ H) in I. destruct (Extend c (gptr it')) as [t|] eqn:E; [|destruct I]. destruct I as [<-|[]]. exists k, it', c, h, t. auto 6.
  - intros (k & it' & c & h & t & K & I' & H & E & ->). exists k. split; [exact K|]. apply in_flat_map. exists it'. split; [exact I'|]. apply in_flat_map. exists h. split; [apply chart_in; exists c; exact H|].
    unfold ntx. rewrite (cat_of _ _ _ _ H), E. left. reflexivity.
Qed.

Lemma act_sound : forall g i j it, i <= j -> j <= NN -> In it (act s g i j) -> exists rs hs f, nth_error rgs g = Some (rs, hs) /\ icov g i j (feats it) (ants it) f /\ at_path (root (load_grammar hs rs)) f = Some (gptr it).
Proof.
  intros g i j. induction j as [j IH] using lt_wf_ind. intros it L1 L2 I. destruct (Nat.eq_dec i j) as [<-|NE].
  - rewrite (in_seed _ _ _ _ _ _ _ _ _ _ inv) in I. apply seeds_in in I. destruct I as (_ & SD & rs & hs & Q & ->). exists rs, hs, []. cbn. split; [exact Q|]. split; [constructor; assumption|reflexivity].
  - eapply Permutation_in in I; [|apply act_eq; lia]. apply in_app_iff in I. destruct I as [I|I].
    + apply inflow_in in I. destruct I as (p & a & x & it' & P & AL & A & E & I' & I). destruct (arc_len _ _ _ A) as (X1 & X2 & X3).
      destruct (IH p ltac:(lia) it' ltac:(lia) ltac:(lia) I') as (rs & hs & f & Q & C & T). unfold ExtendTerminal in I. destruct (Z.eqb_spec (label x) kEPS) as [EP|NEP].
      * destruct I as [<-|[]]. exists rs, hs, f. split; [exact Q|]. cbn. split; [|exact T]. rewrite <- E. apply (ic_eps g i p _ _ _ a x); assumption.
      * destruct (Extend (label x) (gptr it')) as [t|] eqn:EX; [|destruct I]. destruct I as [<-|[]]. exists rs, hs, (f ++ [label x]). split; [exact Q|]. cbn. split; [rewrite <- E; apply (ic_word g i p _ _ _ a x); assumption|].
        rewrite at_path_snoc, T. exact EX.
    + destruct (al g i j) eqn:AL; [|destruct I]. apply NT_in in I. destruct I as (k & it' & c & h & t & K & I' & H & E & ->). apply in_seq in K.
      destruct (IH k ltac:(lia) it' ltac:(lia) ltac:(lia) I') as (rs & hs & f & Q & C & T). exists rs, hs, (f ++ [c]). split; [exact Q|]. cbn. split; [apply (ic_nt g i k); try assumption; lia|].
      rewrite at_path_snoc, T. exact E.
Qed.
Lemma act_complete : forall g i j sh tl f, icov g i j sh tl f -> forall rs hs t, nth_error rgs g = Some (rs, hs) -> at_path (root (load_grammar hs rs)) f = Some t ->
  In {| gptr := t; ants := tl; feats := sh |} (act s g i j).
Proof.
  intros g i j sh tl f H. induction H as [L SD|p sh tl f a x C IH A NE AL|p sh tl f a x C IH A NE AL|k j sh tl f c h C IH L L2 H AL]; intros rs hs t Q T.
  - cbn in T. injection T as <-. rewrite (in_seed _ _ _ _ _ _ _ _ _ _ inv). apply seeds_in. split; [exact L|]. split; [exact SD|]. exists rs, hs. auto.
  - destruct (arc_len _ _ _ A) as (X1 & X2 & X3). pose proof (icov_le _ _ _ _ _ _ C) as LE. rewrite at_path_snoc in T. destruct (at_path (root (load_grammar hs rs)) f) as [t0|] eqn:T0; [|discriminate].
    specialize (IH rs hs t0 Q T0). eapply Permutation_in; [symmetry; apply act_eq; lia|]. apply in_app_iff. left. apply inflow_in. exists p, a, x. eexists. split; [lia|]. split; [exact AL|]. split; [exact A|]. split; [reflexivity|]. split; [exact IH|].
    unfold ExtendTerminal. destruct (Z.eqb_spec (label x) kEPS); [contradiction|]. cbn [gptr]. rewrite T. left. reflexivity.
  - destruct (arc_len _ _ _ A) as (X1 & X2 & X3). pose proof (icov_le _ _ _ _ _ _ C) as LE.
    specialize (IH rs hs t Q T). eapply Permutation_in; [symmetry; apply act_eq; lia|]. apply in_app_iff. left. apply inflow_in. exists p, a, x. eexists. split; [lia|]. split; [exact AL|]. split; [exact A|]. split; [reflexivity|]. split; [exact IH|].
    unfold ExtendTerminal. destruct (Z.eqb_spec (label x) kEPS); [|contradiction]. left. reflexivity.
  - pose proof (icov_le _ _ _ _ _ _ C) as LE. rewrite at_path_snoc in T. destruct (at_path (root (load_grammar hs rs)) f) as [t0|] eqn:T0; [|discriminate].
    specialize (IH rs hs t0 Q T0). eapply Permutation_in; [symmetry; apply act_eq; lia|]. apply in_app_iff. right. rewrite AL. apply NT_in. exists k. eexists. exists c, h, t. split; [apply in_seq; lia|]. split; [exact IH|]. auto.
Qed.

(** ** Edges *)
Lemma span_ok_of : forall tl p h, In (tl, p, h) fe -> p_i p < p_j p /\ p_j p <= NN.
Proof.
  intros tl p h I. pose proof (co_head _ _ _ _ core _ _ _ I) as H. destruct (le_lt_dec (p_j p) (p_i p)) as [L|L].
  - rewrite (in_not _ _ _ _ _ _ _ _ _ _ inv) in H by lia. destruct H.
  - split; [exact L|]. destruct (le_lt_dec (p_j p) NN) as [L'|L']; [exact L'|]. rewrite (in_not _ _ _ _ _ _ _ _ _ _ inv) in H by lia. destruct H.
Qed.
Lemma map_place : forall i j c h, In (c, h) (nodemap s i j) -> i < j /\ j <= NN.
Proof. intros i j c h H. destruct (co_edge _ _ _ _ core _ _ _ _ H) as (tl & p & E & <- & <- & _). exact (span_ok_of _ _ _ E). Qed.
Lemma in_rules : forall g rs hs r, nth_error rgs g = Some (rs, hs) -> In r rs -> In r rules.
Proof. intros g rs hs r Q I. apply in_flat_map. exists (rs, hs). split; [exact (nth_error_In _ _ Q)|exact I]. Qed.
Lemma bin_in : forall hs rs p t r, at_path (root (load_grammar hs rs)) p = Some t -> (In r (GetRules t) <-> In r rs /\ rf r = p /\ IsUnary r = false).
Proof.
  intros hs rs p t r T. destruct (load_ok hs rs) as (_ & _ & B & _). specialize (B p). unfold bin in B. rewrite T in B. rewrite B, filter_In. unfold plain.
  destruct (list_eq_dec Z.eq_dec (rf r) p); [|intuition discriminate]. rewrite negb_true_iff. tauto.
Qed.
Lemma espan_in : forall i j r sh tl, In (r, sh, tl) (espan fe i j) <-> exists h, In (tl, {| p_rule := r; p_feats := sh; p_i := i; p_j := j |}, h) fe.
Proof.
  intros i j r sh tl. unfold espan. rewrite in_map_iff. split.
  - intros (((tl', p), h) & D & I). apply filter_In in I. destruct I as (I & O). cbn in D, O. apply andb_prop in O. destruct O as (O1 & O2). apply Nat.eqb_eq in O1, O2. destruct p as [pr pf pi pj]. cbn in *.
    injection D as -> -> ->. subst. exists h. exact I.
  - intros (h & I). eexists. split; [|apply filter_In; split; [exact I|]]; [reflexivity|]. cbn. rewrite !Nat.eqb_refl. reflexivity.
Qed.

Lemma edge_rule : forall tl p h, In (tl, p, h) fe -> In (p_rule p) rules.
Proof.
  intros tl p h I. destruct (span_ok_of _ _ _ I) as (L1 & L2). pose proof (in_done _ _ _ _ _ _ _ _ _ _ inv _ _ L1 L2 ltac:(lia)) as D.
  assert (E : In (p_rule p, p_feats p, tl) (espan fe (p_i p) (p_j p))) by (apply espan_in; exists h; destruct p; exact I).
  eapply Permutation_in in E; [|exact D]. apply in_app_iff in E. destruct E as [E|E].
  - unfold rules_part in E. apply in_flat_map in E. destruct E as (g & _ & E). destruct (al g (p_i p) (p_j p)) eqn:AL; [|destruct E]. apply in_flat_map in E. destruct E as (it & IT & E).
    unfold item_edges in E. apply in_map_iff in E. destruct E as (r & [= -> _ _] & R).
    assert (IT' : In it (act s g (p_i p) (p_j p))).
    { eapply Permutation_in; [symmetry; apply act_eq; assumption|]. unfold cellpre in IT. apply in_app_iff in IT. apply in_app_iff. destruct IT as [IT|IT]; [left; exact IT|right]. rewrite AL in *.
      unfold NT in *. apply in_flat_map in IT. destruct IT as (k & K & IT). apply in_flat_map. exists k. split; [|exact IT]. apply in_seq in K. apply in_seq. lia. }
    destruct (act_sound g _ _ it (Nat.lt_le_incl _ _ L1) L2 IT') as (rs & hs & f & Q & _ & T). apply (bin_in _ _ _ _ _ T) in R. eapply in_rules; [exact Q|apply R].
  - apply in_flat_map in E. destruct E as (nd & _ & E). unfold unary_edges in E. apply in_flat_map in E. destruct E as (r & R & E). destruct (Z.eqb _ _); [|destruct E]. destruct E as [[= -> _ _]|[]]. apply us_in, R.
Qed.
Lemma cat_neg : forall i j c h, In (c, h) (nodemap s i j) -> (c < 0)%Z.
Proof. intros i j c h H. destruct (co_edge _ _ _ _ core _ _ _ _ H) as (tl & p & E & _ & _ & <-). exact (proj1 (wf _ (edge_rule _ _ _ E))). Qed.
Lemma unary_single : forall r c, wf_rule r -> (c < 0)%Z -> rf r = [c] -> IsUnary r = true.
Proof. intros r c (_ & A) N R. unfold IsUnary. rewrite A, R. cbn. apply Z.ltb_lt in N. rewrite N. reflexivity. Qed.

Lemma espan_eq : forall i j, i < j -> j <= NN -> Permutation (espan fe i j)
  (flat_map (fun g => if al g i j then flat_map item_edges (act s g i j) else []) (seq 0 (length gs)) ++ flat_map (unary_edges us fn) (chart s i j)).
Proof.
  intros i j L1 L2. rewrite (in_done _ _ _ _ _ _ _ _ _ _ inv _ _ L1 L2) by lia. apply Permutation_app_tail. unfold rules_part.
  induction (seq 0 (length gs)) as [|g l IH]; [apply perm_nil|]. cbn [flat_map]. apply Permutation_app; [|exact IH]. destruct (al g i j) eqn:AL; [|apply perm_nil].
  rewrite (Permutation_flat_map item_edges (act_eq g i j L1 L2)). unfold cellpre. rewrite AL, !flat_map_app. apply Permutation_app_head.
  replace (j - i) with (S (j - S i)) by lia. cbn [seq]. unfold NT at 2. cbn [flat_map]. rewrite flat_map_app. fold (NT fn s g i j (seq (S i) (j - S i))).
  replace (flat_map item_edges (nts fn (act s g i i) (chart s i j))) with (@nil (rule * shape * list nat)); [reflexivity|].
  assert (Z : forall it, In it (nts fn (act s g i i) (chart s i j)) -> item_edges it = []).
  { intros it I. assert (I' : In it (NT fn s g i j [i])) by (unfold NT; cbn; rewrite app_nil_r; exact I). apply NT_in in I'. destruct I' as (k & it' & c & h & t & [<-|[]] & IA & H & E & ->).
    rewrite (in_seed _ _ _ _ _ _ _ _ _ _ inv) in IA. apply seeds_in in IA. destruct IA as (_ & _ & rs & hs & Q & ->). unfold item_edges. cbn [gptr feats ants] in *.
    destruct (GetRules t) as [|r q] eqn:G; [reflexivity|]. exfalso. assert (R : In r (GetRules t)) by (rewrite G; left; reflexivity).
    assert (T : at_path (root (load_grammar hs rs)) [c] = Some t) by (cbn; rewrite E; reflexivity). apply (bin_in _ _ _ _ _ T) in R. destruct R as (R1 & R2 & R3).
    rewrite (unary_single r c) in R3; [discriminate|apply wf; eapply in_rules; [exact Q|exact R1]|exact (cat_neg _ _ _ _ H)|exact R2]. }
  clear -Z. induction (nts fn (act s g i i) (chart s i j)) as [|it l IH]; [reflexivity|]. cbn. rewrite (Z it (or_introl eq_refl)). cbn. apply IH. intros x X. apply Z. right. exact X.
Qed.

Lemma edge_in : forall i j r sh tl, In (r, sh, tl) (espan fe i j) <-> i < j /\ j <= NN /\
  ((exists g rs hs, nth_error rgs g = Some (rs, hs) /\ hs i j (dist i j) = true /\ In r rs /\ IsUnary r = false /\ icov g i j sh tl (rf r)) \/
   (In r us /\ sh = [None] /\ exists c h, tl = [h] /\ rf r = [c] /\ In (c, h) (nodemap s i j))).
Proof.
  intros i j r sh tl. split.
  - intros I. pose proof I as I0. apply espan_in in I0. destruct I0 as (h0 & I0). destruct (span_ok_of _ _ _ I0) as (L1 & L2). cbn in L1, L2. split; [exact L1|]. split; [exact L2|].
    eapply Permutation_in in I; [|apply espan_eq; assumption]. apply in_app_iff in I. destruct I as [I|I]; [left|right].
    + apply in_flat_map in I. destruct I as (g & _ & I). destruct (al g i j) eqn:AL; [|destruct I]. apply in_flat_map in I. destruct I as (it & IT & E). unfold item_edges in E. apply in_map_iff in E. destruct E as (r' & [= -> <- <-] & R).
      destruct (act_sound g _ _ it (Nat.lt_le_incl _ _ L1) L2 IT) as (rs & hs & f & Q & C & T). apply (bin_in _ _ _ _ _ T) in R. destruct R as (R1 & R2 & R3). subst f. exists g, rs, hs. apply al_some in AL. destruct AL as (rs' & hs' & Q' & AL).
      rewrite Q in Q'. injection Q' as <- <-. auto.
    + apply in_flat_map in I. destruct I as (nd & N & I). unfold unary_edges in I. apply in_flat_map in I. destruct I as (r' & R & E). apply chart_in in N. destruct N as (c & N). rewrite (cat_of _ _ _ _ N) in E.
      destruct (Z.eqb_spec (rhs r') c) as [EC|]; [|destruct E]. destruct E as [[= -> <- <-]|[]]. split; [exact R|]. split; [reflexivity|]. exists c, nd. split; [reflexivity|]. split; [|exact N].
      destruct (us_in _ R) as (_ & U). unfold IsUnary in U. apply andb_prop in U. destruct U as (_ & U). apply Nat.eqb_eq in U. unfold rhs in EC. destruct (rf r) as [|y [|z w]]; try discriminate. cbn in EC. congruence.
  - intros (L1 & L2 & H). eapply Permutation_in; [symmetry; apply espan_eq; assumption|]. apply in_app_iff. destruct H as [(g & rs & hs & Q & AL & R & U & C)|(R & -> & c & h & -> & RF & H)]; [left|right].
    + assert (ALB : al g i j = true) by (apply al_some; exists rs, hs; auto). apply in_flat_map. exists g. split.
      * apply in_seq. split; [lia|]. unfold grammars. rewrite map_length. cbn. apply nth_error_Some. congruence.
      * rewrite ALB. destruct (load_ok hs rs) as (_ & _ & _ & PT). specialize (PT r (rf r) [] R). unfold plain in PT. rewrite U in PT. specialize (PT eq_refl (eq_sym (app_nil_r _))).
        destruct (at_path (root (load_grammar hs rs)) (rf r)) as [t|] eqn:T; [|contradiction]. apply in_flat_map. eexists. split; [exact (act_complete _ _ _ _ _ _ C rs hs t Q T)|]. unfold item_edges. cbn [gptr feats ants]. apply in_map_iff. exists r. split; [reflexivity|].
        apply (bin_in _ _ _ _ _ T). auto.
    + apply in_flat_map. exists h. split; [apply chart_in; exists c; exact H|]. unfold unary_edges. apply in_flat_map. exists r. split; [exact R|]. rewrite (cat_of _ _ _ _ H). unfold rhs. rewrite RF. cbn. rewrite Z.eqb_refl. left. reflexivity.
Qed.

(** ** No edge twice *)
Definition key (it : item) : shape * list nat := (feats it, ants it).
Lemma nd_key : forall (A K B : Type) (kk : A -> K) (f : A -> list B) l, NoDup (map kk l) -> (forall x, In x l -> NoDup (f x)) ->
  (forall x y z, In x l -> In y l -> In z (f x) -> In z (f y) -> kk x = kk y) -> NoDup (flat_map f l).
Proof.
  induction l as [|x l IH]; intros N H D; [constructor|]. cbn in *. inversion N as [|? ? NI N']; subst. apply NoDup_app_intro.
  - apply H. left. reflexivity.
  - apply IH; [exact N'|intros y Y; apply H; right; exact Y|]. intros a b z I J. apply D; right; assumption.
  - intros z Z1 Z2. apply in_flat_map in Z2. destruct Z2 as (y & Y & Z2). apply NI. rewrite (D x y z (or_introl eq_refl) (or_intror Y) Z1 Z2). apply in_map, Y.
Qed.
Lemma map_flat_map : forall (A B C : Type) (g : B -> C) (f : A -> list B) l, map g (flat_map f l) = flat_map (fun x => map g (f x)) l.
Proof. induction l as [|x l IH]; [reflexivity|]. cbn. rewrite map_app, IH. reflexivity. Qed.
Lemma NoDup_id : forall (A : Type) (l : list A), NoDup l -> NoDup (map (fun x => x) l).
Proof. intros A l H. rewrite map_id. exact H. Qed.
Lemma ext_key : forall p a w it z, In z (map key (ExtendTerminal kEPS p a w it)) -> z = (feats it ++ [Some (p, a)], ants it).
Proof.
  intros p a w it z I. unfold ExtendTerminal in I. destruct (Z.eqb w kEPS); [destruct I as [<-|[]]; reflexivity|]. destruct (Extend w (gptr it)); [|destruct I]. destruct I as [<-|[]]. reflexivity.
Qed.
Lemma Tm_key : forall ac p j z, In z (map key (Tm ac p j)) -> exists sh tl a, z = (sh ++ [Some (p, a)], tl).
Proof.
  intros ac p j z I. apply in_map_iff in I. destruct I as (it & <- & I). apply Tm_in in I. destruct I as (a & x & it' & _ & _ & _ & I).
  apply (in_map key) in I. apply ext_key in I. rewrite I. eauto.
Qed.
Lemma Tm_nd : forall ac p j, NoDup (map key ac) -> NoDup (map key (Tm ac p j)).
Proof.
  intros ac p j N. unfold ParserChartProofs.Tm. destruct (nth_error input p) as [xs|]; [|constructor]. rewrite map_flat_map. apply (nd_key _ _ _ fst).
  - rewrite combine_fst by (rewrite seq_length; reflexivity). apply seq_NoDup.
  - intros (a, x) _. cbn [fst snd]. destruct (Nat.eqb (p + len x) j); [|constructor]. rewrite map_flat_map. apply (nd_key _ _ _ key); [exact N| |].
    + intros it _. unfold ExtendTerminal. destruct (Z.eqb (label x) kEPS); [repeat constructor; intros []|]. destruct (Extend (label x) (gptr it)); [repeat constructor; intros []|constructor].
    + intros it it' z _ _ Z1 Z2. apply ext_key in Z1, Z2. rewrite Z1 in Z2. injection Z2 as Z2 Z3. apply app_inj_tail in Z2. unfold key. f_equal; [apply Z2|exact Z3].
  - intros (a, x) (b, y) z _ _ Z1 Z2. cbn [fst snd] in *. destruct (Nat.eqb _ j); [|destruct Z1]. destruct (Nat.eqb (p + len y) j); [|destruct Z2].
    rewrite map_flat_map in Z1, Z2. apply in_flat_map in Z1, Z2. destruct Z1 as (i1 & _ & Z1), Z2 as (i2 & _ & Z2). apply ext_key in Z1, Z2. rewrite Z1 in Z2. injection Z2 as Z2 _. apply app_inj_tail in Z2. destruct Z2 as (_ & [=]). assumption.
Qed.
Lemma chart_nd : forall i j, NoDup (chart s i j).
Proof.
  intros i j. rewrite (co_chart _ _ _ _ core). pose proof (co_keys _ _ _ _ core i j) as K. pose proof (co_cat _ _ _ _ core i j) as CC.
  induction (nodemap s i j) as [|(c, h) m IH]; [constructor|]. cbn in K. inversion K as [|? ? NI K']; subst. assert (REC : NoDup (map snd (filter (nongoal kGOAL) m))) by (apply IH; [exact K'|intros a b I; apply CC; right; exact I]).
  cbn. destruct (nongoal kGOAL (c, h)); [|exact REC]. cbn. constructor; [|exact REC]. intros I. apply in_map_iff in I. destruct I as ((c', h') & E & I). cbn in E. subst h'. apply filter_In in I. destruct I as (I & _).
  apply NI. apply in_map_iff. exists (c', h). split; [|exact I]. cbn. pose proof (CC c h (or_introl eq_refl)). pose proof (CC c' h (or_intror I)). congruence.
Qed.
Lemma ntx_key : forall it nd z, In z (map key (ntx fn it nd)) -> z = (feats it ++ [None], ants it ++ [nd]).
Proof. intros it nd z I. unfold ntx in I. destruct (Extend _ _); [|destruct I]. destruct I as [<-|[]]. reflexivity. Qed.
Lemma act_nd : forall g i j, i <= j -> j <= NN -> NoDup (map key (act s g i j)).
Proof.
  intros g i j. induction j as [j IH] using lt_wf_ind. intros L1 L2. destruct (Nat.eq_dec i j) as [<-|NE].
  - rewrite (in_seed _ _ _ _ _ _ _ _ _ _ inv). unfold seeds. destruct (nth_error gs g); [|constructor]. destruct (andb _ _); [|constructor]. repeat constructor. intros [].
  - rewrite (Permutation_map key (act_eq g i j ltac:(lia) L2)). rewrite map_app. apply NoDup_app_intro.
    + unfold inflow. rewrite map_flat_map. apply (nd_key _ _ _ (fun x => x)); [apply NoDup_id, seq_NoDup| |].
      * intros p P. apply in_seq in P. destruct (al g i (S p)); [|constructor]. apply Tm_nd, IH; lia.
      * intros p q z _ _ Z1 Z2. destruct (al g i (S p)); [|destruct Z1]. destruct (al g i (S q)); [|destruct Z2]. apply Tm_key in Z1, Z2. destruct Z1 as (sh & tl & a & ->), Z2 as (sh' & tl' & a' & Z2).
        injection Z2 as Z2 _. apply app_inj_tail in Z2. destruct Z2 as (_ & [=]). assumption.
    + destruct (al g i j); [|constructor]. unfold NT. rewrite map_flat_map. apply (nd_key _ _ _ (fun x => x)); [apply NoDup_id, seq_NoDup| |].
      * intros k K. apply in_seq in K. unfold nts. rewrite map_flat_map. apply (nd_key _ _ _ key); [apply IH; lia| |].
        -- intros it _. rewrite map_flat_map. apply (nd_key _ _ _ (fun x => x)); [apply NoDup_id, chart_nd| |].
           ++ intros nd _. unfold ntx. destruct (Extend _ _); [repeat constructor; intros []|constructor].
           ++ intros a b z _ _ Z1 Z2. apply ntx_key in Z1, Z2. rewrite Z1 in Z2. injection Z2 as Z2. apply app_inj_tail in Z2. apply Z2.
        -- intros it it' z _ _ Z1 Z2. rewrite map_flat_map in Z1, Z2. apply in_flat_map in Z1, Z2. destruct Z1 as (a & _ & Z1), Z2 as (b & _ & Z2). apply ntx_key in Z1, Z2. rewrite Z1 in Z2. injection Z2 as Z2 Z3.
           apply app_inj_tail in Z2, Z3. unfold key. f_equal; [apply Z2|apply Z3].
      * intros k l z _ _ Z1 Z2. unfold nts in Z1, Z2. rewrite map_flat_map in Z1, Z2. apply in_flat_map in Z1, Z2. destruct Z1 as (it & _ & Z1), Z2 as (it' & _ & Z2).
        rewrite map_flat_map in Z1, Z2. apply in_flat_map in Z1, Z2. destruct Z1 as (a & A & Z1), Z2 as (b & B & Z2). apply ntx_key in Z1, Z2. rewrite Z1 in Z2. injection Z2 as _ Z2.
        apply app_inj_tail in Z2. destruct Z2 as (_ & <-). apply chart_in in A, B. destruct A as (c & A), B as (c' & B). exact (proj1 (co_place _ _ _ _ core _ _ _ _ _ _ _ A B)).
    + intros z Z1 Z2. unfold inflow in Z1. rewrite map_flat_map in Z1. apply in_flat_map in Z1. destruct Z1 as (p & _ & Z1). destruct (al g i (S p)); [|destruct Z1]. apply Tm_key in Z1. destruct Z1 as (sh & tl & a & ->).
      destruct (al g i j); [|destruct Z2]. apply in_map_iff in Z2. destruct Z2 as (it & E & Z2). apply NT_in in Z2. destruct Z2 as (k & it' & c & h & t & _ & _ & _ & _ & ->). unfold key in E. cbn in E. injection E as E _.
      apply app_inj_tail in E. destruct E as (_ & [=]).
Qed.

Lemma nd_flat_nth : forall (A B : Type) (f : A -> list B) l a b x y r, NoDup (flat_map f l) -> nth_error l a = Some x -> nth_error l b = Some y -> In r (f x) -> In r (f y) -> a = b.
Proof.
  induction l as [|z l IH]; intros a b x y r N A1 B1 I J; [destruct a; discriminate|]. cbn in N.
  assert (DJ : forall w, In w (f z) -> In w (flat_map f l) -> False).
  { clear - N. induction (f z) as [|v q IHq]; [intros w []|]. cbn in N. inversion N as [|? ? NI N']; subst. intros w [->|W] W2; [apply NI, in_app_iff; right; exact W2|exact (IHq N' w W W2)]. }
  destruct a as [|a], b as [|b]; cbn in A1, B1; [reflexivity| | |].
  - injection A1 as ->. destruct (DJ r I). apply in_flat_map. exists y. split; [exact (nth_error_In _ _ B1)|exact J].
  - injection B1 as ->. destruct (DJ r J). apply in_flat_map. exists x. split; [exact (nth_error_In _ _ A1)|exact I].
  - f_equal. eapply IH; eauto. clear - N. induction (f z) as [|v q IHq]; [exact N|]. cbn in N. inversion N; auto.
Qed.
Lemma nd_part : forall (A B : Type) (f : A -> list B) l x, NoDup (flat_map f l) -> In x l -> NoDup (f x).
Proof.
  induction l as [|z l IH]; intros x N I; [destruct I|]. cbn in N. destruct I as [->|I].
  - clear - N. induction (f x) as [|v q IHq]; [constructor|]. cbn in N. inversion N as [|? ? NI N']; subst. constructor; [|exact (IHq N')]. intros H. apply NI, in_app_iff. left. exact H.
  - apply IH; [|exact I]. clear - N. induction (f z) as [|v q IHq]; [exact N|]. cbn in N. inversion N; auto.
Qed.

Lemma espan_nd : forall i j, i < j -> j <= NN -> NoDup (espan fe i j).
Proof.
  intros i j L1 L2. rewrite (espan_eq i j L1 L2). apply NoDup_app_intro.
  - apply (nd_key _ _ _ (fun x => x)); [apply NoDup_id, seq_NoDup| |].
    + intros g _. destruct (al g i j); [|constructor]. apply (nd_key _ _ _ key); [apply act_nd; lia| |].
      * intros it I. destruct (act_sound g i j it ltac:(lia) L2 I) as (rs & hs & f & Q & _ & T). unfold item_edges. apply FinFun.Injective_map_NoDup; [intros a b [=]; assumption|].
        destruct (load_ok hs rs) as (_ & _ & B & _). specialize (B f). unfold bin in B. rewrite T in B. rewrite B. apply NoDup_filter. exact (nd_part _ _ fst rgs (rs, hs) ndr (nth_error_In _ _ Q)).
      * intros it it' z _ _ Z1 Z2. unfold item_edges in Z1, Z2. apply in_map_iff in Z1, Z2. destruct Z1 as (r & <- & _), Z2 as (r' & [=] & _). unfold key. congruence.
    + intros g g' z _ _ Z1 Z2. destruct (al g i j); [|destruct Z1]. destruct (al g' i j); [|destruct Z2]. apply in_flat_map in Z1, Z2. destruct Z1 as (it & I & Z1), Z2 as (it' & I' & Z2).
      unfold item_edges in Z1, Z2. apply in_map_iff in Z1, Z2. destruct Z1 as (r & <- & R), Z2 as (r' & [= -> _ _] & R').
      destruct (act_sound g i j it ltac:(lia) L2 I) as (rs & hs & f & Q & _ & T). destruct (act_sound g' i j it' ltac:(lia) L2 I') as (rs' & hs' & f' & Q' & _ & T').
      apply (bin_in _ _ _ _ _ T) in R. apply (bin_in _ _ _ _ _ T') in R'. exact (nd_flat_nth _ _ fst rgs g g' (rs, hs) (rs', hs') r ndr Q Q' (proj1 R) (proj1 R')).
  - apply (nd_key _ _ _ (fun x => x)); [apply NoDup_id, chart_nd| |].
    + intros nd _. unfold unary_edges. apply (nd_key _ _ _ (fun x => x)); [apply NoDup_id, us_nd| |].
      * intros r _. destruct (Z.eqb _ _); [repeat constructor; intros []|constructor].
      * intros r r' z _ _ Z1 Z2. destruct (Z.eqb (rhs r) _); [|destruct Z1]. destruct (Z.eqb (rhs r') _); [|destruct Z2]. destruct Z1 as [<-|[]], Z2 as [[=]|[]]. congruence.
    + intros a b z _ _ Z1 Z2. unfold unary_edges in Z1, Z2. apply in_flat_map in Z1, Z2. destruct Z1 as (r & _ & Z1), Z2 as (r' & _ & Z2).
      destruct (Z.eqb (rhs r) _); [|destruct Z1]. destruct (Z.eqb (rhs r') _); [|destruct Z2]. destruct Z1 as [<-|[]], Z2 as [[=]|[]]. congruence.
  - intros z Z1 Z2. apply in_flat_map in Z1. destruct Z1 as (g & _ & Z1). destruct (al g i j); [|destruct Z1]. apply in_flat_map in Z1. destruct Z1 as (it & I & Z1). unfold item_edges in Z1. apply in_map_iff in Z1. destruct Z1 as (r & <- & R).
    destruct (act_sound g i j it ltac:(lia) L2 I) as (rs & hs & f & Q & _ & T). apply (bin_in _ _ _ _ _ T) in R. destruct R as (_ & _ & U).
    apply in_flat_map in Z2. destruct Z2 as (nd & _ & Z2). unfold unary_edges in Z2. apply in_flat_map in Z2. destruct Z2 as (r' & R' & Z2). destruct (Z.eqb _ _); [|destruct Z2]. destruct Z2 as [[= -> _ _]|[]].
    destruct (us_in _ R') as (_ & U'). congruence.
Qed.

(** ** Derivations over the list of edges *)
Inductive fder : nat -> tree -> Prop :=
| fd : forall e tl p h ts, nth_error fe e = Some (tl, p, h) -> Forall2 fder tl ts -> fder h (Tree e ts).
Fixpoint fread (t : tree) : option parse :=
  match t with
  | Tree e ts =>
      match nth_error fe e, all_some (map fread ts) with
      | Some (_, p, _), Some ds => option_map (PT (p_rule p)) (fill_steps (p_feats p) ds)
      | _, _ => None
      end
  end.
Lemma all_some_map : forall (A B : Type) (f : A -> option B) l ds, all_some (map f l) = Some ds <-> Forall2 (fun t d => f t = Some d) l ds.
Proof.
  induction l as [|t l IH]; intros ds; cbn.
  - split; [intros [= <-]; constructor|]. intros H. inversion H. reflexivity.
  - split.
    + destruct (f t) as [x|] eqn:E; [|discriminate]. destruct (all_some (map f l)) as [r|] eqn:R; [|discriminate]. cbn. intros [= <-]. constructor; [exact E|apply IH; reflexivity].
    + intros H. inversion H as [|? d ? r E F]; subst. rewrite E. apply IH in F. rewrite F. reflexivity.
Qed.

Definition gspec : list (list rule * (nat -> nat -> bool)) := map (fun q => (fst q, fun i j => snd q i j (dist i j))) rgs.
Notation parses := (ParserSpec.parses kEPS input gspec us).
Notation covers := (ParserSpec.covers kEPS input gspec us).
Scheme parses_m := Minimality for ParserSpec.parses Sort Prop with covers_m := Minimality for ParserSpec.covers Sort Prop.
Combined Scheme parses_covers from parses_m, covers_m.

Lemma fill_word : forall sh ds st a, fill_steps sh ds = Some st -> fill_steps (sh ++ [Some a]) ds = Some (st ++ [inl a]).
Proof.
  induction sh as [|[b|] sh IH]; intros ds st a H; cbn in *.
  - destruct ds; [|discriminate]. injection H as <-. reflexivity.
  - destruct (fill_steps sh ds) as [q|] eqn:E; [|discriminate]. cbn in H. injection H as <-. rewrite (IH _ _ a E). reflexivity.
  - destruct ds as [|d ds]; [discriminate|]. destruct (fill_steps sh ds) as [q|] eqn:E; [|discriminate]. cbn in H. injection H as <-. rewrite (IH _ _ a E). reflexivity.
Qed.
Lemma fill_sub : forall sh ds st d, fill_steps sh ds = Some st -> fill_steps (sh ++ [None]) (ds ++ [d]) = Some (st ++ [inr d]).
Proof.
  induction sh as [|[b|] sh IH]; intros ds st d H; cbn in *.
  - destruct ds; [|discriminate]. injection H as <-. reflexivity.
  - destruct (fill_steps sh ds) as [q|] eqn:E; [|discriminate]. cbn in H. injection H as <-. rewrite (IH _ _ d E). reflexivity.
  - destruct ds as [|d' ds]; [discriminate|]. cbn. destruct (fill_steps sh ds) as [q|] eqn:E; [|discriminate]. cbn in H. injection H as <-. rewrite (IH _ _ d E). reflexivity.
Qed.
Lemma fill_inv : forall sh ds sh' ds' st, fill_steps sh ds = Some st -> fill_steps sh' ds' = Some st -> sh = sh' /\ ds = ds'.
Proof.
  induction sh as [|[b|] sh IH]; intros ds sh' ds' st H H'; cbn in H.
  - destruct ds; [|discriminate]. injection H as <-. destruct sh' as [|[b|] sh']; cbn in H'.
    + destruct ds'; [auto|discriminate].
    + destruct (fill_steps sh' ds'); discriminate.
    + destruct ds'; [discriminate|]. destruct (fill_steps sh' ds'); discriminate.
  - destruct (fill_steps sh ds) as [q|] eqn:E; [|discriminate]. cbn in H. injection H as <-. destruct sh' as [|[b'|] sh']; cbn in H'.
    + destruct ds'; discriminate.
    + destruct (fill_steps sh' ds') as [q'|] eqn:E'; [|discriminate]. cbn in H'. injection H' as -> ->. destruct (IH _ _ _ _ E E') as (-> & ->). auto.
    + destruct ds'; [discriminate|]. destruct (fill_steps sh' ds'); discriminate.
  - destruct ds as [|d ds]; [discriminate|]. destruct (fill_steps sh ds) as [q|] eqn:E; [|discriminate]. cbn in H. injection H as <-. destruct sh' as [|[b'|] sh']; cbn in H'.
    + destruct ds'; discriminate.
    + destruct (fill_steps sh' ds') as [q'|] eqn:E'; discriminate.
    + destruct ds' as [|d' ds']; [discriminate|]. destruct (fill_steps sh' ds') as [q'|] eqn:E'; [|discriminate]. cbn in H'. injection H' as -> ->. destruct (IH _ _ _ _ E E') as (-> & ->). auto.
Qed.

Lemma covers_app : forall i k steps f, covers i k steps f -> forall j steps' f', covers k j steps' f' -> covers i j (steps ++ steps') (f ++ f').
Proof.
  intros i k steps f H. induction H as [i|i a x j st f A N C IH|i a x j st f A N C IH|i k j d c st f D C IH]; intros j' st' f' C'; cbn.
  - exact C'.
  - apply c_word; auto.
  - apply (c_eps _ _ _ _ i a x); auto.
  - apply (c_sub _ _ _ _ i k j' d); auto.
Qed.
Definition par (h : nat) (d : parse) : Prop := forall k l c, In (c, h) (nodemap s k l) -> parses d k l c.
Lemma icov_covers : forall g i j sh tl f, icov g i j sh tl f -> forall ds, Forall2 par tl ds -> exists steps, fill_steps sh ds = Some steps /\ covers i j steps f.
Proof.
  intros g i j sh tl f H. induction H as [L SD|p sh tl f a x C IH A NE AL|p sh tl f a x C IH A NE AL|k j sh tl f c h C IH L L2 H AL]; intros ds F.
  - inversion F. subst. exists []. split; [reflexivity|constructor].
  - destruct (IH ds F) as (st & FS & CV). exists (st ++ [inl (p, a)]). split; [apply fill_word, FS|]. eapply covers_app; [exact CV|]. eapply c_word; [exact A|exact NE|constructor].
  - destruct (IH ds F) as (st & FS & CV). exists (st ++ [inl (p, a)]). split; [apply fill_word, FS|]. rewrite <- (app_nil_r f). eapply covers_app; [exact CV|]. eapply c_eps; [exact A|exact NE|constructor].
  - apply Forall2_app_inv_l in F. destruct F as (ds1 & ds2 & F1 & F2 & ->). inversion F2 as [|? d ? q P F3]; subst. inversion F3; subst. destruct (IH ds1 F1) as (st & FS & CV). exists (st ++ [inr d]). split; [apply fill_sub, FS|].
    eapply covers_app; [exact CV|]. eapply c_sub; [apply P, H|constructor].
Qed.

Lemma edge_desc : forall e tl p h, nth_error fe e = Some (tl, p, h) -> In (p_rule p, p_feats p, tl) (espan fe (p_i p) (p_j p)).
Proof. intros e tl p h E. apply espan_in. exists h. apply nth_error_In in E. destruct p. exact E. Qed.
Lemma head_place : forall e tl p h i j c, nth_error fe e = Some (tl, p, h) -> In (c, h) (nodemap s i j) -> p_i p = i /\ p_j p = j /\ lhs (p_rule p) = c.
Proof.
  intros e tl p h i j c E H. pose proof (co_head _ _ _ _ core _ _ _ (nth_error_In _ _ E)) as H'. destruct (co_place _ _ _ _ core _ _ _ _ _ _ _ H' H) as (A & B). split; [exact A|]. split; [exact B|].
  pose proof (co_cat _ _ _ _ core _ _ _ _ H). pose proof (co_cat _ _ _ _ core _ _ _ _ H'). congruence.
Qed.

Lemma sound : forall t h, fder h t -> exists d, fread t = Some d /\ par h d.
Proof.
  intros t. induction t as [e ts IH] using tree_ind'. intros h D. inversion D as [? tl p ? ? E F]; subst.
  assert (CH : exists ds, all_some (map fread ts) = Some ds /\ Forall2 par tl ds).
  { clear - IH F. revert tl F. induction ts as [|t ts IHt]; intros tl F; inversion F as [|h ? tl' ? D F']; subst; [exists []; split; [reflexivity|constructor]|].
    inversion IH as [|? ? P Q]; subst. destruct (P h D) as (d & R & PD). destruct (IHt Q tl' F') as (ds & RS & PS). exists (d :: ds). cbn. rewrite R, RS. split; [reflexivity|constructor; assumption]. }
  destruct CH as (ds & AS & PS). cbn [fread]. rewrite E, AS.
  pose proof (edge_desc _ _ _ _ E) as I. apply edge_in in I. destruct I as (L1 & L2 & [(g & rs & hs & Q & AL & R & U & C)|(R & SH & c & h' & TL & RF & H)]).
  - destruct (icov_covers _ _ _ _ _ _ C ds PS) as (st & FS & CV). rewrite FS. eexists. split; [reflexivity|]. intros i j c H. destruct (head_place _ _ _ _ _ _ _ E H) as (<- & <- & <-).
    apply (ps_rule _ _ _ _ rs (fun i j => hs i j (dist i j))); auto. apply in_map_iff. exists (rs, hs). split; [reflexivity|exact (nth_error_In _ _ Q)].
  - subst tl. inversion PS as [|? d ? q P PS']; subst. inversion PS'; subst. rewrite SH. cbn. eexists. split; [reflexivity|]. intros i j c' H'. destruct (head_place _ _ _ _ _ _ _ E H') as (<- & <- & <-).
    eapply ps_unary; [exact R|exact RF|]. apply P, H.
Qed.

Hypothesis pc : forall rs hs, In (rs, hs) rgs -> prefix_closed (length input) hs dist.
Definition realized (h : nat) (d : parse) : Prop := exists t, fder h t /\ fread t = Some d.
Lemma realize_edge : forall i j r sh tl ds steps, In (r, sh, tl) (espan fe i j) -> Forall2 realized tl ds -> fill_steps sh ds = Some steps ->
  exists h, In (lhs r, h) (nodemap s i j) /\ realized h (PT r steps).
Proof.
  intros i j r sh tl ds steps I F FS. apply espan_in in I. destruct I as (h & I). pose proof (co_head _ _ _ _ core _ _ _ I) as H. cbn in H. exists h. split; [exact H|].
  apply In_nth_error in I. destruct I as (e & E). assert (TS : exists ts, Forall2 fder tl ts /\ Forall2 (fun t d => fread t = Some d) ts ds).
  { clear - F. induction F as [|a b l m (t & D & R) F IH]; [exists []; split; constructor|]. destruct IH as (ts & X & Y). exists (t :: ts). split; constructor; assumption. }
  destruct TS as (ts & X & Y). exists (Tree e ts). split; [econstructor; [exact E|exact X]|]. cbn [fread]. rewrite E. apply all_some_map in Y. rewrite Y. cbn. rewrite FS. reflexivity.
Qed.
Lemma complete :
  (forall d i j c, parses d i j c -> exists h, In (c, h) (nodemap s i j) /\ realized h d) /\
  (forall i j steps f, covers i j steps f -> i <= j /\ (i < j -> j <= NN) /\ forall g i0 sh tl f0, icov g i0 i sh tl f0 -> (forall k, i0 < k <= j -> al g i0 k = true) ->
     exists sh' tl' ds, icov g i0 j (sh ++ sh') (tl ++ tl') (f0 ++ f) /\ Forall2 realized tl' ds /\ fill_steps sh' ds = Some steps).
Proof.
  apply parses_covers.
  - intros rs ok r steps i j I R U L OK C (_ & IN & Q). apply in_map_iff in I. destruct I as ((rs', hs) & [= -> <-] & I). cbn [snd] in OK. destruct (pc _ _ I i j (conj L (IN L)) OK) as (SD & PX).
    apply In_nth_error in I. destruct I as (g & G). destruct (Q g i [] [] []) as (sh & tl & ds & C' & F & FS).
    + constructor; [specialize (IN L); lia|]. unfold seeded. rewrite G. exact SD.
    + intros k K. apply al_some. exists rs, hs. split; [exact G|]. apply PX, K.
    + cbn [app] in C'. apply (realize_edge i j r sh tl ds steps); [|exact F|exact FS]. apply edge_in. split; [exact L|]. split; [apply (icov_le _ _ _ _ _ _ C')|]. left. exists g, rs, hs. auto.
  - intros r d i j c R RF _ (h & H & RL). apply (realize_edge i j r [None] [h] [d]); [|constructor; [exact RL|constructor]|reflexivity].
    destruct (map_place _ _ _ _ H). apply edge_in. split; [assumption|]. split; [assumption|]. right. split; [exact R|]. split; [reflexivity|]. exists c, h. auto.
  - intros i. split; [lia|]. split; [lia|]. intros g i0 sh tl f0 C _. exists [], [], []. rewrite !app_nil_r. split; [exact C|]. split; [constructor|reflexivity].
  - intros i a x j st f A NE _ (L & LJ & Q). destruct (arc_len _ _ _ A) as (X1 & X2 & X3). split; [lia|]. split; [lia|]. intros g i0 sh tl f0 C AL. pose proof (icov_le _ _ _ _ _ _ C) as LE.
    destruct (Q g i0 (sh ++ [Some (i, a)]) tl (f0 ++ [label x])) as (sh' & tl' & ds & C' & F & FS); [apply (ic_word g i0 i _ _ _ a x); auto; apply AL; lia|exact AL|].
    exists (Some (i, a) :: sh'), tl', ds. rewrite <- !app_assoc in C'. split; [exact C'|]. split; [exact F|]. cbn. rewrite FS. reflexivity.
  - intros i a x j st f A NE _ (L & LJ & Q). destruct (arc_len _ _ _ A) as (X1 & X2 & X3). split; [lia|]. split; [lia|]. intros g i0 sh tl f0 C AL. pose proof (icov_le _ _ _ _ _ _ C) as LE.
    destruct (Q g i0 (sh ++ [Some (i, a)]) tl f0) as (sh' & tl' & ds & C' & F & FS); [apply (ic_eps g i0 i _ _ _ a x); auto; apply AL; lia|exact AL|].
    exists (Some (i, a) :: sh'), tl', ds. rewrite <- !app_assoc in C'. split; [exact C'|]. split; [exact F|]. cbn. rewrite FS. reflexivity.
  - intros i k j d c st f _ (h & H & RL) _ (L & LJ & Q). destruct (map_place _ _ _ _ H) as (M1 & M2). split; [lia|]. split; [lia|]. intros g i0 sh tl f0 C AL. pose proof (icov_le _ _ _ _ _ _ C) as LE.
    destruct (Q g i0 (sh ++ [None]) (tl ++ [h]) (f0 ++ [c])) as (sh' & tl' & ds & C' & F & FS); [apply (ic_nt g i0 i); auto; apply AL; lia|exact AL|].
    exists (None :: sh'), (h :: tl'), (d :: ds). rewrite <- !app_assoc in C'. split; [exact C'|]. split; [constructor; assumption|]. cbn. rewrite FS. reflexivity.
Qed.

(** ** No parse twice *)
Lemma arc_fun : forall p a x y, arc_at input p a x -> arc_at input p a y -> x = y.
Proof. intros p a x y (l & A & B) (l' & A' & B'). congruence. Qed.
Lemma parse_det :
  (forall d i j c, parses d i j c -> forall j' c', parses d i j' c' -> j = j' /\ c = c') /\
  (forall i j steps f, covers i j steps f -> forall j' f', covers i j' steps f' -> j = j').
Proof.
  apply parses_covers.
  - intros rs ok r steps i j _ _ _ _ _ _ IH j' c' H. inversion H as [? ? ? ? ? ? ? ? ? ? ? C|? d ? ? c ? ? D]; subst.
    + split; [eapply IH, C|reflexivity].
    + split; [|reflexivity]. eapply IH. eapply c_sub; [exact D|constructor].
  - intros r d i j c _ _ _ IH j' c' H. inversion H as [? ? ? ? ? ? ? ? ? ? ? C|? ? ? ? c0 ? ? D]; subst.
    + inversion C as [| | |? k ? ? c0 ? ? D C']; subst. inversion C'; subst. split; [apply (IH _ _ D)|reflexivity].
    + split; [apply (IH _ _ D)|reflexivity].
  - intros i j' f' H. inversion H. reflexivity.
  - intros i a x j st f A _ _ IH j' f' H. inversion H as [|? ? y ? ? ? A' _ C|? ? y ? ? ? A' _ C|]; subst; rewrite (arc_fun _ _ _ _ A A') in IH; eapply IH, C.
  - intros i a x j st f A _ _ IH j' f' H. inversion H as [|? ? y ? ? ? A' _ C|? ? y ? ? ? A' _ C|]; subst; rewrite (arc_fun _ _ _ _ A A') in IH; eapply IH, C.
  - intros i k j d c st f _ IHD _ IH j' f' H. inversion H as [| | |? k' ? ? c' ? ? D C]; subst. destruct (IHD _ _ D) as (-> & _). eapply IH, C.
Qed.
Lemma map_fun : forall i j c h h', In (c, h) (nodemap s i j) -> In (c, h') (nodemap s i j) -> h = h'.
Proof. intros i j c h h' A B. exact (in_key_unique _ _ _ _ _ (co_keys _ _ _ _ core i j) A B). Qed.

Lemma icov_tails : forall g i j sh tl f, icov g i j sh tl f -> forall g' j' tl' f' ds, icov g' i j' sh tl' f' -> Forall2 par tl ds -> Forall2 par tl' ds -> j = j' /\ tl = tl'.
Proof.
  assert (SN : forall (A : Type) (l l' : list A) x y, l ++ [x] = l' ++ [y] -> l = l' /\ x = y) by (intros A l l' x y H; apply app_inj_tail; exact H).
  intros g i j sh tl f H. induction H as [L SD|p sh tl f a x C IH A NE AL|p sh tl f a x C IH A NE AL|k j sh tl f c h C IH L L2 H AL]; intros g' j' tl' f' ds C' F F'.
  - remember [] as z eqn:Z in C'. destruct C' as [| | |]; try (destruct sh; discriminate). auto.
  - remember (sh ++ [Some (p, a)]) as z eqn:Z in C'. destruct C' as [? ?|p' sh' tl' f' a' y C' A' NE' AL'|p' sh' tl' f' a' y C' A' NE' AL'|? ? sh' ? ? ? ? ? ? ? ? ?]; [destruct sh; discriminate| | |apply SN in Z; destruct Z; discriminate].
    + apply SN in Z. destruct Z as (-> & [= -> ->]). rewrite (arc_fun _ _ _ _ A A'). destruct (IH _ _ _ _ _ C' F F'). auto.
    + apply SN in Z. destruct Z as (-> & [= -> ->]). rewrite (arc_fun _ _ _ _ A A'). destruct (IH _ _ _ _ _ C' F F'). auto.
  - remember (sh ++ [Some (p, a)]) as z eqn:Z in C'. destruct C' as [? ?|p' sh' tl' f' a' y C' A' NE' AL'|p' sh' tl' f' a' y C' A' NE' AL'|? ? sh' ? ? ? ? ? ? ? ? ?]; [destruct sh; discriminate| | |apply SN in Z; destruct Z; discriminate].
    + apply SN in Z. destruct Z as (-> & [= -> ->]). rewrite (arc_fun _ _ _ _ A A'). destruct (IH _ _ _ _ _ C' F F'). auto.
    + apply SN in Z. destruct Z as (-> & [= -> ->]). rewrite (arc_fun _ _ _ _ A A'). destruct (IH _ _ _ _ _ C' F F'). auto.
  - remember (sh ++ [None]) as z eqn:Z in C'. destruct C' as [? ?|p' sh' tl' f' a' y C' A' NE' AL'|p' sh' tl' f' a' y C' A' NE' AL'|k' j' sh' tl' f' c' h' C' L' L2' H' AL']; [destruct sh; discriminate|apply SN in Z; destruct Z; discriminate|apply SN in Z; destruct Z; discriminate|].
    apply SN in Z. destruct Z as (-> & _). apply Forall2_app_inv_l in F. destruct F as (ds1 & ds2 & F1 & F2 & ->). inversion F2 as [|? d ? q P F3]; subst. inversion F3; subst.
    apply Forall2_app_inv_l in F'. destruct F' as (ds1' & ds2' & F1' & F2' & EQ). inversion F2' as [|? d' ? q' P' F3']; subst. inversion F3'; subst. apply SN in EQ. destruct EQ as (<- & <-).
    destruct (IH _ _ _ _ _ C' F1 F1') as (<- & <-). destruct (proj1 parse_det d k j c (P _ _ _ H) _ _ (P' _ _ _ H')) as (<- & <-). split; [reflexivity|]. f_equal. f_equal. exact (map_fun _ _ _ _ _ H H').
Qed.

Lemma inj : forall t h t', fder h t -> fder h t' -> fread t = fread t' -> t = t'.
Proof.
  intros t. induction t as [e ts IH] using tree_ind'. intros h t' D D' RD. pose proof D as D0. pose proof D' as D0'. inversion D as [? tl p ? ? E F]; subst. inversion D' as [e' tl' p' ? ts' E' F']; subst.
  assert (CH : forall tl ts, Forall2 fder tl ts -> exists ds, Forall2 (fun t d => fread t = Some d) ts ds /\ Forall2 par tl ds).
  { clear - arcs wf ngoal ndr us_in us_nd inv. intros tl ts F. induction F as [|h t tl ts D F IH]; [exists []; split; constructor|]. destruct (sound t h D) as (d & R & P). destruct IH as (ds & A & B). exists (d :: ds). split; constructor; assumption. }
  destruct (CH tl ts F) as (ds & R & P). destruct (CH tl' ts' F') as (ds' & R' & P'). pose proof R as R0. pose proof R' as R0'. apply all_some_map in R0, R0'.
  pose proof (co_head _ _ _ _ core _ _ _ (nth_error_In _ _ E)) as HP. destruct (head_place _ _ _ _ _ _ _ E' HP) as (PI & PJ & LH).
  pose proof (edge_desc _ _ _ _ E) as I. pose proof (edge_desc _ _ _ _ E') as I'. rewrite PI, PJ in I'.
  cbn [fread] in RD. rewrite E, E', R0, R0' in RD. destruct (sound _ _ D0) as (d & RDS & _). cbn [fread] in RDS. rewrite E, R0 in RDS. rewrite RDS in RD. symmetry in RD.
  destruct (fill_steps (p_feats p) ds) as [st|] eqn:FS; [|discriminate]. destruct (fill_steps (p_feats p') ds') as [st'|] eqn:FS'; [|discriminate]. cbn in RDS, RD. injection RDS as <-. injection RD as RR ->.
  destruct (fill_inv _ _ _ _ _ FS FS') as (SH & <-).
  assert (TL : tl = tl').
  { pose proof I as J. pose proof I' as J'. apply edge_in in J, J'. destruct J as (L1 & L2 & J), J' as (_ & _ & J'). rewrite RR in J'. rewrite <- SH in J'.
    destruct J as [(g & rs & hs & Q & AL & IR & U & C)|(IR & SH1 & c & h1 & -> & RF & H)], J' as [(g' & rs' & hs' & Q' & AL' & IR' & U' & C')|(IR' & SH1' & c' & h1' & -> & RF' & H')].
    - exact (proj2 (icov_tails _ _ _ _ _ _ C _ _ _ _ _ C' P P')).
    - destruct (us_in _ IR') as (_ & X). congruence.
    - destruct (us_in _ IR) as (_ & X). congruence.
    - f_equal. rewrite RF in RF'. injection RF' as <-. exact (map_fun _ _ _ _ _ H H'). }
  subst tl'.
  destruct (span_ok_of _ _ _ (nth_error_In _ _ E)) as (L1 & L2).
  assert (EE : e = e').
  { apply (NoDup_filter_map_nth _ _ desc (over (p_i p) (p_j p)) fe e e' (tl, p, h) (tl, p', h)); auto.
    - apply espan_nd; assumption.
    - cbn. rewrite !Nat.eqb_refl. reflexivity.
    - cbn. rewrite PI, PJ, !Nat.eqb_refl. reflexivity.
    - cbn. rewrite RR, SH. reflexivity. }
  subst e'. f_equal. clear - IH F F' R R'. revert ts ts' ds F F' R R' IH. induction tl as [|h tl IHt]; intros ts ts' ds F F' R R' IH; inversion F as [|? t ? ts1 D F1]; inversion F' as [|? t' ? ts1' D' F1']; subst; [reflexivity|].
  inversion R as [|? d ? ds1 X R1]; subst. inversion R' as [|? ? ? ? X' R1']; subst. inversion IH as [|? ? I1 I2]; subst. f_equal; [apply (I1 h); congruence|]. apply (IHt _ _ ds1); assumption.
Qed.
End Bij.
