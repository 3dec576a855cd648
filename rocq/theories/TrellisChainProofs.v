(** Proofs for Trellis.v: the chain. *)
From Coq Require Import List ZArith Bool Lia.
From Verif Require Import Opt OptProofs HG HGProofs Deriv TopoSpec Prune PruneSpec Rule RuleSpec RuleProofs Parser Constrain ConstrainSpec ConstrainProofs Trellis TrellisSpec TrellisProofs.
Import ListNotations.
Open Scope opt_scope.
Local Open Scope nat_scope.

Section C.
Context {X : Type}.
Notation hgx := (hg (elab X)).

Lemma choice_snoc : forall (cells : list (list (elab X))) c ks ls, choice (cells ++ [c]) ks ls <-> exists ks' k ls' l, ks = ks' ++ [k] /\ ls = ls' ++ [l] /\ choice cells ks' ls' /\ nth_error c k = Some l.
Proof.
  intros cells c. induction cells as [|d r IH]; intros ks ls.
  - cbn. split.
    + intros H. inversion H as [|? ? k ks' l ls' N Q]; subst. inversion Q; subst. exists [], k, [], l. repeat (split; [reflexivity|]). split; [constructor|exact N].
    + intros (ks' & k & ls' & l & -> & -> & H & N). inversion H; subst. cbn. constructor; [exact N|constructor].
  - cbn. split.
    + intros H. inversion H as [|? ? k ks' l ls' N Q]; subst. apply IH in Q as (ks2 & k2 & ls2 & l2 & -> & -> & H2 & N2). exists (k :: ks2), k2, (l :: ls2), l2. repeat (split; [reflexivity|]). split; [constructor; assumption|exact N2].
    + intros (ks' & k & ls' & l & -> & -> & H & N). inversion H as [|? ? k1 ks1 l1 ls1 N1 Q]; subst. cbn. constructor; [exact N1|]. apply IH. exists ks1, k, ls1, l. auto.
Qed.
Lemma leaves_same : forall (g g' : hgx) t, (forall e, In e (tree_edges t) -> nth_error (edges g') e = nth_error (edges g) e) -> leaves g' t = leaves g t.
Proof.
  intros g g' t. induction t as [e ts IH] using tree_ind'. intros S. cbn [tree_edges] in S. destruct ts as [|t0 r]; [cbn [leaves]; rewrite S by (apply in_or_app; right; left; reflexivity); reflexivity|].
  change (flat_map (leaves g') (t0 :: r) = flat_map (leaves g) (t0 :: r)). assert (S' : forall e0, In e0 (flat_map tree_edges (t0 :: r)) -> nth_error (edges g') e0 = nth_error (edges g) e0) by (intros e0 I; apply S, in_or_app; left; exact I).
  clear S. revert IH S'. generalize (t0 :: r). induction l as [|x l IHl]; intros F S; [reflexivity|]. inversion F; subst. cbn [flat_map] in *. f_equal; [apply H1; intros e0 I; apply S, in_or_app; left; exact I|]. apply IHl; [assumption|]. intros e0 I. apply S, in_or_app. right. exact I.
Qed.

(** the inner edges *)
Definition inner (ed : edge (elab X)) : Prop :=
  (exists a c, tails ed = [a] /\ r_e (rule_ (lab ed)) = [0%Z] /\ r_f (rule_ (lab ed)) = [c] /\ (c < 0)%Z) \/
  (exists a b c d, tails ed = [a; b] /\ r_e (rule_ (lab ed)) = [0; -1]%Z /\ r_f (rule_ (lab ed)) = [c; d] /\ (c < 0)%Z /\ (d < 0)%Z).
Lemma words_loop : forall ws acc, Forall (fun w => (0 < w)%Z) ws -> esub_loop ws [] 0 acc = Some (acc ++ ws, 0).
Proof. induction ws as [|w r IH]; intros acc F; cbn; [rewrite app_nil_r; reflexivity|]. inversion F; subst. destruct (Z.ltb_spec w 1); [lia|]. rewrite IH by assumption. rewrite <- app_assoc. reflexivity. Qed.
Lemma words_subst : forall ws, Forall (fun w => (0 < w)%Z) ws -> ESubstitute ws [] = Some ws.
Proof. intros ws F. unfold ESubstitute. rewrite words_loop by exact F. reflexivity. Qed.
Lemma words_source : forall ws, Forall (fun w => (0 < w)%Z) ws -> source_of ws [] ws.
Proof. intros ws F. induction F as [|w r W F IH]; constructor; [lia|assumption]. Qed.
Lemma mono_yield : forall (g : hgx) t n, derives g n t ->
  (forall e ed, In e (tree_edges t) -> nth_error (edges g) e = Some ed -> (tails ed = [] -> lexical (lab ed)) /\ (tails ed <> [] -> inner ed)) ->
  (exists d, deriv_of g t = Some d) /\ translation g t = Some (targets (leaves g t)) /\ source g t = Some (sources_of (leaves g t)).
Proof.
  intros g t. induction t as [e ts IH] using tree_ind'. intros n D ALL. inversion D as [? nd ? ed ? N J E F]; subst.
  assert (HERE := ALL e ed ltac:(cbn [tree_edges]; apply in_or_app; right; left; reflexivity) E).
  assert (SUB : Forall (fun s => (exists d, deriv_of g s = Some d) /\ translation g s = Some (targets (leaves g s)) /\ source g s = Some (sources_of (leaves g s))) ts).
  { apply Forall_forall. intros s I. pose proof I as I0. apply In_nth_error in I0 as (k & K). destruct (F2_nth_r _ _ _ _ _ F _ _ K) as (m & _ & DM). rewrite Forall_forall in IH. apply (IH s I m DM). intros e0 ed0 I2. apply ALL. cbn [tree_edges]. apply in_or_app. left. apply in_flat_map. eauto. }
  assert (DS : exists ds, map_opt (deriv_of g) ts = Some ds). { apply map_opt_all. intros s I. rewrite Forall_forall in SUB. exact (proj1 (SUB s I)). }
  split. { destruct DS as (ds & DS). cbn [deriv_of]. rewrite E. cbn [bind]. rewrite DS. eexists; reflexivity. }
  destruct (tails ed) as [|t0 tl] eqn:TL.
  - inversion F; subst. destruct (proj1 HERE eq_refl) as (LE & LF). assert (LV : leaves g (Tree e []) = [lab ed]) by (cbn [leaves]; rewrite E; reflexivity). rewrite LV. unfold targets, sources_of. cbn [flat_map]. rewrite !app_nil_r. split.
    + apply (translation_node g e ed [] _ E). exists []. split; [constructor|]. split; [exact DS|]. apply words_subst, LE.
    + apply (source_tree g e ed [] _ E). exists []. split; [constructor|]. split; [exact DS|]. apply words_source, LF.
  - destruct (proj2 HERE ltac:(discriminate)) as [(a & c & TA & RE & RF & CN)|(a & b & c & d & TA & RE & RF & CN & DN)]; rewrite TL in TA; injection TA as -> ->.
    + inversion F as [|? s ? ? D1 F1]; subst. inversion F1; subst. inversion SUB as [|? ? (_ & T1 & S1) _]; subst. assert (LV : leaves g (Tree e [s]) = leaves g s) by (cbn; apply app_nil_r). rewrite LV. split.
      * apply (translation_node g e ed _ _ E). exists [targets (leaves g s)]. split; [constructor; [exact T1|constructor]|]. split; [exact DS|]. rewrite RE. cbn. unfold ESubstitute. cbn. rewrite ?app_nil_r. reflexivity.
      * apply (source_tree g e ed _ _ E). exists [sources_of (leaves g s)]. split; [constructor; [exact S1|constructor]|]. split; [exact DS|]. rewrite RF. rewrite <- (app_nil_r (sources_of _)) at 2. constructor; [lia|constructor].
    + inversion F as [|? s ? ? D1 F1]; subst. inversion F1 as [|? s2 ? ? D2 F2]; subst. inversion F2; subst. inversion SUB as [|? ? (_ & T1 & S1) SUB2]; subst. inversion SUB2 as [|? ? (_ & T2 & S2) _]; subst. assert (LV : leaves g (Tree e [s; s2]) = leaves g s ++ leaves g s2) by (cbn; rewrite app_nil_r; reflexivity). rewrite LV. unfold targets, sources_of in *. rewrite !flat_map_app. split.
      * apply (translation_node g e ed _ _ E). eexists [_; _]. split; [constructor; [exact T1|constructor; [exact T2|constructor]]|]. split; [exact DS|]. rewrite RE. unfold ESubstitute. cbn. rewrite ?app_nil_r. reflexivity.
      * apply (source_tree g e ed _ _ E). eexists [_; _]. split; [constructor; [exact S1|constructor; [exact S2|constructor]]|]. split; [exact DS|]. rewrite RF. constructor; [lia|]. rewrite <- (app_nil_r (flat_map _ (leaves g s2))) at 2. constructor; [lia|constructor].
Qed.

Record CH (g : hgx) (cells : list (list (elab X))) : Prop := {
  c_wf : wf_hg g; c_topo : topo g; c_linked : linked g; c_ne : nodes g <> [];
  c_tree : exists enc : list nat -> tree,
    (forall t, derives g (goal g) t <-> exists ks ls, choice cells ks ls /\ t = enc ks) /\
    (forall ks ls ks' ls', choice cells ks ls -> choice cells ks' ls' -> enc ks = enc ks' -> ks = ks') /\
    (forall ks ls, choice cells ks ls -> leaves g (enc ks) = ls);
  c_at : exists at_ : nat -> nat -> nat, forall e ed, nth_error (edges g) e = Some ed -> tails ed = [] ->
    exists i c k, nth_error cells i = Some c /\ nth_error c k = Some (lab ed) /\ e = at_ i k;
  c_all : forall c l, In c cells -> In l c -> exists e ed, nth_error (edges g) e = Some ed /\ tails ed = [] /\ lab ed = l;
  c_inner : forall e ed, nth_error (edges g) e = Some ed -> tails ed <> [] -> inner ed
}.
Variables (kXCAT kGOALCAT : Z) (bin_addr goal_addr : nat).
Hypothesis xneg : (kXCAT < 0)%Z.
Variable comb : nat -> elab X.
Hypothesis comb_rule : forall i, rule_ (comb i) = kBINARY kXCAT bin_addr.

Lemma mid_old_edge : forall (g0 : hgx) c es g, mid g0 c es g -> forall e ed, nth_error (edges g) e = Some ed -> nth_error (edges g0) e = Some ed \/ exists k ts l, nth_error es k = Some (ts, l) /\ e = length (edges g0) + k /\ ed = {| head := Some (length (nodes g0)); tails := ts; lab := l; eid := e |}.
Proof.
  intros g0 c es g M e ed E. destruct (m_grows _ _ _ _ M) as (_ & _ & GE). destruct (nth_error (edges g0) e) as [ed0|] eqn:E0; [left; rewrite (GE _ _ E0) in E; congruence|]. right. apply nth_error_None in E0.
  assert (L : e < length (edges g0) + length es) by (rewrite <- (m_elen _ _ _ _ M); apply nth_error_Some; congruence). assert (LK : e - length (edges g0) < length es) by lia. apply nth_error_Some in LK. destruct (nth_error es (e - length (edges g0))) as [(ts, l)|] eqn:K; [|congruence].
  pose proof (m_edges _ _ _ _ M _ _ _ K) as EE. replace (length (edges g0) + (e - length (edges g0))) with e in EE by lia. exists (e - length (edges g0)), ts, l. split; [exact K|]. split; [lia|congruence].
Qed.
Lemma mid_goal : forall (g0 : hgx) c es g, mid g0 c es g -> goal g = length (nodes g0).
Proof. intros g0 c es g M. unfold goal. rewrite (m_len _ _ _ _ M). lia. Qed.
Lemma leaf_cell : forall (c : list (elab X)) k ts l, nth_error (map (fun l => ([] : list nat, l)) c) k = Some (ts, l) <-> ts = [] /\ nth_error c k = Some l.
Proof. intros c k ts l. rewrite nth_error_map. destruct (nth_error c k) as [x|]; cbn; split; try discriminate; [intros [= <- <-]; auto|intros (-> & [= ->]); reflexivity|intros (_ & H); discriminate]. Qed.

Lemma first_ok : forall c, exists g1 g, AddNode kXCAT empty_hg = Some g1 /\ add_in 0 (map (fun l => ([], l)) c) g1 = Some g /\ CH g [c].
Proof.
  intros c. destruct (add_ok (X := X) empty_hg kXCAT (map (fun l => ([], l)) c)) as (g1 & g & A & B & M).
  - split; cbn; intros; try (destruct n; discriminate); destruct e; discriminate.
  - intros n nd H. destruct n; discriminate.
  - intros ts l t I J. apply in_map_iff in I as (x & [= <- <-] & _). destruct J.
  - exists g1, g. split; [exact A|]. split; [exact B|]. pose proof (mid_goal _ _ _ _ M) as GO. cbn in GO. pose proof (mid_derives _ _ _ _ M) as MD. cbn [nodes edges empty_hg length] in MD.
    assert (DER : forall t, derives g (goal g) t <-> exists k l, nth_error c k = Some l /\ t = Tree k []).
    { intros t. rewrite GO, MD. split.
      - intros (k & ts & l & ss & K & -> & F). apply leaf_cell in K as (-> & K). inversion F; subst. eauto.
      - intros (k & l & K & ->). exists k, [], l, []. split; [apply leaf_cell; auto|]. split; [reflexivity|constructor]. }
    assert (EDGE : forall k l, nth_error c k = Some l -> exists ed, nth_error (edges g) k = Some ed /\ tails ed = [] /\ lab ed = l).
    { intros k l K. pose proof (m_edges _ _ _ _ M k [] l ltac:(apply leaf_cell; auto)) as EE. cbn in EE. eexists. split; [exact EE|]. auto. }
    assert (LINE : forall ks ls, choice [c] ks ls -> exists k l, ks = [k] /\ ls = [l] /\ nth_error c k = Some l). { intros ks ls H. inversion H as [|? ? k ks' l ls' N Q]; subst. inversion Q; subst. eauto. }
    split.
    + exact (m_wf _ _ _ _ M).
    + exact (m_topo _ _ _ _ M).
    + apply (m_linked _ _ _ _ M). intros e ed n H. destruct e; discriminate.
    + pose proof (m_len _ _ _ _ M) as L. intros H. rewrite H in L. discriminate.
    + exists (fun ks => Tree (hd 0 ks) []). split; [|split].
      * intros t. rewrite DER. split.
        -- intros (k & l & K & ->). exists [k], [l]. split; [constructor; [exact K|constructor]|reflexivity].
        -- intros (ks & ls & H & ->). destruct (LINE ks ls H) as (k & l & -> & -> & K). exists k, l. auto.
      * intros ks ls ks' ls' H H' EQ. destruct (LINE ks ls H) as (k & l & -> & -> & _). destruct (LINE ks' ls' H') as (k' & l' & -> & -> & _). cbn in EQ. congruence.
      * intros ks ls H. destruct (LINE ks ls H) as (k & l & -> & -> & K). cbn. destruct (EDGE k l K) as (ed & -> & _ & ->). reflexivity.
    + exists (fun _ k => k). intros e ed E TL. destruct (mid_old_edge _ _ _ _ M e ed E) as [H|(k & ts & l & K & -> & ->)]; [destruct e; discriminate|]. apply leaf_cell in K as (-> & K). exists 0, c, k. auto.
    + intros c' l [<-|[]] I. apply In_nth_error in I as (k & K). destruct (EDGE k l K) as (ed & E & T & L). eauto.
    + intros e ed E TL. destruct (mid_old_edge _ _ _ _ M e ed E) as [H|(k & ts & l & K & -> & ->)]; [destruct e; discriminate|]. apply leaf_cell in K as (-> & K). cbn in TL. congruence.
Qed.
Lemma last_snoc : forall A (l : list A) x d, last (l ++ [x]) d = x.
Proof. intros A l x d. induction l as [|y r IH]; [reflexivity|]. cbn. destruct (r ++ [x]) eqn:E; [destruct r; discriminate|]. exact IH. Qed.
Lemma next_ok : forall g cells c i, CH g cells -> exists g1 g2 g3 g4, AddNode kXCAT g = Some g1 /\ add_in (length (nodes g)) (map (fun l => ([], l)) c) g1 = Some g2 /\
  AddNode kXCAT g2 = Some g3 /\ add_in (length (nodes g2)) [([goal g; length (nodes g)], comb i)] g3 = Some g4 /\ CH g4 (cells ++ [c]) /\ goal g4 = length (nodes g2).
Proof.
  intros g cells c i H. destruct H as [W T LK NE (enc & E1 & E2 & E3) (at_ & AT) ALL INN].
  assert (LG : goal g < length (nodes g)) by (unfold goal; destruct (nodes g); [congruence|cbn; lia]).
  destruct (add_ok g kXCAT (map (fun l => ([], l)) c) W T) as (g1 & g2 & A1 & A2 & M1). { intros ts l t I J. apply in_map_iff in I as (x & [= <- <-] & _). destruct J. }
  pose proof (m_len _ _ _ _ M1) as L2.
  destruct (add_ok g2 kXCAT [([goal g; length (nodes g)], comb i)] (m_wf _ _ _ _ M1) (m_topo _ _ _ _ M1)) as (g3 & g4 & A3 & A4 & M2). { intros ts l t [[= <- <-]|[]] [<-|[<-|[]]]; lia. }
  exists g1, g2, g3, g4. repeat (split; [assumption|]). split; [|exact (mid_goal _ _ _ _ M2)].
  pose proof (m_grows _ _ _ _ M1) as G1. pose proof (m_grows _ _ _ _ M2) as G2. pose proof (grows_trans _ _ _ G1 G2) as G3.
  set (E := length (edges g)). set (CE := length (edges g2)).
  assert (LEAF : forall k l, nth_error c k = Some l -> exists ed, nth_error (edges g2) (E + k) = Some ed /\ nth_error (edges g4) (E + k) = Some ed /\ tails ed = [] /\ lab ed = l).
  { intros k l K. pose proof (m_edges _ _ _ _ M1 k [] l ltac:(apply leaf_cell; auto)) as EE. eexists. split; [exact EE|]. split; [exact (proj2 (proj2 G2) _ _ EE)|]. auto. }
  assert (CEN : exists ed, nth_error (edges g4) CE = Some ed /\ tails ed = [goal g; length (nodes g)] /\ lab ed = comb i).
  { pose proof (m_edges _ _ _ _ M2 0 _ _ eq_refl) as EE. rewrite Nat.add_0_r in EE. eexists. split; [exact EE|]. auto. }
  assert (DERN : forall t, derives g4 (length (nodes g)) t <-> exists k l, nth_error c k = Some l /\ t = Tree (E + k) []).
  { intros t. split.
    - intros D. apply (grows_down _ _ G2 (m_wf _ _ _ _ M1)) in D; [|lia]. apply (mid_derives _ _ _ _ M1) in D as (k & ts & l & ss & K & -> & F). apply leaf_cell in K as (-> & K). inversion F; subst. eauto.
    - intros (k & l & K & ->). apply (grows_up _ _ G2). apply (mid_derives _ _ _ _ M1). exists k, [], l, []. split; [apply leaf_cell; auto|]. split; [reflexivity|constructor]. }
  assert (DERO : forall t, derives g4 (goal g) t <-> derives g (goal g) t) by (intros t; split; [apply (grows_down _ _ G3 W _ _ LG)|apply (grows_up _ _ G3)]).
  split.
  - exact (m_wf _ _ _ _ M2).
  - exact (m_topo _ _ _ _ M2).
  - apply (m_linked _ _ _ _ M2), (m_linked _ _ _ _ M1), LK.
  - pose proof (m_len _ _ _ _ M2) as L. intros H. rewrite H in L. discriminate.
  - exists (fun ks => Tree CE [enc (removelast ks); Tree (E + last ks 0) []]). split; [|split].
    + intros t. rewrite (mid_goal _ _ _ _ M2), (mid_derives _ _ _ _ M2). split.
      * intros (k & ts & l & ss & K & -> & F). destruct k as [|[|k]]; try discriminate. injection K as <- <-. inversion F as [|? s ? ? D1 F1]; subst. inversion F1 as [|? s2 ? ? D2 F2]; subst. inversion F2; subst.
        apply DERO, E1 in D1 as (ks & ls & CC & ->). apply DERN in D2 as (k & l & K & ->). exists (ks ++ [k]), (ls ++ [l]). split; [apply choice_snoc; exists ks, k, ls, l; auto|]. rewrite removelast_last, last_snoc. fold CE. rewrite Nat.add_0_r. reflexivity.
      * intros (ks & ls & CC & ->). apply choice_snoc in CC as (ks' & k & ls' & l & -> & -> & CC & K). rewrite removelast_last, last_snoc. exists 0, [goal g; length (nodes g)], (comb i), [enc ks'; Tree (E + k) []]. split; [reflexivity|]. split; [rewrite Nat.add_0_r; reflexivity|]. constructor; [apply DERO, E1; eauto|]. constructor; [apply DERN; eauto|constructor].
    + intros ks ls ks' ls' CC CC' EQ. apply choice_snoc in CC as (k1 & k & l1 & l & -> & -> & CC & K). apply choice_snoc in CC' as (k1' & k' & l1' & l' & -> & -> & CC' & K'). rewrite !removelast_last, !last_snoc in EQ. injection EQ as Q1 Q2. f_equal; [exact (E2 _ _ _ _ CC CC' Q1)|f_equal; lia].
    + intros ks ls CC. apply choice_snoc in CC as (k1 & k & l1 & l & -> & -> & CC & K). rewrite removelast_last, last_snoc. cbn [leaves flat_map]. rewrite app_nil_r. f_equal.
      * rewrite <- (E3 _ _ CC). apply leaves_same. intros e I. apply (grows_edge _ _ G3 (enc k1) (goal g)); [apply E1; eauto|exact I].
      * destruct (LEAF k l K) as (ed & _ & -> & _ & ->). reflexivity.
  - exists (fun a k => if a =? length cells then E + k else at_ a k). intros e ed EE TL. destruct (mid_old_edge _ _ _ _ M2 e ed EE) as [H|(k & ts & l & K & -> & ->)].
    + destruct (mid_old_edge _ _ _ _ M1 e ed H) as [H0|(k & ts & l & K & -> & ->)].
      * destruct (AT e ed H0 TL) as (a & c0 & k & CA & CK & ->). exists a, c0, k. assert (a < length cells) by (apply nth_error_Some; congruence). rewrite nth_error_app1 by assumption. destruct (Nat.eqb_spec a (length cells)); [lia|]. auto.
      * apply leaf_cell in K as (-> & K). exists (length cells), c, k. rewrite nth_error_app2, Nat.sub_diag, Nat.eqb_refl by lia. auto.
    + destruct k as [|[|k]]; try discriminate. injection K as <- <-. discriminate.
  - intros c0 l I J. apply in_app_or in I as [I|[<-|[]]].
    + destruct (ALL c0 l I J) as (e & ed & EE & TT). exists e, ed. split; [exact (proj2 (proj2 G3) _ _ EE)|exact TT].
    + apply In_nth_error in J as (k & K). destruct (LEAF k l K) as (ed & _ & EE & TT). eauto.
  - intros e ed EE TL. destruct (mid_old_edge _ _ _ _ M2 e ed EE) as [H|(k & ts & l & K & -> & ->)].
    + destruct (mid_old_edge _ _ _ _ M1 e ed H) as [H0|(k & ts & l & K & -> & ->)]; [exact (INN e ed H0 TL)|]. apply leaf_cell in K as (-> & K). cbn in TL. congruence.
    + destruct k as [|[|k]]; try discriminate. injection K as <- <-. right. exists (goal g), (length (nodes g)), kXCAT, kXCAT. cbn [tails lab]. rewrite comb_rule. cbn. auto.
Qed.
Lemma chain_ok : forall cells done g i, CH g done -> exists g', chain kXCAT comb cells i (Some (goal g)) g = Some g' /\ CH g' (done ++ cells).
Proof.
  induction cells as [|c r IH]; intros done g i H; [exists g; rewrite app_nil_r; auto|]. destruct (next_ok g done c i H) as (g1 & g2 & g3 & g4 & A1 & A2 & A3 & A4 & H4 & GO). cbn [chain]. rewrite A1. cbn [bind]. rewrite A2. cbn [bind]. rewrite A3. cbn [bind]. rewrite A4. cbn [bind]. rewrite <- GO.
  destruct (IH (done ++ [c]) g4 (S i) H4) as (g' & CC & H'). exists g'. split; [exact CC|]. rewrite <- app_assoc in H'. exact H'.
Qed.
Lemma connect_ptr : forall (g : hgx) e h ed nd, nth_error (edges g) e = Some ed -> eid ed = e -> nth_error (nodes g) h = Some nd -> nid nd = h -> ConnectPtr e h g = Connect e h g.
Proof. intros g e h ed nd E I N J. unfold ConnectPtr, Connect. rewrite E, N, I, J. reflexivity. Qed.
Lemma finish_ok : forall g cells, CH g cells -> exists g', finish kXCAT kGOALCAT goal_addr g = Some g' /\ CH g' cells.
Proof.
  intros g cells H. destruct H as [W T LK NE (enc & E1 & E2 & E3) (at_ & AT) ALL INN].
  assert (LG : goal g < length (nodes g)) by (unfold goal; destruct (nodes g); [congruence|cbn; lia]).
  set (gl := plain (X := X) (kGOAL_RULE kXCAT goal_addr) (-1) (-1)).
  destruct (mid_start g kGOALCAT W T) as (g1 & A & M0). destruct (mid_step g kGOALCAT [] g1 [goal g] gl M0 W) as (g2 & g4 & B & C & M); [intros t [<-|[]]; exact LG|]. cbn [app] in M.
  exists g4. split.
  { assert (FIN : finish kXCAT kGOALCAT goal_addr g = (g1 <- AddNode kGOALCAT g ;; g2 <- AddEdge [goal g] gl g1 ;; ConnectPtr (length (edges g1)) (length (nodes g)) g2)) by (unfold finish, goal; destruct (nodes g); [congruence|reflexivity]). rewrite FIN, A. cbn [bind]. rewrite B. cbn [bind]. rewrite <- C.
    unfold AddEdge in B. destruct (index_tails (length (edges g1)) [goal g] (nodes g1)) as [ns|] eqn:IT; [|discriminate]. injection B as <-. destruct (index_tails_spec _ _ _ _ IT) as (_ & _ & SP). destruct (m_last _ _ _ _ M0) as (nd & N0 & _).
    eapply connect_ptr; cbn [nodes edges]; [apply nth_snoc; right; split; reflexivity|reflexivity|exact (SP _ _ N0)|]. cbn. exact (wf_nid g1 (m_wf _ _ _ _ M0) _ _ N0). }
  pose proof (m_grows _ _ _ _ M) as G. set (CE := length (edges g)).
  assert (DERO : forall t, derives g4 (goal g) t <-> derives g (goal g) t) by (intros t; split; [apply (grows_down _ _ G W _ _ LG)|apply (grows_up _ _ G)]).
  split.
  - exact (m_wf _ _ _ _ M).
  - exact (m_topo _ _ _ _ M).
  - apply (m_linked _ _ _ _ M), LK.
  - pose proof (m_len _ _ _ _ M) as L. intros H. rewrite H in L. discriminate.
  - exists (fun ks => Tree CE [enc ks]). split; [|split].
    + intros t. rewrite (mid_goal _ _ _ _ M), (mid_derives _ _ _ _ M). split.
      * intros (k & ts & l & ss & K & -> & F). destruct k as [|[|k]]; try discriminate. injection K as <- <-. inversion F as [|? s ? ? D1 F1]; subst. inversion F1; subst. apply DERO, E1 in D1 as (ks & ls & CC & ->). exists ks, ls. split; [exact CC|]. fold CE. rewrite Nat.add_0_r. reflexivity.
      * intros (ks & ls & CC & ->). exists 0, [goal g], gl, [enc ks]. split; [reflexivity|]. split; [rewrite Nat.add_0_r; reflexivity|]. constructor; [apply DERO, E1; eauto|constructor].
    + intros ks ls ks' ls' CC CC' EQ. injection EQ as Q1. exact (E2 _ _ _ _ CC CC' Q1).
    + intros ks ls CC. cbn [leaves flat_map]. rewrite app_nil_r. transitivity (leaves g (enc ks)); [|exact (E3 _ _ CC)]. apply leaves_same. intros e I. apply (grows_edge _ _ G (enc ks) (goal g)); [apply E1; eauto|exact I].
  - exists at_. intros e ed EE TL. destruct (mid_old_edge _ _ _ _ M e ed EE) as [H|(k & ts & l & K & -> & ->)]; [exact (AT e ed H TL)|]. destruct k as [|[|k]]; try discriminate. injection K as <- <-. discriminate.
  - intros c0 l I J. destruct (ALL c0 l I J) as (e & ed & EE & TT). exists e, ed. split; [exact (proj2 (proj2 G) _ _ EE)|exact TT].
  - intros e ed EE TL. destruct (mid_old_edge _ _ _ _ M e ed EE) as [H|(k & ts & l & K & -> & ->)]; [exact (INN e ed H TL)|]. destruct k as [|[|k]]; try discriminate. injection K as <- <-. left. exists (goal g), kXCAT. cbn. auto.
Qed.
Theorem build_ok : forall c cells, exists g1 g, chain kXCAT comb (c :: cells) 0 None empty_hg = Some g1 /\ finish kXCAT kGOALCAT goal_addr g1 = Some g /\ CH g (c :: cells).
Proof.
  intros c cells. destruct (first_ok c) as (g1 & g & A & B & H). cbn [chain]. rewrite A. cbn [bind nodes empty_hg length]. rewrite B. cbn [bind].
  assert (GO : goal g = 0). { destruct (mid_start (X := X) empty_hg kXCAT) as (g1' & A' & M0); [split; cbn; intros; try (destruct n; discriminate); destruct e; discriminate|intros n nd N; destruct n; discriminate|]. rewrite A in A'. injection A' as <-.
    destruct (add_in_ok empty_hg kXCAT (map (fun l => ([], l)) c) [] g1 M0) as (g' & B' & M); [split; cbn; intros; try (destruct n; discriminate); destruct e; discriminate|intros ts l t I J; apply in_map_iff in I as (x & [= <- <-] & _); destruct J|]. cbn in B'. rewrite B in B'. injection B' as <-. exact (mid_goal _ _ _ _ M). }
  destruct (chain_ok cells [c] g 1 H) as (g2 & C2 & H2). rewrite GO in C2. exists g2. destruct (finish_ok g2 _ H2) as (g3 & F3 & H3). exists g3. auto.
Qed.
Lemma ch_trellis : forall g cells, CH g cells -> trellis_of cells g.
Proof.
  intros g cells [W T LK NE (enc & E1 & E2 & E3) (at_ & AT) ALL INN]. exists enc. split; [exact E1|]. split; [exact E2|]. split; [exact E3|]. intros LX ks ls CC. assert (D : derives g (goal g) (enc ks)) by (apply E1; eauto). rewrite <- (E3 ks ls CC). apply (mono_yield g (enc ks) (goal g) D).
  intros e ed _ EE. split; [|exact (INN e ed EE)]. intros TL. destruct (AT e ed EE TL) as (i & c & k & CA & CK & _). exact (LX c _ (nth_error_In _ _ CA) (nth_error_In _ _ CK)).
Qed.
End C.
