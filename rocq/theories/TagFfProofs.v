(** Proofs for TagFf.v. *)
From Coq Require Import String Ascii List ZArith Bool Lia.
From Verif Require Import Opt OptProofs HG HGProofs Deriv TopoSpec Prune PruneSpec Rule RuleSpec RuleProofs Parser Constrain ConstrainSpec ConstrainProofs
  Trellis TrellisSpec TrellisProofs TrellisChainProofs TrellisMainProofs TrellisAllProofs TagFf TagFfSpec.
Import ListNotations.
Open Scope opt_scope.
Local Open Scope nat_scope.

(** ** The shape of the derivations *)
Section Spine.
Context {X : Type}.
Notation hgx := (hg (elab X)).
Variable comb : nat -> elab X.
Inductive spine (g : hgx) : tree -> list (elab X) -> Prop :=
| sp_leaf e ed : nth_error (edges g) e = Some ed -> tails ed = [] -> spine g (Tree e []) [lab ed]
| sp_comb e ed t ls e2 ed2 : spine g t ls -> nth_error (edges g) e = Some ed -> lab ed = comb (length ls) ->
    nth_error (edges g) e2 = Some ed2 -> tails ed2 = [] -> spine g (Tree e [t; Tree e2 []]) (ls ++ [lab ed2]).
Lemma spine_leaves : forall g t ls, spine g t ls -> leaves g t = ls.
Proof.
  intros g t ls H. induction H as [e ed E T|e ed t ls e2 ed2 S IH E L E2 T2]; cbn [leaves]; [rewrite E; reflexivity|].
  cbn [flat_map]. rewrite IH, app_nil_r. cbn [leaves]. rewrite E2. reflexivity.
Qed.
Lemma spine_grows : forall g g', grows g g' -> forall t ls, spine g t ls -> spine g' t ls.
Proof.
  intros g g' (_ & _ & G) t ls H. induction H as [e ed E T|e ed t ls e2 ed2 S IH E L E2 T2]; [constructor; auto|]. econstructor; eauto.
Qed.
Definition spined (g : hgx) (n : nat) : Prop := forall t, derives g (goal g) t -> exists ls, spine g t ls /\ length ls = n.

Variables (kXCAT kGOALCAT : Z) (bin_addr goal_addr : nat).
Hypothesis xneg : (kXCAT < 0)%Z.
Hypothesis comb_rule : forall i, rule_ (comb i) = kBINARY kXCAT bin_addr.

Lemma first_spine : forall c g1 g, AddNode kXCAT empty_hg = Some g1 -> add_in 0 (map (fun l => ([], l)) c) g1 = Some g -> spined g 1.
Proof.
  intros c g1 g A B. destruct (add_ok (X := X) empty_hg kXCAT (map (fun l => ([], l)) c)) as (g1' & g' & A' & B' & M).
  - split; cbn; intros; try (destruct n; discriminate); destruct e; discriminate.
  - intros n nd H. destruct n; discriminate.
  - intros ts l t I J. apply in_map_iff in I as (x & [= <- <-] & _). destruct J.
  - rewrite A in A'. injection A' as <-. cbn [nodes empty_hg length] in B'. rewrite B in B'. injection B' as <-.
    intros t D. rewrite (mid_goal _ _ _ _ M) in D. apply (mid_derives _ _ _ _ M) in D as (k & ts & l & ss & K & -> & F).
    pose proof K as K0. apply leaf_cell in K as (-> & K). inversion F; subst. pose proof (m_edges _ _ _ _ M _ _ _ K0) as EE.
    eexists. split; [apply (sp_leaf _ _ _ EE); reflexivity|reflexivity].
Qed.
Lemma next_spine : forall g cells c n, CH g cells -> spined g n -> forall g1 g2 g3 g4, AddNode kXCAT g = Some g1 ->
  add_in (length (nodes g)) (map (fun l => ([], l)) c) g1 = Some g2 -> AddNode kXCAT g2 = Some g3 ->
  add_in (length (nodes g2)) [([goal g; length (nodes g)], comb n)] g3 = Some g4 -> spined g4 (S n).
Proof.
  intros g cells c n H SP g1 g2 g3 g4 A1 A2 A3 A4. destruct H as [W T LK NE _ _ _ _].
  assert (LG : goal g < length (nodes g)) by (unfold goal; destruct (nodes g); [congruence|cbn; lia]).
  destruct (add_ok g kXCAT (map (fun l => ([], l)) c) W T) as (g1' & g2' & A1' & A2' & M1). { intros ts l t I J. apply in_map_iff in I as (x & [= <- <-] & _). destruct J. }
  rewrite A1 in A1'. injection A1' as <-. rewrite A2 in A2'. injection A2' as <-.
  pose proof (m_len _ _ _ _ M1) as L2.
  destruct (add_ok g2 kXCAT [([goal g; length (nodes g)], comb n)] (m_wf _ _ _ _ M1) (m_topo _ _ _ _ M1)) as (g3' & g4' & A3' & A4' & M2). { intros ts l t [[= <- <-]|[]] [<-|[<-|[]]]; lia. }
  rewrite A3 in A3'. injection A3' as <-. rewrite A4 in A4'. injection A4' as <-.
  pose proof (m_grows _ _ _ _ M1) as G1. pose proof (m_grows _ _ _ _ M2) as G2. pose proof (grows_trans _ _ _ G1 G2) as G3.
  intros t D. rewrite (mid_goal _ _ _ _ M2) in D. apply (mid_derives _ _ _ _ M2) in D as (k & ts & l & ss & K & -> & F).
  pose proof (m_edges _ _ _ _ M2 _ _ _ K) as EE. destruct k as [|[|k]]; try discriminate. injection K as <- <-.
  inversion F as [|? s ? ? D1 F1]; subst. inversion F1 as [|? s2 ? ? D2 F2]; subst. inversion F2; subst.
  apply (grows_down _ _ G3 W _ _ LG) in D1. destruct (SP _ D1) as (ls & S1 & L1).
  apply (grows_down _ _ G2 (m_wf _ _ _ _ M1)) in D2; [|lia]. apply (mid_derives _ _ _ _ M1) in D2 as (k & ts & l & ss & K & -> & F3).
  pose proof (m_edges _ _ _ _ M1 _ _ _ K) as EL. apply leaf_cell in K as (-> & K). inversion F3; subst.
  exists (ls ++ [l]). split; [|rewrite app_length, Nat.add_comm; reflexivity].
  change l with (lab {| head := Some (length (nodes g)); tails := []; lab := l; eid := length (edges g) + k |}).
  eapply sp_comb; [exact (spine_grows _ _ G3 _ _ S1)|exact EE|reflexivity|exact (proj2 (proj2 G2) _ _ EL)|reflexivity].
Qed.
Lemma chain_spine : forall cells done g n g', CH g done -> spined g n -> chain kXCAT comb cells n (Some (goal g)) g = Some g' -> spined g' (n + length cells) /\ CH g' (done ++ cells).
Proof.
  induction cells as [|c r IH]; intros done g n g' H SP E; [injection E as <-; rewrite Nat.add_0_r, app_nil_r; auto|].
  destruct (next_ok kXCAT bin_addr xneg comb comb_rule g done c n H) as (g1 & g2 & g3 & g4 & A1 & A2 & A3 & A4 & H4 & GO).
  cbn [chain] in E. rewrite A1 in E. cbn [bind] in E. rewrite A2 in E. cbn [bind] in E. rewrite A3 in E. cbn [bind] in E. rewrite A4 in E. cbn [bind] in E. rewrite <- GO in E.
  pose proof (next_spine _ _ _ _ H SP _ _ _ _ A1 A2 A3 A4) as SP4.
  destruct (IH _ _ _ _ H4 SP4 E) as (Q1 & Q2). split; [replace (n + length (c :: r)) with (S n + length r) by (cbn; lia); exact Q1|]. rewrite <- app_assoc in Q2. exact Q2.
Qed.
Lemma finish_spine : forall g done n g', CH g done -> spined g n -> finish kXCAT kGOALCAT goal_addr g = Some g' ->
  forall t, derives g' (goal g') t -> exists e ed s ls, t = Tree e [s] /\ nth_error (edges g') e = Some ed /\
    lab ed = plain (kGOAL_RULE kXCAT goal_addr) (-1) (-1) /\ spine g' s ls /\ length ls = n.
Proof.
  intros g done n g' H SP FE t D. destruct H as [W T LK NE _ _ _ _].
  assert (LG : goal g < length (nodes g)) by (unfold goal; destruct (nodes g); [congruence|cbn; lia]).
  set (gl := plain (X := X) (kGOAL_RULE kXCAT goal_addr) (-1) (-1)).
  destruct (mid_start g kGOALCAT W T) as (g1 & A & M0). destruct (mid_step g kGOALCAT [] g1 [goal g] gl M0 W) as (g2 & g4 & B & C & M); [intros u [<- |[]]; exact LG|]. cbn [app] in M.
  assert (FE' : finish kXCAT kGOALCAT goal_addr g = Some g4).
  { assert (FIN : finish kXCAT kGOALCAT goal_addr g = (g1 <- AddNode kGOALCAT g ;; g2 <- AddEdge [goal g] gl g1 ;; ConnectPtr (length (edges g1)) (length (nodes g)) g2)) by (unfold finish, goal; destruct (nodes g); [congruence|reflexivity]). rewrite FIN, A. cbn [bind]. rewrite B. cbn [bind]. rewrite <- C.
    unfold AddEdge in B. destruct (index_tails (length (edges g1)) [goal g] (nodes g1)) as [ns|] eqn:IT; [|discriminate]. injection B as <-. destruct (index_tails_spec _ _ _ _ IT) as (_ & _ & SPc). destruct (m_last _ _ _ _ M0) as (nd & N0 & _).
    eapply connect_ptr; cbn [nodes edges]; [apply nth_snoc; right; split; reflexivity|reflexivity|exact (SPc _ _ N0)|]. cbn. exact (wf_nid g1 (m_wf _ _ _ _ M0) _ _ N0). }
  rewrite FE in FE'. injection FE' as <-. pose proof (m_grows _ _ _ _ M) as G.
  rewrite (mid_goal _ _ _ _ M) in D. apply (mid_derives _ _ _ _ M) in D as (k & ts & l & ss & K & -> & F).
  pose proof (m_edges _ _ _ _ M _ _ _ K) as EE. destruct k as [|[|k]]; try discriminate. injection K as <- <-.
  inversion F as [|? s ? ? D1 F1]; subst. inversion F1; subst. apply (grows_down _ _ G W _ _ LG) in D1. destruct (SP _ D1) as (ls & S1 & L1).
  do 4 eexists. split; [reflexivity|]. split; [exact EE|]. split; [reflexivity|]. split; [exact (spine_grows _ _ G _ _ S1)|exact L1].
Qed.
Lemma build_spine : forall c cells g1 g, chain kXCAT comb (c :: cells) 0 None empty_hg = Some g1 -> finish kXCAT kGOALCAT goal_addr g1 = Some g ->
  forall t, derives g (goal g) t -> exists e ed s ls, t = Tree e [s] /\ nth_error (edges g) e = Some ed /\
    lab ed = plain (kGOAL_RULE kXCAT goal_addr) (-1) (-1) /\ spine g s ls /\ length ls = S (length cells).
Proof.
  intros c cells g1 g C F. destruct (first_ok kXCAT c) as (h1 & h & A & B & H). cbn [chain] in C. rewrite A in C. cbn [bind nodes empty_hg length] in C. rewrite B in C. cbn [bind] in C.
  pose proof (first_spine c h1 h A B) as SP.
  assert (GO : goal h = 0). { destruct (mid_start (X := X) empty_hg kXCAT) as (g1' & A' & M0); [split; cbn; intros; try (destruct n; discriminate); destruct e; discriminate|intros n nd N; destruct n; discriminate|]. rewrite A in A'. injection A' as <-.
    destruct (add_in_ok empty_hg kXCAT (map (fun l => ([], l)) c) [] h1 M0) as (g' & B' & M); [split; cbn; intros; try (destruct n; discriminate); destruct e; discriminate|intros ts l t I J; apply in_map_iff in I as (x & [= <- <-] & _); destruct J|]. cbn in B'. rewrite B in B'. injection B' as <-. exact (mid_goal _ _ _ _ M). }
  rewrite <- GO in C at 2. destruct (chain_spine cells [c] h 1 g1 H SP C) as (SP2 & H2). exact (finish_spine g1 _ _ g H2 SP2 F).
Qed.
End Spine.

(** ** Names *)
Lemma escape_app : forall a b, Escape (a ++ b)%string = (Escape a ++ Escape b)%string.
Proof. induction a as [|c a IH]; intros b; cbn; [reflexivity|]. rewrite IH. reflexivity. Qed.
Lemma escape_plain : forall a, plain_text a -> Escape a = a.
Proof.
  induction a as [|c a IH]; [reflexivity|]. intros (_ & N1 & N2 & P). cbn. rewrite (IH P). f_equal. unfold escape_char.
  destruct (Ascii.eqb_spec c "="%char); [congruence|]. destruct (Ascii.eqb_spec c ";"%char); congruence.
Qed.
Lemma split_name : forall a a' b b', plain_text a -> plain_text a' -> (a ++ "_" ++ b = a' ++ "_" ++ b')%string -> a = a' /\ b = b'.
Proof.
  induction a as [|c a IH]; intros [|c' a'] b b' P P' E; cbn in E.
  - injection E as ->. auto.
  - injection E as <- _. destruct P' as (N & _). congruence.
  - injection E as -> _. destruct P as (N & _). congruence.
  - injection E as -> E. destruct P as (_ & _ & _ & P). destruct P' as (_ & _ & _ & P'). destruct (IH a' b b' P P' E) as (-> & ->). auto.
Qed.
Section Names.
Variables (text : Z -> string) (tagset : list Z).
Hypothesis clean : readable text tagset.
Hypothesis pos : Forall (fun w => (0 < w)%Z) tagset.
Definition lname (l : Z) : string := if (l <? 0)%Z then "BOS"%string else text l.
Definition rname (r : Z) : string := if (r <? 0)%Z then "EOS"%string else text r.
(** what may be left and right of a pair *)
Definition part (x : Z) : Prop := x = (-1)%Z \/ In x tagset.
Lemma part_nz : forall x, part x -> x <> 0%Z.
Proof. intros x [-> |I]; [lia|]. rewrite Forall_forall in pos. specialize (pos x I). lia. Qed.
Lemma lname_plain : forall x, part x -> plain_text (lname x).
Proof.
  intros x [-> |I]; [cbn; repeat split; discriminate|]. unfold lname. rewrite Forall_forall in pos. specialize (pos x I).
  destruct (Z.ltb_spec x 0); [lia|]. apply (proj1 clean x I).
Qed.
Lemma rname_plain : forall x, part x -> plain_text (rname x).
Proof.
  intros x [-> |I]; [cbn; repeat split; discriminate|]. unfold rname. rewrite Forall_forall in pos. specialize (pos x I).
  destruct (Z.ltb_spec x 0); [lia|]. apply (proj1 clean x I).
Qed.
Lemma lname_inj : forall x y, part x -> part y -> lname x = lname y -> x = y.
Proof.
  intros x y [-> |I] [-> |J] E; [reflexivity| | |]; unfold lname in E; rewrite Forall_forall in pos;
    try (specialize (pos _ I) as PX); try (specialize (pos _ J) as PY);
    repeat match goal with H : context [Z.ltb ?a 0] |- _ => destruct (Z.ltb_spec a 0); try lia end.
  - destruct (proj1 clean _ J) as (_ & N & _). congruence.
  - destruct (proj1 clean _ I) as (_ & N & _). congruence.
  - exact (proj2 clean x y I J E).
Qed.
Lemma rname_inj : forall x y, part x -> part y -> rname x = rname y -> x = y.
Proof.
  intros x y [-> |I] [-> |J] E; [reflexivity| | |]; unfold rname in E; rewrite Forall_forall in pos;
    try (specialize (pos _ I) as PX); try (specialize (pos _ J) as PY);
    repeat match goal with H : context [Z.ltb ?a 0] |- _ => destruct (Z.ltb_spec a 0); try lia end.
  - destruct (proj1 clean _ J) as (_ & _ & N). congruence.
  - destruct (proj1 clean _ I) as (_ & _ & N). congruence.
  - exact (proj2 clean x y I J E).
Qed.
Lemma bi_name : forall l r, part l -> part r -> bigram_name text l r = ("Bi:" ++ lname l ++ "_" ++ rname r)%string.
Proof.
  intros l r L R. unfold bigram_name. destruct (Z.eqb_spec r 0); [exfalso; exact (part_nz r R e)|]. fold (lname l) (rname r).
  rewrite !escape_app, (escape_plain _ (lname_plain l L)), (escape_plain _ (rname_plain r R)). reflexivity.
Qed.
Lemma uni_name : forall w, In w tagset -> bigram_name text w 0 = ("Uni:" ++ text w)%string.
Proof. intros w I. unfold bigram_name. cbn [Z.eqb]. rewrite escape_app, (escape_plain (text w)) by apply (proj1 clean w I). reflexivity. Qed.
Lemma bi_inj : forall l r l' r', part l -> part r -> part l' -> part r' -> bigram_name text l r = bigram_name text l' r' -> (l, r) = (l', r').
Proof.
  intros l r l' r' L R L' R' E. rewrite !bi_name in E by assumption. injection E as E.
  apply split_name in E as (E1 & E2); [|apply lname_plain; assumption..]. apply lname_inj in E1; try assumption. apply rname_inj in E2; try assumption. congruence.
Qed.
Lemma uni_bi : forall w l r, In w tagset -> part l -> part r -> bigram_name text w 0 <> bigram_name text l r.
Proof. intros w l r I L R. rewrite uni_name, bi_name by assumption. discriminate. Qed.
Lemma uni_inj : forall w w', In w tagset -> In w' tagset -> bigram_name text w 0 = bigram_name text w' 0 -> w = w'.
Proof. intros w w' I I' E. rewrite !uni_name in E by assumption. injection E as E. exact (proj2 clean w w' I I' E). Qed.
End Names.

(** ** Counting *)
Lemma neighbours_snoc : forall A (l : list A) x d, l <> [] -> neighbours (l ++ [x]) = neighbours l ++ [(last l d, x)].
Proof.
  intros A l x d. induction l as [|a l IH]; [congruence|]. intros _. destruct l as [|b l]; [reflexivity|].
  change (neighbours ((a :: b :: l) ++ [x])) with ((a, b) :: neighbours ((b :: l) ++ [x])). rewrite IH by discriminate. reflexivity.
Qed.
Lemma times_app : forall x a b, times_named x (a ++ b) = (times_named x a + times_named x b)%Z.
Proof. intros. unfold times_named. rewrite count_occ_app. lia. Qed.
Lemma set1_times : forall v ps p x, (forall y, v y = times_named y ps) -> ~ In p ps -> set1 v p x = times_named x (ps ++ [p]).
Proof.
  intros v ps p x V N. unfold set1. rewrite times_app, <- V. destruct (String.eqb_spec x p) as [-> |NE].
  - rewrite V. unfold times_named. rewrite (proj1 (count_occ_not_In string_dec ps p) N). cbn. destruct (string_dec p p); [reflexivity|congruence].
  - unfold times_named. cbn. destruct (string_dec p x); [congruence|]. lia.
Qed.
Lemma no_times : forall x, no_features x = times_named x [].
Proof. reflexivity. Qed.
Lemma times_inj : forall (f : Z * Z -> string) l p, (forall q, In q l -> f q = f p -> q = p) -> times_named (f p) (map f l) = times_in p l.
Proof.
  intros f l p. unfold times_named, times_in. induction l as [|q l IH]; intros H; [reflexivity|]. cbn [map count_occ].
  assert (E : Z.of_nat (count_occ string_dec (map f l) (f p)) = Z.of_nat (count_occ pair_dec l p)) by (apply IH; intros r I; apply H; right; exact I).
  destruct (string_dec (f q) (f p)) as [F|F]; destruct (pair_dec q p) as [Q|Q]; try lia.
  - exfalso. apply Q, H; [left; reflexivity|exact F].
  - subst q. congruence.
Qed.

(** ** Bigrams along a derivation *)
Section Bigrams.
Context {X : Type}.
Notation hgx := (hg (elab X)).
Variables (text : Z -> string) (tagset : list Z).
Hypothesis clean : readable text tagset.
Hypothesis pos : Forall (fun w => (0 < w)%Z) tagset.
Variables (kXCAT : Z) (bin_addr : nat) (no_uni : bool) (N : nat).
Notation comb := (fun i => plain (X := X) (kBINARY kXCAT bin_addr) 0 (Z.of_nat i + 1)).
Notation ff := (BigramIndicator (X := X) text no_uni (Z.of_nat N)).
Notation nm := (fun p => bigram_name text (fst p) (snd p)).
Definition unis (ws : list Z) : list (Z * Z) := if no_uni then [] else map (fun w => (w, 0%Z)) ws.
Definition bis (ws : list Z) : list (Z * Z) :=
  match ws with
  | w :: _ :: _ => ((-1)%Z, w) :: neighbours ws ++ (if length ws =? N then [(last ws 0%Z, (-1)%Z)] else [])
  | _ => []
  end.
Definition tagged (l : elab X) (w : Z) : Prop := r_e (rule_ l) = [w] /\ In w tagset.

Lemma spine_ne : forall g t (ls : list (elab X)), spine comb g t ls -> ls <> [].
Proof. intros g t ls H. destruct H; [discriminate|]. intros E. apply app_eq_nil in E as (_ & E). discriminate. Qed.
Lemma fire_uni : forall w, In w tagset -> forall x, FireBigram text no_uni w 0 no_features x = times_named x (map nm (unis [w])).
Proof.
  intros w I x. unfold FireBigram, unis. cbn [Z.eqb]. rewrite andb_true_r. destruct no_uni; [reflexivity|].
  exact (set1_times no_features [] _ x no_times (fun f => f)).
Qed.
Lemma fire_bi : forall l r v ps x, part tagset l -> part tagset r -> (forall y, v y = times_named y (map nm ps)) ->
  (forall p, In p ps -> part tagset (fst p) /\ part tagset (snd p) /\ p <> (l, r)) ->
  FireBigram text no_uni l r v x = times_named x (map nm (ps ++ [(l, r)])).
Proof.
  intros l r v ps x L R V H. unfold FireBigram. destruct (Z.eqb_spec r 0); [exfalso; exact (part_nz tagset pos r R e)|]. rewrite andb_false_r.
  rewrite map_app. apply set1_times; [exact V|]. intros I. apply in_map_iff in I as (p & E & I). destruct (H p I) as (PL & PR & NE). apply NE.
  destruct p as (a, b). exact (bi_inj text tagset clean pos _ _ _ _ PL PR L R E).
Qed.

Lemma spine_bigrams : forall g t ls, spine comb g t ls -> forall ws, Forall2 tagged ls ws -> length ls <= N -> exists v,
  traverse ff g t = Some (last ws 0%Z, v) /\ forall x, v x = (times_named x (map nm (unis ws)) + times_named x (map nm (bis ws)))%Z.
Proof.
  intros g t ls H. induction H as [e ed E T|e ed t ls e2 ed2 S IH E L E2 T2]; intros ws F LE.
  - inversion F as [|? w ? ? (RE & I) F0]; subst. inversion F0; subst. eexists. split.
    + cbn [traverse]. rewrite E. cbn [bind map_opt map]. unfold BigramIndicator. rewrite RE. cbn [nth_error bind fst snd map fold_left]. reflexivity.
    + intros x. rewrite fire_uni by exact I. cbn [bis]. unfold times_named at 3. cbn. lia.
  - apply Forall2_app_inv_l in F as (ws1 & ws2 & F1 & F2 & ->). inversion F2 as [|? w ? ? (RE & I) F0]; subst. inversion F0; subst.
    rewrite app_length in LE. cbn [length] in LE. destruct (IH ws1 F1 ltac:(lia)) as (v1 & E1 & V1).
    pose proof (spine_ne _ _ _ S) as NE. assert (LW : length ls = length ws1) by (clear - F1; induction F1; cbn; congruence).
    assert (NW : ws1 <> []) by (intros ->; destruct ls; [congruence|discriminate]).
    assert (IW : forall a, In a ws1 -> In a tagset). { intros a A. clear - F1 A. induction F1 as [|l0 w0 ls0 ws0 (_ & I0) F IHF]; [destruct A|]. destruct A as [<- |A]; auto. }
    assert (LI : In (last ws1 0%Z) tagset). { apply IW. destruct (exists_last NW) as (u & a & ->). rewrite last_snoc. apply in_or_app. right. left. reflexivity. }
    assert (UNI : forall x, times_named x (map nm (unis (ws1 ++ [w]))) = (times_named x (map nm (unis ws1)) + times_named x (map nm (unis [w])))%Z).
    { intros x. unfold unis. destruct no_uni; [reflexivity|]. rewrite map_app, map_app. apply times_app. }
    assert (pl : forall a, In a tagset -> part tagset a) by (intros; right; assumption).
    assert (p1 : part tagset (-1)) by (left; reflexivity).
    assert (NEG : ~ In (-1)%Z tagset) by (intros J; rewrite Forall_forall in pos; specialize (pos _ J); lia).
    assert (OWN : exists vo, ff (comb (length ls)) [last ws1 0%Z; w] = Some (w, vo) /\ forall x, (times_named x (map nm (bis ws1)) + vo x)%Z = times_named x (map nm (bis (ws1 ++ [w])))).
    { unfold BigramIndicator. cbn [i_ j_ plain Z.eqb]. rewrite !andb_true_l.
      eexists. split; [reflexivity|]. intros x.
      set (v0 := if (Z.of_nat (length ls) + 1 =? 2)%Z then FireBigram text no_uni (-1) (last ws1 0%Z) no_features else no_features).
      set (ps0 := if (Z.of_nat (length ls) + 1 =? 2)%Z then [((-1)%Z, last ws1 0%Z)] else []).
      assert (V0 : forall y, v0 y = times_named y (map nm ps0)).
      { intros y. unfold v0, ps0. destruct (Z.of_nat (length ls) + 1 =? 2)%Z; [|reflexivity]. apply (fire_bi _ _ _ []); auto. intros p []. }
      assert (P0 : forall p, In p ps0 -> p = ((-1)%Z, last ws1 0%Z)). { intros p. unfold ps0. destruct (Z.of_nat (length ls) + 1 =? 2)%Z; [intros [<- |[]]; reflexivity|intros []]. }
      set (va := FireBigram text no_uni (last ws1 0%Z) w v0).
      assert (VA : forall y, va y = times_named y (map nm (ps0 ++ [(last ws1 0%Z, w)]))).
      { intros y. apply fire_bi; auto. intros p J. rewrite (P0 p J). cbn. split; [exact p1|]. split; [auto|]. intros [= Q _]. rewrite <- Q in LI. exact (NEG LI). }
      set (vb := if (Z.of_nat (length ls) + 1 =? Z.of_nat N)%Z then FireBigram text no_uni w (-1) va else va).
      set (ps2 := if length (ws1 ++ [w]) =? N then [(w, (-1)%Z)] else []).
      assert (VB : forall y, vb y = times_named y (map nm (ps0 ++ [(last ws1 0%Z, w)] ++ ps2))).
      { intros y. unfold vb, ps2. rewrite app_length. cbn [length]. rewrite <- LW. destruct (Z.eqb_spec (Z.of_nat (length ls) + 1) (Z.of_nat N)); destruct (Nat.eqb_spec (length ls + 1) N); try lia; [|rewrite app_nil_r; apply VA].
        rewrite app_assoc. apply fire_bi; auto. intros p J. apply in_app_or in J as [J|[<- |[]]].
        - rewrite (P0 p J). cbn. split; [exact p1|]. split; [auto|]. intros [= Q _]. rewrite <- Q in I. exact (NEG I).
        - cbn. split; [auto|]. split; [auto|]. intros [= _ Q]. rewrite Q in I. exact (NEG I). }
      change (times_named x (map nm (bis ws1)) + vb x = times_named x (map nm (bis (ws1 ++ [w]))))%Z. rewrite VB.
      assert (BIS : bis (ws1 ++ [w]) = bis ws1 ++ ps0 ++ [(last ws1 0%Z, w)] ++ ps2).
      { assert (PS2 : (if length (ws1 ++ [w]) =? N then [(last (ws1 ++ [w]) 0%Z, (-1)%Z)] else []) = ps2) by (unfold ps2; rewrite last_snoc; reflexivity).
        pose proof (neighbours_snoc _ ws1 w 0%Z NW) as NS. unfold ps0. rewrite LW. destruct ws1 as [|a [|b r]]; [congruence| |].
        - unfold bis at 1. cbn [app]. cbn [app] in NS, PS2. rewrite NS, PS2. reflexivity.
        - destruct (Z.eqb_spec (Z.of_nat (length (a :: b :: r)) + 1) 2); [cbn [length] in e0; lia|]. unfold bis. cbn [app]. change (a :: b :: r ++ [w]) with ((a :: b :: r) ++ [w]). rewrite NS, PS2.
          destruct (Nat.eqb_spec (length (a :: b :: r)) N); [rewrite LW in LE; lia|]. rewrite app_nil_r, <- !app_assoc. reflexivity. }
      rewrite BIS, !map_app, !times_app. lia. }
    destruct OWN as (vo & EO & VO). eexists. split.
    + cbn [traverse]. rewrite E. cbn [bind map_opt]. rewrite E1. cbn [bind traverse]. rewrite E2. cbn [bind map_opt map]. unfold BigramIndicator at 1. rewrite RE. cbn [nth_error bind fst snd map fold_left].
      rewrite L, EO. cbn [bind fst snd fold_left]. rewrite last_snoc. reflexivity.
    + intros x. unfold vadd. rewrite V1, fire_uni by exact I. rewrite UNI, <- VO. lia.
Qed.
End Bigrams.

(** ** The tagger *)
Section Tagger.
Context {X : Type}.
Notation hgx := (hg (elab X)).
Variables (kXCAT kGOALCAT : Z) (bin_addr goal_addr : nat).
Hypothesis xneg : (kXCAT < 0)%Z.
Variables tagset ts : list Z.
Hypothesis tags_pos : Forall (fun w => (0 < w)%Z) tagset.
Hypothesis ts_pos : Forall (fun w => (0 < w)%Z) ts.
Hypothesis ts_ne : ts <> [].
Notation comb := (fun i => plain (X := X) (kBINARY kXCAT bin_addr) 0 (Z.of_nat i + 1)).

(** the label of position [i] *)
Definition at_pos (i : nat) (l : elab X) (w : Z) : Prop := i_ l = Z.of_nat i /\ r_e (rule_ l) = [w] /\ In w tagset.
Lemma tagger_spine : exists g : hgx, TaggerTrellis kXCAT kGOALCAT bin_addr goal_addr tagset ts = Some g /\
  forall t ws, derives g (goal g) t -> translation g t = Some ws -> length ws = length ts /\
  exists e ed s ls, t = Tree e [s] /\ nth_error (edges g) e = Some ed /\ lab ed = plain (kGOAL_RULE kXCAT goal_addr) (-1) (-1) /\
    spine comb g s ls /\ length ls = length ts /\ forall i l, nth_error ls i = Some l -> exists w, nth_error ws i = Some w /\ at_pos i l w.
Proof.
  destruct (tag_cells (X := X) tagset ts) as [|c r] eqn:EC.
  { pose proof (tag_len (X := X) tagset ts) as L. rewrite EC in L. destruct ts; [congruence|discriminate]. }
  destruct (build_ok (X := X) kXCAT kGOALCAT bin_addr goal_addr xneg comb (fun i => eq_refl) c r) as (g1 & g & A & B & H).
  exists g. split; [unfold TaggerTrellis; rewrite EC, A; cbn [bind]; exact B|]. intros t ws D T.
  assert (LC : S (length r) = length ts) by (rewrite <- (tag_len (X := X) tagset ts), EC; reflexivity).
  destruct (build_spine comb kXCAT kGOALCAT bin_addr goal_addr xneg (fun i => eq_refl) c r g1 g A B t D) as (e & ed & s & ls & -> & E & LB & SP & LL).
  destruct (ch_trellis g (c :: r) H) as (enc & E1 & E2 & E3 & E4). pose proof (proj1 (E1 _) D) as (ks & ls' & CC & ET).
  assert (LS : ls' = ls). { rewrite <- (E3 ks ls' CC), <- ET, <- (spine_leaves _ _ _ _ SP). cbn [leaves flat_map]. apply app_nil_r. } subst ls'.
  rewrite <- EC in *. destruct (tag_words (X := X) tagset ts ks ls CC) as (TW & _).
  destruct (E4 (fun c l I J => all_lexical _ (tag_good (X := X) tagset ts tags_pos ts_pos) c l I J) ks ls CC) as (TT & _). rewrite <- ET, T in TT. injection TT as ->.
  destruct (choice_nth _ _ _ CC) as (L1 & L2 & NTH). split; [rewrite TW, map_length, L2; apply tag_len|].
  exists e, ed, s, ls. split; [reflexivity|]. split; [exact E|]. split; [exact LB|]. split; [exact SP|]. split; [congruence|].
  intros i l I. destruct (NTH i l I) as (c' & k & C & K & NK). apply (tag_in (X := X) tagset ts i c' k l C) in NK as (w & tag & W & TG & ->).
  exists tag. split; [|split; [reflexivity|split; [reflexivity|exact (nth_error_In _ _ TG)]]].
  rewrite TW, nth_error_map, K. cbn. rewrite (nth_error_nth _ _ _ TG). reflexivity.
Qed.
Lemma f2_of_nth : forall (P : elab X -> Z -> Prop) ls ws, length ls = length ws -> (forall i l, nth_error ls i = Some l -> exists w, nth_error ws i = Some w /\ P l w) -> Forall2 P ls ws.
Proof.
  intros P ls. induction ls as [|l ls IH]; intros [|w ws] L H; try discriminate; [constructor|]. constructor.
  - destruct (H 0 l eq_refl) as (w' & [= <-] & Q). exact Q.
  - apply IH; [cbn in L; lia|]. intros i. exact (H (S i)).
Qed.

Lemma bis_whole : forall ws, 2 <= length ws -> bis (length ws) ws = neighbours ((-1)%Z :: ws ++ [(-1)%Z]).
Proof.
  intros [|a [|b r]] L; cbn [length] in L; try lia. unfold bis. rewrite Nat.eqb_refl.
  rewrite <- (neighbours_snoc _ (a :: b :: r) (-1)%Z 0%Z ltac:(discriminate)). reflexivity.
Qed.
Lemma neighbours_in : forall A (l : list A) p, In p (neighbours l) -> In (fst p) l /\ In (snd p) l.
Proof.
  intros A l p. induction l as [|x l IH]; [intros []|]. destruct l as [|y l]; [intros []|].
  change (neighbours (x :: y :: l)) with ((x, y) :: neighbours (y :: l)). intros [<- |I]; [cbn; auto|]. destruct (IH I). split; right; assumption.
Qed.
Theorem bigrams_ok : forall text no_uni, readable text tagset ->
  exists g : hgx, TaggerTrellis kXCAT kGOALCAT bin_addr goal_addr tagset ts = Some g /\
  forall t ws, derives g (goal g) t -> translation g t = Some ws -> exists v,
    traverse (BigramIndicator text no_uni (Z.of_nat (length ts))) g t = Some (last ws 0%Z, v) /\
    (forall w, In w tagset -> v (bigram_name text w 0) = if no_uni then 0%Z else Z.of_nat (count_occ Z.eq_dec ws w)) /\
    (forall l r, part tagset l -> part tagset r -> v (bigram_name text l r) = if 2 <=? length ts then times_in (l, r) (neighbours ((-1)%Z :: ws ++ [(-1)%Z])) else 0%Z) /\
    (forall x, v x <> 0%Z -> exists l r, x = bigram_name text l r /\ (In l tagset /\ r = 0%Z \/ part tagset l /\ part tagset r)).
Proof.
  intros text no_uni CL. destruct tagger_spine as (g & BT & SPN). exists g. split; [exact BT|]. intros t ws D T.
  destruct (SPN t ws D T) as (LW & e & ed & s & ls & -> & E & LB & SP & LL & NTH).
  assert (F2 : Forall2 (tagged tagset) ls ws). { apply f2_of_nth; [congruence|]. intros i l I. destruct (NTH i l I) as (w & W & _ & R & IN). exists w. split; [exact W|]. split; assumption. }
  destruct (spine_bigrams text tagset CL tags_pos kXCAT bin_addr no_uni (length ts) g s ls SP ws F2 ltac:(lia)) as (v & EV & V).
  assert (IW : forall a, In a ws -> In a tagset). { intros a A. clear - F2 A. induction F2 as [|l0 w0 ls0 ws0 (_ & I0) F IHF]; [destruct A|]. destruct A as [<- |A]; auto. }
  eexists. split; [|].
  { cbn [traverse]. rewrite E. cbn [bind map_opt]. rewrite EV. cbn [bind map fst snd]. unfold BigramIndicator at 1. cbn [bind fst snd fold_left]. reflexivity. }
  assert (NB : forall p, In p (bis (length ts) ws) -> part tagset (fst p) /\ part tagset (snd p)).
  { intros p I. destruct (Nat.le_gt_cases 2 (length ws)) as [G|G].
    - rewrite <- LW, (bis_whole ws G) in I. apply neighbours_in in I. assert (PP : forall a, In a ((-1)%Z :: ws ++ [(-1)%Z]) -> part tagset a).
      { intros a [<- |J]; [left; reflexivity|]. apply in_app_or in J as [J|[<- |[]]]; [right; auto|left; reflexivity]. } destruct I. auto.
    - destruct ws as [|a [|b r]]; cbn [length] in G; try lia; destruct I. }
  assert (NU : forall p, In p (unis no_uni ws) -> In (fst p) tagset /\ snd p = 0%Z).
  { intros p. unfold unis. destruct no_uni; [intros []|]. intros I. apply in_map_iff in I as (w & <- & I). cbn. auto. }
  split; [|split].
  - intros w I. unfold vadd, no_features. rewrite V.
    assert (Z1 : times_named (bigram_name text w 0) (map (fun p => bigram_name text (fst p) (snd p)) (bis (length ts) ws)) = 0%Z).
    { unfold times_named. apply (f_equal Z.of_nat (y := 0)), (count_occ_not_In string_dec). intros J. apply in_map_iff in J as (p & Q & J). destruct (NB p J). exact (uni_bi text tagset CL tags_pos w (fst p) (snd p) I H H0 (eq_sym Q)). }
    rewrite Z1. unfold unis. destruct no_uni; [reflexivity|].
    pose proof (times_inj (fun p => bigram_name text (fst p) (snd p)) (map (fun w => (w, 0%Z)) ws) (w, 0%Z)) as TI. cbn [fst snd] in TI. rewrite TI.
    + unfold times_in. rewrite Z.add_0_l, Z.add_0_r. f_equal. clear. induction ws as [|a ws IH]; [reflexivity|]. cbn [map count_occ]. destruct (pair_dec (a, 0%Z) (w, 0%Z)) as [Q|Q]; destruct (Z.eq_dec a w) as [R|R]; congruence.
    + intros q J Q. apply in_map_iff in J as (a & <- & J). cbn [fst snd] in Q. rewrite (uni_inj text tagset CL a w (IW a J) I Q). reflexivity.
  - intros l r L R. unfold vadd, no_features. rewrite V.
    assert (Z1 : times_named (bigram_name text l r) (map (fun p => bigram_name text (fst p) (snd p)) (unis no_uni ws)) = 0%Z).
    { unfold times_named. apply (f_equal Z.of_nat (y := 0)), (count_occ_not_In string_dec). intros J. apply in_map_iff in J as (p & Q & J). destruct (NU p J) as (I1 & I2). rewrite I2 in Q. exact (uni_bi text tagset CL tags_pos (fst p) l r I1 L R Q). }
    rewrite Z1. rewrite <- LW. destruct (Nat.leb_spec 2 (length ws)) as [G|G].
    + rewrite <- (bis_whole ws G), LW. rewrite Z.add_0_l, Z.add_0_l.
      apply (times_inj (fun p => bigram_name text (fst p) (snd p)) (bis (length ts) ws) (l, r)). intros (a, b) J Q. destruct (NB _ J). exact (bi_inj text tagset CL tags_pos _ _ _ _ H H0 L R Q).
    + destruct ws as [|a [|b q]]; cbn [length] in G; try lia; reflexivity.
  - intros x NZ. unfold vadd, no_features in NZ. rewrite V in NZ.
    assert (I : In x (map (fun p => bigram_name text (fst p) (snd p)) (unis no_uni ws)) \/ In x (map (fun p => bigram_name text (fst p) (snd p)) (bis (length ts) ws))).
    { destruct (in_dec string_dec x (map (fun p => bigram_name text (fst p) (snd p)) (unis no_uni ws))) as [I|I]; [left; exact I|].
      destruct (in_dec string_dec x (map (fun p => bigram_name text (fst p) (snd p)) (bis (length ts) ws))) as [J|J]; [right; exact J|].
      exfalso. apply NZ. unfold times_named. apply (count_occ_not_In string_dec) in I. apply (count_occ_not_In string_dec) in J. rewrite I, J. reflexivity. }
    destruct I as [I|I]; apply in_map_iff in I as (p & <- & I); exists (fst p), (snd p); (split; [reflexivity|]); [left; exact (NU p I)|right; exact (NB p I)].
Qed.

(** features of single words *)
Section Words.
Variable St : Type.
Variable ff : elab X -> list St -> option (St * (string -> Z)).
Variable f : elab X -> string.
Variable s0 : St.
Hypothesis at_leaf : forall i l w, i < length ts -> at_pos i l w -> ff l [] = Some (s0, set1 no_features (f l)).
Hypothesis at_comb : forall i, exists v, ff (comb i) [s0; s0] = Some (s0, v) /\ forall x, v x = 0%Z.
Hypothesis at_goal : exists v, ff (plain (kGOAL_RULE kXCAT goal_addr) (-1) (-1)) [s0] = Some (s0, v) /\ forall x, v x = 0%Z.
Lemma spine_words : forall g t ls, spine comb g t ls -> (forall i l, nth_error ls i = Some l -> exists w, i < length ts /\ at_pos i l w) ->
  exists v, traverse ff g t = Some (s0, v) /\ forall x, v x = times_named x (map f ls).
Proof.
  intros g t ls H. induction H as [e ed E T|e ed t ls e2 ed2 S IH E L E2 T2]; intros NTH.
  - destruct (NTH 0 (lab ed) eq_refl) as (w & LT & P). eexists. split; [cbn [traverse]; rewrite E; cbn [bind map_opt map]; rewrite (at_leaf 0 _ w LT P); reflexivity|].
    intros x. cbn [fst snd fold_left]. exact (set1_times no_features [] _ x no_times (fun f => f)).
  - destruct IH as (v1 & E1 & V1). { intros i l I. apply NTH. rewrite nth_error_app1; [exact I|apply nth_error_Some; congruence]. }
    destruct (NTH (length ls) (lab ed2)) as (w & LT & P). { rewrite nth_error_app2, Nat.sub_diag by lia. reflexivity. }
    destruct (at_comb (length ls)) as (vc & EC & VC). eexists. split.
    + cbn [traverse]. rewrite E. cbn [bind map_opt]. rewrite E1. cbn [bind traverse]. rewrite E2. cbn [bind map_opt map]. rewrite (at_leaf _ _ w LT P). cbn [bind fst snd map fold_left]. rewrite L, EC. cbn [bind fst snd fold_left]. reflexivity.
    + intros x. unfold vadd. rewrite VC, V1, map_app, times_app. cbn [map]. rewrite (set1_times no_features [] _ x no_times (fun f => f)). reflexivity.
Qed.
Lemma words_ok : exists g : hgx, TaggerTrellis kXCAT kGOALCAT bin_addr goal_addr tagset ts = Some g /\
  forall t ws, derives g (goal g) t -> translation g t = Some ws -> exists ls v, traverse ff g t = Some (s0, v) /\
    (forall x, v x = times_named x (map f ls)) /\ length ws = length ts /\ length ls = length ts /\ forall i l, nth_error ls i = Some l -> exists w, nth_error ws i = Some w /\ at_pos i l w.
Proof.
  destruct tagger_spine as (g & BT & SPN). exists g. split; [exact BT|]. intros t ws D T.
  destruct (SPN t ws D T) as (LW & e & ed & s & ls & -> & E & LB & SP & LL & NTH).
  destruct (spine_words g s ls SP) as (v & EV & V). { intros i l I. destruct (NTH i l I) as (w & W & P). exists w. split; [|exact P]. rewrite <- LW. apply nth_error_Some. congruence. }
  destruct at_goal as (vg & EG & VG). exists ls. eexists. split; [cbn [traverse]; rewrite E; cbn [bind map_opt]; rewrite EV; cbn [bind map fst snd]; rewrite LB, EG; cbn [bind fst snd fold_left]; reflexivity|].
  split; [intros x; unfold vadd; rewrite VG, V; lia|]. auto.
Qed.
End Words.

Lemma map_nth_eq : forall A (u w : list A), length u = length w -> (forall i x, nth_error u i = Some x -> nth_error w i = Some x) -> u = w.
Proof.
  intros A u. induction u as [|a u IH]; intros [|b w] L H; try discriminate; [reflexivity|]. pose proof (H 0 a eq_refl) as H0. cbn in H0. injection H0 as ->. f_equal. apply IH; [cbn in L; lia|]. intros i. exact (H (S i)).
Qed.
Theorem outputs_ok : forall text escape_, exists g : hgx, TaggerTrellis kXCAT kGOALCAT bin_addr goal_addr tagset ts = Some g /\
  forall t ws, derives g (goal g) t -> translation g t = Some ws -> exists v, traverse (OutputIndicator text escape_) g t = Some (tt, v) /\
    forall x, v x = times_named x (map (output_name text escape_) ws).
Proof.
  intros text escape_. destruct (words_ok unit (OutputIndicator text escape_) (fun l => output_name text escape_ (hd 0%Z (r_e (rule_ l)))) tt) as (g & BT & H).
  - intros i l w _ (_ & R & I). unfold OutputIndicator. rewrite R. cbn [fold_left hd]. rewrite Forall_forall in tags_pos. specialize (tags_pos w I). destruct (Z.ltb_spec 0 w); [reflexivity|lia].
  - intros i. eexists. split; [reflexivity|]. intros x. reflexivity.
  - eexists. split; [reflexivity|]. intros x. reflexivity.
  - exists g. split; [exact BT|]. intros t ws D T. destruct (H t ws D T) as (ls & v & EV & V & LW & LL & NTH). exists v. split; [exact EV|]. intros x. rewrite V. f_equal.
    apply map_nth_eq; [rewrite !map_length; congruence|]. intros i y Y. rewrite nth_error_map in Y. destruct (nth_error ls i) as [l|] eqn:EL; [|discriminate]. injection Y as <-. destruct (NTH i l EL) as (w & W & _ & R & _). rewrite nth_error_map, W, R. reflexivity.
Qed.
Theorem pairs_ok : forall text escape_ name kNULL cur trgmap, length ts <= length cur -> exists g : hgx, TaggerTrellis kXCAT kGOALCAT bin_addr goal_addr tagset ts = Some g /\
  forall t ws, derives g (goal g) t -> translation g t = Some ws -> exists v, traverse (LexicalPairIndicator text escape_ name kNULL cur trgmap) g t = Some (tt, v) /\
    forall x, v x = times_named x (map (fun p => pair_name text name (escape_word escape_ (fst p)) (CoarsenedTargetWord escape_ trgmap (snd p))) (combine cur ws)).
Proof.
  intros text escape_ name kNULL cur trgmap LC.
  destruct (words_ok unit (LexicalPairIndicator text escape_ name kNULL cur trgmap)
    (fun l => pair_name text name (escape_word escape_ (nth (Z.to_nat (i_ l)) cur 0%Z)) (CoarsenedTargetWord escape_ trgmap (hd 0%Z (r_e (rule_ l))))) tt) as (g & BT & H).
  - intros i l w LT (PI & R & I). unfold LexicalPairIndicator, SourceWordAtPosition. rewrite R, PI. destruct (Z.ltb_spec (Z.of_nat i) 0); [lia|]. rewrite Nat2Z.id.
    destruct (nth_error cur i) as [c|] eqn:C; [|apply nth_error_None in C; lia]. cbn [bind hd]. rewrite (nth_error_nth _ _ _ C). reflexivity.
  - intros i. eexists. split; [reflexivity|]. intros x. reflexivity.
  - eexists. split; [reflexivity|]. intros x. reflexivity.
  - exists g. split; [exact BT|]. intros t ws D T. destruct (H t ws D T) as (ls & v & EV & V & LW & LL & NTH). exists v. split; [exact EV|]. intros x. rewrite V. f_equal.
    apply map_nth_eq; [rewrite !map_length, combine_length; lia|]. intros i y Y. rewrite nth_error_map in Y. destruct (nth_error ls i) as [l|] eqn:EL; [|discriminate]. injection Y as <-. destruct (NTH i l EL) as (w & W & PI & R & _).
    assert (LI : i < length ts) by (rewrite <- LW; apply nth_error_Some; congruence). destruct (nth_error cur i) as [c|] eqn:C; [|apply nth_error_None in C; lia].
    rewrite nth_error_map. assert (CB : nth_error (combine cur ws) i = Some (c, w)).
    { clear - C W. revert ws cur C W. induction i as [|i IH]; intros [|w0 ws] [|c0 cur] C W; try discriminate; cbn in *; [congruence|]. apply IH; assumption. }
    rewrite CB. cbn [option_map fst snd]. rewrite PI, Nat2Z.id, (nth_error_nth _ _ _ C), R. reflexivity.
Qed.
End Tagger.

(** ** Names *)
Lemma Escape_safe s : safe_name (Escape s).
Proof.
  induction s as [|c s IH]; intros i d H; [destruct i; discriminate H|]. cbn [Escape] in H. destruct i as [|i]; cbn [String.get] in H; [|exact (IH i d H)].
  injection H as <-. unfold escape_char. destruct (Ascii.eqb_spec c "="%char) as [->|N1]; [split; discriminate|]. destruct (Ascii.eqb_spec c ";"%char) as [->|N2]; [split; discriminate|]. now split.
Qed.
Lemma Escape_id s : safe_name s -> Escape s = s.
Proof.
  induction s as [|c s IH]; intros H; [reflexivity|]. cbn [Escape]. rewrite IH by (intros i d E; exact (H (S i) d E)). destruct (H 0%nat c eq_refl) as [N1 N2]. unfold escape_char.
  destruct (Ascii.eqb_spec c "="%char) as [->|_]; [congruence|]. destruct (Ascii.eqb_spec c ";"%char) as [->|_]; [congruence|]. reflexivity.
Qed.
Lemma get_app a b i c : String.get i (a ++ b)%string = Some c -> String.get i a = Some c \/ exists j, String.get j b = Some c.
Proof.
  revert i. induction a as [|d a IH]; intros i H; cbn [append] in H; [right; eauto|]. destruct i as [|i]; cbn [String.get] in *; [now left|auto].
Qed.
Lemma safe_app a b : safe_name a -> safe_name b -> safe_name (a ++ b)%string.
Proof. intros A B i c H. apply get_app in H. destruct H as [H|[j H]]; eauto. Qed.
Lemma safe_lit s : Escape s = s -> safe_name s.
Proof. intros <-. apply Escape_safe. Qed.
Lemma names_ok (text : Z -> string) escape_ : (forall l r, safe_name (bigram_name text l r)) /\ (forall n s t, safe_name (pair_name text n s t)) /\ (forall t, safe_name (output_name text escape_ t))
  /\ ((forall w, safe_name (text w)) ->
      (forall w, bigram_name text w 0 = "Uni:" ++ text w)%string
      /\ (forall l r, (0 < l -> 0 < r -> bigram_name text l r = "Bi:" ++ text l ++ "_" ++ text r)%string%Z)
      /\ (forall r, (0 < r -> bigram_name text (-1) r = "Bi:BOS_" ++ text r)%string%Z)
      /\ (forall l, (0 < l -> bigram_name text l (-1) = "Bi:" ++ text l ++ "_EOS")%string%Z)
      /\ (forall n s t, safe_name n -> pair_name text n s t = n ++ ":" ++ text s ++ ":" ++ text t)%string
      /\ (forall t, output_name text [] t = "T:" ++ text t)%string).
Proof.
  split; [intros; apply Escape_safe|]. split; [intros; apply Escape_safe|]. split; [intros; apply Escape_safe|]. intros ST.
  assert (L : forall w s, Escape s = s -> safe_name w -> safe_name (s ++ w)%string) by (intros; apply safe_app; [now apply safe_lit|assumption]).
  repeat split; intros; unfold bigram_name, pair_name, output_name.
  - rewrite Z.eqb_refl. apply Escape_id. now apply (L (text w) "Uni:"%string).
  - rewrite (proj2 (Z.eqb_neq r 0)), (proj2 (Z.ltb_ge l 0)), (proj2 (Z.ltb_ge r 0)) by lia. apply Escape_id. apply (L _ "Bi:"%string); [reflexivity|]. apply safe_app; [auto|]. now apply (L _ "_"%string).
  - rewrite (proj2 (Z.eqb_neq r 0)), (proj2 (Z.ltb_ge r 0)) by lia. apply Escape_id. now apply (L _ "Bi:BOS_"%string).
  - rewrite (proj2 (Z.ltb_ge l 0)) by lia. apply Escape_id. apply (L _ "Bi:"%string); [reflexivity|]. apply safe_app; [auto|]. now apply safe_lit.
  - apply Escape_id. apply safe_app; [assumption|]. apply (L _ ":"%string); [reflexivity|]. apply safe_app; [auto|]. now apply (L _ ":"%string).
  - apply Escape_id. now apply (L _ "T:"%string).
Qed.
Theorem pairs_given : forall (X : Type) kXCAT kGOALCAT bin_addr goal_addr, (kXCAT < 0)%Z -> forall tagset ts,
  Forall (fun w => (0 < w)%Z) tagset -> Forall (fun w => (0 < w)%Z) ts -> ts <> [] ->
  forall text escape_ name kNULL corpus id cur trgmap,
  match corpus with None => cur = ts | Some lines => nth_error lines id = Some cur /\ (length ts <= length cur)%nat end ->
  exists g : hg (elab X), TaggerTrellis kXCAT kGOALCAT bin_addr goal_addr tagset ts = Some g /\
  forall t ws, derives g (goal g) t -> translation g t = Some ws -> exists words v, cur_src corpus id ts = Some words /\
    traverse (LexicalPairIndicator text escape_ name kNULL words trgmap) g t = Some (tt, v) /\
    forall x, v x = times_named x (map (fun p => pair_name text name (escape_word escape_ (fst p)) (CoarsenedTargetWord escape_ trgmap (snd p))) (combine cur ws)).
Proof.
  intros X kX kG ba ga NEG tagset ts TP SP NE text esc name kNULL corpus id cur trgmap HC.
  assert (E : cur_src corpus id ts = Some cur /\ (length ts <= length cur)%nat) by (destruct corpus; cbn [cur_src]; [exact HC|subst; auto]).
  destruct E as [E L]. destruct (pairs_ok (X := X) kX kG ba ga NEG tagset ts TP SP NE text esc name kNULL cur trgmap L) as (g & B & H). exists g. split; [exact B|].
  intros t ws D T. destruct (H t ws D T) as (v & V1 & V2). exists cur, v. auto.
Qed.
