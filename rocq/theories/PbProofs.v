(** What the forest of the decoder (Pb.v) says. *)
From Coq Require Import List Arith ZArith Bool Lia Relations.
From Verif Require Import Opt HG HGProofs Deriv Topo TopoSpec TopoProofs TopoDeriv Pb PbSpec PbBaseProofs PbStepProofs.
Import ListNotations.
Local Open Scope nat_scope.
Open Scope opt_scope.

Section A.
Context {R : Type}.
Notation L := (plabel R).
Lemma loop_more : forall D kNT lat (root : trie R) f f' w w', f <= f' -> loop D kNT lat root f w = Some w' -> loop D kNT lat root f' w = Some w'.
Proof.
  intros D kNT lat root f. induction f as [|f IH]; intros f' w w' LE H; cbn [loop] in H; destruct (queue w) as [|s q] eqn:Q; try discriminate; try (destruct f'; cbn [loop]; rewrite Q; exact H).
  destruct f' as [|f']; [lia|]. cbn [loop]. rewrite Q. destruct (apply_phrases D kNT root s _) as [w1|]; [|discriminate]. cbn [bind] in *. destruct (s_j s =? length lat); [apply IH; [lia|exact H]|]. destruct (nth_error lat (s_j s)) as [arcs|]; [|discriminate]. cbn [bind] in *. destruct (extend_all s arcs (queue w1)) as [q2|]; [|discriminate]. cbn [bind] in *. apply IH; [lia|exact H].
Qed.
Definition say (l : L) : list (nat * nat * R) := match l with Phrase i j r => [(i, j, r)] | _ => [] end.
Lemma flat_flat : forall (A B C : Type) (f : A -> list B) (h : B -> list C) l, flat_map h (flat_map f l) = flat_map (fun x => flat_map h (f x)) l.
Proof. intros A B C f h l. induction l as [|a l IH]; [reflexivity|]. cbn [flat_map]. rewrite flat_map_app, IH. reflexivity. Qed.
Lemma said_edge : forall (g : hg L) e ed sub, nth_error (edges g) e = Some ed -> said g (Tree e sub) = flat_map (said g) sub ++ say (lab ed).
Proof. intros g e ed sub E. unfold said at 1. cbn [tree_edges]. rewrite flat_map_app, flat_flat. cbn [flat_map]. rewrite E, app_nil_r. reflexivity. Qed.
Lemma said_has : forall (g : hg L) n ts l e sub, has g n ts l e -> said g (Tree e sub) = flat_map (said g) sub ++ say l.
Proof. intros g n ts l e sub (nd & ed & _ & _ & E & _ & <-). exact (said_edge g e ed sub E). Qed.
Lemma forall2_flat : forall (A B : Type) (Q : nat -> A -> Prop) (f h : A -> list B) ts sub, Forall (fun t => forall n, Q n t -> f t = h t) sub -> Forall2 Q ts sub -> flat_map f sub = flat_map h sub.
Proof. intros A B Q f h ts sub F F2. revert F. induction F2 as [|n t ts sub H F2 IH]; intros F; [reflexivity|]. inversion F as [|? ? X Y]; subst. cbn [flat_map]. rewrite (X n H), (IH Y). reflexivity. Qed.
Lemma derives_mono : forall (g g' : hg L), (forall n ts l e, has g n ts l e -> has g' n ts l e) -> forall t n, derives g n t -> derives g' n t /\ said g' t = said g t.
Proof.
  intros g g' M t. induction t as [e sub IH] using tree_ind'. intros n H. apply derives_has in H as (ts & l & HH & F). split.
  - apply derives_has. exists ts, l. split; [apply M; exact HH|]. clear HH. revert IH. induction F as [|m t ts sub D F IHF]; intros IH; [constructor|]. inversion IH as [|? ? X Y]; subst. constructor; [exact (proj1 (X m D))|exact (IHF Y)].
  - rewrite (said_has _ _ _ _ _ sub HH), (said_has _ _ _ _ _ sub (M _ _ _ _ HH)). f_equal. apply (forall2_flat _ _ (derives g) _ _ ts); [|exact F]. apply Forall_impl with (2 := IH). intros t X m D. exact (proj2 (X m D)).
Qed.
Lemma said_new : forall (g g' : hg L) rn re goal, wf_hg g -> renumbered None g goal g' rn re -> forall t n, derives g n t -> (forall e, In e (tree_edges t) -> exists j, re e = Some j) -> said g' (rename (TopoSpec.get re) t) = said g t.
Proof.
  intros g g' rn re goal WF RN t. induction t as [e sub IH] using tree_ind'. intros n D ALL. inversion D as [? nd ? ed ? N I ED TS]; subst. destruct (ALL e) as (j & RE); [cbn [tree_edges]; apply in_or_app; right; left; reflexivity|]. 
  destruct (edge_new None g g' goal rn re RN e j ed RE ED) as (h & k & _ & _ & NE). cbn [rename]. rewrite (get_some re e j RE). rewrite (said_edge g' j _ _ NE), (said_edge g e ed sub ED). cbn [lab]. f_equal.
  assert (ALLS : forall t, In t sub -> forall x, In x (tree_edges t) -> exists k, re x = Some k). { intros t IT x X. apply ALL. cbn [tree_edges]. apply in_or_app. left. apply in_flat_map. exists t. auto. }
  clear - IH TS ALLS. revert IH ALLS. induction TS as [|m t ts sub D F IHF]; intros IH ALLS; [reflexivity|]. inversion IH as [|? ? X Y]; subst. cbn [map flat_map]. rewrite (X m D (ALLS t (or_introl eq_refl))). rewrite (IHF Y (fun t' I => ALLS t' (or_intror I))). reflexivity.
Qed.
Lemma route_count : forall lat (table : list (list Z * R)) D C ps, route lat table D C ps -> length C = length lat.
Proof. intros lat table D C ps H. induction H; [apply repeat_length|]. rewrite covered_len. exact IHroute. Qed.
Lemma route_inv : forall lat (table : list (list Z * R)) D C ps, route lat table D C ps -> (C = repeat false (length lat) /\ ps = []) \/ exists C0 ps0 i j r, C = covered C0 i j /\ ps = ps0 ++ [(i, j, r)] /\ route lat table D C0 ps0.
Proof. intros lat table D C ps H. destruct H as [|C ps gap i j r ws H]; [left; split; reflexivity|]. right. exists C, ps, i, j, r. auto. Qed.
Lemma route_fun : forall lat (table : list (list Z * R)) D ps C C', route lat table D C ps -> route lat table D C' ps -> C = C'.
Proof.
  intros lat table D ps. induction ps as [|p ps IH] using rev_ind; intros C C' H H'; apply route_inv in H as [[E1 E2]|(C0 & ps0 & i & j & r & E1 & E2 & H)]; apply route_inv in H' as [[E1' E2']|(C0' & ps0' & i' & j' & r' & E1' & E2' & H')].
  - congruence.
  - destruct ps0'; discriminate.
  - destruct ps0; discriminate.
  - destruct ps0; discriminate.
  - destruct ps; discriminate.
  - destruct ps; discriminate.
  - destruct ps; discriminate.
  - apply app_inj_tail in E2 as [-> ->]. apply app_inj_tail in E2' as [-> E]. injection E as -> -> ->. rewrite E1, E1', (IH C0 C0' H H'). reflexivity.
Qed.
End A.

Section M.
Context {R : Type}.
Variables (D : nat) (kNT kGOAL : Z) (lat : list (list (Z * nat))) (table : list (list Z * R)) (root : trie R).
Hypothesis TR : trie_is root table.
Hypothesis FW : forward lat.
Hypothesis NE : forall ws r, In (ws, r) table -> ws <> [].
Notation L := (plabel R).
Notation Inv := (Inv D lat table root).
Notation empty := (empty lat).

(** ** Every node has a derivation *)
Definition alive (w : work (R := R)) (ks : list nk) : Prop := Inv w ks /\ forall n, n < length (nodes (forest w)) -> exists t, derives (forest w) n t.
Lemma alive_step : forall w ks s q w' ks', alive w ks -> queue w = s :: q -> stepped D lat root s q w ks w' ks' -> Inv w' ks' -> alive w' ks'.
Proof.
  intros w ks s q w' ks' [IV AL] QU (w1 & new & -> & _ & _ & _ & KD) I'. split; [exact I'|]. cbn [forest] in *. destruct (v_q _ _ _ _ w ks IV s) as [SO IU]; [rewrite QU; left; reflexivity|].
  destruct KD as [(_ & -> & _)|(rs & cov & DS & BC & FG & _ & (_ & AT) & _)]; [exact AL|]. destruct (so_data D lat table root TR FW NE s rs SO DS) as (_ & ws & _ & _ & _ & RN). destruct rs as [|r rs]; [contradiction|].
  set (p := length (nodes (forest w))). set (b := length (edges (forest w))).
  assert (NEWP : forall g : hg L, (forall n ts l e, new_phrase (s_i s) (s_j s) (r :: rs) p b n ts l e -> has g n ts l e) -> exists t, derives g p t).
  { intros g H. exists (Tree (b + 0) []). apply derives_has. exists [], (Phrase (s_i s) (s_j s) r). split; [|constructor]. apply H. split; [reflexivity|]. split; [reflexivity|]. exists 0, r. auto. }
  cbn [forest cmap popped] in AT. fold p b in AT. destruct AT as [(_ & _ & LN & HS)|(t & h & _ & NT & HC & HS)].
  - assert (M : forall n ts l e, has (forest w) n ts l e -> has (forest w1) n ts l e) by (intros n ts l e H; apply HS; left; exact H). intros n B. rewrite LN in B. destruct (Nat.eq_dec n p) as [->|NP]; [apply NEWP; intros n ts l e H; apply HS; right; exact H|]. destruct (AL n ltac:(unfold p in *; lia)) as (t & T). exists t. exact (proj1 (derives_mono _ _ M t n T)).
  - assert (M : forall n ts l e, has (forest w) n ts l e -> has (forest w1) n ts l e) by (intros n ts l e H; apply HS; left; exact H).
    assert (P1 : exists t, derives (forest w1) p t) by (apply NEWP; intros n ts l e H; apply HS; right; left; exact H).
    assert (OLD : forall n, n < p -> exists t, derives (forest w1) n t) by (intros n B; destruct (AL n B) as (t0 & T); exists t0; exact (proj1 (derives_mono _ _ M t0 n T))).
    assert (TB : t < p). { destruct (v_c _ _ _ _ w ks IV _ _ NT) as [K _]. unfold p. rewrite <- (v_len _ _ _ _ w ks IV). apply nth_error_Some. congruence. }
    assert (HH : exists t, derives (forest w1) h t).
    { destruct (OLD t TB) as (t1 & T1). destruct P1 as (t2 & T2). exists (Tree (b + length (r :: rs)) [t1; t2]). apply derives_has. exists [t; p], Concat. split; [apply HS; right; right; auto|]. constructor; [exact T1|]. constructor; [exact T2|constructor]. }
    intros n B. destruct (Nat.lt_ge_cases n p) as [LT|GE]; [exact (OLD n LT)|]. destruct (Nat.eq_dec n p) as [->|NP]; [exact P1|]. destruct HC as [(_ & _ & LN)|(_ & -> & _ & LN)]; rewrite LN in B; [lia|]. replace n with (S p) by lia. exact HH.
Qed.
(** ** Soundness *)
Section Sound.
Variables (w : work (R := R)) (ks : list nk).
Hypothesis IV : Inv w ks.
Notation g := (forest w).
Definition means (k : nk) (ps : list (nat * nat * R)) : Prop :=
  match k with PhraseN i j => exists r, ps = [(i, j, r)] /\ usable lat table i j r | CovN C => route lat table D C ps end.
Lemma sound : forall t n k, nth_error ks n = Some k -> derives g n t -> means k (said g t).
Proof.
  intros t. induction t as [e sub IH] using tree_ind'. intros n k K H. apply derives_has in H as (ts & l & HH & F). rewrite (said_has _ _ _ _ _ sub HH). pose proof (v_ok _ _ _ _ w ks IV _ _ _ _ HH) as OK. destruct l as [i j r| |]; cbn in OK; [| |contradiction].
  - destruct OK as (-> & US & KC). inversion F; subst. cbn [flat_map app say]. destruct KC as [KC|(KC & (gap & FO & GB) & AO)]; rewrite K in KC; injection KC as ->; cbn.
    + exists r. auto.
    + destruct US as (ws & SP & IT). exact (r_step lat table D _ [] gap i j r ws (r_start lat table D) FO GB AO SP IT).
  - destruct OK as (a & b & C & i & j & -> & KA & KB & KN & (gap & FO & GB) & AO & LT). rewrite K in KN. injection KN as ->. inversion F as [|? ta ? sub' DA F' E1 E2]; subst. inversion F' as [|? tb ? sub'' DB F'' E3 E4]; subst. inversion F''; subst. inversion IH as [|? ? IA IH']; subst. inversion IH' as [|? ? IB _]; subst.
    pose proof (IA a _ KA DA) as RA. pose proof (IB b _ KB DB) as RB. cbn [means] in RA, RB |- *. destruct RB as (r & EB & ws & SP & IT). cbn [flat_map say]. rewrite EB, !app_nil_r. apply (r_step lat table D C _ gap i j r ws); assumption.
Qed.
Definition rank (n : nat) : nat := match nth_error ks n with Some (PhraseN _ _) => 0 | Some (CovN C) => S (count C) | None => S (S (length lat)) end.
Lemma rank_less : forall n ts l e m, has g n ts l e -> In m ts -> rank m < rank n.
Proof.
  intros n ts l e m HH I. pose proof (v_ok _ _ _ _ w ks IV _ _ _ _ HH) as OK. destruct l as [i j r| |]; cbn in OK; [destruct OK as (-> & _); destruct I| |contradiction]. destruct OK as (a & b & C & i & j & -> & KA & KB & KN & _ & AO & LT). unfold rank. rewrite KN.
  destruct I as [<-|[<-|[]]]; [rewrite KA|rewrite KB; lia]. rewrite count_covered; [lia| |exact AO]. split; [lia|]. assert (X : j - 1 < length C) by (apply nth_error_Some; rewrite (AO (j - 1) ltac:(lia)); discriminate). lia.
Qed.
End Sound.
(** ** The goal *)
Lemma count_le : forall C, count C <= length C.
Proof. intros C. unfold count. induction C as [|b C IH]; cbn; [lia|]. destruct b; cbn; lia. Qed.
Lemma finish : forall w ks p, alive w ks -> node_of (repeat true (length lat)) (cmap w) = Some (S p) ->
  exists g1 g2 g3 g', AddNode kGOAL (forest w) = Some g1 /\ AddEdge [p] GoalRule g1 = Some g2 /\ Connect (length (edges g1)) (length (nodes (forest w))) g2 = Some g3 /\ TopoSort (length (nodes (forest w))) None g3 = Sorted g' /\
    wf_hg g' /\ topo g' /\
    exists f, (forall t', derives g' (length (nodes g') - 1) t' <-> exists t, derives (forest w) p t /\ t' = f t) /\
              (forall t, derives (forest w) p t -> said g' (f t) = said (forest w) t) /\ (forall t u, derives (forest w) p t -> derives (forest w) p u -> f t = f u -> t = u).
Proof.
  intros w ks p [IV AL] NP. destruct (v_c _ _ _ _ w ks IV _ _ NP) as [KP _]. set (g := forest w) in *. assert (PB : p < length (nodes g)) by (unfold g; rewrite <- (v_len _ _ _ _ w ks IV); apply nth_error_Some; congruence).
  destruct (node_has g kGOAL (v_wf _ _ _ _ w ks IV)) as (g1 & A1 & W1 & L1 & E1 & H1). destruct (edge_has g1 [p] GoalRule (length (nodes g)) W1) as (g2 & g3 & A2 & A3 & W3 & L3 & E3 & H3); [intros x [<-|[]]; lia|lia|].
  assert (HS : forall n ts l e, has g3 n ts l e <-> has g n ts l e \/ (n = length (nodes g) /\ ts = [p] /\ l = GoalRule /\ e = length (edges g))). { intros n ts l e. rewrite H3, H1, E1. reflexivity. }
  assert (RK : forall n m, child None g3 n m -> rank ks m < rank ks n).
  { intros n m (nd & e & ed & N & I & _ & E & T). assert (HH : has g3 n (tails ed) (lab ed) e) by (exists nd, ed; auto). apply HS in HH as [HH|(-> & EQ & _)]; [exact (rank_less w ks IV n _ _ _ m HH T)|]. rewrite EQ in T. destruct T as [<-|[]]. unfold rank. rewrite KP. rewrite (proj2 (nth_error_None ks (length (nodes g)))) by (unfold g; rewrite (v_len _ _ _ _ w ks IV); lia).
    pose proof (count_le (repeat true (length lat))) as CL. rewrite repeat_length in CL. lia. }
  assert (GL : length (nodes g) < length (nodes g3)) by lia.
  destruct (toposort_ok None g3 W3 Logic.I (length (nodes g)) GL) as [(g' & rn & re & TS & _ & RN)|(_ & CY)].
  2: { exfalso. destruct CY as (n & _ & C). assert (X : forall a b, clos_trans nat (child None g3) a b -> rank ks b < rank ks a) by (intros a b T; induction T as [a b T|a b c T1 I1 T2 I2]; [exact (RK a b T)|lia]). specialize (X n n C). lia. }
  exists g1, g2, g3, g'. split; [exact A1|]. split; [exact A2|]. split; [exact A3|]. split; [exact TS|]. split; [exact (new_wf None g3 g' W3 _ GL rn re RN)|]. split; [exact (new_topo None g3 g' W3 _ GL rn re RN)|].
  destruct (derivations_same None g3 g' W3 _ GL rn re RN) as [DS DI].
  assert (M : forall n ts l e, has g n ts l e -> has g3 n ts l e) by (intros n ts l e H; apply HS; left; exact H).
  assert (BACK : forall t n, n < length (nodes g) -> derives g3 n t -> derives g n t).
  { intros t. induction t as [e sub IH] using tree_ind'. intros n B H. apply derives_has in H as (ts & l & HH & F). apply HS in HH as [HH|(-> & _)]; [|lia]. apply derives_has. exists ts, l. split; [exact HH|]. pose proof (proj2 (proj2 (has_bounds _ _ _ _ _ (v_wf _ _ _ _ w ks IV) HH))) as TB. clear - IH F TB. revert IH TB. induction F as [|m t ts sub D F IHF]; intros IH TB; [constructor|]. inversion IH as [|? ? X Y]; subst. constructor; [apply X; [apply TB; left; reflexivity|exact D]|]. apply IHF; [exact Y|]. intros t0 I. apply TB. right. exact I. }
  assert (GOAL : forall u, derives g3 (length (nodes g)) u <-> exists t, derives g p t /\ u = Tree (length (edges g)) [t]).
  { intros [e sub]. rewrite derives_has. split.
    - intros (ts & l & HH & F). apply HS in HH as [HH|(_ & -> & -> & ->)]; [exfalso; pose proof (proj1 (has_bounds _ _ _ _ _ (v_wf _ _ _ _ w ks IV) HH)); unfold g in *; lia|]. inversion F as [|? t ? sub' DT F' X1 X2]; subst. inversion F'; subst. exists t. split; [exact (BACK t p PB DT)|reflexivity].
    - intros (t & DT & E). injection E as -> ->. exists [p], GoalRule. split; [apply HS; right; auto|]. constructor; [exact (proj1 (derives_mono _ _ M t p DT))|constructor]. }
  assert (KA : forall t : tree, Forall (TopoSpec.keep None) (tree_edges t)) by (intros t; apply Forall_forall; intros x _; exact Logic.I).
  exists (fun t => rename (TopoSpec.get re) (Tree (length (edges g)) [t])). split; [|split].
  - intros t'. rewrite DS. split.
    + intros (u & DU & _ & ->). apply GOAL in DU as (t & DT & ->). exists t. auto.
    + intros (t & DT & ->). exists (Tree (length (edges g)) [t]). split; [apply GOAL; exists t; auto|]. split; [apply KA|reflexivity].
  - intros t DT. assert (DU : derives g3 (length (nodes g)) (Tree (length (edges g)) [t])) by (apply GOAL; exists t; auto). rewrite (said_new g3 g' rn re (length (nodes g)) W3 RN _ (length (nodes g)) DU).
    + assert (HH : has g3 (length (nodes g)) [p] GoalRule (length (edges g))) by (apply HS; right; auto). rewrite (said_has _ _ _ _ _ [t] HH). cbn [flat_map say]. rewrite !app_nil_r. exact (proj2 (derives_mono _ _ M t p DT)).
    + apply (derives_edges None g3 g' (length (nodes g)) rn re RN _ (length (nodes g)) _ (rn_goal _ _ _ _ _ _ RN) DU (KA _)).
  - intros t u DT DU E. apply DI in E; try apply KA; [injection E as ->; reflexivity|apply GOAL; exists t; auto|apply GOAL; exists u; auto].
Qed.
Lemma first_alive : alive (first D lat root) [].
Proof. split; [apply first_inv|]. intros n B. destruct (first_is D lat root) as (_ & _ & _ & F). rewrite F in B. cbn in B. lia. Qed.
Notation Tr := (Translate D kNT kGOAL lat root).
(** ** Every coverage a route leads to is seen *)
Definition seen (w : work (R := R)) : Prop := forall C i j ws, In C (ucs w) -> start_ok D C i -> i < j -> all_open C i j -> spells lat i ws j -> rules table ws <> [] ->
  (exists s us vs, In s (queue w) /\ bits (s_cov s) = C /\ s_i s = i /\ ws = us ++ vs /\ walk root us = Some (s_fst s) /\ spells lat (s_j s) vs j) \/ In (covered C i j) (ucs w).
Definition looked (w : work (R := R)) (ks : list nk) : Prop := alive w ks /\ seen w /\ In empty (ucs w).
Lemma looked_step : forall w ks s q w' ks', looked w ks -> queue w = s :: q -> stepped D lat root s q w ks w' ks' -> Inv w' ks' -> looked w' ks'.
Proof.
  intros w ks s q w' ks' (AL & SEEN & EU) QU ST I'. split; [exact (alive_step w ks s q w' ks' AL QU ST I')|]. destruct (v_q _ _ _ _ w ks (proj1 AL) s) as [SO _]; [rewrite QU; left; reflexivity|].
  destruct ST as (w1 & new & -> & _ & _ & IN & KD). cbn [ucs].
  assert (UC : exists enq, queue w1 = q ++ enq /\ (forall C, In C (ucs w) -> In C (ucs w1)) /\ (data (s_fst s) <> None -> In (covered (bits (s_cov s)) (s_i s) (s_j s)) (ucs w1)) /\
     (forall C, In C (ucs w1) -> In C (ucs w) \/ forall i, start_ok D C i -> nth_error C i = Some false -> exists cov, bits cov = C /\ In (at_start root cov i) enq)).
  { destruct KD as [(DN & -> & _)|(rs & cov & DS & BC & FG & (QA & UA) & _)]; [exists []; rewrite app_nil_r; split; [reflexivity|]; split; [auto|]; split; [intros X; contradiction|auto]|]. rewrite QA, UA, <- BC. destruct (enq_spec D root cov (popped w q) FG) as (_ & _ & [(X0 & X)|(_ & X & XQ)]).
    - rewrite X. exists []. rewrite app_nil_r. split; [reflexivity|]. split; [auto|]. split; [intros _; exact X0|auto].
    - rewrite X, XQ. eexists. split; [reflexivity|]. split; [intros C I; right; exact I|]. split; [intros _; left; reflexivity|]. intros C [<-|I]; [|left; exact I]. right. intros i SK N. exists cov. split; [reflexivity|]. apply in_map. apply starts_in. auto. }
  destruct UC as (enq & QE & UK & UN & UB). split; [|apply UK; exact EU]. intros C i j ws U SK LT AO SP RN. cbn [ucs queue] in *. rewrite QE.
  destruct (UB C U) as [UO|ST].
  - destruct (SEEN C i j ws UO SK LT AO SP RN) as [(x & us & vs & I & XC & XI & EW & WK & SV)|X]; [|right; apply UK; exact X]. rewrite QU in I. destruct I as [<-|I]; [|left; exists x, us, vs; split; [apply in_or_app; left; apply in_or_app; left; exact I|auto]].
    destruct vs as [|v vs].
    + right. inversion SV; subst. rewrite app_nil_r in RN. apply UN. pose proof (TR us) as T. unfold data_at in T. rewrite WK in T. rewrite T. unfold some_rules. destruct (rules table us); [contradiction|discriminate].
    + left. inversion SV as [|? arcs ? d ? ? N IA SV']; subst. destruct (FW _ _ _ _ N IA) as [P PB]. destruct (spells_le lat FW _ _ _ SV' PB) as [LE _].
      assert (WE : exists k, Extend (s_fst s) v = Some k). { pose proof (TR (us ++ v :: vs)) as T. unfold data_at in T. rewrite walk_app, WK in T. cbn [walk] in T. destruct (Extend (s_fst s) v) as [k|]; [exists k; reflexivity|]. unfold some_rules in T. destruct (rules table (us ++ v :: vs)); [contradiction|discriminate]. }
      destruct WE as (k & WE). exists (next s d k), (us ++ [v]), vs. cbn [s_cov s_i s_j s_fst next]. split; [|split; [reflexivity|]; split; [reflexivity|]; split; [rewrite <- app_assoc; reflexivity|]; split; [rewrite walk_app, WK; cbn [walk]; rewrite WE; reflexivity|exact SV']].
      apply in_or_app. right. apply IN. exists arcs, v, d, k. split; [exact N|]. split; [exact IA|]. split; [exact WE|]. split; [|reflexivity]. intros m M. apply AO. lia.
  - left. destruct (ST i SK (AO i ltac:(lia))) as (cov & BC & I). exists (at_start root cov i), [], ws. cbn [s_cov s_i s_j s_fst at_start]. split; [apply in_or_app; left; apply in_or_app; right; exact I|]. split; [exact BC|]. split; [reflexivity|]. split; [reflexivity|]. split; [reflexivity|exact SP].
Qed.
Lemma first_looked : looked (first D lat root) [].
Proof.
  split; [exact first_alive|]. destruct (first_is D lat root) as (Q & U & _). split; [|rewrite U; left; reflexivity]. intros C i j ws I SK LT AO SP _. rewrite U in I. destruct I as [<-|[]]. left. exists (at_start root {| bits := empty; first_gap := 0 |} i), [], ws. cbn [s_cov s_i s_j s_fst at_start bits]. split; [rewrite Q; apply in_map; apply starts_in; split; [exact SK|apply AO; lia]|]. split; [reflexivity|]. split; [reflexivity|]. split; [reflexivity|]. split; [reflexivity|exact SP].
Qed.
Lemma route_seen : forall w ks, looked w ks -> queue w = [] -> forall C ps, route lat table D C ps -> In C (ucs w).
Proof.
  intros w ks (_ & SEEN & EU) QE C ps H. induction H as [|C ps gap i j r ws H IH FO GB AO SP IT]; [exact EU|].
  assert (IB : i <= length lat). { inversion SP as [|? arcs ? ? ? ? N]; subst; [exfalso; exact (NE _ _ IT eq_refl)|]. assert (i < length lat) by (apply nth_error_Some; congruence). lia. }
  pose proof (proj2 (spells_le lat FW i ws j SP IB) (NE _ _ IT)) as LT. assert (IR : In r (rules table ws)) by (apply rules_in; exact IT).
  destruct (SEEN C i j ws IH (ex_intro _ gap (conj FO GB)) LT AO SP) as [(s & us & vs & I & _)|X]; [intros X; rewrite X in IR; destruct IR|rewrite QE in I; destruct I|exact X].
Qed.
(** Whatever the lattice, the forest says routes only, and there is one if there is a route. *)
Theorem translate_sound : lat <> [] -> exists N res, (forall fuel, N <= fuel -> Tr fuel = Some res) /\
  match res with
  | None => forall ps, ~ route lat table D (repeat true (length lat)) ps
  | Some g => wf_hg g /\ topo g /\ (exists t, derives g (length (nodes g) - 1) t) /\ forall t, derives g (length (nodes g) - 1) t -> route lat table D (repeat true (length lat)) (said g t)
  end.
Proof.
  intros LN. pose proof (loop_ok D kNT lat table root TR FW NE looked (fun w ks H => proj1 (proj1 H)) looked_step (pot lat (first D lat root)) (first D lat root) [] first_looked (le_n _)) as LP.
  set (N := pot lat (first D lat root)) in *. destruct (LP N (le_n _)) as (w & ks & LW & LK & QE). pose proof (proj1 LK) as AL.
  assert (LF : forall fuel, N <= fuel -> loop D kNT lat root fuel (first D lat root) = Some w).
  { intros fuel F. apply (loop_more _ _ _ _ N fuel); assumption. }
  assert (FN : repeat true (length lat) <> empty). { unfold PbStepProofs.empty. destruct lat as [|a l]; [contradiction|]. cbn. discriminate. }
  assert (NONE : (forall p, node_of (repeat true (length lat)) (cmap w) <> Some (S p)) -> forall ps, ~ route lat table D (repeat true (length lat)) ps).
  { intros X ps H. pose proof (route_seen w ks LK QE _ _ H) as U. destruct (v_u _ _ _ _ w ks (proj1 AL) _ U) as ((v & NV) & _). destruct v as [|v]; [apply (v_c0 _ _ _ _ w ks (proj1 AL)) in NV; contradiction|exact (X v NV)]. }
  destruct (node_of (repeat true (length lat)) (cmap w)) as [[|p]|] eqn:NP.
  - exists N, None. split; [|apply NONE; discriminate]. intros fuel F. unfold Translate. change (loop D kNT lat root fuel _) with (loop D kNT lat root fuel (first D lat root)). rewrite (LF fuel F). cbn [bind]. rewrite NP. reflexivity.
  - destruct (finish w ks p AL NP) as (g1 & g2 & g3 & g' & A1 & A2 & A3 & A4 & WF & TP & f & DS & SD & _). exists N, (Some g'). split.
    + intros fuel F. unfold Translate. change (loop D kNT lat root fuel _) with (loop D kNT lat root fuel (first D lat root)). rewrite (LF fuel F). cbn [bind]. rewrite NP, A1. cbn [bind]. rewrite A2. cbn [bind]. rewrite A3. cbn [bind]. rewrite A4. reflexivity.
    + destruct (v_c _ _ _ _ w ks (proj1 AL) _ _ NP) as [KP _]. split; [exact WF|]. split; [exact TP|]. split.
      * destruct (proj2 AL p) as (t & T); [rewrite <- (v_len _ _ _ _ w ks (proj1 AL)); apply nth_error_Some; congruence|]. exists (f t). apply DS. exists t. auto.
      * intros t' T'. apply DS in T' as (t & T & ->). rewrite (SD t T). exact (sound w ks (proj1 AL) t p _ KP T).
  - exists N, None. split; [|apply NONE; discriminate]. intros fuel F. unfold Translate. change (loop D kNT lat root fuel _) with (loop D kNT lat root fuel (first D lat root)). rewrite (LF fuel F). cbn [bind]. rewrite NP. reflexivity.
Qed.

(** ** Sentences *)
Section Sentence.
Hypothesis SN : exists words, lat = sentence words.
Variables (w : work (R := R)) (ks : list nk).
Hypothesis SE : Sent D lat table root w ks.
Hypothesis QE : queue w = [].
Hypothesis EU : In empty (ucs w).
Notation g := (forest w).
Let IV : Inv w ks := t_inv _ _ _ _ w ks SE.
Lemma complete : forall C ps, route lat table D C ps -> In C (ucs w) /\ ((C = empty /\ ps = []) \/ (exists h t, node_of C (cmap w) = Some (S h) /\ derives g h t /\ said g t = ps)).
Proof.
  intros C ps H. induction H as [|C ps gap i j r ws H IH FO GB AO SP IT]; [split; [exact EU|left; split; reflexivity]|]. destruct IH as [U K].
  assert (IB : i <= length lat). { inversion SP as [|? arcs ? ? ? ? N]; subst; [exfalso; exact (NE _ _ IT eq_refl)|]. assert (i < length lat) by (apply nth_error_Some; congruence). lia. }
  pose proof (proj2 (spells_le lat FW i ws j SP IB) (NE _ _ IT)) as LT. assert (IR : In r (rules table ws)) by (apply rules_in; exact IT).
  destruct (t_done _ _ _ _ w ks SE C i j ws U (ex_intro _ gap (conj FO GB)) LT AO SP) as [(s & I & _)|(h & NH & UH & A)]; [intros X; rewrite X in IR; destruct IR|rewrite QE in I; destruct I|]. split; [exact UH|]. right. exists h.
  destruct A as [(-> & PH)|(t & p & e & NT & CC & PH)].
  - assert (ps = []) as -> by (destruct K as [[_ K]|(h0 & t & NH0 & _)]; [exact K|exfalso; exact (proj2 (v_c _ _ _ _ w ks IV _ _ NH0) eq_refl)]). destruct (PH r IR) as (e & HE). exists (Tree e []). split; [exact NH|]. split; [apply derives_has; exists [], (Phrase i j r); split; [exact HE|constructor]|]. rewrite (said_has _ _ _ _ _ [] HE). reflexivity.
  - destruct K as [[-> _]|(h0 & t0 & NH0 & DT & SD)]; [exfalso; exact (proj2 (v_c _ _ _ _ w ks IV _ _ NT) eq_refl)|]. rewrite NT in NH0. injection NH0 as <-. destruct (PH r IR) as (e' & HE). exists (Tree e [t0; Tree e' []]). split; [exact NH|]. split.
    + apply derives_has. exists [t; p], Concat. split; [exact CC|]. constructor; [exact DT|]. constructor; [|constructor]. apply derives_has. exists [], (Phrase i j r). split; [exact HE|constructor].
    + rewrite (said_has _ _ _ _ _ _ CC). cbn [flat_map say]. rewrite (said_has _ _ _ _ _ [] HE). cbn [flat_map say app]. rewrite SD, app_nil_r. reflexivity.
Qed.
Lemma said_some : forall t n, derives g n t -> said g t <> [].
Proof.
  intros t. induction t as [e sub IH] using tree_ind'. intros n H. apply derives_has in H as (ts & l & HH & F). rewrite (said_has _ _ _ _ _ sub HH). pose proof (v_ok _ _ _ _ w ks IV _ _ _ _ HH) as OK. destruct l as [i j r| |]; cbn in OK; [cbn; intros X; apply app_eq_nil in X as [_ X]; discriminate| |contradiction].
  destruct OK as (a & b & C & i & j & -> & _). inversion F as [|? ta ? sub' DA F' E1 E2]; subst. inversion IH as [|? ? IA _]; subst. specialize (IA a DA). cbn [flat_map]. intros X. apply app_eq_nil in X as [X _]. apply app_eq_nil in X as [X _]. contradiction.
Qed.
Lemma unique : NoDup table -> forall t t' n, derives g n t -> derives g n t' -> said g t = said g t' -> t = t'.
Proof.
  intros ND t. induction t as [e sub IH] using tree_ind'. intros [e' sub'] n H H' E. apply derives_has in H as (ts & l & HH & F). apply derives_has in H' as (ts' & l' & HH' & F'). rewrite (said_has _ _ _ _ _ sub HH), (said_has _ _ _ _ _ sub' HH') in E.
  pose proof (v_ok _ _ _ _ w ks IV _ _ _ _ HH) as OK. pose proof (v_ok _ _ _ _ w ks IV _ _ _ _ HH') as OK'.
  assert (TWO : forall ta tb a b C i j, nth_error ks b = Some (PhraseN i j) -> nth_error ks a = Some (CovN C) -> derives g a ta -> derives g b tb -> exists r, said g tb = [(i, j, r)] /\ said g ta <> [] /\ route lat table D C (said g ta)).
  { intros ta tb a b C i j KB KA DA DB. destruct (sound w ks IV tb b _ KB DB) as (r & EB & _). exists r. split; [exact EB|]. split; [exact (said_some ta a DA)|exact (sound w ks IV ta a _ KA DA)]. }
  destruct l as [i j r| |]; cbn in OK; [| |contradiction]; destruct l' as [i' j' r'| |]; cbn in OK'; try contradiction.
  - destruct OK as (-> & _). destruct OK' as (-> & _). inversion F; subst. inversion F'; subst. cbn in E. injection E as -> -> ->. rewrite (t_ph _ _ _ _ w ks SE ND n [] [] i' j' r' e e' HH HH'). reflexivity.
  - exfalso. destruct OK as (-> & _). inversion F; subst. destruct OK' as (a & b & C & i' & j' & -> & KA & KB & _). inversion F' as [|? ta ? sub2 DA F2 X1 X2]; subst. inversion F2 as [|? tb ? sub3 DB F3 X3 X4]; subst. inversion F3; subst. destruct (TWO ta tb a b C i' j' KB KA DA DB) as (r0 & EB & NA & _). cbn [flat_map say app] in E. rewrite EB, !app_nil_r in E. destruct (said g ta) as [|x [|y l]]; [contradiction|discriminate|discriminate].
  - exfalso. destruct OK' as (-> & _). inversion F'; subst. destruct OK as (a & b & C & i & j & -> & KA & KB & _). inversion F as [|? ta ? sub2 DA F2 X1 X2]; subst. inversion F2 as [|? tb ? sub3 DB F3 X3 X4]; subst. inversion F3; subst. destruct (TWO ta tb a b C i j KB KA DA DB) as (r0 & EB & NA & _). cbn [flat_map say app] in E. rewrite EB, !app_nil_r in E. destruct (said g ta) as [|x [|y l]]; [contradiction|discriminate|discriminate].
  - destruct OK as (a & b & C & i & j & -> & KA & KB & _). destruct OK' as (a' & b' & C' & i' & j' & -> & KA' & KB' & _).
    inversion F as [|? ta ? sub2 DA F2 X1 X2]; subst. inversion F2 as [|? tb ? sub3 DB F3 X3 X4]; subst. inversion F3; subst. inversion F' as [|? ta' ? sub2' DA' F2' X1' X2']; subst. inversion F2' as [|? tb' ? sub3' DB' F3' X3' X4']; subst. inversion F3'; subst.
    destruct (TWO ta tb a b C i j KB KA DA DB) as (r & EB & _ & RA). destruct (TWO ta' tb' a' b' C' i' j' KB' KA' DA' DB') as (r' & EB' & _ & RA'). cbn [flat_map say app] in E. rewrite EB, EB', !app_nil_r in E. apply app_inj_tail in E as [EA ER]. injection ER as <- <- <-.
    rewrite EA in RA. pose proof (route_fun lat table D _ _ _ RA RA') as CE. subst C'. pose proof (t_cov _ _ _ _ w ks SE a C KA) as NA. pose proof (t_cov _ _ _ _ w ks SE a' C KA') as NA'. rewrite NA in NA'. injection NA' as <-.
    pose proof (t_cc _ _ _ _ w ks SE n n a b b' e e' i j HH HH' KB KB') as EE. subst e'. destruct (has_fun _ _ _ _ _ _ _ _ (v_wf _ _ _ _ w ks IV) HH HH') as (_ & TE & _). injection TE as <-.
    inversion IH as [|? ? IA IH']; subst. inversion IH' as [|? ? IB _]; subst. rewrite (IA ta' a DA DA' EA), (IB tb' b DB DB'); [reflexivity|]. congruence.
Qed.
End Sentence.
(** The invariant of a run over a sentence. *)
Definition sent (w : work (R := R)) (ks : list nk) : Prop := Sent D lat table root w ks /\ alive w ks /\ In empty (ucs w).
Lemma sent_step : (exists words, lat = sentence words) -> forall w ks s q w' ks', sent w ks -> queue w = s :: q -> stepped D lat root s q w ks w' ks' -> Inv w' ks' -> sent w' ks'.
Proof.
  intros SN w ks s q w' ks' (A & B & C) Q S I. split; [exact (st_sent D lat table root TR FW NE SN w ks s q w' ks' A Q S I)|]. split; [exact (alive_step w ks s q w' ks' B Q S I)|].
  destruct S as (w1 & new & -> & _ & _ & _ & KD). cbn [ucs]. destruct KD as [(_ & -> & _)|(rs & cov & _ & _ & FG & (_ & UA) & _)]; [exact C|]. rewrite UA. destruct (enq_spec D root cov (popped w q) FG) as (_ & _ & [(_ & X)|(_ & X & _)]); rewrite X; [exact C|right; exact C].
Qed.
Theorem translate_exact : (exists words, lat = sentence words) -> lat <> [] -> exists N res, (forall fuel, N <= fuel -> Tr fuel = Some res) /\
  match res with
  | None => forall ps, ~ route lat table D (repeat true (length lat)) ps
  | Some g => wf_hg g /\ topo g /\ (exists ps, route lat table D (repeat true (length lat)) ps) /\
      (forall ps, route lat table D (repeat true (length lat)) ps <-> exists t, derives g (length (nodes g) - 1) t /\ said g t = ps) /\
      (NoDup table -> forall t t', derives g (length (nodes g) - 1) t -> derives g (length (nodes g) - 1) t' -> said g t = said g t' -> t = t')
  end.
Proof.
  intros SN LN.
  assert (FST : sent (first D lat root) []). { split; [apply first_sent|]. split; [exact first_alive|]. destruct (first_is D lat root) as (_ & U & _). rewrite U. left. reflexivity. }
  pose proof (loop_ok D kNT lat table root TR FW NE sent (fun w ks H => t_inv _ _ _ _ w ks (proj1 H)) (sent_step SN) (pot lat (first D lat root)) (first D lat root) [] FST (le_n _)) as LP.
  set (N := pot lat (first D lat root)) in *. destruct (LP N (le_n _)) as (w & ks & LW & (SE & AL & EU) & QE).
  assert (LF : forall fuel, N <= fuel -> loop D kNT lat root fuel (first D lat root) = Some w).
  { intros fuel F. apply (loop_more _ _ _ _ N fuel); assumption. }
  assert (FN : repeat true (length lat) <> empty). { unfold PbStepProofs.empty. destruct lat as [|a l]; [contradiction|]. cbn. discriminate. }
  assert (NONE : (forall p, node_of (repeat true (length lat)) (cmap w) <> Some (S p)) -> forall ps, ~ route lat table D (repeat true (length lat)) ps).
  { intros X ps H. destruct (complete w ks SE QE EU _ _ H) as [_ [[E _]|(h & t & NH & _)]]; [contradiction|exact (X h NH)]. }
  destruct (node_of (repeat true (length lat)) (cmap w)) as [[|p]|] eqn:NP.
  - exists N, None. split; [|apply NONE; discriminate]. intros fuel F. unfold Translate. change (loop D kNT lat root fuel _) with (loop D kNT lat root fuel (first D lat root)). rewrite (LF fuel F). cbn [bind]. rewrite NP. reflexivity.
  - destruct (finish w ks p AL NP) as (g1 & g2 & g3 & g' & A1 & A2 & A3 & A4 & WF & TP & f & DS & SD & FI). exists N, (Some g'). split.
    + intros fuel F. unfold Translate. change (loop D kNT lat root fuel _) with (loop D kNT lat root fuel (first D lat root)). rewrite (LF fuel F). cbn [bind]. rewrite NP, A1. cbn [bind]. rewrite A2. cbn [bind]. rewrite A3. cbn [bind]. rewrite A4. reflexivity.
    + destruct (v_c _ _ _ _ w ks (proj1 AL) _ _ NP) as [KP _]. split; [exact WF|]. split; [exact TP|]. split; [|split].
      * destruct (proj2 AL p) as (t & T); [rewrite <- (v_len _ _ _ _ w ks (proj1 AL)); apply nth_error_Some; congruence|]. exists (said (forest w) t). exact (sound w ks (proj1 AL) t p _ KP T).
      * intros ps. split.
        -- intros H. destruct (complete w ks SE QE EU _ _ H) as [_ [[E _]|(h & t & NH & DT & S)]]; [contradiction|]. rewrite NP in NH. injection NH as <-. exists (f t). split; [apply DS; exists t; auto|]. rewrite (SD t DT). exact S.
        -- intros (t' & T' & <-). apply DS in T' as (t & T & ->). rewrite (SD t T). exact (sound w ks (proj1 AL) t p _ KP T).
      * intros ND t t' T T' E. apply DS in T as (u & U & ->). apply DS in T' as (u' & U' & ->). rewrite (SD u U), (SD u' U') in E. rewrite (unique w ks SE ND u u' p U U' E). reflexivity.
  - exists N, None. split; [|apply NONE; discriminate]. intros fuel F. unfold Translate. change (loop D kNT lat root fuel _) with (loop D kNT lat root fuel (first D lat root)). rewrite (LF fuel F). cbn [bind]. rewrite NP. reflexivity.
Qed.
End M.
