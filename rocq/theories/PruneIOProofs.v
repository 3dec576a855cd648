(** Pruning by marginals: beam and density. *)
From Coq Require Import List Arith Bool Lia Relations ZArith QArith Qcanon Lqa Permutation Sorted.
From Verif Require Import HG HGProofs Deriv Inside InsideProofs OutsideProofs Topo TopoSpec TopoProofs TopoDeriv Viterbi ViterbiProofs Prune PruneSpec PruneProofs PruneMarginProofs.
Import ListNotations.
Local Open Scope nat_scope.

Lemma nth_error_ext : forall (A : Type) (l m : list A), length l = length m -> (forall k a, nth_error l k = Some a -> nth_error m k = Some a) -> l = m.
Proof.
  induction l as [|a r IH]; intros [|b m] L H; try discriminate; [reflexivity|]. f_equal.
  - specialize (H 0 a eq_refl). cbn in H. congruence.
  - apply IH; [cbn in L; lia|]. intros k x K. exact (H (S k) x K).
Qed.

Lemma F2_length : forall (A B : Type) (R : A -> B -> Prop) l m, Forall2 R l m -> length l = length m.
Proof. intros A B R l m F. induction F; cbn; lia. Qed.

Lemma millionths_le : forall e n, e < n -> (millionths (S e) <= millionths n)%Qc.
Proof. intros e n H. unfold millionths, Qcle. rewrite !q2qc. unfold Qle. cbn [Qnum Qden]. nia. Qed.
Lemma millionths_pos : forall n, (0 <= millionths n)%Qc.
Proof. intros n. unfold millionths, Qcle. rewrite !q2qc. unfold Qle. cbn [Qnum Qden]. lia. Qed.

Section I.
Context {P : Type}.
Variable prob : P -> lp.
Variable g : hg P.
Hypothesis WF : wf_hg g.
Hypothesis TP : topo g.
Hypothesis NE : nodes g <> [].
Local Notation ep := (eprob prob).
Local Notation look sc n := (nth n sc lzero).
Local Notation gl := (goal g).

(** ** Where the edges come from *)
Lemma renumbered_made : forall mask g' rn re, renumbered (Some mask) g gl g' rn re -> made_of (fun e => nth_error mask e = Some false) g g'.
Proof using.
  intros mask g' rn re R.
  assert (C : forall j, In j (seq 0 (length (edges g'))) -> exists e, re e = Some j /\ nth_error mask e = Some false /\
     exists ed ed', nth_error (edges g) e = Some ed /\ nth_error (edges g') j = Some ed' /\ lab ed' = lab ed).
  { intros j J. apply in_seq in J. destruct (nth_error (edges g') j) as [ed'|] eqn:E; [|apply nth_error_None in E; lia].
    pose proof E as E'. apply (edges_are _ _ _ _ _ _ R) in E. destruct E as (e & ed & h & RE & ED & _ & ->).
    exists e. split; [exact RE|]. destruct (proj1 (re_dom _ _ _ _ _ _ R e) (ex_intro _ j RE)) as (K & _).
    split; [exact K|]. exists ed, {| head := rn h; tails := map (get rn) (tails ed); lab := lab ed; eid := j |}. auto. }
  destruct (choose_all _ _ _ _ C) as (es & F). exists es.
  assert (L : length es = length (edges g')) by (rewrite <- (F2_length _ _ _ _ _ F), seq_length; reflexivity).
  assert (V : forall j e, nth_error es j = Some e -> re e = Some j /\ nth_error mask e = Some false /\
     exists ed ed', nth_error (edges g) e = Some ed /\ nth_error (edges g') j = Some ed' /\ lab ed' = lab ed).
  { intros j e H. assert (LJ : j < length es) by (apply nth_error_Some; congruence).
    assert (G : forall (l : list nat) m a, Forall2 (fun j e => re e = Some j /\ nth_error mask e = Some false /\
       exists ed ed', nth_error (edges g) e = Some ed /\ nth_error (edges g') j = Some ed' /\ lab ed' = lab ed) l m -> l = seq a (length l) -> forall j e, nth_error m j = Some e ->
       re e = Some (a + j) /\ nth_error mask e = Some false /\ exists ed ed', nth_error (edges g) e = Some ed /\ nth_error (edges g') (a + j) = Some ed' /\ lab ed' = lab ed).
    { clear. intros l m a F. revert a. induction F as [|x y l m Q F IH]; intros a S j e H; [destruct j; discriminate|].
      cbn [length seq] in S. injection S as -> S. destruct j as [|j].
      - injection H as <-. rewrite Nat.add_0_r. exact Q.
      - replace (a + Datatypes.S j) with (Datatypes.S a + j) by lia. apply IH; [exact S|exact H]. }
    apply (G _ _ 0 F); [rewrite seq_length; reflexivity|exact H]. }
  split; [exact L|]. split.
  - intros i j a b IJ A B. destruct (V i a A) as (RA & _). destruct (V j b B) as (RB & _).
    destruct (Nat.lt_trichotomy a b) as [Q|[Q|Q]]; [exact Q|subst; rewrite RA in RB; injection RB; lia|].
    pose proof (re_order _ _ _ _ _ _ R b a j i RB RA Q). lia.
  - intros j e H. apply V in H. destruct H as (_ & H). exact H.
Qed.
Lemma made_ext : forall (ok ok' : nat -> Prop) (g' : hg P), (forall e, e < length (edges g) -> ok e -> ok' e) -> made_of ok g g' -> made_of ok' g g'.
Proof using.
  intros ok ok' g' H (es & L & O & V). exists es. split; [exact L|]. split; [exact O|]. intros j e J.
  destruct (V j e J) as (K & ed & ed' & ED & Q). split; [apply H; [apply nth_error_Some; congruence|exact K]|]. exists ed, ed'. auto.
Qed.
Lemma made_count : forall ok (g' : hg P), made_of ok g g' -> exists l, NoDup l /\ length l = length (edges g') /\ forall e, In e l -> e < length (edges g) /\ ok e.
Proof using.
  intros ok g' (es & L & O & V). exists es. split; [|split; [exact L|]].
  - apply NoDup_nth_error. intros i j LI E. destruct (nth_error es i) as [a|] eqn:A; [|apply nth_error_None in A; lia].
    symmetry in E. destruct (Nat.lt_trichotomy i j) as [Q|[Q|Q]]; [|exact Q|]; [pose proof (O i j a a Q A E)|pose proof (O j i a a Q E A)]; lia.
  - intros e I. apply In_nth_error in I. destruct I as (j & J). destruct (V j e J) as (K & ed & _ & ED & _). split; [apply nth_error_Some; congruence|exact K].
Qed.

Lemma made_prune : forall mask safe g', length mask = length (edges g) -> PruneEdges mask safe g = Pruned g' -> made_of (fun e => nth_error mask e = Some false) g g'.
Proof using WF TP NE.
  intros mask safe g' L H. unfold PruneEdges in H. rewrite L, Nat.eqb_refl in H. cbn [negb] in H.
  destruct safe.
  - destruct (reachable_ok g WF TP mask L) as (sc & R & LS & V). rewrite R in H.
    destruct (negb (last sc false)).
    + injection H as <-. exists []. split; [reflexivity|]. split; intros; destruct j; discriminate.
    + destruct (filter_edges_ok sc (edges g) mask L) as (f & E & LF & VF).
      { intros ed t I T. apply In_nth_error in I. destruct I as (e & ED). rewrite LS. exact (wf_tails g WF e ed t ED T). }
      rewrite E in H. destruct (sorted g WF TP NE f) as (g2 & rn & re & TS & R2 & _); [lia|]. rewrite TS in H. injection H as <-.
      apply (made_ext (fun e => nth_error f e = Some false)); [|exact (renumbered_made _ _ _ _ R2)].
      intros e LE K. destruct (nth_error (edges g) e) as [ed|] eqn:ED; [|apply nth_error_None in ED; lia]. exact (proj1 (proj1 (VF e ed ED) K)).
  - destruct (sorted g WF TP NE mask L) as (g2 & rn & re & TS & R2 & _). rewrite TS in H. injection H as <-. exact (renumbered_made _ _ _ _ R2).
Qed.

(** ** The cutoff *)
Lemma margin_loop_ok : forall preserve creep n, (forall p, preserve = Some p -> length p = n) -> forall io c i, i + length io = n ->
  exists mask, margin_loop preserve creep (Some c) i io = Some mask /\ length mask = length io /\
    forall k m, nth_error io k = Some m ->
      (nth_error mask k = Some false <-> preserved preserve (i + k) \/ lltb m (Some (c + creep * Q2Qc (inject_Z (Z.of_nat (S k))))%Qc) = false).
Proof using.
  intros preserve creep n LP. induction io as [|m r IH]; intros c i L; cbn [margin_loop]; [exists []; split; [reflexivity|]; split; [reflexivity|]; intros [|k] m H; discriminate|].
  destruct (IH (c + creep)%Qc (S i)) as (l & R & LL & V); [cbn in L; lia|]. rewrite R.
  assert (TL : forall b k m', nth_error (m :: r) (S k) = Some m' ->
      (nth_error (b :: l) (S k) = Some false <-> preserved preserve (i + S k) \/ lltb m' (Some (c + creep * Q2Qc (inject_Z (Z.of_nat (S (S k)))))%Qc) = false)).
  { intros b k m' H. cbn [nth_error]. rewrite (V k m' H). replace (S i + k) with (i + S k) by lia.
    replace (c + creep + creep * Q2Qc (inject_Z (Z.of_nat (S k))))%Qc with (c + creep * Q2Qc (inject_Z (Z.of_nat (S (S k)))))%Qc; [reflexivity|].
    assert (E : Q2Qc (inject_Z (Z.of_nat (S (S k)))) = (1 + Q2Qc (inject_Z (Z.of_nat (S k))))%Qc).
    { apply Qc_is_canon. rewrite qplus, !q2qc. rewrite (Nat2Z.inj_succ (S k)). unfold Z.succ. rewrite inject_Z_plus. change (inject_Z 1) with 1%Q. lra. }
    rewrite E. ring. }
  assert (C1 : (c + creep * Q2Qc (inject_Z (Z.of_nat 1)) = c + creep)%Qc).
  { change (Q2Qc (inject_Z (Z.of_nat 1))) with 1%Qc. ring. }
  destruct (lltb m (Some (c + creep)%Qc)) eqn:LT.
  - destruct preserve as [p|].
    + destruct (nth_error p i) as [b|] eqn:PB; [|apply nth_error_None in PB; specialize (LP p eq_refl); cbn in L; lia].
      exists (negb b :: l). split; [reflexivity|]. split; [cbn; lia|]. intros [|k] m' H; [|apply TL; exact H].
      injection H as <-. rewrite C1, LT, Nat.add_0_r. cbn [nth_error]. unfold preserved. split.
      * intros [= Q]. left. exists p. split; [reflexivity|]. destruct b; [exact PB|discriminate].
      * intros [(p' & [= <-] & Q)|Q]; [|discriminate]. rewrite PB in Q. injection Q as ->. reflexivity.
    + exists (true :: l). split; [reflexivity|]. split; [cbn; lia|]. intros [|k] m' H; [|apply TL; exact H].
      injection H as <-. rewrite C1, LT. cbn [nth_error]. split; [discriminate|]. intros [(p & Q & _)|Q]; discriminate.
  - exists (false :: l). split; [reflexivity|]. split; [cbn; lia|]. intros [|k] m' H; [|apply TL; exact H].
    injection H as <-. rewrite C1, LT. cbn [nth_error]. split; auto.
Qed.
Lemma margin_loop_none : forall preserve creep io i, exists mask, margin_loop preserve creep None i io = Some mask /\ length mask = length io /\
  forall k, k < length io -> nth_error mask k = Some false.
Proof using.
  intros preserve creep. induction io as [|m r IH]; intros i; cbn [margin_loop]; [exists []; split; [reflexivity|]; split; [reflexivity|]; intros k K; cbn in K; lia|].
  destruct (IH (S i)) as (l & -> & LL & V). exists (false :: l). split; [reflexivity|]. split; [cbn; lia|]. intros [|k] K; [reflexivity|]. apply V. cbn in K. lia.
Qed.
Lemma creep_neg : forall c k, (c <= 0)%Qc -> (c + creep_of (Some c) * Q2Qc (inject_Z (Z.of_nat k)) = c * (1 - millionths k))%Qc.
Proof using.
  intros c k H. unfold creep_of. assert (E : (if qltb c 0 then - c else c)%Qc = (- c)%Qc).
  { destruct (qltb c 0) eqn:Q; [reflexivity|]. apply qltb_false in Q. assert (c = 0)%Qc as -> by (apply Qcle_antisym; assumption). reflexivity. }
  rewrite E. assert (M : millionths k = (Q2Qc (1 # 1000000) * Q2Qc (inject_Z (Z.of_nat k)))%Qc).
  { apply Qc_is_canon. unfold millionths. rewrite qmult, !q2qc. unfold Qeq, inject_Z, Qmult. cbn [Qnum Qden]. rewrite Pos.mul_1_r, Z.mul_1_l. reflexivity. }
  rewrite M. ring.
Qed.

(** The mask which a cutoff gives. *)
Lemma mask_ok : forall preserve b c mm, (forall p, preserve = Some p -> length p = length (edges g)) -> (c <= 0)%Qc -> length mm = length (edges g) ->
  (forall e, e < length (edges g) -> forall c, lltb (look mm e) (Some c) = false <-> used_at prob g (b + c)%Qc e) ->
  exists mask, margin_loop preserve (creep_of (Some c)) (Some c) 0 mm = Some mask /\ length mask = length (edges g) /\
    forall e, e < length (edges g) -> (nth_error mask e = Some false <-> kept prob g preserve b c e).
Proof using.
  intros preserve b c mm LP C LM V. destruct (margin_loop_ok preserve (creep_of (Some c)) (length (edges g)) LP mm c 0) as (mask & R & L & VM); [lia|].
  exists mask. split; [exact R|]. split; [lia|]. intros e E. specialize (VM e (look mm e)). rewrite VM by (apply nth_error_nth'; lia).
  unfold kept. cbn [Nat.add]. rewrite (creep_neg c (S e) C), (V e E). reflexivity.
Qed.

Lemma derives_lt : forall t n e, derives g n t -> In e (tree_edges t) -> e < length (edges g).
Proof using.
  induction t as [e0 ts IH] using tree_ind'. intros n e D I. inversion D as [? nd ? ed ? N E ED F]; subst. cbn [tree_edges] in I.
  apply in_app_or in I. destruct I as [I|[<-|[]]]; [|apply nth_error_Some; congruence].
  apply in_flat_map in I. destruct I as (s & S & I). rewrite Forall_forall in IH.
  destruct (In_nth_error _ _ S) as (k & K). clear -IH F S I.
  induction F as [|x y l m Q F IHF]; [destruct S|]. destruct S as [<-|S]; [apply (IH _ (or_introl eq_refl) x e Q I)|]. apply IHF; [intros z Z; apply IH; right; exact Z|exact S].
Qed.

Lemma no_edges : forall g' : hg P, edges g' = [] -> forall n t, ~ derives g' n t.
Proof using. intros g' E n t D. inversion D as [? nd ? ed ? N I ED F]; subst. rewrite E in ED. destruct e; discriminate. Qed.

Lemma prune_any : forall mask safe, length mask = length (edges g) ->
  exists g', PruneEdges mask safe g = Pruned g' /\ wf_hg g' /\ topo g' /\ carries (avoids mask) g g' /\
    made_of (fun e => nth_error mask e = Some false) g g' /\ (safe = true -> (exists t, derives g gl t /\ avoids mask t) -> no_dead_parts g').
Proof using WF TP NE.
  intros mask [|] L.
  - assert (DEC : (exists t, derives g gl t /\ avoids mask t) \/ forall t, derives g gl t -> ~ avoids mask t).
    { destruct (reachable_ok g WF TP mask L) as (sc & R & LS & V). destruct (V gl) as ([|] & _ & B).
      - unfold goal. assert (length (nodes g) <> 0) by (destruct (nodes g); [congruence|discriminate]). lia.
      - left. apply B. reflexivity.
      - right. intros t D A. assert (false = true) by (apply B; eauto). discriminate. }
    destruct DEC as [EX|NX].
    + destruct (prune_safe g WF TP NE mask L EX) as (g' & E & W & T & C & N). exists g'. split; [exact E|]. repeat (split; [assumption|]).
      split; [exact (made_prune mask true g' L E)|auto].
    + destruct (prune_none g WF TP NE mask L NX) as (g' & E & W & T & EE & LN). exists g'. split; [exact E|]. split; [exact W|]. split; [exact T|].
      split; [|split; [exact (made_prune mask true g' L E)|]].
      * exists (fun e => e). split; [|split].
        -- intros t'. split; [intros D; elim (no_edges g' EE _ _ D)|intros (t & D & A & _); elim (NX t D A)].
        -- intros t u D A. elim (NX t D A).
        -- intros t e D A. elim (NX t D A).
      * intros _ (t & D & A). elim (NX t D A).
  - destruct (prune_plain g WF TP NE mask L) as (g' & E & W & T & C). exists g'. split; [exact E|]. repeat (split; [assumption|]).
    split; [exact (made_prune mask false g' L E)|discriminate].
Qed.

Local Notation survives preserve b c := (fun t => Forall (kept prob g preserve b c) (tree_edges t)).
Lemma avoids_kept : forall mask preserve b c n t, (forall e, e < length (edges g) -> (nth_error mask e = Some false <-> kept prob g preserve b c e)) ->
  derives g n t -> (avoids mask t <-> Forall (kept prob g preserve b c) (tree_edges t)).
Proof using.
  intros mask preserve b c n t V D. unfold avoids. rewrite !Forall_forall. split; intros H e I; apply (V e (derives_lt t n e D I)); auto.
Qed.

Section C.
Variable b : Qc.
Variable mm : list lp.
Hypothesis LM : length mm = length (edges g).
Hypothesis V : forall e, e < length (edges g) -> forall c, lltb (look mm e) (Some c) = false <-> used_at prob g (b + c)%Qc e.

Lemma cut_prune : forall preserve c safe, (forall p, preserve = Some p -> length p = length (edges g)) -> (c <= 0)%Qc ->
  exists g', MarginPrune mm (Some c) preserve safe g = Pruned g' /\ wf_hg g' /\ topo g' /\ carries (survives preserve b c) g g' /\
    made_of (kept prob g preserve b c) g g' /\ (safe = true -> (exists t, derives g gl t /\ Forall (kept prob g preserve b c) (tree_edges t)) -> no_dead_parts g').
Proof using WF TP NE LM V.
  intros preserve c safe LP C. destruct (mask_ok preserve b c mm LP C LM V) as (mask & R & L & K).
  unfold MarginPrune. rewrite LM, Nat.eqb_refl, R. cbn [negb].
  destruct (prune_any mask safe L) as (g' & E & W & T & CA & MA & ND). exists g'. split; [exact E|]. split; [exact W|]. split; [exact T|]. split; [|split].
  - apply (carries_ext g (avoids mask)); [|exact CA]. intros t D. exact (avoids_kept mask preserve b c _ t K D).
  - apply (made_ext (fun e => nth_error mask e = Some false)); [|exact MA]. intros e LE. apply (K e LE).
  - intros S (t & D & F). apply (ND S). exists t. split; [exact D|]. apply (avoids_kept mask preserve b c _ t K D). exact F.
Qed.
Lemma nan_prune : forall preserve safe, exists g', MarginPrune mm None preserve safe g = Pruned g' /\ wf_hg g' /\ topo g' /\ carries (fun _ => True) g g' /\
  made_of (fun _ => True) g g' /\ (safe = true -> (exists t, derives g gl t) -> no_dead_parts g').
Proof using WF TP NE LM.
  intros preserve safe. destruct (margin_loop_none preserve (creep_of None) mm 0) as (mask & R & L & K).
  unfold MarginPrune. rewrite LM, Nat.eqb_refl, R. cbn [negb].
  assert (A : forall t n, derives g n t -> avoids mask t).
  { intros t n D. unfold avoids. apply Forall_forall. intros e I. apply K. rewrite LM. exact (derives_lt t n e D I). }
  destruct (prune_any mask safe) as (g' & E & W & T & CA & MA & ND); [lia|]. exists g'. split; [exact E|]. split; [exact W|]. split; [exact T|]. split; [|split].
  - apply (carries_ext g (avoids mask)); [|exact CA]. intros t D. split; [auto|]. intros _. exact (A t _ D).
  - apply (made_ext (fun e => nth_error mask e = Some false)); [|exact MA]. auto.
  - intros S (t & D). apply (ND S). exists t. split; [exact D|exact (A t _ D)].
Qed.

(** Edges in order: nothing is stranded. *)
Lemma cut_connected : forall c, (c <= 0)%Qc -> edges_in_order g -> (exists t, derives g gl t /\ Forall (kept prob g None b c) (tree_edges t)) ->
  exists g', MarginPrune mm (Some c) None false g = Pruned g' /\ no_dead_parts g'.
Proof using WF TP NE LM V.
  intros c C EO (t0 & D0 & K0). destruct (mask_ok None b c mm) as (mask & R & L & K); [discriminate|exact C|exact LM|exact V|].
  unfold MarginPrune. rewrite LM, Nat.eqb_refl, R. cbn [negb]. unfold PruneEdges. rewrite L, Nat.eqb_refl. cbn [negb].
  destruct (sorted g WF TP NE mask L) as (g' & rn & re & E & RN & _). rewrite E. exists g'. split; [reflexivity|].
  apply (live g WF TP NE mask g' rn re RN).
  2:{ exists t0. split; [exact D0|]. apply (avoids_kept mask None b c _ t0 K D0). exact K0. }
  intros n nd e ed t _ N I KE ED T. apply K in KE; [|apply nth_error_Some; congruence].
  destruct KE as [(p & Q & _)|(T0 & DT & IT & AL)]; [discriminate|].
  assert (SUB : forall u m, derives g m u -> In e (tree_edges u) -> exists s, derives g n s /\ (exists ts, s = Tree e ts) /\ forall x, In x (tree_edges s) -> In x (tree_edges u)).
  { induction u as [e' ts IH] using tree_ind'. intros m D J. inversion D as [? nd' ? ed' ? N' I' ED' F]; subst. cbn [tree_edges] in J. apply in_app_or in J. destruct J as [J|[->|[]]].
    - apply in_flat_map in J. destruct J as (s & S & J). rewrite Forall_forall in IH.
      assert (exists m', derives g m' s) as (m' & DS) by (clear -F S; induction F as [|x y l r Q F IHF]; [destruct S|destruct S as [<-|S]; [exists x; exact Q|exact (IHF S)]]).
      destruct (IH s S m' DS J) as (s' & D' & TS & SB). exists s'. split; [exact D'|]. split; [exact TS|]. intros x X. cbn [tree_edges]. apply in_or_app. left. apply in_flat_map. exists s. auto.
    - assert (n = m) as -> by exact (wf_one_head g WF n m nd nd' e N N' I I'). exists (Tree e ts). split; [exact D|]. split; [exists ts; reflexivity|auto]. }
  destruct (SUB T0 _ DT IT) as (s & DS & (ts & ->) & SB). inversion DS as [? nd' ? ed' ? N' I' ED' F]; subst. assert (ed' = ed) as -> by congruence.
  assert (exists u, In u ts /\ derives g t u) as (u & U & DU).
  { clear -F T. induction F as [|x y l r Q F IHF]; [destruct T|]. destruct T as [->|T]; [exists y; split; [left; reflexivity|exact Q]|].
    destruct (IHF T) as (u & U & D). exists u. split; [right; exact U|exact D]. }
  exists u. split; [exact DU|]. apply (avoids_kept mask None b c _ u K DU). apply Forall_forall. intros x X. right.
  assert (LT : forall w m, derives g m w -> forall md x, nth_error (nodes g) m = Some md -> In x (tree_edges w) -> exists r, In r (in_edges md) /\ x <= r).
  { induction w as [e' ws IH] using tree_ind'. intros m D md y M Y. inversion D as [? md' ? wd ? M' J WD G]; subst. assert (md' = md) as -> by congruence.
    cbn [tree_edges] in Y. apply in_app_or in Y. destruct Y as [Y|[<-|[]]]; [|exists e'; auto].
    exists e'. split; [exact J|]. apply in_flat_map in Y. destruct Y as (v & VI & Y). rewrite Forall_forall in IH.
    assert (exists k, In k (tails wd) /\ derives g k v) as (k & KI & DV).
    { clear -G VI. induction G as [|a c l r Q G IHG]; [destruct VI|]. destruct VI as [<-|VI]; [exists a; split; [left; reflexivity|exact Q]|].
      destruct (IHG VI) as (k & KI & D). exists k. split; [right; exact KI|exact D]. }
    destruct (nth_error (nodes g) k) as [kd|] eqn:KD; [|inversion DV; congruence].
    destruct (IH v VI k DV kd y KD Y) as (r & RI & LE). pose proof (EO e' wd k kd r WD KI KD RI). lia. }
  destruct (nth_error (nodes g) t) as [td|] eqn:TD; [|inversion DU; congruence].
  destruct (LT u t DU td x TD X) as (r & RI & LE). pose proof (EO e ed t td r ED T TD RI) as RE.
  exists T0. split; [exact DT|]. split.
  - apply SB. cbn [tree_edges]. apply in_or_app. left. apply in_flat_map. exists u. auto.
  - destruct AL as (y & Y & LY). exists y. split; [exact Y|]. eapply Qcle_trans; [|exact LY].
    assert (ML : (millionths (S x) <= millionths (S e))%Qc). { unfold millionths, Qcle. rewrite !q2qc. unfold Qle. cbn [Qnum Qden]. nia. }
    clear -C ML. qpush. nra.
Qed.

(** Within the beam everything of at least the reduced width survives. *)
Lemma within : forall preserve c t, (c <= 0)%Qc -> derives g gl t -> at_least prob g (b + c * (1 - millionths (length (edges g))))%Qc t -> Forall (kept prob g preserve b c) (tree_edges t).
Proof using.
  intros preserve c t C D (x & X & LE). apply Forall_forall. intros e I. right. exists t. split; [exact D|]. split; [exact I|]. exists x. split; [exact X|].
  eapply Qcle_trans; [|exact LE]. pose proof (millionths_le e _ (derives_lt t _ e D I)) as ML. clear -C ML. qpush. nra.
Qed.
End C.

(** ** Beam *)
Local Notation result preserve safe b c g' := (wf_hg g' /\ topo g' /\ carries (survives preserve b c) g g' /\
    made_of (kept prob g preserve b c) g g' /\ (safe = true -> (exists t, derives g gl t /\ Forall (kept prob g preserve b c) (tree_edges t)) -> no_dead_parts g')).
Lemma alpha_flag : forall alpha : Qc, (0 < alpha)%Qc -> Qc_eq_bool alpha 0 = false /\ qltb alpha 0 = false.
Proof using.
  intros alpha A. split.
  - unfold Qc_eq_bool. destruct (Qc_eq_dec alpha 0) as [->|]; [|reflexivity]. exfalso. exact (Qclt_not_le _ _ A (Qcle_refl 0)).
  - apply qltb_false. apply Qclt_le_weak. exact A.
Qed.
Lemma density_flag : forall d : Q, (1 <= d)%Q -> Qeq_bool d 0 = false /\ Qle_bool 1 d = true.
Proof using.
  intros d D. split.
  - destruct (Qeq_bool d 0) eqn:E; [|reflexivity]. apply Qeq_bool_iff in E. lra.
  - apply Qle_bool_iff. exact D.
Qed.
Lemma neg_le : forall alpha : Qc, (0 < alpha)%Qc -> (- alpha <= 0)%Qc.
Proof using. intros alpha A. qlra. Qed.

Lemma beam_ok : distinct_tails g -> forall b, best prob g b -> forall alpha preserve safe, (0 < alpha)%Qc -> (forall p, preserve = Some p -> length p = length (edges g)) ->
  exists g', PruneInsideOutside prob alpha 0 preserve safe g = Pruned (g', false) /\ result preserve safe b (- alpha)%Qc g'.
Proof using WF TP NE.
  intros DT b B alpha preserve safe A LP. destruct (Marginals_ok prob g WF TP NE DT b B) as (mm & M & LM & V).
  destruct (cut_prune b mm LM V preserve (- alpha)%Qc safe LP (neg_le alpha A)) as (g' & E & R).
  exists g'. split; [|exact R]. unfold PruneInsideOutside, choose_cutoff. destruct (alpha_flag alpha A) as (-> & ->). cbn [negb andb orb Qeq_bool].
  change (Qeq_bool 0 0) with true. cbn [negb andb]. rewrite M, E. reflexivity.
Qed.
Lemma beam_connected : distinct_tails g -> forall b, best prob g b -> forall alpha g', (0 < alpha)%Qc -> edges_in_order g ->
  (millionths (length (edges g)) <= 1)%Qc -> PruneInsideOutside prob alpha 0 None false g = Pruned (g', false) -> no_dead_parts g'.
Proof using WF TP NE.
  intros DT b B alpha g' A EO N H. destruct (Marginals_ok prob g WF TP NE DT b B) as (mm & M & LM & V).
  destruct (cut_connected b mm LM V (- alpha)%Qc (neg_le alpha A) EO) as (g2 & E & ND).
  { destruct B as ((t & D & W) & _). exists t. split; [exact D|]. apply within; [exact (neg_le alpha A)|exact D|]. exists b. split; [exact W|]. clear -A N. qpush. nra. }
  unfold PruneInsideOutside, choose_cutoff in H. destruct (alpha_flag alpha A) as (E1 & E2). rewrite E1, E2 in H. cbn [negb andb orb] in H.
  change (Qeq_bool 0 0) with true in H. cbn [negb andb] in H. rewrite M, E in H. injection H as <-. exact ND.
Qed.

(** ** Density *)
Lemma insert_perm : forall x l, Permutation (insert_desc x l) (x :: l).
Proof using.
  induction l as [|y r IH]; cbn; [reflexivity|]. destruct (lltb x y); [|reflexivity].
  rewrite IH. apply perm_swap.
Qed.
Lemma sort_perm : forall l, Permutation (sort_desc l) l.
Proof using. induction l as [|x r IH]; cbn; [reflexivity|]. rewrite insert_perm, IH. reflexivity. Qed.
Definition geb (x y : lp) : Prop := lltb x y = false.
Lemma lle_trans : forall x y z, geb x y -> geb y z -> geb x z.
Proof using. intros [x|] [y|] [z|]; unfold geb; cbn; try discriminate; try reflexivity. rewrite !qltb_false. intros. eapply Qcle_trans; eassumption. Qed.
Lemma lle_total : forall x y, lltb x y = true -> geb y x.
Proof using. intros [x|] [y|]; unfold geb; cbn; try discriminate; try reflexivity. rewrite qltb_iff, qltb_false. apply Qclt_le_weak. Qed.
Lemma insert_sorted : forall x l, StronglySorted geb l -> StronglySorted geb (insert_desc x l).
Proof using.
  induction l as [|y r IH]; intros S; cbn; [constructor; constructor|]. inversion S as [|? ? S' F]; subst. destruct (lltb x y) eqn:E.
  - constructor; [apply IH; exact S'|]. eapply Permutation_Forall; [symmetry; apply insert_perm|]. constructor; [apply lle_total; exact E|exact F].
  - constructor; [exact S|]. constructor; [exact E|]. eapply Forall_impl; [|exact F]. intros a. apply lle_trans. exact E.
Qed.
Lemma sort_sorted : forall l, StronglySorted geb (sort_desc l).
Proof using. induction l as [|x r IH]; cbn; [constructor|]. apply insert_sorted, IH. Qed.
Lemma filter_perm : forall (A : Type) (p : A -> bool) l m, Permutation l m -> length (filter p l) = length (filter p m).
Proof using.
  intros A p l m H. induction H as [|x l m H IH|x y l|l m r H1 IH1 H2 IH2]; [reflexivity| | |congruence]; cbn.
  - destruct (p x); cbn; congruence.
  - destruct (p x), (p y); reflexivity.
Qed.
Lemma filter_at_most : forall (A : Type) (p : A -> bool) l, length (filter p l) <= length l.
Proof using. induction l as [|x r IH]; cbn; [lia|]. destruct (p x); cbn; lia. Qed.
Lemma sorted_split : forall s n c, StronglySorted geb s -> nth_error s n = Some c -> S n <= length (filter (fun x => negb (lltb x c)) s) /\ length (filter (fun x => lltb c x) s) <= n.
Proof using.
  induction s as [|x r IH]; intros n c S N; [destruct n; discriminate|]. inversion S as [|? ? S' F]; subst. destruct n as [|n].
  - injection N as ->. cbn [filter]. replace (lltb c c) with false by (destruct c as [c|]; [symmetry; cbn; apply qltb_false, Qcle_refl|reflexivity]). cbn [negb length]. split; [lia|].
    assert (Z : filter (fun y => lltb c y) r = []); [|rewrite Z; cbn; lia].
    clear -F. induction F as [|y r Q F IH]; [reflexivity|]. cbn. rewrite Q. exact IH.
  - cbn in N. destruct (IH n c S' N) as (H1 & H2). cbn [filter]. assert (Q : lltb x c = false). { rewrite Forall_forall in F. apply F. eapply nth_error_In; exact N. }
    rewrite Q. cbn [negb length]. split; [lia|]. destruct (lltb c x); cbn [length]; lia.
Qed.
Lemma filter_map_length : forall (A B : Type) (f : A -> B) p l, length (filter p (map f l)) = length (filter (fun a => p (f a)) l).
Proof using. induction l as [|a r IH]; cbn; [reflexivity|]. destruct (p (f a)); cbn; congruence. Qed.
Lemma as_looks : forall mm : list lp, mm = map (fun e => look mm e) (seq 0 (length mm)).
Proof using.
  intros mm. apply nth_error_ext; [rewrite map_length, seq_length; reflexivity|]. intros k a K.
  assert (LK : k < length mm) by (apply nth_error_Some; congruence). rewrite nth_error_map.
  rewrite (nth_error_nth' (seq 0 (length mm)) 0) by (rewrite seq_length; exact LK). rewrite seq_nth by exact LK. cbn. f_equal. apply nth_error_nth. exact K.
Qed.

Lemma rank_ok : forall b mm, length mm = length (edges g) ->
  (forall e, e < length (edges g) -> forall c, lltb (look mm e) (Some c) = false <-> used_at prob g (b + c)%Qc e) ->
  forall d, d < length (edges g) -> exists c, nth_greatest d mm = Some c /\ distance_rank prob g b d c.
Proof using.
  intros b mm LM V d LD. unfold nth_greatest. destruct (nth_error (sort_desc mm) d) as [c|] eqn:N.
  2:{ apply nth_error_None in N. rewrite (Permutation_length (sort_perm mm)) in N. lia. }
  exists c. split; [reflexivity|]. destruct (sorted_split _ d c (sort_sorted mm) N) as (H1 & H2).
  rewrite (filter_perm _ _ _ _ (sort_perm mm)) in H1. rewrite (filter_perm _ _ _ _ (sort_perm mm)) in H2. rewrite (as_looks mm), filter_map_length, LM in H1. rewrite (as_looks mm), filter_map_length, LM in H2.
  assert (UL : forall x e, used_at prob g x e -> e < length (edges g)) by (intros x e (t & D & I & _); exact (derives_lt t _ e D I)).
  destruct c as [c|]; cbn [distance_rank].
  - split.
    + exists (firstn (S d) (filter (fun e => negb (lltb (look mm e) (Some c))) (seq 0 (length (edges g))))).
      split; [|split].
      * set (l := filter _ _) in *.
        assert (ND : NoDup l) by (apply NoDup_filter, seq_NoDup). rewrite <- (firstn_skipn (S d) l) in ND.
        revert ND. generalize (skipn (S d) l). generalize (firstn (S d) l). clear. intros a r ND. induction a as [|x a IH]; [constructor|].
        cbn in ND. inversion ND as [|? ? NI ND']; subst. constructor; [intros Q; apply NI, in_or_app; left; exact Q|apply IH, ND'].
      * apply firstn_length_le. exact H1.
      * intros e I. assert (J : In e (filter (fun e => negb (lltb (look mm e) (Some c))) (seq 0 (length (edges g))))).
        { revert I. generalize (filter (fun e => negb (lltb (look mm e) (Some c))) (seq 0 (length (edges g)))). clear. intros l.
          rewrite <- (firstn_skipn (S d) l) at 2. intros I. apply in_or_app. left. exact I. }
        apply filter_In in J. destruct J as (J & Q). apply in_seq in J. apply V; [lia|]. apply negb_true_iff. exact Q.
    + intros l ND H. eapply Nat.le_trans; [|exact H2]. apply NoDup_incl_length; [exact ND|]. intros e I. destruct (H e I) as (x & X & U).
      pose proof (UL _ _ U) as LE. apply filter_In. split; [apply in_seq; lia|]. apply V in U; [|exact LE].
      destruct (look mm e) as [m|]; [|discriminate]. cbn in U |- *. apply qltb_false in U. apply qltb_iff. eapply Qclt_le_trans; eassumption.
  - intros l ND H. eapply Nat.le_trans; [|exact H2]. apply NoDup_incl_length; [exact ND|]. intros e I. destruct (H e I) as (x & U).
    pose proof (UL _ _ U) as LE. apply filter_In. split; [apply in_seq; lia|]. replace x with (b + (x - b))%Qc in U by ring.
    apply V in U; [|exact LE]. destruct (look mm e) as [m|]; [reflexivity|discriminate].
Qed.
Lemma rank_neg : forall b d c, best prob g b -> distance_rank prob g b d (Some c) -> (c <= 0)%Qc.
Proof using.
  intros b d c (_ & B) ((l & _ & L & U) & _). destruct l as [|e r]; [discriminate|]. destruct (U e (or_introl eq_refl)) as (t & D & _ & (x & X & LE)).
  specialize (B t x D X). clear -LE B. qlra.
Qed.

Lemma path_length : (forall n nd, nth_error (nodes g) n = Some nd -> in_edges nd <> []) -> forall b, best prob g b ->
  exists t, derives g gl t /\ logprob prob g t = Some b /\ ViterbiPathLength prob g = Some (length (tree_edges t)).
Proof using WF TP NE.
  intros IN b ((tb & DB & WB) & B). unfold ViterbiPathLength.
  destruct (@viterbi_correct P lp nat lzero lone ltimes lltb (fun _ => True) lp_ordered ep 0 PathLengthTraversal g TP (fun _ _ _ => I) IN) as (w & r & t & -> & D & W & R & M).
  { destruct (nodes g); [congruence|discriminate]. }
  exists t. split; [exact D|]. split.
  - specialize (M tb DB). rewrite <- (logprob_tw prob g tb), WB in M. rewrite <- (logprob_tw prob g t) in W. destruct w as [x|]; [|discriminate]. cbn in M.
    apply qltb_false in M. rewrite <- W. f_equal. apply Qcle_antisym; [exact (B t x D (eq_sym W))|exact M].
  - rewrite R. f_equal. exact (pathlen_eval P g t _ D).
Qed.
Lemma scaled_ok : forall density plen, (1 <= density)%Q ->
  (inject_Z (Z.of_nat (scaled density plen)) <= density * inject_Z (Z.of_nat plen))%Q /\ (density * inject_Z (Z.of_nat plen) < inject_Z (Z.of_nat (S (scaled density plen))))%Q.
Proof using.
  intros density plen D. unfold scaled. set (q := (density * inject_Z (Z.of_nat plen))%Q).
  assert (POS : (0 <= q)%Q). { unfold q. assert ((0 <= inject_Z (Z.of_nat plen))%Q) by (change 0%Q with (inject_Z 0); rewrite <- Zle_Qle; lia). nra. }
  assert (F : (0 <= Qround.Qfloor q)%Z). { change 0%Z with (Qround.Qfloor 0). apply Qround.Qfloor_resp_le. exact POS. }
  rewrite Nat2Z.inj_succ, Z2Nat.id by exact F. split; [apply Qround.Qfloor_le|]. exact (Qround.Qlt_floor q).
Qed.

Lemma density_ok : distinct_tails g -> (forall n nd, nth_error (nodes g) n = Some nd -> in_edges nd <> []) -> forall b, best prob g b -> forall density preserve safe, (1 <= density)%Q ->
  (forall p, preserve = Some p -> length p = length (edges g)) ->
  exists t d, derives g gl t /\ logprob prob g t = Some b /\
    (inject_Z (Z.of_nat d) <= density * inject_Z (Z.of_nat (length (tree_edges t))))%Q /\ (density * inject_Z (Z.of_nat (length (tree_edges t))) < inject_Z (Z.of_nat (S d)))%Q /\
    (length (edges g) <= d -> PruneInsideOutside prob 0 density preserve safe g = Pruned (g, false)) /\
    (d < length (edges g) -> exists g' c, PruneInsideOutside prob 0 density preserve safe g = Pruned (g', true) /\ distance_rank prob g b d c /\
       match c with
       | Some c => (c <= 0)%Qc /\ result preserve safe b c g'
       | None => wf_hg g' /\ topo g' /\ carries (fun _ => True) g g' /\ made_of (fun _ => True) g g' /\ (safe = true -> (exists t, derives g gl t) -> no_dead_parts g')
       end).
Proof using WF TP NE.
  intros DT IN b B density preserve safe DE LP. destruct (path_length IN b B) as (t & D & W & VP).
  exists t, (scaled density (length (tree_edges t))). split; [exact D|]. split; [exact W|].
  destruct (scaled_ok density (length (tree_edges t)) DE) as (S1 & S2). split; [exact S1|]. split; [exact S2|].
  destruct (density_flag density DE) as (E1 & E2). set (d := scaled density (length (tree_edges t))) in *.
  assert (R : PruneInsideOutside prob 0 density preserve safe g =
    if Nat.min (length (edges g)) d =? length (edges g) then Pruned (g, false) else
      match Marginals prob g with MOob => Oob | MNoBest => NoBest | Marg mm =>
        match choose_cutoff (Some (Nat.min (length (edges g)) d)) 0 mm with None => Oob | Some (cut, won) =>
          match MarginPrune mm cut preserve safe g with Pruned g' => Pruned (g', won) | Asserts => Asserts | Cyclic => Cyclic | NoBest => NoBest | Oob => Oob end end end).
  { unfold PruneInsideOutside. rewrite E1, E2, VP. change (Qc_eq_bool 0 0) with true. cbn [negb andb orb]. reflexivity. }
  rewrite R. split.
  - intros LE. rewrite Nat.min_l by exact LE. rewrite Nat.eqb_refl. reflexivity.
  - intros LT. rewrite Nat.min_r by lia. rewrite (proj2 (Nat.eqb_neq d (length (edges g)))) by lia.
    destruct (Marginals_ok prob g WF TP NE DT b B) as (mm & M & LM & V). rewrite M.
    destruct (rank_ok b mm LM V d LT) as (c & NG & RK). unfold choose_cutoff. rewrite NG. change (Qc_eq_bool 0 0) with true. cbn [option_map negb].
    destruct c as [c|].
    + pose proof (rank_neg b d c B RK) as C. destruct (cut_prune b mm LM V preserve c safe LP C) as (g' & E & Q). exists g', (Some c). rewrite E. auto.
    + destruct (nan_prune mm LM preserve safe) as (g' & E & Q). exists g', None. rewrite E. auto.
Qed.

(** ** Both *)
Lemma both_ok : forall alpha density preserve safe g' won, (0 < alpha)%Qc -> (1 <= density)%Q ->
  PruneInsideOutside prob alpha density preserve safe g = Pruned (g', won) ->
  if won then PruneInsideOutside prob 0 density preserve safe g = Pruned (g', true)
  else PruneInsideOutside prob alpha 0 preserve safe g = Pruned (g', false).
Proof using.
  intros alpha density preserve safe g' won A DE H. destruct (alpha_flag alpha A) as (A1 & A2). destruct (density_flag density DE) as (D1 & D2).
  unfold PruneInsideOutside in *. rewrite A1, A2, D1, D2 in *. change (Qc_eq_bool 0 0) with true. change (Qeq_bool 0 0) with true. cbn [negb andb orb] in *.
  unfold choose_cutoff in *. rewrite A1 in *. change (Qc_eq_bool 0 0) with true. cbn [negb] in *.
  destruct (ViterbiPathLength prob g) as [plen|]; [|discriminate].
  destruct (Nat.min (length (edges g)) (scaled density plen) =? length (edges g)).
  - destruct (Marginals prob g) as [mm| |]; try discriminate. destruct (MarginPrune mm (Some (- alpha)%Qc) preserve safe g) eqn:E; try discriminate. injection H as <- <-. reflexivity.
  - destruct (Marginals prob g) as [mm| |]; try discriminate. destruct (nth_greatest (Nat.min (length (edges g)) (scaled density plen)) mm) as [c|]; [|discriminate]. cbn [option_map] in *.
    destruct (lltb (Some (- alpha)%Qc) c).
    + destruct (MarginPrune mm c preserve safe g) eqn:E; try discriminate. injection H as <- <-. reflexivity.
    + destruct (MarginPrune mm (Some (- alpha)%Qc) preserve safe g) eqn:E; try discriminate. injection H as <- <-. reflexivity.
Qed.
Lemma kept_beam : forall preserve b alpha c e, (- alpha <= c)%Qc -> (c <= 0)%Qc -> kept prob g preserve b c e -> preserved preserve e \/ used_at prob g (b - alpha)%Qc e.
Proof using.
  intros preserve b alpha c e A C [H|(t & D & I & (x & X & LE))]; [left; exact H|right]. exists t. split; [exact D|]. split; [exact I|]. exists x. split; [exact X|].
  eapply Qcle_trans; [|exact LE]. pose proof (millionths_pos (S e)) as M. clear -A C M. qpush. nra.
Qed.
Lemma not_worse : distinct_tails g -> forall b, best prob g b -> forall alpha density preserve safe g' won, (0 < alpha)%Qc -> (density == 0 \/ 1 <= density)%Q ->
  (forall p, preserve = Some p -> length p = length (edges g)) ->
  PruneInsideOutside prob alpha density preserve safe g = Pruned (g', won) -> made_of (fun e => preserved preserve e \/ used_at prob g (b - alpha)%Qc e) g g'.
Proof using WF TP NE.
  intros DT b B alpha density preserve safe g' won A DE LP H. destruct (alpha_flag alpha A) as (A1 & A2).
  destruct (Marginals_ok prob g WF TP NE DT b B) as (mm & M & LM & V).
  assert (BEAM : forall g2, MarginPrune mm (Some (- alpha)%Qc) preserve safe g = Pruned g2 -> made_of (fun e => preserved preserve e \/ used_at prob g (b - alpha)%Qc e) g g2).
  { intros g2 E. destruct (cut_prune b mm LM V preserve (- alpha)%Qc safe LP (neg_le alpha A)) as (g3 & E' & _ & _ & _ & MA & _). rewrite E in E'. injection E' as <-.
    apply (made_ext (kept prob g preserve b (- alpha)%Qc)); [|exact MA]. intros e _. apply kept_beam; [apply Qcle_refl|exact (neg_le alpha A)]. }
  unfold PruneInsideOutside, choose_cutoff in H. rewrite A1, A2, M in H. cbn [negb andb orb] in H.
  destruct (negb (Qeq_bool density 0)) eqn:UD.
  - destruct DE as [DE|DE]; [apply Qeq_bool_iff in DE; rewrite DE in UD; discriminate|]. destruct (density_flag density DE) as (_ & D2). rewrite D2 in H. cbn [negb andb] in H.
    destruct (ViterbiPathLength prob g) as [plen|]; [|discriminate].
    destruct (Nat.eqb_spec (Nat.min (length (edges g)) (scaled density plen)) (length (edges g))) as [EQ|NEQ].
    + destruct (MarginPrune mm (Some (- alpha)%Qc) preserve safe g) as [g2| | | |] eqn:E; try discriminate. injection H as <- <-. apply BEAM. first [exact E|reflexivity].
    + destruct (rank_ok b mm LM V (Nat.min (length (edges g)) (scaled density plen))) as (c & NG & RK); [lia|]. rewrite NG in H. cbn [option_map] in H.
      destruct (lltb (Some (- alpha)%Qc) c) eqn:LT.
      * destruct c as [c|]; [|discriminate]. pose proof (rank_neg _ _ _ B RK) as C. destruct (cut_prune b mm LM V preserve c safe LP C) as (g3 & E & _ & _ & _ & MA & _).
        rewrite E in H. injection H as <- <-. apply (made_ext (kept prob g preserve b c)); [|exact MA]. intros e _. apply kept_beam; [|exact C].
        cbn in LT. apply qltb_iff in LT. apply Qclt_le_weak. exact LT.
      * destruct (MarginPrune mm (Some (- alpha)%Qc) preserve safe g) as [g2| | | |] eqn:E; try discriminate. injection H as <- <-. apply BEAM. first [exact E|reflexivity].
  - cbn [andb] in H. destruct (MarginPrune mm (Some (- alpha)%Qc) preserve safe g) as [g2| | | |] eqn:E; try discriminate. injection H as <- <-. apply BEAM. first [exact E|reflexivity].
Qed.

(** ** Consequences *)
Lemma carries_logprob : forall ok (g' : hg P) f, (forall t e, derives g gl t -> ok t -> In e (tree_edges t) ->
     exists ed ed', nth_error (edges g) e = Some ed /\ nth_error (edges g') (f e) = Some ed' /\ lab ed' = lab ed) ->
  forall t, derives g gl t -> ok t -> logprob prob g' (rename f t) = logprob prob g t.
Proof using.
  intros ok g' f H t D O. specialize (H t). assert (K : forall e, In e (tree_edges t) -> logprob_of prob g' (f e) = logprob_of prob g e).
  { intros e I. destruct (H e D O I) as (ed & ed' & E1 & E2 & L). unfold logprob_of. rewrite E1, E2, L. reflexivity. }
  clear -K. induction t as [e ts IH] using tree_ind'. cbn [rename logprob]. rewrite K by (cbn; apply in_or_app; right; left; reflexivity).
  generalize (logprob_of prob g e). assert (K' : forall s, In s ts -> logprob prob g' (rename f s) = logprob prob g s).
  { intros s S. rewrite Forall_forall in IH. apply IH; [exact S|]. intros x X. apply K. cbn. apply in_or_app. left. apply in_flat_map. exists s. auto. }
  clear -K'. induction ts as [|s r IHr]; intros a; [reflexivity|]. cbn [map fold_left]. rewrite K' by (left; reflexivity). apply IHr. intros x X. apply K'. right. exact X.
Qed.
Lemma carries_best : forall (ok : tree -> Prop) (g' : hg P) b, carries ok g g' -> best prob g b -> (forall t, derives g gl t -> logprob prob g t = Some b -> ok t) -> best prob g' b.
Proof using.
  intros ok g' b (f & C1 & C2 & C3) ((t & D & W) & B) K. pose proof (carries_logprob ok g' f C3) as LPR. split.
  - exists (rename f t). pose proof (K t D W) as O. split; [apply C1; exists t; auto|]. rewrite (LPR t D O). exact W.
  - intros t' x D' W'. apply C1 in D'. destruct D' as (u & DU & O & ->). rewrite (LPR u DU O) in W'. exact (B u x DU W').
Qed.

Lemma rank_size : forall b d c g', distance_rank prob g b d (Some c) -> (c < 0)%Qc -> made_of (kept prob g None b c) g g' -> length (edges g') <= d.
Proof using.
  intros b d c g' (_ & R) C M. destruct (made_count _ g' M) as (l & ND & <- & K). apply R; [exact ND|]. intros e I.
  destruct (K e I) as (_ & [(p & Q & _)|U]); [discriminate|]. exists (c * (1 - millionths (S e)))%Qc. split; [|exact U].
  assert (POS : (0 < millionths (S e))%Qc). { unfold millionths, Qclt. rewrite !q2qc. unfold Qlt. cbn [Qnum Qden]. lia. }
  clear -C POS. qpush. nra.
Qed.
Lemma density_size : forall b d c, best prob g b -> distance_rank prob g b d c ->
  (forall l, NoDup l -> (forall e, In e l -> used_at prob g b e) -> length l <= d) ->
  (exists l, NoDup l /\ length l = S d /\ forall e, In e l -> exists x, used_at prob g x e) ->
  exists x, c = Some x /\ (x < 0)%Qc.
Proof using.
  intros b d c B RK FEW (l & ND & L & MANY). destruct c as [c|]; [|specialize (RK l ND MANY); lia].
  exists c. split; [reflexivity|]. pose proof (rank_neg b d c B RK) as C. destruct (qc_cases c 0) as [Q|[->|Q]]; [exact Q| |exfalso; exact (Qcle_not_lt _ _ C Q)].
  exfalso. destruct RK as ((m & NM & LM & U) & _). specialize (FEW m NM). rewrite LM in FEW.
  assert (S d <= d); [|lia]. apply FEW. intros e I. specialize (U e I). replace (b + 0)%Qc with b in U by ring. exact U.
Qed.

Lemma best_within : forall preserve b c t, (c <= 0)%Qc -> (millionths (length (edges g)) <= 1)%Qc -> derives g gl t -> logprob prob g t = Some b -> Forall (kept prob g preserve b c) (tree_edges t).
Proof using.
  intros preserve b c t C M D W. apply within; [exact C|exact D|]. exists b. split; [exact W|]. clear -C M. qpush. nra.
Qed.

Lemma density_all : distinct_tails g -> (forall n nd, nth_error (nodes g) n = Some nd -> in_edges nd <> []) -> forall b, best prob g b -> forall density preserve safe, (1 <= density)%Q ->
  (forall p, preserve = Some p -> length p = length (edges g)) ->
  exists t d, derives g gl t /\ logprob prob g t = Some b /\
    (inject_Z (Z.of_nat d) <= density * inject_Z (Z.of_nat (length (tree_edges t))))%Q /\ (density * inject_Z (Z.of_nat (length (tree_edges t))) < inject_Z (Z.of_nat (S d)))%Q /\
    (length (edges g) <= d -> PruneInsideOutside prob 0 density preserve safe g = Pruned (g, false)) /\
    (d < length (edges g) -> exists g', PruneInsideOutside prob 0 density preserve safe g = Pruned (g', true) /\ wf_hg g' /\ topo g' /\
       (exists c, distance_rank prob g b d c /\
          match c with
          | Some c => (c <= 0)%Qc /\ carries (survives preserve b c) g g' /\ made_of (kept prob g preserve b c) g g'
          | None => carries (fun _ => True) g g'
          end) /\
       ((millionths (length (edges g)) <= 1)%Qc -> best prob g' b) /\
       (preserve = None -> (forall l, NoDup l -> (forall e, In e l -> used_at prob g b e) -> length l <= d) ->
          (exists l, NoDup l /\ length l = S d /\ forall e, In e l -> exists x, used_at prob g x e) -> length (edges g') <= d)).
Proof using WF TP NE.
  intros DT IN b B density preserve safe DE LP. destruct (density_ok DT IN b B density preserve safe DE LP) as (t & d & D & W & S1 & S2 & H1 & H2).
  exists t, d. repeat (split; [assumption|]). intros LT. destruct (H2 LT) as (g' & c & E & RK & Q). exists g'. split; [exact E|].
  destruct c as [c|].
  - destruct Q as (C & WG & TG & CA & MA & _). split; [exact WG|]. split; [exact TG|]. split; [exists (Some c); auto|]. split.
    + intros M. apply (carries_best _ g' b CA B). intros u DU WU. exact (best_within preserve b c u C M DU WU).
    + intros -> FEW MANY. destruct (density_size b d _ B RK FEW MANY) as (x & [= <-] & X). exact (rank_size b d c g' RK X MA).
  - destruct Q as (WG & TG & CA & MA & _). split; [exact WG|]. split; [exact TG|]. split; [exists None; auto|]. split.
    + intros _. apply (carries_best _ g' b CA B). auto.
    + intros _ FEW MANY. destruct (density_size b d _ B RK FEW MANY) as (x & X & _). discriminate.
Qed.

Lemma beam_all : distinct_tails g -> forall b, best prob g b -> forall alpha preserve safe, (0 < alpha)%Qc -> (forall p, preserve = Some p -> length p = length (edges g)) ->
  exists g', PruneInsideOutside prob alpha 0 preserve safe g = Pruned (g', false) /\ wf_hg g' /\ topo g' /\
    carries (survives preserve b (- alpha)%Qc) g g' /\ made_of (kept prob g preserve b (- alpha)%Qc) g g'.
Proof using WF TP NE.
  intros DT b B alpha preserve safe A LP. destruct (beam_ok DT b B alpha preserve safe A LP) as (g' & E & W & T & C & M & _). exists g'. auto.
Qed.
Lemma beam_within : distinct_tails g -> forall b, best prob g b -> forall alpha preserve safe g' won, (0 < alpha)%Qc -> (forall p, preserve = Some p -> length p = length (edges g)) ->
  PruneInsideOutside prob alpha 0 preserve safe g = Pruned (g', won) ->
  exists f, (forall t, derives g gl t -> at_least prob g (b - alpha * (1 - millionths (length (edges g))))%Qc t ->
      derives g' (goal g') (rename f t) /\ logprob prob g' (rename f t) = logprob prob g t) /\
    ((millionths (length (edges g)) <= 1)%Qc -> best prob g' b).
Proof using WF TP NE.
  intros DT b B alpha preserve safe g' won A LP E. destruct (beam_ok DT b B alpha preserve safe A LP) as (g2 & E' & W & T & C & M & _).
  rewrite E in E'. injection E' as <- _. pose proof C as (f & C1 & C2 & C3). exists f. split.
  - intros t D AL. assert (K : Forall (kept prob g preserve b (- alpha)%Qc) (tree_edges t)).
    { apply within; [exact (neg_le alpha A)|exact D|]. destruct AL as (x & X & LE). exists x. split; [exact X|]. replace (b + - alpha * (1 - millionths (length (edges g))))%Qc with (b - alpha * (1 - millionths (length (edges g))))%Qc by ring. exact LE. }
    split; [apply C1; exists t; auto|]. exact (carries_logprob _ g' f C3 t D K).
  - intros MI. apply (carries_best _ g' b C B). intros u DU WU. apply best_within; [exact (neg_le alpha A)|exact MI|exact DU|exact WU].
Qed.

Lemma prune_all : forall mask run, length mask = length (edges g) ->
  exists g', PruneEdges mask run g = Pruned g' /\ wf_hg g' /\ topo g' /\ carries (avoids mask) g g' /\
    made_of (fun e => nth_error mask e = Some false) g g' /\
    (run = true -> (exists t, derives g gl t /\ avoids mask t) -> no_dead_parts g') /\
    (run = true -> (forall t, derives g gl t -> ~ avoids mask t) -> edges g' = []).
Proof using WF TP NE.
  intros mask run L. destruct (prune_any mask run L) as (g' & E & W & T & C & M & N). exists g'. repeat (split; [assumption|]).
  intros -> NX. destruct (prune_none g WF TP NE mask L NX) as (g2 & E2 & _ & _ & EE & _). rewrite E in E2. injection E2 as <-. exact EE.
Qed.
End I.
