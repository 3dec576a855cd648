(** One step of the decoder's loop (Pb.v), and its invariant for any lattice. *)
From Coq Require Import List Arith ZArith Bool Lia.
From Verif Require Import Opt HG HGProofs Deriv Topo TopoSpec UnionProofs Pb PbSpec PbBaseProofs.
Import ListNotations.
Local Open Scope nat_scope.
Open Scope opt_scope.

Section M.
Context {R : Type}.
Variables (D : nat) (kNT kGOAL : Z) (lat : list (list (Z * nat))) (table : list (list Z * R)) (root : trie R).
Hypothesis TR : trie_is root table.
Hypothesis FW : forward lat.
Hypothesis NE : forall ws r, In (ws, r) table -> ws <> [].
Notation L := (plabel R).
Definition empty : list bool := repeat false (length lat).

Lemma spells_le : forall i ws j, spells lat i ws j -> i <= length lat -> i <= j <= length lat /\ (ws <> [] -> i < j).
Proof.
  intros i ws j H. induction H as [i|i arcs w d ws j N I H IH]; intros B; [split; [lia|congruence]|]. destruct (FW i arcs w d N I) as [P Q]. destruct (IH Q) as [A _]. split; [lia|]. intros _. lia.
Qed.
Lemma spells_snoc : forall i ws j, spells lat i ws j -> forall arcs w d, nth_error lat j = Some arcs -> In (w, d) arcs -> spells lat i (ws ++ [w]) (j + d).
Proof. intros i ws j H. induction H as [i|i arcs w d ws j N I H IH]; intros arcs' w' d' N' I'; cbn [app]; (eapply sp_arc; [eassumption|eassumption|]); [constructor|apply (IH arcs'); assumption]. Qed.
Definition start_ok (C : list bool) (i : nat) : Prop := exists gap, first_open C gap /\ gap <= i <= gap + D.
Definition usable (i j : nat) (r : R) : Prop := exists ws, spells lat i ws j /\ In (ws, r) table.
Record state_ok (s : state (R := R)) : Prop := {
  so_len : length (bits (s_cov s)) = length lat;
  so_gap : first_gap (s_cov s) = leading (bits (s_cov s));
  so_start : start_ok (bits (s_cov s)) (s_i s);
  so_bound : s_i s < length lat;
  so_open : all_open (bits (s_cov s)) (s_i s) (s_j s);
  so_fst : exists ws, spells lat (s_i s) ws (s_j s) /\ walk root ws = Some (s_fst s)
}.
Lemma so_le : forall s, state_ok s -> s_i s <= s_j s <= length lat.
Proof. intros s [_ _ _ B _ (ws & S & _)]. exact (proj1 (spells_le _ _ _ S (Nat.lt_le_incl _ _ B))). Qed.
Lemma so_data : forall s rs, state_ok s -> data (s_fst s) = Some rs -> s_i s < s_j s /\ exists ws, spells lat (s_i s) ws (s_j s) /\ walk root ws = Some (s_fst s) /\ rs = rules table ws /\ rs <> [].
Proof.
  intros s rs [_ _ _ B _ (ws & S & WK)] DT. pose proof (TR ws) as T. unfold data_at in T. rewrite WK, DT in T. unfold some_rules in T. destruct (rules table ws) as [|x l] eqn:RL; [discriminate|]. injection T as ->.
  assert (ws <> []) by (apply (NE ws x); apply rules_in; rewrite RL; left; reflexivity). split; [apply (spells_le _ _ _ S); [lia|assumption]|]. exists ws. rewrite RL. split; [exact S|]. split; [exact WK|]. split; [reflexivity|discriminate].
Qed.

(** ** Enqueuing *)
Definition starts (C : list bool) : list nat := filter (fun i => negb (nth i C true)) (seq (leading C) (Nat.min (length C) (leading C + D + 1) - leading C)).
Definition at_start (cov : coverage) (i : nat) : state (R := R) := {| s_cov := cov; s_i := i; s_j := i; s_fst := root |}.
Lemma enq_spec : forall cov w, first_gap cov = leading (bits cov) ->
  cmap (EnqueuePossibleContinuations D root cov w) = cmap w /\ forest (EnqueuePossibleContinuations D root cov w) = forest w /\
  ((In (bits cov) (ucs w) /\ EnqueuePossibleContinuations D root cov w = w) \/
   (~ In (bits cov) (ucs w) /\ ucs (EnqueuePossibleContinuations D root cov w) = bits cov :: ucs w /\ queue (EnqueuePossibleContinuations D root cov w) = queue w ++ map (at_start cov) (starts (bits cov)))).
Proof.
  intros cov w FG. unfold EnqueuePossibleContinuations. destruct (existsb (same (bits cov)) (ucs w)) eqn:E.
  - split; [reflexivity|]. split; [reflexivity|]. left. split; [apply existsb_same; exact E|reflexivity].
  - split; [reflexivity|]. split; [reflexivity|]. right. split; [intros I; apply existsb_same in I; congruence|]. split; [reflexivity|]. cbn [queue]. unfold starts. rewrite FG. reflexivity.
Qed.
Lemma starts_in : forall C i, In i (starts C) <-> start_ok C i /\ nth_error C i = Some false.
Proof.
  intros C i. unfold starts. rewrite filter_In, in_seq. split.
  - intros [B N]. assert (LT : i < length C) by lia. destruct (nth_error C i) as [b|] eqn:Q; [|apply nth_error_None in Q; lia]. rewrite (nth_error_nth _ _ true Q) in N. destruct b; [discriminate|]. split; [|reflexivity]. destruct (leading_spec C) as [P1 P2]. exists (leading C). split; [split; [|exact P1]|lia].
    destruct (P2 _ eq_refl) as [X|X]; [exact X|]. lia.
  - intros [(gap & FO & G1 & G2) N]. pose proof (leading_open _ _ FO) as LG. assert (i < length C) by (apply nth_error_Some; congruence). rewrite (nth_error_nth _ _ true N). split; [lia|reflexivity].
Qed.
Lemma starts_nodup : forall C, NoDup (starts C).
Proof. intros C. apply NoDup_filter, seq_NoDup. Qed.
Lemma start_state : forall cov i, length (bits cov) = length lat -> first_gap cov = leading (bits cov) -> In i (starts (bits cov)) -> state_ok (at_start cov i).
Proof.
  intros cov i LB FG I. apply starts_in in I as [S N]. split; cbn [s_cov s_i s_j s_fst at_start].
  - exact LB.
  - exact FG.
  - exact S.
  - rewrite <- LB. apply nth_error_Some. congruence.
  - intros k K. lia.
  - exists []. split; [constructor|reflexivity].
Qed.

(** ** Phrases applied *)
Definition applied_to (s : state (R := R)) (cov : coverage) (rs : list R) (w w' : work (R := R)) : Prop :=
  let p := length (nodes (forest w)) in let b := length (edges (forest w)) in
  wf_hg (forest w') /\
  ((bits (s_cov s) = empty /\ cmap w' = (bits cov, S p) :: cmap w /\ length (nodes (forest w')) = S p /\
      forall n ts l e, has (forest w') n ts l e <-> has (forest w) n ts l e \/ new_phrase (s_i s) (s_j s) rs p b n ts l e) \/
   (exists t h, bits (s_cov s) <> empty /\ node_of (bits (s_cov s)) (cmap w) = Some (S t) /\
      ((node_of (bits cov) (cmap w) = Some (S h) /\ cmap w' = cmap w /\ length (nodes (forest w')) = S p) \/
       (node_of (bits cov) (cmap w) = None /\ h = S p /\ cmap w' = (bits cov, S h) :: cmap w /\ length (nodes (forest w')) = S (S p))) /\
      forall n ts l e, has (forest w') n ts l e <-> has (forest w) n ts l e \/ new_phrase (s_i s) (s_j s) rs p b n ts l e \/ (n = h /\ ts = [t; p] /\ l = Concat /\ e = b + length rs))).
Lemma apply_spec : forall s w v, state_ok s -> wf_hg (forest w) -> node_of (bits (s_cov s)) (cmap w) = Some v -> (v = 0 <-> bits (s_cov s) = empty) ->
  (forall C h, node_of C (cmap w) = Some (S h) -> h < length (nodes (forest w))) -> (forall C, node_of C (cmap w) = Some 0 -> C = empty) ->
  (data (s_fst s) = None /\ apply_phrases D kNT root s w = Some w) \/
  (exists rs cov w', data (s_fst s) = Some rs /\ bits cov = covered (bits (s_cov s)) (s_i s) (s_j s) /\ first_gap cov = leading (bits cov) /\
    apply_phrases D kNT root s w = Some w' /\ queue w' = queue (EnqueuePossibleContinuations D root cov w) /\ ucs w' = ucs (EnqueuePossibleContinuations D root cov w) /\ applied_to s cov rs w w').
Proof.
  intros s w v SO WF NV V0 CB C0. unfold apply_phrases. destruct (data (s_fst s)) as [rs|] eqn:DT; [right|left; split; reflexivity]. destruct (so_data s rs SO DT) as (LT & _). pose proof (so_le s SO) as LE.
  destruct (so_start s SO) as (gap & FO & G1 & _). destruct (cover_ok (s_i s) (s_j s) (s_cov s) gap) as (cov & CV & BC & FG); [rewrite (so_len s SO); lia|exact (so_gap s SO)|exact FO|exact G1|]. rewrite CV. cbn [bind].
  destruct (enq_spec cov w FG) as (EC & EF & _). set (w1 := EnqueuePossibleContinuations D root cov w) in *. rewrite EC, EF.
  destruct (node_has (forest w) kNT WF) as (g1 & A1 & W1 & L1 & E1 & H1). rewrite A1. cbn [bind]. destruct (phrases_has (s_i s) (s_j s) rs (length (nodes (forest w))) g1 W1 ltac:(lia)) as (g2 & A2 & W2 & L2 & E2 & H2). rewrite A2. cbn [bind]. rewrite NV. cbn [bind]. rewrite E1 in *.
  assert (CNE : bits cov <> empty) by (rewrite BC; apply covered_not_empty; rewrite (so_len s SO); lia).
  destruct v as [|t].
  - eexists rs, cov, _. split; [reflexivity|]. split; [exact BC|]. split; [exact FG|]. split; [reflexivity|]. cbn [queue ucs]. split; [reflexivity|]. split; [reflexivity|]. split; [exact W2|]. left. cbn [cmap forest]. split; [apply V0; reflexivity|]. split; [reflexivity|]. split; [lia|]. intros n ts l e. rewrite H2, H1. reflexivity.
  - assert (BE : bits (s_cov s) <> empty) by (intros Q; apply V0 in Q; discriminate). assert (TB : t < length (nodes (forest w))) by exact (CB _ _ NV).
    destruct (node_of (bits cov) (cmap w)) as [[|h]|] eqn:NC; [exfalso; apply CNE; exact (C0 _ NC)| |].
    + cbn [bind]. assert (HB : h < length (nodes (forest w))) by exact (CB _ _ NC). destruct (edge_has g2 [t; length (nodes (forest w))] Concat h W2) as (g4 & g5 & A4 & A5 & W5 & L5 & E5 & H5); [intros x [<-|[<-|[]]]; lia|lia|]. rewrite A4. cbn [bind]. rewrite A5. cbn [bind].
      eexists rs, cov, _. split; [reflexivity|]. split; [exact BC|]. split; [exact FG|]. split; [reflexivity|]. cbn [queue ucs]. split; [reflexivity|]. split; [reflexivity|]. split; [exact W5|]. right. exists t, h. cbn [cmap forest]. split; [exact BE|]. split; [exact NV|]. split; [left; split; [exact NC|split; [reflexivity|lia]]|].
      intros n ts l e. rewrite H5, H2, H1, E2. tauto.
    + destruct (node_has g2 kNT W2) as (g3 & A3 & W3 & L3 & E3 & H3). rewrite A3. cbn [bind]. destruct (edge_has g3 [t; length (nodes (forest w))] Concat (length (nodes g2)) W3) as (g4 & g5 & A4 & A5 & W5 & L5 & E5 & H5); [intros x [<-|[<-|[]]]; lia|lia|]. rewrite A4. cbn [bind]. rewrite A5. cbn [bind].
      eexists rs, cov, _. split; [reflexivity|]. split; [exact BC|]. split; [exact FG|]. split; [reflexivity|]. cbn [queue ucs]. split; [reflexivity|]. split; [reflexivity|]. split; [exact W5|]. right. exists t, (length (nodes g2)). cbn [cmap forest]. split; [exact BE|]. split; [exact NV|]. split; [right; split; [exact NC|split; [lia|split; [reflexivity|lia]]]|].
      intros n ts l e. rewrite H5, H3, H2, H1, E3, E2. tauto.
Qed.
(** ** Extensions *)
Definition next (s : state (R := R)) (d : nat) (k : trie R) : state (R := R) := {| s_cov := s_cov s; s_i := s_i s; s_j := s_j s + d; s_fst := k |}.
Lemma extend_spec : forall s arcs, state_ok s -> (forall w d, In (w, d) arcs -> s_j s + d <= length lat) -> forall q,
  exists new, extend_all s arcs q = Some (q ++ new) /\ length new <= length arcs /\
    (forall x, In x new <-> exists w d k, In (w, d) arcs /\ Extend (s_fst s) w = Some k /\ all_open (bits (s_cov s)) (s_i s) (s_j s + d) /\ x = next s d k).
Proof.
  intros s arcs SO. pose proof (so_le s SO) as LE. induction arcs as [|[w d] arcs IH]; intros B q; cbn [extend_all].
  - exists []. rewrite app_nil_r. split; [reflexivity|]. split; [cbn; lia|]. intros x. split; [intros []|intros (w & d & k & [] & _)].
  - assert (B' : forall w d, In (w, d) arcs -> s_j s + d <= length lat) by (intros w0 d0 I; apply (B w0 d0); right; exact I). destruct (Extend (s_fst s) w) as [k|] eqn:EX.
    + assert (BD := B w d (or_introl eq_refl)). destruct (collides_ok (s_i s) (s_j s + d) (s_cov s)) as (b & CO & CI); [rewrite (so_len s SO); lia|]. rewrite CO. cbn [bind]. destruct b.
      * destruct (IH B' q) as (new & E & LN & IN). exists new. split; [exact E|]. split; [cbn [length]; lia|]. intros x. rewrite IN. split; [intros (w0 & d0 & k0 & I & Q); exists w0, d0, k0; split; [right; exact I|exact Q]|].
        intros (w0 & d0 & k0 & [I|I] & Q1 & Q2 & Q3); [|exists w0, d0, k0; auto]. injection I as -> ->. assert (true = false) by (apply CI; exact Q2). discriminate.
      * destruct (IH B' (q ++ [next s d k])) as (new & E & LN & IN). exists (next s d k :: new). split; [unfold next in E at 1; rewrite E; rewrite <- app_assoc; reflexivity|]. split; [cbn [length]; lia|]. intros x. cbn [In]. rewrite IN. split.
        -- intros [<-|(w0 & d0 & k0 & I & Q)]; [exists w, d, k; split; [left; reflexivity|]; split; [exact EX|]; split; [apply CI; reflexivity|reflexivity]|exists w0, d0, k0; auto].
        -- intros (w0 & d0 & k0 & [I|I] & Q1 & Q2 & Q3); [injection I as -> ->; rewrite EX in Q1; injection Q1 as <-; left; symmetry; exact Q3|right; exists w0, d0, k0; auto].
    + destruct (IH B' q) as (new & E & LN & IN). exists new. split; [exact E|]. split; [cbn [length]; lia|]. intros x. rewrite IN. split; [intros (w0 & d0 & k0 & I & Q); exists w0, d0, k0; split; [right; exact I|exact Q]|].
      intros (w0 & d0 & k0 & [I|I] & Q1 & Q2 & Q3); [injection I as -> ->; congruence|exists w0, d0, k0; auto].
Qed.
Lemma next_ok : forall s arcs w d k, state_ok s -> nth_error lat (s_j s) = Some arcs -> In (w, d) arcs -> Extend (s_fst s) w = Some k -> all_open (bits (s_cov s)) (s_i s) (s_j s + d) -> state_ok (next s d k).
Proof.
  intros s arcs w d k [A1 A2 A3 A4 A5 (ws & SP & WK)] N I E O. split; cbn [s_cov s_i s_j s_fst next]; try assumption. exists (ws ++ [w]). split; [apply (spells_snoc _ _ _ SP arcs); assumption|]. rewrite walk_app, WK. cbn [walk]. rewrite E. reflexivity.
Qed.

(** ** The invariant *)
Inductive nk := PhraseN (i j : nat) | CovN (C : list bool).
Definition ok_edge (ks : list nk) (n : nat) (ts : list nat) (l : L) : Prop :=
  match l with
  | Phrase i j r => ts = [] /\ usable i j r /\ (nth_error ks n = Some (PhraseN i j) \/ (nth_error ks n = Some (CovN (covered empty i j)) /\ start_ok empty i /\ all_open empty i j))
  | Concat => exists a b C i j, ts = [a; b] /\ nth_error ks a = Some (CovN C) /\ nth_error ks b = Some (PhraseN i j) /\ nth_error ks n = Some (CovN (covered C i j)) /\ start_ok C i /\ all_open C i j /\ i < j
  | GoalRule => False
  end.
Record Inv (w : work (R := R)) (ks : list nk) : Prop := {
  v_wf : wf_hg (forest w);
  v_len : length ks = length (nodes (forest w));
  v_ok : forall n ts l e, has (forest w) n ts l e -> ok_edge ks n ts l;
  v_c : forall C n, node_of C (cmap w) = Some (S n) -> nth_error ks n = Some (CovN C) /\ C <> empty;
  v_c0 : forall C, node_of C (cmap w) = Some 0 <-> C = empty;
  v_u : forall C, In C (ucs w) -> (exists v, node_of C (cmap w) = Some v) /\ length C = length lat;
  v_q : forall s, In s (queue w) -> state_ok s /\ In (bits (s_cov s)) (ucs w)
}.
Lemma ok_grow : forall ks x n ts l, ok_edge ks n ts l -> ok_edge (ks ++ x) n ts l.
Proof.
  intros ks x n ts l H. assert (G : forall a k, nth_error ks a = Some k -> nth_error (ks ++ x) a = Some k) by (intros a k N; rewrite nth_error_app1 by (apply nth_error_Some; congruence); exact N).
  destruct l as [i j r| |]; cbn in *; [|destruct H as (a & b & C & i & j & H1 & H2 & H3 & H4 & H5); exists a, b, C, i, j; auto 10|exact H].
  destruct H as (A & B & [C|(C & E)]); (split; [exact A|]; split; [exact B|]); [left; auto|right; auto].
Qed.
Lemma node_cons : forall C k v m, node_of C ((k, v) :: m) = if same k C then Some v else node_of C m.
Proof. reflexivity. Qed.
Definition queue_after (s : state (R := R)) (cov : coverage) (w w' : work (R := R)) : Prop :=
  queue w' = queue (EnqueuePossibleContinuations D root cov w) /\ ucs w' = ucs (EnqueuePossibleContinuations D root cov w).
Lemma inv_apply : forall s cov rs w w' ks, Inv w ks -> state_ok s -> In (bits (s_cov s)) (ucs w) -> data (s_fst s) = Some rs ->
  bits cov = covered (bits (s_cov s)) (s_i s) (s_j s) -> first_gap cov = leading (bits cov) -> queue_after s cov w w' -> applied_to s cov rs w w' ->
  exists ks', Inv w' ks' /\ (exists x, ks' = ks ++ x) /\
    ((bits (s_cov s) = empty /\ ks' = ks ++ [CovN (bits cov)]) \/ (bits (s_cov s) <> empty /\ ((exists h, node_of (bits cov) (cmap w) = Some (S h) /\ ks' = ks ++ [PhraseN (s_i s) (s_j s)]) \/ (node_of (bits cov) (cmap w) = None /\ ks' = ks ++ [PhraseN (s_i s) (s_j s); CovN (bits cov)])))).
Proof.
  intros s cov rs w w' ks IV SO IU DT BC FG (QA & UA) (WF' & CASES). destruct (so_data s rs SO DT) as (LT & ws & SP & _ & -> & _). pose proof (so_le s SO) as LE. pose proof (so_len s SO) as LB.
  assert (CNE : bits cov <> empty) by (rewrite BC; apply covered_not_empty; lia). assert (CL : length (bits cov) = length lat) by (rewrite BC, covered_len; exact LB).
  assert (US : forall r, In r (rules table ws) -> usable (s_i s) (s_j s) r) by (intros r I; exists ws; split; [exact SP|apply rules_in; exact I]).
  destruct (enq_spec cov w FG) as (EC & EF & EQ).
  assert (VQ : forall x, In x (queue w') -> state_ok x /\ In (bits (s_cov x)) (ucs w')).
  { intros x I. rewrite QA in I. rewrite UA. destruct EQ as [(_ & EQ)|(_ & EU & EQ)].
    - rewrite EQ in *. exact (v_q w ks IV x I).
    - rewrite EQ in I. rewrite EU. apply in_app_or in I as [I|I]; [destruct (v_q w ks IV x I) as [A B]; split; [exact A|right; exact B]|]. apply in_map_iff in I as (i & <- & I). split; [apply start_state; assumption|left; reflexivity]. }
  assert (UI : forall C, In C (ucs w') -> In C (ucs w) \/ C = bits cov). { intros C I. rewrite UA in I. destruct EQ as [(_ & EQ)|(_ & EU & _)]; [rewrite EQ in I; auto|]. rewrite EU in I. destruct I as [<-|I]; auto. }
  assert (LK := v_len w ks IV).
  assert (ND : forall k x, nth_error (ks ++ x) (length (nodes (forest w)) + k) = nth_error x k) by (intros k x; rewrite nth_error_app2 by lia; f_equal; lia).
  assert (N0 : forall x, nth_error (ks ++ x) (length (nodes (forest w))) = nth_error x 0) by (intros x; rewrite <- (ND 0 x); f_equal; lia).
  assert (N1 : forall x, nth_error (ks ++ x) (S (length (nodes (forest w)))) = nth_error x 1) by (intros x; rewrite <- (ND 1 x); f_equal; lia).
  assert (G : forall x a k, nth_error ks a = Some k -> nth_error (ks ++ x) a = Some k) by (intros x a k N; rewrite nth_error_app1 by (apply nth_error_Some; congruence); exact N).
  destruct CASES as [(BE & CM & LN & HS)|(t & h & BE & NT & HC & HS)].
  - exists (ks ++ [CovN (bits cov)]). split; [|split; [eexists; reflexivity|left; split; [exact BE|reflexivity]]]. constructor.
    + exact WF'.
    + rewrite app_length. cbn [length]. lia.
    + intros n ts l e H. apply HS in H as [H|(-> & -> & k & r & N & -> & ->)]; [apply ok_grow; exact (v_ok w ks IV n ts l e H)|]. cbn. split; [reflexivity|]. split; [apply US; eapply nth_error_In; exact N|]. right. rewrite N0. cbn. rewrite BC, BE. split; [reflexivity|]. rewrite <- BE. split; [exact (so_start s SO)|exact (so_open s SO)].
    + intros C n. rewrite CM, node_cons. destruct (same (bits cov) C) eqn:Q; [apply same_ok in Q; subst C; intros X; injection X as <-; rewrite N0; split; [reflexivity|exact CNE]|]. intros X. destruct (v_c w ks IV C n X) as [A B]. split; [apply G; exact A|exact B].
    + intros C. rewrite CM, node_cons. destruct (same (bits cov) C) eqn:Q; [apply same_ok in Q; subst C; split; [discriminate|intros; contradiction]|]. exact (v_c0 w ks IV C).
    + intros C I. rewrite CM, node_cons. destruct (same (bits cov) C) eqn:Q; [apply same_ok in Q; subst C; split; [eexists; reflexivity|exact CL]|]. destruct (UI C I) as [J| ->]; [exact (v_u w ks IV C J)|]. rewrite (proj2 (same_ok _ _) eq_refl) in Q. discriminate.
    + exact VQ.
  - destruct (v_c w ks IV _ _ NT) as [KT _].
    assert (OKN : forall x k n ts l e, nth_error x 0 = Some (PhraseN (s_i s) (s_j s)) -> nth_error (ks ++ x) h = Some (CovN (bits cov)) -> k = ks ++ x -> has (forest w') n ts l e -> ok_edge k n ts l).
    { intros x k n ts l e X0 XH -> H. apply HS in H as [H|[(-> & -> & k & r & N & -> & ->)|(-> & -> & -> & ->)]].
      - apply ok_grow. exact (v_ok w ks IV n ts l e H).
      - cbn. split; [reflexivity|]. split; [apply US; eapply nth_error_In; exact N|]. left. rewrite N0. exact X0.
      - exists t, (length (nodes (forest w))), (bits (s_cov s)), (s_i s), (s_j s). split; [reflexivity|]. split; [apply G; exact KT|]. split; [rewrite N0; exact X0|]. split; [rewrite XH, BC; reflexivity|]. split; [exact (so_start s SO)|]. split; [exact (so_open s SO)|exact LT]. }
    destruct HC as [(NC & CM & LN)|(NC & -> & CM & LN)].
    + destruct (v_c w ks IV _ _ NC) as [KH _]. exists (ks ++ [PhraseN (s_i s) (s_j s)]). split; [|split; [eexists; reflexivity|right; split; [exact BE|left; exists h; split; [exact NC|reflexivity]]]]. constructor.
      * exact WF'.
      * rewrite app_length. cbn [length]. lia.
      * intros n ts l e H. exact (OKN [PhraseN (s_i s) (s_j s)] _ n ts l e eq_refl (G _ _ _ KH) eq_refl H).
      * intros C n X. rewrite CM in X. destruct (v_c w ks IV C n X) as [A B]. split; [apply G; exact A|exact B].
      * intros C. rewrite CM. exact (v_c0 w ks IV C).
      * intros C I. rewrite CM. destruct (UI C I) as [J| ->]; [exact (v_u w ks IV C J)|]. split; [eexists; exact NC|exact CL].
      * exact VQ.
    + exists (ks ++ [PhraseN (s_i s) (s_j s); CovN (bits cov)]). split; [|split; [eexists; reflexivity|right; split; [exact BE|right; split; [exact NC|reflexivity]]]]. constructor.
      * exact WF'.
      * rewrite app_length. cbn [length]. lia.
      * intros n ts l e H. refine (OKN [PhraseN (s_i s) (s_j s); CovN (bits cov)] _ n ts l e eq_refl _ eq_refl H). rewrite N1. reflexivity.
      * intros C n. rewrite CM, node_cons. destruct (same (bits cov) C) eqn:Q; [apply same_ok in Q; subst C; intros X; injection X as <-; rewrite N1; split; [reflexivity|exact CNE]|]. intros X. destruct (v_c w ks IV C n X) as [A B]. split; [apply G; exact A|exact B].
      * intros C. rewrite CM, node_cons. destruct (same (bits cov) C) eqn:Q; [apply same_ok in Q; subst C; split; [discriminate|intros; contradiction]|]. exact (v_c0 w ks IV C).
      * intros C I. rewrite CM, node_cons. destruct (same (bits cov) C) eqn:Q; [apply same_ok in Q; subst C; split; [eexists; reflexivity|exact CL]|]. destruct (UI C I) as [J| ->]; [exact (v_u w ks IV C J)|]. rewrite (proj2 (same_ok _ _) eq_refl) in Q. discriminate.
      * exact VQ.
Qed.

(** ** A step of the loop *)
Definition popped (w : work (R := R)) (q : list (state (R := R))) : work := {| queue := q; ucs := ucs w; cmap := cmap w; forest := forest w |}.
Definition width : nat := list_max (map (@length (Z * nat)) lat).
Definition kinds (s : state (R := R)) (cov : coverage) (w : work (R := R)) (ks ks' : list nk) : Prop :=
  (bits (s_cov s) = empty /\ ks' = ks ++ [CovN (bits cov)]) \/
  (bits (s_cov s) <> empty /\ ((exists h, node_of (bits cov) (cmap w) = Some (S h) /\ ks' = ks ++ [PhraseN (s_i s) (s_j s)]) \/ (node_of (bits cov) (cmap w) = None /\ ks' = ks ++ [PhraseN (s_i s) (s_j s); CovN (bits cov)]))).
Definition stepped (s : state (R := R)) (q : list (state (R := R))) (w : work (R := R)) (ks : list nk) (w' : work (R := R)) (ks' : list nk) : Prop :=
  exists w1 new, w' = {| queue := queue w1 ++ new; ucs := ucs w1; cmap := cmap w1; forest := forest w1 |} /\ length new <= width /\ (s_j s = length lat -> new = []) /\
    (forall x, In x new <-> exists arcs v d k, nth_error lat (s_j s) = Some arcs /\ In (v, d) arcs /\ Extend (s_fst s) v = Some k /\ all_open (bits (s_cov s)) (s_i s) (s_j s + d) /\ x = next s d k) /\
    ((data (s_fst s) = None /\ w1 = popped w q /\ ks' = ks) \/
     (exists rs cov, data (s_fst s) = Some rs /\ bits cov = covered (bits (s_cov s)) (s_i s) (s_j s) /\ first_gap cov = leading (bits cov) /\ queue_after s cov (popped w q) w1 /\ applied_to s cov rs (popped w q) w1 /\ kinds s cov w ks ks')).
Lemma width_le : forall i arcs, nth_error lat i = Some arcs -> length arcs <= width.
Proof.
  intros i arcs N. unfold width. assert (F : Forall (fun k => k <= list_max (map (@length (Z * nat)) lat)) (map (@length (Z * nat)) lat)) by (apply list_max_le; lia). rewrite Forall_forall in F. apply F. apply in_map. eapply nth_error_In. exact N.
Qed.
Lemma inv_popped : forall w ks s q, Inv w ks -> queue w = s :: q -> Inv (popped w q) ks.
Proof. intros w ks s q [A1 A2 A3 A4 A5 A6 A7] Q. constructor; try assumption. intros x I. apply A7. rewrite Q. right. exact I. Qed.
Lemma step_spec : forall w ks s q, Inv w ks -> queue w = s :: q -> exists w' ks', (forall f, loop D kNT lat root (S f) w = loop D kNT lat root f w') /\ stepped s q w ks w' ks' /\ Inv w' ks'.
Proof.
  intros w ks s q IV Q. destruct (v_q w ks IV s) as [SO IU]; [rewrite Q; left; reflexivity|]. pose proof (inv_popped w ks s q IV Q) as IP. set (w0 := popped w q) in *.
  destruct (v_u w ks IV _ IU) as ((v & NV) & _).
  assert (V0 : v = 0 <-> bits (s_cov s) = empty). { rewrite <- (v_c0 w ks IV). rewrite NV. split; [intros ->; reflexivity|intros X; injection X; auto]. }
  assert (CB : forall C h, node_of C (cmap w0) = Some (S h) -> h < length (nodes (forest w0))). { intros C h N. destruct (v_c _ _ IP C h N) as [K _]. rewrite <- (v_len _ _ IP). apply nth_error_Some. congruence. }
  assert (AP : exists w1 ks', apply_phrases D kNT root s w0 = Some w1 /\ Inv w1 ks' /\ ((data (s_fst s) = None /\ w1 = w0 /\ ks' = ks) \/
     (exists rs cov, data (s_fst s) = Some rs /\ bits cov = covered (bits (s_cov s)) (s_i s) (s_j s) /\ first_gap cov = leading (bits cov) /\ queue_after s cov w0 w1 /\ applied_to s cov rs w0 w1 /\ kinds s cov w ks ks')) /\ (forall C, In C (ucs w) -> In C (ucs w1))).
  { destruct (apply_spec s w0 v SO (v_wf _ _ IP) NV V0 CB (fun C H => proj1 (v_c0 _ _ IP C) H)) as [[DN E]|(rs & cov & w1 & DS & BC & FG & E & QA & UA & AT)].
    - exists w0, ks. split; [exact E|]. split; [exact IP|]. split; [left; auto|]. auto.
    - destruct (inv_apply s cov rs w0 w1 ks IP SO IU DS BC FG (conj QA UA) AT) as (ks' & I' & _ & KD). exists w1, ks'. split; [exact E|]. split; [exact I'|]. split; [right; exists rs, cov; split; [exact DS|]; split; [exact BC|]; split; [exact FG|]; split; [split; assumption|]; split; [exact AT|exact KD]|].
      intros C I. rewrite UA. destruct (enq_spec cov w0 FG) as (_ & _ & [(_ & X)|(_ & X & _)]); [rewrite X; exact I|rewrite X; right; exact I]. }
  destruct AP as (w1 & ks' & E & I1 & KD & UM). 
  assert (EXT : exists new, (forall f, loop D kNT lat root (S f) w = loop D kNT lat root f {| queue := queue w1 ++ new; ucs := ucs w1; cmap := cmap w1; forest := forest w1 |}) /\ length new <= width /\ (s_j s = length lat -> new = []) /\
    (forall x, In x new <-> exists arcs v d k, nth_error lat (s_j s) = Some arcs /\ In (v, d) arcs /\ Extend (s_fst s) v = Some k /\ all_open (bits (s_cov s)) (s_i s) (s_j s + d) /\ x = next s d k)).
  { pose proof (so_le s SO) as LE. destruct (Nat.eqb_spec (s_j s) (length lat)) as [JE|JN].
    - exists []. split; [intros f; cbn [loop]; rewrite Q; change {| queue := q; ucs := ucs w; cmap := cmap w; forest := forest w |} with w0; rewrite E; cbn [bind]; rewrite (proj2 (Nat.eqb_eq _ _) JE); rewrite app_nil_r; destruct w1; reflexivity|]. split; [cbn; lia|]. split; [reflexivity|].
      intros x. split; [intros []|intros (arcs & _ & _ & _ & N & _)]. rewrite (proj2 (nth_error_None _ _)) in N by lia. discriminate.
    - destruct (nth_error lat (s_j s)) as [arcs|] eqn:NA; [|apply nth_error_None in NA; lia]. destruct (extend_spec s arcs SO (fun v0 d I => proj2 (FW _ _ _ _ NA I)) (queue w1)) as (new & EX & LN & IN). exists new.
      split; [intros f; cbn [loop]; rewrite Q; change {| queue := q; ucs := ucs w; cmap := cmap w; forest := forest w |} with w0; rewrite E; cbn [bind]; rewrite (proj2 (Nat.eqb_neq _ _) JN), NA; cbn [bind]; rewrite EX; reflexivity|].
      split; [pose proof (width_le _ _ NA); lia|]. split; [intros X; contradiction|]. intros x. rewrite IN. split; [intros (v0 & d & k & X); exists arcs, v0, d, k; split; [reflexivity|exact X]|]. intros (arcs' & v0 & d & k & X & Y). injection X as <-. exists v0, d, k. exact Y. }
  destruct EXT as (new & LE & LN & NJ & IN). eexists _, ks'. split; [exact LE|]. split; [exists w1, new; split; [reflexivity|]; split; [exact LN|]; split; [exact NJ|]; split; [exact IN|exact KD]|].
  destruct I1 as [A1 A2 A3 A4 A5 A6 A7]. constructor; try assumption. cbn [queue ucs]. intros x I. apply in_app_or in I as [I|I]; [exact (A7 x I)|]. apply IN in I as (arcs & v0 & d & k & N & I & EX & AO & ->). split; [apply (next_ok s arcs v0 d k SO N I EX AO)|]. cbn [s_cov next]. apply UM. exact IU.
Qed.

(** ** The loop ends *)
Fixpoint all_bits (n : nat) : list (list bool) := match n with O => [[]] | S n' => map (cons true) (all_bits n') ++ map (cons false) (all_bits n') end.
Lemma all_bits_in : forall C, In C (all_bits (length C)).
Proof. induction C as [|b C IH]; cbn [length all_bits]; [left; reflexivity|]. apply in_or_app. destruct b; [left|right]; apply in_map; exact IH. Qed.
Definition unseen (U : list (list bool)) : nat := length (filter (fun C => negb (existsb (same C) U)) (all_bits (length lat))).
Lemma filter_less : forall (A : Type) (f g : A -> bool) l, (forall x, g x = true -> f x = true) -> length (filter g l) <= length (filter f l) /\ (forall x, In x l -> f x = true -> g x = false -> length (filter g l) < length (filter f l)).
Proof.
  intros A f g l GF. induction l as [|a l [IH1 IH2]]; [split; [cbn; lia|intros x []]|]. cbn [filter]. split.
  - destruct (g a) eqn:GA; [rewrite (GF a GA); cbn [length]; lia|]. destruct (f a); cbn [length]; lia.
  - intros x [->|I] F G; [rewrite F, G; cbn [length]; lia|]. specialize (IH2 x I F G). destruct (g a) eqn:GA; [rewrite (GF a GA); cbn [length]; lia|]. destruct (f a); cbn [length]; lia.
Qed.
Lemma unseen_cons : forall C U, length C = length lat -> ~ In C U -> unseen (C :: U) < unseen U.
Proof.
  intros C U LC NI. unfold unseen. refine (proj2 (filter_less _ _ _ _ _) C _ _ _).
  - intros x H. cbn [existsb] in H. destruct (existsb (same x) U); [rewrite orb_true_r in H; discriminate|reflexivity].
  - rewrite <- LC. apply all_bits_in.
  - destruct (existsb (same C) U) eqn:E; [apply existsb_same in E; contradiction|reflexivity].
  - cbn [existsb]. rewrite (proj2 (same_ok C C) eq_refl). reflexivity.
Qed.
Definition cost (s : state (R := R)) : nat := S width ^ (length lat - s_j s).
Definition pot (w : work (R := R)) : nat := unseen (ucs w) * (length lat * S width ^ length lat) + list_sum (map cost (queue w)).
Lemma sum_bound : forall (A : Type) (f : A -> nat) b l, (forall x, In x l -> f x <= b) -> list_sum (map f l) <= length l * b.
Proof. intros A f b l. induction l as [|a l IH]; intros H; cbn [map length]; [cbn; lia|]. change (list_sum (f a :: map f l)) with (f a + list_sum (map f l)). specialize (IH (fun x I => H x (or_intror I))). specialize (H a (or_introl eq_refl)). nia. Qed.
Lemma starts_len : forall C, length (starts C) <= length C.
Proof. intros C. unfold starts. etransitivity; [apply (proj1 (filter_less _ (fun _ => true) _ _ (fun _ _ => eq_refl)))|]. assert (E : forall l : list nat, filter (fun _ => true) l = l) by (induction l as [|a l IH]; cbn; [|rewrite IH]; reflexivity). rewrite E, seq_length. lia. Qed.
Lemma pot_less : forall w ks s q w' ks', Inv w ks -> queue w = s :: q -> stepped s q w ks w' ks' -> pot w' < pot w.
Proof.
  intros w ks s q w' ks' IV Q (w1 & new & -> & LN & NJ & IN & KD). destruct (v_q w ks IV s) as [SO IU]; [rewrite Q; left; reflexivity|]. pose proof (so_le s SO) as LE.
  assert (NEW : list_sum (map cost new) < cost s).
  { destruct (Nat.eq_dec (s_j s) (length lat)) as [JE|JN]; [rewrite (NJ JE); cbn [map list_sum]; unfold cost; pose proof (Nat.pow_nonzero (S width) (length lat - s_j s)); change (list_sum []) with 0; lia|].
    assert (B : forall x, In x new -> cost x <= S width ^ (length lat - S (s_j s))).
    { intros x I. apply IN in I as (arcs & v & d & k & N & I & _ & _ & ->). destruct (FW _ _ _ _ N I) as [P _]. unfold cost. cbn [s_j next]. apply Nat.pow_le_mono_r; lia. }
    pose proof (sum_bound _ cost _ new B) as SB. unfold cost at 2. replace (length lat - s_j s) with (S (length lat - S (s_j s))) by lia. cbn [Nat.pow]. pose proof (Nat.pow_nonzero (S width) (length lat - S (s_j s))) as NZ. set (z := S width ^ (length lat - S (s_j s))) in *. assert (z <> 0) by (apply NZ; lia). nia. }
  unfold pot. cbn [ucs queue]. rewrite Q, map_app, list_sum_app. cbn [map]. change (list_sum (cost s :: map cost q)) with (cost s + list_sum (map cost q)).
  destruct KD as [(_ & -> & _)|(rs & cov & DS & BC & FG & (QA & UA) & _)]; [cbn [ucs queue popped]; lia|]. rewrite QA, UA. destruct (enq_spec cov (popped w q) FG) as (_ & _ & [(_ & X)|(NI & XU & XQ)]); [rewrite X; cbn [ucs queue popped]; lia|]. rewrite XU, XQ. cbn [ucs queue popped] in *.
  assert (CL : length (bits cov) = length lat) by (rewrite BC, covered_len; exact (so_len s SO)). pose proof (unseen_cons _ _ CL NI) as UL. rewrite map_app, list_sum_app.
  assert (ST : list_sum (map cost (map (at_start cov) (starts (bits cov)))) <= length lat * S width ^ length lat).
  { etransitivity; [apply (sum_bound _ cost (S width ^ length lat))|]; [intros x I; apply in_map_iff in I as (i & <- & _); unfold cost; apply Nat.pow_le_mono_r; lia|]. rewrite map_length. apply Nat.mul_le_mono_r. rewrite <- CL. apply starts_len. }
  set (B := length lat * S width ^ length lat) in *. set (u := unseen (bits cov :: ucs w)) in *. set (u0 := unseen (ucs w)) in *. assert (u * B + B <= u0 * B) by nia. lia.
Qed.
Lemma loop_ok : forall (I : work (R := R) -> list nk -> Prop), (forall w ks, I w ks -> Inv w ks) -> (forall w ks s q w' ks', I w ks -> queue w = s :: q -> stepped s q w ks w' ks' -> Inv w' ks' -> I w' ks') ->
  forall m w ks, I w ks -> pot w <= m -> forall fuel, m <= fuel -> exists w' ks', loop D kNT lat root fuel w = Some w' /\ I w' ks' /\ queue w' = [].
Proof.
  intros I II IS. induction m as [|m IH]; intros w ks H P fuel F; (destruct (queue w) as [|s q] eqn:Q; [exists w, ks; split; [destruct fuel; cbn [loop]; rewrite Q; reflexivity|auto]|]); destruct (step_spec w ks s q (II w ks H) Q) as (w' & ks' & LS & ST & I'); pose proof (pot_less w ks s q w' ks' (II w ks H) Q ST) as PL; [lia|].
  destruct fuel as [|fuel]; [lia|]. rewrite LS. apply (IH w' ks'); [exact (IS w ks s q w' ks' H Q ST I')|lia|lia].
Qed.
Definition first : work (R := R) := EnqueuePossibleContinuations D root {| bits := empty; first_gap := 0 |} {| queue := []; ucs := []; cmap := [(empty, 0)]; forest := empty_hg |}.
Lemma first_is : queue first = map (at_start {| bits := empty; first_gap := 0 |}) (starts empty) /\ ucs first = [empty] /\ cmap first = [(empty, 0)] /\ forest first = empty_hg.
Proof.
  unfold first. destruct (enq_spec {| bits := empty; first_gap := 0 |} {| queue := []; ucs := []; cmap := [(empty, 0)]; forest := empty_hg |}) as (A & B & [(X & _)|(_ & X & Y)]); [cbn; unfold empty; destruct (length lat); reflexivity|destruct X|]. rewrite A, B, X, Y. split; [reflexivity|]. split; [reflexivity|]. split; reflexivity.
Qed.
Lemma first_inv : Inv first [].
Proof.
  destruct first_is as (Q & U & C & F). constructor.
  - rewrite F. constructor; cbn; intros; try (match goal with H : nth_error [] ?k = Some _ |- _ => destruct k; discriminate end).
  - rewrite F. reflexivity.
  - intros n ts l e (nd & ed & N & _). rewrite F in N. destruct n; discriminate.
  - intros X n. rewrite C. cbn [node_of]. destruct (same empty X); discriminate.
  - intros X. rewrite C. cbn [node_of]. destruct (same empty X) eqn:S; [apply same_ok in S; subst X; split; reflexivity|]. split; [discriminate|]. intros ->. rewrite (proj2 (same_ok _ _) eq_refl) in S. discriminate.
  - intros X I. rewrite U in I. destruct I as [<-|[]]. rewrite C. cbn [node_of]. rewrite (proj2 (same_ok _ _) eq_refl). split; [eexists; reflexivity|]. unfold empty. apply repeat_length.
  - intros s I. rewrite Q in I. rewrite U. apply in_map_iff in I as (i & <- & I). split; [|left; reflexivity]. apply start_state; [unfold empty; apply repeat_length|cbn; unfold empty; destruct (length lat); reflexivity|exact I].
Qed.

(** ** Sentences *)
Hypothesis SN : exists words, lat = sentence words.
Lemma one_arc : forall i arcs, nth_error lat i = Some arcs -> exists v, arcs = [(v, 1)].
Proof. intros i arcs N. destruct SN as (words & ->). unfold sentence in N. rewrite nth_error_map in N. destruct (nth_error words i) as [v|]; [|discriminate]. injection N as <-. exists v. reflexivity. Qed.
Lemma arc_one : forall i arcs v d, nth_error lat i = Some arcs -> In (v, d) arcs -> d = 1 /\ arcs = [(v, 1)].
Proof. intros i arcs v d N I. destruct (one_arc i arcs N) as (v' & ->). destruct I as [I|[]]. injection I as -> <-. split; reflexivity. Qed.
Lemma width_one : width <= 1.
Proof. unfold width. apply list_max_le. apply Forall_forall. intros k I. apply in_map_iff in I as (arcs & <- & I). apply In_nth_error in I as (i & N). destruct (one_arc i arcs N) as (v & ->). cbn. lia. Qed.
Lemma spells_fun : forall i ws j, spells lat i ws j -> forall ws', spells lat i ws' j -> i <= length lat -> ws = ws'.
Proof.
  intros i ws j H. induction H as [i|i arcs w d ws j N I H IH]; intros ws' H' B.
  - inversion H' as [|i0 arcs w d us j0 N I H]; subst; [reflexivity|]. destruct (FW _ _ _ _ N I) as [P P']. destruct (spells_le _ _ _ H P'). lia.
  - destruct (FW _ _ _ _ N I) as [P P']. destruct (spells_le _ _ _ H P'). inversion H' as [|i0 arcs' w' d' us j0 N' I' H'']; subst; [lia|]. rewrite N in N'. injection N' as <-. destruct (arc_one _ _ _ _ N I) as [-> ->]. destruct I' as [I'|[]]. injection I' as <- <-. f_equal. apply IH; assumption.
Qed.
Lemma spells_split : forall i ws j, spells lat i ws j -> forall m, i <= m < j -> exists a v b arcs, ws = a ++ v :: b /\ spells lat i a m /\ nth_error lat m = Some arcs /\ In (v, 1) arcs.
Proof.
  intros i ws j H. induction H as [i|i arcs w d ws j N I H IH]; intros m B; [lia|]. destruct (arc_one _ _ _ _ N I) as [-> ->]. destruct (Nat.eq_dec m i) as [->|NM].
  - exists [], w, ws, [(w, 1)]. split; [reflexivity|]. split; [constructor|]. split; [exact N|left; reflexivity].
  - destruct (IH m ltac:(lia)) as (a & v & b & arcs & -> & S & N' & I'). exists (w :: a), v, b, arcs. split; [reflexivity|]. split; [eapply sp_arc; [exact N|exact I|exact S]|]. split; assumption.
Qed.
Lemma interval : forall n i j i' j', i < j <= n -> i' < j' <= n -> covered (repeat false n) i j = covered (repeat false n) i' j' -> i = i' /\ j = j'.
Proof.
  intros n i j i' j' B B' E. assert (P : forall m, m < n -> ((i <=? m) && (m <? j)) = ((i' <=? m) && (m <? j'))).
  { intros m LM. pose proof (covered_nth (repeat false n) i j m) as H. rewrite E, covered_nth in H. rewrite (empty_nth n m LM) in H. injection H as H. symmetry. exact H. }
  pose proof (P i ltac:(lia)) as P1. pose proof (P i' ltac:(lia)) as P2. pose proof (P (j - 1) ltac:(lia)) as P3. pose proof (P (j' - 1) ltac:(lia)) as P4.
  destruct (Nat.leb_spec i i), (Nat.ltb_spec i j), (Nat.leb_spec i' i), (Nat.ltb_spec i j'); try lia; try discriminate.
  destruct (Nat.leb_spec i i'), (Nat.ltb_spec i' j), (Nat.leb_spec i' i'), (Nat.ltb_spec i' j'); try lia; try discriminate.
  destruct (Nat.leb_spec i (j - 1)), (Nat.ltb_spec (j - 1) j), (Nat.leb_spec i' (j - 1)), (Nat.ltb_spec (j - 1) j'); try lia; try discriminate.
  destruct (Nat.leb_spec i (j' - 1)), (Nat.ltb_spec (j' - 1) j), (Nat.leb_spec i' (j' - 1)), (Nat.ltb_spec (j' - 1) j'); try lia; try discriminate.
Qed.
Lemma count_empty : count empty = 0.
Proof. unfold count, empty. induction (length lat) as [|n IH]; [reflexivity|exact IH]. Qed.
Definition weight (s : state (R := R)) : nat := count (bits (s_cov s)) + (s_j s - s_i s) + if same (bits (s_cov s)) empty then 0 else 1.
Definition level (m : nat) (s : state (R := R)) : Prop := weight s <= m /\ (bits (s_cov s) = empty -> s_j s - s_i s = m).
Definition key (s : state (R := R)) : list bool * nat := (bits (s_cov s), s_i s).
Definition applied (w : work (R := R)) (C : list bool) (i j : nat) (rs : list R) : Prop :=
  exists h, node_of (covered C i j) (cmap w) = Some (S h) /\ In (covered C i j) (ucs w) /\
    ((C = empty /\ forall r, In r rs -> exists e, has (forest w) h [] (Phrase i j r) e) \/
     (exists t p e, node_of C (cmap w) = Some (S t) /\ has (forest w) h [t; p] Concat e /\ forall r, In r rs -> exists e', has (forest w) p [] (Phrase i j r) e')).
Record Sent (w : work (R := R)) (ks : list nk) : Prop := {
  t_inv : Inv w ks;
  t_level : exists m q1 q2, queue w = q1 ++ q2 /\ Forall (level m) q1 /\ Forall (level (S m)) q2 /\
    forall C h, node_of C (cmap w) = Some (S h) -> count C < m \/ exists i j, i < j <= length lat /\ C = covered empty i j /\ forall s, In s (queue w) -> bits (s_cov s) = empty -> s_i s = i -> j < s_j s;
  t_key : NoDup (map key (queue w));
  t_cov : forall n C, nth_error ks n = Some (CovN C) -> node_of C (cmap w) = Some (S n);
  t_ph : NoDup table -> forall n ts ts' i j r e e', has (forest w) n ts (Phrase i j r) e -> has (forest w) n ts' (Phrase i j r) e' -> e = e';
  t_cc : forall n n' a b b' e e' i j, has (forest w) n [a; b] Concat e -> has (forest w) n' [a; b'] Concat e' -> nth_error ks b = Some (PhraseN i j) -> nth_error ks b' = Some (PhraseN i j) -> e = e';
  t_past : forall n a b e C i j, has (forest w) n [a; b] Concat e -> nth_error ks a = Some (CovN C) -> nth_error ks b = Some (PhraseN i j) -> In C (ucs w) /\ forall s, In s (queue w) -> bits (s_cov s) = C -> s_i s = i -> j < s_j s;
  t_done : forall C i j ws, In C (ucs w) -> start_ok C i -> i < j -> all_open C i j -> spells lat i ws j -> rules table ws <> [] ->
    (exists s, In s (queue w) /\ bits (s_cov s) = C /\ s_i s = i /\ s_j s <= j) \/ applied w C i j (rules table ws)
}.
Lemma pair_nodup : forall (C : list bool) (l : list nat), NoDup l -> NoDup (map (fun x => (C, x)) l).
Proof. intros C l N. induction N as [|i l A N IH]; [constructor|]. cbn [map]. constructor; [|exact IH]. intros I. apply in_map_iff in I as (i' & E & I). injection E as ->. contradiction. Qed.
Section Step.
Variables (w : work (R := R)) (ks : list nk) (s : state (R := R)) (q : list (state (R := R))) (w' : work (R := R)) (ks' : list nk).
Hypothesis SE : Sent w ks.
Hypothesis QU : queue w = s :: q.
Hypothesis ST : stepped s q w ks w' ks'.
Hypothesis I' : Inv w' ks'.
Let IV : Inv w ks := t_inv w ks SE.
Lemma s_ok : state_ok s /\ In (bits (s_cov s)) (ucs w).
Proof. apply (v_q w ks IV). rewrite QU. left. reflexivity. Qed.
Lemma parts : exists enq new, queue w' = q ++ enq ++ new /\ (new = [] \/ exists k, new = [next s 1 k]) /\
  (forall arcs v k, nth_error lat (s_j s) = Some arcs -> In (v, 1) arcs -> Extend (s_fst s) v = Some k -> all_open (bits (s_cov s)) (s_i s) (s_j s + 1) -> In (next s 1 k) new) /\
  ((enq = [] /\ ucs w' = ucs w) \/
   (exists cov, data (s_fst s) <> None /\ bits cov = covered (bits (s_cov s)) (s_i s) (s_j s) /\ ~ In (bits cov) (ucs w) /\ enq = map (at_start cov) (starts (bits cov)) /\ ucs w' = bits cov :: ucs w)) /\
  (data (s_fst s) <> None -> In (covered (bits (s_cov s)) (s_i s) (s_j s)) (ucs w')).
Proof.
  destruct ST as (w1 & new & -> & LN & _ & IN & KD). cbn [queue ucs].
  assert (NW : new = [] \/ exists k, new = [next s 1 k]).
  { pose proof width_one as W1. destruct new as [|x [|y new]]; [left; reflexivity| |cbn [length] in LN; lia]. right. destruct (proj1 (IN x) (or_introl eq_refl)) as (arcs & v & d & k & N & I & _ & _ & ->). destruct (arc_one _ _ _ _ N I) as [-> _]. exists k. reflexivity. }
  assert (NI : forall arcs v k, nth_error lat (s_j s) = Some arcs -> In (v, 1) arcs -> Extend (s_fst s) v = Some k -> all_open (bits (s_cov s)) (s_i s) (s_j s + 1) -> In (next s 1 k) new).
  { intros arcs v k N I E O. apply IN. exists arcs, v, 1, k. auto. }
  destruct KD as [(DN & -> & _)|(rs & cov & DS & BC & FG & (QA & UA) & _)].
  - exists [], new. split; [reflexivity|]. split; [exact NW|]. split; [exact NI|]. split; [left; split; reflexivity|]. intros X. contradiction.
  - destruct (enq_spec cov (popped w q) FG) as (_ & _ & [(IC & X)|(NC & XU & XQ)]).
    + exists [], new. rewrite QA, UA, X. split; [reflexivity|]. split; [exact NW|]. split; [exact NI|]. split; [left; split; reflexivity|]. intros _. rewrite <- BC. exact IC.
    + exists (map (at_start cov) (starts (bits cov))), new. rewrite QA, UA, XU, XQ. split; [cbn [queue popped]; rewrite app_assoc; reflexivity|]. split; [exact NW|]. split; [exact NI|]. split; [|intros _; rewrite <- BC; left; reflexivity]. right. exists cov. split; [congruence|]. split; [exact BC|]. split; [exact NC|]. split; reflexivity.
Qed.
Lemma queue_cases : forall x, In x (queue w') -> In x q \/ (bits (s_cov x) = bits (s_cov s) /\ s_i x = s_i s /\ s_j x = S (s_j s)) \/ (~ In (bits (s_cov x)) (ucs w) /\ bits (s_cov x) = covered (bits (s_cov s)) (s_i s) (s_j s) /\ data (s_fst s) <> None /\ s_j x = s_i x).
Proof.
  intros x I. destruct parts as (enq & new & QP & NW & _ & EC & _). rewrite QP in I. apply in_app_or in I as [I|I]; [left; exact I|]. right. apply in_app_or in I as [I|I].
  - right. destruct EC as [[-> _]|(cov & DN & BC & NC & -> & _)]; [destruct I|]. apply in_map_iff in I as (i & <- & _). cbn [s_cov s_i s_j at_start]. auto.
  - left. destruct NW as [->|(k & ->)]; [destruct I|]. destruct I as [<-|[]]. cbn [s_cov s_i s_j next]. split; [reflexivity|]. split; [reflexivity|lia].
Qed.
Lemma ucs_keep : forall C, In C (ucs w) -> In C (ucs w').
Proof. intros C I. destruct parts as (enq & new & _ & _ & _ & [[_ ->]|(cov & _ & _ & _ & _ & ->)] & _); [exact I|right; exact I]. Qed.
Lemma key_q : forall x, In x q -> bits (s_cov x) = bits (s_cov s) -> s_i x = s_i s -> False.
Proof. intros x I B E. pose proof (t_key w ks SE) as ND. rewrite QU in ND. cbn [map] in ND. inversion ND as [|? ? NI _]. apply NI. apply in_map_iff. exists x. split; [unfold key; congruence|exact I]. Qed.
Lemma left_none : data (s_fst s) <> None -> bits (s_cov s) = empty -> node_of (covered empty (s_i s) (s_j s)) (cmap w) = None.
Proof.
  intros DN BE. destruct s_ok as [SO _]. pose proof (so_le s SO) as LE. destruct (data (s_fst s)) as [rs|] eqn:DS; [|contradiction]. destruct (so_data s rs SO DS) as (LT & _).
  destruct (node_of (covered empty (s_i s) (s_j s)) (cmap w)) as [[|h]|] eqn:N; [exfalso|exfalso|reflexivity].
  - apply (v_c0 w ks IV) in N. revert N. apply covered_not_empty. unfold empty. rewrite repeat_length. lia.
  - destruct (t_level w ks SE) as (m & q1 & q2 & QE & F1 & F2 & CM).
    assert (LV : m <= s_j s - s_i s). { rewrite QU in QE. destruct q1 as [|x q1]; cbn [app] in QE. + rewrite <- QE in F2. inversion F2 as [|? ? [_ X] _]. specialize (X BE). lia. + injection QE as <- QE. inversion F1 as [|? ? [_ X] _]. specialize (X BE). lia. }
    destruct (CM _ _ N) as [CL|(i & j & B & E & NQ)].
    + rewrite count_covered in CL; [rewrite count_empty in CL; lia|unfold empty; rewrite repeat_length; lia|]. rewrite <- BE. exact (so_open s SO).
    + destruct (interval (length lat) (s_i s) (s_j s) i j ltac:(lia) B E) as [<- <-]. specialize (NQ s ltac:(rewrite QU; left; reflexivity) BE eq_refl). lia.
Qed.
Lemma cmap_cases : (cmap w' = cmap w) \/ (exists v, data (s_fst s) <> None /\ cmap w' = (covered (bits (s_cov s)) (s_i s) (s_j s), S v) :: cmap w /\ node_of (covered (bits (s_cov s)) (s_i s) (s_j s)) (cmap w) = None /\ nth_error ks' v = Some (CovN (covered (bits (s_cov s)) (s_i s) (s_j s))) /\ length ks <= v).
Proof.
  destruct ST as (w1 & new & -> & _ & _ & _ & KD). cbn [cmap]. destruct KD as [(DN & -> & _)|(rs & cov & DS & BC & FG & _ & (_ & AT) & KS)]; [left; reflexivity|]. rewrite <- BC. pose proof (v_len w ks IV) as LK.
  destruct AT as [(BE & CM & _)|(t & h & BE & NT & HC & _)].
  - right. exists (length (nodes (forest w))). split; [congruence|]. split; [exact CM|]. split; [rewrite BC, BE; apply left_none; [congruence|exact BE]|]. destruct KS as [(_ & ->)|(BN & _)]; [|contradiction]. rewrite nth_error_app2 by lia. rewrite LK, Nat.sub_diag. split; [reflexivity|lia].
  - destruct HC as [(NC & CM & _)|(NC & -> & CM & _)]; [left; exact CM|]. right. exists (S (length (nodes (forest w)))). split; [congruence|]. split; [exact CM|]. split; [exact NC|]. destruct KS as [(X & _)|(_ & [(h & X & _)|(_ & ->)])]; [contradiction|cbn [cmap popped] in NC; congruence|]. rewrite nth_error_app2 by lia. rewrite LK. replace (S (length (nodes (forest w))) - length (nodes (forest w))) with 1 by lia. split; [reflexivity|lia].
Qed.
Lemma cmap_keep : forall C h, node_of C (cmap w) = Some h -> node_of C (cmap w') = Some h.
Proof. intros C h N. destruct cmap_cases as [->|(v & _ & -> & NN & _)]; [exact N|]. rewrite node_cons. destruct (same _ C) eqn:Q; [apply same_ok in Q; congruence|exact N]. Qed.
Lemma ks_keep : exists x, ks' = ks ++ x /\ (forall n C, nth_error x n = Some (CovN C) -> C = covered (bits (s_cov s)) (s_i s) (s_j s)).
Proof.
  destruct ST as (w1 & new & _ & _ & _ & _ & KD). destruct KD as [(_ & _ & ->)|(rs & cov & _ & BC & _ & _ & _ & KS)]; [exists []; rewrite app_nil_r; split; [reflexivity|]; intros [|n] C X; discriminate|]. rewrite <- BC.
  destruct KS as [(_ & ->)|(_ & [(h & _ & ->)|(_ & ->)])]; (eexists; split; [reflexivity|]); intros n C X; repeat (destruct n as [|n]; cbn in X; try discriminate); injection X as <-; reflexivity.
Qed.
Lemma ks_old : forall n k, nth_error ks n = Some k -> nth_error ks' n = Some k.
Proof. intros n k N. destruct ks_keep as (x & -> & _). rewrite nth_error_app1 by (apply nth_error_Some; congruence). exact N. Qed.
Lemma ks_back : forall n k, nth_error ks' n = Some k -> n < length (nodes (forest w)) -> nth_error ks n = Some k.
Proof. intros n k N B. destruct ks_keep as (x & E & _). rewrite E, nth_error_app1 in N by (rewrite (v_len w ks IV); exact B). exact N. Qed.
(** What is new in the forest. *)
Definition fresh (n : nat) (ts : list nat) (l : L) (e : nat) : Prop :=
  exists rs, data (s_fst s) = Some rs /\ length (edges (forest w)) <= e /\
  (new_phrase (s_i s) (s_j s) rs (length (nodes (forest w))) (length (edges (forest w))) n ts l e \/
   exists t, bits (s_cov s) <> empty /\ node_of (bits (s_cov s)) (cmap w) = Some (S t) /\ node_of (covered (bits (s_cov s)) (s_i s) (s_j s)) (cmap w') = Some (S n) /\ ts = [t; length (nodes (forest w))] /\ l = Concat /\ e = length (edges (forest w)) + length rs).
Lemma has_new : forall n ts l e, has (forest w') n ts l e -> has (forest w) n ts l e \/ fresh n ts l e.
Proof.
  intros n ts l e H. destruct ST as (w1 & new & EW & _ & _ & _ & KD). rewrite EW in H. unfold fresh. rewrite EW. cbn [forest cmap] in *. destruct KD as [(DN & -> & _)|(rs & cov & DS & BC & FG & _ & (_ & AT) & KS)]; [left; exact H|].
  destruct AT as [(BE & CM & _ & HS)|(t & h & BE & NT & HC & HS)]; apply HS in H.
  - destruct H as [H|H]; [left; exact H|]. right. exists rs. split; [exact DS|]. split; [destruct H as (_ & _ & k & r & _ & _ & ->); cbn [forest popped]; lia|]. left. exact H.
  - destruct H as [H|[H|(-> & -> & -> & ->)]]; [left; exact H| |]; right; exists rs; (split; [exact DS|]).
    + split; [destruct H as (_ & _ & k & r & _ & _ & ->); cbn [forest popped]; lia|]. left. exact H.
    + cbn [forest popped]. split; [lia|]. right. exists t. split; [exact BE|]. split; [exact NT|]. split; [|auto]. rewrite <- BC. destruct HC as [(NC & -> & _)|(NC & -> & -> & _)]; [exact NC|]. rewrite node_cons, (proj2 (same_ok _ _) eq_refl). reflexivity.
Qed.
Lemma has_keep : forall n ts l e, has (forest w) n ts l e -> has (forest w') n ts l e.
Proof.
  intros n ts l e H. destruct ST as (w1 & new & EW & _ & _ & _ & KD). rewrite EW. cbn [forest]. destruct KD as [(DN & -> & _)|(rs & cov & DS & BC & FG & _ & (_ & AT) & KS)]; [exact H|].
  destruct AT as [(BE & CM & _ & HS)|(t & h & BE & NT & HC & HS)]; apply HS; left; exact H.
Qed.
Lemma applied_keep : forall C i j rs, applied w C i j rs -> applied w' C i j rs.
Proof.
  intros C i j rs (h & N & U & K). exists h. split; [apply cmap_keep; exact N|]. split; [apply ucs_keep; exact U|]. destruct K as [(E & H)|(t & p & e & NT & H & HR)].
  - left. split; [exact E|]. intros r I. destruct (H r I) as (e & X). exists e. apply has_keep. exact X.
  - right. exists t, p, e. split; [apply cmap_keep; exact NT|]. split; [apply has_keep; exact H|]. intros r I. destruct (HR r I) as (e' & X). exists e'. apply has_keep. exact X.
Qed.
Lemma applied_now : forall rs, data (s_fst s) = Some rs -> applied w' (bits (s_cov s)) (s_i s) (s_j s) rs.
Proof.
  intros rs0 DS0. destruct parts as (enq & new & _ & _ & _ & _ & UI). specialize (UI ltac:(congruence)).
  destruct ST as (w1 & new' & EW & _ & _ & _ & KD). rewrite EW in UI. cbn [ucs] in UI. unfold applied. rewrite EW. cbn [forest cmap ucs]. destruct KD as [(DN & _)|(rs & cov & DS & BC & FG & _ & (_ & AT) & KS)]; [congruence|]. rewrite DS0 in DS. injection DS as ->. rewrite <- BC in *.
  destruct AT as [(BE & CM & _ & HS)|(t & h & BE & NT & HC & HS)].
  - exists (length (nodes (forest w))). split; [rewrite CM, node_cons, (proj2 (same_ok _ _) eq_refl); reflexivity|]. split; [exact UI|]. left. split; [exact BE|]. intros r I. apply In_nth_error in I as (k & N). eexists. apply HS. right. split; [reflexivity|]. split; [reflexivity|]. exists k, r. split; [exact N|]. split; reflexivity.
  - exists h. split; [destruct HC as [(NC & -> & _)|(NC & -> & -> & _)]; [exact NC|]; rewrite node_cons, (proj2 (same_ok _ _) eq_refl); reflexivity|]. split; [exact UI|]. right. exists t, (length (nodes (forest w))), (length (edges (forest w)) + length rs).
    split; [|split; [apply HS; right; right; auto|]].
    + assert (BN : bits cov <> bits (s_cov s)). { destruct s_ok as [SO _]. destruct (so_data s rs SO DS0) as (LT & _). pose proof (so_le s SO). intros X. assert (Y : count (bits cov) = count (bits (s_cov s))) by congruence. rewrite BC, count_covered in Y; [lia|rewrite (so_len s SO); lia|exact (so_open s SO)]. }
      destruct HC as [(NC & -> & _)|(NC & -> & -> & _)]; [exact NT|]. rewrite node_cons. destruct (same (bits cov) (bits (s_cov s))) eqn:Q; [apply same_ok in Q; contradiction|exact NT].
    + intros r I. apply In_nth_error in I as (k & N). eexists. apply HS. right. left. split; [reflexivity|]. split; [reflexivity|]. exists k, r. split; [exact N|]. split; reflexivity.
Qed.
Lemma level_wlog : exists m q1 q2, queue w = s :: q1 ++ q2 /\ Forall (level m) (s :: q1) /\ Forall (level (S m)) q2 /\
    forall C h, node_of C (cmap w) = Some (S h) -> count C < m \/ exists i j, i < j <= length lat /\ C = covered empty i j /\ forall s, In s (queue w) -> bits (s_cov s) = empty -> s_i s = i -> j < s_j s.
Proof.
  destruct (t_level w ks SE) as (m & q1 & q2 & QE & F1 & F2 & CM). pose proof QE as QE'. rewrite QU in QE. destruct q1 as [|x q1]; cbn [app] in QE.
  - exists (S m), q, []. rewrite app_nil_r. split; [exact QU|]. split; [rewrite QE; exact F2|]. split; [constructor|]. intros C h N. destruct (CM C h N) as [X|X]; [left; lia|right; exact X].
  - injection QE as <- ->. exists m, q1, q2. split; [exact QU|]. split; [exact F1|]. split; [exact F2|exact CM].
Qed.
Lemma st_level : exists m q1 q2, queue w' = q1 ++ q2 /\ Forall (level m) q1 /\ Forall (level (S m)) q2 /\
    forall C h, node_of C (cmap w') = Some (S h) -> count C < m \/ exists i j, i < j <= length lat /\ C = covered empty i j /\ forall s, In s (queue w') -> bits (s_cov s) = empty -> s_i s = i -> j < s_j s.
Proof.
  destruct s_ok as [SO _]. pose proof (so_le s SO) as LE. destruct level_wlog as (m & q1 & q2 & QE & F1 & F2 & CM). inversion F1 as [|? ? LS F1']; subst. destruct parts as (enq & new & QP & NW & _ & EC & _).
  rewrite QU in QE. injection QE as QE. exists m, q1, (q2 ++ enq ++ new). rewrite QP, QE, <- app_assoc. split; [reflexivity|]. split; [exact F1'|].
  assert (CC : data (s_fst s) <> None -> count (covered (bits (s_cov s)) (s_i s) (s_j s)) = count (bits (s_cov s)) + (s_j s - s_i s) /\ covered (bits (s_cov s)) (s_i s) (s_j s) <> empty /\ s_i s < s_j s).
  { intros DN. destruct (data (s_fst s)) as [rs|] eqn:DS; [|contradiction]. destruct (so_data s rs SO DS) as (LT & _). split; [apply count_covered; [rewrite (so_len s SO); lia|exact (so_open s SO)]|]. split; [apply covered_not_empty; rewrite (so_len s SO); lia|exact LT]. }
  destruct LS as [LW LZ]. split.
  - apply Forall_app. split; [exact F2|]. apply Forall_app. split.
    + destruct EC as [[-> _]|(cov & DN & BC & _ & -> & _)]; [constructor|]. destruct (CC DN) as (C1 & C2 & C3). rewrite <- BC in C1, C2. apply Forall_forall. intros x I. apply in_map_iff in I as (i & <- & _). split; cbn [s_cov s_i s_j at_start]; [|intros X; contradiction]. unfold weight in *. cbn [s_cov s_i s_j at_start]. destruct (same (bits cov) empty); destruct (same (bits (s_cov s)) empty); lia.
    + destruct NW as [->|(k & ->)]; [constructor|]. constructor; [|constructor]. split; cbn [s_cov s_i s_j next]; [unfold weight in *; cbn [s_cov s_i s_j next]; lia|]. intros X. specialize (LZ X). lia.
  - assert (OLD : forall C h, node_of C (cmap w) = Some (S h) -> count C < m \/ exists i j, i < j <= length lat /\ C = covered empty i j /\ forall s, In s (queue w') -> bits (s_cov s) = empty -> s_i s = i -> j < s_j s).
    { intros C h N. destruct (CM C h N) as [X|(i & j & B & E & NQ)]; [left; exact X|]. right. exists i, j. split; [exact B|]. split; [exact E|]. intros x I BE SI. destruct (queue_cases x I) as [J|[(X1 & X2 & X3)|(X1 & X2 & X3 & X4)]].
      - apply NQ; [rewrite QU; right; exact J|exact BE|exact SI].
      - assert (j < s_j s) by (apply NQ; [rewrite QU; left; reflexivity|congruence|congruence]). lia.
      - destruct (CC X3) as (_ & Y & _). congruence. }
    intros C h N. rewrite QP, QE, <- app_assoc in OLD. destruct cmap_cases as [E|(v & DN & E & NN & _)]; rewrite E in N; [exact (OLD C h N)|]. rewrite node_cons in N. destruct (same _ C) eqn:Q; [|exact (OLD C h N)]. apply same_ok in Q. destruct (CC DN) as (C1 & C2 & C3).
    destruct (list_eq_dec bool_dec (bits (s_cov s)) empty) as [BE|BN].
    + right. exists (s_i s), (s_j s). split; [lia|]. split; [rewrite <- Q, BE; reflexivity|]. rewrite (app_assoc q1), <- QE, <- QP. intros x I XE SI. destruct (queue_cases x I) as [J|[(X1 & X2 & X3)|(X1 & X2 & X3 & X4)]]; [exfalso; apply (key_q x J); congruence|lia|congruence].
    + left. rewrite <- Q, C1. unfold weight in LW. destruct (same (bits (s_cov s)) empty) eqn:SQ; [apply same_ok in SQ; contradiction|]. lia.
Qed.
Lemma nodup_three : forall (A : Type) (a b c : list A), NoDup a -> NoDup b -> NoDup c -> (forall x, In x a -> In x b -> False) -> (forall x, In x a -> In x c -> False) -> (forall x, In x b -> In x c -> False) -> NoDup (a ++ b ++ c).
Proof.
  assert (TWO : forall (A : Type) (a b : list A), NoDup a -> NoDup b -> (forall x, In x a -> In x b -> False) -> NoDup (a ++ b)).
  { intros A a b NA. induction NA as [|x a NI NA IH]; intros NB X; [exact NB|]. cbn. constructor; [|apply IH; [exact NB|]; intros y I J; exact (X y (or_intror I) J)]. intros I. apply in_app_or in I as [I|I]; [contradiction|]. exact (X x (or_introl eq_refl) I). }
  intros A a b c NA NB NC X Y Z. apply TWO; [exact NA|apply TWO; assumption|]. intros x I J. apply in_app_or in J as [J|J]; [exact (X x I J)|exact (Y x I J)].
Qed.
Lemma st_key : NoDup (map key (queue w')).
Proof.
  destruct s_ok as [SO IU]. destruct parts as (enq & new & QP & NW & _ & EC & _). pose proof (t_key w ks SE) as ND. rewrite QU in ND. cbn [map] in ND. inversion ND as [|? ? NI ND']; subst. rewrite QP, !map_app.
  assert (QOLD : forall x, In x (map key q) -> In (fst x) (ucs w)). { intros x I. apply in_map_iff in I as (y & <- & I). apply (v_q w ks IV). rewrite QU. right. exact I. }
  assert (ENQ : NoDup (map key enq) /\ forall x, In x (map key enq) -> ~ In (fst x) (ucs w)).
  { destruct EC as [[-> _]|(cov & _ & _ & NC & -> & _)]; [split; [constructor|intros x []]|]. rewrite map_map. split; [|intros x I; apply in_map_iff in I as (i & <- & _); exact NC]. unfold key, at_start. cbn [s_cov s_i]. pose proof (starts_nodup (bits cov)) as N. exact (pair_nodup _ _ N). }
  destruct ENQ as [NE1 NE2].
  assert (NEW : NoDup (map key new) /\ forall x, In x (map key new) -> x = key s). { destruct NW as [->|(k & ->)]; (split; [repeat constructor; intros []|]); intros x I; [destruct I|destruct I as [<-|[]]; reflexivity]. }
  destruct NEW as [NN1 NN2]. apply nodup_three; try assumption.
  - intros x I J. exact (NE2 x J (QOLD x I)).
  - intros x I J. rewrite (NN2 x J) in I. contradiction.
  - intros x I J. apply (NE2 x I). rewrite (NN2 x J). exact IU.
Qed.
Lemma st_cov : forall n C, nth_error ks' n = Some (CovN C) -> node_of C (cmap w') = Some (S n).
Proof.
  intros n C N. destruct (Nat.lt_ge_cases n (length (nodes (forest w)))) as [B|B].
  - apply cmap_keep. apply (t_cov w ks SE). exact (ks_back n _ N B).
  - pose proof (v_len w ks IV) as LK. destruct ST as (w1 & new & -> & _ & _ & _ & KD). cbn [cmap]. destruct KD as [(_ & _ & ->)|(rs & cov & _ & BC & _ & _ & (_ & AT) & KS)]; [rewrite (proj2 (nth_error_None _ _)) in N by lia; discriminate|].
    destruct AT as [(BE & CM & _ & _)|(t & h & BE & NT & HC & _)]; destruct KS as [(X & ->)|(X & KS)]; try contradiction.
    + rewrite nth_error_app2 in N by lia. destruct (n - length ks) as [|[|k]] eqn:NK; try discriminate. injection N as <-. rewrite CM, node_cons, (proj2 (same_ok _ _) eq_refl). repeat f_equal. cbn [forest popped]. lia.
    + destruct KS as [(h' & _ & ->)|(NN & ->)]; rewrite nth_error_app2 in N by lia; [destruct (n - length ks) as [|[|k]]; discriminate|]. destruct (n - length ks) as [|[|[|k]]] eqn:NK; try discriminate. injection N as <-.
      destruct HC as [(NC & _)|(NC & -> & CM & _)]; [cbn [cmap popped] in NC; congruence|]. rewrite CM, node_cons, (proj2 (same_ok _ _) eq_refl). repeat f_equal. cbn [forest popped]. lia.
Qed.
Lemma fresh_node : forall i j r n ts e, fresh n ts (Phrase i j r) e -> n = length (nodes (forest w)).
Proof. intros i j r n ts e (rs & _ & _ & [(-> & _)|(t & _ & _ & _ & _ & X & _)]); [reflexivity|discriminate]. Qed.
Lemma old_node : forall n ts l e, has (forest w) n ts l e -> n < length (nodes (forest w)).
Proof. intros n ts l e H. exact (proj1 (has_bounds _ _ _ _ _ (v_wf w ks IV) H)). Qed.
Lemma st_ph : NoDup table -> forall n ts ts' i j r e e', has (forest w') n ts (Phrase i j r) e -> has (forest w') n ts' (Phrase i j r) e' -> e = e'.
Proof.
  intros ND n ts ts' i j r e e' H H'. apply has_new in H, H'. destruct H as [H|H], H' as [H'|H'].
  - exact (t_ph w ks SE ND n ts ts' i j r e e' H H').
  - apply old_node in H. apply fresh_node in H'. lia.
  - apply old_node in H'. apply fresh_node in H. lia.
  - destruct H as (rs & DS & _ & [(_ & _ & k & r1 & N & E & ->)|(t & _ & _ & _ & _ & X & _)]); [|discriminate]. destruct H' as (rs' & DS' & _ & [(_ & _ & k' & r1' & N' & E' & ->)|(t & _ & _ & _ & _ & X & _)]); [|discriminate]. rewrite DS in DS'. injection DS' as <-. injection E as -> -> ->. injection E' as <-.
    destruct s_ok as [SO _]. destruct (so_data s rs SO DS) as (_ & ws & _ & _ & -> & _). f_equal. apply (proj1 (NoDup_nth_error _) (rules_nodup table ws ND)); [apply nth_error_Some; congruence|congruence].
Qed.
Lemma fresh_cc : forall n ts e, fresh n ts Concat e -> exists t, ts = [t; length (nodes (forest w))] /\ node_of (bits (s_cov s)) (cmap w) = Some (S t) /\ nth_error ks t = Some (CovN (bits (s_cov s))) /\ nth_error ks' (length (nodes (forest w))) = Some (PhraseN (s_i s) (s_j s)) /\
  forall n' ts' e', fresh n' ts' Concat e' -> e = e'.
Proof.
  intros n ts e (rs & DS & _ & [(_ & _ & k & r & _ & X & _)|(t & BN & NT & NC & -> & _ & ->)]); [discriminate|]. exists t. split; [reflexivity|]. split; [exact NT|]. split; [exact (proj1 (v_c w ks IV _ _ NT))|]. split.
  - destruct ST as (w1 & new & _ & _ & _ & _ & KD). destruct KD as [(X & _)|(rs' & cov & _ & _ & _ & _ & _ & KS)]; [congruence|]. pose proof (v_len w ks IV) as LK. destruct KS as [(X & _)|(_ & [(h & _ & ->)|(_ & ->)])]; [contradiction| |]; rewrite nth_error_app2, LK, Nat.sub_diag by lia; reflexivity.
  - intros n' ts' e' (rs' & DS' & _ & [(_ & _ & k & r & _ & X & _)|(t' & _ & _ & _ & _ & _ & ->)]); [discriminate|]. congruence.
Qed.
Lemma old_tails : forall n ts l e t, has (forest w) n ts l e -> In t ts -> t < length (nodes (forest w)).
Proof. intros n ts l e t H. exact (proj2 (proj2 (has_bounds _ _ _ _ _ (v_wf w ks IV) H)) t). Qed.
Lemma st_cc : forall n n' a b b' e e' i j, has (forest w') n [a; b] Concat e -> has (forest w') n' [a; b'] Concat e' -> nth_error ks' b = Some (PhraseN i j) -> nth_error ks' b' = Some (PhraseN i j) -> e = e'.
Proof.
  assert (MIX : forall n n' a b b' e e' i j, has (forest w) n [a; b] Concat e -> fresh n' [a; b'] Concat e' -> nth_error ks' b = Some (PhraseN i j) -> nth_error ks' b' = Some (PhraseN i j) -> False).
  { intros n n' a b b' e e' i j H H' K K'. destruct (fresh_cc _ _ _ H') as (t & E & NT & KT & KP & _). injection E as <- ->. rewrite KP in K'. injection K' as <- <-. apply ks_back in K; [|exact (old_tails _ _ _ _ b H (or_intror (or_introl eq_refl)))].
    destruct (t_past w ks SE n a b e _ _ _ H KT K) as [_ P]. specialize (P s ltac:(rewrite QU; left; reflexivity) eq_refl eq_refl). lia. }
  intros n n' a b b' e e' i j H H' K K'. apply has_new in H, H'. destruct H as [H|H], H' as [H'|H'].
  - apply (t_cc w ks SE n n' a b b' e e' i j H H'); apply ks_back; try assumption; [exact (old_tails _ _ _ _ b H (or_intror (or_introl eq_refl)))|exact (old_tails _ _ _ _ b' H' (or_intror (or_introl eq_refl)))].
  - exfalso. exact (MIX n n' a b b' e e' i j H H' K K').
  - exfalso. exact (MIX n' n a b' b e' e i j H' H K' K).
  - destruct (fresh_cc _ _ _ H) as (t & _ & _ & _ & _ & F). exact (F _ _ _ H').
Qed.
Lemma st_past : forall n a b e C i j, has (forest w') n [a; b] Concat e -> nth_error ks' a = Some (CovN C) -> nth_error ks' b = Some (PhraseN i j) -> In C (ucs w') /\ forall s, In s (queue w') -> bits (s_cov s) = C -> s_i s = i -> j < s_j s.
Proof.
  intros n a b e C i j H KA KB. destruct s_ok as [SO IU]. apply has_new in H as [H|H].
  - apply ks_back in KA; [|exact (old_tails _ _ _ _ a H (or_introl eq_refl))]. apply ks_back in KB; [|exact (old_tails _ _ _ _ b H (or_intror (or_introl eq_refl)))]. destruct (t_past w ks SE n a b e C i j H KA KB) as [U P]. split; [apply ucs_keep; exact U|]. intros x I XC XI.
    destruct (queue_cases x I) as [J|[(X1 & X2 & X3)|(X1 & X2 & X3 & X4)]]; [apply P; [rewrite QU; right; exact J|exact XC|exact XI]| |congruence]. assert (j < s_j s) by (apply P; [rewrite QU; left; reflexivity|congruence|congruence]). lia.
  - destruct (fresh_cc _ _ _ H) as (t & E & NT & KT & KP & _). injection E as -> ->. rewrite KP in KB. injection KB as <- <-. rewrite (ks_old _ _ KT) in KA. injection KA as <-. split; [apply ucs_keep; exact IU|]. intros x I XC XI.
    destruct (queue_cases x I) as [J|[(X1 & X2 & X3)|(X1 & X2 & X3 & X4)]]; [exfalso; exact (key_q x J XC XI)|lia|congruence].
Qed.
Lemma st_done : forall C i j ws, In C (ucs w') -> start_ok C i -> i < j -> all_open C i j -> spells lat i ws j -> rules table ws <> [] ->
    (exists s, In s (queue w') /\ bits (s_cov s) = C /\ s_i s = i /\ s_j s <= j) \/ applied w' C i j (rules table ws).
Proof.
  intros C i j ws U SK LT AO SP RN. destruct s_ok as [SO IU]. pose proof (so_le s SO) as LE. destruct parts as (enq & new & QP & NW & NI & EC & _).
  assert (WK : exists k, walk root ws = Some k /\ data k = Some (rules table ws)). { pose proof (TR ws) as T. unfold data_at in T. destruct (walk root ws) as [k|]; [|unfold some_rules in T; destruct (rules table ws); [contradiction|discriminate]]. exists k. split; [reflexivity|]. rewrite T. unfold some_rules. destruct (rules table ws); [contradiction|reflexivity]. }
  destruct WK as (k & WK & DK).
  assert (OLD : In C (ucs w) -> (exists s, In s (queue w') /\ bits (s_cov s) = C /\ s_i s = i /\ s_j s <= j) \/ applied w' C i j (rules table ws)).
  { intros UC. destruct (t_done w ks SE C i j ws UC SK LT AO SP RN) as [(x & I & XC & XI & XJ)|A]; [|right; apply applied_keep; exact A]. rewrite QU in I. destruct I as [<-|I]; [|left; exists x; split; [rewrite QP; apply in_or_app; left; exact I|auto]].
    destruct (so_fst s SO) as (us & SU & WU). rewrite XI in SU. pose proof (so_bound s SO) as SB. rewrite XI in SB. destruct (Nat.eq_dec (s_j s) j) as [JE|JN].
    - right. rewrite JE in SU. assert (us = ws) by (apply (spells_fun i us j SU ws SP); lia). subst us. rewrite WK in WU. injection WU as KS. rewrite KS in DK. pose proof (applied_now _ DK) as A. rewrite XC, XI, JE in A. exact A.
    - left. destruct (spells_split i ws j SP (s_j s) ltac:(lia)) as (a & v & b & arcs & EW & SA & NA & IA). assert (a = us) by (apply (spells_fun i a (s_j s) SA us SU); lia). subst a. rewrite EW, walk_app, WU in WK. cbn [walk] in WK. destruct (Extend (s_fst s) v) as [k1|] eqn:EX; [|discriminate].
      exists (next s 1 k1). split; [|cbn [s_cov s_i s_j next]; split; [exact XC|]; split; [exact XI|lia]]. rewrite QP. apply in_or_app. right. apply in_or_app. right. apply (NI arcs v k1 NA IA EX). rewrite XC, XI. intros m M. apply AO. lia. }
  destruct EC as [[_ UE]|(cov & DN & BC & NC & EE & UE)]; rewrite UE in U; [exact (OLD U)|]. destruct U as [<-|U]; [|exact (OLD U)].
  left. exists (at_start cov i). split; [|cbn [s_cov s_i s_j at_start]; split; [reflexivity|]; split; [reflexivity|lia]]. rewrite QP. apply in_or_app. right. apply in_or_app. left. rewrite EE. apply in_map. apply starts_in. split; [exact SK|apply AO; lia].
Qed.
Lemma st_sent : Sent w' ks'.
Proof. exact {| t_inv := I'; t_level := st_level; t_key := st_key; t_cov := st_cov; t_ph := st_ph; t_cc := st_cc; t_past := st_past; t_done := st_done |}. Qed.
End Step.
Lemma first_sent : Sent first [].
Proof.
  destruct first_is as (Q & U & C & F).
  assert (NOHAS : forall n ts l e, ~ has (forest first) n ts l e) by (intros n ts l e (nd & ed & N & _); rewrite F in N; destruct n; discriminate).
  constructor.
  - exact first_inv.
  - exists 0, (queue first), []. rewrite app_nil_r. split; [reflexivity|]. split; [|split; [constructor|]].
    + rewrite Q. apply Forall_forall. intros x I. apply in_map_iff in I as (i & <- & _). split; cbn [s_cov s_i s_j at_start bits]; [|lia]. unfold weight. cbn [s_cov s_i s_j at_start bits]. rewrite count_empty, (proj2 (same_ok _ _) eq_refl). lia.
    + intros X h. rewrite C. cbn [node_of]. destruct (same empty X); discriminate.
  - rewrite Q, map_map. unfold key, at_start. cbn [s_cov s_i bits]. pose proof (starts_nodup empty) as N. exact (pair_nodup _ _ N).
  - intros [|n] X N; discriminate.
  - intros _ n ts ts' i j r e e' H. destruct (NOHAS _ _ _ _ H).
  - intros n n' a b b' e e' i j H. destruct (NOHAS _ _ _ _ H).
  - intros n a b e X i j H. destruct (NOHAS _ _ _ _ H).
  - intros X i j ws I SK LT AO _ _. rewrite U in I. destruct I as [<-|[]]. left. exists (at_start {| bits := empty; first_gap := 0 |} i). split; [|cbn; split; [reflexivity|]; split; [reflexivity|lia]]. rewrite Q. apply in_map. apply starts_in. split; [exact SK|apply AO; lia].
Qed.
End M.
