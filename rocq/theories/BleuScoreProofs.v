From Coq Require Import List Arith ZArith QArith Qabs Bool Lia Lqa Reals Qreals Lra.
From Verif Require Import HG HGProofs Stats Bleu BleuSpec BleuProofs.
Import ListNotations.
Open Scope nat_scope.
Ltac lra := first [Lqa.lra | Lra.lra].

(** * Totals *)
Lemma combine_plus_nth : forall a b i, (nth i (combine_fields Qplus a b) 0 == nth i a 0 + nth i b 0)%Q.
Proof.
  intros a b. revert a. induction b as [|y b IH]; intros a i; cbn [combine_fields].
  - destruct i; symmetry; apply Qplus_0_r.
  - destruct a as [|x a], i as [|i]; cbn [nth]; try reflexivity; [|apply IH]. rewrite IH. destruct i; reflexivity.
Qed.
Lemma plus_at : forall a b i, (ss_at (ss_plus a b) i == ss_at a i + ss_at b i)%Q.
Proof. intros. apply combine_plus_nth. Qed.

(** What the totals of BLEU statistics satisfy. *)
Definition zo (x : Q) : Prop := (x == 0 \/ 1 <= x)%Q.
Record tot (N : nat) (s : stats) : Prop := {
  t_cor : forall i, i < N -> (zo (ss_at s i) /\ ss_at s i <= ss_at s (N + i))%Q;
  t_hyp : forall i, i < N -> zo (ss_at s (N + i)) /\ (ss_at s (N + i) <= ss_at s (2 * N))%Q;
  t_len : 1 <= N -> (ss_at s (2 * N) == ss_at s (N + 0))%Q
}.
Definition perfect (N : nat) (s : stats) : Prop := (forall i, i < N -> (ss_at s i == ss_at s (N + i))%Q) /\ (ss_at s (2 * N) == ss_at s (2 * N + 1))%Q.
Lemma zo_plus : forall a b, zo a -> zo b -> zo (a + b).
Proof. intros a b [A|A] [B|B]; unfold zo; [left|right|right|right]; lra. Qed.
Lemma zo_eq : forall a b, (a == b)%Q -> zo a -> zo b.
Proof. intros a b H [A|A]; unfold zo; [left|right]; lra. Qed.
Lemma zo_nat : forall n, zo (of_nat n).
Proof. intros [|n]; unfold zo, of_nat; [left; reflexivity|right]. change 1%Q with (inject_Z 1). rewrite <- Zle_Qle. lia. Qed.
Lemma tot_none : forall N, tot N no_stats.
Proof.
  intros N. constructor; unfold ss_at, no_stats; cbn [fields]; intros; repeat match goal with |- context [nth ?i [] 0%Q] => replace (nth i [] 0%Q) with 0%Q by (destruct i; reflexivity) end; unfold zo; intuition lra.
Qed.
Lemma tot_plus : forall N a b, tot N a -> tot N b -> tot N (ss_plus a b).
Proof.
  intros N a b [A1 A2 A3] [B1 B2 B3]. constructor.
  - intros i LI. destruct (A1 i LI), (B1 i LI). split; [apply (zo_eq (ss_at a i + ss_at b i)); [symmetry; apply plus_at|apply zo_plus; assumption]|rewrite !plus_at; lra].
  - intros i LI. destruct (A2 i LI), (B2 i LI). split; [apply (zo_eq (ss_at a (N + i) + ss_at b (N + i))); [symmetry; apply plus_at|apply zo_plus; assumption]|rewrite !plus_at; lra].
  - intros LN. rewrite !plus_at, (A3 LN), (B3 LN). reflexivity.
Qed.
Lemma perfect_none : forall N, perfect N no_stats.
Proof. intros N. split; intros; unfold ss_at, no_stats; cbn [fields]; repeat match goal with |- context [nth ?i [] 0%Q] => replace (nth i [] 0%Q) with 0%Q by (destruct i; reflexivity) end; reflexivity. Qed.
Lemma perfect_plus : forall N a b, perfect N a -> perfect N b -> perfect N (ss_plus a b).
Proof. intros N a b (A1 & A2) (B1 & B2). split; [intros i LI; rewrite !plus_at, (A1 i LI), (B1 i LI); reflexivity|rewrite !plus_at, A2, B2; reflexivity]. Qed.
Lemma grams_length : forall n s, length (grams n s) = length s + 1 - n.
Proof. intros. unfold grams. rewrite map_length, seq_length. reflexivity. Qed.
Lemma sum_le : forall (f g : gram -> nat) A, (forall k, In k A -> f k <= g k) -> list_sum (map f A) <= list_sum (map g A).
Proof. intros f g. induction A as [|a A IH]; intros H; [cbn; lia|]. cbn [map]. rewrite !list_sum_cons. specialize (H a (or_introl eq_refl)) as Ha. specialize (IH (fun k K => H k (or_intror K))). lia. Qed.
Lemma clip_top : forall L, clip (fun k => count k L) L = length L.
Proof.
  intros L. unfold clip. rewrite (sum_ext _ (fun k => count k L)) by (intros; lia).
  assert (G : forall L' D, NoDup D -> (forall k, In k L' -> In k D) -> list_sum (map (fun k => count k L') D) = length L').
  { induction L' as [|g L' IH]; intros D ND SB.
    - cbn. induction D as [|d D IHD]; [reflexivity|]. cbn [map]. rewrite list_sum_cons. cbn. inversion ND; subst. apply IHD; [assumption|intros k []].
    - assert (ID : In g D) by (apply SB; left; reflexivity). rewrite (sum_ext _ (fun k => b2n (gram_eqb g k) + count k L')) by (intros k K; change (g :: L') with ([g] ++ L'); rewrite count_app, count_one; reflexivity).
      assert (SP : forall (f h : gram -> nat) A, list_sum (map (fun k => f k + h k) A) = list_sum (map f A) + list_sum (map h A)) by (intros f h; induction A as [|a A IHA]; [reflexivity|cbn [map]; rewrite !list_sum_cons, IHA; lia]).
      rewrite SP, IH; [|exact ND|intros k K; apply SB; right; exact K]. cbn [length]. 
      assert (ONE : list_sum (map (fun k => b2n (gram_eqb g k)) D) = 1); [|lia].
      assert (Z : forall A, ~ In g A -> list_sum (map (fun k => b2n (gram_eqb g k)) A) = 0).
      { induction A as [|a A IHA]; intros NI; [reflexivity|]. cbn [map]. rewrite list_sum_cons, IHA by (intros X; apply NI; right; exact X). destruct (gram_eqb_spec g a) as [->|_]; [destruct NI; left; reflexivity|reflexivity]. }
      apply in_split in ID. destruct ID as (D1 & D2 & ->). pose proof (NoDup_remove_2 _ _ _ ND) as NI. rewrite in_app_iff in NI. rewrite map_app, list_sum_app. cbn [map]. rewrite list_sum_cons, !Z, gram_eqb_refl by tauto. reflexivity. }
  apply G; [apply NoDup_nodup|]. intros k K. apply nodup_In. exact K.
Qed.
Lemma clipped_le : forall n refs hyp, clipped n refs hyp <= length (grams n hyp).
Proof. intros. rewrite <- (clip_top (grams n hyp)). unfold clip, clipped. apply sum_le. intros. lia. Qed.
Lemma clipped_perfect : forall n refs hyp, In hyp refs -> clipped n refs hyp = length (grams n hyp).
Proof.
  intros n refs hyp IH. rewrite <- (clip_top (grams n hyp)). unfold clip, clipped. apply sum_ext. intros k _. 
  assert (LE : count k (grams n hyp) <= ref_count n refs k); [|lia]. unfold ref_count. pose proof (proj1 (list_max_le (map (fun r => count k (grams n r)) refs) _) (le_n _)) as F. rewrite Forall_forall in F. apply F, in_map_iff. exists hyp. auto.
Qed.
Lemma good_tot : forall N bt refs ls hyp s, good_stats N bt refs ls hyp s -> tot N s.
Proof.
  intros N bt refs ls hyp s (_ & A & B & C & _). constructor.
  - intros i LI. rewrite A, B by exact LI. split; [apply zo_nat|]. unfold of_nat. rewrite <- Zle_Qle. pose proof (clipped_le (S i) refs hyp). lia.
  - intros i LI. rewrite B, C by exact LI. split; [apply zo_nat|]. unfold of_nat, len. rewrite <- Zle_Qle, grams_length. lia.
  - intros LN. rewrite C, B by lia. unfold len, of_nat. rewrite grams_length. replace (length hyp + 1 - 1) with (length hyp) by lia. reflexivity.
Qed.

(** Reading the corpus. *)
Definition segment := (list (list word) * list word)%type.
Lemma total_spec : forall N bt segs evs acc, Forall2 (fun (g : segment) ev => mk_evaluator N bt (fst g) = Some ev) segs evs -> exists s,
  total N bt evs (map snd segs) acc = Some s /\ (tot N acc -> tot N s) /\
  (ss_at s (2 * N) == ss_at acc (2 * N) + fold_right Qplus 0 (map (fun g => len (snd g)) segs))%Q /\
  (bt = IBM -> Forall (fun g : segment => In (snd g) (fst g) /\ (len (snd g) < inject_Z 2000000)%Q) segs -> perfect N acc -> perfect N s).
Proof.
  intros N bt segs evs acc F. revert acc. induction F as [|(refs, hyp) ev segs evs MK F IH]; intros acc; cbn [map snd total].
  - exists acc. split; [reflexivity|]. split; [auto|]. split; [cbn; symmetry; apply Qplus_0_r|auto].
  - cbn [fst] in MK. destruct (evaluate_spec N bt refs ev hyp (mk_ready N bt refs ev MK)) as (t & ev' & -> & _ & _ & G). destruct (IH (ss_plus acc t)) as (s & R & T & L & PF). exists s. split; [exact R|]. split; [|split].
    + intros TA. apply T, tot_plus; [exact TA|apply (good_tot _ _ _ _ _ _ G)].
    + rewrite L, plus_at. destruct G as (_ & _ & _ & G & _). rewrite G. cbn [fold_right map snd]. lra.
    + intros IB FA PA. inversion FA as [|? ? (IN & SM) FA']; subst. cbn [fst snd] in *. apply PF; [reflexivity|exact FA'|]. apply perfect_plus; [exact PA|]. destruct G as (_ & A & B & C & D). split.
      * intros i LI. rewrite A, B by exact LI. rewrite clipped_perfect by exact IN. reflexivity.
      * rewrite C, D. assert (RP : reported IBM refs hyp (ref_length IBM (lengths ev) (len hyp))) by (apply (ref_length_ok N IBM refs hyp ev MK); split; [exists hyp; auto|exact SM]).
        destruct RP as (i & _ & MIN & _). specialize (MIN (len hyp) (in_map len _ _ IN)). set (rl := ref_length IBM (lengths ev) (len hyp)) in *.
        assert (Z0 : (Qabs (rl - len hyp) <= 0)%Q). { eapply Qle_trans; [exact MIN|]. setoid_replace (len hyp - len hyp)%Q with 0%Q by ring. cbn. lra. }
        apply Qabs_Qle_condition in Z0. lra.
Qed.

(** * The score *)
Open Scope R_scope.
Lemma field_at : forall s i, field (fields s) i = Q2R (ss_at s i).
Proof. reflexivity. Qed.
Lemma Q2R_zo : forall x, zo x -> Q2R x = 0 \/ 1 <= Q2R x.
Proof. intros x [H|H]; [left; apply Qeq_eqR in H; rewrite H; apply RMicromega.Q2R_0|right]. apply Qle_Rle in H. rewrite RMicromega.Q2R_1 in H. exact H. Qed.
Lemma ln_le' : forall a b, 0 < a -> a <= b -> ln a <= ln b.
Proof. intros a b A [B| -> ]; [left; apply ln_increasing; assumption|right; reflexivity]. Qed.
Lemma alpha_pos : forall bt, 0 < alpha bt <= 1.
Proof. intros []; unfold alpha; lra. Qed.
Lemma prec_fold : forall N bt s ks st, tot N s -> (forall i, In i ks -> (i < N)%nat) ->
  let '(lb, adj, c) := st in let '(lb', adj', c') := fold_left (prec_step N bt (fields s)) ks st in
  (lb' <= lb) /\ (bt = QCRI -> adj' - adj <= lb' - lb /\ ((c < c')%nat -> adj' - adj < lb' - lb)) /\ (c <= c')%nat /\
  ((exists i, In i ks /\ 0 < Q2R (ss_at s (N + i))) <-> (c < c')%nat) /\ (perfect N s -> lb' = lb).
Proof.
  intros N bt s. induction ks as [|i ks IH]; intros [[lb adj] c] T LI; cbn [fold_left].
  - split; [lra|]. split; [intros _; split; [lra|lia]|]. split; [lia|]. split; [split; [intros (i & [] & _)|lia]|reflexivity].
  - specialize (IH (prec_step N bt (fields s) (lb, adj, c) i) T (fun j J => LI j (or_intror J))).
    assert (LN : (i < N)%nat) by (apply LI; left; reflexivity). destruct T as [T1 T2 T3]. destruct (T1 i LN) as (Z1 & LE1). destruct (T2 i LN) as (Z2 & LE2). apply Qle_Rle in LE1. apply Q2R_zo in Z1, Z2.
    remember (prec_step N bt (fields s) (lb, adj, c) i) as st1 eqn:E1. unfold prec_step in E1. rewrite !field_at in E1. replace (i + N)%nat with (N + i)%nat in E1 by lia.
    set (cr := Q2R (ss_at s i)) in *. set (h := Q2R (ss_at s (N + i))) in *.
    destruct (Rlt_dec 0 h) as [HP|HN].
    + set (cor := if Req_EM_T cr 0 then alpha bt else cr) in *. pose proof (alpha_pos bt) as AP.
      assert (CP : 0 < cor <= h) by (unfold cor; destruct (Req_EM_T cr 0); lra).
      set (lb1 := lb + (ln cor - ln h)) in *. set (adj1 := adj + (ln (alpha bt) - ln (h + alpha bt))) in *.
      subst st1. destruct (fold_left (prec_step N bt (fields s)) ks (lb1, adj1, S c)) as [[lb' adj'] c'] eqn:FE. destruct IH as (A & B & C & D & E).
      assert (LL : ln cor <= ln h) by (apply ln_le'; lra).
      split; [unfold lb1 in A; lra|]. split; [|split; [lia|split; [split; [lia|intros _; exists i; split; [left; reflexivity|exact HP]]|]]].
      * intros Q0. destruct (B Q0) as (B1 & B2). assert (STR : ln (alpha bt) - ln (h + alpha bt) < ln cor - ln h).
        { subst bt. cbn [alpha] in *. assert (1 <= cor) by (unfold cor; destruct (Req_EM_T cr 0); lra). assert (ln 1 <= ln cor) by (apply ln_le'; lra). assert (ln h < ln (h + 1)) by (apply ln_increasing; lra). lra. }
        unfold lb1, adj1 in *. split; [lra|]. intros _. lra.
      * intros PF. rewrite (E PF). unfold lb1. destruct PF as (P1 & _). specialize (P1 i LN). apply Qeq_eqR in P1. fold cr in P1. fold h in P1.
        assert (cor = h) as -> by (unfold cor; destruct (Req_EM_T cr 0); lra). lra.
    + subst st1. destruct (fold_left (prec_step N bt (fields s)) ks (lb, adj, c)) as [[lb' adj'] c'] eqn:FE. destruct IH as (A & B & C & D & E).
      split; [exact A|]. split; [exact B|]. split; [exact C|]. split; [|exact E]. rewrite <- D. split.
      * intros (j & [<-|J] & HJ); [contradiction|]. exists j. auto.
      * intros (j & J & HJ). exists j. split; [right; exact J|exact HJ].
Qed.
Lemma score_spec : forall N bt s, (1 <= N)%nat -> tot N s ->
  (ComputeScore N bt (fields s) = None <-> (ss_at s (2 * N) == 0)%Q) /\
  (forall r, ComputeScore N bt (fields s) = Some r -> 0 < r <= 1) /\
  (bt <> QCRI -> perfect N s -> forall r, ComputeScore N bt (fields s) = Some r -> r = 1).
Proof.
  intros N bt s N1 T. unfold ComputeScore. pose proof (prec_fold N bt s (seq 0 N) (0, 0, 0%nat) T ltac:(intros i I0; apply in_seq in I0; lia)) as P.
  destruct (fold_left (prec_step N bt (fields s)) (seq 0 N) (0, 0, 0%nat)) as [[lb adj] c]. destruct P as (A & B & _ & D & E).
  rewrite !field_at. set (hl := Q2R (ss_at s (2 * N))). set (rl := Q2R (ss_at s (2 * N + 1))).
  assert (HL : hl = 0 \/ 1 <= hl).
  { unfold hl. destruct T as [_ T2 T3]. destruct (T2 0%nat N1) as (Z & _). specialize (T3 N1). apply Qeq_eqR in T3. rewrite T3. apply Q2R_zo, Z. }
  assert (CZ : (0 < c)%nat <-> 1 <= hl).
  { rewrite <- D. split.
    - intros (i & I0 & P). apply in_seq in I0. destruct T as [_ T2 _]. destruct (T2 i) as (_ & LE); [lia|]. apply Qle_Rle in LE. fold hl in LE. lra.
    - intros H. exists 0%nat. split; [apply in_seq; lia|]. destruct T as [_ _ T3]. specialize (T3 N1). apply Qeq_eqR in T3. rewrite <- T3. fold hl. lra. }
  assert (H0 : hl = 0 <-> (ss_at s (2 * N) == 0)%Q).
  { unfold hl. split; [intros H; apply eqR_Qeq; rewrite H; symmetry; apply RMicromega.Q2R_0|intros H; apply Qeq_eqR in H; rewrite H; apply RMicromega.Q2R_0]. }
  destruct (Nat.eqb_spec c 0) as [->|NZ].
  - split; [split; [intros _; apply H0; destruct HL as [HL|HL]; [exact HL|apply CZ in HL; lia]|reflexivity]|]. split; intros; discriminate.
  - assert (HP : 1 <= hl) by (apply CZ; lia). assert (CP : 0 < INR c) by (apply lt_0_INR; lia).
    assert (IC : 0 < / INR c) by (apply Rinv_0_lt_compat; exact CP).
    assert (LBN : lb / INR c <= 0). { unfold Rdiv. rewrite <- (Rmult_0_l (/ INR c)). apply Rmult_le_compat_r; lra. }
    assert (W : forall l, l <= 0 -> 0 < (match bt with QCRI => exp (lb / INR c + l) - exp (l + adj / INR c) | _ => exp (lb / INR c + l) end) <= 1).
    { intros l LE. assert (E1 : exp (lb / INR c + l) <= 1) by (rewrite <- exp_0; destruct (Req_dec (lb / INR c + l) 0) as [->|NE]; [lra|left; apply exp_increasing; lra]).
      assert (E0 := exp_pos (lb / INR c + l)). destruct bt; try (split; [exact E0|exact E1]). destruct (B eq_refl) as (_ & B2). specialize (B2 ltac:(lia)).
      assert (adj / INR c < lb / INR c) by (unfold Rdiv; apply Rmult_lt_compat_r; lra). assert (exp (l + adj / INR c) < exp (lb / INR c + l)) by (apply exp_increasing; lra). assert (X := exp_pos (l + adj / INR c)). split; lra. }
    destruct (Rlt_dec hl rl) as [LT|GE].
    + destruct (Req_EM_T hl 0) as [Z|_]; [lra|]. split; [split; [discriminate|intros X; apply H0 in X; lra]|]. split.
      * intros r [= <-]. pose proof (alpha_pos bt) as AP. assert (IH : 0 < / hl) by (apply Rinv_0_lt_compat; lra).
        set (l := match bt with QCRI => (hl - rl - alpha bt) / hl | _ => (hl - rl) / hl end). assert (LN : l <= 0).
        { unfold l, Rdiv. destruct bt; rewrite <- (Rmult_0_l (/ hl)); apply Rmult_le_compat_r; lra. }
        specialize (W l LN). unfold l in W. destruct bt; exact W.
      * intros _ (_ & PF). apply Qeq_eqR in PF. fold hl rl in PF. lra.
    + split; [split; [discriminate|intros X; apply H0 in X; lra]|]. split.
      * intros r [= <-]. apply (W 0). lra.
      * intros NQ PF r [= <-]. rewrite (E PF). replace (0 / INR c + 0) with 0 by (unfold Rdiv; rewrite Rmult_0_l; lra). destruct bt; try apply exp_0. congruence.
Qed.
Open Scope nat_scope.

Theorem bleu_score : forall N bt (segs : list segment), 1 <= N -> Forall (fun g => fst g <> []) segs -> exists evs s,
  Forall2 (fun (g : segment) ev => mk_evaluator N bt (fst g) = Some ev) segs evs /\ total N bt evs (map snd segs) no_stats = Some s /\
  (ComputeScore N bt (fields s) = None <-> Forall (fun g => snd g = []) segs) /\
  (forall r, ComputeScore N bt (fields s) = Some r -> (0 < r <= 1)%R) /\
  (bt = IBM -> Forall (fun g => In (snd g) (fst g) /\ (len (snd g) < inject_Z 2000000)%Q) segs -> forall r, ComputeScore N bt (fields s) = Some r -> r = 1%R).
Proof.
  intros N bt segs N1 NE. assert (EV : exists evs, Forall2 (fun (g : segment) ev => mk_evaluator N bt (fst g) = Some ev) segs evs).
  { induction NE as [|(refs, hyp) segs NE F (evs & IH)]; [exists []; constructor|]. cbn [fst] in NE. destruct (mk_evaluator N bt refs) as [ev|] eqn:MK; [exists (ev :: evs); constructor; assumption|]. unfold mk_evaluator in MK. destruct refs; [congruence|discriminate]. }
  destruct EV as (evs & F). exists evs. destruct (total_spec N bt segs evs no_stats F) as (s & R & T & L & PF). exists s. split; [exact F|]. split; [exact R|]. specialize (T (tot_none N)).
  destruct (score_spec N bt s N1 T) as (A & B & C). split; [|split; [exact B|]].
  - rewrite A, L. assert (Z0 : ss_at no_stats (2 * N) = 0%Q) by (unfold ss_at, no_stats; cbn [fields]; destruct (2 * N); reflexivity). rewrite Z0. clear.
    assert (NN : (0 <= fold_right Qplus 0 (map (fun g : segment => len (snd g)) segs))%Q) by (induction segs as [|g segs IH]; cbn [map fold_right]; [lra|pose proof (len_nonneg (snd g)); lra]).
    split.
    + intros H. induction segs as [|g segs IH]; constructor.
      * cbn [map fold_right] in *. assert (NN' : (0 <= fold_right Qplus 0 (map (fun g : segment => len (snd g)) segs))%Q) by (clear; induction segs as [|g segs IH]; cbn [map fold_right]; [lra|pose proof (len_nonneg (snd g)); lra]).
        pose proof (len_nonneg (snd g)) as LG. assert (LZ : (len (snd g) == 0)%Q) by (unfold segment in *; lra). unfold len in LZ. change 0%Q with (inject_Z 0) in LZ. rewrite inject_Z_injective in LZ. destruct (snd g); [reflexivity|cbn in LZ; lia].
      * cbn [map fold_right] in *. assert (NN' : (0 <= fold_right Qplus 0 (map (fun g : segment => len (snd g)) segs))%Q) by (clear; induction segs as [|g segs IH]; cbn [map fold_right]; [lra|pose proof (len_nonneg (snd g)); lra]).
        pose proof (len_nonneg (snd g)) as LG. apply IH; [exact NN'|unfold segment in *; lra].
    + intros H. induction H as [|g segs G F IH]; cbn [map fold_right]; [reflexivity|]. cbn [map fold_right] in NN. rewrite G. change (len []) with 0%Q.
      assert (NN' : (0 <= fold_right Qplus 0 (map (fun g : segment => len (snd g)) segs))%Q) by (clear; induction segs as [|g segs IH]; cbn [map fold_right]; [lra|pose proof (len_nonneg (snd g)); lra]).
      specialize (IH NN'). unfold segment in *; lra.
  - intros -> FA r SR. apply (C ltac:(discriminate)); [|exact SR]. apply PF; [reflexivity|exact FA|apply perfect_none].
Qed.

(** * Arithmetic of statistics *)
Lemma combine_minus_nth : forall a b i, (nth i (combine_fields Qminus a b) 0 == nth i a 0 - nth i b 0)%Q.
Proof.
  intros a b. revert a. induction b as [|y b IH]; intros a i; cbn [combine_fields].
  - destruct i; symmetry; unfold Qminus; cbn [nth Qopp]; apply Qplus_0_r.
  - destruct a as [|x a], i as [|i]; cbn [nth]; try reflexivity; [|apply IH]. rewrite IH. destruct i; reflexivity.
Qed.
Lemma combine_len : forall op a b, length (combine_fields op a b) = max (length a) (length b).
Proof.
  intros op a b. revert a. induction b as [|y b IH]; intros a; cbn [combine_fields]; [rewrite Nat.max_0_r; reflexivity|].
  destruct a as [|x a]; cbn [length Nat.max]; rewrite IH; reflexivity.
Qed.
Lemma nth_map_0 : forall (f : Q -> Q) l i, (f 0 == 0)%Q -> (nth i (map f l) 0 == f (nth i l 0))%Q.
Proof. intros f l i F0. revert i. induction l as [|x l IH]; intros [|i]; cbn [map nth]; try (symmetry; exact F0); [reflexivity|apply IH]. Qed.
Theorem stats_arith : forall a b c i,
  (ss_at (ss_plus a b) i == ss_at a i + ss_at b i /\ ss_at (ss_minus a b) i == ss_at a i - ss_at b i /\
   ss_at (ss_mul a c) i == ss_at a i * c /\ ss_at (ss_div a c) i == ss_at a i / c)%Q /\
  length (fields (ss_plus a b)) = max (length (fields a)) (length (fields b)) /\ length (fields (ss_minus a b)) = max (length (fields a)) (length (fields b)).
Proof.
  intros. split; [|split; apply combine_len]. split; [apply plus_at|]. split; [apply combine_minus_nth|]. split; unfold ss_at, ss_mul, ss_div; cbn [fields].
  - apply (nth_map_0 (fun x => (x * c)%Q)). ring.
  - apply (nth_map_0 (fun x => (x / c)%Q)). unfold Qdiv. ring.
Qed.
Theorem stats_zero : forall a, ss_zero a = true <-> forall i, (ss_at a i == 0)%Q.
Proof.
  intros [d l]. unfold ss_zero, ss_at. cbn [fields]. rewrite forallb_forall. split.
  - intros H i. destruct (Nat.ltb_spec i (length l)) as [L|L]; [|rewrite nth_overflow by exact L; reflexivity]. apply Qeq_bool_iff, H, nth_In, L.
  - intros H x IX. apply Qeq_bool_iff. apply In_nth with (d := 0%Q) in IX. destruct IX as (i & _ & <-). apply H.
Qed.
Lemma fields_eq_spec : forall a b, fields_eq a b = true <-> length a = length b /\ forall i, (nth i a 0 == nth i b 0)%Q.
Proof.
  induction a as [|x a IH]; intros [|y b]; cbn [fields_eq].
  - split; [intros _; split; [reflexivity|intros; reflexivity]|reflexivity].
  - split; [discriminate|intros (L & _); discriminate].
  - split; [discriminate|intros (L & _); discriminate].
  - rewrite andb_true_iff, IH, Qeq_bool_iff. split.
    + intros (E & L & F). split; [cbn; congruence|]. intros [|i]; [exact E|apply F].
    + intros (L & F). split; [apply (F 0)|]. split; [injection L as L; exact L|]. intros i. apply (F (S i)).
Qed.
Theorem stats_eq : forall a b, ss_eq a b = true <-> length (fields a) = length (fields b) /\ forall i, (ss_at a i == ss_at b i)%Q.
Proof. intros a b. unfold ss_eq, ss_at. rewrite fields_eq_spec. split; intros (L & F); (split; [symmetry; exact L|intros i; symmetry; apply F]). Qed.
From Coq Require Import Permutation.
Theorem stats_sum : forall ss ss' a i, Permutation ss ss' -> (ss_at (fold_left ss_plus ss a) i == ss_at (fold_left ss_plus ss' a) i)%Q.
Proof.
  assert (G : forall ss a i, (ss_at (fold_left ss_plus ss a) i == ss_at a i + fold_right Qplus 0 (map (fun s => ss_at s i) ss))%Q).
  { induction ss as [|s ss IH]; intros a i; cbn [fold_left map fold_right]; [symmetry; apply Qplus_0_r|]. rewrite IH, plus_at. ring. }
  intros ss ss' a i P. rewrite !G. apply Qplus_inj_l. induction P as [| |x y l|]; cbn [map fold_right]; [reflexivity|rewrite IHP; reflexivity|ring|etransitivity; eassumption].
Qed.
