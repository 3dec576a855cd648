From Coq Require Import List ZArith Bool Lia.
From Verif Require Import Opt OptProofs Lattice LatticeSpec.
Import ListNotations.
Open Scope Z_scope.

Section Table.
Variable n : Z.
Hypothesis N1 : 1 <= n.
Definition mat (d : list Z) (i j : Z) : Z := at_ d (i + j * n).
Definition ok (d : list Z) : Prop := size d = n * n.
Definition inr (i : Z) : Prop := 0 <= i < n.
Lemma off_range i j : inr i -> inr j -> 0 <= i + j * n < n * n.
Proof. unfold inr. intros. nia. Qed.
Lemma off_inj i j i' j' : inr i -> inr i' -> i + j * n = i' + j' * n -> i = i' /\ j = j'.
Proof. unfold inr. intros. assert (j = j') by nia. subst. lia. Qed.
Lemma inr_b i j : inr i -> inr j -> andb (andb (0 <=? i) (i <? n)) (andb (0 <=? j) (j <? n)) = true.
Proof. unfold inr. intros. rewrite !andb_true_iff, !Z.leb_le, !Z.ltb_lt. lia. Qed.
Lemma cell_ok d i j : ok d -> inr i -> inr j -> cell n d i j = Some (mat d i j).
Proof. intros O I J. unfold cell. rewrite inr_b by auto. apply get_some. rewrite O. apply off_range; auto. Qed.
Lemma set_ok d i j v : ok d -> inr i -> inr j -> exists d', set_cell n d i j v = Some d' /\ ok d' /\
  forall i' j', inr i' -> inr j' -> mat d' i' j' = if andb (i' =? i) (j' =? j) then v else mat d i' j'.
Proof.
  intros O I J. unfold set_cell. rewrite inr_b by auto. destruct (put_some d (i + j * n) v) as (d' & -> & S & A); [rewrite O; apply off_range; auto|].
  exists d'. split; [auto|]. split; [unfold ok in *; lia|]. intros i' j' I' J'. unfold mat. pose proof (off_range i' j' I' J'). rewrite A by lia.
  destruct (Z.eqb_spec (i' + j' * n) (i + j * n)) as [E|E].
  - apply off_inj in E; auto. destruct E as [-> ->]. rewrite !Z.eqb_refl. auto.
  - destruct (Z.eqb_spec i' i); [|auto]. destruct (Z.eqb_spec j' j); [subst; lia|auto].
Qed.

Variable lat : list (list Z).
Hypothesis LN : n = Z.of_nat (length lat) + 1.
Hypothesis FW : forward lat.
Hypothesis SMALL : n <= kUNREACHABLE.
Let K := kUNREACHABLE.

Lemma arc_range i j : arc lat i j -> inr i /\ inr j /\ i < j.
Proof. intros A. pose proof (FW i j A). destruct A as (k & alts & d & A1 & A2 & -> & A3). unfold inr. lia. Qed.
Lemma walk_range i j m : walk lat i j m -> inr i /\ inr j /\ 1 <= m <= j - i.
Proof.
  induction 1 as [j A|l j m W IH A].
  - destruct (arc_range _ _ A) as (H1 & H2 & H3). split; [auto|]. split; [auto|]. lia.
  - destruct (arc_range _ _ A) as (H1 & H2 & H3). destruct IH as (H4 & H5 & H6). split; [auto|]. split; [auto|]. lia.
Qed.
Lemma walk_small i j m : walk lat i j m -> m < K.
Proof. intros W. apply walk_range in W. unfold inr, K in *. lia. Qed.
Lemma walk_trans i j m : walk lat i j m -> forall k m', walk lat j k m' -> walk lat i k (m + m').
Proof.
  intros W k m' V. induction V as [k A|l k m' V IH A]; [apply walk_step with j; auto|].
  replace (m + (m' + 1)) with (m + m' + 1) by lia. apply walk_step with l; auto.
Qed.
(** every entry is the length of a walk or "unreachable" *)
Definition sound (d : list Z) : Prop := forall i j, inr i -> inr j -> mat d i j = K \/ walk lat i j (mat d i j).
Lemma sound_le d i j : sound d -> inr i -> inr j -> mat d i j <= K.
Proof. intros S I J. destruct (S i j I J) as [E|W]; [lia|]. apply walk_small in W. lia. Qed.
Lemma sound_pos d i j : sound d -> inr i -> inr j -> 1 <= mat d i j.
Proof. intros S I J. destruct (S i j I J) as [E|W]; [rewrite E; unfold K, kUNREACHABLE; lia|]. apply walk_range in W. lia. Qed.

(** ** The arcs *)
Lemma set_arcs_ok i : inr i -> forall alts d, (forall a, In a alts -> arc lat i (i + a)) -> ok d -> sound d ->
  exists d', set_arcs n i alts d = Some d' /\ ok d' /\ sound d' /\ (forall a, In a alts -> mat d' i (i + a) = 1) /\
    (forall i' j', inr i' -> inr j' -> mat d i' j' = 1 -> mat d' i' j' = 1).
Proof.
  intros I. induction alts as [|a r IH]; intros d A O S; cbn [set_arcs].
  { exists d. split; [auto|]. split; [auto|]. split; [auto|]. split; [intros a []|auto]. }
  assert (Aa : arc lat i (i + a)) by (apply A; left; auto). destruct (arc_range _ _ Aa) as (_ & J & _).
  destruct (set_ok d i (i + a) 1 O I J) as (d1 & -> & O1 & M1). cbn [bind].
  destruct (IH d1) as (d' & E & O' & S' & M' & P'); auto.
  - intros; apply A; right; auto.
  - intros i' j' I' J'. rewrite M1 by auto. destruct (Z.eqb_spec i' i) as [->|]; [|apply S; auto]. destruct (Z.eqb_spec j' (i + a)) as [->|]; [|apply S; auto].
    right. cbn. constructor. auto.
  - exists d'. split; [exact E|]. split; [auto|]. split; [auto|]. split.
    + intros b [<-|B]; [|auto]. apply P'; auto. rewrite M1 by auto. rewrite !Z.eqb_refl. auto.
    + intros i' j' I' J' H. apply P'; auto. rewrite M1 by auto. destruct (andb _ _); auto.
Qed.
Lemma set_all_ok : forall rest pre d, lat = pre ++ rest -> ok d -> sound d ->
  exists d', set_all n (size (map Z.of_nat (seq 0 (length pre)))) rest d = Some d' /\ ok d' /\ sound d' /\
    (forall k alts a, (length pre <= k)%nat -> nth_error lat k = Some alts -> In a alts -> mat d' (Z.of_nat k) (Z.of_nat k + a) = 1) /\
    (forall i' j', inr i' -> inr j' -> mat d i' j' = 1 -> mat d' i' j' = 1).
Proof.
  assert (SZ : forall k, size (map Z.of_nat (seq 0 k)) = Z.of_nat k) by (intros; unfold size; rewrite map_length, seq_length; auto).
  induction rest as [|alts r IH]; intros pre d E O S; cbn [set_all].
  { exists d. split; [auto|]. split; [auto|]. split; [auto|]. split; [|auto]. intros k alts a L H. rewrite E, app_nil_r in H. assert (nth_error pre k <> None) by congruence. apply nth_error_Some in H0. lia. }
  rewrite SZ. assert (NE : nth_error lat (length pre) = Some alts) by (rewrite E, nth_error_app2, Nat.sub_diag by lia; auto).
  assert (AA : forall a, In a alts -> arc lat (Z.of_nat (length pre)) (Z.of_nat (length pre) + a)) by (intros a A; exists (length pre), alts, a; auto).
  assert (I : inr (Z.of_nat (length pre))). { unfold inr. rewrite LN, E, app_length. cbn [length]. lia. }
  destruct (set_arcs_ok _ I alts d AA O S) as (d1 & -> & O1 & S1 & M1 & P1). cbn [bind].
  destruct (IH (pre ++ [alts]) d1) as (d' & E' & O' & S' & M' & P'); auto.
  { rewrite <- app_assoc. auto. }
  exists d'. rewrite SZ, app_length in E'. cbn [length] in E'. replace (Z.of_nat (length pre + 1)) with (Z.of_nat (length pre) + 1) in E' by lia.
  split; [auto|]. split; [auto|]. split; [auto|]. split; [|auto].
  intros k alts' a L H A. rewrite app_length in M'. cbn [length] in M'. destruct (Nat.eq_dec k (length pre)) as [->|].
  - rewrite NE in H. injection H as <-. apply P'; auto. apply (arc_range _ _ (AA a A)).
  - apply (M' k alts'); auto. lia.
Qed.

(** ** Floyd and Warshall *)
(** walks whose inner positions are below k *)
Inductive via (k : Z) (i : Z) : Z -> Z -> Prop :=
| via_arc j : arc lat i j -> via k i j 1
| via_step l j m : via k i l m -> l < k -> arc lat l j -> via k i j (m + 1).
Lemma via_range k i j m : via k i j m -> inr i /\ inr j /\ 1 <= m.
Proof. induction 1 as [j A|l j m V IH L A]; destruct (arc_range _ _ A) as (H1 & H2 & H3); [|destruct IH as (? & ? & ?)]; (split; [auto|split; [auto|lia]]). Qed.
Lemma walk_via i j m : walk lat i j m -> via n i j m.
Proof. induction 1 as [j A|l j m W IH A]; [constructor; auto|]. apply via_step with l; auto. apply arc_range in A. unfold inr in A. lia. Qed.
Lemma via_zero i j m : via 0 i j m -> arc lat i j /\ m = 1.
Proof. intros V. inversion V as [j' A E1 E2|l j' m' V' L A E1 E2]; [auto|]. exfalso. apply arc_range in A. unfold inr in A. lia. Qed.
Lemma via_split k i j m : via (k + 1) i j m -> via k i j m \/ exists m1 m2, via k i k m1 /\ via k k j m2 /\ m1 + m2 <= m.
Proof.
  induction 1 as [j A|l j m V IH L A]; [left; constructor; auto|]. destruct (Z.eq_dec l k) as [->|].
  - destruct IH as [IH|(m1 & m2 & H1 & H2 & H3)].
    + right. exists m, 1. split; [auto|]. split; [constructor; auto|lia].
    + right. exists m1, 1. split; [auto|]. split; [constructor; auto|]. apply via_range in H2. lia.
  - destruct IH as [IH|(m1 & m2 & H1 & H2 & H3)].
    + left. apply via_step with l; auto. lia.
    + right. exists m1, (m2 + 1). split; [auto|]. split; [apply via_step with l; auto; lia|lia].
Qed.
Definition tight (k : Z) (d : list Z) : Prop := forall i j m, via k i j m -> mat d i j <= m.
Definition below (d' d : list Z) : Prop := forall i j, inr i -> inr j -> mat d' i j <= mat d i j.

Lemma relax_ok k i j d : inr k -> inr i -> inr j -> ok d -> sound d ->
  exists d', relax n k i j d = Some d' /\ ok d' /\ sound d' /\ below d' d /\ mat d' i j <= mat d i k + mat d k j.
Proof.
  intros Kk I J O S. unfold relax. rewrite !cell_ok by auto. cbn [bind].
  destruct (Z.ltb_spec (mat d i k + mat d k j) (mat d i j)) as [L|L].
  - destruct (set_ok d i j (mat d i k + mat d k j) O I J) as (d' & -> & O' & M). exists d'. split; [auto|]. split; [auto|].
    assert (W : walk lat i j (mat d i k + mat d k j)).
    { pose proof (sound_le d i j S I J). pose proof (sound_pos d i k S I Kk). pose proof (sound_pos d k j S Kk J).
      destruct (S i k I Kk) as [E|W1]; [lia|]. destruct (S k j Kk J) as [E|W2]; [lia|]. apply walk_trans with k; auto. }
    split; [|split].
    + intros i' j' I' J'. rewrite M by auto. destruct (Z.eqb_spec i' i) as [->|]; [|apply S; auto]. destruct (Z.eqb_spec j' j) as [->|]; [|apply S; auto]. right. exact W.
    + intros i' j' I' J'. rewrite M by auto. destruct (Z.eqb_spec i' i) as [->|]; [|cbn; lia]. destruct (Z.eqb_spec j' j) as [->|]; cbn; lia.
    + rewrite M by auto. rewrite !Z.eqb_refl. cbn. lia.
  - exists d. split; [auto|]. split; [auto|]. split; [auto|]. split; [intros i' j' _ _; lia|lia].
Qed.
Definition warshall (m : nat) := for_up m 0 (fun k => for_up m 0 (fun i => for_up m 0 (relax n k i))).
Lemma warshall_ok d m : n = Z.of_nat m -> ok d -> sound d -> tight 0 d -> exists d', warshall m d = Some d' /\ ok d' /\ sound d' /\ tight n d'.
Proof.
  intros HM O S T. unfold warshall.
  destruct (for_up_inv (fun k d => ok d /\ sound d /\ tight k d) (fun k => for_up m 0 (fun i => for_up m 0 (relax n k i))) m 0 d) as (d' & E & I1 & I2 & I3).
  - intros k d0 Hk (O0 & S0 & T0). assert (Kk : inr k) by (unfold inr; lia).
    destruct (for_up_inv (fun i d => ok d /\ sound d /\ below d d0 /\ forall i' j', 0 <= i' < i -> inr j' -> mat d i' j' <= mat d0 i' k + mat d0 k j')
      (fun i => for_up m 0 (relax n k i)) m 0 d0) as (d1 & E & A1 & A2 & A3 & A4).
    + intros i d1 Hi (O1 & S1 & B1 & C1). assert (I : inr i) by (unfold inr; lia).
      destruct (for_up_inv (fun j d => ok d /\ sound d /\ below d d1 /\ forall j', 0 <= j' < j -> mat d i j' <= mat d0 i k + mat d0 k j')
        (relax n k i) m 0 d1) as (d2 & E & A1 & A2 & A3 & A4).
      * intros j d2 Hj (O2 & S2 & B2 & C2). assert (J : inr j) by (unfold inr; lia). destruct (relax_ok k i j d2 Kk I J O2 S2) as (d3 & E & O3 & S3 & B3 & C3).
        exists d3. split; [auto|]. split; [auto|]. split; [auto|]. split; [intros i' j' I' J'; specialize (B3 i' j' I' J'); specialize (B2 i' j' I' J'); lia|].
        intros j' Hj'. destruct (Z.eq_dec j' j) as [->|].
        -- pose proof (B2 i k I Kk). pose proof (B1 i k I Kk). pose proof (B2 k j Kk J). pose proof (B1 k j Kk J). lia.
        -- pose proof (C2 j' ltac:(lia)). assert (inr j') by (unfold inr in *; lia). pose proof (B3 i j' I H0). lia.
      * split; [auto|]. split; [auto|]. split; [intros i' j' _ _; lia|]. intros; lia.
      * exists d2. split; [auto|]. split; [auto|]. split; [auto|]. split; [intros i' j' I' J'; specialize (A3 i' j' I' J'); specialize (B1 i' j' I' J'); lia|].
        intros i' j' Hi' J'. destruct (Z.eq_dec i' i) as [->|]; [apply A4; unfold inr in *; lia|]. assert (I' : inr i') by (unfold inr in *; lia).
        pose proof (C1 i' j' ltac:(lia) J'). pose proof (A3 i' j' I' J'). lia.
    + split; [auto|]. split; [auto|]. split; [intros i' j' _ _; lia|]. intros; lia.
    + exists d1. split; [auto|]. split; [auto|]. split; [auto|]. intros i j mm V. pose proof (via_range _ _ _ _ V) as (I & J & _).
      apply via_split in V. destruct V as [V|(m1 & m2 & V1 & V2 & LE)].
      * pose proof (T0 i j mm V). pose proof (A3 i j I J). lia.
      * pose proof (T0 _ _ _ V1). pose proof (T0 _ _ _ V2). pose proof (A4 i j ltac:(unfold inr in I; lia) J). lia.
  - auto.
  - exists d'. split; [auto|]. split; [auto|]. split; [auto|]. rewrite HM. exact I3.
Qed.

(** ** The rows *)
(** the value at j, or that of the first reachable position after it *)
Definition filled (d : list Z) (i j v : Z) : Prop :=
  (mat d i j < K /\ v = mat d i j) \/
  (mat d i j = K /\ exists j', j < j' < n /\ mat d i j' < K /\ v = mat d i j' /\ forall l, j < l < j' -> mat d i l = K) \/
  (forall l, j <= l < n -> mat d i l = K) /\ v = K.
Lemma fill_ok i d0 : inr i -> (forall j, inr j -> mat d0 i j <= K) -> forall k latest d, ok d -> Z.of_nat k <= n ->
  (forall i' j', inr i' -> inr j' -> i' <> i \/ j' < Z.of_nat k -> mat d i' j' = mat d0 i' j') ->
  (forall j, Z.of_nat k <= j < n -> filled d0 i j (mat d i j)) ->
  ((exists j', Z.of_nat k <= j' < n /\ mat d0 i j' < K /\ latest = mat d0 i j' /\ forall l, Z.of_nat k <= l < j' -> mat d0 i l = K) \/
   ((forall l, Z.of_nat k <= l < n -> mat d0 i l = K) /\ latest = K)) ->
  exists d', fill_row n i k latest d = Some d' /\ ok d' /\
    (forall i' j', inr i' -> inr j' -> i' <> i -> mat d' i' j' = mat d0 i' j') /\
    (forall j, inr j -> filled d0 i j (mat d' i j)).
Proof.
  intros I S. induction k as [|k IH]; intros latest d O HK SAME DONE LAT; cbn [fill_row].
  { exists d. split; [auto|]. split; [auto|]. split; [intros; apply SAME; auto|]. intros j J. apply DONE. unfold inr in J. lia. }
  assert (J : inr (Z.of_nat k)) by (unfold inr; lia). rewrite cell_ok by auto. cbn [bind]. rewrite (SAME i (Z.of_nat k)) by (auto; right; lia).
  fold K. destruct (Z.ltb_spec (mat d0 i (Z.of_nat k)) K) as [L|L].
  - apply IH; auto; [lia|intros; apply SAME; auto; lia| |].
    + intros j Hj. destruct (Z.eq_dec j (Z.of_nat k)) as [->|]; [|apply DONE; lia]. rewrite (SAME i (Z.of_nat k)) by (auto; right; lia). left. auto.
    + left. exists (Z.of_nat k). split; [lia|]. split; [auto|]. split; [auto|]. intros; lia.
  - assert (E : mat d0 i (Z.of_nat k) = K) by (pose proof (S (Z.of_nat k) J); lia).
    destruct (set_ok d i (Z.of_nat k) latest O I J) as (d1 & -> & O1 & M1). cbn [bind]. apply IH; auto; [lia| | |].
    + intros i' j' I' J' H. rewrite M1 by auto. destruct (Z.eqb_spec i' i) as [->|]; cbn; [|apply SAME; auto]. destruct (Z.eqb_spec j' (Z.of_nat k)) as [->|]; [lia|]. apply SAME; auto. right. lia.
    + intros j Hj. assert (Jj : inr j) by (unfold inr; lia). rewrite M1 by auto. rewrite Z.eqb_refl. cbn. destruct (Z.eqb_spec j (Z.of_nat k)) as [->|]; [|apply DONE; lia].
      destruct LAT as [(j' & L1 & L2 & L3 & L4)|(L1 & L2)].
      * right. left. split; [auto|]. exists j'. split; [lia|]. split; [auto|]. split; [auto|]. intros l Hl. apply L4. lia.
      * right. right. split; [|auto]. intros l Hl. destruct (Z.eq_dec l (Z.of_nat k)) as [->|]; [auto|]. apply L1. lia.
    + destruct LAT as [(j' & L1 & L2 & L3 & L4)|(L1 & L2)].
      * left. exists j'. split; [lia|]. split; [auto|]. split; [auto|]. intros l Hl. destruct (Z.eq_dec l (Z.of_nat k)) as [->|]; [auto|]. apply L4. lia.
      * right. split; [|auto]. intros l Hl. destruct (Z.eq_dec l (Z.of_nat k)) as [->|]; [auto|]. apply L1. lia.
Qed.
Lemma rows_ok d0 m : n = Z.of_nat m -> ok d0 -> sound d0 -> exists d', for_up m 0 (fun i => fill_row n i m kUNREACHABLE) d0 = Some d' /\ ok d' /\
  forall i j, inr i -> inr j -> filled d0 i j (mat d' i j).
Proof.
  intros HM O S.
  destruct (for_up_inv (fun k d => ok d /\ (forall i j, inr i -> inr j -> k <= i -> mat d i j = mat d0 i j) /\ forall i j, 0 <= i < k -> inr j -> filled d0 i j (mat d i j))
    (fun i => fill_row n i m kUNREACHABLE) m 0 d0) as (d' & E & O' & _ & P).
  - intros i d Hi (O1 & A & B). assert (I : inr i) by (unfold inr; lia).
    assert (SD : exists d', fill_row n i m K d = Some d' /\ ok d' /\
      (forall i' j', inr i' -> inr j' -> i' <> i -> mat d' i' j' = mat d i' j') /\ (forall j, inr j -> filled d0 i j (mat d' i j))).
    { destruct (fill_ok i d I) with (k := m) (latest := K) (d := d) as (d' & E & O' & X1 & X2); auto; try (intros; lia).
      { intros j J; rewrite A by (auto; lia); apply sound_le; auto. }
      { right. split; [intros; lia|auto]. }
      exists d'. split; [auto|]. split; [auto|]. split; [auto|].
      intros j J. specialize (X2 j J). unfold filled in *. rewrite (A i j I J ltac:(lia)) in X2.
      destruct X2 as [X2|[(X2 & j' & X3 & X4 & X5 & X6)|(X2 & X3)]]; [left; auto|right; left|right; right].
      - split; [auto|]. exists j'. rewrite (A i j') in X4, X5 by (auto; unfold inr in *; lia). split; [auto|]. split; [auto|]. split; [auto|].
        intros l Hl. rewrite <- (A i l) by (auto; unfold inr in *; lia). auto.
      - split; [|auto]. intros l Hl. rewrite <- (A i l) by (auto; unfold inr in *; lia). auto. }
    destruct SD as (d' & E & O' & X1 & X2). exists d'. split; [exact E|]. split; [auto|]. split.
    + intros i' j' I' J' H. rewrite X1 by (auto; lia). apply A; auto. lia.
    + intros i' j' H J'. destruct (Z.eq_dec i' i) as [->|]; [auto|]. rewrite X1 by (auto; unfold inr in *; lia). apply B; auto. lia.
  - split; [auto|]. split; [auto|]. intros; lia.
  - exists d'. split; [auto|]. split; [auto|]. intros i j I J. apply P; auto. unfold inr in I. lia.
Qed.
End Table.

Theorem distances lat : forward lat -> Z.of_nat (length lat) < kUNREACHABLE ->
  exists d, ComputeDistances [] lat = Some d /\
  forall i j, 0 <= i <= Z.of_nat (length lat) -> 0 <= j <= Z.of_nat (length lat) ->
    exists v, Distance lat d i j = Some v /\ distance_of lat i j v.
Proof.
  intros FW SMALL. set (m := S (length lat)). set (n := Z.of_nat m).
  assert (N1 : 1 <= n) by (unfold n, m; lia). assert (LN : n = Z.of_nat (length lat) + 1) by (unfold n, m; lia). assert (SM : n <= kUNREACHABLE) by lia.
  unfold ComputeDistances. fold m. fold n. set (d0 := resize [] (m * m) kUNREACHABLE).
  assert (O0 : ok n d0). { unfold ok, d0, resize, size, n. rewrite firstn_nil. cbn [app length]. rewrite repeat_length. lia. }
  assert (E0 : forall i j, inr n i -> inr n j -> mat n d0 i j = kUNREACHABLE).
  { intros i j I J. pose proof (off_range n N1 i j I J) as R. unfold mat, d0, resize. rewrite firstn_nil. cbn [app length]. unfold at_. rewrite Nat.sub_0_r.
    rewrite nth_indep with (d' := kUNREACHABLE); [apply nth_repeat|]. rewrite repeat_length. unfold n in R. lia. }
  destruct (set_all_ok n N1 lat LN FW lat [] d0 eq_refl O0) as (d1 & E1 & O1 & S1 & M1 & _); [intros i j I J; left; auto|]. cbn [length seq map] in E1. change (size []) with 0 in E1. rewrite E1. cbn [bind].
  assert (T1 : tight n lat 0 d1). { intros i j k V. apply (via_zero n lat LN FW) in V. destruct V as ((a & alts & x & A1 & A2 & -> & ->) & ->). rewrite (M1 a alts x); auto; [lia|cbn; lia]. }
  destruct (warshall_ok n N1 lat LN FW SM d1 m eq_refl O1 S1 T1) as (d2 & E2 & O2 & S2 & T2). unfold warshall in E2. rewrite E2. cbn [bind].
  destruct (rows_ok n N1 lat LN FW SM d2 m eq_refl O2 S2) as (d3 & E3 & O3 & F3). exists d3. split; [exact E3|].
  intros i j Hi Hj. assert (I : inr n i) by (unfold inr; lia). assert (J : inr n j) by (unfold inr; lia).
  exists (mat n d3 i j). split.
  { unfold Distance. fold m. fold n. destruct d3; [unfold ok in O3; cbn in O3; nia|]. apply cell_ok; auto. }
  assert (SH : forall l, inr n l -> mat n d2 i l < kUNREACHABLE -> shortest lat i l (mat n d2 i l)).
  { intros l L H. destruct (S2 i l I L) as [E|W]; [lia|]. split; [auto|]. intros m' W'. apply T2. apply (walk_via n lat LN FW); auto. }
  assert (NR : forall l, inr n l -> mat n d2 i l = kUNREACHABLE -> ~ reachable lat i l).
  { intros l L H (m' & W). pose proof (walk_small n lat LN FW SM _ _ _ W). apply (walk_via n lat LN FW) in W. apply T2 in W. lia. }
  destruct (F3 i j I J) as [(A & ->)|[(A & j' & B1 & B2 & -> & B3)|(A & ->)]].
  - left. exists j. split; [lia|]. split; [auto|]. intros; lia.
  - left. exists j'. split; [lia|]. split; [apply SH; auto; unfold inr in *; lia|]. intros l Hl. destruct (Z.eq_dec l j) as [->|]; [auto|]. apply NR; [unfold inr in *; lia|]. apply B3. lia.
  - right. split; [|auto]. intros l Hl. destruct (Z_lt_le_dec l n) as [L|L]; [apply NR; [unfold inr in *; lia|apply A; lia]|].
    intros (m' & W). apply (walk_range n lat LN FW) in W. unfold inr in W. lia.
Qed.

(** A plain sentence *)
Lemma sentence_arc L i j : arc (repeat [1] L) i j <-> 0 <= i < Z.of_nat L /\ j = i + 1.
Proof.
  split.
  - intros (k & alts & d & A & B & -> & ->). assert (k < L)%nat by (rewrite <- (repeat_length [1] L); apply nth_error_Some; congruence).
    apply nth_error_In, repeat_spec in A. subst. destruct B as [<-|[]]. lia.
  - intros (A & ->). exists (Z.to_nat i), [1], 1. split; [|split; [left; auto|split; lia]].
    rewrite nth_error_nth' with (d := [1]) by (rewrite repeat_length; lia). f_equal. apply nth_repeat.
Qed.
Lemma sentence_walk L i j m : walk (repeat [1] L) i j m <-> 0 <= i /\ i < j <= Z.of_nat L /\ m = j - i.
Proof.
  split.
  - induction 1 as [j A|l j m W IH A]; apply sentence_arc in A; lia.
  - intros (A & B & ->). remember (Z.to_nat (j - i - 1)) as k. revert j B Heqk. induction k as [|k IH]; intros j B E.
    + replace (j - i) with 1 by lia. apply walk_arc. apply sentence_arc. lia.
    + replace (j - i) with (j - 1 - i + 1) by lia. apply walk_step with (j - 1); [apply IH; lia|]. apply sentence_arc. lia.
Qed.
Theorem sentence_distance L : Z.of_nat L < kUNREACHABLE ->
  exists d, ComputeDistances [] (repeat [1] L) = Some d /\
  forall i j, 0 <= i -> i < j <= Z.of_nat L -> Distance (repeat [1] L) d i j = Some (j - i).
Proof.
  intros S. destruct (distances (repeat [1] L)) as (d & E & D); [|rewrite repeat_length; auto|].
  { intros i j A. apply sentence_arc in A. rewrite repeat_length. lia. }
  exists d. split; [auto|]. rewrite repeat_length in D. intros i j I J. destruct (D i j) as (v & -> & H); [lia|lia|].
  assert (R : reachable (repeat [1] L) i j) by (exists (j - i); apply sentence_walk; lia).
  destruct H as [(j' & A & (B & _) & C)|(A & _)]; [|exfalso; apply (A j); auto; lia].
  destruct (Z.eq_dec j' j) as [->|]; [|exfalso; apply (C j); auto; lia]. apply sentence_walk in B. f_equal. lia.
Qed.
Theorem distances_reachable lat : forward lat -> Z.of_nat (length lat) < kUNREACHABLE ->
  exists d, ComputeDistances [] lat = Some d /\
  forall i j, reachable lat i j -> exists m, shortest lat i j m /\ Distance lat d i j = Some m.
Proof.
  intros FW S. destruct (distances lat FW S) as (d & E & D). exists d. split; [auto|]. intros i j R. pose proof R as (m & W).
  apply (walk_range (Z.of_nat (length lat) + 1) lat eq_refl FW) in W. unfold inr in W. destruct (D i j) as (v & V & H); [lia|lia|].
  exists v. split; [|auto]. destruct H as [(j' & A & B & C)|(A & _)]; [|exfalso; apply (A j); auto; lia].
  destruct (Z.eq_dec j' j) as [->|]; [auto|]. exfalso. apply (C j); auto. lia.
Qed.
Lemma sentence_forward L : forward (repeat [1] L).
Proof. intros i j A. apply sentence_arc in A. rewrite repeat_length. lia. Qed.
Theorem self_refuted : exists lat d, forward lat /\ ComputeDistances [] lat = Some d /\
  Distance lat d 0 0 = Some 1 /\ Distance lat [] 0 0 = Some 0.
Proof.
  exists (repeat [1] 1). eexists. split; [apply sentence_forward|]. split; [vm_compute; reflexivity|]. split; vm_compute; reflexivity.
Qed.
Theorem recompute_refuted : exists lat1 lat2 d1 d2, forward lat1 /\ forward lat2 /\
  ComputeDistances [] lat1 = Some d1 /\ ComputeDistances d1 lat2 = Some d2 /\
  Distance lat2 d2 0 2 = Some 1 /\ shortest lat2 0 2 2.
Proof.
  exists [[2]; [1]], (repeat [1] 2). eexists. eexists.
  split. { intros i j (k & alts & d & H & A & -> & ->). cbn [length]. destruct k as [|[|k]]; cbn in H; try (injection H as <-); cbn in A; try lia. destruct k; discriminate. }
  split; [apply sentence_forward|]. split; [vm_compute; reflexivity|]. split; [vm_compute; reflexivity|]. split; [vm_compute; reflexivity|].
  split; [apply sentence_walk; lia|]. intros m W. apply sentence_walk in W. lia.
Qed.
