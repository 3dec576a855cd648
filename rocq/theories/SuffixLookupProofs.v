From Coq Require Import List Arith ZArith Bool Lia Permutation Sorted.
From Verif Require Import Opt OptProofs Suffix SuffixSpec SuffixProofs SuffixBuildProofs.
Import ListNotations.
Open Scope Z_scope.

Lemma suffix_cons data p : 0 <= p < size data -> suffix data p = at_ data p :: suffix data (p + 1).
Proof.
  intros H. unfold suffix, at_, size in *. replace (Z.to_nat (p + 1)) with (S (Z.to_nat p)) by lia.
  assert (K : (Z.to_nat p < length data)%nat) by lia. revert K. generalize (Z.to_nat p). clear. induction data as [|x d IH]; intros n K; [simpl in K; lia|].
  destruct n; [reflexivity|]. cbn [skipn nth]. apply IH. simpl in K. lia.
Qed.
Lemma suffix_nil data p : size data <= p -> suffix data p = [].
Proof. intros H. unfold suffix, size in *. apply skipn_all2. lia. Qed.

Lemma lex_at data : forall k p q, 0 <= p -> 0 <= q ->
  (forall j, 0 <= j < Z.of_nat k -> p + j < size data /\ q + j < size data /\ at_ data (p + j) = at_ data (q + j)) ->
  q + Z.of_nat k < size data ->
  (size data <= p + Z.of_nat k \/ at_ data (p + Z.of_nat k) < at_ data (q + Z.of_nat k)) ->
  lex (suffix data p) (suffix data q).
Proof.
  induction k as [|k IH]; intros p q Hp Hq A B C.
  - rewrite !Z.add_0_r in *. rewrite (suffix_cons data q) by lia. destruct (Z_lt_le_dec p (size data)) as [Q|Q].
    + rewrite (suffix_cons data p) by lia. apply lex_lt. lia.
    + rewrite suffix_nil by lia. constructor.
  - destruct (A 0 ltac:(lia)) as (A1 & A2 & A3). rewrite !Z.add_0_r in *.
    rewrite (suffix_cons data p), (suffix_cons data q) by lia. rewrite A3. apply lex_eq. apply IH; try lia.
    + intros j Hj. specialize (A (j + 1) ltac:(lia)). replace (p + 1 + j) with (p + (j + 1)) by lia. replace (q + 1 + j) with (q + (j + 1)) by lia. auto.
    + replace (p + 1 + Z.of_nat k) with (p + Z.of_nat (S k)) by lia. replace (q + 1 + Z.of_nat k) with (q + Z.of_nat (S k)) by lia. auto.
Qed.
Lemma starts_at data : forall w s, 0 <= s <= size data ->
  (starts w (suffix data s) <-> (s + size w <= size data /\ forall j, 0 <= j < size w -> at_ data (s + j) = at_ w j)).
Proof.
  induction w as [|x w IH]; intros s Hs.
  - split; [intros _; split; [unfold size in *; simpl; lia|unfold size; simpl; lia]|]. intros _. exists (suffix data s). reflexivity.
  - assert (SZ : size (x :: w) = size w + 1) by (unfold size; simpl length; lia). pose proof (size_nonneg w). rewrite SZ.
    destruct (Z_lt_le_dec s (size data)) as [Q|Q].
    + rewrite suffix_cons by lia. split.
      * intros (r & E). simpl in E. injection E as E1 E2. destruct (IH (s + 1)) as [F _]; [lia|]. destruct F as [F1 F2]; [exists r; auto|].
        split; [lia|]. intros j Hj. destruct (Z.eq_dec j 0) as [->|Ne]; [rewrite Z.add_0_r; auto|].
        specialize (F2 (j - 1) ltac:(lia)). replace (s + 1 + (j - 1)) with (s + j) in F2 by lia. rewrite F2.
        unfold at_. replace (Z.to_nat j) with (S (Z.to_nat (j - 1))) by lia. reflexivity.
      * intros [F1 F2]. destruct (IH (s + 1)) as [_ F]; [lia|]. destruct F as (r & F).
        -- split; [lia|]. intros j Hj. specialize (F2 (j + 1) ltac:(lia)). replace (s + 1 + j) with (s + (j + 1)) by lia. rewrite F2.
           unfold at_. replace (Z.to_nat (j + 1)) with (S (Z.to_nat j)) by lia. reflexivity.
        -- exists r. rewrite F. specialize (F2 0 ltac:(lia)). rewrite Z.add_0_r in F2. rewrite F2. reflexivity.
    + rewrite suffix_nil by lia. split; [intros (r & E); discriminate|lia].
Qed.
Lemma common_at data : forall L p q, 0 <= p -> 0 <= q -> share data (Z.of_nat L) p q -> ~ share data (Z.of_nat L + 1) p q ->
  common (suffix data p) (suffix data q) = Z.of_nat L.
Proof.
  induction L as [|L IH]; intros p q Hp Hq S NS.
  - destruct (Z_lt_le_dec p (size data)) as [Q|Q]; [|rewrite suffix_nil by lia; reflexivity].
    destruct (Z_lt_le_dec q (size data)) as [R|R]; [|rewrite (suffix_nil data q) by lia; destruct (suffix data p); reflexivity].
    rewrite (suffix_cons data p), (suffix_cons data q) by lia. cbn [common]. destruct (Z.eqb_spec (at_ data p) (at_ data q)) as [E|E]; [|auto].
    exfalso. apply NS. intros j Hj. assert (j = 0) as -> by lia. rewrite !Z.add_0_r. auto.
  - destruct (S 0 ltac:(lia)) as (S1 & S2 & S3). rewrite !Z.add_0_r in *.
    rewrite (suffix_cons data p), (suffix_cons data q) by lia. cbn [common]. rewrite S3, Z.eqb_refl. rewrite IH; [lia|lia|lia| |].
    + intros j Hj. replace (p + 1 + j) with (p + (j + 1)) by lia. replace (q + 1 + j) with (q + (j + 1)) by lia. apply S. lia.
    + intros C. apply NS. intros j Hj. destruct (Z.eq_dec j 0) as [->|Ne]; [rewrite !Z.add_0_r; auto|].
      specialize (C (j - 1) ltac:(lia)). replace (p + 1 + (j - 1)) with (p + j) in C by lia. replace (q + 1 + (j - 1)) with (q + j) in C by lia. auto.
Qed.

(** A non-decreasing list: the elements <= w are the first ones. *)
Lemma sorted_le L w : (forall i j, 0 <= i -> i < j -> j < size L -> at_ L i <= at_ L j) ->
  forall i, 0 <= i < size L -> (at_ L i <= w <-> i < cle L w).
Proof.
  unfold cle. induction L as [|x L IH]; intros S i Hi; [unfold size in Hi; simpl in Hi; lia|].
  assert (SZ : size (x :: L) = size L + 1) by (unfold size; simpl length; lia). rewrite SZ in *.
  assert (SH : forall j, 0 <= j -> at_ (x :: L) (j + 1) = at_ L j).
  { intros j Hj. unfold at_. replace (Z.to_nat (j + 1)) with (Datatypes.S (Z.to_nat j)) by lia. reflexivity. }
  assert (S' : forall i j, 0 <= i -> i < j -> j < size L -> at_ L i <= at_ L j).
  { intros a b Ha Hb Hn. rewrite <- !SH by lia. apply S; lia. }
  specialize (IH S'). cbn [filter].
  destruct (Z.eq_dec i 0) as [->|Ne].
  - change (at_ (x :: L) 0) with x. destruct (Z.leb_spec x w) as [Q|Q]; [cbn [length]; lia|].
    destruct (filter (fun x => x <=? w) L) as [|y f] eqn:F; [simpl; lia|].
    exfalso. assert (In y (filter (fun x => x <=? w) L)) as Y by (rewrite F; left; auto). apply filter_In in Y. destruct Y as [Y1 Y2].
    apply Z.leb_le in Y2. apply in_at in Y1. destruct Y1 as (k & Hk & Ek). specialize (S 0 (k + 1) ltac:(lia) ltac:(lia) ltac:(lia)).
    rewrite SH in S by lia. change (at_ (x :: L) 0) with x in S. lia.
  - specialize (IH (i - 1) ltac:(lia)). specialize (SH (i - 1) ltac:(lia)). replace (i - 1 + 1) with i in SH by lia. rewrite SH.
    destruct (Z.leb_spec x w) as [Q|Q]; [cbn [length]; lia|].
    assert (at_ L (i - 1) > w) by (pose proof (S 0 i ltac:(lia) ltac:(lia) ltac:(lia)) as X; rewrite SH in X; change (at_ (x :: L) 0) with x in X; lia).
    assert (i - 1 >= Z.of_nat (length (filter (fun x => x <=? w) L))) by lia. lia.
Qed.
Lemma cle_perm L L' w : Permutation L L' -> cle L w = cle L' w.
Proof.
  unfold cle. induction 1; auto; cbn [filter].
  - destruct (x <=? w); cbn [length]; lia.
  - destruct (x <=? w); destruct (y <=? w); reflexivity.
  - lia.
Qed.

Section Use.
Variable data : list Z.
Variable voc : nat.
Hypothesis VOC : (1 <= voc)%nat.
Hypothesis IDS : forall x, In x data -> 1 <= x < Z.of_nat voc.
Variable sa : list Z.
Hypothesis SA : sorted_sa data sa.
Let T := data ++ [NULL_WORD].
Let N := size T.
Let n := size data.
Notation t_ i := (at_ T i).

Lemma Nn : N = n + 1.
Proof. apply N_data. Qed.
Lemma tn : t_ n = 0.
Proof. unfold T, n. rewrite at_app2 by lia. rewrite Z.sub_diag. reflexivity. Qed.
Lemma td i : 0 <= i < n -> t_ i = at_ data i /\ 1 <= t_ i.
Proof. intros H. destruct (t_data data voc IDS i H) as [A B]. split; [exact A|apply B]. Qed.
Lemma t0 i : 0 <= i <= n -> 0 <= t_ i /\ (t_ i = 0 <-> i = n).
Proof. intros H. destruct (Z.eq_dec i n) as [->|Ne]; [rewrite tn; lia|]. destruct (td i); lia. Qed.
Lemma sa_size : size sa = N.
Proof. exact (proj1 SA). Qed.
Lemma sa_rng i : 0 <= i < N -> 0 <= at_ sa i <= n.
Proof. intros H. destruct SA as (_ & R & _). specialize (R i H). change (size (data ++ [NULL_WORD])) with N in R. rewrite Nn in R. lia. Qed.
Lemma sa_inj i j : 0 <= i < N -> 0 <= j < N -> at_ sa i = at_ sa j -> i = j.
Proof. exact (proj1 (proj2 (proj2 SA)) i j). Qed.
Lemma sa_lt i j : 0 <= i -> i < j -> j < N -> sl T (at_ sa i) (at_ sa j).
Proof. exact (proj2 (proj2 (proj2 SA)) i j). Qed.
Lemma sa_surj p : 0 <= p <= n -> exists i, 0 <= i < N /\ at_ sa i = p.
Proof.
  intros H. apply (inj_surj (at_ sa) N); [|apply sa_inj|rewrite Nn; lia].
  intros i Hi. pose proof (sa_rng i Hi). rewrite Nn. lia.
Qed.
Lemma sl_asym p q : sl T p q -> sl T q p -> False.
Proof.
  intros (k & K0 & K1 & K2 & K3 & K4) (k' & J0 & J1 & J2 & J3 & J4).
  destruct (Z.lt_trichotomy k k') as [C|[C|C]].
  - rewrite (J3 k) in K4 by lia. lia.
  - subst. lia.
  - rewrite (K3 k') in J4 by lia. lia.
Qed.
Lemma sl_rank i j : 0 <= i < N -> 0 <= j < N -> sl T (at_ sa i) (at_ sa j) -> i < j.
Proof.
  intros Hi Hj S. destruct (Z.lt_trichotomy i j) as [C|[C|C]]; [auto| |].
  - subst. exfalso. eapply sl_asym; eauto.
  - exfalso. eapply sl_asym; [exact S|]. apply sa_lt; lia.
Qed.

(** ** Order of the suffixes of the text *)
Lemma sl_lex p q : 0 <= p <= n -> 0 <= q <= n -> sl T p q -> lex (suffix data p) (suffix data q).
Proof.
  intros Hp Hq (k & K0 & K1 & K2 & K3 & K4). fold N in K1, K2. rewrite Nn in K1, K2.
  destruct (t0 (p + k) ltac:(lia)) as [P1 P2]. destruct (t0 (q + k) ltac:(lia)) as [Q1 Q2].
  assert (q + k <> n) by (intros C; apply Q2 in C; lia).
  apply (lex_at data (Z.to_nat k)); try lia.
  - intros j Hj. rewrite Z2Nat.id in Hj by lia. fold n. split; [lia|]. split; [lia|].
    destruct (td (p + j)) as [<- _]; [lia|]. destruct (td (q + j)) as [<- _]; [lia|]. apply K3. auto.
  - rewrite Z2Nat.id by lia. fold n. destruct (Z_lt_le_dec (p + k) n) as [C|C]; [right|left; auto].
    destruct (td (p + k)) as [<- _]; [lia|]. destruct (td (q + k)) as [<- _]; [lia|]. auto.
Qed.
Lemma sa_perm : Permutation sa (positions data).
Proof.
  apply NoDup_Permutation.
  - apply NoDup_nth with (d := 0). intros i j Hi Hj E. pose proof (sa_inj (Z.of_nat i) (Z.of_nat j)) as I.
    rewrite <- sa_size in I. unfold at_, size in I. rewrite !Nat2Z.id in I. specialize (I ltac:(lia) ltac:(lia) E). lia.
  - unfold positions. apply FinFun.Injective_map_NoDup; [intros a b; lia|apply seq_NoDup].
  - intros x. split; intros H.
    + apply in_at in H. destruct H as (i & Hi & <-). rewrite sa_size in Hi. pose proof (sa_rng i Hi).
      unfold positions. apply in_map_iff. exists (Z.to_nat (at_ sa i)). split; [lia|]. apply in_seq. unfold n, size in *. lia.
    + unfold positions in H. apply in_map_iff in H. destruct H as (k & <- & H). apply in_seq in H.
      destruct (sa_surj (Z.of_nat k)) as (i & Hi & <-); [unfold n, size; lia|]. apply at_in. rewrite sa_size. auto.
Qed.
Lemma nth_at (l : list Z) i : (i < length l)%nat -> nth i l 0 = at_ l (Z.of_nat i).
Proof. intros _. unfold at_. rewrite Nat2Z.id. auto. Qed.
Lemma ss_nth {A} (R : A -> A -> Prop) (d : A) l : (forall i j, (i < j < length l)%nat -> R (nth i l d) (nth j l d)) -> StronglySorted R l.
Proof.
  induction l as [|x l IH]; intros H; constructor.
  - apply IH. intros i j Hij. apply (H (S i) (S j)). simpl. lia.
  - apply Forall_forall. intros y Hy. apply In_nth with (d := d) in Hy. destruct Hy as (k & Hk & <-).
    apply (H 0%nat (S k)). simpl. lia.
Qed.
Lemma sa_sorted : StronglySorted (fun p q => lex (suffix data p) (suffix data q)) sa.
Proof.
  apply ss_nth with (d := 0). intros i j [H1 H2]. rewrite !nth_at by lia. pose proof sa_size as Sz. unfold size in Sz.
  apply sl_lex; try (apply sa_rng; lia). apply sa_lt; lia.
Qed.

(** ** Looking up *)
Lemma search_ok (key : Z -> Z) word offset :
  forall fuel low high result h0, 0 <= low -> low <= high -> high <= h0 -> h0 <= N -> high - low <= Z.of_nat fuel ->
  (forall i, low <= i < high -> 0 <= at_ sa i + offset <= n /\ t_ (at_ sa i + offset) = key i) ->
  (forall i j, low <= i -> i < j -> j < high -> key i <= key j) -> 1 <= word ->
  result = high ->
  exists r, LookupRangeStart fuel data sa low high word offset result = Some r /\ low <= r <= high /\
    (forall i, low <= i < r -> key i < word) /\ (forall i, r <= i < high -> word <= key i).
Proof.
  induction fuel as [|f IH]; intros low high result h0 L1 L2 L3 L4 F K M W ->.
  - cbn [LookupRangeStart]. destruct (Z.ltb_spec low high); [lia|]. exists high. split; [auto|]. repeat split; intros; lia.
  - cbn [LookupRangeStart]. destruct (Z.ltb_spec low high) as [C|C]; [|exists high; split; [auto|]; repeat split; intros; lia].
    cbv zeta. pose proof (Z.div_pos (high - low) 2 ltac:(lia) ltac:(lia)). pose proof (Z.div_lt (high - low) 2 ltac:(lia) ltac:(lia)).
    set (m := low + (high - low) / 2) in *. rewrite get_some by (rewrite sa_size; lia). cbn [bind].
    destruct (K m ltac:(lia)) as [K1 K2].
    assert (LS : (if size data <=? at_ sa m + offset then Some true else bind (get data (at_ sa m + offset)) (fun x => Some (x <? word))) = Some (key m <? word)).
    { fold n. destruct (Z.leb_spec n (at_ sa m + offset)) as [Q|Q].
      - assert (at_ sa m + offset = n) as E by lia. rewrite E, tn in K2. destruct (Z.ltb_spec (key m) word); [auto|lia].
      - rewrite get_some by (fold n; lia). cbn [bind]. destruct (td (at_ sa m + offset)) as [<- _]; [lia|]. rewrite K2. auto. }
    rewrite LS. cbn [bind]. destruct (Z.ltb_spec (key m) word) as [Q|Q].
    + destruct (IH (m + 1) high high h0) as (r & -> & R1 & R2 & R3); try lia.
      * intros i Hi. apply K. lia.
      * intros i j Hi Hij Hj. apply M; lia.
      * exists r. split; [auto|]. split; [lia|]. split; [|auto]. intros i Hi. destruct (Z_lt_le_dec m i); [apply R2; lia|].
        destruct (Z.eq_dec i m) as [->|]; [auto|]. pose proof (M i m ltac:(lia) ltac:(lia) ltac:(lia)). lia.
    + destruct (IH low m m h0) as (r & -> & R1 & R2 & R3); try lia.
      * intros i Hi. apply K. lia.
      * intros i j Hi Hij Hj. apply M; lia.
      * exists r. split; [auto|]. split; [lia|]. split; [auto|]. intros i Hi. destruct (Z_lt_le_dec i m); [apply R3; lia|].
        destruct (Z.eq_dec i m) as [->|]; [auto|]. pose proof (M m i ltac:(lia) ltac:(lia) ltac:(lia)). lia.
Qed.
Lemma range_at w low high : range_of data sa w low high <->
  0 <= low <= high /\ high <= N /\ forall i, 0 <= i < N -> (low <= i < high <-> starts w (suffix data (at_ sa i))).
Proof.
  pose proof sa_size as Sz. unfold range_of. unfold size in Sz. rewrite Sz.
  split; intros (A & B & C); (split; [auto|]); (split; [auto|]).
  - intros i Hi. specialize (C (Z.to_nat i) (at_ sa i)). rewrite Z2Nat.id in C by lia. apply C. apply nth_error_nth'. lia.
  - intros i p E. assert (Hi : (i < length sa)%nat) by (apply nth_error_Some; congruence).
    specialize (C (Z.of_nat i) ltac:(lia)). unfold at_ in C. rewrite Nat2Z.id in C. apply nth_error_nth with (d := 0) in E. rewrite E in C. auto.
Qed.
Lemma starts_snoc w x s : 0 <= s <= n -> 1 <= x ->
  (starts (w ++ [x]) (suffix data s) <-> starts w (suffix data s) /\ t_ (s + size w) = x).
Proof.
  intros Hs Hx. rewrite !starts_at by auto. fold n. pose proof (size_nonneg w).
  rewrite size_app. change (size [x]) with 1. split.
  - intros [A B]. split; [split; [lia|]|].
    + intros j Hj. rewrite B by lia. apply at_app1. auto.
    + destruct (td (s + size w)) as [-> _]; [lia|]. rewrite B by lia. rewrite at_app2 by lia. rewrite Z.sub_diag. reflexivity.
  - intros [[A B] C]. destruct (t0 (s + size w) ltac:(lia)) as [_ Z0].
    assert (s + size w < n) by (destruct (Z.eq_dec (s + size w) n) as [E|]; [apply Z0 in E; lia|lia]).
    split; [lia|]. intros j Hj. destruct (Z_lt_le_dec j (size w)) as [Q|Q]; [rewrite B by lia; symmetry; apply at_app1; lia|].
    assert (j = size w) as -> by lia. rewrite at_app2 by lia. rewrite Z.sub_diag. destruct (td (s + size w)) as [<- _]; [lia|]. auto.
Qed.
Lemma key_mono w i j : 0 <= i -> i < j -> j < N -> starts w (suffix data (at_ sa i)) -> starts w (suffix data (at_ sa j)) ->
  t_ (at_ sa i + size w) <= t_ (at_ sa j + size w).
Proof.
  intros Hi Hij Hj S1 S2. pose proof (sa_rng i ltac:(lia)) as R1. pose proof (sa_rng j ltac:(lia)) as R2.
  apply starts_at in S1; [|auto]. apply starts_at in S2; [|auto]. fold n in S1, S2. destruct S1 as [A1 B1]. destruct S2 as [A2 B2].
  pose proof (size_nonneg w). destruct (sa_lt i j Hi Hij Hj) as (k & K0 & K1 & K2 & K3 & K4).
  destruct (Z.lt_trichotomy k (size w)) as [C|[C|C]].
  - exfalso. destruct (td (at_ sa i + k)) as [E1 _]; [lia|]. destruct (td (at_ sa j + k)) as [E2 _]; [lia|]. rewrite E1, E2, B1, B2 in K4 by lia. lia.
  - subst. lia.
  - rewrite (K3 (size w)) by lia. lia.
Qed.
Lemma word_range ws w : size ws = Z.of_nat voc + 1 -> (forall w, 0 <= w <= Z.of_nat voc -> at_ ws w = cle T (w - 1)) ->
  1 <= w < Z.of_nat voc -> range_of data sa [w] (at_ ws w) (at_ ws (w + 1)).
Proof.
  intros Sw W Hw. rewrite !W by lia. replace (w + 1 - 1) with w by lia. apply range_at.
  pose proof (cle_bound T (w - 1)) as B1. pose proof (cle_bound T w) as B2. pose proof (cle_mono T (w - 1) w ltac:(lia)). fold N in B1, B2.
   split; [lia|]. split; [lia|]. intros i Hi. pose proof (sa_rng i Hi) as R.
  rewrite (starts_snoc [] w (at_ sa i)) by (auto; lia). change (size []) with 0. rewrite Z.add_0_r.
  set (L := map (fun p => t_ p) sa).
  assert (PL : Permutation L T).
  { unfold L. rewrite (Permutation_map (fun p => t_ p) sa_perm). unfold positions. rewrite map_map.
    assert (TE : map (fun x => t_ (Z.of_nat x)) (seq 0 (S (length data))) = T); [|rewrite TE; reflexivity].
    apply nth_ext with 0 0; [rewrite map_length, seq_length; unfold T; rewrite app_length; simpl; lia|].
    intros k Hk. rewrite map_length, seq_length in Hk.
    rewrite nth_indep with (d' := (fun x => t_ (Z.of_nat x)) 0%nat) by (rewrite map_length, seq_length; auto).
    rewrite (map_nth (fun x => t_ (Z.of_nat x))). rewrite seq_nth by auto. unfold at_. rewrite Nat2Z.id. reflexivity. }
  assert (SL : size L = N) by (unfold L, size; rewrite map_length; apply sa_size).
  assert (AL : forall k, 0 <= k < N -> at_ L k = t_ (at_ sa k)).
  { intros k Hk. unfold L, at_ at 1. pose proof sa_size as Z0. unfold size in Z0.
    rewrite nth_indep with (d' := (fun p => t_ p) 0) by (rewrite map_length; lia). rewrite (map_nth (fun p => t_ p)). reflexivity. }
  assert (ML : forall i j, 0 <= i -> i < j -> j < size L -> at_ L i <= at_ L j).
  { intros a b Ha Hab Hb. rewrite SL in Hb. rewrite !AL by lia.
    pose proof (key_mono [] a b Ha Hab Hb) as X. change (size []) with 0 in X. rewrite !Z.add_0_r in X.
    apply X; eexists; reflexivity. }
  pose proof (sorted_le L w ML i ltac:(lia)) as U. pose proof (sorted_le L (w - 1) ML i ltac:(lia)) as V.
  rewrite (cle_perm L T w PL) in U. rewrite (cle_perm L T (w - 1) PL) in V. rewrite AL in U, V by auto. fold T.
  split.
  - intros X. split; [eexists; reflexivity|]. lia.
  - intros [_ X]. lia.
Qed.
Lemma lookup_ok ws w word low high : size ws = Z.of_nat voc + 1 -> (forall w, 0 <= w <= Z.of_nat voc -> at_ ws w = cle T (w - 1)) ->
  1 <= word < Z.of_nat voc \/ word = -1 -> range_of data sa w low high ->
  exists a b, Lookup data sa ws low high word (size w) = Some (a, b) /\ range_of data sa (w ++ [word]) a b /\
    (0 < size w -> low <= a /\ b <= high \/ (a = b)).
Proof.
  intros Sw W Hw R. apply range_at in R. destruct R as (R1 & R2 & R3). unfold Lookup.
  destruct Hw as [Hw| ->].
  2:{ cbn [Z.eqb]. exists 0, 0. split; [reflexivity|]. split; [|auto]. apply range_at. split; [lia|]. split; [rewrite Nn; unfold n; pose proof (size_nonneg data); lia|].
      intros i Hi. split; [lia|]. intros C. exfalso. apply starts_at in C; [|apply sa_rng; auto]. rewrite size_app in C. change (size [-1]) with 1 in C.
      fold n in C. pose proof (sa_rng i Hi). pose proof (size_nonneg w).
      destruct C as [C1 C2]. specialize (C2 (size w) ltac:(lia)). rewrite at_app2 in C2 by lia. rewrite Z.sub_diag in C2. cbn in C2.
      destruct (td (at_ sa i + size w)); lia. }
  destruct (Z.eqb_spec word (-1)); [lia|].
  destruct (Z.eqb_spec (size w) 0) as [E|E].
  - assert (w = []) as -> by (destruct w; [auto|unfold size in E; simpl in E; lia]).
    rewrite !get_some by lia. cbn [bind]. do 2 eexists. split; [reflexivity|]. split; [apply word_range; auto|]. rewrite E. lia.
  - pose proof (size_nonneg w).
    assert (K : forall i, low <= i < high -> 0 <= at_ sa i + size w <= n /\ t_ (at_ sa i + size w) = t_ (at_ sa i + size w)).
    { intros i Hi. split; [|auto]. pose proof (sa_rng i ltac:(lia)). assert (S : starts w (suffix data (at_ sa i))) by (apply R3; lia).
      apply starts_at in S; [|auto]. fold n in S. lia. }
    assert (M : forall i j, low <= i -> i < j -> j < high -> t_ (at_ sa i + size w) <= t_ (at_ sa j + size w)).
    { intros i j Hi Hij Hj. apply key_mono; try lia; apply R3; lia. }
    assert (F : high - low <= Z.of_nat (length sa)) by (pose proof sa_size as X; unfold size in X; lia).
    destruct (search_ok (fun i => t_ (at_ sa i + size w)) word (size w) (length sa) low high high N) as (a & -> & A1 & A2 & A3); auto; try lia.
    destruct (search_ok (fun i => t_ (at_ sa i + size w)) (word + 1) (size w) (length sa) low high high N) as (b & -> & B1 & B2 & B3); auto; try lia.
    cbn [bind]. exists a, b. split; [reflexivity|].
    assert (AB : a <= b).
    { destruct (Z_le_dec a b); [auto|]. pose proof (A2 b ltac:(lia)). pose proof (B3 b ltac:(lia)). lia. }
    split; [|lia]. apply range_at. split; [lia|]. split; [lia|]. intros i Hi. rewrite starts_snoc by (try apply sa_rng; auto; lia).
    rewrite <- (R3 i Hi). split.
    + intros Hab. split; [lia|]. pose proof (A3 i ltac:(lia)). pose proof (B2 i ltac:(lia)). cbn beta in *. fold T. lia.
    + intros [Hlh Ex]. fold T in Ex. split.
      * destruct (Z_le_dec a i); [auto|]. pose proof (A2 i ltac:(lia)). cbn beta in *. lia.
      * destruct (Z_lt_le_dec i b); [auto|]. pose proof (B3 i ltac:(lia)). cbn beta in *. lia.
Qed.

(** ** The LCP array *)
Lemma rank_ok : exists rank, lcp_rank sa = Some rank /\ size rank = N /\ forall i, 0 <= i < N -> at_ rank (at_ sa i) = i.
Proof.
  unfold lcp_rank. pose proof sa_size as Sz.
  destruct (for_up_inv (fun i rank => size rank = N /\ forall k, 0 <= k < i -> at_ rank (at_ sa k) = k)
    (fun i rank => bind (get sa i) (fun s => put rank s i)) (length sa) 0 (repeat 0 (length sa))) as (rank & E & I1 & I2).
  - intros i s Hi [A1 A2]. assert (Hi' : 0 <= i < N) by (unfold size in Sz; lia). pose proof (sa_rng i Hi').
    rewrite get_some by lia. cbn [bind]. destruct (put_some s (at_ sa i) i) as (s' & -> & Sa & Aa); [rewrite A1, Nn; lia|].
    exists s'. split; [auto|]. split; [lia|]. intros k Hk. pose proof (sa_rng k ltac:(lia)). rewrite Aa by lia.
    destruct (Z.eqb_spec (at_ sa k) (at_ sa i)) as [C|C]; [apply sa_inj in C; lia|]. apply A2. destruct (Z.eq_dec k i); [congruence|lia].
  - split; [rewrite size_repeat; exact Sz|]. intros; lia.
  - exists rank. split; [exact E|]. split; [auto|]. intros i Hi. apply I2. unfold size in Sz. lia.
Qed.
Lemma extend_ok i j : 0 <= i -> 0 <= j -> forall fuel len, 0 <= len -> share data len i j -> n - len <= Z.of_nat fuel ->
  exists L, extend fuel data i j len = Some L /\ len <= L /\ share data L i j /\ ~ share data (L + 1) i j.
Proof.
  intros Hi Hj. induction fuel as [|f IH]; intros len H0 S F; cbn [extend]; fold n;
    destruct (Z.ltb_spec (i + len) n) as [A|A]; destruct (Z.ltb_spec (j + len) n) as [B|B]; cbn [andb];
    try (exists len; split; [auto|]; split; [lia|]; split; [auto|]; intros C; destruct (C len ltac:(lia)) as (C1 & C2 & _); fold n in C1, C2; lia).
  - lia.
  - rewrite !get_some by (fold n; lia). cbn [bind]. destruct (Z.eqb_spec (at_ data (i + len)) (at_ data (j + len))) as [E|E].
    + destruct (IH (len + 1)) as (L & -> & L1 & L2 & L3); [lia| |lia|].
      * intros k Hk. destruct (Z.eq_dec k len) as [->|]; [fold n; auto|apply S; lia].
      * exists L. split; [auto|]. split; [lia|]. auto.
    + exists len. split; [auto|]. split; [lia|]. split; [auto|]. intros C. destruct (C len ltac:(lia)) as (_ & _ & C3). auto.
Qed.
Lemma share_TD L p q : 0 <= p <= n -> 0 <= q <= n -> p <> q -> share T L p q -> share data L p q.
Proof.
  intros Hp Hq Ne S j Hj. destruct (S j Hj) as (A & B & C). fold N in A, B. rewrite Nn in A, B. fold n.
  destruct (t0 (p + j) ltac:(lia)) as [_ P]. destruct (t0 (q + j) ltac:(lia)) as [_ Q].
  assert (p + j <> n) by (intros X; apply P in X as Y; rewrite C in Y; apply Q in Y; lia).
  assert (q + j <> n) by (intros X; apply Q in X as Y; rewrite <- C in Y; apply P in Y; lia).
  split; [lia|]. split; [lia|]. destruct (td (p + j)) as [<- _]; [lia|]. destruct (td (q + j)) as [<- _]; [lia|]. auto.
Qed.
Lemma share_DT L p q : 0 <= p <= n -> 0 <= q <= n -> share data L p q -> share T L p q.
Proof.
  intros Hp Hq S j Hj. destruct (S j Hj) as (A & B & C). fold N. fold n in A, B. rewrite Nn.
  split; [lia|]. split; [lia|]. destruct (td (p + j)) as [-> _]; [lia|]. destruct (td (q + j)) as [-> _]; [lia|]. auto.
Qed.
Lemma between L p q r : sl T p q -> sl T q r -> share T L p r -> share T L q r.
Proof.
  intros (k & K0 & K1 & K2 & K3 & K4) (m & M0 & M1 & M2 & M3 & M4) S.
  destruct (Z_lt_le_dec m L) as [C|C].
  - exfalso. destruct (S m ltac:(lia)) as (_ & _ & E). destruct (Z.lt_trichotomy k m) as [Q|[Q|Q]].
    + destruct (S k ltac:(lia)) as (_ & _ & E'). rewrite (M3 k) in K4 by lia. lia.
    + subst. lia.
    + rewrite (K3 m) in E by lia. lia.
  - intros j Hj. destruct (S j Hj) as (S1 & S2 & S3). split; [lia|]. split; [auto|].
    destruct (Z.eq_dec j m); [lia|]. apply M3. lia.
Qed.
Lemma last_rank i : 0 <= i < N -> at_ sa i = n -> i = 0.
Proof.
  intros Hi E. destruct (Z.eq_dec i 0) as [|Ne]; [auto|]. exfalso.
  destruct (sa_lt 0 i ltac:(lia) ltac:(lia) ltac:(lia)) as (k & K0 & K1 & K2 & K3 & K4). fold N in K1, K2. rewrite E in *. rewrite Nn in *.
  assert (k = 0) as -> by lia. rewrite !Z.add_0_r in *. rewrite tn in K4. pose proof (sa_rng 0 ltac:(rewrite Nn; lia)).
  destruct (t0 (at_ sa 0)); lia.
Qed.
Lemma lcp_ok : exists lcp, BuildLCPArray data sa = Some lcp /\ size lcp = N /\ at_ lcp 0 = -1 /\
  forall r, 1 <= r < N -> at_ lcp r = common (suffix data (at_ sa (r - 1))) (suffix data (at_ sa r)).
Proof.
  unfold BuildLCPArray. destruct rank_ok as (rank & -> & Sr & R). cbn [bind].
  assert (RK : forall p, 0 <= p <= n -> 0 <= at_ rank p < N /\ at_ sa (at_ rank p) = p).
  { intros p Hp. destruct (sa_surj p Hp) as (i & Hi & <-). rewrite R by auto. auto. }
  set (val := fun r => if r =? 0 then -1 else common (suffix data (at_ sa (r - 1))) (suffix data (at_ sa r))).
  pose proof sa_size as Sz.
  destruct (for_up_inv (fun i st => size (fst st) = N /\ 0 <= snd st /\
      (forall p, 0 <= p < i -> at_ (fst st) (at_ rank p) = val (at_ rank p)) /\
      (i <= n -> 0 < at_ rank i -> share data (snd st) i (at_ sa (at_ rank i - 1))))
    (lcp_step data sa rank) (length sa) 0 (repeat 0 (length sa), 0)) as ([lcp len] & E & I1 & I2 & I3 & I4).
  - intros i [lcp len] Hi (A1 & A2 & A3 & A4). cbn [fst snd] in *.
    assert (Hi' : 0 <= i <= n) by (unfold size in Sz; rewrite Nn in Sz; lia). destruct (RK i Hi') as [R1 R2].
    unfold lcp_step. rewrite get_some by (rewrite Sr, Nn; lia). cbn [bind].
    assert (RI : forall p, 0 <= p <= i -> p <> i -> at_ rank p <> at_ rank i).
    { intros p Hp Ne X. destruct (RK p ltac:(lia)) as [_ Y]. congruence. }
    destruct (Z.eqb_spec (at_ rank i) 0) as [Z0|Z0].
    + destruct (put_some lcp (at_ rank i) (-1)) as (l' & -> & Sl & Al); [lia|]. cbn [bind].
      eexists. split; [reflexivity|]. cbn [fst snd]. split; [lia|]. split; [destruct (0 <? len) eqn:X; [apply Z.ltb_lt in X|]; lia|]. split.
      * intros p Hp. destruct (RK p ltac:(lia)). rewrite Al by lia. destruct (Z.eqb_spec (at_ rank p) (at_ rank i)) as [C|C].
        -- rewrite C, Z0. reflexivity.
        -- apply A3. destruct (Z.eq_dec p i); [congruence|lia].
      * intros Hn. exfalso. destruct (sa_surj n) as (k & Hk & Ek); [unfold n; pose proof (size_nonneg data); lia|].
        pose proof (last_rank k Hk Ek) as ->. rewrite Z0, Ek in R2. lia.
    + rewrite get_some by lia. cbn [bind]. set (j := at_ sa (at_ rank i - 1)) in *.
      assert (Hj : 0 <= j <= n) by (apply sa_rng; lia).
      assert (Nij : j <> i). { intros X. unfold j in X. rewrite <- R2 in X at 2. apply sa_inj in X; lia. }
      destruct (extend_ok i j ltac:(lia) ltac:(lia) (length data) len A2) as (L & -> & L1 & L2 & L3).
      { apply A4; lia. } { unfold n, size in *. lia. }
      cbn [bind]. destruct (put_some lcp (at_ rank i) L) as (l' & -> & Sl & Al); [lia|]. cbn [bind].
      eexists. split; [reflexivity|]. cbn [fst snd]. split; [lia|]. split; [destruct (0 <? L) eqn:X; [apply Z.ltb_lt in X|]; lia|]. split.
      * intros p Hp. destruct (RK p ltac:(lia)). rewrite Al by lia. destruct (Z.eqb_spec (at_ rank p) (at_ rank i)) as [C|C].
        -- rewrite C. unfold val. destruct (Z.eqb_spec (at_ rank i) 0); [lia|]. fold j. rewrite R2.
           rewrite (common_at data (Z.to_nat L) j i); [lia|lia|lia| |].
           ++ rewrite Z2Nat.id by lia. apply share_sym. auto.
           ++ rewrite Z2Nat.id by lia. intros C'. apply L3. apply share_sym. auto.
        -- apply A3. destruct (Z.eq_dec p i); [congruence|lia].
      * intros Hn HR. destruct (Z.ltb_spec 0 L) as [HL|HL]; [|assert (L = 0) as -> by lia; intros k Hk; lia].
        destruct (Z.eq_dec L 1) as [->|NL]; [intros k Hk; lia|].
        destruct (L2 0 ltac:(lia)) as (Q1 & Q2 & Q3). rewrite !Z.add_0_r in *. fold n in Q1, Q2.
        assert (SS : share T (L - 1) (j + 1) (i + 1)).
        { intros k Hk. destruct (share_DT L i j Hi' Hj L2 (k + 1) ltac:(lia)) as (X & Y & W).
          replace (j + 1 + k) with (j + (k + 1)) by lia. replace (i + 1 + k) with (i + (k + 1)) by lia. auto. }
        assert (LT : sl T (j + 1) (i + 1)).
        { assert (sl T j i) as (k & K0 & K1 & K2 & K3 & K4) by (rewrite <- R2; unfold j; apply sa_lt; lia).
          destruct (Z.eq_dec k 0) as [->|Nk].
          - exfalso. rewrite !Z.add_0_r in K4. destruct (td i) as [E1 _]; [lia|]. destruct (td j) as [E2 _]; [lia|]. lia.
          - exists (k - 1). replace (j + 1 + (k - 1)) with (j + k) by lia. replace (i + 1 + (k - 1)) with (i + k) by lia.
            split; [lia|]. split; [auto|]. split; [auto|]. split; [|auto]. intros x Hx.
            replace (j + 1 + x) with (j + (x + 1)) by lia. replace (i + 1 + x) with (i + (x + 1)) by lia. apply K3. lia. }
        destruct (RK (i + 1) ltac:(lia)) as [R3 R4]. destruct (RK (j + 1) ltac:(lia)) as [R5 R6].
        assert (LR : at_ rank (j + 1) < at_ rank (i + 1)) by (apply sl_rank; auto; rewrite R4, R6; auto).
        set (q := at_ sa (at_ rank (i + 1) - 1)).
        assert (Hq : 0 <= q <= n) by (apply sa_rng; lia).
        assert (Nq : i + 1 <> q). { intros X. unfold q in X. rewrite <- R4 in X at 1. apply sa_inj in X; lia. }
        assert (Sq : sl T q (i + 1)) by (rewrite <- R4; unfold q; apply sa_lt; lia).
        apply share_TD; auto; [lia|]. apply share_sym.
        destruct (Z.eq_dec (at_ rank (j + 1)) (at_ rank (i + 1) - 1)) as [X|X].
        -- unfold q. rewrite <- X, R6. auto.
        -- apply between with (j + 1); auto. rewrite <- R6. unfold q. apply sa_lt; lia.
  - cbn [fst snd]. split; [rewrite size_repeat; exact Sz|]. split; [lia|]. split; [intros; lia|]. intros _ _ k Hk. lia.
  - cbn [fst snd] in *. exists lcp. rewrite E. cbn [bind fst]. split; [auto|]. split; [auto|].
    assert (FIN : forall r, 0 <= r < N -> at_ lcp r = val r).
    { intros r Hr. pose proof (I3 (at_ sa r)) as X. rewrite R in X by auto. apply X. pose proof (sa_rng r Hr). unfold size in Sz. rewrite Nn in Sz. lia. }
    split; [rewrite FIN by (rewrite Nn; unfold n; pose proof (size_nonneg data); lia); reflexivity|].
    intros r Hr. rewrite FIN by lia. unfold val. destruct (Z.eqb_spec r 0); [lia|auto].
Qed.
End Use.

Section Phrase.
Variable data : list Z.
Variable voc : nat.
Hypothesis VOC : (1 <= voc)%nat.
Hypothesis IDS : forall x, In x data -> 1 <= x < Z.of_nat voc.
Variable sa : list Z.
Hypothesis SA : sorted_sa data sa.
Variable ws : list Z.
Hypothesis WS1 : size ws = Z.of_nat voc + 1.
Hypothesis WS2 : forall w, 0 <= w <= Z.of_nat voc -> at_ ws w = cle (data ++ [NULL_WORD]) (w - 1).
Lemma find_words_ok : forall r w low high, (forall x, In x r -> 1 <= x < Z.of_nat voc \/ x = -1) -> range_of data sa w low high ->
  exists a b, find_words data sa ws (low, high) (size w) r = Some (a, b) /\ range_of data sa (w ++ r) a b.
Proof.
  induction r as [|x r IH]; intros w low high V R.
  - cbn [find_words]. exists low, high. rewrite app_nil_r. auto.
  - cbn [find_words Find fst snd]. unfold Find. cbn [fst snd].
    assert (H0 : 0 <= low) by (destruct R as (? & _); lia).
    destruct (Z.eqb_spec low (-1)); [lia|]. cbn [andb].
    destruct (lookup_ok data voc VOC IDS sa SA ws w x low high WS1 WS2 (V x (or_introl eq_refl)) R) as (a & b & -> & R' & _). cbn [bind].
    replace (size w + 1) with (size (w ++ [x])) by (rewrite size_app; reflexivity).
    destruct (IH (w ++ [x]) a b) as (a' & b' & E & R2); [intros y Hy; apply V; right; auto|auto|].
    exists a', b'. split; [exact E|]. rewrite <- app_assoc in R2. exact R2.
Qed.
Lemma range_nil : range_of data sa [] 0 (size sa).
Proof.
  unfold range_of, size. split; [lia|]. split; [lia|]. intros i p E. split; [intros _; exists (suffix data p); reflexivity|].
  intros _. assert (i < length sa)%nat by (apply nth_error_Some; congruence). lia.
Qed.
Lemma find_phrase_ok w : w <> [] -> (forall x, In x w -> 1 <= x < Z.of_nat voc \/ x = -1) ->
  exists a b, find_phrase data sa ws w = Some (a, b) /\ range_of data sa w a b.
Proof.
  intros Ne V. unfold find_phrase. destruct w as [|x r]; [congruence|].
  pose proof (find_words_ok (x :: r) [] 0 (size sa) V range_nil) as H. cbn [find_words] in *. unfold Find in *. cbn [fst snd Z.eqb andb] in *.
  change (size []) with 0 in H. exact H.
Qed.
End Phrase.

Lemma occurrences data sa w a b : Permutation sa (positions data) -> range_of data sa w a b ->
  forall p, 0 <= p <= Z.of_nat (length data) -> (starts w (suffix data p) <-> exists i, a <= Z.of_nat i < b /\ nth_error sa i = Some p).
Proof.
  intros P (R1 & R2 & R3) p Hp. split.
  - intros S. assert (In p sa) as I.
    { rewrite P. unfold positions. apply in_map_iff. exists (Z.to_nat p). split; [lia|]. apply in_seq. lia. }
    apply In_nth_error in I. destruct I as (i & Hi). exists i. split; [|auto]. apply (R3 i p Hi). auto.
  - intros (i & Hi & E). apply (R3 i p E). auto.
Qed.

Lemma suffix_build rnd voc data : (1 <= voc)%nat -> Forall (fun x => 1 <= x < Z.of_nat voc) data ->
  exists sa ws, BuildSuffixArray rnd voc data = Some (sa, ws) /\
    Permutation sa (positions data) /\ StronglySorted (fun p q => lex (suffix data p) (suffix data q)) sa.
Proof.
  intros V I. rewrite Forall_forall in I. destruct (build_ok data voc V I rnd) as (sa & ws & E & S & _). exists sa, ws. split; [auto|].
  split; [apply (sa_perm data voc V)|apply (sa_sorted data voc V I)]; auto.
Qed.
Lemma suffix_lookup rnd voc data sa ws w word low high : (1 <= voc)%nat -> Forall (fun x => 1 <= x < Z.of_nat voc) data ->
  BuildSuffixArray rnd voc data = Some (sa, ws) -> 1 <= word < Z.of_nat voc \/ word = -1 -> range_of data sa w low high ->
  exists a b, Lookup data sa ws low high word (Z.of_nat (length w)) = Some (a, b) /\ range_of data sa (w ++ [word]) a b.
Proof.
  intros V I E W R. rewrite Forall_forall in I. destruct (build_ok data voc V I rnd) as (sa' & ws' & E' & S & S2 & S3). rewrite E in E'. injection E' as <- <-.
  destruct (lookup_ok data voc V I sa S ws w word low high S2 S3 W R) as (a & b & L & R' & _). exists a, b. auto.
Qed.
Lemma suffix_phrase rnd voc data sa ws w : (1 <= voc)%nat -> Forall (fun x => 1 <= x < Z.of_nat voc) data ->
  BuildSuffixArray rnd voc data = Some (sa, ws) -> w <> [] -> Forall (fun x => 1 <= x < Z.of_nat voc \/ x = -1) w ->
  exists a b, find_phrase data sa ws w = Some (a, b) /\ 0 <= a <= b /\ b <= Z.of_nat (length sa) /\
    forall p, 0 <= p <= Z.of_nat (length data) -> (starts w (suffix data p) <-> exists i, a <= Z.of_nat i < b /\ nth_error sa i = Some p).
Proof.
  intros V I E Ne W. rewrite Forall_forall in I, W. destruct (build_ok data voc V I rnd) as (sa' & ws' & E' & S & S2 & S3). rewrite E in E'. injection E' as <- <-.
  destruct (find_phrase_ok data voc V I sa S ws S2 S3 w Ne W) as (a & b & L & R). exists a, b. split; [auto|].
  destruct R as (R1 & R2 & R3). split; [auto|]. split; [auto|]. apply occurrences; [apply (sa_perm data voc V); auto|split; auto].
Qed.
Lemma suffix_lcp rnd voc data sa ws : (1 <= voc)%nat -> Forall (fun x => 1 <= x < Z.of_nat voc) data ->
  BuildSuffixArray rnd voc data = Some (sa, ws) ->
  exists lcp, BuildLCPArray data sa = Some lcp /\ length lcp = length sa /\ nth_error lcp 0 = Some (-1) /\
    forall r p q, nth_error sa r = Some p -> nth_error sa (S r) = Some q ->
      nth_error lcp (S r) = Some (common (suffix data p) (suffix data q)).
Proof.
  intros V I E. rewrite Forall_forall in I. destruct (build_ok data voc V I rnd) as (sa' & ws' & E' & S & S2 & S3). rewrite E in E'. injection E' as <- <-.
  destruct (lcp_ok data voc V I sa S) as (lcp & L & L1 & L2 & L3). exists lcp. pose proof (sa_size data sa S) as Sz. unfold size in Sz, L1.
  assert (Len : length lcp = length sa) by lia. split; [auto|]. split; [auto|].
  assert (0 < length sa)%nat by (rewrite app_length in Sz; simpl in Sz; lia).
  split.
  - unfold at_ in L2. simpl in L2. rewrite <- L2. apply nth_error_nth'. lia.
  - intros r p q Hp Hq. assert (Hr : (Datatypes.S r < length sa)%nat) by (apply nth_error_Some; congruence).
    specialize (L3 (Z.of_nat (Datatypes.S r))). unfold size in L3. specialize (L3 ltac:(lia)).
    replace (Z.of_nat (Datatypes.S r) - 1) with (Z.of_nat r) in L3 by lia. unfold at_ in L3. rewrite !Nat2Z.id in L3.
    apply nth_error_nth with (d := 0) in Hp. apply nth_error_nth with (d := 0) in Hq. rewrite Hp, Hq in L3. rewrite <- L3.
    apply nth_error_nth'. lia.
Qed.
