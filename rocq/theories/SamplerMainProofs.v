From Coq Require Import List ZArith Bool Lia Sorted Permutation.
From Verif Require Import Opt OptProofs Precomp PrecompSpec Suffix SuffixSpec SuffixLookupProofs Intersect IntersectSpec IntersectProofs IntersectLoopProofs IntersectMainProofs Sampler SamplerSpec SamplerProofs.
Import ListNotations.
Open Scope Z_scope.
Open Scope opt_scope.

Lemma create_prefix : forall lines i d, exists a, da_id (create i lines d) = da_id d ++ a.
Proof.
  induction lines as [|l r IH]; intros i d; cbn [create].
  - exists []. cbn. rewrite app_nil_r. reflexivity.
  - destruct (IH (i + 1) {| da_data := da_data d ++ l ++ [END_OF_LINE]; da_id := da_id d ++ map (fun _ => i) (l ++ [END_OF_LINE]); da_start := da_start d ++ [size (da_data d)] |}) as (a & ->).
    cbn [da_id]. rewrite <- app_assoc. eauto.
Qed.
Lemma create_ids : forall lines i d k p, sentence_of lines p k -> get (da_id (create i lines d)) (size (da_id d) + p) = Some (i + Z.of_nat k).
Proof.
  induction lines as [|l r IH]; intros i d k p H; unfold sentence_of in H.
  - rewrite !firstn_nil in H. change (size (text [])) with 0 in H. lia.
  - cbn [create]. pose proof (size_nonneg (da_id d)).
    assert (ES : size (map (fun _ => i) (l ++ [END_OF_LINE])) = size (l ++ [1])) by (unfold size; rewrite map_length; reflexivity).
    destruct k as [|k].
    + cbn [firstn text flat_map] in H. rewrite app_nil_r in H. change (size []) with 0 in H.
      match goal with |- context [create ?i ?r ?d] => destruct (create_prefix r i d) as (a & E) end. rewrite E. apply get_app1. cbn [da_id].
      rewrite get_app2 by lia. replace (size (da_id d) + p - size (da_id d)) with p by lia. rewrite get_nth by lia. rewrite nth_error_map.
      destruct (nth_error (l ++ [END_OF_LINE]) (Z.to_nat p)) eqn:EN; [cbn; f_equal; lia|].
      apply nth_error_None in EN. unfold size in H. change [1] with [END_OF_LINE] in H. lia.
    + change (firstn (S (S k)) (l :: r)) with (l :: firstn (S k) r) in H. change (firstn (S k) (l :: r)) with (l :: firstn k r) in H.
      cbn [text flat_map] in H. fold (text (firstn k r)) in H. fold (text (firstn (S k) r)) in H.
      rewrite !(size_app (l ++ [1])) in H.
      specialize (IH (i + 1) {| da_data := da_data d ++ l ++ [END_OF_LINE]; da_id := da_id d ++ map (fun _ => i) (l ++ [END_OF_LINE]); da_start := da_start d ++ [size (da_data d)] |} k (p - size (l ++ [1]))).
      cbn [da_id] in IH. rewrite (size_app (da_id d)), ES in IH. replace (size (da_id d) + size (l ++ [1]) + (p - size (l ++ [1]))) with (size (da_id d) + p) in IH by lia.
      rewrite IH; [f_equal; lia|]. unfold sentence_of. lia.
Qed.
Lemma sentence_ex : forall lines p, 0 <= p < size (text lines) -> exists k, sentence_of lines p k.
Proof.
  induction lines as [|l r IH]; intros p H; [change (size (text [])) with 0 in H; lia|].
  cbn [text flat_map] in H. fold (text r) in H. rewrite (size_app (l ++ [1])) in H. destruct (Z.lt_ge_cases p (size (l ++ [1]))).
  - exists 0%nat. unfold sentence_of. cbn [firstn text flat_map]. rewrite app_nil_r. change (size []) with 0. lia.
  - destruct (IH (p - size (l ++ [1])) ltac:(lia)) as (k & Hk). exists (S k). unfold sentence_of in *.
    change (firstn (S (S k)) (l :: r)) with (l :: firstn (S k) r). change (firstn (S k) (l :: r)) with (l :: firstn k r).
    cbn [text flat_map]. fold (text (firstn k r)). fold (text (firstn (S k) r)). rewrite !(size_app (l ++ [1])). lia.
Qed.

Section Generic.
Variable stray : option (Z -> Z).
Variable lines : list (list Z).
Variable blacklisted : Z -> bool.
Variable M : Z.
Variable position : Z -> option Z.
Variable matching : Z -> option (list Z).
Variables low high : Z.
Variable occs : list (list Z).
Hypothesis HM : 0 < M.
Hypothesis Hlow : 0 <= low <= high.
Hypothesis Hlen : Z.of_nat (length occs) = high - low.
Hypothesis Hpos : forall s, low <= s < high -> position s = Some (hd 0 (nth (Z.to_nat (s - low)) occs [])).
Hypothesis Hmat : forall s, low <= s < high -> matching s = Some (nth (Z.to_nat (s - low)) occs []).
Hypothesis Hin : Forall (fun o => 0 <= hd 0 o < size (text lines)) occs.
Let d := CreateDataArray lines.
Definition isblack (s : Z) : bool :=
  match get (da_id d) (hd 0 (nth (Z.to_nat (s - low)) occs [])) with Some k => blacklisted k | None => false end.
Lemma black_ok p : 0 <= p < size (text lines) -> exists k, sentence_of lines p k /\ get (da_id d) p = Some (Z.of_nat k).
Proof.
  intros H. destruct (sentence_ex lines p H) as (k & Hk). exists k. split; auto.
  exact (create_ids lines 0 {| da_data := []; da_id := []; da_start := [] |} k p Hk).
Qed.
Lemma occ_in s : low <= s < high -> 0 <= hd 0 (nth (Z.to_nat (s - low)) occs []) < size (text lines).
Proof. intros H. rewrite Forall_forall in Hin. apply Hin. apply nth_In. lia. Qed.
Lemma black_is s : low <= s < high -> black stray d blacklisted position s = Some (isblack s).
Proof.
  intros H. unfold black, sentence, isblack. rewrite Hpos by auto. cbn [bind]. destruct (black_ok _ (occ_in s H)) as (k & _ & ->). reflexivity.
Qed.
Lemma isblack_allowed s : low <= s < high -> (isblack s = false <-> allowed lines blacklisted (nth (Z.to_nat (s - low)) occs [])).
Proof.
  intros H. unfold isblack, allowed. destruct (black_ok _ (occ_in s H)) as (k & Hk & ->). split; [|auto].
  intros E k' Hk'. pose proof (create_ids lines 0 {| da_data := []; da_id := []; da_start := [] |} k _ Hk) as E1.
  pose proof (create_ids lines 0 {| da_data := []; da_id := []; da_start := [] |} k' _ Hk') as E2. rewrite E1 in E2. injection E2 as E2. rewrite E2 in E. exact E.
Qed.
Lemma append_ok : forall l, Forall (fun s => low <= s < high) l ->
  append_all matching l = Some (concat (map (fun n => nth n occs []) (map (fun s => Z.to_nat (s - low)) l))).
Proof. induction 1; cbn; auto. rewrite Hmat by auto. cbn [bind]. rewrite IHForall. reflexivity. Qed.
Lemma idx_sorted : forall l, Forall (fun s => low <= s < high) l -> StronglySorted Z.lt l -> StronglySorted lt (map (fun s => Z.to_nat (s - low)) l).
Proof.
  induction l as [|s l IH]; intros F SS; cbn; constructor; inversion F; inversion SS; subst; auto.
  apply Forall_forall. intros n Hn. apply in_map_iff in Hn. destruct Hn as (x & <- & Hx).
  rewrite Forall_forall in *. match goal with HH : forall x, In x l -> s < x |- _ => specialize (HH x Hx) end. lia.
Qed.
Let ok (idx : list nat) : Prop := StronglySorted lt idx /\ Forall (fun n => (n < length occs)%nat /\ allowed lines blacklisted (nth n occs [])) idx /\ Z.of_nat (length idx) <= M.
Lemma generic_ok : (M < stepM M low high -> forall s, 0 <= s < low -> 2 * M * low - 2 * stepM M low high - M < 2 * M * s -> exists b, black stray d blacklisted position s = Some b) ->
  exists idx, backoff_sample stray d blacklisted M position matching low high = Some (concat (map (fun n => nth n occs []) idx)) /\ ok idx /\
    (Z.of_nat (length occs) <= M -> forall n, (n < length occs)%nat -> allowed lines blacklisted (nth n occs []) -> In n idx) /\
    (idx = [] -> forall n, (n < length occs)%nat -> ~ allowed lines blacklisted (nth n occs [])).
Proof.
  intros Hleft. unfold backoff_sample.
  assert (R0 : round_div (low * M + 0 * stepM M low high) M = low) by (rewrite Z.mul_0_l, Z.add_0_r; apply round_int; lia).
  destruct (points_ok stray d blacklisted M position low high HM Hlow isblack black_is Hleft (Z.to_nat M) 0 (low - 1)) as (l & E & F & SS & LL & HE); try lia.
  rewrite Z.mul_0_l, Z.add_0_r in E. rewrite E. cbn [bind].
  assert (F' : Forall (fun s => low <= s < high) l) by (eapply Forall_impl; [|exact F]; cbn; intros; lia).
  exists (map (fun s => Z.to_nat (s - low)) l). split; [apply append_ok; auto|]. split; [split; [apply idx_sorted; auto|split]|split].
  - apply Forall_forall. intros n Hn. apply in_map_iff in Hn. destruct Hn as (s & <- & Hs). rewrite Forall_forall in F. specialize (F s Hs). cbn in F.
    split; [lia|]. apply isblack_allowed; [lia|apply F].
  - rewrite map_length. lia.
  - intros HS n Hn HA.
    pose proof (points_all stray d blacklisted M position low high HM Hlow isblack black_is ltac:(lia) (Z.to_nat M) 0 (low - 1) ltac:(lia) ltac:(lia) ltac:(lia)) as E'.
    cbv zeta beta in E'. rewrite Z.mul_0_l, !Z.add_0_r, E in E'. injection E' as ->. apply in_map_iff. exists (low + Z.of_nat n). split; [lia|].
    apply filter_In. split.
    + unfold zseq. apply in_map_iff. exists n. split; auto. apply in_seq. lia.
    + replace (isblack (low + Z.of_nat n)) with false; auto. symmetry. apply isblack_allowed; [lia|]. replace (Z.to_nat (low + Z.of_nat n - low)) with n by lia. exact HA.
  - intros HN n Hn HA. apply map_eq_nil in HN. specialize (HE HN eq_refl (low + Z.of_nat n) ltac:(lia)).
    assert (isblack (low + Z.of_nat n) = false); [|congruence]. apply isblack_allowed; [lia|]. replace (Z.to_nat (low + Z.of_nat n - low)) with n by lia. exact HA.
Qed.
Lemma generic_free : Forall (allowed lines blacklisted) occs ->
  exists idx, backoff_sample stray d blacklisted M position matching low high = Some (concat (map (fun n => nth n occs []) idx)) /\ ok idx /\
    Z.of_nat (length idx) = Z.min (Z.of_nat (length occs)) M.
Proof.
  intros HA. unfold backoff_sample.
  assert (R0 : round_div (low * M + 0 * stepM M low high) M = low) by (rewrite Z.mul_0_l, Z.add_0_r; apply round_int; lia).
  assert (HF : forall s, low <= s < high -> isblack s = false).
  { intros s Hs. apply isblack_allowed; auto. rewrite Forall_forall in HA. apply HA. apply nth_In. lia. }
  destruct (points_free stray d blacklisted M position low high HM Hlow isblack black_is HF (Z.to_nat M) 0 (low - 1)) as (l & E & F & SS & LL); try lia.
  rewrite Z.mul_0_l, Z.add_0_r in E. rewrite E. cbn [bind].
  assert (F' : Forall (fun s => low <= s < high) l) by (eapply Forall_impl; [|exact F]; cbn; intros; lia).
  exists (map (fun s => Z.to_nat (s - low)) l). split; [apply append_ok; auto|]. split; [split; [apply idx_sorted; auto|split]|].
  - apply Forall_forall. intros n Hn. apply in_map_iff in Hn. destruct Hn as (s & <- & Hs). rewrite Forall_forall in F. specialize (F s Hs). cbn in F.
    split; [lia|]. rewrite Forall_forall in HA. apply HA. apply nth_In. lia.
  - rewrite map_length. lia.
  - rewrite map_length. lia.
Qed.
End Generic.

Lemma concat_get : forall (occs : list (list Z)) k i, 0 < k -> Forall (fun o => size o = k) occs -> 0 <= i < Z.of_nat (length occs) ->
  get (concat occs) (i * k) = Some (hd 0 (nth (Z.to_nat i) occs [])) /\ slice (concat occs) (i * k) k = Some (nth (Z.to_nat i) occs []).
Proof.
  intros occs k i Hk F Hi.
  destruct (nth_split occs [] (n := Z.to_nat i)) as (a & b & E & L); [lia|].
  set (o := nth (Z.to_nat i) occs []) in *. clearbody o. rewrite E in F |- *. apply Forall_app in F. destruct F as [Fa Fb]. inversion Fb as [|? ? Fo Fb']; subst.
  rewrite concat_app. cbn [concat].
  assert (ES : size (concat a) = i * size o).
  { replace i with (Z.of_nat (length a)) by lia. clear - Fa. induction Fa; cbn [concat length]; [reflexivity|]. rewrite size_app, IHFa, H. lia. }
  rewrite <- ES. split; [|apply slice_mid; auto]. apply get_first. intros E0. rewrite E0 in Hk. change (size []) with 0 in Hk. lia.
Qed.
Lemma nth_range (sa : list Z) lo hi s : 0 <= lo <= hi -> hi <= size sa -> lo <= s < hi ->
  exists p, get sa s = Some p /\ nth (Z.to_nat (s - lo)) (map (fun p => [p]) (firstn (Z.to_nat (hi - lo)) (skipn (Z.to_nat lo) sa))) [] = [p].
Proof.
  intros H1 H2 Hs. destruct (nth_error sa (Z.to_nat s)) as [p|] eqn:E; [|apply nth_error_None in E; unfold size in H2; lia].
  exists p. rewrite get_nth by lia. split; auto. apply nth_error_nth. rewrite nth_error_map.
  assert (EN : nth_error (firstn (Z.to_nat (hi - lo)) (skipn (Z.to_nat lo) sa)) (Z.to_nat (s - lo)) = Some p); [|rewrite EN; reflexivity].
  rewrite <- E. rewrite <- (firstn_skipn (Z.to_nat lo) sa) at 2. rewrite nth_error_app2 by (rewrite firstn_length; unfold size in H2; lia).
  rewrite firstn_length. replace (Z.to_nat s - Nat.min (Z.to_nat lo) (length sa))%nat with (Z.to_nat (s - lo)) by (unfold size in H2; lia).
  set (t := skipn _ _). rewrite <- (firstn_skipn (Z.to_nat (hi - lo)) t) at 2. rewrite nth_error_app1; auto. rewrite firstn_length. subst t. rewrite skipn_length. unfold size in H2. lia.
Qed.
Lemma range_len (sa : list Z) lo hi : 0 <= lo <= hi -> hi <= size sa -> Z.of_nat (length (map (fun p : Z => [p]) (firstn (Z.to_nat (hi - lo)) (skipn (Z.to_nat lo) sa)))) = hi - lo.
Proof. intros H1 H2. rewrite map_length, firstn_length, skipn_length. unfold size in H2. lia. Qed.
Lemma sa_inner rnd voc data sa ws s : (1 <= voc)%nat -> Forall (fun x => 1 <= x < Z.of_nat voc) data -> BuildSuffixArray rnd voc data = Some (sa, ws) ->
  1 <= s < size sa -> exists p, get sa s = Some p /\ 0 <= p < size data.
Proof.
  intros HV HD HS Hs. destruct (suffix_build rnd voc data HV HD) as (sa' & ws' & E & HP & SS). rewrite E in HS. injection HS as -> ->.
  rewrite get_some by lia. eexists. split; [reflexivity|].
  assert (HI : In (at_ sa s) (positions data)) by (eapply Permutation_in; [exact HP|apply at_in; lia]).
  apply in_map_iff in HI. destruct HI as (n & E1 & Hn). apply in_seq in Hn.
  destruct (Z.eq_dec (at_ sa s) (size data)) as [E2|]; [exfalso|unfold size in *; lia].
  destruct sa as [|p0 r]; [change (size []) with 0 in Hs; lia|]. inversion SS as [|? ? _ F]; subst.
  assert (HR : In (at_ (p0 :: r) s) r). { unfold at_. replace (Z.to_nat s) with (Datatypes.S (Z.to_nat (s - 1))) by lia. cbn. apply nth_In. rewrite size_cons in Hs. unfold size in Hs. lia. }
  rewrite Forall_forall in F. specialize (F _ HR). rewrite E2 in F. unfold suffix at 2 in F. unfold size in F. rewrite Nat2Z.id, skipn_all in F. inversion F.
Qed.

Lemma match_denotes sa k occs idx : 0 < k -> Forall (fun o : list Z => size o = k) occs -> Forall (fun n => (n < length occs)%nat) idx ->
  denotes sa (match_loc (concat (map (fun n => nth n occs []) idx)) k) (map (fun n => nth n occs []) idx).
Proof.
  intros Hk F Fi. unfold denotes. cbn [matchings match_loc num_subpatterns]. split; auto. split; auto.
  apply Forall_forall. intros o Ho. apply in_map_iff in Ho. destruct Ho as (n & <- & Hn). rewrite Forall_forall in F, Fi. apply F. apply nth_In. auto.
Qed.
Lemma quot_len (occs : list (list Z)) k : 0 < k -> Forall (fun o => size o = k) occs -> Z.quot (size (concat occs)) k = Z.of_nat (length occs).
Proof.
  intros Hk F. assert (E : size (concat occs) = Z.of_nat (length occs) * k).
  { induction F; cbn [concat length]; [reflexivity|]. rewrite size_app, IHF, H. lia. }
  rewrite E. apply Z.quot_mul. lia.
Qed.
Theorem sample_ok stray rnd voc lines sa ws blacklisted M l occs : (1 <= voc)%nat -> Forall (fun x => 1 <= x < Z.of_nat voc) (text lines) ->
  BuildSuffixArray rnd voc (text lines) = Some (sa, ws) -> 0 < M -> denotes sa l occs -> Forall (fun o => 0 <= hd 0 o < size (text lines)) occs ->
  (stray = None -> matchings l = None -> sa_high l - sa_low l <= M * Z.max 1 (sa_low l - 1)) ->
  exists r idx, Sample stray (CreateDataArray lines) sa blacklisted M l = Some r /\ sample_result lines sa blacklisted M occs r idx /\
    (Z.of_nat (length occs) <= M -> forall n, (n < length occs)%nat -> allowed lines blacklisted (nth n occs []) -> In n idx) /\
    (idx = [] -> forall o, In o occs -> ~ allowed lines blacklisted o).
Proof.
  intros HV HD HS HM Hd Hin Hacc. unfold Sample.
  assert (HX : forall idx, (idx = @nil nat -> forall n, (n < length occs)%nat -> ~ allowed lines blacklisted (nth n occs [])) -> idx = [] -> forall o, In o occs -> ~ allowed lines blacklisted o).
  { intros idx H E o Ho. apply In_nth with (d := []) in Ho. destruct Ho as (n & Hn & <-). auto. }
  assert (HY : forall idx, Forall (fun n => (n < length occs)%nat /\ allowed lines blacklisted (nth n occs [])) idx -> Forall (fun n => (n < length occs)%nat) idx).
  { intros idx. apply Forall_impl. tauto. }
  unfold denotes in Hd. destruct (matchings l) as [ms|] eqn:El.
  - destruct Hd as (Hk & -> & F). destruct (Z.eqb_spec (num_subpatterns l) 0); [lia|]. rewrite (quot_len _ _ Hk F).
    destruct (generic_ok stray lines blacklisted M (fun i => get (concat occs) (i * num_subpatterns l)) (fun i => slice (concat occs) (i * num_subpatterns l) (num_subpatterns l)) 0 (Z.of_nat (length occs)) occs)
      as (idx & E & (SS & FF & LL) & H1 & H2); try lia; auto.
    + intros s Hs. rewrite Z.sub_0_r. apply concat_get; auto.
    + intros s Hs. rewrite Z.sub_0_r. apply concat_get; auto.
    + rewrite E. cbn [bind]. eexists. exists idx. split; [reflexivity|]. split; [|split; auto; apply HX; auto]. split; auto. apply match_denotes; auto.
  - destruct Hd as (Hk & HL & HH & EO).
    assert (HN : forall s, sa_low l <= s < sa_high l -> exists p, get sa s = Some p /\ nth (Z.to_nat (s - sa_low l)) occs [] = [p]) by (intros; rewrite EO; apply nth_range; auto).
    assert (F : Forall (fun o => size o = 1) occs) by (rewrite EO; apply Forall_forall; intros o Ho; apply in_map_iff in Ho; destruct Ho as (p & <- & _); reflexivity).
    destruct (generic_ok stray lines blacklisted M (get sa) (fun i => p <- get sa i ;; Some [p]) (sa_low l) (sa_high l) occs)
      as (idx & E & (SS & FF & LL) & H1 & H2); try lia; auto.
    + rewrite EO. apply range_len; auto.
    + intros s Hs. destruct (HN s Hs) as (p & -> & ->). reflexivity.
    + intros s Hs. destruct (HN s Hs) as (p & -> & ->). reflexivity.
    + intros Hstep s Hs HB. destruct stray as [f|].
      { unfold black. rewrite get_some by lia. cbn [bind]. unfold sentence. destruct (get _ _); cbn; eauto. }
      specialize (Hacc eq_refl eq_refl). unfold stepM in *.
      destruct (sa_inner rnd voc (text lines) sa ws s HV HD HS) as (p & E & Hp); [|].
      { split; [|lia]. destruct (Z.eq_dec s 0) as [->|]; [|lia]. exfalso. nia. }
      unfold black, sentence. rewrite E. cbn [bind]. destruct (black_ok lines p Hp) as (k & _ & ->). eexists. reflexivity.
    + rewrite E. cbn [bind]. eexists. exists idx. split; [reflexivity|]. split; [|split; auto; apply HX; auto]. split; auto. apply match_denotes; auto. lia.
Qed.
Theorem sample_free stray lines sa blacklisted M l occs : 0 < M -> denotes sa l occs -> Forall (fun o => 0 <= hd 0 o < size (text lines)) occs ->
  Forall (allowed lines blacklisted) occs ->
  exists r idx, Sample stray (CreateDataArray lines) sa blacklisted M l = Some r /\ sample_result lines sa blacklisted M occs r idx /\
    Z.of_nat (length idx) = Z.min (Z.of_nat (length occs)) M.
Proof.
  intros HM Hd Hin HA. unfold Sample.
  assert (HY : forall idx, Forall (fun n => (n < length occs)%nat /\ allowed lines blacklisted (nth n occs [])) idx -> Forall (fun n => (n < length occs)%nat) idx).
  { intros idx. apply Forall_impl. tauto. }
  unfold denotes in Hd. destruct (matchings l) as [ms|] eqn:El.
  - destruct Hd as (Hk & -> & F). destruct (Z.eqb_spec (num_subpatterns l) 0); [lia|]. rewrite (quot_len _ _ Hk F).
    destruct (generic_free stray lines blacklisted M (fun i => get (concat occs) (i * num_subpatterns l)) (fun i => slice (concat occs) (i * num_subpatterns l) (num_subpatterns l)) 0 (Z.of_nat (length occs)) occs)
      as (idx & E & (SS & FF & LL) & H1); try lia; auto.
    + intros s Hs. rewrite Z.sub_0_r. apply concat_get; auto.
    + intros s Hs. rewrite Z.sub_0_r. apply concat_get; auto.
    + rewrite E. cbn [bind]. eexists. exists idx. split; [reflexivity|]. split; auto. split; auto. apply match_denotes; auto.
  - destruct Hd as (Hk & HL & HH & EO).
    assert (HN : forall s, sa_low l <= s < sa_high l -> exists p, get sa s = Some p /\ nth (Z.to_nat (s - sa_low l)) occs [] = [p]) by (intros; rewrite EO; apply nth_range; auto).
    assert (F : Forall (fun o => size o = 1) occs) by (rewrite EO; apply Forall_forall; intros o Ho; apply in_map_iff in Ho; destruct Ho as (p & <- & _); reflexivity).
    destruct (generic_free stray lines blacklisted M (get sa) (fun i => p <- get sa i ;; Some [p]) (sa_low l) (sa_high l) occs)
      as (idx & E & (SS & FF & LL) & H1); try lia; auto.
    + rewrite EO. apply range_len; auto.
    + intros s Hs. destruct (HN s Hs) as (p & -> & ->). reflexivity.
    + intros s Hs. destruct (HN s Hs) as (p & -> & ->). reflexivity.
    + rewrite E. cbn [bind]. eexists. exists idx. split; [reflexivity|]. split; auto. split; auto. apply match_denotes; auto. lia.
Qed.
(** A blacklisted sentence makes the sampler read the sentence of the empty suffix. *)
Theorem sample_bad : exists rnd voc lines sa ws blacklisted M l occs, (1 <= voc)%nat /\ Forall (fun x => 1 <= x < Z.of_nat voc) (text lines) /\
  BuildSuffixArray rnd voc (text lines) = Some (sa, ws) /\ 0 < M /\ find_phrase (text lines) sa ws [2] = Some (sa_low l, sa_high l) /\ denotes sa l occs /\
  Forall (fun o => 0 <= hd 0 o < size (text lines)) occs /\ Sample None (CreateDataArray lines) sa blacklisted M l = None.
Proof.
  exists (fun _ => 0%N), 3%nat, [[2;2;2;2]], [5;4;3;2;1;0], [0;1;2;6], (fun k => k =? 0), 1, (range_loc 2 6), [[3];[2];[1];[0]].
  split; [repeat constructor|]. split; [repeat constructor; vm_compute; discriminate|]. split; [vm_compute; reflexivity|]. split; [reflexivity|].
  split; [vm_compute; reflexivity|]. split; [repeat split; vm_compute; discriminate|]. split; [|vm_compute; reflexivity].
  repeat constructor; vm_compute; discriminate.
Qed.
