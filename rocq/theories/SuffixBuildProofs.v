From Coq Require Import List Arith ZArith Bool Lia.
From Verif Require Import Opt OptProofs Suffix SuffixProofs.
Import ListNotations.
Open Scope Z_scope.

Definition cle (T : list Z) (w : Z) : Z := Z.of_nat (length (filter (fun x => x <=? w) T)).
Definition ceq (T : list Z) (i w : Z) : Z := Z.of_nat (count_occ Z.eq_dec (firstn (Z.to_nat i) T) w).
Lemma cle_step T w : cle T w = cle T (w - 1) + Z.of_nat (count_occ Z.eq_dec T w).
Proof.
  unfold cle. induction T as [|x T IH]; [reflexivity|]. cbn [filter count_occ].
  destruct (Z.leb_spec x w); destruct (Z.leb_spec x (w - 1)); destruct (Z.eq_dec x w); cbn [length]; lia.
Qed.
Lemma cle_mono T v w : v <= w -> cle T v <= cle T w.
Proof.
  intros H. unfold cle. induction T as [|x T IH]; [reflexivity|]. cbn [filter].
  destruct (Z.leb_spec x v); destruct (Z.leb_spec x w); cbn [length]; lia.
Qed.
Lemma cle_bound T w : 0 <= cle T w <= size T.
Proof. unfold cle, size. induction T as [|x T IH]; [simpl; lia|]. cbn [filter]. destruct (x <=? w); cbn [length]; lia. Qed.
Lemma cle_none T w : (forall x, In x T -> w < x) -> cle T w = 0.
Proof.
  unfold cle. induction T as [|x T IH]; [reflexivity|]. intros H. cbn [filter].
  destruct (Z.leb_spec x w) as [C|C]; [specialize (H x (or_introl eq_refl)); lia|]. apply IH. intros y Hy. apply H. right. auto.
Qed.
Lemma cle_all T w : (forall x, In x T -> x <= w) -> cle T w = size T.
Proof.
  unfold cle, size. induction T as [|x T IH]; [reflexivity|]. intros H. cbn [filter].
  destruct (Z.leb_spec x w) as [C|C]; [|specialize (H x (or_introl eq_refl)); lia]. cbn [length].
  rewrite !Nat2Z.inj_succ. rewrite IH; [auto|]. intros y Hy. apply H. right. auto.
Qed.
Lemma firstn_at T i : 0 <= i < size T -> firstn (Z.to_nat (i + 1)) T = firstn (Z.to_nat i) T ++ [at_ T i].
Proof.
  intros H. replace (Z.to_nat (i + 1)) with (S (Z.to_nat i)) by lia. unfold at_, size in *.
  assert (K : (Z.to_nat i < length T)%nat) by lia. revert K. generalize (Z.to_nat i). clear. induction T as [|x T IH]; intros n Hn; [simpl in Hn; lia|].
  destruct n as [|n]; [reflexivity|]. simpl in Hn. cbn [firstn nth app]. f_equal. apply IH. lia.
Qed.
Lemma ceq_0 T w : ceq T 0 w = 0.
Proof. reflexivity. Qed.
Lemma ceq_step T i w : 0 <= i < size T -> ceq T (i + 1) w = ceq T i w + if at_ T i =? w then 1 else 0.
Proof.
  intros H. unfold ceq. rewrite firstn_at by auto. rewrite count_occ_app. cbn [count_occ].
  destruct (Z.eqb_spec (at_ T i) w) as [->|Ne]; [destruct (Z.eq_dec w w); [lia|congruence]|]. destruct (Z.eq_dec (at_ T i) w); [congruence|lia].
Qed.
Lemma ceq_all T w : ceq T (size T) w = Z.of_nat (count_occ Z.eq_dec T w).
Proof. unfold ceq, size. rewrite Nat2Z.id, firstn_all. reflexivity. Qed.
Lemma ceq_mono T i j w : 0 <= i -> i <= j -> j <= size T -> ceq T i w <= ceq T j w.
Proof.
  intros Hi Hij. revert j Hij. apply (Zlt_lower_bound_ind (fun j => j <= size T -> ceq T i w <= ceq T j w) i).
  intros j IH Hj Hs. destruct (Z.eq_dec i j) as [->|Ne]; [lia|]. specialize (IH (j - 1) ltac:(lia) ltac:(lia)).
  replace j with (j - 1 + 1) by lia. rewrite ceq_step by lia. destruct (_ =? _); lia.
Qed.
Lemma ceq_nonneg T i w : 0 <= ceq T i w.
Proof. unfold ceq. lia. Qed.

Lemma at_repeat n x i : 0 <= i < Z.of_nat n -> at_ (repeat x n) i = x.
Proof. intros H. unfold at_. apply nth_error_nth. apply nth_error_repeat. lia. Qed.
Lemma size_repeat x n : size (repeat x n) = Z.of_nat n.
Proof. unfold size. rewrite repeat_length. auto. Qed.

Section Build.
Variable data : list Z.
Variable voc : nat.
Hypothesis VOC : (1 <= voc)%nat.
Hypothesis IDS : forall x, In x data -> 1 <= x < Z.of_nat voc.
Let T := data ++ [NULL_WORD].
Let N := size T.
Let V := Z.of_nat voc.
Notation t_ i := (at_ T i).
Notation cl := (cle T).
Notation ce := (ceq T).

Lemma N_data : N = size data + 1.
Proof. unfold N, T. rewrite size_app. reflexivity. Qed.
Lemma N_pos : 0 < N.
Proof. rewrite N_data. pose proof (size_nonneg data). lia. Qed.
Lemma T_in x : In x T -> 0 <= x < V.
Proof. unfold T. intros H. apply in_app_or in H. destruct H as [H|[<-|[]]]; [apply IDS in H; unfold V; lia|unfold NULL_WORD, V; lia]. Qed.
Lemma t_rng i : 0 <= i < N -> 0 <= t_ i < V.
Proof. intros H. apply T_in. apply at_in. auto. Qed.
Lemma t_data i : 0 <= i < size data -> t_ i = at_ data i /\ 1 <= t_ i < V.
Proof. intros H. unfold T. rewrite at_app1 by auto. split; [auto|]. apply IDS. apply at_in. auto. Qed.
Lemma t_last : t_ (N - 1) = 0.
Proof. rewrite N_data. unfold T. rewrite at_app2 by lia. replace (size data + 1 - 1 - size data) with 0 by lia. reflexivity. Qed.
Lemma t_uniq i : 0 <= i < N -> t_ i = t_ (N - 1) -> i = N - 1.
Proof.
  intros H E. rewrite t_last in E. destruct (Z_lt_le_dec i (size data)) as [Q|Q]; [|rewrite N_data in *; lia].
  destruct (t_data i) as [_ X]; lia.
Qed.
Lemma cl_neg w : w < 0 -> cl w = 0.
Proof. intros H. apply cle_none. intros x Hx. apply T_in in Hx. lia. Qed.
Lemma cl_top w : V - 1 <= w -> cl w = N.
Proof. intros H. apply cle_all. intros x Hx. apply T_in in Hx. lia. Qed.
Lemma cl_step w : cl w = cl (w - 1) + ce N w.
Proof. unfold N. rewrite ceq_all. apply cle_step. Qed.
Lemma ce_lt j : 0 <= j < N -> ce j (t_ j) + 1 <= ce N (t_ j).
Proof.
  intros H. pose proof (ceq_step T j (t_ j) H) as E. rewrite Z.eqb_refl in E.
  pose proof (ceq_mono T (j + 1) N (t_ j) ltac:(lia) ltac:(lia) ltac:(unfold N; lia)). lia.
Qed.

(** ** Bucket sort *)
Lemma count_ok ws : size ws = V + 1 -> (forall w, 0 <= w <= V -> at_ ws w = 0) ->
  exists ws', bs_count T ws = Some ws' /\ size ws' = V + 1 /\ forall w, 0 <= w <= V -> at_ ws' w = ce N w.
Proof.
  intros Sz Z0. unfold bs_count.
  destruct (for_up_inv (fun i ws => size ws = V + 1 /\ forall w, 0 <= w <= V -> at_ ws w = ce i w)
    (fun i ws => bind (get T i) (fun w => bind (get ws w) (fun c => put ws w (c + 1)))) (length T) 0 ws) as (ws' & E & I1 & I2).
  - intros i s Hi [A1 A2]. assert (Hi' : 0 <= i < N) by (unfold N, size; lia). pose proof (t_rng i Hi').
    rewrite get_some by auto. cbn [bind]. rewrite get_some by lia. cbn [bind].
    destruct (put_some s (t_ i) (at_ s (t_ i) + 1)) as (s' & -> & Sa & Aa); [lia|]. exists s'. split; [auto|]. split; [lia|].
    intros w Hw. rewrite Aa, ceq_step, (Z.eqb_sym (t_ i)) by (auto; lia). destruct (Z.eqb_spec w (t_ i)) as [->|Ne]; rewrite A2; lia.
  - split; [auto|]. intros w Hw. rewrite ceq_0. auto.
  - exists ws'. split; [exact E|]. split; [auto|]. intros w Hw. rewrite I2 by auto. f_equal.
Qed.
Lemma sum_ok ws : size ws = V + 1 -> (forall w, 0 <= w <= V -> at_ ws w = ce N w) ->
  exists ws', bs_sum ws = Some ws' /\ size ws' = V + 1 /\ forall w, 0 <= w <= V -> at_ ws' w = cl w.
Proof.
  intros Sz A. unfold bs_sum.
  destruct (for_up_inv (fun i s => size s = V + 1 /\ forall w, 0 <= w <= V -> at_ s w = if w <? i then cl w else ce N w)
    (fun i ws => bind (get ws i) (fun a => bind (get ws (i - 1)) (fun b => put ws i (a + b)))) (length ws - 1) 1 ws) as (ws' & E & I1 & I2).
  - intros i s Hi [A1 A2]. assert (Hi' : 1 <= i <= V) by (unfold size in Sz; lia).
    rewrite get_some by lia. cbn [bind]. rewrite get_some by lia. cbn [bind]. rewrite !A2 by lia.
    destruct (Z.ltb_spec i i); [lia|]. destruct (Z.ltb_spec (i - 1) i); [|lia].
    destruct (put_some s i (ce N i + cl (i - 1))) as (s' & -> & Sa & Aa); [lia|]. exists s'. split; [auto|]. split; [lia|].
    intros w Hw. rewrite Aa by lia. destruct (Z.eqb_spec w i) as [->|Ne].
    + destruct (Z.ltb_spec i (i + 1)); [|lia]. rewrite (cl_step i). lia.
    + rewrite A2 by auto. destruct (Z.ltb_spec w i); destruct (Z.ltb_spec w (i + 1)); auto; lia.
  - split; [auto|]. intros w Hw. rewrite A by auto. destruct (Z.ltb_spec w 1); [|auto].
    rewrite (cl_step w), (cl_neg (w - 1)) by lia. lia.
  - exists ws'. split; [exact E|]. split; [auto|]. intros w Hw. rewrite I2 by auto. destruct (Z.ltb_spec w (1 + Z.of_nat (length ws - 1))); [auto|].
    unfold size in Sz. lia.
Qed.
Definition pos (j : Z) : Z := cl (t_ j) - ce j (t_ j) - 1.
Lemma pos_bucket j : 0 <= j < N -> cl (t_ j - 1) <= pos j < cl (t_ j).
Proof. intros H. unfold pos. pose proof (ce_lt j H). pose proof (cl_step (t_ j)). pose proof (ceq_nonneg T j (t_ j)). lia. Qed.
Lemma bucket_uniq v w k : cl (v - 1) <= k < cl v -> cl (w - 1) <= k < cl w -> v = w.
Proof.
  intros A B. destruct (Z.lt_trichotomy v w) as [C|[C|C]]; [|auto|].
  - pose proof (cle_mono T v (w - 1) ltac:(lia)). lia.
  - pose proof (cle_mono T w (v - 1) ltac:(lia)). lia.
Qed.
Lemma pos_rng j : 0 <= j < N -> 0 <= pos j < N.
Proof.
  intros H. pose proof (pos_bucket j H). pose proof (cle_bound T (t_ j)). pose proof (cle_bound T (t_ j - 1)). unfold N. lia.
Qed.
Lemma pos_inj i j : 0 <= i < N -> 0 <= j < N -> pos i = pos j -> i = j.
Proof.
  assert (W : forall i j, 0 <= i -> i < j -> j < N -> pos i <> pos j).
  { intros a b Ha Hab Hb E. pose proof (pos_bucket a ltac:(lia)) as A. pose proof (pos_bucket b ltac:(lia)) as B. rewrite <- E in B.
    pose proof (bucket_uniq _ _ _ A B) as W. unfold pos in E. rewrite <- W in E.
    pose proof (ceq_step T a (t_ a) ltac:(unfold N in Hb; lia)) as S. rewrite Z.eqb_refl in S.
    pose proof (ceq_mono T (a + 1) b (t_ a) ltac:(lia) ltac:(lia) ltac:(unfold N in Hb; lia)). lia. }
  intros Hi Hj E. destruct (Z.lt_trichotomy i j) as [C|[C|C]]; [|auto|].
  - exfalso. eapply W; eauto; lia.
  - exfalso. eapply W; [| | |symmetry; eauto]; lia.
Qed.
Lemma place_ok sa ws : size sa = N -> size ws = V + 1 -> (forall w, 0 <= w <= V -> at_ ws w = cl w) ->
  exists sa' ws', bs_place T (sa, ws) = Some (sa', ws') /\ size sa' = N /\ size ws' = V + 1 /\
    (forall j, 0 <= j < N -> at_ sa' (pos j) = j) /\ forall w, 0 <= w <= V -> at_ ws' w = cl (w - 1).
Proof.
  intros Ss Sz A. unfold bs_place.
  destruct (for_up_inv (fun i s => size (fst s) = N /\ size (snd s) = V + 1 /\ (forall j, 0 <= j < i -> at_ (fst s) (pos j) = j) /\ forall w, 0 <= w <= V -> at_ (snd s) w = cl w - ce i w)
    (fun i (st : list Z * list Z) => let '(sa, ws) := st in
    bind (get T i) (fun w => bind (get ws w) (fun c => bind (put ws w (c - 1)) (fun ws' => bind (put sa (c - 1) i) (fun sa' => Some (sa', ws')))))) (length T) 0 (sa, ws))
    as ([sa' ws'] & E & I1 & I2 & I3 & I4).
  - intros i [s v] Hi (A1 & A2 & A3 & A4). cbn [fst snd] in *. assert (Hi' : 0 <= i < N) by (unfold N, size; lia). pose proof (t_rng i Hi').
    rewrite get_some by auto. cbn [bind]. rewrite get_some by lia. cbn [bind]. rewrite A4 by lia. fold (pos i).
    destruct (put_some v (t_ i) (pos i)) as (v' & -> & Sv & Av); [lia|]. cbn [bind].
    pose proof (pos_rng i Hi'). destruct (put_some s (pos i) i) as (s' & -> & Sa & Aa); [lia|]. cbn [bind].
    exists (s', v'). cbn [fst snd]. split; [auto|]. split; [lia|]. split; [lia|]. split.
    + intros j Hj. rewrite Aa by (apply pos_rng; lia). destruct (Z.eqb_spec (pos j) (pos i)) as [C|C].
      * apply pos_inj in C; lia.
      * apply A3. destruct (Z.eq_dec i j); [congruence|lia].
    + intros w Hw. rewrite Av by lia. rewrite ceq_step by auto. rewrite (Z.eqb_sym (t_ i)).
      destruct (Z.eqb_spec w (t_ i)) as [->|Ne]; [unfold pos; lia|]. rewrite A4; lia.
  - cbn [fst snd]. split; [auto|]. split; [auto|]. split; [intros; lia|]. intros w Hw. rewrite ceq_0, A by auto. lia.
  - cbn [fst snd] in *. exists sa', ws'. split; [exact E|]. split; [auto|]. split; [auto|]. split; [exact I3|].
    intros w Hw. rewrite I4 by auto. rewrite (cl_step w). change (0 + Z.of_nat (length T)) with N. lia.
Qed.
Lemma groups_ok ws n : n = length T -> size ws = V + 1 -> (forall w, 0 <= w <= V -> at_ ws w = cl (w - 1)) ->
  exists g, bs_groups n ws T = Some g /\ size g = N /\ forall i, 0 <= i < N -> at_ g i = cl (t_ i) - 1.
Proof.
  intros -> Sz A. unfold bs_groups.
  destruct (for_up_inv (fun i g => size g = N /\ forall k, 0 <= k < N -> at_ g k = if k <? i then cl (t_ k) - 1 else t_ k)
    (fun i g => bind (get g i) (fun w => bind (get ws (w + 1)) (fun c => put g i (c - 1)))) (length T) 0 T) as (g & E & I1 & I2).
  - intros i s Hi [A1 A2]. assert (Hi' : 0 <= i < N) by (unfold N, size; lia). pose proof (t_rng i Hi').
    rewrite get_some by lia. cbn [bind]. rewrite A2 by lia. destruct (Z.ltb_spec i i); [lia|].
    rewrite get_some by lia. cbn [bind]. rewrite A by lia. replace (t_ i + 1 - 1) with (t_ i) by lia.
    destruct (put_some s i (cl (t_ i) - 1)) as (s' & -> & Sa & Aa); [lia|]. exists s'. split; [auto|]. split; [lia|].
    intros k Hk. rewrite Aa by lia. destruct (Z.eqb_spec k i) as [->|Ne].
    + destruct (Z.ltb_spec i (i + 1)); [auto|lia].
    + rewrite A2 by auto. destruct (Z.ltb_spec k i); destruct (Z.ltb_spec k (i + 1)); auto; lia.
  - split; [auto|]. intros k Hk. destruct (Z.ltb_spec k 0); [lia|auto].
  - exists g. split; [exact E|]. split; [auto|]. intros i Hi. rewrite I2 by auto.
    destruct (Z.ltb_spec i (0 + Z.of_nat (length T))); [auto|]. unfold N, size in Hi. lia.
Qed.
Lemma bucket_ok : exists sa ws g, InitialBucketSort (repeat 0 (length T)) (repeat 0 (voc + 1)) T = Some (sa, ws, g) /\
  size sa = N /\ size ws = V + 1 /\ size g = N /\ (forall j, 0 <= j < N -> at_ sa (pos j) = j) /\
  (forall w, 0 <= w <= V -> at_ ws w = cl (w - 1)) /\ (forall i, 0 <= i < N -> at_ g i = cl (t_ i) - 1).
Proof.
  unfold InitialBucketSort.
  destruct (count_ok (repeat 0 (voc + 1))) as (ws1 & -> & S1 & A1).
  { rewrite size_repeat. unfold V. lia. } { intros w Hw. apply at_repeat. unfold V in Hw. lia. }
  cbn [bind]. destruct (sum_ok ws1 S1 A1) as (ws2 & -> & S2 & A2). cbn [bind].
  destruct (place_ok (repeat 0 (length T)) ws2) as (sa & ws & -> & S3 & S4 & A3 & A4); [apply size_repeat|auto|auto|]. cbn [bind].
  destruct (groups_ok ws (length sa)) as (g & -> & S5 & A5); [unfold N, size in S3; lia|auto|auto|]. cbn [bind].
  exists sa, ws, g. repeat split; auto.
Qed.
Lemma bucket_good sa g : (forall j, 0 <= j < N -> at_ sa (pos j) = j) -> size g = N -> (forall i, 0 <= i < N -> at_ g i = cl (t_ i) - 1) ->
  (forall s, 0 <= s < N -> 0 <= at_ sa s < N /\ pos (at_ sa s) = s) /\ good T (at_ sa) g 1.
Proof.
  intros P Sg G.
  assert (Q : forall s, 0 <= s < N -> 0 <= at_ sa s < N /\ pos (at_ sa s) = s).
  { intros s Hs. destruct (inj_surj pos N pos_rng pos_inj s Hs) as (j & Hj & <-). rewrite P by auto. auto. }
  split; [auto|]. constructor; fold N.
  - auto.
  - intros i Hi. apply Q. auto.
  - intros i j Hi Hj E. destruct (Q i Hi) as [_ <-]. destruct (Q j Hj) as [_ <-]. rewrite E. auto.
  - intros i Hi. destruct (Q i Hi) as [A B]. rewrite G by auto. pose proof (pos_bucket _ A) as C. rewrite B in C.
    pose proof (cle_bound T (t_ (at_ sa i))). unfold N. lia.
  - intros i k Hi Hk. destruct (Q i Hi) as [A B]. rewrite G in Hk by auto. pose proof (pos_bucket _ A) as C. rewrite B in C.
    pose proof (cle_bound T (t_ (at_ sa i))). assert (Hk' : 0 <= k < N) by (unfold N; lia). destruct (Q k Hk') as [A' B'].
    pose proof (pos_bucket _ A') as C'. rewrite B' in C'. rewrite !G by auto. do 2 f_equal. eapply bucket_uniq; [exact C'|]. lia.
  - intros p q Hp Hq L. rewrite !G in L by auto. exists 0. rewrite !Z.add_0_r. fold N. split; [lia|]. split; [lia|]. split; [lia|]. split; [lia|].
    destruct (Z_lt_le_dec (t_ p) (t_ q)); [auto|]. pose proof (cle_mono T (t_ q) (t_ p) ltac:(lia)). lia.
  - intros p q Hp Hq Ne E j Hj. assert (j = 0) as -> by lia. rewrite !Z.add_0_r. fold N. split; [lia|]. split; [lia|].
    rewrite !G in E by auto. pose proof (pos_bucket p Hp). pose proof (pos_bucket q Hq).
    destruct (Z.lt_trichotomy (t_ p) (t_ q)) as [C|[C|C]]; [|auto|].
    + pose proof (cle_mono T (t_ p) (t_ q - 1) ltac:(lia)). lia.
    + pose proof (cle_mono T (t_ q) (t_ p - 1) ltac:(lia)). lia.
Qed.
Lemma bucket_of sa g s w : (forall s, 0 <= s < N -> 0 <= at_ sa s < N /\ pos (at_ sa s) = s) -> (forall i, 0 <= i < N -> at_ g i = cl (t_ i) - 1) ->
  cl (w - 1) <= s < cl w -> at_ g (at_ sa s) = cl w - 1 /\ t_ (at_ sa s) = w.
Proof.
  intros Q G H. pose proof (cle_bound T w). pose proof (cle_bound T (w - 1)). destruct (Q s ltac:(unfold N; lia)) as [A B].
  pose proof (pos_bucket _ A) as C. rewrite B in C. pose proof (bucket_uniq _ _ _ C H) as E. rewrite G by auto. rewrite E. auto.
Qed.
Lemma mark_ok sa ws g : size sa = N -> size ws = V + 1 -> size g = N -> (forall j, 0 <= j < N -> at_ sa (pos j) = j) ->
  (forall w, 0 <= w <= V -> at_ ws w = cl (w - 1)) -> (forall i, 0 <= i < N -> at_ g i = cl (t_ i) - 1) ->
  exists sa', mark_sorted ws sa = Some sa' /\ size sa' = N /\ blk sa' (at_ sa) g 0 N.
Proof.
  intros S1 S2 S3 P W G. destruct (bucket_good sa g P S3 G) as [Q GD]. unfold mark_sorted.
  destruct (for_up_inv (fun i st => let '(a, c) := st in let B := cl (i - 2) in size a = N /\ 0 <= c <= B /\
      blk a (at_ sa) g 0 (B - c) /\ (0 < c -> at_ a (B - c) = - c /\ forall t, B - c <= t < B -> at_ g (at_ sa t) = t) /\
      forall t, B <= t < N -> at_ a t = at_ sa t)
    (fun i (st : list Z * Z) =>
    let '(sa, combined) := st in
    bind (get ws i) (fun b => bind (get ws (i - 1)) (fun a =>
    if b - a =? 1 then
      bind (put sa (b - (combined + 1)) (- (combined + 1))) (fun sa' => Some (sa', combined + 1))
    else Some (sa, 0)))) (length ws - 1) 1 (sa, 0)) as ([a c] & E & I1 & I2 & I3 & I4 & I5).
  - intros i [a c] Hi (A1 & A2 & A3 & A4 & A5). assert (Hi' : 1 <= i <= V) by (unfold size in S2; lia).
    rewrite get_some by lia. cbn [bind]. rewrite get_some by lia. cbn [bind]. rewrite !W by lia.
    replace (i - 1 - 1) with (i - 2) by lia. replace (i + 1 - 2) with (i - 1) by lia.
    pose proof (cle_mono T (i - 2) (i - 1) ltac:(lia)) as M. pose proof (cle_bound T (i - 1)) as M2. fold N in M2.
    assert (BK : forall s, cl (i - 2) <= s < cl (i - 1) -> at_ g (at_ sa s) = cl (i - 1) - 1).
    { intros s Hs. apply (bucket_of sa g s (i - 1) Q G). replace (i - 1 - 1) with (i - 2) by lia. auto. }
    set (B := cl (i - 2)) in *. set (B' := cl (i - 1)) in *.
    destruct (Z.eqb_spec (B' - B) 1) as [C|C].
    + replace (B' - (c + 1)) with (B - c) by lia.
      destruct (put_some a (B - c) (- (c + 1))) as (a' & -> & Sa & Aa); [lia|]. cbn [bind]. exists (a', c + 1). split; [auto|].
      replace (B' - (c + 1)) with (B - c) by lia.
      split; [lia|]. split; [lia|]. split; [|split].
      * eapply (blk_ext T); [exact A3|]. intros t Ht. rewrite Aa by lia. destruct (Z.eqb_spec t (B - c)); [lia|auto].
      * intros _. split; [rewrite Aa by lia; rewrite Z.eqb_refl; auto|].
        intros t Ht. destruct (Z_lt_le_dec t B); [apply A4; lia|]. rewrite BK by lia. lia.
      * intros t Ht. rewrite Aa by lia. destruct (Z.eqb_spec t (B - c)); [lia|]. apply A5. lia.
    + exists (a, 0). split; [auto|]. split; [auto|]. split; [lia|]. rewrite Z.sub_0_r. split; [|split; [lia|intros t Ht; apply A5; lia]].
      assert (X : blk a (at_ sa) g 0 B) by (apply (blk_close T) with c; [lia|auto|auto]).
      destruct (Z.eq_dec B' B) as [->|Ne]; [auto|]. apply blk_app with B; [auto|].
      apply bl_grp with (B' - 1); [lia| |replace (B' - 1 + 1) with B' by lia; constructor].
      intros t Ht. split; [apply A5; lia|]. apply BK. lia.
  - assert (Z0 : cl (1 - 2) = 0) by (apply cl_neg; lia). cbv zeta. rewrite Z0.
    split; [auto|]. split; [lia|]. split; [constructor|]. split; [lia|]. auto.
  - assert (ZN : cl (1 + Z.of_nat (length ws - 1) - 2) = N) by (apply cl_top; unfold size in S2; lia). rewrite ZN in *.
    exists a. rewrite E. cbn [bind fst]. split; [auto|]. split; [auto|]. apply (blk_close T) with c; [lia|auto|auto].
Qed.

(** ** The whole construction *)
Lemma finalize_ok s pm : sorted_state T s pm -> exists sa, finalize (qgr s) (qsa s) = Some sa /\ size sa = N /\ forall i, 0 <= i < N -> at_ sa i = pm i.
Proof.
  intros (S1 & S2 & R & I & E & _). fold N in S1, S2, R, I, E. unfold finalize.
  assert (GR : forall p, 0 <= p < N -> 0 <= at_ (qgr s) p < N /\ pm (at_ (qgr s) p) = p).
  { intros p Hp. destruct (inj_surj pm N R I p Hp) as (i & Hi & <-). rewrite E by auto. auto. }
  destruct (for_up_inv (fun i sa => size sa = N /\ forall p, 0 <= p < i -> at_ sa (at_ (qgr s) p) = p)
    (fun i sa => bind (get (qgr s) i) (fun r => put sa r i)) (length (qgr s)) 0 (qsa s)) as (sa & F & I1 & I2).
  - intros i a Hi [A1 A2]. assert (Hi' : 0 <= i < N) by (rewrite <- S2; unfold size; lia). destruct (GR i Hi') as [G1 G2].
    rewrite get_some by lia. cbn [bind]. destruct (put_some a (at_ (qgr s) i) i) as (a' & -> & Sa & Aa); [lia|].
    exists a'. split; [auto|]. split; [lia|]. intros p Hp. destruct (GR p ltac:(lia)) as [P1 P2]. rewrite Aa by lia.
    destruct (Z.eqb_spec (at_ (qgr s) p) (at_ (qgr s) i)) as [C|C]; [congruence|]. apply A2.
    destruct (Z.eq_dec p i); [congruence|lia].
  - split; [auto|]. intros; lia.
  - exists sa. split; [exact F|]. split; [auto|]. intros i Hi. rewrite <- (E i Hi) at 1. apply I2.
    change (0 + Z.of_nat (length (qgr s))) with (size (qgr s)). rewrite S2. auto.
Qed.
Definition sorted_sa (sa : list Z) : Prop :=
  size sa = N /\ (forall i, 0 <= i < N -> 0 <= at_ sa i < N) /\
  (forall i j, 0 <= i < N -> 0 <= j < N -> at_ sa i = at_ sa j -> i = j) /\
  (forall i j, 0 <= i -> i < j -> j < N -> sl T (at_ sa i) (at_ sa j)).
Lemma build_ok rnd : exists sa ws, BuildSuffixArray rnd voc data = Some (sa, ws) /\ sorted_sa sa /\
  size ws = V + 1 /\ forall w, 0 <= w <= V -> at_ ws w = cl (w - 1).
Proof.
  unfold BuildSuffixArray. fold T. destruct bucket_ok as (sa & ws & g & -> & S1 & S2 & S3 & P & W & G). cbn [bind].
  destruct (mark_ok sa ws g) as (sa1 & -> & S4 & B); auto. cbn [bind].
  destruct (doubling_ok T t_uniq N_pos rnd (length T + 1) 1 {| qsa := sa1; qgr := g; qk := 0 |} (at_ sa)) as (s & pm & -> & SS).
  - lia.
  - apply bucket_good; auto.
  - auto.
  - auto.
  - right. unfold size. lia.
  - cbn [bind]. destruct (finalize_ok s pm SS) as (sa2 & -> & S5 & E). cbn [bind]. exists sa2, ws. split; [auto|]. split; [|auto].
    destruct SS as (_ & _ & R & I & _ & O). split; [auto|]. split; [|split].
    + intros i Hi. rewrite E by auto. apply R. auto.
    + intros i j Hi Hj. rewrite !E by auto. apply I; auto.
    + intros i j Hi Hij Hj. rewrite !E by lia. apply O; auto.
Qed.
End Build.
