From Coq Require Import List Arith ZArith QArith Qabs Bool Lia Lqa.
From Verif Require Import HG HGProofs Stats Bleu BleuSpec.
Import ListNotations.
Open Scope nat_scope.

Lemma gram_eqb_spec : forall a b, reflect (a = b) (gram_eqb a b).
Proof. intros a b. unfold gram_eqb. destruct (list_eq_dec Z.eq_dec a b); constructor; assumption. Qed.
Lemma gram_eqb_refl : forall a, gram_eqb a a = true.
Proof. intros a. destruct (gram_eqb_spec a a); congruence. Qed.
Lemma get_touch : forall m k f k', get (touch m k f) k' = if gram_eqb k k' then f (get m k) else get m k'.
Proof.
  induction m as [|(a, v) m IH]; intros k f k'; cbn [touch get].
  - destruct (gram_eqb k k'); reflexivity.
  - destruct (gram_eqb_spec a k) as [->|NE]; cbn [get].
    + destruct (gram_eqb k k'); reflexivity.
    + destruct (gram_eqb_spec a k') as [->|NE']; [|apply IH]. destruct (gram_eqb_spec k k'); [congruence|reflexivity].
Qed.
Lemma get_reset : forall m k, get (reset m) k = (fst (get m k), 0).
Proof. induction m as [|(a, v) m IH]; intros k; cbn [reset map get fst snd]; [reflexivity|]. destruct (gram_eqb a k); [reflexivity|apply IH]. Qed.
Definition b2n (b : bool) : nat := if b then 1 else 0.
Fixpoint hits (pre : gram) (ws : list word) (k : gram) : bool :=
  match ws with [] => false | w :: r => gram_eqb (pre ++ [w]) k || hits (pre ++ [w]) r k end.
Lemma hits_len : forall ws pre k, hits pre ws k = true -> length pre < length k.
Proof.
  induction ws as [|w r IH]; intros pre k H; cbn in H; [discriminate|]. apply orb_true_iff in H. destruct H as [H|H].
  - destruct (gram_eqb_spec (pre ++ [w]) k); [subst; rewrite app_length; cbn; lia|discriminate].
  - apply IH in H. rewrite app_length in H. cbn in H. lia.
Qed.
Lemma hits_spec : forall ws pre k, hits pre ws k = if (length pre <? length k) && (length k <=? length pre + length ws) then gram_eqb (pre ++ firstn (length k - length pre) ws) k else false.
Proof.
  induction ws as [|w r IH]; intros pre k; cbn [hits length].
  - destruct (Nat.ltb_spec (length pre) (length k)), (Nat.leb_spec (length k) (length pre + 0)); cbn; try reflexivity; lia.
  - rewrite IH, app_length. cbn [length]. destruct (Nat.ltb_spec (length pre) (length k)); cbn [andb].
    + destruct (Nat.leb_spec (length k) (length pre + S (length r))).
      * destruct (length k - length pre) as [|d] eqn:D; [lia|]. cbn [firstn]. destruct (Nat.ltb_spec (length pre + 1) (length k)); cbn [andb].
        -- destruct (Nat.leb_spec (length k) (length pre + 1 + length r)); [|lia]. replace (length k - (length pre + 1)) with d by lia. rewrite <- app_assoc. cbn [app].
           destruct (gram_eqb_spec (pre ++ [w]) k) as [<-|_]; [|reflexivity]. rewrite app_length in *. cbn in *. lia.
        -- assert (d = 0) as -> by lia. cbn. apply orb_false_r.
      * destruct (gram_eqb_spec (pre ++ [w]) k) as [<-|_]; [rewrite app_length in *; cbn in *; lia|]. cbn [orb]. destruct (Nat.ltb_spec (length pre + 1) (length k)), (Nat.leb_spec (length k) (length pre + 1 + length r)); try reflexivity; lia.
    + destruct (gram_eqb_spec (pre ++ [w]) k) as [<-|_]; [rewrite app_length in *; cbn in *; lia|]. cbn [orb]. destruct (Nat.ltb_spec (length pre + 1) (length k)); [lia|reflexivity].
Qed.

(** * Positions *)
Definition upto (s : list word) (n J : nat) : list gram := map (fun j => firstn n (skipn j s)) (seq 0 (min J (length s + 1 - n))).
Lemma upto_all : forall s n J, length s <= J -> 1 <= n -> upto s n J = grams n s.
Proof. intros. unfold upto, grams. rewrite Nat.min_r by lia. reflexivity. Qed.
Lemma upto_S : forall s n J, upto s n (S J) = upto s n J ++ (if J <? length s + 1 - n then [firstn n (skipn J s)] else []).
Proof.
  intros. unfold upto. destruct (Nat.ltb_spec J (length s + 1 - n)).
  - rewrite !Nat.min_l by lia. rewrite seq_S, map_app. reflexivity.
  - rewrite !Nat.min_r by lia. rewrite app_nil_r. reflexivity.
Qed.
Lemma count_app : forall k a b, count k (a ++ b) = count k a + count k b.
Proof. intros. apply count_occ_app. Qed.
Lemma count_one : forall k g, count k [g] = b2n (gram_eqb g k).
Proof. intros. unfold count, gram_eqb. cbn. destruct (list_eq_dec Z.eq_dec g k); reflexivity. Qed.
Lemma count_upto_S : forall N s k J, J < length s -> 1 <= length k <= N -> count k (upto s (length k) (S J)) = count k (upto s (length k) J) + b2n (hits [] (firstn N (skipn J s)) k).
Proof.
  intros N s k J LJ LK. rewrite upto_S, count_app. f_equal. rewrite hits_spec. cbn [length app]. rewrite firstn_length, skipn_length, Nat.sub_0_r, firstn_firstn, (Nat.min_l (length k) N) by lia.
  destruct (Nat.ltb_spec J (length s + 1 - length k)), (Nat.leb_spec (length k) (0 + Nat.min N (length s - J))); try lia.
  - rewrite count_one. destruct (Nat.ltb_spec 0 (length k)); [reflexivity|lia].
  - rewrite andb_false_r. reflexivity.
Qed.

(** * References *)
Lemma count_from_get : forall ws tc pre k, get (count_from tc pre ws) k = (fst (get tc k) + b2n (hits pre ws k), snd (get tc k)).
Proof.
  induction ws as [|w r IH]; intros tc pre k; cbn [count_from hits]; [rewrite Nat.add_0_r; destruct (get tc k); reflexivity|].
  rewrite IH, get_touch. destruct (gram_eqb_spec (pre ++ [w]) k) as [<-|NE]; cbn [orb]; [|reflexivity]. cbn [bump_first fst snd].
  destruct (hits (pre ++ [w]) r (pre ++ [w])) eqn:H; [apply hits_len in H; lia|]. cbn. f_equal. lia.
Qed.
Lemma touch_keys : forall m k f, map fst (touch m k f) = if existsb (fun a => gram_eqb a k) (map fst m) then map fst m else map fst m ++ [k].
Proof.
  induction m as [|(a, v) m IH]; intros k f; cbn [touch map fst existsb]; [reflexivity|]. destruct (gram_eqb a k); cbn [map fst orb]; [reflexivity|]. rewrite IH. destruct (existsb _ (map fst m)); reflexivity.
Qed.
Lemma touch_nodup : forall m k f, NoDup (map fst m) -> NoDup (map fst (touch m k f)).
Proof.
  intros m k f H. rewrite touch_keys. destruct (existsb _ (map fst m)) eqn:E; [exact H|].
  assert (NI : ~ In k (map fst m)) by (intros I0; assert (X : existsb (fun a => gram_eqb a k) (map fst m) = true) by (apply existsb_exists; exists k; split; [exact I0|apply gram_eqb_refl]); congruence).
  clear E. induction (map fst m) as [|a l IH]; cbn; [repeat constructor; auto|]. inversion H; subst. constructor; [|apply IH; [assumption|intros X; apply NI; right; exact X]].
  rewrite in_app_iff. intros [X|[X|[]]]; [contradiction|]. apply NI. left. auto.
Qed.
Lemma count_from_nodup : forall ws tc pre, NoDup (map fst tc) -> NoDup (map fst (count_from tc pre ws)).
Proof. induction ws as [|w r IH]; intros tc pre H; [exact H|]. cbn. apply IH, touch_nodup, H. Qed.
Lemma count_ref_spec : forall N ref, NoDup (map fst (count_ref N ref)) /\ forall k, 1 <= length k <= N -> get (count_ref N ref) k = (count k (grams (length k) ref), 0).
Proof.
  intros N ref. unfold count_ref.
  assert (G : forall J, J <= length ref -> let tc := fold_left (fun tc j => count_from tc [] (firstn N (skipn j ref))) (seq 0 J) [] in
    NoDup (map fst tc) /\ forall k, 1 <= length k <= N -> get tc k = (count k (upto ref (length k) J), 0)).
  { induction J as [|J IH]; intros LJ; [cbn; split; [constructor|reflexivity]|]. rewrite seq_S, fold_left_app. cbn [fold_left plus]. destruct (IH ltac:(lia)) as (ND & V). split; [apply count_from_nodup, ND|].
    intros k LK. rewrite count_from_get, (V k LK). cbn [fst snd]. rewrite (count_upto_S N) by lia. reflexivity. }
  destruct (G (length ref) (le_n _)) as (ND & V). split; [exact ND|]. intros k LK. rewrite V by exact LK. rewrite upto_all by lia. reflexivity.
Qed.
Lemma get_notin : forall m k, ~ In k (map fst m) -> get m k = (0, 0).
Proof. induction m as [|(a, v) m IH]; intros k NI; [reflexivity|]. cbn. destruct (gram_eqb_spec a k) as [->|_]; [destruct NI; left; reflexivity|]. apply IH. intros X. apply NI. right. exact X. Qed.
Lemma merge_get : forall tc m k, NoDup (map fst tc) -> get (fold_left merge_ref tc m) k = if fst (get m k) <? fst (get tc k) then get tc k else get m k.
Proof.
  induction tc as [|(a, v) tc IH]; intros m k ND; cbn [fold_left get]; [cbn; destruct (fst (get m k)); reflexivity|]. inversion ND as [|? ? NI ND']; subst. rewrite IH by exact ND'. unfold merge_ref. cbn [fst snd]. rewrite get_touch.
  destruct (gram_eqb_spec a k) as [->|NE]; [|reflexivity]. rewrite (get_notin tc k NI). cbn [fst]. rewrite (proj2 (Nat.ltb_ge _ 0)) by lia. reflexivity.
Qed.
Lemma refs_get : forall N refs m k, 1 <= length k <= N -> snd (get m k) = 0 -> get (fold_left (CountRef N) refs m) k = (max (fst (get m k)) (ref_count (length k) refs k), 0).
Proof.
  intros N. induction refs as [|r refs IH]; intros m k LK Z; cbn [fold_left].
  - unfold ref_count; cbn. rewrite Nat.max_0_r, <- Z. destruct (get m k); reflexivity.
  - destruct (count_ref_spec N r) as (ND & V). assert (G : get (CountRef N m r) k = (max (fst (get m k)) (count k (grams (length k) r)), 0)).
    { unfold CountRef. rewrite merge_get by exact ND. rewrite (V k LK). cbn [fst]. destruct (Nat.ltb_spec (fst (get m k)) (count k (grams (length k) r))); [rewrite Nat.max_r by lia; reflexivity|].
      rewrite Nat.max_l by lia. rewrite <- Z. destruct (get m k); reflexivity. }
    rewrite IH by (rewrite ?G; auto). rewrite G. cbn [fst]. unfold ref_count. cbn [map list_max fold_right]. f_equal. unfold list_max. lia.
Qed.

(** * The hypothesis *)
Section H.
Variable N : nat.
Variable ref : gram -> nat.
Hypothesis mono : forall k x, 1 <= length k -> ref k = 0 -> ref (k ++ x) = 0.
Definition inv (C : gram -> nat) (m : cmap) : Prop := forall k, 1 <= length k <= N -> get m k = (ref k, min (C k) (ref k)).
Lemma bump_hyp_spec : forall ws fs i, i + length ws <= N -> length fs = N + N -> exists fs', bump_hyp N fs i ws = Some fs' /\ length fs' = N + N /\
  (forall n, n < N -> nth n fs' 0 = nth n fs 0) /\ forall n, n < N -> nth (N + n) fs' 0 = nth (N + n) fs 0 + b2n ((i <=? n) && (n <? i + length ws)).
Proof.
  induction ws as [|w r IH]; intros fs i LI LF; cbn [bump_hyp length] in *.
  - exists fs. split; [reflexivity|]. split; [exact LF|]. split; [reflexivity|]. intros n _. rewrite Nat.add_0_r. destruct (Nat.leb_spec i n), (Nat.ltb_spec n i); cbn; lia.
  - destruct (upd_total _ fs (N + i) S) as (f1 & U); [lia|]. rewrite U. destruct (IH f1 (S i)) as (f2 & B & L2 & A1 & A2); [lia|rewrite (upd_length _ _ _ _ _ U); exact LF|].
    exists f2. split; [exact B|]. split; [exact L2|].
    assert (NU : forall j, nth j f1 0 = if N + i =? j then S (nth j fs 0) else nth j fs 0).
    { intros j. destruct (Nat.lt_ge_cases j (length fs)) as [LT|GE].
      - pose proof (upd_nth _ _ _ _ _ j U) as X. rewrite (nth_error_nth' fs 0 LT) in X. rewrite (nth_error_nth' f1 0) in X by (rewrite (upd_length _ _ _ _ _ U); exact LT). destruct (N + i =? j); cbn in X; injection X as X; exact X.
      - rewrite !nth_overflow by (rewrite ?(upd_length _ _ _ _ _ U); exact GE). destruct (Nat.eqb_spec (N + i) j); [lia|reflexivity]. }
    split.
    + intros n LN. rewrite A1, NU by exact LN. destruct (Nat.eqb_spec (N + i) n); [lia|reflexivity].
    + intros n LN. rewrite A2, NU by exact LN. destruct (Nat.eqb_spec (N + i) (N + n)), (Nat.leb_spec (S i) n), (Nat.leb_spec i n), (Nat.ltb_spec n (S i + length r)), (Nat.ltb_spec n (i + S (length r))); cbn; lia.
Qed.
Lemma nth_upd : forall (fs fs' : list nat) i j, upd fs i S = Some fs' -> nth j fs' 0 = if i =? j then S (nth j fs 0) else nth j fs 0.
Proof.
  intros fs fs' i j U. pose proof (upd_bound _ _ _ _ _ U) as B. destruct (Nat.lt_ge_cases j (length fs)) as [LT|GE].
  - pose proof (upd_nth _ _ _ _ _ j U) as X. rewrite (nth_error_nth' fs 0 LT) in X. rewrite (nth_error_nth' fs' 0) in X by (rewrite (upd_length _ _ _ _ _ U); exact LT). destruct (i =? j); cbn in X; injection X as X; exact X.
  - rewrite !nth_overflow by (rewrite ?(upd_length _ _ _ _ _ U); exact GE). destruct (Nat.eqb_spec i j); [lia|reflexivity].
Qed.
Lemma stat_from_spec : forall ws m fs i pre C, length pre = i -> i + length ws <= N -> length fs = N + N -> inv C m ->
  exists m' fs', stat_from N true m fs i pre ws = Some (m', fs') /\ length fs' = N + N /\ inv (fun k => C k + b2n (hits pre ws k)) m' /\
  (forall n, n < N -> nth n fs' 0 = nth n fs 0 + b2n ((i <=? n) && (n <? i + length ws) && (C (pre ++ firstn (S n - i) ws) <? ref (pre ++ firstn (S n - i) ws)))) /\
  (forall n, n < N -> nth (N + n) fs' 0 = nth (N + n) fs 0 + b2n ((i <=? n) && (n <? i + length ws))).
Proof.
  induction ws as [|w r IH]; intros m fs i pre C LP LI LF IV; cbn [stat_from length] in *.
  - exists m, fs. split; [reflexivity|]. split; [exact LF|]. split; [intros k LK; cbn; rewrite Nat.add_0_r; apply IV, LK|]. rewrite Nat.add_0_r.
    split; intros n _; destruct (Nat.leb_spec i n), (Nat.ltb_spec n i); cbn; lia.
  - assert (LG : length (pre ++ [w]) = S i) by (rewrite app_length; cbn; lia). set (ng := pre ++ [w]) in *.
    rewrite (IV ng) by lia. cbn [fst snd].
    set (hit := min (C ng) (ref ng) <? ref ng). assert (HIT : hit = (C ng <? ref ng)) by (unfold hit; destruct (Nat.ltb_spec (min (C ng) (ref ng)) (ref ng)), (Nat.ltb_spec (C ng) (ref ng)); lia || reflexivity).
    assert (F1 : exists fs1, (if hit then upd fs i S else Some fs) = Some fs1 /\ length fs1 = N + N /\ forall j, nth j fs1 0 = nth j fs 0 + b2n ((i =? j) && hit)).
    { destruct hit.
      - destruct (upd_total _ fs i S) as (f1 & U); [lia|]. exists f1. split; [exact U|]. split; [rewrite (upd_length _ _ _ _ _ U); exact LF|]. intros j. rewrite (nth_upd _ _ _ j U), andb_true_r. destruct (i =? j); cbn; lia.
      - exists fs. split; [reflexivity|]. split; [exact LF|]. intros j. rewrite andb_false_r. cbn. lia. }
    destruct F1 as (fs1 & -> & L1 & V1). rewrite HIT in *. clear hit HIT.
    assert (GM : forall k, 1 <= length k <= N -> get (touch m ng (if C ng <? ref ng then bump_second else fun p => p)) k = (ref k, min (C k + b2n (gram_eqb ng k)) (ref k))).
    { intros k LK. rewrite get_touch. destruct (gram_eqb_spec ng k) as [<-|NE]; [|rewrite (IV k LK); cbn; f_equal; f_equal; lia].
      rewrite (IV ng) by lia. destruct (Nat.ltb_spec (C ng) (ref ng)); unfold bump_second; cbn; f_equal; lia. }
    destruct (Nat.eqb_spec (ref ng) 0) as [RZ|RZ].
    + destruct (bump_hyp_spec (w :: r) fs1 i) as (fs2 & B & L2 & A1 & A2); [cbn; lia|exact L1|]. rewrite B. eexists; exists fs2. split; [reflexivity|]. split; [exact L2|].
      assert (EXT : forall k, hits ng r k = true -> ref k = 0).
      { intros k HK. rewrite hits_spec in HK. destruct (_ && _); [|discriminate]. destruct (gram_eqb_spec (ng ++ firstn (length k - length ng) r) k) as [<-|_]; [|discriminate]. apply mono; [lia|exact RZ]. }
      split; [|split].
      * intros k LK. rewrite (GM k LK). f_equal. cbn [hits]. fold ng. destruct (gram_eqb ng k); cbn [orb]; [reflexivity|]. destruct (hits ng r k) eqn:HK; [|reflexivity]. rewrite (EXT k HK). lia.
      * intros n LN. rewrite A1, V1 by exact LN. f_equal. destruct (Nat.eqb_spec i n) as [<-|NE].
        -- replace (S i - i) with 1 by lia. cbn [firstn]. fold ng. destruct (Nat.leb_spec i i), (Nat.ltb_spec i (i + S (length r))); try lia. reflexivity.
        -- destruct (Nat.leb_spec i n); [|reflexivity]. cbn [andb]. destruct (Nat.ltb_spec n (i + S (length r))); [|reflexivity]. cbn [andb]. destruct (S n - i) as [|d] eqn:D; [lia|]. cbn [firstn].
           replace (pre ++ w :: firstn d r) with (ng ++ firstn d r) by (unfold ng; rewrite <- app_assoc; reflexivity). rewrite (mono ng) by (lia || exact RZ). destruct (C (ng ++ firstn d r)); reflexivity.
      * intros n LN. rewrite A2, V1 by exact LN. destruct (Nat.eqb_spec i (N + n)); [lia|]. cbn. lia.
    + destruct (upd_total _ fs1 (N + i) S) as (fs2 & U2); [lia|]. rewrite U2.
      destruct (IH (touch m ng (if C ng <? ref ng then bump_second else fun p => p)) fs2 (S i) ng (fun k => C k + b2n (gram_eqb ng k))) as (m' & fs' & R & L' & IV' & A1 & A2).
      * exact LG. * lia. * rewrite (upd_length _ _ _ _ _ U2); exact L1. * exact GM.
      * exists m', fs'. split; [exact R|]. split; [exact L'|]. split; [|split].
        -- intros k LK. rewrite (IV' k LK). do 2 f_equal. cbn [hits]. fold ng. destruct (gram_eqb_spec ng k) as [<-|NE]; cbn; [|lia]. destruct (hits ng r ng) eqn:HK; [apply hits_len in HK; lia|]. cbn. lia.
        -- intros n LN. rewrite A1 by exact LN. rewrite (nth_upd _ _ _ n U2), V1. destruct (Nat.eqb_spec (N + i) n); [lia|]. rewrite <- Nat.add_assoc. f_equal. destruct (Nat.eqb_spec i n) as [<-|NE].
           ++ replace (S i - i) with 1 by lia. cbn [firstn]. fold ng. destruct (Nat.leb_spec i i), (Nat.ltb_spec i (i + S (length r))), (Nat.leb_spec (S i) i); try lia. cbn. lia.
           ++ destruct (Nat.leb_spec i n), (Nat.leb_spec (S i) n); try lia; cbn [andb b2n]; try reflexivity. destruct (Nat.ltb_spec n (S i + length r)), (Nat.ltb_spec n (i + S (length r))); try lia; cbn [andb b2n]; try reflexivity.
              destruct (S n - i) as [|d] eqn:D; [lia|]. cbn [firstn]. replace (S n - S i) with d by lia. replace (pre ++ w :: firstn d r) with (ng ++ firstn d r) by (unfold ng; rewrite <- app_assoc; reflexivity).
              destruct (gram_eqb_spec ng (ng ++ firstn d r)) as [EQ|_]; [|cbn; rewrite Nat.add_0_r; reflexivity].
              assert (X : length ng = length (ng ++ firstn d r)) by congruence. rewrite app_length, firstn_length in X. lia.
        -- intros n LN. rewrite A2 by exact LN. rewrite (nth_upd _ _ _ _ U2), V1. destruct (Nat.eqb_spec i (N + n)); [lia|]. cbn [andb b2n].
           destruct (Nat.eqb_spec (N + i) (N + n)), (Nat.leb_spec (S i) n), (Nat.leb_spec i n), (Nat.ltb_spec n (S i + length r)), (Nat.ltb_spec n (i + S (length r))); cbn; lia.
Qed.

(** Clipped counts grow by one occurrence at a time. *)
Definition clip (L : list gram) : nat := list_sum (map (fun k => min (count k L) (ref k)) (nodup (list_eq_dec Z.eq_dec) L)).
Lemma list_sum_cons : forall x l, list_sum (x :: l) = x + list_sum l.
Proof. reflexivity. Qed.
Lemma sum_nodup : forall (f : gram -> nat) (A B : list gram), NoDup A -> NoDup B -> (forall k, In k A <-> In k B) -> list_sum (map f A) = list_sum (map f B).
Proof.
  intros f A. induction A as [|a A IH]; intros B NA NB EQ.
  - destruct B as [|b B]; [reflexivity|]. destruct (proj2 (EQ b) (or_introl eq_refl)).
  - assert (IB : In a B) by (apply EQ; left; reflexivity). apply in_split in IB. destruct IB as (B1 & B2 & ->). inversion NA as [|? ? NIA NA']; subst. apply NoDup_remove in NB. destruct NB as (NB & NIB).
    rewrite map_app, list_sum_app. cbn [map]. rewrite !list_sum_cons. rewrite (IH (B1 ++ B2) NA' NB).
    + rewrite map_app, list_sum_app. lia.
    + intros k. specialize (EQ k). cbn [In] in EQ. rewrite in_app_iff in EQ. cbn [In] in EQ. rewrite in_app_iff in NIB |- *. split; intros X.
      * destruct (proj1 EQ (or_intror X)) as [Y|[Y|Y]]; [auto|subst; contradiction|auto].
      * destruct (proj2 EQ ltac:(tauto)) as [Y|Y]; [|exact Y]. subst. contradiction.
Qed.
Lemma sum_ext : forall (f f' : gram -> nat) A, (forall k, In k A -> f k = f' k) -> list_sum (map f A) = list_sum (map f' A).
Proof. intros f f' A H. f_equal. apply map_ext_in. exact H. Qed.
Lemma clip_snoc : forall L g, clip (L ++ [g]) = clip L + b2n (count g L <? ref g).
Proof.
  intros L g. unfold clip. set (D := nodup (list_eq_dec Z.eq_dec) L). assert (ND : NoDup D) by apply NoDup_nodup. assert (ID : forall k, In k D <-> In k L) by (intros; apply nodup_In).
  destruct (in_dec (list_eq_dec Z.eq_dec) g L) as [IG|IG].
  - rewrite (sum_nodup _ (nodup (list_eq_dec Z.eq_dec) (L ++ [g])) D); [|apply NoDup_nodup|exact ND|intros k; rewrite nodup_In, in_app_iff, ID; cbn; split; [intros [X|[<-|[]]]; auto|auto]].
    apply ID in IG. apply in_split in IG. destruct IG as (D1 & D2 & ED). rewrite ED in ND |- *. pose proof (NoDup_remove_2 _ _ _ ND) as NI. rewrite in_app_iff in NI.
    rewrite !map_app, !list_sum_app. cbn [map]. rewrite !list_sum_cons.
    assert (SE : forall A, ~ In g A -> list_sum (map (fun k => min (count k (L ++ [g])) (ref k)) A) = list_sum (map (fun k => min (count k L) (ref k)) A)).
    { intros A NA. apply sum_ext. intros k K. rewrite count_app, count_one. destruct (gram_eqb_spec g k); [subst; contradiction|]. cbn. f_equal. lia. }
    rewrite !SE by tauto. rewrite count_app, count_one, gram_eqb_refl. cbn [b2n]. destruct (Nat.ltb_spec (count g L) (ref g)); unfold gram, word in *; cbn; lia.
  - rewrite (sum_nodup _ (nodup (list_eq_dec Z.eq_dec) (L ++ [g])) (g :: D)); [|apply NoDup_nodup|constructor; [rewrite ID; exact IG|exact ND]|intros k; rewrite nodup_In, in_app_iff; cbn; rewrite ID; tauto].
    cbn [map]. rewrite list_sum_cons. rewrite count_app, count_one, gram_eqb_refl. assert (Z0 : count g L = 0) by (apply count_occ_not_In; exact IG). rewrite Z0.
    rewrite (sum_ext _ (fun k => min (count k L) (ref k)) D).
    + unfold gram, word in *. cbn [b2n]. destruct (Nat.ltb_spec 0 (ref g)); cbn [b2n]; lia.
    + intros k K. rewrite count_app, count_one. destruct (gram_eqb_spec g k) as [->|_]; [apply ID in K; contradiction|]. cbn. f_equal. lia.
Qed.

Lemma stat_pos_app : forall c s a b m fs, stat_pos N c s (a ++ b) m fs = match stat_pos N c s a m fs with Some (m', fs') => stat_pos N c s b m' fs' | None => None end.
Proof. intros c s. induction a as [|j a IH]; intros b m fs; [reflexivity|]. cbn. destruct (stat_from _ _ _ _ _ _ _) as [(m1, f1)|]; [apply IH|reflexivity]. Qed.
Lemma stats_spec : forall m s, (forall k, 1 <= length k <= N -> fst (get m k) = ref k) -> exists m' fs, ComputeNgramStats N true m s (repeat 0 (N + N)) = Some (m', fs) /\ length fs = N + N /\
  (forall k, 1 <= length k <= N -> fst (get m' k) = ref k) /\
  (forall n, n < N -> nth n fs 0 = clip (grams (S n) s)) /\ forall n, n < N -> nth (N + n) fs 0 = length (grams (S n) s).
Proof.
  intros m s HM. unfold ComputeNgramStats.
  assert (G : forall J, J <= length s -> exists m' fs, stat_pos N true s (seq 0 J) (reset m) (repeat 0 (N + N)) = Some (m', fs) /\ length fs = N + N /\ inv (fun k => count k (upto s (length k) J)) m' /\
    (forall n, n < N -> nth n fs 0 = clip (upto s (S n) J)) /\ forall n, n < N -> nth (N + n) fs 0 = length (upto s (S n) J)).
  { induction J as [|J IH]; intros LJ.
    - exists (reset m), (repeat 0 (N + N)). split; [reflexivity|]. split; [apply repeat_length|]. split; [|split; intros n LN; rewrite nth_repeat; reflexivity].
      intros k LK. rewrite get_reset, (HM k LK). reflexivity.
    - destruct (IH ltac:(lia)) as (m1 & f1 & R1 & L1 & I1 & A1 & B1). rewrite seq_S, stat_pos_app, R1. cbn [plus stat_pos].
      assert (LW : length (firstn N (skipn J s)) = min N (length s - J)) by (rewrite firstn_length, skipn_length; reflexivity).
      destruct (stat_from_spec (firstn N (skipn J s)) m1 f1 0 [] _ eq_refl ltac:(cbn; lia) L1 I1) as (m2 & f2 & R2 & L2 & I2 & A2 & B2).
      rewrite R2. exists m2, f2. split; [reflexivity|]. split; [exact L2|]. split; [|split].
      + intros k LK. rewrite (I2 k LK). do 2 f_equal. symmetry. apply count_upto_S; lia.
      + intros n LN. rewrite A2, A1 by exact LN. rewrite upto_S, LW. cbn [app]. rewrite Nat.sub_0_r, firstn_firstn, (Nat.min_l (S n) N) by lia. cbn [Nat.leb andb plus].
        destruct (Nat.ltb_spec n (min N (length s - J))), (Nat.ltb_spec J (length s + 1 - S n)); try lia; cbn [andb b2n].
        * rewrite clip_snoc. rewrite firstn_length, skipn_length, Nat.min_l by lia. reflexivity.
        * rewrite app_nil_r. lia.
      + intros n LN. rewrite B2, B1 by exact LN. rewrite upto_S, LW, app_length. cbn [Nat.leb andb plus]. f_equal.
        destruct (Nat.ltb_spec n (min N (length s - J))), (Nat.ltb_spec J (length s + 1 - S n)); try lia; reflexivity. }
  destruct (G (length s) (le_n _)) as (m' & fs & R & L & I0 & A & B). exists m', fs. split; [exact R|]. split; [exact L|]. split; [|split].
  - intros k LK. rewrite (I0 k LK). reflexivity.
  - intros n LN. rewrite A, upto_all by lia. reflexivity.
  - intros n LN. rewrite B, upto_all by lia. reflexivity.
Qed.
End H.

(** * The evaluator *)
Lemma list_max_0 : forall l, list_max l = 0 <-> forall x, In x l -> x = 0.
Proof.
  induction l as [|x l IH]; cbn; [split; [intros _ y []|reflexivity]|]. fold (list_max l). split.
  - intros H y [<-|Y]; [lia|]. apply IH; [lia|exact Y].
  - intros H. rewrite (H x) by auto. apply IH. intros y Y. apply H. auto.
Qed.
Lemma ref_mono : forall refs k x, 1 <= length k -> ref_count (length k) refs k = 0 -> ref_count (length (k ++ x)) refs (k ++ x) = 0.
Proof.
  intros refs k x LK H. unfold ref_count in *. rewrite list_max_0 in *. intros c C. apply in_map_iff in C. destruct C as (r & <- & IR).
  assert (Z0 : count k (grams (length k) r) = 0) by (apply H, in_map_iff; exists r; auto). unfold count in *. apply count_occ_not_In in Z0. apply count_occ_not_In. intros IN. apply Z0.
  unfold grams in *. apply in_map_iff in IN. destruct IN as (j & EQ & IJ). apply in_seq in IJ. apply in_map_iff. exists j. rewrite app_length in *. split; [|apply in_seq; lia].
  assert (F : firstn (length k) (firstn (length k + length x) (skipn j r)) = firstn (length k) (k ++ x)) by (rewrite EQ; reflexivity).
  rewrite firstn_firstn, Nat.min_l in F by lia. rewrite F, firstn_app, Nat.sub_diag, firstn_all, firstn_O, app_nil_r. reflexivity.
Qed.

Section Ev.
Variable N : nat.
Variable bt : btype.
Definition ready (refs : list (list word)) (ev : evaluator) : Prop := forall k, 1 <= length k <= N -> fst (get (ngrams ev) k) = ref_count (length k) refs k.
Definition good_stats (refs : list (list word)) (ls : list Q) (hyp : list word) (s : stats) : Prop :=
  length (fields s) = 2 * N + 2 /\ (forall n, n < N -> ss_at s n = of_nat (clipped (S n) refs hyp)) /\ (forall n, n < N -> ss_at s (N + n) = of_nat (length (grams (S n) hyp))) /\
  ss_at s (2 * N) = len hyp /\ ss_at s (2 * N + 1) = ref_length bt ls (len hyp).
Lemma clip_clipped : forall refs n hyp, clip (fun k => ref_count (length k) refs k) (grams (S n) hyp) = clipped (S n) refs hyp.
Proof.
  intros refs n hyp. unfold clip, clipped. apply sum_ext. intros k K. apply nodup_In in K. unfold grams in K. apply in_map_iff in K. destruct K as (j & <- & IJ). apply in_seq in IJ. rewrite firstn_length, skipn_length, (Nat.min_l (S n) (length hyp - j)) by lia. reflexivity.
Qed.
Lemma evaluate_spec : forall refs ev hyp, ready refs ev -> exists s ev', Evaluate N bt ev hyp = Some (s, ev') /\ ready refs ev' /\ lengths ev' = lengths ev /\ good_stats refs (lengths ev) hyp s.
Proof.
  intros refs ev hyp R. unfold Evaluate. destruct (stats_spec N (fun k => ref_count (length k) refs k) (ref_mono refs) (ngrams ev) hyp R) as (m & fs & -> & L & R' & A & B).
  eexists. eexists. split; [reflexivity|]. split; [exact R'|]. split; [reflexivity|]. unfold good_stats, ss_at. cbn [fields].
  assert (LM : length (map (fun n => inject_Z (Z.of_nat n)) fs) = N + N) by (rewrite map_length; exact L).
  split; [rewrite app_length, LM; cbn; lia|]. split; [|split; [|split]].
  - intros n LN. rewrite app_nth1 by lia. rewrite (nth_indep _ _ (inject_Z (Z.of_nat 0))) by lia. rewrite (map_nth (fun n => inject_Z (Z.of_nat n))), A by exact LN. rewrite clip_clipped. reflexivity.
  - intros n LN. rewrite app_nth1 by lia. rewrite (nth_indep _ _ (inject_Z (Z.of_nat 0))) by lia. rewrite (map_nth (fun n => inject_Z (Z.of_nat n))), B by exact LN. reflexivity.
  - rewrite app_nth2 by lia. rewrite LM. replace (2 * N - (N + N)) with 0 by lia. reflexivity.
  - rewrite app_nth2 by lia. rewrite LM. replace (2 * N + 1 - (N + N)) with 1 by lia. reflexivity.
Qed.
Lemma evaluate_all_spec : forall refs hs ev, ready refs ev -> exists ss ev', Evaluate_all N bt ev hs = Some (ss, ev') /\ ready refs ev' /\ lengths ev' = lengths ev.
Proof.
  intros refs. induction hs as [|h hs IH]; intros ev R; cbn [Evaluate_all]; [exists [], ev; auto|].
  destruct (evaluate_spec refs ev h R) as (s & ev1 & -> & R1 & L1 & _). destruct (IH ev1 R1) as (ss & ev2 & -> & R2 & L2). exists (s :: ss), ev2. split; [reflexivity|]. split; [exact R2|congruence].
Qed.
Lemma mk_ready : forall refs ev, mk_evaluator N bt refs = Some ev -> ready refs ev.
Proof.
  intros refs ev H. unfold mk_evaluator in H. destruct refs as [|r refs]; [discriminate|]. injection H as <-. intros k LK. cbn [ngrams]. refine (eq_trans (f_equal fst (refs_get N (r :: refs) [] k LK eq_refl)) _). reflexivity.
Qed.
End Ev.

(** * Reference lengths *)
Lemma len_nonneg : forall s, (0 <= len s)%Q.
Proof. intros s. unfold len. change 0%Q with (inject_Z 0). rewrite <- Zle_Qle. lia. Qed.
Lemma closest_ok : forall ls hl, (exists l, In l ls /\ (Qabs (l - hl) < inject_Z 2000000)%Q) -> is_closest ls hl (closest ls hl).
Proof.
  intros ls hl EX. unfold closest.
  set (step := fun (st : Q * Q) l => if Qlt_le_dec (Qabs (l - hl)) (fst st) then (Qabs (l - hl), l) else st).
  assert (G : forall xs pre bd bl, (forall l, In l pre -> (bd <= Qabs (l - hl))%Q) -> (bd <= inject_Z 2000000)%Q ->
     (bd = inject_Z 2000000 /\ bl = inject_Z (-1) \/ bd = Qabs (bl - hl) /\ exists i, nth_error pre i = Some bl /\ forall j l', j < i -> nth_error pre j = Some l' -> (Qabs (bl - hl) < Qabs (l' - hl))%Q) ->
     let st := fold_left step xs (bd, bl) in (forall l, In l (pre ++ xs) -> (fst st <= Qabs (l - hl))%Q) /\ (fst st <= inject_Z 2000000)%Q /\
     (fst st = inject_Z 2000000 \/ fst st = Qabs (snd st - hl) /\ exists i, nth_error (pre ++ xs) i = Some (snd st) /\ forall j l', j < i -> nth_error (pre ++ xs) j = Some l' -> (Qabs (snd st - hl) < Qabs (l' - hl))%Q)).
  { induction xs as [|x xs IH]; intros pre bd bl A B C; cbn [fold_left].
    - cbn. rewrite app_nil_r. split; [exact A|]. split; [exact B|]. destruct C as [(C & _)|C]; auto.
    - specialize (IH (pre ++ [x])). rewrite <- app_assoc in IH. cbn [app] in IH. assert (ST : step (bd, bl) x = if Qlt_le_dec (Qabs (x - hl)) bd then (Qabs (x - hl), x) else (bd, bl)) by reflexivity. rewrite ST. clear ST. destruct (Qlt_le_dec (Qabs (x - hl)) bd) as [LT|GE]; apply IH.
      + intros l IL. apply in_app_iff in IL. destruct IL as [IL|[<-|[]]]; [specialize (A l IL); lra|lra].
      + lra.
      + right. split; [reflexivity|]. exists (length pre). split; [rewrite nth_error_app2, Nat.sub_diag by lia; reflexivity|]. intros j l' LJ NJ. rewrite nth_error_app1 in NJ by exact LJ. specialize (A l' (nth_error_In _ _ NJ)). lra.
      + intros l IL. apply in_app_iff in IL. destruct IL as [IL|[<-|[]]]; [apply A, IL|lra].
      + exact B.
      + destruct C as [C|(C1 & i & NI & C2)]; [left; exact C|right]. split; [exact C1|]. exists i. assert (LI : i < length pre) by (apply nth_error_Some; congruence). split; [rewrite nth_error_app1 by exact LI; exact NI|].
        intros j l' LJ NJ. rewrite nth_error_app1 in NJ by lia. apply (C2 j l' LJ NJ). }
  destruct (G ls [] (inject_Z 2000000) (inject_Z (-1))) as (A & B & C); [intros l []|lra|left; auto|]. cbn [app] in *. fold step. set (st := fold_left step ls (inject_Z 2000000, inject_Z (-1))) in *.
  destruct C as [C|(C1 & i & NI & C2)].
  - destruct EX as (l & IL & LT). specialize (A l IL). rewrite C in A. lra.
  - exists i. split; [exact NI|]. split; [intros l' IL; rewrite <- C1; apply A, IL|exact C2].
Qed.
Lemma sum_len : forall refs a, (fold_left Qplus (map len refs) a == a + of_nat (list_sum (map (@length word) refs)))%Q.
Proof.
  induction refs as [|r refs IH]; intros a; cbn [map fold_left]; [symmetry; apply Qplus_0_r|]. rewrite IH. rewrite list_sum_cons. unfold of_nat, len. rewrite Nat2Z.inj_add, inject_Z_plus. lra.
Qed.
Lemma smallest_ok : forall ls s, (exists l, In l ls /\ (l <= s)%Q) -> let r := fold_left (fun s x => if Qlt_le_dec x s then x else s) ls s in
  (forall l, In l ls -> (r <= l)%Q) /\ (r <= s)%Q /\ (In r ls \/ r = s).
Proof.
  intros ls s _. revert s. induction ls as [|x ls IH]; intros s; cbn [fold_left]; [cbn; split; [intros l []|split; [lra|auto]]|].
  destruct (Qlt_le_dec x s) as [LT|GE].
  - destruct (IH x) as (A & B & C). cbn. split; [intros l [<-|IL]; [exact B|apply A, IL]|]. split; [lra|]. left. destruct C as [C|C]; auto.
  - destruct (IH s) as (A & B & C). cbn. split; [intros l [<-|IL]; [lra|apply A, IL]|]. split; [exact B|]. destruct C as [C|C]; auto.
Qed.
Definition small (refs : list (list word)) (hyp : list word) : Prop :=
  (exists r, In r refs /\ (len r < inject_Z 2000000)%Q) /\ (len hyp < inject_Z 2000000)%Q.
Lemma ref_length_ok : forall N bt refs hyp ev, mk_evaluator N bt refs = Some ev -> small refs hyp -> reported bt refs hyp (ref_length bt (lengths ev) (len hyp)).
Proof.
  intros N bt refs hyp ev H ((r0 & IR0 & SR0) & SH). unfold mk_evaluator in H. destruct refs as [|r refs]; [discriminate|]. injection H as <-. cbn [lengths].
  assert (CL : is_closest (map len (r :: refs)) (len hyp) (match refs with [] => len r | _ => closest (map len (r :: refs)) (len hyp) end)).
  { destruct refs as [|r' refs].
    - exists 0. split; [reflexivity|]. split; [intros l' [<-|[]]; lra|intros j l' LJ; lia].
    - apply closest_ok. exists (len r0). split; [apply in_map, IR0|]. pose proof (len_nonneg r0). pose proof (len_nonneg hyp). apply Qabs_Qlt_condition. lra. }
  destruct bt; cbn [reported ref_length map].
  - destruct refs; exact CL.
  - cbn [set_first]. assert (NZ : ~ (of_nat (length (r :: refs)) == 0)%Q) by (unfold of_nat; change 0%Q with (inject_Z 0); rewrite inject_Z_injective; cbn [length]; lia).
    set (avg := (fold_left Qplus (len r :: map len refs) 0 / inject_Z (Z.of_nat (length (r :: refs))))%Q).
    assert (K : (avg * of_nat (length (r :: refs)) == of_nat (list_sum (map (@length word) (r :: refs))))%Q).
    { unfold avg. pose proof (sum_len (r :: refs) 0) as SL. cbn [map] in SL. rewrite SL. rewrite Qplus_0_l. rewrite Qmult_comm. apply Qmult_div_r. exact NZ. }
    unfold avg in K. destruct refs; exact K.
  - cbn [set_first]. unfold smallest. destruct (smallest_ok (map len (r :: refs)) (inject_Z 9999999)) as (A & B & C).
    + exists (len r0). split; [apply in_map, IR0|]. assert (inject_Z 2000000 <= inject_Z 9999999)%Q by (rewrite <- Zle_Qle; lia). lra.
    + set (sm := fold_left _ _ _) in *. assert (IN : In sm (map len (r :: refs))).
      { destruct C as [C|C]; [exact C|]. specialize (A (len r0) (in_map len _ _ IR0)). rewrite C in A. assert (inject_Z 2000000 < inject_Z 9999999)%Q by (rewrite <- Zlt_Qlt; lia). lra. }
      assert (K : In sm (map len (r :: refs)) /\ forall r1, In r1 (r :: refs) -> (sm <= len r1)%Q) by (split; [exact IN|]; intros r1 I1; apply A, in_map, I1).
      unfold sm in K; destruct refs; exact K.
  - destruct refs; exact CL.
Qed.

Theorem bleu_stats : forall N bt refs hs hyp, refs <> [] -> exists ev0 ss ev1 s ev2,
  mk_evaluator N bt refs = Some ev0 /\ Evaluate_all N bt ev0 hs = Some (ss, ev1) /\ Evaluate N bt ev1 hyp = Some (s, ev2) /\
  length (fields s) = 2 * N + 2 /\
  (forall n, n < N -> ss_at s n = of_nat (clipped (S n) refs hyp)) /\
  (forall n, n < N -> ss_at s (N + n) = of_nat (length (grams (S n) hyp))) /\
  ss_at s (2 * N) = len hyp /\
  ((exists r, In r refs /\ (len r < inject_Z 2000000)%Q) -> (len hyp < inject_Z 2000000)%Q -> reported bt refs hyp (ss_at s (2 * N + 1))).
Proof.
  intros N bt refs hs hyp NE. destruct (mk_evaluator N bt refs) as [ev0|] eqn:MK; [|unfold mk_evaluator in MK; destruct refs; [congruence|discriminate]].
  pose proof (mk_ready N bt refs ev0 MK) as R0. destruct (evaluate_all_spec N bt refs hs ev0 R0) as (ss & ev1 & EA & R1 & L1). destruct (evaluate_spec N bt refs ev1 hyp R1) as (s & ev2 & EV & R2 & L2 & (A & B & C & D & E)).
  exists ev0, ss, ev1, s, ev2. split; [reflexivity|]. split; [exact EA|]. split; [exact EV|]. split; [exact A|]. split; [exact B|]. split; [exact C|]. split; [exact D|]. intros SR SH. rewrite E, L1. apply (ref_length_ok N bt refs hyp ev0 MK). split; assumption.
Qed.
