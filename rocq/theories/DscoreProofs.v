(** Proofs about the counts of dtrain's scores. *)
From Coq Require Import Reals List Arith Bool Permutation Lia Lra Psatz.
From Verif Require Import Dscore DscoreSpec.
Import ListNotations.
Local Open Scope nat_scope.

Definition look (m : ngmap) (g : ngram) : nat := match find m g with Some c => c | None => 0 end.

Lemma incr_look : forall m g h, look (incr m g) h = look m h + (if ngram_dec g h then 1 else 0).
Proof.
  intros m g h. unfold look. induction m as [|[k c] m IH]; cbn [incr find].
  - destruct (ngram_dec g h); reflexivity.
  - destruct (ngram_dec k g) as [->|N]; cbn [find].
    + destruct (ngram_dec g h); [lia|lia].
    + destruct (ngram_dec k h) as [->|N2]; [destruct (ngram_dec g h); [congruence|lia]|exact IH].
Qed.
Lemma incr_keys : forall m g h, In h (map fst (incr m g)) <-> In h (map fst m) \/ h = g.
Proof.
  intros m g h. induction m as [|[k c] m IH]; cbn [incr].
  - cbn. intuition.
  - destruct (ngram_dec k g) as [->|N]; cbn [map fst In].
    + intuition congruence.
    + rewrite IH. tauto.
Qed.
Lemma incr_NoDup : forall m g, NoDup (map fst m) -> NoDup (map fst (incr m g)).
Proof.
  intros m g. induction m as [|[k c] m IH]; intros ND; cbn [incr].
  - cbn. constructor; [intros []|constructor].
  - inversion ND as [|k' m' Nk ND']; subst. destruct (ngram_dec k g) as [->|N]; cbn [map fst].
    + constructor; assumption.
    + constructor; [|apply IH; exact ND']. intros I. apply incr_keys in I. destruct I as [I|I]; [contradiction|congruence].
Qed.

Lemma fold_look : forall l m h, look (fold_left incr l m) h = look m h + count_occ ngram_dec l h.
Proof.
  induction l as [|g l IH]; intros m h; cbn [fold_left count_occ]; [lia|]. rewrite IH, incr_look. destruct (ngram_dec g h); lia.
Qed.
Lemma fold_keys : forall l m h, In h (map fst (fold_left incr l m)) <-> In h (map fst m) \/ In h l.
Proof.
  induction l as [|g l IH]; intros m h; cbn [fold_left]; [cbn; tauto|]. rewrite IH, incr_keys. cbn [In]. intuition congruence.
Qed.
Lemma fold_NoDup : forall l m, NoDup (map fst m) -> NoDup (map fst (fold_left incr l m)).
Proof. induction l as [|g l IH]; intros m ND; cbn [fold_left]; [exact ND|]. apply IH, incr_NoDup, ND. Qed.

Lemma make_look : forall s N g, look (make_ngrams s N) g = count_occ ngram_dec (occs N s) g.
Proof. intros. unfold make_ngrams. rewrite fold_look. reflexivity. Qed.
Lemma make_keys : forall s N g, In g (map fst (make_ngrams s N)) <-> In g (occs N s).
Proof. intros. unfold make_ngrams. rewrite fold_keys. cbn. tauto. Qed.
Lemma make_NoDup : forall s N, NoDup (map fst (make_ngrams s N)).
Proof. intros. apply fold_NoDup. constructor. Qed.

Lemma look_In : forall m g c, NoDup (map fst m) -> In (g, c) m -> look m g = c.
Proof.
  intros m g c ND I. unfold look. induction m as [|[k d] m IH]; [destruct I|]. inversion ND as [|k' m' Nk ND']; subst. cbn [find].
  destruct I as [E|I].
  - injection E as -> ->. destruct (ngram_dec g g); [reflexivity|congruence].
  - destruct (ngram_dec k g) as [->|N]; [|apply IH; assumption]. exfalso. apply Nk. apply in_map_iff. exists (g, c). auto.
Qed.

(** The n-grams of one order. *)
Lemma occs_order : forall N s n, 1 <= n <= N ->
  filter (fun g => length g =? n) (occs N s) = windows n s.
Proof.
  intros N s n Hn. unfold occs, windows.
  assert (A : forall i, i < length s -> filter (fun g => length g =? n)
      (map (fun l => firstn (S l) (skipn i s)) (seq 0 (Nat.min (i + N) (length s) - i))) =
      if i + n <=? length s then [firstn n (skipn i s)] else []).
  { intros i Hi. set (m := Nat.min (i + N) (length s) - i).
    assert (Lm : forall l, l < m -> length (firstn (S l) (skipn i s)) = S l).
    { intros l Hl. rewrite firstn_length, skipn_length. unfold m in Hl. lia. }
    assert (B : forall a b, a + b <= m -> filter (fun g => length g =? n) (map (fun l => firstn (S l) (skipn i s)) (seq a b)) =
      if (a <? n) && (n <=? a + b) then [firstn n (skipn i s)] else []).
    { intros a b. revert a. induction b as [|b IH]; intros a Hab; cbn [seq map filter].
      - destruct (a <? n) eqn:X, (n <=? a + 0) eqn:Y; try reflexivity. apply Nat.ltb_lt in X. apply Nat.leb_le in Y. lia.
      - rewrite Lm by lia. rewrite IH by lia. destruct (S a =? n) eqn:E.
        + apply Nat.eqb_eq in E. subst n.
          assert (X1 : (S a <? S a) = false) by (apply Nat.ltb_ge; lia). assert (X2 : (a <? S a) = true) by (apply Nat.ltb_lt; lia).
          assert (X3 : (S a <=? a + S b) = true) by (apply Nat.leb_le; lia). rewrite X1, X2, X3. reflexivity.
        + apply Nat.eqb_neq in E. assert (X : (S a <? n) = (a <? n)).
          { destruct (a <? n) eqn:Y; [apply Nat.ltb_lt in Y; apply Nat.ltb_lt; lia|apply Nat.ltb_ge in Y; apply Nat.ltb_ge; lia]. }
          rewrite X. replace (S a + b) with (a + S b) by lia. reflexivity. }
    rewrite B by lia. cbn [Nat.add]. assert (X : (0 <? n) = true) by (apply Nat.ltb_lt; lia). rewrite X. cbn [andb].
    destruct (n <=? m) eqn:Y, (i + n <=? length s) eqn:Z; try reflexivity; unfold m in *.
    - apply Nat.leb_le in Y. apply Nat.leb_gt in Z. lia.
    - apply Nat.leb_gt in Y. apply Nat.leb_le in Z. lia. }
  assert (C : forall k, k <= length s -> filter (fun g => length g =? n) (flat_map (fun i =>
      map (fun l => firstn (S l) (skipn i s)) (seq 0 (Nat.min (i + N) (length s) - i))) (seq 0 k)) =
      map (fun i => firstn n (skipn i s)) (seq 0 (Nat.min k (length s + 1 - n)))).
  { induction k as [|k IH]; intros Hk; [reflexivity|]. rewrite seq_S, flat_map_app. cbn [flat_map Nat.add]. rewrite app_nil_r.
    rewrite filter_app, IH by lia. rewrite A by lia. destruct (k + n <=? length s) eqn:E.
    - apply Nat.leb_le in E. replace (Nat.min (S k) (length s + 1 - n)) with (S k) by lia.
      replace (Nat.min k (length s + 1 - n)) with k by lia. rewrite seq_S, map_app. reflexivity.
    - apply Nat.leb_gt in E. rewrite app_nil_r. f_equal. f_equal. lia. }
  rewrite C by lia. f_equal. f_equal. lia.
Qed.

Lemma occs_length : forall N s g, In g (occs N s) -> 1 <= length g <= N.
Proof.
  intros N s g I. unfold occs in I. apply in_flat_map in I. destruct I as (i & Hi & I). apply in_map_iff in I. destruct I as (l & <- & Hl).
  apply in_seq in Hi, Hl. rewrite firstn_length, skipn_length. lia.
Qed.

Lemma window_length : forall n s g, 1 <= n -> In g (windows n s) -> length g = n.
Proof.
  intros n s g Hn I. unfold windows in I. apply in_map_iff in I. destruct I as (i & <- & Hi). apply in_seq in Hi.
  rewrite firstn_length, skipn_length. lia.
Qed.
Lemma windows_length : forall n s, length (windows n s) = length s + 1 - n.
Proof. intros. unfold windows. rewrite map_length, seq_length. reflexivity. Qed.

Lemma count_filter : forall (f : ngram -> bool) l g, f g = true -> count_occ ngram_dec (filter f l) g = count_occ ngram_dec l g.
Proof.
  intros f l g F. induction l as [|h l IH]; cbn [filter count_occ]; [reflexivity|].
  destruct (f h) eqn:Fh; cbn [count_occ]; rewrite IH; destruct (ngram_dec h g) as [->|N]; try reflexivity. congruence.
Qed.

Lemma occ_order : forall N s g, 1 <= length g <= N -> count_occ ngram_dec (occs N s) g = occ (length g) s g.
Proof.
  intros N s g H. unfold occ. rewrite <- (occs_order N s (length g) H). change (list_eq_dec Nat.eq_dec) with ngram_dec.
  symmetry. apply count_filter. apply Nat.eqb_refl.
Qed.

(** Adding up. *)
Lemma add_nth : forall c count r i j, j < length c ->
  nth j (add c count r i) (0%R, 0%R) = if j =? i then ((fst (nth j c (0, 0)) + INR (Nat.min count r))%R, (snd (nth j c (0, 0)) + INR count)%R) else nth j c (0%R, 0%R).
Proof.
  induction c as [|[a b] c IH]; intros count r i j Hj; [cbn in Hj; lia|]. destruct i as [|i], j as [|j]; cbn [add nth Nat.eqb].
  - cbn [fst snd]. replace (if r <? count then r else count) with (Nat.min count r); [reflexivity|].
    destruct (r <? count) eqn:E; [apply Nat.ltb_lt in E|apply Nat.ltb_ge in E]; lia.
  - reflexivity.
  - reflexivity.
  - apply IH. cbn in Hj. lia.
Qed.
Lemma add_length : forall c count r i, length (add c count r i) = length c.
Proof. induction c as [|[a b] c IH]; intros count r [|i]; cbn; auto. Qed.

Lemma add_fold : forall (rf : ngram -> nat) m c j, j < length c ->
  let c' := fold_left (fun c e => add c (snd e) (rf (fst e)) (length (fst e) - 1)) m c in
  length c' = length c /\
  nth j c' (0%R, 0%R) =
  ((fst (nth j c (0, 0)) + INR (list_sum (map (fun e => Nat.min (snd e) (rf (fst e))) (filter (fun e => j =? length (fst e) - 1) m))))%R,
   (snd (nth j c (0, 0)) + INR (list_sum (map snd (filter (fun e => j =? length (fst e) - 1) m))))%R).
Proof.
  intros rf m. induction m as [|e m IH]; intros c j Hj c'.
  - unfold c'. cbn. split; [reflexivity|]. destruct (nth j c (0%R, 0%R)). cbn. rewrite !Rplus_0_r. reflexivity.
  - unfold c'. cbn [fold_left]. destruct (IH (add c (snd e) (rf (fst e)) (length (fst e) - 1)) j) as [L E]; [rewrite add_length; exact Hj|].
    split; [rewrite L; apply add_length|]. rewrite E, add_nth by exact Hj. cbn [filter].
    destruct (j =? length (fst e) - 1) eqn:X; [|reflexivity]. cbn [map list_sum fold_right fst snd]. fold (list_sum (map (fun e0 => Nat.min (snd e0) (rf (fst e0))) (filter (fun e0 : ngram * nat => j =? length (fst e0) - 1) m))).
    change (fold_right Nat.add 0 (map snd (filter (fun e0 : ngram * nat => j =? length (fst e0) - 1) m))) with (list_sum (map snd (filter (fun e0 : ngram * nat => j =? length (fst e0) - 1) m))).
    rewrite !plus_INR. f_equal; ring.
Qed.

Lemma sum_occ : forall (l keys : list ngram), NoDup keys -> (forall g, In g l -> In g keys) ->
  list_sum (map (count_occ ngram_dec l) keys) = length l.
Proof.
  intros l keys ND Inc. induction l as [|g l IH].
  - cbn. clear. induction keys as [|k keys IH]; cbn; auto.
  - cbn [length]. rewrite <- IH by (intros h Hh; apply Inc; right; exact Hh). clear IH.
    assert (I : In g keys) by (apply Inc; left; reflexivity). clear Inc.
    induction keys as [|k keys IH]; [destruct I|]. inversion ND as [|k' keys' Nk ND']; subst. cbn [map list_sum fold_right].
    fold (list_sum (map (count_occ ngram_dec (g :: l)) keys)). fold (list_sum (map (count_occ ngram_dec l) keys)).
    destruct (ngram_dec g k) as [->|N].
    + rewrite (count_occ_cons_eq ngram_dec l (eq_refl k)).
      assert (E : map (count_occ ngram_dec (k :: l)) keys = map (count_occ ngram_dec l) keys).
      { apply map_ext_in. intros h Hh. apply count_occ_cons_neq. intros ->. contradiction. }
      rewrite E. lia.
    + rewrite (count_occ_cons_neq ngram_dec l N). destruct I as [I|I]; [congruence|]. rewrite IH by assumption. lia.
Qed.

Lemma entries_order : forall N s n, 1 <= n <= N ->
  Permutation (map fst (filter (fun e => n - 1 =? length (fst e) - 1) (make_ngrams s N))) (nodup ngram_dec (windows n s)).
Proof.
  intros N s n Hn.
  assert (ND : NoDup (map fst (filter (fun e => n - 1 =? length (fst e) - 1) (make_ngrams s N)))).
  { pose proof (make_NoDup s N) as ND. clear Hn. induction (make_ngrams s N) as [|e m IH]; [constructor|]. cbn [filter]. inversion ND; subst.
    destruct (n - 1 =? length (fst e) - 1); [|apply IH; assumption]. cbn [map]. constructor; [|apply IH; assumption].
    intros I. apply H1. apply in_map_iff in I. destruct I as (e' & <- & I). apply filter_In in I. apply in_map. tauto. }
  apply NoDup_Permutation; [exact ND|apply NoDup_nodup|]. intros g. rewrite nodup_In. rewrite in_map_iff. split.
  - intros (e & <- & I). apply filter_In in I. destruct I as [I X]. apply Nat.eqb_eq in X.
    assert (Ig : In (fst e) (occs N s)) by (apply make_keys; apply in_map; exact I).
    pose proof (occs_length N s _ Ig) as Lg. rewrite <- (occs_order N s n Hn). apply filter_In. split; [exact Ig|]. apply Nat.eqb_eq. lia.
  - intros I. pose proof (window_length n s g ltac:(lia) I) as Lg. rewrite <- (occs_order N s n Hn) in I. apply filter_In in I. destruct I as [I _].
    apply (make_keys s N) in I. apply in_map_iff in I. destruct I as (e & Ee & I). exists e. split; [exact Ee|]. apply filter_In. split; [exact I|].
    rewrite Ee. apply Nat.eqb_eq. lia.
Qed.

Lemma list_sum_perm : forall l l', Permutation l l' -> list_sum l = list_sum l'.
Proof. intros l l' P. induction P; cbn; try fold (list_sum l); try fold (list_sum l'); unfold list_sum in *; lia. Qed.

Lemma counts_ok : forall hyp ref N n, 1 <= n <= N ->
  length (make_ngram_counts hyp ref N) = N /\
  nth (n - 1) (make_ngram_counts hyp ref N) (0%R, 0%R) = (INR (matches n hyp ref), INR (length hyp + 1 - n)).
Proof.
  intros hyp ref N n Hn. unfold make_ngram_counts.
  destruct (add_fold (look (make_ngrams ref N)) (make_ngrams hyp N) (zero N) (n - 1)) as [L E].
  { unfold zero. rewrite repeat_length. lia. }
  unfold look in L, E. split; [rewrite L; unfold zero; apply repeat_length|]. rewrite E. clear L E.
  assert (Z : nth (n - 1) (zero N) (0%R, 0%R) = (0%R, 0%R)).
  { unfold zero. destruct (Nat.lt_ge_cases (n - 1) N); [|lia]. assert (I : In (nth (n-1) (repeat (0%R, 0%R) N) (0%R, 0%R)) (repeat (0%R, 0%R) N)) by (apply nth_In; rewrite repeat_length; lia).
    apply repeat_spec in I. exact I. }
  rewrite Z. cbn [fst snd]. rewrite !Rplus_0_l.
  set (es := filter (fun e => n - 1 =? length (fst e) - 1) (make_ngrams hyp N)).
  assert (P := entries_order N hyp n Hn). fold es in P.
  assert (K : forall e, In e es -> length (fst e) = n /\ snd e = occ n hyp (fst e)).
  { intros e I. assert (Iw : In (fst e) (nodup ngram_dec (windows n hyp))) by (apply (Permutation_in _ P); apply in_map; exact I).
    apply nodup_In in Iw. assert (Le : length (fst e) = n) by (apply (window_length n hyp); [lia|exact Iw]). split; [exact Le|].
    unfold es in I. apply filter_In in I. destruct I as [I _]. destruct e as [g c]. cbn [fst snd] in *.
    rewrite <- (look_In _ g c (make_NoDup hyp N) I). rewrite make_look. rewrite <- Le. apply occ_order. lia. }
  f_equal.
  - f_equal. unfold matches. change (list_eq_dec Nat.eq_dec) with ngram_dec.
    rewrite <- (list_sum_perm _ _ (Permutation_map (fun g => Nat.min (occ n hyp g) (occ n ref g)) P)). rewrite map_map.
    f_equal. apply map_ext_in. intros e I. destruct (K e I) as [Le Se]. rewrite Se. f_equal.
    change (look (make_ngrams ref N) (fst e) = occ n ref (fst e)).
    rewrite make_look. rewrite <- Le. apply occ_order. lia.
  - f_equal. rewrite <- windows_length. rewrite <- (sum_occ (windows n hyp) (map fst es)).
    + rewrite map_map. f_equal. apply map_ext_in. intros e I. destruct (K e I) as [_ Se]. rewrite Se. reflexivity.
    + apply (Permutation_NoDup (Permutation_sym P)). apply NoDup_nodup.
    + intros g I. apply (Permutation_in _ (Permutation_sym P)). apply nodup_In. exact I.
Qed.

Lemma matches_le : forall n hyp ref, matches n hyp ref <= length hyp + 1 - n.
Proof.
  intros n hyp ref. unfold matches. change (list_eq_dec Nat.eq_dec) with ngram_dec. rewrite <- windows_length.
  rewrite <- (sum_occ (windows n hyp) (nodup ngram_dec (windows n hyp))); [|apply NoDup_nodup|intros g I; apply nodup_In; exact I].
  unfold occ. induction (nodup ngram_dec (windows n hyp)) as [|g l IH]; cbn [map list_sum fold_right]; [lia|].
  unfold list_sum in IH. change (list_eq_dec Nat.eq_dec) with ngram_dec in *. lia.
Qed.
Lemma matches_same : forall n s, matches n s s = length s + 1 - n.
Proof.
  intros n s. unfold matches. change (list_eq_dec Nat.eq_dec) with ngram_dec. rewrite <- windows_length.
  rewrite <- (sum_occ (windows n s) (nodup ngram_dec (windows n s))); [|apply NoDup_nodup|intros g I; apply nodup_In; exact I].
  f_equal. apply map_ext. intros g. apply Nat.min_id.
Qed.
Lemma matches_one : forall hyp ref, matches 1 hyp ref = 0 <-> forall w, In w hyp -> ~ In w ref.
Proof.
  intros hyp ref.
  assert (W : forall s g, In g (windows 1 s) <-> exists w, g = [w] /\ In w s).
  { intros s g. unfold windows. rewrite in_map_iff. replace (length s + 1 - 1) with (length s) by lia. split.
    - intros (i & <- & Hi). apply in_seq in Hi. destruct (skipn i s) as [|w r] eqn:E.
      + assert (length (skipn i s) = 0) by (rewrite E; reflexivity). rewrite skipn_length in H. lia.
      + exists w. split; [reflexivity|]. rewrite <- (firstn_skipn i s), E. apply in_or_app. right. left. reflexivity.
    - intros (w & -> & Hw). apply in_split in Hw. destruct Hw as (a & b & ->). exists (length a). split.
      + rewrite skipn_app, skipn_all, Nat.sub_diag. reflexivity.
      + apply in_seq. rewrite app_length. cbn. lia. }
  assert (Z : forall l, list_sum l = 0 <-> forall x, In x l -> x = 0).
  { intros l. induction l as [|a l IH]; cbn [list_sum fold_right In]; [split; [intros _ x []|reflexivity]|]. fold (list_sum l). split.
    - intros E x [<-|I]; [lia|]. apply IH; [lia|exact I].
    - intros E. rewrite (E a (or_introl eq_refl)). apply IH. intros x I. apply E. right. exact I. }
  unfold matches. rewrite Z. unfold occ. change (list_eq_dec Nat.eq_dec) with ngram_dec. split.
  - intros E w Ih Ir. specialize (E (Nat.min (count_occ ngram_dec (windows 1 hyp) [w]) (count_occ ngram_dec (windows 1 ref) [w]))).
    assert (A : count_occ ngram_dec (windows 1 hyp) [w] > 0) by (apply count_occ_In; apply W; exists w; auto).
    assert (B : count_occ ngram_dec (windows 1 ref) [w] > 0) by (apply count_occ_In; apply W; exists w; auto).
    enough (Nat.min (count_occ ngram_dec (windows 1 hyp) [w]) (count_occ ngram_dec (windows 1 ref) [w]) = 0) by lia.
    apply E. apply in_map_iff. exists [w]. split; [reflexivity|]. apply nodup_In. apply W. exists w. auto.
  - intros E x I. apply in_map_iff in I. destruct I as (g & <- & I). apply nodup_In in I. apply W in I. destruct I as (w & -> & Hw).
    assert (B : count_occ ngram_dec (windows 1 ref) [w] = 0).
    { apply count_occ_not_In. intros J. apply W in J. destruct J as (w' & Ew & Hr). injection Ew as <-. apply (E w); assumption. }
    rewrite B. apply Nat.min_0_r.
Qed.
