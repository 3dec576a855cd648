(** Proofs: an occurrence as a span with gaps. *)
From Coq Require Import List ZArith Bool Lia Permutation.
From Verif Require Import Opt OptProofs Fix FixSpec FixProofs RuleEx RuleExSpec RuleExTargetProofs RuleExPhraseProofs RuleExSourceProofs.
Import ListNotations.
Open Scope Z_scope.

Definition firstp (start : Z) (occ : list (Z * Z)) : Z := fst (hd (0, 0) occ) - start.
Definition endp (start : Z) (occ : list (Z * Z)) : Z := fst (last occ (0, 0)) + snd (last occ (0, 0)) - start.
Definition in_occ (start : Z) (occ : list (Z * Z)) (pos : Z) : Prop := exists m len, In (m, len) occ /\ m - start <= pos < m - start + len.
Definition numbered_from (k : nat) (gs : list (Z * Z)) : list (Z * (Z * Z)) := combine (map Z.of_nat (seq k (length gs))) gs.
Lemma numbered_from_1 gs : numbered gs = numbered_from 1 gs.
Proof. reflexivity. Qed.
Lemma numbered_from_cons k g gs : numbered_from k (g :: gs) = (Z.of_nat k, g) :: numbered_from (Datatypes.S k) gs.
Proof. reflexivity. Qed.
Lemma numbered_from_app k : forall g1 g2, numbered_from k (g1 ++ g2) = numbered_from k g1 ++ numbered_from (k + length g1) g2.
Proof.
  intros g1. revert k. induction g1 as [|g r IH]; intros k g2; [cbn [app length]; rewrite Nat.add_0_r; reflexivity|].
  change ((g :: r) ++ g2) with (g :: (r ++ g2)). rewrite !numbered_from_cons, IH. cbn [app length]. rewrite Nat.add_succ_r. reflexivity.
Qed.
Lemma numbered_from_snd k gs : map snd (numbered_from k gs) = gs.
Proof. unfold numbered_from. apply map_snd_combine. rewrite map_length, seq_length. auto. Qed.

Lemma renumber_chunk c : Forall (fun x => 0 <= x) c -> forall k rest, renumber k (c ++ rest) = (fst (renumber k rest), c ++ snd (renumber k rest)).
Proof.
  induction 1 as [|x c Hx F IH]; intros k rest; [cbn [app]; destruct (renumber k rest); auto|]. cbn [app renumber]. destruct (Z.leb_spec 0 x); [|lia].
  rewrite IH. auto.
Qed.
Lemma slice_size w a c : 0 <= a -> c <> [] -> slice w a (a + size c) = c -> a + size c <= size w.
Proof.
  intros H N E. assert (L : length (slice w a (a + size c)) = length c) by congruence. unfold slice in L. rewrite firstn_length, skipn_length in L. unfold size in *.
  destruct c; [congruence|]. cbn [length] in *. lia.
Qed.

Section Laid.
Variable w : list Z.
Variable start : Z.
Lemma laid_facts phrase occ : laid w start phrase occ ->
  0 <= firstp start occ /\ firstp start occ < endp start occ /\ endp start occ <= size w /\ ordered (firstp start occ) (endp start occ) (inner_gaps start occ) /\
  (forall pos, in_occ start occ pos <-> firstp start occ <= pos < endp start occ /\ ~ in_gap (inner_gaps start occ) pos) /\
  length occ = Datatypes.S (length (inner_gaps start occ)) /\
  in_occ start occ (firstp start occ) /\ in_occ start occ (endp start occ - 1).
Proof.
  induction 1 as [c m N F M S|c x ph m m' len' r N F M S X G LD IH].
  - assert (P : 0 < size c) by (destruct c; [congruence|unfold size; cbn [length]; lia]). pose proof (slice_size _ _ _ M N S).
    unfold firstp, endp. cbn [hd last fst snd inner_gaps ordered length]. split; [lia|]. split; [lia|]. split; [lia|]. split; [lia|].
    assert (IO : forall pos, in_occ start [(m, size c)] pos <-> m - start <= pos < m - start + size c).
    { intros pos. split; [intros (a & b & [I|[]] & H'); injection I as <- <-; auto|intros H'; exists m, (size c); cbn; auto]. }
    split; [|split; [auto|split; apply IO; lia]].
    intros pos. rewrite IO. split; [intros I|intros [I _]; lia]. split; [lia|]. intros (a & b & [] & _).
  - assert (P : 0 < size c) by (destruct c; [congruence|unfold size; cbn [length]; lia]).
    set (rest := (m', len') :: r) in *. change (inner_gaps start ((m, size c) :: rest)) with ((m + size c - start, m' - start) :: inner_gaps start rest).
    assert (E1 : firstp start rest = m' - start) by reflexivity. assert (E2 : endp start ((m, size c) :: rest) = endp start rest) by reflexivity.
    assert (E3 : firstp start ((m, size c) :: rest) = m - start) by reflexivity. rewrite E2, E3. rewrite E1 in IH. destruct IH as (I1 & I2 & I3 & I4 & I5 & I6 & I7 & I8).
    split; [lia|]. split; [lia|]. split; [lia|]. split; [cbn [ordered]; split; [lia|]; split; [lia|auto]|].
    split; [|split; [cbn [length] in *; lia|split; [exists m, (size c); split; [left; auto|lia]|]]].
    + intros pos. split.
      * intros (a & b & [I|I] & H').
        -- injection I as <- <-. split; [lia|]. intros (u & v & [J|J] & K); [injection J as <- <-; lia|]. apply (ordered_in _ _ _ _ _ I4) in J. lia.
        -- destruct (proj1 (I5 pos)) as [J1 J2]; [exists a, b; auto|]. split; [lia|]. intros (u & v & [J|J] & K); [injection J as <- <-; lia|]. apply J2. exists u, v. auto.
      * intros [H1 H2]. destruct (Z_lt_dec pos (m - start + size c)) as [Q|Q]; [exists m, (size c); split; [left; auto|lia]|].
        destruct (Z_lt_dec pos (m' - start)) as [Q2|Q2]; [exfalso; apply H2; exists (m + size c - start), (m' - start); split; [left; auto|lia]|].
        destruct (proj2 (I5 pos)) as (a & b & I & K); [split; [lia|]|exists a, b; split; [right; auto|auto]].
        intros (u & v & J & K). apply H2. exists u, v. split; [right; auto|auto].
    + destruct I8 as (a & b & I & K). exists a, b. split; [right; auto|auto].
Qed.
Lemma laid_renumber phrase occ : laid w start phrase occ -> forall k,
  renumber (Z.of_nat k) phrase = (Z.of_nat (k + length (inner_gaps start occ)),
    side w (firstp start occ) (endp start occ) (numbered_from (Datatypes.S k) (inner_gaps start occ))).
Proof.
  induction 1 as [c m N F M S|c x ph m m' len' r N F M S X G LD IH]; intros k.
  - cbn [inner_gaps length side numbered_from map combine seq]. unfold firstp, endp. cbn [hd last fst snd]. rewrite <- (app_nil_r c) at 1. rewrite renumber_chunk by auto.
    cbn [renumber fst snd]. rewrite app_nil_r, Nat.add_0_r. f_equal. rewrite <- S at 1. f_equal. lia.
  - set (rest := (m', len') :: r) in *. change (inner_gaps start ((m, size c) :: rest)) with ((m + size c - start, m' - start) :: inner_gaps start rest).
    rewrite numbered_from_cons. cbn [side]. change (endp start ((m, size c) :: rest)) with (endp start rest).
    change (firstp start ((m, size c) :: rest)) with (m - start). rewrite renumber_chunk by auto. cbn [renumber]. destruct (Z.leb_spec 0 x); [lia|].
    replace (Z.of_nat k + 1) with (Z.of_nat (Datatypes.S k)) by lia. rewrite IH. cbn [fst snd length]. change (firstp start rest) with (m' - start). f_equal.
    + f_equal. lia.
    + rewrite <- S at 1. replace (m + size c - start) with (m - start + size c) by lia. auto.
Qed.

Lemma index_chunk_ok : forall k pos num (m : index) s, find_index (index_chunk k pos num m) s =
  if andb (pos <=? s) (s <? pos + Z.of_nat k) then Some (num + (s - pos)) else find_index m s.
Proof.
  induction k as [|k IH]; intros pos num m s; cbn [index_chunk].
  - destruct (Z.leb_spec pos s); destruct (Z.ltb_spec s (pos + Z.of_nat 0)); cbn [andb]; auto; lia.
  - rewrite IH. replace (pos + Z.of_nat (Datatypes.S k)) with (pos + 1 + Z.of_nat k) by lia.
    destruct (Z.leb_spec (pos + 1) s); destruct (Z.ltb_spec s (pos + 1 + Z.of_nat k)); destruct (Z.leb_spec pos s); cbn [andb]; try lia;
      try (f_equal; lia); unfold find_index; cbn [find fst snd]; destruct (Z.eqb_spec pos s); cbn [snd]; auto; try lia. f_equal. lia.
Qed.
Lemma source_index_ok phrase occ : laid w start phrase occ -> forall num (m : index) s,
  (in_occ start occ s -> find_index (source_index start occ num m) s = Some (num + place (firstp start occ) (inner_gaps start occ) s)) /\
  (s < firstp start occ -> find_index (source_index start occ num m) s = find_index m s).
Proof.
  induction 1 as [c m N F M S|c x ph m m' len' r N F M S X G LD IH]; intros num mm s.
  - assert (P : 0 < size c) by (destruct c; [congruence|unfold size; cbn [length]; lia]).
    cbn [source_index inner_gaps place]. change (firstp start [(m, size c)]) with (m - start). rewrite index_chunk_ok. rewrite Z2Nat.id by lia. split.
    + intros (a & b & [I|[]] & H). injection I as <- <-. destruct (Z.leb_spec (m - start) s); [|lia]. destruct (Z.ltb_spec s (m - start + size c)); [|lia]. auto.
    + intros H. destruct (Z.leb_spec (m - start) s); [lia|]. auto.
  - assert (P : 0 < size c) by (destruct c; [congruence|unfold size; cbn [length]; lia]).
    pose proof (laid_facts _ _ LD) as (I1 & I2 & I3 & I4 & I5 & I6 & _).
    set (rest := (m', len') :: r) in *. change (inner_gaps start ((m, size c) :: rest)) with ((m + size c - start, m' - start) :: inner_gaps start rest).
    change (firstp start ((m, size c) :: rest)) with (m - start). assert (E1 : firstp start rest = m' - start) by reflexivity.
    change (source_index start ((m, size c) :: rest) num mm) with (source_index start rest (num + Z.max 0 (size c) + 1) (index_chunk (Z.to_nat (size c)) (m - start) num mm)).
    rewrite Z.max_r by lia. destruct (IH (num + size c + 1) (index_chunk (Z.to_nat (size c)) (m - start) num mm) s) as [J1 J2]. rewrite E1 in J1, J2.
    rewrite index_chunk_ok, Z2Nat.id in J2 by lia. cbn [place]. split.
    + intros (a & b & [I|I] & H).
      * injection I as <- <-. rewrite J2 by lia. destruct (Z.leb_spec (m - start) s); [|lia]. destruct (Z.ltb_spec s (m - start + size c)); [|lia].
        cbn [andb]. destruct (Z.ltb_spec s (m + size c - start)); [auto|lia].
      * assert (K : in_occ start rest s) by (exists a, b; auto). rewrite (J1 K). apply I5 in K. rewrite E1 in K. destruct (Z.ltb_spec s (m + size c - start)); [lia|]. f_equal. lia.
    + intros H. rewrite J2 by lia. destruct (Z.leb_spec (m - start) s); [lia|]. auto.
Qed.
End Laid.

(** * Gaps at the ends *)
Definition front (b : bool) (sl first : Z) : list (Z * Z) := if b then [(sl, first)] else [].
Lemma ordered_app : forall gs lo hi sh, ordered lo hi gs -> hi < sh -> ordered lo sh (gs ++ [(hi, sh)]).
Proof. induction gs as [|[a b] r IH]; intros lo hi sh H L; cbn in *; [lia|]. destruct H as (H1 & H2 & H3). auto. Qed.
Lemma place_app : forall gs lo a b pos, pos < a -> place lo (gs ++ [(a, b)]) pos = place lo gs pos.
Proof.
  induction gs as [|[c d] r IH]; intros lo a b pos H; cbn [app place].
  - destruct (Z.ltb_spec pos a); [auto|lia].
  - destruct (pos <? c); [auto|]. rewrite IH by auto. auto.
Qed.
Lemma side_app w : forall gs lo hi sh k, side w lo sh (gs ++ [(k, (hi, sh))]) = side w lo hi gs ++ [- k].
Proof.
  induction gs as [|[j [a b]] r IH]; intros lo hi sh k; cbn [app side].
  - rewrite (slice_nil w sh sh) by lia. auto.
  - rewrite IH. rewrite <- app_assoc. auto.
Qed.
Section Ends.
Variable w : list Z.
Variable start : Z.
Variables (phrase : list Z) (occ : list (Z * Z)).
Hypothesis LD : laid w start phrase occ.
Let fp := firstp start occ.
Let ep := endp start occ.
Let inner := inner_gaps start occ.
Variables (fb bb : bool) (sl sh : Z).
Hypothesis HF : if fb then sl < fp else sl = fp.
Hypothesis HB : if bb then ep < sh else sh = ep.
Definition all_gaps : list (Z * Z) := front fb sl fp ++ inner ++ front bb ep sh.
Lemma ends_ordered : ordered sl sh all_gaps.
Proof.
  destruct (laid_facts _ _ _ _ LD) as (_ & _ & _ & O & _). fold fp ep inner in O. unfold all_gaps, front.
  assert (O2 : ordered fp sh (inner ++ (if bb then [(ep, sh)] else []))). { destruct bb; [apply ordered_app; auto|]. rewrite app_nil_r, HB. auto. }
  destruct fb; cbn [app]; [cbn [ordered]; repeat split; auto; lia|]. rewrite HF. auto.
Qed.
Lemma ends_cover pos : in_occ start occ pos <-> sl <= pos < sh /\ ~ in_gap all_gaps pos.
Proof.
  destruct (laid_facts _ _ _ _ LD) as (_ & F0 & _ & O & CV & _). fold fp ep inner in F0, O, CV. rewrite CV.
  assert (LE : sl <= fp) by (destruct fb; lia). assert (GE : ep <= sh) by (destruct bb; lia). unfold all_gaps, front. split.
  - intros [H1 H2]. split; [lia|]. intros (a & b & I & H). apply in_app_or in I. destruct I as [I|I]; [|apply in_app_or in I; destruct I as [I|I]].
    + destruct fb; [|destruct I]. destruct I as [I|[]]. injection I as <- <-. lia.
    + apply H2. exists a, b. auto.
    + destruct bb; [|destruct I]. destruct I as [I|[]]. injection I as <- <-. lia.
  - intros [H1 H2]. split.
    + split.
      * destruct (Z_le_dec fp pos); [auto|]. exfalso. destruct fb; [|lia]. apply H2. exists sl, fp. split; [left; auto|lia].
      * destruct (Z_lt_dec pos ep); [auto|]. exfalso. destruct bb; [|lia]. apply H2. exists ep, sh. split; [apply in_or_app; right; apply in_or_app; right; left; auto|lia].
    + intros (a & b & I & H). apply H2. exists a, b. split; [apply in_or_app; right; apply in_or_app; auto|auto].
Qed.
Lemma ends_index s : sl <= s < sh -> ~ in_gap all_gaps s -> find_index (GetSourceIndexes start occ fb) s = Some (place sl all_gaps s).
Proof.
  intros H1 H2. assert (I : in_occ start occ s) by (apply ends_cover; auto). unfold GetSourceIndexes.
  destruct (source_index_ok _ _ _ _ LD (b2z fb) [] s) as [E _]. rewrite (E I). f_equal. fold fp inner.
  destruct (laid_facts _ _ _ _ LD) as (_ & _ & _ & _ & CV & _). apply CV in I. fold fp ep inner in I.
  assert (P : place fp (inner ++ front bb ep sh) s = place fp inner s). { unfold front. destruct bb; [apply place_app; lia|rewrite app_nil_r; auto]. }
  unfold all_gaps. destruct fb; cbn [front app b2z place].
  - destruct (Z.ltb_spec s sl); [lia|]. rewrite P. lia.
  - rewrite HF, P. lia.
Qed.
Lemma ends_side : Extend phrase fb bb = side w sl sh (numbered all_gaps).
Proof.
  unfold Extend. assert (E : b2z fb = Z.of_nat (Nat.b2n fb)) by (destruct fb; auto). rewrite E. rewrite (laid_renumber _ _ _ _ LD). fold fp ep inner.
  rewrite numbered_from_1. unfold all_gaps. rewrite !numbered_from_app.
  assert (B : forall k, side w fp sh (numbered_from k inner ++ numbered_from (k + length inner) (front bb ep sh)) =
    side w fp ep (numbered_from k inner) ++ (if bb then [- Z.of_nat (k + length inner)] else [])).
  { intros k. unfold front. destruct bb; [|cbn [numbered_from length seq map combine]; rewrite !app_nil_r, HB; auto].
    rewrite numbered_from_cons. cbn [numbered_from length seq map combine]. rewrite side_app. auto. }
  destruct fb; cbn [front length Nat.b2n].
  - rewrite numbered_from_cons. cbn [numbered_from length seq map combine app side]. rewrite (slice_nil w sl sl) by lia. cbn [app Nat.add].
    rewrite B. destruct bb; auto. do 4 f_equal. lia.
  - cbn [numbered_from length seq map combine app side Nat.add]. rewrite HF, B. destruct bb; auto. do 3 f_equal. lia.
Qed.
End Ends.

(** * Extending twice *)
Lemma renumber_app : forall l k r, renumber k (l ++ r) = (fst (renumber (fst (renumber k l)) r), snd (renumber k l) ++ snd (renumber (fst (renumber k l)) r)).
Proof.
  induction l as [|x l IH]; intros k r; [cbn; destruct (renumber k r); auto|]. cbn [app renumber]. destruct (0 <=? x).
  - rewrite IH. destruct (renumber k l) as [k1 l1]. cbn [fst snd app]. auto.
  - rewrite IH. destruct (renumber (k + 1) l) as [k1 l1]. cbn [fst snd app]. auto.
Qed.
Lemma renumber_renumber : forall l j k, 0 <= j -> renumber k (snd (renumber j l)) = renumber k l.
Proof.
  induction l as [|x l IH]; intros j k J; [auto|]. cbn [renumber]. destruct (Z.leb_spec 0 x).
  - destruct (renumber j l) as [k1 l1] eqn:E. cbn [snd renumber]. destruct (Z.leb_spec 0 x); [|lia]. rewrite <- (IH j k) by auto. rewrite E. auto.
  - destruct (renumber (j + 1) l) as [k1 l1] eqn:E. cbn [snd renumber]. destruct (Z.leb_spec 0 (- (j + 1))); [lia|].
    rewrite <- (IH (j + 1) (k + 1)) by lia. rewrite E. auto.
Qed.
Lemma renumber_ge : forall l k, k <= fst (renumber k l).
Proof.
  induction l as [|x l IH]; intros k; cbn [renumber]; [cbn; lia|]. destruct (0 <=? x).
  - specialize (IH k). destruct (renumber k l). cbn [fst] in *. auto.
  - specialize (IH (k + 1)). destruct (renumber (k + 1) l). cbn [fst] in *. lia.
Qed.
Lemma renumber_size : forall l k, size (snd (renumber k l)) = size l.
Proof.
  unfold size. induction l as [|x l IH]; intros k; [auto|]. cbn [renumber]. destruct (0 <=? x).
  - specialize (IH k). destruct (renumber k l). cbn [snd length] in *. lia.
  - specialize (IH (k + 1)). destruct (renumber (k + 1) l). cbn [snd length] in *. lia.
Qed.
Lemma extend_size phrase a b : size (Extend phrase a b) = size phrase + b2z a + b2z b.
Proof.
  unfold Extend. pose proof (renumber_size phrase (b2z a)). destruct (renumber (b2z a) phrase) as [k l]. cbn [snd] in *. rewrite !size_app.
  destruct a, b; cbn [b2z]; unfold size in *; cbn [length]; lia.
Qed.
Lemma extend_extend phrase a b c d : andb a c = false -> andb b d = false -> Extend (Extend phrase a b) c d = Extend phrase (orb a c) (orb b d).
Proof.
  intros H1 H2. unfold Extend. destruct (renumber (b2z a) phrase) as [k l] eqn:E.
  assert (J : 0 <= b2z a) by (destruct a; cbn; lia).
  assert (K : b2z a <= k) by (pose proof (renumber_ge phrase (b2z a)) as X; rewrite E in X; auto).
  assert (L : forall q, renumber q l = renumber q phrase) by (intros q; rewrite <- (renumber_renumber phrase (b2z a) q J); rewrite E; auto).
  rewrite !renumber_app.
  assert (F1 : renumber (b2z c) (if a then [-1] else []) = (b2z c + b2z a, if a then [- (b2z c + 1)] else [])).
  { destruct a; cbn [renumber]; [|cbn [b2z]; rewrite Z.add_0_r; auto]. auto. }
  rewrite F1. cbn [fst snd]. rewrite L.
  replace (b2z (orb a c)) with (b2z c + b2z a) by (destruct a, c; cbn in *; auto; discriminate).
  destruct (renumber (b2z c + b2z a) phrase) as [k2 l2] eqn:E2. cbn [fst snd].
  assert (F2 : renumber k2 (if b then [- (k + 1)] else []) = (k2 + b2z b, if b then [- (k2 + 1)] else [])).
  { destruct b; cbn [renumber]; [|cbn [b2z]; rewrite Z.add_0_r; auto]. destruct (Z.leb_spec 0 (- (k + 1))); [lia|]. auto. }
  rewrite F2. cbn [fst snd].
  destruct a, c; cbn in H1; try discriminate; destruct b, d; cbn in H2; try discriminate; cbn [orb app b2z]; rewrite ?app_nil_r, ?Z.add_0_r; auto.
Qed.
