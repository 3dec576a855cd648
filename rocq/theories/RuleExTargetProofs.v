(** Proofs: the target side of extracted rules. *)
From Coq Require Import List ZArith Bool Lia Permutation.
From Verif Require Import Opt OptProofs Fix FixSpec FixProofs RuleEx RuleExSpec.
Import ListNotations.
Open Scope Z_scope.
Open Scope opt_scope.

(** * Slices and sides *)
Lemma slice_nil w a b : b <= a -> slice w a b = [].
Proof. intros H. unfold slice. replace (Z.to_nat (b - a)) with O by lia. reflexivity. Qed.
Lemma slice_length w a b : 0 <= a -> a <= b -> b <= size w -> length (slice w a b) = Z.to_nat (b - a).
Proof. intros H1 H2 H3. unfold slice, size in *. rewrite firstn_length, skipn_length. lia. Qed.
Lemma slice_nth w a b i : 0 <= a -> (i < Z.to_nat (b - a))%nat -> nth_error (slice w a b) i = nth_error w (Z.to_nat a + i).
Proof.
  intros H1 H2. unfold slice. rewrite <- (firstn_skipn (Z.to_nat a) w) at 2.
  assert (E : forall (l : list Z) n i, (i < n)%nat -> nth_error (firstn n l) i = nth_error l i).
  { induction l as [|x l IH]; intros [|n] [|j] Hj; cbn; auto; try lia. apply IH. lia. }
  rewrite E by auto. destruct (le_lt_dec (length w) (Z.to_nat a)) as [L|L].
  - rewrite skipn_all2 by auto. rewrite app_nil_r, firstn_all2 by auto. transitivity (@None Z); [destruct i; auto|symmetry; apply nth_error_None; lia].
  - rewrite nth_error_app2; rewrite firstn_length; [|lia]. f_equal. lia.
Qed.
Lemma nth_error_ext' (A : Type) : forall l l' : list A, (forall i, nth_error l i = nth_error l' i) -> l = l'.
Proof.
  induction l as [|x l IH]; intros [|y l'] H; auto.
  - specialize (H O). discriminate.
  - specialize (H O). discriminate.
  - pose proof (H O) as H0. cbn in H0. injection H0 as ->. f_equal. apply IH. intros i. apply (H (Datatypes.S i)).
Qed.
Lemma slice_step w a b x : 0 <= a -> a < b -> get w a = Some x -> slice w a b = x :: slice w (a + 1) b.
Proof.
  intros H1 H2 G. unfold get in G. destruct (Z.ltb_spec a 0); [lia|]. apply nth_error_ext'. intros [|i].
  - rewrite slice_nth by lia. rewrite Nat.add_0_r. auto.
  - change (nth_error (x :: slice w (a + 1) b) (Datatypes.S i)) with (nth_error (slice w (a + 1) b) i).
    destruct (le_lt_dec (Z.to_nat (b - a)) (Datatypes.S i)) as [L|L].
    + transitivity (@None Z); [|symmetry]; apply nth_error_None; unfold slice; rewrite firstn_length; lia.
    + rewrite !slice_nth by lia. f_equal. lia.
Qed.

Lemma ordered_le gaps : forall lo hi, ordered lo hi gaps -> lo <= hi.
Proof. induction gaps as [|[a b] r IH]; intros lo hi H; cbn in H; [auto|]. destruct H as (H1 & H2 & H3). apply IH in H3. lia. Qed.
Lemma ordered_in gaps : forall lo hi a b, ordered lo hi gaps -> In (a, b) gaps -> lo <= a /\ a < b /\ b <= hi.
Proof.
  induction gaps as [|[c d] r IH]; intros lo hi a b H I; cbn in H; [destruct I|]. destruct H as (H1 & H2 & H3).
  pose proof (ordered_le _ _ _ H3). destruct I as [I|I]; [injection I as -> ->; lia|]. apply (IH _ _ _ _ H3) in I. lia.
Qed.
Lemma ordered_mono gaps : forall lo lo' hi, lo' <= lo -> ordered lo hi gaps -> ordered lo' hi gaps.
Proof. destruct gaps as [|[a b] r]; intros lo lo' hi L H; cbn in *; [lia|]. destruct H as (H1 & H2 & H3). repeat split; auto; lia. Qed.

Lemma side_place w : forall tg lo hi pos, 0 <= lo -> hi <= size w -> ordered lo hi (map snd tg) -> lo <= pos < hi -> ~ in_gap (map snd tg) pos ->
  0 <= place lo (map snd tg) pos /\ nth_error (side w lo hi tg) (Z.to_nat (place lo (map snd tg) pos)) = nth_error w (Z.to_nat pos).
Proof.
  induction tg as [|[k [a b]] r IH]; intros lo hi pos H1 H2 O P N; cbn [map snd] in *.
  - cbn [place side]. split; [lia|]. rewrite slice_nth by lia. f_equal. lia.
  - cbn [ordered place side] in *. destruct O as (O1 & O2 & O3). pose proof (ordered_le _ _ _ O3) as O4.
    assert (LS : length (slice w lo a) = Z.to_nat (a - lo)) by (apply slice_length; lia).
    destruct (Z.ltb_spec pos a) as [L|L].
    + split; [lia|]. rewrite nth_error_app1 by lia. rewrite slice_nth by lia. f_equal. lia.
    + assert (G : b <= pos). { destruct (Z_le_dec b pos); [auto|]. exfalso. apply N. exists a, b. cbn; auto with zarith. }
      destruct (IH b hi pos) as [I1 I2]; auto; try lia. { intros (c & d & X & Y). apply N. exists c, d. cbn; auto. }
      split; [lia|]. rewrite nth_error_app2 by lia. rewrite LS.
      replace (Z.to_nat (a - lo + 1 + place b (map snd r) pos) - Z.to_nat (a - lo))%nat with (Datatypes.S (Z.to_nat (place b (map snd r) pos))) by lia.
      cbn [nth_error]. auto.
Qed.

(** * Positions inside *)
Lemma inside_spec lo hi gaps pos : inside lo hi gaps pos = true <-> lo <= pos < hi /\ ~ in_gap gaps pos.
Proof.
  unfold inside. rewrite !andb_true_iff, Z.leb_le, Z.ltb_lt, negb_true_iff. split.
  - intros [H1 H2]. split; [lia|]. intros (a & b & I & H). assert (X : existsb (fun g => (fst g <=? pos) && (pos <? snd g)) gaps = true).
    { apply existsb_exists. exists (a, b). split; [auto|]. cbn [fst snd]. rewrite andb_true_iff, Z.leb_le, Z.ltb_lt. lia. }
    congruence.
  - intros [H1 H2]. split; [lia|]. destruct (existsb _ gaps) eqn:E; [|auto]. exfalso. apply existsb_exists in E. destruct E as ([a b] & I & H).
    cbn [fst snd] in H. rewrite andb_true_iff, Z.leb_le, Z.ltb_lt in H. apply H2. exists a, b. auto.
Qed.
Lemma inside_cons lo hi a b r pos : ordered lo hi ((a, b) :: r) ->
  inside lo hi ((a, b) :: r) pos = orb (andb (lo <=? pos) (pos <? a)) (inside b hi r pos).
Proof.
  intros (O1 & O2 & O3). pose proof (ordered_le _ _ _ O3) as O4. apply eq_true_iff_eq. rewrite orb_true_iff, !inside_spec, andb_true_iff, Z.leb_le, Z.ltb_lt. split.
  - intros [H1 H2]. destruct (Z_lt_dec pos a); [lia|]. right. split.
    + destruct (Z_lt_dec pos b); [|lia]. exfalso. apply H2. exists a, b. cbn; auto with zarith.
    + intros (c & d & I & H). apply H2. exists c, d. cbn; auto.
  - intros [H|[H1 H2]].
    + split; [lia|]. intros (c & d & I & H'). destruct I as [I|I]; [injection I as <- <-; lia|].
      apply (ordered_in _ _ _ _ _ O3) in I. lia.
    + split; [lia|]. intros (c & d & I & H'). destruct I as [I|I]; [injection I as <- <-; lia|]. apply H2. exists c, d; auto.
Qed.

(** * The words of the chunks *)
Section Target.
Variable p : sentence.
Lemma chunk_symbols_ok : forall k j sy m, 0 <= j -> j + Z.of_nat k <= size (tgt p) ->
  exists m', chunk_symbols p k j (sy, m) = Some (sy ++ slice (tgt p) j (j + Z.of_nat k), m') /\
    forall t, find_index m' t = if andb (j <=? t) (t <? j + Z.of_nat k) then Some (size sy + (t - j)) else find_index m t.
Proof.
  induction k as [|k IH]; intros j sy m H1 H2.
  - exists m. split; [cbn [chunk_symbols]; rewrite slice_nil by lia; rewrite app_nil_r; auto|].
    intros t. destruct (Z.leb_spec j t); destruct (Z.ltb_spec t (j + Z.of_nat 0)); cbn [andb]; auto; lia.
  - cbn [chunk_symbols]. rewrite get_some by lia. cbn [bind].
    destruct (IH (j + 1) (sy ++ [at_ (tgt p) j]) ((j, size sy) :: m)) as (m' & E & F); [lia|lia|]. exists m'. split.
    + etransitivity; [exact E|]. do 2 f_equal. rewrite <- app_assoc. cbn [app]. f_equal.
      rewrite (slice_step _ j (j + Z.of_nat (Datatypes.S k)) (at_ (tgt p) j)); [|lia|lia|apply get_some; lia]. do 2 f_equal. lia.
    + intros t. rewrite F. rewrite size_app. change (size [at_ (tgt p) j]) with 1.
      replace (j + Z.of_nat (Datatypes.S k)) with (j + 1 + Z.of_nat k) by lia.
      destruct (Z.leb_spec (j + 1) t); destruct (Z.ltb_spec t (j + 1 + Z.of_nat k)); destruct (Z.leb_spec j t); cbn [andb]; try lia;
        try (f_equal; lia); unfold find_index; cbn [find fst snd]; destruct (Z.eqb_spec j t); cbn [snd]; auto; try lia. f_equal. lia.
Qed.

(** The ends of the chunks, after the first start. *)
Fixpoint ends (gaps : list (Z * Z)) (e : Z) : list Z := match gaps with [] => [e] | (b, a) :: r => b :: a :: ends r e end.
Lemma target_symbols_ok : forall gaps order a0 e sy m, 0 <= a0 -> e <= size (tgt p) -> ordered a0 e gaps -> length order = length gaps ->
  exists m', target_symbols p (a0 :: ends gaps e) order (sy, m) =
      Some (sy ++ side (tgt p) a0 e (combine (map (fun k => k + 1) order) gaps), m') /\
    forall t, find_index m' t = if inside a0 e gaps t then Some (size sy + place a0 gaps t) else find_index m t.
Proof.
  induction gaps as [|[b a] r IH]; intros order a0 e sy m H1 H2 O L.
  - destruct order; [|discriminate]. cbn [ends target_symbols ordered] in *.
    destruct (chunk_symbols_ok (Z.to_nat (e - a0)) a0 sy m) as (m' & E & F); [lia|lia|]. rewrite E. cbn [bind]. exists m'.
    replace (a0 + Z.of_nat (Z.to_nat (e - a0))) with e in * by lia. split; [reflexivity|].
    intros t. rewrite F. unfold inside. cbn [existsb negb]. rewrite andb_true_r. cbn [place]. auto.
  - destruct order as [|k ks]; [discriminate|]. cbn [ends]. pose proof O as O'. cbn [ordered] in O'. destruct O' as (O1 & O2 & O3).
    pose proof (ordered_le _ _ _ O3) as O4.
    cbn [target_symbols]. destruct (chunk_symbols_ok (Z.to_nat (b - a0)) a0 sy m) as (m1 & E & F); [lia|lia|]. rewrite E. cbn [bind].
    replace (a0 + Z.of_nat (Z.to_nat (b - a0))) with b in * by lia.
    destruct (IH ks a e ((sy ++ slice (tgt p) a0 b) ++ [- (k + 1)]) m1) as (m' & E' & F'); [lia|auto|auto|cbn in L; lia|].
    exists m'. split.
    + etransitivity; [exact E'|]. do 2 f_equal. cbn [map combine side]. rewrite <- !app_assoc. reflexivity.
    + intros t. rewrite F', F. rewrite inside_cons by auto. cbn [place]. rewrite !size_app. change (size [- (k + 1)]) with 1.
      assert (LS : size (slice (tgt p) a0 b) = b - a0) by (unfold size; rewrite slice_length by lia; lia). rewrite LS.
      destruct (inside a e r t) eqn:I.
      * apply inside_spec in I. destruct I as [I _]. destruct (Z.ltb_spec t b); [lia|]. rewrite orb_true_r. f_equal. lia.
      * rewrite orb_false_r. destruct (Z.leb_spec a0 t); cbn [andb]; auto. destruct (Z.ltb_spec t b); auto.
Qed.

Lemma phrase_links_ok : forall (ls : list (Z * Z)) (si ti : index) (ins : Z -> bool) (fs ft : Z -> Z), (forall t, find_index ti t = if ins t then Some (ft t) else None) ->
  (forall s t, In (s, t) ls -> ins t = true -> find_index si s = Some (fs s)) ->
  phrase_links ls si ti = Some (map (fun l => (fs (fst l), ft (snd l))) (filter (fun l => ins (snd l)) ls)).
Proof.
  induction ls as [|[s t] r IH]; intros si ti ins fs ft H1 H2; [reflexivity|]. cbn [phrase_links filter snd]. rewrite H1. destruct (ins t) eqn:I.
  - rewrite (H2 s t (or_introl eq_refl) I). cbn [bind map fst snd]. rewrite (IH si ti ins fs ft H1); [reflexivity|]. intros; eapply H2; [right|]; eauto.
  - apply IH; auto. intros; eapply H2; [right|]; eauto.
Qed.
End Target.

(** * The choice of the chunks *)
Lemma zrange_in lo hi x : In x (zrange lo hi) <-> lo <= x <= hi.
Proof.
  unfold zrange. rewrite in_map_iff. split.
  - intros (i & <- & I). apply in_seq in I. lia.
  - intros H. exists (Z.to_nat (x - lo)). split; [lia|]. apply in_seq. lia.
Qed.
Lemma zrange_nodup lo hi : NoDup (zrange lo hi).
Proof.
  unfold zrange. apply FinFun.Injective_map_NoDup; [|apply seq_NoDup]. intros a b H. lia.
Qed.
Definition fits_gap (gh : (Z * Z) * (Z * Z)) (c : Z * Z) : Prop :=
  let '((gl, gr), (hl, hr)) := gh in let '(b, a) := c in hl <= b <= gl /\ gr <= a <= hr.
Definition ranges_of (ghs : list ((Z * Z) * (Z * Z))) : list (Z * Z) :=
  flat_map (fun gh => [(fst (snd gh), fst (fst gh)); (snd (fst gh), snd (snd gh))]) ghs.
Definition start_of (prev : option Z) (x : Z) : Z := match prev with None => x | Some q => Z.max x q end.
Lemma generate_in : forall ghs xl lo hi xh prev subs, Forall (fun gh => fst (fst gh) < snd (fst gh)) ghs ->
  In subs (generate ((xl, lo) :: ranges_of ghs ++ [(hi, xh)]) prev) <->
  exists a0 gaps e, subs = a0 :: ends gaps e /\ start_of prev xl <= a0 <= lo /\ ordered a0 e gaps /\ Forall2 fits_gap ghs gaps /\ hi <= e <= xh.
Proof.
  induction ghs as [|[[gl gr] [hl hr]] ghs IH]; intros xl lo hi xh prev subs Fg.
  - cbn [ranges_of flat_map app generate fst snd]. rewrite in_flat_map. split.
    + intros (a & Ia & I). apply zrange_in in Ia. apply in_flat_map in I. destruct I as (b & Ib & I). apply zrange_in in Ib.
      cbn in I. destruct I as [<-|[]]. exists a, [], b. cbn [ends ordered]. split; [auto|]. fold (start_of prev xl) in Ia. split; [lia|]. split; [lia|].
      split; [constructor|lia].
    + intros (a & gaps & e & -> & Ha & O & F2 & He). inversion F2; subst. cbn [ordered] in O. exists a. split; [apply zrange_in; auto|].
      apply in_flat_map. exists e. split; [apply zrange_in; lia|]. cbn. auto.
  - inversion Fg as [|x y Fg1 Fg2]; subst. cbn [fst snd] in Fg1.
    change (generate ((xl, lo) :: ranges_of (((gl, gr), (hl, hr)) :: ghs) ++ [(hi, xh)]) prev) with
      (flat_map (fun a => flat_map (fun b => map (fun l => a :: b :: l) (generate ((gr, hr) :: ranges_of ghs ++ [(hi, xh)]) (Some b)))
         (zrange (Z.max a hl) gl)) (zrange (start_of prev xl) lo)).
    rewrite in_flat_map. split.
    + intros (a & Ia & I). apply zrange_in in Ia. apply in_flat_map in I. destruct I as (b & Ib & I). apply zrange_in in Ib.
      apply in_map_iff in I. destruct I as (l & <- & I). apply IH in I; [|auto]. destruct I as (a1 & gaps & e & -> & Ha1 & O & F2 & He).
      cbn [start_of] in Ha1. exists a, ((b, a1) :: gaps), e. cbn [ends ordered]. split; [auto|]. split; [auto|]. split; [split; [lia|split; [lia|auto]]|].
      split; [constructor; [unfold fits_gap; lia|auto]|auto].
    + intros (a & gaps & e & -> & Ha & O & F2 & He). inversion F2 as [|x [b a1] y gaps' FG F2']; subst. unfold fits_gap in FG.
      cbn [ordered] in O. destruct O as (O1 & O2 & O3). exists a. split; [apply zrange_in; auto|]. apply in_flat_map. exists b.
      split; [apply zrange_in; lia|]. cbn [ends]. apply in_map_iff. exists (a1 :: ends gaps' e). split; [auto|]. apply IH; [auto|].
      exists a1, gaps', e. cbn [start_of]. split; [auto|]. split; [lia|]. auto.
Qed.
Lemma flat_map_nodup (A B : Type) (f : A -> list B) (key : B -> A) : forall l, NoDup l -> (forall a, In a l -> NoDup (f a)) ->
  (forall a b, In a l -> In b (f a) -> key b = a) -> NoDup (flat_map f l).
Proof.
  induction l as [|a l IH]; intros N1 N2 K; [constructor|]. cbn [flat_map]. inversion N1; subst.
  assert (R : NoDup (flat_map f l)) by (apply IH; auto; intros; [apply N2|apply K]; cbn; auto).
  assert (D : forall b, In b (f a) -> ~ In b (flat_map f l)).
  { intros b I1 I2. apply in_flat_map in I2. destruct I2 as (a' & I3 & I4).
    assert (a = a'). { rewrite <- (K a b); cbn; auto. apply K; cbn; auto. } subst. auto. }
  specialize (N2 a (or_introl eq_refl)). revert N2 D. generalize (f a). induction l0 as [|b l0 IH0]; intros N3 D; cbn; [auto|].
  inversion N3; subst. constructor; [|apply IH0; auto; intros; apply D; cbn; auto]. rewrite in_app_iff. intros [X|X]; [auto|]. apply (D b); cbn; auto.
Qed.
Lemma generate_nodup : forall n ranges prev, (length ranges <= 2 * n)%nat -> NoDup (generate ranges prev).
Proof.
  induction n as [|n IH]; intros ranges prev L.
  - destruct ranges; [|cbn in L; lia]. cbn. constructor; [auto|constructor].
  - destruct ranges as [|r0 [|r1 rest]]; try (cbn; constructor; [auto|constructor]). cbn [generate].
    apply (flat_map_nodup _ _ _ (fun l => hd 0 l)); [apply zrange_nodup| |].
    + intros a _. apply (flat_map_nodup _ _ _ (fun l => hd 0 (List.tl l))); [apply zrange_nodup| |].
      * intros b _. apply FinFun.Injective_map_NoDup; [intros x y H; injection H as ->; auto|]. apply IH. cbn in L. lia.
      * intros b x _ I. apply in_map_iff in I. destruct I as (l & <- & _). reflexivity.
    + intros a x _ I. apply in_flat_map in I. destruct I as (b & _ & I). apply in_map_iff in I. destruct I as (l & <- & _). reflexivity.
Qed.


(** * Moving ends over words without link *)
Lemma seek_ok (more : Z -> option bool) (step : Z) (P : Z -> Prop) (m : Z -> nat) :
  (forall y, P y -> exists b, more y = Some b) -> (forall y, P y -> more y = Some true -> P (y + step) /\ (m (y + step)%Z < m y)%nat) ->
  forall fuel x, P x -> (m x < fuel)%nat -> exists z, seek fuel step more x = Some z /\ P z /\ more z = Some false.
Proof.
  intros M1 M2. induction fuel as [|f IH]; intros x Px L; [lia|]. cbn [seek]. destruct (M1 x Px) as [[|] E]; rewrite E; cbn [bind].
  - destruct (M2 x Px E) as [P' L']. apply IH; [auto|lia].
  - exists x. auto.
Qed.
Lemma low_at R n m low high i : described R n m low high -> 0 <= i < n ->
  exists l, get low i = Some l /\ ((l =? -1) = true -> forall t, ~ R i t) /\ ((l =? -1) = false -> exists t, R i t).
Proof.
  intros (S1 & S2 & D) Hi. exists (at_ low i). split; [apply get_some; lia|]. destruct (D i Hi) as [(A & B & C)|(A & B & C & F & G)].
  - rewrite A. cbn. split; [auto|discriminate].
  - split; [intros X; apply Z.eqb_eq in X; lia|eauto].
Qed.

Section Phrases.
Variable o : ropts.
Variable p : sentence.
Variable sp : spans.
Let ns := Z.of_nat (length (src p)).
Let nt := Z.of_nat (length (tgt p)).
Hypothesis DS : described (fun s t => In (s, t) (links p)) ns nt (s_low sp) (s_high sp).
Hypothesis DT : described (fun t s => In (s, t) (links p)) nt ns (t_low sp) (t_high sp).
Definition bare (a b : Z) : Prop := forall s t, a <= t < b -> ~ In (s, t) (links p).
Lemma bare_nil a b : b <= a -> bare a b.
Proof. intros H s t Ht. lia. Qed.

Lemma loose_low_ok lo hi : 0 <= lo -> lo <= nt ->
  exists xl, loose_low o sp lo hi = Some xl /\ 0 <= xl <= lo /\ bare xl lo /\ (o_tight o = true -> xl = lo) /\
    (o_tight o = false -> forall a, 0 <= a <= lo -> bare a lo -> hi - a <= o_span o -> xl <= a).
Proof.
  intros H1 H2. unfold loose_low. destruct (o_tight o); [exists lo; split; [auto|]; split; [lia|]; split; [apply bare_nil; lia|]; split; [auto|discriminate]|].
  destruct (seek_ok (fun x => if andb (0 <? x) (hi - x <? o_span o) then bind (get (t_low sp) (x - 1)) (fun l => Some (l =? -1)) else Some false) (-1)
    (fun x => 0 <= x <= lo /\ bare x lo) (fun x => Z.to_nat x)) with (fuel := Datatypes.S (Z.to_nat lo)) (x := lo) as (z & E & [Z1 Z2] & Z3).
  - intros y [Y1 Y2]. destruct (Z.ltb_spec 0 y); cbn [andb]; [|eauto]. destruct (hi - y <? o_span o); [|eauto].
    destruct (low_at _ _ _ _ _ (y - 1) DT) as (l & -> & _); [lia|]. cbn [bind]. eauto.
  - intros y [Y1 Y2] M. destruct (Z.ltb_spec 0 y); cbn [andb] in M; [|discriminate]. destruct (hi - y <? o_span o); [|discriminate].
    destruct (low_at _ _ _ _ _ (y - 1) DT) as (l & G & U & _); [lia|]. rewrite G in M. cbn [bind] in M. injection M as M. split; [split; [lia|]|lia].
    intros s t Ht. destruct (Z.eq_dec t (y - 1)) as [->|]; [apply (U M)|apply (Y2 s t); lia].
  - split; [lia|]. apply bare_nil. lia.
  - lia.
  - exists z. split; [exact E|]. split; [auto|]. split; [auto|]. split; [discriminate|]. intros _ a Ha B W.
    destruct (Z_le_dec z a); [auto|]. exfalso. destruct (Z.ltb_spec 0 z); cbn [andb] in Z3; [|lia].
    destruct (Z.ltb_spec (hi - z) (o_span o)); [|lia]. destruct (low_at _ _ _ _ _ (z - 1) DT) as (l & G & _ & U); [lia|]. rewrite G in Z3. cbn [bind] in Z3.
    injection Z3 as Z3. destruct (U Z3) as [s K]. apply (B s (z - 1)); [lia|auto].
Qed.
Lemma loose_high_ok lo hi : 0 <= hi -> hi <= nt ->
  exists xh, loose_high o p sp lo hi = Some xh /\ hi <= xh <= nt /\ bare hi xh /\ (o_tight o = true -> xh = hi) /\
    (o_tight o = false -> forall a, hi <= a <= nt -> bare hi a -> a - lo <= o_span o -> a <= xh).
Proof.
  intros H1 H2. unfold loose_high. fold nt. destruct (o_tight o); [exists hi; split; [auto|]; split; [lia|]; split; [apply bare_nil; lia|]; split; [auto|discriminate]|].
  destruct (seek_ok (fun x => if andb (x <? nt) (x - lo <? o_span o) then bind (get (t_low sp) x) (fun l => Some (l =? -1)) else Some false) 1
    (fun x => hi <= x <= nt /\ bare hi x) (fun x => Z.to_nat (nt - x))) with (fuel := Datatypes.S (Z.to_nat (nt - hi))) (x := hi) as (z & E & [Z1 Z2] & Z3).
  - intros y [Y1 Y2]. destruct (Z.ltb_spec y nt); cbn [andb]; [|eauto]. destruct (y - lo <? o_span o); [|eauto].
    destruct (low_at _ _ _ _ _ y DT) as (l & -> & _); [lia|]. cbn [bind]. eauto.
  - intros y [Y1 Y2] M. destruct (Z.ltb_spec y nt); cbn [andb] in M; [|discriminate]. destruct (y - lo <? o_span o); [|discriminate].
    destruct (low_at _ _ _ _ _ y DT) as (l & G & U & _); [lia|]. rewrite G in M. cbn [bind] in M. injection M as M. split; [split; [lia|]|lia].
    intros s t Ht. destruct (Z.eq_dec t y) as [->|]; [apply (U M)|apply (Y2 s t); lia].
  - split; [lia|]. apply bare_nil. lia.
  - lia.
  - exists z. split; [exact E|]. split; [auto|]. split; [auto|]. split; [discriminate|]. intros _ a Ha B W.
    destruct (Z_le_dec a z); [auto|]. exfalso. destruct (Z.ltb_spec z nt); cbn [andb] in Z3; [|lia].
    destruct (Z.ltb_spec (z - lo) (o_span o)); [|lia]. destruct (low_at _ _ _ _ _ z DT) as (l & G & _ & U); [lia|]. rewrite G in Z3. cbn [bind] in Z3.
    injection Z3 as Z3. destruct (U Z3) as [s K]. apply (B s z); [lia|auto].
Qed.
(** what a gap may be extended to *)
Definition loosened (g c : Z * Z) : Prop :=
  fst c <= fst g /\ snd g <= snd c /\ bare (fst c) (fst g) /\ bare (snd g) (snd c) /\ (o_tight o = true -> c = g).
Lemma loose_gap_ok xl xh g : 0 <= xl -> xl <= fst g -> fst g < snd g -> snd g <= xh -> xh <= nt ->
  exists h, loose_gap o sp xl xh g = Some h /\
    (forall c, xl <= fst c -> snd c <= xh -> fits_gap (g, h) c <-> loosened g c).
Proof.
  intros H1 H2 H3 H4 H5. unfold loose_gap, loosened. destruct (o_tight o).
  { exists g. split; [reflexivity|]. intros [b a] C1 C2. destruct g as [gl gr]. cbn in *. split.
    - intros F. split; [lia|]. split; [lia|]. split; [apply bare_nil; lia|]. split; [apply bare_nil; lia|]. intros _. f_equal; lia.
    - intros (_ & _ & _ & _ & F). specialize (F eq_refl). injection F as -> ->. lia. }
  destruct (seek_ok (fun x => if xl <? x then bind (get (t_low sp) (x - 1)) (fun l => Some (l =? -1)) else Some false) (-1)
    (fun x => xl <= x <= fst g /\ bare x (fst g)) (fun x => Z.to_nat (x - xl))) with (fuel := Datatypes.S (Z.to_nat (fst g - xl))) (x := fst g) as (a & Ea & [A1 A2] & A3).
  - intros y [Y1 Y2]. destruct (Z.ltb_spec xl y); [|eauto]. destruct (low_at _ _ _ _ _ (y - 1) DT) as (l & -> & _); [lia|]. cbn [bind]. eauto.
  - intros y [Y1 Y2] M. destruct (Z.ltb_spec xl y); [|discriminate].
    destruct (low_at _ _ _ _ _ (y - 1) DT) as (l & G & U & _); [lia|]. rewrite G in M. cbn [bind] in M. injection M as M. split; [split; [lia|]|lia].
    intros s t Ht. destruct (Z.eq_dec t (y - 1)) as [->|]; [apply (U M)|apply (Y2 s t); lia].
  - split; [lia|]. apply bare_nil. lia.
  - lia.
  - rewrite Ea. cbn [bind].
    destruct (seek_ok (fun x => if x <? xh then bind (get (t_low sp) x) (fun l => Some (l =? -1)) else Some false) 1
      (fun x => snd g <= x <= xh /\ bare (snd g) x) (fun x => Z.to_nat (xh - x))) with (fuel := Datatypes.S (Z.to_nat (xh - snd g))) (x := snd g) as (b & Eb & [B1 B2] & B3).
    + intros y [Y1 Y2]. destruct (Z.ltb_spec y xh); [|eauto]. destruct (low_at _ _ _ _ _ y DT) as (l & -> & _); [lia|]. cbn [bind]. eauto.
    + intros y [Y1 Y2] M. destruct (Z.ltb_spec y xh); [|discriminate].
      destruct (low_at _ _ _ _ _ y DT) as (l & G & U & _); [lia|]. rewrite G in M. cbn [bind] in M. injection M as M. split; [split; [lia|]|lia].
      intros s t Ht. destruct (Z.eq_dec t y) as [->|]; [apply (U M)|apply (Y2 s t); lia].
    + split; [lia|]. apply bare_nil. lia.
    + lia.
    + rewrite Eb. cbn [bind]. exists (a, b). split; [reflexivity|]. intros [c d] C1 C2. destruct g as [gl gr]. cbn [fst snd fits_gap] in *. split.
      * intros F. split; [lia|]. split; [lia|]. split; [|split; [|discriminate]].
        -- intros s t Ht. apply (A2 s t). lia.
        -- intros s t Ht. apply (B2 s t). lia.
      * intros (F1 & F2 & F3 & F4 & _). repeat split; try lia.
        -- destruct (Z_le_dec a c); [auto|]. exfalso. destruct (Z.ltb_spec xl a); [|lia].
           destruct (low_at _ _ _ _ _ (a - 1) DT) as (l & G & _ & U); [lia|]. rewrite G in A3. cbn [bind] in A3. injection A3 as A3.
           destruct (U A3) as [s K]. apply (F3 s (a - 1)); [lia|auto].
        -- destruct (Z_le_dec d b); [auto|]. exfalso. destruct (Z.ltb_spec b xh); [|lia].
           destruct (low_at _ _ _ _ _ b DT) as (l & G & _ & U); [lia|]. rewrite G in B3. cbn [bind] in B3. injection B3 as B3.
           destruct (U B3) as [s K]. apply (F4 s b); [lia|auto].
Qed.
Lemma gap_ranges_ok xl xh gaps : 0 <= xl -> xh <= nt -> Forall (fun g => xl <= fst g /\ fst g < snd g /\ snd g <= xh) gaps ->
  forall order, Forall (fun j => 0 <= j < Z.of_nat (length gaps)) order ->
  exists ghs, gap_ranges o sp xl xh gaps order = Some (ranges_of ghs) /\ Forall (fun gh => fst (fst gh) < snd (fst gh)) ghs /\
    length ghs = length order /\
    forall cs, Forall (fun c => xl <= fst c /\ snd c <= xh) cs ->
      (Forall2 fits_gap ghs cs <-> Forall2 (fun j c => exists g, nth_error gaps (Z.to_nat j) = Some g /\ loosened g c) order cs).
Proof.
  intros H1 H2 FG. induction order as [|j r IH]; intros FO.
  - exists []. split; [reflexivity|]. split; [constructor|]. split; [auto|]. intros cs _. split; intros X; inversion X; constructor.
  - inversion FO as [|x y J FO']; subst. destruct (IH FO') as (ghs & E & F & L & Q). cbn [gap_ranges].
    unfold get_gap. destruct (Z.ltb_spec j 0); [lia|]. destruct (nth_error gaps (Z.to_nat j)) as [g|] eqn:G; [|apply nth_error_None in G; lia].
    cbn [bind]. pose proof (proj1 (Forall_forall _ _) FG g (nth_error_In _ _ G)) as (G1 & G2 & G3).
    destruct (loose_gap_ok xl xh g) as (h & -> & K); auto. cbn [bind]. rewrite E. cbn [bind]. exists ((g, h) :: ghs).
    split; [reflexivity|]. split; [constructor; auto|]. split; [cbn; auto|]. intros cs FC. split; intros X; inversion X; subst; inversion FC; subst.
    + constructor; [exists g; split; [auto|apply K; tauto]|apply Q; auto].
    + constructor; [|apply Q; auto]. match goal with H : exists g, _ /\ loosened g _ |- _ => destruct H as (g' & G' & K') end. rewrite G in G'. injection G' as <-. apply K; tauto.
Qed.
End Phrases.
