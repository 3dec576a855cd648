(** Building the tables from an ARPA file, at the level of word ids. *)
From Coq Require Import String List ZArith NArith Bool Lia.
Import ListNotations.
From Verif Require Import Lm Arpa.
Open Scope Z_scope.
Open Scope res_scope.

(** * Floats *)
Lemma val_SetSign x : val (SetSign x) = - Z.of_N (mag x).
Proof. reflexivity. Qed.
Lemma mag_val x : Z.of_N (mag x) = Z.abs (val x).
Proof. unfold val. destruct (neg x); lia. Qed.
Lemma val_fadd x y : val (fadd x y) = val x + val y.
Proof.
  unfold fadd. destruct (Z.eqb_spec (val x + val y) 0) as [E|E].
  - unfold val at 1. cbn [neg mag]. destruct (andb _ _); cbn; lia.
  - unfold val at 1. cbn [neg mag]. rewrite Z2N.id by lia. destruct (Z.ltb_spec (val x + val y) 0); lia.
Qed.
Lemma val_SetExtension b : val (SetExtension b) = val b.
Proof. unfold SetExtension. destruct (Z.eqb_spec (val b) 0) as [E|E]; [cbn; lia|reflexivity]. Qed.
Lemma Has_SetExtension b : HasExtension (SetExtension b) = true.
Proof.
  unfold SetExtension. destruct (Z.eqb_spec (val b) 0) as [E|E]; [reflexivity|]. unfold HasExtension. destruct (N.eqb_spec (mag b) 0) as [E1|E1]; [|rewrite andb_false_r; reflexivity].
  exfalso. apply E. unfold val. rewrite E1. destruct (neg b); reflexivity.
Qed.
Lemma Has_false b : HasExtension b = false -> val b = 0.
Proof. unfold HasExtension. intros H. apply negb_false_iff in H. apply andb_prop in H. destruct H as (_ & H). apply N.eqb_eq in H. unfold val. rewrite H. destruct (neg b); reflexivity. Qed.

(** * Lists and tables *)
Lemma find_app {A} g (t1 t2 : list (ngram * A)) : find g (t1 ++ t2) = match find g t1 with Some x => Some x | None => find g t2 end.
Proof. induction t1 as [|(k, v) t1 IH]; [reflexivity|]. cbn. destruct (gdec k g); [reflexivity|exact IH]. Qed.
Lemma find_modify {A} g h (x : A) t : find h (modify g (fun _ => x) t) = if gdec h g then (match find g t with Some _ => Some x | None => None end) else find h t.
Proof.
  induction t as [|(k, v) t IH]; cbn; [destruct (gdec h g); reflexivity|].
  destruct (gdec k g) as [->|E]; cbn.
  - destruct (gdec g h) as [->|E1]; [destruct (gdec h h); [reflexivity|congruence]|]. destruct (gdec h g); [congruence|reflexivity].
  - rewrite IH. destruct (gdec k h) as [->|E1]; [|reflexivity]. destruct (gdec h g); [congruence|reflexivity].
Qed.
Lemma modify_length {A} g (f : A -> A) t : length (modify g f t) = length t.
Proof. induction t as [|(k, v) t IH]; [reflexivity|]. cbn. destruct (gdec k g); cbn; congruence. Qed.
Lemma find_in {A} g (t : list (ngram * A)) : find g t <> None <-> In g (map fst t).
Proof.
  induction t as [|(k, v) t IH]; cbn; [split; [congruence|tauto]|]. destruct (gdec k g) as [->|E]; [split; [auto|discriminate]|].
  rewrite IH. split; [auto|intros [H|H]; [contradiction|exact H]].
Qed.
Lemma modify_nth_length {A} i (f : A -> A) l : length (modify_nth i f l) = length l.
Proof. revert i. induction l as [|x l IH]; intros [|i]; cbn; auto. Qed.
Lemma nth_modify {A} i (f : A -> A) l j : nth_error (modify_nth i f l) j = if Nat.eqb j i then option_map f (nth_error l j) else nth_error l j.
Proof. revert i j. induction l as [|x l IH]; intros [|i] [|j]; cbn; try reflexivity; try (destruct (Nat.eqb j i); reflexivity). apply IH. Qed.
Lemma firstn_inj {A} (g : list A) i j : (i <= length g)%nat -> (j <= length g)%nat -> firstn i g = firstn j g -> i = j.
Proof. intros Hi Hj E. apply (f_equal (@length A)) in E. rewrite !firstn_length in E. lia. Qed.

Lemma two_items {A} (g : list A) : (2 <= length g)%nat -> exists a b l, g = a :: b :: l.
Proof. destruct g as [|a [|b l]]; cbn; try lia. eauto. Qed.
Lemma tl_length' {A} (g : list A) : length (tl g) = (length g - 1)%nat.
Proof. destruct g; cbn; lia. Qed.

(** * Outcomes *)
Definition safe {A} (Bad : Prop) (r : res A) (P : A -> Prop) : Prop := match r with Ok a => P a | Throw => Bad | Undefined => False end.
Lemma safe_bind {A B} Bad (r : res A) (k : A -> res B) P Q : safe Bad r P -> (forall a, P a -> safe Bad (k a) Q) -> safe Bad (rbind r k) Q.
Proof. destruct r; cbn; auto. Qed.
Lemma safe_mono {A} Bad (r : res A) (P Q : A -> Prop) : safe Bad r P -> (forall a, P a -> Q a) -> safe Bad r Q.
Proof. destruct r; cbn; auto. Qed.

Section Build.
Variable c : config.
Variable order : nat.
Variable count : nat -> nat.
Hypothesis order2 : (2 <= order)%nat.

(** What the tables hold for an n-gram. *)
Definition view (t : tables) (g : ngram) : option fw :=
  match g with
  | [] => None
  | [w] => nth_error (t_uni t) w
  | _ => if Nat.ltb (length g) order then find g (t_mid t (length g - 2))
         else if Nat.eqb (length g) order then option_map (fun p => FW p nzero p) (find g (t_long t)) else None
  end.

Lemma view_mid t p : (2 <= length p < order)%nat -> view t p = find p (t_mid t (length p - 2)).
Proof. intros L. destruct p as [|a [|b p]]; cbn [length] in L; try lia. unfold view. destruct (Nat.ltb_spec (length (a :: b :: p)) order); [reflexivity|cbn [length] in *; lia]. Qed.

Lemma get_view t p w : get order t p = Ok w <-> view t p = Some w /\ (length p < order)%nat.
Proof.
  destruct p as [|a [|b p]]; cbn [get view].
  - split; [discriminate|intros ([=] & _)].
  - destruct (nth_error (t_uni t) a); split; try discriminate; [intros [= ->]; split; [reflexivity|cbn; lia]|intros ([= ->] & _); reflexivity|intros ([=] & _)].
  - unfold mid_ok. replace (Nat.ltb (length (a :: b :: p) - 2) (order - 2)) with (Nat.ltb (length (a :: b :: p)) order).
    2: { cbn [length]. destruct (Nat.ltb_spec (S (S (length p))) order), (Nat.ltb_spec (S (S (length p)) - 2) (order - 2)); lia || reflexivity. }
    destruct (Nat.ltb_spec (length (a :: b :: p)) order) as [L|L].
    + destruct (find _ _); split; try discriminate; [intros [= ->]; auto|intros ([= ->] & _); reflexivity|intros ([=] & _)].
    + split; [discriminate|lia].
Qed.
Lemma view_get t p w : view t p = Some w -> (length p < order)%nat -> get order t p = Ok w.
Proof. intros. apply get_view. auto. Qed.

Lemma view_put t p x h w : view t p = Some w -> (length p < order)%nat -> view (put t p x) h = if gdec h p then Some x else view t h.
Proof.
  intros V L. destruct p as [|a [|b p]]; [discriminate| |].
  - cbn [put]. destruct h as [|d [|e h]]; [reflexivity| |].
    + cbn [view t_uni] in *. rewrite nth_modify. destruct (gdec [d] [a]) as [E|E].
      * injection E as ->. rewrite Nat.eqb_refl, V. reflexivity.
      * destruct (Nat.eqb_spec d a) as [->|]; [congruence|reflexivity].
    + destruct (gdec (d :: e :: h) [a]); [discriminate|reflexivity].
  - set (q := a :: b :: p) in *. change (put t q x) with (with_mid t (length q - 2) (modify q (fun _ => x) (t_mid t (length q - 2)))).
    assert (V' : find q (t_mid t (length q - 2)) = Some w) by (unfold view, q in V; fold q in V; destruct (Nat.ltb_spec (length q) order); [exact V|lia]).
    destruct h as [|d [|e h]]; [reflexivity| |].
    + destruct (gdec [d] q); [discriminate|reflexivity].
    + set (r := d :: e :: h). unfold view, r. fold r. cbn [with_mid t_mid t_long].
      destruct (gdec r q) as [->|E].
      * destruct (Nat.ltb_spec (length q) order); [|lia]. rewrite Nat.eqb_refl, find_modify, V'. destruct (gdec q q); [reflexivity|congruence].
      * destruct (Nat.ltb (length r) order); [|reflexivity]. destruct (Nat.eqb_spec (length r - 2) (length q - 2)) as [El|El]; [|reflexivity].
        rewrite find_modify. destruct (gdec r q); [contradiction|]. rewrite El. reflexivity.
Qed.

(** sizes that the probing tables check *)
Definition sizes (t t' : tables) : Prop := (forall i, length (t_mid t' i) = length (t_mid t i)) /\ t_long t' = t_long t /\ length (t_uni t') = length (t_uni t).
Lemma sizes_refl t : sizes t t.
Proof. repeat split. Qed.
Lemma sizes_trans t1 t2 t3 : sizes t1 t2 -> sizes t2 t3 -> sizes t1 t3.
Proof. intros (A1 & B1 & C1) (A2 & B2 & C2). repeat split; [intros i; rewrite A2; apply A1|congruence|congruence]. Qed.
Lemma sizes_mid t i l : length l = length (t_mid t i) -> sizes t (with_mid t i l).
Proof. intros E. split; [|split; reflexivity]. intros k. cbn. destruct (Nat.eqb_spec k i) as [->|]; [exact E|reflexivity]. Qed.
Lemma sizes_put t p x : sizes t (put t p x).
Proof.
  destruct p as [|a [|b p]]; [apply sizes_mid, modify_length| |apply sizes_mid, modify_length].
  split; [|split]; cbn; [reflexivity|reflexivity|apply modify_nth_length].
Qed.

Lemma view_mid_app t g e : (2 <= length g < order)%nat -> forall h,
  view (with_mid t (length g - 2) (t_mid t (length g - 2) ++ [(g, e)])) h = if gdec h g then Some (match view t g with Some w => w | None => e end) else view t h.
Proof.
  intros L h. destruct g as [|a [|b g]]; [cbn in L; lia|cbn in L; lia|]. set (q := a :: b :: g) in *.
  assert (Vq : view t q = find q (t_mid t (length q - 2))) by (unfold view, q; fold q; destruct (Nat.ltb_spec (length q) order); [reflexivity|lia]).
  destruct h as [|d [|i h]]; [reflexivity| |].
  - destruct (gdec [d] q); [discriminate|reflexivity].
  - set (r := d :: i :: h). unfold view at 1, r. fold r. cbn [with_mid t_mid t_long].
    destruct (gdec r q) as [->|E].
    + destruct (Nat.ltb_spec (length q) order); [|lia]. rewrite Nat.eqb_refl, find_app, Vq. destruct (find q _); [reflexivity|]. cbn. destruct (gdec q q); [reflexivity|congruence].
    + unfold view, r. fold r. destruct (Nat.ltb (length r) order); [|reflexivity]. destruct (Nat.eqb_spec (length r - 2) (length q - 2)) as [El|El]; [|reflexivity].
      rewrite find_app, El. destruct (find r _); [reflexivity|]. cbn [find]. destruct (gdec q r); [congruence|reflexivity].
Qed.
Lemma view_long_app t g p : length g = order -> forall h,
  view (Tables (t_uni t) (t_mid t) (t_long t ++ [(g, p)])) h = if gdec h g then Some (match view t g with Some w => w | None => FW p nzero p end) else view t h.
Proof.
  intros L h. destruct g as [|a [|b g]]; [cbn in L; lia|cbn in L; lia|]. set (q := a :: b :: g) in *.
  assert (Vq : view t q = option_map (fun p => FW p nzero p) (find q (t_long t))) by (unfold view, q; fold q; destruct (Nat.ltb_spec (length q) order); [lia|]; rewrite L, Nat.eqb_refl; reflexivity).
  destruct h as [|d [|i h]]; [reflexivity| |].
  - destruct (gdec [d] q); [discriminate|reflexivity].
  - set (r := d :: i :: h). unfold view at 1, r. fold r. cbn [t_mid t_long].
    destruct (gdec r q) as [->|E].
    + destruct (Nat.ltb_spec (length q) order); [lia|]. rewrite L, Nat.eqb_refl, find_app, Vq. destruct (find q _); [reflexivity|]. cbn. destruct (gdec q q); [reflexivity|congruence].
    + unfold view, r. fold r. destruct (Nat.ltb (length r) order); [reflexivity|]. destruct (Nat.eqb (length r) order); [|reflexivity].
      rewrite find_app. destruct (find r _); [reflexivity|]. cbn [find]. destruct (gdec q r); [congruence|reflexivity].
Qed.

(** * Stages of one line.  [g] is the n-gram of the line. *)
Variable g : ngram.
Let pre (j : nat) : ngram := firstn j g.
Let ctx (j : nat) : ngram := firstn j (tl g).
Lemma pre_length j : (j <= length g)%nat -> length (pre j) = j.
Proof. intros. unfold pre. rewrite firstn_length. lia. Qed.
Lemma pre_inj i j : (i <= length g)%nat -> (j <= length g)%nat -> pre i = pre j -> i = j.
Proof. apply firstn_inj. Qed.

(** The pointers from the longest down to the n-gram of length [b]. *)
Definition between_of (b m : nat) : list ngram := map pre (rev (seq b (S m - b))).

Definition blank : fw := FW (c_junk c) nzero (c_junk c).

Lemma seq_last b k : seq b (S k) = seq b k ++ [(b + k)%nat].
Proof. rewrite seq_S. reflexivity. Qed.

(** Adding blanks.  [Full]: a table is full. *)
Lemma FindLower_ok (Bad : Prop) k : forall t, (k + 2 <= length g)%nat -> (k + 2 <= order)%nat -> view t (pre 1) <> None ->
  (forall i, (i < k)%nat -> view t (pre (i + 2)) = None -> (buckets c count (i + 2) <= S (length (t_mid t i)))%nat -> Bad) ->
  safe Bad (FindLower c order count k g t) (fun r => let '(t', between) := r in exists b, (1 <= b <= k + 1)%nat /\ between = between_of b (k + 1)
    /\ view t (pre b) <> None /\ (forall j, (b < j <= k + 1)%nat -> view t (pre j) = None /\ view t' (pre j) = Some blank)
    /\ (forall h, (forall j, (b < j <= k + 1)%nat -> h <> pre j) -> view t' h = view t h)
    /\ (b = (k + 1)%nat -> t' = t) /\ t_long t' = t_long t /\ length (t_uni t') = length (t_uni t)).
Proof.
  induction k as [|i IH]; intros t Lg Lo V1 HB.
  - cbn [FindLower safe]. exists 1%nat. split; [lia|]. split; [reflexivity|]. split; [exact V1|]. split; [lia|]. split; [reflexivity|]. split; [reflexivity|]. split; reflexivity.
  - cbn [FindLower]. unfold mid_ok. destruct (Nat.ltb_spec i (order - 2)); [|lia]. fold (pre (i + 2)).
    assert (Lp : length (pre (i + 2)) = (i + 2)%nat) by (apply pre_length; lia).
    assert (Vp : view t (pre (i + 2)) = find (pre (i + 2)) (t_mid t i)).
    { destruct (pre (i + 2)) as [|a [|b p]] eqn:E; cbn [length] in Lp; try lia. cbn [view]. replace (length (a :: b :: p) - 2)%nat with i by (cbn; lia). destruct (Nat.ltb_spec (length (a :: b :: p)) order); [reflexivity|cbn in *; lia]. }
    destruct (find (pre (i + 2)) (t_mid t i)) as [w|] eqn:Ef.
    + cbn [safe]. exists (i + 2)%nat. split; [lia|]. split; [|split; [rewrite Vp; discriminate|]].
      * unfold between_of. replace (S (S i + 1) - (i + 2))%nat with 1%nat by lia. reflexivity.
      * split; [lia|]. split; [reflexivity|]. split; [reflexivity|]. split; reflexivity.
    + destruct (Nat.leb_spec (buckets c count (i + 2)) (S (length (t_mid t i)))) as [Hc|Hc].
      { cbn. apply (HB i); [lia|exact Vp|exact Hc]. }
      set (t1 := with_mid t i (t_mid t i ++ [(pre (i + 2), blank)])).
      assert (V1' : forall h, view t1 h = if gdec h (pre (i + 2)) then Some blank else view t h).
      { intros h. unfold t1. pose proof (view_mid_app t (pre (i + 2)) blank ltac:(lia) h) as Q. rewrite Lp in Q. replace (i + 2 - 2)%nat with i in Q by lia. rewrite Vp in Q. exact Q. }
      eapply safe_bind; [apply (IH t1)|].
      * lia.
      * lia.
      * rewrite V1'. destruct (gdec (pre 1) (pre (i + 2))) as [E|_]; [apply pre_inj in E; lia|exact V1].
      * intros i0 Hi0 Hv Hb. apply (HB i0); [lia| |].
        -- rewrite V1' in Hv. destruct (gdec (pre (i0 + 2)) (pre (i + 2))); [discriminate|exact Hv].
        -- unfold t1 in Hb. cbn [with_mid t_mid] in Hb. destruct (Nat.eqb_spec i0 i); [lia|exact Hb].
      * intros (t', between) (b & Hb & -> & Vb & Hbl & Hot & _ & Hlong & Huni). cbn [safe]. exists b. split; [lia|].
        assert (Nb : forall j, (j <= i + 1)%nat -> pre j <> pre (i + 2)) by (intros j Hj E; apply pre_inj in E; lia).
        split; [|split; [|split; [|split; [|split; [lia|split; [exact Hlong|exact Huni]]]]]].
        -- unfold between_of. replace (S (S i + 1) - b)%nat with (S (S (i + 1) - b)) by lia. rewrite seq_last, rev_app_distr. cbn [rev app map]. f_equal. f_equal. lia.
        -- rewrite V1' in Vb. destruct (gdec (pre b) (pre (i + 2))) as [E|_]; [exfalso; apply (Nb b); [lia|exact E]|exact Vb].
        -- intros j Hj. destruct (Nat.eq_dec j (i + 2)) as [->|Ej].
           ++ split; [exact Vp|]. rewrite Hot; [|intros j Hj' E; apply (Nb j); [lia|symmetry; exact E]]. rewrite V1'. destruct (gdec (pre (i + 2)) (pre (i + 2))); [reflexivity|congruence].
           ++ destruct (Hbl j ltac:(lia)) as (Q1 & Q2). split; [|exact Q2]. rewrite V1' in Q1. destruct (gdec (pre j) (pre (i + 2))); [discriminate|exact Q1].
        -- intros h Hh. rewrite Hot by (intros j Hj; apply Hh; lia). rewrite V1'. destruct (gdec h (pre (i + 2))) as [E|_]; [exfalso; apply (Hh (i + 2)%nat); [lia|exact E]|reflexivity].
Qed.

(** An entry that at most got its back-off marked. *)
Definition ext (w w' : fw) : Prop := f_prob w' = f_prob w /\ f_rest w' = f_rest w /\ val (f_backoff w') = val (f_backoff w) /\ (HasExtension (f_backoff w) = true -> HasExtension (f_backoff w') = true).
Lemma ext_refl w : ext w w.
Proof. repeat split; auto. Qed.
Lemma ext_trans w1 w2 w3 : ext w1 w2 -> ext w2 w3 -> ext w1 w3.
Proof. intros (A1 & B1 & C1 & D1) (A2 & B2 & C2 & D2). repeat split; try congruence. auto. Qed.
Lemma ext_set w : ext w (set_backoff w (SetExtension (f_backoff w))).
Proof. repeat split; cbn; [apply val_SetExtension|intros _; apply Has_SetExtension]. Qed.

Definition bext (w w' : fw) : Prop := val (f_backoff w') = val (f_backoff w) /\ (HasExtension (f_backoff w) = true -> HasExtension (f_backoff w') = true).
Lemma bext_refl w : bext w w.
Proof. split; auto. Qed.
Lemma bext_trans w1 w2 w3 : bext w1 w2 -> bext w2 w3 -> bext w1 w3.
Proof. intros (C1 & D1) (C2 & D2). split; [congruence|auto]. Qed.
Lemma ext_bext w w' : ext w w' -> bext w w'.
Proof. intros (_ & _ & C1 & D1). split; auto. Qed.
(** All entries are still there and no others; outside [S] nothing but marks on back-offs changed. *)
Definition kept (S : ngram -> Prop) (t t' : tables) : Prop :=
  forall h, match view t h, view t' h with Some w, Some w' => bext w w' /\ (~ S h -> ext w w') | None, None => True | _, _ => False end.
Lemma kept_refl (S : ngram -> Prop) t : kept S t t.
Proof. intros h. destruct (view t h); [|exact I]. split; [apply bext_refl|intros; apply ext_refl]. Qed.
Lemma kept_trans (S1 S2 S3 : ngram -> Prop) t1 t2 t3 : (forall h, S1 h -> S3 h) -> (forall h, S2 h -> S3 h) -> kept S1 t1 t2 -> kept S2 t2 t3 -> kept S3 t1 t3.
Proof.
  intros I1 I2 K1 K2 h. specialize (K1 h). specialize (K2 h). destruct (view t1 h) as [w1|], (view t2 h) as [w2|], (view t3 h) as [w3|]; try contradiction; try exact I.
  destruct K1 as (A1 & B1), K2 as (A2 & B2). split; [eapply bext_trans; eassumption|]. intros N. eapply ext_trans; [apply B1|apply B2]; intros H; apply N; auto.
Qed.
Lemma kept_some (S : ngram -> Prop) t t' h w : kept S t t' -> view t h = Some w -> exists w', view t' h = Some w' /\ bext w w' /\ (~ S h -> ext w w').
Proof. intros K V. specialize (K h). rewrite V in K. destruct (view t' h) as [w'|]; [|contradiction]. exists w'. split; [reflexivity|exact K]. Qed.
Lemma kept_none (S : ngram -> Prop) t t' h : kept S t t' -> view t h = None <-> view t' h = None.
Proof. intros K. specialize (K h). destruct (view t h), (view t' h); try contradiction; split; congruence. Qed.
Lemma kept_put (S : ngram -> Prop) t p w x : view t p = Some w -> (length p < order)%nat -> bext w x -> (~ S p -> ext w x) -> kept S t (put t p x).
Proof.
  intros V L B E h. rewrite (view_put t p x h w V L). destruct (gdec h p) as [->|N]; [rewrite V; split; assumption|].
  destruct (view t h); [|exact I]. split; [apply bext_refl|intros; apply ext_refl].
Qed.
Definition bval (t : tables) (h : ngram) : Z := match view t h with Some w => val (f_backoff w) | None => 0 end.
Lemma kept_bval (S : ngram -> Prop) t t' h : kept S t t' -> bval t' h = bval t h.
Proof. intros K. specialize (K h). unfold bval. destruct (view t h), (view t' h); try contradiction; [|reflexivity]. destruct K as ((K & _) & _). exact K. Qed.
Definition marked_ctx (t : tables) (h : ngram) : Prop := exists w, view t h = Some w /\ HasExtension (f_backoff w) = true.
Lemma kept_ctx (S : ngram -> Prop) t t' h : kept S t t' -> marked_ctx t h -> marked_ctx t' h.
Proof. intros K (w & V & H). destruct (kept_some _ _ _ _ _ K V) as (w' & V' & (_ & B) & _). exists w'. auto. Qed.

Lemma SetRest_prob p w : f_prob (SetRest c p w) = f_prob w /\ f_backoff (SetRest c p w) = f_backoff w.
Proof. unfold SetRest. destruct (c_build c); split; reflexivity. Qed.

(** One blank gets its probability from the shorter n-gram and the context. *)
Lemma blank_step (S : ngram -> Prop) t ch p : S ch -> view t ch <> None -> (length ch < order)%nat ->
  exists w, get order t ch = Ok w /\ let t' := put t ch (SetRest c ch (set_prob w p)) in kept S t t' /\ sizes t t'
    /\ (exists w', view t' ch = Some w' /\ f_prob w' = p /\ (c_build c = MaxRest -> f_rest w' = SetSign p))
    /\ (forall h, h <> ch -> view t' h = view t h).
Proof.
  intros HS V L. destruct (view t ch) as [w|] eqn:E; [|congruence]. exists w. split; [apply view_get; assumption|]. cbv zeta.
  pose proof (SetRest_prob ch (set_prob w p)) as (Q1 & Q2).
  split; [|split; [apply sizes_put|split]].
  - apply kept_put with (w := w); [exact E|exact L| |intros N; contradiction]. split; rewrite Q2; cbn; auto.
  - rewrite (view_put t ch _ ch w E L). destruct (gdec ch ch); [|congruence]. eexists. split; [reflexivity|]. split; [rewrite Q1; reflexivity|]. intros HM. unfold SetRest. rewrite HM. reflexivity.
  - intros h N. rewrite (view_put t ch _ h w E L). destruct (gdec h ch); [contradiction|reflexivity].
Qed.

Lemma adjust_loop_ok (Bad : Prop) cnt : forall basis n p t, (n - 1 = basis + cnt)%nat -> (2 <= basis)%nat -> (n <= length g)%nat -> (n <= order)%nat ->
  (forall j, (basis < j <= n - 1)%nat -> view t (pre j) <> None) ->
  safe Bad (adjust_loop c order (map pre (seq (S basis) cnt)) basis n g p t) (fun t' => exists q : nat -> fl, q basis = p
    /\ (forall j, (basis <= j < n - 1)%nat -> val (q (S j)) = val (q j) + bval t (ctx j))
    /\ sizes t t' /\ kept (fun h => exists j, (basis < j <= n - 1)%nat /\ h = pre j) t t'
    /\ (forall j, (basis < j <= n - 1)%nat -> exists w', view t' (pre j) = Some w' /\ f_prob w' = q j /\ (c_build c = MaxRest -> f_rest w' = SetSign (q j)))
    /\ (forall j, (basis <= j < n - 1)%nat -> view t (ctx j) <> None -> marked_ctx t' (ctx j))).
Proof.
  induction cnt as [|cnt IH]; intros basis n p t Hn Hb Lg Lo Hv.
  - cbn [seq map adjust_loop]. destruct (Nat.ltb_spec basis (n - 1)); [lia|]. cbn [safe]. exists (fun _ => p). split; [reflexivity|]. split; [lia|]. split; [apply sizes_refl|]. split; [apply kept_refl|]. split; lia.
  - cbn [seq map adjust_loop]. destruct (Nat.ltb_spec basis (n - 1)); [|lia]. unfold mid_ok. destruct (Nat.ltb_spec (basis - 2) (order - 2)); [|lia]. fold (ctx basis).
    assert (Lc : length (ctx basis) = basis) by (unfold ctx; rewrite firstn_length, tl_length'; lia).
    assert (Vc : view t (ctx basis) = find (ctx basis) (t_mid t (basis - 2))).
    { destruct (ctx basis) as [|a [|b l]] eqn:E; cbn [length] in Lc; try lia. cbn [view]. rewrite <- Lc. destruct (Nat.ltb_spec (S (S (length l))) order); [|lia]. change (length (a :: b :: l)) with (S (S (length l))). destruct (Nat.ltb_spec (S (S (length l))) order); [reflexivity|lia]. }
    set (S0 := fun h => exists j, (basis < j <= n - 1)%nat /\ h = pre j).
    set (r := match find (ctx basis) (t_mid t (basis - 2)) with Some w => _ | None => _ end).
    assert (Hr : exists p' t1, r = (p', t1) /\ val p' = val p + bval t (ctx basis) /\ kept S0 t t1 /\ sizes t t1 /\ (view t (ctx basis) <> None -> marked_ctx t1 (ctx basis))).
    { unfold r. rewrite <- Vc. unfold bval. destruct (view t (ctx basis)) as [w|] eqn:E.
      - eexists. eexists. split; [reflexivity|]. split; [rewrite val_fadd, val_SetExtension; reflexivity|]. split; [|split; [apply sizes_put|]].
        + apply kept_put with (w := w); [exact E|lia|apply ext_bext, ext_set|intros _; apply ext_set].
        + intros _. eexists. rewrite (view_put t (ctx basis) _ (ctx basis) w E ltac:(lia)). destruct (gdec (ctx basis) (ctx basis)); [|congruence]. split; [reflexivity|]. apply Has_SetExtension.
      - exists p, t. split; [reflexivity|]. split; [lia|]. split; [apply kept_refl|]. split; [apply sizes_refl|congruence]. }
    destruct Hr as (p' & t1 & -> & Hp' & K1 & Z1 & M1).
    assert (Lp : length (pre (S basis)) = S basis) by (apply pre_length; lia).
    assert (Vp : view t1 (pre (S basis)) <> None) by (intros E; apply (kept_none _ _ _ _ K1) in E; apply (Hv (S basis)); [lia|exact E]).
    destruct (blank_step S0 t1 (pre (S basis)) p' ltac:(exists (S basis); split; [lia|reflexivity]) Vp ltac:(lia)) as (w & Gw & K2 & Z2 & W2 & O2).
    rewrite Gw. cbn [rbind]. replace (firstn (basis + 1) g) with (pre (S basis)) by (unfold pre; f_equal; lia).
    set (t2 := put t1 (pre (S basis)) _) in *.
    assert (K12 : kept S0 t t2) by (eapply kept_trans; [| |exact K1|exact K2]; auto).
    eapply safe_mono; [apply (IH (S basis) n p' t2)|].
    + lia.
    + lia.
    + lia.
    + lia.
    + intros j Hj E. apply (kept_none _ _ _ _ K12) in E. apply (Hv j); [lia|exact E].
    + intros t' (q & Q0 & Q1 & Z3 & K3 & W3 & M3). exists (fun j => if Nat.eqb j basis then p else q j).
      split; [rewrite Nat.eqb_refl; reflexivity|]. split; [|split; [eapply sizes_trans; [|exact Z3]; eapply sizes_trans; eassumption|split; [|split]]].
      * intros j Hj. destruct (Nat.eqb_spec (S j) basis); [lia|]. destruct (Nat.eqb_spec j basis) as [->|Nj]; [rewrite Q0; exact Hp'|]. rewrite Q1 by lia. rewrite (kept_bval _ _ _ _ K12). reflexivity.
      * eapply kept_trans; [| |exact K12|exact K3]; [auto|]. intros h (j & Hj & ->). exists j. split; [lia|reflexivity].
      * intros j Hj. destruct (Nat.eqb_spec j basis); [lia|]. destruct (Nat.eq_dec j (S basis)) as [->|Nj]; [|apply W3; lia].
        destruct W2 as (w' & V' & P' & R'). destruct (kept_some _ _ _ _ _ K3 V') as (w'' & V'' & _ & E'').
        destruct E'' as (E1 & E2 & _); [intros (j & Hj' & E); apply pre_inj in E; lia|]. exists w''. split; [exact V''|]. rewrite Q0. split; [congruence|]. intros HM. rewrite E2. auto.
      * intros j Hj Vj. destruct (Nat.eq_dec j basis) as [->|Nj].
        -- apply (kept_ctx _ _ _ _ K3), (kept_ctx _ _ _ _ K2). auto.
        -- apply M3; [lia|]. intros E. apply Vj, (kept_none _ _ _ _ K12). exact E.
Qed.

(** AdjustLower without its last part *)
Definition adjust (b n : nat) (t : tables) : res tables :=
  if Nat.eqb b (n - 1) then Ok t
  else
    bw <- get order t (pre b) ;;
    let p := SetSign (f_prob bw) in
    '(p, basis, changes, t1) <-
      (if Nat.eqb b 1 then
         match map pre (seq (S b) (n - 1 - b)), g with
         | ch :: changes', _ :: v1 :: _ =>
           u <- get order t [v1] ;;
           let b := SetExtension (f_backoff u) in
           let t1 := put t [v1] (set_backoff u b) in
           let p' := fadd p b in
           w <- get order t1 ch ;;
           Ok (p', 2%nat, changes', put t1 ch (SetRest c (firstn 2 g) (set_prob w p')))
         | _, _ => Undefined
         end
       else Ok (p, b, map pre (seq (S b) (n - 1 - b)), t)) ;;
    adjust_loop c order changes basis n g p t1.

Lemma AdjustLower_split added b n t : (1 <= b <= n - 1)%nat -> AdjustLower c order added (between_of b (n - 1)) n g t = (t2 <- adjust b n t ;; mark_between c order (between_of b (n - 1)) added t2).
Proof.
  intros Hb. unfold AdjustLower, adjust. unfold between_of at 1. rewrite <- map_rev, rev_involutive. replace (S (n - 1) - b)%nat with (S (n - 1 - b)) by lia. cbn [seq map].
  destruct (Nat.eqb_spec b (n - 1)) as [->|Nb].
  - replace (n - 1 - (n - 1))%nat with 0%nat by lia. cbn [seq map rbind]. unfold between_of. replace (S (n - 1) - (n - 1))%nat with 1%nat by lia. cbn [seq rev app map mark_between]. destruct (get order t (pre (n - 1))); [|reflexivity|reflexivity]. cbn [rbind]. destruct (MarkExtends c a added). reflexivity.
  - assert (El : length (between_of b (n - 1)) = (n - b)%nat) by (unfold between_of; rewrite map_length, rev_length, seq_length; lia). rewrite El. replace (n - (n - b))%nat with b by lia.
    destruct (n - 1 - b)%nat as [|k] eqn:Ek; [lia|]. cbn [seq map]. destruct (get order t (pre b)) as [bw| |]; [|reflexivity|reflexivity]. cbn [rbind]. destruct (Nat.eqb_spec b 0); [lia|].
    match goal with |- rbind ?X _ = _ => destruct X as [(((p, basis), ch), t1)| |] end; reflexivity.
Qed.

Lemma adjust_ok (Bad : Prop) b n t : (1 <= b <= n - 1)%nat -> (n <= length g)%nat -> (n <= order)%nat ->
  (forall j, (b <= j <= n - 1)%nat -> view t (pre j) <> None) -> view t (ctx 1) <> None ->
  safe Bad (adjust b n t) (fun t' => exists q : nat -> fl, (forall w, view t (pre b) = Some w -> val (q b) = - Z.of_N (mag (f_prob w)))
    /\ (forall j, (b <= j < n - 1)%nat -> val (q (S j)) = val (q j) + bval t (ctx j))
    /\ sizes t t' /\ kept (fun h => exists j, (b < j <= n - 1)%nat /\ h = pre j) t t'
    /\ (forall j, (b < j <= n - 1)%nat -> exists w', view t' (pre j) = Some w' /\ f_prob w' = q j /\ (c_build c = MaxRest -> f_rest w' = SetSign (q j)))
    /\ (forall j, (b <= j < n - 1)%nat -> view t (ctx j) <> None -> marked_ctx t' (ctx j))).
Proof.
  intros Hb Lg Lo Hv Hc. unfold adjust. destruct (view t (pre b)) as [bw|] eqn:Vb; [|exfalso; apply (Hv b); [lia|exact Vb]].
  destruct (Nat.eqb_spec b (n - 1)) as [E|Nb].
  - cbn [safe]. exists (fun _ => SetSign (f_prob bw)). split; [intros w [= <-]; apply val_SetSign|]. split; [lia|]. split; [apply sizes_refl|]. split; [apply kept_refl|]. split; lia.
  - rewrite (view_get t (pre b) bw Vb) by (rewrite pre_length; lia). cbn [rbind].
    destruct (Nat.eqb_spec b 1) as [->|N1].
    + destruct (n - 1 - 1)%nat as [|k] eqn:Ek; [lia|]. cbn [seq map].
      assert (Eg : exists v0 v1 g', g = v0 :: v1 :: g') by (apply two_items; lia). destruct Eg as (v0 & v1 & g' & Eg).
      assert (E1 : ctx 1 = [v1]) by (unfold ctx; rewrite Eg; reflexivity).
      set (A := match g with [] => _ | _ => _ end).
      destruct (view t [v1]) as [u|] eqn:Vu; [|exfalso; apply Hc; rewrite E1; exact Vu].
      set (bb := SetExtension (f_backoff u)). set (t1 := put t [v1] (set_backoff u bb)). set (p := SetSign (f_prob bw)). set (p' := fadd p bb).
      set (S0 := fun h => exists j, (1 < j <= n - 1)%nat /\ h = pre j).
      assert (K1 : kept S0 t t1) by (apply kept_put with (w := u); [exact Vu|cbn; lia|apply ext_bext, ext_set|intros _; apply ext_set]).
      assert (M1 : marked_ctx t1 [v1]).
      { eexists. unfold t1. rewrite (view_put t [v1] _ [v1] u Vu ltac:(cbn; lia)). destruct (gdec [v1] [v1]); [|congruence]. split; [reflexivity|]. apply Has_SetExtension. }
      assert (Lp : length (pre 2) = 2%nat) by (apply pre_length; lia).
      assert (Vp : view t1 (pre 2) <> None) by (intros E; apply (kept_none _ _ _ _ K1) in E; apply (Hv 2%nat); [lia|exact E]).
      destruct (blank_step S0 t1 (pre 2) p' ltac:(exists 2%nat; split; [lia|reflexivity]) Vp ltac:(lia)) as (w & Gw & K2 & Z2 & W2 & O2).
      set (t2 := put t1 (pre 2) (SetRest c (pre 2) (set_prob w p'))) in *.
      assert (EA : A = Ok (p', 2%nat, map pre (seq 3 k), t2)).
      { unfold A. rewrite Eg. rewrite (view_get t [v1] u Vu) by (cbn; lia). cbn [rbind]. fold bb t1 p p'. rewrite Gw. cbn [rbind]. rewrite <- Eg. reflexivity. }
      rewrite EA. cbn [rbind].
      assert (K12 : kept S0 t t2) by (eapply kept_trans; [| |exact K1|exact K2]; auto).
      assert (Bc : bval t (ctx 1) = val bb) by (rewrite E1; unfold bval; rewrite Vu; unfold bb; rewrite val_SetExtension; reflexivity).
      eapply safe_mono; [apply (adjust_loop_ok Bad k 2 n p' t2)|].
      * lia.
      * lia.
      * lia.
      * lia.
      * intros j Hj E. apply (kept_none _ _ _ _ K12) in E. apply (Hv j); [lia|exact E].
      * intros t' (q & Q0 & Q1 & Z3 & K3 & W3 & M3). exists (fun j => if Nat.eqb j 1 then p else q j).
        split; [intros w0 [= <-]; rewrite Nat.eqb_refl; apply val_SetSign|]. split; [|split; [eapply sizes_trans; [|exact Z3]; eapply sizes_trans; [apply sizes_put|exact Z2]|split; [|split]]].
        -- intros j Hj. destruct (Nat.eqb_spec (S j) 1); [lia|]. destruct (Nat.eqb_spec j 1) as [->|Nj]; [rewrite Q0, Bc; apply val_fadd|]. rewrite Q1 by lia. rewrite (kept_bval _ _ _ _ K12). reflexivity.
        -- eapply kept_trans; [| |exact K12|exact K3]; [auto|]. intros h (j & Hj & ->). exists j. split; [lia|reflexivity].
        -- intros j Hj. destruct (Nat.eqb_spec j 1); [lia|]. destruct (Nat.eq_dec j 2) as [->|Nj]; [|apply W3; lia].
           destruct W2 as (w' & V' & P' & R'). destruct (kept_some _ _ _ _ _ K3 V') as (w'' & V'' & _ & E'').
           destruct E'' as (F1 & F2 & _); [intros (j & Hj' & E); apply pre_inj in E; lia|]. exists w''. split; [exact V''|]. rewrite Q0. split; [congruence|]. intros HM. rewrite F2. auto.
        -- intros j Hj Vj. destruct (Nat.eq_dec j 1) as [->|Nj].
           ++ rewrite E1. apply (kept_ctx _ _ _ _ K3), (kept_ctx _ _ _ _ K2). exact M1.
           ++ apply M3; [lia|]. intros E. apply Vj, (kept_none _ _ _ _ K12). exact E.
    + cbn [rbind]. eapply safe_mono; [apply (adjust_loop_ok Bad (n - 1 - b) b n (SetSign (f_prob bw)) t)|].
      * lia.
      * lia.
      * lia.
      * lia.
      * intros j Hj. apply Hv. lia.
      * intros t' (q & Q0 & Q). exists q. split; [intros w [= <-]; rewrite Q0; apply val_SetSign|exact Q].
Qed.

(** Marking *)
Definition later (w w' : fw) : Prop := mag (f_prob w') = mag (f_prob w) /\ (neg (f_prob w) = false -> neg (f_prob w') = false) /\ bext w w'.
Lemma later_refl w : later w w.
Proof. split; [reflexivity|]. split; [auto|apply bext_refl]. Qed.
Lemma later_trans w1 w2 w3 : later w1 w2 -> later w2 w3 -> later w1 w3.
Proof. intros (A1 & B1 & C1) (A2 & B2 & C2). split; [congruence|]. split; [auto|eapply bext_trans; eassumption]. Qed.
Lemma ext_later w w' : ext w w' -> later w w'.
Proof. intros E. split; [destruct E as (-> & _); reflexivity|]. split; [destruct E as (-> & _); auto|apply ext_bext, E]. Qed.
Lemma mark_later w to : later w (fst (MarkExtends c w to)) /\ neg (f_prob (fst (MarkExtends c w to))) = false.
Proof. unfold MarkExtends. destruct (c_build c); [|destruct (val to <=? val (f_rest w))|]; cbn; (split; [|reflexivity]); (split; [reflexivity|]); (split; [reflexivity|]); split; auto. Qed.
Definition evolve (t t' : tables) : Prop := forall h, match view t h, view t' h with Some w, Some w' => later w w' | None, None => True | _, _ => False end.
Lemma evolve_refl t : evolve t t.
Proof. intros h. destruct (view t h); [apply later_refl|exact I]. Qed.
Lemma evolve_trans t1 t2 t3 : evolve t1 t2 -> evolve t2 t3 -> evolve t1 t3.
Proof. intros A B h. specialize (A h). specialize (B h). destruct (view t1 h), (view t2 h), (view t3 h); try contradiction; try exact I. eapply later_trans; eassumption. Qed.
Lemma evolve_some t t' h w : evolve t t' -> view t h = Some w -> exists w', view t' h = Some w' /\ later w w'.
Proof. intros K V. specialize (K h). rewrite V in K. destruct (view t' h) as [w'|]; [|contradiction]. exists w'. split; [reflexivity|exact K]. Qed.
Lemma evolve_none t t' h : evolve t t' -> view t h = None <-> view t' h = None.
Proof. intros K. specialize (K h). destruct (view t h), (view t' h); try contradiction; split; congruence. Qed.
Lemma evolve_put t p w x : view t p = Some w -> (length p < order)%nat -> later w x -> evolve t (put t p x).
Proof. intros V L E h. rewrite (view_put t p x h w V L). destruct (gdec h p) as [->|N]; [rewrite V; exact E|]. destruct (view t h); [apply later_refl|exact I]. Qed.
Definition marked_left (t : tables) (h : ngram) : Prop := exists w, view t h = Some w /\ neg (f_prob w) = false.
Lemma evolve_left t t' h : evolve t t' -> marked_left t h -> marked_left t' h.
Proof. intros K (w & V & H). destruct (evolve_some _ _ _ _ K V) as (w' & V' & (_ & B & _)). exists w'. auto. Qed.
Lemma evolve_ctx t t' h : evolve t t' -> marked_ctx t h -> marked_ctx t' h.
Proof. intros K (w & V & H). destruct (evolve_some _ _ _ _ K V) as (w' & V' & (_ & _ & _ & B)). exists w'. auto. Qed.
Lemma put_same t p w x : view t p = Some w -> (length p < order)%nat -> view (put t p x) p = Some x.
Proof. intros V L. rewrite (view_put t p x p w V L). destruct (gdec p p); congruence. Qed.

Lemma mark_between_ok (Bad : Prop) l : forall longer t, (forall h, In h l -> view t h <> None /\ (length h < order)%nat) ->
  safe Bad (mark_between c order l longer t) (fun t' => sizes t t' /\ evolve t t' /\ forall h, In h l -> marked_left t' h).
Proof.
  induction l as [|p l IH]; intros longer t Hl; cbn [mark_between safe].
  - split; [apply sizes_refl|]. split; [apply evolve_refl|intros h []].
  - destruct (Hl p (or_introl eq_refl)) as (Vp & Lp). destruct (view t p) as [w|] eqn:E; [|congruence]. rewrite (view_get t p w E Lp). cbn [rbind].
    pose proof (mark_later w longer) as (L1 & L2). destruct (MarkExtends c w longer) as (w1, bb) eqn:Em. cbn [fst] in L1, L2.
    pose proof (evolve_put t p w w1 E Lp L1) as Ev.
    eapply safe_mono; [apply (IH (f_rest w1) (put t p w1))|].
    + intros h Hh. destruct (Hl h (or_intror Hh)) as (Vh & Lh). split; [|exact Lh]. intros N. apply (evolve_none _ _ _ Ev) in N. contradiction.
    + intros t' (Z & K & M). split; [eapply sizes_trans; [apply sizes_put|exact Z]|]. split; [eapply evolve_trans; eassumption|].
      intros h [<-|Hh]; [|apply M, Hh]. apply (evolve_left _ _ _ K). exists w1. split; [apply (put_same t p w w1 E Lp)|exact L2].
Qed.

Lemma MarkLower_ok (Bad : Prop) k : forall longer t, (k <= length g)%nat -> (k < order)%nat -> (forall j, (1 <= j <= k)%nat -> view t (pre j) <> None) ->
  safe Bad (MarkLower c order k g longer t) (fun t' => sizes t t' /\ evolve t t').
Proof.
  induction k as [|i IH]; intros longer t Lg Lo Hv; cbn [MarkLower]; [cbn; split; [apply sizes_refl|apply evolve_refl]|]. fold (pre (S i)).
  assert (Lp : (length (pre (S i)) < order)%nat) by (rewrite pre_length; lia).
  destruct (view t (pre (S i))) as [w|] eqn:E; [|exfalso; apply (Hv (S i)); [lia|exact E]]. rewrite (view_get t _ w E Lp). cbn [rbind].
  pose proof (mark_later w longer) as (L1 & L2). destruct (MarkExtends c w longer) as (w1, bb) eqn:Em. cbn [fst] in L1, L2.
  pose proof (evolve_put t _ w w1 E Lp L1) as Ev. pose proof (sizes_put t (pre (S i)) w1) as Z1.
  destruct (Nat.eqb_spec i 0); [cbn; split; assumption|]. destruct bb; [|cbn; split; assumption].
  eapply safe_mono; [apply IH|]; [lia|lia| |].
  - intros j Hj N. apply (evolve_none _ _ _ Ev) in N. apply (Hv j); [lia|exact N].
  - intros t' (Z2 & E2). split; [eapply sizes_trans; eassumption|eapply evolve_trans; eassumption].
Qed.

Lemma activate_ok (Bad : Prop) n t : length g = n -> (2 <= n <= order)%nat -> (n = 2%nat -> view t (tl g) <> None) -> (view t (tl g) = None -> Bad) ->
  safe Bad (activate order n g t) (fun t' => sizes t t' /\ evolve t t' /\ marked_ctx t' (tl g)).
Proof.
  intros Lg Hn H2 HB. unfold activate.
  assert (K : forall w, view t (tl g) = Some w -> let t' := put t (tl g) (set_backoff w (SetExtension (f_backoff w))) in sizes t t' /\ evolve t t' /\ marked_ctx t' (tl g)).
  { intros w V. assert (L : (length (tl g) < order)%nat) by (rewrite tl_length'; lia). split; [apply sizes_put|]. split; [eapply evolve_put; [exact V|exact L|apply ext_later, ext_set]|].
    eexists. split; [apply (put_same t (tl g) w _ V L)|apply Has_SetExtension]. }
  destruct (Nat.eqb_spec n 2) as [->|N2].
  - destruct (two_items g ltac:(lia)) as (v0 & v1 & g' & Eg). assert (Et : tl g = [v1]) by (rewrite Eg in *; destruct g'; [reflexivity|cbn in Lg; lia]).
    rewrite Et in *. replace (match g with [] => Undefined | [_] => Undefined | _ :: v :: _ => u <- get order t [v] ;; Ok (put t [v] (set_backoff u (SetExtension (f_backoff u)))) end) with (u <- get order t [v1] ;; Ok (put t [v1] (set_backoff u (SetExtension (f_backoff u))))) by (rewrite Eg; reflexivity).
    destruct (view t [v1]) as [u|] eqn:V; [|exfalso; apply H2; reflexivity].
    rewrite (view_get t [v1] u V) by (cbn; lia). cbn [rbind safe]. apply K. reflexivity.
  - unfold mid_ok. destruct (Nat.ltb_spec (n - 3) (order - 2)); [|lia].
    assert (V : view t (tl g) = find (tl g) (t_mid t (n - 3))).
    { rewrite view_mid by (rewrite tl_length'; lia). f_equal. f_equal. rewrite tl_length'. lia. }
    rewrite <- V. destruct (view t (tl g)) as [w|] eqn:E; [|cbn; auto]. cbn [safe]. apply K. reflexivity.
Qed.
End Build.
