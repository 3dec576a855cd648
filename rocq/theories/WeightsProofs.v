(** Proofs about weights files and the escaping of names. *)
From Coq Require Import List Arith Bool Lia.
From Verif Require Import CandSet CandSetSpec CandSetProofs Weights WeightsSpec.
Import ListNotations.

(** * Escaping *)
Lemma special_in : forall c, is_special c = true <-> In c special.
Proof.
  intros c. unfold is_special. rewrite existsb_exists. split.
  - intros [x [I E]]. apply Nat.eqb_eq in E. subst. exact I.
  - intros I. exists c. split; [exact I|apply Nat.eqb_refl].
Qed.
Lemma decode_encode : forall s, UrlDecode (UrlEncode s) = map blur s.
Proof.
  induction s as [|c s IH]; [reflexivity|]. cbn [UrlEncode map]. destruct (c =? SPACE) eqn:E.
  - apply Nat.eqb_eq in E. subst c. cbn [UrlDecode]. rewrite Nat.eqb_refl, IH. reflexivity.
  - destruct (is_special c) eqn:S.
    + apply special_in in S. unfold special in S. cbn [In] in S.
      repeat (destruct S as [<- |S]; [first [discriminate E | cbn [UrlDecode]; cbn; rewrite IH; reflexivity]|]). destruct S.
    + cbn [UrlDecode]. destruct (c =? PLUS) eqn:P.
      * apply Nat.eqb_eq in P. subst c. rewrite IH. reflexivity.
      * destruct (c =? PERCENT) eqn:Q; [apply Nat.eqb_eq in Q; subst c; discriminate S|]. rewrite IH. f_equal. unfold blur. apply Nat.eqb_neq in P. unfold PLUS in P. destruct (Nat.eq_dec c 43); [contradiction|reflexivity].
Qed.
Lemma c_str_id : forall s, ~ In 0 s -> c_str s = s.
Proof.
  induction s as [|c s IH]; intros H; [reflexivity|]. cbn [c_str]. destruct (c =? 0) eqn:E; [apply Nat.eqb_eq in E; subst; exfalso; apply H; left; reflexivity|].
  f_equal. apply IH. intros X. apply H. right. exact X.
Qed.
Lemma blur_no_nul : forall s, ~ In 0 s -> ~ In 0 (map blur s).
Proof.
  intros s H I. apply in_map_iff in I. destruct I as [c [E C]]. unfold blur in E. destruct (Nat.eq_dec c 43); [discriminate|]. subst. contradiction.
Qed.
Lemma decode_string : forall s, ~ In 0 s -> UrlDecodeString (Escape s) = map blur s.
Proof. intros s H. unfold UrlDecodeString, Escape. rewrite decode_encode. apply c_str_id, blur_no_nul, H. Qed.
Lemma encode_blur : forall s, UrlEncode (map blur s) = UrlEncode s.
Proof.
  induction s as [|c s IH]; [reflexivity|]. cbn [map]. unfold blur at 1. destruct (Nat.eq_dec c 43) as [-> |N].
  - cbn [UrlEncode]. change (32 =? SPACE) with true. change (43 =? SPACE) with false. change (is_special 43) with false. cbv iota. rewrite IH. reflexivity.
  - cbn [UrlEncode]. rewrite IH. reflexivity.
Qed.
Lemma escape_same : forall a b, Escape a = Escape b <-> map blur a = map blur b.
Proof.
  intros a b. unfold Escape. split; intros H.
  - rewrite <- !decode_encode, H. reflexivity.
  - rewrite <- (encode_blur a), <- (encode_blur b), H. reflexivity.
Qed.
Lemma blur_inj : forall a b, ~ In 32 a -> ~ In 32 b -> map blur a = map blur b -> a = b.
Proof.
  induction a as [|x a IH]; intros [|y b] A B H; try discriminate; [reflexivity|]. cbn [map] in H. injection H as H1 H2.
  f_equal; [|apply IH; [intros X; apply A; right; exact X|intros X; apply B; right; exact X|exact H2]].
  unfold blur in H1. destruct (Nat.eq_dec x 43) as [-> |N]; destruct (Nat.eq_dec y 43) as [-> |M]; try congruence.
  - exfalso. apply B. left. congruence.
  - exfalso. apply A. left. congruence.
Qed.
Lemma digit_plain : forall k, digit k = 0 \/ (48 <= digit k <= 57) \/ (65 <= digit k <= 70).
Proof.
  intros k. unfold digit. do 16 (destruct k as [|k]; [cbn [nth]; lia|]). cbn [nth]. destruct k; left; reflexivity.
Qed.
Lemma digit_hex : forall k, k < 16 -> (48 <= digit k <= 57) \/ (65 <= digit k <= 70).
Proof. intros k K. unfold digit. do 16 (destruct k as [|k]; [cbn [nth]; lia|]). lia. Qed.
Lemma escape_chars : forall s c, In c (Escape s) -> c <> PERCENT -> ~ In c special /\
  (In c s \/ c = PLUS \/ (48 <= c <= 57) \/ (65 <= c <= 70)).
Proof.
  unfold Escape. induction s as [|x s IH]; intros c C NP; [destruct C|]. cbn [UrlEncode] in C.
  assert (R : forall d, In d (UrlEncode s) -> d <> PERCENT -> ~ In d special /\ (In d (x :: s) \/ d = PLUS \/ (48 <= d <= 57) \/ (65 <= d <= 70))).
  { intros d D ND. destruct (IH d D ND) as [A [B|B]]; (split; [exact A|]); [left; right; exact B|right; exact B]. }
  assert (D : forall k, k < 16 -> ~ In (digit k) special /\ (In (digit k) (x :: s) \/ digit k = PLUS \/ (48 <= digit k <= 57) \/ (65 <= digit k <= 70))).
  { intros k K. pose proof (digit_hex k K) as E. split; [|right; right; exact E]. unfold special. cbn [In]. lia. }
  destruct (x =? SPACE) eqn:E.
  - destruct C as [<- |C]; [|exact (R c C NP)]. split; [|right; left; reflexivity]. unfold special, PLUS. cbn [In]. lia.
  - destruct (is_special x) eqn:S.
    + destruct C as [<- |[<- |[<- |C]]]; [congruence| | |exact (R c C NP)]; apply D; apply Nat.mod_upper_bound; lia.
    + destruct C as [<- |C]; [|exact (R c C NP)]. split; [|left; left; reflexivity]. intros X. apply special_in in X. congruence.
Qed.
Lemma escape_plain : forall s, (forall c, In c s -> ~ In c special) -> Escape s = s.
Proof.
  unfold Escape. induction s as [|c s IH]; intros H; [reflexivity|]. cbn [UrlEncode].
  assert (N : is_special c = false). { destruct (is_special c) eqn:S; [|reflexivity]. apply special_in in S. destruct (H c (or_introl eq_refl) S). }
  rewrite N. destruct (c =? SPACE) eqn:E; [apply Nat.eqb_eq in E; subst; discriminate N|]. f_equal. apply IH. intros d D. apply H. right. exact D.
Qed.
Lemma escape_room : forall s, length (Escape s) + 1 <= encode_room s.
Proof.
  unfold Escape, encode_room. intros s. enough (length (UrlEncode s) <= length s * 3) by lia.
  induction s as [|c s IH]; [cbn; lia|]. cbn [UrlEncode]. destruct (c =? SPACE); [|destruct (is_special c)]; cbn [length]; lia.
Qed.
Lemma decode_length : forall n s, length s <= n -> length (UrlDecode s) <= length s.
Proof.
  induction n as [|n IH]; intros [|c s] L; cbn [length] in L; try lia; try (cbn; lia).
  cbn [UrlDecode]. destruct (c =? PLUS); [cbn [length]; specialize (IH s); lia|]. destruct (c =? PERCENT).
  - destruct s as [|a [|b s]]; [cbn; lia|pose proof (IH [a]) as X; cbn [length] in *; lia|].
    destruct (HexPairValue a b); cbn [length] in *; [specialize (IH s); lia|specialize (IH (a :: b :: s)); cbn [length] in *; lia].
  - cbn [length]. specialize (IH s). lia.
Qed.
Lemma decode_room_ok : forall s, length (UrlDecode s) + 1 <= decode_room s.
Proof. intros s. unfold decode_room. pose proof (decode_length (length s) s (le_n _)). lia. Qed.

(** Two escaped words with '_' between them can be told apart (lexalign.cc:78). *)
Lemma split_at : forall (x : nat) a b a' b', ~ In x a -> ~ In x a' -> a ++ x :: b = a' ++ x :: b' -> a = a' /\ b = b'.
Proof.
  intros x. induction a as [|c a IH]; intros b [|c' a'] b' A A' H.
  - injection H as ->. split; reflexivity.
  - exfalso. injection H as -> _. apply A'. left. reflexivity.
  - exfalso. injection H as -> _. apply A. left. reflexivity.
  - injection H as -> H. destruct (IH b a' b') as [-> ->]; [intros X; apply A; right; exact X|intros X; apply A'; right; exact X|exact H|split; reflexivity].
Qed.
Lemma escape_no_special : forall s c, In c (Escape s) -> c <> PERCENT -> ~ In c special.
Proof. intros s c C N. exact (proj1 (escape_chars s c C N)). Qed.
Lemma pair_inj : forall f e f' e', ~ In 32 f -> ~ In 32 e -> ~ In 32 f' -> ~ In 32 e' ->
  Escape f ++ 95 :: Escape e = Escape f' ++ 95 :: Escape e' -> f = f' /\ e = e'.
Proof.
  intros f e f' e' F E F' E' H. apply split_at in H.
  - destruct H as [H1 H2]. split; apply blur_inj; try assumption; apply escape_same; assumption.
  - intros X. apply escape_no_special in X; [|discriminate]. apply X. unfold special. cbn [In]. tauto.
  - intros X. apply escape_no_special in X; [|discriminate]. apply X. unfold special. cbn [In]. tauto.
Qed.
Lemma plus_refuted : forall a b, Escape (a ++ 32 :: b) = Escape (a ++ 43 :: b).
Proof. intros a b. apply escape_same. rewrite !map_app. reflexivity. Qed.
Lemma escape_clean : forall s, s <> [] -> ~ In TAB s -> ~ In NL s -> (forall t, s <> HASH :: t) -> clean (Escape s).
Proof.
  intros s N T L H. split; [|split].
  - destruct s as [|c s]; [congruence|]. unfold Escape. cbn [UrlEncode]. destruct (c =? SPACE); [|destruct (is_special c)]; discriminate.
  - intros c C. destruct (Nat.eq_dec c PERCENT) as [-> |NP]; [unfold PERCENT; lia|]. destruct (escape_chars s c C NP) as [A B].
    assert (c <> 32 /\ c <> 61) by (unfold special in A; cbn [In] in A; split; intros ->; apply A; tauto).
    assert (c <> 9 /\ c <> 10); [|tauto]. destruct B as [B|[-> |B]]; [|unfold PLUS; lia|lia]. split; intros ->; contradiction.
  - intros t E. destruct s as [|c s]; [congruence|]. unfold Escape in E. cbn [UrlEncode] in E. destruct (c =? SPACE); [discriminate|]. destruct (is_special c); [discriminate|]. injection E as -> _. exact (H s eq_refl).
Qed.

(** * Names *)
Lemma text_eqb_eq : forall a b, text_eqb a b = true <-> a = b.
Proof. intros a b. unfold text_eqb. destruct (list_eq_dec Nat.eq_dec a b); split; congruence. Qed.
Lemma text_eqb_refl : forall a, text_eqb a a = true.
Proof. intros a. apply text_eqb_eq. reflexivity. Qed.
Lemma text_eqb_neq : forall a b, a <> b -> text_eqb a b = false.
Proof. intros a b H. destruct (text_eqb a b) eqn:E; [|reflexivity]. apply text_eqb_eq in E. contradiction. Qed.
Lemma find_some : forall d s k i, find_name d s k = Some i -> k <= i /\ i < k + length d /\ nth_error d (i - k) = Some s.
Proof.
  induction d as [|t d IH]; intros s k i H; [discriminate|]. cbn [find_name] in H. destruct (text_eqb t s) eqn:E.
  - injection H as <-. apply text_eqb_eq in E. subst. rewrite Nat.sub_diag. cbn [length nth_error]. repeat split; lia.
  - destruct (IH s (S k) i H) as [A [B C]]. cbn [length]. replace (i - k) with (S (i - S k)) by lia. cbn [nth_error]. repeat split; [lia|lia|exact C].
Qed.
Lemma find_none : forall d s k, find_name d s k = None <-> ~ In s d.
Proof.
  induction d as [|t d IH]; intros s k; cbn [find_name]; [split; [intros _ []|reflexivity]|]. destruct (text_eqb t s) eqn:E.
  - apply text_eqb_eq in E. subst. split; [discriminate|]. intros H. exfalso. apply H. left. reflexivity.
  - rewrite IH. split; intros H; [intros [-> |X]; [rewrite text_eqb_refl in E; discriminate|contradiction]|intros X; apply H; right; exact X].
Qed.
Lemma find_app : forall d n s k, find_name (d ++ [n]) s k = match find_name d s k with Some i => Some i | None => if text_eqb n s then Some (k + length d) else None end.
Proof.
  induction d as [|t d IH]; intros n s k; cbn [find_name app length]; [rewrite Nat.add_0_r; reflexivity|]. destruct (text_eqb t s); [reflexivity|].
  rewrite IH. replace (S k + length d) with (k + S (length d)) by lia. reflexivity.
Qed.
Lemma find_nth : forall d s k i, NoDup d -> nth_error d i = Some s -> find_name d s k = Some (k + i).
Proof.
  induction d as [|t d IH]; intros s k [|i] N H; try discriminate; cbn [nth_error find_name] in *.
  - injection H as ->. rewrite text_eqb_refl, Nat.add_0_r. reflexivity.
  - inversion N as [|? ? N1 N2]; subst. rewrite text_eqb_neq; [|intros ->; apply N1; apply (nth_error_In _ _ H)]. rewrite (IH s (S k) i N2 H). f_equal. lia.
Qed.

(** * Lines *)
Lemma lines_line : forall l s, ~ In NL l -> lines (l ++ NL :: s) = l :: lines s.
Proof.
  induction l as [|c l IH]; intros s H; [reflexivity|]. cbn [app lines]. destruct (c =? NL) eqn:E; [apply Nat.eqb_eq in E; subst; exfalso; apply H; left; reflexivity|].
  rewrite IH by (intros X; apply H; right; exact X). reflexivity.
Qed.
Lemma blank_plain : forall s, (forall c, In c s -> is_sep c = false) -> blank_last s = (s, false).
Proof.
  induction s as [|c s IH]; intros H; [reflexivity|]. cbn [blank_last]. rewrite IH by (intros d D; apply H; right; exact D). rewrite (H c (or_introl eq_refl)). reflexivity.
Qed.
Lemma before_space_name : forall n s, ~ In SPACE n -> before_space (n ++ SPACE :: s) = n.
Proof.
  induction n as [|c n IH]; intros s H; [reflexivity|]. cbn [app before_space]. destruct (c =? SPACE) eqn:E; [apply Nat.eqb_eq in E; subst; exfalso; apply H; left; reflexivity|].
  f_equal. apply IH. intros X. apply H. right. exact X.
Qed.
Lemma from_space_name : forall n s, ~ In SPACE n -> from_space (n ++ SPACE :: s) = SPACE :: s.
Proof.
  induction n as [|c n IH]; intros s H; [reflexivity|]. cbn [app from_space]. destruct (c =? SPACE) eqn:E; [apply Nat.eqb_eq in E; subst; exfalso; apply H; left; reflexivity|].
  apply IH. intros X. apply H. right. exact X.
Qed.
Lemma skip_plain : forall s, ~ In SPACE s -> skip_spaces s = s.
Proof.
  intros [|c s] H; [reflexivity|]. cbn [skip_spaces]. destruct (c =? SPACE) eqn:E; [apply Nat.eqb_eq in E; subst; exfalso; apply H; left; reflexivity|reflexivity].
Qed.
Lemma before_equals_name : forall n s, ~ In EQUALS n -> before_equals (n ++ EQUALS :: s) = n /\ after_equals (n ++ EQUALS :: s) = Some s.
Proof.
  induction n as [|c n IH]; intros s H; [split; reflexivity|]. cbn [app before_equals after_equals]. destruct (c =? EQUALS) eqn:E; [apply Nat.eqb_eq in E; subst; exfalso; apply H; left; reflexivity|].
  destruct (IH s) as [A B]; [intros X; apply H; right; exact X|]. rewrite A, B. split; reflexivity.
Qed.

Section W.
Variable V : Type.
Variable zero : V.
Local Notation set := (set V zero).
Local Notation get := (get V zero).
Lemma get_nth : forall w i, get w i = nth i w zero.
Proof. intros w i. unfold Weights.get. destruct (i <? length w) eqn:E; [reflexivity|]. apply Nat.ltb_ge in E. symmetry. apply nth_overflow. exact E. Qed.
Lemma set_nth : forall i w v j, nth j (set w i v) zero = if Nat.eq_dec i j then v else nth j w zero.
Proof.
  induction i as [|i IH]; intros [|x w] v [|j]; cbn [Weights.set nth]; try reflexivity; try (destruct j; reflexivity).
  - rewrite IH. destruct (Nat.eq_dec i j), (Nat.eq_dec (S i) (S j)); try lia; try reflexivity. destruct j; reflexivity.
  - rewrite IH. destruct (Nat.eq_dec i j), (Nat.eq_dec (S i) (S j)); try lia; reflexivity.
Qed.
Lemma set_length : forall i w v, i < length w -> length (set w i v) = length w.
Proof. induction i as [|i IH]; intros [|x w] v H; cbn [Weights.set length] in *; try lia. rewrite IH by lia. reflexivity. Qed.

Definition value (d : dict) (w : list V) (s : text) : V := match find_name d s 1 with Some k => nth k w zero | None => zero end.
Lemma value_weighs : forall d w s, weighs V zero d w s (value d w s).
Proof.
  intros d w s. unfold value, weighs. destruct (find_name d s 1) as [k|] eqn:E.
  - left. destruct (find_some _ _ _ _ E) as [A [B C]]. exists (k - 1). split; [exact C|]. f_equal. lia.
  - right. split; [apply (find_none d s 1); exact E|reflexivity].
Qed.
Lemma weighs_value : forall d w s v, NoDup d -> weighs V zero d w s v -> v = value d w s.
Proof.
  intros d w s v N [[i [E ->]]|[E ->]]; unfold value.
  - rewrite (find_nth d s 1 i N E). reflexivity.
  - apply (find_none d s 1) in E. rewrite E. reflexivity.
Qed.
(** What one entry changes. *)
Lemma convert_set : forall frozen d n d' fid w v, Convert frozen d n = (d', fid) ->
  (exists new, d' = d ++ new /\ (frozen = true -> new = []) /\ (In n d -> new = [])) /\ (frozen = false -> In n d') /\
  forall m, value d' (set w fid v) m = if text_eqb n m then (if in_dec (list_eq_dec Nat.eq_dec) n d' then v else value d w m) else value d w m.
Proof.
  intros frozen d n d' fid w v H. unfold Convert in H. destruct (find_name d n 1) as [k|] eqn:E.
  - injection H as <- <-. destruct (find_some _ _ _ _ E) as [A [B C]]. assert (I : In n d) by (apply (nth_error_In _ _ C)).
    split; [exists []; rewrite app_nil_r; repeat split; reflexivity|]. split; [intros _; exact I|]. intros m. destruct (text_eqb n m) eqn:T.
    + apply text_eqb_eq in T. subst m. destruct (in_dec _ n d); [|contradiction]. unfold value. rewrite E, set_nth. destruct (Nat.eq_dec k k); [reflexivity|lia].
    + unfold value. destruct (find_name d m 1) as [j|] eqn:F; [|reflexivity]. rewrite set_nth. destruct (Nat.eq_dec k j) as [-> |]; [|reflexivity].
      destruct (find_some _ _ _ _ F) as [_ [_ C']]. rewrite C in C'. injection C' as ->. rewrite text_eqb_refl in T. discriminate.
  - assert (NI : ~ In n d) by (apply (find_none d n 1); exact E). destruct frozen; injection H as <- <-.
    + split; [exists []; rewrite app_nil_r; repeat split; reflexivity|]. split; [discriminate|]. intros m.
      assert (G : value d (set w 0 v) m = value d w m).
      { unfold value. destruct (find_name d m 1) as [j|] eqn:F; [|reflexivity]. destruct (find_some _ _ _ _ F) as [A _]. rewrite set_nth. destruct (Nat.eq_dec 0 j); [lia|reflexivity]. }
      rewrite G. destruct (text_eqb n m); [|reflexivity]. destruct (in_dec _ n d); [contradiction|reflexivity].
    + split; [exists [n]; repeat split; [discriminate|contradiction]|]. split; [intros _; apply in_or_app; right; left; reflexivity|]. intros m. unfold value. rewrite find_app.
      destruct (in_dec (list_eq_dec Nat.eq_dec) n (d ++ [n])) as [_|X]; [|exfalso; apply X, in_or_app; right; left; reflexivity].
      destruct (find_name d m 1) as [j|] eqn:F.
      * destruct (find_some _ _ _ _ F) as [A [B C]]. rewrite set_nth. destruct (Nat.eq_dec (S (length d)) j); [lia|].
        rewrite text_eqb_neq; [reflexivity|]. intros ->. congruence.
      * destruct (text_eqb n m); [|reflexivity]. rewrite set_nth. destruct (Nat.eq_dec (S (length d)) (1 + length d)); [reflexivity|lia].
Qed.

Variable isz : V -> bool.
Variable isnan : V -> bool.
Variable print : V -> text.
Variable strtod : text -> V.
Local Notation write_features := (write_features V zero isz print).
Local Notation read_line := (read_line V zero isnan strtod).
Local Notation read_lines := (read_lines V zero isnan strtod).

(** The entries written. *)
Fixpoint entries (d : dict) (i : nat) (w : list V) (hide : bool) : list (text * V) :=
  match d with
  | [] => []
  | n :: d' => (if hide && isz (get w i) then [] else [(n, get w i)]) ++ entries d' (S i) w hide
  end.
Fixpoint lookup (l : list (text * V)) (m : text) : option V :=
  match l with [] => None | (n, v) :: l' => if text_eqb n m then Some v else lookup l' m end.
Lemma entries_names : forall d i w hide n v, In (n, v) (entries d i w hide) -> In n d /\ exists k, v = get w k.
Proof.
  induction d as [|x d IH]; intros i w hide n v H; [destruct H|]. cbn [entries] in H. apply in_app_or in H. destruct H as [H|H].
  - destruct (hide && isz (get w i)); [destruct H|]. destruct H as [H|[]]. injection H as <- <-. split; [left; reflexivity|exists i; reflexivity].
  - destruct (IH _ _ _ _ _ H) as [A B]. split; [right; exact A|exact B].
Qed.
Lemma entries_nodup : forall d i w hide, NoDup d -> NoDup (map fst (entries d i w hide)).
Proof.
  induction d as [|x d IH]; intros i w hide N; [constructor|]. inversion N as [|? ? N1 N2]; subst. cbn [entries]. rewrite map_app. destruct (hide && isz (get w i)); cbn [map app].
  - apply IH. exact N2.
  - constructor; [|apply IH; exact N2]. cbn [fst]. intros X. apply in_map_iff in X. destruct X as [[n v] [E X]]. cbn [fst] in E. subst. apply N1. exact (proj1 (entries_names _ _ _ _ _ _ X)).
Qed.
Lemma lookup_none : forall l m, ~ In m (map fst l) -> lookup l m = None.
Proof.
  induction l as [|[n v] l IH]; intros m H; [reflexivity|]. cbn [lookup map fst] in *. rewrite text_eqb_neq by (intros ->; apply H; left; reflexivity). apply IH. intros X. apply H. right. exact X.
Qed.
Lemma lookup_entries : forall d i w hide m, NoDup d ->
  lookup (entries d i w hide) m = match find_name d m i with Some k => if hide && isz (get w k) then None else Some (get w k) | None => None end.
Proof.
  induction d as [|x d IH]; intros i w hide m N; [reflexivity|]. inversion N as [|? ? N1 N2]; subst. cbn [entries find_name]. destruct (text_eqb x m) eqn:T.
  - apply text_eqb_eq in T. subst m. destruct (hide && isz (get w i)) eqn:H; cbn [app].
    + rewrite IH by exact N2. rewrite (proj2 (find_none d x (S i)) N1). reflexivity.
    + cbn [lookup]. rewrite text_eqb_refl. reflexivity.
  - destruct (hide && isz (get w i)); cbn [app lookup]; [|rewrite T]; apply IH; exact N2.
Qed.

Hypothesis print_chars : forall v c, In c (print v) -> c <> SPACE /\ c <> TAB /\ c <> EQUALS /\ c <> NL.
Hypothesis strtod_print : forall v, isnan v = false -> strtod (print v) = v.

Lemma sep_false : forall c, c <> EQUALS -> c <> TAB -> is_sep c = false.
Proof. intros c A B. unfold is_sep. rewrite (proj2 (Nat.eqb_neq _ _) A), (proj2 (Nat.eqb_neq _ _) B). reflexivity. Qed.
Lemma read_entry : forall frozen n v d w, clean n -> isnan v = false ->
  read_line frozen (n ++ SPACE :: print v) d w = let (d', fid) := Convert frozen d n in Some (d', set w fid v).
Proof.
  intros frozen n v d w [N [C H]] NV. destruct n as [|c n]; [congruence|]. cbn [app Weights.read_line].
  assert (Hc : c <> HASH) by (intros ->; exact (H n eq_refl)). destruct (C c (or_introl eq_refl)) as [C1 [C2 [C3 C4]]].
  rewrite (proj2 (Nat.eqb_neq _ _) Hc). change SPACE with 32 at 1. rewrite (proj2 (Nat.eqb_neq _ _) C1).
  rewrite blank_plain.
  2:{ intros x X. apply in_app_or in X. destruct X as [X|[<- |X]].
      - destruct (C x (or_intror X)) as [D1 [D2 [D3 D4]]]. apply sep_false; assumption.
      - reflexivity.
      - destruct (print_chars v x X) as [D1 [D2 [D3 D4]]]. apply sep_false; assumption. }
  cbn [fst]. assert (NS : ~ In SPACE (c :: n)) by (intros X; destruct (C _ X) as [D _]; apply D; reflexivity).
  change (c :: n ++ SPACE :: print v) with ((c :: n) ++ SPACE :: print v). rewrite before_space_name, from_space_name by exact NS.
  cbn [skip_spaces]. rewrite Nat.eqb_refl. rewrite skip_plain by (intros X; destruct (print_chars v _ X) as [D _]; apply D; reflexivity).
  rewrite strtod_print by exact NV. rewrite NV. reflexivity.
Qed.
Lemma read_entries : forall frozen l d w, NoDup (map fst l) -> Forall (fun p => clean (fst p) /\ isnan (snd p) = false) l ->
  exists d' w', read_lines frozen (map (fun p => fst p ++ SPACE :: print (snd p)) l ++ [[]]) d w = Some (d', w') /\
    (exists new, d' = d ++ new /\ (frozen = true -> new = [])) /\ (frozen = false -> forall m, In m (map fst l) -> In m d') /\
    forall m, frozen = false \/ In m d -> value d' w' m = match lookup l m with Some v => v | None => value d w m end.
Proof.
  intros frozen. induction l as [|[n v] l IH]; intros d w N F.
  - exists d, w. cbn. repeat split; [exists []; rewrite app_nil_r; split; reflexivity|intros _ m []].
  - cbn [map app Weights.read_lines fst snd]. inversion F as [|? ? [F1 F2] F']; subst. cbn [map fst] in N. inversion N as [|? ? N1 N2]; subst. cbn [fst snd] in *.
    rewrite read_entry by assumption. destruct (Convert frozen d n) as [d1 fid] eqn:E. destruct (convert_set frozen d n d1 fid w v E) as [[new [D1 [D2 D3]]] [I V1]].
    destruct (IH d1 (set w fid v) N2 F') as [d2 [w2 [R [[new2 [D4 D5]] [I2 V2]]]]]. exists d2, w2. split; [exact R|]. split; [|split].
    + exists (new ++ new2). split; [rewrite D4, D1, app_assoc; reflexivity|]. intros FR. rewrite D2, D5 by exact FR. reflexivity.
    + intros FR m [<- |M]; [rewrite D4; apply in_or_app; left; apply I; exact FR|apply I2; assumption].
    + intros m M. assert (M1 : frozen = false \/ In m d1) by (destruct M as [M|M]; [left; exact M|right; rewrite D1; apply in_or_app; left; exact M]).
      rewrite (V2 m M1). cbn [lookup]. rewrite V1. destruct (text_eqb n m) eqn:T.
      * apply text_eqb_eq in T. subst m. rewrite lookup_none by exact N1. destruct (in_dec (list_eq_dec Nat.eq_dec) n d1) as [_|X]; [reflexivity|].
        exfalso. destruct M1 as [M1|M1]; [apply X, I, M1|contradiction].
      * reflexivity.
Qed.

Lemma lines_features : forall d i w hide, Forall clean d ->
  lines (write_features d i w hide) = map (fun p => fst p ++ SPACE :: print (snd p)) (entries d i w hide) ++ [[]].
Proof.
  induction d as [|n d IH]; intros i w hide F; [reflexivity|]. inversion F as [|? ? [_ [F1 _]] F']; subst. cbn [Weights.write_features entries]. destruct (hide && isz (get w i)); cbn [app map].
  - apply IH. exact F'.
  - cbn [fst snd]. replace ((n ++ SPACE :: print (get w i) ++ [NL]) ++ write_features d (S i) w hide) with ((n ++ SPACE :: print (get w i)) ++ NL :: write_features d (S i) w hide)
      by (rewrite <- !app_assoc; cbn [app]; rewrite <- !app_assoc; reflexivity).
    rewrite lines_line; [rewrite IH by exact F'; reflexivity|]. intros X. apply in_app_or in X. destruct X as [X|[X|X]].
    + destruct (F1 _ X) as [_ [_ [_ D]]]. apply D. reflexivity.
    + discriminate X.
    + destruct (print_chars _ _ X) as [_ [_ [_ D]]]. apply D. reflexivity.
Qed.
Lemma lines_file : forall frozen d w hide extra D w0, Forall clean d -> (forall e, extra = Some e -> ~ In NL e) ->
  read_lines frozen (lines (WriteToFile V zero isz print d w hide extra)) D w0 =
  read_lines frozen (map (fun p => fst p ++ SPACE :: print (snd p)) (entries d 1 w hide) ++ [[]]) D w0.
Proof.
  intros frozen d w hide extra D w0 F E. unfold WriteToFile. destruct extra as [e|].
  - replace ((HASH :: SPACE :: e ++ [NL]) ++ write_features d 1 w hide) with ((HASH :: SPACE :: e) ++ NL :: write_features d 1 w hide) by (cbn [app]; rewrite <- app_assoc; reflexivity).
    rewrite lines_line; [|intros [X|[X|X]]; [discriminate|discriminate|exact (E e eq_refl X)]]. rewrite lines_features by exact F. reflexivity.
  - cbn [app]. rewrite lines_features by exact F. reflexivity.
Qed.

Theorem update : forall frozen d w hide extra D w0, NoDup d -> Forall clean d -> (forall e, extra = Some e -> ~ In NL e) ->
  (forall v, In v w -> isnan v = false) -> isnan zero = false -> readable (WriteToFile V zero isz print d w hide extra) ->
  exists D' w', InitFromFile V zero isnan strtod frozen (WriteToFile V zero isz print d w hide extra) D w0 = Some (D', w') /\
    (exists new, D' = D ++ new /\ (frozen = true -> new = [])) /\
    forall m, frozen = false \/ In m D ->
      value D' w' m = match find_name d m 1 with Some k => if hide && isz (get w k) then value D w0 m else get w k | None => value D w0 m end.
Proof.
  intros frozen d w hide extra D w0 N C E NN NZ [R1 R2]. unfold InitFromFile. apply Nat.ltb_ge in R1. rewrite R1. rewrite text_eqb_neq by exact R2.
  rewrite lines_file by assumption. destruct (read_entries frozen (entries d 1 w hide) D w0) as [D' [w' [R [X [_ Y]]]]].
  - apply entries_nodup. exact N.
  - apply Forall_forall. intros [n v] I. destruct (entries_names _ _ _ _ _ _ I) as [A [k ->]]. cbn [fst snd]. split; [rewrite Forall_forall in C; exact (C n A)|].
    rewrite get_nth. destruct (nth_in_or_default k w zero) as [G| ->]; [apply NN; exact G|exact NZ].
  - exists D', w'. split; [exact R|]. split; [exact X|]. intros m M. rewrite (Y m M), lookup_entries by exact N. destruct (find_name d m 1) as [k|]; [|reflexivity]. destruct (hide && isz (get w k)); reflexivity.
Qed.
Theorem update_kept : forall frozen d w extra D w0, NoDup d -> NoDup D -> Forall clean d -> (forall e, extra = Some e -> ~ In NL e) ->
  (forall v, In v w -> isnan v = false) -> isnan zero = false -> readable (WriteToFile V zero isz print d w false extra) ->
  exists D' w', InitFromFile V zero isnan strtod frozen (WriteToFile V zero isz print d w false extra) D w0 = Some (D', w') /\
    forall m v, frozen = false \/ In m D -> (if in_dec (list_eq_dec Nat.eq_dec) m d then weighs V zero d w m v else weighs V zero D w0 m v) -> weighs V zero D' w' m v.
Proof.
  intros frozen d w extra D w0 N ND C E NN NZ R. destruct (update frozen d w false extra D w0 N C E NN NZ R) as [D' [w' [A [_ H]]]].
  exists D', w'. split; [exact A|]. intros m v M W. replace v with (value D' w' m); [apply value_weighs|]. rewrite (H m M). cbn [andb].
  destruct (in_dec (list_eq_dec Nat.eq_dec) m d) as [I|I].
  - apply weighs_value in W; [|exact N]. subst v. unfold value. destruct (find_name d m 1) as [k|] eqn:F; [apply get_nth|]. apply find_none in F. contradiction.
  - apply weighs_value in W; [|exact ND]. subst v. rewrite (proj2 (find_none d m 1) I). reflexivity.
Qed.
Hypothesis isz_zero : forall v, isz v = true <-> v = zero.

Theorem read_back : forall frozen d w hide extra D, NoDup d -> Forall clean d -> (forall e, extra = Some e -> ~ In NL e) ->
  (forall v, In v w -> isnan v = false) -> isnan zero = false -> readable (WriteToFile V zero isz print d w hide extra) ->
  exists D' w', InitFromFile V zero isnan strtod frozen (WriteToFile V zero isz print d w hide extra) D [] = Some (D', w') /\
    (exists new, D' = D ++ new /\ (frozen = true -> new = [])) /\
    forall m v, frozen = false \/ In m D -> weighs V zero d w m v -> weighs V zero D' w' m v.
Proof.
  intros frozen d w hide extra D N C E NN NZ R. destruct (update frozen d w hide extra D [] N C E NN NZ R) as [D' [w' [A [B H]]]].
  exists D', w'. split; [exact A|]. split; [exact B|]. intros m v M W. apply weighs_value in W; [|exact N]. subst v.
  replace (value d w m) with (value D' w' m); [apply value_weighs|]. rewrite (H m M). unfold value at 3. 
  assert (Z : value D [] m = zero) by (unfold value; destruct (find_name D m 1) as [j|]; [destruct j; reflexivity|reflexivity]). rewrite Z.
  destruct (find_name d m 1) as [k|]; [|reflexivity]. destruct hide; cbn [andb]; [|apply get_nth]. destruct (isz (get w k)) eqn:X; [|apply get_nth].
  apply isz_zero in X. rewrite <- get_nth. symmetry. exact X.
Qed.

(** * Strings *)
Definition tok (p : text * V) : text := fst p ++ EQUALS :: print (snd p).
Lemma string_entries : forall d i w hide, string_features V zero isz print d i w hide = flat_map (fun p => SPACE :: tok p) (entries d i w hide).
Proof.
  induction d as [|n d IH]; intros i w hide; [reflexivity|]. cbn [string_features entries]. rewrite flat_map_app, <- IH. destruct (hide && isz (get w i)); [reflexivity|].
  cbn [flat_map]. rewrite app_nil_r. reflexivity.
Qed.
Lemma flat_join : forall l p, flat_map (fun p => SPACE :: tok p) (p :: l) = SPACE :: join (map tok (p :: l)).
Proof.
  induction l as [|q l IH]; intros p; [cbn [flat_map map join]; rewrite app_nil_r; reflexivity|].
  change (flat_map (fun p => SPACE :: tok p) (p :: q :: l)) with ((SPACE :: tok p) ++ flat_map (fun p => SPACE :: tok p) (q :: l)). rewrite IH. reflexivity.
Qed.
Lemma tok_word : forall p, clean (fst p) -> is_word (tok p).
Proof.
  intros [n v] [N [C _]]. unfold tok. cbn [fst snd] in *. split; [destruct n; discriminate|]. intros c I. apply in_app_or in I. destruct I as [I|[<- |I]].
  - destruct (C c I) as [A [B _]]. split; assumption.
  - split; discriminate.
  - destruct (print_chars v c I) as [A [B _]]. split; assumption.
Qed.
Lemma find_in : forall d n, In n d -> exists k, find_name d n 1 = Some k /\ k <= length d.
Proof.
  intros d n I. destruct (find_name d n 1) as [k|] eqn:E; [|apply find_none in E; contradiction]. exists k. split; [reflexivity|]. destruct (find_some _ _ _ _ E). lia.
Qed.
Lemma update_entries : forall frozen d l w0, NoDup (map fst l) -> Forall (fun p => In (fst p) d /\ clean (fst p) /\ isnan (snd p) = false) l -> length d < length w0 ->
  exists w1, update_tokens V zero strtod frozen (map tok l) d w0 = Some (d, w1) /\ length w1 = length w0 /\
    forall m, value d w1 m = match lookup l m with Some v => v | None => value d w0 m end.
Proof.
  intros frozen d. induction l as [|[n v] l IH]; intros w0 N F L; [exists w0; repeat split|].
  inversion F as [|? ? [F1 [F2 F3]] F']; subst. cbn [map fst] in N. inversion N as [|? ? N1 N2]; subst. cbn [fst snd] in *. cbn [map update_tokens].
  destruct F2 as [_ [C _]]. destruct (before_equals_name n (print v)) as [B A]; [intros X; destruct (C _ X) as [_ [_ [D _]]]; apply D; reflexivity|].
  unfold tok at 1 2 3. cbn [fst snd]. rewrite B, A. destruct (find_in d n F1) as [k [K1 K2]]. 
  assert (CV : Convert frozen d n = (d, k)) by (unfold Convert; rewrite K1; reflexivity). rewrite CV. unfold assign.
  destruct (Nat.ltb_spec k (length w0)) as [_|X]; [|lia]. rewrite strtod_print by exact F3.
  destruct (IH (set w0 k v) N2 F') as [w1 [U [L1 H]]]; [rewrite set_length by lia; exact L|]. exists w1. split; [exact U|]. split; [rewrite L1; apply set_length; lia|].
  intros m. rewrite H. cbn [lookup]. destruct (convert_set frozen d n d k w0 v CV) as [_ [_ V1]]. rewrite V1. destruct (text_eqb n m) eqn:T.
  - apply text_eqb_eq in T. subst m. rewrite lookup_none by exact N1. destruct (in_dec (list_eq_dec Nat.eq_dec) n d); [reflexivity|contradiction].
  - reflexivity.
Qed.
Theorem string_back : forall frozen d w hide w0 s, NoDup d -> Forall clean d -> (forall v, In v w -> isnan v = false) -> isnan zero = false ->
  GetString V zero isz print d w hide = Some s -> length d < length w0 ->
  exists w1, UpdateFromString V zero strtod frozen s d w0 = Some (d, w1) /\ length w1 = length w0 /\
    forall m v, In m d -> weighs V zero d w m v -> (hide = true /\ v = zero -> forall v0, weighs V zero d w0 m v0 -> weighs V zero d w1 m v0) /\ (~ (hide = true /\ v = zero) -> weighs V zero d w1 m v).
Proof.
  intros frozen d w hide w0 s N C NN NZ G L. unfold GetString in G. rewrite string_entries in G. unfold UpdateFromString.
  assert (FE : Forall (fun p => In (fst p) d /\ clean (fst p) /\ isnan (snd p) = false) (entries d 1 w hide)).
  { apply Forall_forall. intros [n v] I. destruct (entries_names _ _ _ _ _ _ I) as [A [k ->]]. cbn [fst snd]. split; [exact A|]. split; [rewrite Forall_forall in C; exact (C n A)|].
    rewrite get_nth. destruct (nth_in_or_default k w zero) as [X| ->]; [apply NN; exact X|exact NZ]. }
  assert (T : tokens s = map tok (entries d 1 w hide)).
  { destruct (entries d 1 w hide) as [|p l]; [discriminate|]. rewrite flat_join in G. assert (E : s = join (map tok (p :: l))) by (clear - G; remember (join (map tok (p :: l))) as x; congruence). rewrite E. apply tokens_join. apply Forall_forall. intros t I. apply in_map_iff in I. destruct I as [q [<- I]].
    apply tok_word. rewrite Forall_forall in FE. exact (proj1 (proj2 (FE q I))). }
  rewrite T. destruct (update_entries frozen d (entries d 1 w hide) w0 (entries_nodup _ _ _ _ N) FE L) as [w1 [U [L1 H]]]. exists w1. split; [exact U|]. split; [exact L1|].
  intros m v I W. apply weighs_value in W; [|exact N]. destruct (find_in d m I) as [k [K1 K2]]. assert (VK : v = get w k) by (rewrite W; unfold value; rewrite K1; symmetry; apply get_nth).
  assert (HM := H m). rewrite lookup_entries, K1 in HM by exact N. rewrite <- VK in HM. split.
  - intros [-> Z] v0 W0. apply weighs_value in W0; [|exact N]. assert (Z' : isz v = true) by (apply isz_zero; exact Z). rewrite Z' in HM. cbn [andb] in HM. rewrite W0, <- HM. apply value_weighs.
  - intros Z. destruct (hide && isz v) eqn:X; [exfalso; apply Z; apply andb_prop in X; destruct X as [X1 X2]; split; [exact X1|apply isz_zero; exact X2]|].
    rewrite <- HM. apply value_weighs.
Qed.

(** Sparse vectors. *)
Lemma sparse_from_spec : forall w i j v, In (j, v) (sparse_from V isz i w) <-> i <= j < i + length w /\ v = nth (j - i) w zero /\ v <> zero.
Proof.
  induction w as [|x w IH]; intros i j v; cbn [sparse_from length]; [split; [intros []|lia]|]. rewrite in_app_iff, IH. split.
  - intros [H|[H1 [H2 H3]]].
    + destruct (isz x) eqn:E; [destruct H|]. destruct H as [H|[]]. injection H as <- <-. rewrite Nat.sub_diag. cbn [nth]. split; [lia|]. split; [reflexivity|]. intros X. apply isz_zero in X. congruence.
    + split; [lia|]. split; [|exact H3]. replace (j - i) with (S (j - S i)) by lia. exact H2.
  - intros [H1 [H2 H3]]. destruct (Nat.eq_dec i j) as [-> |NE].
    + left. rewrite Nat.sub_diag in H2. cbn [nth] in H2. subst v. destruct (isz x) eqn:E; [apply isz_zero in E; contradiction|left; reflexivity].
    + right. split; [lia|]. split; [|exact H3]. replace (j - i) with (S (j - S i)) in H2 by lia. exact H2.
Qed.
Lemma sparse_spec : forall w j v, In (j, v) (InitSparseVector V isz w) <-> 1 <= j < length w /\ v = nth j w zero /\ v <> zero.
Proof.
  intros [|x w] j v; cbn [InitSparseVector length]; [split; [intros []|lia]|]. rewrite sparse_from_spec. split; intros [H1 [H2 H3]]; (split; [lia|]; split; [|exact H3]).
  - replace j with (S (j - 1)) by lia. exact H2.
  - replace j with (S (j - 1)) in H2 by lia. exact H2.
Qed.
End W.

(** * Findings *)
Section Findings.
Variable V : Type.
Variable zero : V.
Variable isz isnan : V -> bool.
Variable print : V -> text.
Variable strtod : text -> V.
(** A name with '=' *)
Lemma equals_line : forall frozen a b t d w, clean a -> ~ In EQUALS b -> ~ In TAB b -> ~ In EQUALS t -> ~ In TAB t -> ~ In SPACE b -> ~ In SPACE t -> isnan (strtod (b ++ SPACE :: t)) = false -> b <> [] ->
  read_line V zero isnan strtod frozen ((a ++ EQUALS :: b) ++ SPACE :: t) d w =
  let (d', fid) := Convert frozen d a in Some (d', set V zero w fid (strtod (b ++ SPACE :: t))).
Proof.
  intros frozen a b t d w [N [C H]] B1 B2 T1 T2 B3 T3 NN NB. destruct a as [|c a]; [congruence|]. cbn [app read_line].
  assert (Hc : c <> HASH) by (intros ->; exact (H a eq_refl)). destruct (C c (or_introl eq_refl)) as [C1 _].
  rewrite (proj2 (Nat.eqb_neq _ _) Hc). change SPACE with 32 at 1. rewrite (proj2 (Nat.eqb_neq _ _) C1).
  rewrite <- app_assoc. cbn [app].
  assert (BL : blank_last (a ++ EQUALS :: b ++ SPACE :: t) = (a ++ SPACE :: b ++ SPACE :: t, true)).
  { clear N H Hc C1 C. induction a as [|x a IH].
    - cbn [app blank_last]. rewrite blank_plain; [reflexivity|]. intros y Y. apply in_app_or in Y. destruct Y as [Y|[<- |Y]]; [|reflexivity|]; apply sep_false; intros ->; contradiction.
    - cbn [app blank_last]. rewrite IH. reflexivity. }
  rewrite BL. cbn [fst]. assert (NS : ~ In SPACE (c :: a)) by (intros X; destruct (C _ X) as [D _]; apply D; reflexivity).
  change (c :: a ++ SPACE :: b ++ SPACE :: t) with ((c :: a) ++ SPACE :: (b ++ SPACE :: t)). rewrite before_space_name, from_space_name by exact NS.
  cbn [skip_spaces]. rewrite Nat.eqb_refl. assert (SK : skip_spaces (b ++ SPACE :: t) = b ++ SPACE :: t).
  { destruct b as [|x b]; [congruence|]. cbn [app skip_spaces]. destruct (x =? SPACE) eqn:E; [apply Nat.eqb_eq in E; subst; exfalso; apply B3; left; reflexivity|reflexivity]. }
  rewrite SK, NN. reflexivity.
Qed.
Lemma hash_line : forall frozen s d w, read_line V zero isnan strtod frozen (HASH :: s) d w = Some (d, w).
Proof. reflexivity. Qed.
Lemma short_refuted : forall frozen file d w, length file < 5 -> InitFromFile V zero isnan strtod frozen file d w = None.
Proof. intros frozen file d w H. unfold InitFromFile. apply Nat.ltb_lt in H. rewrite H. reflexivity. Qed.
Lemma all_hidden : forall w, (forall i, isz (get V zero w i) = true) -> forall d i,
  write_features V zero isz print d i w true = [] /\ string_features V zero isz print d i w true = [].
Proof.
  intros w H. induction d as [|n d IH]; intros i; [split; reflexivity|]. cbn [write_features string_features]. rewrite H. cbn [andb app]. apply IH.
Qed.
Lemma all_zero_refuted : forall frozen D w0 d w, (forall i, isz (get V zero w i) = true) ->
  InitFromFile V zero isnan strtod frozen (WriteToFile V zero isz print d w true None) D w0 = None /\ GetString V zero isz print d w true = None.
Proof.
  intros frozen D w0 d w H. unfold WriteToFile, GetString. destruct (all_hidden w H d 1) as [-> ->]. split; reflexivity.
Qed.
Lemma unknown_refuted : forall n t s d w, ~ In EQUALS n -> ~ In n d -> length w <= S (length d) ->
  update_tokens V zero strtod false ((n ++ EQUALS :: t) :: s) d w = None.
Proof.
  intros n t s d w E N L. cbn [update_tokens]. destruct (before_equals_name n t E) as [-> _]. unfold Convert. rewrite (proj2 (find_none d n 1) N). unfold assign.
  destruct (Nat.ltb_spec (S (length d)) (length w)); [lia|reflexivity].
Qed.
Hypothesis print_chars : forall v c, In c (print v) -> c <> SPACE /\ c <> TAB /\ c <> EQUALS /\ c <> NL.
Lemma one_line : forall frozen n w, ~ In NL n -> readable (WriteToFile V zero isz print [n] w false None) ->
  InitFromFile V zero isnan strtod frozen (WriteToFile V zero isz print [n] w false None) [] [] =
  match read_line V zero isnan strtod frozen (n ++ SPACE :: print (get V zero w 1)) [] [] with Some (d, w) => Some (d, w) | None => None end.
Proof.
  intros frozen n w NN [R1 R2]. unfold InitFromFile. apply Nat.ltb_ge in R1. rewrite R1, text_eqb_neq by exact R2. unfold WriteToFile. cbn [app write_features andb].
  rewrite app_nil_r. replace (n ++ SPACE :: print (get V zero w 1) ++ [NL]) with ((n ++ SPACE :: print (get V zero w 1)) ++ NL :: []) by (rewrite <- app_assoc; reflexivity).
  rewrite lines_line; [reflexivity|]. intros X. apply in_app_or in X. destruct X as [X|[X|X]]; [contradiction|discriminate|]. destruct (print_chars _ _ X) as [_ [_ [_ D]]]. apply D. reflexivity.
Qed.
Lemma equals_refuted : forall a b w, clean a -> clean b -> let v := strtod (b ++ SPACE :: print (get V zero w 1)) in isnan v = false ->
  readable (WriteToFile V zero isz print [a ++ EQUALS :: b] w false None) ->
  InitFromFile V zero isnan strtod false (WriteToFile V zero isz print [a ++ EQUALS :: b] w false None) [] [] = Some ([a], [zero; v]).
Proof.
  intros a b w A B v N R. assert (CB := B). destruct CB as [B0 [B1 _]]. rewrite one_line.
  - rewrite equals_line; try assumption; try reflexivity.
    + intros X. destruct (B1 _ X) as [_ [_ [D _]]]. apply D. reflexivity.
    + intros X. destruct (B1 _ X) as [_ [D _]]. apply D. reflexivity.
    + intros X. destruct (print_chars _ _ X) as [_ [_ [D _]]]. apply D. reflexivity.
    + intros X. destruct (print_chars _ _ X) as [_ [D _]]. apply D. reflexivity.
    + intros X. destruct (B1 _ X) as [D _]. apply D. reflexivity.
    + intros X. destruct (print_chars _ _ X) as [D _]. apply D. reflexivity.
  - intros X. destruct A as [_ [A1 _]]. apply in_app_or in X. destruct X as [X|[X|X]]; [|discriminate|].
    + destruct (A1 _ X) as [_ [_ [_ D]]]. apply D. reflexivity.
    + destruct (B1 _ X) as [_ [_ [_ D]]]. apply D. reflexivity.
  - exact R.
Qed.
Lemma escape_nl : forall s, ~ In NL s -> ~ In NL (Escape s).
Proof.
  intros s H X. destruct (escape_chars s NL X) as [_ [I|[I|I]]]; [discriminate|contradiction|discriminate|unfold NL in I; lia].
Qed.
Lemma hash_refuted : forall frozen s w, ~ In NL s -> readable (WriteToFile V zero isz print [Escape (HASH :: s)] w false None) ->
  InitFromFile V zero isnan strtod frozen (WriteToFile V zero isz print [Escape (HASH :: s)] w false None) [] [] = Some ([], []).
Proof.
  intros frozen s w H R. rewrite one_line; [|apply escape_nl; intros [X|X]; [discriminate|contradiction]|exact R].
  change (Escape (HASH :: s)) with (HASH :: Escape s). reflexivity.
Qed.
End Findings.

(** * Example: numbers in unary, read up to the first other character *)
Definition ex_print (v : nat) : text := repeat 49 v.
Fixpoint ex_strtod (s : text) : nat := match s with [] => 0 | c :: s' => if c =? 49 then S (ex_strtod s') else 0 end.
Lemma ex_print_chars : forall v c, In c (ex_print v) -> c <> SPACE /\ c <> TAB /\ c <> EQUALS /\ c <> NL.
Proof. intros v c I. apply repeat_spec in I. subst c. repeat split; discriminate. Qed.
Lemma ex_strtod_print : forall v, (fun _ : nat => false) v = false -> ex_strtod (ex_print v) = v.
Proof. intros v _. induction v as [|v IH]; [reflexivity|]. cbn [ex_print repeat ex_strtod Nat.eqb]. fold (ex_print v). rewrite IH. reflexivity. Qed.
Lemma ex_isz : forall v, (v =? 0) = true <-> v = 0.
Proof. intros v. apply Nat.eqb_eq. Qed.
