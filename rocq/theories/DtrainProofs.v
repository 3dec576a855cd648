(** Proofs about the pair sampling of dtrain. *)
From Coq Require Import List Arith QArith Qabs Bool Permutation Sorting Lia Lqa.
From Verif Require Import Dtrain DtrainSpec.
Import ListNotations.
Local Open Scope nat_scope.

Section Pairs.
Variable H : Type.
Variable dec : forall x y : H, {x = y} + {x <> y}.
Variables score model : H -> Q.
Notation pushed := (pushed H score).
Notation walk := (walk H score model).

Definition dec2 : forall p q : H * H, {p = q} + {p <> q}.
Proof. intros [a b] [c d]. destruct (dec a c); [destruct (dec b d)|]; [left|right|right]; congruence. Defined.

Definition Sorted_ (s : list H) : Prop := StronglySorted (fun a b => (score b <= score a)%Q) s.

(** Which pairs are looked at and taken, apart from the limit. *)
Definition taken (thr : Q) (mis : bool) (p : H * H) : bool :=
  (negb mis || Qle_bool (model (fst p)) (model (snd p))) && pushed thr (fst p) (snd p).

Lemma walk_sub : forall thr max mis ps c tr, exists l, snd (walk thr max mis ps c tr) = tr ++ l /\ incl l ps /\
  Forall (fun p => taken thr mis p = true) l.
Proof.
  intros thr max mis ps. induction ps as [|[x y] ps IH]; intros c tr; cbn [Dtrain.walk].
  - exists []. cbn. rewrite app_nil_r. split; [reflexivity|split; [apply incl_refl|constructor]].
  - destruct (mis && negb (Qle_bool (model x) (model y))) eqn:M.
    + destruct (IH c tr) as (l & E & I & F). exists l. rewrite E. split; [reflexivity|split; [apply incl_tl; exact I|exact F]].
    + set (tr' := if pushed thr x y then tr ++ [(x, y)] else tr).
      assert (T : exists l0, tr' = tr ++ l0 /\ incl l0 [(x, y)] /\ Forall (fun p => taken thr mis p = true) l0).
      { unfold tr'. destruct (pushed thr x y) eqn:P.
        - exists [(x, y)]. split; [reflexivity|split; [apply incl_refl|]]. constructor; [|constructor].
          unfold taken. cbn [fst snd]. rewrite P. destruct mis; cbn in *; [|reflexivity].
          apply negb_false_iff in M. rewrite M. reflexivity.
        - exists []. rewrite app_nil_r. split; [reflexivity|split; [intros z []|constructor]]. }
      destruct T as (l0 & -> & I0 & F0).
      destruct (S c =? max).
      * exists l0. cbn [snd]. split; [reflexivity|split; [|exact F0]]. intros z Hz. left. destruct (I0 z Hz) as [<-|[]]. reflexivity.
      * destruct (IH (S c) (tr ++ l0)) as (l & E & I & F). exists (l0 ++ l). rewrite E, app_assoc. split; [reflexivity|split].
        -- intros z Hz. apply in_app_or in Hz. destruct Hz as [Hz|Hz]; [left; destruct (I0 z Hz) as [<-|[]]; reflexivity|right; apply I; exact Hz].
        -- apply Forall_app. split; assumption.
Qed.

Lemma walk_limit : forall thr max mis ps c tr, c < max -> length (snd (walk thr max mis ps c tr)) <= length tr + (max - c).
Proof.
  intros thr max mis ps. induction ps as [|[x y] ps IH]; intros c tr Hc; cbn [Dtrain.walk]; [cbn; lia|].
  destruct (mis && negb _); [apply IH; exact Hc|].
  set (tr' := if pushed thr x y then tr ++ [(x, y)] else tr).
  assert (L : length tr' <= S (length tr)) by (unfold tr'; destruct (pushed thr x y); rewrite ?app_length; cbn; lia).
  destruct (S c =? max) eqn:E; [cbn [snd]; lia|]. apply Nat.eqb_neq in E. specialize (IH (S c) tr' ltac:(lia)). lia.
Qed.

Lemma walk_all : forall thr max mis ps c tr, c + length ps < max ->
  snd (walk thr max mis ps c tr) = tr ++ filter (taken thr mis) ps.
Proof.
  intros thr max mis ps. induction ps as [|[x y] ps IH]; intros c tr Hc; cbn [Dtrain.walk filter]; [rewrite app_nil_r; reflexivity|].
  cbn [length] in Hc. unfold taken at 1. cbn [fst snd].
  destruct mis, (Qle_bool (model x) (model y)); cbn [andb orb negb];
    try (destruct (S c =? max) eqn:E; [apply Nat.eqb_eq in E; lia|]); rewrite IH by lia;
    try (destruct (pushed thr x y); [rewrite <- app_assoc|]; reflexivity). reflexivity.
Qed.

Lemma pushed_ok : forall thr x y, (score y <= score x)%Q ->
  pushed thr x y = true <-> (score y < score x)%Q /\ (thr <= score x - score y)%Q.
Proof.
  intros thr x y L. unfold Dtrain.pushed, accept_pair.
  assert (A : (Qabs (score x - score y) == score x - score y)%Q) by (apply Qabs_pos; lra).
  destruct (Qle_bool thr 0) eqn:T; cbn [negb].
  - apply Qle_bool_iff in T. rewrite negb_true_iff. split.
    + intros E. assert (~ (score x == score y)%Q) by (intros X; apply Qeq_bool_iff in X; congruence).
      assert (score y < score x)%Q; [|split; lra]. apply Qle_lteq in L. destruct L as [L|L]; [exact L|]. exfalso. apply H0. symmetry. exact L.
    + intros [E _]. destruct (Qeq_bool (score x) (score y)) eqn:X; [|reflexivity]. apply Qeq_bool_iff in X. lra.
  - assert (0 < thr)%Q. { apply Qnot_le_lt. intros X. apply Qle_bool_iff in X. congruence. }
    rewrite Qle_bool_iff, A. split; [intros E; split; lra|intros [_ E]; exact E].
Qed.

Lemma taken_ok : forall thr mis x y, (score y <= score x)%Q ->
  taken thr mis (x, y) = true <-> wanted score model thr mis x y.
Proof.
  intros thr mis x y L. unfold taken, wanted. cbn [fst snd]. rewrite andb_true_iff, pushed_ok by exact L.
  rewrite orb_true_iff, negb_true_iff, Qle_bool_iff. destruct mis; split.
  - intros [[X|X] [A B]]; [discriminate|]. repeat split; auto.
  - intros (A & B & C). split; [right; apply C; reflexivity|split; assumption].
  - intros [_ [A B]]. repeat split; auto. discriminate.
  - intros (A & B & _). split; [left; reflexivity|split; assumption].
Qed.

Notation opairs := (ordered_pairs H).

Lemma opairs_in : forall s x y, In (x, y) (opairs s) -> In x s /\ In y s.
Proof.
  induction s as [|a s IH]; intros x y I; [destruct I|]. cbn in I. apply in_app_or in I. destruct I as [I|I].
  - apply in_map_iff in I. destruct I as (z & E & Hz). injection E as -> ->. split; [left; reflexivity|right; exact Hz].
  - destruct (IH _ _ I). split; right; assumption.
Qed.
Lemma opairs_sorted : forall s x y, Sorted_ s -> In (x, y) (opairs s) -> (score y <= score x)%Q.
Proof.
  induction s as [|a s IH]; intros x y S I; [destruct I|]. inversion S as [|a' s' S' F]; subst. cbn in I. apply in_app_or in I.
  destruct I as [I|I]; [|apply IH; assumption]. apply in_map_iff in I. destruct I as (z & E & Hz). injection E as -> ->.
  rewrite Forall_forall in F. apply F. exact Hz.
Qed.
Lemma opairs_length : forall s, length (opairs s) <= length s * length s.
Proof. induction s as [|a s IH]; cbn; [lia|]. rewrite app_length, map_length. nia. Qed.

Lemma count_map_pair : forall a x y s, count_occ dec2 (map (fun z => (a, z)) s) (x, y) = if dec a x then count_occ dec s y else 0.
Proof.
  induction s as [|z s IH]; cbn [map count_occ]; [destruct (dec a x); reflexivity|].
  rewrite IH. destruct (dec2 (a, z) (x, y)) as [E|E], (dec a x) as [E1|E1], (dec z y) as [E2|E2]; try congruence; exfalso; apply E; congruence.
Qed.

Lemma opairs_count : forall s x y, x <> y ->
  count_occ dec2 (opairs s) (x, y) + count_occ dec2 (opairs s) (y, x) = count_occ dec s x * count_occ dec s y.
Proof.
  intros s x y N. induction s as [|a s IH]; [reflexivity|]. cbn [ordered_pairs]. rewrite !count_occ_app, !count_map_pair.
  cbn [count_occ]. destruct (dec a x) as [E1|E1], (dec a y) as [E2|E2]; try congruence; nia.
Qed.

Lemma count_filter : forall (f : H * H -> bool) l p,
  count_occ dec2 (filter f l) p = if f p then count_occ dec2 l p else 0.
Proof.
  intros f l p. induction l as [|q l IH]; cbn [filter]; [cbn; destruct (f p); reflexivity|].
  destruct (f q) eqn:Fq; cbn [count_occ]; rewrite IH; destruct (dec2 q p) as [->|N]; rewrite ?Fq; try reflexivity.
Qed.

Lemma count_sorted : forall s x y, Sorted_ s -> (score y < score x)%Q ->
  count_occ dec2 (opairs s) (x, y) = count_occ dec s x * count_occ dec s y.
Proof.
  intros s x y S L. assert (N : x <> y) by (intros ->; lra). rewrite <- opairs_count by exact N.
  assert (Z : count_occ dec2 (opairs s) (y, x) = 0); [|lia]. apply count_occ_not_In. intros I.
  apply (opairs_sorted _ _ _ S) in I. lra.
Qed.

Lemma count_perm : forall (s s' : list H) x, Permutation s s' -> count_occ dec s x = count_occ dec s' x.
Proof. intros s s' x P. revert x. apply (Permutation_count_occ dec). exact P. Qed.

(** Soundness. *)
Lemma in_result : forall thr mis s' ps, Sorted_ s' -> (forall x y, In (x, y) ps -> In x s' /\ In y s' /\ (score y <= score x)%Q) ->
  forall l, incl l ps -> Forall (fun p => taken thr mis p = true) l ->
  forall x y, In (x, y) l -> In x s' /\ In y s' /\ wanted score model thr mis x y.
Proof.
  intros thr mis s' ps S P l I F x y Hp. destruct (P x y (I _ Hp)) as (A & B & C). split; [exact A|split; [exact B|]].
  rewrite Forall_forall in F. apply (taken_ok thr mis x y C). apply F. exact Hp.
Qed.

Lemma all_sound : forall s s' thr max mis x y, sorts score s s' ->
  In (x, y) (all_pairs H score model s' [] thr max mis) -> In x s /\ In y s /\ wanted score model thr mis x y.
Proof.
  intros s s' thr max mis x y [P S] I. unfold all_pairs in I.
  destruct (walk_sub thr max mis (opairs s') 0 []) as (l & E & Il & F). rewrite E in I. cbn [app] in I.
  destruct (in_result thr mis s' (opairs s') S) with (l := l) (x := x) (y := y) as (A & B & C); auto.
  - intros a b Hab. destruct (opairs_in _ _ _ Hab). repeat split; auto. apply (opairs_sorted s'); assumption.
  - split; [|split; [|exact C]]; apply (Permutation_in _ (Permutation_sym P)); assumption.
Qed.

Lemma all_limit : forall s' thr max mis, 0 < max -> length (all_pairs H score model s' [] thr max mis) <= max.
Proof. intros s' thr max mis L. unfold all_pairs. pose proof (walk_limit thr max mis (opairs s') 0 [] L). cbn [length] in H0. lia. Qed.

Lemma all_exact : forall s s' thr max mis x y, sorts score s s' -> length s * length s < max ->
  (wanted score model thr mis x y ->
   count_occ dec2 (all_pairs H score model s' [] thr max mis) (x, y) = count_occ dec s x * count_occ dec s y) /\
  (~ wanted score model thr mis x y -> count_occ dec2 (all_pairs H score model s' [] thr max mis) (x, y) = 0).
Proof.
  intros s s' thr max mis x y [P S] L. unfold all_pairs.
  rewrite walk_all by (pose proof (opairs_length s'); rewrite (Permutation_length P) in L; lia). cbn [app].
  rewrite count_filter, (count_perm s s' x P), (count_perm s s' y P). split.
  - intros W. assert (Ls : (score y < score x)%Q) by apply W. apply (taken_ok thr mis x y) in W; [|lra]. rewrite W.
    apply count_sorted; assumption.
  - intros W. destruct (taken thr mis (x, y)) eqn:T; [|reflexivity]. apply count_occ_not_In. intros I. apply W.
    apply (taken_ok thr mis x y); [apply (opairs_sorted s'); assumption|exact T].
Qed.

(** Pairs across a cut. *)
Lemma sorted_cut : forall s n x y, Sorted_ s -> In x (firstn n s) -> In y (skipn n s) -> (score y <= score x)%Q.
Proof.
  induction s as [|a s IH]; intros n x y S Ix Iy; [rewrite firstn_nil in Ix; destruct Ix|].
  inversion S as [|a' s' S' F]; subst. destruct n as [|n]; [destruct Ix|]. cbn in Ix, Iy. destruct Ix as [<-|Ix].
  - rewrite Forall_forall in F. apply F. rewrite <- (firstn_skipn n s). apply in_or_app. right. exact Iy.
  - apply (IH n); assumption.
Qed.
Lemma in_firstn : forall (A : Type) n (l : list A) x, In x (firstn n l) -> In x l.
Proof. intros A n l x I. rewrite <- (firstn_skipn n l). apply in_or_app. left. exact I. Qed.
Lemma in_skipn : forall (A : Type) n (l : list A) x, In x (skipn n l) -> In x l.
Proof. intros A n l x I. rewrite <- (firstn_skipn n l). apply in_or_app. right. exact I. Qed.

Lemma xyx_sound : forall s s' thr max mis sep out x y, sorts score s s' ->
  partXYX H score model s' [] thr max mis sep = Some out ->
  In (x, y) out -> In x s /\ In y s /\ wanted score model thr mis x y.
Proof.
  intros s s' thr max mis sep out x y [P S] E I. unfold partXYX in E.
  destruct (length s' <? 2); [injection E as <-; destruct I|]. destruct (length s' <? sep); [discriminate|].
  destruct (if 4 <? length s' then _ else _) as [hi|]; [|discriminate].
  destruct (walk_sub thr max mis (list_prod (firstn hi s') (skipn hi s')) 0 []) as (l1 & E1 & I1 & F1). cbn [app] in E1.
  destruct (walk thr max mis (list_prod (firstn hi s') (skipn hi s')) 0 []) as [[c b] tr] eqn:W. cbn [snd] in E1. subst tr.
  destruct (move_lo H score s' (length s' - sep)) as [lo|]; [|discriminate]. injection E as <-.
  set (cut := length s' - lo) in *.
  destruct (walk_sub thr max mis (list_prod (skipn hi (firstn cut s')) (skipn cut s')) c l1) as (l2 & E2 & I2 & F2). rewrite E2 in I.
  assert (G : In x s' /\ In y s' /\ wanted score model thr mis x y).
  { apply in_app_or in I. destruct I as [I|I].
    - apply (in_result thr mis s' (list_prod (firstn hi s') (skipn hi s')) S) with (l := l1); auto.
      intros a b' Hab. apply in_prod_iff in Hab. destruct Hab as [Ha Hb]. split; [apply in_firstn in Ha; exact Ha|].
      split; [apply in_skipn in Hb; exact Hb|]. apply (sorted_cut s' hi); assumption.
    - apply (in_result thr mis s' (list_prod (skipn hi (firstn cut s')) (skipn cut s')) S) with (l := l2); auto.
      intros a b' Hab. apply in_prod_iff in Hab. destruct Hab as [Ha Hb]. apply in_skipn in Ha. split; [apply in_firstn in Ha; exact Ha|].
      split; [apply in_skipn in Hb; exact Hb|]. apply (sorted_cut s' cut); assumption. }
  destruct G as (A & B & C). split; [|split; [|exact C]]; apply (Permutation_in _ (Permutation_sym P)); assumption.
Qed.

(** Short lists: a read past the end. *)
Lemma xyx_short : forall s tr thr max mis, 2 <= length s <= 4 -> partXYX H score model s tr thr max mis 0 = None.
Proof.
  intros s tr thr max mis L. unfold partXYX. assert (E : (length s <? 2) = false) by (apply Nat.ltb_ge; lia). rewrite E.
  assert (E' : (length s <? 0) = false) by (apply Nat.ltb_ge; lia). rewrite E'.
  assert (E'' : (4 <? length s) = false) by (apply Nat.ltb_ge; lia). rewrite E''. rewrite Nat.sub_0_r.
  destruct (walk _ _ _ _ _ _) as [[c b] t]. destruct (length s) as [|k] eqn:K; [lia|]. cbn [move_lo].
  assert (N : nth_error s (S k) = None) by (apply nth_error_None; lia). rewrite N. destruct (nth_error s k); reflexivity.
Qed.

(** Lists without ties: only the first [sep] hypotheses are ever the better of a pair. *)
Lemma strict_nth : forall s k a b, StronglySorted (fun a b => (score b < score a)%Q) s ->
  nth_error s k = Some a -> nth_error s (S k) = Some b -> Qeq_bool (score a) (score b) = false.
Proof.
  induction s as [|h s IH]; intros k a b S Ea Eb; [destruct k; discriminate|]. inversion S as [|h' s' S' F]; subst.
  destruct k as [|k].
  - cbn in Ea. injection Ea as <-. change (nth_error s 0 = Some b) in Eb. apply nth_error_In in Eb. rewrite Forall_forall in F. specialize (F b Eb).
    destruct (Qeq_bool (score h) (score b)) eqn:Q; [|reflexivity]. apply Qeq_bool_iff in Q. lra.
  - apply (IH k); assumption.
Qed.

Lemma xyx_distinct : forall s thr max mis sep, StronglySorted (fun a b => (score b < score a)%Q) s ->
  4 < length s -> 1 <= sep -> 2 * sep <= length s ->
  exists out, partXYX H score model s [] thr max mis sep = Some out /\
  forall x y, In (x, y) out -> In x (firstn sep s).
Proof.
  intros s thr max mis sep S L4 L1 L2. unfold partXYX.
  assert (E : (length s <? 2) = false) by (apply Nat.ltb_ge; lia). rewrite E.
  assert (E' : (length s <? sep) = false) by (apply Nat.ltb_ge; lia). rewrite E'.
  assert (E'' : (4 <? length s) = true) by (apply Nat.ltb_lt; lia). rewrite E''.
  assert (Hi : move_hi H score (length s) s sep = Some sep).
  { destruct (length s) as [|n] eqn:Ln; [lia|]. cbn [move_hi]. rewrite Ln.
    assert (X : (Datatypes.S n <=? sep) = false) by (apply Nat.leb_gt; lia). rewrite X. destruct sep as [|k]; [lia|].
    destruct (nth_error s k) as [a|] eqn:Ea; [|apply nth_error_None in Ea; lia].
    destruct (nth_error s (Datatypes.S k)) as [b|] eqn:Eb; [|apply nth_error_None in Eb; lia].
    rewrite (strict_nth s k a b S Ea Eb). reflexivity. }
  rewrite Hi.
  assert (Lo : move_lo H score s (length s - sep) = Some (length s - sep)).
  { destruct (length s - sep) as [|k] eqn:K; [lia|]. cbn [move_lo].
    destruct (nth_error s k) as [a|] eqn:Ea; [|apply nth_error_None in Ea; lia].
    destruct (nth_error s (Datatypes.S k)) as [b|] eqn:Eb; [|apply nth_error_None in Eb; lia].
    rewrite (strict_nth s k a b S Ea Eb). reflexivity. }
  rewrite Lo. replace (length s - (length s - sep)) with sep by lia.
  destruct (walk_sub thr max mis (list_prod (firstn sep s) (skipn sep s)) 0 []) as (l & El & Il & _). cbn [app] in El.
  destruct (walk thr max mis (list_prod (firstn sep s) (skipn sep s)) 0 []) as [[c b] tr]. cbn [snd] in El. subst tr.
  assert (Z : skipn sep (firstn sep s) = []).
  { apply length_zero_iff_nil. rewrite skipn_length, firstn_length. lia. }
  rewrite Z. cbn [list_prod Dtrain.walk snd]. exists l. split; [reflexivity|]. intros x y I. apply Il in I. apply in_prod_iff in I. tauto.
Qed.

(** Hypotheses tied with the last of the top ones count as top ones. *)
Lemma move_hi_ok : forall fuel s k b h, Sorted_ s -> nth_error s k = Some b -> move_hi H score fuel s (S k) = Some h ->
  S k <= h /\ (forall i a, i < h -> nth_error s i = Some a -> (score b <= score a)%Q) /\ (forall i a, h <= i -> nth_error s i = Some a -> (score a < score b)%Q).
Proof.
  assert (Mono : forall s i j a c, Sorted_ s -> i <= j -> nth_error s i = Some a -> nth_error s j = Some c -> (score c <= score a)%Q).
  { induction s as [|x s IH]; intros i j a c Hs L Ea Ec; [destruct i; discriminate|]. inversion Hs as [|x' s' Hs' F]; subst. destruct i as [|i], j as [|j]; cbn in Ea, Ec.
    - assert (a = c) by congruence. subst. lra.
    - injection Ea as <-. rewrite Forall_forall in F. apply F. eapply nth_error_In. exact Ec.
    - lia.
    - apply (IH i j); auto; lia. }
  induction fuel as [|fuel IH]; intros s k b h Hs Hb E; cbn [move_hi] in E; destruct (Nat.leb_spec (length s) (S k)) as [L|L].
  - injection E as <-. split; [lia|]. split.
    + intros i a Hi Ea. apply (Mono s i k); auto; lia.
    + intros i a Hi Ea. assert (i < length s) by (apply nth_error_Some; congruence). lia.
  - discriminate E.
  - injection E as <-. split; [lia|]. split.
    + intros i a Hi Ea. apply (Mono s i k); auto; lia.
    + intros i a Hi Ea. assert (i < length s) by (apply nth_error_Some; congruence). lia.
  - rewrite Hb in E. destruct (nth_error s (S k)) as [c|] eqn:Ec; [|discriminate E]. destruct (Qeq_bool (score b) (score c)) eqn:Q.
    + apply Qeq_bool_iff in Q. destruct (IH s (S k) c h Hs Ec E) as (I1 & I2 & I3). split; [lia|]. split.
      * intros i a Hi Ea. specialize (I2 i a Hi Ea). lra.
      * intros i a Hi Ea. specialize (I3 i a Hi Ea). lra.
    + injection E as <-. split; [lia|]. split.
      * intros i a Hi Ea. apply (Mono s i k); auto; lia.
      * intros i a Hi Ea. pose proof (Mono s (S k) i c a Hs Hi Ec Ea). pose proof (Mono s k (S k) b c Hs ltac:(lia) Hb Ec).
        assert (N : ~ (score b == score c)%Q) by (intros N; apply Qeq_bool_iff in N; congruence). lra.
Qed.

Lemma xyx_top : forall s s' thr max mis k out b x y, sorts score s s' -> 4 < length s -> length s * length s < max ->
  partXYX H score model s' [] thr max mis (S k) = Some out -> nth_error s' k = Some b ->
  In x s -> In y s -> (score b <= score x)%Q -> (score y < score b)%Q -> wanted score model thr mis x y -> In (x, y) out.
Proof.
  intros s s' thr max mis k out b x y [P S] L4 Lm E Hb Ix Iy Bx By W. assert (Len : length s' = length s) by (symmetry; apply Permutation_length; exact P).
  apply (Permutation_in _ P) in Ix. apply (Permutation_in _ P) in Iy. unfold partXYX in E. rewrite Len in E.
  assert (E1 : (length s <? 2) = false) by (apply Nat.ltb_ge; lia). rewrite E1 in E. destruct (length s <? Datatypes.S k); [discriminate E|].
  assert (E2 : (4 <? length s) = true) by (apply Nat.ltb_lt; lia). rewrite E2 in E.
  destruct (move_hi H score (length s) s' (Datatypes.S k)) as [h|] eqn:Eh; [|discriminate E]. destruct (move_hi_ok _ s' k b h S Hb Eh) as (_ & H1 & H2).
  assert (Xi : In x (firstn h s')).
  { rewrite <- (firstn_skipn h s') in Ix. apply in_app_or in Ix. destruct Ix as [Ix|Ix]; [exact Ix|]. exfalso. apply In_nth_error in Ix. destruct Ix as (i & Hi).
    assert (Hn : nth_error s' (h + i) = Some x). { rewrite <- (firstn_skipn h s') at 1. assert (h < length s') by (destruct (Nat.lt_ge_cases h (length s')) as [|G]; [assumption|rewrite skipn_all2 in Hi by exact G; destruct i; discriminate Hi]).
      rewrite nth_error_app2; rewrite firstn_length; [|lia]. rewrite Nat.min_l by lia. replace (h + i - h) with i by lia. exact Hi. }
    specialize (H2 (h + i) x ltac:(lia) Hn). lra. }
  assert (Yi : In y (skipn h s')).
  { rewrite <- (firstn_skipn h s') in Iy. apply in_app_or in Iy. destruct Iy as [Iy|Iy]; [|exact Iy]. exfalso. apply In_nth_error in Iy. destruct Iy as (i & Hi).
    assert (Li : i < length (firstn h s')) by (apply nth_error_Some; congruence). rewrite firstn_length in Li.
    assert (Hn : nth_error s' i = Some y). { rewrite <- (firstn_skipn h s'). rewrite nth_error_app1; [exact Hi|]. rewrite firstn_length. lia. }
    specialize (H1 i y ltac:(lia) Hn). lra. }
  assert (Lp : length (list_prod (firstn h s') (skipn h s')) <= length s * length s).
  { rewrite prod_length, firstn_length, skipn_length, Len. apply Nat.mul_le_mono; lia. }
  pose proof (walk_all thr max mis (list_prod (firstn h s') (skipn h s')) 0 [] ltac:(lia)) as WA.
  destruct (walk thr max mis (list_prod (firstn h s') (skipn h s')) 0 []) as [[c e] tr]. cbn [snd app] in WA.
  destruct (move_lo H score s' (length s - Datatypes.S k)) as [lo|]; [|discriminate E]. injection E as <-.
  match goal with |- In _ (snd (Dtrain.walk _ _ _ ?a ?b1 ?c1 ?d ?e1 ?f)) => destruct (walk_sub a b1 c1 d e1 f) as (l & El & _) end. rewrite El. apply in_or_app. left. rewrite WA.
  apply filter_In. split; [apply in_prod; assumption|]. apply taken_ok; [lra|exact W].
Qed.

(** PRO. *)
Definition acc (thr : Q) (p : H * H) : bool := accept_pair (score (fst p)) (score (snd p)) thr.

Lemma pro_all : forall thr m ps c tr, c + length ps < m -> pro_walk H score thr m ps c tr = tr ++ filter (acc thr) ps.
Proof.
  intros thr m ps. induction ps as [|[x y] ps IH]; intros c tr L; cbn [pro_walk filter]; [rewrite app_nil_r; reflexivity|].
  cbn [length] in L. unfold acc at 1. cbn [fst snd]. destruct (accept_pair _ _ _).
  - destruct (S c =? m) eqn:E; [apply Nat.eqb_eq in E; lia|]. rewrite IH by lia. rewrite <- app_assoc. reflexivity.
  - apply IH. lia.
Qed.

Lemma pro_sub : forall thr m ps c tr, exists l, pro_walk H score thr m ps c tr = tr ++ l /\ incl l ps /\ Forall (fun p => acc thr p = true) l.
Proof.
  intros thr m ps. induction ps as [|[x y] ps IH]; intros c tr; cbn [pro_walk].
  - exists []. rewrite app_nil_r. split; [reflexivity|split; [intros z []|constructor]].
  - destruct (accept_pair (score x) (score y) thr) eqn:A.
    + destruct (S c =? m).
      * exists [(x, y)]. split; [reflexivity|split; [intros z [<-|[]]; left; reflexivity|constructor; [exact A|constructor]]].
      * destruct (IH (S c) (tr ++ [(x, y)])) as (l & E & I & F). exists ((x, y) :: l). rewrite E, <- app_assoc. split; [reflexivity|].
        split; [intros z [<-|Hz]; [left; reflexivity|right; apply I; exact Hz]|constructor; [exact A|exact F]].
    + destruct (IH c tr) as (l & E & I & F). exists l. split; [exact E|split; [apply incl_tl; exact I|exact F]].
Qed.

Lemma acc_ok : forall thr x y, (0 < thr)%Q -> (score y <= score x)%Q -> acc thr (x, y) = true <-> wanted score model thr false x y.
Proof.
  intros thr x y T L. unfold acc, accept_pair, wanted. cbn [fst snd]. rewrite Qle_bool_iff.
  assert (A : (Qabs (score x - score y) == score x - score y)%Q) by (apply Qabs_pos; lra). rewrite A.
  split; [intros X; repeat split; try lra; discriminate|intros (_ & X & _); exact X].
Qed.

Lemma sorted_firstn : forall (A : Type) (R : A -> A -> Prop) l n x y, StronglySorted R l -> In x (firstn n l) -> In y (skipn n l) -> R x y.
Proof.
  induction l as [|a s IH]; intros n x y S Ix Iy; [rewrite firstn_nil in Ix; destruct Ix|].
  inversion S as [|a' s' S' F]; subst. destruct n as [|n]; [destruct Ix|]. cbn in Ix, Iy. destruct Ix as [<-|Ix].
  - rewrite Forall_forall in F. apply F. apply in_skipn in Iy. exact Iy.
  - apply (IH n); assumption.
Qed.

Lemma pro_ok : forall m top s s' thr out, sorts score s s' -> (0 < thr)%Q -> length s * length s < m ->
  PROsampling H score m top s' thr out ->
  exists rest,
    (forall x y, wanted score model thr false x y ->
       count_occ dec2 (out ++ rest) (x, y) = count_occ dec s x * count_occ dec s y) /\
    (forall x y, ~ wanted score model thr false x y -> count_occ dec2 (out ++ rest) (x, y) = 0) /\
    length out <= top /\ (rest <> [] -> length out = top) /\
    (forall p r, In p out -> In r rest -> (score (fst r) - score (snd r) <= score (fst p) - score (snd p))%Q).
Proof.
  intros m top s s' thr out [P S] T L R. unfold PROsampling in R.
  rewrite pro_all in R by (pose proof (opairs_length s'); rewrite (Permutation_length P) in L; lia). cbn [app] in R. cbv zeta in R.
  set (tr := filter (acc thr) (opairs s')) in *.
  assert (C : forall x y, (wanted score model thr false x y -> count_occ dec2 tr (x, y) = count_occ dec s x * count_occ dec s y) /\
    (~ wanted score model thr false x y -> count_occ dec2 tr (x, y) = 0)).
  { intros x y. unfold tr. rewrite count_filter, (count_perm s s' x P), (count_perm s s' y P). split.
    - intros W. assert (Ls : (score y < score x)%Q) by apply W. apply acc_ok in W; [|exact T|lra]. rewrite W. apply count_sorted; assumption.
    - intros W. destruct (acc thr (x, y)) eqn:A; [|reflexivity]. apply count_occ_not_In. intros I. apply W.
      apply acc_ok; [exact T|apply (opairs_sorted s'); assumption|exact A]. }
  destruct (top <? length tr) eqn:Lt.
  - destruct R as (tr' & [P' S'] & ->). apply Nat.ltb_lt in Lt. exists (skipn top tr').
    assert (K : forall q, count_occ dec2 (firstn top tr' ++ skipn top tr') q = count_occ dec2 tr q).
    { intros q. rewrite firstn_skipn. symmetry. revert q. apply (Permutation_count_occ dec2). exact P'. }
    split; [intros x y W; rewrite K; apply C; exact W|]. split; [intros x y W; rewrite K; apply C; exact W|].
    assert (Lf : length (firstn top tr') = top) by (rewrite firstn_length, <- (Permutation_length P'); lia).
    split; [lia|]. split; [intros _; exact Lf|]. intros p r Ip Ir.
    assert (Df : (diff H score r <= diff H score p)%Q) by (apply (sorted_firstn _ _ tr' top p r S'); assumption).
    assert (G : forall q, In q tr' -> (score (snd q) <= score (fst q))%Q).
    { intros [a b] Iq. apply (Permutation_in _ (Permutation_sym P')) in Iq. unfold tr in Iq. apply filter_In in Iq. apply (opairs_sorted s'); tauto. }
    assert (Gp := G p (in_firstn _ _ _ _ Ip)). assert (Gr := G r (in_skipn _ _ _ _ Ir)). unfold diff in Df.
    rewrite !Qabs_pos in Df by lra. exact Df.
  - subst out. apply Nat.ltb_ge in Lt. exists []. rewrite app_nil_r.
    split; [intros x y W; apply C; exact W|]. split; [intros x y W; apply C; exact W|]. split; [exact Lt|].
    split; [intros X; congruence|intros p r _ []].
Qed.

Lemma pro_sound : forall m top s s' thr out x y, sorts score s s' -> (0 < thr)%Q ->
  PROsampling H score m top s' thr out -> In (x, y) out -> In x s /\ In y s /\ wanted score model thr false x y.
Proof.
  intros m top s s' thr out x y [P S] T R I. unfold PROsampling in R. cbv zeta in R.
  destruct (pro_sub thr m (opairs s') 0 []) as (l & E & Il & F). cbn [app] in E. rewrite E in R.
  assert (J : In (x, y) l).
  { destruct (top <? length l); [|subst; exact I]. destruct R as (tr' & [P' _] & ->). apply in_firstn in I.
    apply (Permutation_in _ (Permutation_sym P')). exact I. }
  rewrite Forall_forall in F. pose proof (F _ J) as A. apply Il in J. destruct (opairs_in _ _ _ J) as [A1 A2].
  split; [|split]; try (apply (Permutation_in _ (Permutation_sym P)); assumption).
  apply acc_ok; [exact T|apply (opairs_sorted s'); assumption|exact A].
Qed.
End Pairs.
