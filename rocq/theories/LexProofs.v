(** Proofs for Lex.v. *)
From Coq Require Import String List Arith Bool Reals Lia Lra.
From Verif Require Import Opt OptProofs Lex LexSpec.
Import ListNotations.
Open Scope opt_scope.
Local Open Scope nat_scope.

(** ** Counts in maps *)
Section Counts.
Context {K : Type}.
Variable eqb : K -> K -> bool.
Hypothesis eqb_ok : forall a b, eqb a b = true <-> a = b.
Definition val (m : list (K * nat)) (k : K) : nat := match lookup eqb m k with Some v => v | None => 0 end.
Definition num (l : list K) (k : K) : nat := length (filter (fun x => eqb x k) l).
Lemma val_incr : forall m k k', val (incr eqb m k) k' = val m k' + (if eqb k k' then 1 else 0).
Proof.
  unfold val. induction m as [|(a & v) m IH]; intros k k'; cbn [incr lookup].
  - destruct (eqb k k'); reflexivity.
  - destruct (eqb a k) eqn:E.
    + apply eqb_ok in E. subst a. cbn [lookup]. destruct (eqb k k'); [lia|]. destruct (lookup eqb m k'); lia.
    + cbn [lookup]. destruct (eqb a k') eqn:E'; [|apply IH]. apply eqb_ok in E'. subst a. destruct (eqb k k') eqn:E2; [|lia]. apply eqb_ok in E2. subst. assert (eqb k' k' = true) by (apply eqb_ok; reflexivity). congruence.
Qed.
Lemma positive_incr : forall m k, Forall (fun e => 0 < snd e) m -> Forall (fun e => 0 < snd e) (incr eqb m k).
Proof.
  induction m as [|(a & v) m IH]; intros k F; cbn [incr]; [constructor; [cbn; lia|constructor]|]. inversion F; subst. destruct (eqb a k); constructor; cbn in *; try lia; auto.
Qed.
Lemma val_incrs : forall l m k, val (fold_left (incr eqb) l m) k = val m k + num l k.
Proof.
  induction l as [|x l IH]; intros m k; [unfold num; cbn; lia|]. cbn [fold_left]. rewrite IH, val_incr. unfold num. cbn [filter]. destruct (eqb x k); cbn [length]; lia.
Qed.
Lemma positive_incrs : forall l m, Forall (fun e => 0 < snd e) m -> Forall (fun e => 0 < snd e) (fold_left (incr eqb) l m).
Proof. induction l as [|x l IH]; intros m F; [exact F|]. apply IH. apply positive_incr. exact F. Qed.
Lemma lookup_val : forall m k, Forall (fun e => 0 < snd e) m -> lookup eqb m k = if val m k =? 0 then None else Some (val m k).
Proof.
  intros m k F. unfold val. destruct (lookup eqb m k) as [v|] eqn:L; [|reflexivity]. enough (0 < v) by (destruct (Nat.eqb_spec v 0); [lia|reflexivity]).
  revert L. induction m as [|(a & u) m IH]; intros L; [discriminate|]. inversion F; subst. cbn in *. destruct (eqb a k); [congruence|auto].
Qed.
End Counts.
Lemma lookup_map : forall K V W (eqb : K -> K -> bool) (g : K * V -> W) m k, (forall a b, eqb a b = true <-> a = b) ->
  lookup eqb (map (fun e => (fst e, g e)) m) k = option_map (fun v => g (k, v)) (lookup eqb m k).
Proof. intros K V W eqb g m k OK. induction m as [|(a & v) m IH]; [reflexivity|]. cbn. destruct (eqb a k) eqn:E; [apply OK in E; subst; reflexivity|exact IH]. Qed.
Lemma pair_eqb_ok : forall a b, pair_eqb a b = true <-> a = b.
Proof. intros (a & b) (c & d). unfold pair_eqb. cbn. rewrite andb_true_iff, !Nat.eqb_eq. split; [intros (-> & ->); reflexivity|intros [= -> ->]; auto]. Qed.

(** ** The words and their numbers *)
Definition good (d : darray) : Prop := forall w i, GetWordId d w = Some i <-> nth_error (id2word d) i = Some w.
Definition ext (d d' : darray) : Prop := forall w i, GetWordId d w = Some i -> GetWordId d' w = Some i.
Definition id (d : darray) (w : string) : nat := match GetWordId d w with Some i => i | None => 0 end.
Lemma ext_id : forall d d' w, ext d d' -> GetWordId d w <> None -> id d' w = id d w.
Proof. intros d d' w X N. unfold id. destruct (GetWordId d w) as [i|] eqn:E; [|congruence]. rewrite (X w i E). reflexivity. Qed.
Lemma add_word_ok : forall d w, good d -> let d' := add_word d w in good d' /\ ext d d' /\ GetWordId d' w <> None /\ data d' = data d ++ [id d' w] /\
  sentence_start d' = sentence_start d /\ forall v, In v (id2word d') <-> In v (id2word d) \/ v = w.
Proof.
  intros d w G. unfold add_word. destruct (lookup String.eqb (word2id d) w) as [i|] eqn:L; cbn zeta.
  - pose proof (L : GetWordId d w = Some i) as L'. split; [exact G|]. split; [intros v j H; exact H|]. unfold id, GetWordId in *. cbn [word2id id2word data sentence_start]. rewrite L. split; [discriminate|]. split; [reflexivity|]. split; [reflexivity|].
    intros v. split; [auto|]. intros [H| ->]; [exact H|]. apply G in L'. apply nth_error_In in L'. exact L'.
  - assert (N : forall i, nth_error (id2word d) i <> Some w) by (intros i H; apply G in H; unfold GetWordId in H; congruence).
    split; [|split; [|split; [|split; [|split]]]].
    + intros v j. unfold GetWordId. cbn [word2id id2word lookup]. destruct (String.eqb_spec w v) as [->|NE].
      * split; [intros [= <-]; rewrite nth_error_app2, Nat.sub_diag by lia; reflexivity|]. intros H. destruct (Nat.lt_ge_cases j (length (id2word d))) as [C|C]; [rewrite nth_error_app1 in H by exact C; destruct (N j H)|].
        rewrite nth_error_app2 in H by exact C. destruct (j - length (id2word d)) eqn:Z; [f_equal; lia|]. cbn in H. destruct n; discriminate.
      * rewrite (G v j : lookup String.eqb (word2id d) v = Some j <-> _). split; [intros H; rewrite nth_error_app1; [exact H|apply nth_error_Some; congruence]|]. intros H. destruct (Nat.lt_ge_cases j (length (id2word d))) as [C|C]; [rewrite nth_error_app1 in H by exact C; exact H|].
        rewrite nth_error_app2 in H by exact C. destruct (j - length (id2word d)) as [|n]; cbn in H; [congruence|destruct n; discriminate].
    + intros v j H. unfold GetWordId in *. cbn [word2id lookup]. destruct (String.eqb_spec w v) as [->|NE]; [congruence|exact H].
    + unfold GetWordId. cbn. rewrite String.eqb_refl. discriminate.
    + unfold id, GetWordId. cbn. rewrite String.eqb_refl. reflexivity.
    + reflexivity.
    + intros v. cbn [id2word]. rewrite in_app_iff. cbn. intuition.
Qed.
Lemma ext_trans : forall a b c, ext a b -> ext b c -> ext a c. Proof. intros a b c X Y w i H. auto. Qed.
Lemma ext_known : forall d d' w, ext d d' -> GetWordId d w <> None -> GetWordId d' w <> None.
Proof. intros d d' w X N. destruct (GetWordId d w) as [i|] eqn:E; [|congruence]. rewrite (X w i E). discriminate. Qed.
Lemma words_ok : forall line d, good d -> let d' := fold_left add_word line d in good d' /\ ext d d' /\ Forall (fun w => GetWordId d' w <> None) line /\
  data d' = data d ++ map (id d') line /\ sentence_start d' = sentence_start d /\ forall v, In v (id2word d') <-> In v (id2word d) \/ In v line.
Proof.
  induction line as [|w line IH]; intros d G; cbn [fold_left]; cbn zeta.
  - split; [exact G|]. split; [intros v i H; exact H|]. split; [constructor|]. split; [symmetry; apply app_nil_r|]. split; [reflexivity|]. cbn. intuition.
  - destruct (add_word_ok d w G) as (G1 & X1 & K1 & D1 & S1 & W1). destruct (IH (add_word d w) G1) as (G2 & X2 & K2 & D2 & S2 & W2).
    split; [exact G2|]. split; [exact (ext_trans _ _ _ X1 X2)|]. split; [constructor; [exact (ext_known _ _ w X2 K1)|exact K2]|].
    split; [rewrite D2, D1, <- app_assoc; cbn [map app]; rewrite (ext_id _ _ w X2 K1); reflexivity|]. split; [congruence|].
    intros v. rewrite W2, W1. cbn. intuition.
Qed.
Definition block (d : darray) (line : list string) : list nat := map (id d) line ++ [END_OF_LINE].
Fixpoint offsets (o : nat) (lines : list (list string)) : list nat := match lines with [] => [] | l :: r => o :: offsets (o + length l + 1) r end.
Lemma lines_ok : forall lines d, good d -> let d' := fold_left add_line lines d in good d' /\ ext d d' /\ Forall (fun w => GetWordId d' w <> None) (concat lines) /\
  data d' = data d ++ concat (map (block d') lines) /\ sentence_start d' = sentence_start d ++ offsets (length (data d)) lines /\ forall v, In v (id2word d') <-> In v (id2word d) \/ In v (concat lines).
Proof.
  induction lines as [|line lines IH]; intros d G; cbn [fold_left]; cbn zeta.
  - split; [exact G|]. split; [intros v i H; exact H|]. split; [constructor|]. split; [symmetry; apply app_nil_r|]. split; [symmetry; apply app_nil_r|]. cbn. intuition.
  - set (d0 := {| word2id := word2id d; id2word := id2word d; data := data d; sentence_start := sentence_start d ++ [length (data d)] |}).
    destruct (words_ok line d0 G) as (G1 & X1 & K1 & D1 & S1 & W1). set (d1 := fold_left add_word line d0) in *.
    set (d2 := add_line d line). assert (ID : forall w, GetWordId d2 w = GetWordId d1 w) by reflexivity. assert (G2 : good d2) by exact G1.
    destruct (IH d2 G2) as (G3 & X3 & K3 & D3 & S3 & W3). fold d2. set (d3 := fold_left add_line lines d2) in *.
    split; [exact G3|]. split; [intros v i H; apply X3; exact (X1 v i H)|]. split.
    { cbn [concat]. apply Forall_app. split; [|exact K3]. revert K1. apply Forall_impl. intros w H. exact (ext_known d2 d3 w X3 H). }
    assert (DD : data d2 = data d ++ block d3 line).
    { change (data d2) with (data d1 ++ [END_OF_LINE]). rewrite D1. change (data d0) with (data d). rewrite <- app_assoc. f_equal. unfold block. f_equal. apply map_ext_Forall. revert K1. apply Forall_impl. intros w H. symmetry. exact (ext_id d2 d3 w X3 H). }
    split; [rewrite D3, DD, <- app_assoc; reflexivity|]. split.
    + rewrite S3. change (sentence_start d2) with (sentence_start d1). rewrite S1. change (sentence_start d0) with (sentence_start d ++ [length (data d)]). rewrite <- app_assoc. cbn [offsets app]. do 3 f_equal. rewrite DD. unfold block. rewrite !app_length, map_length. cbn. lia.
    + intros v. rewrite W3. change (id2word d2) with (id2word d1). rewrite W1. change (id2word d0) with (id2word d). cbn [concat]. rewrite in_app_iff. intuition.
Qed.
Lemma init_good : good InitializeDataArray.
Proof.
  intros w i. unfold GetWordId. cbn [InitializeDataArray word2id id2word lookup]. destruct (String.eqb_spec NULL_WORD_STR w) as [<- |N1].
  - split; [intros [= <-]; reflexivity|]. destruct i as [|[|[|i]]]; cbn; try discriminate. reflexivity.
  - destruct (String.eqb_spec END_OF_LINE_STR w) as [<- |N2].
    + split; [intros [= <-]; reflexivity|]. destruct i as [|[|[|i]]]; cbn; try discriminate. reflexivity.
    + split; [discriminate|]. destruct i as [|[|[|i]]]; cbn; try discriminate; congruence.
Qed.
Section Array.
Variable lines : list (list string).
Let d := CreateDataArray lines.
Lemma create_ok : good d /\ GetWordId d NULL_WORD_STR = Some 0 /\ Forall (fun w => GetWordId d w <> None) (concat lines) /\ data d = concat (map (block d) lines) /\
  sentence_start d = offsets 0 lines ++ [length (concat (map (block d) lines))] /\ forall w, GetWordId d w <> None <-> known lines w.
Proof.
  destruct (lines_ok lines InitializeDataArray init_good) as (G & X & K & D & S & W). set (e := fold_left add_line lines InitializeDataArray) in *.
  assert (ID : forall w, GetWordId d w = GetWordId e w) by reflexivity.
  split; [exact G|]. split; [apply X; reflexivity|]. split; [exact K|]. split; [exact D|]. split.
  - change (sentence_start d) with (sentence_start e ++ [length (data e)]). rewrite S, D. reflexivity.
  - intros w. unfold known. rewrite ID. specialize (W w). change (id2word InitializeDataArray) with [NULL_WORD_STR; END_OF_LINE_STR] in W. rewrite <- W. split.
    + intros N. destruct (GetWordId e w) as [i|] eqn:E; [|congruence]. apply G in E. exact (nth_error_In _ _ E).
    + intros I. apply In_nth_error in I as (i & I). apply G in I. congruence.
Qed.
Lemma id_inj : forall v w, GetWordId d v <> None -> GetWordId d w <> None -> (id d v =? id d w) = String.eqb v w.
Proof.
  intros v w V W. destruct create_ok as (G & _). unfold id. destruct (GetWordId d v) as [i|] eqn:EV; [|congruence]. destruct (GetWordId d w) as [j|] eqn:EW; [|congruence]. pose proof EV as EV'. pose proof EW as EW'. apply G in EV, EW.
  destruct (Nat.eqb_spec i j) as [->|N]; destruct (String.eqb_spec v w) as [->|M]; try reflexivity; congruence.
Qed.
End Array.
Lemma offsets_nth : forall (f : list string -> list nat) lines o i line, (forall l, length (f l) = length l + 1) -> nth_error lines i = Some line ->
  nth_error (offsets o lines ++ [o + length (concat (map f lines))]) i = Some (o + length (concat (map f (firstn i lines)))) /\
  nth_error (offsets o lines ++ [o + length (concat (map f lines))]) (i + 1) = Some (o + length (concat (map f (firstn i lines))) + length line + 1).
Proof.
  intros f lines. induction lines as [|l lines IH]; intros o i line LF NE; [destruct i; discriminate|]. destruct i as [|i].
  - cbn in NE. injection NE as ->. cbn [offsets app firstn map concat length nth_error Nat.add]. split; [f_equal; lia|]. rewrite app_length, LF. destruct lines as [|l2 lines]; cbn [offsets app nth_error map concat length]; f_equal; lia.
  - cbn [offsets app nth_error Nat.add]. cbn in NE. destruct (IH (o + length l + 1) i line LF NE) as (Q1 & Q2). cbn [map concat firstn]. rewrite !app_length, LF.
    replace (o + (length l + 1 + length (concat (map f lines)))) with (o + length l + 1 + length (concat (map f lines))) by lia. rewrite Q1, Q2. split; f_equal; lia.
Qed.
Lemma slice_ok : forall pre mid post, slice (pre ++ mid ++ post) (length pre) (length pre + length mid) = Some mid.
Proof.
  intros. unfold slice. rewrite !app_length. destruct (Nat.leb_spec (length pre) (length pre + length mid)); [|lia]. destruct (Nat.leb_spec (length pre + length mid) (length pre + (length mid + length post))); [|lia].
  cbn [andb]. replace (length pre + length mid - length pre) with (length mid) by lia. rewrite skipn_app, skipn_all, Nat.sub_diag. cbn [app skipn]. rewrite firstn_app, Nat.sub_diag, firstn_all. cbn. rewrite app_nil_r. reflexivity.
Qed.
Lemma sentence_ok : forall lines i line, nth_error lines i = Some line -> let d := CreateDataArray lines in exists s0 s1, nth_error (sentence_start d) i = Some s0 /\ nth_error (sentence_start d) (i + 1) = Some s1 /\
  slice (data d) s0 (s1 - 1) = Some (map (id d) line).
Proof.
  intros lines i line NE d. destruct (create_ok lines) as (_ & _ & _ & D & S & _). fold d in D, S.
  assert (LB : forall l, length (block d l) = length l + 1) by (intros l; unfold block; rewrite app_length, map_length; reflexivity).
  destruct (offsets_nth (block d) lines 0 i line LB NE) as (Q1 & Q2). cbn [Nat.add] in Q1, Q2. rewrite S, D. do 2 eexists. split; [exact Q1|]. split; [exact Q2|].
  destruct (nth_error_split lines i NE) as (a & b & -> & LA). rewrite <- LA. rewrite firstn_app, firstn_all, Nat.sub_diag. cbn [firstn]. rewrite app_nil_r, map_app, concat_app. cbn [map concat]. unfold block at 2. rewrite <- app_assoc.
  replace (length (concat (map (block d) a)) + length line + 1 - 1) with (length (concat (map (block d) a)) + length (map (id d) line)) by (rewrite map_length; lia). apply slice_ok.
Qed.
Lemma num_sentences : forall lines, GetNumSentences (CreateDataArray lines) = length lines.
Proof.
  intros lines. unfold GetNumSentences. destruct (create_ok lines) as (_ & _ & _ & _ & S & _). rewrite S, app_length. cbn [length]. rewrite Nat.add_sub. clear S. generalize 0. induction lines as [|l r IH]; intros o; [reflexivity|]. cbn [offsets length]. rewrite IH. reflexivity.
Qed.

(** ** One sentence *)
Definition incs (c : counts) (l : list (nat * nat)) : counts := fold_left (fun c p => IncrementLinksCount c (fst p) (snd p)) l c.
Lemma incs_ok : forall l c, source_links (incs c l) = fold_left (incr Nat.eqb) (map fst l) (source_links c) /\ target_links (incs c l) = fold_left (incr Nat.eqb) (map snd l) (target_links c) /\
  links_count (incs c l) = fold_left (incr pair_eqb) l (links_count c).
Proof. induction l as [|(s & t) l IH]; intros c; [auto|]. unfold incs in *. cbn [fold_left map fst snd]. destruct (IH (IncrementLinksCount c s t)) as (Q1 & Q2 & Q3). rewrite Q1, Q2, Q3. auto. Qed.
Lemma incs_app : forall c l l', incs c (l ++ l') = incs (incs c l) l'.
Proof. intros. unfold incs. apply fold_left_app. Qed.
(** the flags after the links: those of the positions linked *)
Definition flags (n : nat) (is : list nat) : list bool := map (fun i => existsb (Nat.eqb i) is) (seq 0 n).
Lemma flag_ok : forall n is i, i < n -> flag (flags n is) i = Some (flags n (i :: is)).
Proof.
  unfold flags. intros n is i L. assert (H : forall k s, s <= i < s + k -> flag (map (fun j => existsb (Nat.eqb j) is) (seq s k)) (i - s) = Some (map (fun j => existsb (Nat.eqb j) (i :: is)) (seq s k))).
  { induction k as [|k IH]; intros s LS; [lia|]. cbn [seq map]. destruct (Nat.eq_dec s i) as [->|N].
    - rewrite Nat.sub_diag. cbn [flag existsb]. rewrite Nat.eqb_refl. cbn [orb]. do 2 f_equal. apply map_ext_in. intros j I. apply in_seq in I. destruct (Nat.eqb_spec j i); [lia|reflexivity].
    - replace (i - s) with (S (i - S s)) by lia. cbn [flag]. rewrite IH by lia. cbn [bind existsb]. destruct (Nat.eqb_spec s i); [lia|]. reflexivity. }
  specialize (H n 0 ltac:(lia)). rewrite Nat.sub_0_r in H. exact H.
Qed.
Lemma links_ok : forall (f g : string -> nat) ss ts ls is js c, Forall (fun ij => fst ij < length ss /\ snd ij < length ts) ls ->
  count_links ls (map f ss) (map g ts) (flags (length ss) is) (flags (length ts) js) c =
  Some (flags (length ss) (rev (map fst ls) ++ is), flags (length ts) (rev (map snd ls) ++ js), incs c (map (fun ij => (f (nth (fst ij) ss EmptyString), g (nth (snd ij) ts EmptyString))) ls)).
Proof.
  intros f g ss ts ls. induction ls as [|(i & j) ls IH]; intros is js c F; [reflexivity|]. inversion F as [|? ? (L1 & L2) F2]; subst. cbn [fst snd] in *. cbn [count_links].
  rewrite (flag_ok _ is i L1), (flag_ok _ js j L2). cbn [bind]. rewrite !nth_error_map, (nth_error_nth' ss EmptyString L1), (nth_error_nth' ts EmptyString L2). cbn [option_map bind]. rewrite (IH (i :: is) (j :: js) _ F2).
  cbn [map rev fst snd]. rewrite <- !app_assoc. reflexivity.
Qed.
Lemma null_ok : forall (f : string -> nat) (mk : nat -> nat * nat) (run : list nat -> list bool -> counts -> counts) ss is,
  (forall s ss' l sl' c, run (s :: ss') (l :: sl') c = run ss' sl' (if l : bool then c else IncrementLinksCount c (fst (mk s)) (snd (mk s)))) -> (forall c, run [] [] c = c) ->
  forall c, run (map f ss) (flags (length ss) is) c = incs c (map (fun w => mk (f w)) (unlinked ss is)).
Proof.
  intros f mk run ss is R1 R2. unfold unlinked, flags. assert (H : forall pre c, run (map f ss) (map (fun i => existsb (Nat.eqb i) is) (seq (length pre) (length ss))) c =
    incs c (map (fun w => mk (f w)) (map (fun i => nth i (pre ++ ss) EmptyString) (filter (fun i => negb (existsb (Nat.eqb i) is)) (seq (length pre) (length ss)))))).
  { induction ss as [|s ss IH]; intros pre c; [apply R2|]. cbn [map length seq filter]. rewrite R1. specialize (IH (pre ++ [s])). rewrite app_length, <- app_assoc in IH. cbn [length app] in IH. rewrite Nat.add_1_r in IH. rewrite IH.
    destruct (existsb (Nat.eqb (length pre)) is); cbn [negb]; [reflexivity|]. cbn [map]. rewrite app_nth2, Nat.sub_diag by lia. cbn [nth]. unfold incs. cbn [fold_left]. reflexivity. }
  exact (H []).
Qed.
Lemma existsb_rev : forall (l : list nat) p, existsb p (rev l) = existsb p l.
Proof. intros l p. apply eq_true_iff_eq. rewrite !existsb_exists. split; intros (x & I & Q); exists x; split; auto; [apply in_rev; exact I|apply in_rev in I; exact I]. Qed.
Lemma flags_rev : forall n is, flags n (rev is ++ []) = flags n is.
Proof. intros. unfold flags. apply map_ext. intros i. rewrite app_nil_r. apply existsb_rev. Qed.
Lemma flags_nil : forall A (l : list A), map (fun _ => false) l = flags (length l) [].
Proof. intros A l. unfold flags. cbn. generalize 0. induction l as [|x l IH]; intros n; [reflexivity|]. cbn. f_equal. apply IH. Qed.

Section Table.
Variable c : list sentence.
Hypothesis ranges : Forall in_range c.
Let sd := CreateDataArray (map src c).
Let td := CreateDataArray (map tgt c).
Let ids (p : string * string) : nat * nat := (id sd (fst p), id td (snd p)).
Lemma null_source : id sd NULL_WORD_STR = 0.
Proof. unfold id. rewrite (proj1 (proj2 (create_ok (map src c))) : GetWordId sd _ = _). reflexivity. Qed.
Lemma null_target : id td NULL_WORD_STR = 0.
Proof. unfold id. rewrite (proj1 (proj2 (create_ok (map tgt c))) : GetWordId td _ = _). reflexivity. Qed.
Lemma one_sentence : forall i s a, nth_error c i = Some s -> count_sentence sd td (map links c) a i = Some (incs a (map ids (word_links s))).
Proof.
  intros i s a NE. unfold count_sentence. rewrite nth_error_map, NE. cbn [option_map bind].
  destruct (sentence_ok (map src c) i (src s) ltac:(rewrite nth_error_map, NE; reflexivity)) as (s0 & s1 & Q1 & Q2 & Q3). destruct (sentence_ok (map tgt c) i (tgt s) ltac:(rewrite nth_error_map, NE; reflexivity)) as (t0 & t1 & R1 & R2 & R3).
  fold sd in Q1, Q2, Q3. fold td in R1, R2, R3. rewrite Q1, R1. cbn [bind]. rewrite Q2, R2. cbn [bind]. rewrite Q3, R3. cbn [bind]. rewrite !flags_nil, !map_length.
  assert (IR : in_range s) by (rewrite Forall_forall in ranges; apply ranges; exact (nth_error_In _ _ NE)).
  rewrite (links_ok (id sd) (id td) (src s) (tgt s) (links s) [] [] a IR). cbn [bind]. rewrite !flags_rev. f_equal.
  rewrite (null_ok (id sd) (fun x => (x, NULL_WORD)) count_source_null (src s)); [|reflexivity..]. rewrite (null_ok (id td) (fun x => (NULL_WORD, x)) count_target_null (tgt s)); [|reflexivity..].
  unfold word_links. rewrite !map_app, !incs_app. rewrite !map_map. unfold ids. cbn [fst snd]. rewrite null_source, null_target. reflexivity.
Qed.
Lemma all_sentences : forall rest done a, c = done ++ rest -> count_all sd td (map links c) (seq (length done) (length rest)) a = Some (incs a (map ids (corpus_links rest))).
Proof.
  induction rest as [|s rest IH]; intros done a EQ; [reflexivity|]. cbn [length seq count_all]. rewrite (one_sentence (length done) s a); [|rewrite EQ, nth_error_app2, Nat.sub_diag by lia; reflexivity]. cbn [bind].
  specialize (IH (done ++ [s]) (incs a (map ids (word_links s)))). rewrite app_length in IH. cbn [length] in IH. rewrite Nat.add_1_r in IH. rewrite IH; [|rewrite <- app_assoc; exact EQ].
  unfold corpus_links. cbn [map concat]. rewrite map_app, incs_app. reflexivity.
Qed.
Lemma known_links : forall p, In p (corpus_links c) -> GetWordId sd (fst p) <> None /\ GetWordId td (snd p) <> None.
Proof.
  destruct (create_ok (map src c)) as (_ & NS & KS & _). destruct (create_ok (map tgt c)) as (_ & NT & KT & _). fold sd in NS, KS. fold td in NT, KT. rewrite Forall_forall in KS, KT.
  intros p I. unfold corpus_links in I. apply in_concat in I as (l & IL & IP). apply in_map_iff in IL as (s & <- & IS).
  assert (S1 : forall w, In w (src s) -> GetWordId sd w <> None) by (intros w IW; apply KS; apply in_concat; exists (src s); split; [apply in_map; exact IS|exact IW]).
  assert (T1 : forall w, In w (tgt s) -> GetWordId td w <> None) by (intros w IW; apply KT; apply in_concat; exists (tgt s); split; [apply in_map; exact IS|exact IW]).
  assert (U : forall ws is w, In w (unlinked ws is) -> In w ws). { intros ws is w H. unfold unlinked in H. apply in_map_iff in H as (i & <- & H). apply filter_In in H as (H & _). apply in_seq in H. apply nth_In. lia. }
  unfold word_links in IP. apply in_app_or in IP as [IP|IP]; [|apply in_app_or in IP as [IP|IP]]; apply in_map_iff in IP as (x & <- & IX); cbn [fst snd].
  - rewrite Forall_forall in ranges. pose proof (ranges s IS) as IR. unfold in_range in IR. rewrite Forall_forall in IR. destruct (IR x IX). split; [apply S1|apply T1]; apply nth_In; assumption.
  - split; [apply S1; exact (U _ _ _ IX)|congruence].
  - split; [congruence|apply T1; exact (U _ _ _ IX)].
Qed.
Lemma num_pairs : forall s t, GetWordId sd s <> None -> GetWordId td t <> None -> num pair_eqb (map ids (corpus_links c)) (id sd s, id td t) = pair_count (corpus_links c) s t.
Proof.
  intros s t KS KT. pose proof known_links as KL. revert KL. unfold num, pair_count. generalize (corpus_links c) as l. induction l as [|p l IH]; intros KL; [reflexivity|]. cbn [map filter].
  destruct (KL p (or_introl eq_refl)) as (P1 & P2). unfold pair_eqb, ids. cbn [fst snd]. unfold sd, td. rewrite (id_inj (map src c) (fst p) s P1 KS), (id_inj (map tgt c) (snd p) t P2 KT).
  specialize (IH (fun q I => KL q (or_intror I))). unfold pair_eqb, ids in IH. destruct (String.eqb (fst p) s && String.eqb (snd p) t); cbn [length]; rewrite <- IH; reflexivity.
Qed.
Lemma num_sources : forall s, GetWordId sd s <> None -> num Nat.eqb (map fst (map ids (corpus_links c))) (id sd s) = source_count (corpus_links c) s.
Proof.
  intros s KS. pose proof known_links as KL. revert KL. unfold num, source_count. generalize (corpus_links c) as l. induction l as [|p l IH]; intros KL; [reflexivity|]. cbn [map filter].
  destruct (KL p (or_introl eq_refl)) as (P1 & P2). unfold ids at 1. cbn [fst snd]. unfold sd at 1 2. rewrite (id_inj (map src c) (fst p) s P1 KS).
  specialize (IH (fun q I => KL q (or_intror I))). destruct (String.eqb (fst p) s); cbn [length]; rewrite <- IH; reflexivity.
Qed.
Lemma num_targets : forall t, GetWordId td t <> None -> num Nat.eqb (map snd (map ids (corpus_links c))) (id td t) = target_count (corpus_links c) t.
Proof.
  intros t KT. pose proof known_links as KL. revert KL. unfold num, target_count. generalize (corpus_links c) as l. induction l as [|p l IH]; intros KL; [reflexivity|]. cbn [map filter].
  destruct (KL p (or_introl eq_refl)) as (P1 & P2). unfold ids at 1. cbn [fst snd]. unfold td at 1 2. rewrite (id_inj (map tgt c) (snd p) t P2 KT).
  specialize (IH (fun q I => KL q (or_intror I))). destruct (String.eqb (snd p) t); cbn [length]; rewrite <- IH; reflexivity.
Qed.
Theorem table_ok : exists tp, TranslationTable sd td (map links c) = Some tp /\ forall s t,
  (known (map src c) s /\ known (map tgt c) t ->
     let n := pair_count (corpus_links c) s t in
     (n = 0 -> GetTargetGivenSourceScore sd td tp s t = 0%R /\ GetSourceGivenTargetScore sd td tp s t = 0%R) /\
     (n <> 0 -> GetTargetGivenSourceScore sd td tp s t = (INR n / INR (source_count (corpus_links c) s))%R /\ GetSourceGivenTargetScore sd td tp s t = (INR n / INR (target_count (corpus_links c) t))%R)) /\
  (~ known (map src c) s \/ ~ known (map tgt c) t -> GetTargetGivenSourceScore sd td tp s t = (-1)%R /\ GetSourceGivenTargetScore sd td tp s t = (-1)%R).
Proof.
  unfold TranslationTable. assert (NS : GetNumSentences sd = length c) by (unfold sd; rewrite num_sentences; apply map_length). rewrite NS. rewrite (all_sentences c [] _ eq_refl). cbn [bind]. eexists. split; [reflexivity|]. intros s t.
  destruct (create_ok (map src c)) as (_ & _ & _ & _ & _ & WS). destruct (create_ok (map tgt c)) as (_ & _ & _ & _ & _ & WT). fold sd in WS. fold td in WT. specialize (WS s). specialize (WT t). split.
  - intros (KS & KT). apply WS in KS. apply WT in KT.
    set (cc := incs {| source_links := []; target_links := []; links_count := [] |} (map ids (corpus_links c))).
    destruct (incs_ok (map ids (corpus_links c)) {| source_links := []; target_links := []; links_count := [] |}) as (I1 & I2 & I3). fold cc in I1, I2, I3. cbn [source_links target_links links_count] in I1, I2, I3.
    assert (V : val pair_eqb (links_count cc) (id sd s, id td t) = pair_count (corpus_links c) s t) by (rewrite I3, (val_incrs pair_eqb pair_eqb_ok); cbn; apply num_pairs; assumption).
    assert (PO : Forall (fun e : nat * nat * nat => 0 < snd e) (links_count cc)) by (rewrite I3; apply positive_incrs; [constructor]).
    assert (A1 : at_ (source_links cc) (id sd s) = source_count (corpus_links c) s) by (change (val Nat.eqb (source_links cc) (id sd s) = source_count (corpus_links c) s); rewrite I1, (val_incrs Nat.eqb Nat.eqb_eq); cbn; apply num_sources; assumption).
    assert (A2 : at_ (target_links cc) (id td t) = target_count (corpus_links c) t) by (change (val Nat.eqb (target_links cc) (id td t) = target_count (corpus_links c) t); rewrite I2, (val_incrs Nat.eqb Nat.eqb_eq); cbn; apply num_targets; assumption).
    assert (GS : GetWordId sd s = Some (id sd s)) by (unfold id; destruct (GetWordId sd s); congruence). assert (GT : GetWordId td t = Some (id td t)) by (unfold id; destruct (GetWordId td t); congruence).
    cbn zeta. unfold GetTargetGivenSourceScore, GetSourceGivenTargetScore, score_of. rewrite GS, GT. rewrite (lookup_map _ _ _ pair_eqb _ _ _ pair_eqb_ok). rewrite (lookup_val pair_eqb _ _ PO), V. split.
    + intros Z. rewrite Z. cbn. auto.
    + intros NZ. destruct (Nat.eqb_spec (pair_count (corpus_links c) s t) 0); [lia|]. cbn [option_map fst snd]. rewrite A1, A2. auto.
  - intros N. unfold GetTargetGivenSourceScore, GetSourceGivenTargetScore, score_of. destruct N as [N|N].
    + destruct (GetWordId sd s); [exfalso; apply N, WS; discriminate|]. auto.
    + destruct (GetWordId td t); [exfalso; apply N, WT; discriminate|]. destruct (GetWordId sd s); auto.
Qed.
End Table.

(** ** Sums *)
Lemma num_sum : forall (l : list (string * string)) s ts, NoDup ts -> (forall p, In p l -> fst p = s -> In (snd p) ts) -> list_sum (map (pair_count l s) ts) = source_count l s.
Proof.
  intros l s ts ND. unfold source_count, pair_count. induction l as [|p l IH]; intros C; [cbn; clear; induction ts as [|t ts IH]; [reflexivity|exact IH]|]. specialize (IH (fun q I => C q (or_intror I))). cbn [filter].
  destruct (String.eqb_spec (fst p) s) as [Q|N].
  - cbn [andb]. cbn [length]. rewrite <- IH. assert (I : In (snd p) ts) by (apply C; [left; reflexivity|exact Q]). apply in_split in I as (a & b & ->).
    assert (H : forall x, ~ In (snd p) x -> map (fun t => length (if String.eqb (snd p) t then p :: filter (fun q => String.eqb (fst q) s && String.eqb (snd q) t) l else filter (fun q => String.eqb (fst q) s && String.eqb (snd q) t) l)) x = map (fun t => length (filter (fun q => String.eqb (fst q) s && String.eqb (snd q) t) l)) x).
    { intros x NI. apply map_ext_in. intros t IT. destruct (String.eqb_spec (snd p) t) as [<- |]; [contradiction|reflexivity]. }
    apply NoDup_remove_2 in ND. rewrite !map_app, !list_sum_app. cbn [map list_sum fold_right]. rewrite String.eqb_refl. rewrite !H by (intros X; apply ND, in_or_app; auto). cbn [length]. unfold list_sum. lia.
  - cbn [andb]. exact IH.
Qed.
Lemma sum_one : forall (l : list (string * string)) s, source_count l s <> 0 ->
  rsum (map (fun t => (INR (pair_count l s t) / INR (source_count l s))%R) (nodup string_dec (map snd l))) = 1%R.
Proof.
  intros l s NZ. assert (H : forall ts (v : R), rsum (map (fun t => (INR (pair_count l s t) / v)%R) ts) = (INR (list_sum (map (pair_count l s) ts)) / v)%R).
  { induction ts as [|t ts IH]; intros v; cbn [map rsum fold_right list_sum]; [cbn; lra|]. fold (rsum (map (fun t => (INR (pair_count l s t) / v)%R) ts)). rewrite IH. fold (list_sum (map (pair_count l s) ts)). rewrite plus_INR. lra. }
  rewrite H, num_sum; [|apply NoDup_nodup|intros p I _; apply nodup_In; apply in_map; exact I]. field. apply not_0_INR. exact NZ.
Qed.

Definition swap (p : string * string) : string * string := (snd p, fst p).
Lemma swap_counts : forall l s t, pair_count (map swap l) t s = pair_count l s t /\ source_count (map swap l) t = target_count l t.
Proof.
  intros l s t. unfold pair_count, source_count, target_count. induction l as [|p l (IH1 & IH2)]; [auto|]. cbn [map filter swap fst snd]. rewrite (andb_comm (String.eqb (snd p) t)).
  split; [destruct (String.eqb (fst p) s && String.eqb (snd p) t)|destruct (String.eqb (snd p) t)]; cbn [length]; congruence.
Qed.
Theorem sums_ok : forall c, Forall in_range c -> exists tp, TranslationTable (CreateDataArray (map src c)) (CreateDataArray (map tgt c)) (map links c) = Some tp /\
  (forall s, In s (map fst (corpus_links c)) -> rsum (map (GetTargetGivenSourceScore (CreateDataArray (map src c)) (CreateDataArray (map tgt c)) tp s) (nodup string_dec (map snd (corpus_links c)))) = 1%R) /\
  (forall t, In t (map snd (corpus_links c)) -> rsum (map (fun s => GetSourceGivenTargetScore (CreateDataArray (map src c)) (CreateDataArray (map tgt c)) tp s t) (nodup string_dec (map fst (corpus_links c)))) = 1%R).
Proof.
  intros c R. destruct (table_ok c R) as (tp & Q & H). exists tp. split; [exact Q|].
  assert (K : forall p, In p (corpus_links c) -> known (map src c) (fst p) /\ known (map tgt c) (snd p)) by (intros p I; destruct (known_links c R p I); split; [apply (create_ok (map src c))|apply (create_ok (map tgt c))]; assumption).
  split.
  - intros s IS. apply in_map_iff in IS as (p & <- & IP). rewrite <- (sum_one (corpus_links c) (fst p)).
    + f_equal. apply map_ext_in. intros t IT. apply nodup_In in IT. apply in_map_iff in IT as (q & <- & IQ). destruct (H (fst p) (snd q)) as (H1 & _). destruct (H1 (conj (proj1 (K p IP)) (proj2 (K q IQ)))) as (Z & NZ).
      destruct (Nat.eq_dec (pair_count (corpus_links c) (fst p) (snd q)) 0) as [E|E]; [rewrite (proj1 (Z E)), E; cbn; lra|exact (proj1 (NZ E))].
    + unfold source_count. intros Z. apply length_zero_iff_nil in Z. assert (X : In p (filter (fun q => String.eqb (fst q) (fst p)) (corpus_links c))) by (apply filter_In; split; [exact IP|apply String.eqb_refl]). rewrite Z in X. destruct X.
  - intros t IT. apply in_map_iff in IT as (p & <- & IP). rewrite <- (sum_one (map swap (corpus_links c)) (snd p)).
    + f_equal. rewrite map_map. cbn [swap snd]. apply map_ext_in. intros s IS. apply nodup_In in IS. apply in_map_iff in IS as (q & <- & IQ). destruct (H (fst q) (snd p)) as (H1 & _). destruct (H1 (conj (proj1 (K q IQ)) (proj2 (K p IP)))) as (Z & NZ).
      destruct (swap_counts (corpus_links c) (fst q) (snd p)) as (S1 & S2). rewrite S1, S2.
      destruct (Nat.eq_dec (pair_count (corpus_links c) (fst q) (snd p)) 0) as [E|E]; [rewrite (proj2 (Z E)), E; cbn; lra|exact (proj2 (NZ E))].
    + rewrite (proj2 (swap_counts (corpus_links c) EmptyString (snd p))). unfold target_count. intros Z. apply length_zero_iff_nil in Z. assert (X : In p (filter (fun q => String.eqb (snd q) (snd p)) (corpus_links c))) by (apply filter_In; split; [exact IP|apply String.eqb_refl]). rewrite Z in X. destruct X.
Qed.

(** ** The features *)
Lemma best_ok : forall (p : string -> R) ws m, (0 <= m)%R -> let b := fold_left (fun m w => Rmax m (p w)) ws m in (m <= b)%R /\ (forall w, In w ws -> (p w <= b)%R) /\ (b = m \/ exists w, In w ws /\ b = p w).
Proof.
  intros p ws. induction ws as [|w ws IH]; intros m M; cbn [fold_left]; cbn zeta.
  - split; [lra|]. split; [intros w []|]. auto.
  - destruct (IH (Rmax m (p w)) (Rle_trans _ _ _ M (Rmax_l _ _))) as (Q1 & Q2 & Q3). set (b := fold_left (fun m w => Rmax m (p w)) ws _) in *. pose proof (Rmax_l m (p w)). pose proof (Rmax_r m (p w)).
    split; [lra|]. split; [intros v [<- |I]; [lra|exact (Q2 v I)]|]. destruct Q3 as [Q3|(v & I & Q3)]; [|right; exists v; cbn; auto].
    unfold Rmax in Q3. destruct (Rle_dec m (p w)); [right; exists w; cbn; auto|left; exact Q3].
Qed.
Lemma cost_ok : forall p ws, word_cost p ws (cost (best p ws)).
Proof.
  intros p ws. unfold best. destruct (best_ok p ws 0%R (Rle_refl 0)) as (Q1 & Q2 & Q3). set (b := fold_left (fun m w => Rmax m (p w)) ws _) in *. unfold cost, word_cost, log10. destruct (Rlt_dec 0 b) as [L|N].
  - left. destruct Q3 as [Q3|(w & I & Q3)]; [lra|]. exists w. rewrite <- Q3. auto.
  - right. split; [intros w I; specialize (Q2 w I); lra|reflexivity].
Qed.
Lemma feature_ok : forall (f : string -> R) ws a, fold_left (fun score w => score + f w)%R ws a = (a + rsum (map f ws))%R.
Proof. intros f ws. induction ws as [|w ws IH]; intros a; cbn; [lra|]. rewrite IH. unfold rsum. lra. Qed.
Theorem max_lex_source : forall table ss ts, exists costs, Forall2 (fun s c => word_cost (fun t => table s t) (ts ++ ["__NULL__"%string]) c) ss costs /\ MaxLexSourceGivenTarget table ss ts = rsum costs.
Proof.
  intros table ss ts. exists (map (fun s => cost (best (fun t => table s t) (ts ++ [NULL_WORD_STR]))) ss). split.
  - induction ss as [|s ss IH]; constructor; [apply cost_ok|exact IH].
  - unfold MaxLexSourceGivenTarget. rewrite (feature_ok (fun s => cost (best (fun t => table s t) (ts ++ [NULL_WORD_STR])))). lra.
Qed.
Theorem max_lex_target : forall table ss ts, exists costs, Forall2 (fun t c => word_cost (fun s => table s t) (ss ++ ["__NULL__"%string]) c) ts costs /\ MaxLexTargetGivenSource table ss ts = rsum costs.
Proof.
  intros table ss ts. exists (map (fun t => cost (best (fun s => table s t) (ss ++ [NULL_WORD_STR]))) ts). split.
  - induction ts as [|t ts IH]; constructor; [apply cost_ok|exact IH].
  - unfold MaxLexTargetGivenSource. rewrite (feature_ok (fun t => cost (best (fun s => table s t) (ss ++ [NULL_WORD_STR])))). lra.
Qed.
