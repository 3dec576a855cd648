(** Proofs about the repository of candidates. *)
From Coq Require Import List Arith NArith Bool Permutation Lia.
From Verif Require Import CandSet CandSetSpec.
Import ListNotations.


Lemma nosep : forall w, is_word w -> w <> [] /\ forall c, In c w -> IsWordSep c = false.
Proof.
  intros w [N H]. split; [exact N|]. intros c C. destruct (H c C) as [A B]. unfold IsWordSep, SPACE, TAB. rewrite (proj2 (Nat.eqb_neq _ _) A), (proj2 (Nat.eqb_neq _ _) B). reflexivity.
Qed.
Lemma visit_word : forall w s acc b, (forall c, In c w -> IsWordSep c = false) -> w <> [] ->
  VisitTokens (w ++ s) acc b = VisitTokens s (acc ++ w) true.
Proof.
  induction w as [|c w IH]; intros s acc b H N; [congruence|]. cbn [app VisitTokens]. rewrite (H c (or_introl eq_refl)).
  destruct w as [|c' w'].
  - reflexivity.
  - rewrite IH; [|intros d D; apply H; right; exact D|discriminate]. rewrite <- app_assoc. reflexivity.
Qed.
Lemma tokens_join : forall ws, Forall is_word ws -> tokens (join ws) = ws.
Proof.
  unfold tokens. induction ws as [|w ws IH]; intros F; [reflexivity|]. inversion F as [|? ? F1 F']; subst. destruct (nosep w F1) as [N W]. destruct ws as [|w' ws].
  - cbn [join]. rewrite <- (app_nil_r w) at 1. rewrite visit_word by assumption. reflexivity.
  - change (join (w :: w' :: ws)) with (w ++ SPACE :: join (w' :: ws)). rewrite visit_word by assumption. cbn [VisitTokens app]. cbn [IsWordSep Nat.eqb SPACE orb]. f_equal. apply IH. exact F'.
Qed.

Section File.
Variable V : Type.
Variable print : V -> text.
Variable strtod : text -> V.
Variable F : Type.
Variable print_f : F -> text.
Variable read_f : text -> option F.
Variable rnd : V -> V.
Variable rnd_f : F -> F.
Hypothesis print_chars : forall v c, In c (print v) -> c <> SPACE /\ c <> EQUALS.
Hypothesis strtod_print : forall v, strtod (print v) = rnd v.
Hypothesis print_f_word : forall f, is_word (print_f f).
Hypothesis read_f_print : forall f, read_f (print_f f) = Some (rnd_f f).

Local Notation parse := (ParseSparseVector V strtod).
Lemma parse_plain : forall s rest seg comma, (forall c, In c s -> c <> SPACE /\ c <> EQUALS) ->
  parse (s ++ rest) seg comma = parse rest (seg ++ s) comma.
Proof.
  induction s as [|c s IH]; intros rest seg comma H; [rewrite app_nil_r; reflexivity|]. destruct (H c (or_introl eq_refl)) as [N1 N2].
  cbn [app ParseSparseVector]. rewrite (proj2 (Nat.eqb_neq _ _) N1), (proj2 (Nat.eqb_neq _ _) N2). rewrite IH by (intros d D; apply H; right; exact D).
  rewrite <- app_assoc. reflexivity.
Qed.
Lemma parse_name : forall s rest seg comma, ~ In SPACE s -> exists comma', parse (s ++ rest) seg comma = parse rest (seg ++ s) comma'.
Proof.
  induction s as [|c s IH]; intros rest seg comma H; [exists comma; rewrite app_nil_r; reflexivity|].
  cbn [app ParseSparseVector]. destruct (c =? SPACE) eqn:E; [apply Nat.eqb_eq in E; subst; exfalso; apply H; left; reflexivity|].
  destruct (IH rest (seg ++ [c]) (if c =? EQUALS then Some (length seg) else comma)) as [k K]; [intros X; apply H; right; exact X|].
  exists k. rewrite K, <- app_assoc. reflexivity.
Qed.
Lemma parse_pair : forall n v rest, ~ In SPACE n -> parse (pair_text V print (n, v) ++ rest) [] None = parse rest (pair_text V print (n, v)) (Some (length n)).
Proof.
  intros n v rest H. unfold pair_text. cbn [fst snd]. rewrite <- app_assoc. destruct (parse_name n ((EQUALS :: print v) ++ rest) [] None H) as [k K]. rewrite K.
  cbn [app ParseSparseVector]. change (EQUALS =? SPACE) with false. rewrite Nat.eqb_refl. cbv iota.
  rewrite (parse_plain (print v) rest) by apply print_chars. rewrite <- app_assoc. reflexivity.
Qed.
Lemma flush_pair : forall n v, firstn (length n) (pair_text V print (n, v)) = n /\ strtod (skipn (S (length n)) (pair_text V print (n, v))) = rnd v.
Proof.
  intros n v. unfold pair_text. cbn [fst snd]. split.
  - rewrite firstn_app, Nat.sub_diag, firstn_all, app_nil_r. reflexivity.
  - rewrite skipn_app. rewrite skipn_all2 by lia. replace (S (length n) - length n) with 1 by lia. cbn. apply strtod_print.
Qed.
Lemma parse_join : forall fm, fm <> [] -> (forall p, In p fm -> ~ In SPACE (fst p)) ->
  parse (join (map (pair_text V print) fm)) [] None = Some (map (fun p => (fst p, rnd (snd p))) fm).
Proof.
  induction fm as [|[n v] fm IH]; intros N H; [congruence|]. clear N. assert (Hn : ~ In SPACE n) by apply (H (n, v) (or_introl eq_refl)).
  destruct (flush_pair n v) as [E1 E2].
  assert (Ne : exists c s, pair_text V print (n, v) = c :: s) by (unfold pair_text; destruct n; eexists; eexists; reflexivity).
  destruct Ne as (c & s & Ne). destruct fm as [|p fm].
  - cbn [map join]. rewrite <- (app_nil_r (pair_text V print (n, v))). rewrite parse_pair by exact Hn. cbn [ParseSparseVector]. rewrite Ne in *. rewrite E1, E2. reflexivity.
  - change (join (map (pair_text V print) ((n, v) :: p :: fm))) with (pair_text V print (n, v) ++ SPACE :: join (map (pair_text V print) (p :: fm))).
    rewrite parse_pair by exact Hn. cbn [ParseSparseVector]. rewrite Nat.eqb_refl. rewrite Ne in *. rewrite E1, E2. rewrite IH; [reflexivity|discriminate|]. intros q Q. apply H. right. exact Q.
Qed.

Local Notation stats := (stats F).
Lemma encode_join : forall fs i, fold_left (fun o f => o ++ SPACE :: print_f f) fs i = join (i :: map print_f fs).
Proof.
  assert (A : forall fs i pre, fold_left (fun o f => o ++ SPACE :: print_f f) fs (pre ++ i) = pre ++ fold_left (fun o f => o ++ SPACE :: print_f f) fs i).
  { induction fs as [|f fs IH]; intros i pre; [reflexivity|]. cbn [fold_left]. rewrite <- app_assoc. apply IH. }
  induction fs as [|f fs IH]; intros i; [reflexivity|]. cbn [fold_left]. rewrite A. cbn [map join]. f_equal.
  change (SPACE :: print_f f) with ([SPACE] ++ print_f f). rewrite A. cbn [app]. f_equal. rewrite IH. reflexivity.
Qed.
Lemma read_fields_ok : forall fs, read_fields F read_f (map print_f fs) = map rnd_f fs.
Proof. induction fs as [|f fs IH]; [reflexivity|]. cbn. rewrite read_f_print, IH. reflexivity. Qed.
Lemma decode_encode : forall s, is_word (id_ F s) -> decode F read_f (Encode F print_f s) = Stats F (id_ F s) (map rnd_f (fields F s)).
Proof.
  intros [i fs] H. cbn [id_ fields] in *. unfold Encode, decode. cbn [id_ fields].
  replace (match i with [] => NULL_ | _ => i end) with i by (destruct i; [destruct H; congruence|reflexivity]).
  rewrite encode_join, tokens_join.
  - rewrite read_fields_ok. reflexivity.
  - constructor; [exact H|]. apply Forall_forall. intros t T. apply in_map_iff in T. destruct T as (f & <- & _). apply print_f_word.
Qed.
Lemma decode_null : forall fs, decode F read_f (Encode F print_f (Stats F [] fs)) = Stats F NULL_ (map rnd_f fs).
Proof.
  intros fs. unfold Encode, decode. cbn [id_ fields]. rewrite encode_join, tokens_join.
  - rewrite read_fields_ok. reflexivity.
  - constructor; [split; [discriminate|intros c C; cbn in C; repeat (destruct C as [<- |C]; [split; discriminate|]); destruct C]|]. apply Forall_forall. intros t T. apply in_map_iff in T. destruct T as (f & <- & _). apply print_f_word.
Qed.

Local Notation storable := (storable V F).
Local Notation rounded := (rounded V F rnd rnd_f).
Lemma file_ok : forall cs, Forall storable cs ->
  ReadFromFile V strtod F read_f (WriteToFile V print F print_f cs) = Some (map rounded cs).
Proof.
  induction cs as [|c cs IH]; intros A; [reflexivity|]. inversion A as [|? ? (W & N & P & I) A']; subst.
  cbn [WriteToFile flat_map app ReadFromFile map]. rewrite parse_join by assumption. unfold WriteToFile in IH. rewrite (IH A').
  rewrite tokens_join by exact W. rewrite decode_encode by exact I. reflexivity.
Qed.
Lemma empty_refuted : forall cs c, In c cs -> fmap V F c = [] -> ReadFromFile V strtod F read_f (WriteToFile V print F print_f cs) = None.
Proof.
  induction cs as [|d cs IH]; intros c I E; [destruct I|]. cbn [WriteToFile flat_map app ReadFromFile]. destruct I as [-> |I].
  - rewrite E. reflexivity.
  - unfold WriteToFile in IH. rewrite (IH c I E). destruct (ParseSparseVector _ _ _ _ _); reflexivity.
Qed.
End File.

(** * Removing duplicates *)
Lemma approx_spec : forall a b, approx_equals a b = true <-> map (fun p => (fst p, round (snd p))) a = map (fun p => (fst p, round (snd p))) b.
Proof.
  induction a as [|[i x] a IH]; intros [|[j y] b]; cbn [approx_equals map fst snd]; split; intros H; try discriminate; try reflexivity.
  - apply andb_true_iff in H. destruct H as [H1 H2]. apply andb_true_iff in H1. destruct H1 as [H1 H3]. apply Nat.eqb_eq in H1. apply N.eqb_eq in H3. apply IH in H2. rewrite H1, H2, H3. reflexivity.
  - injection H as H1 H2 H3. rewrite H1, H2, Nat.eqb_refl, N.eqb_refl. apply IH in H3. rewrite H3. reflexivity.
Qed.
Lemma same_spec : forall a b, same a b = true <-> approx a b.
Proof.
  intros a b. unfold same, approx. destruct (list_eq_dec Nat.eq_dec (words a) (words b)) as [E|E]; cbn [andb]; rewrite ?approx_spec; intuition congruence.
Qed.

Section Dedup.
Variable H : Type.
Variable hash : list nat * list (nat * N) -> H.

Lemma ai_ok : forall l u u', all_inserted H hash l u u' ->
  incl u' (l ++ u) /\ incl u u' /\ (forall c, In c l -> exists d, In d u' /\ approx d c) /\
  (ForallOrdPairs (fun a b => hash (hashed a) = hash (hashed b) -> ~ approx a b) u -> ForallOrdPairs (fun a b => hash (hashed a) = hash (hashed b) -> ~ approx a b) u').
Proof.
  induction 1 as [u|x l u u1 u2 I A IH].
  - split; [intros z Z; exact Z|]. split; [intros z Z; exact Z|]. split; [intros c []|auto].
  - destruct IH as (I1 & I2 & I3 & I4). destruct I as [(e & E1 & E2 & ->)|[N ->]].
    + split; [intros z Z; specialize (I1 z Z); right; exact I1|]. split; [exact I2|]. split.
      * intros c [<- |C]; [exists e; split; [apply I2; exact E1|apply same_spec; exact E2]|apply I3; exact C].
      * exact I4.
    + split; [intros z Z; specialize (I1 z Z); apply in_app_or in I1; destruct I1 as [I1|[<- |I1]]; [right; apply in_or_app; left; exact I1|left; reflexivity|right; apply in_or_app; right; exact I1]|].
      split; [intros z Z; apply I2; right; exact Z|]. split.
      * intros c [<- |C]; [exists x; split; [apply I2; left; reflexivity|split; reflexivity]|apply I3; exact C].
      * intros P. apply I4. constructor; [|exact P]. apply Forall_forall. intros e E Eh Ap. specialize (N e E (eq_sym Eh)).
        assert (X : same e x = true) by (apply same_spec; destruct Ap as [P1 P2]; split; symmetry; assumption). congruence.
Qed.
Lemma fop_perm : forall (A : Type) (R : A -> A -> Prop) l l', (forall a b, R a b -> R b a) -> Permutation l l' -> ForallOrdPairs R l -> ForallOrdPairs R l'.
Proof.
  intros A R l l' S P. induction P as [|x l l' P IH|x y l|l l' l'' P1 IH1 P2 IH2]; intros Fo; auto.
  - inversion Fo; subst. constructor; [|apply IH; assumption]. rewrite Forall_forall in *. intros z Z. apply H2. eapply Permutation_in; [symmetry; exact P|exact Z].
  - inversion Fo as [|? ? F1 F2]; subst. inversion F2 as [|? ? F3 F4]; subst. inversion F1; subst. constructor; [constructor; [apply S; assumption|assumption]|]. constructor; assumption.
Qed.
Lemma dedup_ok : forall cs out, Dedup H hash cs out ->
  incl out cs /\ (forall c, In c cs -> exists d, In d out /\ approx d c) /\
  ForallOrdPairs (fun a b => hash (hashed a) = hash (hashed b) -> ~ approx a b) out.
Proof.
  intros cs out (u & A & P). destruct (ai_ok _ _ _ A) as (I1 & _ & I3 & I4). split; [|split].
  - intros c C. apply in_rev. rewrite <- (app_nil_r (rev cs)). apply I1. eapply Permutation_in; [symmetry; exact P|exact C].
  - intros c C. destruct (I3 c) as (d & D1 & D2); [apply in_rev; rewrite rev_involutive; exact C|]. exists d. split; [eapply Permutation_in; [exact P|exact D1]|exact D2].
  - eapply fop_perm; [|exact P|apply I4; constructor]. intros a b R E [E1 E2]. apply R; [symmetry; exact E|split; symmetry; assumption].
Qed.
Lemma dedup_identical : forall cs out, Dedup H hash cs out -> NoDup (map (fun c => (words c, feats c)) out).
Proof.
  intros cs out D. destruct (dedup_ok cs out D) as (_ & _ & Fo). clear D. induction Fo as [|a l Fa Fo IH]; [constructor|]. cbn [map]. constructor; [|exact IH].
  intros I. apply in_map_iff in I. destruct I as (b & E & B). rewrite Forall_forall in Fa. injection E as E1 E2. apply (Fa b B).
  - unfold hashed. rewrite E1, E2. reflexivity.
  - split; [symmetry; exact E1|rewrite E2; reflexivity].
Qed.

(** Two candidates which are the same for the comparison, with different hashes. *)
Definition c1 : cand := Cand [7] [(1, 0x3FF0000080000000%N)] 0.
Definition c2 : cand := Cand [7] [(1, 0x3FF0000100000000%N)] 0.
Lemma hash_refuted : same c1 c2 = true /\ hashed c1 <> hashed c2 /\ (hash (hashed c1) <> hash (hashed c2) -> Dedup H hash [c1; c2] [c1; c2]).
Proof.
  split; [reflexivity|]. split; [discriminate|]. intros N. exists [c1; c2]. split; [|reflexivity]. cbn [rev app].
  apply ai_cons with (u' := [c2]); [right; split; [intros e []|reflexivity]|].
  apply ai_cons with (u' := [c1; c2]); [right; split; [|reflexivity]|constructor].
  intros e [<- |[]] E. exfalso. apply N. symmetry. exact E.
Qed.
End Dedup.

(** How far the rounding goes. *)
Lemma land2 : forall x, (N.land x 2 < 4)%N.
Proof.
  intros x. replace (N.land x 2) with (N.land (x mod 2 ^ 2) 2).
  - assert (L : (x mod 2 ^ 2 < 4)%N) by (apply N.mod_lt; discriminate). set (m := (x mod 2 ^ 2)%N) in *. clearbody m.
    assert (E : m = 0%N \/ m = 1%N \/ m = 2%N \/ m = 3%N) by lia. destruct E as [-> |[-> |[-> | ->]]]; reflexivity.
  - rewrite <- N.land_ones, <- N.land_assoc. reflexivity.
Qed.
Lemma round_near : forall i, (i < 2 ^ 64 - 2 ^ 32)%N -> (i <= round i + 2 ^ 31 /\ round i <= i + 2 ^ 31)%N.
Proof.
  intros i Hi. unfold round. cbv zeta. assert (Er : N.land i MASK = (i mod 2 ^ 32)%N) by (rewrite <- N.land_ones; reflexivity). rewrite Er.
  assert (Hr : (i mod 2 ^ 32 < 2 ^ 32)%N) by (apply N.mod_lt; discriminate). set (r := (i mod 2 ^ 32)%N) in *.
  assert (W : forall z, (z < 2 ^ 64)%N -> word z = z) by (intros z Z; apply N.mod_small; exact Z).
  rewrite (W (2 * r)%N) by lia. unfold MASK. destruct (0xFFFFFFFF <? 2 * r)%N eqn:E.
  - apply N.ltb_lt in E. rewrite W by lia. lia.
  - apply N.ltb_ge in E. change (word (1 + (2 ^ 64 - 0xFFFFFFFF)))%N with 0xFFFFFFFF00000002%N. set (R := N.land i 0xFFFFFFFF00000002).
    assert (D : (R / 2 ^ 32 = i / 2 ^ 32)%N).
    { rewrite <- !N.shiftr_div_pow2. unfold R. rewrite N.shiftr_land. change (N.shiftr 0xFFFFFFFF00000002 32) with (N.ones 32). rewrite N.land_ones, N.mod_small; [reflexivity|].
      rewrite N.shiftr_div_pow2. apply N.div_lt_upper_bound; [discriminate|]. lia. }
    assert (M : (R mod 2 ^ 32 < 4)%N).
    { rewrite <- N.land_ones. unfold R. rewrite <- N.land_assoc. change (N.land 0xFFFFFFFF00000002 (N.ones 32)) with 2%N. apply land2. }
    pose proof (N.div_mod R (2 ^ 32) ltac:(discriminate)) as E1. pose proof (N.div_mod i (2 ^ 32) ltac:(discriminate)) as E2. fold r in E2. rewrite D in E1. clear D. revert E1 E2 M. generalize (R mod 2 ^ 32)%N, (i / 2 ^ 32)%N. clearbody R r. change (2 ^ 32)%N with 4294967296%N in *. change (2 ^ 31)%N with 2147483648%N. intros m q E1 E2 M. lia.
Qed.
Lemma approx_near : forall a b, approx a b -> Forall (fun p => (snd p < 2 ^ 64 - 2 ^ 32)%N) (feats a) -> Forall (fun p => (snd p < 2 ^ 64 - 2 ^ 32)%N) (feats b) ->
  words a = words b /\ Forall2 (fun p q => fst p = fst q /\ (snd p <= snd q + 2 ^ 32 /\ snd q <= snd p + 2 ^ 32)%N) (feats a) (feats b).
Proof.
  intros a b [E1 E2] Fa Fb. split; [exact E1|]. revert E2 Fa Fb. generalize (feats a), (feats b). clear. intros l. induction l as [|[i x] l IH]; intros [|[j y] m] E A B; try discriminate; constructor.
  - cbn [map fst snd] in *. injection E as E1 E2 E3. split; [exact E1|]. inversion A; inversion B; subst. cbn [snd] in *.
    pose proof (round_near x ltac:(assumption)). pose proof (round_near y ltac:(assumption)). lia.
  - cbn [map fst snd] in E. injection E as _ _ E. inversion A; inversion B; subst. apply IH; assumption.
Qed.
Lemma round_refuted : let v := 0x3FF0000000000000%N in round v = v /\ round (v + 1) = v /\ round (v + 2) <> v /\ round (v + 4) = v.
Proof. vm_compute. repeat split; discriminate. Qed.
