(** The unigrams and the vocabulary. *)
From Coq Require Import String List ZArith NArith Bool Lia.
Import ListNotations.
From Verif Require Import Lm Arpa ArpaSpec ArpaProofs.
Open Scope Z_scope.
Open Scope res_scope.

Lemma is_unk_canon s : is_unk s = String.eqb (canon s) "<unk>".
Proof.
  unfold is_unk, canon. destruct (String.eqb_spec s "<UNK>") as [->|N]; [reflexivity|]. rewrite orb_false_r. reflexivity.
Qed.
Lemma canon_other s : is_unk s = false -> canon s = s.
Proof. unfold is_unk, canon. destruct (String.eqb s "<UNK>"); [rewrite orb_true_r; discriminate|reflexivity]. Qed.
Lemma canon_unk s : is_unk s = true -> canon s = "<unk>"%string.
Proof. rewrite is_unk_canon. intros H. apply String.eqb_eq in H. exact H. Qed.
Lemma canon_idem s : canon (canon s) = canon s.
Proof. destruct (is_unk s) eqn:E; [rewrite (canon_unk s E); reflexivity|rewrite (canon_other s E); apply canon_other, E]. Qed.

Lemma read_prob_ok (Bad : Prop) c p : (c_positive c = true -> 0 < val p -> Bad) -> safe Bad (read_prob c p) (fun p' => val p' = capped p /\ (c_positive c = true -> val p <= 0)).
Proof.
  intros H. unfold read_prob, capped. destruct (Z.ltb_spec 0 (val p)) as [L|L].
  - destruct (c_positive c); cbn; [auto|]. split; [rewrite Z.min_l by lia; reflexivity|discriminate].
  - cbn. split; [rewrite Z.min_r; lia|auto].
Qed.
Lemma val_ReadBackoff b : val (ReadBackoff b) = weight b.
Proof. unfold ReadBackoff, weight. destruct b as [x|]; [|reflexivity]. destruct (Z.eqb_spec (val x) 0) as [E|]; [rewrite E|]; reflexivity. Qed.

Section Vocab.
Variable c : config.

Definition holds (u : list fw) (i : nat) (l : fl * string * option fl) : Prop :=
  exists w, nth_error u i = Some w /\ val (f_prob w) = capped (fst (fst l)) /\ val (f_backoff w) = weight (snd l) /\ f_backoff w = ReadBackoff (snd l).

Definition lines_of (ls : list (fl * string * option fl)) (x : string) := filter (is_line x) ls.

Record RInv (L : nat) (pre : list (fl * string * option fl)) (v : vocab) (u : list fw) : Prop := {
  r_len : length u = L;
  r_bound : (1 <= v_bound v <= S (length pre))%nat;
  r_saw : v_saw_unk v = existsb (is_line "<unk>") pre;
  r_words : forall s i, In (s, i) (v_words v) -> is_unk s = false /\ (1 <= i < v_bound v)%nat;
  r_inj : forall s1 s2 i, In (s1, i) (v_words v) -> In (s2, i) (v_words v) -> s1 = s2;
  r_find : forall s, is_unk s = false -> match List.find (fun p => String.eqb (fst p) s) (v_words v) with
     | Some p => exists l, hd_error (lines_of pre s) = Some l /\ holds u (snd p) l
     | None => lines_of pre s = [] end;
  r_unk : forall l, hd_error (rev (lines_of pre "<unk>")) = Some l -> holds u 0 l;
  r_fine : Forall (unigram_fine (c_positive c)) pre }.

Lemma find_words (ws : list (string * word)) s p : List.find (fun q => String.eqb (fst q) s) ws = Some p -> In (s, snd p) ws.
Proof. intros H. apply find_some in H. destruct H as (Hi & He). apply String.eqb_eq in He. destruct p as [s' i]. cbn in *. subst. exact Hi. Qed.

Lemma find_snoc {A : Type} (f : A -> bool) (l : list A) x : List.find f (l ++ [x]) = match List.find f l with Some y => Some y | None => if f x then Some x else None end.
Proof. induction l as [|y l IH]; cbn; [reflexivity|]. destruct (f y); [reflexivity|exact IH]. Qed.

Lemma holds_other u i j f l : i <> j -> holds u i l -> holds (modify_nth j f u) i l.
Proof. intros N (w & H & R). exists w. split; [|exact R]. rewrite nth_modify. destruct (Nat.eqb_spec i j); [contradiction|exact H]. Qed.

Lemma Read1Grams_ok (Bad : Prop) L ls : forall pre v u, (S (length pre + length ls) <= L)%nat ->
  (forall l, In l ls -> ~ unigram_fine (c_positive c) l -> Bad) ->
  RInv L pre v u -> safe Bad (Read1Grams c ls v u) (fun r => RInv L (pre ++ ls) (fst r) (snd r)).
Proof.
  induction ls as [|[[p s] b] ls IH]; intros pre v u HL HB R; cbn [Read1Grams].
  { cbn. rewrite app_nil_r. exact R. }
  cbn [length] in HL.
  eapply safe_bind; [apply read_prob_ok|].
  { intros Hc Hp. apply (HB (p, s, b)); [left; reflexivity|]. intros F. specialize (F Hc). cbn in F. lia. }
  intros p' (Vp & Fp). cbn beta.
  replace (pre ++ (p, s, b) :: ls) with ((pre ++ [(p, s, b)]) ++ ls) by (rewrite <- app_assoc; reflexivity).
  assert (Fine : Forall (unigram_fine (c_positive c)) (pre ++ [(p, s, b)])).
  { apply Forall_app. split; [apply (r_fine _ _ _ _ R)|]. constructor; [exact Fp|constructor]. }
  assert (New : forall w, (w < length u)%nat -> holds (modify_nth w (fun x => FW p' (ReadBackoff b) (f_rest x)) u) w (p, s, b)).
  { intros w Hw. destruct (nth_error u w) as [x|] eqn:E; [|apply nth_error_None in E; lia]. exists (FW p' (ReadBackoff b) (f_rest x)). split; [rewrite nth_modify, Nat.eqb_refl, E; reflexivity|]. split; [exact Vp|]. split; [apply val_ReadBackoff|reflexivity]. }
  pose proof (r_len _ _ _ _ R) as RL. pose proof (r_bound _ _ _ _ R) as RB.
  unfold VInsert. destruct (is_unk s) eqn:Us.
  - destruct (Nat.ltb_spec 0 (length u)) as [Hw|]; [|lia].
    apply IH; [rewrite app_length; cbn; lia|intros l Hl; apply HB; right; exact Hl|]. specialize (New 0%nat Hw).
    assert (Hl : is_line "<unk>" (p, s, b) = true) by (unfold is_line; cbn; rewrite (canon_unk s Us); reflexivity).
    assert (Hn : forall x, is_unk x = false -> is_line x (p, s, b) = false).
    { intros x Ux. unfold is_line. cbn. rewrite (canon_unk s Us). destruct (String.eqb_spec "<unk>" x) as [<-|]; [discriminate|reflexivity]. }
    constructor; cbn [v_words v_bound v_saw_unk].
    + rewrite modify_nth_length. exact RL.
    + rewrite app_length. cbn. lia.
    + rewrite existsb_app. cbn [existsb]. rewrite Hl. destruct (existsb _ pre); reflexivity.
    + apply (r_words _ _ _ _ R).
    + apply (r_inj _ _ _ _ R).
    + intros x Ux. pose proof (r_find _ _ _ _ R x Ux) as F. unfold lines_of in *. rewrite filter_app. cbn [filter]. rewrite (Hn x Ux), app_nil_r.
      destruct (List.find _ (v_words v)) as [q|] eqn:E; [|exact F]. destruct F as (l & F1 & F2). exists l. split; [exact F1|]. apply holds_other; [|exact F2]. apply find_words in E. apply (r_words _ _ _ _ R) in E. lia.
    + intros l. unfold lines_of. rewrite filter_app. cbn [filter]. rewrite Hl, rev_app_distr. cbn. intros [= <-]. exact New.
    + exact Fine.
  - destruct (Nat.ltb_spec (v_bound v) (length u)) as [Hw|]; [|lia].
    apply IH; [rewrite app_length; cbn; lia|intros l Hl; apply HB; right; exact Hl|]. specialize (New (v_bound v) Hw).
    assert (Hs : forall x, is_line x (p, s, b) = String.eqb s x) by (intros x; unfold is_line; cbn; rewrite (canon_other s Us); reflexivity).
    assert (Nu : String.eqb s "<unk>" = false) by (pose proof Us as Us'; rewrite is_unk_canon, (canon_other s Us) in Us'; exact Us').
    constructor; cbn [v_words v_bound v_saw_unk].
    + rewrite modify_nth_length. exact RL.
    + rewrite app_length. cbn. lia.
    + rewrite existsb_app. cbn [existsb]. rewrite Hs, Nu, !orb_false_r. apply (r_saw _ _ _ _ R).
    + intros x i Hi. apply in_app_or in Hi. destruct Hi as [Hi|[[= <- <-]|[]]]; [destruct (r_words _ _ _ _ R x i Hi); split; [assumption|lia]|split; [exact Us|lia]].
    + intros s1 s2 i H1 H2. apply in_app_or in H1. apply in_app_or in H2.
      destruct H1 as [H1|[[= <- <-]|[]]], H2 as [H2|[E2|[]]].
      * apply (r_inj _ _ _ _ R s1 s2 i); assumption.
      * injection E2 as <- <-. apply (r_words _ _ _ _ R) in H1. lia.
      * apply (r_words _ _ _ _ R) in H2. lia.
      * injection E2 as <-. reflexivity.
    + intros x Ux. pose proof (r_find _ _ _ _ R x Ux) as F. unfold lines_of in *. rewrite filter_app. cbn [filter]. rewrite Hs, find_snoc. cbn [fst].
      destruct (List.find _ (v_words v)) as [q|] eqn:E.
      * destruct F as (l & F1 & F2). exists l. split; [destruct (filter (is_line x) pre); [discriminate|exact F1]|]. apply holds_other; [|exact F2]. apply find_words in E. apply (r_words _ _ _ _ R) in E. lia.
      * rewrite F. destruct (String.eqb_spec s x) as [->|]; [|reflexivity]. exists (p, x, b). split; [reflexivity|exact New].
    + intros l. unfold lines_of. rewrite filter_app. cbn [filter]. rewrite Hs, Nu, app_nil_r. intros H. apply holds_other; [lia|]. apply (r_unk _ _ _ _ R), H.
    + exact Fine.
Qed.

Lemma RInv_start L : (1 <= L)%nat -> RInv L [] (Vocab [] 1 false) (repeat (c_mem c) L).
Proof.
  intros HL. constructor; cbn; try (intros; contradiction); try lia; try reflexivity.
  - apply repeat_length.
  - discriminate.
  - constructor.
Qed.

(** ** Words and ids *)
Section Ids.
Variable a : arpa.
Variable v : vocab.
Variable u : list fw.
Variable L : nat.
Hypothesis R : RInv L (one a) v u.
Notation idx := (Index v).

Definition normal (s : string) : Prop := norm a s = s.

Lemma listed_find s : is_unk s = false -> (listed a s = true <-> List.find (fun p => String.eqb (fst p) s) (v_words v) <> None).
Proof.
  intros Us. pose proof (r_find _ _ _ _ R s Us) as F. unfold listed. rewrite (canon_other s Us). unfold lines_of in F. split.
  - intros H E. rewrite E in F. apply existsb_exists in H. destruct H as (l & Hi & Hl). assert (In l (filter (is_line s) (one a))) by (apply filter_In; auto). rewrite F in H. exact H.
  - intros H. destruct (List.find _ (v_words v)) as [q|]; [|congruence]. destruct F as (l & F1 & _). apply existsb_exists. exists l. apply filter_In. destruct (filter _ _); [discriminate|]. injection F1 as ->. left. reflexivity.
Qed.

Lemma idx_unk s : is_unk s = true -> idx s = 0%nat.
Proof.
  intros Us. unfold Index. destruct (List.find _ (v_words v)) as [q|] eqn:E; [|reflexivity]. apply find_words in E. apply (r_words _ _ _ _ R) in E. destruct E. congruence.
Qed.
Lemma idx_unlisted s : listed a s = false -> idx s = 0%nat.
Proof.
  intros H. destruct (is_unk s) eqn:Us; [apply idx_unk, Us|]. unfold Index. destruct (List.find _ (v_words v)) eqn:E; [|reflexivity]. assert (listed a s = true) by (apply listed_find; [exact Us|rewrite E; discriminate]). congruence.
Qed.
Lemma idx_known s : listed a s = true -> is_unk s = false -> In (s, idx s) (v_words v) /\ (1 <= idx s < L)%nat /\ (idx s < length u)%nat.
Proof.
  intros H Us. pose proof (proj1 (listed_find s Us) H) as F. unfold Index. destruct (List.find _ (v_words v)) as [q|] eqn:E; [|congruence].
  pose proof (r_find _ _ _ _ R s Us) as F'. rewrite E in F'. destruct F' as (l & _ & (w & Hw & _)). assert (snd q < length u)%nat by (apply nth_error_Some; rewrite Hw; discriminate).
  apply find_words in E. split; [exact E|]. apply (r_words _ _ _ _ R) in E. rewrite <- (r_len _ _ _ _ R). lia.
Qed.
Lemma idx_norm s : idx (norm a s) = idx s.
Proof.
  unfold norm. destruct (listed a s) eqn:E; [|rewrite (idx_unlisted s E); apply idx_unk; reflexivity].
  destruct (is_unk s) eqn:Us; [rewrite (canon_unk s Us), (idx_unk s Us); apply idx_unk; reflexivity|rewrite (canon_other s Us); reflexivity].
Qed.
Lemma norm_normal s : normal (norm a s).
Proof.
  unfold normal. unfold norm at 2 3. destruct (listed a s) eqn:E.
  - unfold norm. replace (listed a (canon s)) with true; [apply canon_idem|]. unfold listed. rewrite canon_idem. symmetry. exact E.
  - unfold norm. destruct (listed a "<unk>"); reflexivity.
Qed.
Lemma normal_cases s : normal s -> s = "<unk>"%string \/ (listed a s = true /\ is_unk s = false).
Proof.
  unfold normal, norm. destruct (listed a s) eqn:E; [|intros <-; left; reflexivity]. intros H. destruct (is_unk s) eqn:Us; [|auto]. rewrite (canon_unk s Us) in H. auto.
Qed.
Hypothesis L1 : (1 <= L)%nat.
Lemma idx_range s : (idx s < L)%nat.
Proof.
  destruct (normal_cases _ (norm_normal s)) as [E|(E1 & E2)]; rewrite <- (idx_norm s).
  - rewrite E, idx_unk by reflexivity. lia.
  - apply (idx_known _ E1 E2).
Qed.
Lemma idx_zero s : normal s -> idx s = 0%nat -> s = "<unk>"%string.
Proof. intros N E. destruct (normal_cases s N) as [->|(E1 & E2)]; [reflexivity|]. destruct (idx_known s E1 E2). lia. Qed.
Lemma idx_inj s1 s2 : normal s1 -> normal s2 -> idx s1 = idx s2 -> s1 = s2.
Proof.
  intros N1 N2 E. destruct (normal_cases s1 N1) as [->|(E1 & F1)].
  - symmetry. apply idx_zero; [exact N2|]. rewrite <- E. apply idx_unk. reflexivity.
  - destruct (normal_cases s2 N2) as [->|(E2 & F2)].
    + apply idx_zero; [exact N1|]. rewrite E. apply idx_unk. reflexivity.
    + destruct (idx_known s1 E1 F1) as (I1 & _), (idx_known s2 E2 F2) as (I2 & _). rewrite E in I1. apply (r_inj _ _ _ _ R _ _ _ I1 I2).
Qed.
Lemma map_idx_inj g1 : forall g2, Forall normal g1 -> Forall normal g2 -> map idx g1 = map idx g2 -> g1 = g2.
Proof.
  induction g1 as [|x g1 IH]; intros [|y g2] H1 H2 E; try discriminate; [reflexivity|]. injection E as E1 E2. inversion H1; subst. inversion H2; subst. f_equal; [apply idx_inj; assumption|apply IH; assumption].
Qed.

Lemma saw_listed : v_saw_unk v = listed a "<unk>".
Proof. rewrite (r_saw _ _ _ _ R). reflexivity. Qed.

Lemma idx_canon s : idx (canon s) = idx s.
Proof. destruct (is_unk s) eqn:Us; [rewrite (canon_unk s Us), (idx_unk s Us); apply idx_unk; reflexivity|rewrite (canon_other s Us); reflexivity]. Qed.

Definition fine_word (s : string) : Prop := listed a s = true \/ canon s = "<unk>"%string.
Lemma fine_normal s : fine_word s -> normal (canon s).
Proof.
  intros [H|H].
  - replace (canon s) with (norm a s); [apply norm_normal|]. unfold norm. rewrite H. reflexivity.
  - rewrite H. unfold normal, norm. destruct (listed a "<unk>"); reflexivity.
Qed.

Lemma read_words_ok (Bad : Prop) ws : (forall s, In s ws -> ~ fine_word s -> Bad) -> safe Bad (read_words v ws) (fun ids => ids = map idx ws /\ Forall fine_word ws).
Proof.
  induction ws as [|s ws IH]; intros HB; cbn [read_words]; [cbn; split; [reflexivity|constructor]|]. cbv zeta.
  destruct (andb (Nat.eqb (idx s) 0) (negb (is_unk s))) eqn:E.
  - cbn. apply (HB s); [left; reflexivity|]. apply andb_prop in E. destruct E as (E1 & E2). apply Nat.eqb_eq in E1. apply negb_true_iff in E2. intros [F|F].
    + destruct (idx_known s F E2). lia.
    + rewrite is_unk_canon, F in E2. discriminate.
  - eapply safe_bind; [apply IH; intros s' Hs'; apply HB; right; exact Hs'|]. intros r (-> & F). cbn. split; [reflexivity|]. constructor; [|exact F].
    destruct (is_unk s) eqn:Us; [right; apply canon_unk, Us|]. left. destruct (listed a s) eqn:El; [reflexivity|]. rewrite (idx_unlisted s El) in E. discriminate.
Qed.

(** The weights of the unigrams *)
Lemma unigram_weights s l : normal s -> unigram_line a s = Some l -> holds u (idx s) l.
Proof.
  intros N. unfold unigram_line. destruct (normal_cases s N) as [->|(E1 & F1)].
  - rewrite idx_unk by reflexivity. apply (r_unk _ _ _ _ R).
  - destruct (String.eqb_spec s "<unk>") as [->|_]; [discriminate|]. intros H. pose proof (r_find _ _ _ _ R s F1) as F. unfold Index. unfold lines_of in F. destruct (List.find _ (v_words v)) as [q|]; [|rewrite F in H; discriminate].
    destruct F as (l' & F2 & F3). rewrite H in F2. injection F2 as <-. exact F3.
Qed.
Lemma unigram_unlisted s : normal s -> unigram_line a s = None -> s = "<unk>"%string /\ listed a "<unk>" = false.
Proof.
  intros N H. destruct (normal_cases s N) as [->|(E1 & F1)].
  - split; [reflexivity|]. destruct (listed a "<unk>") eqn:E; [|reflexivity]. exfalso. unfold listed in E. apply existsb_exists in E. destruct E as (l & Hi & Hl).
    assert (Hf : In l (filter (is_line "<unk>") (one a))) by (apply filter_In; auto). unfold unigram_line in H. cbn in H. destruct (rev (filter (is_line "<unk>") (one a))) as [|y r] eqn:Er; [|discriminate]. apply in_rev in Hf. rewrite Er in Hf. exact Hf.
  - exfalso. unfold listed in E1. apply existsb_exists in E1. destruct E1 as (l & Hi & Hl). rewrite (canon_other s F1) in Hl. assert (Hf : In l (filter (is_line s) (one a))) by (apply filter_In; auto).
    unfold unigram_line in H. destruct (String.eqb s "<unk>"); [apply in_rev in Hf; destruct (rev _)|destruct (filter _ _)]; try discriminate; exact Hf.
Qed.
End Ids.
End Vocab.
