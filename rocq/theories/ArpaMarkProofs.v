(** The marks on back-off weights: set only where they must be. *)
From Coq Require Import String List ZArith NArith Bool Lia.
Import ListNotations.
From Verif Require Import Lm LmSpec Arpa ArpaSpec ArpaProofs ArpaLoadProofs ArpaVocabProofs ArpaFileProofs.
Open Scope Z_scope.
Open Scope res_scope.

Lemma rbind_ok {A B} (r : res A) (k : A -> res B) b : rbind r k = Ok b -> exists a, r = Ok a /\ k a = Ok b.
Proof. destruct r; cbn; try discriminate. eauto. Qed.
Lemma Has_ReadBackoff b : HasExtension (ReadBackoff b) = true -> val (ReadBackoff b) <> 0.
Proof. unfold ReadBackoff. destruct b as [x|]; [|discriminate]. destruct (Z.eqb_spec (val x) 0) as [E|E]; [discriminate|auto]. Qed.

Section Marks.
Variable c : config.
Variable order : nat.
Variable count : nat -> nat.
Hypothesis order2 : (2 <= order)%nat.
Notation view := (view order).

(** No entry is new, and outside [S] no back-off weight or its mark changed. *)
Definition only (S : ngram -> Prop) (t t' : tables) : Prop :=
  forall h w', view t' h = Some w' -> exists w, view t h = Some w /\ (S h \/ f_backoff w' = f_backoff w).
Lemma only_refl S t : only S t t.
Proof. intros h w V. exists w. auto. Qed.
Lemma only_trans S t1 t2 t3 : only S t1 t2 -> only S t2 t3 -> only S t1 t3.
Proof. intros A B h w3 V. destruct (B h w3 V) as (w2 & V2 & E2). destruct (A h w2 V2) as (w1 & V1 & E1). exists w1. split; [exact V1|]. destruct E1, E2; try (left; assumption). right. congruence. Qed.
Lemma only_put (S : ngram -> Prop) t p x w : view t p = Some w -> (length p < order)%nat -> S p \/ f_backoff x = f_backoff w -> only S t (put t p x).
Proof.
  intros V L E h w' V'. rewrite (view_put order order2 t p x h w V L) in V'. destruct (gdec h p) as [->|N]; [|exists w'; auto]. injection V' as <-. exists w. auto.
Qed.
Lemma mark_backoff w to : f_backoff (fst (MarkExtends c w to)) = f_backoff w.
Proof. unfold MarkExtends. destruct (c_build c); [|destruct (val to <=? val (f_rest w))|]; reflexivity. Qed.
Lemma only_get_put (S : ngram -> Prop) t p x w : get order t p = Ok w -> S p \/ f_backoff x = f_backoff w -> only S t (put t p x).
Proof. intros G E. apply get_view in G; [|exact order2]. destruct G. eapply only_put; eassumption. Qed.

Section Ngram.
Variable g : ngram.
Variable n : nat.
Hypothesis Lg : length g = n.
Hypothesis Hn : (2 <= n <= order)%nat.
Definition inner (h : ngram) : Prop := exists j, (1 <= j < n - 1)%nat /\ h = firstn j (tl g).

Lemma adjust_loop_only changes : forall basis p t t', (2 <= basis)%nat -> adjust_loop c order changes basis n g p t = Ok t' -> only inner t t'.
Proof.
  induction changes as [|ch changes IH]; intros basis p t t' Hb E; cbn [adjust_loop] in E; (destruct (Nat.ltb_spec basis (n - 1)) as [Hl|Hl]; [|injection E as <-; apply only_refl]); [discriminate|].
  destruct (mid_ok order (basis - 2)) eqn:Em; [|discriminate]. unfold mid_ok in Em. apply Nat.ltb_lt in Em. cbv zeta in E.
  assert (Lc : length (firstn basis (tl g)) = basis) by (rewrite firstn_length, tl_length'; lia).
  set (q := firstn basis (tl g)) in *.
  assert (K : let '(p', t1) := match find q (t_mid t (basis - 2)) with Some w => (fadd p (SetExtension (f_backoff w)), put t q (set_backoff w (SetExtension (f_backoff w)))) | None => (p, t) end in only inner t t1).
  { destruct (find q (t_mid t (basis - 2))) as [w|] eqn:Ef; [|apply only_refl]. apply only_put with (w := w); [rewrite view_mid by lia; rewrite Lc; exact Ef|lia|]. left. exists basis. split; [lia|reflexivity]. }
  destruct (match find q (t_mid t (basis - 2)) with Some w => (fadd p (SetExtension (f_backoff w)), put t q (set_backoff w (SetExtension (f_backoff w)))) | None => (p, t) end) as (p', t1).
  apply rbind_ok in E. destruct E as (w & Gw & E). eapply only_trans; [exact K|]. eapply only_trans; [|refine (IH (Datatypes.S basis) _ _ _ _ E); lia].
  eapply only_get_put; [exact Gw|]. right. rewrite (proj2 (SetRest_prob c _ _)). reflexivity.
Qed.

Lemma mark_between_only (S : ngram -> Prop) l : forall longer t t', mark_between c order l longer t = Ok t' -> only S t t'.
Proof.
  induction l as [|p l IH]; intros longer t t' E; cbn [mark_between] in E; [injection E as <-; apply only_refl|].
  apply rbind_ok in E. destruct E as (w & Gw & E). pose proof (mark_backoff w longer) as Mb. destruct (MarkExtends c w longer) as (w1, b). cbn [fst] in Mb.
  eapply only_trans; [|apply (IH _ _ _ E)]. eapply only_get_put; [exact Gw|]. right. exact Mb.
Qed.
Lemma MarkLower_only (S : ngram -> Prop) k : forall longer t t', MarkLower c order k g longer t = Ok t' -> only S t t'.
Proof.
  induction k as [|i IH]; intros longer t t' E; cbn [MarkLower] in E; [injection E as <-; apply only_refl|].
  apply rbind_ok in E. destruct E as (w & Gw & E). pose proof (mark_backoff w longer) as Mb. destruct (MarkExtends c w longer) as (w1, b). cbn [fst] in Mb.
  assert (K : only S t (put t (firstn (Datatypes.S i) g) w1)) by (eapply only_get_put; [exact Gw|right; exact Mb]).
  destruct (Nat.eqb i 0); [injection E as <-; exact K|]. destruct b; [|injection E as <-; exact K]. eapply only_trans; [exact K|apply (IH _ _ _ E)].
Qed.

Lemma AdjustLower_only added between t t' : AdjustLower c order added between n g t = Ok t' -> only inner t t'.
Proof.
  unfold AdjustLower. intros E. assert (Lr : length (rev between) = length between) by apply rev_length. destruct (rev between) as [|back [|ch changes]]; [discriminate| |].
  - apply rbind_ok in E. destruct E as (w & Gw & E). injection E as <-. eapply only_get_put; [exact Gw|]. right. apply mark_backoff.
  - cbn [length] in Lr. apply rbind_ok in E. destruct E as (bw & Gb & E). cbv zeta in E. destruct (Nat.eqb_spec (n - length between) 0) as [|N0]; [discriminate|].
    apply rbind_ok in E. destruct E as ((((p, basis), chs), t1) & E1 & E). apply rbind_ok in E. destruct E as (t2 & E2 & E).
    assert (K1 : only inner t t1 /\ (2 <= basis)%nat).
    { destruct (Nat.eqb_spec (n - length between) 1) as [N1|N1].
      - destruct (two_items g ltac:(lia)) as (a & v1 & l & Eg). rewrite Eg in E1. apply rbind_ok in E1. destruct E1 as (u & Gu & E1). apply rbind_ok in E1. destruct E1 as (w & Gw & E1). injection E1 as _ <- _ <-. split; [|lia].
        eapply only_trans; [eapply only_get_put; [exact Gu|left]|eapply only_get_put; [exact Gw|right; rewrite (proj2 (SetRest_prob c _ _)); reflexivity]].
        exists 1%nat. split; [lia|]. rewrite Eg. reflexivity.
      - injection E1 as _ <- _ <-. split; [apply only_refl|lia]. }
    destruct K1 as (K1 & Hb). eapply only_trans; [exact K1|]. eapply only_trans; [apply (adjust_loop_only _ _ _ _ _ Hb E2)|]. eapply mark_between_only, E.
Qed.

Lemma activate_only t t' : activate order n g t = Ok t' -> only (fun h => h = tl g) t t'.
Proof.
  unfold activate. intros E. destruct (two_items g ltac:(lia)) as (a & v1 & l & Eg). destruct (Nat.eqb_spec n 2) as [N2|N2].
  - rewrite Eg in *. cbn [length] in Lg. assert (l = []) by (destruct l; [reflexivity|cbn in Lg; lia]). subst l. apply rbind_ok in E. destruct E as (u & Gu & E). injection E as <-. change (only (fun h => h = tl [a; v1]) t (put t [v1] (set_backoff u (SetExtension (f_backoff u))))). eapply only_get_put; [exact Gu|]. left. reflexivity.
  - destruct (mid_ok order (n - 3)) eqn:Em; [|discriminate]. unfold mid_ok in Em. apply Nat.ltb_lt in Em. assert (Lt : length (tl g) = (n - 1)%nat) by (rewrite tl_length'; lia). destruct (find (tl g) (t_mid t (n - 3))) as [w|] eqn:Ef; [|discriminate]. injection E as <-.
    apply only_put with (w := w); [|lia|left; reflexivity]. rewrite view_mid by lia. rewrite Lt. replace (n - 1 - 2)%nat with (n - 3)%nat by lia. exact Ef.
Qed.

Lemma FindLower_only k : forall t t' between, (k + 2 <= n)%nat -> FindLower c order count k g t = Ok (t', between) ->
  forall h w', view t' h = Some w' -> view t h = Some w' \/ HasExtension (f_backoff w') = false.
Proof.
  induction k as [|i IH]; intros t t' between Hk E h w' V; cbn [FindLower] in E; [injection E as <- _; auto|].
  destruct (mid_ok order i) eqn:Em; [|discriminate]. unfold mid_ok in Em. apply Nat.ltb_lt in Em. cbv zeta in E.
  destruct (find (firstn (i + 2) g) (t_mid t i)) as [w|] eqn:Ef; [injection E as <- _; auto|]. destruct (Nat.leb _ _); [discriminate|].
  apply rbind_ok in E. destruct E as ((t2, bt) & E1 & E). injection E as <- _.
  destruct (IH _ _ _ ltac:(lia) E1 h w' V) as [V2|]; [|auto].
  assert (Lq : length (firstn (i + 2) g) = (i + 2)%nat) by (rewrite firstn_length; lia). set (q := firstn (i + 2) g) in *.
  replace i with (length q - 2)%nat in V2 at 1 2 by lia. rewrite (view_mid_app order order2 t q) in V2 by lia. destruct (gdec h q) as [->|]; [|auto].
  rewrite view_mid in V2 by lia. rewrite Lq in V2. replace (i + 2 - 2)%nat with i in V2 by lia. rewrite Ef in V2. injection V2 as <-. right. reflexivity.
Qed.

Variable ok : ngram -> Prop.
(** A mark belongs to a weight, or to the context of an n-gram. *)
Definition needed (t : tables) : Prop :=
  forall h w, ok h -> view t h = Some w -> HasExtension (f_backoff w) = true -> val (f_backoff w) <> 0 \/ exists x, view t (x :: h) <> None.

Lemma insert_line_needed p back t t6 : insert_line c order count n p back g t = Ok t6 ->
  (forall h, view t h <> None -> view t6 h <> None) -> (forall j, (1 <= j <= n)%nat -> view t6 (firstn j g) <> None) -> needed t -> needed t6.
Proof.
  unfold insert_line. cbv zeta. intros E Old New N h w6 Hok V6 He.
  apply rbind_ok in E. destruct E as ((t1, added) & E1 & E). apply rbind_ok in E. destruct E as ((t2, between) & E2 & E). apply rbind_ok in E. destruct E as (t3 & E3 & E). apply rbind_ok in E. destruct E as (t4 & E4 & E).
  set (S0 := fun h : ngram => exists j, (1 <= j <= n - 1)%nat /\ h = firstn j (tl g)).
  assert (Wk : forall (S S' : ngram -> Prop) t t', (forall h, S h -> S' h) -> only S t t' -> only S' t t').
  { intros S S' ta tb Hs K h' w' V. destruct (K h' w' V) as (w & V' & [H|H]); exists w; split; auto. }
  assert (K : only S0 t2 t6).
  { eapply only_trans; [eapply Wk; [|apply (AdjustLower_only _ _ _ _ E3)]; intros h' (j & Hj & ->); exists j; split; [lia|reflexivity]|].
    eapply only_trans; [|eapply Wk; [|apply (activate_only _ _ E)]; intros h' ->; exists (n - 1)%nat; split; [lia|symmetry; apply firstn_all2; rewrite tl_length'; lia]].
    destruct (kMarkEvenLower c); [|injection E4 as <-; apply only_refl]. destruct (rev between); [discriminate|]. apply rbind_ok in E4. destruct E4 as (wb & _ & E4). eapply MarkLower_only, E4. }
  destruct (K h w6 V6) as (w2 & V2 & [(j & Hj & ->)|Eb]).
  { right. destruct (two_items g ltac:(lia)) as (a & b & l & Eg). exists a. replace (a :: firstn j (tl g)) with (firstn (Datatypes.S j) g) by (rewrite Eg; reflexivity). apply New. lia. }
  rewrite Eb in *. destruct (FindLower_only (n - 2) _ _ _ ltac:(lia) E2 h w2 V2) as [V1|F]; [|congruence].
  assert (C1 : view t h = Some w2 \/ (HasExtension (f_backoff w2) = true -> val (f_backoff w2) <> 0)).
  { destruct (Nat.eqb_spec n order) as [En|Nn].
    - destruct (negb (ReadNoBackoff back)); [discriminate|]. destruct (Nat.leb _ _); [discriminate|]. injection E1 as <- _. rewrite view_long_app in V1 by lia. destruct (gdec h g) as [->|]; [|auto]. destruct (view t g); [auto|]. injection V1 as <-. right. discriminate.
    - destruct (mid_ok order (n - 2)) eqn:Em; [|discriminate]. destruct (Nat.leb _ _); [discriminate|]. injection E1 as <- _. replace (n - 2)%nat with (length g - 2)%nat in V1 by lia. rewrite (view_mid_app order order2 t g) in V1 by lia. destruct (gdec h g) as [->|]; [|auto]. destruct (view t g); [auto|]. injection V1 as <-. right.
      cbn [set_prob f_backoff]. rewrite (proj2 (SetRest_prob c _ _)). apply Has_ReadBackoff. }
  destruct C1 as [V0|C1]; [|left; auto]. destruct (N h w2 Hok V0 He) as [Hv|(x & Vx)]; [auto|]. right. exists x. apply Old, Vx.
Qed.
End Ngram.
End Marks.

Section File.
Variable c : config.
Variable a : arpa.
Variable v : vocab.
Variable u : list fw.
Notation L := (length (one a) + 1)%nat.
Hypothesis R : RInv c L (one a) v u.
Notation order := (S (length (more a))).
Hypothesis order2 : (2 <= order)%nat.
Notation count := (fun n => match n with 1%nat => length (one a) | _ => length (nth (n - 2) (more a) []) end).
Notation sec := (sec a v).
Notation Inv := (Inv order sec (uni0 c a u)).
Notation view := (view order).
Variable ok : ngram -> Prop.
Notation needed := (needed order ok).

Lemma ReadNGram_needed n pre l post t t' : (2 <= n <= order)%nat -> nth (n - 2) (more a) [] = pre ++ l :: post ->
  Inv n (map (entry_of v) pre) t -> needed t -> ReadNGram c order count n v l t = Ok t' -> Inv n (map (entry_of v) (pre ++ [l])) t' /\ needed t'.
Proof.
  intros Hn Hsec I0 N0 E. pose proof (ReadNGram_ok c a v u R order2 True n pre l post t Hn Hsec (fun _ => I) (fun _ => I) I0) as H. rewrite E in H. destruct H as (I1 & F). split; [exact I1|].
  unfold ReadNGram in E. destruct (Nat.eqb_spec (length (l_words l)) n) as [Ln|]; [|discriminate]. cbn [negb] in E.
  apply rbind_ok in E. destruct E as (p & _ & E). apply rbind_ok in E. destruct E as (ids & E1 & E).
  pose proof (read_words_ok c a v u L R ltac:(lia) True (l_words l)) as H. rewrite E1 in H. destruct H as (-> & _); [exact (fun _ _ _ => I)|].
  change (insert_line c order count n p (l_back l) (rev (map (Index v) (l_words l))) t = Ok t') in E. set (g := rev (map (Index v) (l_words l))) in *.
  assert (Lg : length g = n) by (unfold g; rewrite rev_length, map_length; exact Ln).
  eapply (insert_line_needed c order count order2 g n Lg Hn); [exact E| | |exact N0].
  - intros h V. apply (i_pres _ _ _ _ _ _ I1). apply (i_pres _ _ _ _ _ _ I0) in V. destruct V as [V|(V1 & d & D & Ed)]; [left; exact V|right; split; [exact V1|]; exists d; split; [|exact Ed]].
    destruct D as [D|D]; [left; exact D|]. right. rewrite map_app, map_app. apply in_or_app. left. exact D.
  - intros j Hj. apply (i_pres _ _ _ _ _ _ I1). assert (Lj : length (firstn j g) = j) by (rewrite firstn_length; lia). rewrite Lj.
    destruct (Nat.eq_dec j 1) as [->|Nj].
    + left. destruct (two_items g ltac:(lia)) as (x & y & r & Eg). exists x. split; [rewrite Eg; reflexivity|]. rewrite (uni0_length c a v u R). assert (Hx : In x g) by (rewrite Eg; left; reflexivity). unfold g in Hx. apply in_rev in Hx. apply in_map_iff in Hx. destruct Hx as (s & <- & _). apply (idx_range c a v u L R ltac:(lia)).
    + right. split; [lia|]. exists g. split; [|reflexivity]. right. rewrite map_app, map_app. apply in_or_app. right. left. reflexivity.
Qed.

Lemma ReadNGrams_needed n ls : forall pre t t', (2 <= n <= order)%nat -> nth (n - 2) (more a) [] = pre ++ ls ->
  Inv n (map (entry_of v) pre) t -> needed t -> ReadNGrams c order count n v ls t = Ok t' -> Inv n (sec n) t' /\ needed t'.
Proof.
  induction ls as [|l ls IH]; intros pre t t' Hn Hs I0 N0 E; cbn [ReadNGrams] in E.
  - injection E as <-. split; [|exact N0]. unfold ArpaFileProofs.sec. rewrite Hs, app_nil_r. exact I0.
  - apply rbind_ok in E. destruct E as (t1 & E1 & E). destruct (ReadNGram_needed n pre l ls t t1 Hn Hs I0 N0 E1) as (I1 & N1).
    apply (IH (pre ++ [l]) t1 t'); [exact Hn|rewrite Hs, <- app_assoc; reflexivity|exact I1|exact N1|exact E].
Qed.

Lemma ReadSections_needed ss : forall n pre t t', more a = pre ++ ss -> n = (length pre + 2)%nat ->
  Inv n [] t -> needed t -> ReadSections c order count n v ss t = Ok t' -> needed t'.
Proof.
  induction ss as [|ls ss IH]; intros n pre t t' Hm Hn I0 N0 E; cbn [ReadSections] in E; [injection E as <-; exact N0|].
  assert (Hlen : length (more a) = (length pre + S (length ss))%nat) by (rewrite Hm, app_length; reflexivity).
  assert (Hls : nth (n - 2) (more a) [] = ls) by (rewrite Hm, app_nth2 by lia; replace (n - 2 - length pre)%nat with 0%nat by lia; reflexivity).
  apply rbind_ok in E. destruct E as (t1 & E1 & E). destruct (ReadNGrams_needed n ls [] t t1 ltac:(lia) Hls I0 N0 E1) as (I1 & N1).
  apply (IH (S n) (pre ++ [ls]) t1 t'); [rewrite <- app_assoc; exact Hm|rewrite app_length; cbn; lia|apply Inv_next; [exact order2|lia|exact I1]|exact N1|exact E].
Qed.
End File.


Lemma load_needed c a v t (ok : ngram -> Prop) : LoadARPA c a = Ok (v, t) ->
  exists u t0, RInv c (length (one a) + 1) (one a) v u /\ Inv (S (length (more a))) (sec a v) (uni0 c a u) (S (S (length (more a)))) [] t0
    /\ t = (if listed a "<unk>" then t0 else with_unk c t0)
    /\ ((forall i x, ok [i] -> nth_error (uni0 c a u) i = Some x -> HasExtension (f_backoff x) = true -> val (f_backoff x) <> 0) -> needed (S (length (more a))) ok t0).
Proof.
  intros E. unfold LoadARPA in E. cbv zeta in E. destruct (orb (Nat.ltb (c_max c) (S (length (more a)))) (Nat.ltb (S (length (more a))) 2)) eqn:Eo; [discriminate|].
  apply orb_false_elim in Eo. destruct Eo as (_ & Eo2). apply Nat.ltb_ge in Eo2.
  apply rbind_ok in E. destruct E as ((v0, u) & E1 & E).
  pose proof (Read1Grams_ok c True (length (one a) + 1) (one a) [] _ _ ltac:(cbn; lia) (fun _ _ _ => I) (RInv_start c (length (one a) + 1) ltac:(lia))) as R. rewrite E1 in R. cbn [safe fst snd app] in R.
  destruct (orb _ _); [discriminate|]. apply rbind_ok in E. destruct E as (t0 & E2 & E). injection E as -> Et. exists u, t0. split; [exact R|].
  pose proof (Inv_start c a v u Eo2) as I0.
  pose proof (ReadSections_ok c a v u R Eo2 True (more a) 2 [] _ eq_refl eq_refl (fun _ => I) (fun _ _ _ _ => I) I0) as H. unfold uni0 in H. rewrite E2 in H. cbn [safe] in H. destruct H as (I1 & _). split; [exact I1|].
  split; [rewrite <- Et, (saw_listed c a v u _ R); destruct (listed a "<unk>"); reflexivity|].
  intros Hok. eapply (ReadSections_needed c a v u R Eo2 ok (more a) 2 [] _ t0 eq_refl eq_refl I0); [|exact E2].
  intros h w Ho V He. destruct h as [|x [|y h]]; [discriminate|left; apply (Hok x w Ho V He)|].
  exfalso. unfold view in V. destruct (Nat.ltb _ _); [discriminate|]. destruct (Nat.eqb _ _); discriminate.
Qed.

(** The words of an n-gram are only marked as a context if the file gives them a back-off
    weight, or some n-gram of the file goes on after them. *)
Theorem load_marks c a v t g w : LoadARPA c a = Ok (v, t) -> listed a "<unk>" = true \/ map (norm a) g <> ["<unk>"%string] ->
  entry (to_search c a t) (map (Index v) g) = Some w -> has_ext w = true ->
  file_bow a (map (norm a) g) <> 0 \/ exists n l x older, line_of a n l /\ map canon (l_words l) = older ++ rev (map (norm a) g) ++ [x].
Proof.
  intros E Hu Hent Hext. destruct (load_checks c a v t E) as (OC & _ & LF). destruct OC as (O2 & _).
  destruct (load_needed c a v t (fun h => exists hs, Forall (normal a) hs /\ h = map (Index v) hs /\ (listed a "<unk>" = true \/ hs <> ["<unk>"%string])) E) as (u & t0 & R & I0 & Et & N).
  set (L := (length (one a) + 1)%nat) in *. assert (L1 : (1 <= L)%nat) by (unfold L; lia).
  assert (Eg : map (Index v) g = map (Index v) (map (norm a) g)) by (rewrite map_map; apply map_ext; intros s; symmetry; apply (idx_norm c a v u L R)).
  assert (Ng : Forall (normal a) (map (norm a) g)) by (apply Forall_forall; intros x Hx; apply in_map_iff in Hx; destruct Hx as (s & <- & _); apply norm_normal).
  rewrite Eg in Hent. set (g' := map (norm a) g) in *. clearbody g'. clear Eg.
  assert (Line : forall s, normal a s -> listed a "<unk>" = true \/ [s] <> ["<unk>"%string] -> exists l, unigram_line a s = Some l).
  { intros s Ns Hs. destruct (unigram_line a s) as [l|] eqn:El; [eauto|]. exfalso. destruct (unigram_unlisted a s Ns El) as (-> & Hl). destruct Hs as [Hs|Hs]; congruence. }
  assert (N0 : needed (S (length (more a))) (fun h => exists hs, Forall (normal a) hs /\ h = map (Index v) hs /\ (listed a "<unk>" = true \/ hs <> ["<unk>"%string])) t0).
  { apply N. intros i x (hs & Nh & Eh & Hh) Vx. destruct hs as [|s [|s2 hs]]; try discriminate. injection Eh as ->. inversion Nh; subst. destruct (Line s H1 Hh) as (l & El).
    destruct (unigram_weights c a v u L R s l H1 El) as (w0 & Hw & _ & _ & Hb). destruct (SetRests_nth c (length (one a)) u _ _ Hw) as (w' & Hw' & _ & Eb). unfold uni0 in Vx. rewrite Hw' in Vx. injection Vx as <-. rewrite Eb, Hb. apply Has_ReadBackoff. }
  assert (Nz : listed a "<unk>" = true \/ map (Index v) g' <> [0%nat]).
  { destruct Hu as [Hu|Hu]; [auto|]. right. intros Ez. apply Hu. destruct g' as [|s [|s2 g2]]; try discriminate. injection Ez as Ez. inversion Ng; subst. f_equal. apply (idx_zero c a v u L R L1); assumption. }
  assert (Vt : view (S (length (more a))) t (map (Index v) g') = view (S (length (more a))) t0 (map (Index v) g')).
  { rewrite Et. destruct (listed a "<unk>") eqn:El; [reflexivity|]. apply view_with_unk. destruct Nz; [congruence|assumption]. }
  destruct (view (S (length (more a))) t0 (map (Index v) g')) as [x|] eqn:V.
  2:{ exfalso. destruct g' as [|s [|s2 g2]]; [discriminate| |rewrite (view_no_entry c a (proj1 O2) t (proj2 O2)) in Hent; [discriminate|rewrite map_length; cbn; lia|exact Vt]].
      cbn in V. apply nth_error_None in V. rewrite (i_uni _ _ _ _ _ _ I0), (uni0_length c a v u R) in V. pose proof (idx_range c a v u L R L1 s). unfold L in *. lia. }
  rewrite (view_entry c a (proj1 O2) t (proj2 O2) _ _ Vt) in Hent. injection Hent as <-. unfold wt in Hext. destruct (Nat.eqb _ _); [discriminate|]. cbn in Hext.
  destruct (N0 _ x (ex_intro _ g' (conj Ng (conj eq_refl Hu))) V Hext) as [Hv|(y & Vy)].
  - left. rewrite (proj1 (i_val _ _ _ _ _ _ I0 _ _ V)) in Hv. destruct g' as [|s [|s2 g2]]; [contradiction| |].
    + inversion Ng; subst. destruct (Line s H1 Hu) as (l & El). destruct (uni0_ok c a v u R (proj1 O2) s l H1 El) as (w0 & Hw & _ & Hb). unfold bowF in Hv. cbn [map] in Hv. rewrite Hw, Hb in Hv. unfold file_bow. rewrite El. destruct l as ((p, s'), b). exact Hv.
    + unfold bowF in Hv. change (match fentry (sec a v) (map (Index v) (s :: s2 :: g2)) with Some (_, b) => b | None => 0 end <> 0) in Hv. rewrite (fentry_str c a v u R (proj1 O2) LF) in Hv by (try exact Ng; cbn; lia).
      unfold file_bow. destruct (ngram_line a (s :: s2 :: g2)); exact Hv.
  - right. apply (i_pres _ _ _ _ _ _ I0) in Vy. destruct Vy as [(w0 & E0 & _)|(_ & d & D & Ed)].
    { injection E0 as _ E0. destruct g'; [|discriminate]. cbn in V. discriminate. }
    apply (done_all a v (proj1 O2)) in D. destruct D as (n & Hn & Hd). destruct (key_in c a v u R n d Hn Hd) as (l & Hl & ->). cbn [length] in Ed.
    pose proof (line_normal c a LF n l Hl) as Nl. destruct (rev (map canon (l_words l))) as [|z ws] eqn:Ew; [discriminate|]. cbn [map firstn] in Ed. injection Ed as _ Ed. rewrite firstn_map' in Ed. rewrite map_length in Ed.
    inversion Nl; subst. apply (map_idx_inj c a v u L R L1) in Ed; [|exact Ng|apply Forall_firstn; assumption].
    exists n, l, z, (rev (skipn (length g') ws)). split; [exact Hl|]. rewrite <- (rev_involutive (map canon (l_words l))). rewrite Ew. cbn [rev].
    rewrite app_assoc. f_equal. rewrite <- rev_app_distr. rewrite Ed at 1. rewrite firstn_skipn. reflexivity.
Qed.
