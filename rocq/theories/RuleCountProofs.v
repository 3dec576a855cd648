(** Proofs: the counts of rules. *)
From Coq Require Import List ZArith QArith Bool Lia Reals Lra Qreals Permutation.
From Verif Require Import Opt OptProofs Fix FixSpec FixProofs RuleEx RuleExSpec RuleExTargetProofs RuleExPhraseProofs RuleExSourceProofs RuleExLaidProofs RuleExProofs RuleExTopProofs RuleCount RuleCountSpec.
Import ListNotations.
Close Scope R_scope.
Close Scope Q_scope.
Open Scope Z_scope.
Open Scope opt_scope.

(** * Comparisons *)
Record good_cmp {K : Type} (cmp : K -> K -> comparison) : Prop := {
  gc_eq : forall a b, cmp a b = Eq <-> a = b;
  gc_sym : forall a b, cmp a b = CompOpp (cmp b a);
  gc_trans : forall a b c, cmp a b = Lt -> cmp b c = Lt -> cmp a c = Lt }.
Lemma z_good : good_cmp Z.compare.
Proof. split; [intros; apply Z.compare_eq_iff|intros; apply Z.compare_antisym|]. intros a b c. rewrite !Z.compare_lt_iff. lia. Qed.
Lemma pair_good : good_cmp pair_cmp.
Proof.
  unfold pair_cmp. split.
  - intros [a b] [c d]. cbn. destruct (Z.compare_spec a c); destruct (Z.compare_spec b d); split; intros Q; try discriminate; try congruence; injection Q; intros; lia.
  - intros [a b] [c d]. cbn. rewrite (Z.compare_antisym c a), (Z.compare_antisym d b). destruct (c ?= a); reflexivity.
  - intros [a b] [c d] [e f]. cbn. destruct (Z.compare_spec a c); destruct (Z.compare_spec c e); destruct (Z.compare_spec a e); intros P Q; try lia; auto; try discriminate.
    rewrite Z.compare_lt_iff in *. lia.
Qed.
Lemma lex_good {A : Type} (cmp : A -> A -> comparison) : good_cmp cmp -> good_cmp (lex cmp).
Proof.
  intros [E S T]. split.
  - induction a as [|x a IH]; intros [|y b]; cbn [lex]; split; intros Q; try discriminate; auto.
    + destruct (cmp x y) eqn:C; try discriminate. apply E in C. apply IH in Q. congruence.
    + injection Q as -> ->. rewrite (proj2 (E y y) eq_refl). apply IH. auto.
  - induction a as [|x a IH]; intros [|y b]; cbn [lex]; auto. rewrite (S x y). destruct (cmp y x); cbn; auto.
  - induction a as [|x a IH]; intros [|y b] [|z c]; cbn [lex]; try discriminate; auto. destruct (cmp x y) eqn:C1; try discriminate.
    + apply E in C1. subst y. destruct (cmp x z); auto. apply IH.
    + intros _. destruct (cmp y z) eqn:C2; try discriminate; [apply E in C2; subst z; rewrite C1; auto|]. intros _. rewrite (T _ _ _ C1 C2). auto.
Qed.
Lemma phrase_good : good_cmp phrase_cmp. Proof. apply lex_good, z_good. Qed.
Lemma align_good : good_cmp align_cmp. Proof. apply lex_good, pair_good. Qed.

(** * std::map *)
Section Map.
Context {K V : Type}.
Variable cmp : K -> K -> comparison.
Hypothesis GC : good_cmp cmp.
Variable d : V.
Fixpoint sorted (m : list (K * V)) : Prop := match m with [] => True | (k, _) :: r => (forall k' v', In (k', v') r -> cmp k k' = Lt) /\ sorted r end.
Lemma cmp_refl k : cmp k k = Eq. Proof. apply (gc_eq _ GC). auto. Qed.
Lemma update_in (f : V -> V) k : forall m k' v', In (k', v') (update cmp d f k m) -> k' = k \/ In (k', v') m.
Proof.
  induction m as [|[a v] r IH]; cbn [update]; intros k' v' I; [destruct I as [I|[]]; injection I; auto|].
  destruct (cmp k a) eqn:C.
  - apply (gc_eq _ GC) in C. subst a. destruct I as [I|I]; [injection I; auto|right; right; auto].
  - destruct I as [I|I]; [injection I; auto|right; auto].
  - destruct I as [I|I]; [right; left; auto|]. apply IH in I. destruct I; [auto|right; right; auto].
Qed.
Lemma update_sorted (f : V -> V) k : forall m, sorted m -> sorted (update cmp d f k m).
Proof.
  induction m as [|[a v] r IH]; cbn [update sorted]; intros H; [split; [intros ? ? []|auto]|]. destruct H as [H1 H2]. destruct (cmp k a) eqn:C.
  - cbn [sorted]. auto.
  - cbn [sorted]. split; [|auto]. intros k' v' [I|I]; [injection I as <- <-; auto|]. eapply (gc_trans _ GC); eauto.
  - cbn [sorted]. split; [|auto]. intros k' v' I. apply update_in in I. destruct I as [->|I]; [|eauto]. rewrite (gc_sym _ GC), C. auto.
Qed.
Lemma lookup_above k m : (forall k' v', In (k', v') m -> cmp k k' = Lt) -> lookup cmp d k m = d.
Proof.
  induction m as [|[a v] r IH]; intros H; [auto|]. cbn [lookup]. rewrite (H a v (or_introl eq_refl)). apply IH. intros. eapply H. right. eauto.
Qed.
Lemma lookup_update (f : V -> V) k k' : forall m, sorted m -> lookup cmp d k' (update cmp d f k m) = match cmp k' k with Eq => f (lookup cmp d k m) | _ => lookup cmp d k' m end.
Proof.
  induction m as [|[a v] r IH]; cbn [update sorted]; intros H; [cbn [lookup]; destruct (cmp k' k); auto|]. destruct H as [H1 H2].
  destruct (cmp k a) eqn:C.
  - apply (gc_eq _ GC) in C. subst a. cbn [lookup]. rewrite cmp_refl. destruct (cmp k' k); auto.
  - cbn [lookup]. rewrite C. destruct (cmp k' k) eqn:C2; [|auto|auto]. apply (gc_eq _ GC) in C2. subst k'.
    rewrite lookup_above; [auto|]. intros x y I. eapply (gc_trans _ GC); eauto.
  - cbn [lookup]. rewrite C. destruct (cmp k' a) eqn:C3; [|apply IH; auto|apply IH; auto]. apply (gc_eq _ GC) in C3. subst k'.
    rewrite (gc_sym _ GC a k), C. cbn [CompOpp]. auto.
Qed.
Lemma lookup_in : forall m k v, sorted m -> In (k, v) m -> lookup cmp d k m = v.
Proof.
  induction m as [|[a w] r IH]; intros k v H I; [destruct I|]. cbn [sorted lookup] in *. destruct H as [H1 H2]. destruct I as [I|I].
  - injection I as -> ->. rewrite cmp_refl. auto.
  - specialize (H1 _ _ I). rewrite (gc_sym _ GC), H1. cbn [CompOpp]. auto.
Qed.
Lemma keys_update (f : V -> V) k k' : forall m, In k' (map fst (update cmp d f k m)) <-> k' = k \/ In k' (map fst m).
Proof.
  induction m as [|[a v] r IH]; cbn [update map fst]; [cbn; intuition|]. destruct (cmp k a) eqn:C; cbn [map fst In].
  - apply (gc_eq _ GC) in C. subst. intuition.
  - intuition.
  - rewrite IH. intuition.
Qed.
Lemma keys_nodup : forall m, sorted m -> NoDup (map fst m).
Proof.
  induction m as [|[a v] r IH]; intros H; [constructor|]. cbn [map fst sorted] in *. destruct H as [H1 H2]. constructor; [|auto].
  intros I. apply in_map_iff in I. destruct I as ([k w] & E & I). cbn in E. subst. specialize (H1 _ _ I). rewrite cmp_refl in H1. discriminate.
Qed.
Lemma lookup_none k m : ~ In k (map fst m) -> lookup cmp d k m = d.
Proof.
  induction m as [|[a v] r IH]; intros H; [auto|]. cbn [lookup map fst In] in *. destruct (cmp k a) eqn:C; [|apply IH; tauto|apply IH; tauto].
  apply (gc_eq _ GC) in C. subst. tauto.
Qed.
End Map.

(** * Counting *)
Lemma phrase_eqb_ok a b : phrase_eqb a b = true <-> a = b.
Proof. unfold phrase_eqb. destruct (list_eq_dec Z.eq_dec a b); split; intros; auto; try discriminate; congruence. Qed.
Lemma align_eqb_ok a b : align_eqb a b = true <-> a = b.
Proof. unfold align_eqb. destruct (list_eq_dec _ a b); split; intros; auto; try discriminate; congruence. Qed.
Lemma of_source_ok s e : of_source s e = true <-> e_source e = s.
Proof. apply phrase_eqb_ok. Qed.
Lemma of_pair_ok s t e : of_pair s t e = true <-> e_source e = s /\ e_target e = t.
Proof. unfold of_pair. rewrite andb_true_iff, of_source_ok, phrase_eqb_ok. tauto. Qed.
Lemma of_rule_ok s t a e : of_rule s t a e = true <-> e_source e = s /\ e_target e = t /\ e_align e = a.
Proof. unfold of_rule. rewrite andb_true_iff, of_pair_ok, align_eqb_ok. tauto. Qed.
Lemma cmp_source s e : phrase_cmp s (e_source e) = Eq <-> of_source s e = true.
Proof. rewrite (gc_eq _ phrase_good), of_source_ok. split; auto. Qed.
Lemma how_many_app {A : Type} (f : A -> bool) l m : how_many f (l ++ m) = how_many f l + how_many f m.
Proof. unfold how_many. rewrite filter_app, app_length. lia. Qed.
Lemma how_many_pos {A : Type} (f : A -> bool) l : 1 <= how_many f l <-> exists x, In x l /\ f x = true.
Proof.
  unfold how_many. split.
  - destruct (filter f l) as [|x r] eqn:E; [cbn; lia|]. intros _. exists x. apply filter_In. rewrite E. left. auto.
  - intros (x & I). apply filter_In in I. destruct (filter f l); [destruct I|cbn [length]; lia].
Qed.

Definition targets (st : counters) (s : list Z) := lookup phrase_cmp [] s (snd st).
Definition aligns (st : counters) (s t : list Z) : align_count := lookup phrase_cmp [] t (targets st s).
Record counted (es : list extract) (st : counters) : Prop := {
  ct_s1 : sorted phrase_cmp (fst st); ct_s2 : sorted phrase_cmp (snd st);
  ct_s3 : forall s, sorted phrase_cmp (targets st s); ct_s4 : forall s t, sorted align_cmp (aligns st s t);
  ct_count : forall s, (lookup phrase_cmp 0%Q s (fst st) == sum_counts (filter (of_source s) es))%Q;
  ct_k2 : forall s, In s (map fst (snd st)) <-> exists e, In e es /\ e_source e = s;
  ct_k3 : forall s t, In t (map fst (targets st s)) <-> exists e, In e es /\ e_source e = s /\ e_target e = t;
  ct_k4 : forall s t a, In a (map fst (aligns st s t)) <-> exists e, In e es /\ e_source e = s /\ e_target e = t /\ e_align e = a;
  ct_num : forall s t a, lookup align_cmp 0 a (aligns st s t) = how_many (of_rule s t a) es }.
Lemma counted_nil : counted [] ([], []).
Proof. split; cbn; auto; try (intros; split; [intros []|intros (e & [] & _)]). intros. reflexivity. Qed.
Lemma sum_app l m : (sum_counts (l ++ m) == sum_counts l + sum_counts m)%Q.
Proof. induction l as [|e l IH]; [cbn [app]; unfold sum_counts at 2; cbn [fold_right]; ring|]. cbn [app]. change (e_count e + sum_counts (l ++ m) == e_count e + sum_counts l + sum_counts m)%Q. rewrite IH. ring. Qed.
Lemma targets_update st e s : counted [] ([], []) -> sorted phrase_cmp (snd st) ->
  targets (count_extract st e) s = match phrase_cmp s (e_source e) with Eq => update phrase_cmp [] (update align_cmp 0 (fun n => n + 1) (e_align e)) (e_target e) (targets st (e_source e)) | _ => targets st s end.
Proof. intros _ S. unfold targets, count_extract. cbn [snd]. rewrite lookup_update by (auto; apply phrase_good). reflexivity. Qed.
Lemma exists_snoc (P : extract -> Prop) es e : (exists x, In x (es ++ [e]) /\ P x) <-> (P e \/ exists x, In x es /\ P x).
Proof.
  split.
  - intros (x & I & H). apply in_app_or in I. destruct I as [I|[<-|[]]]; [right; exists x; auto|auto].
  - intros [H|(x & I & H)]; [exists e|exists x]; (split; [apply in_or_app|auto]); [right; left; auto|left; auto].
Qed.
Lemma counted_step es st e : counted es st -> counted (es ++ [e]) (count_extract st e).
Proof.
  intros [S1 S2 S3 S4 C K2 K3 K4 N]. pose proof phrase_good as PG. pose proof align_good as AG.
  assert (TG : forall s, targets (count_extract st e) s = match phrase_cmp s (e_source e) with Eq => update phrase_cmp [] (update align_cmp 0 (fun n => n + 1) (e_align e)) (e_target e) (targets st (e_source e)) | _ => targets st s end)
    by (intros; apply targets_update; [apply counted_nil|auto]).
  assert (TN : forall s, s <> e_source e -> targets (count_extract st e) s = targets st s).
  { intros s NE. rewrite TG. destruct (phrase_cmp s (e_source e)) eqn:Q; auto. apply (gc_eq _ PG) in Q. congruence. }
  assert (TS : targets (count_extract st e) (e_source e) = update phrase_cmp [] (update align_cmp 0 (fun n => n + 1) (e_align e)) (e_target e) (targets st (e_source e))).
  { rewrite TG. rewrite cmp_refl by auto. auto. }
  assert (DS : forall s, s = e_source e \/ s <> e_source e) by (intros s; destruct (list_eq_dec Z.eq_dec s (e_source e)); auto).
  assert (DT : forall s, s = e_target e \/ s <> e_target e) by (intros s; destruct (list_eq_dec Z.eq_dec s (e_target e)); auto).
  assert (AS : aligns (count_extract st e) (e_source e) (e_target e) = update align_cmp 0 (fun n => n + 1) (e_align e) (aligns st (e_source e) (e_target e))).
  { unfold aligns. rewrite TS, lookup_update by auto. rewrite cmp_refl by auto. auto. }
  assert (AN : forall s t, s <> e_source e \/ t <> e_target e -> aligns (count_extract st e) s t = aligns st s t).
  { intros s t NE. unfold aligns. destruct (DS s) as [->|Q]; [|rewrite TN; auto]. rewrite TS, lookup_update by auto.
    destruct (phrase_cmp t (e_target e)) eqn:Q; auto. apply (gc_eq _ PG) in Q. destruct NE; congruence. }
  split.
  - apply update_sorted; auto.
  - apply update_sorted; auto.
  - intros s. destruct (DS s) as [->|Q]; [rewrite TS; apply update_sorted; auto|rewrite TN; auto].
  - intros s t. destruct (DS s) as [->|Q]; [|rewrite AN; auto]. destruct (DT t) as [->|Q]; [|rewrite AN; auto]. rewrite AS. apply update_sorted; auto.
  - intros s. unfold count_extract. cbn [fst]. rewrite lookup_update by auto. rewrite filter_app, sum_app. cbn [filter].
    destruct (of_source s e) eqn:Q.
    + pose proof (proj2 (cmp_source s e) Q) as Q2. rewrite Q2. apply of_source_ok in Q. subst s. rewrite C. cbn [sum_counts fold_right]. ring.
    + destruct (phrase_cmp s (e_source e)) eqn:Q2; [apply cmp_source in Q2; congruence| |]; rewrite C; cbn [sum_counts fold_right]; ring.
  - intros s. unfold count_extract. cbn [snd]. rewrite keys_update by auto. rewrite exists_snoc, K2. split; (intros [Q|Q]; [left; auto|right; auto]).
  - intros s t. rewrite exists_snoc. destruct (DS s) as [->|Q]; [|rewrite TN by auto; rewrite K3; split; [auto|intros [[X _]|X]; [congruence|auto]]].
    rewrite TS, keys_update by auto. rewrite K3. split; (intros [Q|Q]; [left|right; auto]); [split; auto|destruct Q; auto].
  - intros s t a. rewrite exists_snoc. destruct (DS s) as [->|Q]; [|rewrite AN by auto; rewrite K4; split; [auto|intros [[X _]|X]; [congruence|auto]]].
    destruct (DT t) as [->|Q]; [|rewrite AN by auto; rewrite K4; split; [auto|intros [(_ & X & _)|X]; [congruence|auto]]].
    rewrite AS, keys_update by auto. rewrite K4. split; (intros [Q|Q]; [left|right; auto]); [auto|destruct Q as (_ & _ & Q); auto].
  - intros s t a. rewrite how_many_app. unfold how_many at 2. cbn [filter]. destruct (of_rule s t a e) eqn:Q.
    + apply of_rule_ok in Q. destruct Q as (<- & <- & <-). rewrite AS, lookup_update by auto. rewrite cmp_refl by auto. rewrite N. cbn [length]. lia.
    + cbn [length]. rewrite Z.add_0_r. destruct (DS s) as [->|Q1]; [|rewrite AN by auto; apply N]. destruct (DT t) as [->|Q1]; [|rewrite AN by auto; apply N].
      rewrite AS, lookup_update by auto. destruct (align_cmp a (e_align e)) eqn:Q2; [|apply N|apply N]. exfalso. apply (gc_eq _ AG) in Q2. subst a.
      rewrite (proj2 (of_rule_ok _ _ _ e)) in Q; [discriminate|auto].
Qed.
Lemma counted_fold : forall es done st, counted done st -> counted (done ++ es) (fold_left count_extract es st).
Proof.
  induction es as [|e es IH]; intros done st H; cbn [fold_left]; [rewrite app_nil_r; auto|]. change (e :: es) with ([e] ++ es). rewrite (app_assoc done [e] es). apply IH, counted_step, H.
Qed.

(** * The most frequent alignment *)
Lemma most_frequent_ok (m : align_count) : (forall a n, In (a, n) m -> 1 <= n) ->
  let '(best, mx, num) := most_frequent m in num = fold_right (fun e s => snd e + s) 0 m /\ (forall a n, In (a, n) m -> n <= mx) /\ (m <> [] -> In (best, mx) m).
Proof.
  unfold most_frequent.
  assert (G : forall (m : align_count) b mx num, (forall a n, In (a, n) m -> 1 <= n) ->
    let '(best, mx', num') := fold_left (fun '(best, mx, num) '(a, n) => if mx <? n then (a, n, num + n) else (best, mx, num + n)) m (b, mx, num) in
    num' = num + fold_right (fun e s => snd e + s) 0 m /\ mx <= mx' /\ (forall a n, In (a, n) m -> n <= mx') /\ ((best = b /\ mx' = mx) \/ In (best, mx') m)).
  { clear m. induction m as [|[a n] r IH]; intros b mx num H; cbn [fold_left fold_right snd].
    - split; [lia|]. split; [lia|]. split; [intros ? ? []|auto].
    - destruct (Z.ltb_spec mx n).
      + specialize (IH a n (num + n)). destruct (fold_left _ r (a, n, num + n)) as [[best mx'] num']. destruct IH as (I1 & I2 & I3 & I4); [intros; eapply H; right; eauto|].
        split; [lia|]. split; [lia|]. split; [intros x y [I|I]; [injection I as <- <-; lia|eauto]|]. right. destruct I4 as [[-> ->]|I4]; [left; auto|right; auto].
      + specialize (IH b mx (num + n)). destruct (fold_left _ r (b, mx, num + n)) as [[best mx'] num']. destruct IH as (I1 & I2 & I3 & I4); [intros; eapply H; right; eauto|].
        split; [lia|]. split; [lia|]. split; [intros x y [I|I]; [injection I as <- <-; lia|eauto]|]. destruct I4 as [I4|I4]; [left; auto|right; right; auto]. }
  intros H. specialize (G m [] 0 0 H). destruct (fold_left _ m ([], 0, 0)) as [[best mx] num]. destruct G as (G1 & G2 & G3 & G4).
  split; [lia|]. split; [auto|]. intros N. destruct G4 as [[-> ->]|G4]; [|auto]. destruct m as [|[a n] r]; [congruence|]. pose proof (G3 a n (or_introl eq_refl)). pose proof (H a n (or_introl eq_refl)). lia.
Qed.
(** the alignments of a pair partition its extracts *)
Lemma how_many_split {A B : Type} (f : A -> bool) (g : B -> A -> bool) : forall (keys : list B) l,
  NoDup keys -> (forall k x, In k keys -> g k x = true -> f x = true) -> (forall x, In x l -> f x = true -> exists k, In k keys /\ g k x = true) ->
  (forall k k' x, g k x = true -> g k' x = true -> k = k') ->
  how_many f l = fold_right (fun k s => how_many (g k) l + s) 0 keys.
Proof.
  intros keys l ND G1 G2 G3. induction l as [|x l IH]; [unfold how_many; cbn; clear; induction keys; cbn; [auto|lia]|].
  assert (ST : forall (h : A -> bool), how_many h (x :: l) = b2z (h x) + how_many h l) by (intros h; unfold how_many; cbn [filter]; destruct (h x); cbn [length b2z]; lia).
  assert (SUM : forall ks, fold_right (fun k s => how_many (g k) (x :: l) + s) 0 ks = fold_right (fun k s => b2z (g k x) + s) 0 ks + fold_right (fun k s => how_many (g k) l + s) 0 ks).
  { induction ks as [|k ks IHk]; cbn [fold_right]; [lia|]. rewrite IHk, ST. lia. }
  rewrite ST, SUM, IH by (intros; apply G2; [right|]; auto). f_equal.
  destruct (f x) eqn:Fx.
  - destruct (G2 x (or_introl eq_refl) Fx) as (k & I & Gk). cbn [b2z]. clear - ND I Gk G3. induction ND as [|k' ks N ND IH]; [destruct I|]. cbn [fold_right].
    assert (ZR : forall ks', ~ In k ks' -> fold_right (fun k s => b2z (g k x) + s) 0 ks' = 0).
    { induction ks' as [|z ks' IHz]; intros NI; cbn [fold_right]; [auto|]. destruct (g z x) eqn:Gz; [exfalso; apply NI; left; eapply G3; eauto|]. cbn [b2z]. rewrite IHz; [auto|intros Q; apply NI; right; auto]. }
    destruct I as [->|I].
    + rewrite Gk, ZR by auto. auto.
    + destruct (g k' x) eqn:Gz; [exfalso; apply N; rewrite <- (G3 _ _ _ Gk Gz); auto|]. cbn [b2z]. rewrite <- IH; auto.
  - cbn [b2z]. clear - Fx G1. induction keys as [|k ks IH]; [auto|]. cbn [fold_right]. destruct (g k x) eqn:Gz; [rewrite (G1 k x) in Fx; [discriminate|left; auto|auto]|]. cbn [b2z]. rewrite <- IH; [auto|]. intros. eapply G1; [right|]; eauto.
Qed.

Lemma rules_described ess st : counted (concat ess) st -> describes ess (rules_of (Z.of_nat (length ess)) st).
Proof.
  intros CT. destruct CT as [S1 S2 S3 S4 C K2 K3 K4 N]. pose proof phrase_good as PG. pose proof align_good as AG. unfold describes, rules_of.
  assert (TI : forall s ts, In (s, ts) (snd st) -> targets st s = ts) by (intros; apply lookup_in; auto).
  assert (AI : forall s t m ts, In (s, ts) (snd st) -> In (t, m) ts -> aligns st s t = m).
  { intros s t m ts I J. unfold aligns. rewrite (TI _ _ I). apply lookup_in; auto. rewrite <- (TI _ _ I). auto. }
  set (F := fun '(s, targets) => map (fun '(t, m) => let '(best, _, num) := most_frequent m in
    {| r_source := s; r_target := t; r_source_count := lookup phrase_cmp 0%Q s (fst st); r_pair_count := num; r_samples := Z.of_nat (length ess); r_align := best |}) targets : list rule_stats).
  assert (MF : forall st0, map (fun r => (r_source r, r_target r)) (flat_map F st0) = flat_map (fun '(s, ts) => map (fun t => (s, t)) (map fst ts)) st0).
  { induction st0 as [|[s ts] r IH]; [auto|]. cbn [flat_map]. rewrite map_app, IH. f_equal. unfold F. rewrite !map_map. apply map_ext. intros [t m]. destruct (most_frequent m) as [[? ?] ?]. reflexivity. }
  split; [|split].
  - rewrite MF. assert (X : forall m : list (list Z * list (list Z * align_count)), sorted phrase_cmp m -> (forall s ts, In (s, ts) m -> NoDup (map fst ts)) -> NoDup (flat_map (fun '(s, ts) => map (fun t => (s, t)) (map fst ts)) m)).
    { induction m as [|[s ts] r IH]; intros SM H; cbn [flat_map]; [constructor|]. cbn [sorted] in SM. destruct SM as [SM1 SM2].
      assert (ND1 : NoDup (map (fun t : list Z => (s, t)) (map fst ts))) by (apply FinFun.Injective_map_NoDup; [intros x y Q; injection Q; auto|eapply H; left; eauto]).
      assert (ND2 : NoDup (flat_map (fun '(s, ts) => map (fun t => (s, t)) (map fst ts)) r)) by (apply IH; [auto|intros; eapply H; right; eauto]).
      assert (DJ : forall x, In x (map (fun t : list Z => (s, t)) (map fst ts)) -> ~ In x (flat_map (fun '(s, ts) => map (fun t => (s, t)) (map fst ts)) r)).
      { intros [a b] I J. apply in_map_iff in I. destruct I as (t & E & _). injection E as <- <-. apply in_flat_map in J. destruct J as ([s' ts'] & J & K).
        apply in_map_iff in K. destruct K as (t' & E & _). injection E as -> _. specialize (SM1 _ _ J). rewrite cmp_refl in SM1 by auto. discriminate. }
      clear - ND1 ND2 DJ. induction (map (fun t : list Z => (s, t)) (map fst ts)) as [|x l IH]; [auto|]. cbn [app]. inversion ND1 as [|y z Ny Nz]; subst. constructor.
      - intros I. apply in_app_or in I. destruct I as [I|I]; [auto|]. apply (DJ x); [left; auto|auto].
      - apply IH; auto. intros. apply DJ. right. auto. }
    apply X; [auto|]. intros s ts I. rewrite <- (TI _ _ I). apply (keys_nodup phrase_cmp); auto.
  - intros s t. rewrite MF, in_flat_map. rewrite <- K3. split.
    + intros ([s' ts] & I & J). apply in_map_iff in J. destruct J as (t' & E & J). injection E as -> ->. rewrite (TI _ _ I). auto.
    + intros I. pose proof (proj1 (K3 s t) I) as (e & Ie & Es & Et). assert (Is : In s (map fst (snd st))) by (apply K2; eauto).
      apply in_map_iff in Is. destruct Is as ([s' ts] & E & Is). cbn in E. subst s'. exists (s, ts). split; [auto|]. rewrite (TI _ _ Is) in I. apply in_map. auto.
  - intros r I. apply in_flat_map in I. destruct I as ([s ts] & I & J). unfold F in J. apply in_map_iff in J. destruct J as ([t m] & E & J).
    pose proof (AI _ _ _ _ I J) as EM.
    assert (POS : forall a n, In (a, n) m -> 1 <= n /\ n = how_many (of_rule s t a) (concat ess)).
    { intros a n IA. assert (EN : n = how_many (of_rule s t a) (concat ess)). { rewrite <- N, EM. symmetry. apply lookup_in; auto. rewrite <- EM. auto. }
      split; [|auto]. rewrite EN. apply how_many_pos. assert (IK : In a (map fst (aligns st s t))) by (rewrite EM; apply in_map_iff; exists (a, n); auto).
      apply K4 in IK. destruct IK as (e & Ie & H). exists e. split; [auto|]. apply of_rule_ok. auto. }
    pose proof (most_frequent_ok m) as MO. destruct (most_frequent m) as [[best mx] num]. destruct MO as (M1 & M2 & M3); [intros a n IA; apply (POS a n IA)|].
    subst r. cbn [r_samples r_source r_target r_source_count r_pair_count r_align].
    assert (NE : m <> []).
    { assert (IT : In t (map fst (targets st s))) by (rewrite (TI _ _ I); apply in_map_iff; exists (t, m); auto). apply K3 in IT. destruct IT as (e & Ie & H1 & H2).
      intros Q. assert (IK : In (e_align e) (map fst (aligns st s t))) by (apply K4; exists e; auto). rewrite EM, Q in IK. destruct IK. }
    specialize (M3 NE). destruct (POS _ _ M3) as [P1 P2].
    split; [auto|]. split; [apply C|]. split; [|split].
    + rewrite M1. rewrite (how_many_split (of_pair s t) (of_rule s t) (map fst m) (concat ess)).
      * clear - POS. induction m as [|[a n] r IH]; [auto|]. cbn [fold_right map fst snd]. rewrite IH by (intros; apply POS; right; auto). destruct (POS a n (or_introl eq_refl)) as [_ <-]. auto.
      * rewrite <- EM. apply (keys_nodup align_cmp); auto.
      * intros k x _ H. apply of_rule_ok in H. apply of_pair_ok. tauto.
      * intros x Ix H. apply of_pair_ok in H. destruct H as [H1 H2]. exists (e_align x). split; [rewrite <- EM; apply K4; exists x; auto|apply of_rule_ok; auto].
      * intros k k' x H H'. apply of_rule_ok in H, H'. destruct H as (_ & _ & <-). destruct H' as (_ & _ & <-). auto.
    + rewrite <- P2. auto.
    + intros a. rewrite <- P2. destruct (how_many (of_rule s t a) (concat ess)) eqn:Q; [lia| |lia].
      assert (IK : 1 <= how_many (of_rule s t a) (concat ess)) by lia. apply how_many_pos in IK. destruct IK as (e & Ie & H). apply of_rule_ok in H.
      assert (IA : In a (map fst (aligns st s t))) by (apply K4; exists e; split; [auto|tauto]). rewrite EM in IA. apply in_map_iff in IA. destruct IA as ([a' n] & E & IA). cbn in E. subst a'.
      rewrite <- Q. destruct (POS _ _ IA) as [_ <-]. eapply M2. eauto.
Qed.

(** * ExtractRules *)
Lemma groups_ok k : (1 <= k)%nat -> forall ms fuel, Forall (fun m => length m = k) ms -> (length (concat ms) <= fuel)%nat -> groups fuel k (concat ms) = Some ms.
Proof.
  intros K. induction ms as [|m ms IH]; intros fuel F L; [destruct fuel; auto|]. inversion F as [|x y Lm Fm]; subst. cbn [concat] in *.
  destruct m as [|z m]; [cbn in K; lia|]. destruct fuel as [|f]; [cbn in L; lia|]. cbn [app groups]. change (z :: m ++ concat ms) with ((z :: m) ++ concat ms).
  destruct (Nat.ltb_spec (length ((z :: m) ++ concat ms)) (length (z :: m))) as [Q|Q]; [rewrite app_length in Q; lia|].
  rewrite skipn_app, skipn_all, Nat.sub_diag, firstn_app, firstn_all, Nat.sub_diag. cbn [skipn firstn app].
  rewrite IH; [cbn [bind]; rewrite app_nil_r; auto|auto|cbn [length app] in L; rewrite app_length in L; lia].
Qed.
Lemma count_all_ok stray o sa phrase : forall ms ess done st, Forall2 (fun m es => extracts_at stray o sa phrase m = Some es) ms ess -> counted done st ->
  exists st', count_all stray o sa phrase ms st = Some st' /\ counted (done ++ concat ess) st'.
Proof.
  induction ms as [|m ms IH]; intros ess done st F CT; inversion F as [|x es y ess' E F']; subst; cbn [count_all concat].
  - exists st. rewrite app_nil_r. auto.
  - rewrite E. cbn [bind]. destruct (IH ess' (done ++ es) (fold_left count_extract es st) F' (counted_fold es done st CT)) as (st' & E' & C). exists st'. rewrite app_assoc. auto.
Qed.
Lemma extract_rules_ok stray o sa phrase k ms ess : (1 <= k)%nat -> Forall (fun m => length m = k) ms ->
  Forall2 (fun m es => extracts_at stray o sa phrase m = Some es) ms ess ->
  exists rules, ExtractRules stray o sa phrase k (concat ms) = Some rules /\ describes ess rules.
Proof.
  intros K F F2. unfold ExtractRules. rewrite groups_ok by auto. cbn [bind]. destruct (count_all_ok stray o sa phrase ms ess [] ([], []) F2 counted_nil) as (st & -> & CT). cbn [bind].
  eexists. split; [reflexivity|]. assert (L : size (concat ms) / Z.of_nat k = Z.of_nat (length ess)).
  { assert (LC : length (concat ms) = (k * length ms)%nat) by (clear - F; induction F as [|m ms H F IH]; cbn [concat length]; [lia|rewrite app_length, IH; lia]).
    unfold size. rewrite LC, Nat2Z.inj_mul, (Z.mul_comm (Z.of_nat k)), Z.div_mul by lia. f_equal. exact (forall2_len _ _ _ _ _ F2). }
  rewrite L. apply rules_described. exact CT.
Qed.

(** * Occurrences that fit *)
Definition batches (o : ropts) (phrase : list Z) (es : list extract) : Prop :=
  exists p start matching, forall s, batch o p start phrase matching s (filter (same_source s) es).
Lemma of_source_same s e : of_source s e = same_source s e.
Proof. reflexivity. Qed.
Lemma occurrences_extracts o sa phrase ms : occurrences o sa phrase ms ->
  exists ess, (forall f, Forall2 (fun m es => extracts_at (Some f) o sa phrase m = Some es) ms ess) /\ Forall (batches o phrase) ess.
Proof.
  induction ms as [|m ms IH]; intros OC; [exists []; split; [intros; constructor|constructor]|].
  destruct IH as (ess & F & B); [intros x I; apply OC; right; auto|]. destruct (OC m (or_introl eq_refl)) as (m0 & p & start & H & E & FT).
  destruct (extract_batches o p start phrase m FT) as (es & EQ & BT). exists (es :: ess). split; [|constructor; [exists p, start, m; auto|auto]].
  intros f. constructor; [|auto]. unfold extracts_at. destruct m as [|z m]; [discriminate|]. injection H as ->. change (get (m0 :: m) 0) with (Some m0). cbn [bind]. rewrite E. cbn [bind]. apply EQ.
Qed.
Lemma total_sum es : total es = sum_counts es. Proof. reflexivity. Qed.
Lemma existsb_filter {A : Type} (f : A -> bool) l : existsb f l = true <-> filter f l <> [].
Proof.
  rewrite existsb_exists. split.
  - intros (x & I & H) Q. assert (J : In x (filter f l)) by (apply filter_In; auto). rewrite Q in J. destruct J.
  - destruct (filter f l) as [|x r] eqn:E; [congruence|]. intros _. exists x. apply filter_In. rewrite E. left. auto.
Qed.
Lemma source_count o phrase s : forall ess, Forall (batches o phrase) ess -> (sum_counts (filter (of_source s) (concat ess)) == inject_Z (yield (of_source s) ess))%Q.
Proof.
  induction 1 as [|es ess (p & start & m & B) F IH]; [reflexivity|]. cbn [concat]. rewrite filter_app, sum_app, IH. unfold yield, how_many. cbn [filter].
  destruct (existsb (of_source s) es) eqn:E.
  - apply existsb_filter in E. specialize (B s). change (same_source s) with (of_source s) in B. pose proof (total_one _ _ _ _ _ _ _ B E) as T. rewrite <- total_sum, T. cbn [length].
    rewrite Nat2Z.inj_succ, <- Z.add_1_l, inject_Z_plus. reflexivity.
  - assert (Q : filter (of_source s) es = []). { destruct (filter (of_source s) es) eqn:Q; [auto|]. assert (X : existsb (of_source s) es = true) by (apply existsb_filter; congruence). congruence. }
    rewrite Q. cbn [sum_counts fold_right]. ring.
Qed.
Lemma pair_tight o phrase s t : o_tight o = true -> forall ess, Forall (batches o phrase) ess -> how_many (of_pair s t) (concat ess) = yield (of_pair s t) ess.
Proof.
  intros T. induction 1 as [|es ess (p & start & m & B) F IH]; [reflexivity|]. cbn [concat]. rewrite how_many_app, IH. unfold yield. unfold how_many at 3. cbn [filter].
  assert (L : (length (filter (of_pair s t) es) <= 1)%nat).
  { pose proof (ba_tight _ _ _ _ _ _ _ (B s) T) as L. assert (X : (length (filter (of_pair s t) es) <= length (filter (same_source s) es))%nat); [|lia]. clear. unfold of_pair. change (of_source s) with (same_source s).
    induction es as [|e es IH]; [auto|]. cbn [filter]. destruct (same_source s e); cbn [andb]; [|auto]. destruct (phrase_eqb (e_target e) t); cbn [length]; lia. }
  unfold how_many at 1. destruct (existsb (of_pair s t) es) eqn:E.
  - apply existsb_filter in E. destruct (filter (of_pair s t) es) as [|x [|y r]]; [congruence| |cbn [length] in L; lia]. cbn [length]. unfold how_many. lia.
  - assert (Q : filter (of_pair s t) es = []). { destruct (filter (of_pair s t) es) eqn:Q; [auto|]. assert (X : existsb (of_pair s t) es = true) by (apply existsb_filter; congruence). congruence. }
    rewrite Q. reflexivity.
Qed.
Lemma yield_le (f g : extract -> bool) ess : (forall e, f e = true -> g e = true) -> yield f ess <= yield g ess.
Proof.
  intros H. unfold yield, how_many. induction ess as [|es ess IH]; [reflexivity|]. cbn [filter]. destruct (existsb f es) eqn:E.
  - assert (X : existsb g es = true) by (apply existsb_exists in E; destruct E as (x & I & Q); apply existsb_exists; exists x; auto). rewrite X. cbn [length]. lia.
  - destruct (existsb g es); cbn [length]; lia.
Qed.
Lemma yield_all f ess : yield f ess <= Z.of_nat (length ess).
Proof. unfold yield, how_many. induction ess as [|es ess IH]; [reflexivity|]. cbn [filter]. destruct (existsb f es); cbn [length]; lia. Qed.

Lemma rules_counts o sa phrase k ms : (1 <= k)%nat -> Forall (fun m => length m = k) ms -> occurrences o sa phrase ms ->
  exists ess rules, (forall f, Forall2 (fun m es => extracts_at (Some f) o sa phrase m = Some es) ms ess) /\
    (forall f, ExtractRules (Some f) o sa phrase k (concat ms) = Some rules) /\ describes ess rules /\
    (forall r, In r rules -> (r_source_count r == inject_Z (yield (of_source (r_source r)) ess))%Q /\ 1 <= yield (of_source (r_source r)) ess <= r_samples r /\ 1 <= r_pair_count r) /\
    (o_tight o = true -> forall r, In r rules -> r_pair_count r = yield (of_pair (r_source r) (r_target r)) ess /\ r_pair_count r <= yield (of_source (r_source r)) ess).
Proof.
  intros K F OC. destruct (occurrences_extracts o sa phrase ms OC) as (ess & EX & B). exists ess.
  destruct (extract_rules_ok (Some (fun _ => 0)) o sa phrase k ms ess K F (EX _)) as (rules & ER & D). exists rules. split; [auto|]. split; [|split; [auto|]].
  - intros f. destruct (extract_rules_ok (Some f) o sa phrase k ms ess K F (EX f)) as (rules' & ER' & _). rewrite ER', <- ER. clear - EX F K ER ER'.
    assert (CA : forall ms ess, (forall f, Forall2 (fun m es => extracts_at (Some f) o sa phrase m = Some es) ms ess) -> forall f g st, count_all (Some f) o sa phrase ms st = count_all (Some g) o sa phrase ms st).
    { clear. induction ms as [|m ms IH]; intros ess EX f g st; [auto|]. pose proof (EX f) as A. pose proof (EX g) as B. inversion A as [|x es y ess' E1 F1]; subst. inversion B as [|x2 es2 y2 ess2 E2 F2]; subst.
      cbn [count_all]. rewrite E1, E2. cbn [bind]. apply (IH ess'). intros h. specialize (EX h). inversion EX; auto. }
    rewrite <- ER'. unfold ExtractRules. destruct (groups (length (concat ms)) k (concat ms)) as [gs|] eqn:G; [|auto]. cbn [bind]. rewrite groups_ok in G by auto. injection G as <-.
    rewrite (CA ms ess EX f (fun _ => 0)). reflexivity.
  - destruct D as (D1 & D2 & D3). split.
    + intros r I. destruct (D3 r I) as (E1 & E2 & E3 & E4 & _). split; [rewrite E2; apply (source_count o phrase); auto|].
      apply how_many_pos in E4. destruct E4 as (e & Ie & H). apply of_rule_ok in H. split; [split|].
      * apply how_many_pos. apply in_concat in Ie. destruct Ie as (es & I1 & I2). exists es. split; [auto|]. apply existsb_exists. exists e. split; [auto|]. apply of_source_ok. tauto.
      * rewrite E1. apply yield_all.
      * rewrite E3. apply how_many_pos. exists e. split; [auto|]. apply of_pair_ok. tauto.
    + intros T r I. destruct (D3 r I) as (_ & _ & E3 & _). rewrite E3, (pair_tight o phrase) by auto. split; [auto|]. apply yield_le. intros e H. apply of_pair_ok in H. apply of_source_ok. tauto.
Qed.

(** * Scores *)
Lemma ln10_pos : (0 < ln 10)%R.
Proof. rewrite <- ln_1. apply ln_increasing; lra. Qed.
Lemma coherent_nonneg r : 1 <= r_pair_count r <= r_samples r -> (0 <= TargetGivenSourceCoherent r)%R /\
  (Rpower 10 (- TargetGivenSourceCoherent r) = IZR (r_pair_count r) / IZR (r_samples r))%R.
Proof.
  intros H. unfold TargetGivenSourceCoherent. assert (P : (1 <= IZR (r_pair_count r))%R) by (apply (IZR_le 1); lia).
  assert (Q : (IZR (r_pair_count r) <= IZR (r_samples r))%R) by (apply IZR_le; lia).
  assert (R0 : (0 < IZR (r_pair_count r) / IZR (r_samples r))%R) by (apply Rdiv_lt_0_compat; lra).
  destruct (Rlt_dec 0 (IZR (r_pair_count r) / IZR (r_samples r))) as [X|X]; [|lra]. pose proof ln10_pos. unfold log10. split.
  - assert (L : (ln (IZR (r_pair_count r) / IZR (r_samples r)) <= 0)%R).
    { rewrite <- ln_1. destruct (Rle_lt_or_eq_dec (IZR (r_pair_count r) / IZR (r_samples r)) 1) as [Y|Y].
      - apply (Rmult_le_reg_r (IZR (r_samples r))); [lra|]. unfold Rdiv. rewrite Rmult_assoc, Rinv_l by lra. lra.
      - left. apply ln_increasing; auto.
      - rewrite Y. lra. }
    assert (0 <= - ln (IZR (r_pair_count r) / IZR (r_samples r)) / ln 10)%R; [|unfold Rdiv in *; lra].
    apply Rmult_le_pos; [lra|]. left. apply Rinv_0_lt_compat. auto.
  - unfold Rpower. rewrite Ropp_involutive. replace (ln (IZR (r_pair_count r) / IZR (r_samples r)) / ln 10 * ln 10)%R with (ln (IZR (r_pair_count r) / IZR (r_samples r))) by (field; lra).
    apply exp_ln. auto.
Qed.
Lemma singleton_ok r n : (r_source_count r == inject_Z n)%Q -> (IsSourceSingleton r = 1%R <-> n = 1).
Proof.
  intros E. unfold IsSourceSingleton. apply Qeq_eqR in E. rewrite E. unfold Q2R, inject_Z. cbn [Qnum Qden].
  replace (IZR n * / 1 - 1)%R with (IZR (n - 1)) by (rewrite minus_IZR; field). destruct (Rlt_dec (Rabs (IZR (n - 1))) (/ 1000000)) as [L|L].
  - split; [|auto]. intros _. rewrite <- abs_IZR in L. assert (L2 : (IZR (Z.abs (n - 1)) < 1)%R) by lra. apply lt_IZR in L2. lia.
  - split; [lra|]. intros ->. exfalso. apply L. cbn. rewrite Rabs_R0. lra.
Qed.
(** The targets of a source phrase share its occurrences. *)
Lemma targets_nodup s rules : NoDup (map (fun r => (r_source r, r_target r)) rules) -> NoDup (map r_target (filter (with_source s) rules)).
Proof.
  induction rules as [|r rules IH]; intros ND; [constructor|]. cbn [map filter] in *. inversion ND as [|x y N ND']; subst. destruct (with_source s r) eqn:W; [|auto]. cbn [map]. constructor; [|auto].
  intros I. apply N. apply in_map_iff in I. destruct I as (r' & E & I). apply filter_In in I. destruct I as [I W']. apply phrase_eqb_ok in W, W'. apply in_map_iff. exists r'. split; [congruence|auto].
Qed.
Lemma source_tight o phrase s : o_tight o = true -> forall ess, Forall (batches o phrase) ess -> how_many (of_source s) (concat ess) = yield (of_source s) ess.
Proof.
  intros T. induction 1 as [|es ess (p & start & m & B) F IH]; [reflexivity|]. cbn [concat]. rewrite how_many_app, IH. unfold yield. unfold how_many at 3. cbn [filter].
  pose proof (ba_tight _ _ _ _ _ _ _ (B s) T) as L. change (same_source s) with (of_source s) in L.
  unfold how_many at 1. destruct (existsb (of_source s) es) eqn:E.
  - apply existsb_filter in E. destruct (filter (of_source s) es) as [|x [|y r]]; [congruence| |cbn [length] in L; lia]. cbn [length]. unfold how_many. lia.
  - assert (Q : filter (of_source s) es = []). { destruct (filter (of_source s) es) eqn:Q; [auto|]. assert (X : existsb (of_source s) es = true) by (apply existsb_filter; congruence). congruence. }
    rewrite Q. reflexivity.
Qed.
Lemma pairs_sum ess rules s : describes ess rules ->
  pairs_of rules s = how_many (of_source s) (concat ess).
Proof.
  intros (D1 & D2 & D3). unfold pairs_of. rewrite (how_many_split (of_source s) (of_pair s) (map r_target (filter (with_source s) rules)) (concat ess)).
  - assert (X : forall rs, (forall r, In r rs -> In r rules /\ r_source r = s) ->
      fold_right (fun r n => r_pair_count r + n) 0 rs = fold_right (fun k n => how_many (of_pair s k) (concat ess) + n) 0 (map r_target rs)).
    { induction rs as [|r rs IH]; intros H; [auto|]. cbn [fold_right map]. rewrite IH by (intros; apply H; right; auto). destruct (H r (or_introl eq_refl)) as [I E]. destruct (D3 r I) as (_ & _ & P & _). rewrite P, E. auto. }
    apply X. intros r I. apply filter_In in I. destruct I as [I W]. split; [auto|]. apply phrase_eqb_ok in W. auto.
  - apply targets_nodup, D1.
  - intros k x _ H. apply of_pair_ok in H. apply of_source_ok. tauto.
  - intros x I H. apply of_source_ok in H. exists (e_target x). split; [|apply of_pair_ok; auto].
    assert (J : In (s, e_target x) (map (fun r => (r_source r, r_target r)) rules)) by (apply D2; exists x; auto). apply in_map_iff in J. destruct J as (r & E & J). injection E as E1 E2.
    apply in_map_iff. exists r. split; [auto|]. apply filter_In. split; [auto|]. apply phrase_eqb_ok. auto.
  - intros k k' x H H'. apply of_pair_ok in H, H'. destruct H as [_ <-]. destruct H' as [_ <-]. auto.
Qed.
Lemma rules_shared o sa phrase k ms : (1 <= k)%nat -> Forall (fun m => length m = k) ms -> occurrences o sa phrase ms -> o_tight o = true ->
  exists rules, (forall f, ExtractRules (Some f) o sa phrase k (concat ms) = Some rules) /\
    forall r, In r rules -> 1 <= r_pair_count r <= r_samples r /\
      (r_source_count r == inject_Z (pairs_of rules (r_source r)))%Q /\
      pairs_of rules (r_source r) <= r_samples r.
Proof.
  intros K F OC T. destruct (occurrences_extracts o sa phrase ms OC) as (ess0 & EX0 & B0). destruct (rules_counts o sa phrase k ms K F OC) as (ess & rules & EX & ER & D & H1 & H2).
  assert (ess0 = ess).
  { specialize (EX0 (fun _ => 0)). specialize (EX (fun _ => 0)). clear - EX EX0. revert ess EX. induction EX0 as [|m es ms ess0 E F IH]; intros ess EX; inversion EX; subst; [auto|]. f_equal; [congruence|auto]. }
  subst ess0. exists rules. split; [auto|]. intros r I. rewrite (pairs_sum ess rules _ D), (source_tight o phrase) by auto. destruct (H1 r I) as (A1 & A2 & A3). destruct (H2 T r I) as (B1 & B2). split; [lia|]. split; [auto|lia].
Qed.
