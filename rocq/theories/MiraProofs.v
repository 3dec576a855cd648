(** Proofs about the training loop of k-best MIRA. *)
From Coq Require Import Reals List Arith Bool Lia Lra Psatz.
From Verif Require Import Mira MiraSpec.
Import ListNotations.
Local Open Scope R_scope.

Lemma dot_inner : forall a b, dot a b = inner a b.
Proof. induction a as [|x a IH]; intros [|y b]; try reflexivity. unfold dot in *. cbn. rewrite IH. reflexivity. Qed.

Lemma vadd_length : forall a b, length (vadd a b) = Nat.min (length a) (length b).
Proof. intros. unfold vadd. rewrite map_length, combine_length. reflexivity. Qed.
Lemma vsub_length : forall a b, length (vsub a b) = Nat.min (length a) (length b).
Proof. intros. unfold vsub. rewrite map_length, combine_length. reflexivity. Qed.
Lemma vscale_length : forall x a, length (vscale x a) = length a.
Proof. intros. unfold vscale. apply map_length. Qed.

Definition shift (w : vec) (x : R) (g b : vec) : vec := vsub (vadd w (vscale x g)) (vscale x b).
Lemma shift_cons : forall w0 w x g0 g b0 b, shift (w0 :: w) x (g0 :: g) (b0 :: b) = w0 + x * g0 - x * b0 :: shift w x g b.
Proof. reflexivity. Qed.
Lemma shift_length : forall w x g b, length g = length w -> length b = length w -> length (shift w x g b) = length w.
Proof. intros w x g b G B. unfold shift. rewrite vsub_length, vadd_length, !vscale_length. lia. Qed.

Ltac len3 := match goal with
  | H : length (_ :: _) = length [] |- _ => discriminate H
  | H : length [] = length (_ :: _) |- _ => discriminate H
  end.

(** Everything about a shift which the optimality needs. *)
Lemma shift_inner : forall n w x g b u, length w = n -> length g = n -> length b = n -> length u = n ->
  inner u (shift w x g b) = inner u w + x * inner u (vsub g b).
Proof.
  induction n as [|n IH]; intros w x g b u W G B U.
  - destruct w, g, b, u; try discriminate. cbn. ring.
  - destruct w as [|w0 w], g as [|g0 g], b as [|b0 b], u as [|u0 u]; try discriminate. cbn in W, G, B, U.
    rewrite shift_cons. cbn [inner]. change (vsub (g0 :: g) (b0 :: b)) with (g0 - b0 :: vsub g b). cbn [inner]. rewrite IH by lia. ring.
Qed.
Lemma shift_dist : forall n w x g b, length w = n -> length g = n -> length b = n ->
  dist2 (shift w x g b) w = x * x * inner (vsub g b) (vsub g b).
Proof.
  induction n as [|n IH]; intros w x g b W G B.
  - destruct w, g, b; try discriminate. cbn. ring.
  - destruct w as [|w0 w], g as [|g0 g], b as [|b0 b]; try discriminate. cbn in W, G, B.
    rewrite shift_cons. change (vsub (g0 :: g) (b0 :: b)) with (g0 - b0 :: vsub g b). cbn [inner dist2]. rewrite IH by lia. ring.
Qed.
Lemma shift_three : forall n w x g b v, length w = n -> length g = n -> length b = n -> length v = n ->
  dist2 v w = dist2 v (shift w x g b) + 2 * x * (inner (vsub g b) v - inner (vsub g b) (shift w x g b)) + dist2 (shift w x g b) w.
Proof.
  induction n as [|n IH]; intros w x g b v W G B V.
  - destruct w, g, b, v; try discriminate. cbn. ring.
  - destruct w as [|w0 w], g as [|g0 g], b as [|b0 b], v as [|v0 v]; try discriminate. cbn in W, G, B, V.
    rewrite shift_cons. change (vsub (g0 :: g) (b0 :: b)) with (g0 - b0 :: vsub g b). cbn [inner dist2]. rewrite (IH w x g b v) by lia. ring.
Qed.
Lemma inner_sub : forall n g b v, length g = n -> length b = n -> length v = n -> inner (vsub g b) v = inner g v - inner b v.
Proof.
  induction n as [|n IH]; intros g b v G B V.
  - destruct g, b, v; try discriminate. cbn. ring.
  - destruct g as [|g0 g], b as [|b0 b], v as [|v0 v]; try discriminate. cbn in G, B, V.
    change (vsub (g0 :: g) (b0 :: b)) with (g0 - b0 :: vsub g b). cbn [inner]. rewrite IH by lia. ring.
Qed.
Lemma inner_self : forall a, 0 <= inner a a.
Proof. induction a as [|x a IH]; cbn; [lra|]. pose proof (Rle_0_sqr x) as S. unfold Rsqr in S. lra. Qed.
Lemma inner_zero : forall a, inner a a = 0 -> forall v, inner a v = 0.
Proof.
  induction a as [|x a IH]; intros H v; [reflexivity|]. destruct v as [|y v]; [reflexivity|]. cbn in *. pose proof (inner_self a) as P.
  pose proof (Rle_0_sqr x) as S. unfold Rsqr in S. assert (x * x = 0) by lra. assert (X : x = 0) by nra. rewrite IH by lra. rewrite X. ring.
Qed.
Lemma dist2_nonneg : forall a b, 0 <= dist2 a b.
Proof. induction a as [|x a IH]; intros [|y b]; cbn; try lra. pose proof (Rle_0_sqr (x - y)) as S. unfold Rsqr in S. specialize (IH b). lra. Qed.
Lemma dist2_refl : forall a, dist2 a a = 0.
Proof. induction a as [|x a IH]; cbn; [reflexivity|]. rewrite IH. ring. Qed.

(** A step tau between 0 and C with C * hinge(w') = tau * slack(w') is optimal. *)
Lemma step_optimal : forall n C L w g b v tau, length w = n -> length g = n -> length b = n -> length v = n -> 0 <= tau <= C ->
  let w' := shift w tau g b in
  C * hinge L w' g b = tau * (L - (inner g w' - inner b w')) ->
  objective C L w g b w' + dist2 v w' / 2 <= objective C L w g b v.
Proof.
  intros n C L w g b v tau W G B V T w' E. unfold objective. rewrite E.
  assert (W' : length w' = n) by (unfold w'; rewrite shift_length; lia).
  pose proof (shift_three n w tau g b v W G B V) as D. fold w' in D.
  rewrite (inner_sub n g b v) in D by assumption. rewrite (inner_sub n g b w') in D by assumption.
  set (sv := inner g v - inner b v) in *. set (sw := inner g w' - inner b w') in *.
  assert (H : tau * (L - sv) <= C * hinge L v g b).
  { unfold hinge. fold sv. unfold Rmax. destruct (Rle_dec 0 (L - sv)); nra. }
  nra.
Qed.

Lemma update_ok : forall n C scale w best good bad, 0 <= C -> length w = n -> length (fst good) = n -> length (fst bad) = n ->
  ApproxEqual (snd best) (snd good) = false ->
  let w' := update C scale w w best good bad in
  let L := scale * (snd good - snd bad) in
  length w' = n /\
  forall v, length v = n -> objective C L w (fst good) (fst bad) w' + dist2 v w' / 2 <= objective C L w (fst good) (fst bad) v.
Proof.
  intros n C scale w best [g mg] [b mb] HC W G B A w' L. cbn [fst snd] in *. unfold w', update. cbn [fst snd]. rewrite A. cbv zeta.
  rewrite !dot_inner. fold L. set (d := vsub g b).
  assert (Z : shift w 0 g b = w).
  { clear - W G B. revert w g b W G B. induction n as [|n IH]; intros w g b W G B; destruct w as [|w0 w], g as [|g0 g], b as [|b0 b]; try discriminate; [reflexivity|].
    rewrite shift_cons. cbn in W, G, B. rewrite IH by lia. f_equal. ring. }
  assert (Sl : forall t, L - (inner g (shift w t g b) - inner b (shift w t g b)) = L - (inner g w - inner b w) - t * inner d d).
  { intros t. rewrite (shift_inner n w t g b g), (shift_inner n w t g b b) by assumption. fold d.
    assert (X : inner d d = inner g d - inner b d).
    { unfold d at 1. apply (inner_sub n); auto. unfold d. rewrite vsub_length. lia. } rewrite X. ring. }
  set (loss := inner b w - inner g w + L).
  destruct (Rlt_dec 0 loss) as [Pl|Nl].
  - set (step := if Req_EM_T (inner d d) 0 then C else if Rlt_dec C (loss / inner d d) then C else loss / inner d d).
    change (vsub (vadd w (vscale step g)) (vscale step b)) with (shift w step g b).
    split; [rewrite shift_length; lia|]. intros v V. pose proof (inner_self d) as Pd.
    assert (T : 0 <= step <= C /\ C * Rmax 0 (loss - step * inner d d) = step * (loss - step * inner d d)).
    { unfold step. destruct (Req_EM_T (inner d d) 0) as [E|E].
      - split; [lra|]. rewrite E. rewrite Rmult_0_r, Rminus_0_r. rewrite Rmax_right by lra. reflexivity.
      - assert (Pd' : 0 < inner d d) by lra. assert (Q : loss / inner d d * inner d d = loss) by (field; lra).
        assert (Pq : 0 < loss / inner d d) by (apply Rdiv_lt_0_compat; assumption).
        destruct (Rlt_dec C (loss / inner d d)) as [K|K].
        + split; [lra|]. rewrite Rmax_right; [reflexivity|]. nra.
        + split; [lra|]. rewrite Q. replace (loss - loss) with 0 by ring. rewrite Rmax_left by lra. ring. }
    destruct T as [T1 T2]. apply (step_optimal n); auto. unfold hinge. rewrite Sl.
    replace (L - (inner g w - inner b w) - step * inner d d) with (loss - step * inner d d) by (unfold loss; ring). exact T2.
  - split; [exact W|]. intros v V. pose proof (step_optimal n C L w g b v 0 W G B V ltac:(lra)) as K. cbv zeta in K.
    specialize (Sl 0). rewrite Z in K, Sl. apply K. unfold hinge. rewrite Rmax_left; [ring|]. unfold loss in Nl. lra.
Qed.

(** The margin is reached unless the step is the largest allowed. *)
Lemma update_margin : forall n C scale w best good bad, 0 <= C -> length w = n -> length (fst good) = n -> length (fst bad) = n ->
  ApproxEqual (snd best) (snd good) = false ->
  let w' := update C scale w w best good bad in
  scale * (snd good - snd bad) <= inner (fst good) w' - inner (fst bad) w' \/ w' = shift w C (fst good) (fst bad).
Proof.
  intros n C scale w best [g mg] [b mb] HC W G B A w'. cbn [fst snd] in *. unfold w', update. cbn [fst snd]. rewrite A. cbv zeta.
  rewrite !dot_inner. set (d := vsub g b). set (L := scale * (mg - mb)). set (loss := inner b w - inner g w + L).
  destruct (Rlt_dec 0 loss) as [Pl|Nl]; [|left; unfold loss in Nl; lra].
  destruct (Req_EM_T (inner d d) 0) as [E|E]; [right; reflexivity|].
  destruct (Rlt_dec C (loss / inner d d)) as [K|K]; [right; reflexivity|]. left.
  set (t := loss / inner d d). change (vsub (vadd w (vscale t g)) (vscale t b)) with (shift w t g b).
  rewrite (shift_inner n w t g b g), (shift_inner n w t g b b) by assumption. fold d.
  assert (X : inner d d = inner g d - inner b d).
  { unfold d at 1. apply (inner_sub n); auto. unfold d. rewrite vsub_length. lia. }
  assert (Q : t * inner d d = loss) by (unfold t; field; exact E). unfold loss in Q. nra.
Qed.

(** The oracles. *)
Lemma oracles_ok : forall l good bad,
  let r := oracles l good bad in
  (forall h, In h l -> match fst r with Some g => snd h <= snd g | None => False end) /\
  (forall h, good = Some h -> match fst r with Some g => snd h <= snd g | None => False end) /\
  (forall g, fst r = Some g -> In g l \/ good = Some g) /\
  (forall h, In h l -> match snd r with Some b => snd b <= snd h | None => False end) /\
  (forall h, bad = Some h -> match snd r with Some b => snd b <= snd h | None => False end) /\
  (forall b, snd r = Some b -> In b l \/ bad = Some b).
Proof.
  induction l as [|h l IH]; intros good bad; cbn [oracles].
  - cbn. repeat split; try tauto; intros; subst; lra.
  - set (good' := match good with None => Some h | Some g => if Rlt_dec (snd g) (snd h) then Some h else good end).
    set (bad' := match bad with None => Some h | Some b => if Rlt_dec (snd h) (snd b) then Some h else bad end).
    specialize (IH good' bad'). cbv zeta in *. destruct (oracles l good' bad') as [[g|] [b|]]; cbn [fst snd] in *.
    2,3,4: exfalso; destruct IH as (I1 & I2 & I3 & I4 & I5 & I6).
    2: { unfold bad' in I5. destruct bad as [b0|]; [destruct (Rlt_dec _ _)|]; eapply I5; reflexivity. }
    2: { unfold good' in I2. destruct good as [g0|]; [destruct (Rlt_dec _ _)|]; eapply I2; reflexivity. }
    2: { unfold good' in I2. destruct good as [g0|]; [destruct (Rlt_dec _ _)|]; eapply I2; reflexivity. }
    destruct IH as (I1 & I2 & I3 & I4 & I5 & I6).
    assert (Gh : snd h <= snd g /\ forall x, good = Some x -> snd x <= snd g).
    { unfold good' in I2. destruct good as [g0|].
      - destruct (Rlt_dec (snd g0) (snd h)) as [K|K]; specialize (I2 _ eq_refl); split; try lra; intros x X; inversion X; subst; lra.
      - split; [apply I2; reflexivity|discriminate]. }
    assert (Bh : snd b <= snd h /\ forall x, bad = Some x -> snd b <= snd x).
    { unfold bad' in I5. destruct bad as [b0|].
      - destruct (Rlt_dec (snd h) (snd b0)) as [K|K]; specialize (I5 _ eq_refl); split; try lra; intros x X; inversion X; subst; lra.
      - split; [apply I5; reflexivity|discriminate]. }
    split; [intros x [<-|X]; [exact (proj1 Gh)|apply I1; exact X]|]. split; [exact (proj2 Gh)|]. split.
    { intros g1 E. inversion E; subst g1. destruct (I3 g eq_refl) as [K|K]; [left; right; exact K|]. unfold good' in K.
      destruct good as [g0|]; [destruct (Rlt_dec _ _); [inversion K; left; left; reflexivity|right; exact K]|inversion K; left; left; reflexivity]. }
    split; [intros x [<-|X]; [exact (proj1 Bh)|apply I4; exact X]|]. split; [exact (proj2 Bh)|].
    intros b1 E. inversion E; subst b1. destruct (I6 b eq_refl) as [K|K]; [left; right; exact K|]. unfold bad' in K.
    destruct bad as [b0|]; [destruct (Rlt_dec _ _); [inversion K; left; left; reflexivity|right; exact K]|inversion K; left; left; reflexivity].
Qed.

(** Runs. *)
Section Runs.
Variables C scale : R.
Variable invert : bool.
Variable corpus : nat.
Notation run := (run C scale invert corpus).
Notation iterate := (iterate C scale invert corpus).
Notation trace := (trace C scale invert corpus).

Lemma run_app : forall es es' s, run s (es ++ es') = match run s es with None => None | Some s' => run s' es' end.
Proof. induction es as [|e es IH]; intros es' s; [reflexivity|]. cbn. destruct (iterate s e); [apply IH|reflexivity]. Qed.

Lemma iterate_fields : forall s e s', iterate s e = Some s' ->
  tot s' = vadd (tot s) (lambdas s') /\ normalizer s' = S (normalizer s) /\
  dense s' = (if (cur_sent s =? corpus)%nat then final_avg s else lambdas s) /\
  cur_sent s' = (if (cur_sent s =? corpus)%nat then 1 else S (cur_sent s))%nat.
Proof.
  intros s [id l] s' H. unfold Mira.iterate in H. set (s1 := begin corpus s) in *.
  destruct (update_kbest invert l (goods s1 id)) as [[best|] [[good|] [bad|]]]; try discriminate. inversion H; subst s'. cbn [tot lambdas normalizer dense cur_sent].
  unfold s1, begin. destruct (cur_sent s =? corpus)%nat; cbn; repeat split; reflexivity.
Qed.

Lemma nth_vadd : forall a b k, length a = length b -> nth k (vadd a b) 0 = nth k a 0 + nth k b 0.
Proof.
  induction a as [|x a IH]; intros [|y b] k L; try discriminate; [destruct k; cbn; lra|]. destruct k as [|k]; [reflexivity|]. cbn. apply IH. cbn in L. lia.
Qed.
Lemma nth_vdiv : forall a x k, nth k (vdiv a x) 0 = nth k a 0 / x.
Proof.
  intros a x k. unfold vdiv. rewrite <- (map_nth (fun y => y / x)). destruct (Nat.lt_ge_cases k (length a)).
  - apply nth_indep. rewrite map_length. exact H.
  - rewrite !nth_overflow by (rewrite ?map_length; lia). unfold Rdiv. lra.
Qed.

Definition sized (n : nat) (e : nat * list hyp) : Prop := Forall (fun h => length (fst h) = n) (snd e).

Definition good_sized (n : nat) (s : state) : Prop :=
  length (lambdas s) = n /\ length (tot s) = n /\ forall i g, goods s i = Some g -> length (fst g) = n.

Lemma iterate_sized : forall n s e s', good_sized n s -> sized n e -> iterate s e = Some s' -> good_sized n s'.
Proof.
  intros n s [id l] s' (L & T & G) Z H. pose proof (iterate_fields _ _ _ H) as (F1 & _ & _ & _).
  unfold Mira.iterate in H. set (s1 := begin corpus s) in *.
  assert (S1 : lambdas s1 = lambdas s /\ tot s1 = tot s /\ goods s1 = goods s) by (unfold s1, begin; destruct (cur_sent s =? corpus)%nat; auto).
  destruct S1 as (E1 & E2 & E3). unfold update_kbest in H.
  pose proof (oracles_ok (signed_list invert l) (goods s1 id) None) as (_ & _ & Og & _ & _ & Ob). cbv zeta in *.
  destruct (hd_error (signed_list invert l)) as [best|]; [|discriminate].
  destruct (oracles (signed_list invert l) (goods s1 id) None) as [[good|] [bad|]]; try discriminate. cbn [fst snd] in *.
  assert (Zl : forall h, In h (signed_list invert l) -> length (fst h) = n).
  { intros h I. unfold signed_list in I. apply in_map_iff in I. destruct I as (h0 & <- & I). unfold sized in Z. cbn in Z. rewrite Forall_forall in Z. cbn. apply Z. exact I. }
  assert (Lg : length (fst good) = n). { destruct (Og _ eq_refl) as [K|K]; [apply Zl; exact K|]. rewrite E3 in K. apply (G id). exact K. }
  assert (Lb : length (fst bad) = n). { destruct (Ob _ eq_refl) as [K|K]; [apply Zl; exact K|discriminate]. }
  inversion H; subst s'. unfold good_sized. cbn [lambdas tot goods] in *.
  assert (Lu : length (update C scale (dense s1) (lambdas s1) best good bad) = n).
  { unfold update. destruct (ApproxEqual _ _); [rewrite E1; exact L|]. cbv zeta. destruct (Rlt_dec _ _); [|rewrite E1; exact L].
    rewrite vsub_length, vadd_length, !vscale_length, E1. lia. }
  split; [exact Lu|]. split; [rewrite vadd_length, E2; lia|]. intros i g. rewrite E3. destruct (i =? id)%nat; [intros X; inversion X; subst; exact Lg|apply G].
Qed.

Lemma run_average : forall n es s s', good_sized n s -> Forall (sized n) es -> run s es = Some s' ->
  exists ws, trace s es = Some ws /\ length ws = length es /\ good_sized n s' /\
    normalizer s' = (normalizer s + length es)%nat /\
    forall k, nth k (tot s') 0 = nth k (tot s) 0 + fold_right Rplus 0 (map (fun v => nth k v 0) ws).
Proof.
  intros n es. induction es as [|e es IH]; intros s s' G Z R.
  - cbn in R. inversion R; subst. exists []. cbn. split; [reflexivity|]. split; [reflexivity|]. split; [exact G|]. split; [lia|]. intros. lra.
  - cbn [Mira.run] in R. cbn [Mira.trace]. destruct (iterate s e) as [s1|] eqn:E; [|discriminate]. inversion Z; subst.
    pose proof (iterate_sized n s e s1 G H1 E) as G1. destruct (IH s1 s' G1 H2 R) as (ws & T & L & G' & N & A).
    pose proof (iterate_fields _ _ _ E) as (F1 & F2 & _). exists (lambdas s1 :: ws). rewrite T. split; [reflexivity|]. split; [cbn; lia|]. split; [exact G'|].
    split; [cbn; lia|]. intros k. rewrite A, F1. rewrite nth_vadd by (destruct G as (_ & X & _); destruct G1 as (Y & _); lia). cbn [map fold_right]. ring.
Qed.

Lemma start_sized : forall n w, length w = n -> good_sized n (start w).
Proof. intros n w L. split; [exact L|]. split; [exact L|]. discriminate. Qed.

Lemma average_ok : forall n w es s', length w = n -> Forall (sized n) es -> run (start w) es = Some s' ->
  exists ws, trace (start w) es = Some ws /\ length ws = length es /\ forall k, nth k (final_avg s') 0 = mean (w :: ws) k.
Proof.
  intros n w es s' L Z R. destruct (run_average n es (start w) s' (start_sized n w L) Z R) as (ws & T & Lw & _ & N & A).
  exists ws. split; [exact T|]. split; [exact Lw|]. intros k. unfold final_avg. rewrite nth_vdiv, A, N. unfold mean. cbn [map fold_right length start tot normalizer].
  rewrite Lw. reflexivity.
Qed.

Lemma run_sent : forall es s s', (0 < corpus)%nat -> (cur_sent s <= corpus)%nat -> run s es = Some s' ->
  (cur_sent s' <= corpus)%nat /\ exists p, (p * corpus + cur_sent s' = cur_sent s + length es)%nat.
Proof.
  induction es as [|e es IH]; intros s s' Hc B R.
  - cbn in R. inversion R; subst. split; [exact B|]. exists 0%nat. cbn. lia.
  - cbn [Mira.run] in R. destruct (iterate s e) as [s1|] eqn:E; [|discriminate]. pose proof (iterate_fields _ _ _ E) as (_ & _ & _ & F).
    assert (B1 : (cur_sent s1 <= corpus)%nat). { rewrite F. destruct (cur_sent s =? corpus)%nat eqn:X; [lia|apply Nat.eqb_neq in X; lia]. }
    destruct (IH s1 s' Hc B1 R) as [B' [p P]]. split; [exact B'|]. rewrite F in P. destruct (cur_sent s =? corpus)%nat eqn:X.
    + apply Nat.eqb_eq in X. exists (S p). cbn. lia.
    + exists p. cbn. lia.
Qed.

Lemma run_sent_pos : forall es s s', (0 < corpus)%nat -> es <> [] -> run s es = Some s' -> (0 < cur_sent s')%nat.
Proof.
  induction es as [|e es IH]; intros s s' Hc N R; [congruence|]. cbn [Mira.run] in R. destruct (iterate s e) as [s1|] eqn:E; [|discriminate].
  destruct es as [|e' es]; [|apply (IH s1); auto; discriminate]. cbn in R. inversion R; subst. pose proof (iterate_fields _ _ _ E) as (_ & _ & _ & F).
  rewrite F. destruct (cur_sent s =? corpus)%nat; lia.
Qed.

(** Main's last iteration begins a pass: the weights written as final are an average. *)
Lemma final_is_average : forall passes w es e s', (0 < corpus)%nat -> (0 < passes)%nat ->
  length (es ++ [e]) = iterations passes corpus -> run (start w) (es ++ [e]) = Some s' ->
  exists s, run (start w) es = Some s /\ final s' = final_avg s.
Proof.
  intros passes w es e s' Hc Hp L R. rewrite run_app in R. destruct (run (start w) es) as [s|] eqn:E; [|discriminate]. exists s. split; [reflexivity|].
  cbn [Mira.run] in R. destruct (iterate s e) as [s1|] eqn:I; [|discriminate]. inversion R; subst s1.
  pose proof (iterate_fields _ _ _ I) as (_ & _ & F & _). unfold final. rewrite F.
  destruct (run_sent es (start w) s Hc ltac:(cbn; lia) E) as [B [p P]]. cbn [cur_sent start] in P.
  rewrite app_length in L. cbn in L. unfold iterations in L. assert (Le : length es = (passes * corpus)%nat) by lia.
  assert (Ne : es <> []) by (destruct es; [cbn in Le; nia|discriminate]).
  pose proof (run_sent_pos es (start w) s Hc Ne E) as Pos.
  assert (X : cur_sent s = corpus). { rewrite Le in P. assert (p < passes)%nat by nia. nia. }
  rewrite X, Nat.eqb_refl. reflexivity.
Qed.

(** An iteration which does not begin a pass changes the weights by one step. *)
Lemma iterate_step : forall s id l s', iterate s (id, l) = Some s' -> cur_sent s <> corpus ->
  exists best good bad, hd_error (signed_list invert l) = Some best /\ goods s' id = Some good /\
    In bad (signed_list invert l) /\ (forall h, In h (signed_list invert l) -> snd bad <= snd h <= snd good) /\
    (In good (signed_list invert l) \/ goods s id = Some good) /\ (forall h, goods s id = Some h -> snd h <= snd good) /\
    lambdas s' = update C scale (lambdas s) (lambdas s) best good bad.
Proof.
  intros s id l s' H N. unfold Mira.iterate, begin in H. apply Nat.eqb_neq in N. rewrite N in H. cbn [goods dense lambdas] in H. unfold update_kbest in H.
  pose proof (oracles_ok (signed_list invert l) (goods s id) None) as (O1 & O2 & O3 & O4 & _ & O6). cbv zeta in *.
  destruct (hd_error (signed_list invert l)) as [best|] eqn:Hd; [|discriminate].
  destruct (oracles (signed_list invert l) (goods s id) None) as [[good|] [bad|]]; try discriminate. cbn [fst snd] in *.
  inversion H; subst s'. cbn [goods lambdas]. exists best, good, bad. rewrite Nat.eqb_refl.
  split; [reflexivity|]. split; [reflexivity|]. split; [destruct (O6 _ eq_refl); [assumption|discriminate]|].
  split; [intros h I; split; [apply O4|apply O1]; exact I|]. split; [apply O3; reflexivity|]. split; [apply O2|reflexivity].
Qed.
End Runs.

(** With an error metric the sampled current best is compared with the wrong sign. *)
Lemma sample_sign : forall (f : vec) m, 0 < m ->
  let r := update_samples true (f, m) [(f, m)] None in
  match fst r, fst (snd r) with Some best, Some good => fst best = fst good /\ ApproxEqual (snd best) (snd good) = false | _, _ => False end.
Proof.
  intros f m Hm. cbn. split; [reflexivity|]. unfold ApproxEqual. destruct (Req_EM_T m (m * -1)); [lra|]. destruct (Req_EM_T (m * -1) 0); [lra|].
  destruct (Rlt_dec _ _) as [K|K]; [|reflexivity]. exfalso. rewrite Rabs_right in K by lra. rewrite Rabs_left in K by lra.
  replace ((m - m * -1) / - (m * -1)) with 2 in K by (field; lra). lra.
Qed.

(** A run of two passes over a corpus of one sentence. *)
Definition ex_list : nat * list hyp := (0%nat, [([0], 0); ([1], 1)]).
Ltac dec := repeat match goal with
  | |- context [if Rlt_dec ?a ?b then _ else _] => let K := fresh in destruct (Rlt_dec a b) as [K|K]; [|apply Rnot_lt_le in K]; cbn [fst snd] in *; try (exfalso; lra); try (exfalso; unfold Rdiv in K; rewrite ?Rmult_0_l, ?Rmult_0_r, ?Rmult_1_l, ?Rplus_0_r, ?Rinv_1, ?Rminus_0_r in K; lra)
  | |- context [if Req_EM_T ?a ?b then _ else _] => destruct (Req_EM_T a b); try (exfalso; lra)
  end.
Lemma approx01 : ApproxEqual 0 1 = false.
Proof.
  unfold ApproxEqual. destruct (Req_EM_T 0 1); [lra|]. destruct (Req_EM_T 1 0); [lra|]. replace (0 - 1) with (-(1)) by ring.
  rewrite Rabs_Ropp, Rabs_R1. destruct (Rlt_dec _ _) as [K|K]; [|reflexivity]. unfold Rdiv in K at 1. rewrite Rinv_1 in K. lra.
Qed.
Lemma upd1 : forall x l loss, loss = 1 - x -> 0 < loss <= 10 -> update 10 1 [x] [l] ([0], 0) ([1], 1) ([0], 0) = [l + loss].
Proof.
  intros x l loss E B. unfold update. cbn [fst snd]. rewrite approx01. unfold dot, vsub, vadd, vscale. cbn [fst snd combine map fold_right]. cbv zeta.
  replace (0 * x + 0 - (1 * x + 0) + 1 * (1 - 0)) with loss by lra. replace ((1 - 0) * (1 - 0) + 0) with 1 by ring. replace (loss / 1) with loss by field.
  dec. f_equal. ring.
Qed.
Lemma ex_first : exists s1, iterate 10 1 false 1 (start [0]) ex_list = Some s1 /\ lambdas s1 = [1] /\ tot s1 = [1] /\
  normalizer s1 = 2%nat /\ cur_sent s1 = 1%nat /\ goods s1 0%nat = Some ([1], 1).
Proof.
  unfold iterate, ex_list, begin, update_kbest, signed_list, signed. cbn [cur_sent start Nat.eqb map fst snd hd_error oracles goods dense lambdas tot normalizer].
  dec. eexists. split; [reflexivity|]. cbn [lambdas tot normalizer cur_sent goods Nat.eqb].
  assert (U : update 10 1 [0] [0] ([0], 0) ([1], 1) ([0], 0) = [1]).
  { rewrite (upd1 0 0 1) by lra. f_equal. ring. }
  rewrite U. split; [reflexivity|]. split; [cbn; f_equal; lra|]. repeat split; reflexivity.
Qed.
Lemma ex_second : forall s1, lambdas s1 = [1] -> tot s1 = [1] -> normalizer s1 = 2%nat -> cur_sent s1 = 1%nat -> goods s1 0%nat = Some ([1], 1) ->
  exists s2, iterate 10 1 false 1 s1 ex_list = Some s2 /\ lambdas s2 = [3 / 2].
Proof.
  intros s1 L T N Cs G. unfold iterate, ex_list, begin, update_kbest, signed_list, signed. rewrite Cs. cbn [Nat.eqb goods]. rewrite G.
  cbn [cur_sent map fst snd hd_error oracles dense lambdas tot normalizer]. dec. eexists. split; [reflexivity|]. cbn [lambdas]. rewrite L, T, N.
  cbn [vdiv map INR]. rewrite (upd1 _ 1 (1 / 2)) by lra. f_equal. field.
Qed.
Lemma pass_start : exists s1 s2, run 10 1 false 1 (start [0]) [ex_list] = Some s1 /\ iterate 10 1 false 1 s1 ex_list = Some s2 /\
  objective 10 1 (lambdas s1) [1] [0] (lambdas s1) < objective 10 1 (lambdas s1) [1] [0] (lambdas s2).
Proof.
  destruct ex_first as (s1 & E & L & T & N & Cs & G). destruct (ex_second s1 L T N Cs G) as (s2 & E2 & L2). exists s1, s2.
  split; [cbn [run]; rewrite E; reflexivity|]. split; [exact E2|]. rewrite L, L2. unfold objective, hinge. cbn [inner dist2].
  rewrite !Rmax_left by lra. lra.
Qed.

Lemma iteration_ok : forall C scale invert corpus n s id l s', 0 <= C -> length (lambdas s) = n ->
  (forall h, In h l -> length (fst h) = n) -> (forall g, goods s id = Some g -> length (fst g) = n) ->
  cur_sent s <> corpus -> iterate C scale invert corpus s (id, l) = Some s' ->
  exists best good bad,
    hd_error (signed_list invert l) = Some best /\
    goods s' id = Some good /\
    (In good (signed_list invert l) \/ goods s id = Some good) /\
    (forall h, In h (signed_list invert l) \/ goods s id = Some h -> snd h <= snd good) /\
    In bad (signed_list invert l) /\ (forall h, In h (signed_list invert l) -> snd bad <= snd h) /\
    (ApproxEqual (snd best) (snd good) = true -> lambdas s' = lambdas s) /\
    (ApproxEqual (snd best) (snd good) = false ->
     let f := objective C (scale * (snd good - snd bad)) (lambdas s) (fst good) (fst bad) in
     length (lambdas s') = n /\ forall v, length v = n -> f (lambdas s') + dist2 v (lambdas s') / 2 <= f v).
Proof.
  intros C scale invert corpus n s id l s' HC L Zl Zg N I.
  destruct (iterate_step C scale invert corpus s id l s' I N) as (best & good & bad & Hd & Gs & Ib & B & Ig & Og & U).
  exists best, good, bad. split; [exact Hd|]. split; [exact Gs|]. split; [exact Ig|].
  split; [intros h [K|K]; [apply B; exact K|apply Og; exact K]|]. split; [exact Ib|]. split; [intros h K; apply B; exact K|].
  assert (Zs : forall h, In h (signed_list invert l) -> length (fst h) = n).
  { intros h K. unfold signed_list in K. apply in_map_iff in K. destruct K as (h0 & <- & K). cbn. apply Zl. exact K. }
  split; [intros A; rewrite U; unfold update; rewrite A; reflexivity|]. intros A. rewrite U. apply update_ok; auto. destruct Ig; [apply Zs|apply Zg]; assumption.
Qed.

Lemma nth_shift : forall n w x g b k, length w = n -> length g = n -> length b = n -> nth k (shift w x g b) 0 = nth k w 0 + x * (nth k g 0 - nth k b 0).
Proof.
  induction n as [|n IH]; intros w x g b k W G B.
  - destruct w, g, b; try discriminate. destruct k; cbn; ring.
  - destruct w as [|w0 w], g as [|g0 g], b as [|b0 b]; try discriminate. rewrite shift_cons. destruct k as [|k]; cbn [nth]; [ring|]. apply IH; cbn in *; lia.
Qed.
Lemma margin_ok : forall n C scale w best good bad, 0 <= C -> length w = n -> length (fst good) = n -> length (fst bad) = n ->
  ApproxEqual (snd best) (snd good) = false ->
  let w' := update C scale w w best good bad in
  scale * (snd good - snd bad) <= inner (fst good) w' - inner (fst bad) w' \/
  forall k, nth k w' 0 = nth k w 0 + C * (nth k (fst good) 0 - nth k (fst bad) 0).
Proof.
  intros n C scale w best good bad HC W G B A w'. destruct (update_margin n C scale w best good bad HC W G B A) as [K|K]; [left; exact K|].
  right. intros k. unfold w'. rewrite K. apply (nth_shift n); assumption.
Qed.
Lemma average : forall C scale invert corpus n w es s', length w = n ->
  (forall id l h, In (id, l) es -> In h l -> length (fst h) = n) ->
  run C scale invert corpus (start w) es = Some s' ->
  exists ws, trace C scale invert corpus (start w) es = Some ws /\ length ws = length es /\
    forall k, nth k (final_avg s') 0 = mean (w :: ws) k.
Proof.
  intros C scale invert corpus n w es s' L Z R. apply (average_ok C scale invert corpus n); auto. rewrite Forall_forall. intros [id l] I.
  unfold sized. rewrite Forall_forall. intros h K. apply (Z id l); assumption.
Qed.
