From Coq Require Import List Arith QArith Qabs Bool Permutation Lia Lqa.
From Verif Require Import HG HGProofs Deriv Inside KBestSpec Mert MertSpec MertProofs Stats Bleu BleuSpec BleuProofs BleuScoreProofs Surface SurfaceSpec.
Import ListNotations.
Open Scope Q_scope.
Ltac lra := Lqa.lra.

Lemma ltx_irrefl : forall a, ltx a a = false.
Proof. intros [|q|]; cbn [ltx]; try reflexivity. apply Qltb_false. lra. Qed.
Lemma ltx_le_trans : forall a b c, ltx a b = true -> ltx c b = false -> ltx a c = true.
Proof.
  intros [|p|] [|q|] [|r|]; cbn [ltx]; try discriminate; try reflexivity. intros A B. apply Qltb_spec in A. apply Qltb_false in B. apply Qltb_spec. lra.
Qed.
Lemma le_ltx_trans : forall a b c, ltx b a = false -> ltx b c = true -> ltx a c = true.
Proof.
  intros [|p|] [|q|] [|r|]; cbn [ltx]; try discriminate; try reflexivity. intros A B. apply Qltb_spec in B. apply Qltb_false in A. apply Qltb_spec. lra.
Qed.
Lemma le_trans : forall a b c, ltx b a = false -> ltx c b = false -> ltx c a = false.
Proof. intros a b c A B. destruct (ltx c a) eqn:E; [|reflexivity]. rewrite (ltx_le_trans _ _ _ E A) in B. discriminate. Qed.
Lemma ltx_le : forall a b, ltx a b = true -> ltx b a = false.
Proof. intros [|p|] [|q|]; cbn [ltx]; try discriminate; try reflexivity. intros A. apply Qltb_spec in A. apply Qltb_false. lra. Qed.

Lemma filter_perm : forall (A : Type) (f : A -> bool) l l', Permutation l l' -> Permutation (filter f l) (filter f l').
Proof.
  intros A f l l' H. induction H as [|x l l' H IH|x y l|l l' l'' H1 IH1 H2 IH2]; cbn [filter].
  - constructor.
  - destruct (f x); [constructor|]; exact IH.
  - destruct (f x), (f y); try reflexivity. apply perm_swap.
  - etransitivity; eassumption.
Qed.
Lemma filter_all : forall (A : Type) (f : A -> bool) l, (forall x, In x l -> f x = true) -> filter f l = l.
Proof. intros A f. induction l as [|x l IH]; intros H; [reflexivity|]. cbn [filter]. rewrite (H x (or_introl eq_refl)), IH; [reflexivity|]. intros y Y. apply H. right. exact Y. Qed.
Lemma filter_nothing : forall (A : Type) (f : A -> bool) l, (forall x, In x l -> f x = false) -> filter f l = [].
Proof. intros A f. induction l as [|x l IH]; intros H; [reflexivity|]. cbn [filter]. rewrite (H x (or_introl eq_refl)), IH; [reflexivity|]. intros y Y. apply H. right. exact Y. Qed.
Lemma total_perm : forall l l', Permutation l l' -> same_stats (total_stats l) (total_stats l').
Proof. intros l l' H i. apply stats_sum. exact H. Qed.
Lemma stats_at_perm : forall l l' x, Permutation l l' -> same_stats (stats_at l x) (stats_at l' x).
Proof. intros l l' x H. apply total_perm, Permutation_map, filter_perm, H. Qed.
Lemma total_snoc : forall l s, total_stats (l ++ [s]) = ss_plus (total_stats l) s.
Proof. intros. unfold total_stats. rewrite fold_left_app. reflexivity. Qed.

Section LO.
Variable xsort : list eseg -> list eseg.
Variable metric : stats -> option Q.
Variable maximize : bool.
Variable fmax : Q.
Variable epsilon : Q.
Hypothesis XS : xsorts xsort.
Hypothesis MR : forall a b, same_stats a b -> oeq (metric a) (metric b).
Hypothesis EP : 0 <= epsilon.
Variable C : list eseg.
Hypothesis SC : forall x, inside_x C x -> exists v, metric (stats_at C x) = Some v /\ - fmax < v < fmax.
Hypothesis NP : no_pinf C.
Hypothesis SEP : separated epsilon C.

Let L := xsort C.
Lemma inL : forall s, In s L <-> In s C.
Proof. intros s. split; apply Permutation_in; [apply (xs_perm _ XS)|symmetry; apply (xs_perm _ XS)]. Qed.
Lemma inside_perm : forall x, inside_x L x <-> inside_x C x.
Proof. intros x. unfold inside_x. split; intros H s q IS; apply H; apply inL; exact IS. Qed.
Lemma L_pre : forall pre seg rest, L = pre ++ seg :: rest -> forall s, In s pre -> ltx (sx seg) (sx s) = false.
Proof.
  intros pre seg rest E s IS. apply In_nth_error in IS. destruct IS as (i & NI). assert (LI : (i < length pre)%nat) by (apply nth_error_Some; congruence).
  apply (xs_sorted _ XS C i (length pre)); fold L; rewrite ?E; [exact LI|rewrite nth_error_app1 by exact LI; exact NI|rewrite nth_error_app2, Nat.sub_diag by lia; reflexivity].
Qed.
Lemma L_post : forall pre seg rest, L = pre ++ seg :: rest -> forall s, In s rest -> ltx (sx s) (sx seg) = false.
Proof.
  intros pre seg rest E s IS. apply In_nth_error in IS. destruct IS as (i & NI).
  apply (xs_sorted _ XS C (length pre) (length pre + S i)); fold L; rewrite ?E; [lia|rewrite nth_error_app2, Nat.sub_diag by lia; reflexivity|rewrite nth_error_app2 by lia; replace (length pre + S i - length pre)%nat with (S i) by lia; exact NI].
Qed.
Notation value x := (metric (stats_at C x)).

Lemma value_split : forall pre rest x, L = pre ++ rest -> (forall s, In s pre -> ltx (sx s) (Fin x) = true) -> (forall s, In s rest -> ltx (sx s) (Fin x) = false) -> oeq (value x) (metric (total_stats (map delta pre))).
Proof.
  intros pre rest x E A B. apply MR. intros i. rewrite <- (stats_at_perm L C x (xs_perm _ XS C) i). unfold stats_at. rewrite E, filter_app, (filter_all _ _ _ A), (filter_nothing _ _ _ B), app_nil_r. reflexivity.
Qed.

Definition Inv (pre rest : list eseg) (st : lo) : Prop :=
  acc st = total_stats (map delta pre) /\
  (forall s, In s pre -> ltx (last st) (sx s) = false) /\
  (forall s, In s rest -> ltx (sx s) (last st) = false) /\
  (last st = MInf \/ exists s, In s C /\ sx s = last st) /\
  if left_edge st then last st = MInf /\ best st = (if maximize then - fmax else fmax)
  else (exists b, last st = Fin b) /\ exists p v, pos st = Some (Fin p) /\ inside_x C p /\ value p = Some v /\ v == best st /\
    forall x w, inside_x C x -> ltx (Fin x) (last st) = true -> value x = Some w -> no_better maximize w (best st).

Lemma better_dec : forall v b, improves maximize (Some v) b = true \/ improves maximize (Some v) b = false /\ no_better maximize v b.
Proof.
  intros v b. unfold improves, no_better. destruct maximize; destruct (Qltb _ _) eqn:E; auto; right; apply Qltb_false in E; auto.
Qed.
Lemma improves_old : forall v b w, improves maximize (Some v) b = true -> no_better maximize w b -> no_better maximize w v.
Proof. intros v b w. unfold improves, no_better. destruct maximize; intros A B; apply Qltb_spec in A; lra. Qed.
Lemma no_better_refl : forall v w, v == w -> no_better maximize v w.
Proof. intros. unfold no_better. destruct maximize; lra. Qed.
Lemma no_better_eq : forall v v' b, v == v' -> no_better maximize v b -> no_better maximize v' b.
Proof. intros v v' b E. unfold no_better. destruct maximize; lra. Qed.

(** An interval between two consecutive boundaries. *)
Lemma gap_value : forall pre rest st x, L = pre ++ rest -> Inv pre rest st -> ltx (last st) (Fin x) = true -> (forall s, In s rest -> ltx (Fin x) (sx s) = true) ->
  inside_x C x /\ oeq (value x) (metric (acc st)).
Proof.
  intros pre rest st x E (A & B & D & _) LX RX. 
  assert (P1 : forall s, In s pre -> ltx (sx s) (Fin x) = true) by (intros s IS; apply (le_ltx_trans _ (last st)); [apply B, IS|exact LX]).
  split.
  - apply inside_perm. intros s q IS SX EQ. rewrite E in IS. apply in_app_iff in IS. destruct IS as [IS|IS]; [apply P1 in IS|apply RX in IS]; rewrite SX in IS; cbn [ltx] in IS; apply Qltb_spec in IS; lra.
  - rewrite A. apply (value_split pre rest); [exact E|exact P1|]. intros s IS. apply ltx_le, RX, IS.
Qed.
(** Points between the last boundary and the next. *)
Lemma inside_cases : forall st x, (last st = MInf \/ exists s, In s C /\ sx s = last st) -> inside_x C x -> ltx (Fin x) (last st) = true \/ ltx (last st) (Fin x) = true.
Proof.
  intros st x [M|(s & IS & SX)] IX; [right; rewrite M; reflexivity|]. destruct (last st) as [|q|]; [right; reflexivity| |left; reflexivity].
  specialize (IX s q IS SX). cbn [ltx]. rewrite !Qltb_spec. destruct (Q_dec x q) as [[H|H]|H]; [left|right|destruct IX; symmetry]; assumption.
Qed.
Lemma score_gap : forall pre rest st x0, L = pre ++ rest -> Inv pre rest st -> ltx (last st) (Fin x0) = true -> (forall s, In s rest -> ltx (Fin x0) (sx s) = true) ->
  exists v w, metric (acc st) = Some v /\ - fmax < v < fmax /\ inside_x C x0 /\ value x0 = Some w /\ w == v.
Proof.
  intros pre rest st x0 E I0 A B. destruct (gap_value pre rest st x0 E I0 A B) as (IX & V). destruct (SC x0 IX) as (w & W & R). rewrite W in V. destruct (metric (acc st)) as [v|]; cbn in V; [|contradiction]. exists v, w. split; [reflexivity|]. split; [lra|]. auto.
Qed.

Lemma step_inv : forall pre seg rest st, L = pre ++ seg :: rest -> Inv pre (seg :: rest) st -> Inv (pre ++ [seg]) rest (lo_step metric maximize epsilon st seg).
Proof.
  intros pre seg rest st E I0. pose proof I0 as (A & B & D & F & G).
  assert (IC : In seg C) by (apply inL; rewrite E; apply in_app_iff; right; left; reflexivity).
  assert (PRE := L_pre pre seg rest E). assert (POST := L_post pre seg rest E). unfold lo_step.
  destruct (dgt (xsub (sx seg) (last st)) epsilon) eqn:GAP.
  - (* a new interval *)
    assert (LT : ltx (last st) (sx seg) = true).
    { destruct (sx seg) as [|q|], (last st) as [|p|]; cbn [xsub dgt ltx] in *; try discriminate; try reflexivity. apply Qltb_spec in GAP. apply Qltb_spec. lra. }
    assert (exists q, sx seg = Fin q) as (q & SQ). { destruct (sx seg) as [|q|] eqn:SX; [destruct (last st); discriminate|exists q; reflexivity|destruct (NP seg IC SX)]. }
    assert (LASTC : last st = MInf \/ exists p, last st = Fin p /\ p < q).
    { destruct (last st) as [|p|]; [left; reflexivity|right; exists p; split; [reflexivity|]|]; rewrite SQ in LT; cbn [ltx] in LT; [apply Qltb_spec in LT; exact LT|discriminate]. }
    assert (REST : forall x, x < q -> forall s, In s (seg :: rest) -> ltx (Fin x) (sx s) = true).
    { intros x LX s [<-|IS]; [rewrite SQ; cbn [ltx]; apply Qltb_spec; exact LX|]. apply (ltx_le_trans _ (sx seg)); [rewrite SQ; cbn [ltx]; apply Qltb_spec; exact LX|apply POST, IS]. }
    (* where the position is put *)
    set (np := if left_edge st then xsub (sx seg) (Fin (1 # 10)) else match xsub (sx seg) (last st) with Some d => xadd (last st) (xhalf d) | None => None end).
    assert (exists x0, np = Some (Fin x0) /\ ltx (last st) (Fin x0) = true /\ x0 < q) as (x0 & NP0 & X1 & X2).
    { unfold np. destruct (left_edge st).
      - destruct G as (G & _). rewrite SQ, G. eexists. split; [reflexivity|]. split; [reflexivity|lra].
      - destruct G as ((b & GB) & _). rewrite SQ, GB. cbn [xsub xhalf xadd]. eexists. split; [reflexivity|]. destruct LASTC as [LM|(p & LP & PQ)]; [congruence|]. assert (b = p) by congruence. subst p. cbn [ltx]. rewrite Qltb_spec. setoid_replace ((q - b) / 2) with ((q - b) * (1 # 2)) by (unfold Qdiv; reflexivity). split; lra. }
    destruct (score_gap pre (seg :: rest) st x0 E I0 X1 (REST x0 X2)) as (v & w & MV & RV & IX0 & W & WV). rewrite MV.
    (* everything before seg.x is an old point or in this interval *)
    assert (NEWX : forall x u, inside_x C x -> ltx (Fin x) (Fin q) = true -> value x = Some u -> ltx (Fin x) (last st) = true \/ u == v).
    { intros x u IX LX VX. destruct (inside_cases st x F IX) as [H|H]; [left; exact H|right]. cbn [ltx] in LX. apply Qltb_spec in LX. destruct (score_gap pre (seg :: rest) st x E I0 H (REST x LX)) as (v' & w' & MV' & _ & _ & W' & WV'). rewrite MV in MV'. injection MV' as <-. rewrite VX in W'. injection W' as <-. exact WV'. }
    assert (COMMON : forall b le po, (if (le : bool) then False else exists p u, po = Some (Fin p) /\ inside_x C p /\ value p = Some u /\ u == b /\ forall x w0, inside_x C x -> ltx (Fin x) (sx seg) = true -> value x = Some w0 -> no_better maximize w0 b) ->
      Inv (pre ++ [seg]) rest {| last := sx seg; acc := ss_plus (acc st) (delta seg); best := b; left_edge := le; pos := po |}).
    { intros b le po H. unfold Inv. cbn [last acc best left_edge pos]. split; [rewrite map_app; change (map delta [seg]) with [delta seg]; rewrite total_snoc, A; reflexivity|]. split; [|split; [exact POST|split; [right; exists seg; auto|]]].
      - intros s IS. apply in_app_iff in IS. destruct IS as [IS|[<-|[]]]; [apply PRE, IS|apply ltx_irrefl].
      - destruct le; [contradiction|]. split; [exists q; exact SQ|exact H]. }
    destruct (better_dec v (best st)) as [IM|(IM & NB)]; rewrite IM; cbn [last acc best left_edge pos].
    + apply COMMON. exists x0, w. split; [exact NP0|]. split; [exact IX0|]. split; [exact W|]. split; [exact WV|]. intros x u IX LX VX. rewrite SQ in LX. destruct (NEWX x u IX LX VX) as [OLD|NEW]; [|apply no_better_refl, NEW].
      apply (improves_old _ _ _ IM). destruct (left_edge st); [destruct G as (G & _); rewrite G in OLD; discriminate|]. destruct G as (_ & p & v0 & _ & _ & _ & _ & G). apply (G x u IX OLD VX).
    + destruct (left_edge st).
      * exfalso. destruct G as (_ & G). rewrite G in NB. unfold no_better in NB. destruct maximize; lra.
      * apply COMMON. destruct G as (_ & p & v0 & G1 & G2 & G3 & G4 & G5). exists p, v0. split; [exact G1|]. split; [exact G2|]. split; [exact G3|]. split; [exact G4|]. intros x u IX LX VX. rewrite SQ in LX. destruct (NEWX x u IX LX VX) as [OLD|NEW]; [apply (G5 x u IX OLD VX)|]. apply (no_better_eq v); [symmetry; exact NEW|exact NB].
  - (* the same boundary as the last *)
    unfold Inv. cbn [last acc best left_edge pos]. split; [rewrite map_app; change (map delta [seg]) with [delta seg]; rewrite total_snoc, A; reflexivity|]. split; [|split; [intros s IS; apply D; right; exact IS|split; [exact F|exact G]]].
    intros s IS. apply in_app_iff in IS. destruct IS as [IS|[<-|[]]]; [apply B, IS|]. destruct (ltx (last st) (sx seg)) eqn:LT; [exfalso|reflexivity].
    destruct (sx seg) as [|q|] eqn:SX; [destruct (last st); discriminate| |destruct (NP seg IC SX)].
    destruct (last st) as [|p|] eqn:LS; [discriminate| |discriminate]. destruct F as [F|(s & SI & SS)]; [discriminate|]. cbn [ltx] in LT. apply Qltb_spec in LT. pose proof (SEP s seg p q SI IC SS SX LT) as SE. cbn [xsub dgt ltx] in GAP. apply Qltb_false in GAP. lra.
Qed.
Lemma loop_inv : forall rest pre st, L = pre ++ rest -> Inv pre rest st -> Inv L [] (fold_left (lo_step metric maximize epsilon) rest st).
Proof.
  induction rest as [|seg rest IH]; intros pre st E I0; cbn [fold_left]; [rewrite app_nil_r in E; rewrite E; exact I0|].
  apply (IH (pre ++ [seg])); [rewrite <- app_assoc; exact E|]. apply step_inv; assumption.
Qed.
Lemma line_optimal : (exists s, In s C /\ sx s = MInf) -> forall surfaces, concat surfaces = C -> exists p b v,
  LineOptimize xsort metric maximize fmax epsilon surfaces = Some (Some (Fin p), b) /\ inside_x C p /\ value p = Some v /\ v == b /\
  forall x w, inside_x C x -> value x = Some w -> no_better maximize w b.
Proof.
  intros (s0 & IS0 & S0) surfaces CE. unfold LineOptimize. rewrite CE. fold L. apply inL in IS0. destruct L as [|f r] eqn:EL; [contradiction|]. fold L in EL.
  assert (F0 : sx f = MInf). { destruct IS0 as [<-|IS0]; [exact S0|]. pose proof (L_post [] f r EL s0 IS0) as X. rewrite S0 in X. destruct (sx f); [reflexivity|discriminate|discriminate]. }
  pose proof (loop_inv L [] {| last := sx f; acc := no_stats; best := if maximize then - fmax else fmax; left_edge := true; pos := None |} eq_refl) as I0.
  assert (I1 : Inv [] L {| last := sx f; acc := no_stats; best := if maximize then - fmax else fmax; left_edge := true; pos := None |}).
  { unfold Inv. cbn [last acc best left_edge pos]. split; [reflexivity|]. split; [intros s []|]. split; [intros s _; rewrite F0; destruct (sx s); reflexivity|]. split; [left; exact F0|auto]. }
  specialize (I0 I1). rewrite EL in I0 at 2. rewrite <- EL in I0. change (fold_left (lo_step metric maximize epsilon) (f :: r)) with (fold_left (lo_step metric maximize epsilon) (f :: r)). rewrite EL in I0.
  set (st := fold_left _ _ _) in *. rewrite <- EL in I0. clear I1. pose proof I0 as (A & B & D & F & G). unfold lo_end.
  assert (LA : L = L ++ []) by (rewrite app_nil_r; reflexivity).
  set (np := if left_edge st then Some (Fin 0) else xadd (last st) (Fin 1000)).
  assert (exists x0, np = Some (Fin x0) /\ ltx (last st) (Fin x0) = true) as (x0 & NP0 & X1).
  { unfold np. destruct (left_edge st); [destruct G as (G & _); rewrite G; exists 0; auto|]. destruct G as ((b & G) & _). rewrite G. exists (b + 1000). split; [reflexivity|]. cbn [ltx]. apply Qltb_spec. lra. }
  destruct (score_gap L [] st x0 LA I0 X1 ltac:(intros s [])) as (v & w & MV & RV & IX0 & W & WV). rewrite MV.
  assert (NEWX : forall x u, inside_x C x -> value x = Some u -> ltx (Fin x) (last st) = true \/ u == v).
  { intros x u IX VX. destruct (inside_cases st x F IX) as [H|H]; [left; exact H|right]. destruct (score_gap L [] st x LA I0 H ltac:(intros s [])) as (v' & w' & MV' & _ & _ & W' & WV'). rewrite MV in MV'. injection MV' as <-. rewrite VX in W'. injection W' as <-. exact WV'. }
  destruct (better_dec v (best st)) as [IM|(IM & NB)]; rewrite IM.
  - exists x0, v, w. split; [rewrite NP0; reflexivity|]. split; [exact IX0|]. split; [exact W|]. split; [exact WV|]. intros x u IX VX. destruct (NEWX x u IX VX) as [OLD|NEW]; [|apply no_better_refl, NEW].
    apply (improves_old _ _ _ IM). destruct (left_edge st); [destruct G as (G & _); rewrite G in OLD; discriminate|]. destruct G as (_ & p & v0 & _ & _ & _ & _ & G). apply (G x u IX OLD VX).
  - destruct (left_edge st); [exfalso; destruct G as (_ & G); rewrite G in NB; unfold no_better in NB; destruct maximize; lra|].
    destruct G as (_ & p & v0 & G1 & G2 & G3 & G4 & G5). exists p, (best st), v0. split; [rewrite G1; reflexivity|]. split; [exact G2|]. split; [exact G3|]. split; [exact G4|]. intros x u IX VX. destruct (NEWX x u IX VX) as [OLD|NEW]; [apply (G5 x u IX OLD VX)|]. apply (no_better_eq v); [symmetry; exact NEW|exact NB].
Qed.
End LO.

(** * The surface of one sentence *)
Lemma total_at : forall l i, ss_at (total_stats l) i == fold_right Qplus 0 (map (fun s => ss_at s i) l).
Proof.
  intros l i. unfold total_stats. assert (G : forall a, ss_at (fold_left ss_plus l a) i == ss_at a i + fold_right Qplus 0 (map (fun s => ss_at s i) l)).
  { induction l as [|s l IH]; intros a; cbn [fold_left map fold_right]; [symmetry; apply Qplus_0_r|]. rewrite IH, plus_at. ring. }
  rewrite G. unfold ss_at at 1. cbn [no_stats fields]. destruct i; cbn [nth]; lra.
Qed.
Lemma total_app : forall a b i, ss_at (total_stats (a ++ b)) i == ss_at (total_stats a) i + ss_at (total_stats b) i.
Proof. intros. rewrite !total_at, map_app, fold_right_app. induction (map (fun s => ss_at s i) a) as [|y l IH]; cbn [fold_right]; [lra|]. rewrite IH. ring. Qed.
Lemma none_at : forall i, ss_at no_stats i = 0.
Proof. intros [|i]; reflexivity. Qed.

Section CES.
Context {P Y : Type}.
Variable g : hg P.
Variable traverse : edge P -> list Y -> Y.
Variable eqY : Y -> Y -> bool.
Hypothesis EQ : forall a b, eqY a b = true <-> a = b.
Variable empty : Y.
Variable eval : Y -> stats.
Notation tr := (ConstructTranslation g traverse).
Definition below (x : Q) (p : pt) : bool := ltx (px p) (Fin x).

Lemma ces_spec : forall S prev score, (forall p, In p S -> tr p <> None) -> (same_stats score (eval prev) \/ forall p r, S = p :: r -> tr p <> Some prev) ->
  exists out, ces_loop g traverse eqY eval S prev score = Some out /\ (forall s, In s out -> exists p, In p S /\ sx s = px p) /\
  forall x pre p post t, S = pre ++ p :: post -> (forall q, In q (pre ++ [p]) -> below x q = true) -> (forall q, In q post -> below x q = false) -> tr p = Some t ->
    forall i, ss_at (stats_at out x) i + ss_at score i == ss_at (eval t) i.
Proof.
  induction S as [|seg S IH]; intros prev score TR PS; cbn [ces_loop].
  - exists []. split; [reflexivity|]. split; [intros s []|]. intros x pre p post t E. destruct pre; discriminate.
  - destruct (tr seg) as [t0|] eqn:T0; [|destruct (TR seg (or_introl eq_refl) T0)].
    assert (NONE : forall out x (q : pt), (forall s, In s out -> exists p, In p S /\ sx s = px p) -> (forall q, In q S -> below x q = false) -> stats_at out x = no_stats).
    { intros out x _ O B. unfold stats_at. rewrite filter_nothing; [reflexivity|]. intros s IS. destruct (O s IS) as (p & IP & ->). apply B, IP. }
    destruct (eqY t0 prev) eqn:EY.
    + apply EQ in EY. subst t0. destruct PS as [PS|PS]; [|destruct (PS seg S eq_refl T0)].
      destruct (IH prev score (fun p IP => TR p (or_intror IP)) (or_introl PS)) as (out & R & O & V). exists out. split; [exact R|]. split; [intros s IS; destruct (O s IS) as (p & IP & SP); exists p; split; [right; exact IP|exact SP]|].
      intros x pre p post t E BL NB TP i. destruct pre as [|a pre].
      * injection E as <- <-. rewrite (NONE out x seg O NB), none_at, T0 in *. injection TP as <-. rewrite (PS i). ring.
      * injection E as <- E. apply (V x pre p post t E); [intros q IQ; apply BL; right; exact IQ|exact NB|exact TP].
    + set (s := eval t0). destruct (IH t0 s (fun p IP => TR p (or_intror IP))) as (out & R & O & V); [left; intros i; reflexivity|]. rewrite R.
      assert (D : forall x i, below x seg = true -> ss_at (stats_at (if ss_zero (ss_minus s score) then out else {| sx := px seg; delta := ss_minus s score |} :: out) x) i + ss_at score i == ss_at (stats_at out x) i + ss_at s i).
      { intros x i BS. destruct (ss_zero (ss_minus s score)) eqn:Z.
        - pose proof (proj1 (stats_zero _) Z i) as Z0. destruct (stats_arith s score 1 i) as ((_ & M & _) & _). rewrite M in Z0. lra.
        - destruct (stats_arith s score 1 i) as ((_ & M & _) & _). unfold stats_at. cbn [filter sx]. unfold below in BS. rewrite BS. cbn [map delta]. rewrite !total_at. cbn [map fold_right]. rewrite M. ring. }
      eexists. split; [reflexivity|]. split.
      { intros s0 IS. assert (IS' : s0 = {| sx := px seg; delta := ss_minus s score |} \/ In s0 out) by (destruct (ss_zero (ss_minus s score)); [right; exact IS|destruct IS as [<-|IS]; auto]). destruct IS' as [->|IS']; [exists seg; split; [left; reflexivity|reflexivity]|]. destruct (O s0 IS') as (p & IP & SP). exists p. split; [right; exact IP|exact SP]. }
      intros x pre p post t E BL NB TP i. destruct pre as [|a pre].
      * injection E as <- <-. rewrite D by (apply BL; left; reflexivity). rewrite T0 in TP. injection TP as <-. rewrite (NONE out x seg O NB), none_at. unfold s. ring.
      * injection E as <- E. rewrite D by (apply BL; left; reflexivity). apply (V x pre p post t E); [intros q IQ; apply BL; right; exact IQ|exact NB|exact TP].
Qed.
(** The first boundary. *)
Lemma ces_first : forall seg r t out, tr seg = Some t -> t <> empty -> ss_zero (eval t) = false -> ces_loop g traverse eqY eval (seg :: r) empty no_stats = Some out -> exists s out', out = s :: out' /\ sx s = px seg.
Proof.
  intros seg r t out T NE NZ H. cbn [ces_loop] in H. rewrite T in H. destruct (eqY t empty) eqn:EY; [apply EQ in EY; contradiction|].
  destruct (ces_loop g traverse eqY eval r t (eval t)) as [o|]; [|discriminate]. destruct (ss_zero (ss_minus (eval t) no_stats)) eqn:Z; [exfalso|injection H as <-; eexists; eexists; split; reflexivity].
  assert (Z' : ss_zero (eval t) = true); [|congruence]. apply stats_zero. intros i. pose proof (proj1 (stats_zero _) Z i) as Z0. destruct (stats_arith (eval t) no_stats 1 i) as ((_ & M & _) & _). rewrite M, none_at in Z0. lra.
Qed.
End CES.

(** The segment of an envelope at [x]. *)
Definition increasing (S : list pt) : Prop := forall i p p', nth_error S i = Some p -> nth_error S (i + 1) = Some p' -> ltx (px p) (px p') = true.
Lemma increasing_le : forall S, increasing S -> forall i j p q, (i < j)%nat -> nth_error S i = Some p -> nth_error S j = Some q -> ltx (px p) (px q) = true.
Proof.
  intros S IN i j p q LT NP. revert q. induction j as [|j IH]; intros q NQ; [lia|]. destruct (Nat.eq_dec i j) as [->|NE].
  - apply (IN j p q NP). rewrite Nat.add_1_r. exact NQ.
  - destruct (nth_error S j) as [r|] eqn:NR; [|apply nth_error_None in NR; assert (j < length S)%nat; [|lia]; assert (S0 : (Datatypes.S j < length S)%nat) by (apply nth_error_Some; congruence); lia].
    specialize (IH ltac:(lia) r eq_refl). apply (le_ltx_trans _ (px r)); [apply ltx_le, IH|]. apply (IN j r q NR). rewrite Nat.add_1_r. exact NQ.
Qed.
Lemma last_true : forall (A : Type) (f : A -> bool) S q, In q S -> f q = true -> exists pre p post, S = pre ++ p :: post /\ f p = true /\ forall r, In r post -> f r = false.
Proof.
  intros A f S. induction S as [|a S IH] using rev_ind; intros q IQ FQ; [contradiction|]. destruct (f a) eqn:FA; [exists S, a, []; split; [reflexivity|split; [exact FA|intros r []]]|].
  apply in_app_iff in IQ. destruct IQ as [IQ|[<-|[]]]; [|congruence]. destruct (IH q IQ FQ) as (pre & p & post & -> & FP & NP). exists pre, p, (post ++ [a]). split; [rewrite <- app_assoc; reflexivity|]. split; [exact FP|].
  intros r IR. apply in_app_iff in IR. destruct IR as [IR|[<-|[]]]; [apply NP, IR|exact FA].
Qed.
Lemma split_at : forall S x, increasing S -> (forall p, nth_error S 0 = Some p -> px p = MInf) -> S <> [] ->
  exists pre p post, S = pre ++ p :: post /\ (forall q, In q (pre ++ [p]) -> below x q = true) /\ (forall q, In q post -> below x q = false) /\ covers S (length pre) p x.
Proof.
  intros S x IN FI NE. destruct S as [|f S]; [congruence|]. specialize (FI f eq_refl).
  destruct (last_true _ (below x) (f :: S) f (or_introl eq_refl)) as (pre & p & post & E & BP & NB); [unfold below; rewrite FI; reflexivity|].
  exists pre, p, post. split; [exact E|]. split; [|split; [exact NB|]].
  - intros q IQ. apply in_app_iff in IQ. destruct IQ as [IQ|[<-|[]]]; [|exact BP]. apply In_nth_error in IQ. destruct IQ as (i & NI). assert (LI : (i < length pre)%nat) by (apply nth_error_Some; congruence).
    unfold below in *. apply (le_ltx_trans _ (px p)); [|exact BP]. apply ltx_le. apply (increasing_le _ IN i (length pre)); [exact LI|rewrite E, nth_error_app1 by exact LI; exact NI|rewrite E, nth_error_app2, Nat.sub_diag by lia; reflexivity].
  - rewrite E. split; [rewrite nth_error_app2, Nat.sub_diag by lia; reflexivity|]. split.
    + unfold below in BP. destruct (px p) as [|q|]; cbn in *; [exact I|apply Qltb_spec in BP; lra|discriminate].
    + rewrite nth_error_app2 by lia. replace (length pre + 1 - length pre)%nat with 1%nat by lia. cbn [nth_error]. destruct post as [|r post]; cbn [nth_error]; [exact I|].
      specialize (NB r (or_introl eq_refl)). unfold below in NB. destruct (px r) as [|q|]; cbn in *; [discriminate|apply Qltb_false in NB; exact NB|exact I].
Qed.
(** Just below [x] there is a point which is no boundary. *)
Lemma left_limit : forall C x, exists x', x' < x /\ inside_x C x' /\ stats_at C x' = stats_at C x.
Proof.
  intros C x. assert (G : exists y, y < x /\ forall s q, In s C -> sx s = Fin q -> q < x -> q < y).
  { induction C as [|s C (y & LY & IH)]; [exists (x - 1); split; [lra|intros s q []]|].
    destruct (sx s) as [|q|] eqn:SX; try (exists y; split; [exact LY|]; intros s' q' [<-|IS] SQ; [congruence|apply (IH s' q' IS SQ)]).
    destruct (Qlt_le_dec q y) as [LQ|LQ].
    - exists y. split; [exact LY|]. intros s' q' [<-|IS] SQ LT; [congruence|]. apply (IH s' q' IS SQ LT).
    - destruct (Qlt_le_dec q x) as [LX|LX].
      + exists ((q + x) * (1 # 2)). split; [lra|]. intros s' q' [<-|IS] SQ LT; [rewrite SX in SQ; injection SQ as <-; lra|]. specialize (IH s' q' IS SQ LT). lra.
      + exists y. split; [exact LY|]. intros s' q' [<-|IS] SQ LT; [rewrite SX in SQ; injection SQ as <-; lra|]. apply (IH s' q' IS SQ LT). }
  destruct G as (y & LY & G). exists ((y + x) * (1 # 2)). split; [lra|]. split.
  - intros s q IS SQ EQ0. destruct (Qlt_le_dec q x) as [LX|LX]; [specialize (G s q IS SQ LX); lra|lra].
  - unfold stats_at. f_equal. f_equal. apply filter_ext_in. intros s IS. destruct (sx s) as [|q|] eqn:SX; cbn [ltx]; try reflexivity.
    destruct (Qltb q x) eqn:LX; [apply Qltb_spec in LX; apply Qltb_spec; specialize (G s q IS SX LX); lra|apply Qltb_false in LX; apply Qltb_false; lra].
Qed.

(** * A corpus *)
Section Corpus.
Context {P Y : Type}.
Variables (srt : list pt -> list pt) (dir ori : edge P -> Q) (traverse : edge P -> list Y -> Y) (dflt : Y) (eqY : Y -> Y -> bool) (empty : Y).
Hypothesis SRT : sorts srt.
Hypothesis EQ : forall a b, eqY a b = true <-> a = b.
Notation sentence := (hg P * (Y -> stats))%type.
Definition usable (s : sentence) : Prop :=
  topo (fst s) /\ ids_ok (fst s) /\ (exists t, derives (fst s) (goal (fst s)) t) /\
  forall y, translates traverse dflt (fst s) y -> y <> empty /\ ss_zero (snd s y) = false.
Notation surface s := (sentence_surface srt dir ori traverse eqY empty (fst s) (snd s)).

Lemma derives_bound : forall (g : hg P) n t, derives g n t -> (n < length (nodes g))%nat.
Proof. intros g n t D. destruct D. apply nth_error_Some. congruence. Qed.
Lemma surface_ok : forall s, usable s -> exists es, surface s = Some es /\ (exists e es', es = e :: es' /\ sx e = MInf) /\ no_pinf es /\
  forall x, exists y, best_translation dir ori traverse dflt (fst s) x y /\ same_stats (stats_at es x) (snd s y).
Proof.
  intros (g, ev) (TO & IDS & (t0 & D0) & TR). cbn [fst snd] in *. unfold sentence_surface. 
  destruct (inside_envelope P Y srt g dir ori traverse dflt SRT TO IDS) as (sc & -> & LS & V).
  pose proof (derives_bound _ _ _ D0) as LB. destruct (rev sc) as [|h rs] eqn:RS; [apply (f_equal (@length hull)) in RS; rewrite rev_length in RS; cbn in RS; lia|].
  assert (NH : nth_error sc (goal g) = Some h).
  { apply (f_equal (@rev hull)) in RS. rewrite rev_involutive in RS. cbn [rev] in RS. assert (LR : length sc = (length (rev rs) + 1)%nat) by (rewrite RS, app_length; reflexivity). unfold goal in *. rewrite RS, nth_error_app2 by lia. replace (length (nodes g) - 1 - length (rev rs))%nat with 0%nat by lia. reflexivity. }
  destruct (V (goal g) h NH) as (A & B & FI & IN'). set (S := segs srt h) in *.
  assert (IN : increasing S) by (intros i p p' N1 N2; apply (IN' i p p' N1 N2)). unfold ComputeErrorSurface. fold S.
  assert (NE : S <> []). { destruct (B t0 0 D0) as (i & p & (NI & _)). intros E. rewrite E in NI. destruct i; discriminate. }
  assert (TRS : forall i p, nth_error S i = Some p -> exists t, derives g (goal g) t /\ ConstructTranslation g traverse p = Some (tree_yield g traverse dflt t) /\ forall x, covers S i p x -> forall t', derives g (goal g) t' -> score g dir ori t' x <= score g dir ori t x).
  { intros i p NI. destruct (A i p NI) as (t & T1 & _ & _ & T2 & _ & T3). exists t. auto. }
  assert (FN : forall p r, S = p :: r -> exists t, ConstructTranslation g traverse p = Some t /\ t <> empty /\ ss_zero (ev t) = false).
  { intros p r E. destruct (TRS 0%nat p) as (t & T1 & T2 & _); [rewrite E; reflexivity|]. exists (tree_yield g traverse dflt t). split; [exact T2|]. apply TR. exists t. auto. }
  destruct (ces_spec g traverse eqY EQ ev S empty no_stats) as (out & R & O & VAL).
  { intros p IP. apply In_nth_error in IP. destruct IP as (i & NI). destruct (TRS i p NI) as (t & _ & -> & _). discriminate. }
  { right. intros p r E. destruct (FN p r E) as (t & -> & NEt & _). congruence. }
  rewrite R. destruct S as [|f r] eqn:ES; [congruence|]. destruct (FN f r eq_refl) as (tf & TF & NF & ZF).
  destruct (ces_first g traverse eqY EQ empty ev f r tf out TF NF ZF R) as (s & out' & -> & SX). exists (s :: out'). split; [reflexivity|]. split; [exists s, out'; split; [reflexivity|rewrite SX; apply FI; reflexivity]|]. split.
  - intros e IE PE. destruct (O e IE) as (p & IP & PX). rewrite PE in PX. apply In_nth_error in IP. destruct IP as (i & NI). destruct i as [|i]; [specialize (FI p NI); congruence|].
    destruct (nth_error (f :: r) i) as [p0|] eqn:N0; [|apply nth_error_None in N0; assert (LI : (Datatypes.S i < length (f :: r))%nat) by (apply nth_error_Some; congruence); lia].
    destruct (IN' i p0 p N0) as (_ & X); [rewrite Nat.add_1_r; exact NI|]. rewrite <- PX in X. discriminate.
  - intros x. destruct (split_at (f :: r) x) as (pre & p & post & E & B1 & B2 & CV); [exact IN|exact FI|discriminate|].
    destruct (TRS (length pre) p) as (t & T1 & T2 & T3); [rewrite E, nth_error_app2, Nat.sub_diag by lia; reflexivity|]. exists (tree_yield g traverse dflt t). split.
    + exists t. split; [exact T1|]. split; [reflexivity|]. apply T3, CV.
    + intros i. pose proof (VAL x pre p post _ E B1 B2 T2 i) as VX. rewrite none_at in VX. lra.
Qed.

Theorem corpus_surfaces : forall sents, Forall usable sents -> exists surfs, Forall2 (fun s es => surface s = Some es) sents surfs /\
  no_pinf (concat surfs) /\ (sents <> [] -> exists s, In s (concat surfs) /\ sx s = MInf) /\
  forall x, exists ys, Forall2 (fun s y => best_translation dir ori traverse dflt (fst s) x y) sents ys /\ same_stats (stats_at (concat surfs) x) (corpus sents ys).
Proof.
  induction 1 as [|s sents U F (surfs & S1 & S2 & S3 & S4)].
  - exists []. split; [constructor|]. split; [intros s []|]. split; [congruence|]. intros x. exists []. split; [constructor|]. intros i. reflexivity.
  - destruct (surface_ok s U) as (es & E1 & (e & es' & E2 & E3) & E4 & E5). exists (es :: surfs). split; [constructor; assumption|]. cbn [concat]. split; [|split].
    + intros a IA. apply in_app_iff in IA. destruct IA as [IA|IA]; [apply E4, IA|apply S2, IA].
    + intros _. exists e. split; [apply in_app_iff; left; rewrite E2; left; reflexivity|exact E3].
    + intros x. destruct (E5 x) as (y & Y1 & Y2). destruct (S4 x) as (ys & Y3 & Y4). exists (y :: ys). split; [constructor; assumption|]. intros i. unfold stats_at, corpus in *. rewrite filter_app, map_app, total_app.
      cbn [combine map fst snd]. change (snd s y :: map (fun sy : sentence * Y => snd (fst sy) (snd sy)) (combine sents ys)) with ([snd s y] ++ map (fun sy : sentence * Y => snd (fst sy) (snd sy)) (combine sents ys)). rewrite total_app.
      rewrite (Y2 i), (Y4 i). assert (X : ss_at (total_stats [snd s y]) i == ss_at (snd s y) i) by (rewrite total_at; cbn [map fold_right]; lra). rewrite X. reflexivity.
Qed.
End Corpus.

Theorem mert_optimal : forall (P Y : Type) srt xsort (dir ori : edge P -> Q) (traverse : edge P -> list Y -> Y) (dflt empty : Y) (eqY : Y -> Y -> bool) metric maximize fmax epsilon (sents : list (hg P * (Y -> stats))),
  sorts srt -> xsorts xsort -> (forall a b, eqY a b = true <-> a = b) -> (forall a b, same_stats a b -> oeq (metric a) (metric b)) -> 0 <= epsilon -> sents <> [] ->
  Forall (fun s => topo (fst s) /\ ids_ok (fst s) /\ (exists t, derives (fst s) (goal (fst s)) t) /\
    forall y, translates traverse dflt (fst s) y -> y <> empty /\ ss_zero (snd s y) = false) sents ->
  (forall ys, Forall2 (fun s y => translates traverse dflt (fst s) y) sents ys -> exists v, metric (corpus sents ys) = Some v /\ - fmax < v < fmax) ->
  exists surfs, Forall2 (fun s es => sentence_surface srt dir ori traverse eqY empty (fst s) (snd s) = Some es) sents surfs /\
  (separated epsilon (concat surfs) -> exists p b, LineOptimize xsort metric maximize fmax epsilon surfs = Some (Some (Fin p), b) /\
    (exists ys v, Forall2 (fun s y => best_translation dir ori traverse dflt (fst s) p y) sents ys /\ metric (corpus sents ys) = Some v /\ v == b) /\
    forall x, exists ys v, Forall2 (fun s y => best_translation dir ori traverse dflt (fst s) x y) sents ys /\ metric (corpus sents ys) = Some v /\ no_better maximize v b).
Proof.
  intros P Y srt xsort dir ori traverse dflt empty eqY metric maximize fmax epsilon sents SRT XS EQ MR EP NE US SC.
  destruct (corpus_surfaces srt dir ori traverse dflt eqY empty SRT EQ sents US) as (surfs & F & NP & FI & V). exists surfs. split; [exact F|]. intros SEP.
  assert (BT : forall x ys, Forall2 (fun s y => best_translation dir ori traverse dflt (fst s) x y) sents ys -> exists v, metric (corpus sents ys) = Some v /\ - fmax < v < fmax).
  { intros x ys H. apply SC. clear - H. induction H as [|s y sents ys (t & D & E & _) H IH]; constructor; [exists t; auto|exact IH]. }
  assert (VAL : forall x, exists ys v w, Forall2 (fun s y => best_translation dir ori traverse dflt (fst s) x y) sents ys /\ metric (corpus sents ys) = Some v /\ metric (stats_at (concat surfs) x) = Some w /\ w == v /\ - fmax < w < fmax).
  { intros x. destruct (V x) as (ys & Y1 & Y2). destruct (BT x ys Y1) as (v & MV & RV). pose proof (MR _ _ Y2) as O. rewrite MV in O. destruct (metric (stats_at (concat surfs) x)) as [w|]; cbn in O; [|contradiction]. exists ys, v, w. split; [exact Y1|]. split; [exact MV|]. split; [reflexivity|]. split; [exact O|]. lra. }
  destruct (line_optimal xsort metric maximize fmax epsilon XS MR EP (concat surfs)) with (surfaces := surfs) as (p & b & v & R & IP & VP & VB & OPT); [|exact NP|exact SEP|apply FI, NE|reflexivity|].
  - intros x _. destruct (VAL x) as (ys & v & w & _ & _ & W & _ & RW). exists w. auto.
  - exists p, b. split; [exact R|]. split.
    + destruct (VAL p) as (ys & v' & w & Y1 & MV & W & E & _). exists ys, v'. split; [exact Y1|]. split; [exact MV|]. rewrite VP in W. injection W as <-. lra.
    + intros x. destruct (VAL x) as (ys & v' & w & Y1 & MV & W & E & _). exists ys, v'. split; [exact Y1|]. split; [exact MV|]. destruct (left_limit (concat surfs) x) as (x' & _ & IX & SE). rewrite <- SE in W. apply (no_better_eq maximize w); [exact E|]. apply (OPT x' w IX W).
Qed.
(** Sorting what is strictly sorted does nothing. *)
Lemma sorted_unique : forall xsort l, xsorts xsort -> (forall i j p q, (i < j)%nat -> nth_error l i = Some p -> nth_error l j = Some q -> ltx (sx p) (sx q) = true) -> xsort l = l.
Proof.
  intros xsort l XS ST. pose proof (xs_perm _ XS l) as PM. pose proof (xs_sorted _ XS l) as SO. revert PM SO. generalize (xsort l) as m. revert ST. induction l as [|a l IH]; intros ST m PM SO.
  - apply Permutation_sym, Permutation_nil in PM. exact PM.
  - destruct m as [|b m]; [apply Permutation_nil in PM; discriminate|].
    assert (AB : b = a).
    { destruct (Permutation_in _ PM (or_introl eq_refl)) as [H|IB]; [symmetry; exact H|].
      destruct (Permutation_in _ (Permutation_sym PM) (or_introl eq_refl)) as [H|IA]; [exact H|].
      apply In_nth_error in IB. destruct IB as (i & NI). apply In_nth_error in IA. destruct IA as (j & NJ).
      pose proof (ST 0%nat (Datatypes.S i) a b ltac:(lia) eq_refl NI) as X. pose proof (SO 0%nat (Datatypes.S j) b a ltac:(lia) eq_refl NJ) as Y. congruence. }
    subst b. f_equal. apply IH; [intros i j p q LT NP NQ; apply (ST (Datatypes.S i) (Datatypes.S j)); [lia|exact NP|exact NQ]|apply Permutation_cons_inv in PM; exact PM|intros i j p q LT NP NQ; apply (SO (Datatypes.S i) (Datatypes.S j)); [lia|exact NP|exact NQ]].
Qed.
