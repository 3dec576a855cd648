(** C43-C45: error surfaces and the line search of MERT.  Vocabulary: SurfaceSpec. *)
From Coq Require Import List Arith ZArith QArith Bool Permutation Lia Lqa.
From Verif Require Import HG Deriv KBestSpec Mert MertSpec Stats Bleu Surface SurfaceSpec SurfaceProofs.
Import ListNotations.
Open Scope Q_scope.

(** The surface computed for a sentence gives, at every x, the statistics of a
    translation which is best at x. *)
Theorem C43_surface : forall (P Y : Type) srt (dir ori : edge P -> Q) (traverse : edge P -> list Y -> Y) (dflt : Y) eqY (empty : Y) (g : hg P) (eval : Y -> stats),
  sorts srt -> (forall a b, eqY a b = true <-> a = b) -> topo g -> ids_ok g -> (exists t, derives g (goal g) t) ->
  (forall y, translates traverse dflt g y -> y <> empty /\ ss_zero (eval y) = false) ->
  exists es, sentence_surface srt dir ori traverse eqY empty g eval = Some es /\ (exists e es', es = e :: es' /\ sx e = MInf) /\ no_pinf es /\
  forall x, exists y, best_translation dir ori traverse dflt g x y /\ same_stats (stats_at es x) (eval y).
Proof. exact (fun P Y srt dir ori tr dflt eqY empty g eval S E T I D H => surface_ok srt dir ori tr dflt eqY empty S E (g, eval) (conj T (conj I (conj D H)))). Qed.
Print Assumptions C43_surface.

(** A goal with two rules: one word, or (if [w] is empty) none, of slope -1, and
    another of slope 1.  Evaluation: IBM BLEU against "1". *)
Definition rules (w : list word) : hg (list word * Q) :=
  {| nodes := [{| nid := 0%nat; cat := (-1)%Z; in_edges := [0; 1]%nat; out_edges := [] |}];
     edges := [{| head := Some 0%nat; tails := []; lab := (w, -1); eid := 0%nat |}; {| head := Some 0%nat; tails := []; lab := ([1%Z], 1); eid := 1%nat |}] |}.
Definition slope (e : edge (list word * Q)) : Q := snd (lab e).
Definition flat (e : edge (list word * Q)) : Q := 0.
Definition trav (e : edge (list word * Q)) (_ : list (list word)) : list word := fst (lab e).
Definition bleu (y : list word) : stats :=
  match mk_evaluator 2 IBM [[1%Z]] with
  | Some ev => match Evaluate 2 IBM ev y with Some (s, _) => s | None => no_stats end
  | None => no_stats
  end.
Definition eqw (a b : list word) : bool := if list_eq_dec Z.eq_dec a b then true else false.
Definition show (l : list eseg) : list (ex * list Q) := map (fun s => (sx s, map Qred (fields (delta s)))) l.
(** Sorting by slope: insertion. *)
Fixpoint ins (p : pt) (l : list pt) : list pt :=
  match l with [] => [p] | q :: r => if Qle_bool (pm p) (pm q) then p :: q :: r else q :: ins p r end.
Definition isort (l : list pt) : list pt := fold_right ins [] l.
Example C43_case : option_map show (sentence_surface isort slope flat trav eqw [] (rules [5%Z]) bleu) =
  Some [(MInf, [0; 0; 1; 0; 1; 1]); (Fin (0 # 2), [1; 0; 0; 0; 0; 0])].
Proof. vm_compute. reflexivity. Qed.
Lemma rules_derive : forall w t, derives (rules w) (goal (rules w)) t <-> t = Tree 0 [] \/ t = Tree 1 [].
Proof.
  intros w t. split.
  - intros H. inversion H as [n nd e ed ts N I0 E F]; subst. injection N as <-. cbn in I0. destruct I0 as [<-|[<-|[]]]; injection E as <-; inversion F; subst; auto.
  - intros [-> | ->]; (eapply d_edge; [reflexivity|cbn; auto|reflexivity|constructor]).
Qed.
Example C43_case_hypotheses : let g := rules [5%Z] in topo g /\ ids_ok g /\ (exists t, derives g (goal g) t) /\ forall y, translates trav [] g y -> y <> [] /\ ss_zero (bleu y) = false.
Proof.
  cbn zeta. split; [|split; [|split]].
  - intros n x N. destruct n as [|n]; [|destruct n; discriminate]. injection N as <-. cbn [in_edges]. split; [repeat constructor; cbn; lia|]. intros e [<-|[<-|[]]]; (eexists; split; [reflexivity|intros t []]).
  - intros e x N. destruct e as [|[|e]]; [injection N as <-; reflexivity|injection N as <-; reflexivity|destruct e; discriminate].
  - exists (Tree 0 []). apply rules_derive. auto.
  - intros y (t & D & ->). apply rules_derive in D. destruct D as [-> | ->]; (split; [discriminate|vm_compute; reflexivity]).
Qed.

(** An empty translation at the left end is skipped instead of scored: below 0 the
    surface lacks the reference length. *)
Theorem C43_empty_refuted : exists es, sentence_surface isort slope flat trav eqw [] (rules []) bleu = Some es /\
  forall y, best_translation slope flat trav [] (rules []) (-1) y -> ~ same_stats (stats_at es (-1)) (bleu y).
Proof.
  eexists. split; [vm_compute; reflexivity|]. intros y (t & D & -> & M) H. apply rules_derive in D. destruct D as [-> | ->].
  - specialize (H 5%nat). vm_compute in H. discriminate.
  - specialize (H 5%nat). vm_compute in H. discriminate.
Qed.
Print Assumptions C43_empty_refuted.

(** The line search over any surfaces: the position returned is no boundary, has
    the score returned, and no other position is better. *)
Theorem C44_line : forall xsort metric maximize fmax epsilon surfaces,
  xsorts xsort -> (forall a b, same_stats a b -> oeq (metric a) (metric b)) -> 0 <= epsilon ->
  (forall x, inside_x (concat surfaces) x -> exists v, metric (stats_at (concat surfaces) x) = Some v /\ - fmax < v < fmax) ->
  no_pinf (concat surfaces) -> separated epsilon (concat surfaces) -> (exists s, In s (concat surfaces) /\ sx s = MInf) ->
  exists p b v, LineOptimize xsort metric maximize fmax epsilon surfaces = Some (Some (Fin p), b) /\ inside_x (concat surfaces) p /\
    metric (stats_at (concat surfaces) p) = Some v /\ v == b /\
    forall x w, inside_x (concat surfaces) x -> metric (stats_at (concat surfaces) x) = Some w -> no_better maximize w b.
Proof. exact (fun xsort metric maximize fmax epsilon surfaces XS MR EP SC NP SE FI => line_optimal xsort metric maximize fmax epsilon XS MR EP (concat surfaces) SC NP SE FI surfaces eq_refl). Qed.
Print Assumptions C44_line.

(** Two surfaces; the score is the first statistic. *)
Fixpoint xins (s : eseg) (l : list eseg) : list eseg :=
  match l with [] => [s] | t :: r => if ltx (sx t) (sx s) then t :: xins s r else s :: t :: r end.
Definition xisort (l : list eseg) : list eseg := fold_right xins [] l.
Definition es x d : eseg := {| sx := x; delta := {| sid := []; fields := [d] |} |}.
Definition first (s : stats) : option Q := Some (Qred (ss_at s 0)).
Definition FMAX : Q := inject_Z (2 ^ 127).
Definition two : list (list eseg) := [[es MInf 1; es (Fin 2) 3]; [es MInf 2; es (Fin 3) (-4)]].
Example C44_case : LineOptimize xisort first true FMAX (1 # 65536) two = Some (Some (Fin (5 # 2)), 6) /\
  LineOptimize xisort first false FMAX (1 # 65536) two = Some (Some (Fin (1003 # 1)), 2).
Proof. vm_compute. split; reflexivity. Qed.
Lemma xins_perm : forall p l, Permutation (xins p l) (p :: l).
Proof. induction l as [|q r IH]; cbn; [auto|]. destruct (ltx (sx q) (sx p)); [|auto]. rewrite IH. apply perm_swap. Qed.
Fixpoint xasc (l : list eseg) : Prop := match l with [] => True | p :: r => (forall q, In q r -> ltx (sx q) (sx p) = false) /\ xasc r end.
Lemma xins_asc : forall p l, xasc l -> xasc (xins p l).
Proof.
  induction l as [|q r IH]; intros H; cbn [xins]; [cbn; split; [intros q []|exact I]|]. destruct H as (H1 & H2). destruct (ltx (sx q) (sx p)) eqn:B.
  - cbn. split; [|apply IH, H2]. intros z Z. apply (Permutation_in _ (xins_perm p r)) in Z. destruct Z as [<-|Z]; [apply ltx_le, B|apply H1, Z].
  - cbn. split; [|auto]. intros z [<-|Z]; [exact B|]. apply (le_trans _ (sx q)); [exact B|apply H1, Z].
Qed.
Lemma xisort_sorts : xsorts xisort.
Proof.
  constructor.
  - induction l as [|p l IH]; cbn; [constructor|]. rewrite xins_perm. constructor. exact IH.
  - intros l. assert (A : xasc (xisort l)) by (induction l as [|p l IH]; cbn; [exact I|apply xins_asc, IH]). generalize dependent (xisort l). clear l.
    induction l as [|a l IH]; intros H [|i] [|j] p q LT NP NQ; cbn in *; try discriminate; try lia; destruct H as (H1 & H2).
    + injection NP as <-. apply H1, (nth_error_In _ _ NQ).
    + apply (IH H2 i j p q); [lia|exact NP|exact NQ].
Qed.
Example C44_case_hypotheses : (forall a b, same_stats a b -> oeq (first a) (first b)) /\ separated (1 # 65536) (concat two) /\ no_pinf (concat two) /\ exists s, In s (concat two) /\ sx s = MInf.
Proof.
  split; [|split; [|split]].
  - intros a b H. unfold first. cbn [oeq]. rewrite !Qred_correct. apply H.
  - intros s t p q S T Sp Tq LT. cbn in S, T. repeat (destruct S as [<-|S]; [|]); try contradiction; repeat (destruct T as [<-|T]; [|]); try contradiction; try discriminate; injection Sp as <-; injection Tq as <-; lra.
  - intros s S. cbn in S. repeat (destruct S as [<-|S]; [discriminate|]). contradiction.
  - exists (es MInf 1). split; [left; reflexivity|reflexivity].
Qed.

(** With the default epsilon, boundaries closer than it are merged: the position
    returned may not have the score returned ... *)
Theorem C44_epsilon_refuted : forall xsort, xsorts xsort -> exists surfaces p b v, LineOptimize xsort first true FMAX (1 # 65536) surfaces = Some (Some (Fin p), b) /\
  inside_x (concat surfaces) p /\ first (stats_at (concat surfaces) p) = Some v /\ v < b.
Proof.
  intros xsort XS. set (l := [es MInf 1; es (Fin 0) 4; es (Fin (10 # 1000000)) 5; es (Fin (16 # 1000000)) (-10)]).
  assert (E : xsort l = l) by (apply sorted_unique; [exact XS|]; intros i j p q LT NP NQ; do 4 (destruct i as [|i]; [injection NP as <-; do 4 (destruct j as [|j]; [try (exfalso; lia); injection NQ as <-; reflexivity|]); destruct j; discriminate|]); destruct i; discriminate).
  exists [l]. unfold LineOptimize. replace (concat [l]) with l by (unfold concat; rewrite app_nil_r; reflexivity). rewrite E. do 3 eexists. split; [vm_compute; reflexivity|]. split; [|split; [vm_compute; reflexivity|lra]].
  intros s q S. cbn in S. repeat (destruct S as [<-|S]; [intros H; try discriminate; injection H as <-; intros X; vm_compute in X; discriminate|]). contradiction.
Qed.
Print Assumptions C44_epsilon_refuted.

(** ... and a position with a better score may be missed. *)
Theorem C44_epsilon_missed_refuted : forall xsort, xsorts xsort -> exists surfaces p b x v, LineOptimize xsort first true FMAX (1 # 65536) surfaces = Some (Some (Fin p), b) /\
  inside_x (concat surfaces) x /\ first (stats_at (concat surfaces) x) = Some v /\ b < v.
Proof.
  intros xsort XS. set (l := [es MInf 1; es (Fin 0) 4; es (Fin (10 # 1000000)) (-4)]).
  assert (E : xsort l = l) by (apply sorted_unique; [exact XS|]; intros i j p q LT NP NQ; do 3 (destruct i as [|i]; [injection NP as <-; do 3 (destruct j as [|j]; [try (exfalso; lia); injection NQ as <-; reflexivity|]); destruct j; discriminate|]); destruct i; discriminate).
  exists [l]. unfold LineOptimize. replace (concat [l]) with l by (unfold concat; rewrite app_nil_r; reflexivity). rewrite E. do 2 eexists. exists (5 # 1000000). eexists. split; [vm_compute; reflexivity|]. split; [|split; [vm_compute; reflexivity|lra]].
  intros s q S. cbn in S. repeat (destruct S as [<-|S]; [intros H; try discriminate; injection H as <-; intros X; vm_compute in X; discriminate|]). contradiction.
Qed.
Print Assumptions C44_epsilon_missed_refuted.

(** Without a boundary at -infinity (which ComputeErrorSurface leaves out when the
    leftmost translations are empty) the position returned may lie to the left of
    everything scored, where the score, a ratio, is 0/0. *)
Definition ratio (s : stats) : option Q := if Qeq_bool (ss_at s 1) 0 then None else Some (Qred (ss_at s 0 / ss_at s 1)).
Definition es2 x d e : eseg := {| sx := x; delta := {| sid := []; fields := [d; e] |} |}.
Theorem C44_left_refuted : forall xsort, xsorts xsort -> exists surfaces p b, LineOptimize xsort ratio true FMAX (1 # 65536) surfaces = Some (Some (Fin p), b) /\
  inside_x (concat surfaces) p /\ ratio (stats_at (concat surfaces) p) = None.
Proof.
  intros xsort XS. set (l := [es2 (Fin 0) 1 1; es2 (Fin (1 # 100)) (-1) 0]).
  assert (E : xsort l = l) by (apply sorted_unique; [exact XS|]; intros i j p q LT NP NQ; do 2 (destruct i as [|i]; [injection NP as <-; do 2 (destruct j as [|j]; [try (exfalso; lia); injection NQ as <-; reflexivity|]); destruct j; discriminate|]); destruct i; discriminate).
  exists [l]. unfold LineOptimize. replace (concat [l]) with l by (unfold concat; rewrite app_nil_r; reflexivity). rewrite E. do 2 eexists. split; [vm_compute; reflexivity|]. split; [|vm_compute; reflexivity].
  intros s q S. cbn in S. repeat (destruct S as [<-|S]; [intros H; try discriminate; injection H as <-; intros X; vm_compute in X; discriminate|]). contradiction.
Qed.
Print Assumptions C44_left_refuted.

(** The whole of MERT's step: from hypergraphs and evaluators to the position with
    the best corpus score among all positions. *)
Theorem C45_mert : forall (P Y : Type) srt xsort (dir ori : edge P -> Q) (traverse : edge P -> list Y -> Y) (dflt empty : Y) (eqY : Y -> Y -> bool) metric maximize fmax epsilon (sents : list (hg P * (Y -> stats))),
  sorts srt -> xsorts xsort -> (forall a b, eqY a b = true <-> a = b) -> (forall a b, same_stats a b -> oeq (metric a) (metric b)) -> 0 <= epsilon -> sents <> [] ->
  Forall (fun s => topo (fst s) /\ ids_ok (fst s) /\ (exists t, derives (fst s) (goal (fst s)) t) /\
    forall y, translates traverse dflt (fst s) y -> y <> empty /\ ss_zero (snd s y) = false) sents ->
  (forall ys, Forall2 (fun s y => translates traverse dflt (fst s) y) sents ys -> exists v, metric (corpus sents ys) = Some v /\ - fmax < v < fmax) ->
  exists surfs, Forall2 (fun s es => sentence_surface srt dir ori traverse eqY empty (fst s) (snd s) = Some es) sents surfs /\
  (separated epsilon (concat surfs) -> exists p b, LineOptimize xsort metric maximize fmax epsilon surfs = Some (Some (Fin p), b) /\
    (exists ys v, Forall2 (fun s y => best_translation dir ori traverse dflt (fst s) p y) sents ys /\ metric (corpus sents ys) = Some v /\ v == b) /\
    forall x, exists ys v, Forall2 (fun s y => best_translation dir ori traverse dflt (fst s) x y) sents ys /\ metric (corpus sents ys) = Some v /\ no_better maximize v b).
Proof. exact mert_optimal. Qed.
Print Assumptions C45_mert.
(** Two sentences; the score is unigram precision. *)
Definition precision (s : stats) : option Q := if Qeq_bool (ss_at s 2) 0 then None else Some (Qred (ss_at s 0 / ss_at s 2)).
Example C45_case :
  match sentence_surface isort slope flat trav eqw [] (rules [5%Z]) bleu, sentence_surface isort slope (fun e => snd (lab e)) trav eqw [] (rules [6%Z]) bleu with
  | Some a, Some b => LineOptimize xisort precision true FMAX (1 # 65536) [a; b] = Some (Some (Fin (2000 # 2)), 1)
  | _, _ => False
  end.
Proof. vm_compute. reflexivity. Qed.
Example C45_case_hypotheses : let sents := [(rules [5%Z], bleu); (rules [6%Z], bleu)] in
  forall ys, Forall2 (fun s y => translates trav [] (fst s) y) sents ys -> exists v, precision (corpus sents ys) = Some v /\ - FMAX < v < FMAX.
Proof.
  cbn zeta. intros ys F. inversion F as [|s1 y1 ? ys1 (t1 & D1 & E1) F1]; subst. inversion F1 as [|s2 y2 ? ys2 (t2 & D2 & E2) F2]; subst. inversion F2; subst. cbn [fst] in *. apply rules_derive in D1, D2.
  destruct D1 as [->| ->], D2 as [->| ->]; eexists; (split; [vm_compute; reflexivity|split; vm_compute; reflexivity]).
Qed.
