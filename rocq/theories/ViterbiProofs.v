From Coq Require Import List Arith Lia.
From Verif Require Import HG HGProofs Deriv Inside InsideProofs Viterbi.
Import ListNotations.

(** Bottom-up evaluation of a derivation. *)
Fixpoint tree_eval {P T : Type} (g : hg P) (dflt : T) (traverse : edge P -> list T -> T -> T) (t : tree) : T :=
  match t with
  | Tree e ts =>
    match nth_error (edges g) e with
    | Some ed => traverse ed (map (tree_eval g dflt traverse) ts) dflt
    | None => dflt
    end
  end.

(** What is needed of the order on the weights that occur ([ok]): being not
    smaller is reflexive, transitive and kept by multiplication. *)
Record ordered {W : Type} (ok : W -> Prop) (ltb : W -> W -> bool) (times : W -> W -> W) : Prop := {
  o_irr : forall a, ok a -> ltb a a = false;
  o_asym : forall a b, ok a -> ok b -> ltb a b = true -> ltb b a = false;
  o_trans : forall a b c, ok a -> ok b -> ok c -> ltb a b = false -> ltb b c = false -> ltb a c = false;
  o_ok : forall a b, ok a -> ok b -> ok (times a b);
  o_mono : forall a b c d, ok a -> ok b -> ok c -> ok d -> ltb a b = false -> ltb c d = false -> ltb (times a c) (times b d) = false
}.

Lemma Forall2_impl : forall (A B : Type) (R S : A -> B -> Prop) l m, (forall a b, R a b -> S a b) -> Forall2 R l m -> Forall2 S l m.
Proof. intros A B R S l m H F. induction F; constructor; auto. Qed.

Section VP.
Context {P W T : Type}.
Variables (zero one : W) (times : W -> W -> W) (ltb : W -> W -> bool) (ok : W -> Prop).
Hypothesis ORD : ordered ok ltb times.
Variable weight : edge P -> W.
Variable dflt : T.
Variable traverse : edge P -> list T -> T -> T.
Variable g : hg P.
Hypothesis TP : topo g.
Hypothesis OKW : forall e ed, nth_error (edges g) e = Some ed -> ok (weight ed).
Local Notation we := (edge_weight zero weight g).
Local Notation tw := (tree_weight times we).
Local Notation ev := (tree_eval g dflt traverse).
Local Notation look l n := (nth n l zero).

(** Node [j] holds a best derivation [t]. *)
Definition best_at (vw : list W) (vr : list T) (j : nat) (t : tree) : Prop :=
  derives g j t /\ nth_error vw j = Some (tw t) /\ nth_error vr j = Some (ev t) /\
  forall t', derives g j t' -> ltb (tw t) (tw t') = false.

Lemma tw_ok : forall t n, derives g n t -> ok (tw t).
Proof.
  induction t as [e ts IH] using tree_ind'. intros n D. inversion D as [? nd ? ed ? N E ED F]; subst.
  cbn [tree_weight]. assert (O : ok (we e)) by (unfold edge_weight; rewrite ED; exact (OKW e ed ED)).
  revert O. generalize (we e). clear D N E ED. induction F as [|t s r rs Dt F IHF]; intros a O; cbn; [exact O|].
  inversion IH as [|? ? H1 H2]; subst. apply IHF; [exact H2|]. apply (o_ok _ _ _ ORD); [exact O|exact (H1 _ Dt)].
Qed.

(** The best derivations of the tails, combined. *)
Lemma fold_mono : forall ts ss ss', Forall2 (fun t s => derives g t s /\ forall s', derives g t s' -> ltb (tw s) (tw s') = false) ts ss ->
  Forall2 (derives g) ts ss' -> forall a b, ok a -> ok b -> ltb a b = false ->
  ltb (fold_left (fun x s => times x (tw s)) ss a) (fold_left (fun x s => times x (tw s)) ss' b) = false.
Proof.
  intros ts ss ss' F. revert ss'. induction F as [|t s ts ss (D & B) F IH]; intros ss' F' a b Oa Ob H; inversion F' as [|? s' ? rs' D' F'' ]; subst; cbn; [exact H|].
  apply IH; [exact F''| | |].
  - apply (o_ok _ _ _ ORD); [exact Oa|exact (tw_ok _ _ D)].
  - apply (o_ok _ _ _ ORD); [exact Ob|exact (tw_ok _ _ D')].
  - apply (o_mono _ _ _ ORD); auto; eapply tw_ok; eassumption.
Qed.

Lemma mul_tails_trees : forall vw ts ss a, Forall2 (fun t s => nth_error vw t = Some (tw s)) ts ss ->
  mul_tails times vw ts a = Some (fold_left (fun x s => times x (tw s)) ss a).
Proof. intros vw ts ss a F. revert a. induction F as [|t s ts ss H F IH]; intros a; cbn; [reflexivity|]. rewrite H. apply IH. Qed.

Lemma ants_trees : forall vr ts ss, Forall2 (fun t s => nth_error vr t = Some (ev s)) ts ss -> ants vr ts = Some (map ev ss).
Proof. intros vr ts ss F. induction F as [|t s ts ss H F IH]; cbn; [reflexivity|]. rewrite H, IH. reflexivity. Qed.

(** The best tree built on edge [e], when the tails below [i] hold best ones. *)
Definition best_on (vw : list W) (vr : list T) (e : nat) (ss : list tree) : Prop :=
  exists ed, nth_error (edges g) e = Some ed /\ Forall2 (fun t s => best_at vw vr t s) (tails ed) ss.

Lemma best_on_exists : forall vw vr i nd e, nth_error (nodes g) i = Some nd -> In e (in_edges nd) ->
  (forall j, j < i -> exists t, best_at vw vr j t) -> exists ss, best_on vw vr e ss.
Proof.
  intros vw vr i nd e N E H. destruct (proj2 (TP i nd N) e E) as (ed & ED & TL).
  assert (X : forall ts, (forall t, In t ts -> t < i) -> exists ss, Forall2 (fun t s => best_at vw vr t s) ts ss).
  { induction ts as [|t r IH]; intros HL; [exists []; constructor|].
    destruct (H t (HL t (or_introl eq_refl))) as (s & S). destruct IH as (ss & SS); [intros x X; apply HL; right; exact X|].
    exists (s :: ss). constructor; assumption. }
  destruct (X _ TL) as (ss & SS). exists ss, ed. split; assumption.
Qed.

Lemma best_on_best : forall vw vr i nd e ss, nth_error (nodes g) i = Some nd -> In e (in_edges nd) -> best_on vw vr e ss ->
  derives g i (Tree e ss) /\ forall ss', derives g i (Tree e ss') -> ltb (tw (Tree e ss)) (tw (Tree e ss')) = false.
Proof.
  intros vw vr i nd e ss N E (ed & ED & F). split.
  - apply (d_edge g i nd e ed ss N E ED). eapply Forall2_impl; [|exact F]. intros t s (D & _). exact D.
  - intros ss' D. inversion D as [? nd' ? ed' ? N' E' ED' F']; subst. rewrite ED in ED'. injection ED' as <-.
    cbn [tree_weight]. assert (O : ok (we e)) by (unfold edge_weight; rewrite ED; exact (OKW e ed ED)).
    eapply fold_mono; [|exact F'|exact O|exact O|apply (o_irr _ _ _ ORD), O].
    eapply Forall2_impl; [|exact F]. intros t s (D1 & _ & _ & B). split; assumption.
Qed.

Lemma vit_edges_spec : forall i nd, nth_error (nodes g) i = Some nd ->
  forall (done es : list nat) best vw vr, in_edges nd = done ++ es -> i < length vw ->
  (forall j, j < i -> exists t, best_at vw vr j t) ->
  match best with
  | None => done = []
  | Some e => In e done /\ (exists ss, best_on vw vr e ss /\ nth_error vw i = Some (tw (Tree e ss)) /\
                forall e' ss', In e' done -> derives g i (Tree e' ss') -> ltb (tw (Tree e ss)) (tw (Tree e' ss')) = false)
  end ->
  in_edges nd <> [] ->
  exists e vw' ss, vit_edges times ltb weight g i es best vw = Some (Some e, vw') /\ length vw' = length vw /\
    (forall j, j <> i -> nth_error vw' j = nth_error vw j) /\
    In e (in_edges nd) /\ best_on vw vr e ss /\ nth_error vw' i = Some (tw (Tree e ss)) /\
    forall t', derives g i t' -> ltb (tw (Tree e ss)) (tw t') = false.
Proof.
  intros i nd N done es. revert done. induction es as [|e r IH]; intros done best vw vr SP LV BA INV NE; cbn [vit_edges].
  - rewrite app_nil_r in SP. destruct best as [e|]; [|congruence]. destruct INV as (E & ss & BO & V & B). subst done.
    exists e, vw, ss. split; [reflexivity|]. split; [reflexivity|]. split; [reflexivity|]. split; [exact E|]. split; [exact BO|]. split; [exact V|].
    intros [e' ss'] D. apply B; [|exact D]. inversion D as [? nd' ? ed' ? N' E' ED' F']; subst. rewrite N in N'. injection N' as <-. exact E'.
  - assert (E : In e (in_edges nd)) by (rewrite SP; apply in_or_app; right; left; reflexivity).
    destruct (best_on_exists vw vr i nd e N E BA) as (ss & BO).
    pose proof BO as (ed & ED & F). rewrite ED.
    destruct (nth_error vw i) as [cur|] eqn:C; [|apply nth_error_None in C; lia].
    rewrite (mul_tails_trees vw (tails ed) ss (weight ed)) by (eapply Forall2_impl; [|exact F]; intros t s (_ & H & _); exact H).
    assert (SC : fold_left (fun x s => times x (tw s)) ss (weight ed) = tw (Tree e ss)).
    { cbn [tree_weight]. f_equal. unfold edge_weight. rewrite ED. reflexivity. }
    rewrite SC. destruct (best_on_best vw vr i nd e ss N E BO) as (De & Be).
    assert (OKe := tw_ok _ _ De).
    assert (SP' : in_edges nd = (done ++ [e]) ++ r) by (rewrite <- app_assoc; exact SP).
    (* the updating case *)
    assert (UP : (forall e' ss', In e' done -> derives g i (Tree e' ss') -> ltb (tw (Tree e ss)) (tw (Tree e' ss')) = false) ->
      exists e0 vw' ss0, match upd vw i (fun _ => tw (Tree e ss)) with Some vw' => vit_edges times ltb weight g i r (Some e) vw' | None => None end = Some (Some e0, vw') /\
        length vw' = length vw /\ (forall j, j <> i -> nth_error vw' j = nth_error vw j) /\ In e0 (in_edges nd) /\ best_on vw vr e0 ss0 /\
        nth_error vw' i = Some (tw (Tree e0 ss0)) /\ forall t', derives g i t' -> ltb (tw (Tree e0 ss0)) (tw t') = false).
    { intros BD. destruct (upd_total _ vw i (fun _ => tw (Tree e ss)) LV) as (vw1 & U). rewrite U.
      pose proof (upd_length _ _ _ _ _ U) as L1.
      assert (SAME : forall j, j <> i -> nth_error vw1 j = nth_error vw j).
      { intros j J. rewrite (upd_nth _ _ _ _ _ j U). destruct (Nat.eqb_spec i j); [congruence|]. reflexivity. }
      assert (AT : nth_error vw1 i = Some (tw (Tree e ss))).
      { rewrite (upd_nth _ _ _ _ _ i U), Nat.eqb_refl, C. reflexivity. }
      assert (BB : forall j s, j < i -> best_at vw vr j s <-> best_at vw1 vr j s).
      { intros j s J. unfold best_at. rewrite SAME by lia. tauto. }
      assert (BOB : forall e0 ss0, In e0 (in_edges nd) -> best_on vw vr e0 ss0 <-> best_on vw1 vr e0 ss0).
      { intros e0 ss0 E0. unfold best_on. destruct (proj2 (TP i nd N) e0 E0) as (ed0 & ED0 & TL0).
        split; intros (x & X1 & X2); exists x; (split; [exact X1|]); rewrite ED0 in X1; injection X1 as <-;
        (eapply Forall2_impl_in; [|exact X2]); intros t s TT; cbn beta; intros BBt; apply (BB t s (TL0 t TT)); exact BBt. }
      destruct (IH (done ++ [e]) (Some e) vw1 vr SP') as (e0 & vw' & ss0 & R & L & S & E0 & BO0 & V0 & B0).
      - lia.
      - intros j J. destruct (BA j J) as (s & S). exists s. apply BB; assumption.
      - split; [apply in_or_app; right; left; reflexivity|]. exists ss. split; [apply BOB; assumption|]. split; [exact AT|].
        intros e' ss' I' D'. apply in_app_or in I'. destruct I' as [I'|[<-|[]]]; [apply BD; assumption|apply Be, D'].
      - exact NE.
      - exists e0, vw', ss0. split; [exact R|]. split; [lia|]. split; [intros j J; rewrite S by exact J; apply SAME, J|].
        split; [exact E0|]. split; [apply BOB; assumption|]. split; assumption. }
    destruct best as [b|].
    + destruct INV as (Eb & sb & BOb & Vb & Bb). assert (CE : cur = tw (Tree b sb)) by congruence. rewrite CE in C |- *. clear Vb.
      assert (INb : In b (in_edges nd)) by (rewrite SP; apply in_or_app; left; exact Eb).
      destruct (best_on_best vw vr i nd b sb N INb BOb) as (Db & _). assert (OKb := tw_ok _ _ Db).
      destruct (ltb (tw (Tree b sb)) (tw (Tree e ss))) eqn:LT.
      * apply UP. intros e' ss' I' D'. eapply (o_trans _ _ _ ORD) with (b := tw (Tree b sb)); auto; [eapply tw_ok; eassumption|apply (o_asym _ _ _ ORD); auto].
      * eapply IH; [exact SP'|exact LV|exact BA| |exact NE]. split; [apply in_or_app; left; exact Eb|].
        exists sb. split; [exact BOb|]. split; [exact C|]. intros e' ss' I' D'. apply in_app_or in I'. destruct I' as [I'|[<-|[]]]; [apply Bb; assumption|].
        eapply (o_trans _ _ _ ORD) with (b := tw (Tree e ss)); auto. eapply tw_ok; eassumption.
    + subst done. apply UP. intros e' ss' [].
Qed.

Hypothesis LEAF : forall n nd, nth_error (nodes g) n = Some nd -> in_edges nd <> [].

Lemma vit_node_spec : forall i nd vw vr, nth_error (nodes g) i = Some nd -> i < length vw -> nth_error vr i = Some dflt ->
  (forall j, j < i -> exists t, best_at vw vr j t) ->
  exists vw' vr', vit_node one times ltb weight traverse g i nd vw vr = Some (vw', vr') /\ length vw' = length vw /\ length vr' = length vr /\
    (forall j, i < j -> nth_error vr' j = nth_error vr j) /\ forall j, j < S i -> exists t, best_at vw' vr' j t.
Proof.
  intros i nd vw vr N LV LR BA. unfold vit_node.
  destruct (vit_edges_spec i nd N [] (in_edges nd) None vw vr eq_refl LV BA eq_refl (LEAF i nd N)) as (e & vw' & ss & R & L & S & E & BO & V & B).
  destruct (in_edges nd) as [|e0 er] eqn:IE; [exfalso; exact (LEAF i nd N IE)|]. rewrite <- IE in *. rewrite R.
  destruct (best_on_best vw vr i nd e ss N E BO) as (De & _).
  destruct BO as (ed & ED & F). rewrite ED.
  rewrite (ants_trees vr (tails ed) ss) by (eapply Forall2_impl; [|exact F]; intros t s (_ & _ & H & _); exact H).
  destruct (upd_total _ vr i (traverse ed (map ev ss))) as (vr' & U); [apply nth_error_Some; congruence|]. rewrite U.
  exists vw', vr'. split; [reflexivity|]. split; [exact L|]. split; [exact (upd_length _ _ _ _ _ U)|]. split.
  - intros j J. rewrite (upd_nth _ _ _ _ _ j U). destruct (Nat.eqb_spec i j); [lia|]. reflexivity.
  - intros j J. destruct (Nat.eq_dec j i) as [->|NJ].
    + exists (Tree e ss). split; [exact De|]. split; [exact V|]. split; [|exact B].
      rewrite (upd_nth _ _ _ _ _ i U), Nat.eqb_refl, LR. cbn [option_map tree_eval]. rewrite ED. reflexivity.
    + destruct (BA j ltac:(lia)) as (t & D1 & D2 & D3 & D4). exists t. split; [exact D1|]. split; [rewrite S by exact NJ; exact D2|].
      split; [|exact D4]. rewrite (upd_nth _ _ _ _ _ j U). destruct (Nat.eqb_spec i j); [congruence|]. exact D3.
Qed.

Lemma vit_nodes_spec : forall ns i vw vr, (forall k, nth_error ns k = nth_error (nodes g) (i + k)) ->
  length vw = i + length ns -> length vr = i + length ns -> (forall j, i <= j -> j < length vr -> nth_error vr j = Some dflt) ->
  (forall j, j < i -> exists t, best_at vw vr j t) ->
  exists vw' vr', vit_nodes one times ltb weight traverse g i ns vw vr = Some (vw', vr') /\ length vw' = length vw /\ length vr' = length vr /\
    forall j, j < i + length ns -> exists t, best_at vw' vr' j t.
Proof.
  induction ns as [|nd r IH]; intros i vw vr N LV LR DF BA; cbn [vit_nodes length] in *.
  - exists vw, vr. split; [reflexivity|]. split; [reflexivity|]. split; [reflexivity|]. intros j J. apply BA. lia.
  - assert (N0 := N 0). rewrite Nat.add_0_r in N0. cbn in N0. symmetry in N0.
    destruct (vit_node_spec i nd vw vr N0) as (vw1 & vr1 & R1 & L1 & L1' & S1 & B1); [lia|apply DF; lia|exact BA|].
    rewrite R1. destruct (IH (S i) vw1 vr1) as (vw' & vr' & R & L & L' & B).
    + intros k. specialize (N (S k)). cbn in N. rewrite N. f_equal. lia.
    + lia.
    + lia.
    + intros j J J'. rewrite S1 by lia. apply DF; lia.
    + exact B1.
    + exists vw', vr'. split; [exact R|]. split; [lia|]. split; [lia|]. intros j J. apply B. lia.
Qed.

Lemma rev_last : forall (A : Type) (l : list A) x, nth_error l (length l - 1) = Some x -> exists r, rev l = x :: r.
Proof.
  intros A l x H. destruct (rev l) as [|y r] eqn:E.
  - apply (f_equal (@length A)) in E. rewrite rev_length in E. destruct l; [discriminate|discriminate].
  - exists r. f_equal. assert (X : l = rev r ++ [y]) by (rewrite <- (rev_involutive l), E; reflexivity).
    subst l. rewrite app_length in H. cbn in H. rewrite nth_error_app2 in H by lia.
    replace (length (rev r) + 1 - 1 - length (rev r)) with 0 in H by lia. cbn in H. congruence.
Qed.

Lemma viterbi_correct : length (nodes g) <> 0 ->
  exists w r t, Viterbi zero one times ltb weight dflt traverse g = Some (w, Some r) /\
    derives g (length (nodes g) - 1) t /\ w = tw t /\ r = ev t /\
    forall t', derives g (length (nodes g) - 1) t' -> ltb w (tw t') = false.
Proof.
  intros NE. unfold Viterbi.
  destruct (vit_nodes_spec (nodes g) 0 (repeat zero (length (nodes g))) (repeat dflt (length (nodes g)))) as (vw & vr & R & L & L' & B).
  - reflexivity.
  - apply repeat_length.
  - apply repeat_length.
  - intros j _ J. rewrite repeat_length in J. apply nth_error_repeat. exact J.
  - intros j J. lia.
  - rewrite repeat_length in L, L'. rewrite R. destruct (B (length (nodes g) - 1)) as (t & D & V & E & M); [lia|].
    rewrite <- L in V at 1. rewrite <- L' in E at 1.
    destruct (rev_last _ vw _ V) as (rw & ->). destruct (rev_last _ vr _ E) as (rr & ->).
    exists (tw t), (ev t), t. split; [reflexivity|]. split; [exact D|]. split; [reflexivity|]. split; [reflexivity|exact M].
Qed.
End VP.

(** * Traversals *)
Lemma path_eq : forall (P : Type) (ed : edge P) a, PathTraversal ed a [] = concat a ++ [ed].
Proof. reflexivity. Qed.
Lemma pathlen_eq : forall (P : Type) (ed : edge P) a x, PathLengthTraversal ed a x = fold_left Nat.add a 1.
Proof. reflexivity. Qed.
Lemma feature_eq : forall (P F : Type) (add : F -> F -> F) (feats : edge P -> F) ed a r,
  FeatureTraversal add feats ed a r = add (fold_left add a r) (feats ed).
Proof. reflexivity. Qed.
Lemma path_eval : forall (P : Type) (g : hg P) t n, derives g n t ->
  map Some (tree_eval g [] PathTraversal t) = map (nth_error (edges g)) (tree_edges t).
Proof.
  intros P g. induction t as [e ts IH] using tree_ind'. intros n D. inversion D as [? nd ? ed ? N E ED F]; subst.
  cbn [tree_eval tree_edges]. rewrite ED. rewrite path_eq, !map_app. cbn [map]. rewrite ED. f_equal.
  clear D N E ED. induction F as [|t s r rs Dt F IHF]; [reflexivity|]. inversion IH as [|? ? H1 H2]; subst.
  cbn [map concat flat_map]. rewrite !map_app, (H1 _ Dt). f_equal. apply IHF, H2.
Qed.

Lemma pathlen_eval : forall (P : Type) (g : hg P) t n, derives g n t -> tree_eval g 0 PathLengthTraversal t = length (tree_edges t).
Proof.
  intros P g. induction t as [e ts IH] using tree_ind'. intros n D. inversion D as [? nd ? ed ? N E ED F]; subst.
  cbn [tree_eval tree_edges]. rewrite ED. rewrite pathlen_eq, app_length. cbn [length].
  assert (X : forall a, fold_left Nat.add (map (tree_eval g 0 PathLengthTraversal) ts) a = length (flat_map tree_edges ts) + a).
  { clear D N E ED. induction F as [|t s r rs Dt F IHF]; intros a; [reflexivity|]. inversion IH as [|? ? H1 H2]; subst.
    cbn [map fold_left flat_map]. rewrite (IHF H2), (H1 _ Dt), app_length. lia. }
  exact (X 1).
Qed.

Lemma feature_eval : forall (P F : Type) (g : hg P) (nul : F) (add : F -> F -> F) (feats : edge P -> F),
  (forall a b, add a b = add b a) -> (forall a b c, add a (add b c) = add (add a b) c) -> (forall a, add nul a = a) ->
  forall t n, derives g n t ->
  tree_eval g nul (FeatureTraversal add feats) t = sum nul add (map (edge_weight nul feats g) (tree_edges t)).
Proof.
  intros P F g nul add feats AC AA AZ. induction t as [e ts IH] using tree_ind'. intros n D. inversion D as [? nd ? ed ? N E ED F']; subst.
  cbn [tree_eval tree_edges]. rewrite ED, feature_eq.
  assert (SA : forall l l', sum nul add (l ++ l') = add (sum nul add l) (sum nul add l')).
  { induction l as [|x r IHl]; intros l'; cbn; [symmetry; apply AZ|]. rewrite IHl. apply AA. }
  rewrite map_app, SA. cbn [map sum]. unfold edge_weight at 2. rewrite ED. rewrite (AC (feats ed) nul), AZ. f_equal.
  assert (X : forall a, fold_left add (map (tree_eval g nul (FeatureTraversal add feats)) ts) a = add a (sum nul add (map (edge_weight nul feats g) (flat_map tree_edges ts)))).
  { clear D N E ED. induction F' as [|t s r rs Dt F' IHF]; intros a; [cbn; rewrite AC; symmetry; apply AZ|]. inversion IH as [|? ? H1 H2]; subst.
    cbn [map fold_left flat_map]. rewrite (IHF H2), (H1 _ Dt), map_app, SA. symmetry. apply AA. }
  rewrite X. apply AZ.
Qed.
