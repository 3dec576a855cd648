From Coq Require Import List Arith Lia Bool Permutation.
From Verif Require Import HG HGProofs Deriv Cube CubeProofs RescoreProofs KBest KBestSpec.
Import ListNotations.

Lemma tree_eq_dec : forall a b : tree, {a = b} + {a <> b}.
Proof.
  fix IH 1. intros [e ts] [e' ts']. destruct (Nat.eq_dec e e') as [<-|N]; [|right; congruence].
  assert (X : {ts = ts'} + {ts <> ts'}).
  { revert ts'. induction ts as [|t r IHr]; intros [|t' r']; [left; reflexivity|right; discriminate|right; discriminate|].
    destruct (IH t t') as [<-|N]; [|right; congruence]. destruct (IHr r') as [<-|N]; [left; reflexivity|right; congruence]. }
  destruct X as [<-|N]; [left; reflexivity|right; congruence].
Defined.

Lemma Forall2_length : forall {A B} {R : A -> B -> Prop} {l l'}, Forall2 R l l' -> length l = length l'.
Proof. intros A B R l l' H. induction H; cbn; congruence. Qed.
Lemma Forall2_index : forall {A B} (R : A -> B -> Prop) l l', length l = length l' ->
  (forall i a b, nth_error l i = Some a -> nth_error l' i = Some b -> R a b) -> Forall2 R l l'.
Proof.
  intros A B R. induction l as [|a l IH]; intros [|b l'] L H; cbn in L; try lia; constructor; [apply (H 0); reflexivity|]. apply IH; [lia|]. intros i. apply (H (S i)).
Qed.
Lemma Forall2_nth : forall {A B} (R : A -> B -> Prop) l l' i a b, Forall2 R l l' -> nth_error l i = Some a -> nth_error l' i = Some b -> R a b.
Proof.
  intros A B R l l' i a b F. revert i. induction F as [|x y l l' H F IH]; intros [|i] E E'; cbn in *; try discriminate; [congruence|]. apply (IH i E E').
Qed.
Lemma Forall2_dec_index : forall {A} (R : A -> A -> Prop), (forall a b, {R a b} + {~ R a b}) -> forall l l', length l = length l' ->
  Forall2 R l l' \/ exists i a b, nth_error l i = Some a /\ nth_error l' i = Some b /\ ~ R a b.
Proof.
  intros A R DEC. induction l as [|a l IH]; intros [|b l'] L; cbn in L; try lia; [left; constructor|].
  destruct (DEC a b) as [H|H]; [|right; exists 0, a, b; auto].
  destruct (IH l' ltac:(lia)) as [F|(i & x & y & E)]; [left; constructor; assumption|right; exists (S i), x, y; exact E].
Qed.
Lemma nth_len : forall {A B} (l : list A) (l' : list B) i a, length l = length l' -> nth_error l i = Some a -> exists b, nth_error l' i = Some b.
Proof.
  intros A B l l' i a L E. destruct (nth_error l' i) as [b|] eqn:Q; [eauto|]. apply nth_error_None in Q. assert (i < length l) by (apply nth_error_Some; congruence). lia.
Qed.
Lemma nth_total : forall j i x, nth_error j i = Some x -> x <= total j.
Proof. induction j as [|y j IH]; intros [|i] x E; cbn in *; try discriminate; [injection E as <-; lia|]. apply IH in E. lia. Qed.
Lemma total_incr : forall i j, i < length j -> total (incr i j) = S (total j).
Proof. intros i j L. apply (total_decr i). apply decr_incr, L. Qed.
Lemma total_zeros : forall {A} (l : list A), total (map (fun _ => 0) l) = 0.
Proof. induction l; cbn; auto. Qed.
Lemma total_zero : forall {A} (l : list A) j, length j = length l -> total j = 0 -> j = map (fun _ => 0) l.
Proof. induction l as [|a l IH]; intros [|x j] L T; cbn in *; try lia; [reflexivity|]. f_equal; [lia|apply IH; lia]. Qed.

(** ** Trees at ranks *)
Definition ranks := nat -> list tree.
Inductive picks (G : ranks) : list nat -> list nat -> list tree -> Prop :=
| pk_nil : picks G [] [] []
| pk_cons : forall t x s ts js ss, nth_error (G t) x = Some s -> picks G ts js ss -> picks G (t :: ts) (x :: js) (s :: ss).
Definition Gext (G G' : ranks) : Prop := forall u, exists l, G' u = G u ++ l.
Lemma Gext_refl : forall G, Gext G G. Proof. intros G u. exists []. rewrite app_nil_r. reflexivity. Qed.
Lemma Gext_trans : forall A B C, Gext A B -> Gext B C -> Gext A C.
Proof. intros A B C H K u. destruct (H u) as (l & E). destruct (K u) as (l' & E'). exists (l ++ l'). rewrite E', E, app_assoc. reflexivity. Qed.
Lemma Gext_nth : forall G G' u i t, Gext G G' -> nth_error (G u) i = Some t -> nth_error (G' u) i = Some t.
Proof. intros G G' u i t H E. destruct (H u) as (l & ->). rewrite nth_error_app1; [exact E|]. apply nth_error_Some. congruence. Qed.
Lemma Gext_len : forall G G' u, Gext G G' -> length (G u) <= length (G' u).
Proof. intros G G' u H. destruct (H u) as (l & ->). rewrite app_length. lia. Qed.
Lemma picks_ext : forall G G' ts js ss, Gext G G' -> picks G ts js ss -> picks G' ts js ss.
Proof. intros G G' ts js ss E H. induction H; constructor; [apply (Gext_nth _ _ _ _ _ E H)|assumption]. Qed.
Lemma picks_len : forall G ts js ss, picks G ts js ss -> length js = length ts /\ length ss = length ts.
Proof. intros G ts js ss H. induction H; cbn; lia. Qed.
Lemma picks_nth : forall G ts js ss, picks G ts js ss -> forall i t x s, nth_error ts i = Some t -> nth_error js i = Some x -> nth_error ss i = Some s -> nth_error (G t) x = Some s.
Proof. intros G ts js ss H. induction H as [|t x s ts js ss E H IH]; intros [|i] t' x' s' A B C; cbn in *; try discriminate; [congruence|]. apply (IH i _ _ _ A B C). Qed.
Lemma picks_fun : forall G ts js ss ss', picks G ts js ss -> picks G ts js ss' -> ss = ss'.
Proof. intros G ts js ss ss' H. revert ss'. induction H; intros ss' K; inversion K; subst; [reflexivity|]. f_equal; [congruence|auto]. Qed.
Lemma picks_intro : forall G ts js, length js = length ts -> (forall i t x, nth_error ts i = Some t -> nth_error js i = Some x -> x < length (G t)) -> exists ss, picks G ts js ss.
Proof.
  intros G. induction ts as [|t ts IH]; intros [|x js] L H; cbn in L; try lia; [exists []; constructor|].
  pose proof (H 0 t x eq_refl eq_refl) as B. apply nth_error_Some in B. destruct (nth_error (G t) x) as [s|] eqn:E; [|congruence].
  destruct (IH js ltac:(lia)) as (ss & K); [intros i; apply (H (S i))|]. exists (s :: ss). constructor; assumption.
Qed.

Section K.
Context {P W Y : Type}.
Variable times : W -> W -> W.
Variable w : edge P -> W.
Variable traverse : edge P -> list Y -> Y.
Variable eqY : Y -> Y -> bool.
Variable uniq : bool.
Variable hpop : list (deriv W) -> option (deriv W * list (deriv W)).
Variable hpush : list (deriv W) -> deriv W -> list (deriv W).
Variable hmake : nat -> list (deriv W) -> list (deriv W).
Variable isheap : list (deriv W) -> Prop.
Variable g : hg P.
Variable k_prime : nat.
Variable F : nat.
Variable leb : W -> W -> bool.
Variable dW : W.
Variable dY : Y.
Hypothesis EQY : forall a b, eqY a b = true <-> a = b.
Hypothesis ORD : ordered leb times.
Hypothesis HEAP : heap_functions leb isheap hpop hpush hmake.
Hypothesis TOPO : topo g.
Hypothesis PROD : productive g.
Hypothesis FUEL : forall v L, all_derivations g v L -> length L < F.

Notation le a b := (leb a b = true).
Notation wt := (tree_weight times (edge_weight dW w g)).
Notation yld := (tree_yield g traverse dY).
Notation state := (state (W := W) (Y := Y)).

Lemma le_refl : forall a, le a a.
Proof. intros a. destruct (o_total _ _ ORD a a); assumption. Qed.
Lemma le_trans : forall a b c, le a b -> le b c -> le a c.
Proof. exact (o_trans _ _ ORD). Qed.

Definition cls (a b : tree) : Prop := if uniq then yld a = yld b else a = b.
Lemma cls_refl : forall a, cls a a. Proof. intros a. unfold cls. destruct uniq; reflexivity. Qed.
Lemma cls_sym : forall a b, cls a b -> cls b a. Proof. intros a b. unfold cls. destruct uniq; auto. Qed.
Lemma cls_trans : forall a b c, cls a b -> cls b c -> cls a c. Proof. intros a b c. unfold cls. destruct uniq; congruence. Qed.
Lemma cls_dec : forall a b, {cls a b} + {~ cls a b}.
Proof.
  intros a b. unfold cls. destruct uniq; [|apply tree_eq_dec]. destruct (eqY (yld a) (yld b)) eqn:E; [left; apply EQY, E|right; intros X; apply EQY in X; congruence].
Qed.
Lemma cls_tree : forall e ss ss', Forall2 cls ss ss' -> cls (Tree e ss) (Tree e ss').
Proof.
  intros e ss ss'. unfold cls. destruct uniq; intros H.
  - cbn. assert (E : map yld ss = map yld ss') by (induction H; cbn; congruence). rewrite E. reflexivity.
  - f_equal. induction H; congruence.
Qed.
Lemma wt_mono : forall e ss ss', Forall2 (fun a b => le (wt a) (wt b)) ss ss' -> le (wt (Tree e ss)) (wt (Tree e ss')).
Proof.
  intros e ss ss' H. cbn [tree_weight]. generalize (edge_weight dW w g e) at 1 2. intros a0.
  assert (X : forall a b, le a b -> le (fold_left (fun a s => times a (wt s)) ss a) (fold_left (fun a s => times a (wt s)) ss' b)).
  { induction H as [|x y ss ss' L H IH]; intros a b AB; [exact AB|]. cbn [fold_left]. apply IH. apply (o_mono _ _ ORD); assumption. }
  apply X, le_refl.
Qed.

(** ** Facts about ranks *)
Definition rep (l : list tree) (t : tree) : Prop := exists t', In t' l /\ cls t t' /\ le (wt t) (wt t').
Definition complete (G : ranks) (u : nat) : Prop := forall s, derives g u s -> rep (G u) s.
Record RK (G : ranks) (u : nat) : Prop := {
  k_der : forall t, In t (G u) -> derives g u t;
  k_ord : forall i j a b, i < j -> nth_error (G u) i = Some a -> nth_error (G u) j = Some b -> le (wt b) (wt a) /\ ~ cls a b;
  k_best : forall i t s, nth_error (G u) i = Some t -> derives g u s -> rep (firstn i (G u)) s \/ le (wt s) (wt t)
}.
Lemma rep_mono : forall l l' t, incl l l' -> rep l t -> rep l' t.
Proof. intros l l' t I (t' & A & B). exists t'. split; [apply I, A|exact B]. Qed.
Lemma firstn_incl : forall {A} n (l : list A), incl (firstn n l) l.
Proof. intros A n l x X. rewrite <- (firstn_skipn n l). apply in_or_app. left. exact X. Qed.
Lemma RK_inj : forall G u i j a b, RK G u -> nth_error (G u) i = Some a -> nth_error (G u) j = Some b -> cls a b -> i = j.
Proof.
  intros G u i j a b R A B C. destruct (Nat.lt_trichotomy i j) as [L|[E|L]]; [|exact E|].
  - destruct (k_ord _ _ R i j a b L A B) as (_ & X). contradiction.
  - destruct (k_ord _ _ R j i b a L B A) as (_ & X). apply cls_sym in C. contradiction.
Qed.
Lemma complete_len : forall G G' u, Gext G G' -> RK G' u -> complete G u -> G' u = G u.
Proof.
  intros G G' u E R C. destruct (E u) as (l & Q). destruct l as [|t l]; [rewrite app_nil_r in Q; exact Q|exfalso].
  assert (N : nth_error (G' u) (length (G u)) = Some t) by (rewrite Q, nth_error_app2, Nat.sub_diag by lia; reflexivity).
  destruct (C t) as (t' & I & K & _); [apply (k_der _ _ R), (nth_error_In _ _ N)|].
  apply In_nth_error in I. destruct I as (i & I). pose proof (Gext_nth _ _ _ _ _ E I) as I'.
  pose proof (RK_inj G' u _ _ t t' R N I' K). assert (i < length (G u)) by (apply nth_error_Some; congruence). lia.
Qed.
Definition beyond (G : ranks) (u x : nat) (s : tree) : Prop := forall i t, i < x -> nth_error (G u) i = Some t -> ~ cls s t.
Lemma beyond_le : forall G u x s t, RK G u -> derives g u s -> nth_error (G u) x = Some t -> beyond G u x s -> le (wt s) (wt t).
Proof.
  intros G u x s t R DS E B. destruct (k_best _ _ R x t s E DS) as [(t' & I & C & _)|L]; [exfalso|exact L].
  apply In_nth_error in I. destruct I as (i & I).
  assert (LI : i < length (firstn x (G u))) by (apply nth_error_Some; congruence). rewrite firstn_length in LI.
  apply (B i t'); [lia| |exact C]. rewrite <- I. rewrite <- (firstn_skipn x (G u)) at 1. rewrite nth_error_app1 by (rewrite firstn_length; lia). reflexivity.
Qed.

(** ** Derivation objects *)
Definition key (d : deriv W) : nat * list nat := (de d, dj d).
Definition entry (G : ranks) (nd : node) (d : deriv W) (t : tree) : Prop :=
  exists ed ss, t = Tree (de d) ss /\ In (de d) (in_edges nd) /\ nth_error (edges g) (de d) = Some ed /\ picks G (tails ed) (dj d) ss /\ score d = wt t.
Definition closed_at (G : ranks) (s : nstate W Y) (d : deriv W) (i : nat) : Prop :=
  forall ed t x, nth_error (edges g) (de d) = Some ed -> nth_error (tails ed) i = Some t -> nth_error (dj d) i = Some x ->
    In (de d, incr i (dj d)) (dset s) \/ (complete G t /\ length (G t) = S x).
Definition closed (G : ranks) (s : nstate W Y) (d : deriv W) : Prop := forall i, closed_at G s d i.
Definition root_edge (t : tree) : nat := match t with Tree e _ => e end.

Record NI (G : ranks) (v : nat) (nd : node) (s : nstate W Y) (pl : list (deriv W)) (drop : list nat) (open : list (deriv W)) : Prop := {
  n_rk : RK G v;
  n_D : Forall2 (fun dy t => entry G nd (fst dy) t /\ snd dy = yld t) (D s) (G v);
  n_ent : forall d, In d (cands s ++ pl) -> exists t, entry G nd d t;
  n_nodup : NoDup (map key (cands s ++ pl));
  n_root : forall e ed, In e (in_edges nd) -> nth_error (edges g) e = Some ed -> In (e, map (fun _ => 0) (tails ed)) (map key (cands s ++ pl)) \/ In e drop;
  n_ds : forall k, In k (dset s) <-> In k (map key (cands s ++ pl)) /\ 0 < total (snd k);
  n_closed : forall p, In p pl -> In p open \/ closed G s p;
  n_open : open = [] \/ exists d, open = [d] /\ In d pl /\ forall p, In p pl -> le (score d) (score p);
  n_order : forall p c, In p pl -> In c (cands s) -> le (score c) (score p);
  n_filt : uniq = true -> forall y, In y (filt s) <-> In y (map yld (G v));
  n_repr : forall p t, In p pl -> entry G nd p t -> rep (G v) t;
  n_pl : forall dy, In dy (D s) -> In (fst dy) pl;
  n_nf : uniq = false -> length pl = length (D s) /\ (forall d, In d (cands s) -> total (dj d) <= length (D s)) /\
         (forall i dy, nth_error (D s) i = Some dy -> total (dj (fst dy)) <= i);
  n_drop : drop = [] \/ (uniq = false /\ exists R, NoDup (map key R) /\ length R = k_prime /\ (forall r, In r R -> In r (cands s ++ pl)) /\
         forall t r, derives g v t -> In (root_edge t) drop -> In r R -> le (wt t) (score r));
  n_heap : isheap (cands s)
}.

Lemma entry_ext : forall G G' nd d t, Gext G G' -> entry G nd d t -> entry G' nd d t.
Proof. intros G G' nd d t E (ed & ss & A & B & C & H & S). exists ed, ss. repeat split; auto. apply (picks_ext _ _ _ _ _ E H). Qed.
Lemma entry_fun : forall G nd d t t', entry G nd d t -> entry G nd d t' -> t = t'.
Proof.
  intros G nd d t t' (ed & ss & -> & _ & E & H & _) (ed' & ss' & -> & _ & E' & H' & _). rewrite E in E'. injection E' as <-. f_equal. apply (picks_fun _ _ _ _ _ H H').
Qed.
Lemma entry_back : forall G G' nd d t, Gext G G' -> (exists t', entry G nd d t') -> entry G' nd d t -> entry G nd d t.
Proof. intros G G' nd d t E (t' & X) H. rewrite <- (entry_fun _ _ _ _ _ (entry_ext _ _ _ _ _ E X) H). exact X. Qed.

Section V.
Variable v : nat.
Variable nd : node.
Hypothesis ND : nth_error (nodes g) v = Some nd.

Lemma tail_below : forall e ed t, In e (in_edges nd) -> nth_error (edges g) e = Some ed -> In t (tails ed) -> t < v.
Proof. intros e ed t I E T. destruct (TOPO v nd ND) as (_ & H). destruct (H e I) as (ed' & E' & X). rewrite E in E'. injection E' as <-. apply X, T. Qed.

Lemma closed_ext : forall G G' s d i, Gext G G' -> (forall u, u < v -> RK G' u) -> In (de d) (in_edges nd) -> closed_at G s d i -> closed_at G' s d i.
Proof.
  intros G G' s d i E R I C ed t x E1 E2 E3. destruct (C ed t x E1 E2 E3) as [X|(X & L)]; [left; exact X|right].
  pose proof (complete_len G G' t E (R t (tail_below _ _ _ I E1 (nth_error_In _ _ E2))) X) as Q. split; [intros s0 D0; rewrite Q; apply X, D0|rewrite Q; exact L].
Qed.
Lemma NI_ext : forall G G' s pl drop open, Gext G G' -> G' v = G v -> (forall u, u < v -> RK G' u) -> NI G v nd s pl drop open -> NI G' v nd s pl drop open.
Proof.
  intros G G' s pl drop open E GV R N.
  assert (EI : forall p, In p pl -> In (de p) (in_edges nd)).
  { intros p I. destruct (n_ent _ _ _ _ _ _ _ N p) as (t & ed & ss & _ & X & _); [apply in_app_iff; right; exact I|exact X]. }
  destruct N. constructor; try assumption; rewrite ?GV; try assumption.
  - destruct n_rk0. constructor; rewrite ?GV; assumption.
  - clear - n_D0 E. induction n_D0 as [|dy t l l' (A & B) X IH]; constructor; [|exact IH]. split; [apply (entry_ext _ _ _ _ _ E A)|exact B].
  - intros d I. destruct (n_ent0 d I) as (t & X). exists t. apply (entry_ext _ _ _ _ _ E X).
  - intros p I. destruct (n_closed0 p I) as [X|X]; [left; exact X|right]. intros i. apply (closed_ext G); auto.
  - intros p t I X. apply (n_repr0 p t I). apply (entry_back G G'); auto. apply n_ent0, in_app_iff. right. exact I.
Qed.

Lemma entry_der : forall G d t, (forall u, u < v -> RK G u) -> entry G nd d t -> derives g v t.
Proof.
  intros G d t R (ed & ss & -> & I & E & H & _). apply (d_edge g v nd (de d) ed ss ND I E).
  pose proof (tail_below (de d) ed) as TB. specialize (fun t => TB t I E).
  apply Forall2_index; [destruct (picks_len _ _ _ _ H); lia|]. intros i a b A B.
  destruct (picks_len _ _ _ _ H) as (L1 & _). destruct (nth_len _ (dj d) i a (eq_sym L1) A) as (x & X).
  pose proof (picks_nth _ _ _ _ H i a x b A X B) as N. apply (k_der G a); [apply R, TB, (nth_error_In _ _ A)|apply (nth_error_In _ _ N)].
Qed.
(** Different objects denote different trees. *)
Lemma entry_inj : forall G d d' t, (forall u, u < v -> RK G u) -> entry G nd d t -> entry G nd d' t -> key d = key d'.
Proof.
  intros G d d' t R (ed & ss & -> & I & E & H & _) (ed' & ss' & Q & I' & E' & H' & _). injection Q as Q1 <-. unfold key. rewrite <- Q1 in *. rewrite E in E'. injection E' as <-. f_equal.
  destruct (picks_len _ _ _ _ H) as (L1 & L2). destruct (picks_len _ _ _ _ H') as (L3 & _).
  assert (X : Forall2 eq (dj d) (dj d')).
  { apply Forall2_index; [lia|]. intros i x y X Y0.
    destruct (nth_len _ (tails ed) i x L1 X) as (t & T). destruct (nth_len _ ss i t (eq_sym L2) T) as (s & S).
    apply (RK_inj G t x y s s); [apply R, (tail_below _ _ _ I E), (nth_error_In _ _ T)|apply (picks_nth _ _ _ _ H i t x s T X S)|apply (picks_nth _ _ _ _ H' i t y s T Y0 S)|apply cls_refl]. }
  clear - X. induction X; congruence.
Qed.

(** ** Coverage *)
Definition beyonds (G : ranks) (ts js : list nat) (ss : list tree) : Prop :=
  forall i t x s, nth_error ts i = Some t -> nth_error js i = Some x -> nth_error ss i = Some s -> beyond G t x s.
Lemma beyonds_le : forall G d t ss ed, (forall u, u < v -> RK G u) -> entry G nd d t -> nth_error (edges g) (de d) = Some ed -> Forall2 (derives g) (tails ed) ss ->
  beyonds G (tails ed) (dj d) ss -> le (wt (Tree (de d) ss)) (wt t).
Proof.
  intros G d t ss ed R (ed' & ss' & -> & I & E & H & _) E' DS B. rewrite E in E'. injection E' as ->. apply wt_mono.
  destruct (picks_len _ _ _ _ H) as (L1 & L2). pose proof (Forall2_length DS) as L3.
  apply Forall2_index; [lia|]. intros i a b A Bq. destruct (nth_len _ (tails ed) i a (eq_sym L3) A) as (u & U).
  destruct (nth_len _ (dj d) i u (eq_sym L1) U) as (x & X). apply (beyond_le G u x).
  - apply R, (tail_below _ _ _ I E), (nth_error_In _ _ U).
  - apply (Forall2_nth _ _ _ i _ _ DS U A).
  - apply (picks_nth _ _ _ _ H i u x b U X Bq).
  - apply (B i u x a U X A).
Qed.
Fixpoint room (G : ranks) (ts : list nat) : nat := match ts with [] => 0 | t :: r => length (G t) + room G r end.
Lemma picks_room : forall G ts js ss, picks G ts js ss -> total js <= room G ts.
Proof. intros G ts js ss H. induction H; cbn; [lia|]. assert (x < length (G t)) by (apply nth_error_Some; congruence). lia. Qed.

Lemma cover : forall G s pl drop open, NI G v nd s pl drop open -> (forall u, u < v -> RK G u) ->
  forall e ed ss, In e (in_edges nd) -> nth_error (edges g) e = Some ed -> Forall2 (derives g) (tails ed) ss ->
  forall n d, In d (cands s ++ pl) -> de d = e -> beyonds G (tails ed) (dj d) ss -> room G (tails ed) - total (dj d) <= n ->
  rep (G v) (Tree e ss) \/ (exists c, In c (cands s) /\ le (wt (Tree e ss)) (score c)) \/ (exists p, In p open /\ le (wt (Tree e ss)) (score p)).
Proof.
  intros G s pl drop open N R e ed ss Ie E DS. induction n as [n IH] using (well_founded_induction lt_wf). intros d I <- B M.
  destruct (n_ent _ _ _ _ _ _ _ N d I) as (t & T). pose proof (beyonds_le G d t ss ed R T E DS B) as LE.
  assert (SC : score d = wt t) by (destruct T as (? & ? & _ & _ & _ & _ & X); exact X).
  apply in_app_iff in I. destruct I as [I|I].
  - right. left. exists d. split; [exact I|]. rewrite SC. exact LE.
  - destruct (n_closed _ _ _ _ _ _ _ N d I) as [O|C]; [right; right; exists d; split; [exact O|rewrite SC; exact LE]|].
    pose proof T as (ed' & ss' & Q & _ & E' & H & _). rewrite E in E'. injection E' as <-. subst t.
    destruct (picks_len _ _ _ _ H) as (L1 & L2). pose proof (Forall2_length DS) as L3.
    destruct (Forall2_dec_index cls cls_dec ss ss' ltac:(lia)) as [ALL|(i & a & b & A & Bq & NC)].
    + left. destruct (n_repr _ _ _ _ _ _ _ N d _ I T) as (t' & I' & C' & L'). exists t'. split; [exact I'|]. split; [|apply (le_trans _ _ _ LE L')].
      apply (cls_trans _ (Tree (de d) ss')); [apply cls_tree, ALL|exact C'].
    + destruct (nth_len _ (tails ed) i a (eq_sym L3) A) as (u & U). destruct (nth_len _ (dj d) i u (eq_sym L1) U) as (x & X).
      pose proof (picks_nth _ _ _ _ H i u x b U X Bq) as PN.
      assert (B' : beyond G u (S x) a).
      { intros k t0 K TK. destruct (Nat.eq_dec k x) as [->|]; [congruence|]. apply (B i u x a U X A k t0 ltac:(lia) TK). }
      destruct (C i ed u x E U X) as [DS'|(CM & LEN)].
      * apply (n_ds _ _ _ _ _ _ _ N) in DS'. destruct DS' as (K & _). apply in_map_iff in K. destruct K as (d' & KD & ID). injection KD as KD1 KD2.
        assert (LI : i < length (dj d)) by (apply nth_error_Some; congruence).
        destruct (n_ent _ _ _ _ _ _ _ N d' ID) as (t' & ed2 & ss2 & _ & _ & E2 & H2 & _). rewrite KD1, E in E2. injection E2 as <-. pose proof (picks_room _ _ _ _ H2) as RM. rewrite KD2, total_incr in RM by exact LI.
        apply (IH (room G (tails ed) - total (dj d'))) with d'; [rewrite KD2, total_incr by exact LI; lia|exact ID|exact KD1| |lia].
        intros k t0 x0 s0 T0 X0 S0. rewrite KD2, incr_nth in X0. destruct (Nat.eqb_spec i k) as [->|NE].
        -- rewrite X in X0. injection X0 as <-. rewrite U in T0. injection T0 as <-. rewrite A in S0. injection S0 as <-. exact B'.
        -- apply (B k t0 x0 s0 T0 X0 S0).
      * exfalso. destruct (CM a) as (t' & I' & C' & _); [apply (Forall2_nth _ _ _ i _ _ DS U A)|]. apply In_nth_error in I'. destruct I' as (k & K).
        apply (B' k t'); [|exact K|exact C']. rewrite <- LEN. apply nth_error_Some. congruence.
Qed.
Lemma cover_all : forall G s pl drop open, NI G v nd s pl drop open -> (forall u, u < v -> RK G u) -> forall t, derives g v t ->
  rep (G v) t \/ (exists c, In c (cands s) /\ le (wt t) (score c)) \/ (exists p, In p open /\ le (wt t) (score p)) \/ In (root_edge t) drop.
Proof.
  intros G s pl drop open N R t DT. inversion DT as [n nd' e ed ss N' I E DS]; subst. rewrite ND in N'. injection N' as <-.
  destruct (n_root _ _ _ _ _ _ _ N e ed I E) as [K|K]; [|right; right; right; exact K].
  apply in_map_iff in K. destruct K as (d & KD & ID). injection KD as KD1 KD2.
  destruct (cover G s pl drop open N R e ed ss I E DS (room G (tails ed) - total (dj d)) d ID KD1) as [X|[X|X]]; auto.
  intros i t0 x s0 T0 X S0 k t' K. rewrite KD2 in X. exfalso. clear - X K. revert X. generalize (tails ed). intros l. revert i. induction l as [|a l IH]; intros [|i] X; cbn in X; try discriminate; [injection X as <-; lia|apply (IH i X)].
Qed.
(** Bound on the number of objects. *)
Lemma NI_bound : forall G s pl drop open, NI G v nd s pl drop open -> (forall u, u < v -> RK G u) -> length pl < F.
Proof.
  intros G s pl drop open N R. pose proof (dvs_all g TOPO v) as AL. set (L := dvs g v) in *. apply Nat.le_lt_trans with (length L); [|apply (FUEL v L AL)].
  assert (X : exists ts, Forall2 (fun d t => entry G nd d t) pl ts).
  { assert (Q : forall d, In d pl -> exists t, entry G nd d t) by (intros d I; apply (n_ent _ _ _ _ _ _ _ N), in_app_iff; right; exact I).
    clear - Q. induction pl as [|d pl IH]; [exists []; constructor|]. destruct IH as (ts & H); [intros; apply Q; right; assumption|]. destruct (Q d (or_introl eq_refl)) as (t & T). exists (t :: ts). constructor; assumption. }
  destruct X as (ts & H). rewrite (Forall2_length H). apply NoDup_incl_length.
  - pose proof (n_nodup _ _ _ _ _ _ _ N) as NDK. rewrite map_app in NDK.
    assert (NDP : NoDup (map key pl)) by (clear - NDK; induction (map key (cands s)); [exact NDK|inversion NDK; auto]).
    clear - NDP H R ND TOPO. induction H as [|d t pl ts E H IH]; [constructor|]. cbn in NDP. inversion NDP as [|? ? NI' ND']; subst. constructor; [|apply IH, ND'].
    intros X. apply NI'. apply In_nth_error in X. destruct X as (i & X). destruct (nth_len ts pl i t (eq_sym (Forall2_length H)) X) as (d' & D').
    pose proof (Forall2_nth _ _ _ i _ _ H D' X) as E'. rewrite (entry_inj G d d' t R E E'). apply in_map, (nth_error_In _ _ D').
  - intros t X. apply AL. apply In_nth_error in X. destruct X as (i & X). destruct (nth_len ts pl i t (eq_sym (Forall2_length H)) X) as (d' & D').
    apply (entry_der G d' t R (Forall2_nth _ _ _ i _ _ H D' X)).
Qed.
End V.

(** ** The state of all nodes *)
Definition Inv_at (G : ranks) (v : nat) (nd : node) (s : nstate W Y) : Prop :=
  (cands s = [] /\ D s = [] /\ dset s = [] /\ filt s = [] /\ G v = []) \/
  exists pl drop open, NI G v nd s pl drop open /\ (open = [] \/ exists d y pre, open = [d] /\ D s = pre ++ [(d, y)]).
Definition Inv (w : nat) (st : state) (G : ranks) : Prop :=
  exists s nd, nth_error st w = Some s /\ nth_error (nodes g) w = Some nd /\ Inv_at G w nd s.
Definition low (n : nat) (st : state) (G : ranks) : Prop := length st = length (nodes g) /\ forall w, w < n -> w < length (nodes g) -> Inv w st G.
Lemma RK_nil : forall G u, G u = [] -> RK G u.
Proof. intros G u E. constructor; rewrite E; [contradiction| |]; intros [|i]; intros; discriminate. Qed.
Lemma Inv_RK : forall w st G, Inv w st G -> RK G w.
Proof. intros w0 st G (s & nd & _ & _ & [(_ & _ & _ & _ & E)|(pl & drop & open & N & _)]); [apply RK_nil, E|apply N]. Qed.
Lemma low_RK : forall n st G, low n st G -> forall u, u < n -> u < length (nodes g) -> RK G u.
Proof. intros n st G (_ & H) u U L. apply (Inv_RK u st G), H; assumption. Qed.
Lemma RK_eq : forall G G' u, G' u = G u -> RK G u -> RK G' u.
Proof. intros G G' u E [A B C]. constructor; rewrite E; assumption. Qed.
Lemma Inv_at_ext : forall w nd, nth_error (nodes g) w = Some nd -> forall G G' s, Gext G G' -> G' w = G w -> (forall u, u < w -> RK G' u) -> Inv_at G w nd s -> Inv_at G' w nd s.
Proof.
  intros w0 nd ND G G' s E GV R [X|(pl & drop & open & N & O)]; [left; rewrite GV; exact X|right]. exists pl, drop, open. split; [|exact O]. apply (NI_ext w0 nd ND G); assumption.
Qed.
Definition okk (x : nat) : Prop := uniq = true \/ x < k_prime.
Definition ext (u : nat) (st st' : state) (G G' : ranks) : Prop :=
  (forall n, u < n -> nth_error st' n = nth_error st n /\ G' n = G n) /\ Gext G G'.
Definition answer (G : ranks) (u k : nat) (r : option (deriv W * Y)) : Prop :=
  match nth_error (G u) k with
  | Some t => exists d, r = Some (d, yld t) /\ score d = wt t
  | None => r = None /\ complete G u
  end.
Definition recspec (n : nat) (rec : nat -> nat -> state -> option (option (deriv W * Y) * state)) : Prop :=
  forall u k st G, u < n -> u < length (nodes g) -> okk k -> low (S u) st G ->
  exists r st' G', rec u k st = Some (r, st') /\ low (S u) st' G' /\ ext u st st' G G' /\ answer G' u k r.

Lemma low_after : forall v u st st' G G', u < v -> v <= length (nodes g) -> low v st G -> low (S u) st' G' -> ext u st st' G G' -> low v st' G'.
Proof.
  intros v u st st' G G' U V L L' (SAME & E). split; [apply L'|].
  assert (R : forall w, w < v -> RK G' w).
  { intros w0 W0. destruct (le_lt_dec w0 u) as [LE|GT]; [apply (low_RK (S u) st'); [exact L'|lia|lia]|]. apply (RK_eq G); [apply SAME, GT|]. apply (low_RK v st G L); lia. }
  intros w0 W0 LN. destruct (le_lt_dec w0 u) as [LE|GT]; [apply L'; lia|].
  destruct (proj2 L w0 W0 LN) as (s & nd & S & ND & I). exists s, nd. destruct (SAME w0 GT) as (S1 & G1). rewrite S1. split; [exact S|]. split; [exact ND|].
  apply (Inv_at_ext w0 nd ND G G' s E G1); [intros; apply R; lia|exact I].
Qed.

Section V2.
Variable v : nat.
Variable nd : node.
Hypothesis ND : nth_error (nodes g) v = Some nd.
Variable rec : nat -> nat -> state -> option (option (deriv W * Y) * state).
Hypothesis REC : recspec v rec.

Variable stF : state.
Variable GF : ranks.
Lemma VLEN : v < length (nodes g). Proof. apply nth_error_Some. congruence. Qed.
Definition frame (st : state) (G : ranks) : Prop := forall n, v < n -> nth_error st n = nth_error stF n /\ G n = GF n.
Record here (st : state) (s : nstate W Y) (G : ranks) : Prop := {
  h_low : low v st G;
  h_at : nth_error st v = Some s;
  h_frame : frame st G
}.
Lemma here_RK : forall st s G, here st s G -> forall u, u < v -> RK G u.
Proof. intros st s G [L _ _] u U. pose proof VLEN. apply (low_RK v st G L u U). lia. Qed.
Lemma rec_here : forall u k st s G, u < v -> okk k -> here st s G ->
  exists r st' G', rec u k st = Some (r, st') /\ here st' s G' /\ Gext G G' /\ G' v = G v /\ answer G' u k r.
Proof.
  intros u k st s G U K [L S FR]. pose proof VLEN as V. destruct (REC u k st G U ltac:(lia) K) as (r & st' & G' & E & L' & X & A).
  { split; [apply L|]. intros w0 W0 N0. apply L; lia. }
  exists r, st', G'. split; [exact E|]. split; [constructor; [apply (low_after v u st st' G G' U (Nat.lt_le_incl _ _ V) L L' X)| |]|split; [apply X|split; [|exact A]]].
  - rewrite (proj1 (proj1 X v U)). exact S.
  - intros n N. destruct (proj1 X n) as (X1 & X2); [lia|]. rewrite X1, X2. apply FR, N.
  - apply (proj1 X v U).
Qed.
Lemma here_upd : forall st s G f, here st s G -> exists st', upd st v f = Some st' /\ here st' (f s) G.
Proof.
  intros st s G f [L S FR]. assert (B : v < length st) by (apply nth_error_Some; congruence). destruct (upd_total _ st v f B) as (st' & E). exists st'. split; [exact E|].
  pose proof (fun j => upd_nth _ _ _ _ _ j E) as N. constructor.
  - split; [rewrite (upd_length _ _ _ _ _ E); apply L|]. intros w0 W0 LN. destruct (proj2 L w0 W0 LN) as (s0 & nd0 & S0 & N0 & I). exists s0, nd0. split; [|split; assumption].
    rewrite (N w0). destruct (Nat.eqb_spec v w0); [lia|exact S0].
  - rewrite (N v), Nat.eqb_refl, S. reflexivity.
  - intros n LT. rewrite (N n). destruct (Nat.eqb_spec v n); [lia|]. apply FR, LT.
Qed.

(** What is known of the antecedents asked for: they exist already, or the
    first is asked for. *)
Definition avail (G : ranks) (t x : nat) : Prop := x < length (G t) \/ (x = 0 /\ exists s, derives g t s).
Lemma answer_some : forall G G' t x r, Gext G G' -> avail G t x -> answer G' t x r -> exists s d, nth_error (G' t) x = Some s /\ r = Some (d, yld s) /\ score d = wt s.
Proof.
  intros G G' t x r E A H. unfold answer in H. destruct (nth_error (G' t) x) as [s|] eqn:Q; [destruct H as (d & H1 & H2); exists s, d; auto|exfalso].
  apply nth_error_None in Q. destruct A as [A|(-> & s & S)]; [pose proof (Gext_len G G' t E); lia|]. destruct H as (_ & C). destruct (C s S) as (t' & I & _). destruct (G' t); [contradiction|cbn in Q; lia].
Qed.
Lemma create_loop_ok : forall ts js sc st s G, Forall2 (fun t x => t < v /\ okk x /\ avail G t x) ts js -> here st s G ->
  exists st' G' ss, create_loop times rec ts js sc st = Some (Some (fold_left (fun a s => times a (wt s)) ss sc), st') /\ here st' s G' /\ Gext G G' /\ G' v = G v /\ picks G' ts js ss.
Proof.
  intros ts js sc st s G H. revert js sc st G H. induction ts as [|t ts IH]; intros js sc st G H HE; inversion H as [|? x ? js' (U & K & A) H']; subst.
  - exists st, G, []. cbn. split; [reflexivity|]. split; [exact HE|]. split; [apply Gext_refl|]. split; [reflexivity|constructor].
  - destruct (rec_here t x st s G U K HE) as (r & st1 & G1 & E & HE1 & X1 & GV1 & AN). destruct (answer_some G G1 t x r X1 A AN) as (s1 & d & N1 & -> & SC).
    destruct (IH js' (times sc (score d)) st1 G1) as (st2 & G2 & ss & E2 & HE2 & X2 & GV2 & PK).
    + clear - H' X1. induction H' as [|a b l l' (B1 & B2 & B3) H' IH]; constructor; [|exact IH]. split; [exact B1|]. split; [exact B2|].
      destruct B3 as [B3|B3]; [left|right; exact B3]. pose proof (Gext_len G G1 a X1). lia.
    + exact HE1.
    + exists st2, G2, (s1 :: ss). cbn [create_loop]. rewrite E, E2, SC. split; [reflexivity|]. split; [exact HE2|]. split; [apply (Gext_trans _ _ _ X1 X2)|]. split; [congruence|].
      constructor; [apply (Gext_nth _ _ _ _ _ X2 N1)|exact PK].
Qed.
Lemma create_ok : forall e ed js st s G, In e (in_edges nd) -> nth_error (edges g) e = Some ed -> Forall2 (fun t x => okk x /\ avail G t x) (tails ed) js -> here st s G ->
  exists st' G' d t, create times w rec e ed js st = Some (Some d, st') /\ here st' s G' /\ Gext G G' /\ G' v = G v /\ key d = (e, js) /\ entry G' nd d t.
Proof.
  intros e ed js st s G I E H HE.
  destruct (create_loop_ok (tails ed) js (w ed) st s G) as (st' & G' & ss & C & HE' & X & GV & PK); [|exact HE|].
  - assert (B : forall t, In t (tails ed) -> t < v) by (intros t T; apply (tail_below v nd ND e ed t I E T)).
    clear - H B. induction H as [|a b l l' (B1 & B2) H IH]; constructor; [|apply IH; intros; apply B; right; assumption]. split; [apply B; left; reflexivity|auto].
  - unfold create. rewrite C. do 2 eexists. eexists {| de := e; dj := js; score := _ |}, (Tree e ss). split; [reflexivity|]. split; [exact HE'|]. split; [exact X|]. split; [exact GV|]. split; [reflexivity|].
    exists ed, ss. cbn [de dj score]. repeat split; try assumption. cbn [tree_weight]. unfold edge_weight. rewrite E. reflexivity.
Qed.
Lemma yields_ok : forall ts js ss, forall G0, picks G0 ts js ss -> (forall t, In t ts -> t < v) -> Forall okk js -> forall st s G, Gext G0 G -> here st s G ->
  exists st' G', yields rec ts js st = Some (map yld ss, st') /\ here st' s G' /\ Gext G G' /\ G' v = G v.
Proof.
  intros ts js ss G0 PK. induction PK as [|t x s0 ts js ss N PK IH]; intros B K st s G X0 HE.
  - exists st, G. cbn. split; [reflexivity|]. split; [exact HE|]. split; [apply Gext_refl|reflexivity].
  - inversion K as [|? ? K1 K2]; subst.
    destruct (rec_here t x st s G (B t (or_introl eq_refl)) K1 HE) as (r & st1 & G1 & E & HE1 & X1 & GV1 & AN).
    pose proof (Gext_nth _ _ _ _ _ (Gext_trans _ _ _ X0 X1) N) as N1. unfold answer in AN. rewrite N1 in AN. destruct AN as (d & -> & _).
    destruct (IH (fun t T => B t (or_intror T)) K2 st1 s G1 (Gext_trans _ _ _ X0 X1) HE1) as (st2 & G2 & E2 & HE2 & X2 & GV2).
    exists st2, G2. cbn [yields map]. rewrite E, E2. split; [reflexivity|]. split; [exact HE2|]. split; [apply (Gext_trans _ _ _ X1 X2)|congruence].
Qed.

(** ** LazyNext *)
Lemma NI_push : forall G s pl drop open c t, NI G v nd s pl drop open -> entry G nd c t -> ~ In (key c) (dset s) -> 0 < total (dj c) ->
  (forall p, In p pl -> le (score c) (score p)) -> (uniq = false -> total (dj c) <= length (D s)) ->
  NI G v nd (push_cand hpush c s) pl drop open.
Proof.
  intros G s pl drop open c t N E ND' T O U.
  pose proof (h_push _ _ _ _ _ HEAP (cands s) c (n_heap _ _ _ _ _ _ _ N)) as (HH & PM).
  assert (PM2 : Permutation (hpush (cands s) c ++ pl) (c :: cands s ++ pl)) by (rewrite PM; reflexivity).
  assert (IN : forall x, In x (hpush (cands s) c ++ pl) <-> c = x \/ In x (cands s ++ pl)).
  { intros x. split; intros X; [apply (Permutation_in _ PM2 X)|apply (Permutation_in _ (Permutation_sym PM2) X)]. }
  assert (INK : forall x, In x (map key (hpush (cands s) c ++ pl)) <-> key c = x \/ In x (map key (cands s ++ pl))).
  { intros x. rewrite !in_map_iff. split.
    - intros (y & Q & Y1). apply IN in Y1. destruct Y1 as [<-|Y1]; [left; exact Q|right; eauto].
    - intros [Q|(y & Q & Y1)]; [exists c; split; [exact Q|apply IN; left; reflexivity]|exists y; split; [exact Q|apply IN; right; exact Y1]]. }
  destruct N. constructor; cbn [push_cand cands D dset filt]; try assumption.
  - intros d I. apply IN in I. destruct I as [<-|I]; [eauto|apply n_ent0, I].
  - apply (Permutation_NoDup (Permutation_sym (Permutation_map key PM2))). cbn [map]. constructor; [|exact n_nodup0].
    intros X. apply ND'. apply n_ds0. split; [exact X|exact T].
  - intros e ed I Ee. rewrite INK. destruct (n_root0 e ed I Ee) as [X|X]; auto.
  - intros k. rewrite INK. cbn [In]. rewrite n_ds0. change (de c, dj c) with (key c). split.
    + intros [<-|(A & B)]; [split; [left; reflexivity|exact T]|split; [right; exact A|exact B]].
    + intros ([A|A] & B); [left; exact A|right; split; assumption].
  - intros p I. destruct (n_closed0 p I) as [X|X]; [left; exact X|right]. intros i ed u x A B C. destruct (X i ed u x A B C) as [Y1|Y1]; [left; right; exact Y1|right; exact Y1].
  - intros p c' I C. apply (Permutation_in _ PM) in C. destruct C as [<-|C]; [apply O, I|apply n_order0; assumption].
  - intros UF. destruct (n_nf0 UF) as (A & B & C). split; [exact A|]. split; [|exact C]. intros d I. apply (Permutation_in _ PM) in I. destruct I as [<-|I]; [apply U, UF|apply B, I].
  - destruct n_drop0 as [X|(X & R & R1 & R2 & R3 & R4)]; [left; exact X|right; split; [exact X|]]. exists R. split; [exact R1|]. split; [exact R2|]. split; [|exact R4]. intros r I. apply IN. right. apply R3, I.
Qed.
Lemma closed_push : forall G s c d i, closed_at G s d i -> closed_at G (push_cand hpush c s) d i.
Proof. intros G s c d i H ed t x A B C. destruct (H ed t x A B C) as [X|X]; [left; right; exact X|right; exact X]. Qed.

Lemma next_loop_ok : forall e ed d drop open, In e (in_edges nd) -> nth_error (edges g) e = Some ed -> de d = e ->
  forall is, (forall i, In i is -> i < length (dj d)) -> forall st s G pl, here st s G -> NI G v nd s pl drop open -> In d pl ->
  (uniq = false -> S (total (dj d)) <= length (D s) < k_prime) ->
  ((forall p, In p pl -> le (score d) (score p)) \/ closed G s d) ->
  exists st' s' G', next_loop times w hpush rec v e ed (dj d) is st = Some st' /\ here st' s' G' /\ Gext G G' /\ G' v = G v /\ D s' = D s /\
    NI G' v nd s' pl drop open /\ (forall i, In i is -> closed_at G' s' d i) /\ (forall i, closed_at G s d i -> closed_at G' s' d i).
Proof.
  intros e ed d drop open Ie Ee Ed. induction is as [|i is IH]; intros LI st s G pl HE N ID NF OC.
  - exists st, s, G. cbn. split; [reflexivity|]. split; [exact HE|]. split; [apply Gext_refl|]. split; [reflexivity|]. split; [reflexivity|]. split; [exact N|]. split; [contradiction|auto].
  - pose proof (LI i (or_introl eq_refl)) as Li. cbn [next_loop].
    destruct (n_ent _ _ _ _ _ _ _ N d) as (td & TD); [apply in_app_iff; right; exact ID|].
    pose proof TD as (ed' & ss & Q & _ & E' & PK & SCd). rewrite Ed, Ee in E'. injection E' as <-.
    destruct (picks_len _ _ _ _ PK) as (L1 & L2).
    destruct (nth_error (dj d) i) as [x|] eqn:X; [|apply nth_error_None in X; lia]. destruct (nth_len _ (tails ed) i x L1 X) as (u & U). rewrite U.
    rewrite incr_nth, Nat.eqb_refl, X. cbn [option_map].
    assert (UV : u < v) by (apply (tail_below v nd ND e ed u Ie Ee (nth_error_In _ _ U))).
    assert (TI : total (incr i (dj d)) = S (total (dj d))) by (apply total_incr, Li).
    assert (OK : forall k y, nth_error (incr i (dj d)) k = Some y -> okk y).
    { intros k y K. unfold okk. destruct uniq eqn:UQ; [left; reflexivity|right]. apply nth_total in K. rewrite TI in K. specialize (NF eq_refl). lia. }
    destruct (rec_here u (S x) st s G UV) as (r & st1 & G1 & E1 & HE1 & X1 & GV1 & AN1); [apply (OK i); rewrite incr_nth, Nat.eqb_refl, X; reflexivity|exact HE|]. rewrite E1.
    pose proof (NI_ext v nd ND G G1 s pl drop open X1 GV1 (here_RK _ _ _ HE1) N) as N1.
    assert (CL1 : forall k, closed_at G s d k -> closed_at G1 s d k).
    { intros k. apply (closed_ext v nd ND G); [exact X1|apply (here_RK _ _ _ HE1)|rewrite Ed; exact Ie]. }
    assert (OC1 : (forall p, In p pl -> le (score d) (score p)) \/ closed G1 s d) by (destruct OC as [OC|OC]; [left; exact OC|right; intros k; apply CL1, OC]).
    (* finishing with state s1 in which i is closed *)
    assert (FIN : forall st2 s2 G2, here st2 s2 G2 -> Gext G G2 -> G2 v = G v -> D s2 = D s -> NI G2 v nd s2 pl drop open -> closed_at G2 s2 d i ->
      (forall k, closed_at G s d k -> closed_at G2 s2 d k) ->
      exists st' s' G', next_loop times w hpush rec v e ed (dj d) is st2 = Some st' /\ here st' s' G' /\ Gext G G' /\ G' v = G v /\ D s' = D s /\
        NI G' v nd s' pl drop open /\ (forall k, In k (i :: is) -> closed_at G' s' d k) /\ (forall k, closed_at G s d k -> closed_at G' s' d k)).
    { intros st2 s2 G2 H2 X2 V2 D2 N2 C2 CC.
      destruct (IH (fun k K => LI k (or_intror K)) st2 s2 G2 pl H2 N2 ID) as (st' & s' & G' & A1 & A2 & A3 & A4 & A5 & A6 & A7 & A8).
      - rewrite D2. exact NF.
      - destruct OC as [OC|OC]; [left; exact OC|right; intros k; apply CC, OC].
      - exists st', s', G'. split; [exact A1|]. split; [exact A2|]. split; [apply (Gext_trans _ _ _ X2 A3)|]. split; [congruence|]. split; [congruence|]. split; [exact A6|]. split.
        + intros k [<-|K]; [apply A8, C2|apply A7, K].
        + intros k K. apply A8, CC, K. }
    destruct r as [[ant ya]|].
    + (* the antecedent exists *)
      assert (NX : exists s0, nth_error (G1 u) (S x) = Some s0).
      { unfold answer in AN1. destruct (nth_error (G1 u) (S x)) as [s0|]; [eauto|]. destruct AN1 as (AN1 & _). discriminate. }
      destruct NX as (s0 & NX). rewrite (h_at _ _ _ HE1). destruct (mem (e, incr i (dj d)) (dset s)) eqn:M.
      * apply (FIN st1 s G1); auto. intros ed2 u2 x2 _ _ _. left. rewrite Ed. apply mem_in, M.
      * apply mem_out in M.
        destruct (create_ok e ed (incr i (dj d)) st1 s G1 Ie Ee) as (st2 & G2 & c & t & E2 & HE2 & X2 & GV2 & KC & EN); [|exact HE1|].
        { apply Forall2_index; [rewrite incr_length; lia|]. intros k a b A B. split; [apply (OK k b B)|]. left. rewrite incr_nth in B. destruct (Nat.eqb_spec i k) as [->|NE].
          - rewrite X in B. injection B as <-. rewrite U in A. injection A as <-. apply nth_error_Some. congruence.
          - destruct (nth_len _ ss k a (eq_sym L2) A) as (sk & SK). pose proof (picks_nth _ _ _ _ PK k a b sk A B SK) as PN.
            apply nth_error_Some. rewrite (Gext_nth _ _ _ _ _ X1 PN). discriminate. }
        rewrite E2. destruct (here_upd st2 s G2 (push_cand hpush c) HE2) as (st3 & E3 & HE3). rewrite E3.
        pose proof (NI_ext v nd ND G1 G2 s pl drop open X2 GV2 (here_RK _ _ _ HE2) N1) as N2.
        assert (KD : de c = e /\ dj c = incr i (dj d)) by (unfold key in KC; split; congruence).
        assert (CL2 : forall k, closed_at G s d k -> closed_at G2 (push_cand hpush c s) d k).
        { intros k K. apply closed_push. apply (closed_ext v nd ND G1); [exact X2|apply (here_RK _ _ _ HE2)|rewrite Ed; exact Ie|apply CL1, K]. }
        (* the new object is not better than the old one *)
        assert (LE : le (score c) (score d)).
        { destruct EN as (edc & ssc & Qc & _ & Ec & PKc & SCc). rewrite (proj1 KD), Ee in Ec. injection Ec as <-. rewrite SCc, SCd, Qc, Q, (proj1 KD), Ed. apply wt_mono.
          rewrite (proj2 KD) in PKc. destruct (picks_len _ _ _ _ PKc) as (L3 & L4). pose proof (picks_ext _ _ _ _ _ (Gext_trans _ _ _ X1 X2) PK) as PK2.
          apply Forall2_index; [lia|]. intros k a b A B. destruct (nth_len _ (tails ed) k a L4 A) as (uk & UK).
          destruct (nth_len _ (dj d) k uk (eq_sym L1) UK) as (xk & XK). pose proof (picks_nth _ _ _ _ PK2 k uk xk b UK XK B) as Nb.
          destruct (nth_len _ (incr i (dj d)) k uk (eq_sym L3) UK) as (yk & YK). pose proof (picks_nth _ _ _ _ PKc k uk yk a UK YK A) as Na.
          rewrite incr_nth in YK. destruct (Nat.eqb_spec i k) as [->|NE].
          - rewrite XK in YK. injection YK as <-. apply (k_ord G2 uk (here_RK _ _ _ HE2 uk (tail_below v nd ND e ed uk Ie Ee (nth_error_In _ _ UK))) xk (S xk)); [lia|exact Nb|exact Na].
          - rewrite XK in YK. injection YK as <-. rewrite Na in Nb. injection Nb as <-. apply le_refl. }
        assert (N3 : NI G2 v nd (push_cand hpush c s) pl drop open).
        { apply (NI_push G2 s pl drop open c t N2 EN).
          - rewrite KC. exact M.
          - rewrite (proj2 KD), TI. lia.
          - intros p IP. destruct OC1 as [O|O]; [apply (le_trans _ _ _ LE), O, IP|exfalso].
            destruct (O i ed u x) as [O1|(_ & O2)]; [rewrite Ed; exact Ee|exact U|exact X|rewrite Ed in O1; contradiction|].
            assert (S x < length (G1 u)) by (apply nth_error_Some; congruence). lia.
          - intros UF. rewrite (proj2 KD), TI. apply NF, UF. }
        apply (FIN st3 _ G2 HE3 (Gext_trans _ _ _ X1 X2)); [congruence|reflexivity|exact N3| |exact CL2].
        intros ed2 u2 x2 _ _ _. left. left. rewrite Ed. exact KC.
    + (* there is no further antecedent *)
      apply (FIN st1 s G1); auto. intros ed2 u2 x2 A B C. right. rewrite Ed, Ee in A. injection A as <-. rewrite U in B. injection B as <-. rewrite X in C. injection C as <-.
      unfold answer in AN1. destruct (nth_error (G1 u) (S x)) as [s0|] eqn:NX; [destruct AN1 as (d0 & AN1 & _); discriminate|]. split; [apply AN1|].
      apply nth_error_None in NX. destruct (nth_len _ ss i u (eq_sym L2) U) as (sk & SK). pose proof (picks_nth _ _ _ _ PK i u x sk U X SK) as PN. apply (Gext_nth _ _ _ _ _ X1) in PN.
      assert (x < length (G1 u)) by (apply nth_error_Some; congruence). lia.
Qed.
Lemma lazy_next_ok : forall d drop open st s G pl, here st s G -> NI G v nd s pl drop open -> In d pl -> (open = [] \/ open = [d]) ->
  (uniq = false -> S (total (dj d)) <= length (D s) < k_prime) ->
  exists st' s' G', lazy_next times w hpush g rec v d st = Some st' /\ here st' s' G' /\ Gext G G' /\ G' v = G v /\ D s' = D s /\ NI G' v nd s' pl drop [].
Proof.
  intros d drop open st s G pl HE N ID OD NF.
  destruct (n_ent _ _ _ _ _ _ _ N d) as (td & TD); [apply in_app_iff; right; exact ID|]. pose proof TD as (ed & ss & Q & Ie & Ee & PK & SCd).
  unfold lazy_next. rewrite Ee.
  destruct (next_loop_ok (de d) ed d drop open Ie Ee eq_refl (seq 0 (length (dj d))) (fun i I => proj2 (proj1 (in_seq _ _ _) I)) st s G pl HE N ID NF) as (st' & s' & G' & A1 & A2 & A3 & A4 & A5 & A6 & A7 & A8).
  - destruct OD as [->| ->].
    + right. destruct (n_closed _ _ _ _ _ _ _ N d ID) as [[]|C]. exact C.
    + left. destruct (n_open _ _ _ _ _ _ _ N) as [O|(d' & O & _ & O2)]; [discriminate|]. injection O as <-. exact O2.
  - exists st', s', G'. split; [exact A1|]. split; [exact A2|]. split; [exact A3|]. split; [exact A4|]. split; [exact A5|]. destruct A6. constructor; auto.
    intros p IP. right. destruct (n_closed0 p IP) as [X|X]; [|exact X]. destruct OD as [->| ->]; [destruct X|]. destruct X as [<-|[]]. intros i ed2 u x B1 B2 B3.
    refine (A7 i _ ed2 u x B1 B2 B3). apply in_seq. assert (i < length (dj d)) by (apply nth_error_Some; congruence). lia.
Qed.

(** ** Popping *)
Lemma drop_cand : forall G s pl drop open, NI G v nd s pl drop open -> (uniq = false -> length (D s) < k_prime) ->
  forall t, derives g v t -> In (root_edge t) drop -> exists c, In c (cands s) /\ le (wt t) (score c).
Proof.
  intros G s pl drop open N NF t DT I. destruct (n_drop _ _ _ _ _ _ _ N) as [->|(UF & R & R1 & R2 & R3 & R4)]; [destruct I|].
  destruct (n_nf _ _ _ _ _ _ _ N UF) as (LP & _). specialize (NF UF).
  assert (X : Forall (fun r => In (key r) (map key pl)) R \/ Exists (fun r => ~ In (key r) (map key pl)) R).
  { destruct (Forall_Exists_dec (fun r => In (key r) (map key pl))) with (l := R) as [A|A]; [|left; exact A|right; exact A].
    intros r. destruct (mem (key r) (map key pl)) eqn:M; [left; apply mem_in, M|right; apply mem_out, M]. }
  destruct X as [X|X].
  - exfalso. assert (L : length (map key R) <= length (map key pl)).
    { apply NoDup_incl_length; [exact R1|]. intros k K. apply in_map_iff in K. destruct K as (r & <- & IR). rewrite Forall_forall in X. apply X, IR. }
    rewrite !map_length in L. lia.
  - apply Exists_exists in X. destruct X as (r & IR & NI'). exists r. split; [|apply R4; assumption]. specialize (R3 r IR). apply in_app_iff in R3. destruct R3 as [R3|R3]; [exact R3|].
    exfalso. apply NI', in_map, R3.
Qed.
Lemma pop_best : forall G s pl drop d rest, NI G v nd s pl drop [] -> (forall u, u < v -> RK G u) -> (uniq = false -> length (D s) < k_prime) ->
  Permutation (cands s) (d :: rest) -> (forall x, In x rest -> le (score x) (score d)) ->
  forall t, derives g v t -> rep (G v) t \/ le (wt t) (score d).
Proof.
  intros G s pl drop d rest N R NF PM MX t DT.
  assert (MX' : forall c, In c (cands s) -> le (score c) (score d)).
  { intros c C. apply (Permutation_in _ PM) in C. destruct C as [<-|C]; [apply le_refl|apply MX, C]. }
  destruct (cover_all v nd ND G s pl drop [] N R t DT) as [X|[(c & C & L)|[(p & [] & _)|X]]]; [left; exact X|right; apply (le_trans _ _ _ L), MX', C|].
  destruct (drop_cand _ _ _ _ _ N NF t DT X) as (c & C & L). right. apply (le_trans _ _ _ L), MX', C.
Qed.
Lemma done_complete : forall G s pl drop, NI G v nd s pl drop [] -> (forall u, u < v -> RK G u) -> (uniq = false -> length (D s) < k_prime) -> cands s = [] -> complete G v.
Proof.
  intros G s pl drop N R NF C t DT. destruct (cover_all v nd ND G s pl drop [] N R t DT) as [X|[(c & X & _)|[(p & [] & _)|X]]]; [exact X|rewrite C in X; destruct X|].
  destruct (drop_cand _ _ _ _ _ N NF t DT X) as (c & I & _). rewrite C in I. destruct I.
Qed.
Definition Gpush (G : ranks) (t : tree) : ranks := fun u => if u =? v then G u ++ [t] else G u.
Lemma Gpush_ext : forall G t, Gext G (Gpush G t).
Proof. intros G t u. unfold Gpush. destruct (u =? v); [exists [t]; reflexivity|exists []; rewrite app_nil_r; reflexivity]. Qed.
Lemma Gpush_v : forall G t, Gpush G t v = G v ++ [t].
Proof. intros G t. unfold Gpush. rewrite Nat.eqb_refl. reflexivity. Qed.
Lemma Gpush_o : forall G t u, u <> v -> Gpush G t u = G u.
Proof. intros G t u U. unfold Gpush. destruct (Nat.eqb_spec u v); [contradiction|reflexivity]. Qed.
Lemma here_Gpush : forall st s G t, here st s G -> here st s (Gpush G t).
Proof.
  intros st s G t [L S FR]. constructor; [|exact S|intros n N; rewrite Gpush_o by lia; apply FR, N]. split; [apply L|]. intros w0 W0 LN.
  destruct (proj2 L w0 W0 LN) as (s0 & nd0 & S0 & N0 & I). exists s0, nd0. split; [exact S0|]. split; [exact N0|].
  apply (Inv_at_ext w0 nd0 N0 G); [apply Gpush_ext|apply Gpush_o; lia| |exact I]. intros u U. apply (RK_eq G); [apply Gpush_o; lia|]. apply (low_RK v st G L); lia.
Qed.
Lemma pop_perm : forall (s : nstate W Y) pl d rest, Permutation (cands s) (d :: rest) -> Permutation (rest ++ d :: pl) (cands s ++ pl).
Proof. intros s pl d rest PM. rewrite PM. rewrite <- Permutation_middle. reflexivity. Qed.
Lemma pop_facts : forall G s pl drop d rest t, NI G v nd s pl drop [] -> Permutation (cands s) (d :: rest) -> entry G nd d t ->
  (forall u, u < v -> RK G u) -> forall t', In t' (G v) -> exists d', In d' pl /\ entry G nd d' t' /\ le (wt t) (wt t') /\ t' <> t.
Proof.
  intros G s pl drop d rest t N PM E R t' I. apply In_nth_error in I. destruct I as (i & I).
  destruct (nth_len (G v) (D s) i t' (eq_sym (Forall2_length (n_D _ _ _ _ _ _ _ N))) I) as ((d' & y) & DI).
  destruct (Forall2_nth _ _ _ i _ _ (n_D _ _ _ _ _ _ _ N) DI I) as (E' & _). cbn [fst] in E'.
  assert (IP : In d' pl) by (apply (n_pl _ _ _ _ _ _ _ N (d', y)), (nth_error_In _ _ DI)).
  exists d'. split; [exact IP|]. split; [exact E'|].
  assert (IC : In d (cands s)) by (apply (Permutation_in _ (Permutation_sym PM)); left; reflexivity).
  split.
  - pose proof (n_order _ _ _ _ _ _ _ N d' d IP IC) as O. destruct E as (? & ? & _ & _ & _ & _ & SC). destruct E' as (? & ? & _ & _ & _ & _ & SC'). rewrite SC, SC' in O. exact O.
  - intros ->. pose proof (entry_inj v nd ND G d d' t R E E') as K. pose proof (n_nodup _ _ _ _ _ _ _ N) as NDK.
    apply (Permutation_NoDup (Permutation_map key (Permutation_sym (pop_perm s pl d rest PM)))) in NDK. rewrite map_app in NDK. cbn [map] in NDK. apply NoDup_remove_2 in NDK. apply NDK.
    rewrite K. apply in_app_iff. right. apply in_map, IP.
Qed.
Lemma NI_keep : forall G s pl drop d rest t, NI G v nd s pl drop [] -> (forall u, u < v -> RK G u) -> (uniq = false -> length (D s) < k_prime) ->
  Permutation (cands s) (d :: rest) -> isheap rest -> (forall x, In x rest -> le (score x) (score d)) -> entry G nd d t ->
  (uniq = true -> ~ In (yld t) (filt s)) ->
  NI (Gpush G t) v nd (push_D (d, yld t) (if uniq then add_filt (yld t) (set_cands rest s) else set_cands rest s)) (d :: pl) drop [d].
Proof.
  intros G s pl drop d rest t N R NF PM HR MX E NU.
  pose proof (pop_best G s pl drop d rest N R NF PM MX) as BEST. pose proof (pop_facts G s pl drop d rest t N PM E R) as PF. pose proof (pop_perm s pl d rest PM) as PP.
  assert (SC : score d = wt t) by (destruct E as (? & ? & _ & _ & _ & _ & X); exact X).
  assert (IN : forall x, In x (rest ++ d :: pl) <-> In x (cands s ++ pl)) by (intros x; split; apply Permutation_in; [exact PP|symmetry; exact PP]).
  assert (INK : forall x, In x (map key (rest ++ d :: pl)) <-> In x (map key (cands s ++ pl))).
  { intros x. split; apply Permutation_in; apply Permutation_map; [exact PP|symmetry; exact PP]. }
  assert (IC : forall c, In c (cands s) <-> d = c \/ In c rest) by (intros c; split; intros X; [apply (Permutation_in _ PM X)|apply (Permutation_in _ (Permutation_sym PM) X)]).
  set (s' := push_D _ _).
  assert (S1 : cands s' = rest) by (unfold s'; destruct uniq; reflexivity). assert (S2 : D s' = D s ++ [(d, yld t)]) by (unfold s'; destruct uniq; reflexivity).
  assert (S3 : dset s' = dset s) by (unfold s'; destruct uniq; reflexivity). assert (S4 : uniq = true -> filt s' = yld t :: filt s) by (unfold s'; intros ->; reflexivity).
  clearbody s'. assert (DT : derives g v t) by (apply (entry_der v nd ND G d t R E)).
  pose proof (Gpush_ext G t) as GX.
  assert (EI : forall p, In p pl -> In (de p) (in_edges nd)).
  { intros p I. destruct (n_ent _ _ _ _ _ _ _ N p) as (t0 & ed & ss & _ & X & _); [apply in_app_iff; right; exact I|exact X]. }
  assert (NC : forall t', In t' (G v) -> ~ cls t' t).
  { intros t' I C. destruct (PF t' I) as (d' & _ & _ & _ & NE). unfold cls in C. destruct uniq eqn:UQ; [|exact (NE C)].
    apply (NU eq_refl). apply (n_filt _ _ _ _ _ _ _ N UQ). rewrite <- C. apply in_map, I. }
  constructor; rewrite ?Gpush_v, ?S1, ?S2, ?S3.
  - destruct (n_rk _ _ _ _ _ _ _ N) as [K1 K2 K3]. constructor; rewrite Gpush_v.
    + intros t' I. apply in_app_iff in I. destruct I as [I|[<-|[]]]; [apply K1, I|exact DT].
    + intros i j a b L A B. assert (LB : j < length (G v ++ [t])) by (apply nth_error_Some; congruence). rewrite app_length in LB. cbn in LB.
      rewrite nth_error_app1 in A by lia. destruct (Nat.eq_dec j (length (G v))) as [->|NE].
      * rewrite nth_error_app2, Nat.sub_diag in B by lia. injection B as <-. apply nth_error_In in A. destruct (PF a A) as (d' & _ & _ & LE & _). split; [exact LE|apply NC, A].
      * rewrite nth_error_app1 in B by lia. apply (K2 i j a b L A B).
    + intros i t' s0 A DS. assert (LB : i < length (G v ++ [t])) by (apply nth_error_Some; congruence). rewrite app_length in LB. cbn in LB.
      rewrite firstn_app. replace (i - length (G v)) with 0 by lia. cbn [firstn]. rewrite app_nil_r. destruct (Nat.eq_dec i (length (G v))) as [->|NE].
      * rewrite nth_error_app2, Nat.sub_diag in A by lia. injection A as <-. rewrite firstn_all. rewrite <- SC. apply BEST, DS.
      * rewrite nth_error_app1 in A by lia. apply (K3 i t' s0 A DS).
  - apply Forall2_app; [|constructor; [|constructor]].
    + pose proof (n_D _ _ _ _ _ _ _ N) as X. clear - X GX. induction X as [|dy t0 l l' (A & B) X IH]; constructor; [|exact IH]. split; [apply (entry_ext _ _ _ _ _ GX A)|exact B].
    + cbn. split; [apply (entry_ext _ _ _ _ _ GX E)|reflexivity].
  - intros x I. apply IN in I. destruct (n_ent _ _ _ _ _ _ _ N x I) as (t0 & T0). exists t0. apply (entry_ext _ _ _ _ _ GX T0).
  - apply (Permutation_NoDup (Permutation_map key (Permutation_sym PP))), N.
  - intros e ed I Ee. rewrite INK. apply (n_root _ _ _ _ _ _ _ N e ed I Ee).
  - intros k. rewrite INK. apply (n_ds _ _ _ _ _ _ _ N).
  - intros p [<-|I]; [left; left; reflexivity|right]. destruct (n_closed _ _ _ _ _ _ _ N p I) as [[]|C].
    intros i ed u x A B X. rewrite S3. pose proof (tail_below v nd ND (de p) ed u (EI p I) A (nth_error_In _ _ B)) as UV.
    destruct (C i ed u x A B X) as [Z|(Z1 & Z2)]; [left; exact Z|right]. split; [intros s0 DS; rewrite Gpush_o by lia; apply Z1, DS|rewrite Gpush_o by lia; exact Z2].
  - right. exists d. split; [reflexivity|]. split; [left; reflexivity|]. intros p [<-|I]; [apply le_refl|]. apply (n_order _ _ _ _ _ _ _ N p d I). apply IC. left. reflexivity.
  - intros p c [<-|I] C; [apply MX, C|]. apply (n_order _ _ _ _ _ _ _ N p c I). apply IC. right. exact C.
  - intros UQ y. rewrite (S4 UQ), map_app, in_app_iff. cbn [In map]. rewrite (n_filt _ _ _ _ _ _ _ N UQ y). tauto.
  - intros p t0 [<-|I] T0.
    + rewrite (entry_fun _ _ _ _ _ T0 (entry_ext _ _ _ _ _ GX E)). exists t. split; [apply in_app_iff; right; left; reflexivity|]. split; [apply cls_refl|apply le_refl].
    + apply (rep_mono (G v)); [intros z Z; apply in_app_iff; left; exact Z|]. apply (n_repr _ _ _ _ _ _ _ N p t0 I). apply (entry_back G (Gpush G t)); [exact GX| |exact T0]. apply (n_ent _ _ _ _ _ _ _ N), in_app_iff. right. exact I.
  - intros dy I. apply in_app_iff in I. destruct I as [I|[<-|[]]]; [right; apply (n_pl _ _ _ _ _ _ _ N), I|left; reflexivity].
  - intros UF. destruct (n_nf _ _ _ _ _ _ _ N UF) as (A & B & C). rewrite app_length. cbn [length]. split; [lia|]. split.
    + intros x X. specialize (B x). rewrite IC in B. specialize (B (or_intror X)). lia.
    + intros i dy X. assert (LB : i < length (D s ++ [(d, yld t)])) by (apply nth_error_Some; congruence). rewrite app_length in LB. cbn in LB. destruct (Nat.eq_dec i (length (D s))) as [->|NE].
      * rewrite nth_error_app2, Nat.sub_diag in X by lia. injection X as <-. cbn. apply B, IC. left. reflexivity.
      * rewrite nth_error_app1 in X by lia. apply (C i dy X).
  - destruct (n_drop _ _ _ _ _ _ _ N) as [X|(X & R0 & R1 & R2 & R3 & R4)]; [left; exact X|right; split; [exact X|]]. exists R0. split; [exact R1|]. split; [exact R2|]. split; [|exact R4]. intros r I. apply IN, R3, I.
  - exact HR.
Qed.
Lemma NI_filter : forall G s pl drop d rest t, NI G v nd s pl drop [] -> (forall u, u < v -> RK G u) -> uniq = true ->
  Permutation (cands s) (d :: rest) -> isheap rest -> (forall x, In x rest -> le (score x) (score d)) -> entry G nd d t -> In (yld t) (filt s) ->
  NI G v nd (set_cands rest s) (d :: pl) drop [d].
Proof.
  intros G s pl drop d rest t N R UQ PM HR MX E NU.
  pose proof (pop_facts G s pl drop d rest t N PM E R) as PF. pose proof (pop_perm s pl d rest PM) as PP.
  assert (IN : forall x, In x (rest ++ d :: pl) <-> In x (cands s ++ pl)) by (intros x; split; apply Permutation_in; [exact PP|symmetry; exact PP]).
  assert (INK : forall x, In x (map key (rest ++ d :: pl)) <-> In x (map key (cands s ++ pl))).
  { intros x. split; apply Permutation_in; apply Permutation_map; [exact PP|symmetry; exact PP]. }
  assert (IC : forall c, In c (cands s) <-> d = c \/ In c rest) by (intros c; split; intros X; [apply (Permutation_in _ PM X)|apply (Permutation_in _ (Permutation_sym PM) X)]).
  constructor; cbn [set_cands cands D dset filt].
  - apply N.
  - apply N.
  - intros x I. apply (n_ent _ _ _ _ _ _ _ N), IN, I.
  - apply (Permutation_NoDup (Permutation_map key (Permutation_sym PP))), N.
  - intros e ed I Ee. rewrite INK. apply (n_root _ _ _ _ _ _ _ N e ed I Ee).
  - intros k. rewrite INK. apply (n_ds _ _ _ _ _ _ _ N).
  - intros p [<-|I]; [left; left; reflexivity|right]. destruct (n_closed _ _ _ _ _ _ _ N p I) as [[]|C]. exact C.
  - right. exists d. split; [reflexivity|]. split; [left; reflexivity|]. intros p [<-|I]; [apply le_refl|]. apply (n_order _ _ _ _ _ _ _ N p d I). apply IC. left. reflexivity.
  - intros p c [<-|I] C; [apply MX, C|]. apply (n_order _ _ _ _ _ _ _ N p c I). apply IC. right. exact C.
  - apply N.
  - intros p t0 [<-|I] T0.
    + rewrite (entry_fun _ _ _ _ _ T0 E). apply (n_filt _ _ _ _ _ _ _ N UQ) in NU. apply in_map_iff in NU. destruct NU as (t' & Y' & I'). exists t'. split; [exact I'|]. split; [unfold cls; rewrite UQ; auto|].
      destruct (PF t' I') as (_ & _ & _ & L & _). exact L.
    + apply (n_repr _ _ _ _ _ _ _ N p t0 I T0).
  - intros dy I. right. apply (n_pl _ _ _ _ _ _ _ N), I.
  - intros UF. congruence.
  - destruct (n_drop _ _ _ _ _ _ _ N) as [X|(X & _)]; [left; exact X|congruence].
  - exact HR.
Qed.

Lemma inner_ok : forall drop fuel st s G pl, here st s G -> NI G v nd s pl drop [] -> F <= fuel + length pl -> (uniq = false -> length (D s) < k_prime) ->
  exists b st' s' G' pl', inner times w traverse eqY uniq hpop hpush g rec fuel v st = Some (b, st') /\ here st' s' G' /\ Gext G G' /\
    if b then (exists d y t, D s' = D s ++ [(d, y)] /\ G' v = G v ++ [t] /\ NI G' v nd s' pl' drop [d])
    else D s' = D s /\ G' v = G v /\ cands s' = [] /\ NI G' v nd s' pl' drop [].
Proof.
  intros drop. induction fuel as [|f IH]; intros st s G pl HE N FU NF.
  { exfalso. pose proof (NI_bound v nd ND G s pl drop [] N (here_RK _ _ _ HE)). lia. }
  cbn [inner]. rewrite (h_at _ _ _ HE). destruct (cands s) as [|c0 cs0] eqn:CS.
  - exists false, st, s, G, pl. split; [reflexivity|]. split; [exact HE|]. split; [apply Gext_refl|]. auto.
  - rewrite <- CS. destruct (h_pop _ _ _ _ _ HEAP (cands s)) as (d & rest & EP & HR & PM & MX); [rewrite CS; discriminate|apply N|]. rewrite EP.
    assert (ID : In d (cands s)) by (apply (Permutation_in _ (Permutation_sym PM)); left; reflexivity).
    destruct (n_ent _ _ _ _ _ _ _ N d) as (t & T); [apply in_app_iff; left; exact ID|]. pose proof T as (ed & ss & Q & Ie & Ee & PK & SC).
    destruct (here_upd st s G (set_cands rest) HE) as (st1 & E1 & HE1). rewrite E1, Ee.
    destruct (yields_ok (tails ed) (dj d) ss G PK (fun u U => tail_below v nd ND (de d) ed u Ie Ee U)) with (st := st1) (s := set_cands rest s) (G := G) as (st2 & G2 & E2 & HE2 & X2 & GV2).
    { apply Forall_forall. intros x X. unfold okk. destruct uniq eqn:UQ; [left; reflexivity|right]. apply In_nth_error in X. destruct X as (i & X). apply nth_total in X.
      destruct (n_nf _ _ _ _ _ _ _ N UQ) as (_ & B & _). specialize (B d ID). specialize (NF eq_refl). lia. }
    { apply Gext_refl. }
    { exact HE1. }
    rewrite E2. rewrite (h_at _ _ _ HE2).
    assert (YT : traverse ed (map yld ss) = yld t) by (rewrite Q; cbn [tree_yield]; rewrite Ee; reflexivity). rewrite YT.
    pose proof (here_RK _ _ _ HE2) as R2. pose proof (NI_ext v nd ND G G2 s pl drop [] X2 GV2 R2 N) as N2. pose proof (entry_ext _ _ _ _ _ X2 T) as T2.
    destruct (uniq && existsb (eqY (yld t)) (filt (set_cands rest s))) eqn:FI.
    + apply andb_true_iff in FI. destruct FI as (UQ & FI). apply existsb_exists in FI. destruct FI as (y & YI & YE). apply EQY in YE. subst y. cbn [set_cands filt] in YI.
      pose proof (NI_filter G2 s pl drop d rest t N2 R2 UQ PM HR MX T2 YI) as N3.
      destruct (lazy_next_ok d drop [d] st2 (set_cands rest s) G2 (d :: pl) HE2 N3 (or_introl eq_refl) (or_intror eq_refl)) as (st3 & s3 & G3 & E3 & HE3 & X3 & GV3 & D3 & N4); [congruence|].
      rewrite E3. destruct (IH st3 s3 G3 (d :: pl) HE3 N4) as (b & st' & s' & G' & pl' & E' & HE' & X' & RES); [cbn; lia|congruence|].
      exists b, st', s', G', pl'. split; [exact E'|]. split; [exact HE'|]. split; [apply (Gext_trans _ _ _ X2), (Gext_trans _ _ _ X3), X'|].
      rewrite D3, GV3, GV2 in RES. exact RES.
    + assert (NU : uniq = true -> ~ In (yld t) (filt s)).
      { intros UQ I. rewrite UQ in FI. cbn in FI. assert (existsb (eqY (yld t)) (filt s) = true) by (apply existsb_exists; exists (yld t); split; [exact I|apply EQY; reflexivity]). congruence. }
      pose proof (NI_keep G2 s pl drop d rest t N2 R2 NF PM HR MX T2 NU) as N3.
      destruct (here_upd st2 (set_cands rest s) G2 (fun s => push_D (d, yld t) (if uniq then add_filt (yld t) s else s)) HE2) as (st3 & E3 & HE3). rewrite E3.
      exists true, st3. eexists. exists (Gpush G2 t), (d :: pl). split; [reflexivity|]. split; [apply here_Gpush; exact HE3|]. split; [apply (Gext_trans _ _ _ X2), Gpush_ext|].
      exists d, (yld t), t. split; [destruct uniq; reflexivity|]. split; [rewrite Gpush_v, GV2; reflexivity|exact N3].
Qed.

Lemma D_len : forall G s pl drop open, NI G v nd s pl drop open -> length (D s) = length (G v).
Proof. intros G s pl drop open N. apply (Forall2_length (n_D _ _ _ _ _ _ _ N)). Qed.
Lemma outer_ok : forall k drop, okk k -> forall fuel st s G pl open, here st s G -> NI G v nd s pl drop open -> (open = [] \/ exists d y pre, open = [d] /\ D s = pre ++ [(d, y)]) ->
  S (S k) <= fuel + length (D s) -> 0 < fuel ->
  exists st' s' G', outer times w traverse eqY uniq hpop hpush g F rec fuel v k st = Some st' /\ here st' s' G' /\ Gext G G' /\ Inv_at G' v nd s' /\ (k < length (G' v) \/ complete G' v).
Proof.
  intros k drop OK. induction fuel as [|f IH]; intros st s G pl open HE N O FU F0; [lia|]. clear F0.
  cbn [outer]. rewrite (h_at _ _ _ HE). destruct (Nat.leb_spec (length (D s)) k) as [LE|GT].
  2: { exists st, s, G. split; [reflexivity|]. split; [exact HE|]. split; [apply Gext_refl|]. split; [right; exists pl, drop, open; split; assumption|]. left. rewrite <- (D_len _ _ _ _ _ N). exact GT. }
  assert (NF : uniq = false -> length (D s) < k_prime) by (intros UF; destruct OK as [X|X]; [congruence|lia]).
  assert (NX : exists st1 s1 G1, (match rev (D s) with [] => Some st | (d, _) :: _ => lazy_next times w hpush g rec v d st end) = Some st1 /\ here st1 s1 G1 /\ Gext G G1 /\ G1 v = G v /\ D s1 = D s /\ NI G1 v nd s1 pl drop []).
  { destruct (rev (D s)) as [|(d & y) r] eqn:RV.
    - exists st, s, G. split; [reflexivity|]. split; [exact HE|]. split; [apply Gext_refl|]. split; [reflexivity|]. split; [reflexivity|].
      assert (DN : D s = []) by (rewrite <- (rev_involutive (D s)), RV; reflexivity).
      destruct O as [->|(d & y & pre & _ & Q)]; [exact N|]. rewrite DN in Q. destruct pre; discriminate.
    - assert (DN : D s = rev r ++ [(d, y)]) by (rewrite <- (rev_involutive (D s)), RV; reflexivity).
      apply (lazy_next_ok d drop open st s G pl HE N).
      + apply (n_pl _ _ _ _ _ _ _ N (d, y)). rewrite DN. apply in_app_iff. right. left. reflexivity.
      + destruct O as [->|(d' & y' & pre & -> & Q)]; [left; reflexivity|right]. rewrite DN in Q. apply app_inj_tail in Q. destruct Q as (_ & Q). congruence.
      + intros UF. split; [|apply NF, UF]. destruct (n_nf _ _ _ _ _ _ _ N UF) as (_ & _ & C). specialize (C (length (rev r)) (d, y)). rewrite DN, nth_error_app2, Nat.sub_diag in C by lia.
        specialize (C eq_refl). cbn in C. rewrite DN, app_length. cbn. lia. }
  destruct NX as (st1 & s1 & G1 & E1 & HE1 & X1 & GV1 & D1 & N1). rewrite E1.
  destruct (inner_ok drop F st1 s1 G1 pl HE1 N1) as (b & st2 & s2 & G2 & pl2 & E2 & HE2 & X2 & RES); [lia|rewrite D1; exact NF|]. rewrite E2. destruct b.
  - destruct RES as (d & y & t & D2 & GV2 & N2).
    destruct (IH st2 s2 G2 pl2 [d] HE2 N2) as (st' & s' & G' & E' & HE' & X' & I' & R').
    + right. exists d, y, (D s1). split; [reflexivity|exact D2].
    + rewrite D2, app_length, D1. cbn. lia.
    + lia.
    + exists st', s', G'. split; [exact E'|]. split; [exact HE'|]. split; [apply (Gext_trans _ _ _ X1), (Gext_trans _ _ _ X2), X'|]. split; assumption.
  - destruct RES as (D2 & GV2 & C2 & N2). exists st2, s2, G2. split; [reflexivity|]. split; [exact HE2|]. split; [apply (Gext_trans _ _ _ X1 X2)|]. split; [right; exists pl2, drop, []; split; [exact N2|left; reflexivity]|].
    right. apply (done_complete G2 s2 pl2 drop N2 (here_RK _ _ _ HE2)); [rewrite D2, D1; exact NF|exact C2].
Qed.

(** ** The initial candidates *)
Definition root_of (G : ranks) (e : nat) (d : deriv W) : Prop :=
  exists ed t, nth_error (edges g) e = Some ed /\ key d = (e, map (fun _ => 0) (tails ed)) /\ entry G nd d t.
Lemma init_loop_ok : okk 0 -> forall es, (forall e, In e es -> In e (in_edges nd)) -> forall st s G, here st s G ->
  exists st' G' cs, init_loop times w g rec v es st = Some st' /\ here st' (set_cands (cands s ++ cs) s) G' /\ Gext G G' /\ G' v = G v /\ Forall2 (root_of G') es cs.
Proof.
  intros OK. induction es as [|e es IH]; intros I st s G HE.
  - exists st, G, []. rewrite app_nil_r. split; [reflexivity|]. split; [destruct s; exact HE|]. split; [apply Gext_refl|]. split; [reflexivity|constructor].
  - pose proof (I e (or_introl eq_refl)) as Ie. destruct (proj2 (TOPO v nd ND) e Ie) as (ed & Ee & _). cbn [init_loop]. rewrite Ee.
    destruct (create_ok e ed (map (fun _ => 0) (tails ed)) st s G Ie Ee) as (st1 & G1 & d & t & E1 & HE1 & X1 & GV1 & KD & EN); [|exact HE|].
    { apply Forall2_index; [rewrite map_length; reflexivity|]. intros i a b A B. rewrite nth_error_map, A in B. injection B as <-. split; [exact OK|].
      right. split; [reflexivity|]. apply (PROD v nd e ed a ND Ie Ee (nth_error_In _ _ A)). }
    rewrite E1. destruct (here_upd st1 s G1 (add_last d) HE1) as (st2 & E2 & HE2). rewrite E2.
    destruct (IH (fun x X => I x (or_intror X)) st2 (add_last d s) G1 HE2) as (st3 & G3 & cs & E3 & HE3 & X3 & GV3 & FR).
    exists st3, G3, (d :: cs). split; [exact E3|]. split.
    + unfold add_last in HE3. unfold set_cands in *. cbn [cands D dset filt] in HE3. rewrite <- app_assoc in HE3. exact HE3.
    + split; [apply (Gext_trans _ _ _ X1 X3)|]. split; [congruence|]. constructor; [|exact FR]. exists ed, t. split; [exact Ee|]. split; [exact KD|]. apply (entry_ext _ _ _ _ _ X3 EN).
Qed.
Lemma empty_uninit : forall G s, Inv_at G v nd s -> D s = [] -> cands s = [] -> cands s = [] /\ D s = [] /\ dset s = [] /\ (uniq = true -> filt s = []) /\ G v = [].
Proof.
  intros G s [(A & B & C & E & H)|(pl & drop & open & N & _)] DN CN; [rewrite E; auto|].
  assert (GN : G v = []) by (apply length_zero_iff_nil; rewrite <- (D_len _ _ _ _ _ N), DN; reflexivity).
  assert (PN : pl = []).
  { destruct pl as [|p pl]; [reflexivity|exfalso]. destruct (n_ent _ _ _ _ _ _ _ N p) as (t & T); [apply in_app_iff; right; left; reflexivity|].
    destruct (n_repr _ _ _ _ _ _ _ N p t (or_introl eq_refl) T) as (t' & I & _). rewrite GN in I. destruct I. }
  split; [exact CN|]. split; [exact DN|]. split; [|split; [|exact GN]].
  - destruct (dset s) as [|k ks] eqn:Q; [reflexivity|exfalso]. assert (X : In k (dset s)) by (rewrite Q; left; reflexivity). apply (n_ds _ _ _ _ _ _ _ N) in X. rewrite CN, PN in X. destruct X as ([] & _).
  - intros UQ. destruct (filt s) as [|k ks] eqn:Q; [reflexivity|exfalso]. assert (X : In k (filt s)) by (rewrite Q; left; reflexivity). apply (n_filt _ _ _ _ _ _ _ N UQ) in X. rewrite GN in X. destruct X.
Qed.
Lemma get_candidates_ok : okk 0 -> forall st s G, here st s G -> Inv_at G v nd s ->
  exists st' s' G', get_candidates times w uniq hmake g k_prime rec v st = Some st' /\ here st' s' G' /\ Gext G G' /\
    exists pl drop open, NI G' v nd s' pl drop open /\ (open = [] \/ exists d y pre, open = [d] /\ D s' = pre ++ [(d, y)]).
Proof.
  intros OK st s G HE I. unfold get_candidates. rewrite (h_at _ _ _ HE), ND.
  destruct (D s) as [|x ds] eqn:DN; [destruct (cands s) as [|c cs] eqn:CN|].
  2,3: exists st, s, G; split; [reflexivity|]; split; [exact HE|]; split; [apply Gext_refl|]; destruct I as [(A & B & _)|I]; [rewrite ?CN, ?DN in *; discriminate|exact I].
  destruct (empty_uninit G s I DN CN) as (_ & _ & DS & FL & GN).
  destruct (init_loop_ok OK (in_edges nd) (fun e H => H) st s G HE) as (st1 & G1 & cs & E1 & HE1 & X1 & GV1 & FR). rewrite E1, CN in *. cbn [app] in HE1.
  destruct (here_upd st1 _ G1 (fun s => set_cands (hmake (if uniq then length (cands s) else Nat.min k_prime (length (cands s))) (cands s)) s) HE1) as (st2 & E2 & HE2).
  cbv zeta. rewrite E2. cbn [set_cands cands D dset filt] in HE2. set (n := if uniq then length cs else Nat.min k_prime (length cs)) in *.
  destruct (h_make _ _ _ _ _ HEAP n cs) as (HH & r & PM & LN & MX); [unfold n; destruct uniq; lia|]. set (kept := hmake n cs) in *.
  exists st2. eexists. exists G1. split; [reflexivity|]. split; [exact HE2|]. split; [exact X1|]. exists [], (map de r), []. split; [|left; reflexivity].
  pose proof (here_RK _ _ _ HE2) as R1.
  assert (RT : forall d, In d cs -> exists e ed t, In e (in_edges nd) /\ nth_error (edges g) e = Some ed /\ key d = (e, map (fun _ => 0) (tails ed)) /\ entry G1 nd d t).
  { intros d H. apply In_nth_error in H. destruct H as (i & H). destruct (nth_len cs (in_edges nd) i d (eq_sym (Forall2_length FR)) H) as (e & E).
    destruct (Forall2_nth _ _ _ i _ _ FR E H) as (ed & t & A & B & C). exists e, ed, t. split; [apply (nth_error_In _ _ E)|auto]. }
  assert (SUB : forall d, In d kept -> In d cs) by (intros d H; apply (Permutation_in _ (Permutation_sym PM)), in_app_iff; left; exact H).
  assert (SUBr : forall d, In d r -> In d cs) by (intros d H; apply (Permutation_in _ (Permutation_sym PM)), in_app_iff; right; exact H).
  assert (NDK : NoDup (map key cs)).
  { pose proof (proj1 (TOPO v nd ND)) as NE. clear - NE FR. induction FR as [|e d es cs (ed & t & A & B & C) FR IH]; [constructor|]. inversion NE as [|? ? N1 N2]; subst. cbn [map]. constructor; [|apply IH, N2].
    intros X. apply in_map_iff in X. destruct X as (d' & KD & ID). apply In_nth_error in ID. destruct ID as (i & ID). destruct (nth_len cs es i d' (eq_sym (Forall2_length FR)) ID) as (e' & E').
    destruct (Forall2_nth _ _ _ i _ _ FR E' ID) as (ed' & t' & A' & B' & _). rewrite B, B' in KD. injection KD as -> _. apply N1, (nth_error_In _ _ E'). }
  constructor; cbn [set_cands cands D dset filt]; rewrite ?app_nil_r, ?GV1, ?GN, ?DN, ?DS.
  - apply RK_nil. congruence.
  - constructor.
  - intros d H. destruct (RT d (SUB d H)) as (e & ed & t & _ & _ & _ & T). exists t. exact T.
  - apply (Permutation_NoDup (Permutation_map key PM)) in NDK. rewrite map_app in NDK. revert NDK. generalize (map key kept) as l1, (map key r) as l2. induction l1 as [|a l1 IH]; intros l2 H; [constructor|]. cbn in H. inversion H as [|? ? H1 H2]; subst. constructor; [|apply (IH l2 H2)]. intros X. apply H1, in_app_iff. left. exact X.
  - intros e ed H E. apply In_nth_error in H. destruct H as (i & H). destruct (nth_len _ cs i e (Forall2_length FR) H) as (d & DI). destruct (Forall2_nth _ _ _ i _ _ FR H DI) as (ed' & t & A & B & _).
    rewrite E in A. injection A as <-. apply nth_error_In in DI. apply (Permutation_in _ PM) in DI. apply in_app_iff in DI. destruct DI as [DI|DI]; [left; rewrite <- B; apply in_map, DI|right].
    replace e with (de d) by (unfold key in B; congruence). apply in_map, DI.
  - intros k. split; [contradiction|]. intros (H & T). exfalso. apply in_map_iff in H. destruct H as (d & <- & H). destruct (RT d (SUB d H)) as (e & ed & t & _ & _ & K & _). rewrite K in T. cbn [snd] in T. rewrite total_zeros in T. lia.
  - contradiction.
  - left. reflexivity.
  - contradiction.
  - intros UQ y. rewrite (FL UQ). reflexivity.
  - contradiction.
  - contradiction.
  - intros UF. split; [reflexivity|]. split; [|intros [|i]; discriminate]. intros d H. destruct (RT d (SUB d H)) as (e & ed & t & _ & _ & K & _). unfold key in K. injection K as _ K. rewrite K, total_zeros. cbn. lia.
  - destruct (Nat.eq_dec n (length cs)) as [EQ|NE].
    + left. apply Permutation_length in PM. rewrite app_length in PM. assert (r = []) by (apply length_zero_iff_nil; lia). subst r. reflexivity.
    + right. unfold n in NE, LN. destruct uniq eqn:UQ; [congruence|]. split; [reflexivity|]. exists kept. split; [|split; [lia|split; [auto|]]].
      * apply (Permutation_NoDup (Permutation_map key PM)) in NDK. rewrite map_app in NDK. revert NDK. generalize (map key kept) as l1, (map key r) as l2. induction l1 as [|a l1 IH]; intros l2 H; [constructor|]. cbn in H. inversion H as [|? ? H1 H2]; subst. constructor; [|apply (IH l2 H2)]. intros X. apply H1, in_app_iff. left. exact X.
      * intros t rr DT IR IK. apply in_map_iff in IR. destruct IR as (d & DE & DR). inversion DT as [n0 nd' e ed ss N' Ie Ee DSS]; subst n0 t. rewrite ND in N'. injection N' as <-. cbn in DE.
        destruct (RT d (SUBr d DR)) as (e1 & ed1 & t1 & _ & Ee1 & K1 & T1). apply (le_trans _ (score d)); [|apply (MX rr d IK DR)].
        assert (SC1 : score d = wt t1) by (destruct T1 as (? & ? & _ & _ & _ & _ & X); exact X). rewrite SC1, <- DE.
        apply (beyonds_le v nd ND G1 d t1 ss ed R1 T1); [rewrite DE; exact Ee|exact DSS|].
        intros i u x s0 _ X _ k t' LK. exfalso. unfold key in K1. injection K1 as _ K1. rewrite K1 in X. apply nth_total in X. rewrite total_zeros in X. lia.
  - exact HH.
Qed.
End V2.

Lemma recspec_mono : forall n m rec, m <= n -> recspec n rec -> recspec m rec.
Proof. intros n m rec L H u k st G U. apply H. lia. Qed.
Lemma kth_ok : forall n, recspec n (kth times w traverse eqY uniq hpop hpush hmake g k_prime F n).
Proof.
  induction n as [|n IH]; intros u k st G U LU OK LOW; [lia|].
  destruct (proj2 LOW u (Nat.lt_succ_diag_r u) LU) as (s & nd & S & ND & I).
  pose proof (recspec_mono n u _ ltac:(lia) IH) as REC. set (rec := kth times w traverse eqY uniq hpop hpush hmake g k_prime F n) in *.
  assert (HE : here u st G st s G).
  { constructor; [|exact S|intros x X; split; reflexivity]. split; [apply LOW|]. intros w0 W0 L0. apply LOW; lia. }
  assert (OK0 : okk 0) by (destruct OK as [X|X]; [left; exact X|right; lia]).
  destruct (get_candidates_ok u nd ND rec REC st G OK0 st s G HE I) as (st1 & s1 & G1 & E1 & HE1 & X1 & pl & drop & open & N1 & O1).
  destruct (outer_ok u nd ND rec REC st G k drop OK (Datatypes.S (Datatypes.S k)) st1 s1 G1 pl open HE1 N1 O1 ltac:(lia) ltac:(lia)) as (st2 & s2 & G2 & E2 & HE2 & X2 & I2 & R2).
  exists (nth_error (D s2) k), st2, G2. cbn [kth]. fold rec. rewrite E1, E2, (h_at _ _ _ _ _ _ HE2). split; [reflexivity|].
  pose proof (h_low _ _ _ _ _ _ HE2) as L2. pose proof (h_frame _ _ _ _ _ _ HE2) as FR2. split; [|split].
  - split; [apply L2|]. intros w0 W0 L0. destruct (Nat.eq_dec w0 u) as [->|NE]; [|apply L2; lia]. exists s2, nd. split; [apply (h_at _ _ _ _ _ _ HE2)|]. auto.
  - split; [exact FR2|]. apply (Gext_trans _ _ _ X1 X2).
  - unfold answer. assert (F2 : Forall2 (fun dy t => entry G2 nd (fst dy) t /\ snd dy = yld t) (D s2) (G2 u)).
    { destruct I2 as [(_ & A & _ & _ & B)|(? & ? & ? & N & _)]; [rewrite A, B; constructor|apply N]. }
    destruct (nth_error (G2 u) k) as [t|] eqn:T.
    + destruct (nth_len _ (D s2) k t (eq_sym (Forall2_length F2)) T) as ((d & y) & DN). destruct (Forall2_nth _ _ _ k _ _ F2 DN T) as ((? & ? & _ & _ & _ & _ & SC) & Y1). cbn [snd fst] in *. exists d. rewrite DN, Y1. auto.
    + apply nth_error_None in T. split; [apply nth_error_None; rewrite (Forall2_length F2); exact T|]. destruct R2 as [R2|R2]; [lia|exact R2].
Qed.

(** ** Calls *)
Notation N0 := (length (nodes g)).
Lemma new_low : low N0 (new g) (fun _ => []).
Proof.
  split; [unfold new; rewrite map_length; reflexivity|]. intros v V _. destruct (nth_error (nodes g) v) as [nd|] eqn:E; [|apply nth_error_None in E; lia].
  exists {| cands := []; D := []; dset := []; filt := [] |}, nd. unfold new. rewrite nth_error_map, E. split; [reflexivity|]. split; [reflexivity|]. left. cbn. auto.
Qed.
Lemma calls_ok : forall cs st G, low N0 st G -> Forall (fun vk => fst vk < N0 /\ okk (snd vk)) cs ->
  exists rs st' G', calls times w traverse eqY uniq hpop hpush hmake g k_prime F cs st = Some (rs, st') /\ low N0 st' G' /\ Gext G G' /\
    Forall2 (fun vk r => answer G' (fst vk) (snd vk) r) cs rs.
Proof.
  induction cs as [|(v & k) cs IH]; intros st G L H.
  - exists [], st, G. split; [reflexivity|]. split; [exact L|]. split; [apply Gext_refl|constructor].
  - inversion H as [|? ? (V & K) H']; subst. cbn [fst snd] in V, K.
    destruct (kth_ok (S N0) v k st G ltac:(lia) V K) as (r & st1 & G1 & E1 & L1 & X1 & A1).
    { split; [apply L|]. intros w0 W0 LN. apply L; lia. }
    pose proof (low_after N0 v st st1 G G1 V (Nat.le_refl _) L L1 X1) as L1'.
    destruct (IH st1 G1 L1' H') as (rs & st2 & G2 & E2 & L2 & X2 & A2). exists (r :: rs), st2, G2. cbn [calls]. unfold LazyKthBest. rewrite E1, E2. split; [reflexivity|]. split; [exact L2|]. split; [apply (Gext_trans _ _ _ (proj2 X1) X2)|].
    constructor; [|exact A2]. cbn [fst snd]. unfold answer in *. destruct (nth_error (G1 v) k) as [t|] eqn:T.
    + rewrite (Gext_nth _ _ _ _ _ X2 T). exact A1.
    + destruct A1 as (A & C). pose proof (complete_len G1 G2 v X2 (low_RK _ _ _ L2 v V V) C) as Q. rewrite Q, T. split; [exact A|]. intros s0 DS. rewrite Q. apply C, DS.
Qed.

(** ** Complete rankings *)
Definition goodlist (l : list tree) : Prop := forall i j a b, i < j -> nth_error l i = Some a -> nth_error l j = Some b -> le (wt b) (wt a) /\ ~ cls a b.
Lemma goodlist_push : forall l t, goodlist l -> (forall a, In a l -> le (wt t) (wt a) /\ ~ cls a t) -> goodlist (l ++ [t]).
Proof.
  intros l t H T i j a b L A B. assert (LB : j < length (l ++ [t])) by (apply nth_error_Some; congruence). rewrite app_length in LB. cbn in LB. rewrite nth_error_app1 in A by lia.
  destruct (Nat.eq_dec j (length l)) as [->|NE].
  - rewrite nth_error_app2, Nat.sub_diag in B by lia. injection B as <-. apply T, (nth_error_In _ _ A).
  - rewrite nth_error_app1 in B by lia. apply (H i j a b L A B).
Qed.
Inductive desc : list tree -> Prop :=
| desc_nil : desc []
| desc_cons : forall t l, (forall x, In x l -> le (wt x) (wt t)) -> desc l -> desc (t :: l).
Lemma sort_exists : forall l : list tree, exists l', Permutation l l' /\ desc l'.
Proof.
  assert (INS : forall t l, desc l -> exists l', Permutation (t :: l) l' /\ desc l').
  { intros t l H. induction H as [|a l A H IH]; [exists [t]; split; [reflexivity|constructor; [contradiction|constructor]]|].
    destruct (leb (wt a) (wt t)) eqn:Q.
    - exists (t :: a :: l). split; [reflexivity|]. constructor; [|constructor; assumption]. intros x [<-|X]; [exact Q|]. apply (le_trans _ _ _ (A x X) Q).
    - destruct IH as (l' & PM & D'). exists (a :: l'). split; [rewrite perm_swap, PM; reflexivity|]. constructor; [|exact D'].
      intros x X. apply (Permutation_in _ (Permutation_sym PM)) in X. destruct X as [<-|X]; [|apply A, X]. destruct (o_total _ _ ORD (wt a) (wt t)) as [Z|Z]; [congruence|exact Z]. }
  induction l as [|t l (l' & PM & H)]; [exists []; split; [reflexivity|constructor]|]. destruct (INS t l' H) as (l2 & PM2 & H2). exists l2. split; [rewrite PM; exact PM2|exact H2].
Qed.
Lemma greedy : forall todo acc, desc todo -> goodlist acc -> (forall t, In t todo -> rep acc t \/ forall a, In a acc -> le (wt t) (wt a)) ->
  exists l, goodlist (acc ++ l) /\ (forall t, In t l -> In t todo) /\ forall t, In t todo -> rep (acc ++ l) t.
Proof.
  induction todo as [|t todo IH]; intros acc H GL C.
  - exists []. rewrite app_nil_r. split; [exact GL|]. split; contradiction.
  - inversion H as [|? ? T H']; subst.
    destruct (Exists_dec (fun a => cls a t) acc (fun a => cls_dec a t)) as [EX|NEX].
    + destruct (IH acc H' GL (fun x X => C x (or_intror X))) as (l & G1 & G2 & G3). exists l. split; [exact G1|]. split; [intros x X; right; apply G2, X|].
      intros x [<-|X]; [|apply G3, X]. apply (rep_mono acc); [intros z Z; apply in_app_iff; left; exact Z|].
      destruct (C t (or_introl eq_refl)) as [R|LE]; [exact R|]. apply Exists_exists in EX. destruct EX as (a & IA & CA). exists a. split; [exact IA|]. split; [apply cls_sym, CA|apply LE, IA].
    + assert (NC : forall a, In a acc -> ~ cls a t) by (intros a IA CA; apply NEX, Exists_exists; exists a; auto).
      assert (LE : forall a, In a acc -> le (wt t) (wt a)).
      { destruct (C t (or_introl eq_refl)) as [(a & IA & CA & _)|LE]; [exfalso; apply (NC a IA), cls_sym, CA|exact LE]. }
      destruct (IH (acc ++ [t]) H') as (l & G1 & G2 & G3).
      * apply goodlist_push; [exact GL|]. intros a IA. split; [apply LE, IA|apply NC, IA].
      * intros x X. destruct (C x (or_intror X)) as [R|LX]; [left; apply (rep_mono acc); [intros z Z; apply in_app_iff; left; exact Z|exact R]|right].
        intros a IA. apply in_app_iff in IA. destruct IA as [IA|[<-|[]]]; [apply LX, IA|apply T, X].
      * exists (t :: l). rewrite <- app_assoc in G1, G3. cbn [app] in G1, G3. split; [exact G1|]. split; [intros x [<-|X]; [left; reflexivity|right; apply G2, X]|].
        intros x [<-|X]; [|apply G3, X]. exists t. split; [apply in_app_iff; right; left; reflexivity|]. split; [apply cls_refl|apply le_refl].
Qed.
Definition ranking (u : nat) (L : list tree) : Prop := (forall t, In t L -> derives g u t) /\ goodlist L /\ forall s, derives g u s -> rep L s.
Lemma rank_extend : forall G u, RK G u -> exists l, ranking u (G u ++ l) /\ (complete G u -> l = []).
Proof.
  intros G u R. destruct (sort_exists (dvs g u)) as (all & PM & DS). pose proof (proj2 (dvs_all g TOPO u)) as AL.
  destruct (greedy all (G u) DS) as (l & G1 & G2 & G3).
  - exact (k_ord _ _ R).
  - intros t IT. apply (Permutation_in _ (Permutation_sym PM)) in IT. apply AL in IT.
    destruct (Exists_dec (fun a => cls t a) (G u) (fun a => cls_dec t a)) as [EX|NEX].
    + left. apply Exists_exists in EX. destruct EX as (a & IA & CA). pose proof IA as IA'. apply In_nth_error in IA'. destruct IA' as (i & NA). destruct (k_best _ _ R i a t NA IT) as [X|X]; [apply (rep_mono _ _ _ (firstn_incl i (G u)) X)|].
      exists a. auto.
    + right. intros a IA. apply In_nth_error in IA. destruct IA as (i & NA). destruct (k_best _ _ R i a t NA IT) as [(b & IB & CB & _)|X]; [|exact X].
      exfalso. apply NEX, Exists_exists. exists b. split; [apply (firstn_incl i), IB|exact CB].
  - exists l. assert (RK' : ranking u (G u ++ l)).
    { split; [|split; [exact G1|]].
      - intros t IT. apply in_app_iff in IT. destruct IT as [IT|IT]; [apply (k_der _ _ R), IT|]. apply AL, (Permutation_in _ (Permutation_sym PM)), G2, IT.
      - intros s0 D0. apply G3. apply (Permutation_in _ PM), AL, D0. }
    split; [exact RK'|]. intros C. destruct l as [|t l]; [reflexivity|exfalso]. destruct RK' as (A & _ & _).
    destruct (C t) as (t' & I' & C' & _); [apply A, in_app_iff; right; left; reflexivity|]. apply In_nth_error in I'. destruct I' as (i & NI').
    assert (LI : i < length (G u)) by (apply nth_error_Some; congruence).
    destruct (G1 i (length (G u)) t' t LI) as (_ & NC); [rewrite nth_error_app1 by exact LI; exact NI'|rewrite nth_error_app2, Nat.sub_diag by lia; reflexivity|]. apply NC, cls_sym, C'.
Qed.
Lemma choose : forall (Q : nat -> list tree -> Prop) n, (forall u, u < n -> exists l, Q u l) -> exists L : nat -> list tree, forall u, u < n -> Q u (L u).
Proof.
  intros Q n. induction n as [|n IH]; intros H; [exists (fun _ => []); intros; lia|].
  destruct IH as (L & HL); [intros; apply H; lia|]. destruct (H n ltac:(lia)) as (l & Hl). exists (fun u => if u =? n then l else L u).
  intros u U. destruct (Nat.eqb_spec u n) as [->|NE]; [exact Hl|apply HL; lia].
Qed.
Theorem kbest_ok : forall cs, Forall (fun vk => fst vk < N0 /\ okk (snd vk)) cs ->
  exists rs st' L, calls times w traverse eqY uniq hpop hpush hmake g k_prime F cs (new g) = Some (rs, st') /\ (forall v, v < N0 -> ranking v (L v)) /\
    Forall2 (fun vk r => match nth_error (L (fst vk)) (snd vk) with Some t => exists d, r = Some (d, yld t) /\ score d = wt t | None => r = None end) cs rs.
Proof.
  intros cs H. destruct (calls_ok cs (new g) (fun _ => []) new_low H) as (rs & st' & G & E & L & _ & A).
  destruct (choose (fun u l => ranking u l /\ exists r, l = G u ++ r /\ (complete G u -> r = [])) N0) as (LL & HL).
  { intros u U. destruct (rank_extend G u (low_RK _ _ _ L u U U)) as (l & R & C). exists (G u ++ l). split; [exact R|]. exists l. auto. }
  exists rs, st', LL. split; [exact E|]. split; [intros v V; apply HL, V|].
  clear - A HL H. induction A as [|(v & k) r cs rs A AA IH]; [constructor|]. inversion H as [|? ? (V & K) H']; subst. constructor; [|apply IH, H'].
  cbn [fst snd] in *. destruct (HL v V) as (_ & l & Q & C). rewrite Q. unfold answer in A. destruct (nth_error (G v) k) as [t|] eqn:T.
  - rewrite nth_error_app1 by (apply nth_error_Some; congruence). rewrite T. exact A.
  - destruct A as (-> & CM). rewrite (C CM), app_nil_r, T. reflexivity.
Qed.
End K.

Theorem kbest_plain : forall (P W Y : Type) (times : W -> W -> W) (w : edge P -> W) (traverse : edge P -> list Y -> Y) (eqY : Y -> Y -> bool) hpop hpush hmake isheap (g : hg P) (k F : nat)
    (leb : W -> W -> bool) (dW : W) (dY : Y),
  (forall a b, eqY a b = true <-> a = b) -> ordered leb times -> heap_functions leb isheap hpop hpush hmake -> topo g -> productive g -> (forall v L, all_derivations g v L -> length L < F) ->
  forall cs, Forall (fun vk => fst vk < length (nodes g) /\ snd vk < k) cs ->
  exists rs st' L, calls times w traverse eqY false hpop hpush hmake g k F cs (new g) = Some (rs, st') /\
    (forall v, v < length (nodes g) -> all_derivations g v (L v) /\ descending leb (tree_weight times (edge_weight dW w g)) (L v)) /\
    Forall2 (fun vk r => match nth_error (L (fst vk)) (snd vk) with
      | Some t => exists d, r = Some (d, tree_yield g traverse dY t) /\ score d = tree_weight times (edge_weight dW w g) t
      | None => r = None end) cs rs.
Proof.
  intros P W Y times w traverse eqY hpop hpush hmake isheap g k F leb dW dY EQY ORD HEAP TOPO PROD FUEL cs H.
  destruct (kbest_ok times w traverse eqY false hpop hpush hmake isheap g k F leb dW dY EQY ORD HEAP TOPO PROD FUEL cs) as (rs & st' & L & E & R & A).
  { revert H. apply Forall_impl. intros vk (V & K). split; [exact V|right; exact K]. }
  exists rs, st', L. split; [exact E|]. split; [|exact A]. intros v V. destruct (R v V) as (R1 & R2 & R3). split; [split|].
  - apply NoDup_nth_error. intros i j LI EQ. destruct (nth_error (L v) i) as [a|] eqn:A1; [|apply nth_error_Some in LI; congruence]. symmetry in EQ.
    destruct (Nat.lt_trichotomy i j) as [LT|[Q|LT]]; [|exact Q|]; exfalso.
    + apply (proj2 (R2 i j a a LT A1 EQ)). reflexivity.
    + apply (proj2 (R2 j i a a LT EQ A1)). reflexivity.
  - intros t. split; [apply R1|]. intros D0. destruct (R3 t D0) as (t' & I & C & _). cbn in C. subst. exact I.
  - intros i j a b LT A1 B1. apply (R2 i j a b LT A1 B1).
Qed.
Theorem kbest_unique : forall (P W Y : Type) (times : W -> W -> W) (w : edge P -> W) (traverse : edge P -> list Y -> Y) (eqY : Y -> Y -> bool) hpop hpush hmake isheap (g : hg P) (k F : nat)
    (leb : W -> W -> bool) (dW : W) (dY : Y),
  (forall a b, eqY a b = true <-> a = b) -> ordered leb times -> heap_functions leb isheap hpop hpush hmake -> topo g -> productive g -> (forall v L, all_derivations g v L -> length L < F) ->
  forall cs, Forall (fun vk => fst vk < length (nodes g)) cs ->
  exists rs st' L, calls times w traverse eqY true hpop hpush hmake g k F cs (new g) = Some (rs, st') /\
    (forall v, v < length (nodes g) -> (forall t, In t (L v) -> derives g v t) /\ NoDup (map (tree_yield g traverse dY) (L v)) /\ descending leb (tree_weight times (edge_weight dW w g)) (L v) /\
       forall s, derives g v s -> exists t, In t (L v) /\ tree_yield g traverse dY t = tree_yield g traverse dY s /\
         leb (tree_weight times (edge_weight dW w g) s) (tree_weight times (edge_weight dW w g) t) = true) /\
    Forall2 (fun vk r => match nth_error (L (fst vk)) (snd vk) with
      | Some t => exists d, r = Some (d, tree_yield g traverse dY t) /\ score d = tree_weight times (edge_weight dW w g) t
      | None => r = None end) cs rs.
Proof.
  intros P W Y times w traverse eqY hpop hpush hmake isheap g k F leb dW dY EQY ORD HEAP TOPO PROD FUEL cs H.
  destruct (kbest_ok times w traverse eqY true hpop hpush hmake isheap g k F leb dW dY EQY ORD HEAP TOPO PROD FUEL cs) as (rs & st' & L & E & R & A).
  { revert H. apply Forall_impl. intros vk V. split; [exact V|left; reflexivity]. }
  exists rs, st', L. split; [exact E|]. split; [|exact A]. intros v V. destruct (R v V) as (R1 & R2 & R3). split; [exact R1|]. split; [|split].
  - apply NoDup_nth_error. intros i j LI EQ. rewrite map_length in LI. rewrite !nth_error_map in EQ. destruct (nth_error (L v) i) as [a|] eqn:A1; [|apply nth_error_Some in LI; congruence].
    destruct (nth_error (L v) j) as [b|] eqn:B1; [|discriminate]. cbn in EQ. injection EQ as EQ.
    destruct (Nat.lt_trichotomy i j) as [LT|[Q|LT]]; [|exact Q|]; exfalso.
    + apply (proj2 (R2 i j a b LT A1 B1)). exact EQ.
    + apply (proj2 (R2 j i b a LT B1 A1)). symmetry. exact EQ.
  - intros i j a b LT A1 B1. apply (R2 i j a b LT A1 B1).
  - intros s D0. destruct (R3 s D0) as (t' & I & C & LE). exists t'. split; [exact I|]. split; [symmetry; exact C|exact LE].
Qed.
