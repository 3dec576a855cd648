(** Specification vocabulary for hypergraph algorithms: derivation trees. *)
From Coq Require Import List Arith Lia.
From Verif Require Import HG.
Import ListNotations.

(** A derivation: an edge and one derivation for each of its tails. *)
Inductive tree := Tree (e : nat) (sub : list tree).

Section D.
Context {P : Type}.

(** [derives g n t]: [t] is a derivation of node [n]. *)
Inductive derives (g : hg P) : nat -> tree -> Prop :=
| d_edge : forall n nd e ed ts,
    nth_error (nodes g) n = Some nd -> In e (in_edges nd) -> nth_error (edges g) e = Some ed ->
    Forall2 (derives g) (tails ed) ts -> derives g n (Tree e ts).

(** Nodes are topologically ordered: each in-edge exists and its tails have
    smaller numbers; no node lists an edge twice. *)
Definition topo (g : hg P) : Prop :=
  forall n nd, nth_error (nodes g) n = Some nd ->
    NoDup (in_edges nd) /\
    forall e, In e (in_edges nd) -> exists ed, nth_error (edges g) e = Some ed /\ forall t, In t (tails ed) -> t < n.

(** [L] lists the derivations of [n], each once. *)
Definition all_derivations (g : hg P) (n : nat) (L : list tree) : Prop :=
  NoDup L /\ forall t, In t L <-> derives g n t.

(** The weight of a derivation: the product, in prefix order, of the weights of
    its edges. *)
Fixpoint tree_weight {W : Type} (times : W -> W -> W) (w : nat -> W) (t : tree) : W :=
  match t with Tree e ts => fold_left (fun a s => times a (tree_weight times w s)) ts (w e) end.

Definition edge_weight {W : Type} (dflt : W) (weight : edge P -> W) (g : hg P) (e : nat) : W :=
  match nth_error (edges g) e with Some ed => weight ed | None => dflt end.

Fixpoint sum {W : Type} (zero : W) (plus : W -> W -> W) (l : list W) : W :=
  match l with [] => zero | x :: r => plus x (sum zero plus r) end.
End D.

(** The edges of a derivation, with multiplicity, tails before heads. *)
Fixpoint tree_edges (t : tree) : list nat :=
  match t with Tree e ts => flat_map tree_edges ts ++ [e] end.

(** [k] times [x]. *)
Fixpoint nmul {W : Type} (zero : W) (plus : W -> W -> W) (k : nat) (x : W) : W :=
  match k with O => zero | S j => plus x (nmul zero plus j x) end.

(** Number of occurrences in a derivation of edges satisfying [p]. *)
Definition uses (p : nat -> bool) (t : tree) : nat := length (filter p (tree_edges t)).

(** No edge has the same node twice among its tails. *)
Definition distinct_tails {P} (g : hg P) : Prop := forall e ed, nth_error (edges g) e = Some ed -> NoDup (tails ed).
(** An edge's id is its position. *)
Definition ids_ok {P} (g : hg P) : Prop := forall e ed, nth_error (edges g) e = Some ed -> eid ed = e.
(** No edge is listed by two nodes. *)
Definition one_head {P} (g : hg P) : Prop := forall n m nd md e,
  nth_error (nodes g) n = Some nd -> nth_error (nodes g) m = Some md -> In e (in_edges nd) -> In e (in_edges md) -> n = m.

(** The laws used. *)
Record semiring {W : Type} (zero one : W) (plus times : W -> W -> W) : Prop := {
  plus_comm : forall a b, plus a b = plus b a;
  plus_assoc : forall a b c, plus a (plus b c) = plus (plus a b) c;
  plus_zero : forall a, plus zero a = a;
  times_assoc : forall a b c, times a (times b c) = times (times a b) c;
  times_one_l : forall a, times one a = a;
  times_one_r : forall a, times a one = a;
  times_zero_l : forall a, times zero a = zero;
  times_zero_r : forall a, times a zero = zero;
  distr_l : forall a b c, times a (plus b c) = plus (times a b) (times a c);
  distr_r : forall a b c, times (plus a b) c = plus (times a c) (times b c)
}.

(** ** Induction over trees *)
Fixpoint tree_ind' (Q : tree -> Prop) (H : forall e ts, Forall Q ts -> Q (Tree e ts)) (t : tree) : Q t :=
  match t with
  | Tree e ts => H e ts ((fix go (l : list tree) : Forall Q l :=
      match l with [] => Forall_nil Q | x :: r => Forall_cons x (tree_ind' Q H x) (go r) end) ts)
  end.

(** ** Enumeration of the derivations of a topologically ordered graph *)
Fixpoint prods {A} (Ls : list (list A)) : list (list A) :=
  match Ls with [] => [[]] | L :: r => flat_map (fun t => map (cons t) (prods r)) L end.

Lemma prods_iff : forall (A : Type) (Ls : list (list A)) ts, In ts (prods Ls) <-> Forall2 (fun L t => In t L) Ls ts.
Proof.
  induction Ls as [|L r IH]; intros ts; cbn [prods].
  - split.
    + intros [<-|[]]. constructor.
    + intros H. inversion H. left. reflexivity.
  - rewrite in_flat_map. split.
    + intros (t & T & M). apply in_map_iff in M as (x & <- & X). constructor; [exact T|]. apply IH, X.
    + intros H. inversion H as [|? t ? x A1 A2]; subst. exists t. split; [exact A1|]. apply in_map_iff. exists x. split; [reflexivity|]. apply IH, A2.
Qed.

Lemma NoDup_app_intro : forall (A : Type) (a b : list A), NoDup a -> NoDup b -> (forall x, In x a -> ~ In x b) -> NoDup (a ++ b).
Proof.
  induction a as [|x r IH]; intros b NA NB D; cbn; [exact NB|]. inversion NA; subst. constructor.
  - rewrite in_app_iff. intros [I|I]; [contradiction|]. exact (D x (or_introl eq_refl) I).
  - apply IH; [assumption|exact NB|]. intros y Y. apply D. right. exact Y.
Qed.
Lemma NoDup_flat_map : forall (A B : Type) (f : A -> list B) l, NoDup l ->
  (forall x, In x l -> NoDup (f x)) -> (forall x y b, In x l -> In y l -> In b (f x) -> In b (f y) -> x = y) -> NoDup (flat_map f l).
Proof.
  induction l as [|x r IH]; intros N F D; cbn; [constructor|]. inversion N; subst. apply NoDup_app_intro.
  - apply F. left. reflexivity.
  - apply IH; [assumption| |].
    + intros y Y. apply F. right. exact Y.
    + intros y z b Y Z. apply D; right; assumption.
  - intros b B1 B2. apply in_flat_map in B2 as (y & Y & B2).
    assert (x = y) by (apply (D x y b); [left; reflexivity|right; exact Y|exact B1|exact B2]). subst. contradiction.
Qed.
Lemma NoDup_map_inj : forall (A B : Type) (f : A -> B) l, (forall x y, f x = f y -> x = y) -> NoDup l -> NoDup (map f l).
Proof.
  induction l as [|x r IH]; intros I N; cbn; [constructor|]. inversion N; subst. constructor.
  - intros H. apply in_map_iff in H as (y & E & Y). apply I in E. subst. contradiction.
  - apply IH; assumption.
Qed.
Lemma prods_NoDup : forall (A : Type) (Ls : list (list A)), Forall (@NoDup A) Ls -> NoDup (prods Ls).
Proof.
  induction Ls as [|L r IH]; intros H; cbn; [repeat constructor; intros []|]. inversion H; subst.
  apply NoDup_flat_map; [assumption| |].
  - intros x _. apply NoDup_map_inj; [intros ? ? [=]; assumption|]. apply IH. assumption.
  - intros x y b _ _ X Y. apply in_map_iff in X as (u & <- & _). apply in_map_iff in Y as (v & [=] & _). congruence.
Qed.

Section E.
Context {P : Type}.
Variable g : hg P.

Fixpoint derivs (k n : nat) : list tree :=
  match k with
  | O => []
  | S k' =>
    match nth_error (nodes g) n with
    | Some nd => flat_map (fun e => match nth_error (edges g) e with
                                    | Some ed => map (Tree e) (prods (map (derivs k') (tails ed)))
                                    | None => [] end) (in_edges nd)
    | None => []
    end
  end.

Lemma Forall2_map_l : forall (A B C : Type) (f : A -> B) (R : B -> C -> Prop) l m,
  Forall2 R (map f l) m <-> Forall2 (fun a c => R (f a) c) l m.
Proof.
  induction l as [|a r IH]; intros m; cbn; (split; intros H; inversion H; subst; constructor; try assumption); apply IH; assumption.
Qed.
Lemma Forall2_impl_in : forall (A B : Type) (R S : A -> B -> Prop) l m,
  (forall a b, In a l -> R a b -> S a b) -> Forall2 R l m -> Forall2 S l m.
Proof.
  induction l as [|a r IH]; intros m H F; inversion F; subst; constructor.
  - apply H; [left; reflexivity|assumption].
  - apply IH; [|assumption]. intros x b X. apply H. right. exact X.
Qed.

Lemma derivs_iff : topo g -> forall k n t, n < k -> (In t (derivs k n) <-> derives g n t).
Proof.
  intros T. induction k as [|k IH]; intros n t L; [lia|]. cbn [derivs]. split.
  - destruct (nth_error (nodes g) n) as [nd|] eqn:N; [|intros []]. intros I. apply in_flat_map in I as (e & E & I).
    destruct (proj2 (T n nd N) e E) as (ed & ED & TL). rewrite ED in I. apply in_map_iff in I as (ts & <- & I).
    apply prods_iff in I. apply Forall2_map_l in I. apply (d_edge g n nd e ed ts N E ED).
    apply (Forall2_impl_in _ _ _ _ _ _ (fun a b X Y => proj1 (IH a b ltac:(specialize (TL a X); lia)) Y) I).
  - intros H. inversion H as [? nd e ed ts N E ED F]; subst. rewrite N. apply in_flat_map. exists e. split; [exact E|].
    destruct (proj2 (T n nd N) e E) as (ed' & ED' & TL). assert (ed' = ed) by congruence. subst ed'. rewrite ED.
    apply in_map_iff. exists ts. split; [reflexivity|]. apply prods_iff. apply Forall2_map_l.
    apply (Forall2_impl_in _ _ _ _ _ _ (fun a b X Y => proj2 (IH a b ltac:(specialize (TL a X); lia)) Y) F).
Qed.

Lemma derivs_NoDup : topo g -> forall k n, n < k -> NoDup (derivs k n).
Proof.
  intros T. induction k as [|k IH]; intros n L; [lia|]. cbn [derivs].
  destruct (nth_error (nodes g) n) as [nd|] eqn:N; [|constructor]. destruct (T n nd N) as [ND TE].
  apply NoDup_flat_map; [exact ND| |].
  - intros e E. destruct (TE e E) as (ed & -> & TL). apply NoDup_map_inj; [intros ? ? [=]; assumption|].
    apply prods_NoDup. apply Forall_forall. intros M IM. apply in_map_iff in IM as (t & <- & IT). apply IH.
    specialize (TL t IT). lia.
  - intros e1 e2 b _ _ I1 I2.
    destruct (nth_error (edges g) e1); [|destruct I1]. destruct (nth_error (edges g) e2); [|destruct I2].
    apply in_map_iff in I1 as (a1 & <- & _). apply in_map_iff in I2 as (a2 & [=] & _). congruence.
Qed.

(** The derivations of node [n]. *)
Definition dvs (n : nat) : list tree := derivs (S n) n.

Lemma derivs_enough : topo g -> forall k k' n, n < k -> n < k' -> derivs k n = derivs k' n.
Proof.
  intros T. induction k as [|k IH]; intros [|k'] n L L'; try lia. cbn [derivs].
  destruct (nth_error (nodes g) n) as [nd|] eqn:N; [|reflexivity].
  assert (EE : forall es, (forall e, In e es -> In e (in_edges nd)) ->
    flat_map (fun e => match nth_error (edges g) e with Some ed => map (Tree e) (prods (map (derivs k) (tails ed))) | None => [] end) es =
    flat_map (fun e => match nth_error (edges g) e with Some ed => map (Tree e) (prods (map (derivs k') (tails ed))) | None => [] end) es).
  { induction es as [|e r IHe]; intros S; cbn [flat_map]; [reflexivity|].
    destruct (proj2 (T n nd N) e (S e (or_introl eq_refl))) as (ed & -> & TL).
    rewrite IHe by (intros x X; apply S; right; exact X). do 3 f_equal.
    apply map_ext_in. intros t IT. specialize (TL t IT). apply IH; lia. }
  apply EE. auto.
Qed.

Lemma dvs_eq : topo g -> forall n nd, nth_error (nodes g) n = Some nd ->
  dvs n = flat_map (fun e => match nth_error (edges g) e with
                             | Some ed => map (Tree e) (prods (map dvs (tails ed)))
                             | None => [] end) (in_edges nd).
Proof.
  intros T n nd N. unfold dvs at 1. cbn [derivs]. rewrite N.
  assert (EE : forall es, (forall e, In e es -> In e (in_edges nd)) ->
    flat_map (fun e => match nth_error (edges g) e with Some ed => map (Tree e) (prods (map (derivs n) (tails ed))) | None => [] end) es =
    flat_map (fun e => match nth_error (edges g) e with Some ed => map (Tree e) (prods (map dvs (tails ed))) | None => [] end) es).
  { induction es as [|e r IHe]; intros S; cbn [flat_map]; [reflexivity|].
    destruct (proj2 (T n nd N) e (S e (or_introl eq_refl))) as (ed & -> & TL).
    rewrite IHe by (intros x X; apply S; right; exact X). do 3 f_equal.
    apply map_ext_in. intros t IT. specialize (TL t IT). apply derivs_enough; [exact T|lia|lia]. }
  apply EE. auto.
Qed.

Lemma dvs_all : topo g -> forall n, all_derivations g n (dvs n).
Proof.
  intros T n. split; [apply derivs_NoDup; [exact T|lia]|]. intros t. apply derivs_iff; [exact T|lia].
Qed.
End E.
