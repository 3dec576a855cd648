(** C20: lazy k-best extraction. *)
From Coq Require Import ZArith List Arith Bool Lia Permutation.
From Verif Require Import HG Deriv KBest KBestSpec KBestProofs.
Import ListNotations.

(** NoFilter.  [leb] is any total preorder on scores in which the product is
    monotone (scores may carry feature vectors which the order ignores); the heap
    functions break ties as they like.  After any calls LazyKthBest(v, i) with
    i < k, in any order, there is one ranking of the derivations of each node:
    it lists every derivation once, scores do not increase, and each call returned
    the derivation it asked for - its score and its yield - or null exactly when
    there are not so many. *)
Theorem C20_kbest : forall (P W Y : Type) (times : W -> W -> W) (w : edge P -> W) (traverse : edge P -> list Y -> Y) (eqY : Y -> Y -> bool) hpop hpush hmake isheap (g : hg P) (k F : nat)
    (leb : W -> W -> bool) (dW : W) (dY : Y),
  (forall a b, eqY a b = true <-> a = b) -> ordered leb times -> heap_functions leb isheap hpop hpush hmake -> topo g -> productive g -> (forall v L, all_derivations g v L -> length L < F) ->
  forall cs, Forall (fun vk => fst vk < length (nodes g) /\ snd vk < k) cs ->
  exists rs st' L, calls times w traverse eqY false hpop hpush hmake g k F cs (new g) = Some (rs, st') /\
    (forall v, v < length (nodes g) -> all_derivations g v (L v) /\ descending leb (tree_weight times (edge_weight dW w g)) (L v)) /\
    Forall2 (fun vk r => match nth_error (L (fst vk)) (snd vk) with
      | Some t => exists d, r = Some (d, tree_yield g traverse dY t) /\ score d = tree_weight times (edge_weight dW w g) t
      | None => r = None end) cs rs.
Proof. exact kbest_plain. Qed.
Print Assumptions C20_kbest.

(** FilterUnique.  For any i: the ranking has one derivation for each yield, a
    best one, and no yield twice. *)
Theorem C20_kbest_unique : forall (P W Y : Type) (times : W -> W -> W) (w : edge P -> W) (traverse : edge P -> list Y -> Y) (eqY : Y -> Y -> bool) hpop hpush hmake isheap (g : hg P) (k F : nat)
    (leb : W -> W -> bool) (dW : W) (dY : Y),
  (forall a b, eqY a b = true <-> a = b) -> ordered leb times -> heap_functions leb isheap hpop hpush hmake -> topo g -> productive g -> (forall v L, all_derivations g v L -> length L < F) ->
  forall cs, Forall (fun vk => fst vk < length (nodes g)) cs ->
  exists rs st' L, calls times w traverse eqY true hpop hpush hmake g k F cs (new g) = Some (rs, st') /\
    (forall v, v < length (nodes g) -> (forall t, In t (L v) -> derives g v t) /\ NoDup (map (tree_yield g traverse dY) (L v)) /\ descending leb (tree_weight times (edge_weight dW w g)) (L v) /\
       forall s, derives g v s -> exists t, In t (L v) /\ tree_yield g traverse dY t = tree_yield g traverse dY s /\
         leb (tree_weight times (edge_weight dW w g) s) (tree_weight times (edge_weight dW w g) t) = true) /\
    Forall2 (fun vk r => match nth_error (L (fst vk)) (snd vk) with
      | Some t => exists d, r = Some (d, tree_yield g traverse dY t) /\ score d = tree_weight times (edge_weight dW w g) t
      | None => r = None end) cs rs.
Proof. exact kbest_unique. Qed.
Print Assumptions C20_kbest_unique.

(** The bound [F] of the model's inner loop exists for every such forest. *)
Lemma fuel_exists : forall (P : Type) (g : hg P), topo g -> exists F, forall v L, all_derivations g v L -> length L < F.
Proof.
  intros P g T. exists (S (list_sum (map (fun v => length (dvs g v)) (seq 0 (length (nodes g)))))). intros v L (ND & H). destruct (dvs_all g T v) as (ND' & H').
  assert (EQ : length L = length (dvs g v)).
  { apply Permutation_length, NoDup_Permutation; [exact ND|exact ND'|]. intros x. rewrite H, H'. reflexivity. }
  destruct (lt_dec v (length (nodes g))) as [LV|NV].
  - assert (X : forall l, In v l -> length (dvs g v) <= list_sum (map (fun v => length (dvs g v)) l)).
    { induction l as [|a l IH]; intros Q; [contradiction|]. cbn [map list_sum fold_right]. fold (list_sum (map (fun v => length (dvs g v)) l)). destruct Q as [->|Q]; [lia|specialize (IH Q); lia]. }
    specialize (X (seq 0 (length (nodes g)))). rewrite in_seq in X. lia.
  - destruct L as [|t L]; [cbn; lia|]. exfalso. assert (D : derives g v t) by (apply H; left; reflexivity). inversion D; subst. apply NV, nth_error_Some. congruence.
Qed.

(** ** Heap functions on lists kept in order *)
Fixpoint ins (d : deriv nat) (l : list (deriv nat)) : list (deriv nat) :=
  match l with [] => [d] | x :: r => if score x <=? score d then d :: l else x :: ins d r end.
Definition l_pop (l : list (deriv nat)) : option (deriv nat * list (deriv nat)) := match l with [] => None | d :: r => Some (d, r) end.
Definition l_push (l : list (deriv nat)) (d : deriv nat) : list (deriv nat) := ins d l.
Definition l_make (n : nat) (l : list (deriv nat)) : list (deriv nat) := firstn n (fold_right ins [] l).
Fixpoint l_heap (l : list (deriv nat)) : Prop := match l with [] => True | d :: r => (forall x, In x r -> score x <= score d) /\ l_heap r end.
Lemma ins_perm : forall d l, Permutation (ins d l) (d :: l).
Proof. induction l as [|x l IH]; cbn [ins]; [reflexivity|]. destruct (score x <=? score d); [reflexivity|]. rewrite IH. apply perm_swap. Qed.
Lemma ins_heap : forall d l, l_heap l -> l_heap (ins d l).
Proof.
  induction l as [|x l IH]; intros H; cbn [ins]; [cbn; intuition|]. destruct (score x <=? score d) eqn:E.
  - apply Nat.leb_le in E. split; [|exact H]. intros y [<-|Y]; [exact E|]. destruct H as (H & _). specialize (H y Y). lia.
  - apply Nat.leb_gt in E. destruct H as (H & H'). split; [|apply IH, H']. intros y Y. apply (Permutation_in _ (ins_perm d l)) in Y. destruct Y as [<-|Y]; [lia|apply H, Y].
Qed.
Lemma sort_heap : forall l, l_heap (fold_right ins [] l) /\ Permutation l (fold_right ins [] l).
Proof. induction l as [|x l (H & PM)]; cbn [fold_right]; [split; [exact I|reflexivity]|]. split; [apply ins_heap, H|]. rewrite ins_perm, <- PM. reflexivity. Qed.
Lemma heap_split : forall n l, l_heap l -> l_heap (firstn n l) /\ forall x y, In x (firstn n l) -> In y (skipn n l) -> score y <= score x.
Proof.
  induction n as [|n IH]; intros [|d l] H; cbn [firstn skipn]; try (split; [exact I|contradiction]). destruct H as (H & H'). destruct (IH l H') as (A & B).
  assert (S : forall m (k : list (deriv nat)) z, In z (skipn m k) -> In z k) by (intros m k z Z; rewrite <- (firstn_skipn m k); apply in_app_iff; right; exact Z).
  split.
  - split; [|exact A]. intros x X. apply H. rewrite <- (firstn_skipn n l). apply in_app_iff. left. exact X.
  - intros x y [<-|X] Y; [apply H, (S n), Y|apply B; assumption].
Qed.
Theorem list_heap : heap_functions Nat.leb l_heap l_pop l_push l_make.
Proof.
  split.
  - exact I.
  - intros [|d r] NE H; [congruence|]. exists d, r. split; [reflexivity|]. destruct H as (H & H'). split; [exact H'|]. split; [reflexivity|]. intros x X. apply Nat.leb_le, H, X.
  - intros l d H. split; [apply ins_heap, H|apply ins_perm].
  - intros n l L. destruct (sort_heap l) as (H & PM). destruct (heap_split n _ H) as (A & B). split; [exact A|]. exists (skipn n (fold_right ins [] l)). split; [|split].
    + unfold l_make. rewrite firstn_skipn. exact PM.
    + unfold l_make. rewrite firstn_length, <- (Permutation_length PM). lia.
    + intros x y X Y. apply Nat.leb_le, B; assumption.
Qed.
Lemma nat_ordered : ordered Nat.leb Nat.add.
Proof.
  split; [intros a b; destruct (Nat.leb_spec a b); [left; reflexivity|right; apply Nat.leb_le; lia]|intros a b c; rewrite !Nat.leb_le; lia|intros a b c d; rewrite !Nat.leb_le; lia].
Qed.

(** ** A forest: node 0 with edges 0 and 1, node 1 with edges 2 and 3 over node 0
    and edge 4.  Scores are added; edge i yields its number before the yields of
    its tails, edges 1 and 2 yield the same. *)
Definition E (i : nat) (h : nat) (ts : list nat) : edge (nat * nat) := {| lab := (nth i [5; 3; 7; 8; 9] 0, nth i [10; 20; 10; 10; 30] 0); head := Some h; tails := ts; eid := i |}.
Definition N (i : nat) (a b : list nat) : node := {| nid := i; cat := 0%Z; in_edges := a; out_edges := b |}.
Definition ex_g : hg (nat * nat) :=
  {| nodes := [(N 0 [0; 1] [2; 3; 3]); (N 1 [2; 3; 4] [])];
     edges := [E 0 0 []; E 1 0 []; E 2 1 [0]; E 3 1 [0; 0]; E 4 1 []] |}.
Definition ex_w (e : edge (nat * nat)) := fst (lab e).
Definition ex_t (e : edge (nat * nat)) (ys : list nat) := snd (lab e) + fold_right Nat.add 0 ys.
Lemma ex_topo : topo ex_g.
Proof.
  intros n nd H. destruct n as [|[|[|n]]]; cbn in H; try discriminate; injection H as <-; (split; [repeat constructor; cbn; intuition discriminate|]);
    intros e IE; cbn in IE; repeat (destruct IE as [<-|IE]; [eexists; split; [reflexivity|cbn; intuition lia]|]); contradiction.
Qed.
Lemma ex_zero : derives ex_g 0 (Tree 0 []).
Proof. eapply d_edge with (nd := (N 0 [0; 1] [2; 3; 3])); [reflexivity|left; reflexivity|reflexivity|constructor]. Qed.
Lemma ex_productive : productive ex_g.
Proof.
  intros n nd e ed t _ _ EE IT. destruct e as [|[|[|[|[|e]]]]]; cbn in EE; try (injection EE as <-); cbn in IT; try contradiction; try (destruct e; discriminate);
    repeat (destruct IT as [<-|IT]; [exists (Tree 0 []); exact ex_zero|]); contradiction.
Qed.
(** So the theorems apply to it. *)
Example C20_ex_hyp : ordered Nat.leb Nat.add /\ heap_functions Nat.leb l_heap l_pop l_push l_make /\ topo ex_g /\ productive ex_g /\ exists F, forall v L, all_derivations ex_g v L -> length L < F.
Proof. exact (conj nat_ordered (conj list_heap (conj ex_topo (conj ex_productive (fuel_exists _ _ ex_topo))))). Qed.
(** Its derivations are ranked 18, 16, 16, 14, 12, 10, 9. *)
Example C20_ex : option_map (fun r => map (option_map (fun dy => (score (fst dy), snd dy))) (fst r))
    (calls Nat.add ex_w ex_t Nat.eqb false l_pop l_push l_make ex_g 8 20 (map (fun k => (1, k)) [2; 0; 1; 3; 4; 5; 6; 7]) (new ex_g)) =
  Some [Some (16, 40); Some (18, 30); Some (16, 40); Some (14, 50); Some (12, 20); Some (10, 30); Some (9, 30); None].
Proof. reflexivity. Qed.
Example C20_ex_unique : option_map (fun r => map (option_map (fun dy => (score (fst dy), snd dy))) (fst r))
    (calls Nat.add ex_w ex_t Nat.eqb true l_pop l_push l_make ex_g 1 20 (map (fun k => (1, k)) [0; 1; 2; 3; 4]) (new ex_g)) =
  Some [Some (18, 30); Some (16, 40); Some (14, 50); Some (12, 20); None].
Proof. reflexivity. Qed.

(** ** What the hypotheses exclude *)
(** A tail without a derivation: the assertion of line 194 fails though the node
    has a derivation. *)
Definition dead_g : hg (nat * nat) :=
  {| nodes := [(N 0 [] [1]); (N 1 [0; 1] [])]; edges := [E 0 1 []; E 1 1 [0]] |}.
Theorem C20_dead_tail_refuted : derives dead_g 1 (Tree 0 []) /\
  LazyKthBest Nat.add ex_w ex_t Nat.eqb false l_pop l_push l_make dead_g 8 20 1 0 (new dead_g) = None.
Proof.
  split; [|reflexivity]. eapply d_edge with (nd := (N 1 [0; 1] [])); [reflexivity|left; reflexivity|reflexivity|constructor].
Qed.
Print Assumptions C20_dead_tail_refuted.
(** Asking without a filter for a rank not below the k given to the constructor:
    null, though there is such a derivation. *)
Theorem C20_beyond_k_refuted : derives ex_g 0 (Tree 0 []) /\ derives ex_g 0 (Tree 1 []) /\
  option_map fst (LazyKthBest Nat.add ex_w ex_t Nat.eqb false l_pop l_push l_make ex_g 1 20 0 1 (new ex_g)) = Some None.
Proof.
  split; [exact ex_zero|]. split; [|reflexivity]. eapply d_edge with (nd := (N 0 [0; 1] [2; 3; 3])); [reflexivity|right; left; reflexivity|reflexivity|constructor].
Qed.
Print Assumptions C20_beyond_k_refuted.
