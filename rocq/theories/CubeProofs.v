From Coq Require Import List Arith Lia Bool Permutation.
From Verif Require Import Cube RescoreProofs.
Import ListNotations.

Lemma mem_in : forall c l, mem c l = true <-> In c l.
Proof.
  intros c l. unfold mem. rewrite existsb_exists. split.
  - intros (x & I & E). unfold cand_eqb in E. apply andb_true_iff in E. destruct E as (E1 & E2). apply Nat.eqb_eq in E1.
    destruct (list_eq_dec Nat.eq_dec (snd c) (snd x)); [|discriminate]. destruct c, x; cbn in *; subst. exact I.
  - intros I. exists c. split; [exact I|]. unfold cand_eqb. rewrite Nat.eqb_refl. destruct (list_eq_dec Nat.eq_dec (snd c) (snd c)); [reflexivity|congruence].
Qed.
Lemma mem_out : forall c l, mem c l = false <-> ~ In c l.
Proof. intros c l. rewrite <- mem_in. destruct (mem c l); split; congruence. Qed.

Lemma incr_length : forall i j, length (incr i j) = length j.
Proof. induction i as [|i IH]; intros [|x j]; cbn; auto. Qed.
Lemma incr_nth : forall i j k, nth_error (incr i j) k = if i =? k then option_map S (nth_error j k) else nth_error j k.
Proof.
  induction i as [|i IH]; intros [|x j] [|k]; cbn [incr nth_error Nat.eqb option_map]; try reflexivity; try (match goal with |- context [if ?b then _ else _] => destruct b; reflexivity end).
  apply IH.
Qed.
Lemma decr_incr : forall i j, i < length j -> decr i (incr i j) = Some j.
Proof. induction i as [|i IH]; intros [|x j] L; cbn in *; try lia; [reflexivity|]. rewrite IH by lia. reflexivity. Qed.
Lemma incr_decr : forall i j j', decr i j = Some j' -> i < length j /\ incr i j' = j /\ length j' = length j.
Proof.
  induction i as [|i IH]; intros [|x j] j' H; cbn in H; try discriminate.
  - destruct x as [|x]; [discriminate|]. injection H as <-. cbn. split; [lia|]. auto.
  - destruct (decr i j) as [y|] eqn:E; [|discriminate]. injection H as <-. destruct (IH j y E) as (A & B & C). cbn. split; [lia|]. split; congruence.
Qed.
Lemma incr_inj : forall i i' j, i < length j -> incr i j = incr i' j -> i = i'.
Proof.
  intros i i' j L E. destruct (Nat.eq_dec i i') as [|NE]; [assumption|exfalso].
  assert (X : nth_error (incr i j) i = nth_error (incr i' j) i) by (rewrite E; reflexivity). rewrite !incr_nth, Nat.eqb_refl in X.
  destruct (Nat.eqb_spec i' i); [congruence|]. destruct (nth_error j i) as [x|] eqn:Q; [|apply nth_error_None in Q; lia]. cbn in X. injection X. lia.
Qed.

(** Vectors below the dimensions. *)
Definition below (d j : list nat) : Prop := Forall2 lt j d.
Lemma below_length : forall d j, below d j -> length j = length d.
Proof. intros d j B. induction B; cbn; congruence. Qed.
Lemma below_incr : forall d j i, below d j -> i < length j -> (in_range d (incr i j) i = true <-> below d (incr i j)).
Proof.
  intros d j i B. revert i. induction B as [|x k j d L B IH]; intros [|i] LI; cbn in LI; try lia.
  - unfold in_range. cbn [incr nth_error]. rewrite Nat.ltb_lt. split; [intros X; constructor; [lia|exact B]|intros X; inversion X; lia].
  - specialize (IH i ltac:(lia)). unfold in_range in *. cbn [incr nth_error]. rewrite IH. split; [intros X; constructor; assumption|intros X; inversion X; assumption].
Qed.
Lemma below_decr : forall d i j j', decr i j = Some j' -> below d j -> below d j'.
Proof.
  intros d i. revert d. induction i as [|i IH]; intros d [|x j] j' H B; cbn in H; try discriminate; inversion B as [|? k ? d' L B']; subst.
  - destruct x; [discriminate|]. injection H as <-. constructor; [lia|exact B'].
  - destruct (decr i j) as [y|] eqn:E; [|discriminate]. injection H as <-. constructor; [exact L|]. apply (IH d' j y E B').
Qed.
Definition zeros (d : list nat) : list nat := map (fun _ => 0) d.
Lemma below_zeros : forall d, Forall (fun k => 0 < k) d -> below d (zeros d).
Proof. intros d F. induction F; constructor; assumption. Qed.
Fixpoint total (j : list nat) : nat := match j with [] => 0 | x :: r => x + total r end.
Lemma total_decr : forall i j j', decr i j = Some j' -> total j = S (total j').
Proof.
  induction i as [|i IH]; intros [|x j] j' H; cbn in H; try discriminate.
  - destruct x; [discriminate|]. injection H as <-. reflexivity.
  - destruct (decr i j) as [y|] eqn:E; [|discriminate]. injection H as <-. cbn. rewrite (IH j y E). lia.
Qed.
(** The first index which is not zero. *)
Fixpoint first (j : list nat) : option nat :=
  match j with [] => None | O :: r => option_map S (first r) | _ :: _ => Some 0 end.
Lemma first_decr : forall j i, first j = Some i -> exists j', decr i j = Some j'.
Proof.
  induction j as [|[|x] j IH]; intros i H; cbn in H; try discriminate.
  - destruct (first j) as [k|]; [|discriminate]. injection H as <-. destruct (IH k eq_refl) as (j' & E). cbn. rewrite E. eexists. reflexivity.
  - injection H as <-. eexists. reflexivity.
Qed.
Lemma first_none : forall d j, length j = length d -> first j = None -> j = zeros d.
Proof.
  induction d as [|k d IH]; intros [|[|x] j] L H; cbn in *; try discriminate; [reflexivity|]. destruct (first j) eqn:E; [discriminate|]. f_equal. apply IH; [lia|exact E].
Qed.
Lemma zeros_nodecr : forall d i, decr i (zeros d) = None.
Proof. induction d as [|k d IH]; intros [|i]; cbn; try reflexivity. rewrite IH. reflexivity. Qed.
Lemma first_incr : forall i j, i < length j -> (first (incr i j) = Some i <-> forall k, k < i -> nth k j 0 = 0).
Proof.
  induction i as [|i IH]; intros [|x j] L; cbn in L; try lia.
  - cbn. split; [intros _ k K; lia|reflexivity].
  - cbn [incr first]. specialize (IH j ltac:(lia)). destruct x as [|x].
    + split.
      * intros H. assert (H' : first (incr i j) = Some i) by (destruct (first (incr i j)); cbn in H; congruence).
        intros [|k] K; [reflexivity|]. cbn. apply IH; [exact H'|lia].
      * intros H. rewrite (proj2 IH); [reflexivity|]. intros k K. apply (H (S k)). lia.
    + split; [discriminate|]. intros H. specialize (H 0 ltac:(lia)). discriminate.
Qed.

Section K.
Variable dims : nat -> list nat.
Variable es : list nat.
Hypothesis ES : NoDup es.
Hypothesis POS : forall e, In e es -> Forall (fun k => 0 < k) (dims e).

Definition grid (c : cand) : Prop := In (fst c) es /\ below (dims (fst c)) (snd c).
Definition root (c : cand) : Prop := In (fst c) es /\ snd c = zeros (dims (fst c)).
(** All combinations. *)
Definition all_cands : list cand := flat_map (fun e => map (pair e) (combos (dims e))) es.
Lemma all_cands_in : forall c, In c all_cands <-> grid c.
Proof.
  intros [e j]. unfold all_cands, grid. cbn [fst snd]. rewrite in_flat_map. split.
  - intros (x & X & I). apply in_map_iff in I. destruct I as (y & E & Y). injection E as <- <-. split; [exact X|]. apply combos_in, Y.
  - intros (X & B). exists e. split; [exact X|]. apply in_map. apply combos_in, B.
Qed.
Lemma all_cands_nodup : NoDup all_cands.
Proof.
  unfold all_cands. clear POS. induction ES as [|e r NI ND IH]; [constructor|]. cbn [flat_map]. apply NoDup_app_i; [|exact (IH ND)|].
  - apply FinFun.Injective_map_NoDup; [intros a b X; congruence|apply combos_nodup].
  - intros x X Y. apply in_map_iff in X. destruct X as (j & <- & _). apply in_flat_map in Y. destruct Y as (e' & E & Y). apply in_map_iff in Y. destruct Y as (j' & Y & _). congruence.
Qed.

(** What holds at every point of every run. *)
Record ok (q : queue) : Prop := {
  k_nodup : NoDup (heap q ++ popped q);
  k_grid : forall c, In c (heap q ++ popped q) -> grid c;
  k_root : forall c, root c -> In c (heap q ++ popped q)
}.
Definition closed (q : queue) : Prop :=
  forall e j i, In (e, j) (popped q) -> i < length j -> below (dims e) (incr i j) -> In (e, incr i j) (heap q ++ popped q).

(** The successor in the grid along each axis. *)
Definition final_ok (q : queue) : Prop := NoDup (popped q) /\ forall c, In c (popped q) <-> grid c.

Lemma root_grid : forall c, root c -> grid c.
Proof. intros c (A & B). split; [exact A|]. rewrite B. apply below_zeros, POS, A. Qed.
Lemma init_roots : forall c, In c (init_heap dims es) <-> root c.
Proof.
  intros [e j]. unfold init_heap, root. rewrite in_map_iff. cbn [fst snd]. split.
  - intros (x & E & X). injection E as <- <-. auto.
  - intros (E & ->). exists e. auto.
Qed.
Lemma init_nodup : NoDup (init_heap dims es).
Proof. unfold init_heap. apply FinFun.Injective_map_NoDup; [intros a b E; congruence|exact ES]. Qed.
Lemma init_ok : forall s, ok {| heap := init_heap dims es; seen := s; popped := [] |}.
Proof.
  intros s. constructor; cbn; rewrite ?app_nil_r.
  - exact init_nodup.
  - intros c I. apply root_grid, init_roots, I.
  - intros c R. apply init_roots, R.
Qed.

Lemma reach_all : forall (l : list cand),
  (forall e j, In e es -> below (dims e) j -> (forall i j', decr i j = Some j' -> In (e, j') l) -> In (e, j) l) ->
  forall c, grid c -> In c l.
Proof.
  intros l S [e j] (E & B). cbn [fst snd] in *. remember (total j) as n eqn:T. revert j B T. induction n as [|n IH]; intros j B T; apply S; auto; intros i j' D.
  - rewrite (total_decr _ _ _ D) in T. discriminate.
  - apply IH; [exact (below_decr _ _ _ _ D B)|]. rewrite (total_decr _ _ _ D) in T. lia.
Qed.
Lemma split_perm : forall (l r p new : list cand) c, Permutation (((l ++ r) ++ new) ++ c :: p) (new ++ (l ++ c :: r) ++ p).
Proof.
  intros l r p new c. rewrite <- (Permutation_middle ((l ++ r) ++ new) p c). rewrite <- (Permutation_middle l r c). cbn [app]. rewrite <- (Permutation_middle new ((l ++ r) ++ p) c).
  constructor. rewrite (Permutation_app_comm (l ++ r) new), <- !app_assoc. reflexivity.
Qed.
Lemma step_ok : forall q l c r new s, ok q -> heap q = l ++ c :: r -> NoDup new -> (forall x, In x new -> grid x /\ ~ In x (heap q ++ popped q)) ->
  ok {| heap := (l ++ r) ++ new; seen := s; popped := c :: popped q |} /\
  (forall x, In x (((l ++ r) ++ new) ++ c :: popped q) <-> In x new \/ In x (heap q ++ popped q)).
Proof.
  intros q l c r new s O H ND G. pose proof (split_perm l r (popped q) new c) as P. rewrite <- H in P.
  assert (I : forall x, In x (((l ++ r) ++ new) ++ c :: popped q) <-> In x new \/ In x (heap q ++ popped q)).
  { intros x. rewrite <- in_app_iff. split; apply Permutation_in; [exact P|symmetry; exact P]. }
  split; [|exact I]. constructor; cbn [heap popped].
  - apply (Permutation_NoDup (Permutation_sym P)). apply NoDup_app_i; [exact ND|apply O|]. intros x X. apply (G x X).
  - intros x X. apply I in X. destruct X as [X|X]; [apply (G x X)|apply O, X].
  - intros x X. apply I. right. apply O, X.
Qed.
Lemma popped_length : forall q, ok q -> length (heap q ++ popped q) <= length all_cands.
Proof. intros q O. apply NoDup_incl_length; [apply O|]. intros c I. apply all_cands_in, O, I. Qed.
Lemma final_perm : forall q, ok q -> heap q = [] -> (forall c, grid c -> In c (popped q)) -> Permutation (popped q) all_cands.
Proof.
  intros q O H A. apply NoDup_Permutation; [pose proof (k_nodup _ O) as X; rewrite H in X; exact X|apply all_cands_nodup|].
  intros c. rewrite all_cands_in. split; [|apply A]. intros I. apply O. rewrite H. exact I.
Qed.

(** ** The strategy with a set of candidates *)
Lemma push_succ_spec : forall e j is h cs, NoDup is -> (forall i, In i is -> i < length j) -> below (dims e) j ->
  exists new, push_succ dims e j is h cs = Some (h ++ new, rev new ++ cs) /\ NoDup new /\
    (forall x, In x new -> (exists i, In i is /\ x = (e, incr i j)) /\ below (dims e) (snd x) /\ ~ In x cs) /\
    (forall i, In i is -> below (dims e) (incr i j) -> In (e, incr i j) new \/ In (e, incr i j) cs).
Proof.
  intros e j. induction is as [|i r IH]; intros h cs ND L B.
  - exists []. cbn. rewrite app_nil_r. repeat split; [constructor|contradiction|contradiction..].
  - inversion ND as [|? ? NI ND']; subst. cbn [push_succ].
    destruct (in_range (dims e) (incr i j) i) eqn:R; cbn [andb].
    + destruct (mem (e, incr i j) cs) eqn:M; cbn [negb].
      * destruct (IH h cs ND' (fun k K => L k (or_intror K)) B) as (new & E & N1 & N2 & N3). exists new. repeat split; try assumption.
        -- destruct (N2 x H) as ((k & K & X) & _). exists k. split; [right; exact K|exact X].
        -- apply (N2 x H).
        -- apply (N2 x H).
        -- intros k [<-|K] BK; [right; apply mem_in, M|apply (N3 k K BK)].
      * destruct (IH (h ++ [(e, incr i j)]) ((e, incr i j) :: cs) ND' (fun k K => L k (or_intror K)) B) as (new & E & N1 & N2 & N3).
        exists ((e, incr i j) :: new). apply mem_out in M. cbn [rev]. rewrite E, <- !app_assoc. cbn [app]. split; [reflexivity|]. split; [|split].
        -- constructor; [|exact N1]. intros X. apply N2 in X. destruct X as (_ & _ & X). apply X. left. reflexivity.
        -- intros x [<-|X].
           ++ split; [exists i; split; [left|]; reflexivity|]. split; [|exact M]. apply below_incr; [exact B|apply L; left; reflexivity|exact R].
           ++ destruct (N2 x X) as ((k & K & X1) & X2 & X3). split; [exists k; split; [right; exact K|exact X1]|]. split; [exact X2|]. intros Y. apply X3. right. exact Y.
        -- intros k [<-|K] BK; [left; left; reflexivity|]. destruct (N3 k K BK) as [X|[X|X]]; [left; right; exact X|left; left; exact X|right; exact X].
    + destruct (IH h cs ND' (fun k K => L k (or_intror K)) B) as (new & E & N1 & N2 & N3). exists new. repeat split; try assumption.
      * destruct (N2 x H) as ((k & K & X) & _). exists k. split; [right; exact K|exact X].
      * apply (N2 x H).
      * apply (N2 x H).
      * intros k [<-|K] BK; [|apply (N3 k K BK)]. apply (below_incr _ _ _ B) in BK; [congruence|]. apply L. left. reflexivity.
Qed.

Definition inv (st : strategy) (q : queue) : Prop :=
  ok q /\
  match st with
  | Normal => (forall c, In c (seen q) <-> In c (heap q ++ popped q)) /\
              (forall e j i, In (e, j) (popped q) -> i < length j -> below (dims e) (incr i j) -> In (e, incr i j) (heap q ++ popped q))
  | Fast => (forall e j i j', In (e, j) (heap q ++ popped q) -> first j = Some i -> decr i j = Some j' -> In (e, j') (popped q)) /\
            (forall e j i, In (e, j) (popped q) -> i < length j -> first (incr i j) = Some i -> below (dims e) (incr i j) -> In (e, incr i j) (heap q ++ popped q))
  | Fast2 => (forall e j i j', In (e, j) (heap q ++ popped q) -> decr i j = Some j' -> In (e, j') (popped q)) /\
             (forall e j, In e es -> below (dims e) j -> (forall i j', decr i j = Some j' -> In (e, j') (popped q)) -> In (e, j) (heap q ++ popped q))
  end.

Lemma popped_not : forall q l c r, ok q -> heap q = l ++ c :: r -> ~ In c (popped q).
Proof.
  intros q l c r O H I. pose proof (k_nodup _ O) as ND. rewrite H, <- app_assoc in ND. cbn in ND. apply NoDup_remove_2 in ND. apply ND. rewrite !in_app_iff. auto.
Qed.
Lemma head_in : forall q l c r, heap q = l ++ c :: r -> In c (heap q ++ popped q).
Proof. intros q l c r H. rewrite H, !in_app_iff. cbn. auto. Qed.

Lemma inv_normal : forall q l c r, inv Normal q -> heap q = l ++ c :: r -> exists q', after_pop dims Normal c (l ++ r) q = Some q' /\ inv Normal q'.
Proof.
  intros q l [e j] r (O & S & C) H. pose proof (head_in _ _ _ _ H) as HI. destruct (k_grid _ O _ HI) as (Ge & Gj). cbn [fst snd] in Ge, Gj.
  destruct (push_succ_spec e j (seq 0 (length j)) (l ++ r) (seen q) (seq_NoDup _ _) (fun i I => proj2 (proj1 (in_seq _ _ _) I)) Gj) as (new & E & N1 & N2 & N3).
  unfold after_pop. rewrite E. eexists. split; [reflexivity|].
  destruct (step_ok q l (e, j) r new (rev new ++ seen q) O H N1) as (O' & I').
  { intros x X. destruct (N2 x X) as ((i & _ & ->) & B & NI). split; [split; [exact Ge|exact B]|]. rewrite <- S. exact NI. }
  split; [exact O'|]. cbn [seen heap popped]. split.
  - intros x. rewrite I', in_app_iff, <- in_rev, S. reflexivity.
  - intros e' j' i [X|X] LI B.
    + injection X as <- <-. apply I'. rewrite <- S. apply N3; [apply in_seq; lia|exact B].
    + apply I'. right. apply (C e' j' i X LI B).
Qed.
(** ** The strategy of unique ancestors *)
Lemma push_fast_spec : forall e j k n h, k + n = length j -> (forall i, i < k -> nth i j 0 = 0) -> below (dims e) j ->
  exists new, push_fast dims e j (seq k n) h = h ++ new /\ NoDup new /\
    (forall x, In x new <-> exists i, k <= i < k + n /\ x = (e, incr i j) /\ below (dims e) (incr i j) /\ first (incr i j) = Some i).
Proof.
  intros e j k n. revert k. induction n as [|n IH]; intros k h L Z B.
  - exists []. cbn. rewrite app_nil_r. repeat split; [constructor|contradiction|]. intros (i & I & _). lia.
  - cbn [seq push_fast].
    assert (FK : first (incr k j) = Some k) by (apply first_incr; [lia|exact Z]).
    pose proof (below_incr (dims e) j k B ltac:(lia)) as BK.
    set (one := if in_range (dims e) (incr k j) k then [(e, incr k j)] else []).
    assert (E1 : (if in_range (dims e) (incr k j) k then h ++ [(e, incr k j)] else h) = h ++ one) by (unfold one; destruct in_range; [reflexivity|rewrite app_nil_r; reflexivity]).
    rewrite E1.
    assert (O1 : forall x, In x one <-> x = (e, incr k j) /\ below (dims e) (incr k j)).
    { intros x. unfold one. rewrite <- BK. destruct in_range; cbn; split; [intros [<-|[]]; auto|intros (-> & _); auto|contradiction|intros (_ & X); discriminate]. }
    assert (O2 : NoDup one) by (unfold one; destruct in_range; repeat constructor; intros []).
    destruct (Nat.eqb_spec (nth k j 0) 0) as [E0|E0].
    + destruct (IH (S k) (h ++ one) ltac:(lia)) as (new & E & N1 & N2); [intros i I; destruct (Nat.eq_dec i k) as [->|]; [exact E0|apply Z; lia]|exact B|].
      exists (one ++ new). rewrite E, app_assoc. split; [reflexivity|]. split.
      * apply NoDup_app_i; [exact O2|exact N1|]. intros x X Y. apply O1 in X. apply N2 in Y. destruct X as (-> & _). destruct Y as (i & I & EI & _).
        injection EI as EI. apply incr_inj in EI; lia.
      * intros x. rewrite in_app_iff, O1, N2. split.
        -- intros [(-> & X)|(i & I & X)]; [exists k; repeat split; auto; lia|exists i; split; [lia|exact X]].
        -- intros (i & I & -> & X & F). destruct (Nat.eq_dec i k) as [->|NE]; [left; auto|right; exists i; repeat split; auto; lia].
    + exists one. split; [reflexivity|]. split; [exact O2|]. intros x. rewrite O1. split.
      * intros (-> & X). exists k. repeat split; auto; lia.
      * intros (i & I & -> & X & F). destruct (Nat.eq_dec i k) as [->|NE]; [auto|]. exfalso. apply E0. apply (proj1 (first_incr i j ltac:(lia)) F). lia.
Qed.
Lemma decr_fun : forall i j j', i < length j -> decr i (incr i j) = Some j' -> j' = j.
Proof. intros i j j' L E. rewrite decr_incr in E by exact L. congruence. Qed.

Lemma inv_fast : forall q l c r, inv Fast q -> heap q = l ++ c :: r -> exists q', after_pop dims Fast c (l ++ r) q = Some q' /\ inv Fast q'.
Proof.
  intros q l [e j] r (O & P & C) H. pose proof (head_in _ _ _ _ H) as HI. destruct (k_grid _ O _ HI) as (Ge & Gj). cbn [fst snd] in Ge, Gj.
  destruct (push_fast_spec e j 0 (length j) (l ++ r) eq_refl ltac:(intros; lia) Gj) as (new & E & N1 & N2).
  unfold after_pop. rewrite E. eexists. split; [reflexivity|].
  destruct (step_ok q l (e, j) r new [] O H N1) as (O' & I').
  { intros x X. apply N2 in X. destruct X as (i & LI & -> & B & F). split; [split; [exact Ge|exact B]|]. intros Y.
    apply (popped_not _ _ _ _ O H). apply (P e (incr i j) i j Y F). apply decr_incr. lia. }
  split; [exact O'|]. cbn [heap popped]. split.
  - intros e' j' i j'' X F D. apply I' in X. destruct X as [X|X].
    + apply N2 in X. destruct X as (i' & LI & EQ & B & F'). injection EQ as -> ->. rewrite F in F'. injection F' as ->. apply decr_fun in D; [subst; left; reflexivity|lia].
    + right. apply (P _ _ _ _ X F D).
  - intros e' j' i [X|X] LI F B.
    + injection X as <- <-. apply I'. left. apply N2. exists i. repeat split; auto; lia.
    + apply I'. right. apply (C e' j' i X LI F B).
Qed.
(** ** The strategy waiting for all ancestors *)
Lemma anc_spec : forall e j cs, has_all_ancestors e j cs = true <-> forall i j', decr i j = Some j' -> In (e, j') cs.
Proof.
  intros e j cs. unfold has_all_ancestors. rewrite forallb_forall. split.
  - intros H i j' D. specialize (H i). rewrite D in H. apply mem_in, H. apply in_seq. destruct (incr_decr _ _ _ D). lia.
  - intros H i _. destruct (decr i j) as [j'|] eqn:D; [|reflexivity]. apply mem_in, (H i j' D).
Qed.
Lemma push_fast2_spec : forall e j is h cs, NoDup is -> (forall i, In i is -> i < length j) -> below (dims e) j ->
  exists new, push_fast2 dims e j is h cs = h ++ new /\ NoDup new /\
    (forall x, In x new <-> exists i, In i is /\ x = (e, incr i j) /\ below (dims e) (incr i j) /\ forall k j', decr k (incr i j) = Some j' -> In (e, j') cs).
Proof.
  intros e j. induction is as [|k r IH]; intros h cs ND L B.
  - exists []. cbn. rewrite app_nil_r. repeat split; [constructor|contradiction|]. intros (i & [] & _).
  - inversion ND as [|? ? NI ND']; subst. cbn [push_fast2].
    pose proof (below_incr (dims e) j k B (L k (or_introl eq_refl))) as BK. pose proof (anc_spec e (incr k j) cs) as AK.
    set (one := if in_range (dims e) (incr k j) k && has_all_ancestors e (incr k j) cs then [(e, incr k j)] else []).
    assert (E1 : (if in_range (dims e) (incr k j) k && has_all_ancestors e (incr k j) cs then h ++ [(e, incr k j)] else h) = h ++ one) by (unfold one; destruct (_ && _); [reflexivity|rewrite app_nil_r; reflexivity]).
    rewrite E1.
    assert (O1 : forall x, In x one <-> x = (e, incr k j) /\ below (dims e) (incr k j) /\ forall i j', decr i (incr k j) = Some j' -> In (e, j') cs).
    { intros x. unfold one. rewrite <- BK, <- AK. destruct in_range, has_all_ancestors; cbn; split; try contradiction; try (intros (_ & X & Y); discriminate); [intros [<-|[]]; auto|intros (-> & _); auto]. }
    assert (O2 : NoDup one) by (unfold one; destruct (_ && _); repeat constructor; intros []).
    destruct (IH (h ++ one) cs ND' (fun i I => L i (or_intror I)) B) as (new & E & N1 & N2).
    exists (one ++ new). rewrite E, app_assoc. split; [reflexivity|]. split.
    + apply NoDup_app_i; [exact O2|exact N1|]. intros x X Y. apply O1 in X. apply N2 in Y. destruct X as (-> & _). destruct Y as (i & I & EI & _).
      injection EI as EI. apply incr_inj in EI; [subst; contradiction|]. apply L. left. reflexivity.
    + intros x. rewrite in_app_iff, O1, N2. split.
      * intros [(-> & X)|(i & I & X)]; [exists k; split; [left; reflexivity|split; [reflexivity|exact X]]|exists i; split; [right; exact I|exact X]].
      * intros (i & [<-|I] & X); [left; exact X|right; exists i; split; [exact I|exact X]].
Qed.
Lemma inv_fast2 : forall q l c r, inv Fast2 q -> heap q = l ++ c :: r -> exists q', after_pop dims Fast2 c (l ++ r) q = Some q' /\ inv Fast2 q'.
Proof.
  intros q l [e j] r (O & P & C) H. pose proof (head_in _ _ _ _ H) as HI. destruct (k_grid _ O _ HI) as (Ge & Gj). cbn [fst snd] in Ge, Gj.
  pose proof (popped_not _ _ _ _ O H) as NP.
  destruct (push_fast2_spec e j (seq 0 (length j)) (l ++ r) ((e, j) :: popped q) (seq_NoDup _ _) (fun i I => proj2 (proj1 (in_seq _ _ _) I)) Gj) as (new & E & N1 & N2).
  unfold after_pop. cbv zeta. rewrite (proj2 (mem_out _ _) NP). exists {| heap := (l ++ r) ++ new; seen := []; popped := (e, j) :: popped q |}. split; [rewrite <- E; reflexivity|].
  destruct (step_ok q l (e, j) r new [] O H N1) as (O' & I').
  { intros x X. apply N2 in X. destruct X as (i & LI & -> & B & F). split; [split; [exact Ge|exact B]|]. intros Y.
    apply NP. apply (P e (incr i j) i j Y). apply decr_incr. apply in_seq in LI. lia. }
  split; [exact O'|]. cbn [heap popped]. split.
  - intros e' j' i j'' X D. apply I' in X. destruct X as [X|X].
    + apply N2 in X. destruct X as (i' & LI & EQ & B & F'). injection EQ as -> ->. apply (F' i j'' D).
    + right. apply (P _ _ _ _ X D).
  - intros e' j' Ie B A. apply I'.
    destruct (mem (e', j') (heap q ++ popped q)) eqn:M; [right; apply mem_in, M|]. apply mem_out in M. left.
    assert (X : exists i, decr i j' = Some j /\ e' = e).
    { assert (D : forall i k, i + k = length j' -> (forall m, m < i -> forall y, decr m j' = Some y -> (e', y) <> (e, j)) -> exists i, decr i j' = Some j /\ e' = e).
      { intros i k. revert i. induction k as [|k IHk]; intros i L F.
        - exfalso. apply M. apply C; [exact Ie|exact B|]. intros m y D. destruct (A m y D) as [X|X]; [|exact X]. exfalso. apply (F m) with y; [|exact D|congruence].
          destruct (incr_decr _ _ _ D). lia.
        - destruct (decr i j') as [y|] eqn:D.
          + destruct (A i y D) as [X|X]; [injection X as <- <-; exists i; auto|]. apply (IHk (S i)); [lia|]. intros m LM z Dz EQ. destruct (Nat.eq_dec m i) as [->|].
            * rewrite D in Dz. injection Dz as <-. rewrite EQ in X. contradiction.
            * apply (F m ltac:(lia) z Dz EQ).
          + apply (IHk (S i)); [lia|]. intros m LM z Dz. destruct (Nat.eq_dec m i) as [->|]; [congruence|]. apply (F m ltac:(lia) z Dz). }
      apply (D 0 (length j') eq_refl). intros; lia. }
    destruct X as (i & D & ->). destruct (incr_decr _ _ _ D) as (X1 & X2 & X3). apply N2. exists i. rewrite X2. split; [apply in_seq; lia|]. split; [reflexivity|]. split; [exact B|].
    intros k y Dy. destruct (A k y Dy) as [X|X]; [left|right]; exact X.
Qed.

Lemma inv_step : forall st q l c r, inv st q -> heap q = l ++ c :: r -> exists q', after_pop dims st c (l ++ r) q = Some q' /\ inv st q' /\ length (popped q') = S (length (popped q)).
Proof.
  intros st q l c r I H.
  assert (X : exists q', after_pop dims st c (l ++ r) q = Some q' /\ inv st q') by (destruct st; [apply inv_normal|apply inv_fast|apply inv_fast2]; assumption).
  destruct X as (q' & E & I'). exists q'. split; [exact E|]. split; [exact I'|]. destruct c as [e j]. cbn in E. destruct st.
  - destruct push_succ as [[h cs]|]; [|discriminate]. injection E as <-. reflexivity.
  - injection E as <-. reflexivity.
  - destruct mem; [discriminate|]. injection E as <-. reflexivity.
Qed.
Lemma init_seen_spec : forall l cs, NoDup l -> (forall e j, In e l -> ~ In (e, j) cs) -> exists s, init_seen dims l cs = Some s /\ forall c, In c s <-> In c (init_heap dims l) \/ In c cs.
Proof.
  induction l as [|e l IH]; intros cs ND D.
  - exists cs. split; [reflexivity|]. cbn. tauto.
  - inversion ND; subst. cbn [init_seen]. rewrite (proj2 (mem_out _ _) (D e _ (or_introl eq_refl))).
    destruct (IH ((e, map (fun _ => 0) (dims e)) :: cs)) as (s & E & S); [assumption| |].
    + intros e' j I [X|X]; [injection X as X _; subst e'; contradiction|]. apply (D e' j (or_intror I) X).
    + exists s. split; [exact E|]. intros c. rewrite S. cbn. tauto.
Qed.
Lemma init_inv : forall st, exists q, init dims st es = Some q /\ inv st q /\ popped q = [].
Proof.
  intros st. destruct st; cbn [init].
  - destruct (init_seen_spec es (@nil cand) ES ltac:(intros; intros [])) as (s & E & S). rewrite E. eexists. split; [reflexivity|]. split; [|reflexivity]. split; [apply init_ok|]. cbn. split; [|contradiction].
    intros c. rewrite S, app_nil_r. cbn. tauto.
  - eexists. split; [reflexivity|]. split; [|reflexivity]. split; [apply init_ok|]. cbn. split; [|contradiction]. intros e j i j' I F D. exfalso. rewrite app_nil_r in I. apply init_roots in I. destruct I as (_ & X). cbn in X. subst. rewrite zeros_nodecr in D. discriminate.
  - eexists. split; [reflexivity|]. split; [|reflexivity]. split; [apply init_ok|]. cbn. split.
    + intros e j i j' I D. exfalso. rewrite app_nil_r in I. apply init_roots in I. destruct I as (_ & X). cbn in X. subst. rewrite zeros_nodecr in D. discriminate.
    + intros e j I B A. rewrite app_nil_r. apply init_roots. split; [exact I|]. cbn. destruct (first j) as [i|] eqn:F; [|apply first_none; [apply below_length, B|exact F]].
      destruct (first_decr _ _ F) as (j' & D). destruct (A i j' D).
Qed.
Lemma inv_final : forall st q, inv st q -> heap q = [] -> Permutation (popped q) all_cands.
Proof.
  intros st q (O & I) H. apply final_perm; try assumption. apply reach_all. intros e j E B A.
  assert (R : forall l, first j = None -> (forall c, root c -> In c l) -> In (e, j) l).
  { intros l F RR. apply RR. split; [exact E|]. cbn. apply first_none; [apply below_length, B|exact F]. }
  pose proof (k_root _ O) as KR. rewrite H in *. cbn [app] in *. destruct st.
  - destruct I as (_ & C). destruct (first j) as [i|] eqn:F; [|exact (R _ eq_refl KR)]. destruct (first_decr _ _ F) as (j' & D). destruct (incr_decr _ _ _ D) as (L & Q & L').
    rewrite <- Q. apply (C e j' i (A _ _ D)); [lia|rewrite Q; exact B].
  - destruct I as (_ & C). destruct (first j) as [i|] eqn:F; [|exact (R _ eq_refl KR)]. destruct (first_decr _ _ F) as (j' & D). destruct (incr_decr _ _ _ D) as (L & Q & L').
    rewrite <- Q. apply (C e j' i (A _ _ D)); [lia|rewrite Q; exact F|rewrite Q; exact B].
  - destruct I as (_ & C). apply (C e j E B A).
Qed.

Lemma loop_ok : forall st k q res, loop dims st k q res -> inv st q ->
  exists q', res = Some q' /\ inv st q' /\ (heap q' = [] \/ length (popped q') = k + length (popped q)).
Proof.
  intros st k q res L. induction L as [k q H|q|k q l c r q' res H E L IH|k q l c r H E]; intros I.
  - exists q. auto.
  - exists q. auto.
  - destruct (inv_step st q l c r I H) as (q1 & E1 & I1 & LP). rewrite E in E1. injection E1 as <-. destruct IH as (q2 & -> & I2 & D); [exact I1|]. exists q2. split; [reflexivity|]. split; [exact I2|].
    destruct D as [D|D]; [left; exact D|right; lia].
  - destruct (inv_step st q l c r I H) as (q1 & E1 & _). congruence.
Qed.
Lemma loop_exists : forall st k q, inv st q -> exists res, loop dims st k q res.
Proof.
  intros st k. induction k as [|k IH]; intros q I; [exists (Some q); apply loop_limit|].
  destruct (heap q) as [|c r] eqn:H; [exists (Some q); apply loop_empty; exact H|].
  destruct (inv_step st q [] c r I H) as (q1 & E1 & I1 & _). destruct (IH q1 I1) as (res & L). exists res. apply (loop_pop dims st k q [] c r q1 res H E1 L).
Qed.
End K.

Lemma perm_head_nil : forall {A} (h p all : list A), length (h ++ p) <= length all -> length p = length all -> h = [].
Proof. intros A [|x h] p all L E; [reflexivity|]. rewrite app_length in L. cbn in L. lia. Qed.

(** The number of combinations. *)
Lemma combos_length : forall d, length (combos d) = fold_right Nat.mul 1 d.
Proof.
  induction d as [|k d IH]; [reflexivity|]. cbn [combos fold_right]. rewrite <- IH.
  assert (X : forall l : list (list nat), length (flat_map (fun t => map (fun i => i :: t) (seq 0 k)) l) = k * length l).
  { induction l as [|t l IHl]; [cbn; lia|]. cbn [flat_map length]. rewrite app_length, IHl, map_length, seq_length. lia. }
  apply X.
Qed.
Lemma all_length : forall dims es, length (all_cands dims es) = list_sum (map (fun e => fold_right Nat.mul 1 (dims e)) es).
Proof.
  intros dims es. unfold all_cands. induction es as [|e es IH]; [reflexivity|]. cbn [flat_map map list_sum fold_right]. rewrite app_length, map_length, combos_length. f_equal. exact IH.
Qed.
Theorem cube_enumerates : forall (dims : nat -> list nat) (es : list nat) (st : strategy) (limit : nat), NoDup es -> (forall e, In e es -> Forall (fun k => 0 < k) (dims e)) ->
  exists q0, init dims st es = Some q0 /\ (exists res, loop dims st limit q0 res) /\
  forall res, loop dims st limit q0 res -> exists q, res = Some q /\
    NoDup (popped q) /\
    (forall e j, In (e, j) (popped q) -> In e es /\ Forall2 lt j (dims e)) /\
    length (popped q) = Nat.min limit (list_sum (map (fun e => fold_right Nat.mul 1 (dims e)) es)) /\
    (list_sum (map (fun e => fold_right Nat.mul 1 (dims e)) es) <= limit -> forall e j, In e es -> Forall2 lt j (dims e) -> In (e, j) (popped q)).
Proof.
  intros dims es st limit ND POS. destruct (init_inv dims es ND POS st) as (q0 & E & I & P0). exists q0. split; [exact E|]. split; [apply (loop_exists dims es), I|].
  intros res L. destruct (loop_ok dims es st limit q0 res L I) as (q & -> & I' & D). exists q. split; [reflexivity|]. rewrite P0 in D. cbn in D. rewrite Nat.add_0_r in D.
  pose proof (proj1 I') as O. rewrite <- all_length. pose proof (popped_length dims es q O) as X. rewrite app_length in X.
  pose proof (inv_final dims es ND st q I') as F.
  assert (LL : forall k q0 res, loop dims st k q0 res -> forall q, inv dims es st q0 -> res = Some q -> length (popped q) <= k + length (popped q0)).
  { clear - es. intros k q0 res L. induction L as [k q H|q|k q l c r q' res H E L IH|k q l c r H E]; intros q2 I EQ; try (injection EQ as <-; lia); try discriminate.
    destruct (inv_step dims es st q l c r I H) as (q1 & E1 & I1 & LP). rewrite E in E1. injection E1 as <-. specialize (IH q2 I1 EQ). lia. }
  specialize (LL limit q0 _ L q I eq_refl). rewrite P0 in LL. cbn in LL. rewrite Nat.add_0_r in LL.
  split; [|split; [|split]].
  - pose proof (k_nodup _ _ _ O) as Y. clear - Y. induction (heap q); [exact Y|]. inversion Y; auto.
  - intros e j Y. apply (k_grid _ _ _ O (e, j)). apply in_app_iff. right. exact Y.
  - destruct D as [D|D]; [|lia]. apply Permutation_length in F; [lia|exact D].
  - intros T e j Ie B.
    assert (H : heap q = []).
    { destruct D as [D|D]; [exact D|]. apply length_zero_iff_nil. lia. }
    apply (Permutation_in _ (Permutation_sym (F H))). apply all_cands_in. split; assumption.
Qed.
