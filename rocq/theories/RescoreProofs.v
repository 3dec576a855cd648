From Coq Require Import List Arith Lia Bool ZArith FinFun.
From Verif Require Import HG HGProofs Deriv TopoSpec Rescore RescoreSpec.
Import ListNotations.

(** ** The odometer *)
Fixpoint combos (ends : list nat) : list (list nat) :=
  match ends with [] => [[]] | k :: r => flat_map (fun t => map (fun i => i :: t) (seq 0 k)) (combos r) end.

Inductive walk (ends : list nat) : list nat -> list (list nat) -> Prop :=
| walk_last : forall it, advance ends it = None -> walk ends it [it]
| walk_step : forall it it' l, advance ends it = Some it' -> walk ends it' l -> walk ends it (it :: l).

Lemma walk_cons : forall k r t l, walk r t l -> forall d i, i + S d = k ->
  walk (k :: r) (i :: t) (map (fun i => i :: t) (seq i (S d)) ++ flat_map (fun t => map (fun i => i :: t) (seq 0 k)) (tl l)).
Proof.
  intros k r t l W. induction W as [t A|t t' l A W IH]; intros d; induction d as [|d IHd]; intros i E.
  - cbn. apply walk_last. cbn [advance]. rewrite (proj2 (Nat.ltb_ge (S i) k)) by lia. rewrite A. reflexivity.
  - cbn [seq map app]. eapply walk_step; [cbn [advance]; rewrite (proj2 (Nat.ltb_lt (S i) k)) by lia; reflexivity|]. apply (IHd (S i)). lia.
  - cbn [seq map app tl]. destruct k as [|k]; [lia|].
    eapply walk_step; [cbn [advance]; rewrite (proj2 (Nat.ltb_ge (S i) (S k))) by lia; rewrite A; reflexivity|].
    specialize (IH k 0 ltac:(lia)). replace l with (t' :: tl l) by (inversion W; reflexivity). cbn [flat_map tl]. exact IH.
  - cbn [seq map app]. eapply walk_step; [cbn [advance]; rewrite (proj2 (Nat.ltb_lt (S i) k)) by lia; reflexivity|]. apply (IHd (S i)). lia.
Qed.
Lemma walk_combos : forall ends, Forall (fun k => 0 < k) ends -> walk ends (map (fun _ => 0) ends) (combos ends).
Proof.
  induction ends as [|k r IH]; intros F; [apply walk_last; reflexivity|]. inversion F as [|? ? K F']; subst. specialize (IH F').
  cbn [map combos]. destruct k as [|k]; [lia|]. pose proof (walk_cons (S k) r _ _ IH k 0 ltac:(lia)) as W.
  replace (combos r) with (map (fun _ => 0) r :: tl (combos r)) by (inversion IH; reflexivity). exact W.
Qed.
Lemma combos_length : forall ends, length (combos ends) = prod ends.
Proof.
  induction ends as [|k r IH]; [reflexivity|]. cbn [combos prod]. rewrite <- IH. clear IH. induction (combos r) as [|t l IH]; [cbn; lia|].
  cbn [flat_map]. rewrite app_length, map_length, seq_length, IH. cbn. lia.
Qed.
Lemma combos_in : forall ends it, In it (combos ends) <-> Forall2 lt it ends.
Proof.
  induction ends as [|k r IH]; intros it; cbn [combos].
  - split; [intros [<-|[]]; constructor|]. intros F. inversion F. left. reflexivity.
  - rewrite in_flat_map. split.
    + intros (t & T & I). apply in_map_iff in I. destruct I as (i & <- & I). apply in_seq in I. constructor; [lia|]. apply IH, T.
    + intros F. inversion F as [|i ? t ? L F']; subst. exists t. split; [apply IH, F'|]. apply in_map_iff. exists i. split; [reflexivity|]. apply in_seq. lia.
Qed.
Lemma NoDup_app_i : forall A (l r : list A), NoDup l -> NoDup r -> (forall x, In x l -> ~ In x r) -> NoDup (l ++ r).
Proof.
  induction l as [|x l IH]; intros r L R D; [exact R|]. inversion L; subst. cbn. constructor.
  - intros I. apply in_app_iff in I. destruct I as [I|I]; [contradiction|]. exact (D x (or_introl eq_refl) I).
  - apply IH; auto. intros y Y. apply D. right. exact Y.
Qed.
Lemma combos_nodup : forall ends, NoDup (combos ends).
Proof.
  induction ends as [|k r IH]; [constructor; [intros []|constructor]|]. cbn [combos]. induction IH as [|t l NI ND IH]; [constructor|].
  cbn [flat_map]. apply NoDup_app_i; [|exact IH|].
  - apply Injective_map_NoDup; [intros a b E; congruence|apply seq_NoDup].
  - intros x X Y. apply in_map_iff in X. destruct X as (i & <- & _). apply in_flat_map in Y. destruct Y as (u & U & Y).
    apply in_map_iff in Y. destruct Y as (j & E & _). injection E as _ ->. contradiction.
Qed.

Lemma Forall2_mono : forall A B (R R' : A -> B -> Prop) l l', (forall a b, R a b -> R' a b) -> Forall2 R l l' -> Forall2 R' l l'.
Proof. intros A B R R' l l' H F. induction F; constructor; auto. Qed.

Section M.
Context {P Q St : Type}.
Variable eqS : St -> St -> bool.
Hypothesis eqS_ok : forall a b, eqS a b = true <-> a = b.
Variable empty : St.
Variable feat : edge P -> list St -> Q * St.
Variable final : edge P -> St -> Q.
Variable lhs : edge P -> Z.
Variable g : hg P.
Hypothesis TOPO : topo g.
Hypothesis HEADS : forall n nd e ed, nth_error (nodes g) n = Some nd -> In e (in_edges nd) -> nth_error (edges g) e = Some ed -> head ed = Some n.
Definition goal : nat := length (nodes g) - 1.
(** Every node used has an edge; the goal's edges have one tail. *)
Hypothesis LIVE : forall n nd e ed t td, nth_error (nodes g) n = Some nd -> In e (in_edges nd) -> nth_error (edges g) e = Some ed -> In t (tails ed) ->
  nth_error (nodes g) t = Some td -> in_edges td <> [].
Hypothesis GOAL1 : forall nd e ed, nth_error (nodes g) goal = Some nd -> In e (in_edges nd) -> nth_error (edges g) e = Some ed -> length (tails ed) = 1.

Notation rescorer := (@rescorer Q St).
Notation expand_one := (expand_one eqS empty feat final lhs).
Notation comp n := (apply_models empty feat final (n =? goal)).

Record item := { ie : nat; its : list nat; ih : nat; il : Q }.
Definition key (x : item) : nat * list nat := (ie x, its x).

Definition has (nds : list (nat * St)) (t t' : nat) : Prop := exists s, nth_error nds t' = Some (t, s).

Record good (nds : list (nat * St)) (x : item) (n : nat) : Prop := {
  g_nd : exists nd, nth_error (nodes g) n = Some nd /\ In (ie x) (in_edges nd);
  g_ed : exists ed ants hs, nth_error (edges g) (ie x) = Some ed /\ Forall2 (has nds) (tails ed) (its x) /\
    Forall2 (fun t' s => nth_error (map snd nds) t' = Some s) (its x) ants /\ comp n ed ants = Some (il x, hs) /\ nth_error nds (ih x) = Some (n, hs)
}.

Record inv (s : rescorer) (items : list item) (nds : list (nat * St)) : Prop := {
  v_ne : length (edges (out s)) = length items;
  v_nn : length (nodes (out s)) = length nds;
  v_edge : forall k x, nth_error items k = Some x -> nth_error (edges (out s)) k = Some {| head := Some (ih x); tails := its x; lab := il x; eid := k |};
  v_node : forall n' nd, nth_error (nodes (out s)) n' = Some nd -> nid nd = n' /\ NoDup (in_edges nd) /\
    (forall k, In k (in_edges nd) <-> exists x, nth_error items k = Some x /\ ih x = n') /\ (forall k, In k (out_edges nd) -> k < length items);
  v_st : node_states s = map snd nds;
  v_nm : length (nodemap s) = length (nodes g);
  v_map : forall n l, nth_error (nodemap s) n = Some l -> NoDup l /\ forall n', In n' l <-> has nds n n';
  v_uniq : NoDup nds;
  v_good : forall x, In x items -> exists n, good nds x n
}.

Lemma has_app : forall nds x t t', has nds t t' -> has (nds ++ x) t t'.
Proof. intros nds x t t' (s & H). exists s. rewrite nth_error_app1; [exact H|]. apply nth_error_Some. congruence. Qed.
Lemma nth_app_some : forall A (l r : list A) k x, nth_error l k = Some x -> nth_error (l ++ r) k = Some x.
Proof. intros A l r k x H. rewrite nth_error_app1; [exact H|]. apply nth_error_Some. congruence. Qed.
Lemma good_app : forall nds r x n, good nds x n -> good (nds ++ r) x n.
Proof.
  intros nds r x n [A (ed & ants & hs & E & T & S & C & H)]. constructor; [exact A|]. exists ed, ants, hs. split; [exact E|].
  split; [eapply Forall2_mono; [|exact T]; intros a b; apply has_app|]. split; [|split; [exact C|apply nth_app_some, H]].
  eapply Forall2_mono; [|exact S]. intros a b X. rewrite map_app. apply nth_app_some, X.
Qed.

Lemma upd_nth' : forall A (l : list A) i f l' j, upd l i f = Some l' -> nth_error l' j = if i =? j then option_map f (nth_error l j) else nth_error l j.
Proof. exact upd_nth. Qed.

(** Adding an edge with an existing head. *)
Lemma add_item : forall s items nds x n g1 g2, inv s items nds -> good nds x n ->
  AddEdge (its x) (il x) (out s) = Some g1 -> Connect (length (edges (out s))) (ih x) g1 = Some g2 ->
  inv {| out := g2; nodemap := nodemap s; node_states := node_states s |} (items ++ [x]) nds.
Proof.
  intros s items nds x n g1 g2 I G A C. destruct I as [Vne Vnn Ve Vn Vs Vm Vmap Vu Vg]. unfold AddEdge in A.
  destruct (index_tails (length (edges (out s))) (its x) (nodes (out s))) as [ns|] eqn:IT; [|discriminate]. injection A as <-.
  unfold Connect in C. cbn [nodes edges] in C.
  destruct (upd _ (length (edges (out s))) (set_head (ih x))) as [es|] eqn:UE; [|discriminate]. destruct (upd ns (ih x) _) as [ns'|] eqn:UN; [|discriminate]. injection C as <-.
  destruct (index_tails_spec _ _ _ _ IT) as (L1 & SP).
  constructor; cbn [out nodemap node_states nodes edges]; auto.
  - rewrite (upd_length _ _ _ _ _ UE), !app_length, Vne. reflexivity.
  - rewrite (upd_length _ _ _ _ _ UN). lia.
  - intros k y K. rewrite (upd_nth _ _ _ _ _ k UE). destruct (Nat.lt_ge_cases k (length items)) as [L|L].
    + rewrite nth_error_app1 in K by exact L. destruct (Nat.eqb_spec (length (edges (out s))) k); [lia|]. rewrite nth_error_app1 by lia. exact (Ve k y K).
    + rewrite nth_error_app2 in K by exact L. assert (k = length items) by (assert (k - length items < length [x]) by (apply nth_error_Some; congruence); cbn in *; lia). subst k.
      rewrite Nat.sub_diag in K. injection K as <-. rewrite nth_error_app2 by lia. rewrite Vne, Nat.eqb_refl, Nat.sub_diag. reflexivity.
  - intros n' nd N. rewrite (upd_nth _ _ _ _ _ n' UN) in N.
    assert (BASE : forall nd0, nth_error ns n' = Some nd0 -> nid nd0 = n' /\ NoDup (in_edges nd0) /\ (forall k, In k (in_edges nd0) <-> exists y, nth_error items k = Some y /\ ih y = n') /\ (forall k, In k (out_edges nd0) -> k < S (length items))).
    { intros nd0 N0. destruct (nth_error (nodes (out s)) n') as [nd1|] eqn:E1; [|apply nth_error_None in E1; assert (n' < length ns) by (apply nth_error_Some; congruence); lia].
      destruct SP as (_ & SP). rewrite (SP _ _ E1) in N0. injection N0 as <-. cbn [nid in_edges out_edges]. destruct (Vn n' nd1 E1) as (B1 & B2 & B3 & B4).
      split; [exact B1|]. split; [exact B2|]. split; [exact B3|]. intros k K. apply in_app_iff in K. destruct K as [K|K]; [specialize (B4 k K); lia|].
      apply repeat_spec in K. lia. }
    assert (NEW : forall k y, nth_error (items ++ [x]) k = Some y <-> nth_error items k = Some y \/ (k = length items /\ y = x)).
    { intros k y. destruct (Nat.lt_ge_cases k (length items)) as [L|L].
      - rewrite nth_error_app1 by exact L. split; [auto|]. intros [H|[H _]]; [exact H|lia].
      - rewrite nth_error_app2 by exact L. split.
        + intros K. right. assert (k = length items) by (assert (k - length items < length [x]) by (apply nth_error_Some; congruence); cbn in *; lia). subst k. rewrite Nat.sub_diag in K. injection K as <-. auto.
        + intros [H|[-> ->]]; [|rewrite Nat.sub_diag; reflexivity]. assert (k < length items) by (apply nth_error_Some; congruence). lia. }
    rewrite app_length. cbn [length]. rewrite Nat.add_1_r.
    destruct (Nat.eqb_spec (ih x) n') as [<-|NE].
    + destruct (nth_error ns (ih x)) as [nd0|] eqn:E0; [|discriminate]. injection N as <-. destruct (BASE nd0 eq_refl) as (B1 & B2 & B3 & B4). cbn [push_in nid in_edges out_edges].
      split; [exact B1|]. split.
      * apply NoDup_app_i; [exact B2|repeat constructor; intros []|]. intros k K [HK|[]]. subst k. apply B3 in K. destruct K as (y & K & _). assert (length (edges (out s)) < length items) by (apply nth_error_Some; congruence). lia.
      * split; [|exact B4]. intros k. rewrite in_app_iff, B3. split.
        -- intros [(y & K & H)|[HK|[]]]; [exists y; rewrite NEW; auto|]. exists x. rewrite NEW. split; [right; split; [lia|reflexivity]|reflexivity].
        -- intros (y & K & H). apply NEW in K. destruct K as [K|[-> ->]]; [left; exists y; auto|right; left; congruence].
    + destruct (BASE nd N) as (B1 & B2 & B3 & B4). split; [exact B1|]. split; [exact B2|]. split; [|exact B4]. intros k. rewrite B3. split.
      * intros (y & K & H). exists y. rewrite NEW. auto.
      * intros (y & K & H). apply NEW in K. destruct K as [K|[-> ->]]; [exists y; auto|contradiction].
  - intros y Y. apply in_app_iff in Y. destruct Y as [Y|[<-|[]]]; [apply Vg, Y|exists n; exact G].
Qed.

Lemma upd_app : forall A (l r : list A) i f l', upd l i f = Some l' -> upd (l ++ r) i f = Some (l' ++ r).
Proof.
  induction l as [|x l IH]; intros r [|i] f l' H; cbn in *; try discriminate.
  - injection H as <-. reflexivity.
  - destruct (upd l i f) as [l1|] eqn:U; [|discriminate]. injection H as <-. rewrite (IH r i f l1 U). reflexivity.
Qed.
Lemma index_tails_app : forall e ts ns ns' r, index_tails e ts ns = Some ns' -> index_tails e ts (ns ++ r) = Some (ns' ++ r).
Proof.
  induction ts as [|t ts IH]; intros ns ns' r H; cbn in *; [injection H as <-; reflexivity|].
  destruct (upd ns t (push_out e)) as [n1|] eqn:U; [|discriminate]. rewrite (upd_app _ _ r _ _ _ U). apply IH, H.
Qed.

(** Adding a node. *)
Lemma add_node : forall s items nds i hs c nm, inv s items nds -> i < length (nodes g) -> ~ In (i, hs) nds ->
  upd (nodemap s) i (fun l => l ++ [length nds]) = Some nm ->
  inv {| out := {| nodes := nodes (out s) ++ [{| nid := length (nodes (out s)); cat := c; in_edges := []; out_edges := [] |}]; edges := edges (out s) |};
         nodemap := nm; node_states := node_states s ++ [hs] |} items (nds ++ [(i, hs)]).
Proof.
  intros s items nds i hs c nm I LI NI U. destruct I as [Vne Vnn Ve Vn Vs Vm Vmap Vu Vg].
  assert (HASN : forall t t', has (nds ++ [(i, hs)]) t t' <-> has nds t t' \/ (t = i /\ t' = length nds)).
  { intros t t'. unfold has. destruct (Nat.lt_ge_cases t' (length nds)) as [L|L].
    - rewrite nth_error_app1 by exact L. split; [auto|]. intros [H|[_ H]]; [exact H|lia].
    - rewrite nth_error_app2 by exact L. split.
      + intros (s0 & K). right. assert (t' = length nds) by (assert (t' - length nds < length [(i, hs)]) by (apply nth_error_Some; congruence); cbn in *; lia). subst t'. rewrite Nat.sub_diag in K. injection K as <- _. auto.
      + intros [(s0 & H)|[-> ->]]; [|rewrite Nat.sub_diag; exists hs; reflexivity]. assert (t' < length nds) by (apply nth_error_Some; congruence). lia. }
  constructor; cbn [out nodemap node_states nodes edges]; auto.
  - rewrite !app_length. cbn. lia.
  - intros n' nd N. destruct (Nat.lt_ge_cases n' (length (nodes (out s)))) as [L|L].
    + rewrite nth_error_app1 in N by exact L. exact (Vn n' nd N).
    + rewrite nth_error_app2 in N by exact L. assert (n' = length (nodes (out s))) by (assert (n' - length (nodes (out s)) < 1) by (change 1 with (length [{| nid := length (nodes (out s)); cat := c; in_edges := []; out_edges := [] |}]); apply nth_error_Some; congruence); lia).
      subst n'. rewrite Nat.sub_diag in N. injection N as <-. cbn [nid in_edges out_edges]. split; [reflexivity|]. split; [constructor|]. split; [|intros k []]. intros k. split; [intros []|].
      intros (x & X & H). destruct (Vg x (nth_error_In _ _ X)) as (n & [_ (ed & ants & hs' & _ & _ & _ & _ & H')]).
      assert (ih x < length nds) by (apply nth_error_Some; congruence). lia.
  - rewrite map_app, Vs. reflexivity.
  - rewrite (upd_length _ _ _ _ _ U). exact Vm.
  - intros n l N. rewrite (upd_nth _ _ _ _ _ n U) in N. destruct (Nat.eqb_spec i n) as [<-|NE].
    + destruct (nth_error (nodemap s) i) as [l0|] eqn:E0; [|discriminate]. injection N as <-. destruct (Vmap i l0 E0) as (ND & IFF). split.
      * apply NoDup_app_i; [exact ND|repeat constructor; intros []|]. intros k K [<-|[]]. apply IFF in K. destruct K as (s0 & K). assert (length nds < length nds) by (apply nth_error_Some; congruence). lia.
      * intros n'. rewrite in_app_iff, IFF, HASN. cbn. intuition.
    + destruct (Vmap n l N) as (ND & IFF). split; [exact ND|]. intros n'. rewrite IFF, HASN. intuition congruence.
  - apply NoDup_app_i; [exact Vu|repeat constructor; intros []|]. intros k K [<-|[]]. contradiction.
  - intros x X. destruct (Vg x X) as (n & G). exists n. apply good_app, G.
Qed.

Definition s2n_ok (nds : list (nat * St)) (i : nat) (m : list (St * nat)) : Prop :=
  forall s h, find_state eqS m s = Some h <-> nth_error nds h = Some (i, s).

Definition fresh (i : nat) (p : nat * St) : Prop := fst p = i /\ (i = goal -> snd p = empty).
Lemma eqS_refl : forall a, eqS a a = true.
Proof. intros a. apply eqS_ok. reflexivity. Qed.
Lemma find_none : forall nds i m s, s2n_ok nds i m -> find_state eqS m s = None -> ~ In (i, s) nds.
Proof. intros nds i m s OK F I. destruct (In_nth_error _ _ I) as (h & H). apply OK in H. congruence. Qed.

Lemma get_states_spec : forall (ns : list St) ts ants, get_states ns ts = Some ants <-> Forall2 (fun t s => nth_error ns t = Some s) ts ants.
Proof.
  intros ns. induction ts as [|t r IH]; intros ants; cbn; [split; [intros H; injection H as <-; constructor|intros F; inversion F; reflexivity]|].
  destruct (nth_error ns t) as [s|] eqn:E; [|split; [discriminate|intros F; inversion F; congruence]].
  destruct (get_states ns r) as [l|] eqn:R.
  - split; [intros H; injection H as <-; constructor; [exact E|apply IH; reflexivity]|]. intros F. inversion F as [|? ? ? ? H1 H2]; subst. apply IH in H2. congruence.
  - split; [discriminate|]. intros F. inversion F as [|? ? ? ? H1 H2]; subst. apply IH in H2. congruence.
Qed.

Lemma has_states : forall (nds : list (nat * St)) tl ts, Forall2 (has nds) tl ts -> exists ants, Forall2 (fun t s => nth_error (map snd nds) t = Some s) ts ants /\ length ants = length tl.
Proof.
  intros nds tl ts F. induction F as [|t t' tl ts (s & H) F (ants & A & L)]; [exists []; split; [constructor|reflexivity]|].
  exists (s :: ants). split; [constructor; [apply (map_nth_error snd _ _ H)|exact A]|cbn; lia].
Qed.

(** One combination. *)
Lemma expand_one_ok : forall s items nds i nd e ed m it ts, inv s items nds -> s2n_ok nds i m ->
  nth_error (nodes g) i = Some nd -> In e (in_edges nd) -> nth_error (edges g) e = Some ed ->
  get_tail (nodemap s) (tails ed) it = Some ts -> Forall2 (has nds) (tails ed) ts ->
  exists s' m' x extra, expand_one (i =? goal) ed it s m = Some (s', m') /\ inv s' (items ++ [x]) (nds ++ extra) /\ key x = (e, ts) /\
    s2n_ok (nds ++ extra) i m' /\ Forall (fresh i) extra /\ (forall t, t <> i -> nth_error (nodemap s') t = nth_error (nodemap s) t).
Proof.
  intros s items nds i nd e ed m it ts I OK N E ED GT F. unfold Rescore.expand_one. rewrite GT.
  destruct (has_states _ _ _ F) as (ants & A & LA). rewrite (v_st _ _ _ I), (proj2 (get_states_spec _ _ _) A).
  assert (C : exists l hs, comp i ed ants = Some (l, hs)).
  { unfold apply_models. destruct (Nat.eqb_spec i goal) as [->|]; [|destruct (feat ed ants) as [l hs]; exists l, hs; reflexivity].
    rewrite (GOAL1 nd e ed N E ED) in LA. destruct ants as [|a [|]]; try discriminate. eexists. eexists. reflexivity. }
  destruct C as (l & hs & C). rewrite C.
  assert (TB : forall t, In t ts -> t < length (nodes (out s))).
  { intros t T. rewrite (v_nn _ _ _ I). clear - F T. induction F as [|a b la lb (s0 & H) F IH]; [destruct T|]. destruct T as [<-|T]; [apply nth_error_Some; congruence|apply IH, T]. }
  destruct (index_tails_total (length (edges (out s))) ts (nodes (out s)) TB) as (ns & IT).
  unfold AddEdge at 1. rewrite IT.
  assert (LI : i < length (nodes g)) by (apply nth_error_Some; congruence).
  destruct (index_tails_spec _ _ _ _ IT) as (LN & _).
  destruct (find_state eqS m hs) as [h|] eqn:FS.
  - pose proof (proj1 (OK hs h) FS) as HN. set (x := {| ie := e; its := ts; ih := h; il := l |}).
    assert (G : good nds x i).
    { constructor; [exists nd; auto|]. exists ed, ants, hs. auto. }
    assert (CN : exists g2, Connect (length (edges (out s))) h {| nodes := ns; edges := edges (out s) ++ [{| head := None; tails := ts; lab := l; eid := length (edges (out s)) |}] |} = Some g2).
    { unfold Connect. cbn [nodes edges]. destruct (upd_total _ (edges (out s) ++ [{| head := None; tails := ts; lab := l; eid := length (edges (out s)) |}]) (length (edges (out s))) (set_head h)) as (es & ->); [rewrite app_length; cbn; lia|].
      destruct (upd_total _ ns h (push_in (length (edges (out s))))) as (ns2 & ->); [rewrite LN, (v_nn _ _ _ I); apply nth_error_Some; congruence|]. eexists. reflexivity. }
    destruct CN as (g2 & CN). rewrite CN. rewrite <- (v_st _ _ _ I). eexists. exists m, x, []. split; [reflexivity|]. rewrite app_nil_r. split.
    + eapply (add_item s items nds x i _ g2 I G); [unfold AddEdge; cbn [its il x]; rewrite IT; reflexivity|exact CN].
    + split; [reflexivity|]. split; [exact OK|]. split; [constructor|]. reflexivity.
  - cbn [nodes edges AddNode]. rewrite (HEADS i nd e ed N E ED). rewrite LN, (v_nn _ _ _ I).
    destruct (upd_total _ (nodemap s) i (fun l => l ++ [length nds])) as (nm & U); [rewrite (v_nm _ _ _ I); exact LI|]. rewrite U.
    pose proof (find_none _ _ _ _ OK FS) as NI. pose proof (add_node s items nds i hs (lhs ed) nm I LI NI U) as I1.
    set (x := {| ie := e; its := ts; ih := length nds; il := l |}).
    assert (HN : nth_error (nds ++ [(i, hs)]) (length nds) = Some (i, hs)) by (rewrite nth_error_app2, Nat.sub_diag by lia; reflexivity).
    assert (G : good (nds ++ [(i, hs)]) x i).
    { constructor; [exists nd; auto|]. exists ed, ants, hs. split; [exact ED|]. split; [eapply Forall2_mono; [|exact F]; intros a b; apply has_app|].
      split; [eapply Forall2_mono; [|exact A]; intros a b X; rewrite map_app; apply nth_app_some, X|]. auto. }
    pose proof (index_tails_app _ _ _ _ [{| nid := length (nodes (out s)); cat := lhs ed; in_edges := []; out_edges := [] |}] IT) as IT2.
    assert (CN : exists g2, Connect (length (edges (out s))) (length nds) {| nodes := ns ++ [{| nid := length nds; cat := lhs ed; in_edges := []; out_edges := [] |}];
        edges := edges (out s) ++ [{| head := None; tails := ts; lab := l; eid := length (edges (out s)) |}] |} = Some g2).
    { unfold Connect. cbn [nodes edges]. destruct (upd_total _ (edges (out s) ++ [{| head := None; tails := ts; lab := l; eid := length (edges (out s)) |}]) (length (edges (out s))) (set_head (length nds))) as (es & ->); [rewrite app_length; cbn; lia|].
      destruct (upd_total _ (ns ++ [{| nid := length nds; cat := lhs ed; in_edges := []; out_edges := [] |}]) (length nds) (push_in (length (edges (out s))))) as (ns2 & ->); [rewrite app_length, LN, (v_nn _ _ _ I); cbn; lia|]. eexists. reflexivity. }
    destruct CN as (g2 & CN). rewrite CN. rewrite <- (v_st _ _ _ I). eexists. exists ((hs, length nds) :: m), x, [(i, hs)]. split; [reflexivity|]. split.
    + eapply (add_item _ items (nds ++ [(i, hs)]) x i _ g2 I1 G); [unfold AddEdge; cbn [its il x out nodes edges]; rewrite IT2; reflexivity|].
      cbn [out edges]. rewrite (v_nn _ _ _ I). exact CN.
    + split; [reflexivity|]. split.
      * intros s0 h0. cbn [find_state]. destruct (eqS s0 hs) eqn:EQ.
        -- apply eqS_ok in EQ. subst s0. split; [intros X; injection X as <-; exact HN|]. intros X. f_equal.
           destruct (Nat.lt_ge_cases h0 (length nds)) as [L|L]; [rewrite nth_error_app1 in X by exact L; destruct (NI (nth_error_In _ _ X))|].
           assert (h0 < length (nds ++ [(i, hs)])) by (apply nth_error_Some; congruence). rewrite app_length in *. cbn in *. lia.
        -- rewrite (OK s0 h0). destruct (Nat.lt_ge_cases h0 (length nds)) as [L|L]; [rewrite nth_error_app1 by exact L; tauto|].
           split; [intros X; assert (h0 < length nds) by (apply nth_error_Some; congruence); lia|]. intros X.
           assert (h0 = length nds) by (assert (h0 < length (nds ++ [(i, hs)])) by (apply nth_error_Some; congruence); rewrite app_length in *; cbn in *; lia). subst h0.
           rewrite HN in X. injection X as <-. rewrite eqS_refl in EQ. discriminate.
      * split; [constructor; [|constructor]; split; [reflexivity|]; intros ->; cbn; unfold apply_models in C; rewrite Nat.eqb_refl in C; destruct ants as [|a [|]]; congruence|]. cbn [nodemap]. intros t NT. rewrite (upd_nth _ _ _ _ _ t U). destruct (Nat.eqb_spec i t); [congruence|reflexivity].
Qed.

(** ** All combinations of an edge *)
Fixpoint run_list (ig : bool) (ed : edge P) (l : list (list nat)) (s : rescorer) (m : list (St * nat)) :=
  match l with
  | [] => Some (s, m)
  | it :: r => match expand_one ig ed it s m with Some (s', m') => run_list ig ed r s' m' | None => None end
  end.
Lemma loop_run : forall ig ed ends it l, walk ends it l -> forall fuel s m, length l <= fuel ->
  expand_loop eqS empty feat final lhs fuel ig ed ends it s m = run_list ig ed l s m.
Proof.
  intros ig ed ends it l W. induction W as [it A|it it' l A W IH]; intros fuel s m L; destruct fuel as [|fuel]; cbn in L; try lia; cbn [expand_loop run_list].
  - destruct (expand_one ig ed it s m) as [[s' m']|]; [|reflexivity]. rewrite A. reflexivity.
  - destruct (expand_one ig ed it s m) as [[s' m']|]; [|reflexivity]. rewrite A. apply IH. lia.
Qed.

Lemma get_tail_ext : forall nm nm' ts it, (forall t, In t ts -> nth_error nm' t = nth_error nm t) -> get_tail nm' ts it = get_tail nm ts it.
Proof.
  induction ts as [|t r IH]; intros [|i it] H; try reflexivity. cbn. rewrite (H t (or_introl eq_refl)). rewrite IH by (intros u U; apply H; right; exact U). reflexivity.
Qed.
(** The tuples of an edge, in order. *)
Lemma get_tail_total : forall nm ts ends it, sizes nm ts = Some ends -> Forall2 lt it ends -> exists x, get_tail nm ts it = Some x /\ Forall2 (fun t t' => exists l, nth_error nm t = Some l /\ In t' l) ts x.
Proof.
  induction ts as [|t r IH]; intros ends it SZ F; cbn in SZ.
  - injection SZ as <-. inversion F. exists []. split; [reflexivity|constructor].
  - destruct (nth_error nm t) as [l|] eqn:E; [|discriminate]. destruct (sizes nm r) as [k|] eqn:K; [|discriminate]. injection SZ as <-.
    inversion F as [|i ? is ? L F']; subst. destruct (IH k is eq_refl F') as (x & G & H). cbn. rewrite E, G.
    destruct (nth_error l i) as [y|] eqn:Y; [|apply nth_error_None in Y; lia]. exists (y :: x). split; [reflexivity|]. constructor; [exists l; split; [exact E|eapply nth_error_In; eassumption]|exact H].
Qed.
Lemma get_tail_onto : forall nm ts ends x, sizes nm ts = Some ends -> Forall2 (fun t t' => exists l, nth_error nm t = Some l /\ In t' l) ts x -> exists it, Forall2 lt it ends /\ get_tail nm ts it = Some x.
Proof.
  induction ts as [|t r IH]; intros ends x SZ F; cbn in SZ.
  - injection SZ as <-. inversion F. exists []. split; [constructor|reflexivity].
  - destruct (nth_error nm t) as [l|] eqn:E; [|discriminate]. destruct (sizes nm r) as [k|] eqn:K; [|discriminate]. injection SZ as <-.
    inversion F as [|? y ? xs (l' & E' & I) F']; subst. rewrite E in E'. injection E' as <-. destruct (IH k xs eq_refl F') as (is & G & H).
    destruct (In_nth_error _ _ I) as (i & Y). exists (i :: is). split; [constructor; [apply nth_error_Some; congruence|exact G]|]. cbn. rewrite E, Y, H. reflexivity.
Qed.
Lemma get_tail_inj : forall nm ts it it' x, (forall t l, In t ts -> nth_error nm t = Some l -> NoDup l) -> get_tail nm ts it = Some x -> get_tail nm ts it' = Some x -> it = it'.
Proof.
  induction ts as [|t r IH]; intros [|i it] [|i' it'] x ND G G'; cbn in G, G'; try discriminate; [reflexivity|].
  destruct (nth_error nm t) as [l|] eqn:E; [|discriminate].
  destruct (nth_error l i) as [y|] eqn:Y; [|discriminate]. destruct (get_tail nm r it) as [z|] eqn:Z; [|discriminate]. injection G as <-.
  destruct (nth_error l i') as [y'|] eqn:Y'; [|discriminate]. destruct (get_tail nm r it') as [z'|] eqn:Z'; [|discriminate]. injection G' as -> ->.
  f_equal; [|apply (IH it it' z); auto; intros u k U; apply ND; right; exact U].
  apply (proj1 (NoDup_nth_error l) (ND t l (or_introl eq_refl) E)); [apply nth_error_Some; congruence|congruence].
Qed.
Lemma sizes_total : forall nm ts, (forall t, In t ts -> t < length nm) -> exists ends, sizes nm ts = Some ends.
Proof.
  induction ts as [|t r IH]; intros H; cbn; [eexists; reflexivity|]. destruct (nth_error nm t) as [l|] eqn:E; [|apply nth_error_None in E; specialize (H t (or_introl eq_refl)); lia].
  destruct (IH (fun u U => H u (or_intror U))) as (ends & ->). eexists. reflexivity.
Qed.
Lemma sizes_pos : forall nm ts ends, sizes nm ts = Some ends -> (forall t l, In t ts -> nth_error nm t = Some l -> l <> []) -> Forall (fun k => 0 < k) ends.
Proof.
  induction ts as [|t r IH]; intros ends SZ H; cbn in SZ; [injection SZ as <-; constructor|].
  destruct (nth_error nm t) as [l|] eqn:E; [|discriminate]. destruct (sizes nm r) as [k|]; [|discriminate]. injection SZ as <-. constructor.
  - specialize (H t l (or_introl eq_refl) E). destruct l; [congruence|cbn; lia].
  - apply IH; [reflexivity|]. intros u m U. apply H. right. exact U.
Qed.

Lemma run_list_ok : forall i nd e ed, nth_error (nodes g) i = Some nd -> In e (in_edges nd) -> nth_error (edges g) e = Some ed -> (forall t, In t (tails ed) -> t < i) ->
  forall l s items nds m tss, inv s items nds -> s2n_ok nds i m -> Forall2 (fun it ts => get_tail (nodemap s) (tails ed) it = Some ts /\ Forall2 (has nds) (tails ed) ts) l tss ->
  exists s' m' new extra, run_list (i =? goal) ed l s m = Some (s', m') /\ inv s' (items ++ new) (nds ++ extra) /\ map key new = map (pair e) tss /\
    s2n_ok (nds ++ extra) i m' /\ Forall (fresh i) extra /\ (forall t, t <> i -> nth_error (nodemap s') t = nth_error (nodemap s) t).
Proof.
  intros i nd e ed N E ED TL. induction l as [|it l IH]; intros s items nds m tss I OK F; inversion F as [|? ts ? tss' (G & H) F']; subst.
  - exists s, m, [], []. rewrite !app_nil_r. split; [reflexivity|]. split; [exact I|]. split; [reflexivity|]. split; [exact OK|]. split; [constructor|reflexivity].
  - destruct (expand_one_ok s items nds i nd e ed m it ts I OK N E ED G H) as (s1 & m1 & x & ex & R1 & I1 & K1 & OK1 & F1 & M1).
    destruct (IH s1 (items ++ [x]) (nds ++ ex) m1 tss' I1 OK1) as (s2 & m2 & new & ex2 & R2 & I2 & K2 & OK2 & F2 & M2).
    + eapply Forall2_mono; [|exact F']. intros it' ts' (G' & H'). split; [rewrite <- G'; apply get_tail_ext; intros t T; apply M1; specialize (TL t T); lia|].
      eapply Forall2_mono; [|exact H']. intros a b. apply has_app.
    + exists s2, m2, (x :: new), (ex ++ ex2). cbn [run_list]. rewrite R1. split; [exact R2|]. rewrite <- app_assoc in I2. cbn in I2. rewrite <- app_assoc in I2, OK2.
      split; [exact I2|]. split; [cbn; rewrite K1, K2; reflexivity|]. split; [exact OK2|]. split; [apply Forall_app; auto|]. intros t T. rewrite (M2 t T), (M1 t T). reflexivity.
Qed.

Lemma expand_edge_ok : forall i nd e ed s items nds m, nth_error (nodes g) i = Some nd -> In e (in_edges nd) -> nth_error (edges g) e = Some ed -> (forall t, In t (tails ed) -> t < i) ->
  (forall t l, In t (tails ed) -> nth_error (nodemap s) t = Some l -> l <> []) ->
  inv s items nds -> s2n_ok nds i m ->
  exists s' m' new extra tss, expand_edge eqS empty feat final lhs (i =? goal) ed s m = Some (s', m') /\ inv s' (items ++ new) (nds ++ extra) /\ map key new = map (pair e) tss /\
    NoDup tss /\ tss <> [] /\ (forall ts, In ts tss <-> Forall2 (has nds) (tails ed) ts) /\
    s2n_ok (nds ++ extra) i m' /\ Forall (fresh i) extra /\ (forall t, t <> i -> nth_error (nodemap s') t = nth_error (nodemap s) t).
Proof.
  intros i nd e ed s items nds m N E ED TL NE I OK. unfold expand_edge.
  assert (LI : i < length (nodes g)) by (apply nth_error_Some; congruence).
  destruct (sizes_total (nodemap s) (tails ed)) as (ends & SZ); [intros t T; rewrite (v_nm _ _ _ I); specialize (TL t T); lia|]. rewrite SZ.
  pose proof (sizes_pos _ _ _ SZ NE) as POS. pose proof (walk_combos ends POS) as W.
  rewrite (loop_run _ _ _ _ _ W) by (rewrite combos_length; lia).
  assert (HM : forall ts, Forall2 (fun t t' => exists l, nth_error (nodemap s) t = Some l /\ In t' l) (tails ed) ts <-> Forall2 (has nds) (tails ed) ts).
  { assert (TB : forall t, In t (tails ed) -> t < length (nodes g)) by (intros t T; specialize (TL t T); lia).
    intros ts. clear - TB I. revert ts. induction (tails ed) as [|t r IH]; intros ts.
    - split; intros F; inversion F; constructor.
    - specialize (IH (fun u U => TB u (or_intror U))). split; intros F; inversion F as [|? y ? ys H F']; subst; (constructor; [|apply IH, F']).
      + destruct H as (l & L & Y). apply (proj2 (v_map _ _ _ I t l L)), Y.
      + destruct (nth_error (nodemap s) t) as [l|] eqn:L; [|apply nth_error_None in L; rewrite (v_nm _ _ _ I) in L; specialize (TB t (or_introl eq_refl)); lia].
        exists l. split; [reflexivity|]. apply (v_map _ _ _ I t l L), H. }
  assert (EX : forall l, (forall it, In it l -> Forall2 lt it ends) -> exists tss, Forall2 (fun it ts => get_tail (nodemap s) (tails ed) it = Some ts /\ Forall2 (has nds) (tails ed) ts) l tss).
  { induction l as [|it l IH]; intros H; [exists []; constructor|]. destruct (IH (fun x X => H x (or_intror X))) as (tss & F).
    destruct (get_tail_total _ _ _ _ SZ (H it (or_introl eq_refl))) as (ts & G & B). exists (ts :: tss). constructor; [split; [exact G|apply HM, B]|exact F]. }
  destruct (EX (combos ends)) as (tss & F); [intros it; apply combos_in|].
  destruct (run_list_ok i nd e ed N E ED TL (combos ends) s items nds m tss I OK F) as (s' & m' & new & extra & R & I' & K & OK' & FX & M).
  exists s', m', new, extra, tss. split; [exact R|]. split; [exact I'|]. split; [exact K|].
  assert (NDL : forall t l, In t (tails ed) -> nth_error (nodemap s) t = Some l -> NoDup l) by (intros t l _ L; exact (proj1 (v_map _ _ _ I t l L))).
  split; [|split; [|split; [|auto]]].
  - pose proof (combos_nodup ends) as ND. clear - F ND NDL. induction F as [|it ts l tss (G & _) F IH]; [constructor|]. inversion ND as [|? ? NI ND']; subst.
    constructor; [|apply IH, ND']. intros X. apply NI. clear - F X G NDL. induction F as [|it' ts' l tss (G' & _) F IH]; [destruct X|].
    destruct X as [->|X]; [left; exact (get_tail_inj _ _ _ _ _ NDL G' G)|right; apply IH, X].
  - intros ->. inversion F as [Z|]. assert (L : length (combos ends) = 0) by (rewrite <- Z; reflexivity). rewrite combos_length in L.
    clear - POS L. induction POS as [|k r K POS IH]; cbn in L; [lia|]. apply IH. nia.
  - intros ts. split.
    + intros X. clear - F X. induction F as [|it' ts' l tss (_ & H) F IH]; [destruct X|]. destruct X as [<-|X]; [exact H|apply IH, X].
    + intros H. destruct (get_tail_onto _ _ _ _ SZ (proj2 (HM ts) H)) as (it & B & G). apply combos_in in B.
      clear - F B G. induction F as [|it' ts' l tss (G' & _) F IH]; [destruct B|]. destruct B as [->|B]; [left; congruence|right; apply IH, B].
Qed.

Definition ordered (nds : list (nat * St)) : Prop :=
  forall a b x y s r, a < b -> nth_error nds a = Some (x, s) -> nth_error nds b = Some (y, r) -> x <= y.

Record pinv (s : rescorer) (items : list item) (nds : list (nat * St)) (i : nat) (done : list nat) : Prop := {
  p_inv : inv s items nds;
  p_nodup : NoDup (map key items);
  p_sub : forall x, In x items -> In (ie x) done;
  p_all : forall e ed ts, In e done -> nth_error (edges g) e = Some ed -> Forall2 (has nds) (tails ed) ts -> In (e, ts) (map key items);
  p_ne : forall e, In e done -> exists x, In x items /\ ie x = e;
  p_le : Forall (fun p => fst p <= i) nds;
  p_lt : Forall (fun p => fst p < length (nodes g)) nds;
  p_ord : ordered nds;
  p_goal : forall n' s, nth_error nds n' = Some (goal, s) -> s = empty
}.

Lemma has_back : forall nds extra i t t', Forall (fresh i) extra -> t <> i -> has (nds ++ extra) t t' -> has nds t t'.
Proof.
  intros nds extra i t t' F NE (s & H). destruct (Nat.lt_ge_cases t' (length nds)) as [L|L]; [rewrite nth_error_app1 in H by exact L; exists s; exact H|].
  rewrite nth_error_app2 in H by exact L. rewrite Forall_forall in F. destruct (F _ (nth_error_In _ _ H)) as (Z & _). cbn in Z. contradiction.
Qed.
Lemma Forall2_has_back : forall nds extra i tl ts, Forall (fresh i) extra -> (forall t, In t tl -> t < i) -> Forall2 (has (nds ++ extra)) tl ts -> Forall2 (has nds) tl ts.
Proof.
  intros nds extra i tl ts F L H. induction H as [|t t' tl ts H1 H2 IH]; [constructor|]. constructor; [|apply IH; intros u U; apply L; right; exact U].
  apply (has_back nds extra i t t' F); [|exact H1]. specialize (L t (or_introl eq_refl)). lia.
Qed.
Lemma ordered_app : forall nds extra i, ordered nds -> Forall (fun p => fst p <= i) nds -> Forall (fresh i) extra -> ordered (nds ++ extra).
Proof.
  intros nds extra i O LE F a b x y s r L A B. rewrite Forall_forall in LE, F.
  destruct (Nat.lt_ge_cases b (length nds)) as [Lb|Lb].
  - rewrite nth_error_app1 in A, B by lia. exact (O a b x y s r L A B).
  - rewrite nth_error_app2 in B by exact Lb. destruct (F _ (nth_error_In _ _ B)) as (Z & _). cbn in Z. subst y.
    destruct (Nat.lt_ge_cases a (length nds)) as [La|La].
    + rewrite nth_error_app1 in A by exact La. exact (LE _ (nth_error_In _ _ A)).
    + rewrite nth_error_app2 in A by exact La. destruct (F _ (nth_error_In _ _ A)) as (Z & _). cbn in Z. lia.
Qed.

Definition upto (i : nat) : list nat := flat_map in_edges (firstn i (nodes g)).
Lemma firstn_S : forall A (l : list A) i x, nth_error l i = Some x -> firstn (S i) l = firstn i l ++ [x].
Proof. induction l as [|y r IH]; intros [|i] x H; try discriminate; cbn in *; [injection H as ->; reflexivity|]. f_equal. apply IH, H. Qed.
Lemma in_firstn : forall A (l : list A) i x, In x (firstn i l) -> exists j, j < i /\ nth_error l j = Some x.
Proof.
  induction l as [|y r IH]; intros [|i] x H; cbn in H; try contradiction. destruct H as [->|H]; [exists 0; split; [lia|reflexivity]|].
  destruct (IH i x H) as (j & L & J). exists (S j). split; [lia|exact J].
Qed.
Lemma upto_in : forall i e, In e (upto i) -> exists n nd, n < i /\ nth_error (nodes g) n = Some nd /\ In e (in_edges nd).
Proof. intros i e H. unfold upto in H. apply in_flat_map in H. destruct H as (nd & H & E). apply in_firstn in H. destruct H as (n & L & N). exists n, nd. auto. Qed.
Lemma in_upto : forall i n nd e, n < i -> nth_error (nodes g) n = Some nd -> In e (in_edges nd) -> In e (upto i).
Proof.
  intros i n nd e L N E. unfold upto. apply in_flat_map. exists nd. split; [|exact E]. clear - L N. revert n i L N. induction (nodes g) as [|x r IH]; intros [|n] [|i] L N; try discriminate; try lia; cbn in *.
  - left. congruence.
  - right. apply (IH n i); [lia|exact N].
Qed.

Lemma process_edges_ok : forall i nd, nth_error (nodes g) i = Some nd ->
  forall es pre s items nds m, in_edges nd = pre ++ es -> pinv s items nds i (upto i ++ pre) -> s2n_ok nds i m ->
  exists s' items' extra, process_edges eqS empty feat final lhs g (i =? goal) es s m = Some s' /\ pinv s' items' (nds ++ extra) i (upto i ++ in_edges nd).
Proof.
  intros i nd N. destruct (TOPO i nd N) as (ND & EDS). induction es as [|e es IH]; intros pre s items nds m E PI OK; cbn [process_edges].
  - rewrite app_nil_r in E. subst pre. exists s, items, []. rewrite app_nil_r. auto.
  - assert (IE : In e (in_edges nd)) by (rewrite E; apply in_app_iff; right; left; reflexivity).
    destruct (EDS e IE) as (ed & ED & TL). rewrite ED. destruct PI as [I PND PS PA PNE PL PLT PO PG].
    assert (LI : i < length (nodes g)) by (apply nth_error_Some; congruence).
    destruct (expand_edge_ok i nd e ed s items nds m N IE ED TL) as (s1 & m1 & new & extra & tss & R & I1 & K & NDT & NET & IFF & OK1 & FX & M); auto.
    { intros t l T L. specialize (TL t T). destruct (nth_error (nodes g) t) as [td|] eqn:TD; [|apply nth_error_None in TD; lia].
      specialize (LIVE i nd e ed t td N IE ED T TD). destruct (in_edges td) as [|e0 r] eqn:EQ; [congruence|].
      destruct (PNE e0) as (x & X & IX); [apply in_app_iff; left; apply (in_upto i t td e0 TL TD); rewrite EQ; left; reflexivity|].
      destruct (v_good _ _ _ I x X) as (n & [(xd & XN & XE) (ed0 & ants & hs & XED & _ & _ & _ & H)]).
      assert (n = t).
      { rewrite IX in *. destruct (TOPO t td TD) as (_ & TE). destruct (TE e0) as (ed1 & ED1 & _); [rewrite EQ; left; reflexivity|].
        assert (A := HEADS n xd e0 ed1 XN XE ED1). assert (B := HEADS t td e0 ed1 TD ltac:(rewrite EQ; left; reflexivity) ED1). congruence. }
      subst n. intros ->. destruct (v_map _ _ _ I t [] L) as (_ & Z). apply (Z (ih x)). exists hs. exact H. }
    rewrite R.
    assert (NIN : ~ In e (upto i ++ pre)).
    { intros X. apply in_app_iff in X. destruct X as [X|X].
      - apply upto_in in X. destruct X as (n & xd & L & XN & XE). assert (A := HEADS n xd e ed XN XE ED). assert (B := HEADS i nd e ed N IE ED). rewrite A in B. injection B as B. lia.
      - rewrite E in ND. apply NoDup_remove_2 in ND. apply ND. apply in_app_iff. left. exact X. }
    destruct (IH (pre ++ [e]) s1 (items ++ new) (nds ++ extra) m1) as (s2 & items2 & extra2 & R2 & PI2).
    + rewrite <- app_assoc. exact E.
    + constructor; auto.
      * rewrite map_app, K. apply NoDup_app_i; [exact PND| |].
        -- apply Injective_map_NoDup; [intros a b X; congruence|exact NDT].
        -- intros k X Y. apply in_map_iff in X. destruct X as (x & <- & X). apply in_map_iff in Y. destruct Y as (ts & Y & _). unfold key in Y. injection Y as Y _.
           apply NIN. rewrite Y. apply PS, X.
      * intros x X. apply in_app_iff in X. rewrite app_assoc. apply in_app_iff. destruct X as [X|X]; [left; apply PS, X|right; left].
        assert (Y : In (key x) (map key new)) by (apply in_map, X). rewrite K in Y. apply in_map_iff in Y. destruct Y as (ts & Y & _). unfold key in Y. congruence.
      * intros e' ed' ts X ED' F. rewrite app_assoc in X. rewrite map_app. apply in_app_iff. apply in_app_iff in X. destruct X as [X|[<-|[]]].
        -- left. apply (PA e' ed' ts X ED'). apply (Forall2_has_back nds extra i); auto. intros t T.
           apply in_app_iff in X. destruct X as [X|X].
           ++ apply upto_in in X. destruct X as (n & xd & L & XN & XE). destruct (TOPO n xd XN) as (_ & TE). destruct (TE e' XE) as (ed1 & ED1 & TL1). rewrite ED' in ED1. injection ED1 as <-. specialize (TL1 t T). lia.
           ++ destruct (EDS e') as (ed1 & ED1 & TL1); [rewrite E; apply in_app_iff; left; exact X|]. rewrite ED' in ED1. injection ED1 as <-. exact (TL1 t T).
        -- right. rewrite ED in ED'. injection ED' as <-. rewrite K. apply in_map. apply IFF. apply (Forall2_has_back nds extra i); auto.
      * intros e' X. rewrite app_assoc in X. apply in_app_iff in X. destruct X as [X|[<-|[]]].
        -- destruct (PNE e' X) as (x & XI & XE). exists x. split; [apply in_app_iff; left; exact XI|exact XE].
        -- destruct tss as [|ts tss]; [congruence|]. destruct new as [|x new]; [discriminate|]. exists x. split; [apply in_app_iff; right; left; reflexivity|].
           cbn in K. unfold key at 1 in K. congruence.
      * apply Forall_app. split; [exact PL|]. eapply Forall_impl; [|exact FX]. intros p (Z & _). lia.
      * apply Forall_app. split; [exact PLT|]. eapply Forall_impl; [|exact FX]. intros p (Z & _). lia.
      * apply (ordered_app nds extra i); auto.
      * intros n' st H. destruct (Nat.lt_ge_cases n' (length nds)) as [L|L]; [rewrite nth_error_app1 in H by exact L; exact (PG n' st H)|].
        rewrite nth_error_app2 in H by exact L. rewrite Forall_forall in FX. destruct (FX _ (nth_error_In _ _ H)) as (Z1 & Z2). cbn in Z1, Z2. apply Z2. congruence.
    + exact OK1.
    + exists s2, items2, (extra ++ extra2). rewrite app_assoc. auto.
Qed.

Lemma process_nodes_ok : forall ns i s items nds, ns = skipn i (nodes g) -> i <= length (nodes g) -> pinv s items nds i (upto i) -> Forall (fun p => fst p < i) nds ->
  exists s' items' nds', process_nodes eqS empty feat final lhs g i ns s = Some s' /\ pinv s' items' nds' (length (nodes g)) (upto (length (nodes g))).
Proof.
  induction ns as [|nd ns IH]; intros i s items nds E LI PI LT; cbn [process_nodes].
  - assert (i = length (nodes g)). { assert (L : length (skipn i (nodes g)) = 0) by (rewrite <- E; reflexivity). rewrite skipn_length in L. lia. }
    subst i. exists s, items, nds. auto.
  - assert (N : nth_error (nodes g) i = Some nd).
    { rewrite <- (firstn_skipn i (nodes g)), nth_error_app2 by (rewrite firstn_length; lia). rewrite firstn_length, Nat.min_l by exact LI. rewrite Nat.sub_diag, <- E. reflexivity. }
    assert (L2 : i < length (nodes g)) by (apply nth_error_Some; congruence).
    fold goal. destruct (process_edges_ok i nd N (in_edges nd) [] s items nds []) as (s1 & items1 & extra & R & PI1).
    + reflexivity.
    + rewrite app_nil_r. exact PI.
    + intros st h. split; [discriminate|]. intros H. rewrite Forall_forall in LT. specialize (LT _ (nth_error_In _ _ H)). cbn in LT. lia.
    + rewrite R. assert (UP : upto (S i) = upto i ++ in_edges nd). { unfold upto. rewrite (firstn_S _ _ _ _ N), flat_map_app. cbn. rewrite app_nil_r. reflexivity. }
      apply (IH (S i) s1 items1 (nds ++ extra)).
      * assert (SK : forall A (l : list A) k x r, x :: r = skipn k l -> r = skipn (S k) l).
        { clear. intros A. induction l as [|y l IH]; intros [|k] x r H; cbn in *; try discriminate; [injection H as _ ->; reflexivity|]. apply (IH k x r H). }
        exact (SK _ _ _ _ _ E).
      * lia.
      * rewrite UP. destruct PI1 as [A1 A2 A3 A4 A5 A6 A6' A7 A8]. constructor; auto. eapply Forall_impl; [|exact A6]. intros p. cbn. lia.
      * destruct PI1 as [A1 A2 A3 A4 A5 A6 A6' A7 A8]. eapply Forall_impl; [|exact A6]. intros p. cbn. lia.
Qed.

(** ** Derivations *)
Section Trees.
Variable s : rescorer.
Variable items : list item.
Variable nds : list (nat * St).
Hypothesis PI : pinv s items nds (length (nodes g)) (upto (length (nodes g))).
Definition oe (k : nat) : nat := match nth_error items k with Some x => ie x | None => 0 end.
Definition on (n' : nat) : nat := match nth_error nds n' with Some (n, _) => n | None => length (nodes g) end.
Definition st (n' : nat) : St := match nth_error nds n' with Some (_, a) => a | None => empty end.
Notation og := (out s).
Notation tstate := (tree_state empty feat g).

(** What a derivation step of the output looks like. *)
Lemma out_step : forall n' k ts, derives og n' (Tree k ts) -> exists x n nd ed ants hs,
  nth_error items k = Some x /\ ih x = n' /\ nth_error nds n' = Some (n, hs) /\ nth_error (nodes g) n = Some nd /\ In (ie x) (in_edges nd) /\
  nth_error (edges g) (ie x) = Some ed /\ Forall2 (has nds) (tails ed) (its x) /\ Forall2 (fun t' s => nth_error (map snd nds) t' = Some s) (its x) ants /\
  comp n ed ants = Some (il x, hs) /\ Forall2 (derives og) (its x) ts /\
  nth_error (edges og) k = Some {| head := Some (ih x); tails := its x; lab := il x; eid := k |} /\ forall t, In t (tails ed) -> t < n.
Proof.
  intros n' k ts D. inversion D as [? nd' ? ed' ? N I ED TS]; subst. pose proof (p_inv _ _ _ _ _ PI) as IV.
  destruct (v_node _ _ _ IV n' nd' N) as (_ & _ & IFF & _). apply IFF in I. destruct I as (x & X & H).
  rewrite (v_edge _ _ _ IV k x X) in ED. injection ED as <-. cbn [tails] in TS.
  destruct (v_good _ _ _ IV x (nth_error_In _ _ X)) as (n & [(nd & XN & XE) (ed & ants & hs & XED & F1 & F2 & C & HN)]).
  destruct (TOPO n nd XN) as (_ & EDS). destruct (EDS _ XE) as (ed1 & ED1 & TL). rewrite XED in ED1. injection ED1 as <-.
  exists x, n, nd, ed, ants, hs. rewrite <- H. repeat (split; [try assumption; try reflexivity|]); [exact (v_edge _ _ _ IV k x X)|exact TL].
Qed.

Lemma out_sound : forall t' n', derives og n' t' -> derives g (on n') (rename oe t') /\ st n' = node_state empty feat g (on n') (rename oe t').
Proof.
  intros t'. induction t' as [k ts IH] using tree_ind'. intros n' D.
  destruct (out_step n' k ts D) as (x & n & nd & ed & ants & hs & X & H & HN & XN & XE & XED & F1 & F2 & C & TS & _ & TL).
  assert (ON : on n' = n) by (unfold on; rewrite HN; reflexivity). assert (ST : st n' = hs) by (unfold st; rewrite HN; reflexivity).
  assert (OE : oe k = ie x) by (unfold oe; rewrite X; reflexivity).
  assert (SUB : Forall2 (derives g) (tails ed) (map (rename oe) ts) /\ ants = map tstate (map (rename oe) ts)).
  { assert (NG : forall t, In t (tails ed) -> t <> goal). { intros t T. specialize (TL t T). assert (n < length (nodes g)) by (apply nth_error_Some; congruence). unfold goal. lia. }
    clear - IH F1 F2 TS NG. revert F2 TS IH NG. revert ants ts. induction F1 as [|t t' tl tl' (a & A) F1 IHF]; intros ants ts F2 TS IH NG.
    - inversion TS; subst. inversion F2; subst. split; [constructor|reflexivity].
    - inversion TS as [|? u ? us D DS]; subst. inversion F2 as [|? b ? bs B BS]; subst. inversion IH as [|? ? IH1 IH2]; subst.
      destruct (IHF bs us BS DS IH2 (fun z Z => NG z (or_intror Z))) as (G1 & G2). destruct (IH1 t' D) as (G3 & G4).
      assert (ON' : on t' = t) by (unfold on; rewrite A; reflexivity). assert (ST' : st t' = a) by (unfold st; rewrite A; reflexivity).
      rewrite (map_nth_error snd _ _ A) in B. cbn in B. injection B as <-. rewrite ON' in G3, G4. rewrite ST' in G4.
      unfold node_state in G4. destruct (Nat.eqb_spec t (length (nodes g) - 1)) as [Z|_]; [destruct (NG t (or_introl eq_refl) Z)|].
      split; [cbn; constructor; assumption|]. cbn [map]. f_equal; assumption. }
  destruct SUB as (S1 & S2). rewrite ON, ST. cbn [rename]. rewrite OE. split.
  - eapply d_edge; eassumption.
  - unfold node_state. fold goal. unfold apply_models in C. destruct (n =? goal); [destruct ants as [|a [|]]; congruence|].
    cbn [tree_state]. rewrite XED, <- S2. injection C as C. rewrite C. reflexivity.
Qed.

Lemma sub_states : forall tl tl' ants ts, Forall2 (has nds) tl tl' -> Forall2 (fun t' s => nth_error (map snd nds) t' = Some s) tl' ants -> Forall2 (derives og) tl' ts ->
  (forall t, In t tl -> t <> goal) -> ants = map tstate (map (rename oe) ts).
Proof.
  intros tl tl' ants ts F1. revert ants ts. induction F1 as [|t t' tl tl' (a & A) F1 IHF]; intros ants ts F2 TS NG.
  - inversion TS; subst. inversion F2; subst. reflexivity.
  - inversion TS as [|? u ? us D DS]; subst. inversion F2 as [|? b ? bs B BS]; subst. cbn [map].
    f_equal; [|apply IHF; auto; intros z Z; apply NG; right; exact Z]. destruct (out_sound u t' D) as (_ & G4).
    assert (ON' : on t' = t) by (unfold on; rewrite A; reflexivity). assert (ST' : st t' = a) by (unfold st; rewrite A; reflexivity).
    rewrite (map_nth_error snd _ _ A) in B. cbn in B. injection B as <-. rewrite ON', ST' in G4.
    unfold node_state in G4. destruct (Nat.eqb_spec t (length (nodes g) - 1)) as [Z|_]; [destruct (NG t (or_introl eq_refl) Z)|exact G4].
Qed.

Lemma on_has : forall t n', has nds t n' <-> on n' = t /\ n' < length nds.
Proof.
  intros t n'. unfold has, on. split.
  - intros (a & A). rewrite A. split; [reflexivity|apply nth_error_Some; congruence].
  - intros (E & L). destruct (nth_error nds n') as [[y a]|] eqn:Z; [|apply nth_error_None in Z; lia]. subst y. exists a. reflexivity.
Qed.

Lemma out_complete : forall t n, derives g n t -> exists n' t', on n' = n /\ n' < length nds /\ derives og n' t' /\ rename oe t' = t.
Proof.
  intros t. induction t as [e ts IH] using tree_ind'. intros n D. inversion D as [? nd ? ed ? N I ED TS]; subst. pose proof (p_inv _ _ _ _ _ PI) as IV.
  assert (SUB : exists tl' ts', Forall2 (has nds) (tails ed) tl' /\ Forall2 (derives og) tl' ts' /\ map (rename oe) ts' = ts).
  { clear - IH TS. induction TS as [|t u tl us D TS IHT]; [exists [], []; repeat split; constructor|]. inversion IH as [|? ? IH1 IH2]; subst.
    destruct (IHT IH2) as (tl' & ts' & A & B & C). destruct (IH1 t D) as (n' & t' & E1 & E2 & E3 & E4). exists (n' :: tl'), (t' :: ts').
    split; [constructor; [apply on_has; auto|exact A]|]. split; [constructor; assumption|]. cbn. congruence. }
  destruct SUB as (tl' & ts' & A & B & C).
  assert (LN : n < length (nodes g)) by (apply nth_error_Some; congruence).
  assert (KI : In (e, tl') (map key items)) by (apply (p_all _ _ _ _ _ PI e ed tl'); auto; apply (in_upto _ n nd); auto).
  apply in_map_iff in KI. destruct KI as (x & KX & X). unfold key in KX. injection KX as KE KT.
  destruct (v_good _ _ _ IV x X) as (m & [(xd & XN & XE) (ed2 & ants & hs & XED & F1 & F2 & C2 & HN)]).
  assert (m = n). { rewrite KE in *. assert (Z := HEADS m xd e ed XN XE ED). assert (Z' := HEADS n nd e ed N I ED). congruence. } subst m.
  destruct (In_nth_error _ _ X) as (k & K). exists (ih x), (Tree k ts'). split; [unfold on; rewrite HN; reflexivity|]. split; [apply nth_error_Some; congruence|].
  split; [|cbn; unfold oe at 1; rewrite K; congruence].
  destruct (nth_error (nodes og) (ih x)) as [nd'|] eqn:ND'; [|apply nth_error_None in ND'; rewrite (v_nn _ _ _ IV) in ND'; assert (ih x < length nds) by (apply nth_error_Some; congruence); lia].
  eapply d_edge; [exact ND'| |exact (v_edge _ _ _ IV k x K)|cbn [tails]; rewrite KT; exact B].
  apply (v_node _ _ _ IV _ _ ND'). exists x. auto.
Qed.

Lemma out_unique : forall t' u' n' m', derives og n' t' -> derives og m' u' -> on n' = on m' -> rename oe t' = rename oe u' -> n' = m' /\ t' = u'.
Proof.
  pose proof (p_inv _ _ _ _ _ PI) as IV.
  intros t'. induction t' as [k ts IH] using tree_ind'. intros [j us] n' m' D D' ON EQ. cbn [rename] in EQ. injection EQ as E1 E2.
  destruct (out_step n' k ts D) as (x & n & nd & ed & ants & hs & X & H & HN & XN & XE & XED & F1 & F2 & C & TS & _ & TL).
  destruct (out_step m' j us D') as (y & m & md & fd & bnts & hs' & Y & H' & HN' & YN & YE & YED & G1 & G2 & C' & US & _ & TL').
  unfold oe in E1. rewrite X, Y in E1. rewrite E1 in XED. rewrite XED in YED. injection YED as <-.
  assert (SUB : its x = its y /\ ts = us).
  { clear - IH F1 G1 TS US E2. revert ts us IH TS US E2. revert G1. generalize (its y) as tl''. induction F1 as [|t t' tl tl' (a & A) F1 IHF]; intros tl'' G1 ts us IH TS US E2.
    - inversion G1; subst. inversion TS; subst. inversion US; subst. auto.
    - inversion G1 as [|? t2 ? tl2 (b & B) G1']; subst. inversion TS as [|? w ? ws DW TS']; subst. inversion US as [|? v ? vs DV US']; subst.
      inversion IH as [|? ? IH1 IH2]; subst. cbn in E2. injection E2 as E3 E4.
      destruct (IH1 v t' t2 DW DV) as (Z1 & Z2); [unfold on; rewrite A, B; reflexivity|exact E3|].
      destruct (IHF tl2 G1' ws vs IH2 TS' US' E4) as (Z3 & Z4). subst. auto. }
  destruct SUB as (S1 & S2). subst us.
  assert (k = j).
  { apply (proj1 (NoDup_nth_error (map key items)) (p_nodup _ _ _ _ _ PI)); [rewrite map_length; apply nth_error_Some; congruence|].
    rewrite (map_nth_error key _ _ X), (map_nth_error key _ _ Y). unfold key. congruence. }
  subst j. rewrite X in Y. injection Y as <-. split; congruence.
Qed.

Lemma out_payload : forall n' k ts, derives og n' (Tree k ts) -> exists ed' ed, nth_error (edges og) k = Some ed' /\ nth_error (edges g) (oe k) = Some ed /\
  lab ed' = edge_payload empty feat final g (on n') ed (map tstate (map (rename oe) ts)).
Proof.
  intros n' k ts D. destruct (out_step n' k ts D) as (x & n & nd & ed & ants & hs & X & H & HN & XN & XE & XED & F1 & F2 & C & TS & ED' & TL).
  eexists. exists ed. split; [exact ED'|]. unfold oe at 1. rewrite X. split; [exact XED|]. cbn [lab].
  assert (NG : forall t, In t (tails ed) -> t <> goal). { intros t T. specialize (TL t T). assert (n < length (nodes g)) by (apply nth_error_Some; congruence). unfold goal. lia. }
  rewrite <- (sub_states _ _ _ _ F1 F2 TS NG). assert (ON : on n' = n) by (unfold on; rewrite HN; reflexivity). rewrite ON.
  unfold edge_payload. fold goal. unfold apply_models in C. destruct (n =? goal).
  - destruct ants as [|a [|]]; try discriminate. injection C as <- _. reflexivity.
  - injection C as C. rewrite C. reflexivity.
Qed.

Lemma out_topo : topo og /\ wf_hg og.
Proof.
  pose proof (p_inv _ _ _ _ _ PI) as IV.
  assert (GI : forall k x, nth_error items k = Some x -> exists n hs (ed : edge P), nth_error nds (ih x) = Some (n, hs) /\ Forall2 (has nds) (tails ed) (its x) /\ forall t, In t (tails ed) -> t < n).
  { intros k x X. destruct (v_good _ _ _ IV x (nth_error_In _ _ X)) as (n & [(nd & XN & XE) (ed & ants & hs & XED & F1 & F2 & C & HN)]).
    destruct (TOPO n nd XN) as (_ & EDS). destruct (EDS _ XE) as (ed1 & ED1 & TL). rewrite XED in ED1. injection ED1 as <-. exists n, hs, ed. auto. }
  assert (TLT : forall k x t', nth_error items k = Some x -> In t' (its x) -> t' < ih x).
  { intros k x t' X T. destruct (GI k x X) as (n & hs & ed & HN & F & TL). assert (exists t, In t (tails ed) /\ has nds t t') as (t & T1 & (a & A)).
    { clear - F T. induction F as [|a b la lb H F IH]; [destruct T|]. destruct T as [<-|T]; [exists a; split; [left; reflexivity|exact H]|]. destruct (IH T) as (t & I & H'). exists t. split; [right; exact I|exact H']. }
    specialize (TL t T1). destruct (Nat.lt_trichotomy t' (ih x)) as [L|[->|L]]; [exact L|rewrite HN in A; injection A as <- _; lia|].
    pose proof (p_ord _ _ _ _ _ PI _ _ _ _ _ _ L HN A). lia. }
  assert (HB : forall k x, nth_error items k = Some x -> ih x < length (nodes og)).
  { intros k x X. destruct (GI k x X) as (n & hs & ed & HN & _). rewrite (v_nn _ _ _ IV). apply nth_error_Some. congruence. }
  assert (EI : forall k ed', nth_error (edges og) k = Some ed' -> exists x, nth_error items k = Some x /\ ed' = {| head := Some (ih x); tails := its x; lab := il x; eid := k |}).
  { intros k ed' E. destruct (nth_error items k) as [x|] eqn:X; [|apply nth_error_None in X; rewrite <- (v_ne _ _ _ IV) in X; assert (k < length (edges og)) by (apply nth_error_Some; congruence); lia].
    exists x. split; [reflexivity|]. rewrite (v_edge _ _ _ IV k x X) in E. congruence. }
  split.
  - intros n' nd' N. destruct (v_node _ _ _ IV n' nd' N) as (_ & ND & IFF & _). split; [exact ND|]. intros k K. apply IFF in K. destruct K as (x & X & H).
    eexists. split; [exact (v_edge _ _ _ IV k x X)|]. cbn [tails]. intros t T. rewrite <- H. exact (TLT k x t X T).
  - constructor.
    + intros n' nd' N. apply (v_node _ _ _ IV n' nd' N).
    + intros k ed' E. destruct (EI k ed' E) as (x & _ & ->). reflexivity.
    + intros n' nd' k N K. apply (v_node _ _ _ IV n' nd' N) in K. destruct K as (x & X & H). eexists. split; [exact (v_edge _ _ _ IV k x X)|]. cbn. congruence.
    + intros n' nd' N. apply (v_node _ _ _ IV n' nd' N).
    + intros n' nd' k N K. rewrite (v_ne _ _ _ IV). apply (v_node _ _ _ IV n' nd' N). exact K.
    + intros k ed' t E T. destruct (EI k ed' E) as (x & X & ->). cbn in T. specialize (TLT k x t X T). specialize (HB k x X). lia.
    + intros k ed' E. destruct (EI k ed' E) as (x & X & ->). exists (ih x). split; [reflexivity|exact (HB k x X)].
Qed.

Lemma out_intersection : intersection empty feat final g og oe on st.
Proof.
  pose proof (p_inv _ _ _ _ _ PI) as IV. constructor.
  - intros a b A B ON ST. rewrite (v_nn _ _ _ IV) in A, B. unfold on, st in ON, ST.
    destruct (nth_error nds a) as [[x u]|] eqn:E1; [|apply nth_error_None in E1; lia]. destruct (nth_error nds b) as [[y v]|] eqn:E2; [|apply nth_error_None in E2; lia]. subst.
    apply (proj1 (NoDup_nth_error nds) (v_uniq _ _ _ IV)); [exact A|congruence].
  - intros n' t' D. exact (out_sound t' n' D).
  - intros n t D. destruct (out_complete t n D) as (n' & t' & E1 & _ & E2). exists n', t'. auto.
  - intros n' m' t' u'. exact (out_unique t' u' n' m').
  - exact out_payload.
  - intros n' L ON. rewrite (v_nn _ _ _ IV) in *. unfold on in ON.
    destruct (nth_error nds n') as [[x u]|] eqn:E1; [|apply nth_error_None in E1; lia]. subst x. fold goal in E1. rewrite (p_goal _ _ _ _ _ PI n' u E1) in E1.
    destruct (Nat.eq_dec n' (length nds - 1)) as [Z|Z]; [exact Z|].
    destruct (nth_error nds (length nds - 1)) as [[y v]|] eqn:E2; [|apply nth_error_None in E2; lia].
    assert (LL : n' < length nds - 1) by lia.
    assert (goal <= y) by exact (p_ord _ _ _ _ _ PI _ _ _ _ _ _ LL E1 E2).
    assert (y < length (nodes g)).
    { pose proof (p_lt _ _ _ _ _ PI) as LE. rewrite Forall_forall in LE. exact (LE _ (nth_error_In _ _ E2)). }
    assert (y = goal) by (unfold goal in *; lia). subst y. rewrite (p_goal _ _ _ _ _ PI _ v E2) in E2.
    apply (proj1 (NoDup_nth_error nds) (v_uniq _ _ _ IV)); [lia|congruence].
Qed.
End Trees.

Hypothesis PRE : 2 <= length (nodes g) /\ exists nd, nth_error (nodes g) (length (nodes g) - 2) = Some nd /\ length (out_edges nd) = 1.
Lemma rescore_ok : exists og oe on st, Rescore eqS empty feat final lhs g = Some og /\ topo og /\ wf_hg og /\ intersection empty feat final g og oe on st.
Proof.
  unfold Rescore. destruct PRE as (L2 & nd & N & O). rewrite N, (proj2 (Nat.leb_le 2 _) L2), O. cbn [Nat.eqb andb].
  assert (INI : inv {| out := empty_hg; nodemap := map (fun _ => []) (nodes g); node_states := [] |} [] []).
  { constructor; cbn; auto.
    - intros [|k] x H; discriminate.
    - intros [|n] x H; discriminate.
    - apply map_length.
    - intros n l H. assert (l = []). { clear - H. revert n H. induction (nodes g) as [|x r IH]; intros [|n] H; try discriminate; cbn in H; [congruence|exact (IH n H)]. }
      subst l. split; [constructor|]. intros n'. split; [intros []|intros (a & H'); destruct n'; discriminate].
    - constructor.
    - intros x []. }
  assert (PINI : pinv {| out := empty_hg; nodemap := map (fun _ => []) (nodes g); node_states := [] |} [] [] 0 (upto 0)).
  { constructor.
    - exact INI.
    - constructor.
    - intros x [].
    - intros e ed ts [].
    - intros e [].
    - constructor.
    - constructor.
    - intros a b x y u r L A. destruct a; discriminate.
    - intros [|n'] u H; discriminate. }
  destruct (process_nodes_ok (nodes g) 0 _ [] [] eq_refl ltac:(lia) PINI (Forall_nil _)) as (s' & items & nds & R & PI).
  rewrite R. exists (out s'), (oe items), (on nds), (st nds). split; [reflexivity|]. destruct (out_topo s' items nds PI) as (T & W). split; [exact T|]. split; [exact W|].
  exact (out_intersection s' items nds PI).
Qed.
End M.

Lemma intersection_goal : forall (P Q St : Type) (empty : St) (feat : edge P -> list St -> Q * St) (final : edge P -> St -> Q) (g : hg P) (og : hg Q) oe on st,
  intersection empty feat final g og oe on st -> (exists t, derives g (length (nodes g) - 1) t) ->
  (forall t, derives g (length (nodes g) - 1) t <-> exists t', derives og (length (nodes og) - 1) t' /\ rename oe t' = t) /\
  (forall t' u', derives og (length (nodes og) - 1) t' -> derives og (length (nodes og) - 1) u' -> rename oe t' = rename oe u' -> t' = u').
Proof.
  intros P Q St empty feat final g og oe on st I (t0 & D0).
  assert (BD : forall n' t', derives og n' t' -> n' < length (nodes og)) by (intros n' t' D; inversion D; apply nth_error_Some; congruence).
  destruct (complete _ _ _ _ _ _ _ _ I _ _ D0) as (n0 & t0' & E0 & DD & _). assert (n0 = length (nodes og) - 1) by (apply (goal_last _ _ _ _ _ _ _ _ I); [exact (BD _ _ DD)|exact E0]). subst n0.
  split.
  - intros t. split.
    + intros D. destruct (complete _ _ _ _ _ _ _ _ I _ _ D) as (n' & t' & E & DD' & R). assert (n' = length (nodes og) - 1) by (apply (goal_last _ _ _ _ _ _ _ _ I); [exact (BD _ _ DD')|exact E]). subst n'. exists t'. auto.
    + intros (t' & D & <-). rewrite <- E0. apply (sound _ _ _ _ _ _ _ _ I _ _ D).
  - intros t' u' D D' R. apply (unique _ _ _ _ _ _ _ _ I _ _ _ _ D D' eq_refl R).
Qed.
Lemma rescorable_ok : forall (P Q St : Type) (eqS : St -> St -> bool) (empty : St) (feat : edge P -> list St -> Q * St) (final : edge P -> St -> Q) (lhs : edge P -> Z) (g : hg P),
  (forall a b, eqS a b = true <-> a = b) -> rescorable g ->
  exists og oe on st, Rescore eqS empty feat final lhs g = Some og /\ topo og /\ wf_hg og /\ intersection empty feat final g og oe on st.
Proof. intros P Q St eqS empty feat final lhs g EQ [T H L G PR]. exact (rescore_ok eqS EQ empty feat final lhs g T H L G PR). Qed.
