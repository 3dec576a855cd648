From Coq Require Import List Arith Bool ZArith Lia.
From Verif Require Import HG.
Import ListNotations.

(** * Specification: what a history of calls says the graph is *)
Section Spec.
Context {P : Type}.

(** The categories of the nodes and the (tails, payload) of the edges, in order. *)
Fixpoint h_nodes (cs : list (call P)) : list Z :=
  match cs with [] => [] | CNode c :: r => c :: h_nodes r | _ :: r => h_nodes r end.
Fixpoint h_edges (cs : list (call P)) : list (list nat * P) :=
  match cs with
  | [] => []
  | CEdge ts p :: r => (ts, p) :: h_edges r
  | CCopy ne :: r => (tails ne, lab ne) :: h_edges r
  | _ :: r => h_edges r
  end.
(** The (edge, head) connections made, in order. *)
Fixpoint h_conns (cs : list (call P)) : list (nat * nat) :=
  match cs with
  | [] => []
  | CConnect e h :: r | CConnectPtr e h :: r | CConnectEdgePtr e h :: r => (e, h) :: h_conns r
  | _ :: r => h_conns r
  end.

(** Edges connected to node [n], in the order of connection. *)
Definition into (n : nat) (conns : list (nat * nat)) : list nat :=
  map fst (filter (fun c => snd c =? n) conns).
(** Edges having node [n] among their tails, once per occurrence; [k] is the
    number of the first edge. *)
Fixpoint outof (n k : nat) (es : list (list nat * P)) : list nat :=
  match es with [] => [] | (ts, _) :: r => repeat k (count_occ Nat.eq_dec ts n) ++ outof n (S k) r end.
End Spec.

Section Pr.
Context {P : Type}.
Implicit Types (g : hg P) (cs : list (call P)).

Lemma upd_length : forall (A : Type) (l : list A) i f l', upd l i f = Some l' -> length l' = length l.
Proof.
  induction l as [|x r IH]; intros [|i] f l' H; cbn in *; try discriminate.
  - injection H as <-. reflexivity.
  - destruct (upd r i f) eqn:E; [|discriminate]. injection H as <-. cbn. f_equal. exact (IH i f _ E).
Qed.
Lemma upd_nth : forall (A : Type) (l : list A) i f l' j, upd l i f = Some l' ->
  nth_error l' j = if i =? j then option_map f (nth_error l j) else nth_error l j.
Proof.
  induction l as [|x r IH]; intros [|i] f l' j H; cbn in *; try discriminate.
  - injection H as <-. destruct j; reflexivity.
  - destruct (upd r i f) eqn:E; [|discriminate]. injection H as <-. destruct j; cbn; [reflexivity|].
    exact (IH i f _ j E).
Qed.
Lemma upd_bound : forall (A : Type) (l : list A) i f l', upd l i f = Some l' -> i < length l.
Proof.
  induction l as [|x r IH]; intros [|i] f l' H; cbn in *; try discriminate; [lia|].
  destruct (upd r i f) eqn:E; [|discriminate]. specialize (IH i f _ E). lia.
Qed.
Lemma upd_total : forall (A : Type) (l : list A) i f, i < length l -> exists l', upd l i f = Some l'.
Proof.
  induction l as [|x r IH]; intros [|i] f H; cbn in *; try lia; [eexists; reflexivity|].
  destruct (IH i f) as (l' & ->); [lia|]. eexists. reflexivity.
Qed.

Lemma index_tails_spec : forall e ts ns ns', index_tails e ts ns = Some ns' ->
  length ns' = length ns /\ (forall t, In t ts -> t < length ns) /\
  forall n nd, nth_error ns n = Some nd ->
    nth_error ns' n = Some {| nid := nid nd; cat := cat nd; in_edges := in_edges nd;
                              out_edges := out_edges nd ++ repeat e (count_occ Nat.eq_dec ts n) |}.
Proof.
  induction ts as [|t r IH]; intros ns ns' H; cbn [index_tails] in H.
  - injection H as <-. split; [reflexivity|]. split; [intros t []|]. intros n nd N. cbn. rewrite app_nil_r, N. destruct nd; reflexivity.
  - destruct (upd ns t (push_out e)) as [n1|] eqn:U; [|discriminate].
    destruct (IH _ _ H) as (L & B & S). pose proof (upd_length _ _ _ _ _ U) as LU. pose proof (upd_bound _ _ _ _ _ U) as BU.
    split; [congruence|]. split.
    + intros x [<-|X]; [exact BU|]. rewrite <- LU. apply B, X.
    + intros n nd N. pose proof (upd_nth _ _ _ _ _ n U) as UN. cbn [count_occ].
      destruct (Nat.eqb_spec t n) as [->|NE].
      * rewrite N in UN. cbn in UN. rewrite (S _ _ UN). cbn [nid cat in_edges out_edges push_out].
        destruct (Nat.eq_dec n n) as [_|C]; [|congruence]. cbn [repeat]. rewrite <- app_assoc. reflexivity.
      * rewrite N in UN. rewrite (S _ _ UN). destruct (Nat.eq_dec t n); [congruence|]. reflexivity.
Qed.
Lemma index_tails_total : forall e ts ns, (forall t, In t ts -> t < length ns) -> exists ns', index_tails e ts ns = Some ns'.
Proof.
  induction ts as [|t r IH]; intros ns H; cbn; [eexists; reflexivity|].
  destruct (upd_total _ ns t (push_out e)) as (n1 & U); [apply H; left; reflexivity|]. rewrite U.
  apply IH. intros x X. rewrite (upd_length _ _ _ _ _ U). apply H. right. exact X.
Qed.

Lemma h_nodes_app : forall a b, h_nodes (P:=P) (a ++ b) = h_nodes a ++ h_nodes b.
Proof. induction a as [|[]]; intros; cbn; rewrite ?IHa; reflexivity. Qed.
Lemma h_edges_app : forall a b, h_edges (P:=P) (a ++ b) = h_edges a ++ h_edges b.
Proof. induction a as [|[]]; intros; cbn; rewrite ?IHa; reflexivity. Qed.
Lemma h_conns_app : forall a b, h_conns (P:=P) (a ++ b) = h_conns a ++ h_conns b.
Proof. induction a as [|[]]; intros; cbn; rewrite ?IHa; reflexivity. Qed.
Lemma into_app : forall n a b, into n (a ++ b) = into n a ++ into n b.
Proof. intros. unfold into. rewrite filter_app, map_app. reflexivity. Qed.
Lemma outof_app : forall n a k b, outof (P:=P) n k (a ++ b) = outof n k a ++ outof n (k + length a) b.
Proof.
  induction a as [|[ts p] r IH]; intros k b; cbn; [rewrite Nat.add_0_r; reflexivity|].
  rewrite IH, <- app_assoc. do 2 f_equal. f_equal. lia.
Qed.
Lemma outof_unused : forall n es k, (forall ts p, In (ts, p) es -> ~ In n ts) -> outof (P:=P) n k es = [].
Proof.
  induction es as [|[ts p] r IH]; intros k H; cbn; [reflexivity|].
  assert (C : count_occ Nat.eq_dec ts n = 0).
  { apply count_occ_not_In. exact (H ts p (or_introl eq_refl)). }
  rewrite C. apply IH. intros ts' p' I. exact (H ts' p' (or_intror I)).
Qed.

(** The graph agrees with history [cs]. *)
Definition agrees cs g :=
  length (nodes g) = length (h_nodes cs) /\ length (edges g) = length (h_edges cs) /\
  (forall n nd, nth_error (nodes g) n = Some nd ->
     nid nd = n /\ nth_error (h_nodes cs) n = Some (cat nd) /\
     in_edges nd = into n (h_conns cs) /\ out_edges nd = outof n 0 (h_edges cs)) /\
  (forall e ed, nth_error (edges g) e = Some ed ->
     eid ed = e /\ nth_error (h_edges cs) e = Some (tails ed, lab ed)) /\
  (forall ts p, In (ts, p) (h_edges cs) -> forall t, In t ts -> t < length (nodes g)) /\
  (forall e h, In (e, h) (h_conns cs) -> e < length (edges g) /\ h < length (nodes g)) /\
  (NoDup (map fst (h_conns cs)) -> forall e h, In (e, h) (h_conns cs) ->
     exists ed, nth_error (edges g) e = Some ed /\ head ed = Some h).

Lemma agrees_edge : forall cs g ns ts p hd c, agrees cs g ->
  index_tails (length (edges g)) ts (nodes g) = Some ns ->
  h_nodes [c] = [] -> h_edges [c] = [(ts, p)] -> h_conns [c] = [] ->
  agrees (cs ++ [c]) {| nodes := ns; edges := edges g ++ [{| head := hd; tails := ts; lab := p; eid := length (edges g) |}] |}.
Proof.
  intros cs g ns ts p hd c (LN & LE & AN & AE & BT & BC & AH) U E1 E2 E3.
  destruct (index_tails_spec _ _ _ _ U) as (L & B & S).
  unfold agrees. cbn [nodes edges]. rewrite h_nodes_app, h_edges_app, h_conns_app, E1, E2, E3, !app_nil_r, !app_length.
  cbn [length]. split; [lia|]. split; [lia|]. split; [|split; [|split; [|split]]].
  - intros n nd N. destruct (nth_error (nodes g) n) as [nd0|] eqn:N0.
    2:{ apply nth_error_None in N0. assert (n < length ns) by (apply nth_error_Some; congruence). lia. }
    rewrite (S _ _ N0) in N. injection N as <-. destruct (AN _ _ N0) as (A1 & A2 & A3 & A4). cbn [nid cat in_edges out_edges].
    split; [exact A1|]. split; [exact A2|]. split; [exact A3|]. rewrite outof_app, A4. cbn [outof]. rewrite app_nil_r, LE. reflexivity.
  - intros e ed N. destruct (Nat.lt_ge_cases e (length (edges g))) as [LT|GE].
    + rewrite nth_error_app1 in N by exact LT. rewrite nth_error_app1 by lia. exact (AE _ _ N).
    + rewrite nth_error_app2 in N by exact GE. destruct (e - length (edges g)) as [|k] eqn:D; [|destruct k; discriminate].
      assert (e = length (edges g)) as -> by lia. injection N as <-. cbn [eid tails lab]. split; [reflexivity|].
      rewrite nth_error_app2 by lia. rewrite LE, Nat.sub_diag. reflexivity.
  - intros ts' p' I t T. apply in_app_iff in I as [I|[[= <- <-]|[]]]; rewrite L; [exact (BT _ _ I t T)|exact (B t T)].
  - intros e h I. destruct (BC _ _ I). lia.
  - intros ND e h I. destruct (AH ND _ _ I) as (ed & N & HD). exists ed. split; [|exact HD].
    rewrite nth_error_app1; [exact N|]. apply nth_error_Some. congruence.
Qed.

Lemma agrees_connect : forall cs g es ns e h c, agrees cs g ->
  upd (edges g) e (set_head h) = Some es -> upd (nodes g) h (push_in e) = Some ns ->
  h_nodes [c] = [] -> h_edges [c] = [] -> h_conns [c] = [(e, h)] ->
  agrees (cs ++ [c]) {| nodes := ns; edges := es |}.
Proof.
  intros cs g es ns e h c (LN & LE & AN & AE & BT & BC & AH) UE UN E1 E2 E3.
  pose proof (upd_length _ _ _ _ _ UE) as LUE. pose proof (upd_length _ _ _ _ _ UN) as LUN.
  pose proof (upd_bound _ _ _ _ _ UE) as BE. pose proof (upd_bound _ _ _ _ _ UN) as BN.
  unfold agrees. cbn [nodes edges]. rewrite h_nodes_app, h_edges_app, h_conns_app, E1, E2, E3, !app_nil_r.
  split; [lia|]. split; [lia|]. split; [|split; [|split; [|split]]].
  - intros n nd N. rewrite (upd_nth _ _ _ _ _ n UN) in N. rewrite into_app. unfold into at 2. cbn [filter snd].
    destruct (Nat.eqb_spec h n) as [->|NE].
    + destruct (nth_error (nodes g) n) as [nd0|] eqn:N0; [|discriminate]. injection N as <-.
      destruct (AN _ _ N0) as (A1 & A2 & A3 & A4). cbn [nid cat in_edges out_edges push_in map fst]. rewrite A3. auto.
    + cbn [map]. rewrite app_nil_r. exact (AN _ _ N).
  - intros x ed N. rewrite (upd_nth _ _ _ _ _ x UE) in N. destruct (Nat.eqb_spec e x) as [->|NE]; [|exact (AE _ _ N)].
    destruct (nth_error (edges g) x) as [ed0|] eqn:N0; [|discriminate]. injection N as <-. exact (AE _ _ N0).
  - intros ts p I t T. rewrite LUN. exact (BT _ _ I t T).
  - intros x y I. apply in_app_iff in I as [I|[[= <- <-]|[]]]; [destruct (BC _ _ I)|]; lia.
  - intros ND x y I. rewrite map_app in ND. cbn [map fst] in ND.
    apply in_app_iff in I as [I|[[= <- <-]|[]]].
    + assert (ND' : NoDup (map fst (h_conns cs)) /\ ~ In e (map fst (h_conns cs))).
      { apply NoDup_remove in ND. rewrite app_nil_r in ND. exact ND. }
      destruct ND' as [ND1 ND2]. destruct (AH ND1 _ _ I) as (ed & N & HD). exists ed. split; [|exact HD].
      rewrite (upd_nth _ _ _ _ _ x UE). destruct (Nat.eqb_spec e x) as [->|NE]; [|exact N].
      exfalso. apply ND2. apply (in_map fst) in I. exact I.
    + rewrite (upd_nth _ _ _ _ _ e UE), Nat.eqb_refl.
      destruct (nth_error (edges g) e) as [ed0|] eqn:N0; [|apply nth_error_None in N0; lia].
      eexists. split; reflexivity.
Qed.

Lemma agrees_step : forall cs g c g', agrees cs g -> run1 c g = Some g' -> agrees (cs ++ [c]) g'.
Proof.
  intros cs g c g' A H. destruct c as [z|ts p|ne|e h|e h|e h]; cbn [run1] in H.
  - injection H as <-. destruct A as (LN & LE & AN & AE & BT & BC & AH).
    unfold agrees. cbn [nodes edges]. rewrite h_nodes_app, h_edges_app, h_conns_app. cbn [h_nodes h_edges h_conns].
    rewrite !app_nil_r, !app_length. cbn [length]. split; [lia|]. split; [lia|].
    split; [|split; [exact AE|split; [|split]]].
    + intros n nd N. destruct (Nat.lt_ge_cases n (length (nodes g))) as [LT|GE].
      * rewrite nth_error_app1 in N by exact LT. rewrite nth_error_app1 by lia. exact (AN _ _ N).
      * rewrite nth_error_app2 in N by exact GE. destruct (n - length (nodes g)) as [|k] eqn:D; [|destruct k; discriminate].
        assert (n = length (nodes g)) as -> by lia. injection N as <-. cbn [nid cat in_edges out_edges].
        split; [reflexivity|]. split; [rewrite nth_error_app2 by lia; rewrite LN, Nat.sub_diag; reflexivity|]. split.
        -- unfold into. destruct (filter _ (h_conns cs)) as [|[e h] r] eqn:F; [reflexivity|]. exfalso.
           assert (I : In (e, h) (filter (fun c => snd c =? length (nodes g)) (h_conns cs))) by (rewrite F; left; reflexivity).
           apply filter_In in I as [I1 I2]. cbn in I2. apply Nat.eqb_eq in I2. destruct (BC _ _ I1). lia.
        -- symmetry. apply outof_unused. intros ts p I T. pose proof (BT _ _ I _ T). lia.
    + intros ts p I t T. pose proof (BT _ _ I t T). lia.
    + intros e h I. destruct (BC _ _ I). lia.
    + exact AH.
  - unfold AddEdge in H. destruct (index_tails _ ts (nodes g)) as [ns|] eqn:U; [|discriminate]. injection H as <-.
    apply (agrees_edge cs g ns ts p None (CEdge ts p) A U); reflexivity.
  - unfold AddEdgeCopy in H. cbn [eid] in H. destruct (index_tails _ (tails ne) (nodes g)) as [ns|] eqn:U; [|discriminate].
    injection H as <-. apply (agrees_edge cs g ns (tails ne) (lab ne) (head ne) (CCopy ne) A U); reflexivity.
  - unfold Connect in H. destruct (upd (edges g) e _) as [es|] eqn:UE; [|discriminate].
    destruct (upd (nodes g) h _) as [ns|] eqn:UN; [|discriminate]. injection H as <-.
    apply (agrees_connect cs g es ns e h _ A UE UN); reflexivity.
  - unfold ConnectPtr in H. destruct (nth_error (edges g) e) as [ed|] eqn:NE; [|discriminate].
    destruct (nth_error (nodes g) h) as [nd|] eqn:NN; [|discriminate].
    pose proof A as (LN & LE & AN & AE & BT & BC & AH). destruct (AE _ _ NE) as [IE _]. destruct (AN _ _ NN) as [IN _].
    rewrite IE, IN in H. destruct (upd (edges g) e _) as [es|] eqn:UE; [|discriminate].
    destruct (upd (nodes g) h _) as [ns|] eqn:UN; [|discriminate]. injection H as <-.
    apply (agrees_connect cs g es ns e h _ A UE UN); reflexivity.
  - unfold ConnectEdgePtr in H. destruct (nth_error (edges g) e) as [ed|] eqn:NE; [|discriminate].
    pose proof A as (LN & LE & AN & AE & BT & BC & AH). destruct (AE _ _ NE) as [IE _].
    rewrite IE in H. destruct (upd (edges g) e _) as [es|] eqn:UE; [|discriminate].
    destruct (upd (nodes g) h _) as [ns|] eqn:UN; [|discriminate]. injection H as <-.
    apply (agrees_connect cs g es ns e h _ A UE UN); reflexivity.
Qed.

Lemma agrees_run : forall cs2 cs1 g g', agrees cs1 g -> run cs2 g = Some g' -> agrees (cs1 ++ cs2) g'.
Proof.
  induction cs2 as [|c r IH]; intros cs1 g g' A H; cbn [run] in H.
  - injection H as <-. rewrite app_nil_r. exact A.
  - destruct (run1 c g) as [g1|] eqn:R; [|discriminate].
    replace (cs1 ++ c :: r) with ((cs1 ++ [c]) ++ r) by (rewrite <- app_assoc; reflexivity).
    exact (IH _ _ _ (agrees_step _ _ _ _ A R) H).
Qed.

Lemma agrees_empty : agrees [] empty_hg.
Proof.
  unfold agrees, empty_hg. cbn. repeat split; try (intros [|]; discriminate); try tauto.
  all: intros; match goal with H : nth_error [] ?n = Some _ |- _ => destruct n; discriminate H | _ => idtac end; try contradiction.
Qed.

(** ** Statements *)
Lemma build_agrees : forall cs g, run cs empty_hg = Some g ->
  length (nodes g) = length (h_nodes cs) /\ length (edges g) = length (h_edges cs) /\
  (forall n nd, nth_error (nodes g) n = Some nd ->
     nid nd = n /\ nth_error (h_nodes cs) n = Some (cat nd) /\
     in_edges nd = into n (h_conns cs) /\ out_edges nd = outof n 0 (h_edges cs)) /\
  (forall e ed, nth_error (edges g) e = Some ed -> eid ed = e /\ nth_error (h_edges cs) e = Some (tails ed, lab ed)).
Proof.
  intros cs g H. destruct (agrees_run cs [] empty_hg g agrees_empty H) as (A & B & C & D & _).
  split; [exact A|]. split; [exact B|]. split; [exact C|exact D].
Qed.

Lemma count_into : forall l e n, NoDup (map fst l) ->
  count_occ Nat.eq_dec (into n l) e = if existsb (fun c => (fst c =? e) && (snd c =? n)) l then 1 else 0.
Proof.
  induction l as [|[a b] r IH]; intros e n ND; [reflexivity|]. cbn [map fst] in ND. inversion ND as [|? ? NI ND']; subst.
  specialize (IH e n ND'). unfold into in *. cbn [filter snd existsb fst].
  assert (Z : a = e -> existsb (fun c => (fst c =? e) && (snd c =? n)) r = false).
  { intros ->. destruct (existsb _ r) eqn:EX; [|reflexivity]. exfalso. apply existsb_exists in EX as ([x y] & I & T).
    apply andb_prop in T as [T1 T2]. apply Nat.eqb_eq in T1. cbn in T1. subst. apply NI. apply (in_map fst) in I. exact I. }
  destruct (Nat.eqb_spec b n) as [->|NB].
  - cbn [map fst count_occ]. rewrite IH. destruct (Nat.eqb_spec a e) as [->|NA].
    + rewrite Z by reflexivity. destruct (Nat.eq_dec e e); [reflexivity|congruence].
    + destruct (Nat.eq_dec a e); [congruence|]. reflexivity.
  - rewrite andb_false_r. exact IH.
Qed.

Lemma count_repeat : forall k m e, count_occ Nat.eq_dec (repeat k m) e = if k =? e then m else 0.
Proof.
  intros k m e. destruct (Nat.eqb_spec k e) as [->|NE]; induction m as [|m IH]; cbn [repeat count_occ]; try reflexivity.
  - destruct (Nat.eq_dec e e); [lia|congruence].
  - destruct (Nat.eq_dec k e); [congruence|exact IH].
Qed.
Lemma count_outof : forall (es : list (list nat * P)) k n e, count_occ Nat.eq_dec (outof n k es) e =
  if k <=? e then match nth_error es (e - k) with Some (ts, _) => count_occ Nat.eq_dec ts n | None => 0 end else 0.
Proof.
  induction es as [|[ts p] r IH]; intros k n e.
  - cbn. destruct (k <=? e); [|reflexivity]. destruct (e - k); reflexivity.
  - cbn [outof]. rewrite count_occ_app, count_repeat, IH.
    destruct (Nat.eqb_spec k e) as [->|NE].
    + rewrite Nat.leb_refl, Nat.sub_diag. cbn [nth_error]. replace (S e <=? e) with false by (symmetry; apply Nat.leb_gt; lia). lia.
    + destruct (Nat.leb_spec k e) as [LE|GT].
      * replace (S k <=? e) with true by (symmetry; apply Nat.leb_le; lia).
        replace (e - k) with (S (e - S k)) by lia. reflexivity.
      * replace (S k <=? e) with false by (symmetry; apply Nat.leb_gt; lia). reflexivity.
Qed.

(** In-edges and out-edges against the edges' own fields. *)
Lemma build_consistent : forall cs g, run cs empty_hg = Some g -> NoDup (map fst (h_conns cs)) ->
  (forall n nd, nth_error (nodes g) n = Some nd -> nid nd = n) /\
  (forall e ed, nth_error (edges g) e = Some ed -> eid ed = e) /\
  (forall n nd e ed, nth_error (nodes g) n = Some nd -> nth_error (edges g) e = Some ed ->
     count_occ Nat.eq_dec (out_edges nd) e = count_occ Nat.eq_dec (tails ed) n) /\
  (forall n nd e ed, nth_error (nodes g) n = Some nd -> nth_error (edges g) e = Some ed ->
     (In (e, n) (h_conns cs) -> head ed = Some n /\ count_occ Nat.eq_dec (in_edges nd) e = 1) /\
     (~ In (e, n) (h_conns cs) -> ~ In e (in_edges nd))) /\
  (forall n nd e, nth_error (nodes g) n = Some nd -> In e (in_edges nd) \/ In e (out_edges nd) -> e < length (edges g)) /\
  (forall e ed t, nth_error (edges g) e = Some ed -> In t (tails ed) -> t < length (nodes g)) /\
  (forall e h, In (e, h) (h_conns cs) -> e < length (edges g) /\ h < length (nodes g)).
Proof.
  intros cs g H ND. destruct (agrees_run cs [] empty_hg g agrees_empty H) as (LN & LE & AN & AE & BT & BC & AH).
  cbn [app] in *. split; [|split; [|split; [|split; [|split; [|split]]]]].
  - intros n nd N. exact (proj1 (AN _ _ N)).
  - intros e ed N. exact (proj1 (AE _ _ N)).
  - intros n nd e ed N E. destruct (AN _ _ N) as (_ & _ & _ & O). destruct (AE _ _ E) as (_ & X).
    rewrite O, count_outof. cbn [Nat.leb]. rewrite Nat.sub_0_r, X. reflexivity.
  - intros n nd e ed N E. destruct (AN _ _ N) as (_ & _ & I & _). split.
    + intros C. destruct (AH ND _ _ C) as (ed' & E' & HD). rewrite E in E'. injection E' as <-. split; [exact HD|].
      rewrite I, count_into by exact ND.
      assert (X : existsb (fun c => (fst c =? e) && (snd c =? n)) (h_conns cs) = true).
      { apply existsb_exists. exists (e, n). split; [exact C|]. cbn. rewrite !Nat.eqb_refl. reflexivity. }
      rewrite X. reflexivity.
    + intros NC X. apply NC. rewrite I in X. unfold into in X. apply in_map_iff in X as ([a b] & Y & Z).
      apply filter_In in Z as [Z1 Z2]. cbn in *. apply Nat.eqb_eq in Z2. subst. exact Z1.
  - intros n nd e N IE. destruct (AN _ _ N) as (_ & _ & I & O). destruct IE as [X|X].
    + rewrite I in X. unfold into in X. apply in_map_iff in X as ([a b] & Y & Z).
      apply filter_In in Z as [Z1 Z2]. cbn in Y. subst. exact (proj1 (BC _ _ Z1)).
    + rewrite O in X. apply (count_occ_In Nat.eq_dec) in X. rewrite count_outof in X. cbn [Nat.leb] in X. rewrite Nat.sub_0_r in X.
      rewrite LE. apply nth_error_Some. intros Z. rewrite Z in X. lia.
  - intros e ed t E T. destruct (AE _ _ E) as (_ & X). apply nth_error_In in X. exact (BT _ _ X t T).
  - exact BC.
Qed.

(** When the calls are defined. *)
Definition call_ok (c : call P) g : Prop :=
  match c with
  | CNode _ => True
  | CEdge ts _ => forall t, In t ts -> t < length (nodes g)
  | CCopy ne => forall t, In t (tails ne) -> t < length (nodes g)
  | CConnect e h | CConnectPtr e h | CConnectEdgePtr e h => e < length (edges g) /\ h < length (nodes g)
  end.

Lemma build_total : forall cs g c, run cs empty_hg = Some g -> call_ok c g -> exists g', run1 c g = Some g'.
Proof.
  intros cs g c H OK. destruct (agrees_run cs [] empty_hg g agrees_empty H) as (LN & LE & AN & AE & _).
  assert (NN : forall h, h < length (nodes g) -> exists nd, nth_error (nodes g) h = Some nd /\ nid nd = h).
  { intros h L. destruct (nth_error (nodes g) h) as [nd|] eqn:N; [|apply nth_error_None in N; lia].
    exists nd. split; [reflexivity|exact (proj1 (AN _ _ N))]. }
  assert (EE : forall e, e < length (edges g) -> exists ed, nth_error (edges g) e = Some ed /\ eid ed = e).
  { intros e L. destruct (nth_error (edges g) e) as [ed|] eqn:N; [|apply nth_error_None in N; lia].
    exists ed. split; [reflexivity|exact (proj1 (AE _ _ N))]. }
  destruct c as [z|ts p|ne|e h|e h|e h]; cbn [run1 call_ok] in *.
  - eexists. reflexivity.
  - unfold AddEdge. destruct (index_tails_total (length (edges g)) ts (nodes g) OK) as (ns & ->). eexists. reflexivity.
  - unfold AddEdgeCopy. cbn [eid]. destruct (index_tails_total (length (edges g)) (tails ne) (nodes g) OK) as (ns & ->). eexists. reflexivity.
  - destruct OK as [O1 O2]. unfold Connect.
    destruct (upd_total _ (edges g) e (set_head h) O1) as (es & ->). destruct (upd_total _ (nodes g) h (push_in e) O2) as (ns & ->).
    eexists. reflexivity.
  - destruct OK as [O1 O2]. unfold ConnectPtr. destruct (EE _ O1) as (ed & -> & ->). destruct (NN _ O2) as (nd & -> & ->).
    destruct (upd_total _ (edges g) e (set_head h) O1) as (es & ->). destruct (upd_total _ (nodes g) h (push_in e) O2) as (ns & ->).
    eexists. reflexivity.
  - destruct OK as [O1 O2]. unfold ConnectEdgePtr. destruct (EE _ O1) as (ed & -> & ->).
    destruct (upd_total _ (edges g) e (set_head h) O1) as (es & ->). destruct (upd_total _ (nodes g) h (push_in e) O2) as (ns & ->).
    eexists. reflexivity.
Qed.
End Pr.
