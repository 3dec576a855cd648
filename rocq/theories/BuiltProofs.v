(** Graphs built by adding nodes and edges, each edge connected at once: what is in them. *)
From Coq Require Import List Arith ZArith Lia.
From Verif Require Import Opt HG HGProofs Deriv TopoSpec.
Import ListNotations.
Open Scope opt_scope.
Local Open Scope nat_scope.

Section B.
Context {P : Type}.
(** an edge: its tails, what is on it, its head *)
Local Notation bedge := (list nat * P * nat)%type.
Fixpoint ins (k n : nat) (es : list bedge) : list nat :=
  match es with [] => [] | (_, _, h) :: r => (if h =? n then [k] else []) ++ ins (S k) n r end.
Fixpoint outs (k n : nat) (es : list bedge) : list nat :=
  match es with [] => [] | (ts, _, _) :: r => repeat k (count_occ Nat.eq_dec ts n) ++ outs (S k) n r end.
Definition the_edge (k : nat) (e : bedge) : edge P := let '(ts, l, h) := e in {| head := Some h; tails := ts; lab := l; eid := k |}.
Record built (cs : list Z) (es : list bedge) (g : hg P) : Prop := {
  b_nodes : forall n, nth_error (nodes g) n = match nth_error cs n with Some c => Some {| nid := n; cat := c; in_edges := ins 0 n es; out_edges := outs 0 n es |} | None => None end;
  b_edges : forall e, nth_error (edges g) e = match nth_error es e with Some x => Some (the_edge e x) | None => None end;
  b_tails : forall ts l h, In (ts, l, h) es -> (forall t, In t ts -> t < length cs) /\ h < length cs }.

Lemma len_ext : forall (A B : Type) (f : nat -> A -> B) (l : list A) (m : list B), (forall k, nth_error m k = match nth_error l k with Some x => Some (f k x) | None => None end) -> length m = length l.
Proof.
  intros A B f l m H. destruct (Nat.lt_trichotomy (length m) (length l)) as [L|[L|L]]; [|exact L|].
  - specialize (H (length m)). apply nth_error_Some in L. destruct (nth_error l (length m)) as [x|] eqn:E; [|congruence]. rewrite (proj2 (nth_error_None m (length m))) in H by lia. discriminate.
  - specialize (H (length l)). rewrite (proj2 (nth_error_None l (length l))) in H by lia. apply nth_error_None in H. lia.
Qed.
Lemma built_len : forall cs es g, built cs es g -> length (nodes g) = length cs /\ length (edges g) = length es.
Proof.
  intros cs es g B. split; [exact (len_ext _ _ (fun n c => {| nid := n; cat := c; in_edges := ins 0 n es; out_edges := outs 0 n es |}) _ _ (b_nodes _ _ _ B))|exact (len_ext _ _ the_edge _ _ (b_edges _ _ _ B))].
Qed.
Lemma ins_app : forall a k n b, ins k n (a ++ b) = ins k n a ++ ins (k + length a) n b.
Proof. induction a as [|((ts, l), h) a IH]; intros k n b; cbn; [f_equal; lia|]. rewrite IH, <- app_assoc. do 3 f_equal. lia. Qed.
Lemma outs_app : forall a k n b, outs k n (a ++ b) = outs k n a ++ outs (k + length a) n b.
Proof. induction a as [|((ts, l), h) a IH]; intros k n b; cbn; [f_equal; lia|]. rewrite IH, <- app_assoc. do 3 f_equal. lia. Qed.
Lemma ins_in : forall es k n e, In e (ins k n es) <-> k <= e /\ exists ts l, nth_error es (e - k) = Some (ts, l, n).
Proof.
  induction es as [|((ts, l), h) es IH]; intros k n e; cbn [ins].
  - split; [intros []|]. intros (_ & ts & l & H). destruct (e - k); discriminate.
  - rewrite in_app_iff, IH. split.
    + intros [H|(L & ts' & l' & H)].
      * destruct (Nat.eqb_spec h n) as [->|]; [|destruct H]. destruct H as [<- |[]]. split; [lia|]. rewrite Nat.sub_diag. cbn. eauto.
      * split; [lia|]. exists ts', l'. replace (e - k) with (S (e - S k)) by lia. exact H.
    + intros (L & ts' & l' & H). destruct (Nat.eq_dec e k) as [->|NE].
      * rewrite Nat.sub_diag in H. cbn in H. injection H as <- <- <-. rewrite Nat.eqb_refl. left; left; reflexivity.
      * right. split; [lia|]. exists ts', l'. replace (e - k) with (S (e - S k)) in H by lia. exact H.
Qed.
Lemma ins_out : forall es k n, (forall ts l h, In (ts, l, h) es -> h <> n) -> ins k n es = [].
Proof.
  induction es as [|((ts, l), h) es IH]; intros k n H; [reflexivity|]. cbn [ins]. rewrite IH by (intros ts' l' h' I; exact (H ts' l' h' (or_intror I))). destruct (Nat.eqb_spec h n) as [E|]; [|reflexivity]. exfalso. exact (H ts l h (or_introl eq_refl) E).
Qed.
Lemma outs_out : forall es k n, (forall ts l h, In (ts, l, h) es -> ~ In n ts) -> outs k n es = [].
Proof.
  induction es as [|((ts, l), h) es IH]; intros k n H; [reflexivity|]. cbn [outs]. rewrite IH by (intros ts' l' h' I; exact (H ts' l' h' (or_intror I))). rewrite (proj1 (count_occ_not_In Nat.eq_dec ts n)); [reflexivity|]. exact (H ts l h (or_introl eq_refl)).
Qed.
Lemma nth_snoc : forall (A : Type) (l : list A) x k, nth_error (l ++ [x]) k = if k <? length l then nth_error l k else if k =? length l then Some x else None.
Proof.
  intros A l x k. destruct (Nat.ltb_spec k (length l)); [apply nth_error_app1; lia|]. rewrite nth_error_app2 by lia. destruct (Nat.eqb_spec k (length l)) as [->|]; [rewrite Nat.sub_diag; reflexivity|]. destruct (k - length l) as [|m] eqn:E; [lia|]. destruct m; reflexivity.
Qed.
Lemma built_empty : built [] [] empty_hg.
Proof. split; cbn; [intros [|n]; reflexivity|intros [|e]; reflexivity|intros ts l h []]. Qed.
Lemma built_node : forall cs es g c, built cs es g -> exists g', AddNode c g = Some g' /\ built (cs ++ [c]) es g'.
Proof.
  intros cs es g c B. destruct (built_len _ _ _ B) as [LN LE]. eexists. split; [reflexivity|]. split; cbn [nodes edges].
  - intros n. rewrite !nth_snoc, LN. destruct (Nat.ltb_spec n (length cs)); [exact (b_nodes _ _ _ B n)|]. destruct (Nat.eqb_spec n (length cs)) as [->|]; [|reflexivity].
    rewrite ins_out, outs_out; [reflexivity| |]; intros ts l h I; destruct (b_tails _ _ _ B _ _ _ I) as [T H2]; [intros J; specialize (T _ J); lia|lia].
  - exact (b_edges _ _ _ B).
  - intros ts l h I. destruct (b_tails _ _ _ B _ _ _ I) as [T H]. rewrite app_length. cbn. split; [intros t J; specialize (T t J); lia|lia].
Qed.
Lemma built_edge : forall cs es g ts l h, built cs es g -> (forall t, In t ts -> t < length cs) -> h < length cs ->
  exists g1 g2, AddEdge ts l g = Some g1 /\ Connect (length (edges g)) h g1 = Some g2 /\ built cs (es ++ [(ts, l, h)]) g2 /\ length (edges g1) = S (length es) /\ length (nodes g1) = length cs /\
    nth_error (edges g1) (length (edges g)) = Some {| head := None; tails := ts; lab := l; eid := length es |} /\ (forall n nd, nth_error (nodes g1) n = Some nd -> nid nd = n).
Proof.
  intros cs es g ts l h B T H. destruct (built_len _ _ _ B) as [LN LE]. unfold AddEdge. destruct (index_tails_total (length (edges g)) ts (nodes g)) as (ns & IT); [intros t J; rewrite LN; exact (T t J)|]. rewrite IT.
  destruct (index_tails_spec _ _ _ _ IT) as (LS & _ & NS). exists {| nodes := ns; edges := edges g ++ [{| head := None; tails := ts; lab := l; eid := length (edges g) |}] |}. unfold Connect. cbn [nodes edges].
  destruct (upd_total _ (edges g ++ [{| head := None; tails := ts; lab := l; eid := length (edges g) |}]) (length (edges g)) (set_head h)) as (es' & UE); [rewrite app_length; cbn; lia|].
  destruct (upd_total _ ns h (push_in (length (edges g)))) as (ns' & UN); [lia|].
  rewrite UE, UN. eexists. split; [reflexivity|]. split; [reflexivity|]. split; [|split; [rewrite app_length; cbn; lia|split; [congruence|split; [rewrite nth_snoc, Nat.ltb_irrefl, Nat.eqb_refl, LE; reflexivity|]]]].
  - split; cbn [nodes edges].
    + intros n. rewrite (upd_nth _ _ _ _ _ n UN). pose proof (b_nodes _ _ _ B n) as BN. destruct (nth_error cs n) as [c|] eqn:C.
      * rewrite (NS n _ BN). cbn [nid cat in_edges out_edges option_map]. rewrite ins_app, outs_app. cbn [ins outs plus]. rewrite !app_nil_r, LE. destruct (Nat.eqb_spec h n) as [->|]; [reflexivity|]. rewrite !app_nil_r. reflexivity.
      * apply nth_error_None in C. rewrite (proj2 (nth_error_None ns n)) by lia. destruct (h =? n); reflexivity.
    + intros e. rewrite (upd_nth _ _ _ _ _ e UE). rewrite !nth_snoc, LE. pose proof (b_edges _ _ _ B e) as BE. destruct (Nat.ltb_spec e (length es)) as [L|L].
      * destruct (Nat.eqb_spec (length es) e); [lia|]. exact BE.
      * destruct (Nat.eqb_spec e (length es)) as [->|]; [rewrite Nat.eqb_refl; reflexivity|]. destruct (Nat.eqb_spec (length es) e); [lia|reflexivity].
    + intros ts' l' h' I. apply in_app_or in I as [I|[[= <- <- <-]|[]]]; [exact (b_tails _ _ _ B _ _ _ I)|split; assumption].
  - intros n nd N. cbn [nodes] in N. assert (n < length (nodes g)) by (rewrite <- LS; apply nth_error_Some; congruence). destruct (nth_error (nodes g) n) as [nd0|] eqn:N0; [|apply nth_error_None in N0; lia]. rewrite (NS n nd0 N0) in N. injection N as <-. cbn [nid].
    rewrite (b_nodes _ _ _ B n) in N0. destruct (nth_error cs n); [|discriminate]. injection N0 as <-. reflexivity.
Qed.
Lemma built_edge_ptr : forall cs es g ts l h, built cs es g -> (forall t, In t ts -> t < length cs) -> h < length cs ->
  exists g1 g2, AddEdge ts l g = Some g1 /\ ConnectPtr (length (edges g)) h g1 = Some g2 /\ built cs (es ++ [(ts, l, h)]) g2.
Proof.
  intros cs es g ts l h B T H. destruct (built_len _ _ _ B) as [LN LE]. destruct (built_edge cs es g ts l h B T H) as (g1 & g2 & A & C & B2 & L1 & N1 & E1 & I1). exists g1, g2. split; [exact A|]. split; [|exact B2].
  unfold ConnectPtr. rewrite E1. destruct (nth_error (nodes g1) h) as [nd|] eqn:N; [|apply nth_error_None in N; lia]. rewrite (I1 h nd N). cbn [eid]. unfold Connect in C. rewrite LE in *. exact C.
Qed.
Lemma built_derives : forall cs es g, built cs es g -> forall n e ss, derives g n (Tree e ss) <-> exists ts l, nth_error es e = Some (ts, l, n) /\ Forall2 (derives g) ts ss.
Proof.
  intros cs es g B n e ss. split.
  - intros D. inversion D as [? nd ? ed ? N I E F]; subst. rewrite (b_nodes _ _ _ B) in N. destruct (nth_error cs n); [|discriminate]. injection N as <-. cbn [in_edges] in I. apply ins_in in I as (_ & ts & l & I). rewrite Nat.sub_0_r in I. rewrite (b_edges _ _ _ B), I in E. injection E as <-. cbn [the_edge tails] in F. eauto.
  - intros (ts & l & E & F). destruct (b_tails _ _ _ B _ _ _ (nth_error_In _ _ E)) as [_ L]. pose proof (b_nodes _ _ _ B n) as N. destruct (nth_error cs n) as [c|] eqn:C; [|apply nth_error_None in C; lia]. econstructor; [exact N| | |].
    + cbn [in_edges]. apply ins_in. split; [lia|]. rewrite Nat.sub_0_r. eauto.
    + rewrite (b_edges _ _ _ B), E. reflexivity.
    + exact F.
Qed.
End B.
