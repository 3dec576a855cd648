(** A forest built edge by edge, each edge connected to its head at once. *)
From Coq Require Import List ZArith Bool Lia.
From Verif Require Import HG HGProofs Deriv TopoSpec TopoDeriv.
Import ListNotations.

Section F.
Context {P : Type}.
Notation fedge := (list nat * P * nat)%type.
(** [g] has nodes of categories [fn] and the edges [fe]: tails, payload and head. *)
Definition FV (g : hg P) (fn : list Z) (fe : list fedge) : Prop :=
  exists cs, run cs empty_hg = Some g /\ h_nodes cs = fn /\ h_edges cs = map fst fe /\
    h_conns cs = combine (seq 0 (length fe)) (map snd fe).

Lemma FV_empty : FV empty_hg [] [].
Proof. exists []. auto. Qed.

Lemma combine_app_ : forall (A B : Type) (a a' : list A) (b b' : list B), length a = length b ->
  combine (a ++ a') (b ++ b') = combine a b ++ combine a' b'.
Proof. induction a as [|x a IH]; intros a' [|y b] b' L; cbn in *; try discriminate; [reflexivity|]. f_equal. apply IH. lia. Qed.

Lemma run_app : forall (cs cs' : list (call P)) g, run (cs ++ cs') g = match run cs g with Some g' => run cs' g' | None => None end.
Proof. induction cs as [|c cs IH]; intros cs' g; cbn; [reflexivity|]. destruct (run1 c g); [apply IH|reflexivity]. Qed.

Lemma FV_len : forall g fn fe, FV g fn fe -> length (nodes g) = length fn /\ length (edges g) = length fe.
Proof.
  intros g fn fe (cs & R & N & E & C). destruct (build_agrees cs g R) as (A & B & _). rewrite A, B, N, E, map_length. auto.
Qed.

Lemma conn_in : forall (fe : list fedge) e h k, In (e, h) (combine (seq k (length fe)) (map snd fe)) <->
  exists tl p, k <= e /\ nth_error fe (e - k) = Some (tl, p, h).
Proof.
  induction fe as [|((tl, p), h') fe IH]; intros e h k; cbn.
  - split; [intros []|]. intros (tl & p & _ & H). destruct (e - k); discriminate.
  - rewrite IH. split.
    + intros [[=]|(tl' & p' & L & H)]; [subst; exists tl, p; rewrite Nat.sub_diag; auto|].
      exists tl', p'. split; [lia|]. replace (e - k) with (S (e - S k)) by lia. exact H.
    + intros (tl' & p' & L & H). destruct (Nat.eq_dec e k) as [->|NE].
      * rewrite Nat.sub_diag in H. cbn in H. injection H as <- <- <-. left. reflexivity.
      * right. exists tl', p'. split; [lia|]. replace (e - k) with (S (e - S k)) in H by lia. exact H.
Qed.

Lemma combine_fst : forall (A B : Type) (a : list A) (b : list B), length a = length b -> map fst (combine a b) = a.
Proof. induction a as [|x a IH]; intros [|y b] L; cbn in *; try discriminate; [reflexivity|]. f_equal. apply IH. lia. Qed.

Lemma FV_wf : forall g fn fe, FV g fn fe -> wf_hg g.
Proof.
  intros g fn fe H. pose proof (FV_len _ _ _ H) as (LN & LE). destruct H as (cs & R & N & E & C). apply (built_wf P cs g R).
  - rewrite C, combine_fst by (rewrite seq_length, map_length; reflexivity). apply seq_NoDup.
  - intros e L. rewrite C. rewrite LE in L. destruct (nth_error fe e) as [((tl, p), h)|] eqn:Q; [|apply nth_error_None in Q; lia].
    exists h. apply conn_in. exists tl, p. rewrite Nat.sub_0_r. split; [lia|exact Q].
Qed.

Lemma FV_node : forall g fn fe n, FV g fn fe -> match nth_error (nodes g) n with Some nd => nth_error fn n = Some (cat nd) /\
  (forall e, In e (in_edges nd) <-> exists tl p, nth_error fe e = Some (tl, p, n)) | None => nth_error fn n = None end.
Proof.
  intros g fn fe n H. pose proof (FV_len _ _ _ H) as (LN & LE). destruct H as (cs & R & N & E & C). destruct (build_agrees cs g R) as (_ & _ & A & _).
  destruct (nth_error (nodes g) n) as [nd|] eqn:Q.
  - destruct (A n nd Q) as (_ & CA & I & _). rewrite N in CA. split; [exact CA|]. intros e. rewrite I. unfold into. rewrite in_map_iff. split.
    + intros ((a, b) & <- & F). apply filter_In in F. destruct F as (F & EQ). cbn in EQ. apply Nat.eqb_eq in EQ. subst b.
      rewrite C in F. apply conn_in in F. destruct F as (tl & p & _ & F). rewrite Nat.sub_0_r in F. exists tl, p. exact F.
    + intros (tl & p & F). exists (e, n). split; [reflexivity|]. apply filter_In. split; [|cbn; apply Nat.eqb_refl]. rewrite C. apply conn_in.
      exists tl, p. rewrite Nat.sub_0_r. split; [lia|exact F].
  - apply nth_error_None in Q. apply nth_error_None. lia.
Qed.

Lemma FV_edge : forall g fn fe e, FV g fn fe -> match nth_error (edges g) e with
  | Some ed => exists h, nth_error fe e = Some (tails ed, lab ed, h) /\ head ed = Some h
  | None => nth_error fe e = None end.
Proof.
  intros g fn fe e H. pose proof (FV_len _ _ _ H) as (LN & LE). pose proof (FV_wf _ _ _ H) as WF. pose proof (FV_node g fn fe) as FN. destruct H as (cs & R & N & E & C).
  destruct (build_agrees cs g R) as (_ & _ & _ & A). destruct (nth_error (edges g) e) as [ed|] eqn:Q.
  - destruct (A e ed Q) as (_ & B). rewrite E in B. rewrite nth_error_map in B. destruct (nth_error fe e) as [((tl, p), h)|] eqn:F; [|discriminate].
    cbn in B. injection B as -> ->. exists h. split; [reflexivity|].
    specialize (FN h (ex_intro _ cs (conj R (conj N (conj E C))))).
    assert (HL : In (e, h) (h_conns cs)) by (rewrite C; apply conn_in; exists (tails ed), (lab ed); rewrite Nat.sub_0_r; split; [lia|exact F]).
    assert (ND : NoDup (map fst (h_conns cs))) by (rewrite C, combine_fst by (rewrite seq_length, map_length; reflexivity); apply seq_NoDup).
    destruct (build_consistent cs g R ND) as (_ & _ & _ & C4 & _ & _ & C7). destruct (C7 e h HL) as (_ & L).
    destruct (nth_error (nodes g) h) as [nd|] eqn:QQ; [|apply nth_error_None in QQ; lia].
    exact (proj1 (proj1 (C4 h nd e ed QQ Q) HL)).
  - apply nth_error_None in Q. apply nth_error_None. lia.
Qed.

Lemma FV_add_edge : forall g fn fe tl p h, FV g fn fe -> (forall t, In t tl -> t < length fn) -> h < length fn ->
  exists g1 g2, AddEdge tl p g = Some g1 /\ ConnectPtr (length (edges g)) h g1 = Some g2 /\ FV g2 fn (fe ++ [(tl, p, h)]).
Proof.
  intros g fn fe tl p h H T L. pose proof (FV_len _ _ _ H) as (LN & LE). destruct H as (cs & R & N & E & C).
  unfold AddEdge. destruct (index_tails_total (length (edges g)) tl (nodes g)) as (ns & IT); [intros t I; rewrite LN; auto|]. rewrite IT.
  exists {| nodes := ns; edges := edges g ++ [{| head := None; tails := tl; lab := p; eid := length (edges g) |}] |}. pose proof (index_tails_spec _ _ _ _ IT) as S. assert (LNS : length ns = length (nodes g)) by (destruct S as (S & _); exact S).
  unfold ConnectPtr. cbn [edges nodes]. rewrite nth_error_app2, Nat.sub_diag by lia. cbn [nth_error].
  destruct (nth_error ns h) as [nd|] eqn:Q; [|apply nth_error_None in Q; lia].
  set (e0 := {| head := None; tails := tl; lab := p; eid := length (edges g) |}).
  destruct (upd_total _ (edges g ++ [e0]) (length (edges g)) (set_head (nid nd))) as (es' & U1); [rewrite app_length; cbn; lia|].
  destruct (upd_total _ ns h (push_in (eid e0))) as (ns' & U2); [lia|].
  rewrite U1, U2. eexists. split; [reflexivity|]. split; [reflexivity|].
  exists (cs ++ [CEdge tl p; CConnectPtr (length (edges g)) h]). split; [|split; [|split]].
  - rewrite run_app, R. cbn [run run1]. unfold AddEdge. rewrite IT. unfold ConnectPtr. cbn [edges nodes]. rewrite nth_error_app2, Nat.sub_diag by lia. cbn [nth_error].
    rewrite Q. fold e0. rewrite U1, U2. reflexivity.
  - rewrite h_nodes_app, N. cbn. apply app_nil_r.
  - rewrite h_edges_app, E, map_app. reflexivity.
  - rewrite h_conns_app, C, app_length, map_app, seq_app. cbn. rewrite combine_app_ by (rewrite seq_length, map_length; reflexivity). cbn. rewrite LE. reflexivity.
Qed.

Lemma FV_add_node_edge : forall g fn fe tl p c, FV g fn fe -> (forall t, In t tl -> t < length fn) ->
  exists g1 g2 g3, AddEdge tl p g = Some g1 /\ AddNode c g1 = Some g2 /\ length (nodes g1) = length fn /\
    ConnectPtr (length (edges g)) (length (nodes g1)) g2 = Some g3 /\ FV g3 (fn ++ [c]) (fe ++ [(tl, p, length fn)]).
Proof.
  intros g fn fe tl p c H T. pose proof (FV_len _ _ _ H) as (LN & LE). destruct H as (cs & R & N & E & C).
  unfold AddEdge. destruct (index_tails_total (length (edges g)) tl (nodes g)) as (ns & IT); [intros t I; rewrite LN; auto|]. rewrite IT.
  exists {| nodes := ns; edges := edges g ++ [{| head := None; tails := tl; lab := p; eid := length (edges g) |}] |}.
  exists {| nodes := ns ++ [{| nid := length ns; cat := c; in_edges := []; out_edges := [] |}]; edges := edges g ++ [{| head := None; tails := tl; lab := p; eid := length (edges g) |}] |}. pose proof (index_tails_spec _ _ _ _ IT) as S. assert (LNS : length ns = length (nodes g)) by (destruct S as (S & _); exact S).
  unfold AddNode, ConnectPtr. cbn [edges nodes]. rewrite !nth_error_app2, !Nat.sub_diag by lia. cbn [nth_error nid eid].
  set (e0 := {| head := None; tails := tl; lab := p; eid := length (edges g) |}).
  set (n0 := {| nid := length ns; cat := c; in_edges := []; out_edges := [] |}).
  destruct (upd_total _ (edges g ++ [e0]) (length (edges g)) (set_head (length ns))) as (es' & U1); [rewrite app_length; cbn; lia|].
  destruct (upd_total _ (ns ++ [n0]) (length ns) (push_in (length (edges g)))) as (ns' & U2); [rewrite app_length; cbn; lia|].
  rewrite U1, U2. eexists. split; [reflexivity|]. split; [reflexivity|]. split; [lia|]. split; [reflexivity|].
  exists (cs ++ [CEdge tl p; CNode c; CConnectPtr (length (edges g)) (length ns)]). split; [|split; [|split]].
  - rewrite run_app, R. cbn [run run1]. unfold AddEdge. rewrite IT. unfold AddNode. unfold ConnectPtr. cbn [edges nodes]. rewrite !nth_error_app2, !Nat.sub_diag by lia. cbn [nth_error nid eid].
    fold e0 n0. rewrite U1, U2. reflexivity.
  - rewrite h_nodes_app, N. cbn. reflexivity.
  - rewrite h_edges_app, E, map_app. reflexivity.
  - rewrite h_conns_app, C, app_length, map_app, seq_app. cbn. rewrite combine_app_ by (rewrite seq_length, map_length; reflexivity). cbn. rewrite LE, LNS, LN. reflexivity.
Qed.
End F.
