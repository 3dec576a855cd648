(** Proofs for Trellis.v. *)
From Coq Require Import List ZArith Bool Lia.
From Verif Require Import Opt OptProofs HG HGProofs Deriv TopoSpec Prune PruneSpec Rule RuleSpec RuleProofs Parser Constrain ConstrainSpec ConstrainProofs Trellis TrellisSpec.
Import ListNotations.
Open Scope opt_scope.
Local Open Scope nat_scope.

(** A node with its incoming edges, added to a forest *)
Section A.
Context {X : Type}.
Notation hgx := (hg (elab X)).
Definition linked (g : hgx) : Prop := forall e ed n, nth_error (edges g) e = Some ed -> head ed = Some n -> exists nd, nth_error (nodes g) n = Some nd /\ In e (in_edges nd).
(** every node and edge of [g] is in [g'], with the same incoming edges *)
Definition grows (g g' : hgx) : Prop := length (nodes g) <= length (nodes g') /\
  (forall n nd, nth_error (nodes g) n = Some nd -> exists nd', nth_error (nodes g') n = Some nd' /\ in_edges nd' = in_edges nd) /\
  (forall e ed, nth_error (edges g) e = Some ed -> nth_error (edges g') e = Some ed).
Lemma grows_refl : forall g, grows g g.
Proof. intros g. split; [lia|]. split; eauto. Qed.
Lemma grows_trans : forall a b c, grows a b -> grows b c -> grows a c.
Proof.
  intros a b c (L & N & E) (L' & N' & E'). split; [lia|]. split; [|auto]. intros n nd H. destruct (N n nd H) as (nd1 & H1 & I1). destruct (N' n nd1 H1) as (nd2 & H2 & I2). exists nd2. split; [exact H2|congruence].
Qed.
Lemma grows_up : forall g g', grows g g' -> forall t n, derives g n t -> derives g' n t.
Proof.
  intros g g' (_ & N & E) t. induction t as [e ts IH] using tree_ind'. intros n D. inversion D as [? nd ? ed ? H J K F]; subst. destruct (N n nd H) as (nd' & H' & I). econstructor; [exact H'|rewrite I; exact J|exact (E e ed K)|].
  clear - IH F. induction F as [|x y l l' H F IHF]; [constructor|]. inversion IH; subst. constructor; auto.
Qed.
Lemma grows_down : forall g g', grows g g' -> wf_hg g -> forall t n, n < length (nodes g) -> derives g' n t -> derives g n t.
Proof.
  intros g g' (_ & N & E) W t. induction t as [e ts IH] using tree_ind'. intros n LN D. inversion D as [? nd' ? ed' ? H' J' K' F]; subst.
  destruct (nth_error (nodes g) n) as [nd|] eqn:H; [|apply nth_error_None in H; lia]. destruct (N n nd H) as (nd2 & H2 & I). assert (nd2 = nd') by congruence. subst nd2. rewrite I in J'.
  destruct (wf_in g W n nd e H J') as (ed & K & _). assert (ed' = ed) by (specialize (E e ed K); congruence). subst ed'. econstructor; [exact H|exact J'|exact K|].
  assert (TL : forall t, In t (tails ed) -> t < length (nodes g)) by (intros t I2; exact (wf_tails g W e ed t K I2)).
  clear - IH F TL. induction F as [|x y l l' H F IHF]; [constructor|]. inversion IH; subst. constructor; [apply H2; [apply TL; left; reflexivity|exact H]|]. apply IHF; [assumption|intros t I; apply TL; right; exact I].
Qed.
Lemma grows_edge : forall g g', grows g g' -> forall t n, derives g n t -> forall e, In e (tree_edges t) -> nth_error (edges g') e = nth_error (edges g) e.
Proof.
  intros g g' (_ & _ & E) t. induction t as [e0 ts IH] using tree_ind'. intros n D e I. inversion D as [? nd ? ed ? H J K F]; subst. cbn [tree_edges] in I. apply in_app_or in I as [I|[<-|[]]].
  - apply in_flat_map in I as (s & S & I). apply In_nth_error in S as (k & S). destruct (F2_nth_r _ _ _ _ _ F _ _ S) as (m & _ & DM). rewrite Forall_forall in IH. exact (IH s (nth_error_In _ _ S) m DM e I).
  - rewrite K. exact (E e0 ed K).
Qed.

(** the state while edges are added into the last node *)
Record mid (g0 : hgx) (c : Z) (es : list (list nat * elab X)) (g : hgx) : Prop := {
  m_wf : wf_hg g;
  m_topo : topo g;
  m_linked : linked g0 -> linked g;
  m_grows : grows g0 g;
  m_len : length (nodes g) = S (length (nodes g0));
  m_last : exists nd, nth_error (nodes g) (length (nodes g0)) = Some nd /\ in_edges nd = List.seq (length (edges g0)) (length es);
  m_elen : length (edges g) = length (edges g0) + length es;
  m_edges : forall k ts l, nth_error es k = Some (ts, l) -> nth_error (edges g) (length (edges g0) + k) = Some {| head := Some (length (nodes g0)); tails := ts; lab := l; eid := length (edges g0) + k |}
}.
Lemma nth_snoc : forall A (l : list A) x k y, nth_error (l ++ [x]) k = Some y <-> nth_error l k = Some y \/ (k = length l /\ y = x).
Proof.
  intros A l x k y. destruct (Nat.lt_trichotomy k (length l)) as [L|[L|L]].
  - rewrite nth_error_app1 by exact L. split; [auto|]. intros [H|(H & _)]; [exact H|lia].
  - subst k. rewrite nth_error_app2, Nat.sub_diag by lia. cbn. rewrite (proj2 (nth_error_None l (length l))) by lia. split; [intros [= <-]; auto|intros [H|(_ & ->)]; [discriminate|reflexivity]].
  - rewrite nth_error_app2 by lia. rewrite (proj2 (nth_error_None l k)) by lia. destruct (k - length l) as [|[|m]] eqn:Z; [lia| |]; cbn; (split; [discriminate|intros [H|(H & _)]; [discriminate|lia]]).
Qed.
Lemma mid_start : forall g0 c, wf_hg g0 -> topo g0 -> exists g, AddNode c g0 = Some g /\ mid g0 c [] g.
Proof.
  intros g0 c W T. eexists. split; [reflexivity|]. set (nd0 := {| nid := length (nodes g0); cat := c; in_edges := []; out_edges := [] |}). split; cbn [nodes edges].
  - split; cbn [nodes edges].
    + intros n nd H. apply nth_snoc in H as [H|(-> & ->)]; [exact (wf_nid g0 W n nd H)|reflexivity].
    + exact (wf_eid g0 W).
    + intros n nd e H I. apply nth_snoc in H as [H|(-> & ->)]; [exact (wf_in g0 W n nd e H I)|destruct I].
    + intros n nd H. apply nth_snoc in H as [H|(-> & ->)]; [exact (wf_nodup g0 W n nd H)|constructor].
    + intros n nd e H I. apply nth_snoc in H as [H|(-> & ->)]; [exact (wf_out g0 W n nd e H I)|destruct I].
    + intros e ed t H I. rewrite app_length. cbn. pose proof (wf_tails g0 W e ed t H I). lia.
    + intros e ed H. destruct (wf_head g0 W e ed H) as (h & A & B). exists h. rewrite app_length. cbn. split; [exact A|lia].
  - intros n nd H. cbn [nodes edges] in *. apply nth_snoc in H as [H|(-> & ->)]; [exact (T n nd H)|]. split; [constructor|intros e []].
  - intros LK e ed n E H. cbn [nodes edges] in *. destruct (LK e ed n E H) as (nd & N & I). exists nd. split; [apply nth_snoc; auto|exact I].
  - split; [cbn; rewrite app_length; lia|]. split; [|auto]. intros n nd H. exists nd. split; [cbn; apply nth_snoc; auto|reflexivity].
  - rewrite app_length. cbn. lia.
  - exists nd0. split; [apply nth_snoc; auto|reflexivity].
  - cbn. lia.
  - intros [|k]; discriminate.
Qed.
Lemma mid_step : forall g0 c es g ts l, mid g0 c es g -> wf_hg g0 -> (forall t, In t ts -> t < length (nodes g0)) ->
  exists g1 g2, AddEdge ts l g = Some g1 /\ Connect (length (edges g)) (length (nodes g0)) g1 = Some g2 /\ mid g0 c (es ++ [(ts, l)]) g2.
Proof.
  intros g0 c es g ts l M W0 TS. destruct M as [W T LK G LN (nd0 & N0 & I0) LE ED]. set (e := length (edges g)).
  destruct (index_tails_total e ts (nodes g)) as (ns & IT). { intros t I. specialize (TS t I). lia. }
  destruct (index_tails_spec e ts (nodes g) ns IT) as (L1 & SP).
  destruct (upd_total _ (edges g ++ [{| head := None; tails := ts; lab := l; eid := e |}]) e (set_head (length (nodes g0)))) as (es2 & U1). { rewrite app_length. cbn. unfold e. lia. }
  destruct (upd_total _ ns (length (nodes g0)) (push_in e)) as (ns2 & U2). { rewrite L1, LN. lia. }
  exists {| nodes := ns; edges := edges g ++ [{| head := None; tails := ts; lab := l; eid := e |}] |}, {| nodes := ns2; edges := es2 |}.
  split; [unfold AddEdge; fold e; rewrite IT; reflexivity|]. split; [unfold Connect; cbn [nodes edges]; rewrite U1, U2; reflexivity|].
  set (N := length (nodes g0)) in *. set (ne := {| head := Some N; tails := ts; lab := l; eid := e |}).
  assert (L2 : length ns2 = length (nodes g)) by (rewrite (upd_length _ _ _ _ _ U2); exact L1).
  assert (LE2 : length es2 = S e) by (rewrite (upd_length _ _ _ _ _ U1), app_length; cbn; unfold e; lia).
  assert (FW : forall n nd, nth_error (nodes g) n = Some nd -> exists nd', nth_error ns2 n = Some nd' /\ nid nd' = nid nd /\ in_edges nd' = in_edges nd ++ (if N =? n then [e] else []) /\ forall x, In x (out_edges nd') -> In x (out_edges nd) \/ x = e).
  { intros n nd H. rewrite (upd_nth _ _ _ _ _ n U2), (proj2 SP n nd H). assert (OUT : forall x, In x (out_edges nd ++ repeat e (count_occ Nat.eq_dec ts n)) -> In x (out_edges nd) \/ x = e) by (intros x I; apply in_app_or in I as [I|I]; [auto|right; exact (repeat_spec _ _ _ I)]).
    destruct (N =? n); cbn; eexists; (split; [reflexivity|]); cbn; rewrite ?app_nil_r; auto. }
  assert (BW : forall n nd', nth_error ns2 n = Some nd' -> exists nd, nth_error (nodes g) n = Some nd /\ nid nd' = nid nd /\ in_edges nd' = in_edges nd ++ (if N =? n then [e] else []) /\ forall x, In x (out_edges nd') -> In x (out_edges nd) \/ x = e).
  { intros n nd' H. assert (n < length (nodes g)) by (rewrite <- L2; apply nth_error_Some; congruence). destruct (nth_error (nodes g) n) as [nd|] eqn:K; [|apply nth_error_None in K; lia]. destruct (FW n nd K) as (nd2 & H2 & R). exists nd. assert (nd2 = nd') by congruence. subst. auto. }
  assert (EE : forall k ed, nth_error es2 k = Some ed <-> nth_error (edges g) k = Some ed \/ (k = e /\ ed = ne)).
  { intros k ed. rewrite (upd_nth _ _ _ _ _ k U1). destruct (Nat.eqb_spec e k) as [<-|NE].
    - unfold e at 1. rewrite nth_error_app2, Nat.sub_diag by lia. cbn. rewrite (proj2 (nth_error_None (edges g) e)) by (unfold e; lia). unfold set_head. cbn. fold ne. split; [intros [= <-]; auto|intros [H|(_ & ->)]; [discriminate|reflexivity]].
    - rewrite nth_snoc. fold e. split; (intros [H|(A & B)]; [auto|congruence]). }
  assert (FRESH : forall n nd, nth_error (nodes g) n = Some nd -> ~ In e (in_edges nd)). { intros n nd H I. destruct (wf_in g W n nd e H I) as (ed & E & _). assert (e < length (edges g)) by (apply nth_error_Some; congruence). unfold e in *. lia. }
  assert (NN : N < length (nodes g)) by (rewrite LN; lia).
  assert (IN : forall n x, In x (if N =? n then [e] else []) -> n = N /\ x = e) by (intros n x; destruct (Nat.eqb_spec N n) as [<-|]; [intros [ <- |[]]; auto|intros []]).
  split; cbn [nodes edges].
  - split; cbn [nodes edges].
    + intros n nd' H. destruct (BW n nd' H) as (nd & K & -> & _). exact (wf_nid g W n nd K).
    + intros k ed H. apply EE in H as [H|(-> & ->)]; [exact (wf_eid g W k ed H)|reflexivity].
    + intros n nd' x H I. destruct (BW n nd' H) as (nd & K & _ & II & _). rewrite II in I. apply in_app_or in I as [I|I].
      * destruct (wf_in g W n nd x K I) as (ed & E & HD). exists ed. split; [apply EE; auto|exact HD].
      * apply IN in I as (-> & ->). exists ne. split; [apply EE; auto|reflexivity].
    + intros n nd' H. destruct (BW n nd' H) as (nd & K & _ & II & _). rewrite II. pose proof (wf_nodup g W n nd K) as ND. pose proof (FRESH n nd K) as FR. destruct (N =? n); [|rewrite app_nil_r; exact ND].
      clear - ND FR. induction (in_edges nd) as [|y r IH]; cbn; [constructor; [intros []|constructor]|]. inversion ND; subst. constructor; [|apply IH; [assumption|intros C; apply FR; right; exact C]]. intros C. apply in_app_or in C as [C|[<-|[]]]; [contradiction|apply FR; left; reflexivity].
    + intros n nd' x H I. destruct (BW n nd' H) as (nd & K & _ & _ & OO). rewrite LE2. destruct (OO x I) as [O| ->]; [|lia]. pose proof (wf_out g W n nd x K O). unfold e. lia.
    + intros k ed t H I. rewrite L2. apply EE in H as [H|(-> & ->)]; [exact (wf_tails g W k ed t H I)|]. cbn in I. specialize (TS t I). lia.
    + intros k ed H. rewrite L2. apply EE in H as [H|(-> & ->)]; [exact (wf_head g W k ed H)|]. exists N. auto.
  - intros n nd' H. cbn [nodes edges] in *. destruct (BW n nd' H) as (nd & K & _ & II & _). destruct (T n nd K) as (ND & TT). rewrite II. split.
    + pose proof (FRESH n nd K) as FR. destruct (N =? n); [|rewrite app_nil_r; exact ND].
      clear - ND FR. induction (in_edges nd) as [|y r IH]; cbn; [constructor; [intros []|constructor]|]. inversion ND; subst. constructor; [|apply IH; [assumption|intros C; apply FR; right; exact C]]. intros C. apply in_app_or in C as [C|[<-|[]]]; [contradiction|apply FR; left; reflexivity].
    + intros x I. apply in_app_or in I as [I|I]; [destruct (TT x I) as (ed & E & L); exists ed; split; [apply EE; auto|exact L]|]. apply IN in I as (-> & ->). exists ne. split; [apply EE; auto|]. exact TS.
  - intros LK0 k ed n H HD. cbn [nodes edges] in *. apply EE in H as [H|(-> & ->)].
    + destruct (LK LK0 k ed n H HD) as (nd & K & I). destruct (FW n nd K) as (nd' & K' & _ & II & _). exists nd'. split; [exact K'|]. rewrite II. apply in_or_app. auto.
    + cbn in HD. injection HD as <-. destruct (FW N nd0 N0) as (nd' & K' & _ & II & _). exists nd'. split; [exact K'|]. rewrite II, Nat.eqb_refl. apply in_or_app. right. left. reflexivity.
  - destruct G as (G1 & G2 & G3). split; [cbn; lia|]. split.
    + intros n nd H. destruct (G2 n nd H) as (nd1 & H1 & I1). destruct (FW n nd1 H1) as (nd' & K' & _ & II & _). exists nd'. split; [exact K'|]. rewrite II. assert (n < N) by (apply nth_error_Some; congruence). destruct (Nat.eqb_spec N n); [lia|]. rewrite app_nil_r. exact I1.
    + intros k ed H. cbn. apply EE. left. auto.
  - lia.
  - destruct (FW N nd0 N0) as (nd' & K' & _ & II & _). exists nd'. split; [exact K'|]. rewrite II, Nat.eqb_refl, I0, app_length. cbn [length]. rewrite seq_app. cbn. unfold e. rewrite LE. reflexivity.
  - rewrite LE2, app_length. cbn. unfold e. lia.
  - intros k ts' l' H. apply nth_snoc in H as [H|(-> & H)]; apply EE; [left; exact (ED k ts' l' H)|]. injection H as -> ->. right. rewrite <- LE. split; reflexivity.
Qed.
Lemma add_in_ok : forall g0 c es2 es g, mid g0 c es g -> wf_hg g0 -> (forall ts l t, In (ts, l) es2 -> In t ts -> t < length (nodes g0)) ->
  exists g', add_in (length (nodes g0)) es2 g = Some g' /\ mid g0 c (es ++ es2) g'.
Proof.
  intros g0 c es2. induction es2 as [|(ts, l) r IH]; intros es g M W TS; [exists g; rewrite app_nil_r; split; [reflexivity|exact M]|].
  destruct (mid_step g0 c es g ts l M W) as (g1 & g2 & A & C & M2); [intros t I; exact (TS ts l t (or_introl eq_refl) I)|]. cbn [add_in]. rewrite A. cbn [bind]. rewrite C. cbn [bind].
  destruct (IH (es ++ [(ts, l)]) g2 M2 W) as (g' & AA & M'); [intros ts' l' t I; apply (TS ts' l' t); right; exact I|]. exists g'. split; [exact AA|]. rewrite <- app_assoc in M'. exact M'.
Qed.
Lemma add_ok : forall g0 c es, wf_hg g0 -> topo g0 -> (forall ts l t, In (ts, l) es -> In t ts -> t < length (nodes g0)) ->
  exists g1 g', AddNode c g0 = Some g1 /\ add_in (length (nodes g0)) es g1 = Some g' /\ mid g0 c es g'.
Proof. intros g0 c es W T TS. destruct (mid_start g0 c W T) as (g1 & A & M). destruct (add_in_ok g0 c es [] g1 M W TS) as (g' & B & M'). exists g1, g'. auto. Qed.
(** the derivations of the new node *)
Lemma mid_derives : forall g0 c es g, mid g0 c es g -> forall t, derives g (length (nodes g0)) t <-> exists k ts l ss, nth_error es k = Some (ts, l) /\ t = Tree (length (edges g0) + k) ss /\ Forall2 (derives g) ts ss.
Proof.
  intros g0 c es g M t. destruct (m_last _ _ _ _ M) as (nd & N & I). split.
  - intros D. inversion D as [? nd' e ed ss N' J E F]; subst. assert (nd' = nd) by congruence. subst nd'. rewrite I in J. apply in_seq in J. assert (L : e - length (edges g0) < length es) by lia. apply nth_error_Some in L. destruct (nth_error es (e - length (edges g0))) as [(ts, l)|] eqn:K; [|congruence].
    pose proof (m_edges _ _ _ _ M _ _ _ K) as EE. replace (length (edges g0) + (e - length (edges g0))) with e in EE by lia. assert (ed = {| head := Some (length (nodes g0)); tails := ts; lab := l; eid := e |}) by congruence. subst ed. cbn in F. exists (e - length (edges g0)), ts, l, ss. split; [exact K|]. split; [f_equal; lia|exact F].
  - intros (k & ts & l & ss & K & -> & F). assert (k < length es) by (apply nth_error_Some; congruence). econstructor; [exact N|rewrite I; apply in_seq; lia|exact (m_edges _ _ _ _ M _ _ _ K)|exact F].
Qed.
End A.
