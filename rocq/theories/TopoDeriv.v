(** Consequences of the renumbering relation. *)
From Coq Require Import List Arith Lia Relations.
From Verif Require Import HG HGProofs Deriv Topo TopoSpec.
Import ListNotations.

Lemma pick_in : forall f l k, In k (pick f l) <-> exists e, In e l /\ f e = Some k.
Proof.
  intros f l k. unfold pick. rewrite in_flat_map. split; intros (e & I & H); exists e; (split; [exact I|]).
  - destruct (f e) as [x|]; [destruct H as [->|[]]; reflexivity|destruct H].
  - rewrite H. left. reflexivity.
Qed.
Lemma pick_nodup : forall f l, (forall a b k, f a = Some k -> f b = Some k -> a = b) -> NoDup l -> NoDup (pick f l).
Proof.
  intros f l INJ. induction l as [|x r IH]; intros ND; [constructor|]. inversion ND as [|? ? NI ND']; subst. specialize (IH ND').
  cbn. destruct (f x) as [k|] eqn:E; [|exact IH]. cbn. constructor; [|exact IH]. intros I. apply (pick_in f r k) in I. destruct I as (e & I & Q).
  rewrite (INJ _ _ _ E Q) in NI. contradiction.
Qed.

Section R.
Context {P : Type}.
Variable prune : option (list bool).
Variables g g' : hg P.
Hypothesis WF : wf_hg g.
Variable goal : nat.
Hypothesis GOAL : goal < length (nodes g).
Variables rn re : nat -> option nat.
Hypothesis R : renumbered prune g goal g' rn re.

Lemma re_inj : forall a b k, re a = Some k -> re b = Some k -> a = b.
Proof.
  intros a b k A B. destruct (Nat.lt_trichotomy a b) as [L|[L|L]]; [|exact L|].
  - pose proof (re_order _ _ _ _ _ _ R _ _ _ _ A B L). lia.
  - pose proof (re_order _ _ _ _ _ _ R _ _ _ _ B A L). lia.
Qed.

Lemma get_some : forall f (x k : nat), f x = Some k -> get f x = k.
Proof. intros f x k H. unfold get. rewrite H. reflexivity. Qed.

(** A kept edge, its new version, its head and its tails. *)
Lemma edge_new : forall e j ed, re e = Some j -> nth_error (edges g) e = Some ed -> exists n k, head ed = Some n /\ rn n = Some k /\
  nth_error (edges g') j = Some {| head := Some k; tails := map (get rn) (tails ed); lab := lab ed; eid := j |}.
Proof.
  intros e j ed E ED. destruct (tails_kept _ _ _ _ _ _ R e j ed E ED) as ((h & kh & H & K) & _). exists h, kh. split; [exact H|]. split; [exact K|].
  apply (edges_are _ _ _ _ _ _ R). exists e, ed, h. rewrite K. auto.
Qed.

Lemma node_bound : forall n k, rn n = Some k -> k < length (nodes g') /\ n < length (nodes g).
Proof.
  intros n k H.
  assert (NR : n < length (nodes g)).
  { assert (RC : reach prune g goal n) by (apply (rn_dom _ _ _ _ _ _ R); exists k; exact H).
    apply Operators_Properties.clos_rt_rtn1 in RC. destruct RC as [|y z (nd & e & ed & _ & _ & _ & ED & T) _].
    - exact GOAL.
    - exact (wf_tails g WF e ed z ED T). }
  split; [|exact NR]. destruct (nth_error (nodes g) n) as [nd|] eqn:E; [|apply nth_error_None in E; lia].
  pose proof (proj2 (nodes_are _ _ _ _ _ _ R k {| nid := k; cat := cat nd; in_edges := pick re (in_edges nd); out_edges := pick re (out_edges nd) |})) as Q.
  apply nth_error_Some. rewrite Q; [discriminate|]. exists n, nd. auto.
Qed.

Lemma new_topo : topo g'.
Proof.
  intros k nd' E. apply (nodes_are _ _ _ _ _ _ R) in E. destruct E as (n & nd & RN & N & ->). cbn [in_edges]. split.
  - apply pick_nodup; [exact re_inj|exact (wf_nodup g WF n nd N)].
  - intros j J. apply pick_in in J. destruct J as (e & I & E). destruct (wf_in g WF n nd e N I) as (ed & ED & HD).
    destruct (edge_new e j ed E ED) as (h & kh & H & K & ED'). eexists. split; [exact ED'|]. cbn [tails]. intros t T.
    apply in_map_iff in T. destruct T as (u & <- & U).
    destruct (tails_kept _ _ _ _ _ _ R e j ed E ED) as (_ & TK). destruct (TK u U) as (ku & KU). rewrite (get_some _ _ _ KU).
    apply (rn_order _ _ _ _ _ _ R n u k ku); auto. exists nd, e, ed.
    destruct (proj1 (re_dom _ _ _ _ _ _ R e) (ex_intro _ j E)) as (KP & _). auto.
Qed.

Lemma new_wf : wf_hg g'.
Proof.
  assert (NL : forall n k, rn n = Some k -> k < length (nodes g')) by (intros n k H; exact (proj1 (node_bound n k H))).
  assert (EL : forall e j, re e = Some j -> j < length (edges g')).
  { intros e j E. destruct (proj1 (re_dom _ _ _ _ _ _ R e) (ex_intro _ j E)) as (_ & n & nd & _ & N & I).
    destruct (wf_in g WF n nd e N I) as (ed & ED & _). destruct (edge_new e j ed E ED) as (h & kh & _ & _ & ED'). apply nth_error_Some. congruence. }
  constructor.
  - intros k nd' E. apply (nodes_are _ _ _ _ _ _ R) in E. destruct E as (n & nd & _ & _ & ->). reflexivity.
  - intros k nd' E. apply (edges_are _ _ _ _ _ _ R) in E. destruct E as (n & nd & h & _ & _ & _ & ->). reflexivity.
  - intros k nd' j E J. apply (nodes_are _ _ _ _ _ _ R) in E. destruct E as (n & nd & RN & N & ->). cbn [in_edges] in J.
    apply pick_in in J. destruct J as (e & I & E). destruct (wf_in g WF n nd e N I) as (ed & ED & HD).
    destruct (edge_new e j ed E ED) as (h & kh & H & K & ED'). rewrite HD in H. injection H as <-. rewrite RN in K. injection K as <-. eexists. split; [exact ED'|reflexivity].
  - intros k nd' E. exact (proj1 (new_topo k nd' E)).
  - intros k nd' j E J. apply (nodes_are _ _ _ _ _ _ R) in E. destruct E as (n & nd & RN & N & ->). cbn [out_edges] in J.
    apply pick_in in J. destruct J as (e & I & E). exact (EL e j E).
  - intros j ed' t E T. apply (edges_are _ _ _ _ _ _ R) in E. destruct E as (e & ed & h & E & ED & _ & ->). cbn [tails] in T.
    apply in_map_iff in T. destruct T as (u & <- & U). destruct (tails_kept _ _ _ _ _ _ R e j ed E ED) as (_ & TK). destruct (TK u U) as (ku & KU).
    rewrite (get_some _ _ _ KU). exact (NL u ku KU).
  - intros j ed' E. apply (edges_are _ _ _ _ _ _ R) in E. destruct E as (e & ed & h & E & ED & HD & ->). cbn [head].
    destruct (tails_kept _ _ _ _ _ _ R e j ed E ED) as ((h' & kh & H & K) & _). rewrite HD in H. injection H as <-. exists kh. split; [exact K|exact (NL h kh K)].
Qed.

Lemma new_derives : forall t n k, rn n = Some k -> derives g n t -> Forall (keep prune) (tree_edges t) -> derives g' k (rename (get re) t).
Proof.
  intros t. induction t as [e ts IH] using tree_ind'. intros n k RN D K. inversion D as [? nd ? ed ? N I ED TS]; subst.
  cbn [tree_edges] in K. apply Forall_app in K. destruct K as (KT & KE). inversion KE as [|? ? KP _]; subst.
  destruct (proj2 (re_dom _ _ _ _ _ _ R e)) as (j & E).
  { split; [exact KP|]. exists n, nd. split; [|auto]. apply (rn_dom _ _ _ _ _ _ R). exists k. exact RN. }
  destruct (edge_new e j ed E ED) as (h & kh & H & HK & ED').
  cbn [rename]. rewrite (get_some _ _ _ E).
  eapply d_edge; [apply (nodes_are _ _ _ _ _ _ R); exists n, nd; repeat split; eassumption| |exact ED'|].
  - cbn [in_edges]. apply pick_in. exists e. auto.
  - cbn [tails]. destruct (tails_kept _ _ _ _ _ _ R e j ed E ED) as (_ & TK).
    clear - IH TS TK KT. revert IH TK KT. induction TS as [|t s tl sl D TS IH2]; intros IH TK KT; cbn; [constructor|].
    inversion IH as [|? ? IHs IHl]; subst. cbn in KT. apply Forall_app in KT. destruct KT as (K1 & K2).
    constructor; [|apply IH2; auto; intros u U; apply TK; right; exact U].
    destruct (TK t (or_introl eq_refl)) as (kt & KT). rewrite (get_some _ _ _ KT). exact (IHs t kt KT D K1).
Qed.

Lemma old_derives : forall t' n k, rn n = Some k -> derives g' k t' ->
  exists t, derives g n t /\ Forall (keep prune) (tree_edges t) /\ (forall e, In e (tree_edges t) -> exists j, re e = Some j) /\ t' = rename (get re) t.
Proof.
  intros t'. induction t' as [j ts IH] using tree_ind'. intros n k RN D. inversion D as [? nd' ? ed' ? N' I' ED' TS]; subst.
  apply (nodes_are _ _ _ _ _ _ R) in N'. destruct N' as (n' & nd & RN' & N & ->). assert (n' = n) by exact (rn_inj _ _ _ _ _ _ R _ _ _ RN' RN). subst n'.
  cbn [in_edges] in I'. apply pick_in in I'. destruct I' as (e & I & E). destruct (wf_in g WF n nd e N I) as (ed & ED & HD).
  destruct (edge_new e j ed E ED) as (h & kh & H & HK & ED2). rewrite ED2 in ED'. injection ED' as <-. cbn [tails] in TS.
  destruct (proj1 (re_dom _ _ _ _ _ _ R e) (ex_intro _ j E)) as (KP & _).
  destruct (tails_kept _ _ _ _ _ _ R e j ed E ED) as (_ & TK).
  assert (SUB : exists ss, Forall2 (derives g) (tails ed) ss /\ Forall (keep prune) (flat_map tree_edges ss) /\
    (forall x, In x (flat_map tree_edges ss) -> exists i, re x = Some i) /\ ts = map (rename (get re)) ss).
  { clear - IH TS TK. revert ts IH TS. induction (tails ed) as [|t r IHr]; intros ts IH TS; inversion TS as [|? s ? sl D DS]; subst.
    - exists []. repeat split; [constructor|constructor|intros x []].
    - inversion IH as [|? ? IHs IHl]; subst. destruct (TK t (or_introl eq_refl)) as (kt & KT). rewrite (get_some _ _ _ KT) in D.
      destruct (IHs t kt KT D) as (u & U1 & U2 & U3 & U4). destruct (IHr (fun x X => TK x (or_intror X)) sl IHl DS) as (ss & S1 & S2 & S3 & S4).
      exists (u :: ss). split; [constructor; auto|]. cbn. split; [apply Forall_app; auto|]. split; [|congruence].
      intros x X. apply in_app_iff in X. destruct X; auto. }
  destruct SUB as (ss & S1 & S2 & S3 & S4). exists (Tree e ss). split; [eapply d_edge; eassumption|]. cbn [tree_edges rename]. split; [apply Forall_app; auto|].
  split; [|rewrite (get_some _ _ _ E); congruence]. intros x X. apply in_app_iff in X. destruct X as [X|[<-|[]]]; [auto|exists j; exact E].
Qed.

(** Different derivations stay different. *)
Lemma rename_inj : forall t u, (forall e, In e (tree_edges t) -> exists j, re e = Some j) -> (forall e, In e (tree_edges u) -> exists j, re e = Some j) ->
  rename (get re) t = rename (get re) u -> t = u.
Proof.
  intros t. induction t as [e ts IH] using tree_ind'. intros [f us] HT HU EQ. cbn [rename] in EQ. injection EQ as E1 E2.
  cbn [tree_edges] in HT, HU.
  destruct (HT e) as (j & J); [apply in_app_iff; right; left; reflexivity|]. destruct (HU f) as (j' & J'); [apply in_app_iff; right; left; reflexivity|].
  rewrite (get_some _ _ _ J), (get_some _ _ _ J') in E1. subst j'. rewrite (re_inj _ _ _ J J'). f_equal.
  assert (HT' : forall x, In x (flat_map tree_edges ts) -> exists i, re x = Some i) by (intros x X; apply HT, in_app_iff; auto).
  assert (HU' : forall x, In x (flat_map tree_edges us) -> exists i, re x = Some i) by (intros x X; apply HU, in_app_iff; auto).
  clear - IH E2 HT' HU'. revert us E2 HU'. induction IH as [|t r H IH' IH2]; intros [|u us] E2 HU'; try discriminate; [reflexivity|].
  cbn in E2. injection E2 as E E2. f_equal; [apply H; auto; intros x X; [apply HT'|apply HU']; cbn; apply in_app_iff; auto|].
  apply IH2; auto; intros x X; [apply HT'|apply HU']; cbn; apply in_app_iff; auto.
Qed.

(** Every kept edge of a derivation of a kept node is kept. *)
Lemma derives_edges : forall t n k, rn n = Some k -> derives g n t -> Forall (keep prune) (tree_edges t) -> forall e, In e (tree_edges t) -> exists j, re e = Some j.
Proof.
  intros t. induction t as [e ts IH] using tree_ind'. intros n k RN D K x X. inversion D as [? nd ? ed ? N I ED TS]; subst.
  cbn [tree_edges] in K, X. apply Forall_app in K. destruct K as (KT & KE). inversion KE as [|? ? KP _]; subst.
  destruct (proj2 (re_dom _ _ _ _ _ _ R e)) as (j & E).
  { split; [exact KP|]. exists n, nd. split; [|auto]. apply (rn_dom _ _ _ _ _ _ R). exists k. exact RN. }
  destruct (tails_kept _ _ _ _ _ _ R e j ed E ED) as (_ & TK).
  apply in_app_iff in X. destruct X as [X|[<-|[]]]; [|exists j; exact E].
  clear - IH TS TK KT X. revert IH TK KT X. induction TS as [|t s tl sl D TS IH2]; intros IH TK KT X; [destruct X|].
  inversion IH as [|? ? IHs IHl]; subst. cbn in KT, X. apply Forall_app in KT. destruct KT as (K1 & K2). apply in_app_iff in X. destruct X as [X|X].
  - destruct (TK t (or_introl eq_refl)) as (kt & KT). exact (IHs t kt KT D K1 x X).
  - apply IH2; auto. intros u U. apply TK. right. exact U.
Qed.

Lemma derivations_same :
  (forall t', derives g' (length (nodes g') - 1) t' <-> exists t, derives g goal t /\ Forall (keep prune) (tree_edges t) /\ t' = rename (get re) t) /\
  (forall t u, derives g goal t -> derives g goal u -> Forall (keep prune) (tree_edges t) -> Forall (keep prune) (tree_edges u) ->
     rename (get re) t = rename (get re) u -> t = u).
Proof.
  pose proof (rn_goal _ _ _ _ _ _ R) as RG. split.
  - intros t'. split.
    + intros D. destruct (old_derives t' goal _ RG D) as (t & D1 & D2 & _ & D4). exists t. auto.
    + intros (t & D & K & ->). exact (new_derives t goal _ RG D K).
  - intros t u D D' K K' EQ. apply (rename_inj t u); [| |exact EQ]; [exact (derives_edges t goal _ RG D K)|exact (derives_edges u goal _ RG D' K')].
Qed.
End R.

(** Hypergraphs built through the construction API with each edge connected
    exactly once are well formed. *)
Lemma built_wf : forall (P : Type) (cs : list (call P)) (g : hg P), run cs empty_hg = Some g ->
  NoDup (map fst (h_conns cs)) -> (forall e, e < length (edges g) -> exists h, In (e, h) (h_conns cs)) -> wf_hg g.
Proof.
  intros P cs g RUN ND ALL. destruct (build_consistent cs g RUN ND) as (C1 & C2 & C3 & C4 & C5 & C6 & C7).
  assert (DEC : forall e n, {In (e, n) (h_conns cs)} + {~ In (e, n) (h_conns cs)}).
  { intros e n. apply in_dec. intros [a b] [c d]. destruct (Nat.eq_dec a c), (Nat.eq_dec b d); (left; congruence) || (right; congruence). }
  assert (EX : forall n nd e, nth_error (nodes g) n = Some nd -> In e (in_edges nd) -> exists ed, nth_error (edges g) e = Some ed).
  { intros n nd e N I. destruct (nth_error (edges g) e) as [ed|] eqn:Q; [exists ed; reflexivity|]. apply nth_error_None in Q. specialize (C5 n nd e N (or_introl I)). lia. }
  constructor; auto.
  - intros n nd e N I. destruct (EX n nd e N I) as (ed & ED). exists ed. split; [exact ED|]. destruct (C4 n nd e ed N ED) as (A & B).
    destruct (DEC e n) as [D|D]; [exact (proj1 (A D))|destruct (B D I)].
  - intros n nd N. apply (NoDup_count_occ Nat.eq_dec). intros e. destruct (in_dec Nat.eq_dec e (in_edges nd)) as [I|I].
    + destruct (EX n nd e N I) as (ed & ED). destruct (C4 n nd e ed N ED) as (A & B). destruct (DEC e n) as [D|D]; [rewrite (proj2 (A D)); lia|destruct (B D I)].
    + apply (count_occ_not_In Nat.eq_dec) in I. lia.
  - intros n nd e N I. exact (C5 n nd e N (or_intror I)).
  - intros e ed ED. destruct (ALL e) as (h & H); [apply nth_error_Some; congruence|]. destruct (C7 e h H) as (_ & L).
    exists h. split; [|exact L]. destruct (nth_error (nodes g) h) as [nd|] eqn:Q; [|apply nth_error_None in Q; lia].
    exact (proj1 (proj1 (C4 h nd e ed Q ED) H)).
Qed.
