(** Proofs for Union.v. *)
From Coq Require Import List Arith ZArith Bool Relations Lia.
From Verif Require Import Opt HG HGProofs Deriv Topo TopoSpec TopoProofs TopoDeriv Union UnionSpec.
Import ListNotations.
Local Open Scope nat_scope.
Open Scope opt_scope.

Lemma snoc : forall (A : Type) (l : list A) x k y, nth_error (l ++ [x]) k = Some y <-> nth_error l k = Some y \/ (k = length l /\ y = x).
Proof.
  intros A l x k y. destruct (lt_eq_lt_dec k (length l)) as [[H|H]|H].
  - rewrite nth_error_app1 by exact H. split; [auto|intros [Q|[Q _]]; [exact Q|lia]].
  - rewrite nth_error_app2 by lia. replace (k - length l) with 0 by lia. cbn. rewrite (proj2 (nth_error_None l k)) by lia. split; [intros [= <-]; auto|intros [Q|[_ ->]]; [discriminate|reflexivity]].
  - rewrite (proj2 (nth_error_None _ k)) by (rewrite app_length; cbn; lia). rewrite (proj2 (nth_error_None l k)) by lia. split; [discriminate|intros [Q|[Q _]]; [discriminate|lia]].
Qed.

Lemma upd_last : forall (A : Type) (r : list A) x y f, f x = y -> upd (r ++ [x]) (length r) f = Some (r ++ [y]).
Proof. induction r as [|z r IH]; intros x y f E; cbn; [rewrite E; reflexivity|]. rewrite (IH x y f E). reflexivity. Qed.

(** ** Adding an edge *)
Section A.
Context {P : Type}.
Lemma add_conn : forall (g : hg P) ts l N, wf_hg g -> (forall t, In t ts -> t < length (nodes g)) -> N < length (nodes g) ->
  exists g1 g2, AddEdge ts l g = Some g1 /\ ConnectPtr (length (edges g)) N g1 = Some g2 /\ wf_hg g2 /\ length (nodes g2) = length (nodes g) /\
    edges g2 = edges g ++ [{| head := Some N; tails := ts; lab := l; eid := length (edges g) |}] /\
    (forall n nd, nth_error (nodes g) n = Some nd -> exists nd', nth_error (nodes g2) n = Some nd' /\ cat nd' = cat nd /\ in_edges nd' = in_edges nd ++ (if N =? n then [length (edges g)] else [])).
Proof.
  intros g ts l N W TS NN. set (e := length (edges g)). set (e0 := {| head := None; tails := ts; lab := l; eid := e |}). set (ne := {| head := Some N; tails := ts; lab := l; eid := e |}).
  destruct (index_tails_total e ts (nodes g)) as (ns & IT). { exact TS. }
  destruct (index_tails_spec e ts (nodes g) ns IT) as (L1 & SP).
  destruct (upd_total _ ns N (push_in e)) as (ns2 & U2). { lia. }
  exists {| nodes := ns; edges := edges g ++ [e0] |}, {| nodes := ns2; edges := edges g ++ [ne] |}.
  assert (UE : upd (edges g ++ [e0]) e (set_head N) = Some (edges g ++ [ne])).
  { apply upd_last. reflexivity. }
  split; [unfold AddEdge; fold e; rewrite IT; reflexivity|].
  destruct (nth_error (nodes g) N) as [ndN|] eqn:KN; [|apply nth_error_None in KN; lia].
  split; [unfold ConnectPtr; cbn [nodes edges]; replace (nth_error (edges g ++ [e0]) e) with (Some e0) by (symmetry; apply snoc; auto); rewrite (proj2 SP N ndN KN); cbn [nid eid e0]; rewrite (wf_nid g W N ndN KN); rewrite UE, U2; reflexivity|].
  assert (L2 : length ns2 = length (nodes g)) by (rewrite (upd_length _ _ _ _ _ U2); exact L1).
  assert (FW : forall n nd, nth_error (nodes g) n = Some nd -> exists nd', nth_error ns2 n = Some nd' /\ nid nd' = nid nd /\ cat nd' = cat nd /\ in_edges nd' = in_edges nd ++ (if N =? n then [e] else []) /\ forall x, In x (out_edges nd') -> In x (out_edges nd) \/ x = e).
  { intros n nd H. rewrite (upd_nth _ _ _ _ _ n U2), (proj2 SP n nd H). assert (OUT : forall x, In x (out_edges nd ++ repeat e (count_occ Nat.eq_dec ts n)) -> In x (out_edges nd) \/ x = e) by (intros x I; apply in_app_or in I as [I|I]; [auto|right; exact (repeat_spec _ _ _ I)]).
    destruct (N =? n); cbn; eexists; (split; [reflexivity|]); cbn; rewrite ?app_nil_r; auto. }
  assert (BW : forall n nd', nth_error ns2 n = Some nd' -> exists nd, nth_error (nodes g) n = Some nd /\ nid nd' = nid nd /\ in_edges nd' = in_edges nd ++ (if N =? n then [e] else []) /\ forall x, In x (out_edges nd') -> In x (out_edges nd) \/ x = e).
  { intros n nd' H. assert (n < length (nodes g)) by (rewrite <- L2; apply nth_error_Some; congruence). destruct (nth_error (nodes g) n) as [nd|] eqn:K; [|apply nth_error_None in K; lia]. destruct (FW n nd K) as (nd2 & H2 & R1 & _ & R2 & R3). exists nd. assert (nd2 = nd') by congruence. subst. auto. }
  assert (EE : forall k ed, nth_error (edges g ++ [ne]) k = Some ed <-> nth_error (edges g) k = Some ed \/ (k = e /\ ed = ne)) by (intros k ed; apply snoc).
  assert (FRESH : forall n nd, nth_error (nodes g) n = Some nd -> ~ In e (in_edges nd)). { intros n nd H I. destruct (wf_in g W n nd e H I) as (ed & E & _). assert (e < length (edges g)) by (apply nth_error_Some; congruence). unfold e in *. lia. }
  assert (IN : forall n x, In x (if N =? n then [e] else []) -> n = N /\ x = e) by (intros n x; destruct (Nat.eqb_spec N n) as [<-|]; [intros [ <- |[]]; auto|intros []]).
  split; [|split; [exact L2|split; [reflexivity|intros n nd H; destruct (FW n nd H) as (nd' & A & _ & B & C & _); exists nd'; auto]]].
  split; cbn [nodes edges].
  - intros n nd' H. destruct (BW n nd' H) as (nd & K & -> & _). exact (wf_nid g W n nd K).
  - intros k ed H. apply EE in H as [H|(-> & ->)]; [exact (wf_eid g W k ed H)|reflexivity].
  - intros n nd' x H I. destruct (BW n nd' H) as (nd & K & _ & II & _). rewrite II in I. apply in_app_or in I as [I|I].
    + destruct (wf_in g W n nd x K I) as (ed & E & HD). exists ed. split; [apply EE; auto|exact HD].
    + apply IN in I as (-> & ->). exists ne. split; [apply EE; auto|reflexivity].
  - intros n nd' H. destruct (BW n nd' H) as (nd & K & _ & II & _). rewrite II. pose proof (wf_nodup g W n nd K) as ND. pose proof (FRESH n nd K) as FR. destruct (N =? n); [|rewrite app_nil_r; exact ND].
    clear - ND FR. induction (in_edges nd) as [|y r IH]; cbn; [constructor; [intros []|constructor]|]. inversion ND; subst. constructor; [|apply IH; [assumption|intros C; apply FR; right; exact C]]. intros C. apply in_app_or in C as [C|[<-|[]]]; [contradiction|apply FR; left; reflexivity].
  - intros n nd' x H I. destruct (BW n nd' H) as (nd & K & _ & _ & OO). rewrite app_length. cbn [length]. destruct (OO x I) as [O| ->]; [|unfold e; lia]. pose proof (wf_out g W n nd x K O). lia.
  - intros k ed t H I. rewrite L2. apply EE in H as [H|(-> & ->)]; [exact (wf_tails g W k ed t H I)|]. exact (TS t I).
  - intros k ed H. rewrite L2. apply EE in H as [H|(-> & ->)]; [exact (wf_head g W k ed H)|]. exists N. auto.
Qed.
Lemma add_node_wf : forall (g : hg P) c, wf_hg g -> wf_hg {| nodes := nodes g ++ [{| nid := length (nodes g); cat := c; in_edges := []; out_edges := [] |}]; edges := edges g |}.
Proof.
  intros g c W. split; cbn [nodes edges].
  - intros n nd H. apply snoc in H as [H|(-> & ->)]; [exact (wf_nid g W n nd H)|reflexivity].
  - exact (wf_eid g W).
  - intros n nd e H I. apply snoc in H as [H|(-> & ->)]; [exact (wf_in g W n nd e H I)|destruct I].
  - intros n nd H. apply snoc in H as [H|(-> & ->)]; [exact (wf_nodup g W n nd H)|constructor].
  - intros n nd e H I. apply snoc in H as [H|(-> & ->)]; [exact (wf_out g W n nd e H I)|destruct I].
  - intros e ed t H I. rewrite app_length. pose proof (wf_tails g W e ed t H I). lia.
  - intros e ed H. rewrite app_length. destruct (wf_head g W e ed H) as (h & A & B). exists h. split; [exact A|lia].
Qed.
End A.

Section U.
Context {X F W : Type}.
Variable close : F -> F -> bool.
Variable no_prob : W.
Notation L := (ulab X F W).

(** ** Tables of nodes *)
Definition table_ok (m : table) (hs : list Z) : Prop := (forall h, count m h = true <-> In h hs) /\ (forall h, In h hs -> nth_error hs (at_ m h) = Some h).
Lemma table_snoc : forall m hs h, table_ok m hs -> ~ In h hs -> table_ok ((h, length hs) :: m) (hs ++ [h]).
Proof.
  intros m hs h [C A] N. split; intros k.
  - cbn [count]. destruct (Z.eqb_spec h k) as [->|NE]; [split; [intros _; apply in_or_app; right; left; reflexivity|reflexivity]|]. rewrite C. rewrite in_app_iff. cbn [In]. tauto.
  - intros I. cbn [at_]. apply snoc. destruct (Z.eqb_spec h k) as [->|NE]; [right; auto|left]. apply A. apply in_app_or in I as [I|[I|[]]]; [exact I|congruence].
Qed.
Lemma index_ok : forall ns hs m hs0, (forall k nd, nth_error ns k = Some nd -> nid nd = length hs0 + k) -> length hs = length ns -> NoDup (hs0 ++ hs) -> table_ok m hs0 -> table_ok (index_nodes ns hs m) (hs0 ++ hs).
Proof.
  induction ns as [|nd ns IH]; intros [|h hs] m hs0 ID LE ND T; try discriminate; cbn [index_nodes]; [rewrite app_nil_r; exact T|].
  replace (hs0 ++ h :: hs) with ((hs0 ++ [h]) ++ hs) in * by (rewrite <- app_assoc; reflexivity). apply IH.
  - intros k x K. rewrite app_length. cbn [length]. rewrite (ID (S k) x K). lia.
  - injection LE as LE. exact LE.
  - exact ND.
  - pose proof (ID 0 nd eq_refl) as E. rewrite Nat.add_0_r in E. rewrite E. apply table_snoc; [exact T|].
    intros I. apply NoDup_remove_2 with (l := hs0) (l' := hs) (a := h); [rewrite <- app_assoc in ND; exact ND|apply in_or_app; left; exact I].
Qed.
Definition grown (g0 g : hg L) : Prop := edges g = edges g0 /\ (forall n nd, nth_error (nodes g0) n = Some nd -> nth_error (nodes g) n = Some nd) /\
  (forall n nd, nth_error (nodes g) n = Some nd -> nth_error (nodes g0) n = Some nd \/ (length (nodes g0) <= n /\ in_edges nd = [])).
Lemma add_nodes_ok : forall ns hn g hs m, length hn = length ns -> wf_hg g -> length hs = length (nodes g) -> NoDup hs -> table_ok m hs ->
  exists g1 hs1 m1, add_nodes ns hn (g, hs) m = Some ((g1, hs1), m1) /\ wf_hg g1 /\ length hs1 = length (nodes g1) /\ NoDup hs1 /\ table_ok m1 hs1 /\
    grown g g1 /\ (exists l, hs1 = hs ++ l) /\ incl hn hs1.
Proof.
  induction ns as [|nd ns IH]; intros [|h hn] g hs m LE WF LH ND T; try discriminate; cbn [add_nodes].
  - exists g, hs, m. split; [reflexivity|]. split; [exact WF|]. split; [exact LH|]. split; [exact ND|]. split; [exact T|].
    split; [split; [reflexivity|split; auto]|]. split; [exists []; rewrite app_nil_r; reflexivity|intros x []].
  - injection LE as LE. destruct (count m h) eqn:C.
    + destruct (IH hn g hs m LE WF LH ND T) as (g1 & hs1 & m1 & R & A & B & D & E & G & (l & ->) & I). exists g1, (hs ++ l), m1. repeat (split; [assumption|]). split; [exists l; reflexivity|].
      intros x [<-|XI]; [apply in_or_app; left; apply (proj1 T); exact C|exact (I x XI)].
    + assert (NI : ~ In h hs) by (intros I; apply (proj1 T) in I; congruence). unfold AddNode. cbn [bind fst snd].
      destruct (IH hn {| nodes := nodes g ++ [{| nid := length (nodes g); cat := cat nd; in_edges := []; out_edges := [] |}]; edges := edges g |} (hs ++ [h]) ((h, length (nodes g)) :: m) LE) as (g1 & hs1 & m1 & R & A & B & D & E & G & (l & ->) & I).
      * apply add_node_wf. exact WF.
      * cbn [nodes]. rewrite !app_length. cbn [length]. lia.
      * apply NoDup_app_intro; [exact ND|repeat constructor; intros []|intros x XI [<-|[]]; contradiction].
      * rewrite <- LH. apply table_snoc; assumption.
      * exists g1, ((hs ++ [h]) ++ l), m1. split; [exact R|]. split; [exact A|]. split; [exact B|]. split; [exact D|]. split; [exact E|]. split; [|split].
        { destruct G as (G1 & G2 & G3). cbn [nodes edges] in *. split; [exact G1|]. split; [intros n x N; apply G2; apply snoc; auto|].
          intros n x N. destruct (G3 n x N) as [Q|[Q1 Q2]]; [apply snoc in Q as [Q|(-> & ->)]; [auto|right; split; [lia|reflexivity]]|]. right. rewrite app_length in Q1. split; [lia|exact Q2]. }
        { exists (h :: l). rewrite <- app_assoc. reflexivity. }
        { intros x [<-|XI]; [rewrite <- app_assoc; apply in_or_app; right; left; reflexivity|exact (I x XI)]. }
Qed.

(** ** Matching *)
Lemma same_hashes_ok : forall ha hb ta tb, length ta = length tb -> (forall t, In t ta -> t < length ha) -> (forall t, In t tb -> t < length hb) ->
  exists b, same_hashes ha hb ta tb = Some b /\ (b = true <-> map (nth_error ha) ta = map (nth_error hb) tb).
Proof.
  intros ha hb. induction ta as [|a ta IH]; intros [|b tb] LE BA BB; try discriminate; cbn [same_hashes map].
  - exists true. split; [reflexivity|tauto].
  - assert (LA := BA a (or_introl eq_refl)). assert (LB := BB b (or_introl eq_refl)).
    destruct (nth_error ha a) as [x|] eqn:NA; [|apply nth_error_None in NA; lia]. destruct (nth_error hb b) as [y|] eqn:NB; [|apply nth_error_None in NB; lia]. cbn [bind].
    destruct (Z.eqb_spec x y) as [->|NE].
    + destruct (IH tb) as (r & R & E); [injection LE as LE; exact LE|intros t I; apply BA; right; exact I|intros t I; apply BB; right; exact I|]. exists r. split; [exact R|]. rewrite E. split; [intros ->; reflexivity|intros Q; injection Q as Q; exact Q].
    + exists false. split; [reflexivity|]. split; [discriminate|intros Q; injection Q as Q; congruence].
Qed.
Lemma eq_words_ok : forall a b, eq_words a b = true <-> a = b.
Proof. intros a b. unfold eq_words. destruct (list_eq_dec Z.eq_dec a b); split; congruence. Qed.
Definition similar (ha hb : list Z) (a b : edge L) : Prop := match_ close (lab a) (lab b) /\ map (nth_error ha) (tails a) = map (nth_error hb) (tails b).
Lemma match_ok : forall ha hb (a b : edge L), (forall t, In t (tails a) -> t < length ha) -> (forall t, In t (tails b) -> t < length hb) ->
  exists s, EdgesMatch close ha hb a b = Some s /\ (s = true <-> similar ha hb a b).
Proof.
  intros ha hb a b BA BB. unfold EdgesMatch, similar, match_. destruct (Nat.eqb_spec (length (tails a)) (length (tails b))) as [E|E]; cbn [negb].
  2:{ exists false. split; [reflexivity|]. split; [discriminate|]. intros [_ Q]. apply (f_equal (@length _)) in Q. rewrite !map_length in Q. congruence. }
  destruct (eq_words (u_e (lab a)) (u_e (lab b))) eqn:EE; cbn [negb].
  2:{ exists false. split; [reflexivity|]. split; [discriminate|]. intros [(Q & _) _]. apply eq_words_ok in Q. congruence. }
  destruct (eq_words (u_f (lab a)) (u_f (lab b))) eqn:EF; cbn [negb].
  2:{ exists false. split; [reflexivity|]. split; [discriminate|]. intros [(_ & Q & _) _]. apply eq_words_ok in Q. congruence. }
  apply eq_words_ok in EE, EF. destruct (same_hashes_ok ha hb (tails a) (tails b) E BA BB) as (s & -> & S). cbn [bind]. destruct s.
  - exists (close (u_feats (lab a)) (u_feats (lab b))). split; [reflexivity|]. pose proof (proj1 S eq_refl). tauto.
  - exists false. split; [reflexivity|]. split; [discriminate|]. intros [_ Q]. apply S in Q. discriminate.
Qed.
Lemma exists_ok : forall hin hout (out : hg L) a, (forall t, In t (tails a) -> t < length hin) -> wf_hg out -> length hout = length (nodes out) ->
  forall oes, (forall e, In e oes -> exists ed, nth_error (edges out) e = Some ed) ->
  exists b, edge_exists close hin hout out a oes = Some b /\ (b = true <-> exists e ed, In e oes /\ nth_error (edges out) e = Some ed /\ similar hin hout a ed).
Proof.
  intros hin hout out a BA WF LH. induction oes as [|e r IH]; intros OK; cbn [edge_exists].
  - exists false. split; [reflexivity|]. split; [discriminate|]. intros (e & ed & [] & _).
  - destruct (OK e (or_introl eq_refl)) as (ed & E). rewrite E. cbn [bind].
    destruct (match_ok hin hout a ed BA) as (s & -> & S); [intros t I; rewrite LH; exact (wf_tails out WF e ed t E I)|]. cbn [bind]. destruct s.
    + exists true. split; [reflexivity|]. split; [|reflexivity]. intros _. exists e, ed. split; [left; reflexivity|]. split; [exact E|apply S; reflexivity].
    + destruct IH as (b & R & B); [intros x I; apply OK; right; exact I|]. exists b. split; [exact R|]. rewrite B. split.
      * intros (e2 & ed2 & I & Q). exists e2, ed2. split; [right; exact I|exact Q].
      * intros (e2 & ed2 & [<-|I] & Q1 & Q2); [rewrite E in Q1; injection Q1 as <-; apply S in Q2; discriminate|]. exists e2, ed2. auto.
Qed.
Lemma hashes_of_ok : forall hs ts, (forall t, In t ts -> t < length hs) -> exists l, hashes_of hs ts = Some l /\ map Some l = map (nth_error hs) ts.
Proof.
  intros hs. induction ts as [|t r IH]; intros B; cbn [hashes_of]; [exists []; split; reflexivity|].
  assert (LT := B t (or_introl eq_refl)). destruct (nth_error hs t) as [h|] eqn:N; [|apply nth_error_None in N; lia]. destruct IH as (l & R & E); [intros x I; apply B; right; exact I|]. rewrite R. cbn [bind map]. rewrite N. exists (h :: l). split; [reflexivity|]. cbn [map]. rewrite E. reflexivity.
Qed.

(** ** The edges *)
Section E.
Variables (gin : hg L) (hin : list Z) (g0 : hg L) (hs : list Z) (m : table).
Hypothesis WI : wf_hg gin.
Hypothesis LI : length hin = length (nodes gin).
Hypothesis NDS : NoDup hs.
Hypothesis TO : table_ok m hs.
Hypothesis INC : incl hin hs.
(** the edge [ed] of the union comes from the edge [ei] of the input *)
Definition origin (h : Z) (ed : edge L) (edi : edge L) : Prop := lab ed = copied no_prob (lab edi) /\ map (nth_error hs) (tails ed) = map (nth_error hin) (tails edi).
Definition carried (g : hg L) (h : Z) (edi : edge L) : Prop := exists n nd e ed, nth_error hs n = Some h /\ nth_error (nodes g) n = Some nd /\ In e (in_edges nd) /\ nth_error (edges g) e = Some ed /\
  map (nth_error hs) (tails ed) = map (nth_error hin) (tails edi) /\ (lab ed = copied no_prob (lab edi) \/ match_ close (lab edi) (lab ed)).
Record Inv (g : hg L) : Prop := {
  i_wf : wf_hg g;
  i_len : length (nodes g) = length hs;
  i_old : exists ex, edges g = edges g0 ++ ex;
  i_ins : forall n nd0, nth_error (nodes g0) n = Some nd0 -> exists nd l, nth_error (nodes g) n = Some nd /\ cat nd = cat nd0 /\ in_edges nd = in_edges nd0 ++ l /\ Forall (fun e => length (edges g0) <= e) l;
  i_new : forall e ed n, length (edges g0) <= e -> nth_error (edges g) e = Some ed -> head ed = Some n ->
    exists h ni ndi ei edi, nth_error hs n = Some h /\ nth_error hin ni = Some h /\ nth_error (nodes gin) ni = Some ndi /\ In ei (in_edges ndi) /\ nth_error (edges gin) ei = Some edi /\ origin h ed edi;
  i_irr : irredundant close (g0, hs) -> irredundant close (g, hs)
}.
Definition kept (g g' : hg L) : Prop := forall h edi, carried g h edi -> carried g' h edi.
Lemma tails_back : forall th (ts : list nat), map Some th = map (nth_error hin) ts -> map (nth_error hs) (map (at_ m) th) = map (nth_error hin) ts /\ forall t, In t (map (at_ m) th) -> t < length hs.
Proof.
  induction th as [|h th IH]; intros [|t ts] E; try discriminate; [split; [reflexivity|intros x []]|]. cbn [map] in *. injection E as E1 E2. destruct (IH ts E2) as [A B].
  assert (I : In h hs) by (apply INC; symmetry in E1; eapply nth_error_In; exact E1). pose proof (proj2 TO h I) as Q. split; [rewrite Q, A, E1; reflexivity|].
  intros x [<-|XI]; [apply nth_error_Some; congruence|exact (B x XI)].
Qed.
Lemma copied_match : forall l l' : L, match_ close (copied no_prob l) l' <-> match_ close l l'.
Proof. intros l l'. unfold match_, copied. cbn. tauto. Qed.
Lemma add_edges_ok : forall ni h ndi, nth_error hin ni = Some h -> nth_error (nodes gin) ni = Some ndi -> forall es, incl es (in_edges ndi) -> forall g, Inv g ->
  exists g', add_edges close no_prob hin hs m gin h es g = Some g' /\ Inv g' /\ kept g g' /\ forall ei edi, In ei es -> nth_error (edges gin) ei = Some edi -> carried g' h edi.
Proof.
  intros ni h ndi HI NI. assert (IH0 : In h hs) by (apply INC; eapply nth_error_In; exact HI). pose proof (proj2 TO h IH0) as HN. set (N := at_ m h) in *.
  induction es as [|ei es IHe]; intros SUB g IV; cbn [add_edges].
  - exists g. split; [reflexivity|]. split; [exact IV|]. split; [intros x y C; exact C|intros ei edi []].
  - destruct (wf_in gin WI ni ndi ei NI (SUB ei (or_introl eq_refl))) as (a & EA & _). rewrite EA. cbn [bind]. fold N.
    assert (LN : N < length (nodes g)) by (rewrite (i_len g IV); apply nth_error_Some; congruence).
    destruct (nth_error (nodes g) N) as [nd|] eqn:KN; [|apply nth_error_None in KN; lia]. cbn [bind].
    assert (BA : forall t, In t (tails a) -> t < length hin) by (intros t I; rewrite LI; exact (wf_tails gin WI ei a t EA I)).
    destruct (exists_ok hin hs g a BA (i_wf g IV) (eq_sym (i_len g IV)) (in_edges nd)) as (b & -> & B).
    { intros e I. destruct (wf_in g (i_wf g IV) N nd e KN I) as (ed & E & _). exists ed. exact E. }
    cbn [bind]. destruct b.
    + destruct (IHe (fun x I => SUB x (or_intror I)) g IV) as (g' & R & IV' & K & C). exists g'. split; [exact R|]. split; [exact IV'|]. split; [exact K|].
      intros x edx [<-|I] EX; [|exact (C x edx I EX)]. rewrite EA in EX. injection EX as <-. apply K. destruct (proj1 B eq_refl) as (e & ed & I & E & [MT MH]). exists N, nd, e, ed. repeat (split; [first [assumption|symmetry; assumption]|]). right. exact MT.
    + destruct (hashes_of_ok hin (tails a) BA) as (th & -> & TH). cbn [bind]. destruct (tails_back th (tails a) TH) as [TB TL].
      destruct (add_conn g (map (at_ m) th) (copied no_prob (lab a)) N (i_wf g IV)) as (g1 & g2 & R1 & R2 & W2 & L2 & E2 & N2); [intros t I; rewrite (i_len g IV); exact (TL t I)|exact LN|].
      rewrite R1. cbn [bind]. rewrite R2. cbn [bind]. set (ne := {| head := Some N; tails := map (at_ m) th; lab := copied no_prob (lab a); eid := length (edges g) |}) in *.
      assert (NB : forall n nd2, nth_error (nodes g2) n = Some nd2 -> exists nd1, nth_error (nodes g) n = Some nd1 /\ in_edges nd2 = in_edges nd1 ++ (if N =? n then [length (edges g)] else [])).
      { intros n nd2 Q. assert (LQ : n < length (nodes g)) by (rewrite <- L2; apply nth_error_Some; congruence). destruct (nth_error (nodes g) n) as [nd1|] eqn:Q1; [|apply nth_error_None in Q1; lia]. destruct (N2 n nd1 Q1) as (nd' & Q2 & _ & Q3). rewrite Q in Q2. injection Q2 as <-. exists nd1. auto. }
      assert (IV2 : Inv g2).
      { destruct (i_old g IV) as (ex & EX). constructor.
        - exact W2.
        - rewrite L2. exact (i_len g IV).
        - exists (ex ++ [ne]). rewrite E2, EX, app_assoc. reflexivity.
        - intros n nd0 Q. destruct (i_ins g IV n nd0 Q) as (nd1 & l & Q1 & Q2 & Q3 & Q4). destruct (N2 n nd1 Q1) as (nd2 & P1 & P2 & P3). exists nd2, (l ++ if N =? n then [length (edges g)] else []). split; [exact P1|]. split; [congruence|]. split; [rewrite P3, Q3, app_assoc; reflexivity|].
          apply Forall_app. split; [exact Q4|]. destruct (N =? n); constructor; [rewrite EX, app_length; lia|constructor].
        - intros e ed n LE E HD. rewrite E2 in E. apply snoc in E as [E|(-> & ->)]; [exact (i_new g IV e ed n LE E HD)|]. cbn in HD. injection HD as <-. exists h, ni, ndi, ei, a. repeat (split; [first [assumption|apply SUB; left; reflexivity]|]). split; [reflexivity|exact TB].
        - intros IR n nd2 i j e e' ed ed' Q LT I1 I2 D1 D2 TT MM. cbn [fst] in *. destruct (NB n nd2 Q) as (nd1 & Q1 & Q2). rewrite Q2 in I1, I2.
          assert (FR : forall k x, nth_error (in_edges nd1) k = Some x -> exists y, nth_error (edges g) x = Some y /\ nth_error (edges g2) x = Some y).
          { intros k x KX. destruct (wf_in g (i_wf g IV) n nd1 x Q1 (nth_error_In _ _ KX)) as (y & Y & _). exists y. split; [exact Y|]. rewrite E2. apply snoc. auto. }
          destruct (Nat.eqb_spec N n) as [<-|NE]; [|rewrite app_nil_r in I1, I2].
          + apply snoc in I2 as [I2|(Q3 & ->)]; [|].
            * apply snoc in I1 as [I1|(Q3 & _)]; [|assert (j < length (in_edges nd1)) by (apply nth_error_Some; congruence); lia]. destruct (FR i e I1) as (y & Y1 & Y2). destruct (FR j e' I2) as (z & Z1 & Z2). apply (i_irr g IV IR N nd1 i j e e' ed ed' Q1 LT I1 I2); cbn [fst]; try assumption; congruence.
            * apply snoc in I1 as [I1|(Q4 & _)]; [|lia]. destruct (FR i e I1) as (y & Y1 & Y2). assert (y = ed) by congruence. subst y.
              rewrite E2 in D2. apply snoc in D2 as [D2|(_ & D2)]; [exfalso; assert (length (edges g) < length (edges g)) by (apply nth_error_Some; congruence); lia|]. subst ed'. cbn [lab ne tails] in *.
              assert (false = true); [|discriminate]. apply B. exists e, ed. rewrite KN in Q1. injection Q1 as <-. split; [eapply nth_error_In; exact I1|]. split; [exact Y1|]. split; [apply copied_match; exact MM|]. rewrite TT. symmetry. exact TB.
          + destruct (FR i e I1) as (y & Y1 & Y2). destruct (FR j e' I2) as (z & Z1 & Z2). apply (i_irr g IV IR n nd1 i j e e' ed ed' Q1 LT I1 I2); cbn [fst]; try assumption; congruence. }
      assert (K2 : kept g g2).
      { intros hh edi (n & nd1 & e & ed & Q1 & Q2 & Q3 & Q4 & Q5 & Q6). destruct (N2 n nd1 Q2) as (nd2 & P1 & _ & P3). exists n, nd2, e, ed. split; [exact Q1|]. split; [exact P1|]. split; [rewrite P3; apply in_or_app; left; exact Q3|]. split; [rewrite E2; apply snoc; auto|]. auto. }
      destruct (IHe (fun x I => SUB x (or_intror I)) g2 IV2) as (g' & R & IV' & K & C). exists g'. split; [exact R|]. split; [exact IV'|]. split; [intros hh edi Q; apply K, K2, Q|].
      intros x edx [<-|I] EX; [|exact (C x edx I EX)]. rewrite EA in EX. injection EX as <-. apply K. destruct (N2 N nd KN) as (nd2 & P1 & _ & P3).
      exists N, nd2, (length (edges g)), ne. split; [exact HN|]. split; [exact P1|]. split; [rewrite P3, Nat.eqb_refl; apply in_or_app; right; left; reflexivity|]. split; [rewrite E2; apply snoc; auto|]. split; [exact TB|]. left. reflexivity.
Qed.
Lemma add_all_ok : forall ns hn k g, (forall i, nth_error ns i = nth_error (nodes gin) (k + i)) -> (forall i, nth_error hn i = nth_error hin (k + i)) -> Inv g ->
  exists g', add_all close no_prob hin hs m gin ns hn g = Some g' /\ Inv g' /\ kept g g' /\ forall i h nd ei edi, nth_error hn i = Some h -> nth_error ns i = Some nd -> In ei (in_edges nd) -> nth_error (edges gin) ei = Some edi -> carried g' h edi.
Proof.
  induction ns as [|nd ns IH]; intros hn k g NS HS IV; [exists g; cbn; split; [reflexivity|]; split; [exact IV|]; split; [intros x y C; exact C|intros [|i] h nd ei edi _ Q; discriminate]|].
  destruct hn as [|h hn]; [exists g; cbn; split; [reflexivity|]; split; [exact IV|]; split; [intros x y C; exact C|intros [|i] h nd' ei edi Q; discriminate]|].
  cbn [add_all]. pose proof (NS 0) as N0. pose proof (HS 0) as H0. rewrite Nat.add_0_r in N0, H0. cbn [nth_error] in N0, H0.
  destruct (add_edges_ok k h nd (eq_sym H0) (eq_sym N0) (in_edges nd) (fun x I => I) g IV) as (g1 & R1 & IV1 & K1 & C1). rewrite R1. cbn [bind].
  destruct (IH hn (S k) g1) as (g2 & R2 & IV2 & K2 & C2); [intros i; rewrite Nat.add_succ_l, <- Nat.add_succ_r; exact (NS (S i))|intros i; rewrite Nat.add_succ_l, <- Nat.add_succ_r; exact (HS (S i))|exact IV1|].
  exists g2. split; [exact R2|]. split; [exact IV2|]. split; [intros x y C; apply K2, K1, C|].
  intros [|i] h' nd' ei edi Q1 Q2 Q3 Q4; cbn [nth_error] in Q1, Q2; [injection Q1 as <-; injection Q2 as <-; apply K2; exact (C1 ei edi Q3 Q4)|exact (C2 i h' nd' ei edi Q1 Q2 Q3 Q4)].
Qed.
End E.
End U.
