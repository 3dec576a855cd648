(** Proofs for Constrain.v: the fast case. *)
From Coq Require Import String List ZArith Bool Lia.
From Verif Require PruneProofs PruneIOProofs.
From Verif Require Import Opt OptProofs HG Deriv TopoSpec Prune PruneSpec Rule Lattice Parser ParserSpec Constrain ConstrainSpec ConstrainProofs.
Import ListNotations.
Open Scope opt_scope.
Local Open Scope nat_scope.

Definition same_shape {P} (g g' : hg P) : Prop := nodes g' = nodes g /\
  forall e, match nth_error (edges g) e, nth_error (edges g') e with
            | Some ed, Some ed' => head ed' = head ed /\ tails ed' = tails ed /\ eid ed' = eid ed
            | None, None => True | _, _ => False end.
Lemma shape_sym : forall P (g g' : hg P), same_shape g g' -> same_shape g' g.
Proof. intros P g g' (N & E). split; [congruence|]. intros e. specialize (E e). destruct (nth_error (edges g) e), (nth_error (edges g') e); try exact E. destruct E as (A & B & C). auto. Qed.
Lemma shape_edge : forall P (g g' : hg P) e ed, same_shape g g' -> nth_error (edges g) e = Some ed -> exists ed', nth_error (edges g') e = Some ed' /\ head ed' = head ed /\ tails ed' = tails ed /\ eid ed' = eid ed.
Proof. intros P g g' e ed (_ & E) H. specialize (E e). rewrite H in E. destruct (nth_error (edges g') e) as [ed'|]; [|contradiction]. exists ed'. tauto. Qed.
Lemma shape_len : forall P (g g' : hg P), same_shape g g' -> length (edges g') = length (edges g).
Proof.
  intros P g g' (_ & E). assert (A : forall e, e < length (edges g) <-> e < length (edges g')).
  { intros e. specialize (E e). destruct (nth_error (edges g) e) eqn:X, (nth_error (edges g') e) eqn:Y; try contradiction; [apply proj1 in E|]; rewrite <- !nth_error_Some; split; congruence. }
  destruct (Nat.lt_trichotomy (length (edges g')) (length (edges g))) as [H|[H|H]]; [apply A in H; lia|exact H|apply A in H; lia].
Qed.
Lemma shape_derives1 : forall P (g g' : hg P), same_shape g g' -> forall t n, derives g n t -> derives g' n t.
Proof.
  intros P g g' S t. induction t as [e ts IH] using tree_ind'. intros n D. inversion D as [? nd ? ed ? N J E F]; subst. destruct (shape_edge P g g' e ed S E) as (ed' & E' & _ & TL & _).
  econstructor; [rewrite (proj1 S); exact N|exact J|exact E'|]. rewrite TL. clear - IH F. induction F as [|x y l l' H F IHF]; [constructor|]. inversion IH; subst. constructor; auto.
Qed.
Lemma shape_derives : forall P (g g' : hg P), same_shape g g' -> forall t n, derives g' n t <-> derives g n t.
Proof. intros P g g' S t n. split; apply shape_derives1; [apply shape_sym|]; exact S. Qed.
Lemma shape_wf : forall P (g g' : hg P), same_shape g g' -> wf_hg g -> wf_hg g'.
Proof.
  intros P g g' S W. pose proof (shape_sym P g g' S) as S'. pose proof (proj1 S) as N. pose proof (shape_len P g g' S) as L. split.
  - intros n nd H. rewrite N in H. exact (wf_nid g W n nd H).
  - intros e ed H. destruct (shape_edge P g' g e ed S' H) as (ed0 & H0 & _ & _ & I). rewrite <- I. exact (wf_eid g W e ed0 H0).
  - intros n nd e H I. rewrite N in H. destruct (wf_in g W n nd e H I) as (ed & E & HD). destruct (shape_edge P g g' e ed S E) as (ed' & E' & HD' & _). exists ed'. split; [exact E'|congruence].
  - intros n nd H. rewrite N in H. exact (wf_nodup g W n nd H).
  - intros n nd e H I. rewrite N in H. rewrite L. exact (wf_out g W n nd e H I).
  - intros e ed t H I. rewrite N. destruct (shape_edge P g' g e ed S' H) as (ed0 & H0 & _ & T & _). apply (wf_tails g W e ed0 t H0). rewrite T. exact I.
  - intros e ed H. rewrite N. destruct (shape_edge P g' g e ed S' H) as (ed0 & H0 & HD & _). destruct (wf_head g W e ed0 H0) as (x & A & B). exists x. split; [congruence|exact B].
Qed.
Lemma shape_topo : forall P (g g' : hg P), same_shape g g' -> topo g -> topo g'.
Proof.
  intros P g g' S T n nd H. rewrite (proj1 S) in H. destruct (T n nd H) as (A & B). split; [exact A|]. intros e I. destruct (B e I) as (ed & E & TL). destruct (shape_edge P g g' e ed S E) as (ed' & E' & _ & TT & _). exists ed'. split; [exact E'|]. rewrite TT. exact TL.
Qed.
Lemma addr_eqb_eq : forall a b, addr_eqb a b = true <-> a = b.
Proof. intros [a|] [b|]; cbn; rewrite ?Nat.eqb_eq; split; try discriminate; try congruence. Qed.

Section F.
Context {X : Type}.
Variable target : list (list arc).
Let E0 := edge (elab X).

(** is the word the right one *)
Definition hitb (l : elab X) : bool :=
  match first_label target (Z.to_nat (prev_i_ l)), nth_error (r_e (rule_ l)) 0 with Some a, Some b => Z.eqb b a | _, _ => false end.
Lemma hitb_ok : forall l, usable target l -> hitb l = true <-> matches target l.
Proof.
  intros l (_ & (w & RE) & _ & x & alt & N). unfold hitb, first_label, matches. rewrite N, RE. cbn. rewrite Z.eqb_eq. split.
  - intros ->. eauto.
  - intros (x' & alt' & N' & RE'). injection N' as <- <-. congruence.
Qed.
Definition leafb (ed : E0) : bool := match tails ed with [] => true | _ => false end.
Definition usedb (done : list E0) (ed : E0) : bool :=
  existsb (fun fd => leafb fd && hitb (lab fd) && addr_eqb (r_addr (rule_ (lab fd))) (r_addr (rule_ (lab ed)))) done.
Definition new_label (done : list E0) (ed : E0) : elab X :=
  if leafb ed && hitb (lab ed) then with_rule (lab ed) (if usedb done ed then rule_ (lab ed) else swapped (rule_ (lab ed))) else lab ed.
Definition inv (all done : list E0) (m : rule_map) : Prop := forall ed, In ed all -> tails ed = [] ->
  (usedb done ed = true -> lookup (r_addr (rule_ (lab ed))) m = Some (rule_ (lab ed))) /\
  (usedb done ed = false -> lookup (r_addr (rule_ (lab ed))) m = None \/ lookup (r_addr (rule_ (lab ed))) m = Some (swapped (rule_ (lab ed)))).
Lemma lookup_store : forall a b r m, lookup a (store b r m) = if addr_eqb b a then Some r else lookup a m.
Proof. intros a b r m. unfold lookup, store. cbn. destruct (addr_eqb b a); reflexivity. Qed.
Lemma used_app : forall done x ed, usedb (done ++ [x]) ed = usedb done ed || (leafb x && hitb (lab x) && addr_eqb (r_addr (rule_ (lab x))) (r_addr (rule_ (lab ed)))).
Proof. intros. unfold usedb. rewrite existsb_app. cbn. rewrite orb_false_r. reflexivity. Qed.

Lemma fast_ok1 : forall all es done m, all = done ++ es ->
  (forall ed fd, In ed all -> In fd all -> tails ed = [] -> tails fd = [] -> r_addr (rule_ (lab ed)) = r_addr (rule_ (lab fd)) -> rule_ (lab ed) = rule_ (lab fd)) ->
  (forall ed, In ed es -> tails ed = [] -> usable target (lab ed)) -> inv all done m ->
  exists es' pr cov, fast_edges target es m = Some (es', pr, cov) /\ length es' = length es /\ length pr = length es /\
    (forall k ed, nth_error es k = Some ed -> nth_error es' k = Some {| head := head ed; tails := tails ed; lab := new_label (done ++ firstn k es) ed; eid := eid ed |} /\
       nth_error pr k = Some (leafb ed && negb (hitb (lab ed)))) /\
    (forall i, In i cov <-> exists ed, In ed es /\ tails ed = [] /\ hitb (lab ed) = true /\ i = Z.to_nat (prev_i_ (lab ed))).
Proof.
  intros all es. induction es as [|ed r IH]; intros done m ALL HEAP US INV.
  { exists [], [], []. repeat (split; [reflexivity|]). split; [intros [|k]; discriminate|]. intros i. split; [intros []|intros (ed & [] & _)]. }
  assert (ALL' : all = (done ++ [ed]) ++ r) by (rewrite <- app_assoc; exact ALL).
  assert (INA : In ed all) by (rewrite ALL; apply in_or_app; right; left; reflexivity).
  assert (SPLIT : forall es0 pr0 cov0 l b, (forall k ed0, nth_error r k = Some ed0 -> nth_error es0 k = Some {| head := head ed0; tails := tails ed0; lab := new_label ((done ++ [ed]) ++ firstn k r) ed0; eid := eid ed0 |} /\ nth_error pr0 k = Some (leafb ed0 && negb (hitb (lab ed0)))) ->
     l = new_label done ed -> b = leafb ed && negb (hitb (lab ed)) -> length es0 = length r -> length pr0 = length r ->
     length ({| head := head ed; tails := tails ed; lab := l; eid := eid ed |} :: es0) = length (ed :: r) /\ length (b :: pr0 : list bool) = length (ed :: r) /\
     (forall k ed0, nth_error (ed :: r) k = Some ed0 -> nth_error ({| head := head ed; tails := tails ed; lab := l; eid := eid ed |} :: es0) k = Some {| head := head ed0; tails := tails ed0; lab := new_label (done ++ firstn k (ed :: r)) ed0; eid := eid ed0 |} /\
       nth_error (b :: pr0) k = Some (leafb ed0 && negb (hitb (lab ed0)))) /\ (cov0 : list nat) = cov0).
  { intros es0 pr0 cov0 l b H -> -> L1 L2. split; [cbn; congruence|]. split; [cbn; congruence|]. split; [|reflexivity]. intros [|k] ed0 N; cbn in N.
    - injection N as ->. cbn [firstn]. rewrite app_nil_r. split; reflexivity.
    - destruct (H k ed0 N) as (A & B). cbn [nth_error firstn]. rewrite A, B. rewrite <- app_assoc. split; reflexivity. }
  assert (US' : forall ed0, In ed0 r -> tails ed0 = [] -> usable target (lab ed0)) by (intros ed0 I; apply US; right; exact I).
  assert (ETA : ed = {| head := head ed; tails := tails ed; lab := lab ed; eid := eid ed |}) by (destruct ed; reflexivity).
  cbn [fast_edges]. destruct (tails ed) as [|t0 tl] eqn:TL.
  - pose proof (US ed (or_introl eq_refl) TL) as U. pose proof U as (P0 & (w & RE) & AR & x & alt & NT). destruct (Z.ltb_spec (prev_i_ (lab ed)) 0) as [H|_]; [lia|].
    assert (FL : first_label target (Z.to_nat (prev_i_ (lab ed))) = Some (label x)) by (unfold first_label; rewrite NT; reflexivity). rewrite FL. cbn [bind].
    unfold EWords. rewrite RE, AR. cbn [length nth_error bind]. change (negb (Z.eqb (Z.of_nat 1 - 0) 1)) with false. cbn [bind]. cbv beta iota.
    assert (LF : leafb ed = true) by (unfold leafb; rewrite TL; reflexivity).
    assert (HB : hitb (lab ed) = Z.eqb w (label x)) by (unfold hitb; rewrite FL, RE; reflexivity).
    set (iv := match lookup _ m with Some x0 => x0 | None => _ end).
    assert (IV : iv = if usedb done ed then rule_ (lab ed) else swapped (rule_ (lab ed))). { unfold iv. destruct (INV ed INA TL) as (I1 & I2). destruct (usedb done ed); [rewrite (I1 eq_refl); reflexivity|]. destruct (I2 eq_refl) as [-> | ->]; reflexivity. }
    destruct (Z.eqb w (label x)) eqn:WE.
    + destruct (IH (done ++ [ed]) (store (r_addr (rule_ (lab ed))) (rule_ (lab ed)) m) ALL' HEAP US') as (es' & pr & cov & FE & L1 & L2 & K & C).
      { intros fd IF TF. rewrite lookup_store, used_app, LF, HB. cbn [andb]. destruct (addr_eqb _ _) eqn:AE; rewrite ?orb_true_r, ?orb_false_r.
        - apply addr_eqb_eq in AE. split; [intros _|discriminate]. f_equal. exact (HEAP ed fd INA IF TL TF AE).
        - exact (INV fd IF TF). }
      rewrite FE. cbn [bind]. eexists _, _, _. split; [reflexivity|].
      destruct (SPLIT es' pr cov (with_rule (lab ed) iv) false K) as (S1 & S2 & S3 & _); [|rewrite LF, HB; reflexivity|exact L1|exact L2|]. { unfold new_label. rewrite LF, HB, IV. reflexivity. }
      split; [exact S1|]. split; [exact S2|]. split; [exact S3|]. intros i. split.
      * intros [<-|I]; [exists ed; split; [left; reflexivity|]; auto|]. apply C in I as (fd & I & Z1). exists fd. split; [right; exact I|exact Z1].
      * intros (fd & [<-|I] & T & HH & ->); [left; reflexivity|right; apply C; exists fd; auto].
    + destruct (IH (done ++ [ed]) (store (r_addr (rule_ (lab ed))) iv m) ALL' HEAP US') as (es' & pr & cov & FE & L1 & L2 & K & C).
      { intros fd IF TF. rewrite lookup_store, used_app, LF, HB. cbn [andb]. rewrite orb_false_r. destruct (addr_eqb _ _) eqn:AE.
        - apply addr_eqb_eq in AE. pose proof (HEAP ed fd INA IF TL TF AE) as RR. assert (UU : usedb done fd = usedb done ed) by (unfold usedb; rewrite RR; reflexivity). rewrite UU, IV, <- RR. destruct (usedb done ed); split; try discriminate; auto.
        - exact (INV fd IF TF). }
      rewrite FE. cbn [bind]. eexists _, _, _. split; [reflexivity|].
      destruct (SPLIT es' pr cov (lab ed) true K) as (S1 & S2 & S3 & _); [|rewrite LF, HB; reflexivity|exact L1|exact L2|]. { unfold new_label. rewrite LF, HB. reflexivity. }
      rewrite <- ETA in S1, S3. split; [exact S1|]. split; [exact S2|]. split; [exact S3|]. intros i. rewrite C. split.
      * intros (fd & I & Z1). exists fd. split; [right; exact I|exact Z1].
      * intros (fd & [<-|I] & T & HH & EI); [rewrite HB in HH; discriminate|exists fd; auto].
  - assert (LF : leafb ed = false) by (unfold leafb; rewrite TL; reflexivity).
    destruct (IH (done ++ [ed]) m ALL' HEAP US') as (es' & pr & cov & FE & L1 & L2 & K & C).
    { intros fd IF TF. rewrite used_app, LF. cbn [andb]. rewrite orb_false_r. exact (INV fd IF TF). }
    rewrite FE. cbn [bind]. eexists _, _, _. split; [reflexivity|].
    destruct (SPLIT es' pr cov (lab ed) false K) as (S1 & S2 & S3 & _); [|rewrite LF; reflexivity|exact L1|exact L2|]. { unfold new_label. rewrite LF. reflexivity. }
    rewrite <- ETA in S1, S3. split; [exact S1|]. split; [exact S2|]. split; [exact S3|]. intros i. rewrite C. split.
    * intros (fd & I & Z1). exists fd. split; [right; exact I|exact Z1].
    * intros (fd & [<-|I] & T & HH & EI); [congruence|exists fd; auto].
Qed.

Variable g : hg (elab X).
Hypothesis wf : wf_hg g.
Hypothesis tp : topo g.
Hypothesis ne : nodes g <> [].
Hypothesis us : forall e ed, nth_error (edges g) e = Some ed -> tails ed = [] -> usable target (lab ed).
Hypothesis heap : heap_ok g.

Lemma nodup_count : forall (l : list nat) n, (forall i, In i l -> i < n) -> (length (nodup Nat.eq_dec l) = n <-> forall i, i < n -> In i l).
Proof.
  intros l n B. assert (I1 : incl (nodup Nat.eq_dec l) (seq 0 n)) by (intros i I; apply in_seq; apply nodup_In in I; specialize (B i I); lia).
  assert (N1 := NoDup_nodup Nat.eq_dec l). split.
  - intros L i LT. apply (nodup_In Nat.eq_dec). assert (I2 : incl (seq 0 n) (nodup Nat.eq_dec l)) by (apply NoDup_length_incl; [exact N1|rewrite seq_length; lia|exact I1]). apply I2. apply in_seq. lia.
  - intros H. apply Nat.le_antisymm.
    + transitivity (length (seq 0 n)); [apply NoDup_incl_length; assumption|rewrite seq_length; lia].
    + transitivity (length (seq 0 n)); [rewrite seq_length; lia|apply NoDup_incl_length; [apply seq_NoDup|]]. intros i I. apply in_seq in I. apply nodup_In. apply H. lia.
Qed.

Theorem fast_ok : exists ok h, FastLinearIntersect target g = Some (ok, h) /\ wf_hg h /\ topo h /\
  (ok = true <-> forall i, i < length target -> exists e ed, nth_error (edges g) e = Some ed /\ tails ed = [] /\ matches target (lab ed) /\ i = Z.to_nat (prev_i_ (lab ed))) /\
  selected target (fun e l l' => (~ used_before target g e -> turned l l') /\ (used_before target g e -> half_turned l l')) g h.
Proof.
  assert (HEAP : forall ed fd, In ed (edges g) -> In fd (edges g) -> tails ed = [] -> tails fd = [] -> r_addr (rule_ (lab ed)) = r_addr (rule_ (lab fd)) -> rule_ (lab ed) = rule_ (lab fd)).
  { intros ed fd I J. apply In_nth_error in I as (a & A). apply In_nth_error in J as (b & B). exact (heap a b ed fd A B). }
  assert (US : forall ed, In ed (edges g) -> tails ed = [] -> usable target (lab ed)) by (intros ed I; apply In_nth_error in I as (e & E); exact (us e ed E)).
  destruct (fast_ok1 (edges g) (edges g) [] [] eq_refl HEAP US) as (es & pr & cov & FE & L1 & L2 & K & C). { intros ed _ _. split; [discriminate|intros _; left; reflexivity]. }
  unfold FastLinearIntersect. rewrite FE. cbn [bind]. set (g1 := {| nodes := nodes g; edges := es |}).
  assert (SH : same_shape g g1).
  { split; [reflexivity|]. intros e. cbn [edges g1]. destruct (nth_error (edges g) e) as [ed|] eqn:E; [destruct (K e ed E) as (-> & _); cbn; auto|]. apply nth_error_None in E. rewrite <- L1 in E. apply nth_error_None in E. rewrite E. exact I. }
  assert (LP : length pr = length (edges g1)) by (cbn; congruence).
  destruct (PruneIOProofs.prune_all g1 (shape_wf _ g g1 SH wf) (shape_topo _ g g1 SH tp) ne pr true LP) as (h & PE & WH & TH & (f & C1 & C2 & C3) & _).
  rewrite PE. exists (length (nodup Nat.eq_dec cov) =? length target), h. split; [reflexivity|]. split; [exact WH|]. split; [exact TH|]. split.
  { rewrite Nat.eqb_eq, nodup_count.
    - split; intros H i L; specialize (H i L).
      + apply C in H as (ed & I & T & HH & EI). apply In_nth_error in I as (e & E). exists e, ed. repeat (split; [assumption|]). split; [apply hitb_ok; [exact (us e ed E T)|exact HH]|exact EI].
      + destruct H as (e & ed & E & T & M & EI). apply C. exists ed. split; [exact (nth_error_In _ _ E)|]. split; [exact T|]. split; [apply hitb_ok; [exact (us e ed E T)|exact M]|exact EI].
    - intros i I. apply C in I as (ed & I & T & HH & ->). destruct (US ed I T) as (_ & _ & _ & x & alt & N). apply nth_error_Some. congruence. }
  assert (MA : forall t n, derives g n t -> (matched target g t <-> avoids pr t)).
  { intros t n D. unfold matched, avoids. rewrite Forall_forall. split.
    - intros M e I. destruct (nth_error (edges g) e) as [ed|] eqn:E.
      + destruct (K e ed E) as (_ & ->). f_equal. unfold leafb. destruct (tails ed) eqn:TL; [|reflexivity]. cbn. apply negb_false_iff. apply hitb_ok; [exact (us e ed E TL)|exact (M e ed I E TL)].
      + exfalso. clear - D I E. revert n D I. induction t as [e0 ts IH] using tree_ind'. intros n D I. inversion D as [? nd ? ed ? N J E1 F]; subst. cbn [tree_edges] in I. apply in_app_or in I as [I|[->|[]]]; [|congruence].
        apply in_flat_map in I as (s & S & I). apply In_nth_error in S as (k & S). destruct (F2_nth_r _ _ _ _ _ F _ _ S) as (m & _ & DM). rewrite Forall_forall in IH. exact (IH s (nth_error_In _ _ S) m DM I).
    - intros A e ed I E TL. specialize (A e I). destruct (K e ed E) as (_ & PR). rewrite PR in A. injection A as A. unfold leafb in A. rewrite TL in A. cbn in A. apply negb_false_iff in A. apply hitb_ok; [exact (us e ed E TL)|exact A]. }
  assert (DD : forall t n, derives g1 n t <-> derives g n t) by exact (shape_derives _ g g1 SH).
  exists f. change (goal g1) with (goal g) in *. split; [|split].
  - intros t'. rewrite C1. split; intros (t & D & A & EQ); exists t; [rewrite DD in D|]; (split; [|split; [|exact EQ]]); try exact D; try (apply (MA t (goal g)); assumption). apply DD. exact D.
  - intros t u D M D' M' EQ. apply C2; [apply DD; exact D|apply (MA t _ D); exact M|apply DD; exact D'|apply (MA u _ D'); exact M'|exact EQ].
  - intros t e D M I. destruct (C3 t e (proj2 (DD t _) D) (proj1 (MA t _ D) M) I) as (ed1 & ed' & E1 & E' & LL). destruct (shape_edge _ g1 g e ed1 (shape_sym _ _ _ SH) E1) as (ed & E & _). exists ed, ed'. split; [exact E|]. split; [exact E'|].
    destruct (K e ed E) as (K1 & _). cbn [edges g1] in E1. rewrite E1 in K1. injection K1 as ->. cbn [lab] in LL. rewrite LL. unfold new_label. cbn [app]. split; [intros T; unfold leafb; destruct (tails ed); [congruence|reflexivity]|]. intros TL. replace (leafb ed) with true by (unfold leafb; rewrite TL; reflexivity).
    assert (HH : hitb (lab ed) = true) by (apply hitb_ok; [exact (us e ed E TL)|exact (M e ed I E TL)]). rewrite HH. cbn [andb].
    assert (UB : usedb (firstn e (edges g)) ed = true <-> used_before target g e).
    { unfold usedb. rewrite existsb_exists. split.
      - intros (fd & IF & B). apply andb_true_iff in B as (B & AE). apply andb_true_iff in B as (LF & HF). apply addr_eqb_eq in AE. apply In_nth_error in IF as (b & B).
        assert (LB : b < e). { assert (b < length (firstn e (edges g))) by (apply nth_error_Some; unfold E0 in *; rewrite B; discriminate). rewrite firstn_length in H. lia. }
        assert (B' : nth_error (edges g) b = Some fd). { rewrite <- B. symmetry. clear - LB. revert e LB. generalize (edges g). induction b as [|b IH]; intros [|y l] [|e] LB; try lia; try reflexivity. cbn. apply IH. lia. }
        assert (TF : tails fd = []) by (unfold leafb in LF; destruct (tails fd); [reflexivity|discriminate]). exists b, ed, fd. split; [exact LB|]. split; [exact E|]. split; [exact B'|]. split; [exact TF|]. split; [apply hitb_ok; [exact (us b fd B' TF)|exact HF]|congruence].
      - intros (b & ed2 & fd & LB & E2 & B & TF & MF & AE). assert (ed2 = ed) by congruence. subst ed2. exists fd. split.
        + apply nth_error_In with b. transitivity (nth_error (edges g) b); [|exact B]. clear - LB. revert e LB. generalize (edges g). induction b as [|b IH]; intros [|y l] [|e] LB; try lia; try reflexivity. cbn. apply IH. lia.
        + unfold leafb. rewrite TF. cbn [andb]. rewrite (proj2 (hitb_ok _ (us b fd B TF)) MF). cbn. apply addr_eqb_eq. congruence. }
    split; intros U.
    + destruct (usedb _ ed); [exfalso; apply U, UB; reflexivity|]. repeat split.
    + apply UB in U. rewrite U. repeat split.
Qed.
End F.
