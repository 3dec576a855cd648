(** Log-probabilities, edge marginals and the cutoff. *)
From Coq Require Import List Arith Bool Lia Relations ZArith QArith Qcanon Lqa Permutation.
From Verif Require Import HG HGProofs Deriv Inside InsideProofs OutsideProofs Topo TopoSpec TopoProofs TopoDeriv Viterbi ViterbiProofs Prune PruneSpec PruneProofs.
Import ListNotations.
Local Open Scope nat_scope.

(** ** Qc *)
Lemma qltb_iff : forall x y, qltb x y = true <-> (x < y)%Qc.
Proof. intros x y. unfold qltb. rewrite Qclt_alt. destruct (x ?= y)%Qc; split; congruence. Qed.
Lemma qltb_false : forall x y, qltb x y = false <-> (y <= x)%Qc.
Proof.
  intros x y. destruct (qltb x y) eqn:E.
  - apply qltb_iff in E. split; [discriminate|]. intros H. exfalso. exact (Qcle_not_lt _ _ H E).
  - split; [|reflexivity]. intros _. apply Qcnot_lt_le. intros H. apply qltb_iff in H. congruence.
Qed.
Lemma qplus : forall x y : Qc, (this (x + y)%Qc == this x + this y)%Q.
Proof. intros. apply Qred_correct. Qed.
Lemma qmult : forall x y : Qc, (this (x * y)%Qc == this x * this y)%Q.
Proof. intros. apply Qred_correct. Qed.
Lemma qopp : forall x : Qc, (this (- x)%Qc == - this x)%Q.
Proof. intros. apply Qred_correct. Qed.
Lemma qminus : forall x y : Qc, (this (x - y)%Qc == this x - this y)%Q.
Proof. intros. unfold Qcminus. rewrite qplus, qopp. lra. Qed.
Lemma q2qc : forall q, (this (Q2Qc q) == q)%Q.
Proof. intros. apply Qred_correct. Qed.
Lemma q0 : (this 0%Qc == 0)%Q. Proof. reflexivity. Qed.
Lemma q1 : (this 1%Qc == 1)%Q. Proof. reflexivity. Qed.
Ltac qpush := unfold Qcle, Qclt in *; rewrite ?qplus, ?qmult, ?qopp, ?qminus, ?q2qc, ?q0, ?q1 in *.
Ltac qlra := intros; first [apply Qc_is_canon; qpush; lra | qpush; lra].

Lemma qc_cases : forall x y : Qc, (x < y)%Qc \/ x = y \/ (y < x)%Qc.
Proof. intros x y. destruct (Q_dec x y) as [[H|H]|H]; [left; exact H|right; right; exact H|right; left; apply Qc_is_canon; exact H]. Qed.

(** ** The tropical semiring of log-probabilities *)
Lemma lmax_some : forall x y, lmax (Some x) (Some y) = Some (if qltb x y then y else x).
Proof. intros. unfold lmax. cbn. destruct (qltb x y); reflexivity. Qed.
Lemma lmax_none_r : forall a, lmax a None = a.
Proof. intros [x|]; reflexivity. Qed.
Lemma lmax_none_l : forall a, lmax None a = a.
Proof. intros [x|]; reflexivity. Qed.
Ltac qcase :=
  repeat match goal with
  | |- context [qltb ?a ?b] =>
    lazymatch a with context [qltb _ _] => fail | _ => idtac end;
    lazymatch b with context [qltb _ _] => fail | _ => idtac end;
    let E := fresh "C" in destruct (qltb a b) eqn:E; [apply qltb_iff in E|apply qltb_false in E]
  end.
Lemma lp_semiring : semiring lzero lone lmax ltimes.
Proof.
  constructor.
  - intros [x|] [y|]; rewrite ?lmax_some, ?lmax_none_r, ?lmax_none_l; try reflexivity. f_equal. qcase; try reflexivity; qlra.
  - intros [x|] [y|] [z|]; rewrite ?lmax_some, ?lmax_none_r, ?lmax_none_l, ?lmax_some; try reflexivity. f_equal. qcase; try reflexivity; qlra.
  - apply lmax_none_l.
  - intros [x|] [y|] [z|]; cbn; try reflexivity. f_equal. qlra.
  - intros [x|]; cbn; [f_equal; qlra|reflexivity].
  - intros [x|]; cbn; [f_equal; qlra|reflexivity].
  - reflexivity.
  - intros [x|]; reflexivity.
  - intros [x|] [y|] [z|]; rewrite ?lmax_some, ?lmax_none_r, ?lmax_none_l; cbn [ltimes]; rewrite ?lmax_some, ?lmax_none_r, ?lmax_none_l; try reflexivity.
    f_equal. qcase; try reflexivity; qlra.
  - intros [x|] [y|] [z|]; rewrite ?lmax_some, ?lmax_none_r, ?lmax_none_l; cbn [ltimes]; rewrite ?lmax_some, ?lmax_none_r, ?lmax_none_l; try reflexivity.
    f_equal. qcase; try reflexivity; qlra.
Qed.
Lemma ltimes_comm : forall a b, ltimes a b = ltimes b a.
Proof. intros [x|] [y|]; cbn; try reflexivity. f_equal. qlra. Qed.
Lemma lmax_sel : forall a b, lmax a b = a \/ lmax a b = b.
Proof. intros a b. unfold lmax. destruct (lltb a b); auto. Qed.
Lemma lp_ordered : ordered (fun _ : lp => True) lltb ltimes.
Proof.
  constructor; auto.
  - intros [x|] _; [|reflexivity]. cbn. apply qltb_false. qlra.
  - intros [x|] [y|] _ _; cbn; try discriminate; try reflexivity. rewrite qltb_iff, qltb_false. qlra.
  - intros [x|] [y|] [z|] _ _ _; cbn; try discriminate; try reflexivity. rewrite !qltb_false. qlra.
  - intros [x|] [y|] [z|] [w|] _ _ _ _; cbn; try discriminate; try reflexivity. rewrite !qltb_false. qlra.
Qed.

(** ** Marginals *)
Section M.
Context {P : Type}.
Variable prob : P -> lp.
Variable g : hg P.
Hypothesis WF : wf_hg g.
Hypothesis TP : topo g.
Hypothesis NE : nodes g <> [].
Local Notation ep := (eprob prob).
Local Notation tw := (tree_weight ltimes (edge_weight lzero ep g)).
Local Notation look sc n := (nth n sc lzero).
Local Notation gl := (goal g).

Lemma logprob_tw : forall t, logprob prob g t = tw t.
Proof using.
  induction t as [e ts IH] using tree_ind'. cbn [logprob tree_weight].
  change (logprob_of prob g e) with (edge_weight lzero ep g e). generalize (edge_weight lzero ep g e).
  induction IH as [|t r H _ IHr]; intros a; [reflexivity|]. cbn [fold_left]. rewrite H. apply IHr.
Qed.

Lemma wf_one_head : one_head g.
Proof using WF.
  intros n m nd md e N M I J. destruct (wf_in g WF n nd e N I) as (ed & ED & H). destruct (wf_in g WF m md e M J) as (ed' & ED' & H'). congruence.
Qed.

(** The value of each marginal. *)
Lemma marg_edges_ok : forall ins o, length ins = length (nodes g) -> forall es mm, length mm = length (edges g) -> NoDup es ->
  (forall e, In e es -> exists ed, nth_error (edges g) e = Some ed /\ forall t, In t (tails ed) -> t < length (nodes g)) ->
  exists mm', marg_edges prob g ins o es mm = Some mm' /\ length mm' = length mm /\
    (forall e, ~ In e es -> look mm' e = look mm e) /\
    forall e, In e es -> look mm' e = ltimes o (ltimes (edge_weight lzero ep g e) (Pi lone ltimes (fun t => look ins t) (etails g e))).
Proof using.
  intros ins o LI. induction es as [|e r IH]; intros mm LM ND H; cbn [marg_edges].
  - exists mm. split; [reflexivity|]. split; [reflexivity|]. split; [reflexivity|]. intros e [].
  - inversion ND as [|? ? NI ND']; subst. destruct (H e (or_introl eq_refl)) as (ed & ED & TL). rewrite ED.
    rewrite (mul_tails_spec lzero ltimes) by (intros t T; rewrite LI; exact (TL t T)).
    destruct (upd_total _ mm e (fun _ => fold_left (fun a t => ltimes a (look ins t)) (tails ed) (ltimes (ep ed) o))) as (m1 & U).
    { rewrite LM. apply nth_error_Some. congruence. }
    rewrite U. pose proof (upd_length _ _ _ _ _ U) as L1.
    destruct (IH m1) as (mm' & R & LR & O & V); [lia|exact ND'|intros x X; apply H; right; exact X|].
    exists mm'. split; [exact R|]. split; [lia|]. split.
    + intros x X. rewrite O by (intros Y; apply X; right; exact Y). rewrite (upd_look lzero _ _ _ _ _ U).
      destruct (Nat.eqb_spec e x); [subst; exfalso; apply X; left; reflexivity|reflexivity].
    + intros x [<-|X]; [|apply V; exact X]. rewrite O by exact NI. rewrite (upd_look lzero _ _ _ _ _ U), Nat.eqb_refl.
      rewrite (fold_Pi lzero lone lmax ltimes lp_semiring ltimes_comm). unfold edge_weight, etails. rewrite ED.
      rewrite (ltimes_comm (ep ed) o), <- (times_assoc _ _ _ _ lp_semiring). reflexivity.
Qed.

Lemma marg_nodes_ok : forall ins, length ins = length (nodes g) -> forall ns out i mm,
  (forall k, nth_error ns k = nth_error (nodes g) (i + k)) -> i + length ns = length (nodes g) -> length out = length ns -> length mm = length (edges g) ->
  exists mm', marg_nodes prob g ins out ns mm = Some mm' /\ length mm' = length mm /\
    (forall e, (forall k, i <= k -> ~ In e (in_of g k)) -> look mm' e = look mm e) /\
    forall k e, k < length ns -> In e (in_of g (i + k)) ->
      look mm' e = ltimes (look out k) (ltimes (edge_weight lzero ep g e) (Pi lone ltimes (fun t => look ins t) (etails g e))).
Proof using WF TP.
  intros ins LI. induction ns as [|nd r IH]; intros out i mm N L LO LM; cbn [marg_nodes].
  - exists mm. split; [destruct out; reflexivity|]. split; [reflexivity|]. split; [reflexivity|]. intros k e K. cbn in K. lia.
  - destruct out as [|o os]; [discriminate|]. pose proof (N 0) as N0. rewrite Nat.add_0_r in N0. cbn in N0. symmetry in N0.
    destruct (marg_edges_ok ins o LI (in_edges nd) mm LM (proj1 (TP i nd N0))) as (m1 & R1 & L1 & O1 & V1).
    { intros e E. destruct (proj2 (TP i nd N0) e E) as (ed & ED & TL). exists ed. split; [exact ED|]. intros t T. exact (wf_tails g WF e ed t ED T). }
    cbn [marg_nodes]. rewrite R1. destruct (IH os (S i) m1) as (mm' & R & LR & O & V).
    { intros k. specialize (N (S k)). cbn in N. rewrite N. f_equal. lia. } { cbn in L. lia. } { cbn in LO. lia. } { lia. }
    exists mm'. split; [exact R|]. split; [lia|].
    assert (IN : forall e, In e (in_of g i) <-> In e (in_edges nd)) by (intros e; unfold in_of; rewrite N0; reflexivity).
    split.
    + intros e H. rewrite O by (intros k K; apply H; lia). apply O1. rewrite <- IN. apply H. lia.
    + intros [|k] e K I.
      * rewrite Nat.add_0_r in I. cbn [nth]. rewrite O; [apply V1, IN, I|]. intros k K' J.
        unfold in_of in J, I. rewrite N0 in I. destruct (nth_error (nodes g) k) as [kd|] eqn:KD; [|destruct J].
        pose proof (wf_one_head i k nd kd e N0 KD I J). lia.
      * cbn [nth]. apply V; [cbn in K; lia|]. replace (S i + k) with (i + S k) by lia. exact I.
Qed.

Lemma lle_best : forall (m : lp) (c : Qc), (lltb m (Some c) = false <-> exists x, m = Some x /\ (c <= x)%Qc).
Proof using.
  intros [x|] c; cbn.
  - rewrite qltb_false. split; [intros H; exists x; auto|intros (y & [= <-] & H); exact H].
  - split; [discriminate|intros (y & ? & _); discriminate].
Qed.
Lemma lmax_le : forall x m, lmax (Some x) m = m -> exists y, m = Some y /\ (x <= y)%Qc.
Proof using.
  intros x [y|] H; [|discriminate]. exists y. split; [reflexivity|]. rewrite lmax_some in H. injection H as H.
  destruct (qltb x y) eqn:E; [apply qltb_iff in E; apply Qclt_le_weak; exact E|]. subst. apply Qcle_refl.
Qed.

Lemma Marginals_ok : distinct_tails g -> forall b, best prob g b ->
  exists mm, Marginals prob g = Marg mm /\ length mm = length (edges g) /\
    forall e, e < length (edges g) -> forall c, lltb (look mm e) (Some c) = false <-> used_at prob g (b + c)%Qc e.
Proof using WF TP NE.
  intros DT b ((tb & DB & WB) & BB). unfold Marginals.
  destruct (inside_sum lzero lone lmax ltimes lp_semiring ep g TP) as (ins & RI & LI & VI). rewrite RI, LI.
  assert (NL : length (nodes g) <> 0) by (destruct (nodes g); [congruence|discriminate]).
  assert (GB : nth_error ins (length (nodes g) - 1) = Some (Some b)).
  { rewrite (nth_error_nth' ins lzero) by lia. f_equal. rewrite VI by lia.
    destruct (dvs_all g TP (length (nodes g) - 1)) as (_ & AL).
    pose proof (sum_sel_max lzero lone lmax ltimes lp_semiring lmax_sel tree tw (dvs g (length (nodes g) - 1)) tb (proj2 (AL tb) DB)) as M1.
    rewrite <- (logprob_tw tb), WB in M1. apply lmax_le in M1. destruct M1 as (y & M1 & LE).
    destruct (sum_sel_in lzero lmax lmax_sel tree tw (dvs g (length (nodes g) - 1))) as [Z|(t & I & H)]; [rewrite Z in M1; discriminate|].
    rewrite M1 in H |- *. f_equal. apply AL in I. rewrite <- logprob_tw in H. specialize (BB t y I H). apply Qcle_antisym; assumption. }
  rewrite GB.
  pose proof (fun x => outside_uses lzero lone lmax ltimes lp_semiring ltimes_comm ep g TP (fun e => e =? x) ins LI DT NL VI (Some (- b)%Qc)) as OU.
  destruct (OU 0) as (out & RO & LO & _). rewrite RO.
  destruct (marg_nodes_ok ins LI (nodes g) out 0 (repeat lzero (length (edges g)))) as (mm & RM & LM & OM & VM);
    [reflexivity|reflexivity|exact LO|apply repeat_length|].
  rewrite RM. exists mm. split; [reflexivity|]. split; [rewrite LM; apply repeat_length|].
  intros x LX c. set (R := Rsum lzero lmax ltimes ep g (fun e => e =? x) (length (nodes g) - 1)).
  assert (E : look mm x = ltimes (Some (- b)%Qc) R).
  { destruct (OU x) as (out' & RO' & _ & VO). rewrite RO in RO'. injection RO' as <-. unfold R. rewrite VO.
    rewrite (dot_sum lzero lone lmax ltimes lp_semiring ltimes_comm).
    destruct (in_dec Nat.eq_dec x (flat_map (in_of g) (seq 0 (length (nodes g))))) as [I|NI].
    - apply in_flat_map in I. destruct I as (n & N & I). apply in_seq in N. rewrite (VM n x) by (try lia; exact I).
      rewrite <- (sum_single lzero lone lmax ltimes lp_semiring ltimes_comm (fun k => ltimes (look out k) (ltimes (edge_weight lzero ep g x) (Pi lone ltimes (fun t => look ins t) (etails g x)))) (seq 0 (length (nodes g))) n);
        [|apply seq_NoDup|apply in_seq; lia].
      f_equal. apply map_ext_in. intros k K. apply in_seq in K. unfold loc. destruct (Nat.eqb_spec k n) as [->|NK].
      + f_equal. symmetry. apply (sum_single lzero lone lmax ltimes lp_semiring ltimes_comm (fun e => ltimes (edge_weight lzero ep g e) (Pi lone ltimes (fun t => look ins t) (etails g e)))); [|exact I].
        unfold in_of in *. destruct (nth_error (nodes g) n) as [nd|] eqn:ND; [exact (proj1 (TP n nd ND))|destruct I].
      + rewrite (sum_none lzero lone lmax ltimes lp_semiring ltimes_comm (fun e => ltimes (edge_weight lzero ep g e) (Pi lone ltimes (fun t => look ins t) (etails g e)))).
        * symmetry. apply (times_zero_r _ _ _ _ lp_semiring).
        * intros J. unfold in_of in J, I. destruct (nth_error (nodes g) n) as [nd|] eqn:ND; [|destruct I]. destruct (nth_error (nodes g) k) as [kd|] eqn:KD; [|destruct J].
          apply NK. exact (wf_one_head k n kd nd x KD ND J I).
    - rewrite OM, look_repeat.
      + symmetry. assert (Z : forall l, (forall k, In k l -> k < length (nodes g)) -> sum lzero lmax (map (fun k => ltimes (look out k) (sum lzero lmax (map (loc lzero lone ltimes ep g (fun e => e =? x) (fun t => look ins t)) (in_of g k)))) l) = lzero).
        { induction l as [|k r IHl]; intros K; [reflexivity|]. cbn [map Deriv.sum]. rewrite IHl by (intros j J; apply K; right; exact J).
          unfold loc. rewrite (sum_none lzero lone lmax ltimes lp_semiring ltimes_comm (fun e => ltimes (edge_weight lzero ep g e) (Pi lone ltimes (fun t => look ins t) (etails g e)))).
          - rewrite (times_zero_r _ _ _ _ lp_semiring). reflexivity.
          - intros J. apply NI. apply in_flat_map. exists k. split; [apply in_seq; specialize (K k (or_introl eq_refl)); lia|exact J]. }
        apply Z. intros k K. apply in_seq in K. lia.
      + intros k _ J. apply NI. apply in_flat_map. exists k. split; [|exact J]. apply in_seq. unfold in_of in J.
        destruct (nth_error (nodes g) k) eqn:KD; [|destruct J]. assert (k < length (nodes g)) by (apply nth_error_Some; congruence). lia. }
  rewrite E, lle_best. destruct (dvs_all g TP (length (nodes g) - 1)) as (_ & AL).
  assert (UP : forall t, derives g gl t -> In x (tree_edges t) -> lmax (tw t) R = R).
  { intros t D I. pose proof (sum_sel_max lzero lone lmax ltimes lp_semiring lmax_sel tree (fun t => nmul lzero lmax (uses (fun e => e =? x) t) (tw t)) (dvs g (length (nodes g) - 1)) t (proj2 (AL t) D)) as M1.
    cbn beta in M1. rewrite (nmul_sel lzero lone lmax ltimes lp_semiring lmax_sel), (proj2 (uses_pos x t) I) in M1. exact M1. }
  split.
  - intros (y & Y & LE). unfold R in Y, UP. destruct (sum_sel_in lzero lmax lmax_sel tree (fun t => nmul lzero lmax (uses (fun e => e =? x) t) (tw t)) (dvs g (length (nodes g) - 1))) as [Z|(t & I & H)].
    + unfold Rsum in Y. rewrite Z in Y. discriminate.
    + unfold Rsum in Y. rewrite <- H in Y. rewrite (nmul_sel lzero lone lmax ltimes lp_semiring lmax_sel) in Y.
      destruct (uses (fun e => e =? x) t =? 0) eqn:U; [discriminate|]. exists t. split; [apply AL, I|]. split; [apply uses_pos, U|].
      rewrite <- logprob_tw in Y. destruct (logprob prob g t) as [z|] eqn:W; [|discriminate]. cbn in Y. injection Y as <-.
      exists z. split; [exact W|]. clear -LE. qlra.
  - intros (t & D & I & (z & W & LE)). specialize (UP t D I). rewrite <- logprob_tw, W in UP. apply lmax_le in UP. destruct UP as (y & -> & YZ).
    exists (- b + y)%Qc. split; [reflexivity|]. clear -LE YZ. qlra.
Qed.
End M.
