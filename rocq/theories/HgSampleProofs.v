(** Proofs for HgSample.v. *)
From Coq Require Import List Arith QArith Qcanon Permutation Lia Lqa.
From Verif Require Import Opt HG HGProofs Deriv TopoSpec Inside InsideProofs Viterbi ViterbiProofs HgSample HgSampleSpec.
Import ListNotations.
Open Scope opt_scope.
Local Open Scope Qc_scope.

(** ** Numbers *)
Fixpoint qsum (l : list Qc) : Qc := match l with [] => 0 | x :: r => x + qsum r end.
Lemma q_fold : forall l a, fold_left Qcplus l a = a + qsum l.
Proof. induction l as [|x r IH]; intros a; cbn [fold_left qsum]; [ring|]. rewrite IH. ring. Qed.
Lemma q_app : forall a b, qsum (a ++ b) = qsum a + qsum b.
Proof. induction a as [|x r IH]; intros b; cbn [app qsum]; [ring|]. rewrite IH. ring. Qed.
Ltac qc := unfold Qclt, Qcle, Qcplus, Q2Qc in *; cbn [this] in *; rewrite ?Qred_correct in *; change (this 0) with (0%Q) in *; change (this 1) with (1%Q) in *; lra.
Lemma qsum_nonneg : forall l, Forall (fun x => 0 < x) l -> 0 <= qsum l.
Proof. intros l F. induction F as [|x r H F IH]; cbn [qsum]; [apply Qcle_refl|qc]. Qed.
Lemma q_lt_add : forall a b, 0 < b -> a < a + b.
Proof. intros a b H. qc. Qed.
Lemma q_le_add : forall a b, 0 <= b -> a <= a + b.
Proof. intros a b H. qc. Qed.
Lemma qsum_pos : forall l, Forall (fun x => 0 < x) l -> l <> [] -> 0 < qsum l.
Proof. intros l F NE. destruct F as [|x r H F]; [congruence|]. cbn [qsum]. apply Qclt_le_trans with x; [exact H|]. apply q_le_add. apply qsum_nonneg. exact F. Qed.
Lemma qltb_true : forall a b, qltb a b = true <-> a < b.
Proof. intros a b. unfold qltb. destruct (Qclt_le_dec a b) as [H|H]; split; intros Q; try congruence; try exact H. exfalso. exact (Qclt_not_le _ _ Q H). Qed.
Lemma qltb_false : forall a b, qltb a b = false <-> b <= a.
Proof. intros a b. unfold qltb. destruct (Qclt_le_dec a b) as [H|H]; split; intros Q; try congruence; try exact H. exfalso. exact (Qclt_not_le _ _ H Q). Qed.
Lemma div_le : forall s u a, 0 < s -> (u <= a / s <-> u * s <= a).
Proof.
  intros s u a H. assert (E : a = (a / s) * s). { field. intros Q. subst s. exact (Qlt_irrefl _ H). }
  split; intros L.
  - rewrite E. apply Qcmult_le_compat_r; [exact L|apply Qclt_le_weak; exact H].
  - rewrite E in L. apply (Qcmult_lt_0_le_reg_r _ _ s); assumption.
Qed.
Lemma div_lt : forall s u a, 0 < s -> (a / s < u <-> a < u * s).
Proof.
  intros s u a H. pose proof (div_le s u a H) as D. split; intros L.
  - destruct (Qclt_le_dec a (u * s)) as [Q|Q]; [exact Q|]. exfalso. apply D in Q. exact (Qclt_not_le _ _ L Q).
  - destruct (Qclt_le_dec (a / s) u) as [Q|Q]; [exact Q|]. exfalso. apply D in Q. exact (Qclt_not_le _ _ L Q).
Qed.

(** ** One choice *)
Lemma scan_spec : forall q acc r pos, exists j, scan q acc r pos = (pos + j)%nat /\ (j <= length q)%nat /\
  ((j < length q)%nat -> r <= acc + qsum (firstn j q)) /\ (forall i, (i < j)%nat -> acc + qsum (firstn i q) < r).
Proof.
  induction q as [|s q IH]; intros acc r pos; cbn [scan length].
  - exists 0%nat. split; [lia|]. split; [lia|]. split; [lia|]. intros i I. lia.
  - destruct (qltb acc r) eqn:E.
    + destruct (IH (acc + s) r (S pos)) as (j & A & B & C & D). exists (S j). split; [lia|]. split; [lia|]. split.
      * intros L. specialize (C ltac:(lia)). cbn [firstn qsum]. replace (acc + (s + qsum (firstn j q))) with (acc + s + qsum (firstn j q)) by ring. exact C.
      * intros [|i] I; cbn [firstn qsum]; [rewrite Qcplus_0_r; apply qltb_true; exact E|]. replace (acc + (s + qsum (firstn i q))) with (acc + s + qsum (firstn i q)) by ring. apply D. lia.
    + exists 0%nat. split; [lia|]. split; [lia|]. split; [|intros i I; lia]. intros _. cbn [firstn qsum]. rewrite Qcplus_0_r. apply qltb_false. exact E.
Qed.
(** the interval of the [k]th score *)
Definition interval (ps : list Qc) (k : nat) : Qc * Qc := (qsum (firstn k ps) / qsum ps, qsum (firstn (S k) ps) / qsum ps).
Lemma Forall_firstn : forall (A : Type) (Q : A -> Prop) l i, Forall Q l -> Forall Q (firstn i l).
Proof. intros A Q l i F. apply Forall_forall. intros y I. rewrite Forall_forall in F. apply F. rewrite <- (firstn_skipn i l). apply in_or_app. left. exact I. Qed.
Lemma firstn_mono : forall l i j, Forall (fun x => 0 < x) l -> (i <= j)%nat -> qsum (firstn i l) <= qsum (firstn j l).
Proof.
  induction l as [|x r IH]; intros i j F L; [rewrite !firstn_nil; apply Qcle_refl|]. inversion F as [|? ? H F2]; subst. destruct i as [|i]; [change (0 <= qsum (firstn j (x :: r))); apply qsum_nonneg, Forall_firstn; exact F|].
  destruct j as [|j]; [lia|]. cbn [firstn qsum]. apply Qcplus_le_compat; [apply Qcle_refl|]. apply IH; [exact F2|lia].
Qed.
Lemma firstn_lt : forall l i, Forall (fun x => 0 < x) l -> (i < length l)%nat -> qsum (firstn i l) < qsum (firstn (S i) l).
Proof.
  induction l as [|x r IH]; intros i F L; [cbn in L; lia|]. inversion F as [|? ? H F2]; subst. destruct i as [|i].
  - cbn [firstn qsum]. rewrite Qcplus_0_r. exact H.
  - cbn [length] in L. specialize (IH i F2 ltac:(lia)). change (firstn (S (S i)) (x :: r)) with (x :: firstn (S i) r). change (firstn (S i) (x :: r)) with (x :: firstn i r). cbn [qsum]. qc.
Qed.
Lemma firstn_S_nth : forall (l : list Qc) i x, nth_error l i = Some x -> qsum (firstn (S i) l) = qsum (firstn i l) + x.
Proof. induction l as [|y r IH]; intros [|i] x N; try discriminate; cbn [nth_error] in N; [injection N as ->; cbn [firstn qsum]; ring|]. change (firstn (S (S i)) (y :: r)) with (y :: firstn (S i) r). change (firstn (S i) (y :: r)) with (y :: firstn i r). cbn [qsum]. rewrite (IH i x N). ring. Qed.
Lemma zero_div : forall s, 0 / s = 0.
Proof. intros s. unfold Qcdiv. ring. Qed.
Lemma interval_box : forall ps k, Forall (fun x => 0 < x) ps -> (k < length ps)%nat -> is_box [interval ps k].
Proof.
  intros ps k F L. assert (NE : ps <> []) by (destruct ps; [cbn in L; lia|congruence]). pose proof (qsum_pos ps F NE) as SP.
  constructor; [|constructor]. unfold interval. cbn [fst snd]. split; [|split].
  - apply div_le; [exact SP|]. replace (0 * qsum ps) with 0 by ring. apply qsum_nonneg, Forall_firstn, F.
  - apply div_lt; [exact SP|]. replace (qsum (firstn (S k) ps) / qsum ps * qsum ps) with (qsum (firstn (S k) ps)).
    + apply firstn_lt; assumption.
    + field. intros Q. rewrite Q in SP. exact (Qlt_irrefl _ SP).
  - destruct (Qclt_le_dec 1 (qsum (firstn (S k) ps) / qsum ps)) as [Q|Q]; [|exact Q]. exfalso.
    assert (M : qsum (firstn (S k) ps) <= qsum (firstn (length ps) ps)) by (apply firstn_mono; [exact F|lia]). rewrite firstn_all in M.
    assert (D : ~ (qsum (firstn (S k) ps) / qsum ps <= 1)) by (apply Qclt_not_le; exact Q). apply D. clear D Q.
    replace 1 with (qsum ps / qsum ps) by (field; intros Q; rewrite Q in SP; exact (Qlt_irrefl _ SP)). unfold Qcdiv. apply Qcmult_le_compat_r; [exact M|].
    destruct (Qclt_le_dec (/ qsum ps) 0) as [Q|Q]; [|exact Q]. exfalso. apply (Qcmult_lt_compat_r _ _ _ SP) in Q. rewrite Qcmult_inv_l in Q; [|intros Z; rewrite Z in SP; exact (Qlt_irrefl _ SP)]. replace (0 * qsum ps) with 0 in Q by ring. discriminate.
Qed.
(** [SelectSample] returns the score whose interval is hit *)
Lemma select_hit : forall ps u k, Forall (fun x => 0 < x) ps -> (k < length ps)%nat -> hit u (interval ps k) -> SelectSample ps u = Some k.
Proof.
  intros ps u k F L [H1 H2]. assert (NE : ps <> []) by (destruct ps; [cbn in L; lia|congruence]). pose proof (qsum_pos ps F NE) as SP. unfold interval in *. cbn [fst snd] in *.
  apply div_le in H1; [|exact SP]. destruct ps as [|x r]; [congruence|]. cbn [SelectSample]. rewrite q_fold, Qcplus_0_l. f_equal.
  destruct (scan_spec r x (u * qsum (x :: r)) 0) as (j & A & B & C & D). rewrite A. cbn [plus]. cbn [length] in L.
  assert (LE : (j <= k)%nat). { destruct (le_lt_dec j k) as [Q|Q]; [exact Q|]. exfalso. specialize (D k Q). exact (Qclt_not_le _ _ D H1). }
  assert (GE : (k <= j)%nat).
  { destruct (le_lt_dec k j) as [Q|Q]; [exact Q|]. exfalso. specialize (C ltac:(lia)). assert (K0 : (0 < k)%nat) by lia.
    assert (M : qsum (firstn (S j) (x :: r)) <= qsum (firstn k (x :: r))) by (apply firstn_mono; [exact F|lia]).
    destruct H2 as [H2|H2].
    - apply div_lt in H2; [|exact SP]. cbn [firstn qsum] in M. apply (Qclt_not_le _ _ H2). apply Qcle_trans with (x + qsum (firstn j r)); [exact C|exact M].
    - assert (Z : 0 < qsum (firstn k (x :: r))). { apply qsum_pos; [apply Forall_firstn, F|]. destruct k; [lia|discriminate]. }
      apply (f_equal (fun z => z * qsum (x :: r))) in H2. replace (0 * qsum (x :: r)) with 0 in H2 by ring. unfold Qcdiv in H2. rewrite <- Qcmult_assoc, Qcmult_inv_l, Qcmult_1_r in H2; [rewrite H2 in Z; exact (Qlt_irrefl _ Z)|]. intros Q0. rewrite Q0 in SP. exact (Qlt_irrefl _ SP). }
  lia.
Qed.
(** some interval is hit by every number in [0,1] *)
Lemma hit_some : forall ps u, Forall (fun x => 0 < x) ps -> ps <> [] -> 0 <= u <= 1 -> exists k, (k < length ps)%nat /\ hit u (interval ps k).
Proof.
  intros ps u F NE [U0 U1]. pose proof (qsum_pos ps F NE) as SP. destruct ps as [|x r]; [congruence|].
  destruct (scan_spec r x (u * qsum (x :: r)) 0) as (j & A & B & C & D). exists j. split; [cbn [length]; lia|]. split; cbn [interval fst snd].
  - apply div_le; [exact SP|]. destruct (le_lt_dec (length r) j) as [Q|Q].
    + rewrite firstn_all2 by (cbn [length]; lia). replace (qsum (x :: r)) with (1 * qsum (x :: r)) at 2 by ring. apply Qcmult_le_compat_r; [exact U1|apply Qclt_le_weak; exact SP].
    + exact (C Q).
  - destruct j as [|j]; [right; cbn [firstn]; apply zero_div|left]. apply div_lt; [exact SP|]. apply (D j). lia.
Qed.

(** ** Boxes *)
Fixpoint index (e : nat) (es : list nat) : nat := match es with [] => 0%nat | x :: r => if Nat.eqb x e then 0%nat else S (index e r) end.
Lemma index_nth : forall e es, In e es -> nth_error es (index e es) = Some e.
Proof. induction es as [|x r IH]; intros I; [contradiction|]. cbn [index]. destruct (Nat.eqb x e) eqn:E; [apply Nat.eqb_eq in E; subst; reflexivity|]. destruct I as [I|I]; [apply Nat.eqb_neq in E; congruence|exact (IH I)]. Qed.
Lemma index_nodup : forall es k e, NoDup es -> nth_error es k = Some e -> index e es = k.
Proof.
  induction es as [|x r IH]; intros [|k] e N K; try discriminate; cbn [nth_error index] in *; inversion N as [|? ? NI N2]; subst.
  - injection K as ->. rewrite Nat.eqb_refl. reflexivity.
  - destruct (Nat.eqb x e) eqn:E; [|rewrite (IH k e N2 K); reflexivity]. apply Nat.eqb_eq in E. subst. exfalso. apply NI. eapply nth_error_In. exact K.
Qed.
Definition size (ts : list tree) : nat := length (flat_map tree_edges ts).
Lemma size_cons : forall e ks ts, size (Tree e ks :: ts) = S (size (ts ++ ks)).
Proof. intros e ks ts. unfold size. cbn [flat_map tree_edges]. rewrite flat_map_app, !app_length. cbn [length]. lia. Qed.
Lemma app_split : forall (A : Type) (a b c d : list A), length a = length b -> a ++ c = b ++ d -> a = b /\ c = d.
Proof. induction a as [|x a IH]; intros [|y b] c d L E; try discriminate; [split; [reflexivity|exact E]|]. injection E as -> E. injection L as L. destruct (IH b c d L E) as [-> ->]. split; reflexivity. Qed.

Section S.
Context {P X T : Type}.
Variable weight : edge P -> Qc.
Variable feats : edge P -> X.
Variable dflt : T.
Variable traverse : edge P -> list T -> T -> T.
Variable g : hg P.
Hypothesis TP : topo g.
Hypothesis WF : wf_hg g.
Hypothesis LEAF : forall n nd, nth_error (nodes g) n = Some nd -> in_edges nd <> [].
Hypothesis NE : length (nodes g) <> 0%nat.
Hypothesis POS : forall e ed, nth_error (edges g) e = Some ed -> 0 < weight ed.
Variable sc : list Qc.
Hypothesis SCL : length sc = length (nodes g).
Definition Z (n : nat) : Qc := nth n sc 0.
Local Notation we := (edge_weight 0 weight g).
Local Notation ev := (edge_val 0 Qcmult weight g Z).
Local Notation tw := (tree_weight Qcmult we).
Hypothesis SCV : forall j, (j < length (nodes g))%nat -> Z j = fold_left Qcplus (map ev (in_of g j)) 0.

Lemma Z_sum : forall n, (n < length (nodes g))%nat -> Z n = qsum (map ev (in_of g n)).
Proof. intros n L. rewrite SCV by exact L. rewrite q_fold. ring. Qed.
Definition pz (ns : list nat) : Qc := fold_right (fun n a => Z n * a) 1 ns.
Definition pw (ts : list tree) : Qc := fold_right (fun t a => tw t * a) 1 ts.
Lemma pz_cons : forall n ns, pz (n :: ns) = Z n * pz ns. Proof. reflexivity. Qed.
Lemma pw_cons : forall t ts, pw (t :: ts) = tw t * pw ts. Proof. reflexivity. Qed.
Lemma pz_app : forall a b, pz (a ++ b) = pz a * pz b.
Proof. induction a as [|x r IH]; intros b; [cbn [app]; change (pz []) with 1; ring|]. rewrite <- app_comm_cons, !pz_cons, IH. ring. Qed.
Lemma pw_app : forall a b, pw (a ++ b) = pw a * pw b.
Proof. induction a as [|x r IH]; intros b; [cbn [app]; change (pw []) with 1; ring|]. rewrite <- app_comm_cons, !pw_cons, IH. ring. Qed.
Lemma ev_pz : forall e, ev e = we e * pz (etails g e).
Proof.
  intros e. unfold edge_val. generalize (we e). induction (etails g e) as [|t r IH]; intros a; cbn [fold_left]; [change (pz []) with 1; ring|]. rewrite IH, pz_cons. ring.
Qed.
Lemma tw_pw : forall e ks, tw (Tree e ks) = we e * pw ks.
Proof.
  intros e ks. change (fold_left (fun a s => a * tw s) ks (we e) = we e * pw ks). generalize (we e). induction ks as [|t r IH]; intros a; cbn [fold_left]; [change (pw []) with 1; ring|]. rewrite IH, pw_cons. ring.
Qed.
Lemma mul_pos : forall a b, 0 < a -> 0 < b -> 0 < a * b.
Proof. intros a b A B. apply (Qcmult_lt_compat_r _ _ _ B) in A. replace (0 * b) with 0 in A by ring. exact A. Qed.
Lemma pz_pos : forall ns, (forall n, In n ns -> 0 < Z n) -> 0 < pz ns.
Proof. induction ns as [|n r IH]; intros H; [reflexivity|]. rewrite pz_cons. apply mul_pos; [apply H; left; reflexivity|apply IH; intros m M; apply H; right; exact M]. Qed.
Lemma in_of_nd : forall n nd, nth_error (nodes g) n = Some nd -> in_of g n = in_edges nd.
Proof. intros n nd H. unfold in_of. rewrite H. reflexivity. Qed.
Lemma etails_ed : forall e ed, nth_error (edges g) e = Some ed -> etails g e = tails ed.
Proof. intros e ed H. unfold etails. rewrite H. reflexivity. Qed.
Lemma Z_pos : forall n, (n < length (nodes g))%nat -> 0 < Z n.
Proof.
  intros n. induction n as [n IH] using (well_founded_induction lt_wf). intros L. rewrite Z_sum by exact L.
  destruct (nth_error (nodes g) n) as [nd|] eqn:N; [|apply nth_error_None in N; lia]. rewrite (in_of_nd n nd N).
  apply qsum_pos; [|destruct (in_edges nd) eqn:E; [exfalso; exact (LEAF n nd N E)|discriminate]].
  apply Forall_forall. intros x I. apply in_map_iff in I. destruct I as (e & <- & E). rewrite ev_pz.
  destruct (proj2 (TP n nd N) e E) as (ed & ED & TL). apply mul_pos; [unfold edge_weight; rewrite ED; exact (POS e ed ED)|].
  apply pz_pos. intros t I. rewrite (etails_ed e ed ED) in I. pose proof (TL t I). apply IH; lia.
Qed.
Lemma ev_pos : forall n nd, nth_error (nodes g) n = Some nd -> Forall (fun x => 0 < x) (map ev (in_edges nd)).
Proof.
  intros n nd N. apply Forall_forall. intros x I. apply in_map_iff in I. destruct I as (e & <- & E). rewrite ev_pz.
  assert (L : (n < length (nodes g))%nat) by (apply nth_error_Some; congruence).
  destruct (proj2 (TP n nd N) e E) as (ed & ED & TL). apply mul_pos; [unfold edge_weight; rewrite ED; exact (POS e ed ED)|].
  apply pz_pos. intros t I. rewrite (etails_ed e ed ED) in I. pose proof (TL t I). apply Z_pos; lia.
Qed.

Definition step (n e : nat) : list (Qc * Qc) := match in_of g n with [_] => [] | es => [interval (map ev es) (index e es)] end.
Fixpoint box (f : nat) (ns : list nat) (ts : list tree) : list (Qc * Qc) :=
  match f with
  | O => []
  | S f' => match ns, ts with n :: ns', Tree e ks :: ts' => step n e ++ box f' (ns' ++ etails g e) (ts' ++ ks) | _, _ => [] end
  end.
Lemma step_cases : forall n nd e, nth_error (nodes g) n = Some nd -> In e (in_edges nd) ->
  (in_edges nd = [e] /\ step n e = []) \/ ((exists x y r, in_edges nd = x :: y :: r) /\ step n e = [interval (map ev (in_edges nd)) (index e (in_edges nd))]).
Proof.
  intros n nd e N I. unfold step. rewrite (in_of_nd n nd N). destruct (in_edges nd) as [|x [|y r]]; [contradiction| |].
  - left. destruct I as [ -> |[]]. split; reflexivity.
  - right. split; [exists x, y, r; reflexivity|reflexivity].
Qed.
Lemma derives_cons : forall ns ts, Forall2 (derives g) ns ts -> ts <> [] -> exists n ns' e ks ts' nd ed, ns = n :: ns' /\ ts = Tree e ks :: ts' /\
  nth_error (nodes g) n = Some nd /\ In e (in_edges nd) /\ nth_error (edges g) e = Some ed /\ Forall2 (derives g) (ns' ++ etails g e) (ts' ++ ks) /\ length ts' = length ns'.
Proof.
  intros ns ts F N. destruct F as [|n t ns' ts' D F]; [congruence|]. destruct D as [n nd e ed ks A B C F2]. exists n, ns', e, ks, ts', nd, ed.
  repeat (split; [first [reflexivity|assumption]|]). rewrite (etails_ed e ed C). split; [apply Forall2_app; assumption|]. clear - F. induction F; cbn; congruence.
Qed.
Lemma box_enough : forall f f' ns ts, Forall2 (derives g) ns ts -> (size ts <= f)%nat -> (size ts <= f')%nat -> box f ns ts = box f' ns ts.
Proof.
  induction f as [|f IH]; intros f' ns ts F L L'.
  - destruct ts as [|[e ks] ts]; [destruct f'; [reflexivity|]; inversion F; reflexivity|]. rewrite size_cons in L. lia.
  - destruct ts as [|t ts]; [inversion F; destruct f'; reflexivity|]. destruct (derives_cons ns (t :: ts) F ltac:(discriminate)) as (n & ns' & e & ks & ts' & nd & ed & -> & E & A & B & C & F2 & _). rewrite E in *. rewrite size_cons in *.
    destruct f' as [|f']; [lia|]. cbn [box]. f_equal. apply IH; [exact F2|lia|lia].
Qed.
Lemma vol_app : forall a b, volume (a ++ b) = volume a * volume b.
Proof.
  induction a as [|x r IH]; intros b; [cbn [app]; change (volume []) with 1; ring|]. rewrite <- app_comm_cons.
  change ((snd x - fst x) * volume (r ++ b) = (snd x - fst x) * volume r * volume b). rewrite IH. ring.
Qed.
Lemma pos_neq : forall x, 0 < x -> x <> 0.
Proof. intros x H Q. rewrite Q in H. exact (Qlt_irrefl _ H). Qed.
Lemma step_vol : forall n nd e, nth_error (nodes g) n = Some nd -> In e (in_edges nd) -> volume (step n e) * Z n = ev e.
Proof.
  intros n nd e N I. assert (L : (n < length (nodes g))%nat) by (apply nth_error_Some; congruence).
  pose proof (Z_pos n L) as ZP. pose proof (Z_sum n L) as ZS. rewrite (in_of_nd n nd N) in ZS.
  destruct (step_cases n nd e N I) as [[E ->]|[_ ->]].
  - change (volume []) with 1. rewrite ZS, E. cbn [map qsum]. ring.
  - set (ps := map ev (in_edges nd)) in *. set (k := index e (in_edges nd)).
    assert (K : nth_error ps k = Some (ev e)) by (apply map_nth_error, index_nth, I).
    change (volume [interval ps k]) with ((qsum (firstn (S k) ps) / qsum ps - qsum (firstn k ps) / qsum ps) * 1).
    rewrite (firstn_S_nth ps k (ev e) K), <- ZS. field. apply pos_neq. exact ZP.
Qed.
Lemma box_vol : forall f ns ts, Forall2 (derives g) ns ts -> (size ts <= f)%nat -> volume (box f ns ts) * pz ns = pw ts.
Proof.
  induction f as [|f IH]; intros ns ts F L.
  - destruct ts as [|[e ks] ts]; [inversion F; subst; cbn [box]; change (volume []) with 1; change (pz []) with 1; change (pw []) with 1; ring|]. rewrite size_cons in L. lia.
  - destruct ts as [|t ts]; [inversion F; subst; cbn [box]; change (volume []) with 1; change (pz []) with 1; change (pw []) with 1; ring|].
    destruct (derives_cons ns (t :: ts) F ltac:(discriminate)) as (n & ns' & e & ks & ts' & nd & ed & -> & E & A & B & C & F2 & _). rewrite E in *. rewrite size_cons in L.
    specialize (IH _ _ F2 ltac:(lia)). cbn [box]. rewrite vol_app, pz_cons, pw_cons, tw_pw. rewrite pz_app, pw_app in IH.
    pose proof (step_vol n nd e A B) as V. rewrite ev_pz in V.
    transitivity ((volume (step n e) * Z n) * (volume (box f (ns' ++ etails g e) (ts' ++ ks)) * pz ns')); [ring|]. rewrite V.
    transitivity (we e * (volume (box f (ns' ++ etails g e) (ts' ++ ks)) * (pz ns' * pz (etails g e)))); [ring|]. rewrite IH. ring.
Qed.
Lemma box_is_box : forall f ns ts, Forall2 (derives g) ns ts -> is_box (box f ns ts).
Proof.
  induction f as [|f IH]; intros ns ts F; [constructor|].
  destruct ts as [|t ts]; [inversion F; subst; constructor|].
  destruct (derives_cons ns (t :: ts) F ltac:(discriminate)) as (n & ns' & e & ks & ts' & nd & ed & -> & E & A & B & C & F2 & _). rewrite E in *.
  cbn [box]. apply Forall_app. split; [|exact (IH _ _ F2)]. destruct (step_cases n nd e A B) as [[_ ->]|[_ ->]]; [constructor|].
  apply interval_box; [apply (ev_pos n nd A)|]. rewrite map_length. apply nth_error_Some. rewrite (index_nth e _ B). discriminate.
Qed.

(** ** Every outcome is in exactly one box *)
Lemma drawn_app : forall us a b, drawn us (a ++ b) <-> exists u1 u2, us = u1 ++ u2 /\ Forall2 hit u1 a /\ drawn u2 b.
Proof.
  intros us a b. split.
  - intros (u & v & -> & F). apply Forall2_app_inv_r in F. destruct F as (u1 & u2 & F1 & F2 & ->). exists u1, (u2 ++ v). split; [rewrite app_assoc; reflexivity|]. split; [exact F1|]. exists u2, v. split; [reflexivity|exact F2].
  - intros (u1 & u2 & -> & F & (v & w & -> & F2)). exists (u1 ++ v), w. split; [apply app_assoc|]. apply Forall2_app; assumption.
Qed.
Lemma box_unique : forall f f' ns ts ts' us, Forall2 (derives g) ns ts -> Forall2 (derives g) ns ts' -> (size ts <= f)%nat -> (size ts' <= f')%nat ->
  drawn us (box f ns ts) -> drawn us (box f' ns ts') -> ts = ts'.
Proof.
  induction f as [|f IH]; intros f' ns ts ts' us F F' L L' D D'.
  - destruct ts as [|[e ks] ts]; [inversion F; subst; inversion F'; reflexivity|]. rewrite size_cons in L. lia.
  - destruct ts as [|t ts]; [inversion F; subst; inversion F'; reflexivity|]. destruct ts' as [|t' ts']; [inversion F'; subst; inversion F|].
    destruct (derives_cons ns (t :: ts) F ltac:(discriminate)) as (n & ns' & e & ks & rs & nd & ed & N & E & A & B & C & F2 & LN). rewrite E in *. clear t ts E.
    destruct (derives_cons ns (t' :: ts') F' ltac:(discriminate)) as (n1 & ns1 & e1 & ks1 & rs1 & nd1 & ed1 & N1 & E & A1 & B1 & C1 & F21 & LN1). rewrite E in *. clear t' ts' E.
    rewrite N in N1. injection N1 as <- <-. subst ns. rewrite A in A1. injection A1 as <-. rewrite size_cons in *. destruct f' as [|f']; [lia|]. cbn [box] in D, D'.
    assert (EE : e = e1 /\ exists v, drawn v (box f (ns' ++ etails g e) (rs ++ ks)) /\ drawn v (box f' (ns' ++ etails g e1) (rs1 ++ ks1))).
    { apply drawn_app in D. apply drawn_app in D'. destruct D as (u1 & u2 & U & H & D). destruct D' as (v1 & v2 & V & H' & D').
      destruct (step_cases n nd e A B) as [[Q S1]|[(x & y & r & Q) S1]]; destruct (step_cases n nd e1 A B1) as [[Q' S2]|[(x' & y' & r' & Q') S2]]; rewrite S1 in H; rewrite S2 in H'; try (rewrite Q in Q'; discriminate).
      - split; [rewrite Q in Q'; congruence|]. inversion H as [Y|]. inversion H' as [Y'|]. subst u1 v1. cbn [app] in U, V. exists us. split; [rewrite U; exact D|rewrite V; exact D'].
      - assert (UV : u1 ++ u2 = v1 ++ v2) by congruence. clear U V. inversion H as [|z ? u1' ? HZ H0]. inversion H' as [|z' ? v1' ? HZ' H0']. inversion H0. inversion H0'. subst. cbn [app] in UV. injection UV as -> ->.
        pose proof (ev_pos n nd A) as EP. assert (K : forall d, In d (in_edges nd) -> (index d (in_edges nd) < length (map ev (in_edges nd)))%nat). { intros d I. rewrite map_length. apply nth_error_Some. rewrite (index_nth d _ I). discriminate. }
        apply select_hit in HZ; [|exact EP|exact (K e B)]. apply select_hit in HZ'; [|exact EP|exact (K e1 B1)]. rewrite HZ in HZ'. injection HZ' as I.
        split; [|eexists; split; eassumption]. pose proof (index_nth e _ B) as X1. pose proof (index_nth e1 _ B1) as X2. rewrite I in X1. congruence. }
    destruct EE as [<- (v & D1 & D2)]. pose proof (IH f' _ _ _ v F2 F21 ltac:(lia) ltac:(lia) D1 D2) as Q.
    destruct (app_split _ rs rs1 ks ks1 ltac:(lia) Q) as [-> ->]. reflexivity.
Qed.

Lemma in_of_ne : forall n, (n < length (nodes g))%nat -> in_of g n <> [].
Proof. intros n L. destruct (nth_error (nodes g) n) as [nd|] eqn:N; [|apply nth_error_None in N; lia]. rewrite (in_of_nd n nd N). exact (LEAF n nd N). Qed.
Definition fan : nat := S (fold_right Nat.max 0%nat (map (fun ed => length (tails ed)) (edges g))).
Lemma fan_bound : forall e, (length (etails g e) < fan)%nat.
Proof.
  intros e. unfold etails. destruct (nth_error (edges g) e) as [ed|] eqn:E; [|cbn; unfold fan; lia]. unfold fan. apply nth_error_In in E. clear POS.
  induction (edges g) as [|x r IH]; [contradiction|]. cbn [map fold_right]. destruct E as [ -> |E]; [lia|]. specialize (IH E). lia.
Qed.
Definition pot (ns : list nat) : nat := fold_right (fun n a => (fan ^ n + a)%nat) 0%nat ns.
Lemma pot_app : forall a b, pot (a ++ b) = (pot a + pot b)%nat.
Proof. induction a as [|x r IH]; intros b; cbn; [reflexivity|]. unfold pot in IH at 1. rewrite IH. unfold pot. lia. Qed.
Lemma pot_le : forall ns m, (forall n, In n ns -> (n < m)%nat) -> (pot ns * fan <= length ns * fan ^ m)%nat.
Proof.
  induction ns as [|n r IH]; intros m H; cbn [pot fold_right length]; [lia|]. fold (pot r). specialize (IH m (fun x X => H x (or_intror X))).
  assert (Q : (fan ^ n * fan <= fan ^ m)%nat). { replace (fan ^ n * fan)%nat with (fan ^ S n)%nat by (rewrite Nat.pow_succ_r'; apply Nat.mul_comm). apply Nat.pow_le_mono_r; [unfold fan; lia|]. specialize (H n (or_introl eq_refl)). lia. }
  lia.
Qed.
Lemma pot_step : forall n e, (forall t, In t (etails g e) -> (t < n)%nat) -> (pot (etails g e) < fan ^ n)%nat.
Proof.
  intros n e H. pose proof (pot_le _ n H) as L. pose proof (fan_bound e) as F. assert (FP : (0 < fan ^ n)%nat) by (apply Nat.neq_0_lt_0, Nat.pow_nonzero; unfold fan; lia).
  destruct (le_lt_dec (fan ^ n) (pot (etails g e))) as [Q|Q]; [|exact Q]. exfalso. nia.
Qed.
Lemma box_cover : forall m ns us, (forall n, In n ns -> (n < length (nodes g))%nat) -> (pot ns <= m)%nat -> (m <= length us)%nat -> Forall (fun u => 0 <= u <= 1) us ->
  exists ts, Forall2 (derives g) ns ts /\ (size ts <= m)%nat /\ drawn us (box m ns ts).
Proof.
  induction m as [|m IH]; intros ns us IN L LU F.
  - destruct ns as [|n r]; [exists []; split; [constructor|]; split; [cbn; lia|]; exists [], us; split; [reflexivity|constructor]|]. exfalso.
    cbn in L. assert (FP : (0 < fan ^ n)%nat) by (apply Nat.neq_0_lt_0, Nat.pow_nonzero; unfold fan; lia). lia.
  - destruct ns as [|n ns]; [exists []; split; [constructor|]; split; [cbn; lia|]; exists [], us; split; [reflexivity|constructor]|].
    assert (LN := IN n (or_introl eq_refl)). destruct (nth_error (nodes g) n) as [nd|] eqn:N; [|apply nth_error_None in N; lia].
    assert (CH : exists e u1 u2, In e (in_edges nd) /\ us = u1 ++ u2 /\ (length u1 <= 1)%nat /\ Forall2 hit u1 (step n e)).
    { pose proof (LEAF n nd N) as NEI. pose proof (ev_pos n nd N) as EP. destruct (in_edges nd) as [|x [|y r]] eqn:IE; [congruence| |].
      - exists x, [], us. split; [left; reflexivity|]. split; [reflexivity|]. split; [cbn; lia|]. unfold step. rewrite (in_of_nd n nd N), IE. constructor.
      - destruct us as [|u us]; [cbn in LU; lia|]. inversion F as [|? ? U F2]; subst.
        destruct (hit_some (map ev (x :: y :: r)) u EP ltac:(discriminate) U) as (k & K & H). rewrite map_length in K.
        destruct (nth_error (x :: y :: r) k) as [e|] eqn:NK; [|apply nth_error_None in NK; lia]. exists e, [u], us. split; [eapply nth_error_In; exact NK|]. split; [reflexivity|]. split; [cbn; lia|].
        unfold step. rewrite (in_of_nd n nd N), IE. rewrite (index_nodup _ k e); [constructor; [exact H|constructor]| |exact NK]. rewrite <- IE. exact (wf_nodup g WF n nd N). }
    destruct CH as (e & u1 & u2 & IE & -> & LU1 & H1). destruct (proj2 (TP n nd N) e IE) as (ed & ED & TL).
    assert (PS : (pot (etails g e) < fan ^ n)%nat) by (apply pot_step; rewrite (etails_ed e ed ED); exact TL).
    change (pot (n :: ns)) with (fan ^ n + pot ns)%nat in L. rewrite app_length in LU. apply Forall_app in F. destruct F as [_ F2].
    destruct (IH (ns ++ etails g e) u2) as (ts & D & SZ & DR).
    + intros t I. apply in_app_or in I. destruct I as [I|I]; [apply IN; right; exact I|]. rewrite (etails_ed e ed ED) in I. specialize (TL t I). lia.
    + rewrite pot_app. lia.
    + lia.
    + exact F2.
    + apply Forall2_app_inv_l in D. destruct D as (r & ks & D1 & D2 & ->). exists (Tree e ks :: r). split; [constructor; [|exact D1]; econstructor; [exact N|exact IE|exact ED|rewrite <- (etails_ed e ed ED); exact D2]|].
      split; [rewrite size_cons; lia|]. cbn [box]. apply drawn_app. exists u1, u2. split; [reflexivity|]. split; [exact H1|exact DR].
Qed.

(** ** The loop *)
Lemma scores_spec : forall n nd es, nth_error (nodes g) n = Some nd -> incl es (in_edges nd) -> scores weight g sc es = Some (map ev es).
Proof.
  intros n nd es N. assert (L : (n < length (nodes g))%nat) by (apply nth_error_Some; congruence).
  induction es as [|e r IH]; intros I; [reflexivity|]. cbn [scores map].
  destruct (proj2 (TP n nd N) e (I e (or_introl eq_refl))) as (ed & ED & TL). rewrite ED. cbn [bind].
  rewrite (mul_tails_spec 0 Qcmult sc (tails ed) (weight ed)) by (intros t T1; specialize (TL t T1); lia). cbn [bind].
  rewrite IH by (intros x X1; apply I; right; exact X1). cbn [bind]. f_equal. f_equal. unfold edge_val, etails, edge_weight. rewrite ED. reflexivity.
Qed.
Definition marks (sampled : list bool) (l : list nat) : Prop := length sampled = length (edges g) /\ forall e, (e < length (edges g))%nat -> nth e sampled false = true <-> In e l.
Lemma pop_spec : forall f ns ts us1 us2 sampled l fs score, Forall2 (derives g) ns ts -> (size ts <= f)%nat -> Forall2 hit us1 (box f ns ts) -> marks sampled l ->
  exists sampled' order eds, pop weight feats g sc f ns (us1 ++ us2) sampled fs score = Some (sampled', fs ++ map feats eds, score * pw ts, us2) /\
    map Some eds = map (nth_error (edges g)) order /\ Permutation order (flat_map tree_edges ts) /\ marks sampled' (order ++ l).
Proof.
  assert (BASE : forall f us1 us2 sampled l fs score, Forall2 hit us1 (box f [] []) -> marks sampled l ->
    exists sampled' order eds, pop weight feats g sc f [] (us1 ++ us2) sampled fs score = Some (sampled', fs ++ map feats eds, score * pw [], us2) /\
    map Some eds = map (nth_error (edges g)) order /\ Permutation order (flat_map tree_edges []) /\ marks sampled' (order ++ l)).
  { intros f us1 us2 sampled l fs score H M. exists sampled, [], []. replace (box f [] []) with (@nil (Qc * Qc)) in H by (destruct f; reflexivity). inversion H; subst.
    split; [|split; [reflexivity|split; [constructor|exact M]]]. change (pw []) with 1. rewrite Qcmult_1_r. cbn [map app]. rewrite app_nil_r. destruct f; reflexivity. }
  induction f as [|f IH]; intros ns ts us1 us2 sampled l fs score D L H M.
  - destruct ts as [|[e ks] ts]; [inversion D; subst; exact (BASE _ _ _ _ _ _ _ H M)|]. rewrite size_cons in L. lia.
  - destruct ts as [|t ts]; [inversion D; subst; exact (BASE _ _ _ _ _ _ _ H M)|].
    destruct (derives_cons ns (t :: ts) D ltac:(discriminate)) as (n & ns' & e & ks & ts' & nd & ed & N & E & A & B & C & F2 & _). rewrite E in *. clear t ts E. subst ns. rewrite size_cons in L.
    cbn [box] in H. apply Forall2_app_inv_r in H. destruct H as (v1 & v2 & H1 & H2 & ->).
    assert (LE : (e < length sampled)%nat) by (rewrite (proj1 M); apply nth_error_Some; congruence).
    destruct (upd_total _ sampled e (fun _ => true) LE) as (sampled1 & U).
    assert (M1 : marks sampled1 (e :: l)).
    { split; [rewrite (upd_length _ _ _ _ _ U); exact (proj1 M)|]. intros x X1. pose proof (upd_nth _ _ _ _ _ x U) as UN. pose proof (proj2 M x X1) as MX.
      assert (LX : (x < length sampled)%nat) by (rewrite (proj1 M); exact X1). destruct (nth_error sampled x) as [b|] eqn:NB; [|apply nth_error_None in NB; lia].
      apply nth_error_nth with (d := false) in NB. destruct (Nat.eqb e x) eqn:EX.
      - cbn [option_map] in UN. apply nth_error_nth with (d := false) in UN. apply Nat.eqb_eq in EX. split; [intros _; left; exact EX|intros _; exact UN].
      - apply nth_error_nth with (d := false) in UN. rewrite UN. apply Nat.eqb_neq in EX. rewrite NB in MX. rewrite MX. cbn [In]. tauto. }
    destruct (IH (ns' ++ etails g e) (ts' ++ ks) v2 us2 sampled1 (e :: l) (fs ++ [feats ed]) (score * weight ed) F2 ltac:(lia) H2 M1) as (s' & order & eds & R & OE & PM & MM).
    exists s', (e :: order), (ed :: eds). split; [|split; [|split]].
    + cbn [pop]. rewrite A. cbn [bind].
      assert (CH : match in_edges nd with
                   | [] => None
                   | [e0] => Some (e0, (v1 ++ v2) ++ us2)
                   | es => ps <- scores weight g sc es ;; match (v1 ++ v2) ++ us2 with [] => None | u :: us' => k <- SelectSample ps u ;; e0 <- nth_error es k ;; Some (e0, us') end
                   end = Some (e, v2 ++ us2)).
      { destruct (step_cases n nd e A B) as [[Q S1]|[(x & y & r & Q) S1]]; rewrite S1 in H1.
        - rewrite Q. inversion H1. reflexivity.
        - inversion H1 as [|z ? v1' ? HZ H0]. inversion H0. subst. cbn [app]. apply select_hit in HZ; [|apply (ev_pos n nd A)|rewrite map_length; apply nth_error_Some; rewrite (index_nth e _ B); discriminate].
          pose proof (scores_spec n nd (in_edges nd) A (fun _ X1 => X1)) as SS. pose proof (index_nth e _ B) as NI. rewrite Q in *. rewrite SS. cbn [bind]. rewrite HZ. cbn [bind]. rewrite NI. reflexivity. }
      cbv zeta in CH. cbv zeta. rewrite CH. cbn [bind]. rewrite C. cbn [bind]. rewrite U. cbn [bind]. rewrite (etails_ed e ed C) in R. rewrite R. f_equal. f_equal. f_equal. f_equal.
      * rewrite <- app_assoc. reflexivity.
      * rewrite pw_cons, tw_pw, pw_app. unfold edge_weight. rewrite C. ring.
    + cbn [map]. rewrite OE, C. reflexivity.
    + cbn [flat_map tree_edges]. rewrite flat_map_app in PM. rewrite <- app_assoc. cbn [app]. eapply Permutation_trans; [apply Permutation_cons; [reflexivity|exact PM]|].
      eapply Permutation_trans; [apply Permutation_cons; [reflexivity|apply Permutation_app_comm]|]. apply Permutation_middle.
    + destruct MM as [ML MX]. split; [exact ML|]. intros x X1. rewrite (MX x X1). cbn [In app]. rewrite !in_app_iff. cbn [In]. tauto.
Qed.

(** ** The words *)
Lemma nat_ordered : ordered (fun _ => True) Nat.ltb Nat.mul.
Proof.
  constructor; try (intros; exact I).
  - intros a _. apply Nat.ltb_irrefl.
  - intros a b _ _ H. apply Nat.ltb_lt in H. apply Nat.ltb_ge. lia.
  - intros a b c _ _ _ H1 H2. apply Nat.ltb_ge in H1, H2. apply Nat.ltb_ge. lia.
  - intros a b c d _ _ _ _ H1 H2. apply Nat.ltb_ge in H1, H2. apply Nat.ltb_ge. apply Nat.mul_le_mono; assumption.
Qed.
Lemma mul_one : forall (h : tree -> nat) ts a, fold_left (fun b s => (b * h s)%nat) ts a = 1%nat -> a = 1%nat /\ Forall (fun s => h s = 1%nat) ts.
Proof.
  intros h. induction ts as [|t r IH]; intros a H; cbn [fold_left] in H; [split; [exact H|constructor]|]. destruct (IH _ H) as [Q F]. apply Nat.eq_mul_1 in Q. destruct Q as [-> Q]. split; [reflexivity|]. constructor; assumption.
Qed.
Lemma tw01 : forall (w : nat -> nat) t, tree_weight Nat.mul w t = 1%nat <-> (forall e, In e (tree_edges t) -> w e = 1%nat).
Proof.
  intros w. induction t as [e ts IH] using tree_ind'. cbn [tree_weight tree_edges]. split.
  - intros H. apply mul_one in H. destruct H as [H F]. intros x I. apply in_app_or in I. destruct I as [I|[<-|[]]]; [|exact H]. apply in_flat_map in I. destruct I as (s & S1 & S2).
    rewrite Forall_forall in IH, F. apply (proj1 (IH s S1)); [exact (F s S1)|exact S2].
  - intros H. assert (HE : w e = 1%nat) by (apply H; apply in_or_app; right; left; reflexivity). rewrite HE.
    assert (HT : Forall (fun s => tree_weight Nat.mul w s = 1%nat) ts). { apply Forall_forall. intros s S1. rewrite Forall_forall in IH. apply (IH s S1). intros x X1. apply H. apply in_or_app. left. apply in_flat_map. exists s. split; assumption. }
    clear - HT. induction HT as [|s r H F IH]; [reflexivity|]. cbn [fold_left]. rewrite H. exact IH.
Qed.
Lemma same_tree : forall t, consistent g t -> forall s s' n, derives g n s -> derives g n s' -> incl (tree_edges s) (tree_edges t) -> incl (tree_edges s') (tree_edges t) -> s = s'.
Proof.
  intros t CO. induction s as [e ts IH] using tree_ind'. intros [e' ts'] n D D' I I'. inversion D as [? nd ? ed ? A B C F]; subst. inversion D' as [? nd' ? ed' ? A' B' C' F']; subst. rewrite A in A'. injection A' as <-.
  assert (EE : e = e').
  { destruct (wf_in g WF n nd e A B) as (x & X1 & X2). destruct (wf_in g WF n nd e' A B') as (y & Y1 & Y2). rewrite C in X1. injection X1 as <-. rewrite C' in Y1. injection Y1 as <-.
    apply (CO e e' ed ed'); [apply I|apply I'|exact C|exact C'|congruence]; cbn [tree_edges]; apply in_or_app; right; left; reflexivity. }
  subst e'. rewrite C in C'. injection C' as <-. f_equal.
  assert (J : Forall (fun s => incl (tree_edges s) (tree_edges t)) ts). { apply Forall_forall. intros s S1 x X1. apply I. cbn [tree_edges]. apply in_or_app. left. apply in_flat_map. exists s. split; assumption. }
  assert (J' : Forall (fun s => incl (tree_edges s) (tree_edges t)) ts'). { apply Forall_forall. intros s S1 x X1. apply I'. cbn [tree_edges]. apply in_or_app. left. apply in_flat_map. exists s. split; assumption. }
  clear - IH F F' J J'. revert ts' F' J'. induction F as [|m s ms ss DS F IHF]; intros ts' F' J'; inversion F' as [|? s' ? ss' DS' F2 Q1 Q2]; [reflexivity|]. subst. inversion IH; subst. inversion J; subst. inversion J'; subst. f_equal; [eauto|]. apply IHF; assumption.
Qed.
Lemma words_spec : forall t sampled order, derives g (length (nodes g) - 1) t -> Permutation order (tree_edges t) -> marks sampled order ->
  exists w r, Viterbi 0%nat 1%nat Nat.mul Nat.ltb (sampled_weight sampled) dflt traverse g = Some (w, Some r) /\ (consistent g t -> r = tree_eval g dflt traverse t).
Proof.
  intros t sampled order D PM [ML MX].
  destruct (viterbi_correct 0%nat 1%nat Nat.mul Nat.ltb (fun _ => True) nat_ordered (sampled_weight sampled) dflt traverse g TP (fun _ _ _ => I) LEAF NE) as (w & r & t' & R & D' & WE & RE & MXW).
  exists w, r. split; [exact R|]. intros CO. rewrite RE. f_equal. symmetry.
  assert (SW : forall e ed, nth_error (edges g) e = Some ed -> edge_weight 0%nat (sampled_weight sampled) g e = if nth e sampled false then 1%nat else 0%nat). { intros e ed E. unfold edge_weight, sampled_weight. rewrite E, (wf_eid g WF e ed E). reflexivity. }
  assert (ED : forall n s, derives g n s -> forall e, In e (tree_edges s) -> exists ed, nth_error (edges g) e = Some ed).
  { clear - P. intros n s. revert n. induction s as [e ts IH] using tree_ind'. intros n D x X1. inversion D as [? nd ? ed ? A B C F]; subst. cbn [tree_edges] in X1. apply in_app_or in X1. destruct X1 as [X1|[<-|[]]]; [|exists ed; exact C].
    apply in_flat_map in X1. destruct X1 as (s & S1 & S2). rewrite Forall_forall in IH. assert (exists m, derives g m s) as (m & DM). { clear - F S1. induction F as [|m q ms qs H F IH]; [contradiction|]. destruct S1 as [ <- |S1]; [exists m; exact H|exact (IH S1)]. } exact (IH s S1 m DM x S2). }
  assert (TT : tree_weight Nat.mul (edge_weight 0%nat (sampled_weight sampled) g) t = 1%nat).
  { apply tw01. intros e E. destruct (ED _ t D e E) as (ed & EE). rewrite (SW e ed EE). replace (nth e sampled false) with true; [reflexivity|]. symmetry. apply MX; [apply nth_error_Some; congruence|]. apply Permutation_in with (1 := Permutation_sym PM). exact E. }
  specialize (MXW t D). rewrite TT in MXW. apply Nat.ltb_ge in MXW.
  assert (LE1 : forall s n, derives g n s -> (tree_weight Nat.mul (edge_weight 0%nat (sampled_weight sampled) g) s <= 1)%nat).
  { assert (FL : forall ts a, Forall (fun s => (tree_weight Nat.mul (edge_weight 0%nat (sampled_weight sampled) g) s <= 1)%nat) ts -> (a <= 1)%nat -> (fold_left (fun b s => b * tree_weight Nat.mul (edge_weight 0%nat (sampled_weight sampled) g) s) ts a <= 1)%nat).
    { induction ts as [|s q IHq]; intros a F LA; cbn [fold_left]; [exact LA|]. inversion F; subst. apply IHq; [assumption|]. nia. }
    intros s _ _. induction s as [e ts IH] using tree_ind'. cbn [tree_weight]. apply FL; [exact IH|]. unfold edge_weight, sampled_weight. destruct (nth_error (edges g) e) as [ed|]; [destruct (nth (eid ed) sampled false); lia|lia]. }
  assert (TT' : tree_weight Nat.mul (edge_weight 0%nat (sampled_weight sampled) g) t' = 1%nat) by (specialize (LE1 t' _ D'); lia).
  assert (IN' : incl (tree_edges t') (tree_edges t)).
  { intros e E. pose proof (proj1 (tw01 _ _) TT' e E) as W1. destruct (ED _ t' D' e E) as (ed & EE). rewrite (SW e ed EE) in W1. apply Permutation_in with (1 := PM). apply MX; [apply nth_error_Some; congruence|]. destruct (nth e sampled false); [reflexivity|discriminate]. }
  apply (same_tree t CO t t' (length (nodes g) - 1)%nat D D'); [intros x X1; exact X1|exact IN'].
Qed.

(** ** Samples *)
Definition tbox (t : tree) : list (Qc * Qc) := box (size [t]) [(length (nodes g) - 1)%nat] [t].
Lemma one_spec : forall fuel t us1 us2, derives g (length (nodes g) - 1) t -> (length (tree_edges t) <= fuel)%nat -> Forall2 hit us1 (tbox t) ->
  exists h, sample_one weight feats dflt traverse g sc fuel (us1 ++ us2) = Some (h, us2) /\ reports weight feats dflt traverse g h t.
Proof.
  intros fuel t us1 us2 D L H. assert (SZ : size [t] = length (tree_edges t)) by (unfold size; cbn [flat_map]; rewrite app_nil_r; reflexivity).
  assert (F : Forall2 (derives g) [(length (nodes g) - 1)%nat] [t]) by (constructor; [exact D|constructor]).
  unfold tbox in H. rewrite (box_enough (size [t]) fuel _ _ F) in H by lia.
  assert (M0 : marks (repeat false (length (edges g))) []). { split; [apply repeat_length|]. intros e E. cbn [In]. split; [|contradiction]. intros Q. rewrite nth_repeat in Q. discriminate. }
  destruct (pop_spec fuel _ _ us1 us2 _ [] [] 1 F ltac:(lia) H M0) as (s' & order & eds & R & OE & PM & MM). rewrite app_nil_r in MM.
  cbn [flat_map] in PM. rewrite app_nil_r in PM.
  destruct (words_spec t s' order D PM MM) as (w & r & V & WR). unfold sample_one. rewrite R. cbn [bind]. rewrite V. cbn [bind]. eexists. split; [reflexivity|].
  unfold reports. cbn [h_feats h_score h_words]. split; [|split; [|exact WR]].
  - assert (EX : exists eds2, map Some eds2 = map (nth_error (edges g)) (tree_edges t) /\ Permutation eds eds2).
    { assert (PE : Permutation (map Some eds) (map (nth_error (edges g)) (tree_edges t))) by (rewrite OE; apply Permutation_map; exact PM).
      apply Permutation_sym, Permutation_map_inv in PE. destruct PE as (l3 & Q & PE). exists l3. split; [congruence|exact PE]. }
    destruct EX as (eds2 & Q1 & Q2). exists eds2. split; [exact Q1|]. cbn [app]. apply Permutation_map. exact Q2.
  - rewrite pw_cons. change (pw []) with 1. ring.
Qed.
Lemma all_spec : forall fuel ts us1 us2, Forall (derives g (length (nodes g) - 1)) ts -> Forall (fun t => (length (tree_edges t) <= fuel)%nat) ts -> Forall2 hit us1 (flat_map tbox ts) ->
  exists hs, sample_all weight feats dflt traverse g sc fuel (length ts) (us1 ++ us2) = Some (hs, us2) /\ Forall2 (reports weight feats dflt traverse g) hs ts.
Proof.
  intros fuel. induction ts as [|t r IH]; intros us1 us2 D L H.
  - cbn [flat_map] in H. inversion H; subst. exists []. split; [reflexivity|constructor].
  - cbn [flat_map] in H. apply Forall2_app_inv_r in H. destruct H as (v1 & v2 & H1 & H2 & ->). inversion D; subst. inversion L; subst.
    destruct (one_spec fuel t v1 (v2 ++ us2)) as (h & R & RP); try assumption. destruct (IH v2 us2) as (hs & RS & RPS); try assumption.
    exists (h :: hs). cbn [length sample_all]. rewrite <- app_assoc. rewrite R. cbn [bind]. rewrite RS. cbn [bind]. split; [reflexivity|]. constructor; assumption.
Qed.
End S.

Lemma Qc_semiring : semiring 0 1 Qcplus Qcmult.
Proof. constructor; intros; ring. Qed.

Section Top.
Context {P X T : Type}.
Variable weight : edge P -> Qc.
Variable feats : edge P -> X.
Variable dflt : T.
Variable traverse : edge P -> list T -> T -> T.
Variable g : hg P.
Theorem sample_correct : topo g -> wf_hg g -> (forall n nd, nth_error (nodes g) n = Some nd -> in_edges nd <> []) -> nodes g <> [] ->
  (forall e ed, nth_error (edges g) e = Some ed -> 0 < weight ed) ->
  exists (total : Qc) (tb : tree -> list (Qc * Qc)) (N : nat),
    0 < total /\
    (forall L, all_derivations g (length (nodes g) - 1) L -> total = sum 0 Qcplus (map (tree_weight Qcmult (edge_weight 0 weight g)) L)) /\
    (forall t, derives g (length (nodes g) - 1) t -> is_box (tb t) /\ volume (tb t) = tree_weight Qcmult (edge_weight 0 weight g) t / total) /\
    (forall us, (N <= length us)%nat -> Forall (fun u => 0 <= u <= 1) us -> exists! t, derives g (length (nodes g) - 1) t /\ drawn us (tb t)) /\
    (forall fuel ts us1 us2, Forall (derives g (length (nodes g) - 1)) ts -> Forall (fun t => (length (tree_edges t) <= fuel)%nat) ts -> Forall2 hit us1 (flat_map tb ts) ->
      exists hs, sample_hypotheses weight feats dflt traverse g fuel (length ts) (us1 ++ us2) = Some (hs, us2) /\ Forall2 (reports weight feats dflt traverse g) hs ts).
Proof.
  intros TP WF LEAF NE0 POS. assert (NE : length (nodes g) <> 0%nat) by (destruct (nodes g); [congruence|cbn; lia]).
  destruct (inside_rec 0 Qcplus Qcmult weight g TP) as (sc & R & SCL & SCV).
  assert (LG : (length (nodes g) - 1 < length (nodes g))%nat) by lia.
  exists (nth (length (nodes g) - 1) sc 0), (tbox weight g sc), (pot g [(length (nodes g) - 1)%nat]).
  pose proof (Z_pos weight g TP LEAF NE POS sc SCL SCV _ LG) as ZP. split; [exact ZP|]. split; [|split; [|split]].
  - intros L AL. destruct (inside_correct 0 1 Qcplus Qcmult Qc_semiring weight g TP) as (sc2 & R2 & SCL2 & V2). rewrite R in R2. injection R2 as <-.
    pose proof (proj2 (V2 _ LG) L AL) as Q. apply nth_error_nth with (d := 0) in Q. exact Q.
  - intros t D. assert (F : Forall2 (derives g) [(length (nodes g) - 1)%nat] [t]) by (constructor; [exact D|constructor]). split; [apply box_is_box; assumption|].
    pose proof (box_vol weight g TP LEAF NE POS sc SCL SCV (size [t]) _ _ F (le_n _)) as V. rewrite pz_cons, pw_cons in V. change (pz sc []) with 1 in V. change (pw weight g []) with 1 in V. rewrite !Qcmult_1_r in V. rewrite <- V. unfold Z, tbox. field. apply pos_neq. exact ZP.
  - intros us LU F. destruct (box_cover weight g TP WF LEAF NE POS sc SCL SCV (pot g [(length (nodes g) - 1)%nat]) [(length (nodes g) - 1)%nat] us) as (ts & D & SZ & DR); [intros n [<-|[]]; exact LG|apply le_n|exact LU|exact F|].
    inversion D as [|? t ? r DT D2]; subst. inversion D2; subst. rewrite (box_enough weight g NE sc SCL _ (size [t]) _ _ D SZ (le_n _)) in DR.
    exists t. split; [split; assumption|]. intros t' [DT' DR']. assert (D' : Forall2 (derives g) [(length (nodes g) - 1)%nat] [t']) by (constructor; [exact DT'|constructor]).
    pose proof (box_unique weight g TP LEAF NE POS sc SCL SCV _ _ _ _ _ us D D' (le_n _) (le_n _) DR DR') as Q. congruence.
  - intros fuel ts us1 us2 D L H. unfold sample_hypotheses. rewrite R. cbn [bind]. apply all_spec; assumption.
Qed.
End Top.
