(** Proofs: the extracts of one occurrence, from the conditions a user can check. *)
From Coq Require Import List ZArith QArith Bool Lia Permutation.
From Verif Require Import Opt OptProofs Fix FixSpec FixProofs RuleEx RuleExSpec RuleExTargetProofs RuleExPhraseProofs RuleExSourceProofs RuleExLaidProofs RuleExProofs.
Import ListNotations.
Close Scope Q_scope.
Open Scope Z_scope.
Open Scope opt_scope.

Definition same_source (s : list Z) (e : extract) : bool := if list_eq_dec Z.eq_dec (e_source e) s then true else false.
Lemma same_source_ok s e : same_source s e = true <-> e_source e = s.
Proof. unfold same_source. destruct (list_eq_dec Z.eq_dec (e_source e) s); split; intros; auto; try discriminate; congruence. Qed.

Section Occ.
Variable o : ropts.
Variable p : sentence.
Variable start : Z.
Variables phrase matching : list Z.
Hypothesis FT : fits o p start phrase matching.

Lemma extract_sound : exists es, (forall f, ExtractAlignments (Some f) o p start phrase matching = Some es) /\
  Forall (rule o p start phrase matching) es /\ (es <> [] -> aligned_terminals o p start phrase matching).
Proof.
  destruct FT as (W & OC & G & S & N & WD). destruct (spans_ok _ _ _ W) as (sp & E & DS & DT).
  destruct (extract_ok o p sp DS DT start phrase matching OC G S N WD) as (b1 & b2 & e0 & e1 & e2 & e3 & EQ & B0 & (B1 & B2 & B3 & _) & T).
  exists (e0 ++ e1 ++ e2 ++ e3). split; [|split].
  - intros f. unfold ExtractAlignments. rewrite E. cbn [bind]. apply EQ.
  - destruct B0, B1, B2, B3. rewrite !Forall_app. auto.
  - intros Q. apply terminals_same; auto.
Qed.
Lemma extract_complete : (length matching <= 3)%nat -> exists es insts,
  (forall f, ExtractAlignments (Some f) o p start phrase matching = Some es) /\ NoDup insts /\
  (forall i, In i insts <-> plain o p start phrase matching i) /\
  Forall2 (reads p) insts (filter (fun e => Nat.eqb (length (e_source e)) (length phrase)) es) /\
  Forall (fun e => e_count e = / inject_Z (Z.of_nat (length insts)))%Q (filter (fun e => Nat.eqb (length (e_source e)) (length phrase)) es).
Proof.
  intros L. destruct FT as (W & OC & G & S & N & WD). destruct (spans_ok _ _ _ W) as (sp & E & DS & DT).
  destruct (extract_exact o p sp DS DT start phrase matching OC G S N WD L) as (es & insts & EQ & ND & I & R & C).
  exists es, insts. split; [|split; [auto|split; [auto|split; [exact R|exact C]]]].
  intros f. unfold ExtractAlignments. rewrite E. cbn [bind]. apply EQ.
Qed.

Lemma extend_head b : exists x r, Extend phrase false b = x :: r /\ 0 <= x.
Proof.
  destruct FT as (_ & (L & H & _) & _). destruct phrase as [|s r] eqn:EP.
  - destruct matching as [|m mr]; [discriminate|]. destruct (H O m [] eq_refl eq_refl) as (K & _). congruence.
  - destruct (Z_le_dec 0 s) as [P|P].
    + unfold Extend. cbn [b2z renumber]. destruct (Z.leb_spec 0 s); [|lia]. destruct (renumber 0 r) as [k l]. cbn [app]. eauto.
    + exfalso. cbn [chunks_of] in H, L. destruct (Z.leb_spec 0 s); [lia|]. destruct matching as [|m mr]; [discriminate|]. destruct (H O m [] eq_refl eq_refl) as (K & _). congruence.
Qed.
Lemma extend_x b : exists r, Extend phrase true b = -1 :: r.
Proof. unfold Extend. destruct (renumber (b2z true) phrase) as [k l]. cbn [app]. eauto. Qed.
Lemma extend_inj a b c d : Extend phrase a b = Extend phrase c d -> a = c /\ b = d.
Proof.
  intros E. assert (A : a = c).
  { destruct a, c; auto; exfalso; [destruct (extend_x b) as (r & X), (extend_head d) as (x & r' & Y & P)|destruct (extend_x d) as (r & X), (extend_head b) as (x & r' & Y & P)]; rewrite X, Y in E; injection E; intros; lia. }
  subst c. split; [auto|]. apply (f_equal size) in E. rewrite !extend_size in E. destruct b, d; auto; cbn [b2z] in E; lia.
Qed.
Lemma batch_filter_same source es : batch o p start phrase matching source es -> filter (same_source source) es = es.
Proof. intros [_ S _ _]. induction S as [|e es H F IH]; [auto|]. cbn [filter]. rewrite (proj2 (same_source_ok _ _) H), IH. auto. Qed.
Lemma batch_filter_other source s es : batch o p start phrase matching source es -> s <> source -> filter (same_source s) es = [].
Proof.
  intros [_ S _ _] N. induction S as [|e es H F IH]; [auto|]. cbn [filter]. destruct (same_source s e) eqn:Q; [|auto]. apply same_source_ok in Q. congruence.
Qed.
Lemma total_same k : forall es, Forall (fun e => e_count e = k) es -> (total es == inject_Z (Z.of_nat (length es)) * k)%Q.
Proof.
  induction 1 as [|e es H F IH]; cbn [total fold_right length]; [ring|]. fold (total es). rewrite IH, H, Nat2Z.inj_succ, <- Z.add_1_r, inject_Z_plus. ring.
Qed.
Lemma total_one source es : batch o p start phrase matching source es -> es <> [] -> (total es == 1)%Q.
Proof.
  intros [_ _ C _] N. rewrite (total_same _ _ C). apply Qmult_inv_r. intros Q. destruct es; [congruence|]. unfold inject_Z, Qeq in Q. cbn [length Qnum Qden] in Q. lia.
Qed.
(** the extracts of one source phrase are one batch *)
Lemma extract_batches : exists es, (forall f, ExtractAlignments (Some f) o p start phrase matching = Some es) /\
  forall s, batch o p start phrase matching s (filter (same_source s) es).
Proof.
  destruct FT as (W & OC & G & S & N & WD). destruct (spans_ok _ _ _ W) as (sp & E & DS & DT).
  destruct (extract_ok o p sp DS DT start phrase matching OC G S N WD) as (b1 & b2 & e0 & e1 & e2 & e3 & EQ & B0 & (B1 & B2 & B3 & X1 & X2) & T).
  exists (e0 ++ e1 ++ e2 ++ e3). split; [intros f; unfold ExtractAlignments; rewrite E; cbn [bind]; apply EQ|]. intros s.
  assert (DEC : forall a b : bool, a = b \/ a <> b) by (intros [] []; auto; right; discriminate).
  assert (SD : forall x y : list Z, x = y \/ x <> y) by (intros x y; destruct (list_eq_dec Z.eq_dec x y); auto).
  rewrite !filter_app.
  assert (Q0 : b2 = true -> e1 = []) by (intros Q; apply X1; auto). assert (Q1 : b2 = true -> e3 = []) by (intros Q; apply X1; auto).
  assert (Q2 : b1 = true -> e2 = []) by (intros Q; apply X2; auto). assert (Q3 : b1 = true -> e3 = []) by (intros Q; apply X2; auto).
  assert (F : forall a b e a' b', batch o p start phrase matching (Extend phrase a b) e -> s = Extend phrase a' b' -> (a, b) <> (a', b') -> filter (same_source s) e = []).
  { intros a b e a' b' B -> NE. apply (batch_filter_other _ _ _ B). intros K. apply extend_inj in K. destruct K; congruence. }
  destruct (SD s (Extend phrase b1 b2)) as [Es|N0].
  { rewrite Es at 1 2. rewrite (batch_filter_same _ _ B0).
    assert (Z1 : filter (same_source s) e1 = []). { destruct b2; [rewrite Q0 by auto; auto|]. apply (F _ _ _ _ _ B1 Es). congruence. }
    assert (Z2 : filter (same_source s) e2 = []). { destruct b1; [rewrite Q2 by auto; auto|]. apply (F _ _ _ _ _ B2 Es). congruence. }
    assert (Z3 : filter (same_source s) e3 = []). { destruct b2; [rewrite Q1 by auto; auto|]. apply (F _ _ _ _ _ B3 Es). congruence. }
    rewrite Z1, Z2, Z3, !app_nil_r. auto. }
  rewrite (batch_filter_other _ _ _ B0 N0). cbn [app].
  destruct (SD s (Extend phrase b1 true)) as [Es|N1].
  { rewrite Es at 1 2. rewrite (batch_filter_same _ _ B1).
    assert (Z2 : filter (same_source s) e2 = []). { destruct b1; [rewrite Q2 by auto; auto|]. apply (F _ _ _ _ _ B2 Es). congruence. }
    assert (Z3 : filter (same_source s) e3 = []). { destruct b1; [rewrite Q3 by auto; auto|]. apply (F _ _ _ _ _ B3 Es). congruence. }
    rewrite Z2, Z3, !app_nil_r. auto. }
  rewrite (batch_filter_other _ _ _ B1 N1). cbn [app].
  destruct (SD s (Extend phrase true b2)) as [Es|N2].
  { rewrite Es at 1 2. rewrite (batch_filter_same _ _ B2).
    assert (Z3 : filter (same_source s) e3 = []). { destruct b2; [rewrite Q1 by auto; auto|]. apply (F _ _ _ _ _ B3 Es). congruence. }
    rewrite Z3, !app_nil_r. auto. }
  rewrite (batch_filter_other _ _ _ B2 N2). cbn [app].
  destruct (SD s (Extend phrase true true)) as [->|N3]; [rewrite (batch_filter_same _ _ B3); auto|].
  rewrite (batch_filter_other _ _ _ B3 N3). apply batch_nil.
Qed.
End Occ.
