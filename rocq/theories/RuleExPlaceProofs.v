(** Proofs: the alignment of a rule joins the words that are linked in the sentence pair. *)
From Coq Require Import List ZArith QArith Bool Lia Permutation.
From Verif Require Import Opt OptProofs Fix FixSpec FixProofs RuleEx RuleExSpec RuleExTargetProofs RuleExPhraseProofs RuleExLaidProofs RuleExProofs.
Import ListNotations.
Close Scope Q_scope.
Open Scope Z_scope.

Lemma inside_ok lo hi gaps pos : inside lo hi gaps pos = true <-> lo <= pos < hi /\ ~ in_gap gaps pos.
Proof.
  unfold inside. rewrite !andb_true_iff, negb_true_iff, Z.leb_le, Z.ltb_lt. split.
  - intros [H E]. split; [auto|]. intros (a & b & I & R). apply not_true_iff_false in E. apply E. apply existsb_exists. exists (a, b). split; [auto|]. cbn [fst snd]. rewrite andb_true_iff, Z.leb_le, Z.ltb_lt. auto.
  - intros [H N]. split; [auto|]. apply not_true_iff_false. intros E. apply existsb_exists in E. destruct E as ([a b] & I & R). rewrite andb_true_iff, Z.leb_le, Z.ltb_lt in R. apply N. exists a, b. auto.
Qed.
Lemma linked_inside p i s t : consistent p i -> In (s, t) (links p) -> (i_tl i <= t < i_th i /\ ~ in_gap (target_gaps i) t) <-> (i_sl i <= s < i_sh i /\ ~ in_gap (i_source i) s).
Proof.
  intros (C1 & C2 & C3 & C4 & CL & OS & OT & PM & GP) L. rewrite <- (CL s t L).
  enough (in_gap (target_gaps i) t <-> in_gap (i_source i) s) by tauto. split.
  - intros (c & d & I & R). unfold target_gaps in I. apply in_map_iff in I. destruct I as ([k g] & E & I). cbn in E. subst g.
    assert (K : In k (numbers (length (i_source i)))) by (eapply Permutation_in; [exact PM|]; apply in_map_iff; exists (k, (c, d)); auto).
    apply (numbers_in p 0 [] []) in K. destruct (nth_error (i_source i) (Z.to_nat (k - 1))) as [[a b]|] eqn:N; [|apply nth_error_None in N; lia].
    destruct (GP _ _ _ _ _ I N) as [G _]. exists a, b. split; [eapply nth_error_In; eauto|]. exact (proj2 (G s t L) R).
  - intros (a & b & I & R). apply In_nth_error in I. destruct I as [n N]. assert (LN : (n < length (i_source i))%nat) by (apply nth_error_Some; congruence).
    assert (K : In (Z.of_nat (S n)) (map fst (i_target i))) by (eapply Permutation_in; [symmetry; exact PM|]; apply (numbers_in p 0 [] []); lia).
    apply in_map_iff in K. destruct K as ([k [c d]] & E & I). cbn in E. subst k. replace n with (Z.to_nat (Z.of_nat (S n) - 1)) in N by lia.
    destruct (GP _ _ _ _ _ I N) as [G _]. exists c, d. split; [unfold target_gaps; apply in_map_iff; exists (Z.of_nat (S n), (c, d)); auto|]. exact (proj1 (G s t L) R).
Qed.
Lemma align_words p i e : consistent p i -> reads p i e -> forall a b,
  In (a, b) (e_align e) <-> exists s t, In (s, t) (links p) /\ (i_tl i <= t < i_th i /\ ~ in_gap (target_gaps i) t) /\ a = place (i_sl i) (i_source i) s /\ b = place (i_tl i) (target_gaps i) t /\
    0 <= a /\ 0 <= b /\ nth_error (e_source e) (Z.to_nat a) = nth_error (src p) (Z.to_nat s) /\ nth_error (e_target e) (Z.to_nat b) = nth_error (tgt p) (Z.to_nat t).
Proof.
  intros C (R1 & R2 & R3) a b. rewrite R3. split.
  - intros I. apply in_map_iff in I. destruct I as ([s t] & E & I). cbn [fst snd] in E. injection E as <- <-. apply filter_In in I. destruct I as [L I]. cbn [snd] in I. apply inside_ok in I.
    pose proof (proj1 (linked_inside p i s t C L) I) as [J1 J2]. destruct C as (C1 & C2 & C3 & C4 & CL & OS & OT & PM & GP).
    assert (NB : map snd (numbered (i_source i)) = i_source i) by (rewrite numbered_from_1; apply numbered_from_snd).
    destruct (side_place (src p) (numbered (i_source i)) (i_sl i) (i_sh i) s) as [P1 P2]; [auto|exact C2|rewrite NB; auto|auto|rewrite NB; auto|]. rewrite NB in P1, P2.
    destruct (side_place (tgt p) (i_target i) (i_tl i) (i_th i) t) as [Q1 Q2]; [auto|exact C4|exact OT|tauto|tauto|].
    exists s, t. split; [auto|]. split; [auto|]. split; [auto|]. split; [auto|]. split; [auto|]. split; [exact Q1|]. rewrite R1, R2. split; [exact P2|exact Q2].
  - intros (s & t & L & I & -> & -> & _). apply in_map_iff. exists (s, t). split; [auto|]. apply filter_In. split; [auto|]. apply inside_ok. auto.
Qed.
