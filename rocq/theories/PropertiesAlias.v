(** C77: sampling from a distribution with the alias method; C78: the string subsequence kernel. *)
From Coq Require Import List Arith QArith Reals Lra.
From Verif Require Import Alias AliasSpec AliasProofs AliasRefProofs.
From Verif Require Ssk SskSpec SskProofs SskSimProofs.
Import ListNotations.

(** C77. For every distribution the tables are built without leaving the vectors,
    every draw returns one of the outcomes, and each outcome is drawn with exactly
    its probability. *)
Theorem C77_alias : forall p, distribution p -> exists a, init p = Some a /\
  (forall u v, (0 <= u)%Q -> (u < 1)%Q -> (v <= 1)%Q -> exists i, (i < length p)%nat /\ draw a u v = Outcome i) /\
  forall i x, nth_error p i = Some x -> has_probability (fun u v => draw a u v = Outcome i) x.
Proof. exact alias_ok. Qed.
Print Assumptions C77_alias.
Example C77_case : distribution [1 # 2; 0; 1 # 8; 3 # 8]%Q.
Proof. split; [repeat constructor; discriminate|reflexivity]. Qed.
Example C77_table : option_map (fun a => (map Qred (cutoffs a), aliases a)) (init [1 # 2; 0; 1 # 8; 3 # 8]%Q) =
  Some ([1; 0; 1 # 2; 0]%Q, [None; Some 3; Some 3; Some 0]%nat).
Proof. vm_compute. reflexivity. Qed.

(** Finding: an outcome of probability zero is returned when the second random
    number is exactly 0 (u01() > cutoffs_[n] should be >=; alias_sampler.h:46). *)
Theorem C77_zero_refuted : ~ (forall p a i u v, distribution p -> init p = Some a -> (0 <= u < 1)%Q -> (0 <= v < 1)%Q ->
  draw a u v = Outcome i -> exists x, nth_error p i = Some x /\ (0 < x)%Q).
Proof. exact zero_refuted. Qed.
Print Assumptions C77_zero_refuted.

(** Finding: Init does not normalise.  For weights which sum to less than 1, if only by
    rounding, a draw can return numeric_limits<unsigned>::max() (alias_sampler.h:24-26, 46). *)
Theorem C77_normalised_refuted : ~ (forall p a u v, p <> [] -> Forall (fun x => 0 <= x)%Q p -> init p = Some a -> (0 <= u < 1)%Q -> (0 <= v < 1)%Q ->
  exists i, (i < length p)%nat /\ draw a u v = Outcome i).
Proof. exact normalised_refuted. Qed.
Print Assumptions C77_normalised_refuted.

(** C78. The kernel of two sentences is the sum over all pairs of equal subsequences
    of up to N words, each pair weighted by lambda to the number of words the two
    stretch over; no access leaves the table. *)
Theorem C78_kernel : forall N lambda s t, Ssk.ssk N lambda s t = Some (SskSpec.kernel N lambda s t).
Proof. exact SskProofs.ssk_ok. Qed.
Print Assumptions C78_kernel.
Example C78_case : Ssk.ssk 2 (1 / 2)%R [1; 2; 1]%nat [1; 2]%nat = Some (13 / 16)%R.
Proof.
  rewrite C78_kernel. f_equal. unfold SskSpec.kernel, SskSpec.sum, SskSpec.places, SskSpec.same_words, SskSpec.words, SskSpec.span.
  cbn -[Rplus Rmult Rdiv IZR pow]. cbn [pow]. lra.
Qed.

(** C78. The similarity of two sentences is symmetric, between 0 and 1, 0 exactly if
    no word is shared, and 1 for a sentence and itself. *)
Theorem C78_similarity : forall N lambda s t, (0 < N)%nat -> (0 < lambda)%R -> exists x, Ssk.nssk N lambda s t = Some x /\
  x = SskSpec.similarity N lambda s t /\ Ssk.nssk N lambda t s = Some x /\ (0 <= x <= 1)%R /\
  (x = 0%R <-> forall w, In w s -> ~ In w t) /\ (s = t -> s <> [] -> x = 1%R).
Proof. exact AliasRefProofs.similarity_ok. Qed.
Print Assumptions C78_similarity.

(** C78. The metric: a sentence scores its similarity to the most similar reference (0 if
    there is none), the corpus the average of that, between 0 and 1. *)
Theorem C78_metric : forall l, exists bs,
  Forall2 (fun hr b => Ssk.best (fst hr) (snd hr) = Some b /\ (0 <= b <= 1)%R /\
    (forall r, In r (snd hr) -> (SskSpec.similarity 4 0.8 (fst hr) r <= b)%R) /\
    (b = 0%R \/ exists r, In r (snd hr) /\ b = SskSpec.similarity 4 0.8 (fst hr) r)) l bs /\
  exists st, Ssk.corpus l = Some st /\ Ssk.score st = (fold_right Rplus 0 bs / INR (length l))%R /\
  (l <> [] -> (0 <= Ssk.score st <= 1)%R).
Proof. exact AliasRefProofs.metric_ok. Qed.
Print Assumptions C78_metric.
Example C78_metric_case : exists st, Ssk.corpus [([1; 2]%nat, [[3]%nat; [1; 2]%nat])] = Some st /\ Ssk.score st = 1%R.
Proof. exact AliasRefProofs.metric_case. Qed.
