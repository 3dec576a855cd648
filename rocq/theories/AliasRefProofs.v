(** Findings about the alias sampler; the summary of the similarity. *)
From Coq Require Import List Arith QArith Reals Lra Lia.
From Verif Require Import Alias AliasSpec AliasProofs.
From Verif Require Ssk SskSpec SskProofs SskSimProofs.
Import ListNotations.

Theorem zero_refuted : ~ (forall p a i u v, distribution p -> init p = Some a -> (0 <= u < 1)%Q -> (0 <= v < 1)%Q ->
  draw a u v = Outcome i -> exists x, nth_error p i = Some x /\ (0 < x)%Q).
Proof.
  intro H. destruct (init [0; 1]%Q) as [a|] eqn:E; [|vm_compute in E; discriminate].
  destruct (H [0; 1]%Q a 0%nat 0%Q 0%Q) as (x & Ex & Px).
  - split; [repeat constructor; discriminate|reflexivity].
  - exact E.
  - split; [discriminate|reflexivity].
  - split; [discriminate|reflexivity].
  - vm_compute in E. injection E as <-. vm_compute. reflexivity.
  - cbn in Ex. injection Ex as <-. discriminate.
Qed.
Theorem normalised_refuted : ~ (forall p a u v, p <> [] -> Forall (fun x => 0 <= x)%Q p -> init p = Some a -> (0 <= u < 1)%Q -> (0 <= v < 1)%Q ->
  exists i, (i < length p)%nat /\ draw a u v = Outcome i).
Proof.
  intro H. destruct (init [1 # 4; 1 # 4]%Q) as [a|] eqn:E; [|vm_compute in E; discriminate].
  destruct (H [1 # 4; 1 # 4]%Q a 0%Q (3 # 4)%Q) as (i & _ & D).
  - discriminate.
  - repeat constructor; discriminate.
  - exact E.
  - split; [discriminate|reflexivity].
  - split; [discriminate|reflexivity].
  - vm_compute in E. injection E as <-. vm_compute in D. discriminate.
Qed.

Theorem similarity_ok : forall N lambda s t, (0 < N)%nat -> (0 < lambda)%R -> exists x, Ssk.nssk N lambda s t = Some x /\
  x = SskSpec.similarity N lambda s t /\ Ssk.nssk N lambda t s = Some x /\ (0 <= x <= 1)%R /\
  (x = 0%R <-> forall w, In w s -> ~ In w t) /\ (s = t -> s <> [] -> x = 1%R).
Proof.
  intros N lam s t HN HL. exists (SskSpec.similarity N lam s t). split; [apply SskSimProofs.nssk_ok|]. split; [reflexivity|].
  split; [rewrite SskSimProofs.nssk_ok, SskSimProofs.similarity_sym; reflexivity|]. split; [now apply SskSimProofs.similarity_range|].
  split; [now apply SskSimProofs.similarity_zero|]. intros <- Hs. now apply SskSimProofs.similarity_self.
Qed.
Theorem metric_ok : forall l, exists bs,
  Forall2 (fun hr b => Ssk.best (fst hr) (snd hr) = Some b /\ (0 <= b <= 1)%R /\
    (forall r, In r (snd hr) -> (SskSpec.similarity 4 0.8 (fst hr) r <= b)%R) /\
    (b = 0%R \/ exists r, In r (snd hr) /\ b = SskSpec.similarity 4 0.8 (fst hr) r)) l bs /\
  exists st, Ssk.corpus l = Some st /\ Ssk.score st = (fold_right Rplus 0 bs / INR (length l))%R /\
  (l <> [] -> (0 <= Ssk.score st <= 1)%R).
Proof.
  intro l. destruct (SskSimProofs.corpus_ok l) as (bs & E & C & R). exists bs. split.
  - clear C R. revert bs E. induction l as [|(h, rs) l IH]; intros [|b bs] E; try discriminate; [constructor|].
    cbn [map fst snd] in E. injection E as E1 E2. constructor; [|now apply IH].
    cbn [fst snd]. destruct (SskSimProofs.best_ok h rs) as (b' & Eb & X). rewrite <- E1 in Eb. injection Eb as <-. rewrite <- E1. auto.
  - eexists. split; [exact C|]. split; [reflexivity|exact R].
Qed.
Theorem metric_case : exists st, Ssk.corpus [([1; 2]%nat, [[3]%nat; [1; 2]%nat])] = Some st /\ Ssk.score st = 1%R.
Proof.
  destruct (metric_ok [([1; 2]%nat, [[3]%nat; [1; 2]%nat])]) as (bs & F & st & C & S & _). exists st. split; auto. rewrite S. clear S C.
  inversion F as [|? b ? ? (_ & R & M & _) F']; subst. inversion F'; subst. cbn [fold_right length fst snd] in *.
  pose proof (M [1; 2]%nat ltac:(right; now left)) as X. rewrite SskSimProofs.similarity_self in X; [|apply SskSimProofs.lam_ok|lia|discriminate].
  assert (b = 1)%R by lra. subst. cbn. lra.
Qed.
