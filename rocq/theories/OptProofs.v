From Coq Require Import List Arith ZArith Bool Lia FinFun.
From Verif Require Import Opt.
Import ListNotations.
Open Scope Z_scope.

Definition at_ (a : list Z) (i : Z) : Z := nth (Z.to_nat i) a 0.

Lemma size_nonneg a : 0 <= size a.
Proof. unfold size. lia. Qed.
Lemma get_some a i : 0 <= i < size a -> get a i = Some (at_ a i).
Proof.
  intros H. unfold get, at_, size in *. destruct (Z.ltb_spec i 0); [lia|]. apply nth_error_nth'. lia.
Qed.
Lemma get_inv a i x : get a i = Some x -> 0 <= i < size a /\ x = at_ a i.
Proof.
  unfold get, at_, size. destruct (Z.ltb_spec i 0); [discriminate|]. intros E.
  assert (Z.to_nat i < length a)%nat by (apply nth_error_Some; congruence).
  split; [lia|]. symmetry. apply nth_error_nth. auto.
Qed.
Lemma get_none a i : get a i = None -> ~ 0 <= i < size a.
Proof. intros E H. rewrite get_some in E by auto. discriminate. Qed.
Lemma upd_size a i v : size (upd a i v) = size a.
Proof. unfold size. f_equal. revert i. induction a as [|x a IH]; intros [|i]; simpl; auto. Qed.
Lemma upd_nth a : forall i v k, (i < length a)%nat -> nth k (upd a i v) 0 = if (k =? i)%nat then v else nth k a 0.
Proof.
  induction a as [|x a IH]; intros [|i] v k H; simpl in *; try lia.
  - destruct k; reflexivity.
  - destruct k as [|k]; [reflexivity|]. rewrite IH by lia. reflexivity.
Qed.
Lemma put_some a i v : 0 <= i < size a ->
  exists a', put a i v = Some a' /\ size a' = size a /\ forall k, 0 <= k -> at_ a' k = if k =? i then v else at_ a k.
Proof.
  intros H. exists (upd a (Z.to_nat i) v). unfold put. destruct (Z.ltb_spec i 0); [lia|]. destruct (Z.leb_spec (size a) i); [lia|].
  split; [reflexivity|]. split; [apply upd_size|]. intros k Hk. unfold at_. rewrite upd_nth by (unfold size in *; lia).
  destruct (Z.eqb_spec k i) as [->|N]; [rewrite Nat.eqb_refl; auto|].
  destruct (Nat.eqb_spec (Z.to_nat k) (Z.to_nat i)); [lia|auto].
Qed.
Lemma for_up_inv {S : Type} (I : Z -> S -> Prop) (f : Z -> S -> option S) k : forall from s,
  (forall i s, from <= i < from + Z.of_nat k -> I i s -> exists s', f i s = Some s' /\ I (i + 1) s') ->
  I from s -> exists s', for_up k from f s = Some s' /\ I (from + Z.of_nat k) s'.
Proof.
  induction k as [|k IH]; intros from s H I0.
  - exists s. split; [reflexivity|]. rewrite Z.add_0_r. auto.
  - cbn [for_up]. destruct (H from s ltac:(lia) I0) as (s1 & -> & I1). cbn [bind].
    destruct (IH (from + 1) s1) as (s' & -> & I').
    + intros i t Hi. apply H. lia.
    + auto.
    + exists s'. split; [reflexivity|]. replace (from + Z.of_nat (Datatypes.S k)) with (from + 1 + Z.of_nat k) by lia. auto.
Qed.

Lemma list_at (a b : list Z) : length a = length b -> (forall i, 0 <= i < size a -> at_ a i = at_ b i) -> a = b.
Proof.
  intros E H. apply nth_ext with 0 0; [auto|]. intros n Hn. specialize (H (Z.of_nat n)).
  unfold at_, size in H. rewrite !Nat2Z.id in H. apply H. lia.
Qed.
Lemma at_in a i : 0 <= i < size a -> In (at_ a i) a.
Proof. intros H. unfold at_. apply nth_In. unfold size in H. lia. Qed.
Lemma in_at a x : In x a -> exists i, 0 <= i < size a /\ at_ a i = x.
Proof.
  intros H. apply In_nth with (d := 0) in H. destruct H as (n & Hn & E). exists (Z.of_nat n).
  unfold size, at_. rewrite Nat2Z.id. split; [lia|auto].
Qed.
Lemma at_app1 a b i : 0 <= i < size a -> at_ (a ++ b) i = at_ a i.
Proof. intros H. unfold at_. apply app_nth1. unfold size in H. lia. Qed.
Lemma at_app2 a b i : size a <= i -> at_ (a ++ b) i = at_ b (i - size a).
Proof. intros H. unfold at_, size in *. rewrite app_nth2 by lia. f_equal. lia. Qed.
Lemma size_app a b : size (a ++ b) = size a + size b.
Proof. unfold size. rewrite app_length. lia. Qed.

(** Pigeonhole on an interval. *)
Lemma inj_surj (f : Z -> Z) (n : Z) :
  (forall i, 0 <= i < n -> 0 <= f i < n) ->
  (forall i j, 0 <= i < n -> 0 <= j < n -> f i = f j -> i = j) ->
  forall y, 0 <= y < n -> exists i, 0 <= i < n /\ f i = y.
Proof.
  intros B I y Hy.
  set (g := fun k : nat => Z.to_nat (f (Z.of_nat k))).
  assert (bFun (Z.to_nat n) g) as F.
  { intros k Hk. unfold g. specialize (B (Z.of_nat k) ltac:(lia)). lia. }
  assert (bInjective (Z.to_nat n) g) as J.
  { intros a b Ha Hb E. unfold g in E. pose proof (B (Z.of_nat a) ltac:(lia)). pose proof (B (Z.of_nat b) ltac:(lia)).
    assert (f (Z.of_nat a) = f (Z.of_nat b)) as E' by lia. apply I in E'; lia. }
  pose proof (proj1 (bInjective_bSurjective F) J (Z.to_nat y) ltac:(lia)) as (k & Hk & E).
  exists (Z.of_nat k). split; [lia|]. unfold g in E. pose proof (B (Z.of_nat k) ltac:(lia)). lia.
Qed.
