From Coq Require Import List ZArith NArith Bool Lia ZifyN ZifyNat.
From Verif Require Import SortedFind.
Import ListNotations.
Open Scope Z_scope.
Ltac Zify.zify_post_hook ::= Z.div_mod_to_equations.

(** * Specification *)

(** Readable and sorted in [b, e). *)
Definition sorted_range (acc : Z -> option N) (b e : Z) : Prop :=
  (forall i, b <= i < e -> exists x, acc i = Some x) /\
  (forall i j x y, b <= i -> i <= j -> j < e -> acc i = Some x -> acc j = Some y -> (x <= y)%N).

(** The search reports a position of the key, or nothing if there is none. *)
Definition search_result (acc : Z -> option N) (b e : Z) (key : N) (r : out (option Z)) : Prop :=
  (exists p, r = Ret (Some p) /\ b <= p < e /\ acc p = Some key) \/
  (r = Ret None /\ forall i, b <= i < e -> acc i <> Some key).

(** A pivot function which stays inside, whenever it is asked about a value
    within a non-empty range of at most [M]. *)
Definition good_pivot (M : N) (Calc : calc) : Prop :=
  forall off range width, (off <= range)%N -> (0 < range <= M)%N -> 0 < width ->
    exists c, Calc off range width = Some c /\ 0 <= c < width.

(** * Proofs *)
Section P.
Variable acc : Z -> option N.

Lemma binary_ok : forall fuel b e key, sorted_range acc b e -> (0 < fuel)%nat -> e - b < Z.of_nat fuel ->
  search_result acc b e key (binary_loop acc fuel b e key).
Proof.
  induction fuel as [|f IH]; intros b e key [R S] P F; [lia|]. cbn [binary_loop].
  rewrite Z.gtb_ltb. destruct (Z.ltb_spec b e) as [L|L].
  2:{ right. split; [reflexivity|]. intros i I. lia. }
  set (p := b + (e - b) / 2). assert (PI : b <= p < e) by (unfold p; lia).
  destruct (R p PI) as (mid & E). rewrite E.
  destruct (N.ltb_spec mid key) as [M|M]; [|destruct (N.ltb_spec key mid) as [M'|M']].
  - destruct (IH (p + 1) e key) as [(q & Q1 & Q2 & Q3)|(Q1 & Q2)].
    + split; [intros i I; apply R; lia|]. intros i j x y ? ? ?. apply S; lia.
    + lia.
    + lia.
    + left. exists q. split; [exact Q1|]. split; [lia|exact Q3].
    + right. split; [exact Q1|]. intros i I K. destruct (Z.le_gt_cases (p + 1) i); [apply (Q2 i); [lia|exact K]|].
      pose proof (S i p _ _ ltac:(lia) ltac:(lia) ltac:(lia) K E). lia.
  - destruct (IH b p key) as [(q & Q1 & Q2 & Q3)|(Q1 & Q2)].
    + split; [intros i I; apply R; lia|]. intros i j x y ? ? ?. apply S; lia.
    + lia.
    + lia.
    + left. exists q. split; [exact Q1|]. split; [lia|exact Q3].
    + right. split; [exact Q1|]. intros i I K. destruct (Z.lt_ge_cases i p); [apply (Q2 i); [lia|exact K]|].
      pose proof (S p i _ _ ltac:(lia) ltac:(lia) ltac:(lia) E K). lia.
  - left. exists p. split; [reflexivity|]. split; [exact PI|]. assert (mid = key) as <- by lia. exact E.
Qed.

Lemma BinaryFind_ok : forall b e key, sorted_range acc b e ->
  search_result acc b e key (BinaryFind acc b e key).
Proof. intros. apply binary_ok; [assumption|lia|lia]. Qed.

Section Pivot.
Variables (M : N) (Calc : calc).
Hypothesis G : good_pivot M Calc.

Lemma bounded_ok : forall fuel bi bv ai av key, sorted_range acc (bi + 1) ai ->
  (forall i x, bi < i < ai -> acc i = Some x -> (bv <= x <= av)%N) ->
  (0 < fuel)%nat -> ai - bi <= Z.of_nat fuel ->
  (bv <= key <= av)%N -> (0 < av - bv <= M)%N ->
  search_result acc (bi + 1) ai key (bounded_loop acc Calc fuel bi bv ai av key).
Proof.
  induction fuel as [|f IH]; intros bi bv ai av key [R S] U P F K V; [lia|]. cbn [bounded_loop].
  rewrite Z.gtb_ltb. destruct (Z.ltb_spec 1 (ai - bi)) as [L|L].
  2:{ right. split; [reflexivity|]. intros i I. lia. }
  destruct (G (key - bv)%N (av - bv)%N (ai - bi - 1)) as (c & -> & C); [lia|lia|lia|].
  set (p := bi + (1 + c)). assert (PI : bi + 1 <= p < ai) by (unfold p; lia).
  destruct (R p PI) as (mid & E). rewrite E.
  pose proof (U p mid ltac:(lia) E) as UM.
  destruct (N.ltb_spec mid key) as [X|X]; [|destruct (N.ltb_spec key mid) as [X'|X']].
  - destruct (IH p mid ai av key) as [(q & Q1 & Q2 & Q3)|(Q1 & Q2)].
    * split; [intros i I; apply R; lia|]. intros i j x y ? ? ?. apply S; lia.
    * intros i x I Y. split; [apply (S p i mid x); [lia|lia|lia|exact E|exact Y]|].
      apply (U i x); [lia|exact Y].
    * lia.
    * lia.
    * lia.
    * lia.
    * left. exists q. split; [exact Q1|]. split; [lia|exact Q3].
    * right. split; [exact Q1|]. intros i I Y. destruct (Z.le_gt_cases (p + 1) i); [apply (Q2 i); [lia|exact Y]|].
        pose proof (S i p _ _ ltac:(lia) ltac:(lia) ltac:(lia) Y E). lia.
  - destruct (IH bi bv p mid key) as [(q & Q1 & Q2 & Q3)|(Q1 & Q2)].
    * split; [intros i I; apply R; lia|]. intros i j x y ? ? ?. apply S; lia.
    * intros i x I Y. split; [apply (U i x); [lia|exact Y]|].
      apply (S i p x mid); [lia|lia|lia|exact Y|exact E].
    * lia.
    * lia.
    * lia.
    * lia.
    * left. exists q. split; [exact Q1|]. split; [lia|exact Q3].
    * right. split; [exact Q1|]. intros i I Y. destruct (Z.lt_ge_cases i p); [apply (Q2 i); [lia|exact Y]|].
      pose proof (S p i _ _ ltac:(lia) ltac:(lia) ltac:(lia) E Y). lia.
  - left. exists p. split; [reflexivity|]. split; [exact PI|]. assert (mid = key) as <- by lia. exact E.
Qed.

Lemma BoundedSortedUniformFind_ok : forall bi bv ai av key, sorted_range acc (bi + 1) ai ->
  (forall i x, bi < i < ai -> acc i = Some x -> (bv <= x <= av)%N) ->
  (bv <= key <= av)%N -> (0 < av - bv <= M)%N ->
  search_result acc (bi + 1) ai key (BoundedSortedUniformFind acc Calc bi bv ai av key).
Proof. intros. apply bounded_ok; try assumption; lia. Qed.

Lemma SortedUniformFind_ok : forall b e key, b <= e -> sorted_range acc b e ->
  (forall i x, b <= i < e -> acc i = Some x -> (x <= M)%N) ->
  search_result acc b e key (SortedUniformFind acc Calc b e key).
Proof.
  intros b e key BE [R S] U. unfold SortedUniformFind.
  destruct (Z.eqb_spec b e) as [->|NE].
  { right. split; [reflexivity|]. intros i I. lia. }
  destruct (R b ltac:(lia)) as (below & EB). rewrite EB.
  destruct (N.leb_spec key below) as [L|L].
  { destruct (N.eqb_spec key below) as [->|N].
    - left. exists b. split; [reflexivity|]. split; [lia|exact EB].
    - right. split; [reflexivity|]. intros i I X.
      pose proof (S b i _ _ ltac:(lia) ltac:(lia) ltac:(lia) EB X). lia. }
  destruct (R (e - 1) ltac:(lia)) as (above & EA). rewrite EA.
  destruct (N.leb_spec above key) as [L'|L'].
  { destruct (N.eqb_spec key above) as [->|N].
    - left. exists (e - 1). split; [reflexivity|]. split; [lia|exact EA].
    - right. split; [reflexivity|]. intros i I X.
      pose proof (S i (e - 1) _ _ ltac:(lia) ltac:(lia) ltac:(lia) X EA). lia. }
  pose proof (U (e - 1) above ltac:(lia) EA).
  destruct (BoundedSortedUniformFind_ok b below (e - 1) above key) as [(q & Q1 & Q2 & Q3)|(Q1 & Q2)].
  - split; [intros i I; apply R; lia|]. intros i j x y ? ? ?. apply S; lia.
  - intros i x I X. split; [apply (S b i below x); [lia|lia|lia|exact EB|exact X]|].
    apply (S i (e - 1) x above); [lia|lia|lia|exact X|exact EA].
  - lia.
  - lia.
  - left. exists q. split; [exact Q1|]. split; [lia|exact Q3].
  - right. split; [exact Q1|]. intros i I X.
    destruct (Z.eq_dec i b) as [->|NB]; [rewrite EB in X; injection X as ->; lia|].
    destruct (Z.eq_dec i (e - 1)) as [->|NL]; [rewrite EA in X; injection X as ->; lia|].
    apply (Q2 i); [lia|exact X].
Qed.
End Pivot.
End P.

Lemma Pivot64_good : forall fl M, good_pivot M (Pivot64 fl).
Proof.
  intros fl M off range width O R W. unfold Pivot64.
  destruct (N.eqb_spec range 0); [lia|]. eexists. split; [reflexivity|].
  destruct (Z.ltb_spec (Z.max 0 (fl off range width)) width); lia.
Qed.

Lemma Pivot32_good : good_pivot (2 ^ 64 - 2) Pivot32.
Proof.
  intros off range width O R W. unfold Pivot32.
  rewrite (N.mod_small (range + 1)) by lia.
  destruct (N.eqb_spec (range + 1) 0); [lia|]. eexists. split; [reflexivity|].
  assert (B : ((off * Z.to_N width) mod 2 ^ 64 / (range + 1) < Z.to_N width)%N).
  2:{ revert B. generalize ((off * Z.to_N width) mod 2 ^ 64 / (range + 1))%N. intros q B. lia. }
  apply N.div_lt_upper_bound; [lia|].
  apply N.le_lt_trans with (off * Z.to_N width)%N; [apply N.mod_le; lia|].
  apply N.mul_lt_mono_pos_r; lia.
Qed.

(** Arrays. *)
Lemma arr_range : forall l, sorted_range (arr l) 0 (Z.of_nat (length l)) <->
  (forall i j x y, (i <= j)%nat -> nth_error l i = Some x -> nth_error l j = Some y -> (x <= y)%N).
Proof.
  intros l. unfold sorted_range, arr. split.
  - intros [_ S] i j x y L X Y. apply (S (Z.of_nat i) (Z.of_nat j)); try lia.
    + assert (j < length l)%nat by (apply nth_error_Some; congruence). lia.
    + destruct (Z.ltb_spec (Z.of_nat i) 0); [lia|]. rewrite Nat2Z.id. exact X.
    + destruct (Z.ltb_spec (Z.of_nat j) 0); [lia|]. rewrite Nat2Z.id. exact Y.
  - intros S. split.
    + intros i I. destruct (Z.ltb_spec i 0); [lia|].
      destruct (nth_error l (Z.to_nat i)) eqn:E; [eexists; reflexivity|].
      apply nth_error_None in E. lia.
    + intros i j x y A B C. destruct (Z.ltb_spec i 0); [lia|]. destruct (Z.ltb_spec j 0); [lia|].
      apply S. lia.
Qed.
