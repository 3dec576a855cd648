(** C29: searching sorted keys (klm/util/sorted_uniform.hh).  [sorted_range],
    [search_result]: top of SortedFindProofs.v.  [fl] stands for the floating
    point estimate of Pivot64, about which nothing is assumed. *)
From Coq Require Import List ZArith NArith Bool Lia.
From Verif Require Import SortedFind SortedFindProofs.
Import ListNotations.
Open Scope Z_scope.

Theorem C29_binary_find : forall acc b e key, sorted_range acc b e ->
  search_result acc b e key (BinaryFind acc b e key).
Proof. exact BinaryFind_ok. Qed.
Print Assumptions C29_binary_find.

(** 64-bit keys, for every behaviour of the floating point estimate. *)
Theorem C29_sorted_uniform_find64 : forall acc fl b e key, b <= e -> sorted_range acc b e ->
  search_result acc b e key (SortedUniformFind acc (Pivot64 fl) b e key).
Proof.
  intros acc fl b e key BE SR.
  destruct (Z.eq_dec b e) as [->|NE].
  { right. unfold SortedUniformFind. rewrite Z.eqb_refl. split; [reflexivity|]. intros i I. lia. }
  destruct (proj1 SR (e - 1) ltac:(lia)) as (M & EM).
  apply (SortedUniformFind_ok acc M (Pivot64 fl) (Pivot64_good fl M) b e key BE SR).
  intros i x I X. exact (proj2 SR i (e - 1) x M ltac:(lia) ltac:(lia) ltac:(lia) X EM).
Qed.
Print Assumptions C29_sorted_uniform_find64.

(** Integer pivots: even when off * width wraps around. *)
Theorem C29_sorted_uniform_find32 : forall acc b e key, b <= e -> sorted_range acc b e ->
  (forall i x, b <= i < e -> acc i = Some x -> (x <= 2 ^ 64 - 2)%N) ->
  search_result acc b e key (SortedUniformFind acc Pivot32 b e key).
Proof. intros acc. exact (SortedUniformFind_ok acc _ Pivot32 Pivot32_good). Qed.
Print Assumptions C29_sorted_uniform_find32.

(** The bounded variant, under its documented preconditions and before_v < after_v. *)
Theorem C29_bounded_find64 : forall acc fl bi bv ai av key, sorted_range acc (bi + 1) ai ->
  (forall i x, bi < i < ai -> acc i = Some x -> (bv <= x <= av)%N) ->
  (bv <= key <= av)%N -> (bv < av)%N ->
  search_result acc (bi + 1) ai key (BoundedSortedUniformFind acc (Pivot64 fl) bi bv ai av key).
Proof.
  intros acc fl bi bv ai av key S U K L.
  exact (BoundedSortedUniformFind_ok acc (av - bv) (Pivot64 fl) (Pivot64_good fl _) bi bv ai av key S U K ltac:(lia)).
Qed.
Print Assumptions C29_bounded_find64.

Theorem C29_bounded_find32 : forall acc bi bv ai av key, sorted_range acc (bi + 1) ai ->
  (forall i x, bi < i < ai -> acc i = Some x -> (bv <= x <= av)%N) ->
  (bv <= key <= av)%N -> (0 < av - bv <= 2 ^ 64 - 2)%N ->
  search_result acc (bi + 1) ai key (BoundedSortedUniformFind acc Pivot32 bi bv ai av key).
Proof. intros acc. exact (BoundedSortedUniformFind_ok acc _ Pivot32 Pivot32_good). Qed.
Print Assumptions C29_bounded_find32.

(** Finding: the documented precondition before_v <= key <= after_v admits
    before_v = after_v, where the estimate of Pivot64 is 0/0. *)
Theorem C29_bounded_degenerate_refuted : forall acc fl bi ai key, 1 < ai - bi ->
  BoundedSortedUniformFind acc (Pivot64 fl) bi key ai key key = UB.
Proof.
  intros acc fl bi ai key L. unfold BoundedSortedUniformFind. cbn [bounded_loop].
  rewrite Z.gtb_ltb. destruct (Z.ltb_spec 1 (ai - bi)); [|lia].
  unfold Pivot64. rewrite N.sub_diag. reflexivity.
Qed.
Print Assumptions C29_bounded_degenerate_refuted.

(** Concrete cases, with a poor estimate. *)
Example C29_ex_hyp : sorted_range (arr [2; 3; 3; 7; 20; 21; 90]%N) 0 7.
Proof.
  apply (proj2 (arr_range [2; 3; 3; 7; 20; 21; 90]%N)). intros i j x y L X Y.
  do 7 (destruct i as [|i]; [do 7 (destruct j as [|j]; [injection X as <-; injection Y as <-; lia|]); destruct j; discriminate|]).
  destruct i; discriminate.
Qed.
Example C29_ex_found : SortedUniformFind (arr [2; 3; 3; 7; 20; 21; 90]%N) (Pivot64 (fun _ _ w => w + 5)) 0 7 20 = Ret (Some 4).
Proof. reflexivity. Qed.
Example C29_ex_absent : SortedUniformFind (arr [2; 3; 3; 7; 20; 21; 90]%N) Pivot32 0 7 8 = Ret None.
Proof. vm_compute. reflexivity. Qed.
Example C29_ex_bounded : BoundedSortedUniformFind (arr [0; 5; 6]%N) Pivot32 (-1) 0 3 9 0 = Ret (Some 0).
Proof. vm_compute. reflexivity. Qed.
