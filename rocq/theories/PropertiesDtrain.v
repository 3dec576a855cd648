(** C83: the pairs dtrain learns from. *)
From Coq Require Import List Arith QArith Bool Permutation Sorting Lia Lqa.
From Verif Require Import Dtrain DtrainSpec DtrainProofs.
Import ListNotations.
Local Open Scope nat_scope.

(** C83. Whatever order the sort gives to hypotheses of equal score, "all" gives every
    wanted pair as often as its hypotheses occur in the list, and no other pair. *)
Theorem C83_all : forall (H : Type) (dec : forall x y : H, {x = y} + {x <> y}) (score model : H -> Q) s s' thr max mis x y,
  sorts score s s' -> length s * length s < max ->
  (wanted score model thr mis x y ->
   count_occ (dec2 H dec) (all_pairs H score model s' [] thr max mis) (x, y) = count_occ dec s x * count_occ dec s y) /\
  (~ wanted score model thr mis x y -> count_occ (dec2 H dec) (all_pairs H score model s' [] thr max mis) (x, y) = 0).
Proof. exact all_exact. Qed.
Print Assumptions C83_all.

(** C83. With any limit only wanted pairs are given, and not more than the limit. *)
Theorem C83_all_limit : forall (H : Type) (score model : H -> Q) s s' thr max mis, sorts score s s' -> 0 < max ->
  length (all_pairs H score model s' [] thr max mis) <= max /\
  forall x y, In (x, y) (all_pairs H score model s' [] thr max mis) -> In x s /\ In y s /\ wanted score model thr mis x y.
Proof.
  intros H score model s s' thr max mis S L. split; [apply all_limit; exact L|].
  intros x y. apply all_sound. exact S.
Qed.
Print Assumptions C83_all_limit.

(** C83. "PRO" keeps the wanted pairs with the largest differences. *)
Theorem C83_pro : forall (H : Type) (dec : forall x y : H, {x = y} + {x <> y}) (score model : H -> Q) max_count top s s' thr out,
  sorts score s s' -> (0 < thr)%Q -> length s * length s < max_count -> PROsampling H score max_count top s' thr out ->
  exists rest,
    (forall x y, wanted score model thr false x y ->
       count_occ (dec2 H dec) (out ++ rest) (x, y) = count_occ dec s x * count_occ dec s y) /\
    (forall x y, ~ wanted score model thr false x y -> count_occ (dec2 H dec) (out ++ rest) (x, y) = 0) /\
    length out <= top /\ (rest <> [] -> length out = top) /\
    (forall p r, In p out -> In r rest -> (score (fst r) - score (snd r) <= score (fst p) - score (snd p))%Q).
Proof. exact pro_ok. Qed.
Print Assumptions C83_pro.

(** C83. Every pair of "PRO" and of "XYX" is wanted, with any number of pairs and any
    limit, if the sampling reads inside the list. *)
Theorem C83_pro_sound : forall (H : Type) (score model : H -> Q) max_count top s s' thr out x y,
  sorts score s s' -> (0 < thr)%Q -> PROsampling H score max_count top s' thr out -> In (x, y) out ->
  In x s /\ In y s /\ wanted score model thr false x y.
Proof. exact pro_sound. Qed.
Print Assumptions C83_pro_sound.
Theorem C83_xyx_sound : forall (H : Type) (score model : H -> Q) s s' thr max mis sep out x y,
  sorts score s s' -> partXYX H score model s' [] thr max mis sep = Some out -> In (x, y) out ->
  In x s /\ In y s /\ wanted score model thr mis x y.
Proof. exact xyx_sound. Qed.
Print Assumptions C83_xyx_sound.

(** C83. "XYX" gives every wanted pair between the top hypotheses, including those tied
    with the last of them, and the others. *)
Theorem C83_xyx_top : forall (H : Type) (score model : H -> Q) s s' thr max mis k out b x y,
  sorts score s s' -> 4 < length s -> length s * length s < max ->
  partXYX H score model s' [] thr max mis (S k) = Some out -> nth_error s' k = Some b ->
  In x s -> In y s -> (score b <= score x)%Q -> (score y < score b)%Q -> wanted score model thr mis x y ->
  In (x, y) out.
Proof. exact xyx_top. Qed.
Print Assumptions C83_xyx_top.

(** Finding: with the default share of 0.1 a list of two to four hypotheses has
    round(0.1 * size) = 0 hypotheses at either end, and "XYX", the default method,
    reads the hypothesis after the last (pairsampling.h:83-84). *)
Theorem C83_xyx_short_refuted : forall (H : Type) (score model : H -> Q) s tr thr max mis, 2 <= length s <= 4 ->
  partXYX H score model s tr thr max mis 0 = None.
Proof. exact xyx_short. Qed.
Print Assumptions C83_xyx_short_refuted.

(** Finding: "XYX" promises to compare the middle hypotheses with the lowest, but the
    boundary computed as a position is used as a number of hypotheses
    (pairsampling.h:83-86): without ties no such pair is ever given; the better
    hypothesis of a pair is always one of the top ones. *)
Theorem C83_xyx_middle_refuted : forall (H : Type) (score model : H -> Q) s thr max mis sep,
  StronglySorted (fun a b => (score b < score a)%Q) s -> 4 < length s -> 1 <= sep -> 2 * sep <= length s ->
  exists out, partXYX H score model s [] thr max mis sep = Some out /\ forall x y, In (x, y) out -> In x (firstn sep s).
Proof. exact xyx_distinct. Qed.
Print Assumptions C83_xyx_middle_refuted.

(** Finding: the limit on pairs ends only the first part of "XYX"; once it is reached
    there the second part goes on without any limit (pairsampling.h:76-95). *)
Theorem C83_xyx_limit_refuted : exists (s : list nat) (out : list (nat * nat)),
  partXYX nat (fun n => inject_Z (Z.of_nat n)) (fun _ => 0%Q) s [] 0 1 false 1 = Some out /\ length out = 3.
Proof. exists [5; 4; 1; 1; 1], [(5, 4); (4, 1); (4, 1)]. split; reflexivity. Qed.
Print Assumptions C83_xyx_limit_refuted.

(** Finding: "PRO" with the default threshold of 0 also gives pairs of hypotheses of
    equal score, in the order the sort happens to give them (pairsampling.h:8-12, 120). *)
Theorem C83_pro_equal_refuted : exists (score : nat -> Q) s out, sorts score s s /\
  PROsampling nat score 5000 50 s 0 out /\ In (1, 2) out /\ (score 1%nat == score 2%nat)%Q.
Proof.
  exists (fun _ => 1%Q), [1; 2], [(1, 2)]. split; [split; [apply Permutation_refl|]|].
  - repeat constructor; apply Qle_refl.
  - split; [|split; [left; reflexivity|reflexivity]]. unfold PROsampling. cbn [ordered_pairs map app pro_walk].
    change (accept_pair 1 1 0) with true. destruct (S 0 =? 5000) eqn:E; [apply Nat.eqb_eq in E; lia|]. reflexivity.
Qed.
Print Assumptions C83_pro_equal_refuted.

(** Hypotheses are numbers scored by n/2 so that 2 and 3 tie; the model prefers small ones. *)
Definition sc (n : nat) : Q := inject_Z (Z.of_nat (Nat.div2 n)).
Definition mo (n : nat) : Q := (- inject_Z (Z.of_nat n))%Q.
Example C83_sorts : sorts sc [2; 5; 3; 0; 2] [5; 2; 3; 2; 0] /\ sorts sc [2; 5; 3; 0; 2] [5; 3; 2; 2; 0].
Proof.
  split; (split; [apply (Permutation_count_occ Nat.eq_dec); intros x; do 6 (destruct x as [|x]; [reflexivity|]); reflexivity|
    repeat constructor; vm_compute; discriminate]).
Qed.
Example C83_case : all_pairs nat sc mo [5; 2; 3; 2; 0] [] (1#2) 100 true = [(5, 2); (5, 3); (5, 2); (5, 0); (2, 0); (3, 0); (2, 0)]
  /\ all_pairs nat sc mo [5; 2; 3; 2; 0] [] 2 100 true = [(5, 0)]
  /\ all_pairs nat sc mo [5; 2; 3; 2; 0] [] (1#2) 3 true = [(5, 2); (5, 3); (5, 2)]
  /\ partXYX nat sc mo [5; 2; 3; 2; 0] [] (1#2) 100 true 1 = Some [(5, 2); (5, 3); (5, 2); (5, 0)].
Proof. repeat split; vm_compute; reflexivity. Qed.
(** two hypotheses asked for, four given the part of the top because of the tie *)
Example C83_xyx_case : sorts sc [2; 5; 3; 0; 2] [5; 2; 3; 2; 0] /\
  partXYX nat sc mo [5; 2; 3; 2; 0] [] (1#2) 100 true 2 = Some [(5, 0); (2, 0); (3, 0); (2, 0)] /\
  nth_error [5; 2; 3; 2; 0] 1 = Some 2 /\ (sc 2 <= sc 3)%Q /\ (sc 0 < sc 2)%Q /\ wanted sc mo (1#2) true 3 0.
Proof.
  split; [exact (proj1 C83_sorts)|]. split; [vm_compute; reflexivity|]. split; [reflexivity|].
  split; [vm_compute; discriminate|]. split; [vm_compute; reflexivity|].
  split; [vm_compute; reflexivity|]. split; [vm_compute; discriminate|]. intros _. vm_compute. discriminate.
Qed.
Example C83_pro_case : PROsampling nat sc 100 3 [5; 2; 3; 2; 0] (1#2) [(5, 0); (5, 2); (5, 3)].
Proof.
  unfold PROsampling. cbv zeta.
  change (exists tr', sorts (diff nat sc) [(5, 2); (5, 3); (5, 2); (5, 0); (2, 0); (3, 0); (2, 0)] tr' /\
    [(5, 0); (5, 2); (5, 3)] = firstn 3 tr').
  exists [(5, 0); (5, 2); (5, 3); (5, 2); (2, 0); (3, 0); (2, 0)]. split; [split|reflexivity].
  - apply Permutation_sym. change [(5, 2); (5, 3); (5, 2); (5, 0); (2, 0); (3, 0); (2, 0)] with
      ([(5, 2); (5, 3); (5, 2)] ++ (5, 0) :: [(2, 0); (3, 0); (2, 0)]). exact (Permutation_middle [(5, 2); (5, 3); (5, 2)] [(2, 0); (3, 0); (2, 0)] (5, 0)).
  - repeat constructor; vm_compute; discriminate.
Qed.
