(** C81, C82: the online optimiser with cumulative L1 penalty, and RProp. *)
From Coq Require Import Reals List Arith Lia Lra.
From Verif Require Import Onl OnlSpec OnlProofs.
Import ListNotations.
Local Open Scope R_scope.

(** C81. After any updates of an epoch with any gradients and any nonnegative
    learning rates, a weight subject to the penalty is the weight which plain
    gradient steps give, shrunk towards 0 by the total penalty of the epoch. *)
Theorem C81_shrunk : forall (eta : nat -> R) N C frozen, (forall k, 0 <= eta k) -> 0 <= C ->
  forall earlier g max_feat w0 i, (1 <= i < max_feat)%nat -> ~ In i frozen ->
  let hist := earlier ++ [(g, max_feat)] in
  snd (updates eta N C frozen hist (fresh, w0)) i =
  soft (C / INR N * total_rate eta 1 (length hist)) (w0 i + total_step eta 1 (map fst hist) i).
Proof. exact epoch_ok. Qed.
Print Assumptions C81_shrunk.

(** C81. Frozen features keep their weights; features outside the range get plain
    gradient steps. *)
Theorem C81_frozen : forall (eta : nat -> R) N C frozen hist s i, In i frozen ->
  snd (updates eta N C frozen hist s) i = snd s i.
Proof. exact frozen_ok. Qed.
Print Assumptions C81_frozen.
Theorem C81_unpenalised : forall (eta : nat -> R) N C frozen hist w0 i, ~ In i frozen ->
  (forall x, In x hist -> i = 0%nat \/ (snd x <= i)%nat) ->
  snd (updates eta N C frozen hist (fresh, w0)) i = w0 i + total_step eta 1 (map fst hist) i.
Proof. exact unpenalised_ok. Qed.
Print Assumptions C81_unpenalised.

(** C81. Both schedules of learning rates are positive and fall. *)
Theorem C81_standard_rate : forall n e k, 0 < e -> (0 < n)%nat ->
  0 < StandardLearningRate n e (S k) < StandardLearningRate n e k.
Proof. exact standard_rate_ok. Qed.
Print Assumptions C81_standard_rate.
Theorem C81_exponential_rate : forall n e a k, 0 < e -> 0 < a < 1 -> (0 < n)%nat ->
  0 < ExponentialDecayLearningRate n e a (S k) < ExponentialDecayLearningRate n e a k.
Proof. exact exponential_rate_ok. Qed.
Print Assumptions C81_exponential_rate.

(** C81. After [p] passes over the data the standard rate is the initial one divided by
    [1 + p], the exponential one the initial one times [a ^ p]. *)
Theorem C81_standard_passes : forall n e p, (0 < n)%nat -> StandardLearningRate n e (p * n) = e / (1 + INR p).
Proof. exact standard_passes_ok. Qed.
Print Assumptions C81_standard_passes.
Theorem C81_exponential_passes : forall n e a p, 0 < a -> (0 < n)%nat -> ExponentialDecayLearningRate n e a (p * n) = e * a ^ p.
Proof. exact exponential_passes_ok. Qed.
Print Assumptions C81_exponential_passes.

(** Finding: starting a new epoch forgets the total penalty but not what each weight
    has paid (online_optimizer.h:92 resets u_ and leaves q_), so in the next epoch
    weights first get their penalty back: without any gradient a positive weight grows. *)
Theorem C81_new_epoch_refuted : exists (eta : nat -> R) (w0 : vec) (o : onl) (w : vec),
  (forall k, 0 < eta (S k) < eta k) /\
  updates eta 1 1 [] [([], 2%nat); ([], 2%nat)] (fresh, w0) = (o, w) /\
  0 < w 1%nat < snd (updates eta 1 1 [] [([], 2%nat)] (ResetEpoch o, w)) 1%nat.
Proof. exact reset_grows. Qed.
Print Assumptions C81_new_epoch_refuted.

(** Three updates with changing directions; the weight of feature 2 is driven to 0
    and the penalty of the first update, when it was not yet in range, is made up for. *)
Example C81_case : let hist := [([(1%nat, 1); (2%nat, 1)], 2%nat); ([(1%nat, -3)], 3%nat)] ++ [([(2%nat, -1)], 3%nat)] in
  snd (updates (fun _ => 1) 2 1 [7%nat] hist (fresh, fun _ => 0)) 1%nat = - (1/2) /\
  snd (updates (fun _ => 1) 2 1 [7%nat] hist (fresh, fun _ => 0)) 2%nat = 0.
Proof.
  cbv zeta. split; (rewrite C81_shrunk; [|intros; lra|lra|lia|cbn; lia]);
  cbn [app map fst total_step length total_rate INR]; unfold component; cbn [map fold_right fst snd Nat.eqb];
  unfold soft; repeat destruct (Rlt_dec _ _); lra.
Qed.

(** C82. After any evaluations, the next one neither fails nor moves a variable
    against its descent direction or by more than the largest step, and all step
    sizes stay within their bounds. *)
Theorem C82_steps : forall ep em dmax dmin d0 gs g x, 1 < ep -> 0 < em < 1 -> 0 < dmin <= dmax -> dmin <= d0 <= dmax ->
  Forall (fun g => length g = length x) (gs ++ [g]) ->
  exists o y o' y', run ep em dmax dmin gs (new_rprop (length x) d0, x) = Some (o, y) /\
    Optimize ep em dmax dmin g (o, y) = Some (o', y') /\ length y' = length x /\
    Forall (fun d => dmin <= d <= dmax) (delta_ij_ o') /\
    forall i, (i < length x)%nat -> Rabs (nth i y' 0 - nth i y 0) <= dmax /\
      (0 < nth i g 0 -> nth i y' 0 <= nth i y 0) /\ (nth i g 0 < 0 -> nth i y 0 <= nth i y' 0).
Proof. exact steps_ok. Qed.
Print Assumptions C82_steps.

(** C82. Only the signs of the derivatives matter. *)
Theorem C82_signs : forall ep em dmax dmin, 0 < em < 1 -> 0 < dmin <= dmax ->
  forall gs gs' n d0 x, Forall2 (Forall2 same_sign) gs gs' ->
  option_map snd (run ep em dmax dmin gs (new_rprop n d0, x)) = option_map snd (run ep em dmax dmin gs' (new_rprop n d0, x)).
Proof. exact signs_ok. Qed.
Print Assumptions C82_signs.

(** C82. Each variable goes its own way. *)
Theorem C82_independent : forall ep em dmax dmin gs d0 x s i,
  Forall (fun g => length g = length x) gs -> (i < length x)%nat ->
  run ep em dmax dmin gs (new_rprop (length x) d0, x) = Some s ->
  option_map snd (run ep em dmax dmin (map (fun g => [nth i g 0]) gs) (new_rprop 1 d0, [nth i x 0])) = Some [nth i (snd s) 0].
Proof. exact independent_ok. Qed.
Print Assumptions C82_independent.

(** C82. As long as the derivative keeps its sign the steps grow by a constant
    factor up to the largest step. *)
Theorem C82_straight : forall ep em dmax dmin d0, 1 < ep -> 0 < d0 <= dmax ->
  forall gs x, Forall (fun g => exists y, g = [y] /\ 0 < y) gs ->
  option_map snd (run ep em dmax dmin gs (new_rprop 1 d0, [x])) =
  Some [x - fold_right Rplus 0 (map (fun j => Rmin (d0 * ep ^ j) dmax) (seq 0 (length gs)))].
Proof. exact straight_ok. Qed.
Print Assumptions C82_straight.

(** C82. When the derivative changes its sign, the variable waits and the step shrinks. *)
Theorem C82_turn : forall ep em dmax dmin n g1 g2 s s1 s2 i,
  length g1 = n -> length g2 = n -> sound dmax dmin n s ->
  Optimize ep em dmax dmin g1 s = Some s1 -> Optimize ep em dmax dmin g2 s1 = Some s2 -> (i < n)%nat ->
  nth i g1 0 * nth i (prev_g_ (fst s)) 0 >= 0 -> nth i g1 0 * nth i g2 0 < 0 ->
  nth i (snd s2) 0 = nth i (snd s1) 0 /\
  nth i (delta_ij_ (fst s2)) 0 = Rmax (em * nth i (delta_ij_ (fst s1)) 0) dmin.
Proof. exact turn_ok. Qed.
Print Assumptions C82_turn.

(** Finding: a derivative which is exactly 0 counts as positive (optimize.cc:47 takes
    the sign bit), so a variable which is at its optimum, or does not occur in the
    objective at all, is moved by the initial step at every evaluation. *)
Theorem C82_zero_derivative_refuted : forall ep em dmax dmin d0 x n, 0 < d0 ->
  option_map snd (run ep em dmax dmin (repeat [0] (S n)) (new_rprop 1 d0, [x])) <> Some [x] /\
  option_map snd (run ep em dmax dmin (repeat [0] (S n)) (new_rprop 1 d0, [x])) = Some [x - INR (S n) * d0].
Proof. exact zero_moves. Qed.
Print Assumptions C82_zero_derivative_refuted.

(** Two variables, the second turning back at the third evaluation. *)
Example C82_case : Forall (fun g => length g = length [0; 0]) ([[1; 1]; [2; 1]] ++ [[1; -1]]) /\
  Forall2 (Forall2 same_sign) [[1; 1]; [2; 1]; [1; -1]] [[5; 1]; [1/3; 7]; [4; -2]].
Proof.
  split; [repeat constructor|]. unfold same_sign. repeat constructor; intros; lra.
Qed.
Example C82_case_turn : exists s1 s2, Optimize 2 (1/2) 50 (1/1000) [1; 1] (new_rprop 2 1, [0; 0]) = Some s1 /\
  Optimize 2 (1/2) 50 (1/1000) [1; -1] s1 = Some s2 /\ snd s2 = [-3; -1] /\ delta_ij_ (fst s2) = [2; 1/2].
Proof.
  assert (A : coord 2 (1/2) 50 (1/1000) 1 0 1 0 = (1, 1, -1)).
  { unfold coord. cbv zeta. repeat (destruct (Rlt_dec _ _); try lra). apply pair_equal_spec; split; [apply pair_equal_spec; split|]; lra. }
  assert (B : coord 2 (1/2) 50 (1/1000) 1 1 1 (-1) = (1, 2, -3)).
  { unfold coord. cbv zeta. repeat (destruct (Rlt_dec _ _); try lra). unfold Rmin. destruct (Rle_dec _ _); [|lra]. apply pair_equal_spec; split; [apply pair_equal_spec; split|]; lra. }
  assert (C : coord 2 (1/2) 50 (1/1000) (-1) 1 1 (-1) = (0, 1/2, -1)).
  { unfold coord. cbv zeta. repeat (destruct (Rlt_dec _ _); try lra). unfold Rmax. destruct (Rle_dec _ _); [lra|]. apply pair_equal_spec; split; [apply pair_equal_spec; split|]; lra. }
  exists ({| prev_g_ := [1; 1]; delta_ij_ := [1; 1] |}, [-1; -1]), ({| prev_g_ := [1; 0]; delta_ij_ := [2; 1/2] |}, [-3; -1]).
  unfold Optimize, new_rprop. cbn [repeat fst snd prev_g_ delta_ij_ optimize_loop]. rewrite A, B, C. auto.
Qed.
