(** C96: several feature functions together. *)
From Coq Require Import List Arith Bool Reals Lra Permutation Lia.
From Verif Require Import Ffset FfsetSpec FfsetProofs.
Import ListNotations.
Local Open Scope nat_scope.

(** Feature functions which fill their part of the state and share no feature: every derivation gets a score, and for every one of them
    its part of the state and its features, before and after the goal, are those it has when it is used alone. *)
Theorem C96_alone : forall E (a : list (ffun E * (nat -> bool))) m P b d g, apart (a ++ (m, P) :: b) -> exists s f s1 f1 h h1,
  score E (map fst (a ++ (m, P) :: b)) d = Some (s, f) /\ score E [m] d = Some (s1, f1) /\
  part_of (map fst a) m s = s1 /\ (forall x, P x = true -> f x = f1 x) /\
  score_goal E (map fst (a ++ (m, P) :: b)) g d = Some h /\ score_goal E [m] g d = Some h1 /\ forall x, P x = true -> h x = h1 x.
Proof. exact @alone_ok. Qed.
Print Assumptions C96_alone.

(** A feature none of them has is the sum over the rules, and over the goal. *)
Theorem C96_rules : forall E (l : list (ffun E * (nat -> bool))) x d g, apart l -> (forall m P, In (m, P) l -> P x = false) ->
  exists h, score_goal E (map fst l) g d = Some h /\ h x = (rule_sum x d + g x)%R.
Proof. exact @none_ok. Qed.
Print Assumptions C96_rules.

(** The order in which they are given changes no feature of any derivation. *)
Theorem C96_order : forall E (l l' : list (ffun E * (nat -> bool))) d g, Permutation l l' -> apart l ->
  exists h h', score_goal E (map fst l) g d = Some h /\ score_goal E (map fst l') g d = Some h' /\ forall x, h x = h' x.
Proof. exact @order_ok. Qed.
Print Assumptions C96_order.

(** Two states are taken for the same exactly if every feature function's part agrees up to the bytes it wants ignored. *)
Theorem C96_merge : forall E (ms : list (ffun E)) s s', Forall (fun m => IgnoredStateSize E m <= StateSize E m) ms ->
  length s = state_size E ms -> length s' = state_size E ms ->
  (EraseIgnoredBytes E ms s = EraseIgnoredBytes E ms s' <-> forall a m b, ms = a ++ m :: b -> counted a m s = counted a m s').
Proof. exact @merge_ok. Qed.
Print Assumptions C96_merge.

(** ** Examples *)
Definition upd (x : nat) (v : R) (f : nat -> R) : nat -> R := fun y => if y =? x then v else f y.
Definition add_all : ffun nat :=
  {| StateSize := 1; IgnoredStateSize := 0; Traversal := fun e a f => ([e + list_sum (map (hd 0) a)], upd 0 (f 0%nat + INR e)%R f); FinalTraversal := fun s f => upd 0 (f 0%nat + INR (hd 0%nat s))%R f |}.
Definition one : ffun nat := {| StateSize := 0; IgnoredStateSize := 0; Traversal := fun e a f => ([], upd 1 1%R f); FinalTraversal := fun s f => f |}.
Definition shape : ffun nat :=
  {| StateSize := 2; IgnoredStateSize := 1; Traversal := fun e a f => ([length a; e], upd 2 (INR (list_sum (map (hd 0) a))) f); FinalTraversal := fun s f => f |}.
Definition l_ex : list (ffun nat * (nat -> bool)) := [(add_all, fun x => x =? 0); (one, fun x => x =? 1); (shape, fun x => x =? 2)].
Example C96_apart_ex : apart l_ex.
Proof.
  split.
  - assert (U : forall x y v w f g, v = w -> (y =? x) = true -> upd x v f y = upd x w g y) by (intros x y v w f g -> H; unfold upd; rewrite H; reflexivity).
    assert (V : forall x y v f, (y =? x) = false -> upd x v f y = f y) by (intros x y v f H; unfold upd; rewrite H; reflexivity).
    intros m P [[= <- <-]|[[= <- <-]|[[= <- <-]|[]]]]; split; cbn [Traversal FinalTraversal StateSize add_all one shape fst snd]; intros; try reflexivity; try (apply V; assumption); try (apply U; [|assumption]); try reflexivity; try (f_equal; auto; fail); auto.
  - intros a m P b m' P' x EQ I O. destruct a as [|? [|? [|? a]]]; cbn in EQ; injection EQ as; subst; try (destruct a; discriminate); cbn in I; repeat (destruct I as [[= <- <-]|I]); try contradiction; apply Nat.eqb_eq in O; subst; reflexivity.
Qed.
Definition rules_of : nat -> R := upd 7 1%R (fun _ => 0%R).
Definition d_ex : dtree nat := DT nat 3 rules_of [DT nat 4 rules_of []; DT nat 5 rules_of [DT nat 6 rules_of []]].
Example C96_score_ex : exists f, score nat (map fst l_ex) d_ex = Some ([18; 2; 3], f) /\ f 0 = 18%R /\ f 1 = 4%R /\ f 2 = 1%R /\ f 7 = 4%R.
Proof. eexists. split; [reflexivity|]. unfold d_ex, rules_of, vplus, upd. cbn. repeat split; lra. Qed.
Example C96_merge_ex : EraseIgnoredBytes nat [add_all; shape; add_all] [1; 2; 9; 4] = [1; 2; 0; 4].
Proof. reflexivity. Qed.
