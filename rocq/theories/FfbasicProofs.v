(** Proofs for Ffbasic.v. *)
From Coq Require Import List ZArith Bool Reals Lia Lra Permutation.
From Verif Require Import Opt OptProofs Rule RuleSpec RuleProofs Ffset FfsetSpec FfsetProofs Ffbasic FfbasicSpec.
Import ListNotations.
Local Open Scope nat_scope.

(** ** Words of a derivation *)
Definition cnt (p : Z -> bool) (s : list Z) : nat := length (filter p s).
Lemma cnt_app : forall p a b, cnt p (a ++ b) = cnt p a + cnt p b.
Proof. intros. unfold cnt. rewrite filter_app, app_length. reflexivity. Qed.
Lemma nsum_perm : forall a b, Permutation a b -> list_sum a = list_sum b.
Proof. intros a b P. unfold list_sum. induction P; cbn [fold_right]; lia. Qed.
Lemma cnt_target0 : forall p e ys, cnt p (target_of e ys) = cnt p (words_of e) + list_sum (map (fun c => cnt p (nth (Z.to_nat (- c)) ys [])) (vars_of e)).
Proof.
  intros p e ys. unfold target_of, words_of, vars_of. induction e as [|c e IH]; [reflexivity|]. cbn [map concat filter]. rewrite cnt_app, IH.
  destruct (Z.ltb_spec c 1), (Z.leb_spec 1 c); try lia; cbn [map list_sum fold_right]; [unfold list_sum; lia|]. change (c :: filter (fun c0 => (1 <=? c0)%Z) e) with ([c] ++ filter (fun c0 => (1 <=? c0)%Z) e). rewrite cnt_app. lia.
Qed.
Lemma nth_sum : forall (g : list Z -> nat) (ys : list (list Z)), list_sum (map (fun c => g (nth (Z.to_nat (- c)) ys [])) (map (fun k => (- Z.of_nat k)%Z) (seq 0 (length ys)))) = list_sum (map g ys).
Proof.
  intros g ys. rewrite map_map. f_equal. assert (H : forall pre, map (fun k => g (nth (Z.to_nat (- - Z.of_nat k)) (pre ++ ys) [])) (seq (length pre) (length ys)) = map g ys).
  { induction ys as [|y ys IH]; intros pre; [reflexivity|]. cbn [length seq map]. f_equal.
    - rewrite Z.opp_involutive, Nat2Z.id, app_nth2, Nat.sub_diag by lia. reflexivity.
    - specialize (IH (pre ++ [y])). rewrite app_length, <- app_assoc in IH. cbn in IH. rewrite Nat.add_1_r in IH. exact IH. }
  exact (H []).
Qed.
Lemma cnt_target : forall p e f ys, wf_rule e f -> length ys = length (vars_of f) -> cnt p (target_of e ys) = cnt p (words_of e) + list_sum (map (cnt p) ys).
Proof.
  intros p e f ys W L. rewrite cnt_target0. f_equal. rewrite (nsum_perm _ _ (Permutation_map (fun c => cnt p (nth (Z.to_nat (- c)) ys [])) W)), <- L. apply nth_sum.
Qed.
Lemma cnt_source : forall p f ys t, source_of f ys t -> cnt p t = cnt p (words_of f) + list_sum (map (cnt p) ys).
Proof.
  intros p f ys t S. induction S as [|c f ys r C S IH|c f y ys r C S IH]; [reflexivity| |].
  - change (c :: r) with ([c] ++ r). rewrite cnt_app, IH. unfold words_of. cbn [filter]. destruct (Z.leb_spec 1 c); [|lia]. change (c :: filter (fun c0 => (1 <=? c0)%Z) f) with ([c] ++ filter (fun c0 => (1 <=? c0)%Z) f). rewrite cnt_app. lia.
  - rewrite cnt_app, IH. unfold words_of. cbn [filter]. destruct (Z.leb_spec 1 c); [lia|]. cbn [map list_sum fold_right]. unfold list_sum. lia.
Qed.
(** a number for every rule, added up *)
Fixpoint nsum (l : list Z -> list Z -> nat -> nat) (d : deriv) : nat := match d with Node e f kids => l e f (length kids) + list_sum (map (nsum l) kids) end.
Lemma deriv_ind' : forall P : deriv -> Prop, (forall e f kids, Forall P kids -> P (Node e f kids)) -> forall d, P d.
Proof. intros P H. fix IH 1. intros [e f kids]. apply H. induction kids as [|k kids IHk]; constructor; [apply IH|exact IHk]. Qed.
Lemma pair_cnt : forall p d es fs, wf_deriv d -> pair_of d es fs ->
  cnt p es = nsum (fun e _ _ => cnt p (words_of e)) d /\ cnt p fs = nsum (fun _ f _ => cnt p (words_of f)) d.
Proof.
  intros p d. induction d as [e f kids IH] using deriv_ind'. intros E F W PO. inversion W as [? ? ? WR LK L127 WK]; subst. inversion PO as [? ? ? es fs ? F2 LE LF SO]; subst.
  assert (K : list_sum (map (cnt p) es) = list_sum (map (nsum (fun e _ _ => cnt p (words_of e))) kids) /\ list_sum (map (cnt p) fs) = list_sum (map (nsum (fun _ f _ => cnt p (words_of f))) kids)).
  { clear - IH WK F2 LE LF. revert es fs F2 LE LF WK. induction IH as [|k kids Q IHF IHk]; intros [|e1 es] [|f1 fs] F2 LE LF WK; try discriminate; [split; reflexivity|].
    cbn in F2. inversion F2 as [|? ? ? ? P1 P2]; subst. inversion WK as [|? ? W1 W2]; subst. cbn in P1. destruct (Q _ _ W1 P1) as (Q1 & Q2). destruct (IHk es fs P2 ltac:(cbn in LE; lia) ltac:(cbn in LF; lia) W2) as (Q3 & Q4).
    cbn [map list_sum fold_right]. unfold list_sum in *. split; lia. }
  cbn [nsum]. rewrite (cnt_target p e f es WR ltac:(lia)), (cnt_source p f fs _ SO). destruct K as (K1 & K2). split; lia.
Qed.
Lemma cnt_true : forall s, cnt (fun _ => true) s = length s.
Proof. intros. unfold cnt. f_equal. induction s as [|x s IH]; [reflexivity|]. cbn. f_equal. exact IH. Qed.

(** ** A function without a state, alone *)
Lemma stateless_score : forall T r f kids x, snd (bscore [stateless T] (DT rule r f kids)) x =
  (T r (length kids) f x + fold_right Rplus 0%R (map (fun k => snd (bscore [stateless T] k) x) kids))%R.
Proof.
  intros T r f kids x. cbn [bscore fst snd run]. cbn [Traversal stateless fst snd]. rewrite !map_length.
  assert (H : forall vs u, fold_left vplus vs u x = (u x + fold_right Rplus 0 (map (fun v : nat -> R => v x) vs))%R).
  { induction vs as [|v vs IH]; intros u; cbn [fold_left fold_right map]; [lra|]. rewrite IH. unfold vplus. lra. }
  rewrite H, !map_map. reflexivity.
Qed.
Lemma rsum_nat : forall A (g : A -> R) (h : A -> nat) v l, Forall (fun a => g a = (INR (h a) * v)%R) l -> fold_right Rplus 0%R (map g l) = (INR (list_sum (map h l)) * v)%R.
Proof.
  intros A g h v l F. induction F as [|a l Q F IH]; cbn [map fold_right list_sum]; [cbn; lra|]. rewrite IH, Q. fold (list_sum (map h l)). rewrite plus_INR. lra.
Qed.
Lemma stateless_total : forall T x l v, 
  (forall e f n g, wf_rule e f -> n = length (vars_of f) -> n <= 127 -> T (e, f) n g x = (INR (l e f n) * v)%R) ->
  forall d, wf_deriv (rules d) -> snd (bscore [stateless T] d) x = (INR (nsum l (rules d)) * v)%R.
Proof.
  intros T x l v H d. induction d as [[e f] g kids IH] using dtree_ind'. intros W. inversion W as [? ? ? WR LK L127 WK]; subst. cbn [fst snd] in *. rewrite map_length in LK, L127.
  rewrite stateless_score, (H e f (length kids) g WR LK L127). rewrite (rsum_nat _ _ (fun k => nsum l (rules k)) v).
  - cbn [rules nsum fst snd]. rewrite map_length, map_map, plus_INR. lra.
  - rewrite Forall_map in WK. clear - IH WK. induction IH as [|k kids Q F IHF]; constructor; inversion WK; subst; auto.
Qed.
Lemma arity_total : forall fids n x, nth_error fids n = Some x -> NoDup fids -> forall d, free_of x d -> snd (bscore [ArityPenalty fids] d) x = INR (rules_of_arity n (rules d)).
Proof.
  intros fids n x NE ND d. induction d as [[e f] g kids IH] using dtree_ind'. intros FO. inversion FO as [? ? ? G0 FK]; subst. unfold ArityPenalty in *.
  rewrite stateless_score. rewrite (rsum_nat _ _ (fun k => rules_of_arity n (rules k)) 1%R).
  - cbn [rules rules_of_arity fst snd]. rewrite map_length, map_map, plus_INR. rewrite Rmult_1_r. f_equal.
    destruct (Nat.eqb_spec (length kids) n) as [->|N]; [rewrite NE; unfold set_value; rewrite Nat.eqb_refl; reflexivity|].
    destruct (nth_error fids (length kids)) as [y|] eqn:NY; [|exact G0]. unfold set_value. destruct (Nat.eqb_spec x y) as [->|]; [|exact G0]. exfalso. apply N. apply (proj1 (NoDup_nth_error fids) ND); [apply nth_error_Some; congruence|congruence].
  - clear - IH FK. induction IH as [|k kids Q F IHF]; constructor; inversion FK; subst; [rewrite Rmult_1_r|]; auto.
Qed.
(** ** What they keep to *)
Lemma keeps_set : forall x (v : rule -> nat -> R), keeps_to (stateless (fun r n f => set_value x (v r n) f)) (fun y => y =? x).
Proof.
  intros x v. split; cbn; intros; unfold set_value; try reflexivity.
  - rewrite H0. reflexivity.
  - rewrite H. reflexivity.
  - auto.
Qed.
Lemma keeps_arity : forall fids, keeps_to (ArityPenalty fids) (fun y => existsb (Nat.eqb y) fids).
Proof.
  intros fids. split; cbn; intros; try reflexivity.
  - destruct (nth_error fids (length a)); [|auto]. unfold set_value. destruct (x =? n); auto.
  - destruct (nth_error fids (length a)) as [y|] eqn:NY; [|reflexivity]. unfold set_value. destruct (Nat.eqb_spec x y) as [->|]; [|reflexivity]. exfalso. apply nth_error_In in NY. assert (existsb (Nat.eqb y) fids = true) by (apply existsb_exists; exists y; split; [exact NY|apply Nat.eqb_refl]). congruence.
  - auto.
Qed.
(** ** In any set *)
Lemma in_set : forall T P a b d g x v, apart (a ++ (stateless T, P) :: b) -> P x = true -> snd (bscore [stateless T] d) x = v ->
  exists h, score_goal rule (map fst (a ++ (stateless T, P) :: b)) g d = Some h /\ h x = (v + g x)%R.
Proof.
  intros T P a b d g x v A PX Q. destruct (alone_ok a (stateless T) P b d g A) as (_ & _ & _ & _ & h & h1 & _ & _ & _ & _ & E1 & E2 & H). exists h. split; [exact E1|].
  rewrite (H x PX). rewrite goal_ok in E2; [|intros m [<- |[]]; reflexivity]. injection E2 as <-. unfold vplus. rewrite Q. reflexivity.
Qed.
Lemma local_words : forall e f, wf_rule e f -> length (vars_of f) <= 127 -> IZR (EWords e (ComputeArity e)) = INR (cnt (fun _ => true) (words_of e)) /\ IZR (FWords f (ComputeArity e)) = INR (cnt (fun _ => true) (words_of f)).
Proof. intros e f W L. destruct (ewords_ok e f W L) as (Q1 & Q2). rewrite Q1, Q2, !cnt_true, !INR_IZR_INZ. split; reflexivity. Qed.
Theorem word_penalty : forall a b P fid v d g es fs, apart (a ++ (WordPenalty fid v, P) :: b) -> P fid = true -> wf_deriv (rules d) -> pair_of (rules d) es fs ->
  exists h, score_goal rule (map fst (a ++ (WordPenalty fid v, P) :: b)) g d = Some h /\ h fid = (INR (length es) * v + g fid)%R.
Proof.
  intros a b P fid v d g es fs A PX W PO. apply in_set; [exact A|exact PX|]. rewrite <- (cnt_true es), (proj1 (pair_cnt (fun _ => true) _ es fs W PO)).
  apply stateless_total with (l := fun e _ _ => cnt (fun _ => true) (words_of e)); [|exact W]. intros e f n g0 WR -> L. unfold set_value. rewrite Nat.eqb_refl. cbn [fst snd]. rewrite (proj1 (local_words e f WR L)). reflexivity.
Qed.
Theorem source_penalty : forall a b P fid v d g es fs, apart (a ++ (SourceWordPenalty fid v, P) :: b) -> P fid = true -> wf_deriv (rules d) -> pair_of (rules d) es fs ->
  exists h, score_goal rule (map fst (a ++ (SourceWordPenalty fid v, P) :: b)) g d = Some h /\ h fid = (INR (length fs) * v + g fid)%R.
Proof.
  intros a b P fid v d g es fs A PX W PO. apply in_set; [exact A|exact PX|]. rewrite <- (cnt_true fs), (proj2 (pair_cnt (fun _ => true) _ es fs W PO)).
  apply stateless_total with (l := fun _ f _ => cnt (fun _ => true) (words_of f)); [|exact W]. intros e f n g0 WR -> L. unfold set_value. rewrite Nat.eqb_refl. cbn [fst snd]. rewrite (proj2 (local_words e f WR L)). reflexivity.
Qed.
Theorem arity_penalty : forall a b P fids n x d g, apart (a ++ (ArityPenalty fids, P) :: b) -> P x = true -> nth_error fids n = Some x -> NoDup fids -> free_of x d ->
  exists h, score_goal rule (map fst (a ++ (ArityPenalty fids, P) :: b)) g d = Some h /\ h x = (INR (rules_of_arity n (rules d)) + g x)%R.
Proof. intros a b P fids n x d g A PX NE ND FO. apply in_set; [exact A|exact PX|]. exact (arity_total fids n x NE ND d FO). Qed.
Lemma add_in : forall vocab e, Forall (fun w => (0 < w)%Z) vocab -> addScore false vocab e = INR (cnt (fun w => existsb (Z.eqb w) vocab) (words_of e)).
Proof.
  intros vocab e F. induction e as [|w e IH]; [reflexivity|]. cbn [addScore negb andb]. rewrite IH. unfold words_of, cnt. cbn [filter]. destruct (existsb (Z.eqb w) vocab) eqn:EX.
  - assert (0 < w)%Z. { apply existsb_exists in EX as (u & I & Q). apply Z.eqb_eq in Q. subst u. rewrite Forall_forall in F. exact (F w I). }
    destruct (Z.leb_spec 1 w); [|lia]. cbn [filter]. rewrite EX. cbn [length]. rewrite S_INR. lra.
  - destruct (Z.leb_spec 1 w); cbn [filter]; rewrite ?EX; lra.
Qed.
Lemma add_oov : forall vocab e, Forall (fun w => (0 < w)%Z) vocab -> addScore true vocab e = INR (cnt (fun w => negb (existsb (Z.eqb w) vocab)) (words_of e) + length (vars_of e)).
Proof.
  intros vocab e F. induction e as [|w e IH]; [reflexivity|]. cbn [addScore negb andb]. rewrite IH. unfold words_of, vars_of, cnt. cbn [filter]. rewrite !plus_INR. destruct (existsb (Z.eqb w) vocab) eqn:EX.
  - assert (0 < w)%Z. { apply existsb_exists in EX as (u & I & Q). apply Z.eqb_eq in Q. subst u. rewrite Forall_forall in F. exact (F w I). }
    destruct (Z.leb_spec 1 w), (Z.ltb_spec w 1); try lia. cbn [filter]. rewrite EX. cbn [negb]. lra.
  - destruct (Z.leb_spec 1 w), (Z.ltb_spec w 1); try lia; cbn [filter]; rewrite ?EX; cbn [negb length]; rewrite S_INR; lra.
Qed.
Theorem word_set : forall a b P fid vocab d g es fs, apart (a ++ (WordSet fid false vocab, P) :: b) -> P fid = true -> Forall (fun w => (0 < w)%Z) vocab -> wf_deriv (rules d) -> pair_of (rules d) es fs ->
  exists h, score_goal rule (map fst (a ++ (WordSet fid false vocab, P) :: b)) g d = Some h /\ h fid = (INR (among vocab es) + g fid)%R.
Proof.
  intros a b P fid vocab d g es fs A PX FV W PO. apply in_set; [exact A|exact PX|]. change (among vocab es) with (cnt (fun w => existsb (Z.eqb w) vocab) es). rewrite (proj1 (pair_cnt _ _ es fs W PO)).
  rewrite <- (Rmult_1_r (INR _)). apply stateless_total with (l := fun e _ _ => cnt (fun w => existsb (Z.eqb w) vocab) (words_of e)); [|exact W]. intros e f n g0 WR -> L. unfold set_value. rewrite Nat.eqb_refl. cbn [fst snd]. rewrite add_in by exact FV. lra.
Qed.
Lemma nsum_plus : forall l1 l2 d, nsum (fun e f n => l1 e f n + l2 e f n) d = nsum l1 d + nsum l2 d.
Proof.
  intros l1 l2 d. induction d as [e f kids IH] using deriv_ind'. cbn [nsum]. enough (list_sum (map (nsum (fun e f n => l1 e f n + l2 e f n)) kids) = list_sum (map (nsum l1) kids) + list_sum (map (nsum l2) kids)) by lia.
  induction IH as [|k kids Q F IHF]; [reflexivity|]. cbn [map list_sum fold_right]. unfold list_sum in *. lia.
Qed.
Lemma var_count : forall d, wf_deriv d -> S (nsum (fun e _ _ => length (vars_of e)) d) = rule_count d.
Proof.
  intros d. induction d as [e f kids IH] using deriv_ind'. intros W. inversion W as [? ? ? WR LK L127 WK]; subst. cbn [nsum rule_count]. f_equal. rewrite (proj1 (wf_vars e f WR)), <- LK. clear - IH WK.
  induction IH as [|k kids Q F IHF]; [reflexivity|]. inversion WK as [|? ? W1 W2]; subst. specialize (Q W1). specialize (IHF W2). cbn [map list_sum fold_right length]. unfold list_sum in *. lia.
Qed.
Lemma cnt_neg : forall p s, cnt (fun w => negb (p w)) s = length s - cnt p s /\ cnt p s <= length s.
Proof. intros p s. unfold cnt. induction s as [|w s (IH1 & IH2)]; [auto|]. cbn [filter]. destruct (p w); cbn [negb length]; lia. Qed.
Theorem word_oov : forall a b P fid vocab d g es fs, apart (a ++ (WordSet fid true vocab, P) :: b) -> P fid = true -> Forall (fun w => (0 < w)%Z) vocab -> wf_deriv (rules d) -> pair_of (rules d) es fs ->
  exists h, score_goal rule (map fst (a ++ (WordSet fid true vocab, P) :: b)) g d = Some h /\ h fid = (INR (length es - among vocab es + (rule_count (rules d) - 1)) + g fid)%R.
Proof.
  intros a b P fid vocab d g es fs A PX FV W PO. apply in_set; [exact A|exact PX|]. change (among vocab es) with (cnt (fun w => existsb (Z.eqb w) vocab) es). rewrite <- (proj1 (cnt_neg _ es)).
  rewrite (proj1 (pair_cnt _ _ es fs W PO)). pose proof (var_count _ W) as VC. replace (rule_count (rules d) - 1) with (nsum (fun e _ _ => length (vars_of e)) (rules d)) by lia. rewrite <- nsum_plus.
  rewrite <- (Rmult_1_r (INR _)). apply stateless_total with (l := fun e _ _ => cnt (fun w => negb (existsb (Z.eqb w) vocab)) (words_of e) + length (vars_of e)); [|exact W]. intros e f n g0 WR -> L. unfold set_value. rewrite Nat.eqb_refl. cbn [fst snd]. rewrite add_oov by exact FV. lra.
Qed.
