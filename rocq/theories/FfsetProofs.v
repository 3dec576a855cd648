(** Proofs for Ffset.v. *)
From Coq Require Import List Arith Bool Reals Lia Permutation.
From Verif Require Import Opt OptProofs Ffset FfsetSpec.
Import ListNotations.
Open Scope opt_scope.
Local Open Scope nat_scope.

Section P.
Context {E : Type}.
Notation ffun := (ffun E).
Notation fvec := (nat -> R).
Notation size := (StateSize E).
Notation ign := (IgnoredStateSize E).
Notation total := (fun ms => list_sum (map size ms)).

(** ** The layout *)
Fixpoint positions (s : nat) (ms : list ffun) : list nat := match ms with [] => [] | m :: r => s :: positions (s + size m) r end.
Fixpoint erasures (s : nat) (ms : list ffun) : list (nat * nat) :=
  match ms with [] => [] | m :: r => (if 0 <? ign m then [(s + size m - ign m, s + size m)] else []) ++ erasures (s + size m) r end.
Lemma layout_ok : forall ms s, layout E ms s = (positions s ms, s + total ms, erasures s ms).
Proof.
  induction ms as [|m r IH]; intros s; cbn [layout positions erasures map list_sum fold_right]; [rewrite Nat.add_0_r; reflexivity|].
  rewrite IH. fold (list_sum (map size r)). rewrite Nat.add_assoc. destruct (0 <? ign m); reflexivity.
Qed.

(** ** Blocks *)
Definition blocks (ms : list ffun) (bl : list (list nat)) : Prop := Forall2 (fun m b => length b = size m) ms bl.
Lemma blocks_len : forall ms bl, blocks ms bl -> length (concat bl) = total ms.
Proof. intros ms bl H. induction H as [|m b ms bl L H IH]; [reflexivity|]. cbn [concat map list_sum fold_right]. rewrite app_length, IH, L. reflexivity. Qed.
Lemma read_at : forall (pre b post : list nat), read (pre ++ b ++ post) (length pre) (length b) = Some b.
Proof.
  intros. unfold read. rewrite !app_length. destruct (Nat.leb_spec (length pre + length b) (length pre + (length b + length post))); [|lia].
  rewrite skipn_app, skipn_all, Nat.sub_diag. cbn [app skipn]. rewrite firstn_app, Nat.sub_diag, firstn_all. cbn. rewrite app_nil_r. reflexivity.
Qed.
Lemma write_at : forall (pre b post bs : list nat), length bs = length b -> write (pre ++ b ++ post) (length pre) bs = Some (pre ++ bs ++ post).
Proof.
  intros pre b post bs L. unfold write. rewrite !app_length, L. destruct (Nat.leb_spec (length pre + length b) (length pre + (length b + length post))); [|lia].
  rewrite firstn_app, Nat.sub_diag, firstn_all. cbn [firstn]. rewrite app_nil_r. do 3 f_equal.
  rewrite app_assoc, skipn_app, app_length, Nat.sub_diag, skipn_all2 by (rewrite app_length; lia). reflexivity.
Qed.

(** ** The models one after the other, on blocks *)
Fixpoint run (ms : list ffun) (kids : list (list (list nat))) (e : E) (f : fvec) : list (list nat) * fvec :=
  match ms with
  | [] => ([], f)
  | m :: r =>
      let t := Traversal E m e (map (hd []) kids) f in
      let u := run r (map (@tl _) kids) e (snd t) in (fst t :: fst u, snd u)
  end.
Definition sized (ms : list ffun) : Prop := forall m, In m ms -> forall e a f, length (fst (Traversal E m e a f)) = size m.
Lemma run_blocks : forall ms kids e f, sized ms -> blocks ms (fst (run ms kids e f)).
Proof.
  induction ms as [|m r IH]; intros kids e f S; [constructor|]. cbn. constructor; [apply S; left; reflexivity|]. apply IH. intros m' I. apply S. right. exact I.
Qed.
(** the states of the tails: [pre] has the parts of the models before *)
Definition states_of (pres : list (list nat)) (kids : list (list (list nat))) : list (list nat) :=
  map (fun q => fst q ++ concat (snd q)) (combine pres kids).
Lemma read_all_ok : forall m ms p kids pres, Forall (blocks (m :: ms)) kids -> Forall (fun pre => length pre = p) pres -> length pres = length kids ->
  read_all (states_of pres kids) p (size m) = Some (map (hd []) kids).
Proof.
  intros m ms p kids. induction kids as [|bl kids IH]; intros [|pre pres] B F L; try discriminate; [reflexivity|].
  inversion B as [|? ? B1 B2]; subst. inversion F as [|? ? F1 F2]; subst. inversion B1 as [|? b ? bl' LB BB]; subst.
  unfold states_of. cbn [combine map fst snd concat read_all]. rewrite <- LB, read_at. cbn [bind]. rewrite LB.
  fold (states_of pres kids). rewrite (IH pres B2 F2) by (cbn in L; lia). reflexivity.
Qed.
Lemma states_next : forall m ms kids pres, Forall (blocks (m :: ms)) kids -> length pres = length kids ->
  exists pres', states_of pres kids = states_of pres' (map (@tl _) kids) /\ length pres' = length (map (@tl _) kids) /\
    forall p, Forall (fun pre => length pre = p) pres -> Forall (fun pre => length pre = p + size m) pres'.
Proof.
  intros m ms kids. induction kids as [|bl kids IH]; intros [|pre pres] B L; try discriminate; [exists []; repeat split; constructor|].
  inversion B as [|? ? B1 B2]; subst. inversion B1 as [|? b ? bl' LB BB]; subst. destruct (IH pres B2 ltac:(cbn in L; lia)) as (pres' & Q1 & Q2 & Q3).
  exists ((pre ++ b) :: pres'). split; [|split].
  - unfold states_of in *. cbn [combine map fst snd concat tl]. rewrite <- app_assoc. f_equal. exact Q1.
  - cbn. rewrite Q2. reflexivity.
  - intros p F. inversion F as [|? ? F1 F2]; subst. constructor; [rewrite app_length, LB; reflexivity|]. exact (Q3 _ F2).
Qed.
Lemma tl_blocks : forall m ms kids, Forall (blocks (m :: ms)) kids -> Forall (blocks ms) (map (@tl _) kids).
Proof. intros m ms kids F. induction F as [|bl kids B F IH]; [constructor|]. cbn. constructor; [inversion B; subst; assumption|exact IH]. Qed.
Lemma hd_empty : forall m ms kids, Forall (blocks (m :: ms)) kids -> size m = 0 -> map (hd []) kids = map (fun _ => []) kids.
Proof.
  intros m ms kids F Z. induction F as [|bl kids B F IH]; [reflexivity|]. cbn. f_equal; [|exact IH]. inversion B as [|? b ? bl' LB BB]; subst. cbn. destruct b; [reflexivity|]. cbn in LB. lia.
Qed.
Lemma states_len : forall pres kids, length pres = length kids -> length (states_of pres kids) = length kids.
Proof. intros. unfold states_of. rewrite map_length, combine_length. lia. Qed.
Lemma map_const : forall A B C (c : C) (l : list A) (l' : list B), length l = length l' -> map (fun _ => c) l = map (fun _ => c) l'.
Proof. intros A B C c l. induction l as [|x l IH]; intros [|y l'] H; try discriminate; [reflexivity|]. cbn. f_equal. apply IH. cbn in H. lia. Qed.
Lemma traverse_ok : forall ms kids pres pre old post e f, sized ms -> Forall (blocks ms) kids -> length pres = length kids ->
  Forall (fun q => length q = length pre) pres -> length old = total ms ->
  traverse_models E ms (positions (length pre) ms) e (states_of pres kids) (pre ++ old ++ post) f =
  Some (pre ++ concat (fst (run ms kids e f)) ++ post, snd (run ms kids e f)).
Proof.
  induction ms as [|m r IH]; intros kids pres pre old post e f S B L F LO.
  - cbn in LO. destruct old; [|discriminate]. reflexivity.
  - cbn [positions traverse_models].
    assert (A : (if 0 <? size m then read_all (states_of pres kids) (length pre) (size m) else Some (map (fun _ => []) (states_of pres kids))) = Some (map (hd []) kids)).
    { destruct (Nat.ltb_spec 0 (size m)); [apply (read_all_ok m r); assumption|]. f_equal. rewrite (hd_empty m r kids B ltac:(lia)). apply map_const. apply states_len. exact L. }
    rewrite A. cbn [bind]. cbn [run fst snd]. set (t := Traversal E m e (map (hd []) kids) f). rewrite (surjective_pairing t).
    assert (LT : length (fst t) = size m) by (apply S; left; reflexivity).
    cbn [map list_sum fold_right] in LO. assert (SP : exists o1 o2, old = o1 ++ o2 /\ length o1 = size m /\ length o2 = total r).
    { exists (firstn (size m) old), (skipn (size m) old). split; [symmetry; apply firstn_skipn|]. rewrite firstn_length, skipn_length. unfold list_sum in *. lia. }
    destruct SP as (o1 & o2 & -> & L1 & L2).
    assert (W : (if 0 <? size m then write (pre ++ (o1 ++ o2) ++ post) (length pre) (fst t) else Some (pre ++ (o1 ++ o2) ++ post)) = Some ((pre ++ fst t) ++ o2 ++ post)).
    { rewrite <- !app_assoc. destruct (Nat.ltb_spec 0 (size m)); [apply write_at; congruence|]. destruct o1; [|cbn in L1; lia]. destruct (fst t); [|cbn in LT; lia]. reflexivity. }
    rewrite W. cbn [bind]. destruct (states_next m r kids pres B L) as (pres' & Q1 & Q2 & Q3). rewrite Q1.
    replace (length pre + size m) with (length (pre ++ fst t)) by (rewrite app_length; lia).
    rewrite (IH (map (@tl _) kids) pres' (pre ++ fst t) o2 post e (snd t)).
    + cbn [fst snd concat]. rewrite <- !app_assoc. reflexivity.
    + intros m' I. apply S. right. exact I.
    + exact (tl_blocks m r kids B).
    + exact Q2.
    + rewrite app_length, LT. apply Q3. exact F.
    + exact L2.
Qed.
Lemma add_ok : forall ms kids e f, sized ms -> Forall (blocks ms) kids ->
  AddFeaturesToEdge E ms e (map (@concat _) kids) f = Some (concat (fst (run ms kids e f)), snd (run ms kids e f)).
Proof.
  intros ms kids e f S B. unfold AddFeaturesToEdge, model_state_pos, state_size. rewrite layout_ok. cbn [fst snd].
  pose proof (traverse_ok ms kids (map (fun _ => []) kids) [] (repeat 0 (total ms)) [] e f S B) as T. cbn [app length] in T. rewrite !app_nil_r in T.
  replace (map (@concat _) kids) with (states_of (map (fun _ => []) kids) kids).
  - apply T; [apply map_length|apply Forall_forall; intros q I; apply in_map_iff in I as (z & <- & _); reflexivity|apply repeat_length].
  - unfold states_of. clear. induction kids as [|k kids IH]; [reflexivity|]. cbn in *. f_equal. exact IH.
Qed.

(** ** Derivations on blocks *)
Fixpoint bscore (ms : list ffun) (d : dtree E) : list (list nat) * fvec :=
  match d with
  | DT _ e f kids =>
      let rs := map (bscore ms) kids in
      let t := run ms (map fst rs) e f in (fst t, fold_left vplus (map snd rs) (snd t))
  end.
Lemma dtree_ind' : forall P : dtree E -> Prop, (forall e f kids, Forall P kids -> P (DT E e f kids)) -> forall d, P d.
Proof.
  intros P H. fix IH 1. intros [e f kids]. apply H. induction kids as [|k kids IHk]; constructor; [apply IH|exact IHk].
Qed.
Lemma bscore_blocks : forall ms, sized ms -> forall d, blocks ms (fst (bscore ms d)).
Proof. intros ms S [e f kids]. cbn. apply run_blocks. exact S. Qed.
Lemma score_ok : forall ms, sized ms -> forall d, score E ms d = Some (concat (fst (bscore ms d)), snd (bscore ms d)).
Proof.
  intros ms S d. induction d as [e f kids IH] using dtree_ind'. cbn [score].
  assert (G : (fix go l := match l with [] => Some [] | k :: r => x <- score E ms k ;; xs <- go r ;; Some (x :: xs) end) kids =
    Some (map (fun k => (concat (fst (bscore ms k)), snd (bscore ms k))) kids)).
  { induction IH as [|k kids Q F IHF]; [reflexivity|]. cbn [map]. rewrite Q. cbn [bind]. rewrite IHF. reflexivity. }
  rewrite G. cbn [bind]. rewrite !map_map. cbn [fst snd].
  rewrite <- (map_map (fun k => fst (bscore ms k)) (@concat _)). rewrite add_ok; [|exact S|].
  - cbn [bind]. cbn [bscore fst snd]. rewrite !map_map. reflexivity.
  - apply Forall_forall. intros bl I. apply in_map_iff in I as (k & <- & _). apply bscore_blocks. exact S.
Qed.

(** ** One model among others *)
Section One.
Variables (a b : list ffun) (m : ffun) (P : nat -> bool).
Hypothesis km : keeps_to m P.
Hypothesis ka : forall m' e s f x, In m' (a ++ b) -> P x = true -> snd (Traversal E m' e s f) x = f x.
Hypothesis kf : forall m' s f x, In m' (a ++ b) -> P x = true -> FinalTraversal E m' s f x = f x.

Lemma run_untouched : forall ms, (forall m', In m' ms -> In m' (a ++ b)) -> forall kids e f x, P x = true -> snd (run ms kids e f) x = f x.
Proof.
  induction ms as [|m' ms IH]; intros SUB kids e f x PX; [reflexivity|]. cbn. rewrite IH; [|intros; apply SUB; right; assumption|exact PX]. apply ka; [apply SUB; left; reflexivity|exact PX].
Qed.
Lemma run_at : forall a', (forall m', In m' a' -> In m' (a ++ b)) -> forall kids e f g, (forall x, P x = true -> f x = g x) ->
  nth (length a') (fst (run (a' ++ m :: b) kids e f)) [] = fst (Traversal E m e (map (fun k => nth (length a') k []) kids) g) /\
  forall x, P x = true -> snd (run (a' ++ m :: b) kids e f) x = snd (Traversal E m e (map (fun k => nth (length a') k []) kids) g) x.
Proof.
  induction a' as [|m' a' IH]; intros SUB kids e f g EQ.
  - cbn [app run fst snd length nth]. assert (MH : map (hd []) kids = map (fun k : list (list nat) => nth 0 k []) kids) by (apply map_ext; intros [|? ?]; reflexivity). rewrite MH. split.
    + apply (k_state m P km). exact EQ.
    + intros x PX. rewrite run_untouched; [|intros m' I; apply in_or_app; right; exact I|exact PX]. apply (k_own m P km); assumption.
  - cbn [app run fst snd length nth]. destruct (IH (fun m' I => SUB m' (or_intror I)) (map (@tl _) kids) e (snd (Traversal E m' e (map (hd []) kids) f)) g) as (Q1 & Q2).
    { intros x PX. rewrite ka; [exact (EQ x PX)|apply SUB; left; reflexivity|exact PX]. }
    assert (MT : map (fun k => nth (length a') k []) (map (@tl _) kids) = map (fun k : list (list nat) => nth (S (length a')) k []) kids) by (rewrite map_map; apply map_ext; intros [|? k]; [destruct (length a'); reflexivity|reflexivity]).
    rewrite MT in Q1, Q2. split; assumption.
Qed.
Lemma bscore_at : forall d, nth (length a) (fst (bscore (a ++ m :: b) d)) [] = nth 0 (fst (bscore [m] d)) [] /\
  forall x, P x = true -> snd (bscore (a ++ m :: b) d) x = snd (bscore [m] d) x.
Proof.
  intros d. induction d as [e f kids IH] using dtree_ind'. cbn [bscore fst snd].
  assert (SUB : forall m', In m' a -> In m' (a ++ b)) by (intros; apply in_or_app; left; assumption).
  destruct (run_at a SUB (map fst (map (bscore (a ++ m :: b)) kids)) e f f (fun x _ => eq_refl)) as (Q1 & Q2).
  assert (KE : map (fun k => nth (length a) k []) (map fst (map (bscore (a ++ m :: b)) kids)) = map (hd []) (map fst (map (bscore [m]) kids))).
  { rewrite !map_map. apply map_ext_Forall. revert IH. apply Forall_impl. intros k (Q & _). rewrite Q. destruct (fst (bscore [m] k)); reflexivity. }
  rewrite KE in Q1, Q2. split; [exact Q1|]. intros x PX.
  cbn [run fst snd]. set (u := snd (run (a ++ m :: b) (map fst (map (bscore (a ++ m :: b)) kids)) e f)) in *.
  set (v := snd (Traversal E m e (map (hd []) (map fst (map (bscore [m]) kids))) f)) in *. specialize (Q2 x PX).
  clearbody u v. clear Q1 KE. revert u v Q2. induction IH as [|k kids (_ & Q) F IHF]; intros u v UV; [exact UV|]. cbn [map fold_left]. apply IHF. unfold vplus. rewrite UV, (Q x PX). reflexivity.
Qed.
Lemma concat_part : forall ms bl c (r : list ffun), blocks (ms ++ c :: r) bl -> part_of ms c (concat bl) = nth (length ms) bl [].
Proof.
  unfold part_of. induction ms as [|m0 ms IH]; intros bl c r B.
  - inversion B as [|? b0 ? bl' LB BB]; subst. cbn [map list_sum fold_right skipn concat length nth]. rewrite firstn_app, <- LB, Nat.sub_diag, firstn_all. cbn. apply app_nil_r.
  - inversion B as [|? b0 ? bl' LB BB]; subst. cbn [map list_sum fold_right concat length nth]. rewrite skipn_app, skipn_all2 by lia. cbn [app]. rewrite <- (IH bl' c r BB). rewrite LB.
    replace (size m0 + fold_right Nat.add 0 (map size ms) - size m0) with (list_sum (map size ms)) by (unfold list_sum; lia). reflexivity.
Qed.
(** the final features *)
Fixpoint brun_final (ms : list ffun) (bl : list (list nat)) (f : fvec) : fvec :=
  match ms with [] => f | m0 :: r => brun_final r (tl bl) (FinalTraversal E m0 (hd [] bl) f) end.
Lemma final_untouched : forall ms, (forall m', In m' ms -> In m' (a ++ b)) -> forall bl f x, P x = true -> brun_final ms bl f x = f x.
Proof.
  induction ms as [|m' ms IH]; intros SUB bl f x PX; [reflexivity|]. cbn. rewrite IH; [|intros; apply SUB; right; assumption|exact PX]. apply kf; [apply SUB; left; reflexivity|exact PX].
Qed.
Lemma final_at : forall a', (forall m', In m' a' -> In m' (a ++ b)) -> forall bl f g x, (forall y, P y = true -> f y = g y) -> P x = true ->
  brun_final (a' ++ m :: b) bl f x = FinalTraversal E m (nth (length a') bl []) g x.
Proof.
  induction a' as [|m' a' IH]; intros SUB bl f g x EQ PX.
  - cbn [app brun_final length]. rewrite final_untouched; [|intros m' I; apply in_or_app; right; exact I|exact PX]. replace (nth 0 bl []) with (hd [] bl) by (destruct bl; reflexivity). apply (k_final m P km); assumption.
  - cbn [app brun_final length]. rewrite (IH (fun m' I => SUB m' (or_intror I)) (tl bl) _ g x); [|intros y PY; rewrite kf; [exact (EQ y PY)|apply SUB; left; reflexivity|exact PY]|exact PX].
    replace (nth (length a') (tl bl) []) with (nth (S (length a')) bl []) by (destruct bl; [destruct (length a'); reflexivity|reflexivity]). reflexivity.
Qed.
End One.
Lemma final_ok : forall ms bl pre f, blocks ms bl -> final_models E ms (positions (length pre) ms) (pre ++ concat bl) f = Some (brun_final ms bl f).
Proof.
  induction ms as [|m r IH]; intros bl pre f B; [reflexivity|]. inversion B as [|? b0 ? bl' LB BB]; subst. cbn [positions final_models concat brun_final hd tl].
  assert (A : (if 0 <? size m then read (pre ++ b0 ++ concat bl') (length pre) (size m) else Some []) = Some b0).
  { destruct (Nat.ltb_spec 0 (size m)); [rewrite <- LB; apply read_at|]. destruct b0; [reflexivity|cbn in LB; lia]. }
  rewrite A. cbn [bind]. replace (length pre + size m) with (length (pre ++ b0)) by (rewrite app_length; lia). rewrite app_assoc. apply IH. exact BB.
Qed.
Lemma goal_ok : forall ms g d, sized ms -> score_goal E ms g d = Some (vplus (snd (bscore ms d)) (brun_final ms (fst (bscore ms d)) g)).
Proof.
  intros ms g d S. unfold score_goal. rewrite score_ok by exact S. cbn [bind]. unfold AddFinalFeatures, model_state_pos. rewrite layout_ok. cbn [fst snd].
  pose proof (final_ok ms (fst (bscore ms d)) [] g (bscore_blocks ms S d)) as F. cbn [length app] in F. rewrite F. reflexivity.
Qed.

(** ** The theorems *)
Notation owned := (ffun * (nat -> bool))%type.
Notation models := (map (@fst ffun (nat -> bool))).
Lemma apart_sized : forall l : list owned, apart l -> sized (models l).
Proof. intros l (K & _) m I. apply in_map_iff in I as ((m0 & P) & <- & I). exact (k_size _ _ (K m0 P I)). Qed.
Lemma apart_one : forall (a : list owned) m P b, apart (a ++ (m, P) :: b) -> keeps_to m P /\
  (forall m' e s f x, In m' (models a ++ models b) -> P x = true -> snd (Traversal E m' e s f) x = f x) /\
  (forall m' s f x, In m' (models a ++ models b) -> P x = true -> FinalTraversal E m' s f x = f x).
Proof.
  intros a m P b (K & D). assert (IN : forall m' P', In (m', P') (a ++ b) -> In (m', P') (a ++ (m, P) :: b)) by (intros m' P' I; apply in_app_or in I as [I|I]; apply in_or_app; [left|right; right]; assumption).
  split; [apply K; apply in_or_app; right; left; reflexivity|]. split.
  - intros m' e s f x I O. rewrite <- map_app in I. apply in_map_iff in I as ((m0 & P0) & <- & I). apply (k_other m0 P0 (K m0 P0 (IN m0 P0 I))). exact (D a m P b m0 P0 x eq_refl I O).
  - intros m' s f x I O. rewrite <- map_app in I. apply in_map_iff in I as ((m0 & P0) & <- & I). apply (k_final_other m0 P0 (K m0 P0 (IN m0 P0 I))). exact (D a m P b m0 P0 x eq_refl I O).
Qed.
Theorem alone_ok : forall (a : list owned) m P b d g, apart (a ++ (m, P) :: b) -> exists s f s1 f1 h h1,
  score E (models (a ++ (m, P) :: b)) d = Some (s, f) /\ score E [m] d = Some (s1, f1) /\ part_of (models a) m s = s1 /\ (forall x, P x = true -> f x = f1 x) /\
  score_goal E (models (a ++ (m, P) :: b)) g d = Some h /\ score_goal E [m] g d = Some h1 /\ forall x, P x = true -> h x = h1 x.
Proof.
  intros a m P b d g A. pose proof (apart_sized _ A) as S. destruct (apart_one a m P b A) as (KM & KA & KF).
  assert (S1 : sized [m]) by (intros m' [<- |[]]; exact (k_size m _ KM)).
  rewrite map_app in S |- *. cbn [map fst] in S |- *.
  destruct (bscore_at (models a) (models b) m P KM KA d) as (Q1 & Q2). pose proof (bscore_blocks [m] S1 d) as B1.
  inversion B1 as [|? b1 ? bl1 LB1 BB1 EB1 EQ1]; subst. inversion BB1; subst.
  do 6 eexists. split; [apply score_ok; exact S|]. split; [apply score_ok; exact S1|]. split; [|split; [exact Q2|split; [apply goal_ok; exact S|split; [apply goal_ok; exact S1|]]]].
  - rewrite (concat_part (models a) _ m (models b) (bscore_blocks _ S d)), Q1, <- EQ1. cbn. rewrite app_nil_r. reflexivity.
  - intros x O. unfold vplus. rewrite (Q2 x O). f_equal.
    rewrite (final_at (models a) (models b) m P KM KF (models a) ltac:(intros; apply in_or_app; left; assumption) _ g g x (fun _ _ => eq_refl) O), Q1. rewrite <- EQ1. reflexivity.
Qed.
Lemma bscore_none : forall (l : list owned) x, apart l -> (forall m P, In (m, P) l -> P x = false) -> forall d, snd (bscore (models l) d) x = rule_sum x d.
Proof.
  intros l x (K & _) N d. induction d as [e f kids IH] using dtree_ind'. cbn [bscore snd rule_sum].
  assert (U : snd (run (models l) (map fst (map (bscore (models l)) kids)) e f) x = f x).
  { generalize (map fst (map (bscore (models l)) kids)) as ks. clear IH. revert f. induction l as [|(m & P) r IHm]; intros f ks; [reflexivity|]. cbn. rewrite IHm; [|intros; apply K; right; assumption|intros m' P' I; apply (N m' P'); right; assumption]. apply (k_other m _ (K m P (or_introl eq_refl))). apply (N m P). left. reflexivity. }
  revert U. generalize (snd (run (models l) (map fst (map (bscore (models l)) kids)) e f)) as u. intros u U. rewrite <- U. clear U f. revert u.
  induction IH as [|k kids Q F IHF]; intros u; [reflexivity|]. cbn [map fold_left]. rewrite IHF. unfold vplus at 1. rewrite Q. reflexivity.
Qed.
Theorem none_ok : forall (l : list owned) x d g, apart l -> (forall m P, In (m, P) l -> P x = false) ->
  exists h, score_goal E (models l) g d = Some h /\ h x = (rule_sum x d + g x)%R.
Proof.
  intros l x d g A N. eexists. split; [apply goal_ok; exact (apart_sized _ A)|]. unfold vplus. rewrite (bscore_none l x A N). f_equal.
  destruct A as (K & _). generalize (fst (bscore (models l) d)) as bl. revert g. induction l as [|(m & P) r IHm]; intros g bl; [reflexivity|]. cbn. rewrite IHm; [|intros; apply K; right; assumption|intros m' P' I; apply (N m' P'); right; assumption]. apply (k_final_other m _ (K m P (or_introl eq_refl))). apply (N m P). left. reflexivity.
Qed.
Lemma apart_perm : forall l l' : list owned, Permutation l l' -> apart l -> apart l'.
Proof.
  intros l l' PM (K & D). split; [intros m P I; apply K; exact (Permutation_in _ (Permutation_sym PM) I)|].
  intros a m P b m' P' x -> I O. assert (IM : In (m, P) l) by (apply (Permutation_in _ (Permutation_sym PM)); apply in_or_app; right; left; reflexivity).
  apply in_split in IM as (a0 & b0 & ->). apply (D a0 m P b0 m' P' x eq_refl); [|exact O].
  apply Permutation_app_inv in PM. exact (Permutation_in _ (Permutation_sym PM) I).
Qed.
Theorem order_ok : forall (l l' : list owned) d g, Permutation l l' -> apart l -> exists h h', score_goal E (models l) g d = Some h /\ score_goal E (models l') g d = Some h' /\ forall x, h x = h' x.
Proof.
  intros l l' d g PM A. pose proof (apart_perm _ _ PM A) as A'. pose proof (apart_sized _ A) as S. pose proof (apart_sized _ A') as S'.
  do 2 eexists. split; [apply goal_ok; exact S|]. split; [apply goal_ok; exact S'|]. intros x.
  destruct (existsb (fun mp => snd mp x) l) eqn:EX.
  - apply existsb_exists in EX as ((m & P) & I & O). cbn in O. pose proof (Permutation_in _ PM I) as I'.
    apply in_split in I as (a & b & ->). apply in_split in I' as (a' & b' & ->).
    destruct (alone_ok a m P b d g A) as (_ & _ & _ & _ & h & h1 & _ & _ & _ & _ & E1 & E2 & Q). destruct (alone_ok a' m P b' d g A') as (_ & _ & _ & _ & h' & h1' & _ & _ & _ & _ & E1' & E2' & Q').
    rewrite goal_ok in E1 by exact S. rewrite goal_ok in E1' by exact S'. injection E1 as <-. injection E1' as <-. rewrite (Q x O), (Q' x O). congruence.
  - assert (N : forall m P, In (m, P) l -> P x = false). { intros m P I. destruct (P x) eqn:O; [|reflexivity]. rewrite <- EX. symmetry. apply existsb_exists. exists (m, P). auto. }
    assert (N' : forall m P, In (m, P) l' -> P x = false) by (intros m P I; apply (N m P); exact (Permutation_in _ (Permutation_sym PM) I)).
    destruct (none_ok l x d g A N) as (h & E1 & Q). destruct (none_ok l' x d g A' N') as (h' & E1' & Q'). rewrite goal_ok in E1 by exact S. rewrite goal_ok in E1' by exact S'. injection E1 as <-. injection E1' as <-. congruence.
Qed.

(** ** States compared *)
Lemma combine_app : forall A B (l1 l2 : list A) (r1 r2 : list B), length l1 = length r1 -> combine (l1 ++ l2) (r1 ++ r2) = combine l1 r1 ++ combine l2 r2.
Proof. intros A B l1 l2. induction l1 as [|x l1 IH]; intros [|y r1] r2 H; try discriminate; [reflexivity|]. cbn. f_equal. apply IH. cbn in H. lia. Qed.
Lemma erase1_app : forall (pre u : list nat) i j, length pre <= i -> erase1 (pre ++ u) (i, j) = pre ++ erase1 u (i - length pre, j - length pre).
Proof.
  intros pre u i j L. unfold erase1. rewrite app_length, seq_app, combine_app by apply seq_length. rewrite map_app. cbn [fst snd Nat.add]. f_equal.
  - assert (H : forall s (l : list nat), s + length l <= i -> map (fun ib : nat * nat => if (i <=? fst ib) && (fst ib <? j) then 0 else snd ib) (combine (seq s (length l)) l) = l).
    { intros s l. revert s. induction l as [|x l IH]; intros s LS; [reflexivity|]. cbn [length seq combine map fst snd] in *. destruct (Nat.leb_spec i s); [lia|]. cbn [andb]. f_equal. apply IH. lia. }
    apply H. lia.
  - assert (H : forall s, map (fun ib : nat * nat => if (i <=? fst ib) && (fst ib <? j) then 0 else snd ib) (combine (seq (length pre + s) (length u)) u) =
      map (fun ib : nat * nat => if (i - length pre <=? fst ib) && (fst ib <? j - length pre) then 0 else snd ib) (combine (seq s (length u)) u)).
    { induction u as [|x u IH]; intros s; [reflexivity|]. cbn [length seq combine map fst snd]. f_equal; [|replace (S (length pre + s)) with (length pre + S s) by lia; apply IH].
      destruct (Nat.leb_spec i (length pre + s)), (Nat.leb_spec (i - length pre) s), (Nat.ltb_spec (length pre + s) j), (Nat.ltb_spec s (j - length pre)); try lia; reflexivity. }
    specialize (H 0). rewrite Nat.add_0_r in H. exact H.
Qed.
Lemma erase1_block : forall (u v : list nat) k, k <= length u -> erase1 (u ++ v) (k, length u) = firstn k u ++ repeat 0 (length u - k) ++ v.
Proof.
  intros u v k L. rewrite <- (firstn_skipn k u) at 1. rewrite <- app_assoc. assert (LF : length (firstn k u) = k) by (rewrite firstn_length; lia).
  rewrite erase1_app by lia. f_equal. rewrite LF, Nat.sub_diag. assert (LS : length (skipn k u) = length u - k) by apply skipn_length. rewrite <- LS. generalize (skipn k u) as w. clear. intros w.
  unfold erase1. rewrite app_length, seq_app, combine_app by apply seq_length. rewrite map_app. cbn [fst snd Nat.add]. f_equal.
  - assert (H : forall s (l : list nat) n, s + length l <= n -> map (fun ib : nat * nat => if (0 <=? fst ib) && (fst ib <? n) then 0 else snd ib) (combine (seq s (length l)) l) = repeat 0 (length l)).
    { intros s l. revert s. induction l as [|x l IH]; intros s n LS; [reflexivity|]. cbn [length seq combine map fst snd repeat] in *. destruct (Nat.ltb_spec s n); [|lia]. cbn [andb]. f_equal. apply IH. lia. }
    apply H. lia.
  - assert (H : forall s n (l : list nat), n <= s -> map (fun ib : nat * nat => if (0 <=? fst ib) && (fst ib <? n) then 0 else snd ib) (combine (seq s (length l)) l) = l).
    { intros s n l. revert s. induction l as [|x l IH]; intros s LS; [reflexivity|]. cbn [length seq combine map fst snd] in *. destruct (Nat.ltb_spec s n); [lia|]. rewrite andb_false_r. f_equal. apply IH. lia. }
    apply H. lia.
Qed.
Definition wipe (m : ffun) (b : list nat) : list nat := firstn (size m - ign m) b ++ repeat 0 (ign m).
Lemma erase_ok : forall ms bl pre, blocks ms bl -> Forall (fun m => ign m <= size m) ms ->
  fold_left erase1 (erasures (length pre) ms) (pre ++ concat bl) = pre ++ concat (map (fun mb => wipe (fst mb) (snd mb)) (combine ms bl)).
Proof.
  induction ms as [|m r IH]; intros bl pre B F; inversion B as [|? b ? bl' LB BB]; subst; [reflexivity|]. inversion F as [|? ? F1 F2]; subst.
  cbn [erasures concat combine map fst snd]. rewrite fold_left_app.
  assert (ONE : fold_left erase1 (if 0 <? ign m then [(length pre + size m - ign m, length pre + size m)] else []) (pre ++ b ++ concat bl') = (pre ++ wipe m b) ++ concat bl').
  { rewrite <- app_assoc. destruct (Nat.ltb_spec 0 (ign m)).
    - cbn [fold_left]. rewrite erase1_app by lia. f_equal. replace (length pre + size m - ign m - length pre) with (size m - ign m) by lia. replace (length pre + size m - length pre) with (length b) by lia.
      rewrite erase1_block by lia. unfold wipe. rewrite <- app_assoc. do 3 f_equal. lia.
    - cbn [fold_left]. unfold wipe. replace (ign m) with 0 by lia. rewrite Nat.sub_0_r, <- LB, firstn_all. cbn. rewrite app_nil_r. reflexivity. }
  rewrite ONE. assert (LW : length (wipe m b) = size m) by (unfold wipe; rewrite app_length, firstn_length, repeat_length; lia).
  replace (length pre + size m) with (length (pre ++ wipe m b)) by (rewrite app_length; lia). rewrite (IH bl' (pre ++ wipe m b) BB F2). rewrite <- app_assoc. reflexivity.
Qed.
Lemma split_blocks : forall ms s, length s = total ms -> exists bl, blocks ms bl /\ s = concat bl.
Proof.
  induction ms as [|m r IH]; intros s L; [exists []; split; [constructor|]; destruct s; [reflexivity|discriminate]|]. cbn [map list_sum fold_right] in L.
  destruct (IH (skipn (size m) s)) as (bl & B & Q); [rewrite skipn_length; unfold list_sum; lia|]. exists (firstn (size m) s :: bl). split; [constructor; [rewrite firstn_length; lia|exact B]|]. cbn. rewrite <- Q. symmetry. apply firstn_skipn.
Qed.
Lemma app_same : forall (u u' v v' : list nat), length u = length u' -> u ++ v = u' ++ v' -> u = u' /\ v = v'.
Proof. intros u. induction u as [|x u IH]; intros [|y u'] v v' L Q; try discriminate; [auto|]. cbn in Q. injection Q as -> Q. destruct (IH u' v v' ltac:(cbn in L; lia) Q) as (-> & ->). auto. Qed.
Theorem merge_ok : forall ms s s', Forall (fun m => ign m <= size m) ms -> length s = state_size E ms -> length s' = state_size E ms ->
  (EraseIgnoredBytes E ms s = EraseIgnoredBytes E ms s' <-> forall a m b, ms = a ++ m :: b -> counted a m s = counted a m s').
Proof.
  intros ms s s' F L L'. unfold state_size in L, L'. rewrite layout_ok in L, L'. cbn [fst snd Nat.add] in L, L'.
  destruct (split_blocks ms s L) as (bl & B & ->). destruct (split_blocks ms s' L') as (bl' & B' & ->).
  unfold EraseIgnoredBytes, ranges_to_erase. rewrite layout_ok. cbn [snd].
  pose proof (erase_ok ms bl [] B F) as Q. pose proof (erase_ok ms bl' [] B' F) as Q'. cbn [length app] in Q, Q'. rewrite Q, Q'. clear Q Q' L L'.
  assert (CNT : forall a m b bl0, ms = a ++ m :: b -> blocks ms bl0 -> counted a m (concat bl0) = firstn (size m - ign m) (nth (length a) bl0 [])).
  { intros a m b bl0 -> B0. rewrite <- (concat_part a bl0 m b B0). unfold counted, part_of. rewrite firstn_firstn. f_equal. lia. }
  split.
  - intros Q a m b EM. rewrite (CNT a m b bl EM B), (CNT a m b bl' EM B'). clear CNT. subst ms. revert bl bl' B B' Q.
    induction a as [|m0 a IH]; intros bl bl' B B' Q; inversion B as [|? c ? cl LC BC]; subst; inversion B' as [|? c' ? cl' LC' BC']; subst; cbn [app combine map fst snd concat length nth] in *; inversion F as [|? ? F1 F2]; subst;
      apply app_same in Q as (Q1 & Q2); try (unfold wipe; rewrite !app_length, !firstn_length, !repeat_length; lia).
    + unfold wipe in Q1. apply app_same in Q1 as (Q1 & _); [exact Q1|rewrite !firstn_length; lia].
    + exact (IH F2 cl cl' BC BC' Q2).
  - intros H. f_equal. clear F. assert (H2 : forall a m b, ms = a ++ m :: b -> firstn (size m - ign m) (nth (length a) bl []) = firstn (size m - ign m) (nth (length a) bl' [])) by (intros a m b EM; rewrite <- (CNT a m b bl EM B), <- (CNT a m b bl' EM B'); exact (H a m b EM)).
    clear H CNT. revert bl bl' B B' H2. induction ms as [|m r IH]; intros bl bl' B B' H2; [reflexivity|]. inversion B as [|? c ? cl LC BC]; subst; inversion B' as [|? c' ? cl' LC' BC']; subst. cbn [combine map fst snd]. f_equal.
    + unfold wipe. f_equal. exact (H2 [] m r eq_refl).
    + apply IH; [assumption..|]. intros a m0 b ->. exact (H2 (m :: a) m0 b eq_refl).
Qed.
End P.
