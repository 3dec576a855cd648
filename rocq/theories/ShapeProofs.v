(** Proofs about the shape features. *)
From Coq Require Import String Ascii List Arith ZArith Bool Lia.
From Verif Require Import Opt OptProofs RuleFf RuleFfSpec RuleFfProofs Shape ShapeSpec.
Import ListNotations.
Open Scope string_scope.
Open Scope opt_scope.
Local Open Scope nat_scope.

(** ** the tree *)
Fixpoint walk (cur : option node) (p : list bool) : option node := match p with [] => cur | b :: r => walk (Advance cur b) r end.
Lemma walk_app cur p q : walk cur (p ++ q) = walk (walk cur p) q.
Proof. revert cur. induction p as [|b p IH]; intros cur; [reflexivity|]. apply IH. Qed.
Fixpoint all_bits (n : nat) : list (list bool) := match n with O => [[]] | S k => flat_map (fun p => [false :: p; true :: p]) (all_bits k) end.
Lemma all_bits_in p : In p (all_bits (length p)).
Proof. induction p as [|b p IH]; [left; reflexivity|]. cbn [length all_bits]. apply in_flat_map. exists p. split; [exact IH|]. destruct b; cbn; auto. Qed.
Definition shape_name (bf be : list bool) : string := "Shape_S" ++ chars bf ++ "_T" ++ chars be.
Definition tree_check : bool :=
  forallb (fun bf => forallb (fun be => match (n <- walk (Some fidtree) (bf ++ be)%list ;; fid n) with Some s => String.eqb s (shape_name bf be) | None => false end) (all_bits 5)) (all_bits 5).
Lemma tree_checked : tree_check = true. Proof. vm_compute. reflexivity. Qed.
Lemma tree_ok bf be : length bf = 5 -> length be = 5 -> (n <- walk (Some fidtree) (bf ++ be)%list ;; fid n) = Some (shape_name bf be).
Proof.
  intros A B. pose proof tree_checked as T. unfold tree_check in T. rewrite forallb_forall in T. specialize (T bf). rewrite <- A in T at 1. specialize (T (all_bits_in bf)).
  rewrite forallb_forall in T. specialize (T be). rewrite <- B in T. specialize (T (all_bits_in be)). cbn beta in T. destruct (n <- _ ;; _); [|discriminate].
  apply String.eqb_eq in T. now subst.
Qed.
Lemma walk_none p : walk None p = None.
Proof. induction p as [|b p IH]; [reflexivity|exact IH]. Qed.
Lemma walk_prefix cur p q : walk cur (p ++ q) <> None -> walk cur p <> None.
Proof. rewrite walk_app. intros H E. apply H. rewrite E. apply walk_none. Qed.
Lemma pad_walk n cur : pad n cur = walk cur (repeat false n).
Proof. revert cur. induction n as [|n IH]; intros cur; [reflexivity|]. cbn [pad repeat walk]. destruct cur as [c|]; [apply IH|]. symmetry. apply walk_none. Qed.
Lemma consume_words a l : words a -> consume (a ++ l) = consume l.
Proof. induction 1 as [|z a P _ IH]; [reflexivity|]. cbn [app consume]. rewrite (proj2 (Z.ltb_lt 0 z) P). exact IH. Qed.
Lemma consume_var v l : (v <= 0)%Z -> consume (v :: l) = v :: l.
Proof. intros H. cbn. now rewrite (proj2 (Z.ltb_ge 0 v) H). Qed.

(** one stretch of words, perhaps empty, then a variable or the end *)
Lemma side_end k wa cur pos a : words a -> wa pos = true -> cur <> None -> length a <= k ->
  side k wa cur pos a = Some (walk cur (repeat true (if some a then 1 else 0)), pos + (if some a then 1 else 0)).
Proof.
  intros W P C K. destruct a as [|z a]; cbn [some repeat walk].
  - rewrite Nat.add_0_r. destruct k; reflexivity.
  - destruct k as [|k]; [cbn in K; lia|]. cbn [side]. destruct cur as [c|]; [|congruence]. cbn [bind]. rewrite P. inversion W as [|? ? Pz Wa]; subst. rewrite (proj2 (Z.ltb_lt 0 z) Pz).
    replace (consume (z :: a)) with (@nil Z). 2:{ symmetry. rewrite <- (app_nil_r (z :: a)). rewrite consume_words by exact W. reflexivity. }
    rewrite Nat.add_1_r. destruct k; reflexivity.
Qed.
Lemma side_var k wa cur pos a v l : words a -> (v <= 0)%Z -> wa pos = true -> wa (S pos) = false -> walk cur [some a] <> None -> length (a ++ v :: l) * 2 <= k ->
  exists k', length l * 2 <= k' /\ side k wa cur pos (a ++ v :: l) = side k' wa (walk cur [some a; true]) (2 + pos) l.
Proof.
  intros W V P P' C K. rewrite app_length in K. cbn [length] in K.
  assert (VL : forall j c, 1 <= j -> c <> None -> side j wa c (S pos) (v :: l) = side (pred j) wa (Advance c true) (2 + pos) l).
  { intros j c J N. destruct j as [|j]; [lia|]. cbn [side pred]. destruct c as [c|]; [|congruence]. cbn [bind]. rewrite P'. replace (v <? 1)%Z with true by (symmetry; apply Z.ltb_lt; lia). reflexivity. }
  assert (cur <> None) as N by (intros ->; apply C; apply walk_none). destruct cur as [c|]; [|congruence]. clear N.
  destruct k as [|k]; [lia|]. destruct a as [|z a].
  - cbn [app side bind]. rewrite P. rewrite (proj2 (Z.ltb_ge 0 v) V). rewrite VL; [|cbn in K; lia|exact C]. exists (pred k). cbn [length] in K. split; [lia|reflexivity].
  - inversion W as [|? ? Pz Wa]; subst. change ((z :: a) ++ v :: l)%list with (z :: (a ++ v :: l))%list. cbn [side bind]. rewrite P. rewrite (proj2 (Z.ltb_lt 0 z) Pz).
    change (z :: (a ++ v :: l))%list with ((z :: a) ++ v :: l)%list. rewrite consume_words by exact W. rewrite consume_var by exact V.
    rewrite VL; [|cbn in K; lia|exact C]. exists (pred k). cbn [length] in K. split; [lia|reflexivity].
Qed.
Lemma shape_len l b : shape l b -> length b = 5.
Proof. destruct 1; reflexivity. Qed.
(** a side takes the five steps of its shape *)
Lemma side_shape wa cur pos l b : shape l b -> wa pos = true -> wa (S pos) = false -> wa (2 + pos) = true -> wa (3 + pos) = false -> wa (4 + pos) = true ->
  walk cur b <> None -> upto (5 + pos) (side (2 * length l) wa cur pos l) = Some (walk cur b).
Proof.
  intros H P0 P1 P2 P3 P4 C.
  assert (END : forall k c n p a r, words a -> wa p = true -> c <> None -> length a <= k -> n = 5 + pos -> p <= 4 + pos -> r = repeat false (4 + pos - p) ->
     upto n (side k wa c p a) = Some (walk c (some a :: r))).
  { intros k c n p a r W P N K -> Lp ->. rewrite side_end by assumption. unfold upto. cbn [bind]. destruct a as [|z a]; cbn [some].
    - rewrite Nat.add_0_r. rewrite (proj2 (Nat.leb_le p (5 + pos))) by lia. rewrite pad_walk. replace (5 + pos - p) with (S (4 + pos - p)) by lia. reflexivity.
    - rewrite (proj2 (Nat.leb_le (p + 1) (5 + pos))) by lia. rewrite pad_walk. replace (5 + pos - (p + 1)) with (4 + pos - p) by lia. reflexivity. }
  assert (PF : forall p q, b = (p ++ q)%list -> walk cur p <> None). { intros p q ->. eapply walk_prefix. exact C. }
  destruct H as [a W|a v b W V Wb|a v b w c W V Wb W' Wc].
  - apply END; auto; try lia; [exact (PF [] _ eq_refl)|]. replace (4 + pos - pos) with 4 by lia. reflexivity.
  - destruct (side_var (2 * length (a ++ v :: b)) wa cur pos a v b W V P0 P1 (PF [_] _ eq_refl) ltac:(lia)) as (k' & K' & ->).
    rewrite END with (r := [false; false]); auto; try lia; [exact (PF [_; _] _ eq_refl)|]. replace (4 + pos - (2 + pos)) with 2 by lia. reflexivity.
  - destruct (side_var (2 * length (a ++ v :: b ++ w :: c)) wa cur pos a v (b ++ w :: c) W V P0 P1 (PF [_] _ eq_refl) ltac:(lia)) as (k' & K' & ->).
    destruct (side_var k' wa (walk cur [some a; true]) (2 + pos) b w c Wb W' P2 P3 (PF [_; _; _] _ eq_refl) ltac:(lia)) as (k2 & K2 & ->).
    rewrite END with (r := []); auto; try lia; [exact (PF [_; _; _; _] _ eq_refl)|]. replace (4 + pos - (2 + (2 + pos))) with 0 by lia. reflexivity.
Qed.
Theorem rule_shape f e bf be : shape f bf -> shape e be -> RuleShape f e = Some (shape_name bf be).
Proof.
  intros F E. pose proof (tree_ok bf be (shape_len _ _ F) (shape_len _ _ E)) as T.
  assert (W : walk (Some fidtree) (bf ++ be) <> None) by (intros Z; rewrite Z in T; discriminate).
  unfold RuleShape. pose proof (side_shape Nat.even (Some fidtree) 0 f bf F eq_refl eq_refl eq_refl eq_refl eq_refl (walk_prefix _ _ _ W)) as S1. cbn [plus] in S1. rewrite S1. cbn [bind].
  rewrite walk_app in W. pose proof (side_shape Nat.odd (walk (Some fidtree) bf) 5 e be E eq_refl eq_refl eq_refl eq_refl eq_refl W) as S2. cbn [plus] in S2. rewrite S2. cbn [bind].
  rewrite <- walk_app. exact T.
Qed.
Lemma chars_app5 bf bf' r r' : length bf = length bf' -> chars bf ++ r = chars bf' ++ r' -> bf = bf' /\ r = r'.
Proof.
  revert bf'. induction bf as [|b bf IH]; intros [|b' bf'] L E; try discriminate; [split; auto|].
  cbn [chars fold_right] in E. fold (chars bf) in E. fold (chars bf') in E. destruct b, b'; cbn [BitAsChar append] in E; try discriminate; injection E as E; injection L as L; destruct (IH _ L E) as [-> ->]; auto.
Qed.
Lemma shape_name_inj bf be bf' be' : length bf = 5 -> length be = 5 -> length bf' = 5 -> length be' = 5 -> shape_name bf be = shape_name bf' be' -> bf = bf' /\ be = be'.
Proof.
  unfold shape_name. intros A B A' B' E. cbn [append] in E. injection E as E.
  apply chars_app5 in E; [|congruence]. destruct E as [-> E]. cbn [append] in E. injection E as E. split; [reflexivity|].
  apply (f_equal (fun s => s ++ "")) in E. apply chars_app5 in E; [tauto|congruence].
Qed.
(** ** which sides have a shape *)
Lemma first_var l : words l \/ exists a v r, words a /\ (v <= 0)%Z /\ l = (a ++ v :: r)%list.
Proof.
  induction l as [|z l [IH|(a & v & r & W & V & ->)]]; [left; constructor|..]; destruct (Z_le_gt_dec z 0) as [H|H].
  - right. exists [], z, l. repeat split; auto. constructor.
  - left. constructor; [lia|exact IH].
  - right. exists [], z, (a ++ v :: r)%list. repeat split; auto. constructor.
  - right. exists (z :: a), v, r. repeat split; auto. constructor; [lia|exact W].
Qed.
Lemma vars_words a : words a -> variables a = 0.
Proof. induction 1 as [|z a P _ IH]; [reflexivity|]. unfold variables in *. cbn [filter]. rewrite (proj2 (Z.leb_gt z 0)) by lia. exact IH. Qed.
Lemma vars_app a v l : words a -> (v <= 0)%Z -> variables (a ++ v :: l) = S (variables l).
Proof. intros W V. unfold variables. rewrite filter_app, app_length. fold (variables a). rewrite vars_words by exact W. cbn [filter]. rewrite (proj2 (Z.leb_le v 0) V). reflexivity. Qed.
Theorem shape_total l : (exists b, shape l b) <-> variables l <= 2.
Proof.
  split.
  - intros (b & [a W|a v b' W V Wb|a v b' w c W V Wb W' Wc]); rewrite ?vars_app by assumption; rewrite vars_words by assumption; lia.
  - intros L. destruct (first_var l) as [W|(a & v & r & W & V & ->)]; [eexists; apply shape0; exact W|]. rewrite vars_app in L by assumption.
    destruct (first_var r) as [W1|(b & w & r2 & W1 & V1 & ->)]; [eexists; apply shape1; assumption|]. rewrite vars_app in L by assumption.
    destruct (first_var r2) as [W2|(c & x & r3 & W2 & V2 & ->)]; [eexists; apply shape2; assumption|]. rewrite vars_app in L by assumption. lia.
Qed.
Lemma shape_fun l b b' : shape l b -> shape l b' -> b = b'.
Proof.
  assert (U : forall a v r a' v' r', words a -> (v <= 0)%Z -> words a' -> (v' <= 0)%Z -> (a ++ v :: r = a' ++ v' :: r')%list -> a = a' /\ r = r').
  { induction a as [|z a IH]; intros v r [|z' a'] v' r' W V W' V' E; cbn [app] in E; injection E as E1 E2.
    - auto.
    - subst. inversion W'; subst. lia.
    - subst. inversion W; subst. lia.
    - subst. apply Forall_inv_tail in W. apply Forall_inv_tail in W'. destruct (IH _ _ _ _ _ W V W' V' E2) as [-> ->]. auto. }
  assert (N : forall a v r, words (a ++ v :: r) -> (v <= 0)%Z -> False). { intros a v r W V. apply Forall_app in W. destruct W as [_ W]. inversion W; subst. lia. }
  intros H H'. destruct H as [a W|a v b1 W V Wb|a v b1 w c W V Wb W' Wc]; inversion H'; subst; auto;
  try (match goal with W0 : words (_ ++ _ :: _) |- _ => exfalso; apply (N _ _ _ W0); assumption end);
  match goal with E : (_ ++ _ :: _ = _ ++ _ :: _)%list |- _ => apply U in E; auto; destruct E as [E1 E2]; subst end; auto;
  try (match goal with W0 : words (_ ++ _ :: _) |- _ => exfalso; apply (N _ _ _ W0); assumption end);
  match goal with E : (_ ++ _ :: _ = _ ++ _ :: _)%list |- _ => apply U in E; auto; destruct E as [E1 E2]; subst end; auto.
Qed.
(** ** more than two variables *)
Lemma vars_consume l : variables (consume l) = variables l.
Proof.
  induction l as [|z l IH]; [reflexivity|]. cbn [consume]. destruct (0 <? z)%Z eqn:Z0; [|reflexivity]. rewrite IH. unfold variables. cbn [filter].
  apply Z.ltb_lt in Z0. rewrite (proj2 (Z.leb_gt z 0)) by lia. reflexivity.
Qed.
Lemma side_pos wa k : (forall n, wa (S n) = negb (wa n)) -> forall cur pos l c p, side k wa cur pos l = Some (c, p) ->
  pos + 2 * variables l <= (if wa pos then 0 else 1) + p.
Proof.
  intros ALT. induction k as [|k IH]; intros cur pos l c p; destruct l as [|z l]; cbn [side]; try discriminate; try (intros [= <- <-]; cbn; lia).
  destruct cur as [n|]; [|discriminate]. cbn [bind]. destruct (wa pos) eqn:P.
  - destruct (0 <? z)%Z eqn:Z0; intros E; pose proof (IH _ _ _ _ _ E) as H; rewrite ALT, P in H; cbn [negb] in H; rewrite ?vars_consume in H; lia.
  - destruct (z <? 1)%Z eqn:Z1; [|discriminate]. intros E. pose proof (IH _ _ _ _ _ E) as H. rewrite ALT, P in H. cbn [negb] in H. apply Z.ltb_lt in Z1.
    unfold variables in *. cbn [filter]. rewrite (proj2 (Z.leb_le z 0)) by lia. cbn [length]. lia.
Qed.
Theorem too_many f e : (2 < variables f \/ 2 < variables e) <-> RuleShape f e = None.
Proof.
  split.
  - unfold RuleShape, upto. intros H. destruct (side (2 * length f) Nat.even (Some fidtree) 0 f) as [[c p]|] eqn:E; [|reflexivity]. cbn [bind].
    apply side_pos in E; [|intros n; now rewrite Nat.even_succ, <- Nat.negb_even]. cbn [Nat.even] in E. destruct (p <=? 5) eqn:P; [|reflexivity]. apply Nat.leb_le in P. cbn [bind].
    destruct (side (2 * length e) Nat.odd _ 5 e) as [[c' p']|] eqn:E'; [|reflexivity]. cbn [bind].
    apply side_pos in E'; [|intros n; now rewrite Nat.odd_succ, <- Nat.negb_odd]. cbn [Nat.odd Nat.even negb] in E'. destruct (p' <=? 10) eqn:P'; [|reflexivity]. apply Nat.leb_le in P'. lia.
  - intros N. destruct (le_gt_dec (variables f) 2) as [A|A]; [|left; lia]. destruct (le_gt_dec (variables e) 2) as [B|B]; [|right; lia].
    apply shape_total in A. apply shape_total in B. destruct A as [bf A]. destruct B as [be B]. rewrite (rule_shape _ _ _ _ A B) in N. discriminate.
Qed.
Theorem same_shape f e f' e' bf be bf' be' : shape f bf -> shape e be -> shape f' bf' -> shape e' be' -> (RuleShape f e = RuleShape f' e' <-> bf = bf' /\ be = be').
Proof.
  intros A B A' B'. rewrite (rule_shape _ _ _ _ A B), (rule_shape _ _ _ _ A' B'). split; [|intros [-> ->]; reflexivity].
  intros E. assert (E' : shape_name bf be = shape_name bf' be') by congruence. apply shape_name_inj in E'; eauto using shape_len.
Qed.

(** ** word classes *)
Lemma substring_all s n : String.length s <= n -> substring 0 n s = s.
Proof. revert n. induction s as [|c s IH]; intros [|n] L; cbn in *; try reflexivity; try lia. f_equal. apply IH. lia. Qed.
Lemma cut_ok pfx t : (if (pfx =? 0) then t else if pfx <? String.length t then substring 0 pfx t else t) = cut pfx t.
Proof. unfold cut. destruct (pfx =? 0); [reflexivity|]. destruct (pfx <? String.length t) eqn:L; [reflexivity|]. apply Nat.ltb_ge in L. symmetry. now apply substring_all. Qed.
Definition marks := AddWordToClassMapping 0 "</s>" "</s>" (AddWordToClassMapping 0 "<s>" "<s>" []).
Lemma load_classes pfx ls : forall done pv pv', load_lines pfx ls pv = Some pv' -> (forall w, class_of pfx done w (Map pv (Some w))) -> forall w, class_of pfx (done ++ ls) w (Map pv' (Some w)).
Proof.
  induction ls as [|l ls IH]; intros done pv pv' E H; [injection E as <-; rewrite app_nil_r; exact H|].
  assert (STEP : forall c x n, l = c :: x :: n -> length n <= 1 -> load_lines pfx ls (AddWordToClassMapping pfx x c pv) = Some pv' -> forall w, class_of pfx (done ++ l :: ls) w (Map pv' (Some w))).
  { intros c x n -> L E' w. change (done ++ (c :: x :: n) :: ls)%list with (done ++ [c :: x :: n] ++ ls)%list. rewrite app_assoc. refine (IH _ _ _ E' _ w). clear w. intros w.
    unfold Map, AddWordToClassMapping. cbn [find_class]. rewrite cut_ok. destruct (String.eqb_spec w x) as [->|N].
    - eapply by_line; [reflexivity|constructor].
    - assert (NL : ~ line_for w (c :: x :: n)) by (intros (c' & n' & F & _); congruence).
      specialize (H w). unfold Map in H. destruct H as [before c0 n0 after E0 F0|F0 M|F0 M1 M2].
      + eapply by_line; [rewrite E0, <- app_assoc; reflexivity|]. apply Forall_app. auto.
      + apply by_mark; [apply Forall_app; auto|exact M].
      + apply unknown; [apply Forall_app; auto|exact M1|exact M2]. }
  destruct l as [|c [|x [|y [|z l]]]]; cbn [load_lines] in E; try discriminate; (eapply STEP; [reflexivity|cbn; lia|exact E]).
Qed.
Lemma marks_classes pfx w : class_of pfx [] w (Map marks (Some w)).
Proof.
  unfold marks, Map, AddWordToClassMapping. cbn [find_class Nat.eqb]. destruct (String.eqb_spec w "</s>") as [->|N1]; [apply by_mark; auto; constructor|].
  destruct (String.eqb_spec w "<s>") as [->|N2]; [apply by_mark; auto; constructor|]. apply unknown; auto; constructor.
Qed.
Lemma loaded pfx ls pv s : LoadWordClasses pfx ls = Some pv -> sym_class pfx ls s (Map pv s).
Proof. intros E. destruct s as [w|]; [|reflexivity]. exact (load_classes pfx ls [] _ _ E (marks_classes pfx) w). Qed.
Lemma load_some pfx ls : Forall (fun l => exists w, line_for w l) ls -> LoadWordClasses pfx ls <> None.
Proof.
  unfold LoadWordClasses. generalize (AddWordToClassMapping 0 "</s>" "</s>" (AddWordToClassMapping 0 "<s>" "<s>" [])). intros pv F. revert pv.
  induction F as [|l ls (w & c & n & -> & L) _ IH]; intros pv; [discriminate|]. destruct n as [|x [|y n]]; cbn [length] in L; [..|lia]; apply IH.
Qed.
Lemma under_concat l : under l = String.concat "_" l.
Proof. induction l as [|s [|s' l] IH]; try reflexivity. change (under (s :: s' :: l)) with (s ++ "_" ++ under (s' :: l)). rewrite IH. reflexivity. Qed.

(** ** the tree of names *)
Definition path (c : config) (r : list (option string) * list (option string)) : list string := (mapped (f2class c) (fst r) ++ mapped (e2class c) (snd r))%list.
Definition nm (c : config) (r : list (option string) * list (option string)) : string := new_name c (fst r) (snd r).
Definition from (c : config) (rs : list (list (option string) * list (option string))) (t : list (list string * string)) : Prop :=
  forall p s, find_path t p = Some s -> exists r, In r rs /\ path c r = p /\ nm c r = s.
Lemma step_from c rs t r : from c rs t -> from c (rs ++ [r]) (fst (RuleShape2 c t (fst r) (snd r))).
Proof.
  intros F p s. unfold RuleShape2. destruct (find_path t _) eqn:E; cbn [fst].
  - intros G. apply F in G. destruct G as (q & I & P). exists q. split; [apply in_or_app; auto|exact P].
  - cbn [find_path]. destruct (list_eq_dec string_dec p _) as [->|N].
    + intros [= <-]. exists r. split; [apply in_or_app; right; left; reflexivity|]. split; reflexivity.
    + intros G. apply F in G. destruct G as (q & I & P). exists q. split; [apply in_or_app; auto|exact P].
Qed.
Lemma after_from c rs : from c rs (after_rules c rs).
Proof.
  induction rs as [|r rs IH] using rev_ind; [intros p s; discriminate|]. unfold after_rules. rewrite fold_left_app. cbn [fold_left]. apply step_from. exact IH.
Qed.
Lemma named c rs r : (forall q, In q rs -> path c q = path c r -> nm c q = nm c r) -> snd (RuleShape2 c (after_rules c rs) (fst r) (snd r)) = nm c r.
Proof.
  intros H. unfold RuleShape2. destruct (find_path _ _) eqn:E; cbn [snd]; [|reflexivity]. apply after_from in E. destruct E as (q & I & P & <-). apply H; [exact I|]. exact P.
Qed.
Lemma append_nil_r' s : s ++ "" = s.
Proof. induction s as [|c s IH]; [reflexivity|]. cbn [append]. now rewrite IH. Qed.
Lemma app_inj_len {A} (a b c d : list A) : length a = length c -> (a ++ b = c ++ d)%list -> a = c /\ b = d.
Proof. revert c. induction a as [|x a IH]; intros [|y c] L E; try discriminate; [auto|]. injection E as -> E. injection L as L. destruct (IH _ L E) as [-> ->]. auto. Qed.
(** the classes are determined *)
Lemma last_line (file : list (list string)) w b c n a b' c' n' a' : file = (b ++ (c :: w :: n) :: a)%list -> file = (b' ++ (c' :: w :: n') :: a')%list -> length n <= 1 -> length n' <= 1 ->
  Forall (fun l => ~ line_for w l) a -> Forall (fun l => ~ line_for w l) a' -> c = c'.
Proof.
  intros -> E L L' F F'. revert b' E. induction b as [|x b IH]; intros [|x' b'] E; cbn [app] in E; injection E as E1 E2.
  - congruence.
  - subst. exfalso. apply Forall_app in F. destruct F as [_ F]. apply Forall_inv in F. apply F. exists c', n'. auto.
  - subst. exfalso. apply Forall_app in F'. destruct F' as [_ F']. apply Forall_inv in F'. apply F'. exists c, n. auto.
  - exact (IH _ E2).
Qed.
Definition format (l : list string) : Prop := exists w, line_for w l.
Lemma format_len file b c w n a : Forall format file -> file = (b ++ (c :: w :: n) :: a)%list -> length n <= 1.
Proof. intros F ->. apply Forall_app in F. destruct F as [_ F]. apply Forall_inv in F. destruct F as (w' & c' & n' & E & L). congruence. Qed.
Lemma class_fun pfx file w c c' : Forall format file -> class_of pfx file w c -> class_of pfx file w c' -> c = c'.
Proof.
  intros FO H H'.
  assert (X : forall b x n a, file = (b ++ (x :: w :: n) :: a)%list -> Forall (fun l => ~ line_for w l) file -> False).
  { intros b x n a E F. pose proof (format_len _ _ _ _ _ _ FO E) as L. rewrite E in F. apply Forall_app in F. destruct F as [_ F]. apply Forall_inv in F. apply F. exists x, n. auto. }
  destruct H as [b x n a E F|F M|F M1 M2]; destruct H' as [b' x' n' a' E' F'|F' M'|F' M1' M2']; try (exfalso; eauto; fail); auto; try tauto.
  f_equal. eapply last_line; eauto using format_len.
Qed.
Lemma load_format pfx ls : forall pv pv', load_lines pfx ls pv = Some pv' -> Forall format ls.
Proof.
  induction ls as [|l ls IH]; intros pv pv' E; [constructor|].
  destruct l as [|c [|x [|y [|z l]]]]; cbn [load_lines] in E; try discriminate; (constructor; [|exact (IH _ _ E)]); exists x, c; eexists; (split; [reflexivity|cbn; lia]).
Qed.
Lemma map_classes pfx ls pv l cs : LoadWordClasses pfx ls = Some pv -> Forall2 (sym_class pfx ls) l cs -> map (Map pv) l = cs.
Proof.
  intros E F. induction F as [|s c l cs S _ IH]; [reflexivity|]. cbn [map]. f_equal; [|exact IH]. pose proof (loaded _ _ _ s E) as S'. pose proof (load_format _ _ _ _ E) as FO.
  destruct s as [w|]; [exact (class_fun _ _ _ _ _ FO S' S)|]. cbn in *. congruence.
Qed.
Lemma classes_map pfx ls pv l : LoadWordClasses pfx ls = Some pv -> Forall2 (sym_class pfx ls) l (map (Map pv) l).
Proof. intros E. induction l as [|s l IH]; constructor; [now apply loaded|exact IH]. Qed.

Theorem source_classes pfx ls pv rs f e cf : LoadWordClasses pfx ls = Some pv -> Forall2 (sym_class pfx ls) f cf ->
  let c := {| f2class := Some pv; e2class := None |} in snd (RuleShape2 c (after_rules c rs) f e) = "RS:" ++ String.concat "_" cf.
Proof.
  intros E F c. pose proof (map_classes _ _ _ _ _ E F) as M.
  assert (N : forall r, nm c r = "RS:" ++ under (path c r)).
  { intros r. unfold nm, new_name, path. cbn [f2class e2class c mapped]. rewrite app_nil_r. now rewrite !append_nil_r'. }
  pose proof (named c rs (f, e)) as H. cbn [fst snd] in H. rewrite H by (intros q _ P; rewrite !N, P; reflexivity).
  rewrite N, under_concat. unfold path. cbn [f2class e2class c mapped fst snd]. rewrite app_nil_r, M. reflexivity.
Qed.
Theorem target_classes pfx ls pv rs f e ce : LoadWordClasses pfx ls = Some pv -> Forall2 (sym_class pfx ls) e ce ->
  let c := {| f2class := None; e2class := Some pv |} in snd (RuleShape2 c (after_rules c rs) f e) = "RS:" ++ String.concat "_" ce.
Proof.
  intros E F c. pose proof (map_classes _ _ _ _ _ E F) as M.
  assert (N : forall r, nm c r = "RS:" ++ under (path c r)) by (intros r; reflexivity).
  pose proof (named c rs (f, e)) as H. cbn [fst snd] in H. rewrite H by (intros q _ P; rewrite !N, P; reflexivity).
  rewrite N, under_concat. unfold path. cbn [f2class e2class c mapped fst snd app]. rewrite M. reflexivity.
Qed.
Theorem both_classes pf lf pvf pe le pve rs f e cf ce : LoadWordClasses pf lf = Some pvf -> LoadWordClasses pe le = Some pve ->
  Forall2 (sym_class pf lf) f cf -> Forall2 (sym_class pe le) e ce ->
  (forall f' e' cf' ce', In (f', e') rs -> Forall2 (sym_class pf lf) f' cf' -> Forall2 (sym_class pe le) e' ce' -> (cf' ++ ce' = cf ++ ce)%list -> length cf' = length cf) ->
  let c := {| f2class := Some pvf; e2class := Some pve |} in snd (RuleShape2 c (after_rules c rs) f e) = "RS:" ++ String.concat "_" cf ++ "__" ++ String.concat "_" ce.
Proof.
  intros E E' F F' H c. pose proof (map_classes _ _ _ _ _ E F) as M. pose proof (map_classes _ _ _ _ _ E' F') as M'.
  assert (N : forall r, nm c r = "RS:" ++ String.concat "_" (map (Map pvf) (fst r)) ++ "__" ++ String.concat "_" (map (Map pve) (snd r))).
  { intros r. unfold nm, new_name. cbn [f2class e2class c mapped]. rewrite !under_concat. f_equal. apply append_assoc. }
  pose proof (named c rs (f, e)) as G. cbn [fst snd] in G. rewrite G; [rewrite N; cbn [fst snd]; now rewrite M, M'|].
  intros [f' e'] I P. unfold path in P. cbn [f2class e2class c mapped fst snd] in P. rewrite M, M' in P.
  pose proof (H f' e' _ _ I (classes_map _ _ _ f' E) (classes_map _ _ _ e' E') P) as L. apply app_inj_len in P; [|exact L]. destruct P as [P1 P2]. rewrite !N. cbn [fst snd]. now rewrite P1, P2, M, M'.
Qed.
