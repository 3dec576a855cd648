From Coq Require Import String List ZArith Bool Lia Permutation.
From Verif Require Import Opt Dict DictProofs Rule RuleSpec.
Import ListNotations.
Open Scope Z_scope.

(** ** Substitution *)
Lemma esub_ok ys : forall e vc res, (forall c, In c (vars_of e) -> (Z.to_nat (- c) < length ys)%nat) ->
  esub_loop e ys vc res = Some (res ++ target_of e ys, (vc + length (vars_of e))%nat).
Proof.
  induction e as [|c e IH]; intros vc res H; cbn [esub_loop].
  - unfold target_of. cbn. rewrite app_nil_r, Nat.add_0_r. auto.
  - unfold vars_of, target_of in *. cbn [filter map concat] in *. destruct (c <? 1) eqn:E.
    + destruct (nth_error ys (Z.to_nat (- c))) as [y|] eqn:N; [|apply nth_error_None in N; specialize (H c ltac:(left; auto)); lia].
      cbn [bind]. rewrite IH by (intros; apply H; right; auto). rewrite (nth_error_nth _ _ _ N). rewrite <- app_assoc. cbn [length]. f_equal. f_equal. lia.
    + rewrite IH by auto. rewrite <- app_assoc. auto.
Qed.
Lemma esub_some ys : forall e vc res r n, esub_loop e ys vc res = Some (r, n) -> forall c, In c (vars_of e) -> (Z.to_nat (- c) < length ys)%nat.
Proof.
  induction e as [|c e IH]; intros vc res r n E x X; [destruct X|]. cbn [esub_loop] in E. unfold vars_of in X. cbn [filter] in X. destruct (c <? 1).
  - destruct (nth_error ys (Z.to_nat (- c))) as [y|] eqn:N; [|discriminate]. destruct X as [<-|X]; [apply nth_error_Some; congruence|]. eapply IH; eauto.
  - eapply IH; eauto.
Qed.
Lemma esub_iff e ys r : ESubstitute e ys = Some r <->
  length (vars_of e) = length ys /\ (forall c, In c (vars_of e) -> (Z.to_nat (- c) < length ys)%nat) /\ r = target_of e ys.
Proof.
  unfold ESubstitute. split.
  - destruct (esub_loop e ys 0 []) as [(r', n)|] eqn:E; [|discriminate]. cbn [bind]. pose proof (esub_some _ _ _ _ _ _ E) as H. rewrite esub_ok in E by auto. injection E as <- <-.
    cbn [Nat.add app]. destruct (Nat.eqb_spec (length (vars_of e)) (length ys)); [|discriminate]. intros X. injection X as <-. auto.
  - intros (L & H & ->). rewrite esub_ok by auto. cbn [bind Nat.add app]. rewrite L, Nat.eqb_refl. auto.
Qed.
Lemma wf_vars e f : wf_rule e f -> length (vars_of e) = length (vars_of f) /\ forall c, In c (vars_of e) -> (Z.to_nat (- c) < length (vars_of f))%nat.
Proof.
  intros W. split.
  - apply Permutation_length in W. rewrite map_length, seq_length in W. auto.
  - intros c C. eapply Permutation_in in C; [|exact W]. apply in_map_iff in C. destruct C as (k & <- & K). apply in_seq in K. lia.
Qed.
Theorem esubstitute e f ys : wf_rule e f -> length ys = length (vars_of f) -> ESubstitute e ys = Some (target_of e ys).
Proof. intros W L. apply wf_vars in W. destruct W as [W1 W2]. apply esub_iff. rewrite L. auto. Qed.

Lemma source_det f : forall ys r r', source_of f ys r -> source_of f ys r' -> r = r'.
Proof.
  intros ys r r' A. revert r'. induction A as [|c f ys r C A IH|c f y ys r C A IH]; intros r' B; inversion B; subst; auto; try lia; f_equal; auto.
Qed.
Lemma fsub_ok : forall f ys pre vc res, vc = length pre -> length ys = length (vars_of f) ->
  exists r, source_of f ys r /\ fsub_loop f (pre ++ ys) vc res = Some (res ++ r, (vc + length ys)%nat).
Proof.
  induction f as [|c f IH]; intros ys pre vc res V L; cbn [fsub_loop].
  - destruct ys; [|discriminate]. exists []. split; [constructor|]. rewrite app_nil_r, Nat.add_0_r. auto.
  - unfold vars_of in L. cbn [filter] in L. destruct (Z.ltb_spec c 1) as [H|H].
    + destruct ys as [|y ys]; [discriminate|]. rewrite nth_error_app2, V, Nat.sub_diag by lia. cbn [nth_error bind].
      destruct (IH ys (pre ++ [y]) (S (length pre)) (res ++ y)) as (r & R & E); [rewrite app_length; cbn; lia|cbn in L; unfold vars_of; lia|].
      exists (y ++ r). split; [constructor; auto|]. rewrite <- app_assoc in E. cbn [app] in E. rewrite E, <- app_assoc. cbn [length]. f_equal. f_equal. lia.
    + destruct (IH ys pre vc (res ++ [c]) V L) as (r & R & E). exists (c :: r). split; [constructor; auto|]. rewrite E, <- app_assoc. auto.
Qed.
Lemma source_len f ys r : source_of f ys r -> length ys = length (vars_of f).
Proof.
  induction 1 as [|c f ys r C A IH|c f y ys r C A IH]; [auto| |]; unfold vars_of in *; cbn [filter].
  - destruct (Z.ltb_spec c 1); [lia|auto].
  - destruct (Z.ltb_spec c 1); [|lia]. cbn. auto.
Qed.
Lemma fsub_some : forall f ys vc res r n, fsub_loop f ys vc res = Some (r, n) -> n = (vc + length (vars_of f))%nat /\ (vc <= length ys -> n <= length ys)%nat.
Proof.
  induction f as [|c f IH]; intros ys vc res r n E; cbn [fsub_loop] in E; unfold vars_of in *; cbn [filter].
  - injection E as <- <-. cbn. lia.
  - destruct (c <? 1).
    + destruct (nth_error ys vc) as [y|] eqn:N; [|discriminate]. cbn [bind] in E. apply IH in E. assert (vc < length ys)%nat by (apply nth_error_Some; congruence). cbn [length]. lia.
    + apply IH in E. auto.
Qed.
Theorem fsubstitute f ys r : FSubstitute f ys = Some r <-> source_of f ys r.
Proof.
  unfold FSubstitute. split.
  - destruct (fsub_loop f ys 0 []) as [(r', n)|] eqn:E; [|discriminate]. cbn [bind]. pose proof (fsub_some _ _ _ _ _ _ E) as [N _]. cbn in N. subst n.
    destruct (Nat.eqb_spec (length (vars_of f)) (length ys)) as [L|]; [|discriminate]. intros X. injection X as <-.
    destruct (fsub_ok f ys [] 0 [] eq_refl (eq_sym L)) as (r & R & E'). cbn [app] in E'. rewrite E' in E. injection E as <- _. auto.
  - intros S. pose proof (source_len _ _ _ S) as L. destruct (fsub_ok f ys [] 0 [] eq_refl L) as (r' & R & E'). cbn [app] in E'. rewrite E'. cbn [bind Nat.add app]. rewrite Nat.eqb_refl. f_equal. eapply source_det; eauto.
Qed.

(** ** Arity *)
Lemma fold_min l : forall m, let r := fold_left (fun min i => if i <? min then i else min) l m in (r = m \/ In r l) /\ r <= m /\ forall x, In x l -> r <= x.
Proof.
  induction l as [|x l IH]; intros m; cbn [fold_left]; [cbn; split; [auto|split; [lia|tauto]]|].
  specialize (IH (if x <? m then x else m)). cbv zeta in *. destruct IH as (A & B & C). destruct (Z.ltb_spec x m) as [H|H].
  - split; [destruct A as [->|A]; [right; left; auto|right; right; auto]|]. split; [lia|]. intros y [<-|Y]; [auto|auto].
  - split; [destruct A as [->|A]; [left; auto|right; right; auto]|]. split; [lia|]. intros y [<-|Y]; [lia|auto].
Qed.
Lemma in_vars c l : In c (vars_of l) <-> In c l /\ c < 1.
Proof. unfold vars_of. rewrite filter_In, Z.ltb_lt. tauto. Qed.
Theorem arity_ok e f : wf_rule e f -> (length (vars_of f) <= 127)%nat -> ComputeArity e = Z.of_nat (length (vars_of f)).
Proof.
  intros W L. unfold ComputeArity. destruct (fold_min e 1) as (A & B & C). cbv zeta in *. set (m := fold_left _ e 1) in *.
  assert (E : 1 - m = Z.of_nat (length (vars_of f))).
  { destruct (length (vars_of f)) as [|k] eqn:K.
    - destruct A as [A|A]; [lia|]. destruct (Z.eq_dec m 1) as [|NE]; [lia|]. exfalso.
      assert (I : In m (vars_of e)) by (apply in_vars; split; [auto|lia]). unfold wf_rule in W. rewrite K in W. cbn in W. eapply Permutation_in in I; [|exact W]. destruct I.
    - assert (I : In (- Z.of_nat k) (vars_of e)). { eapply Permutation_in; [apply Permutation_sym, W|]. rewrite K. apply in_map_iff. exists k. split; [auto|apply in_seq; lia]. }
      apply in_vars in I. pose proof (C _ (proj1 I)). destruct A as [A|A]; [lia|].
      assert (J : In m (vars_of e)) by (apply in_vars; split; [auto|lia]). eapply Permutation_in in J; [|exact W]. apply in_map_iff in J. destruct J as (j & J1 & J2). apply in_seq in J2. lia. }
  rewrite E. unfold to_char. rewrite Z.mod_small; lia.
Qed.
Lemma split_len l : length l = (length (words_of l) + length (vars_of l))%nat.
Proof.
  unfold words_of, vars_of. induction l as [|c l IH]; cbn [filter length]; [auto|]. destruct (Z.leb_spec 1 c), (Z.ltb_spec c 1); try lia; cbn [length]; lia.
Qed.
Theorem ewords_ok e f : wf_rule e f -> (length (vars_of f) <= 127)%nat -> EWords e (ComputeArity e) = Z.of_nat (length (words_of e)) /\
  FWords f (ComputeArity e) = Z.of_nat (length (words_of f)).
Proof.
  intros W L. rewrite (arity_ok e f W L). unfold EWords, FWords. pose proof (split_len e). pose proof (split_len f). apply wf_vars in W. lia.
Qed.

(** ** Derivations *)
Fixpoint deriv_ind_ (P : deriv -> Prop) (H : forall e f kids, Forall P kids -> P (Node e f kids)) (d : deriv) : P d :=
  match d with
  | Node e f kids => H e f kids ((fix go l : Forall P l := match l with [] => Forall_nil _ | k :: r => Forall_cons _ (deriv_ind_ P H k) (go r) end) kids)
  end.
Definition sum (l : list Z) : Z := fold_right Z.add 0 l.
Lemma sum_perm a b : Permutation a b -> sum a = sum b.
Proof. unfold sum. induction 1; cbn [fold_right]; lia. Qed.
Lemma target_len e ys : Z.of_nat (length (target_of e ys)) = Z.of_nat (length (words_of e)) + sum (map (fun c => Z.of_nat (length (nth (Z.to_nat (- c)) ys []))) (vars_of e)).
Proof.
  unfold target_of, words_of, vars_of. induction e as [|c e IH]; cbn [map concat filter length]; [cbn; lia|]. rewrite app_length. destruct (Z.leb_spec 1 c), (Z.ltb_spec c 1); try lia; cbn [length map sum fold_right] in *; fold (sum (map (fun c => Z.of_nat (length (nth (Z.to_nat (- c)) ys []))) (filter (fun c => c <? 1) e))); lia.
Qed.
Lemma sum_nth (ys : list (list Z)) : sum (map (fun c => Z.of_nat (length (nth (Z.to_nat (- c)) ys []))) (map (fun k => - Z.of_nat k) (seq 0 (length ys)))) = sum (map (fun y => Z.of_nat (length y)) ys).
Proof.
  rewrite map_map. rewrite map_ext with (g := fun k => Z.of_nat (length (nth k ys []))) by (intros; do 3 f_equal; lia).
  f_equal. rewrite <- (map_map (fun k => nth k ys []) (fun y => Z.of_nat (length y))). f_equal.
  clear. induction ys as [|y ys IH]; cbn [length seq map]; [auto|]. f_equal. rewrite <- seq_shift, map_map. auto.
Qed.
Theorem derivation d : wf_deriv d -> exists es fs, esentence d = Some es /\ fsentence d = Some fs /\ pair_of d es fs /\ elength d = Z.of_nat (length es).
Proof.
  induction d as [e f kids IH] using deriv_ind_. intros W. inversion W as [e' f' kids' W1 W2 W3 W4]; subst.
  assert (K : exists es fs, map_opt esentence kids = Some es /\ map_opt fsentence kids = Some fs /\ length es = length kids /\ length fs = length kids /\
     Forall2 (fun k ef => pair_of k (fst ef) (snd ef)) kids (combine es fs) /\ sum (map elength kids) = sum (map (fun y => Z.of_nat (length y)) es)).
  { clear - IH W4. induction kids as [|k kids IHk]; [exists [], []; cbn; repeat split; auto|]. inversion IH; subst. inversion W4; subst.
    destruct IHk as (es & fs & A & B & C & D & E & F); auto. destruct (H1 H3) as (ek & fk & A' & B' & C' & D').
    exists (ek :: es), (fk :: fs). cbn [map_opt]. rewrite A', B'. cbn [bind]. rewrite A, B. cbn [bind length combine map sum fold_right]. unfold sum in F. rewrite F, D'. repeat split; auto. }
  destruct K as (es & fs & A & B & C & D & E & F). assert (L : length es = length (vars_of f)) by lia. assert (L' : length fs = length (vars_of f)) by lia.
  destruct (fsub_ok f fs [] 0 [] eq_refl L') as (t & T & _). exists (target_of e es), t. cbn [esentence fsentence]. change (map_opt esentence kids) with (map_opt esentence kids) in A. rewrite A, B. cbn [bind].
  split; [apply esubstitute with f; auto|]. split; [apply fsubstitute; auto|]. split; [econstructor; eauto|].
  cbn [elength]. rewrite (proj1 (ewords_ok e f W1 ltac:(lia))). fold (sum (map elength kids)). rewrite F, target_len. f_equal. rewrite <- sum_nth. apply sum_perm, Permutation_map. rewrite L. apply Permutation_sym. auto.
Qed.

(** ** Monolingual rules *)
Lemma renumber_loop : forall f ys vc res, ~ In 0 f -> esub_loop (renumber f (Z.of_nat vc)) ys vc res = fsub_loop f ys vc res.
Proof.
  induction f as [|c f IH]; intros ys vc res H; [auto|]. cbn [renumber fsub_loop]. destruct (Z.ltb_spec c 0) as [N|N].
  - cbn [esub_loop]. rewrite (proj2 (Z.ltb_lt _ 1)), (proj2 (Z.ltb_lt c 1)) by lia. replace (Z.to_nat (- - Z.of_nat vc)) with vc by lia. destruct (nth_error ys vc); [|auto]. cbn [bind].
    replace (Z.of_nat vc + 1) with (Z.of_nat (S vc)) by lia. apply IH. cbn in H. tauto.
  - cbn [esub_loop]. destruct (Z.ltb_spec c 1); [exfalso; apply H; left; lia|]. apply IH. cbn in H. tauto.
Qed.
Theorem mono f ys : ~ In 0 f -> ESubstitute (renumber f 0) ys = FSubstitute f ys.
Proof. intros H. unfold ESubstitute, FSubstitute. change 0 with (Z.of_nat 0). rewrite (renumber_loop f ys 0 []); auto. Qed.
Lemma renumber_vars f : forall n, ~ In 0 f -> vars_of (renumber f (Z.of_nat n)) = map (fun k => - Z.of_nat k) (seq n (length (vars_of f))).
Proof.
  induction f as [|c f IH]; intros n H; [auto|]. cbn [renumber]. assert (H' : ~ In 0 f) by (cbn in H; tauto). assert (c <> 0) by (intros ->; apply H; left; auto). unfold vars_of in *. cbn [filter].
  destruct (Z.ltb_spec c 0) as [N|N].
  - cbn [filter]. rewrite (proj2 (Z.ltb_lt _ 1)), (proj2 (Z.ltb_lt c 1)) by lia. cbn [length seq map]. f_equal. replace (Z.of_nat n + 1) with (Z.of_nat (S n)) by lia. auto.
  - cbn [filter]. rewrite (proj2 (Z.ltb_ge c 1)) by lia. auto.
Qed.
Theorem mono_wf f : ~ In 0 f -> wf_rule (renumber f 0) f.
Proof. intros H. unfold wf_rule. change 0 with (Z.of_nat 0) at 1. rewrite renumber_vars by auto. apply Permutation_refl. Qed.

(** ** Archive *)
Lemma mask_tail x l : (length l < 64)%nat -> 0 <= nt_mask l < 2 ^ Z.of_nat (length l) -> nt_mask (x :: l) = 2 * nt_mask l + (if x <=? 0 then 1 else 0).
Proof.
  intros L B. cbn [nt_mask fold_right]. fold (nt_mask l). assert (2 ^ Z.of_nat (length l) <= 2 ^ 63) by (apply Z.pow_le_mono_r; lia).
  rewrite Z.shiftl_mul_pow2 by lia. rewrite Z.mod_small by (change (2 ^ 64) with (2 * 2 ^ 63); lia).
  destruct (x <=? 0); [|rewrite Z.lor_0_r; lia]. 
  replace (nt_mask l * 2 ^ 1) with (Z.double (nt_mask l)) by (rewrite Z.double_spec; lia). rewrite Z.double_spec.
  change 1 with (Z.b2z true) at 1. destruct (nt_mask l); [reflexivity|reflexivity|lia].
Qed.
Lemma mask_range l : (length l <= 64)%nat -> 0 <= nt_mask l < 2 ^ Z.of_nat (length l).
Proof.
  induction l as [|x l IH]; intros L; [cbn; lia|]. cbn [length] in *. specialize (IH ltac:(lia)). rewrite mask_tail by (auto; lia). replace (Z.of_nat (S (length l))) with (Z.of_nat (length l) + 1) by lia. rewrite Z.pow_add_r by lia. destruct (x <=? 0); lia.
Qed.
Lemma mask_bit x l : (length (x :: l) <= 64)%nat -> Z.land (nt_mask (x :: l)) 1 = (if x <=? 0 then 1 else 0) /\ Z.shiftr (nt_mask (x :: l)) 1 = nt_mask l.
Proof.
  intros L. cbn [length] in L. pose proof (mask_range l ltac:(lia)) as R. rewrite (mask_tail x l) by (auto; lia).
  change 1 with (Z.ones 1) at 2. rewrite Z.land_ones by lia. rewrite Z.shiftr_div_pow2 by lia. change (2 ^ 1) with 2. split.
  - rewrite Z.add_comm, Z.mul_comm, Z.mod_add by lia. destruct (x <=? 0); auto.
  - rewrite Z.add_comm, Z.mul_comm, Z.div_add by lia. destruct (x <=? 0); cbn; lia.
Qed.
(** what a dictionary says stays *)
Definition ext (s s' : dict) : Prop := forall i w, word_of s i w -> word_of s' i w.
Lemma ext_refl s : ext s s. Proof. intros i w H; auto. Qed.
Lemma ext_trans a b c : ext a b -> ext b c -> ext a c. Proof. intros X Y i w H. auto. Qed.
Lemma word_of_inv s i w : inv s -> word_of s i w -> 0 < i /\ d_ s w = Some i.
Proof.
  intros I (NZ & E). unfold convert_id in E. rewrite (proj2 (Z.eqb_neq i 0)) in E by auto. destruct (Z.leb_spec i (wrap32 (Z.of_nat (length (words_ s))))) as [L|]; [|discriminate].
  destruct (Z.ltb_spec (i - 1) 0); [discriminate|]. split; [lia|]. apply (inv_map s I). exists (Z.to_nat (i - 1)). split; [auto|lia].
Qed.
Lemma of_map s i w : inv s -> d_ s w = Some i -> word_of s i w.
Proof. intros I H. destruct (convert_id_of s w i I H) as [A B]. split; [lia|auto]. Qed.
Lemma convert_step s w : inv s -> Z.of_nat (length (words_ s)) + 1 < BOUND ->
  exists i s', convert_word s w false = (i, s') /\ inv s' /\ ext s s' /\ word_of s' i w /\ 0 < i /\ (length (words_ s') <= length (words_ s) + 1)%nat.
Proof.
  intros I B. pose proof (convert_word_inv s w false I B) as I'. pose proof (convert_word_words s w I) as W. destruct (convert_word s w false) as (i, s') eqn:E. cbn [snd] in *.
  assert (X : ext s s').
  { intros j v V. destruct (word_of_inv s j v I V) as [P D]. apply of_map; auto. apply (inv_map s I) in D. destruct D as (n & N & ->). apply (inv_map s' I'). exists n. split; [|auto]. rewrite W. unfold add_word. destruct in_dec; [auto|]. rewrite nth_error_app1; auto. apply nth_error_Some. congruence. }
  assert (D : d_ s' w = Some i). { unfold convert_word in E. destruct (d_ s w) as [j|] eqn:J; injection E as <- <-; [auto|]. cbn [d_]. unfold map_set. destruct string_dec; [auto|congruence]. }
  exists i, s'. split; [auto|]. split; [auto|]. split; [auto|]. split; [apply of_map; auto|]. split; [pose proof (proj1 (convert_id_of s' w i I' D)); lia|]. rewrite W. apply add_word_len.
Qed.
Lemma convert_known s i w : inv s -> word_of s i w -> convert_word s w false = (i, s).
Proof. intros I W. destruct (word_of_inv s i w I W) as [_ D]. unfold convert_word. rewrite D. auto. Qed.

Section Archive.
Variable scores : Type.
Notation item := (item scores).
Lemma f_ext s s' x y : ext s s' -> f_says s x y -> f_says s' x y.
Proof. intros X H. destruct H as [x w L W|x w L W]; constructor; auto. Qed.
Lemma e_ext s s' x y : ext s s' -> e_says s x y -> e_says s' x y.
Proof. intros X H. destruct H as [x L|x w L W]; constructor; auto. Qed.
Lemma Forall2_mono_ {A B} (P Q : A -> B -> Prop) l m : (forall a b, P a b -> Q a b) -> Forall2 P l m -> Forall2 Q l m.
Proof. intros H F. induction F; constructor; auto. Qed.
Lemma load_f_ok s1 (I1 : inv s1) : forall f syms, Forall2 (f_says s1) f syms -> (length f <= 64)%nat ->
  exists items, save_f scores s1 f = Some items /\
  forall s2 rest, inv s2 -> Z.of_nat (length (words_ s2)) + Z.of_nat (length f) < BOUND ->
  exists xs s3, load_f scores (length f) (nt_mask f) s2 (items ++ rest) = Some (xs, s3, rest) /\ inv s3 /\ ext s2 s3 /\
    (length (words_ s3) <= length (words_ s2) + length f)%nat /\ Forall2 (f_says s3) xs syms /\ (s2 = s1 -> xs = f /\ s3 = s1).
Proof.
  intros f syms F. induction F as [|x y f syms X F IH]; intros L.
  - exists []. split; [auto|]. intros s2 rest I2 B. exists [], s2. cbn. split; [auto|]. split; [auto|]. split; [apply ext_refl|]. split; [lia|]. split; [constructor|auto].
  - cbn [length] in *. destruct IH as (items & SV & LD); [lia|]. pose proof (mask_bit x f ltac:(cbn [length]; lia)) as [M1 M2].
    assert (XX : exists w, convert_id s1 (if x <? 0 then - x else x) = Some w /\ x <> 0 /\ y = (if x <? 0 then Cat w else Word w) /\ word_of s1 (if x <? 0 then - x else x) w).
    { destruct X as [x w N W|x w N W]; exists w; [rewrite (proj2 (Z.ltb_lt x 0)) by lia|rewrite (proj2 (Z.ltb_ge x 0)) by lia]; (split; [apply W|split; [lia|auto]]). }
    destruct XX as (w & CW & NZ & -> & WO). exists (IStr scores w :: items). split; [unfold save_f in *; cbn [map_opt]; rewrite CW; cbn [bind]; rewrite SV; auto|].
    intros s2 rest I2 B. cbn [app load_f]. destruct (convert_step s2 w I2 ltac:(lia)) as (i & s' & CV & I' & E' & W' & P' & LW). rewrite CV, M1, M2.
    destruct (LD s' rest I' ltac:(lia)) as (xs & s3 & LD' & I3 & E3 & LW3 & F3 & SAME). rewrite LD'. cbn [bind].
    exists (i * (if (if x <=? 0 then 1 else 0) =? 0 then 1 else -1) :: xs), s3. split; [auto|]. split; [auto|]. split; [eapply ext_trans; eauto|]. split; [lia|]. split.
    + constructor; [|auto]. destruct (Z.ltb_spec x 0).
      * rewrite (proj2 (Z.leb_le x 0)) by lia. cbn. constructor; [lia|]. replace (- (i * -1)) with i by lia. apply E3; auto.
      * rewrite (proj2 (Z.leb_gt x 0)) by lia. cbn. constructor; [lia|]. replace (i * 1) with i by lia. apply E3; auto.
    + intros ->. rewrite (convert_known s1 _ w I1 WO) in CV. injection CV as <- <-. destruct (SAME eq_refl) as [-> ->]. split; [|auto]. f_equal.
      destruct (Z.ltb_spec x 0); [rewrite (proj2 (Z.leb_le x 0)) by lia; cbn; lia|rewrite (proj2 (Z.leb_gt x 0)) by lia; cbn; lia].
Qed.
Lemma load_e_ok s1 (I1 : inv s1) : forall e syms, Forall2 (e_says s1) e syms -> (length e <= 64)%nat ->
  exists items, save_e scores s1 e = Some items /\
  forall s2 rest, inv s2 -> Z.of_nat (length (words_ s2)) + Z.of_nat (length e) < BOUND ->
  exists xs s3, load_e scores (length e) (nt_mask e) s2 (items ++ rest) = Some (xs, s3, rest) /\ inv s3 /\ ext s2 s3 /\
    (length (words_ s3) <= length (words_ s2) + length e)%nat /\ Forall2 (e_says s3) xs syms /\ (s2 = s1 -> xs = e /\ s3 = s1).
Proof.
  intros e syms F. induction F as [|x y e syms X F IH]; intros L.
  - exists []. split; [auto|]. intros s2 rest I2 B. exists [], s2. cbn. split; [auto|]. split; [auto|]. split; [apply ext_refl|]. split; [lia|]. split; [constructor|auto].
  - cbn [length] in *. destruct IH as (items & SV & LD); [lia|]. pose proof (mask_bit x e ltac:(cbn [length]; lia)) as [M1 M2]. unfold save_e in SV |- *. cbn [map_opt]. destruct X as [x N|x w N W].
    + rewrite (proj2 (Z.leb_le x 0)) in * by lia. cbn [bind]. rewrite SV. cbn [bind]. exists (IInt scores x :: items). split; [auto|]. intros s2 rest I2 B. cbn [app load_e]. rewrite M1, M2. cbn [Z.eqb].
      destruct (LD s2 rest I2 ltac:(lia)) as (xs & s3 & LD' & I3 & E3 & LW3 & F3 & SAME). rewrite LD'. cbn [bind]. exists (x :: xs), s3. split; [auto|]. split; [auto|]. split; [auto|]. split; [lia|]. split; [constructor; [constructor; auto|auto]|].
      intros E. destruct (SAME E) as [-> ->]. auto.
    + rewrite (proj2 (Z.leb_gt x 0)) in * by lia. rewrite (proj2 W). cbn [bind]. rewrite SV. cbn [bind]. exists (IStr scores w :: items). split; [auto|]. intros s2 rest I2 B. cbn [app load_e]. rewrite M1, M2. cbn [Z.eqb].
      destruct (convert_step s2 w I2 ltac:(lia)) as (i & s' & CV & I' & E' & W' & P' & LW). rewrite CV. destruct (LD s' rest I' ltac:(lia)) as (xs & s3 & LD' & I3 & E3 & LW3 & F3 & SAME). rewrite LD'. cbn [bind].
      exists (i :: xs), s3. split; [auto|]. split; [auto|]. split; [eapply ext_trans; eauto|]. split; [lia|]. split; [constructor; [constructor; [lia|auto]|auto]|].
      intros ->. rewrite (convert_known s1 x w I1 W) in CV. injection CV as <- <-. destruct (SAME eq_refl) as [-> ->]. auto.
Qed.
Theorem save_load s1 r l fs es : inv s1 -> says s1 r l fs es -> (length (f_ scores r) <= 64)%nat -> (length (e_ scores r) <= 64)%nat ->
  exists ar, save scores s1 r = Some ar /\
  forall s2 rest, inv s2 -> Z.of_nat (length (words_ s2)) + 129 < 2 ^ 31 ->
  exists r' s3, load scores s2 (ar ++ rest) = Some (r', s3, rest) /\ says s3 r' l fs es /\ arity scores r' = arity scores r /\ scores_ scores r' = scores_ scores r /\
    ext s2 s3 /\ (s2 = s1 -> s3 = s1 /\ lhs scores r' = lhs scores r /\ f_ scores r' = f_ scores r /\ e_ scores r' = e_ scores r).
Proof.
  intros I1 (LN & LW & F & E) LF LE. destruct (load_f_ok s1 I1 _ _ F LF) as (fi & SF & LDF). destruct (load_e_ok s1 I1 _ _ E LE) as (ei & SE & LDE).
  unfold save. rewrite (proj2 LW). cbn [bind]. rewrite (proj2 (Nat.ltb_ge 64 _)) by auto. rewrite SF. cbn [bind]. rewrite (proj2 (Nat.ltb_ge 64 _)) by auto. rewrite SE. cbn [bind].
  eexists. split; [reflexivity|]. intros s2 rest I2 B. rewrite <- !app_assoc. cbn [app load]. unfold BOUND in *.
  destruct (convert_step s2 l I2 ltac:(unfold BOUND; lia)) as (i & s' & CV & I' & E' & W' & P' & LW'). rewrite CV. rewrite !Nat2Z.id.
  destruct (LDF s' (IUns scores (Z.of_nat (length (e_ scores r))) :: IMask scores (nt_mask (e_ scores r)) :: ei ++ IChar scores (arity scores r) :: IScores scores (scores_ scores r) :: rest) I' ltac:(lia)) as (xs & s3 & LD & I3 & E3 & LW3 & F3 & SAME).
  rewrite LD. cbn [bind]. rewrite !Nat2Z.id.
  destruct (LDE s3 (IChar scores (arity scores r) :: IScores scores (scores_ scores r) :: rest) I3 ltac:(lia)) as (ys & s4 & LD4 & I4 & E4 & LW4 & F4 & SAME4). rewrite <- ?app_assoc. cbn [app]. rewrite LD4. cbn [bind].
  eexists. exists s4. split; [reflexivity|]. cbn [lhs f_ e_ arity scores_]. split; [|split; [auto|split; [auto|split]]].
  - unfold says. cbn [lhs f_ e_]. split; [lia|]. split; [rewrite Z.opp_involutive; auto|]. split; [|auto]. eapply Forall2_mono_; [|exact F3]. intros; eapply f_ext; eauto.
  - eapply ext_trans; [eauto|]. eapply ext_trans; eauto.
  - intros ->. rewrite (convert_known s1 _ l I1 LW) in CV. injection CV as <- <-. destruct (SAME eq_refl) as [-> ->]. destruct (SAME4 eq_refl) as [-> ->]. split; [auto|]. split; [lia|auto].
Qed.
End Archive.
Lemma run_len h : in_budget h -> (length (words_ (dict_run dict_init h)) <= length (history_words h))%nat.
Proof.
  intros B. rewrite (proj2 (run_init h B)). assert (G : forall l acc, (length (fold_left add_word l acc) <= length acc + length l)%nat).
  { induction l as [|w l IH]; intros acc; cbn [fold_left length]; [lia|]. specialize (IH (add_word acc w)). pose proof (add_word_len acc w). lia. }
  apply (G _ []).
Qed.
Theorem archive_other {scores} h1 h2 (r : trule scores) l fs es : in_budget h1 -> Z.of_nat (length (history_words h2)) + 129 < 2 ^ 31 ->
  says (dict_run dict_init h1) r l fs es -> (length (f_ scores r) <= 64)%nat -> (length (e_ scores r) <= 64)%nat ->
  exists ar, save scores (dict_run dict_init h1) r = Some ar /\
  forall rest, exists r' s, load scores (dict_run dict_init h2) (ar ++ rest) = Some (r', s, rest) /\
    says s r' l fs es /\ arity scores r' = arity scores r /\ scores_ scores r' = scores_ scores r /\
    (forall i w, word_of (dict_run dict_init h2) i w -> word_of s i w).
Proof.
  intros B1 B2 S LF LE. destruct (save_load scores _ r l fs es (proj1 (run_init h1 B1)) S LF LE) as (ar & SV & LD). exists ar. split; [auto|]. intros rest.
  assert (B2' : in_budget h2) by (unfold in_budget; lia). pose proof (run_len h2 B2'). destruct (LD (dict_run dict_init h2) rest (proj1 (run_init h2 B2')) ltac:(lia)) as (r' & s & A & B & C & D & E & _).
  exists r', s. auto.
Qed.
Theorem archive_same {scores} h (r : trule scores) l fs es : Z.of_nat (length (history_words h)) + 129 < 2 ^ 31 ->
  says (dict_run dict_init h) r l fs es -> (length (f_ scores r) <= 64)%nat -> (length (e_ scores r) <= 64)%nat ->
  exists ar, save scores (dict_run dict_init h) r = Some ar /\
  forall rest, load scores (dict_run dict_init h) (ar ++ rest) =
    Some ({| lhs := lhs scores r; f_ := f_ scores r; e_ := e_ scores r; arity := arity scores r; scores_ := scores_ scores r; a_ := [] |}, dict_run dict_init h, rest).
Proof.
  intros B S LF LE. assert (B1 : in_budget h) by (unfold in_budget; lia). destruct (save_load scores _ r l fs es (proj1 (run_init h B1)) S LF LE) as (ar & SV & LD). exists ar. split; [auto|]. intros rest.
  pose proof (run_len h B1). destruct (LD (dict_run dict_init h) rest (proj1 (run_init h B1)) ltac:(lia)) as (r' & s & X & _ & C & D & _ & SAME). destruct (SAME eq_refl) as (-> & P & Q & R).
  assert (N : a_ scores r' = []).
  { clear - X. unfold load in X. repeat match type of X with
      | context [match ?t with _ => _ end] => let E := fresh in destruct t eqn:E; try discriminate
      | context [bind ?t _] => let E := fresh in destruct t eqn:E; cbn [bind] in X; try discriminate end. injection X as <- _ _. reflexivity. }
  rewrite X. destruct r'; cbn in *; subst. auto.
Qed.
Theorem too_long {scores} s (r : trule scores) : (64 < length (f_ scores r))%nat \/ (64 < length (e_ scores r))%nat -> save scores s r = None.
Proof.
  intros H. unfold save. destruct (convert_id s (- lhs scores r)); cbn [bind]; [|auto]. destruct (Nat.ltb_spec 64 (length (f_ scores r))); [auto|]. destruct H; [lia|]. destruct (save_f scores s (f_ scores r)); cbn [bind]; [|auto]. rewrite (proj2 (Nat.ltb_lt 64 _)) by auto. auto.
Qed.
