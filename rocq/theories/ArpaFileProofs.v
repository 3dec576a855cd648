(** The whole file. *)
From Coq Require Import String List ZArith NArith Bool Lia.
Import ListNotations.
From Verif Require Import Lm LmSpec Arpa ArpaSpec ArpaProofs ArpaLoadProofs ArpaVocabProofs.
Open Scope Z_scope.
Open Scope res_scope.

Lemma neg_mag_le x : val x <= 0 -> - Z.of_N (mag x) = val x.
Proof. unfold val. destruct (neg x); lia. Qed.

Lemma SetRests_nth c k u i w : nth_error u i = Some w -> exists w', nth_error (SetRests c k u) i = Some w' /\ f_prob w' = f_prob w /\ f_backoff w' = f_backoff w.
Proof.
  revert w. induction k as [|k IH]; intros w H; cbn [SetRests]; [exists w; auto|]. destruct (IH w H) as (w1 & H1 & E1 & E2).
  rewrite nth_modify, H1. destruct (Nat.eqb i k); [|exists w1; auto]. eexists. split; [reflexivity|]. destruct (SetRest_prob c [k] w1) as (-> & ->). auto.
Qed.
Lemma SetRests_length c k u : length (SetRests c k u) = length u.
Proof. induction k as [|k IH]; [reflexivity|]. cbn [SetRests]. rewrite modify_nth_length. exact IH. Qed.

(** The scores by ids only depend on the unigrams of the words. *)
Section Ext.
Variable sec : nat -> list (ngram * (Z * Z)).
Variables u1 u2 : list fw.
Lemma bowF_ext g : (forall w, In w g -> nth_error u1 w = nth_error u2 w) -> bowF sec u1 g = bowF sec u2 g.
Proof. intros H. destruct g as [|a [|b g]]; [reflexivity| |reflexivity]. cbn. rewrite H by (left; reflexivity). reflexivity. Qed.
Lemma firstn_incl {A : Type} k : forall (l : list A) x, In x (firstn k l) -> In x l.
Proof. induction k as [|k IH]; intros [|y l] x H; cbn in H; [contradiction|contradiction|contradiction|]. destruct H as [H|H]; [left; exact H|right; apply IH, H]. Qed.
Lemma tl_incl {A : Type} (l : list A) x : In x (tl l) -> In x l.
Proof. destruct l; [contradiction|]. intros H. right. exact H. Qed.
Lemma ak_ext g : (forall w, In w g -> nth_error u1 w = nth_error u2 w) -> forall k, ak sec u1 g k = ak sec u2 g k.
Proof.
  intros H k. induction k as [|k IH]; [reflexivity|]. destruct k as [|k].
  - cbn. destruct g as [|w g]; [reflexivity|]. rewrite H by (left; reflexivity). reflexivity.
  - change (ak sec u1 g (S (S k))) with (match fentry sec (firstn (S (S k)) g) with Some (p, _) => p | None => bowF sec u1 (firstn (S k) (tl g)) + ak sec u1 g (S k) end).
    change (ak sec u2 g (S (S k))) with (match fentry sec (firstn (S (S k)) g) with Some (p, _) => p | None => bowF sec u2 (firstn (S k) (tl g)) + ak sec u2 g (S k) end).
    rewrite IH. destruct (fentry _ _) as [[p b]|]; [reflexivity|]. f_equal. apply bowF_ext. intros w Hw. apply H. apply tl_incl, (firstn_incl (S k)), Hw.
Qed.
End Ext.

Section File.
Variable c : config.
Variable a : arpa.
Variable v : vocab.
Variable u : list fw.
Notation L := (length (one a) + 1)%nat.
Hypothesis R : RInv c L (one a) v u.
Notation order := (S (length (more a))).
Hypothesis order2 : (2 <= order)%nat.
Notation idx := (Index v).
Notation count := (fun n => match n with 1%nat => length (one a) | _ => length (nth (n - 2) (more a) []) end).

Definition entry_of (l : line) : ngram * (Z * Z) := (rev (map idx (l_words l)), (capped (l_prob l), weight (l_back l))).
Definition sec (n : nat) : list (ngram * (Z * Z)) := map entry_of (nth (n - 2) (more a) []).
Definition uni0 : list fw := SetRests c (length (one a)) u.
Notation Inv := (Inv order sec uni0).
Notation fine := (line_fine a (c_positive c)).

Lemma count_sec n : (2 <= n <= order)%nat -> count n = length (sec n).
Proof. intros H. unfold sec. rewrite map_length. destruct n as [|[|n]]; [lia|lia|reflexivity]. Qed.
Lemma uni0_length : length uni0 = L.
Proof. unfold uni0. rewrite SetRests_length. apply (r_len _ _ _ _ _ R). Qed.
Lemma L1 : (1 <= L)%nat. Proof. lia. Qed.

Lemma ReadNGram_ok (Bad : Prop) n pre l post t : (2 <= n <= order)%nat -> nth (n - 2) (more a) [] = pre ++ l :: post ->
  (~ CLEAN order sec -> Bad) -> (~ fine n l -> Bad) -> Inv n (map entry_of pre) t ->
  safe Bad (ReadNGram c order count n v l t) (fun t' => Inv n (map entry_of (pre ++ [l])) t' /\ fine n l).
Proof.
  intros Hn Hsec HC HF I0. unfold ReadNGram. destruct (Nat.eqb_spec (length (l_words l)) n) as [Ln|Nn]; cbn [negb].
  2:{ cbn. apply HF. intros (F & _). contradiction. }
  eapply safe_bind; [apply read_prob_ok|].
  { intros Hc Hp. apply HF. intros (_ & F & _). specialize (F Hc). lia. }
  intros p (Vp & Fp). eapply safe_bind; [apply (read_words_ok c a v u L R L1)|].
  { intros s Hs Ns. apply HF. intros (_ & _ & F & _). apply Ns, F, Hs. }
  intros ids (-> & Fw).
  change (safe Bad (insert_line c order count n p (l_back l) (rev (map idx (l_words l))) t) (fun t' => Inv n (map entry_of (pre ++ [l])) t' /\ fine n l)).
  assert (Hs : sec n = map entry_of pre ++ (rev (map idx (l_words l)), (capped (l_prob l), weight (l_back l))) :: map entry_of post) by (unfold sec; rewrite Hsec, map_app; reflexivity).
  assert (Lg : length (rev (map idx (l_words l))) = n) by (rewrite rev_length, map_length; exact Ln).
  assert (HNB : n = order -> ReadNoBackoff (l_back l) = false -> Bad).
  { intros En Er. apply HF. intros (_ & _ & _ & F). specialize (F En). unfold ReadNoBackoff in Er. destruct (l_back l) as [x|]; [|discriminate]. cbn in F. rewrite F in Er. discriminate. }
  destruct (ReadNoBackoff (l_back l)) eqn:Er.
  - assert (Fi : fine n l).
    { split; [exact Ln|]. split; [exact Fp|]. split; [apply Forall_forall; exact Fw|]. intros _. unfold ReadNoBackoff in Er. destruct (l_back l) as [x|]; [|reflexivity]. apply Z.eqb_eq in Er. exact Er. }
    eapply safe_mono; [apply (insert_line_ok c order count order2 sec uni0 count_sec Bad n (map entry_of pre) (map entry_of post) p (l_back l) (rev (map idx (l_words l))) (capped (l_prob l)) (weight (l_back l)) t Hn Lg Hs)|];
      [|rewrite Vp; unfold capped; lia|symmetry; exact Vp|reflexivity|exact HC|intros _ Er'; congruence|exact I0|].
    + intros w Hw. apply in_rev in Hw. apply in_map_iff in Hw. destruct Hw as (s & <- & _). rewrite uni0_length. apply (idx_range c a v u L R L1).
    + intros t' I1. split; [rewrite map_app; exact I1|exact Fi].
  - destruct (Nat.eq_dec n order) as [En|Nn].
    + unfold insert_line. destruct (Nat.eqb_spec n order); [|contradiction]. rewrite Er. cbn. apply HNB; [exact En|reflexivity].
    + assert (Fi : fine n l).
      { split; [exact Ln|]. split; [exact Fp|]. split; [apply Forall_forall; exact Fw|]. intros; contradiction. }
      eapply safe_mono; [apply (insert_line_ok c order count order2 sec uni0 count_sec Bad n (map entry_of pre) (map entry_of post) p (l_back l) (rev (map idx (l_words l))) (capped (l_prob l)) (weight (l_back l)) t Hn Lg Hs)|];
        [|rewrite Vp; unfold capped; lia|symmetry; exact Vp|reflexivity|exact HC|intros; contradiction|exact I0|].
      * intros w Hw. apply in_rev in Hw. apply in_map_iff in Hw. destruct Hw as (s & <- & _). rewrite uni0_length. apply (idx_range c a v u L R L1).
      * intros t' I1. split; [rewrite map_app; exact I1|exact Fi].
Qed.

Lemma ReadNGrams_ok (Bad : Prop) n ls : forall pre t, (2 <= n <= order)%nat -> nth (n - 2) (more a) [] = pre ++ ls ->
  (~ CLEAN order sec -> Bad) -> (forall l, In l ls -> ~ fine n l -> Bad) -> Inv n (map entry_of pre) t ->
  safe Bad (ReadNGrams c order count n v ls t) (fun t' => Inv n (sec n) t' /\ Forall (fine n) ls).
Proof.
  induction ls as [|l ls IH]; intros pre t Hn Hs HC HF I0; cbn [ReadNGrams].
  - cbn. split; [|constructor]. unfold sec. rewrite Hs, app_nil_r. exact I0.
  - eapply safe_bind; [apply (ReadNGram_ok Bad n pre l ls t Hn Hs HC); [apply HF; left; reflexivity|exact I0]|]. intros t' (I1 & F1).
    eapply safe_mono; [apply (IH (pre ++ [l])); [exact Hn|rewrite Hs, <- app_assoc; reflexivity|exact HC|intros l' Hl'; apply HF; right; exact Hl'|exact I1]|].
    intros t2 (I2 & F2). split; [exact I2|constructor; assumption].
Qed.

Lemma done_next n d : (2 <= n)%nat -> done sec (S n) [] d <-> done sec n (sec n) d.
Proof.
  intros Hn. unfold done. split.
  - intros [(m & Hm & Hd)|[]]. destruct (Nat.eq_dec m n) as [->|]; [right; exact Hd|]. left. exists m. split; [lia|exact Hd].
  - intros [(m & Hm & Hd)|Hd]; left; [exists m; split; [lia|exact Hd]|exists n; split; [lia|exact Hd]].
Qed.
Lemma Inv_next n t : (2 <= n)%nat -> Inv n (sec n) t -> Inv (S n) [] t.
Proof.
  intros Hn I. destruct I as [I1 I2 I3 I4 I5 I6 I7 I8]. constructor; try assumption.
  - split; [|intros d []]. intros m d Hm Hd. destruct (Nat.eq_dec m n) as [->|]; [apply I1, Hd|]. apply I1; [lia|exact Hd].
  - intros g. rewrite I3. split; (intros [H|(H1 & d & H2 & H3)]; [left; exact H|right; split; [exact H1|]; exists d; split; [|exact H3]; apply done_next; assumption]).
  - intros CL. destruct (I8 CL) as (S1 & S2). assert (E : forall m, dlen sec n (sec n) m = dlen sec (S n) [] m).
    { intros m. unfold dlen. destruct (Nat.ltb_spec m n), (Nat.ltb_spec m (S n)), (Nat.eqb_spec m n), (Nat.eqb_spec m (S n)); subst; try lia; reflexivity. }
    split; [intros i Hi; rewrite S1 by exact Hi; apply E|rewrite S2; apply E].
Qed.

Lemma ReadSections_ok (Bad : Prop) ss : forall n pre t, more a = pre ++ ss -> n = (length pre + 2)%nat ->
  (~ CLEAN order sec -> Bad) -> (forall n l, line_of a n l -> ~ fine n l -> Bad) -> Inv n [] t ->
  safe Bad (ReadSections c order count n v ss t) (fun t' => Inv (S order) [] t' /\ forall i l, In l (nth i ss []) -> fine (n + i) l).
Proof.
  induction ss as [|ls ss IH]; intros n pre t Hm Hn HC HF I0; cbn [ReadSections].
  - cbn [safe]. split; [|intros i l H; destruct i; contradiction]. rewrite app_nil_r in Hm. replace (S order) with n by (rewrite Hm; lia). exact I0.
  - assert (Hlen : length (more a) = (length pre + S (length ss))%nat) by (rewrite Hm, app_length; reflexivity).
    assert (Hls : nth (n - 2) (more a) [] = ls) by (rewrite Hm, app_nth2 by lia; replace (n - 2 - length pre)%nat with 0%nat by lia; reflexivity).
    eapply safe_bind; [apply (ReadNGrams_ok Bad n ls []); [lia|exact Hls|exact HC| |exact I0]|].
    { intros l Hl. apply HF. split; [lia|rewrite Hls; exact Hl]. }
    intros t' (I1 & F1). eapply safe_mono; [apply (IH (S n) (pre ++ [ls])); [rewrite <- app_assoc; exact Hm|rewrite app_length; cbn; lia|exact HC|exact HF|apply Inv_next; [lia|exact I1]]|].
    intros t2 (I2 & F2). split; [exact I2|]. intros i l Hl. destruct i as [|i]; cbn [nth] in Hl.
    + rewrite Nat.add_0_r. rewrite Forall_forall in F1. apply F1, Hl.
    + replace (n + S i)%nat with (S n + i)%nat by lia. apply F2, Hl.
Qed.

Lemma Inv_start : Inv 2 [] (Tables uni0 (fun _ => []) []).
Proof.
  assert (V : forall g, (2 <= length g)%nat -> view order (Tables uni0 (fun _ => []) []) g = None).
  { intros g Lg. destruct g as [|x [|y g]]; cbn [length] in Lg; try lia. unfold view. destruct (Nat.ltb _ _); [reflexivity|]. destruct (Nat.eqb _ _); reflexivity. }
  constructor.
  - split; [intros; lia|intros d []].
  - reflexivity.
  - intros g. destruct g as [|x [|y g]].
    + cbn. split; [congruence|]. intros [(w & Hw & _)|(H & _)]; [discriminate|lia].
    + cbn. rewrite nth_error_Some. split; [intros H; left; exists x; auto|]. intros [(w & [= <-] & H)|(H & _)]; [exact H|lia].
    + rewrite V by (cbn; lia). split; [congruence|]. intros [(w & Hw & _)|(_ & d & [(m & Hm & _)|[]] & _)]; [discriminate|lia].
  - intros h p [].
  - intros g x Ng H. rewrite V in H; [congruence|]. rewrite app_length. destruct g; [congruence|cbn; lia].
  - intros x g Ng H. rewrite V in H; [congruence|]. destruct g; [congruence|cbn; lia].
  - intros g w H. destruct g as [|x [|y g]]; [discriminate| |rewrite V in H by (cbn; lia); discriminate]. cbn in H. cbn. rewrite H. auto.
  - intros _. split; [|unfold dlen; cbn [t_long length]; destruct (Nat.ltb_spec order 2); [lia|destruct (Nat.eqb order 2); reflexivity]]. intros i Hi. unfold dlen. cbn [t_mid length]. destruct (Nat.ltb_spec (i + 2) 2); [lia|]. destruct (Nat.eqb _ _); reflexivity.
Qed.

(** ** The finished tables *)
Definition alldone (d : ngram) : Prop := exists m, (2 <= m <= order)%nat /\ In d (map fst (sec m)).
Record Final (uu : list fw) (t : tables) : Prop := {
  fi_len : forall m d, (2 <= m <= order)%nat -> In d (map fst (sec m)) -> length d = m;
  fi_pres : forall g, view order t g <> None <-> (exists w, g = [w] /\ (w < L)%nat) \/ ((2 <= length g)%nat /\ exists d, alldone d /\ g = firstn (length g) d);
  fi_long : forall h p, In (h, p) (t_long t) -> neg p = true;
  fi_left : forall g x, g <> [] -> view order t (g ++ [x]) <> None -> marked_left order t g;
  fi_right : forall x g, g <> [] -> view order t (x :: g) <> None -> marked_ctx order t g;
  fi_val : forall g w, view order t g = Some w -> val (f_backoff w) = bowF sec uu g /\ (POS order sec uu -> - Z.of_N (mag (f_prob w)) = ak sec uu g (length g));
  fi_uni : length uu = L }.

Lemma done_all d : done sec (S order) [] d <-> alldone d.
Proof. unfold done, alldone. split; [intros [(m & Hm & Hd)|[]]; exists m; split; [lia|exact Hd]|intros (m & Hm & Hd); left; exists m; split; [lia|exact Hd]]. Qed.

Lemma final_plain t : Inv (S order) [] t -> Final uni0 t.
Proof.
  intros [I1 I2 I3 I4 I5 I6 I7 I8]. constructor; try assumption.
  - intros m d Hm. apply I1. lia.
  - intros g. rewrite I3, uni0_length. split; (intros [H|(H1 & d & H2 & H3)]; [left; exact H|right; split; [exact H1|]; exists d; split; [|exact H3]; apply done_all; assumption]).
  - apply uni0_length.
Qed.

Definition overwrite (w : fw) : fw := FW (c_unk_prob c) pzero (f_rest w).
Definition uni1 : list fw := modify_nth 0 overwrite uni0.
Definition with_unk (t : tables) : tables := Tables (modify_nth 0 overwrite (t_uni t)) (t_mid t) (t_long t).
Lemma view_with_unk t g : g <> [0%nat] -> view order (with_unk t) g = view order t g.
Proof. intros N. destruct g as [|x [|y g]]; [reflexivity| |reflexivity]. change (nth_error (modify_nth 0 overwrite (t_uni t)) x = nth_error (t_uni t) x). rewrite nth_modify. destruct (Nat.eqb_spec x 0) as [->|]; [congruence|reflexivity]. Qed.
Lemma final_unk t : (forall d, alldone d -> ~ In 0%nat d) -> Inv (S order) [] t -> Final uni1 (with_unk t).
Proof.
  intros NZ I. pose proof (final_plain t I) as F. destruct F as [I1 I3 I4 I5 I6 I7 I8].
  assert (W : forall g, (2 <= length g)%nat -> view order t g <> None -> ~ In 0%nat g).
  { intros g Lg V. apply I3 in V. destruct V as [(w & -> & _)|(_ & d & D & E)]; [cbn in Lg; lia|]. intros H. rewrite E in H. apply firstn_incl in H. apply (NZ d D H). }
  assert (N01 : forall w, w <> 0%nat -> nth_error uni0 w = nth_error uni1 w) by (intros w Nw; unfold uni1; rewrite nth_modify; destruct (Nat.eqb_spec w 0); [contradiction|reflexivity]).
  constructor; try assumption.
  - intros g. rewrite <- I3. destruct (gdec g [0%nat]) as [->|N]; [|rewrite view_with_unk by exact N; reflexivity]. change (nth_error (modify_nth 0 overwrite (t_uni t)) 0 <> None <-> nth_error (t_uni t) 0 <> None). rewrite nth_modify. cbn [Nat.eqb]. destruct (nth_error (t_uni t) 0); cbn [option_map]; split; congruence.
  - intros g x Ng V. rewrite view_with_unk in V by (destruct g as [|y [|z g]]; [congruence|discriminate|discriminate]).
    assert (N : g <> [0%nat]) by (intros ->; apply (W ([0%nat] ++ [x])); [cbn; lia|exact V|left; reflexivity]).
    destruct (I5 g x Ng V) as (w & Vw & E). exists w. split; [rewrite view_with_unk by exact N; exact Vw|exact E].
  - intros x g Ng V. rewrite view_with_unk in V by (destruct g as [|y g]; [congruence|discriminate]).
    assert (N : g <> [0%nat]) by (intros ->; apply (W [x; 0%nat]); [cbn; lia|exact V|right; left; reflexivity]).
    destruct (I6 x g Ng V) as (w & Vw & E). exists w. split; [rewrite view_with_unk by exact N; exact Vw|exact E].
  - intros g w V. destruct (gdec g [0%nat]) as [->|N].
    + change (nth_error (modify_nth 0 overwrite (t_uni t)) 0 = Some w) in V. rewrite nth_modify in V. cbn [Nat.eqb] in V.
      assert (E0 : nth_error (t_uni t) 0 <> None) by (intros E; rewrite E in V; discriminate).
      pose proof (i_uni _ _ _ _ _ _ I) as Lu. apply nth_error_Some in E0. destruct (nth_error uni0 0) as [x0|] eqn:Ex; [|apply nth_error_None in Ex; lia].
      assert (U : nth_error uni1 0 = Some (overwrite x0)) by (unfold uni1; rewrite nth_modify, Ex; reflexivity).
      destruct (nth_error (t_uni t) 0) as [y|]; [|discriminate]. injection V as <-. unfold bowF, ak. cbn [length]. rewrite U. split; reflexivity.
    + rewrite view_with_unk in V by exact N. destruct (I7 g w V) as (A1 & A2).
      assert (NZg : forall x, In x g -> nth_error uni0 x = nth_error uni1 x).
      { intros x Hx. apply N01. intros ->. destruct g as [|y [|z g]]; [contradiction| |].
        - destruct Hx as [->|[]]. apply N. reflexivity.
        - apply (W (y :: z :: g)); [cbn; lia|rewrite V; discriminate|exact Hx]. }
      rewrite <- (bowF_ext sec uni0 uni1 g NZg), <- (ak_ext sec uni0 uni1 g NZg). split; [exact A1|]. intros PO. apply A2.
      intros n d Hn Hd k Hk. rewrite (ak_ext sec uni0 uni1 d); [apply (PO n d Hn Hd k Hk)|]. intros x Hx. apply N01. intros ->. apply (NZ d); [exists n; auto|exact Hx].
  - unfold uni1. rewrite modify_nth_length. exact I8.
Qed.

(** ** The model *)
Section Model.
Variable uu : list fw.
Variable t : tables.
Hypothesis F : Final uu t.
Hypothesis maxo : (order <= c_max c)%nat.
Notation m := (to_search c a t).

Definition wt (g : ngram) (w : fw) : weights := if Nat.eqb (length g) order then Wt (val (f_prob w)) false 0 false (val (f_prob w)) else Weights (c_build c) w.

Lemma view_entry g w : view order t g = Some w -> entry m g = Some (wt g w).
Proof.
  intros V. unfold wt. destruct g as [|x [|y g]]; [discriminate| |].
  - cbn in V. cbn [length]. destruct (Nat.eqb_spec 1 order); [lia|]. unfold entry. cbn. rewrite (nth_error_nth _ _ _ V). reflexivity.
  - unfold view in V. unfold entry. cbn [Lm.order to_search]. destruct (Nat.ltb_spec (length (x :: y :: g)) order).
    + destruct (Nat.eqb_spec (length (x :: y :: g)) order); [lia|]. cbn [middle to_search]. rewrite V. reflexivity.
    + destruct (Nat.eqb_spec (length (x :: y :: g)) order); [|discriminate]. cbn [longest to_search]. destruct (find _ (t_long t)) as [p|]; [|discriminate]. injection V as <-. reflexivity.
Qed.
Lemma view_no_entry g : (2 <= length g)%nat -> view order t g = None -> entry m g = None.
Proof.
  intros Lg V. destruct g as [|x [|y g]]; cbn [length] in Lg; try lia. unfold view in V. unfold entry. cbn [Lm.order to_search]. destruct (Nat.ltb_spec (length (x :: y :: g)) order).
  - cbn [middle to_search]. rewrite V. reflexivity.
  - destruct (Nat.eqb_spec (length (x :: y :: g)) order); [|reflexivity]. cbn [longest to_search]. destruct (find _ (t_long t)); [discriminate|reflexivity].
Qed.
Lemma view_uni w : (w < L)%nat -> view order t [w] <> None.
Proof. intros H. apply (fi_pres _ _ F). left. exists w. auto. Qed.

Lemma present_short g : view order t g <> None -> (1 <= length g <= order)%nat.
Proof.
  intros V. apply (fi_pres _ _ F) in V. destruct V as [(w & -> & _)|(L2 & d & (n & Hn & Hd) & E)]; [cbn; lia|]. pose proof (fi_len _ _ F n d Hn Hd) as Ld. apply (f_equal (@length word)) in E. rewrite firstn_length in E. lia.
Qed.

Lemma has_ext_bow g w : entry m g = Some w -> has_ext w = false -> backoff w = 0.
Proof.
  intros E H. destruct (view order t g) as [x|] eqn:V.
  - rewrite (view_entry g x V) in E. injection E as <-. unfold wt in *. destruct (Nat.eqb _ _); [reflexivity|]. cbn in *. apply Has_false. exact H.
  - destruct g as [|y [|z g]]; [discriminate| |rewrite view_no_entry in E; [discriminate|cbn; lia|exact V]].
    cbn in V. unfold entry in E. cbn in E. injection E as <-. apply nth_error_None in V. rewrite nth_overflow in H |- * by exact V. reflexivity.
Qed.

Lemma entry_view g x : (2 <= length g)%nat -> entry m g = Some x -> view order t g <> None.
Proof. intros Lg E V. rewrite (view_no_entry g Lg V) in E. discriminate. Qed.

Theorem model_built : well_built m.
Proof.
  constructor.
  - cbn. lia.
  - intros g x w Ng E. assert (V : view order t (g ++ [x]) <> None) by (eapply entry_view; [rewrite app_length; destruct g; [congruence|cbn; lia]|exact E]).
    destruct (fi_left _ _ F g x Ng V) as (y & Vy & M). exists (wt g y). split; [apply view_entry, Vy|].
    unfold wt. apply present_short in V. rewrite app_length in V. cbn [length] in V. destruct (Nat.eqb_spec (length g) order); [lia|]. cbn. rewrite M. reflexivity.
  - intros x g w Ng E. assert (V : view order t (x :: g) <> None) by (eapply entry_view; [destruct g; [congruence|cbn; lia]|exact E]).
    destruct (fi_right _ _ F x g Ng V) as (y & Vy & M). exists (wt g y). split; [apply view_entry, Vy|].
    unfold wt. apply present_short in V. cbn [length] in V. destruct (Nat.eqb_spec (length g) order); [lia|]. cbn. exact M.
  - exact has_ext_bow.
Qed.

(** Scores *)
Hypothesis lines_fine : forall n l, line_of a n l -> fine n l.
Notation normal := (normal a).
Variable unkp : Z.
Hypothesis uni_ok : forall s, normal s -> exists w, nth_error uu (idx s) = Some w /\ - Z.of_N (mag (f_prob w)) = file_prob1 a unkp s /\ val (f_backoff w) = file_bow a [s].

Lemma key_str l : entry_of l = (map idx (rev (map canon (l_words l))), (capped (l_prob l), weight (l_back l))).
Proof. unfold entry_of. f_equal. rewrite map_rev, map_map. f_equal. apply map_ext. intros s. symmetry. apply (idx_canon c a v u L R). Qed.
Lemma line_normal n l : line_of a n l -> Forall normal (rev (map canon (l_words l))).
Proof.
  intros Hl. destruct (lines_fine n l Hl) as (_ & _ & W & _). apply Forall_rev. apply Forall_forall. intros x Hx. apply in_map_iff in Hx. destruct Hx as (s & <- & Hs). apply (fine_normal a s), W, Hs.
Qed.

Lemma fentry_str g : (2 <= length g)%nat -> Forall normal g -> fentry sec (map idx g) = option_map (fun l => (capped (l_prob l), weight (l_back l))) (ngram_line a g).
Proof.
  intros Lg Ng. unfold fentry, ngram_line, sec. rewrite map_length.
  assert (H : forall l, In l (nth (length g - 2) (more a) []) -> Forall normal (rev (map canon (l_words l)))) by (intros l Hl; apply (line_normal (length g)); split; assumption).
  revert H. generalize (nth (length g - 2) (more a) []) as ls. induction ls as [|l ls IH]; intros H; [reflexivity|]. cbn [map find List.find]. rewrite key_str.
  destruct (list_eq_dec string_dec (map canon (l_words l)) (rev g)) as [E|N].
  - rewrite E, rev_involutive. destruct (gdec (map idx g) (map idx g)); [reflexivity|congruence].
  - destruct (gdec _ _) as [E|_]; [|apply IH; intros l' Hl'; apply H; right; exact Hl']. exfalso. apply N. apply (map_idx_inj c a v u L R L1) in E; [|apply H; left; reflexivity|exact Ng]. rewrite <- E, rev_involutive. reflexivity.
Qed.
Lemma bowF_str g : Forall normal g -> bowF sec uu (map idx g) = file_bow a g.
Proof.
  intros Ng. destruct g as [|x [|y g]]; [reflexivity| |].
  - inversion Ng; subst. destruct (uni_ok x H1) as (w & Hw & _ & Hb). unfold bowF. cbn [map]. rewrite Hw. exact Hb.
  - unfold bowF. change (match fentry sec (map idx (x :: y :: g)) with Some (_, b) => b | None => 0 end = file_bow a (x :: y :: g)). rewrite fentry_str by (try exact Ng; cbn; lia). unfold file_bow. destruct (ngram_line a (x :: y :: g)); reflexivity.
Qed.
Lemma Forall_firstn {A : Type} (P : A -> Prop) k : forall l, Forall P l -> Forall P (firstn k l).
Proof. induction k as [|k IH]; intros [|x l] H; cbn; try constructor; inversion H; subst; auto. Qed.
Lemma firstn_map' {A B : Type} (f : A -> B) k : forall l, firstn k (map f l) = map f (firstn k l).
Proof. induction k as [|k IH]; intros [|x l]; cbn; try reflexivity. rewrite IH. reflexivity. Qed.

Lemma ak_str w h : normal w -> Forall normal h -> forall k, (k <= length h)%nat -> ak sec uu (map idx (w :: h)) (S k) = file_katz a unkp k w h.
Proof.
  intros Nw Nh k. induction k as [|k IH]; intros Hk.
  - cbn. destruct (uni_ok w Nw) as (x & Hx & Hp & _). rewrite Hx. exact Hp.
  - change (ak sec uu (map idx (w :: h)) (S (S k))) with (match fentry sec (firstn (S (S k)) (map idx (w :: h))) with Some (p, _) => p | None => bowF sec uu (firstn (S k) (tl (map idx (w :: h)))) + ak sec uu (map idx (w :: h)) (S k) end).
    rewrite IH by lia. cbn [file_katz]. destruct (Nat.ltb_spec (length h) (S k)); [lia|].
    rewrite firstn_map'. change (firstn (S (S k)) (w :: h)) with (w :: firstn (S k) h). change (tl (map idx (w :: h))) with (map idx h). rewrite firstn_map', bowF_str by (apply Forall_firstn, Nh).
    rewrite fentry_str; [destruct (ngram_line a (w :: firstn (S k) h)); reflexivity| |constructor; [exact Nw|apply Forall_firstn, Nh]]. cbn [length]. rewrite firstn_length. lia.
Qed.

Lemma key_in n d : (2 <= n <= order)%nat -> In d (map fst (sec n)) -> exists l, line_of a n l /\ d = map idx (rev (map canon (l_words l))).
Proof. intros Hn Hd. unfold sec in Hd. rewrite map_map in Hd. apply in_map_iff in Hd. destruct Hd as (l & <- & Hl). exists l. split; [split; [apply (proj1 Hn)|exact Hl]|]. rewrite key_str. reflexivity. Qed.

Lemma pos_str : nonpositive a unkp -> POS order sec uu.
Proof.
  intros NP n d Hn Hd k Hk. destruct (key_in n d Hn Hd) as (l & Hl & ->). rewrite map_length in Hk.
  destruct (rev (map canon (l_words l))) as [|w h] eqn:E; [cbn in Hk; lia|]. pose proof (line_normal n l Hl) as Nl. rewrite E in Nl. inversion Nl; subst. destruct k as [|k]; [lia|]. rewrite ak_str; [apply (NP n l w h k Hl E)|assumption|assumption|cbn in Hk; lia].
Qed.

Lemma range_uni s : view order t [idx s] <> None.
Proof. apply view_uni. apply (idx_range c a v u L R L1). Qed.

Lemma bow_str g : Forall normal g -> (length g < order)%nat -> bow m (map idx g) = file_bow a g.
Proof.
  intros Ng Lg. unfold bow. rewrite <- (bowF_str g Ng). destruct (view order t (map idx g)) as [w|] eqn:V.
  - rewrite (view_entry _ w V). unfold wt. rewrite map_length. destruct (Nat.eqb_spec (length g) order); [lia|]. cbn. apply (fi_val _ _ F _ _ V).
  - destruct g as [|x [|y g]]; [reflexivity|exfalso; apply (range_uni x), V|]. rewrite view_no_entry by (try exact V; cbn; lia). unfold bowF. change (0 = match fentry sec (map idx (x :: y :: g)) with Some (_, b) => b | None => 0 end).
    destruct (fentry sec (map idx (x :: y :: g))) as [[p b]|] eqn:Ef; [|reflexivity]. exfalso. assert (Hi : In (map idx (x :: y :: g)) (map fst (sec (length (x :: y :: g))))) by (apply find_in; unfold fentry in Ef; rewrite map_length in Ef; rewrite Ef; discriminate).
    apply (proj2 (fi_pres _ _ F (map idx (x :: y :: g)))); [|exact V]. right. rewrite map_length. split; [cbn; lia|]. exists (map idx (x :: y :: g)). split; [exists (length (x :: y :: g)); split; [cbn [length] in *; lia|exact Hi]|]. rewrite <- (map_length idx (x :: y :: g)) at 1. rewrite firstn_all. reflexivity.
Qed.

Lemma neg_val x : neg x = true -> val x = - Z.of_N (mag x).
Proof. intros H. unfold val. rewrite H. reflexivity. Qed.
Lemma find_In {A : Type} g (l : list (ngram * A)) x : find g l = Some x -> In (g, x) l.
Proof. induction l as [|[k y] l IH]; cbn; [discriminate|]. destruct (gdec k g) as [->|]; [intros [= ->]; left; reflexivity|]. intros H. right. apply IH, H. Qed.
Lemma prob_wt g w : view order t g = Some w -> prob (wt g w) = - Z.of_N (mag (f_prob w)).
Proof.
  intros V. unfold wt. destruct (Nat.eqb_spec (length g) order) as [E|]; cbn; [|reflexivity]. apply neg_val.
  destruct g as [|x [|y g]]; [discriminate|cbn in E; lia|]. unfold view in V. destruct (Nat.ltb_spec (length (x :: y :: g)) order); [lia|]. rewrite E, Nat.eqb_refl in V. destruct (find _ (t_long t)) as [p|] eqn:Ef; [|discriminate]. injection V as <-. cbn. apply (fi_long _ _ F (x :: y :: g)), find_In, Ef.
Qed.

Lemma katz_str : nonpositive a unkp -> forall n w h, normal w -> Forall normal h -> (n <= length (more a))%nat -> katz m n (idx w) (map idx h) = file_katz a unkp n w h.
Proof.
  intros NP n w h Nw Nh. pose proof (pos_str NP) as PO. induction n as [|n IH]; intros Hn; cbn [katz file_katz].
  - pose proof (range_uni w) as Vw. destruct (view order t [idx w]) as [x|] eqn:V; [|congruence]. pose proof (view_entry _ _ V) as E. cbn in E. injection E as E. change (prob (unigram m (idx w)) = file_prob1 a unkp w). cbn [unigram to_search]. rewrite E. rewrite (prob_wt _ _ V).
    destruct (fi_val _ _ F _ _ V) as (_ & A). rewrite (A PO). change [idx w] with (map idx [w]). rewrite map_length. apply (ak_str w [] Nw (Forall_nil _) 0%nat). cbn. lia.
  - rewrite map_length. destruct (Nat.ltb_spec (length h) (S n)); [apply IH; lia|].
    assert (Nf : Forall normal (firstn (S n) h)) by (apply Forall_firstn, Nh). assert (Lf : length (firstn (S n) h) = S n) by (apply firstn_length_le; lia).
    rewrite firstn_map'. change (idx w :: map idx (firstn (S n) h)) with (map idx (w :: firstn (S n) h)).
    destruct (view order t (map idx (w :: firstn (S n) h))) as [x|] eqn:V.
    + rewrite (view_entry _ _ V), (prob_wt _ _ V). destruct (fi_val _ _ F _ _ V) as (_ & A). rewrite (A PO). rewrite map_length. cbn [length]. rewrite Lf. rewrite ak_str by (try assumption; lia).
      cbn [file_katz]. rewrite Lf. destruct (Nat.ltb_spec (S n) (S n)); [lia|]. rewrite firstn_firstn. replace (Nat.min (S n) (S n)) with (S n) by lia.
      destruct (ngram_line a (w :: firstn (S n) h)); [reflexivity|]. f_equal.
      rewrite <- !ak_str by (try assumption; lia). change (map idx (w :: firstn (S n) h)) with (map idx (firstn (S (S n)) (w :: h))). rewrite <- firstn_map'. apply (ak_firstn order order2). lia.
    + rewrite view_no_entry by (try exact V; rewrite map_length; cbn [length]; lia). rewrite bow_str by (try exact Nf; lia). rewrite IH by lia.
      assert (Hn' : ngram_line a (w :: firstn (S n) h) = None); [|rewrite Hn'; reflexivity].
      assert (Nall : Forall normal (w :: firstn (S n) h)) by (constructor; assumption).
      assert (Ll : length (w :: firstn (S n) h) = S (S n)) by (cbn [length]; lia).
      pose proof (fentry_str (w :: firstn (S n) h) ltac:(lia) Nall) as Fe. destruct (ngram_line a (w :: firstn (S n) h)) as [l|]; [|reflexivity]. exfalso. cbn [option_map] in Fe.
      assert (Hi : In (map idx (w :: firstn (S n) h)) (map fst (sec (S (S n))))).
      { apply find_in. unfold fentry in Fe. rewrite map_length, Ll in Fe. rewrite Fe. discriminate. }
      apply (proj2 (fi_pres _ _ F (map idx (w :: firstn (S n) h)))); [|exact V]. right. rewrite map_length, Ll. split; [lia|]. exists (map idx (w :: firstn (S n) h)). split; [exists (S (S n)); split; [lia|exact Hi]|]. symmetry. apply firstn_all2. rewrite map_length. lia.
Qed.

Theorem model_score : nonpositive a unkp -> forall w h, logprob m (idx w) (map idx h) = file_logprob a unkp w h.
Proof.
  intros NP w h. unfold logprob, file_logprob. cbn [Lm.order to_search]. replace (order - 1)%nat with (length (more a)) by lia.
  rewrite <- (katz_str NP); [|apply (norm_normal a)|apply Forall_forall; intros x Hx; apply in_map_iff in Hx; destruct Hx as (s & <- & _); apply (norm_normal a)|lia].
  rewrite (idx_norm c a v u L R). f_equal. rewrite map_map. apply map_ext. intros s. symmetry. apply (idx_norm c a v u L R).
Qed.

Lemma seq_str : nonpositive a unkp -> forall ws h, seq_score m (map idx h) (map idx ws) = file_score a unkp h ws.
Proof. intros NP ws. induction ws as [|w ws IH]; intros h; [reflexivity|]. cbn [map seq_score file_score]. rewrite (model_score NP). f_equal. apply (IH (w :: h)). Qed.
End Model.

(** ** Unigram weights *)
Lemma uni0_ok s l : normal a s -> unigram_line a s = Some l -> exists w, nth_error uni0 (idx s) = Some w /\ - Z.of_N (mag (f_prob w)) = capped (fst (fst l)) /\ val (f_backoff w) = weight (snd l).
Proof.
  intros N H. destruct (unigram_weights c a v u L R s l N H) as (w & Hw & Hp & Hb & _). destruct (SetRests_nth c (length (one a)) u _ _ Hw) as (w' & Hw' & Ep & Eb).
  exists w'. split; [exact Hw'|]. rewrite Ep, Eb. split; [|exact Hb]. rewrite neg_mag_le; [exact Hp|]. rewrite Hp. unfold capped. lia.
Qed.
Lemma uni0_listed unkp : listed a "<unk>" = true -> forall s, normal a s -> exists w, nth_error uni0 (idx s) = Some w /\ - Z.of_N (mag (f_prob w)) = file_prob1 a unkp s /\ val (f_backoff w) = file_bow a [s].
Proof.
  intros Lu s N. unfold file_prob1, file_bow. destruct (unigram_line a s) as [[[p s'] b]|] eqn:E; [apply (uni0_ok s _ N E)|]. destruct (unigram_unlisted a s N E). congruence.
Qed.
Lemma uni1_ok : listed a "<unk>" = false -> forall s, normal a s -> exists w, nth_error uni1 (idx s) = Some w /\ - Z.of_N (mag (f_prob w)) = file_prob1 a (- Z.abs (val (c_unk_prob c))) s /\ val (f_backoff w) = file_bow a [s].
Proof.
  intros Lu s N. unfold uni1. rewrite nth_modify. destruct (Nat.eqb_spec (idx s) 0) as [E0|N0].
  - pose proof (idx_zero c a v u L R L1 s N E0) as Es. subst s. rewrite E0. destruct (nth_error uni0 0) as [x|] eqn:Ex; [|apply nth_error_None in Ex; rewrite uni0_length in Ex; lia].
    exists (overwrite x). split; [reflexivity|]. assert (Un : unigram_line a "<unk>" = None).
    { destruct (unigram_line a "<unk>") as [l|] eqn:El; [|reflexivity]. exfalso. unfold unigram_line in El. cbn in El. assert (Hl : In l (filter (is_line "<unk>") (one a))) by (apply in_rev; destruct (rev _); [discriminate|]; injection El as ->; left; reflexivity).
      apply filter_In in Hl. assert (listed a "<unk>" = true) by (apply existsb_exists; exists l; exact Hl). congruence. }
    unfold file_prob1, file_bow. rewrite Un. cbn [overwrite f_prob f_backoff]. rewrite mag_val. split; reflexivity.
  - unfold file_prob1, file_bow. destruct (unigram_line a s) as [[[p s'] b]|] eqn:E; [apply (uni0_ok s _ N E)|]. destruct (unigram_unlisted a s N E) as (-> & _). exfalso. apply N0. apply (idx_unk c a v u L R). reflexivity.
Qed.

Lemma removelast_rev {A : Type} (l : list A) : removelast (rev l) = rev (tl l).
Proof. destruct l as [|x l]; [reflexivity|]. cbn [rev tl]. apply removelast_last. Qed.
Lemma removelast_map {A B : Type} (f : A -> B) l : removelast (map f l) = map f (removelast l).
Proof. induction l as [|x l IH]; [reflexivity|]. destruct l; [reflexivity|]. cbn [map removelast] in *. rewrite IH. reflexivity. Qed.
Lemma tl_map {A B : Type} (f : A -> B) l : tl (map f l) = map f (tl l).
Proof. destruct l; reflexivity. Qed.
Lemma tl_rev {A : Type} (l : list A) : tl (rev l) = rev (removelast l).
Proof. rewrite <- (rev_involutive l) at 2. rewrite removelast_rev, rev_involutive. reflexivity. Qed.
Lemma in_sec n l : line_of a n l -> In (map idx (rev (map canon (l_words l)))) (map fst (sec n)).
Proof. intros (_ & Hl). unfold sec. rewrite map_map. apply in_map_iff. exists l. split; [rewrite key_str; reflexivity|exact Hl]. Qed.
Lemma clean_str : closed a -> CLEAN order sec.
Proof.
  intros CL n d Hn Hd. destruct (key_in n d ltac:(lia) Hd) as (l & Hl & ->). destruct (CL n l ltac:(lia) Hl) as ((l1 & H1 & E1) & (l2 & H2 & E2)). split.
  - rewrite removelast_map, removelast_rev, <- E1. apply in_sec, H1.
  - rewrite tl_map, tl_rev, <- E2. apply in_sec, H2.
Qed.
End File.

(** ** Loading *)
Lemma Load_ok (Bad : Prop) c a : (~ ok_config c a -> Bad) -> (forall l, In l (one a) -> ~ unigram_fine (c_positive c) l -> Bad) ->
  (forall n l, line_of a n l -> ~ line_fine a (c_positive c) n l -> Bad) -> (~ closed a -> Bad) ->
  safe Bad (LoadARPA c a) (fun r => let '(v, t) := r in ok_config c a /\ Forall (unigram_fine (c_positive c)) (one a) /\ (forall n l, line_of a n l -> line_fine a (c_positive c) n l)
    /\ exists u t0, RInv c (length (one a) + 1) (one a) v u /\ Inv (S (length (more a))) (sec a v) (uni0 c a u) (S (S (length (more a)))) [] t0
       /\ t = if listed a "<unk>" then t0 else with_unk c t0).
Proof.
  intros B1 B2 B3 B4. unfold LoadARPA. cbv zeta.
  destruct (orb (Nat.ltb (c_max c) (S (length (more a)))) (Nat.ltb (S (length (more a))) 2)) eqn:Eo.
  { cbn. apply B1. intros (H & _). apply orb_prop in Eo. destruct Eo as [Eo|Eo]; apply Nat.ltb_lt in Eo; lia. }
  apply orb_false_elim in Eo. destruct Eo as (Eo1 & Eo2). apply Nat.ltb_ge in Eo1. apply Nat.ltb_ge in Eo2.
  eapply safe_bind; [apply (Read1Grams_ok c Bad (length (one a) + 1) (one a) []); [cbn; lia|exact B2|apply RInv_start; lia]|]. intros (v, u) R. cbn [fst snd app] in R.
  rewrite (saw_listed c a v u _ R).
  assert (Hm : forall s, is_unk s = false -> Nat.eqb (Index v s) 0 = negb (listed a s)).
  { intros s Us. destruct (listed a s) eqn:El; [destruct (idx_known c a v u _ R s El Us) as (_ & H & _); destruct (Nat.eqb_spec (Index v s) 0); [lia|reflexivity]|rewrite (idx_unlisted c a v u _ R s El); reflexivity]. }
  rewrite (Hm "<s>"%string eq_refl), (Hm "</s>"%string eq_refl).
  destruct (orb (andb (negb (listed a "<unk>")) (c_unk c)) (andb (orb (negb (listed a "<s>")) (negb (listed a "</s>"))) (c_marker c))) eqn:Ec.
  { cbn. apply B1. intros (_ & H1 & H2). apply orb_prop in Ec. destruct Ec as [Ec|Ec]; apply andb_prop in Ec; destruct Ec as (E1 & E2).
    - rewrite (H1 E2) in E1. discriminate.
    - destruct (H2 E2) as (F1 & F2). rewrite F1, F2 in E1. discriminate. }
  assert (OC : ok_config c a).
  { split; [lia|]. apply orb_false_elim in Ec. destruct Ec as (E1 & E2). split.
    - intros H. rewrite H, andb_true_r in E1. apply negb_false_iff in E1. exact E1.
    - intros H. rewrite H, andb_true_r in E2. apply orb_false_elim in E2. destruct E2 as (E2 & E3). apply negb_false_iff in E2. apply negb_false_iff in E3. auto. }
  eapply safe_bind; [apply (ReadSections_ok c a v u R Eo2 Bad (more a) 2 []); [reflexivity|reflexivity| |exact B3|apply Inv_start; assumption]|].
  { intros NC. apply B4. intros CL. apply NC. eapply clean_str; eassumption. }
  intros t0 (I0 & F0). cbn [safe]. split; [exact OC|]. split; [apply (r_fine _ _ _ _ _ R)|]. split.
  { intros n l (Hn & Hl). replace n with (2 + (n - 2))%nat by lia. apply F0. exact Hl. }
  exists u, t0. split; [exact R|]. split; [exact I0|]. destruct (listed a "<unk>"); reflexivity.
Qed.

Theorem load_defined c a : LoadARPA c a <> Undefined.
Proof. intros E. pose proof (Load_ok True c a (fun _ => I) (fun _ _ _ => I) (fun _ _ _ _ => I) (fun _ => I)) as H. rewrite E in H. exact H. Qed.

Theorem load_accepts c a : ok_config c a -> Forall (unigram_fine (c_positive c)) (one a) -> (forall n l, line_of a n l -> line_fine a (c_positive c) n l) -> closed a -> exists v t, LoadARPA c a = Ok (v, t).
Proof.
  intros H1 H2 H3 H4. pose proof (Load_ok False c a (fun N => N H1) (fun l Hl N => N (proj1 (Forall_forall _ _) H2 l Hl)) (fun n l Hl N => N (H3 n l Hl)) (fun N => N H4)) as H.
  destruct (LoadARPA c a) as [[v t]| |]; [exists v, t; reflexivity|contradiction|contradiction].
Qed.

Theorem load_checks c a v t : LoadARPA c a = Ok (v, t) -> ok_config c a /\ Forall (unigram_fine (c_positive c)) (one a) /\ (forall n l, line_of a n l -> line_fine a (c_positive c) n l).
Proof. intros E. pose proof (Load_ok True c a (fun _ => I) (fun _ _ _ => I) (fun _ _ _ _ => I) (fun _ => I)) as H. rewrite E in H. cbn in H. destruct H as (H1 & H2 & H3 & _). auto. Qed.

(** What the properties are about *)
Lemma load_final c a v t : LoadARPA c a = Ok (v, t) -> unk_ok a -> exists u uu, RInv c (length (one a) + 1) (one a) v u /\ Final a v uu t
  /\ (forall s, normal a s -> exists w, nth_error uu (Index v s) = Some w /\ - Z.of_N (mag (f_prob w)) = file_prob1 a (- Z.abs (val (c_unk_prob c))) s /\ val (f_backoff w) = file_bow a [s]).
Proof.
  intros E UK. pose proof (load_checks c a v t E) as (OC & _ & LF). pose proof (Load_ok True c a (fun _ => I) (fun _ _ _ => I) (fun _ _ _ _ => I) (fun _ => I)) as H. rewrite E in H. cbn in H. destruct H as (_ & _ & _ & u & t0 & R & I0 & Et). assert (O2 : (2 <= S (length (more a)))%nat) by apply OC.
  exists u. destruct (listed a "<unk>") eqn:Lu.
  - exists (uni0 c a u). split; [exact R|]. split; [rewrite Et; eapply final_plain; eassumption|]. apply uni0_listed; assumption.
  - exists (uni1 c a u). split; [exact R|]. split; [|apply uni1_ok; assumption]. rewrite Et. eapply final_unk; [exact R|exact O2| |exact I0].
    intros d (n & Hn & Hd). destruct (key_in c a v u R n d) as (l & Hl & ->); [exact Hn|exact Hd|]. intros H0. apply in_map_iff in H0. destruct H0 as (x & Hx & Hi).
    destruct UK as [UK|UK]; [congruence|]. pose proof (line_normal c a LF n l Hl) as Nl. rewrite Forall_forall in Nl. specialize (Nl x Hi). assert (Ex : x = "<unk>"%string) by (eapply idx_zero; [exact R|lia|exact Nl|exact Hx]).
    apply in_rev in Hi. apply in_map_iff in Hi. destruct Hi as (s & Es & Hs). apply (UK n l s Hl Hs). congruence.
Qed.

Theorem load_built c a v t : LoadARPA c a = Ok (v, t) -> unk_ok a -> well_built (to_search c a t).
Proof.
  intros E UK. destruct (load_final c a v t E UK) as (u & uu & R & F & _). destruct (load_checks c a v t E) as ((H & _) & _). eapply model_built; try eassumption; lia.
Qed.

Theorem load_score c a v t : LoadARPA c a = Ok (v, t) -> unk_ok a -> nonpositive a (- Z.abs (val (c_unk_prob c))) ->
  forall w h, logprob (to_search c a t) (Index v w) (map (Index v) h) = file_logprob a (- Z.abs (val (c_unk_prob c))) w h.
Proof.
  intros E UK NP. destruct (load_final c a v t E UK) as (u & uu & R & F & U). destruct (load_checks c a v t E) as ((H & _) & _ & LF). eapply model_score; try eassumption; lia.
Qed.
Theorem load_seq c a v t : LoadARPA c a = Ok (v, t) -> unk_ok a -> nonpositive a (- Z.abs (val (c_unk_prob c))) ->
  forall h ws, seq_score (to_search c a t) (map (Index v) h) (map (Index v) ws) = file_score a (- Z.abs (val (c_unk_prob c))) h ws.
Proof.
  intros E UK NP h ws. destruct (load_final c a v t E UK) as (u & uu & R & F & U). destruct (load_checks c a v t E) as ((H & _) & _ & LF). eapply seq_str; try eassumption; lia.
Qed.

(** The context of an n-gram is the end of some n-gram of the file. *)
Theorem load_contexts c a v t n l : LoadARPA c a = Ok (v, t) -> (3 <= n)%nat -> line_of a n l ->
  exists n' l' e, line_of a n' l' /\ map canon (l_words l') = e ++ removelast (map canon (l_words l)).
Proof.
  intros E Hn Hl. destruct (load_checks c a v t E) as (OC & _ & LF). pose proof (Load_ok True c a (fun _ => I) (fun _ _ _ => I) (fun _ _ _ _ => I) (fun _ => I)) as H. rewrite E in H. cbn in H. destruct H as (_ & _ & _ & u & t0 & R & I0 & _).
  assert (O2 : (2 <= S (length (more a)))%nat) by apply OC.
  destruct (LF n l Hl) as (Ln & _). pose proof (line_normal c a LF n l Hl) as Nl.
  assert (Hno : (n <= S (length (more a)))%nat) by (destruct Hl as (_ & Hl); destruct (le_gt_dec n (S (length (more a)))) as [|G]; [assumption|]; rewrite nth_overflow in Hl by lia; contradiction).
  pose proof (in_sec c a v u R n l Hl) as Hi. set (g := rev (map canon (l_words l))) in *.
  assert (Lg : length g = n) by (unfold g; rewrite rev_length, map_length; exact Ln).
  destruct g as [|x g'] eqn:Eg; [cbn in Lg; lia|].
  assert (Vg : view (S (length (more a))) t0 (map (Index v) (x :: g')) <> None).
  { apply (i_pres _ _ _ _ _ _ I0). right. rewrite map_length, Lg. split; [lia|]. exists (map (Index v) (x :: g')). split; [left; exists n; split; [lia|exact Hi]|]. symmetry. apply firstn_all2. rewrite map_length. lia. }
  assert (Ng : map (Index v) g' <> []) by (destruct g'; [cbn in Lg; lia|discriminate]).
  destruct (i_right _ _ _ _ _ _ I0 (Index v x) (map (Index v) g') Ng Vg) as (w & Vw & _).
  assert (Vt : view (S (length (more a))) t0 (map (Index v) g') <> None) by (rewrite Vw; discriminate).
  apply (i_pres _ _ _ _ _ _ I0) in Vt. cbn [length] in Lg. destruct Vt as [(w0 & E0 & _)|(_ & d & D & Ed)].
  { apply (f_equal (@length word)) in E0. rewrite map_length in E0. cbn in E0. lia. }
  apply (done_all a v O2) in D. destruct D as (n' & Hn' & Hd). destruct (key_in c a v u R n' d Hn' Hd) as (l' & Hl' & ->). exists n', l'.
  pose proof (line_normal c a LF n' l' Hl') as Nl'. rewrite firstn_map' in Ed. inversion Nl as [|? ? _ Ng' E1]. 
  apply (map_idx_inj c a v u _ R ltac:(lia)) in Ed; [|exact Ng'|apply Forall_firstn, Nl'].
  rewrite map_length in Ed. set (k := length g') in *.
  exists (rev (skipn k (rev (map canon (l_words l'))))). split; [exact Hl'|].
  assert (Et : removelast (map canon (l_words l)) = rev g').
  { rewrite <- (rev_involutive (map canon (l_words l))). fold g. change (rev (map canon (l_words l))) with g. rewrite Eg. rewrite removelast_rev. reflexivity. }
  rewrite Et, Ed. rewrite <- rev_app_distr, firstn_skipn, rev_involutive. reflexivity.
Qed.

Lemma load_ordinary c a t : c_build c = NoRest -> ordinary (to_search c a t).
Proof.
  intros B g w E. unfold entry in E. cbn [Lm.order to_search unigram middle longest] in E. rewrite B in E. destruct g as [|x [|y g]]; [discriminate|injection E as <-; reflexivity|].
  destruct (Nat.ltb _ _); [destruct (find _ _); [injection E as <-; reflexivity|discriminate]|]. destruct (Nat.eqb _ _); [|discriminate]. destruct (find _ _); [injection E as <-; reflexivity|discriminate].
Qed.
