From Coq Require Import List ZArith Bool Lia.
From Verif Require Import Opt OptProofs Utoa UtoaProofs Plf PlfSpec.
Import ListNotations.
Open Scope Z_scope.

Definition pos (inp : text) (c : nat) (s : text) : Prop := skipn c inp = s.
Lemma skipn_plus_ {A} (l : list A) a b : skipn (a + b) l = skipn b (skipn a l).
Proof. revert l; induction a as [|a IH]; intros l; [auto|]. destruct l; cbn [Nat.add skipn]; [rewrite skipn_nil; auto|auto]. Qed.
Lemma pos_app inp c a b : pos inp c (a ++ b) -> pos inp (c + length a) b.
Proof. unfold pos. intros E. rewrite skipn_plus_, E, skipn_app, skipn_all, Nat.sub_diag. auto. Qed.
Lemma pos_cons inp c x b : pos inp c (x :: b) -> pos inp (S c) b.
Proof. intros E. apply (pos_app inp c [x]) in E. replace (S c) with (c + length [x])%nat by (cbn; lia). auto. Qed.
Lemma pos_look inp c x b : pos inp c (x :: b) -> look inp c = x.
Proof.
  unfold pos, look. intros E. rewrite <- (firstn_skipn c inp), E. assert (c < length inp)%nat.
  { destruct (Nat.lt_ge_cases c (length inp)); auto. rewrite skipn_all2 in E by lia. discriminate. }
  rewrite app_nth2 by (rewrite firstn_length; lia). rewrite firstn_length. replace (c - Nat.min c (length inp))%nat with O by lia. auto.
Qed.
Lemma pos_hd inp c r : pos inp c r -> look inp c = hd 0 r.
Proof.
  destruct r as [|x r]; [|apply pos_look]. unfold pos, look. intros E. cbn. apply nth_overflow.
  destruct (Nat.lt_ge_cases c (length inp)); auto. apply (f_equal (@length Z)) in E. rewrite skipn_length in E. cbn in E. lia.
Qed.
Lemma pos_len inp c s : pos inp c s -> (length s <= length inp)%nat.
Proof. intros <-. rewrite skipn_length. lia. Qed.
Lemma pos_lt inp c x s : pos inp c (x :: s) -> (c < length inp)%nat.
Proof. intros E. apply (f_equal (@length Z)) in E. rewrite skipn_length in E. cbn in E. lia. Qed.

Lemma eatws_ok inp c a r : spaces a -> hd 0 r <> 32 -> pos inp c (a ++ r) -> eatws inp c = (c + length a)%nat.
Proof.
  intros S H E. unfold eatws. rewrite E. f_equal. clear E. induction S as [|x a X S IH]; cbn [app leading length].
  - destruct r as [|x r]; [auto|]. cbn [leading hd] in *. destruct (Z.eqb_spec ch_space x) as [<-|]; [exfalso; apply H; reflexivity|reflexivity].
  - subst x. change (ch_space =? 32) with true. cbn. auto.
Qed.
Lemma eatws_none inp c r : hd 0 r <> 32 -> pos inp c r -> eatws inp c = c.
Proof. intros H E. rewrite (eatws_ok inp c [] r); auto. constructor. Qed.

(** ** Words *)
Lemma escaped_len w s : escaped w s -> (length w <= length s)%nat.
Proof. induction 1; cbn; lia. Qed.
Lemma escaped_loop_ok inp r : forall w s, escaped w s -> forall fuel c res, w <> [] -> (length w <= fuel)%nat -> pos inp c (s ++ 39 :: r) ->
  escaped_loop fuel inp c res = Some (res ++ w, (c + length s)%nat).
Proof.
  induction 1 as [|x w s Q Q2 E IH|x w s E IH]; intros fuel c res NE F P; [congruence| |]; (destruct fuel as [|fuel]; [cbn in F; lia|]); cbn [escaped_loop].
  - cbn [app] in P. rewrite (pos_look _ _ _ _ P). change ch_slash with 92. change ch_quote with 39. rewrite (proj2 (Z.eqb_neq x 92)), (proj2 (Z.eqb_neq x 39)) by auto. cbn [negb].
    pose proof (pos_cons _ _ _ _ P) as P'. destruct w as [|y w].
    + inversion E; subst. cbn [app] in P'. rewrite (pos_look _ _ _ _ P'). cbn. f_equal. f_equal. lia.
    + assert (X : look inp (S c) <> 39 /\ (S c < length inp)%nat).
      { inversion E; subst; cbn [app] in P'; (split; [rewrite (pos_look _ _ _ _ P'); auto; lia|apply pos_lt in P'; auto]). }
      destruct X as [X1 X2]. rewrite (proj2 (Z.eqb_neq _ 39)) by auto. rewrite (proj2 (Nat.ltb_lt _ _)) by auto. cbn [negb andb].
      rewrite IH; auto; [|discriminate|cbn in *; lia]. rewrite <- app_assoc. cbn [app length]. f_equal. f_equal. lia.
  - cbn [app] in P. rewrite (pos_look _ _ _ _ P). change ch_slash with 92. change ch_quote with 39. change (92 =? 92) with true. cbn iota.
    pose proof (pos_cons _ _ _ _ P) as P1. rewrite (pos_look _ _ _ _ P1). pose proof (pos_cons _ _ _ _ P1) as P'. destruct w as [|y w].
    + inversion E; subst. cbn [app] in P'. rewrite (pos_look _ _ _ _ P'). cbn. f_equal. f_equal. lia.
    + assert (X : look inp (S (S c)) <> 39 /\ (S (S c) < length inp)%nat).
      { inversion E; subst; cbn [app] in P'; (split; [rewrite (pos_look _ _ _ _ P'); auto; lia|apply pos_lt in P'; auto]). }
      destruct X as [X1 X2]. rewrite (proj2 (Z.eqb_neq _ 39)) by auto. rewrite (proj2 (Nat.ltb_lt _ _)) by auto. cbn [negb andb].
      rewrite IH; auto; [|discriminate|cbn in *; lia]. rewrite <- app_assoc. cbn [app length]. f_equal. f_equal. lia.
Qed.
Lemma quoted_ok inp c w t r : quoted w t -> hd 0 r <> 32 -> pos inp c (t ++ r) -> getEscapedString inp c = Some (w, (c + length t)%nat).
Proof.
  intros (NE & a & s & b & A & B & E & ->) H P. unfold getEscapedString. rewrite <- app_assoc in P.
  rewrite (eatws_ok inp c a _ A) with (2 := P) by (cbn; lia). apply pos_app in P. rewrite <- app_assoc in P. cbn [app] in P. rewrite (pos_look _ _ _ _ P). cbn [negb].
  change (39 =? ch_quote) with true. cbn iota. cbn [negb]. apply pos_cons in P. rewrite <- !app_assoc in P. cbn [app] in P.
  rewrite (escaped_loop_ok inp (b ++ r) w s E); auto.
  - cbn [bind fst snd]. apply pos_app in P. pose proof (pos_cons _ _ _ _ P) as P'. rewrite (eatws_ok inp _ b r B H P'). cbn [app]. f_equal. f_equal. rewrite !app_length. cbn [length]. rewrite app_length. cbn [length]. lia.
  - apply escaped_len in E. apply pos_len in P. rewrite app_length in P. lia.
Qed.
Lemma escape_escaped w : escaped w (Escape true w).
Proof.
  induction w as [|c w IH]; cbn [Escape flat_map]; [constructor|]. unfold needs_escape. cbn [andb]. change ch_quote with 39. change ch_slash with 92.
  destruct (Z.eqb_spec c 39) as [->|N1]; [cbn; constructor; exact IH|]. destruct (Z.eqb_spec c 92) as [->|N2]; [cbn; constructor; exact IH|].
  cbn [orb]. rewrite andb_false_r. cbn [app]. constructor; auto; exact IH.
Qed.

(** ** Numbers *)
Section Numbers.
Variable num : Type.
Variables (num_of : text -> num) (trunc : num -> option Z) (zero : num).

Lemma leading_num s r : Forall (fun c => ~ In c [32; 41; 44; 123; 125]) s -> In (hd 0 r) [32; 41; 44; 125] -> leading num_char (s ++ r) = length s.
Proof.
  intros F H. induction F as [|x s X F IH]; cbn [app leading length].
  - destruct r as [|x r]; [auto|]. cbn in *. destruct H as [<-|[<-|[<-|[<-|[]]]]]; auto.
  - assert (num_char x = true) as ->.
    { unfold num_char, ch_space, ch_close, ch_comma, ch_rbrace. cbn in X. rewrite (proj2 (Z.eqb_neq x 32)), (proj2 (Z.eqb_neq x 41)), (proj2 (Z.eqb_neq x 44)), (proj2 (Z.eqb_neq x 125)) by lia. auto. }
    auto.
Qed.
Lemma token_hd s r : token s -> ~ In (hd 0 (s ++ r)) [32; 41; 44; 123; 125].
Proof. intros (NE & F). destruct s; [congruence|]. inversion F; subst. auto. Qed.
Lemma number_ok inp c v t r : number num num_of v t -> In (hd 0 r) [41; 44; 125] -> pos inp c (t ++ r) ->
  getFloat num num_of inp c = Some (v, (c + length t)%nat).
Proof.
  intros (a & s & b & A & B & T & -> & ->) H P. unfold getFloat. rewrite <- !app_assoc in P.
  pose proof (token_hd s (b ++ r) T) as TH. cbn in TH. rewrite (eatws_ok inp c a _ A) with (2 := P) by lia.
  pose proof (pos_app _ _ _ _ P) as P1. cbv zeta. rewrite !P1.
  assert (HB : In (hd 0 (b ++ r)) [32; 41; 44; 125]). { destruct B as [|x b <- B]; [cbn [app]|cbn; auto]. cbn in H |- *. tauto. }
  destruct T as (NE & F). rewrite !leading_num by auto. rewrite !firstn_app, Nat.sub_diag, firstn_O, app_nil_r, firstn_all. cbv zeta.
  pose proof (pos_app _ _ _ _ P1) as P2. rewrite (eatws_ok inp _ b r B) with (2 := P2) by (cbn in H; lia).
  destruct s as [|x s]; [congruence|]. f_equal. f_equal. rewrite !app_length. lia.
Qed.
Lemma text_eqb_spec a b : text_eqb a b = true <-> a = b.
Proof.
  revert b; induction a as [|x a IH]; destruct b as [|y b]; cbn; try (split; congruence).
  rewrite andb_true_iff, Z.eqb_eq, IH. split; [intros [-> ->]; auto|intros E; injection E as -> ->; auto].
Qed.
Lemma put_new (f : list (text * num)) n v : ~ In n (map fst f) -> put_feature num f n v = f ++ [(n, v)].
Proof.
  induction f as [|(m, w) f IH]; cbn; intros H; [auto|]. destruct (text_eqb m n) eqn:E; [apply text_eqb_spec in E; tauto|]. rewrite IH by tauto. auto.
Qed.
Definition puts (f : list (text * num)) (fs : list (text * num)) : list (text * num) := fold_left (fun f x => put_feature num f (fst x) (snd x)) fs f.
Lemma puts_new fs : forall f, NoDup (map fst (f ++ fs)) -> puts f fs = f ++ fs.
Proof.
  unfold puts. induction fs as [|(n, v) fs IH]; intros f H; cbn [fold_left fst snd]; [rewrite app_nil_r; auto|].
  pose proof H as H'. rewrite map_app in H. cbn in H. apply NoDup_remove in H. rewrite put_new by (intros X; apply (proj2 H); apply in_or_app; auto).
  rewrite IH; [rewrite <- app_assoc; auto|]. rewrite <- app_assoc. exact H'.
Qed.

Lemma feature_ok inp c f t r F : feature num num_of f t -> In (hd 0 r) [41; 44; 125] -> pos inp c (t ++ r) ->
  ReadPLFFeature num num_of inp c F = Some (put_feature num F (fst f) (snd f), (c + length t)%nat).
Proof.
  intros (t1 & t2 & (NE & a & s & b & A & B & E & ->) & N & ->) H P. unfold ReadPLFFeature.
  rewrite <- !app_assoc in P. rewrite (eatws_ok inp c a _ A) with (2 := P) by (cbn; lia).
  pose proof (pos_app _ _ _ _ P) as P1.
  assert (Q : quoted (fst f) ([39] ++ s ++ [39] ++ b)). { split; [auto|]. exists [], s, b. split; [constructor|]. auto. }
  assert (P2 : pos inp (c + length a) (([39] ++ s ++ [39] ++ b) ++ ([58] ++ t2 ++ r))) by (rewrite <- !app_assoc; auto). remember ([39] ++ s ++ [39] ++ b) as q eqn:EQ.
  rewrite (quoted_ok inp _ _ _ _ Q) with (2 := P2) by (cbn; lia). cbn [bind]. apply pos_app in P2.
  rewrite eatws_none with (2 := P2) by (cbn; lia). cbn [app] in P2. rewrite (pos_look _ _ _ _ P2). change (58 =? ch_colon) with true. cbn [negb].
  apply pos_cons in P2. rewrite (number_ok inp _ _ _ _ N H P2). cbn [bind]. pose proof (pos_app _ _ _ _ P2) as P3. rewrite eatws_none with (2 := P3) by (cbn in H; lia).
  f_equal. f_equal. rewrite !app_length. cbn [length]. lia.
Qed.
Lemma commas_ne {A} (P : A -> text -> Prop) xs s : commas P xs s -> (length xs <= S (length s))%nat.
Proof. induction 1; cbn [length]; [lia|]. rewrite !app_length. cbn [length]. lia. Qed.
(** the features after the first of a dictionary *)
Lemma features_ok inp : forall fs s, commas (feature num num_of) fs s -> forall r c F fuel k, (length fs <= fuel)%nat -> pos inp c (s ++ r) ->
  (exists r', r = 125 :: r' /\ k = O) \/ (exists r', r = 44 :: 125 :: r' /\ k = 1%nat) ->
  bind (ReadPLFFeature num num_of inp c F) (fun fc => feature_loop num num_of fuel inp (snd fc) (fst fc)) = Some (puts F fs, (c + length s + k)%nat).
Proof.
  intros fs s C. induction C as [x t X|x t xs s X C IH]; intros r c F fuel k FU P R.
  - rewrite (feature_ok inp c x t r F X) with (2 := P); [|destruct R as [(r' & -> & _)|(r' & -> & _)]; cbn; auto]. cbn [bind fst snd].
    destruct fuel as [|fuel]; [cbn in FU; lia|]. cbn [feature_loop]. pose proof (pos_app _ _ _ _ P) as P1.
    destruct R as [(r' & -> & ->)|(r' & -> & ->)].
    + rewrite (pos_look _ _ _ _ P1). cbn. f_equal. f_equal. lia.
    + rewrite (pos_look _ _ _ _ P1). apply pos_cons in P1. rewrite (pos_look _ _ _ _ P1). cbn. f_equal. f_equal. lia.
  - rewrite <- !app_assoc in P. rewrite (feature_ok inp c x t _ F X) with (2 := P); [|cbn; auto]. cbn [bind fst snd].
    destruct fuel as [|fuel]; [cbn in FU; lia|]. cbn [feature_loop]. pose proof (pos_app _ _ _ _ P) as P1. cbn [app] in P1. rewrite (pos_look _ _ _ _ P1). change (44 =? ch_comma) with true. cbn iota.
    apply pos_cons in P1. assert (NB : look inp (S (c + length t)) <> 125).
    { rewrite (pos_hd _ _ _ P1). destruct s as [|y s]. { exfalso. inversion C; subst. destruct H as (t1 & t2 & _ & _ & E). destruct t1; discriminate. destruct t0; discriminate. }
      cbn. assert (FH : exists f, feature num num_of f (y :: s) \/ exists s2 s3, y :: s = s2 ++ s3 /\ feature num num_of f s2).
      { inversion C; subst; [eauto|]. exists x0. right. exists t0, ([44] ++ s0). split; auto. }
      destruct FH as (f & FH). assert (HH : forall s2 s3, feature num num_of f s2 -> y :: s = s2 ++ s3 -> y <> 125).
      { intros s2 s3 (t1 & t2 & (_ & a & s' & b & A & _ & _ & ->) & _ & ->) E. destruct A as [|z a <- A]; cbn in E; injection E as -> _; lia. }
      destruct FH as [FH|(s2 & s3 & E & FH)]; [apply (HH (y :: s) []); auto; rewrite app_nil_r; auto|]. apply (HH s2 s3); auto. }
    rewrite (proj2 (Z.eqb_neq _ ch_rbrace)) by exact NB.
    specialize (IH r (S (c + length t)) (put_feature num F (fst x) (snd x)) fuel k). 
    assert (IH' := IH ltac:(cbn in FU; lia) P1 R). clear IH.
    destruct (ReadPLFFeature num num_of inp (S (c + length t)) (put_feature num F (fst x) (snd x))) as [(f', c')|]; [|discriminate]. cbn [bind fst snd] in *. rewrite IH'.
    f_equal. f_equal. rewrite !app_length. cbn [length]. lia.
Qed.
Lemma numbers_ok inp : forall vs s, commas (number num num_of) vs s -> forall r c acc fuel, (length vs <= fuel)%nat -> pos inp c (s ++ r) ->
  hd 0 r = 41 ->
  bind (getFloat num num_of inp c) (fun vc => number_loop num num_of fuel inp (snd vc) (acc ++ [fst vc])) = Some (acc ++ vs, (c + length s)%nat).
Proof.
  intros vs s C. induction C as [x t X|x t xs s X C IH]; intros r c acc fuel FU P R.
  - rewrite (number_ok inp c x t r X) with (2 := P); [|rewrite R; cbn; auto]. cbn [bind fst snd].
    destruct fuel as [|fuel]; [cbn in FU; lia|]. cbn [number_loop]. pose proof (pos_app _ _ _ _ P) as P1. rewrite (pos_hd _ _ _ P1), R. cbn. auto.
  - rewrite <- !app_assoc in P. rewrite (number_ok inp c x t _ X) with (2 := P); [|cbn; auto]. cbn [bind fst snd].
    destruct fuel as [|fuel]; [cbn in FU; lia|]. cbn [number_loop]. pose proof (pos_app _ _ _ _ P) as P1. cbn [app] in P1. rewrite (pos_look _ _ _ _ P1). change (44 =? ch_comma) with true. cbn iota.
    apply pos_cons in P1. pose proof (IH r (S (c + length t)) (acc ++ [x]) fuel ltac:(cbn in FU; lia) P1 R) as IH'.
    destruct (getFloat num num_of inp (S (c + length t))) as [(f', c')|]; [|discriminate]. cbn [bind fst snd] in *. rewrite IH'.
    rewrite <- app_assoc. cbn [app]. f_equal. f_equal. rewrite !app_length. cbn [length]. lia.
Qed.

(** ** Features and the link length *)
Lemma commas_nonempty {A} (P : A -> text -> Prop) xs s : (forall x, ~ P x []) -> commas P xs s -> s <> [].
Proof. intros H C ->. inversion C as [x t X E1 E2|x t ys s X C' E1 E2]; subst; [apply (H x); auto|]. destruct t; discriminate. Qed.
Lemma number_nonempty v : ~ number num num_of v [].
Proof. intros (a & s & b & _ & _ & (T & _) & _ & E). destruct a; [|discriminate]. destruct s; [congruence|discriminate]. Qed.
Lemma feature_nonempty f : ~ feature num num_of f [].
Proof. intros (t1 & t2 & _ & _ & E). destruct t1; discriminate. Qed.
Lemma decimal_ok n : 0 <= n < 2 ^ 64 -> is_decimal (decimal n) n.
Proof. intros H. unfold decimal. destruct (utos_correct 64 false n) as (t & -> & D); [unfold width_ok; auto|auto|auto]. Qed.
Lemma decimal_inj n m : 0 <= n < 2 ^ 64 -> 0 <= m < 2 ^ 64 -> decimal n = decimal m -> n = m.
Proof. intros N M E. destruct (decimal_ok n N) as (_ & _ & A & _). destruct (decimal_ok m M) as (_ & _ & B & _). congruence. Qed.
Definition named_from (i : nat) (vs : list num) : list (text * num) :=
  map (fun iv => (lattice_cost ++ 95 :: decimal (Z.of_nat (fst iv)), snd iv)) (combine (seq i (length vs)) vs).
Lemma cost_puts vs : forall i f, cost_features num (Z.of_nat i) vs f = puts f (named_from i vs).
Proof.
  induction vs as [|v vs IH]; intros i f; [reflexivity|]. cbn [cost_features]. replace (Z.of_nat i + 1) with (Z.of_nat (S i)) by lia. rewrite IH. reflexivity.
Qed.
Lemma named_names i vs : map fst (named_from i vs) = map (fun k => lattice_cost ++ 95 :: decimal (Z.of_nat k)) (seq i (length vs)).
Proof. unfold named_from. rewrite map_map. revert i; induction vs as [|v vs IH]; intros i; cbn; [auto|]. rewrite IH. auto. Qed.
Lemma named_nodup vs : Z.of_nat (length vs) < 2 ^ 32 -> NoDup (map fst (named_from 0 vs)).
Proof.
  intros L. rewrite named_names. assert (G : forall n i, Z.of_nat (i + n) < 2 ^ 64 -> NoDup (map (fun k => lattice_cost ++ 95 :: decimal (Z.of_nat k)) (seq i n))).
  { induction n as [|n IH]; intros i H; cbn [seq map]; [constructor|]. constructor; [|apply IH; lia].
    intros X. apply in_map_iff in X. destruct X as (k & E & K). apply in_seq in K. apply app_inv_head in E. injection E as E. apply decimal_inj in E; lia. }
  apply G. change (2 ^ 64) with 18446744073709551616. change (2 ^ 32) with 4294967296 in L. lia.
Qed.
Lemma commas_lead vs t : commas (number num num_of) vs t -> exists a s, spaces a /\ t = a ++ s /\ commas (number num num_of) vs s /\ ~ In (hd 0 s) [32; 41; 44; 123; 125].
Proof.
  intros C. assert (N : forall v t, number num num_of v t -> exists a s, spaces a /\ t = a ++ s /\ number num num_of v s /\ s <> [] /\ ~ In (hd 0 s) [32; 41; 44; 123; 125]).
  { intros v u (a & s & b & A & B & T & E & ->). exists a, (s ++ b). split; [auto|]. split; [auto|]. split; [|split; [destruct T as [T _]; destruct s; [congruence|discriminate]|apply token_hd; auto]].
    exists [], s, b. split; [constructor|]. auto. }
  inversion C as [x t' X E1 E2|x t' xs s X C' E1 E2]; subst.
  - destruct (N _ _ X) as (a & s & A & -> & B & D & E). exists a, s. split; [auto|]. split; [auto|]. split; [constructor; auto|auto].
  - destruct (N _ _ X) as (a & s' & A & -> & B & D & E). exists a, (s' ++ [44] ++ s). split; [auto|]. split; [rewrite <- app_assoc; auto|]. split; [constructor; auto|]. destruct s'; [congruence|auto].
Qed.
Lemma last_snoc (vs : list num) v : last (vs ++ [v]) zero = v.
Proof. apply last_last. Qed.
Lemma feature_lead f t : feature num num_of f t -> exists a s, spaces a /\ t = a ++ s /\ feature num num_of f s /\ hd 0 s = 39 /\ s <> [].
Proof.
  intros (t1 & t2 & (NE & a & s & b & A & B & E & ->) & N & ->). exists a, (([39] ++ s ++ [39] ++ b) ++ [58] ++ t2).
  split; [auto|]. split; [rewrite <- !app_assoc; auto|]. split; [|split; [auto|discriminate]]. exists ([39] ++ s ++ [39] ++ b), t2. split; [|auto]. split; [auto|]. exists [], s, b. split; [constructor|auto].
Qed.
Lemma features_lead fs t : commas (feature num num_of) fs t -> exists a s, spaces a /\ t = a ++ s /\ commas (feature num num_of) fs s /\ hd 0 s = 39.
Proof.
  intros C. inversion C as [x t' X E1 E2|x t' xs s X C' E1 E2]; subst.
  - destruct (feature_lead _ _ X) as (a & s & A & -> & B & D & E). exists a, s. split; [auto|]. split; [auto|]. split; [constructor; auto|auto].
  - destruct (feature_lead _ _ X) as (a & s' & A & -> & B & D & E). exists a, (s' ++ [44] ++ s). split; [auto|]. split; [rewrite <- app_assoc; auto|]. split; [constructor; auto|]. destruct s'; [congruence|auto].
Qed.
Lemma spaces_app a b : spaces a -> spaces b -> spaces (a ++ b).
Proof. intros. apply Forall_app. auto. Qed.
Lemma bind_assoc {A B C} (m : option A) (f : A -> option B) (g : B -> option C) : bind (bind m f) g = bind m (fun x => bind (f x) g).
Proof. destruct m; auto. Qed.
Lemma bind_pair {A B C} (m : option (A * B)) (f : A * B -> option C) : bind m (fun p => let '(x, y) := p in f (x, y)) = bind m f.
Proof. destruct m as [(x, y)|]; auto. Qed.
(** the features of a dictionary, after the opening brace *)
Lemma dictionary_ok inp c fs t r : dictionary num num_of fs t -> NoDup (map fst fs) -> pos inp c (t ++ r) ->
  exists c', c' = (c + length t)%nat /\
  bind (let c := eatws inp c in if negb (look inp c =? ch_rbrace) then ReadPLFFeature num num_of inp c [] else Some ([], c))
       (fun fc => bind (feature_loop num num_of (S (length inp)) inp (snd fc) (fst fc))
          (fun fc => if negb (look inp (snd fc) =? ch_rbrace) then None else Some (fst fc, S (snd fc)))) = Some (fs, c').
Proof.
  intros D ND P. exists (c + length t)%nat. split; [auto|].
  assert (G : forall a s k tail, spaces a -> commas (feature num num_of) fs s -> t = a ++ s ++ tail -> (tail = [125] /\ k = O) \/ (tail = [44; 125] /\ k = 1%nat) ->
     bind (let c := eatws inp c in if negb (look inp c =? ch_rbrace) then ReadPLFFeature num num_of inp c [] else Some ([], c))
       (fun fc => bind (feature_loop num num_of (S (length inp)) inp (snd fc) (fst fc))
          (fun fc => if negb (look inp (snd fc) =? ch_rbrace) then None else Some (fst fc, S (snd fc)))) = Some (fs, (c + length t)%nat)).
  { intros a s k tail A C -> T. destruct (features_lead _ _ C) as (a' & s' & A' & -> & C' & H). rewrite <- !app_assoc in P.
    pose proof P as P0. rewrite app_assoc in P0. assert (H' : hd 0 (s' ++ tail ++ r) = 39) by (pose proof (commas_nonempty _ _ _ feature_nonempty C'); destruct s'; [congruence|auto]).
    rewrite (eatws_ok inp c (a ++ a') _) with (3 := P0); [|apply spaces_app; auto|lia]. cbv zeta. apply pos_app in P0. rewrite (pos_hd _ _ _ P0), H'. change (39 =? ch_rbrace) with false. cbn [negb].
    assert (X := features_ok inp fs s' C' (tail ++ r) (c + length (a ++ a')) [] (S (length inp)) k).
    assert (LF : (length fs <= S (length inp))%nat). { apply commas_ne in C'. apply pos_len in P0. rewrite app_length in P0. lia. }
    assert (RR : (exists r', tail ++ r = 125 :: r' /\ k = O) \/ (exists r', tail ++ r = 44 :: 125 :: r' /\ k = 1%nat)) by (destruct T as [(-> & ->)|(-> & ->)]; [left|right]; exists r; auto).
    specialize (X LF P0 RR). rewrite <- bind_assoc. rewrite X. cbn [bind fst snd]. pose proof (pos_app _ _ _ _ P0) as P1.
    assert (LK : look inp (c + length (a ++ a') + length s' + k) = 125).
    { destruct T as [(-> & ->)|(-> & ->)]; cbn [app] in P1; [rewrite Nat.add_0_r; apply (pos_look _ _ _ _ P1)|]. apply pos_cons in P1. rewrite Nat.add_1_r. apply (pos_look _ _ _ _ P1). }
    rewrite LK. change (125 =? ch_rbrace) with true. cbn [negb]. rewrite puts_new by (cbn [app]; auto). cbn [app]. f_equal. f_equal. rewrite !app_length. destruct T as [(-> & ->)|(-> & ->)]; cbn [length]; lia. }
  inversion D as [a A E1 E2|fs' a s A C E1 E2|fs' a s A C E1 E2]; subst.
  - rewrite <- app_assoc in P. rewrite (eatws_ok inp c a _ A) with (2 := P) by (cbn; lia). cbv zeta. apply pos_app in P. cbn [app] in P. rewrite (pos_look _ _ _ _ P). change (125 =? ch_rbrace) with true. cbn [negb bind fst snd feature_loop].
    rewrite (pos_look _ _ _ _ P). change (125 =? ch_comma) with false. cbn [bind fst snd]. rewrite (pos_look _ _ _ _ P). cbn. f_equal. f_equal. rewrite app_length. cbn. lia.
  - apply (G a s O [125]); auto.
  - apply (G a s 1%nat [44; 125]); auto.
Qed.
Lemma values_ok inp c b fs d t r : values num num_of trunc fs d t -> spaces b -> hd 0 r = 41 -> pos inp c (b ++ t ++ r) ->
  ReadPLFValues num num_of trunc zero inp (eatws inp c) = Some (fs, d, (c + length b + length t)%nat).
Proof.
  intros V B R P. inversion V as [vs v d' t' L C T E1 E2 E3|fs' v d' t' b' t'' D ND B' N T E1 E2 E3]; subst.
  - destruct (commas_lead _ _ C) as (a & s & A & -> & C' & H). rewrite <- app_assoc in P. rewrite app_assoc in P.
    assert (H' : ~ In (hd 0 (s ++ r)) [32; 41; 44; 123; 125]).
    { pose proof (commas_nonempty _ _ _ number_nonempty C'). destruct s; [congruence|auto]. }
    cbn in H'. rewrite (eatws_ok inp c (b ++ a) _) with (3 := P); [|apply spaces_app; auto|lia]. apply pos_app in P. unfold ReadPLFValues. rewrite (pos_hd _ _ _ P). rewrite (proj2 (Z.eqb_neq _ ch_lbrace)) by (change ch_lbrace with 123; lia).
    assert (LF : (length (vs ++ [v]) <= S (length inp))%nat). { apply commas_ne in C'. apply pos_len in P. rewrite app_length in P. lia. }
    assert (X := numbers_ok inp _ _ C' r _ [] (S (length inp)) LF P R). cbn [app] in X.
    destruct (getFloat num num_of inp (c + length (b ++ a))) as [(x, c1)|]; [|discriminate]. cbn [bind fst snd] in *. rewrite X. cbn [bind].
    rewrite last_snoc, T, removelast_last. cbn [bind]. change 0 with (Z.of_nat 0). rewrite cost_puts, puts_new by (cbn [app]; apply named_nodup; auto). cbn [app]. unfold named_from, named_costs. f_equal. f_equal. rewrite !app_length. lia.
  - pose proof P as P0. rewrite (eatws_ok inp c b _ B) with (2 := P) by (cbn; lia). apply pos_app in P. rewrite <- !app_assoc in P. cbn [app] in P. unfold ReadPLFValues. rewrite (pos_look _ _ _ _ P). change (123 =? ch_lbrace) with true. cbn iota.
    apply pos_cons in P. destruct (dictionary_ok inp _ fs t' _ D ND P) as (c' & -> & X). cbv zeta in X |- *.
    destruct (if negb (look inp (eatws inp (S (c + length b))) =? ch_rbrace) then ReadPLFFeature num num_of inp (eatws inp (S (c + length b))) [] else Some ([], eatws inp (S (c + length b)))) as [(f1, c1)|]; [|discriminate]. cbn [bind fst snd] in X |- *.
    destruct (feature_loop num num_of (S (length inp)) inp c1 f1) as [(f2, c2)|]; [|discriminate]. cbn [bind fst snd] in X |- *.
    destruct (negb (look inp c2 =? ch_rbrace)); [discriminate|]. injection X as -> X. assert (S c2 = S (c + length b) + length t')%nat as -> by lia. apply pos_app in P.
    rewrite (eatws_ok inp _ b' _ B') with (2 := P) by (cbn; lia). apply pos_app in P. cbn [app] in P. rewrite (pos_look _ _ _ _ P). change (44 =? ch_comma) with true. cbn [negb]. apply pos_cons in P.
    rewrite (number_ok inp _ _ _ _ N) with (2 := P) by (rewrite R; cbn; auto). cbn [bind]. rewrite T. cbn [bind]. f_equal. f_equal. rewrite !app_length. cbn [length]. lia.
Qed.

(** ** Arcs *)
Notation larc := (larc num).
Notation graph := (graph num).
Definition add_arc (n : Z) (g : graph) (a : larc) : option graph :=
  if MAX_NODES <=? n + l_dist num a then None else
  Some {| g_nodes := Z.max (g_nodes num g) (n + l_dist num a + 1);
          g_edges := g_edges num g ++ [{| e_tail := n; e_head := n + l_dist num a; e_label := l_label num a; e_features := l_features num a |}] |}.
Lemma max_if a b : (if a <? b then b else a) = Z.max a b.
Proof. destruct (Z.ltb_spec a b); lia. Qed.
Lemma arc_ok inp c n g a t r : arc_of num num_of trunc a t -> hd 0 r <> 32 -> pos inp c (t ++ r) ->
  ReadPLFEdge num num_of trunc zero inp c n g = bind (add_arc n g a) (fun g' => Some (g', (c + length t)%nat)).
Proof.
  intros (D & t1 & t2 & b & e & Q & B & V & E & ->) H P. unfold ReadPLFEdge. rewrite <- !app_assoc in P. cbn [app] in P. rewrite (pos_look _ _ _ _ P). change (40 =? ch_open) with true. cbn [negb].
  apply pos_cons in P. rewrite (quoted_ok inp _ _ _ _ Q) with (2 := P) by (cbn; lia). cbn [bind]. apply pos_app in P. rewrite (pos_look _ _ _ _ P). change (44 =? ch_comma) with true. cbn [negb].
  apply pos_cons in P. rewrite (values_ok inp _ b _ _ _ _ V B) with (2 := P) by auto. cbn [bind snd fst]. apply pos_app in P. apply pos_app in P. rewrite (pos_look _ _ _ _ P). change (41 =? ch_close) with true. cbn [negb].
  apply pos_cons in P. rewrite (proj2 (Z.ltb_ge _ 1)) by auto. rewrite (eatws_ok inp _ e _ E H P). unfold add_arc. rewrite max_if. destruct (MAX_NODES <=? _); [reflexivity|]. cbn [bind].
  f_equal. f_equal. rewrite !app_length. cbn [length]. lia.
Qed.

(** ** Tuples *)
Fixpoint fold_opt {A X} (step : A -> X -> option A) (xs : list X) (a : A) : option A :=
  match xs with [] => Some a | x :: r => bind (step a x) (fold_opt step r) end.
Lemma tuple_ne {X} (P : X -> text -> Prop) xs s : (forall x t, P x t -> t <> []) -> tuple P xs s -> (length xs < length s)%nat.
Proof.
  intros NE. induction 1 as [| |x t xs s Px T IH|x t a xs s Px A T IH]; cbn [length app]; rewrite ?app_length; try lia; apply NE in Px; destruct t; try congruence; cbn [length]; rewrite ?app_length; cbn [length]; lia.
Qed.
Lemma list_ok {A X} inp (Q : X -> text -> Prop) (item : nat -> A -> option (A * nat)) (step : A -> X -> option A) :
  (forall x t, Q x t -> hd 0 t = 40) ->
  (forall x t r c a, Q x t -> hd 0 r <> 32 -> pos inp c (t ++ r) -> item c a = bind (step a x) (fun a' => Some (a', (c + length t)%nat))) ->
  forall xs s, tuple Q xs s -> forall fuel c a b r, (length xs < fuel)%nat -> spaces b -> hd 0 r <> 32 -> pos inp c (s ++ b ++ r) ->
  list_loop fuel inp item c a = bind (fold_opt step xs a) (fun a' => Some (a', (c + length s + length b)%nat)).
Proof.
  intros HD IT xs s T. assert (HS : forall xs s r, tuple Q xs s -> In (hd 0 (s ++ r)) [40; 41; 44]).
  { intros ys u r0 U. destruct U as [| |x t xs' s' Px T'|x t a xs' s' Px A' T']; try (cbn; auto; fail). apply HD in Px. destruct t; [discriminate|]. cbn in *. auto. }
  induction T as [| |x t xs s Px T IH|x t e xs s Px E T IH]; intros fuel c a b r F B H P; (destruct fuel as [|fuel]; [lia|]); cbn [list_loop].
  - cbn [app] in P. pose proof (pos_lt _ _ _ _ P). rewrite (proj2 (Nat.ltb_ge _ _)) by lia. rewrite (pos_look _ _ _ _ P). change (41 =? ch_close) with true. cbn iota. apply pos_cons in P. rewrite (eatws_ok inp _ b r B H P). cbn [fold_opt bind length]. f_equal. f_equal. lia.
  - cbn [app] in P. pose proof (pos_lt _ _ _ _ P). rewrite (proj2 (Nat.ltb_ge _ _)) by lia. rewrite (pos_look _ _ _ _ P). change (44 =? ch_close) with false. change (44 =? ch_comma) with true. apply pos_cons in P. rewrite (pos_look _ _ _ _ P). change (41 =? ch_close) with true. cbn [andb].
    apply pos_cons in P. rewrite (eatws_ok inp _ b r B H P). cbn [fold_opt bind length]. f_equal. f_equal. lia.
  - rewrite <- app_assoc in P. assert (H0 : look inp c = 40). { rewrite (pos_hd _ _ _ P). pose proof (HD _ _ Px). destruct t; [discriminate|auto]. }
    assert (c < length inp)%nat. { pose proof (HD _ _ Px). destruct t; [discriminate|]. apply pos_lt in P. auto. } rewrite (proj2 (Nat.ltb_ge _ _)) by lia.
    rewrite H0. change (40 =? ch_close) with false. change (40 =? ch_comma) with false. cbn [andb].
    pose proof (HS _ _ (b ++ r) T) as HT. rewrite (IT x t _ c a Px) with (2 := P) by (cbn in HT; lia). cbn [fold_opt]. rewrite !bind_assoc. destruct (step a x) as [a'|]; [|reflexivity]. cbn [bind].
    apply pos_app in P. rewrite (IH fuel _ a' b r) by (auto; cbn in F; lia). destruct (fold_opt step xs a'); [|reflexivity]. cbn [bind]. f_equal. f_equal. rewrite app_length. lia.
  - cbn [app] in P. rewrite <- !app_assoc in P. pose proof (pos_lt _ _ _ _ P) as LT. rewrite (proj2 (Nat.ltb_ge _ _)) by lia. rewrite (pos_look _ _ _ _ P). change (44 =? ch_close) with false. change (44 =? ch_comma) with true. apply pos_cons in P. cbn [andb].
    assert (H0 : hd 0 (t ++ s ++ b ++ r) = 40) by (pose proof (HD _ _ Px); destruct t; [discriminate|auto]).
    assert (H1 : look inp (S c) <> 41). { rewrite (pos_hd _ _ _ P). destruct E as [|z e <- E]; cbn [app hd]; lia. } rewrite (proj2 (Z.eqb_neq _ ch_close)) by exact H1.
    rewrite (eatws_ok inp _ e _ E) with (2 := P) by lia. apply pos_app in P.
    pose proof (HS _ _ (b ++ r) T) as HT. rewrite (IT x t _ _ a Px) with (2 := P) by (cbn in HT; lia). cbn [fold_opt]. rewrite !bind_assoc. destruct (step a x) as [a'|]; [|reflexivity]. cbn [bind].
    apply pos_app in P. rewrite (IH fuel _ a' b r) by (auto; cbn in F; lia). destruct (fold_opt step xs a'); [|reflexivity]. cbn [bind]. f_equal. f_equal. cbn [app length]. rewrite !app_length. lia.
Qed.

(** ** Nodes *)
Definition add_node (gn : graph * Z) (arcs : list larc) : option (graph * Z) :=
  bind (fold_opt (add_arc (snd gn)) arcs {| g_nodes := Z.max (g_nodes num (fst gn)) (snd gn + 1); g_edges := g_edges num (fst gn) |})
       (fun g => Some (g, snd gn + 1)).
Lemma arc_hd a t : arc_of num num_of trunc a t -> hd 0 t = 40.
Proof. intros (_ & t1 & t2 & b & e & _ & _ & _ & _ & ->). auto. Qed.
Lemma arc_ne a t : arc_of num num_of trunc a t -> t <> [].
Proof. intros (_ & t1 & t2 & b & e & _ & _ & _ & _ & ->). discriminate. Qed.
Lemma node_hd a t : node_of num num_of trunc a t -> hd 0 t = 40.
Proof. intros (s & e & b & _ & _ & _ & ->). auto. Qed.
Lemma tuple_hd {X} (P : X -> text -> Prop) xs s r : (forall x t, P x t -> hd 0 t = 40) -> tuple P xs s -> In (hd 0 (s ++ r)) [40; 41; 44].
Proof. intros HD U. destruct U as [| |x t xs' s' Px T'|x t a xs' s' Px A' T']; try (cbn; auto; fail). apply HD in Px. destruct t; [discriminate|]. cbn in *. auto. Qed.
Lemma node_ok inp c gn arcs t r : node_of num num_of trunc arcs t -> hd 0 r <> 32 -> pos inp c (t ++ r) ->
  bind (ReadPLFNode num num_of trunc zero inp c (snd gn) (fst gn)) (fun '(g, c') => Some ((g, snd gn + 1), c')) =
  bind (add_node gn arcs) (fun gn' => Some (gn', (c + length t)%nat)).
Proof.
  intros (a & s & b & A & B & T & ->) H P. unfold ReadPLFNode. rewrite <- !app_assoc in P. cbn [app] in P. rewrite (pos_look _ _ _ _ P). change (40 =? ch_open) with true. cbn [negb].
  apply pos_cons in P. pose proof (tuple_hd _ _ _ (b ++ r) arc_hd T) as HT. rewrite (eatws_ok inp _ a _ A) with (2 := P) by (cbn in HT; lia). apply pos_app in P.
  rewrite (list_ok inp (arc_of num num_of trunc) _ (add_arc (snd gn)) arc_hd) with (xs := arcs) (s := s) (b := b) (r := r); auto.
  - unfold add_node. rewrite max_if. rewrite !bind_assoc. destruct (fold_opt _ arcs _); [|reflexivity]. cbn [bind]. f_equal. f_equal. cbn [app length]. rewrite !app_length. lia.
  - intros x t r0 c0 a0 Px H0 P0. apply arc_ok with r0; auto.
  - apply tuple_ne in T; [|apply arc_ne]. apply pos_len in P. rewrite app_length in P. lia.
Qed.
Definition empty_graph : graph := {| g_nodes := 0; g_edges := [] |}.
Lemma read_ok lat t : plf_of num num_of trunc lat t ->
  ReadFromPLF num num_of trunc zero t = bind (fold_opt add_node lat (empty_graph, 0)) (fun r => if snd r =? g_nodes num (fst r) - 1 then Some (fst r) else None).
Proof.
  intros (s & b & B & T & ->). unfold ReadFromPLF. set (inp := [40] ++ s ++ b). assert (P : pos inp 0 ([40] ++ s ++ b)) by reflexivity. cbn [app] in P. rewrite (pos_look _ _ _ _ P). change (40 =? ch_open) with true. cbn [negb].
  apply pos_cons in P. rewrite (list_ok inp (node_of num num_of trunc) _ add_node node_hd) with (xs := lat) (s := s) (b := b) (r := []); auto.
  - change {| g_nodes := 0; g_edges := [] |} with empty_graph. destruct (fold_opt add_node lat (empty_graph, 0)) as [(g, n)|]; reflexivity.
  - intros x t r0 c0 a0 Px H0 P0. apply node_ok with r0; auto.
  - apply tuple_ne in T; [|intros x t (? & ? & ? & _ & _ & _ & ->); discriminate]. unfold inp. cbn [app length]. rewrite app_length. lia.
  - cbn. lia.
  - rewrite app_nil_r. auto.
Qed.

(** ** The lattice *)
Definition mk (n : Z) (a : larc) : edge num := {| e_tail := n; e_head := n + l_dist num a; e_label := l_label num a; e_features := l_features num a |}.
Definition back (e : edge num) : larc := {| l_label := e_label num e; l_features := e_features num e; l_dist := e_head num e - e_tail num e |}.
Fixpoint edges_from (k : nat) (lat : list (list larc)) : list (edge num) :=
  match lat with [] => [] | arcs :: r => map (mk (Z.of_nat k)) arcs ++ edges_from (S k) r end.
Lemma back_mk n a : back (mk n a) = a.
Proof. destruct a. unfold back, mk. cbn. f_equal. lia. Qed.
Lemma filter_mk n i arcs : filter (fun e => e_tail num e =? i) (map (mk n) arcs) = if n =? i then map (mk n) arcs else [].
Proof. induction arcs as [|a arcs IH]; cbn [map filter]; [destruct (n =? i); auto|]. rewrite IH. cbn [e_tail mk]. destruct (n =? i); auto. Qed.
Lemma filter_from lat : forall k i, (i < k)%nat -> filter (fun e => e_tail num e =? Z.of_nat i) (edges_from k lat) = [].
Proof. induction lat as [|arcs lat IH]; intros k i H; cbn [edges_from filter]; [auto|]. rewrite filter_app, filter_mk, IH by lia. rewrite (proj2 (Z.eqb_neq _ _)) by lia. auto. Qed.
Lemma rebuild lat : forall k, map (fun i => map back (filter (fun e => e_tail num e =? Z.of_nat i) (edges_from k lat))) (seq k (length lat)) = lat.
Proof.
  induction lat as [|arcs lat IH]; intros k; cbn [edges_from length seq map]; [auto|]. f_equal.
  - rewrite filter_app, filter_mk, filter_from by lia. rewrite Z.eqb_refl, app_nil_r, map_map. rewrite <- (map_id arcs) at 2. apply map_ext. apply back_mk.
  - rewrite <- (IH (S k)) at 2. apply map_ext_in. intros i I. apply in_seq in I. rewrite filter_app, filter_mk, (proj2 (Z.eqb_neq _ _)) by lia. auto.
Qed.
Lemma fold_arcs n arcs : forall g g', fold_opt (add_arc n) arcs g = Some g' ->
  (forall a, In a arcs -> n + l_dist num a < MAX_NODES /\ n + l_dist num a + 1 <= g_nodes num g') /\ g_nodes num g <= g_nodes num g' /\
  (g_nodes num g' = g_nodes num g \/ exists a, In a arcs /\ g_nodes num g' = n + l_dist num a + 1) /\ g_edges num g' = g_edges num g ++ map (mk n) arcs.
Proof.
  induction arcs as [|a arcs IH]; intros g g'; cbn [fold_opt].
  - intros E. injection E as <-. split; [intros a []|]. split; [lia|]. split; [auto|]. cbn. rewrite app_nil_r. auto.
  - unfold add_arc at 1. destruct (Z.leb_spec MAX_NODES (n + l_dist num a)) as [L|L]; [discriminate|]. cbn [bind]. intros E. apply IH in E. cbn [g_nodes g_edges] in E. destruct E as (E1 & E2 & E3 & E4). split; [|split; [lia|split]].
    + intros b [<-|B]; [lia|auto].
    + destruct E3 as [E3|(b & B & E3)]; [|right; exists b; split; [right; auto|auto]]. destruct (Z.max_spec (g_nodes num g) (n + l_dist num a + 1)) as [(_ & M)|(_ & M)]; rewrite M in E3; [right; exists a; split; [left; auto|auto]|left; auto].
    + rewrite E4. cbn [map]. rewrite <- app_assoc. auto.
Qed.
Lemma fold_arcs_some n arcs : (forall a, In a arcs -> n + l_dist num a < MAX_NODES) -> forall g, exists g', fold_opt (add_arc n) arcs g = Some g'.
Proof.
  intros H. induction arcs as [|a arcs IH]; intros g; cbn [fold_opt]; [eauto|]. unfold add_arc at 1. rewrite (proj2 (Z.leb_gt _ _)) by (apply H; left; auto). cbn [bind]. apply IH. intros; apply H; right; auto.
Qed.
Lemma fold_nodes rest : forall pre g g' n', 
  Z.of_nat (length pre) <= g_nodes num g ->
  (forall i arcs a, nth_error pre i = Some arcs -> In a arcs -> Z.of_nat i + l_dist num a + 1 <= g_nodes num g) ->
  (g_nodes num g = Z.of_nat (length pre) \/ exists i arcs a, nth_error pre i = Some arcs /\ In a arcs /\ g_nodes num g = Z.of_nat i + l_dist num a + 1) ->
  fold_opt add_node rest (g, Z.of_nat (length pre)) = Some (g', n') ->
  let lat := pre ++ rest in
  n' = Z.of_nat (length lat) /\ Z.of_nat (length lat) <= g_nodes num g' /\
  (forall i arcs a, nth_error lat i = Some arcs -> In a arcs -> Z.of_nat i + l_dist num a + 1 <= g_nodes num g') /\
  (g_nodes num g' = Z.of_nat (length lat) \/ exists i arcs a, nth_error lat i = Some arcs /\ In a arcs /\ g_nodes num g' = Z.of_nat i + l_dist num a + 1) /\
  g_edges num g' = g_edges num g ++ edges_from (length pre) rest.
Proof.
  induction rest as [|arcs rest IH]; intros pre g g' n' H1 H2 H3 E lat; subst lat.
  - cbn in E. injection E as <- <-. rewrite !app_nil_r. auto.
  - cbn [fold_opt] in E. unfold add_node at 1 in E. cbn [fst snd] in E. destruct (fold_opt (add_arc (Z.of_nat (length pre))) arcs _) as [g1|] eqn:A; [|discriminate]. cbn [bind] in E.
    apply fold_arcs in A. cbn [g_nodes g_edges] in A. destruct A as (A1 & A2 & A3 & A4).
    replace (Z.of_nat (length pre) + 1) with (Z.of_nat (length (pre ++ [arcs]))) in E by (rewrite app_length; cbn; lia).
    apply IH in E; cbn zeta in E.
    + rewrite <- app_assoc in E. cbn [app] in E. destruct E as (E1 & E2 & E3 & E4 & E5). repeat (split; [assumption|]). rewrite E5, A4, <- app_assoc, app_length. cbn [length edges_from]. rewrite Nat.add_1_r. auto.
    + rewrite app_length. cbn [length]. lia.
    + intros i arcs' a N I. destruct (Nat.lt_ge_cases i (length pre)) as [L|L].
      * rewrite nth_error_app1 in N by auto. specialize (H2 i arcs' a N I). lia.
      * rewrite nth_error_app2 in N by auto. destruct (i - length pre)%nat as [|k] eqn:EK; [|destruct k; discriminate]. injection N as <-. apply A1 in I. replace i with (length pre) by lia. lia.
    + destruct A3 as [A3|(a & I & A3)].
      * destruct (Z.max_spec (g_nodes num g) (Z.of_nat (length pre) + 1)) as [(_ & M)|(L & M)]; rewrite M in A3; [left; rewrite app_length; cbn; lia|].
        destruct H3 as [H3|(i & arcs' & a & N & I & H3)]; [lia|]. right. exists i, arcs', a. split; [|split; [auto|lia]]. rewrite nth_error_app1; auto. apply nth_error_Some. congruence.
      * right. exists (length pre), arcs, a. split; [rewrite nth_error_app2, Nat.sub_diag by lia; auto|]. auto.
Qed.
Lemma fold_nodes_some rest : forall pre g, (forall i arcs a, nth_error (pre ++ rest) i = Some arcs -> In a arcs -> Z.of_nat i + l_dist num a < MAX_NODES) ->
  exists r, fold_opt add_node rest (g, Z.of_nat (length pre)) = Some r.
Proof.
  induction rest as [|arcs rest IH]; intros pre g H; cbn [fold_opt]; [eauto|]. unfold add_node at 1. cbn [fst snd].
  destruct (fold_arcs_some (Z.of_nat (length pre)) arcs) with (g := {| g_nodes := Z.max (g_nodes num g) (Z.of_nat (length pre) + 1); g_edges := g_edges num g |}) as (g1 & ->).
  { intros a A. apply (H (length pre) arcs a); auto. rewrite nth_error_app2, Nat.sub_diag by lia. auto. }
  cbn [bind]. replace (Z.of_nat (length pre) + 1) with (Z.of_nat (length (pre ++ [arcs]))) by (rewrite app_length; cbn; lia). apply IH. rewrite <- app_assoc. auto.
Qed.
Lemma arcs_pos lat t : plf_of num num_of trunc lat t -> forall i arcs a, nth_error lat i = Some arcs -> In a arcs -> 1 <= l_dist num a.
Proof.
  intros (s & b & _ & T & _). assert (G : forall X (P : X -> text -> Prop) xs u, tuple P xs u -> forall x, In x xs -> exists t, P x t).
  { intros X P xs u U. induction U as [| |x t' xs u Px U IH|x t' e xs u Px E U IH]; cbn; try tauto; intros y [<-|Y]; eauto. }
  intros i arcs a N I. apply nth_error_In in N. destruct (G _ _ _ _ T arcs N) as (u & (e & v & b' & _ & _ & T' & _)). destruct (G _ _ _ _ T' a I) as (w & (D & _)). auto.
Qed.
Lemma fold_nodes_max rest : forall (pre : list (list larc)) g g', fold_opt add_node rest (g, Z.of_nat (length pre)) = Some g' ->
  forall k arcs a, nth_error rest k = Some arcs -> In a arcs -> Z.of_nat (length pre + k) + l_dist num a < MAX_NODES.
Proof.
  induction rest as [|arcs rest IH]; intros pre g g' E k arcs' a N I; [destruct k; discriminate|]. cbn [fold_opt] in E. unfold add_node at 1 in E. cbn [fst snd] in E.
  destruct (fold_opt (add_arc (Z.of_nat (length pre))) arcs _) as [g1|] eqn:A; [|discriminate]. cbn [bind] in E. apply fold_arcs in A. destruct A as (A1 & _).
  destruct k as [|k]; [injection N as <-; apply A1 in I; rewrite Nat.add_0_r; lia|]. replace (Z.of_nat (length pre) + 1) with (Z.of_nat (length (pre ++ [arcs]))) in E by (rewrite app_length; cbn; lia).
  pose proof (IH _ _ _ E k arcs' a N I) as X. rewrite app_length in X. cbn [length] in X. lia.
Qed.
Theorem parse_iff lat t : plf_of num num_of trunc lat t ->
  forall l, PLFtoLattice num num_of trunc zero t = Some l <-> l = lat /\ complete num lat /\ Z.of_nat (length lat) < MAX_NODES.
Proof.
  intros PL l. unfold PLFtoLattice. rewrite (read_ok lat t PL).
  assert (FW : forall g n, fold_opt add_node lat (empty_graph, 0) = Some (g, n) -> n = Z.of_nat (length lat) /\ g_edges num g = edges_from 0 lat /\
     (n = g_nodes num g - 1 <-> complete num lat) /\ Z.of_nat (length lat) <= g_nodes num g).
  { intros g n E. apply (fold_nodes lat []) in E; [|cbn; lia|intros i arcs a N; destruct i; discriminate|left; auto]. cbn [app] in E. destruct E as (E1 & E2 & E3 & E4 & E5). split; [auto|]. split; [auto|]. split; [|auto]. split.
    - intros NN. split.
      + intros i arcs a N I. split; [eapply arcs_pos; eauto|]. pose proof (E3 i arcs a N I). lia.
      + destruct E4 as [E4|(i & arcs & a & N & I & E4)]; [lia|]. exists i, arcs, a. split; [auto|]. split; [auto|]. lia.
    - intros (C1 & i & arcs & a & N & I & C2). pose proof (E3 i arcs a N I). destruct E4 as [E4|(i' & arcs' & a' & N' & I' & E4)]; [lia|]. pose proof (C1 i' arcs' a' N' I'). lia. }
  split.
  - destruct (fold_opt add_node lat (empty_graph, 0)) as [(g, n)|] eqn:E; [|discriminate]. cbn [bind fst snd]. destruct (Z.eqb_spec n (g_nodes num g - 1)) as [EN|]; [|discriminate]. cbn [bind]. intros X. injection X as X.
    destruct (FW g n eq_refl) as (E1 & E2 & E3 & E4). assert (C : complete num lat) by (apply E3; auto). split; [|split; [auto|]].
    + subst l. rewrite E2. replace (Z.to_nat (g_nodes num g - 1)) with (length lat) by lia. apply (rebuild lat 0).
    + destruct C as (_ & i & arcs & a & N & I & C2). 
      pose proof (fold_nodes_max lat [] _ _ E i arcs a N I) as G. cbn [length] in G. lia.
  - intros (-> & C & L). destruct (fold_nodes_some lat [] empty_graph) as ((g, n) & E).
    { cbn [app]. intros i arcs a N I. destruct C as (C & _). specialize (C i arcs a N I). lia. }
    cbn [length] in E. change (Z.of_nat 0) with 0 in E. rewrite E. cbn [bind fst snd]. destruct (FW g n E) as (E1 & E2 & E3 & E4). rewrite (proj2 (Z.eqb_eq _ _)) by (apply E3; auto). cbn [bind].
    rewrite E2. f_equal. assert (n = g_nodes num g - 1) by (apply E3; auto). replace (Z.to_nat (g_nodes num g - 1)) with (length lat) by lia. apply (rebuild lat 0).
Qed.

(** ** Writing *)
Variable show : num -> text.
Notation cost := (cost num zero).
Notation written := (written num num_of zero show).
Notation writable := (writable num num_of trunc).
Hypothesis SHOW : forall v, token (show v).
Lemma decimal_token n : 0 <= n < 2 ^ 64 -> token (decimal n).
Proof.
  intros H. destruct (decimal_ok n H) as (A & B & _). split; [auto|]. eapply Forall_impl; [|exact B]. unfold is_digit. cbn. intros c C X. lia.
Qed.
Lemma arc_written a : l_label num a <> [] -> 1 <= l_dist num a < 2 ^ 64 -> trunc (num_of (decimal (l_dist num a))) = Some (l_dist num a) ->
  exists t, arc_text num show zero a = t ++ [44] /\ arc_of num num_of trunc (written a) t.
Proof.
  intros NE D T. exists ([40] ++ ([39] ++ Escape true (l_label num a) ++ [39]) ++ [44] ++ [] ++ (show (cost a) ++ [44] ++ decimal (l_dist num a)) ++ [41] ++ []).
  split. { unfold arc_text, cost. repeat (rewrite <- ?app_assoc; cbn [app]). reflexivity. }
  split; [cbn; lia|]. eexists _, _, [], []. split; [|split; [constructor|split; [|split; [constructor|reflexivity]]]].
  - split; [auto|]. exists [], (Escape true (l_label num a)), []. split; [constructor|]. split; [constructor|]. split; [apply escape_escaped|]. rewrite app_nil_r. auto.
  - change (l_features num (written a)) with (named_costs num [num_of (show (cost a))]). cbn [written l_dist]. apply v_dense with (num_of (decimal (l_dist num a))); [cbn; lia| |auto].
    cbn [app]. change (44 :: decimal (l_dist num a)) with ([44] ++ decimal (l_dist num a)). constructor; [|constructor].
    + exists [], (show (cost a)), []. split; [constructor|]. split; [constructor|]. split; [apply SHOW|]. split; [auto|]. cbn. rewrite app_nil_r. auto.
    + exists [], (decimal (l_dist num a)), []. split; [constructor|]. split; [constructor|]. split; [apply decimal_token; lia|]. split; [auto|]. cbn. rewrite app_nil_r. auto.
Qed.
(** items each followed by a comma: all but the first are preceded by one *)
Lemma trailing {X Y} (P : Y -> text -> Prop) (f : X -> Y) (tx : X -> text) : forall xs, (forall x, In x xs -> exists t, tx x = t ++ [44] /\ P (f x) t) ->
  exists s, flat_map tx xs ++ [41] = s /\ tuple P (map f xs) s /\ tuple P (map f xs) ([44] ++ s).
Proof.
  induction xs as [|x xs IH]; intros H; cbn [flat_map map].
  - exists [41]. split; [auto|]. split; [constructor|]. constructor.
  - destruct IH as (s & E & T1 & T2); [intros; apply H; right; auto|]. destruct (H x) as (t & Et & Px); [left; auto|].
    exists (t ++ [44] ++ s). split; [rewrite Et, <- !app_assoc; cbn [app]; rewrite E; auto|]. split.
    + apply t_item; auto.
    + change ([44] ++ t ++ [44] ++ s) with ([44] ++ [] ++ t ++ ([44] ++ s)). apply t_sep; auto. constructor.
Qed.
Lemma written_plf lat : lat <> [] -> writable lat -> (forall arcs a, In arcs lat -> In a arcs -> l_dist num a < 2 ^ 64) -> plf_of num num_of trunc (map (map written) lat) (AsPLF num show zero lat).
Proof.
  intros NE W B. unfold AsPLF. destruct lat as [|n0 lat0]; [congruence|]. remember (n0 :: lat0) as lat eqn:EL. clear NE EL n0 lat0.
  destruct (trailing (node_of num num_of trunc) (map written) (fun arcs => [ch_open] ++ flat_map (arc_text num show zero) arcs ++ [ch_close; ch_comma]) lat) as (s & E & T & _).
  - intros arcs A. destruct (trailing (arc_of num num_of trunc) written (arc_text num show zero) arcs) as (s & E & T & _).
    + intros a I. destruct (W arcs a A I) as (W1 & W2 & W3). apply arc_written; auto. pose proof (B arcs a A I). lia.
    + exists ([40] ++ [] ++ s ++ []). split; [rewrite <- E; cbn [app]; rewrite app_nil_r, <- app_assoc; auto|]. exists [], s, []. split; [constructor|]. split; [constructor|]. auto.
  - exists s, []. split; [constructor|]. split; [auto|]. rewrite <- E, app_nil_r. auto.
Qed.
Lemma written_complete lat : complete num lat -> complete num (map (map written) lat).
Proof.
  intros (C1 & i & arcs & a & N & I & C2). split.
  - intros k arcs' a' N' I'. rewrite map_length. rewrite nth_error_map in N'. destruct (nth_error lat k) as [arcs0|] eqn:E; [|discriminate]. injection N' as <-. apply in_map_iff in I'. destruct I' as (a0 & <- & I0). apply (C1 k arcs0 a0 E I0).
  - exists i, (map written arcs), (written a). rewrite map_length. split; [rewrite nth_error_map, N; auto|]. split; [apply in_map; auto|auto].
Qed.
Theorem write_read lat : writable lat -> complete num lat -> Z.of_nat (length lat) < MAX_NODES ->
  PLFtoLattice num num_of trunc zero (AsPLF num show zero lat) = Some (map (map written) lat).
Proof.
  intros W C L. apply (parse_iff (map (map written) lat)).
  - apply written_plf; auto.
    + destruct C as (_ & i & arcs & a & N & _). intros ->. destruct i; discriminate.
    + intros arcs a A I. destruct C as (C & _). apply In_nth_error in A. destruct A as (k & A). specialize (C k arcs a A I). unfold MAX_NODES in L. change (2 ^ 64) with 18446744073709551616. lia.
  - split; [auto|]. split; [apply written_complete; auto|]. rewrite map_length. auto.
Qed.
End Numbers.

Theorem word_round_trip pre w post : w <> [] -> hd 0 post <> 32 ->
  getEscapedString (pre ++ [39] ++ Escape true w ++ [39] ++ post) (length pre) = Some (w, (length pre + length (Escape true w) + 2)%nat).
Proof.
  intros NE H. replace (length pre + length (Escape true w) + 2)%nat with (length pre + length ([39%Z] ++ Escape true w ++ [39%Z]))%nat by (rewrite !app_length; cbn [length]; lia).
  apply quoted_ok with (r := post); [|auto|].
  - split; [auto|]. exists [], (Escape true w), []. split; [constructor|]. split; [constructor|]. split; [apply escape_escaped|]. auto.
  - unfold pos. rewrite skipn_app, skipn_all, Nat.sub_diag. cbn [skipn app]. rewrite <- !app_assoc. auto.
Qed.
Lemma token_show : forall v : Z, token (decimal (v mod 100)).
Proof. intros v. apply decimal_token. pose proof (Z.mod_pos_bound v 100 ltac:(lia)). change (2 ^ 64) with 18446744073709551616. lia. Qed.
Theorem empty_word_refuted : exists post, getEscapedString ([39] ++ Escape true [] ++ [39] ++ post) 0 <> Some ([], 2%nat).
Proof. exists [44; 49; 44; 49; 41]. vm_compute. discriminate. Qed.
Theorem uninit_refuted : exists w, w <> [] /\ getEscapedString ([39] ++ Escape false w ++ [39]) 0 <> Some (w, (length (Escape false w) + 2)%nat).
Proof. exists [105; 116; 39; 115]. split; [discriminate|]. vm_compute. discriminate. Qed.
Theorem empty_lattice_refuted num num_of trunc zero show : PLFtoLattice num num_of trunc zero (AsPLF num show zero []) = None.
Proof. reflexivity. Qed.
(** an instance of the numbers for the examples: naturals below 100 *)
Definition ex_of (t : text) : Z := dec_value t.
Definition ex_trunc (v : Z) : option Z := if v <? 0 then None else Some v.
Definition ex_show (v : Z) : text := decimal (v mod 100).
Theorem cost_refuted : exists (lat l : list (list (larc Z))), writable Z ex_of ex_trunc lat /\ complete Z lat /\
  PLFtoLattice Z ex_of ex_trunc 0 (AsPLF Z ex_show 0 lat) = Some l /\ AsPLF Z ex_show 0 l <> AsPLF Z ex_show 0 lat.
Proof.
  exists [[{| l_label := [97]; l_features := [(lattice_cost, 7)]; l_dist := 1 |}]]. eexists. split; [|split; [|split; [vm_compute; reflexivity|vm_compute; discriminate]]].
  - intros arcs a [<-|[]] [<-|[]]. cbn [l_label l_dist]. split; [discriminate|]. split; [lia|]. vm_compute. reflexivity.
  - split.
    + intros i arcs a N I. destruct i as [|[|i]]; try discriminate. injection N as <-. destruct I as [<-|[]]. cbn. lia.
    + exists O. eexists. eexists. split; [reflexivity|]. split; [left; reflexivity|]. reflexivity.
Qed.
Theorem recognised num show zero a arcs lat : LooksLikePLF (AsPLF num show zero ((a :: arcs) :: lat)) = true.
Proof.
  unfold LooksLikePLF, AsPLF. apply andb_true_iff. split; [apply Nat.ltb_lt; unfold arc_text; cbn [flat_map app length]; rewrite !app_length; cbn [length]; lia|]. reflexivity.
Qed.
Theorem unrecognised num show zero lat : LooksLikePLF (AsPLF num show zero ([] :: lat)) = false.
Proof. unfold LooksLikePLF. apply andb_false_intro2. reflexivity. Qed.
