From Coq Require Import List Arith QArith Bool Lia Lqa Permutation.
From Verif Require Import HG HGProofs Deriv Inside InsideProofs KBestSpec Mert MertSpec.
Import ListNotations.
Open Scope Q_scope.

(** * Extended numbers *)
Lemma Qltb_spec : forall a b, Qltb a b = true <-> a < b.
Proof. intros a b. unfold Qltb. rewrite Qlt_alt. destruct (a ?= b); split; congruence. Qed.
Lemma Qltb_false : forall a b, Qltb a b = false <-> b <= a.
Proof.
  intros a b. destruct (Qltb a b) eqn:E.
  - apply Qltb_spec in E. split; [discriminate|]. intros. lra.
  - split; [intros _|reflexivity]. destruct (Qlt_le_dec a b) as [L|L]; [apply Qltb_spec in L; congruence|exact L].
Qed.
Definition lex (a b : ex) : Prop := ltx b a = false.
Ltac exs := unfold lex, from_x, upto_x;
  repeat match goal with a : ex |- _ => destruct a end; cbn [ltx]; intros; try discriminate; try tauto;
  repeat match goal with
  | H : Qltb _ _ = true |- _ => apply Qltb_spec in H
  | H : Qltb _ _ = false |- _ => apply Qltb_false in H
  end; try apply Qltb_spec; try apply Qltb_false; try lra; try tauto.
Lemma ltx_trans : forall a b c, ltx a b = true -> ltx b c = true -> ltx a c = true.
Proof. intros a b c. exs. Qed.
Lemma lex_lt_trans : forall a b c, lex a b -> ltx b c = true -> ltx a c = true.
Proof. intros a b c. exs. Qed.
Lemma lt_lex : forall a b, ltx a b = true -> lex a b.
Proof. intros a b. exs. Qed.
Lemma lex_refl : forall a, lex a a.
Proof. intros a. exs. Qed.
Lemma lex_trans : forall a b c, lex a b -> lex b c -> lex a c.
Proof. intros a b c. exs. Qed.
Lemma from_mono : forall a b x, lex a b -> from_x b x -> from_x a x.
Proof. intros [|a|] [|b|] x; unfold lex; cbn [ltx from_x upto_x]; intros; try discriminate; try tauto; match goal with H : Qltb _ _ = false |- _ => apply Qltb_false in H end; lra. Qed.
Lemma upto_mono : forall a b x, lex a b -> upto_x a x -> upto_x b x.
Proof. intros [|a|] [|b|] x; unfold lex; cbn [ltx from_x upto_x]; intros; try discriminate; try tauto; match goal with H : Qltb _ _ = false |- _ => apply Qltb_false in H end; lra. Qed.
Lemma from_or_upto : forall a x, from_x a x \/ upto_x a x.
Proof. intros [|q|] x; cbn; [tauto| |tauto]. destruct (Qlt_le_dec q x); [left; lra|right; lra]. Qed.
Lemma between : forall a b, ltx a b = true -> exists x y, x < y /\ from_x a x /\ from_x a y /\ upto_x b x /\ upto_x b y.
Proof.
  intros [|p|] [|q|] H; cbn in H; try discriminate; cbn.
  - exists (q - 1), q. repeat split; lra.
  - exists 0, 1. repeat split; lra.
  - apply Qltb_spec in H. exists p, q. repeat split; lra.
  - exists p, (p + 1). repeat split; lra.
Qed.

(** * Chains of segments *)
Definition ok_in (L : line -> Prop) (p : pt) : Prop := exists l, L l /\ same p l.
Fixpoint E (L : line -> Prop) (S : list pt) : Prop :=
  match S with
  | [] => True
  | p :: R => ok_in L p /\ ltx (px p) (next_x R) = true /\ (match R with p' :: _ => pm p < pm p' | [] => True end) /\
      (forall x, from_x (px p) x -> upto_x (next_x R) x -> forall l, L l -> val l x <= pval p x) /\ E L R
  end.
Definition starts (S : list pt) : Prop := forall p, nth_error S 0 = Some p -> px p = MInf.
Lemma next_nth : forall S i p R, nth_error S i = Some p -> skipn i S = p :: R -> next_x R = match nth_error S (i + 1) with Some p' => px p' | None => PInf end.
Proof.
  induction S as [|a S IH]; intros [|i] p R H K; cbn in *; try discriminate.
  - injection K as <- <-. destruct S; reflexivity.
  - apply (IH i p R H K).
Qed.
Lemma E_skip : forall L i S, E L S -> E L (skipn i S).
Proof. induction i as [|i IH]; intros [|p S] H; cbn [skipn]; try exact H. apply IH. apply H. Qed.
Lemma nth_skip : forall (A : Type) (l : list A) i p, nth_error l i = Some p -> exists R, skipn i l = p :: R.
Proof. induction l as [|a l IH]; intros [|i] p H; cbn in *; try discriminate; [injection H as ->; eauto|apply (IH i p H)]. Qed.
Lemma E_at : forall L S i p, E L S -> nth_error S i = Some p -> ok_in L p /\ ltx (px p) (match nth_error S (i + 1) with Some p' => px p' | None => PInf end) = true /\
  (forall p', nth_error S (i + 1) = Some p' -> pm p < pm p') /\ forall x, covers S i p x -> forall l, L l -> val l x <= pval p x.
Proof.
  intros L S i p H N. destruct (nth_skip _ _ _ _ N) as (R & K). pose proof (E_skip L i S H) as K'. rewrite K in K'. destruct K' as (A & B & C & D & _).
  rewrite (next_nth S i p R N K) in *. split; [exact A|]. split; [exact B|]. split.
  - intros p' N'. pose proof (next_nth S i p R N K) as Q. clear - C K N'. revert S K N'. induction i as [|i IH]; intros [|a S] K N'; cbn in *; try discriminate.
    + injection K as <- <-. destruct S as [|b S]; [discriminate|]. cbn in N'. injection N' as <-. exact C.
    + apply (IH S K N').
  - intros x (_ & F & U). apply D; [exact F|exact U].
Qed.
Lemma E_all_increasing : forall L S i j p q, E L S -> (i < j)%nat -> nth_error S i = Some p -> nth_error S j = Some q -> ltx (px p) (px q) = true /\ pm p < pm q.
Proof.
  intros L S i j p q H LT. induction LT as [|j LT IH] in q |- *; intros P Q0.
  - destruct (E_at L S i p H P) as (_ & A & B & _). rewrite Nat.add_1_r, Q0 in *. split; [exact A|apply B; reflexivity].
  - destruct (nth_error S j) as [r|] eqn:R; [|apply nth_error_None in R; assert (X : (Datatypes.S j < length S)%nat) by (apply nth_error_Some; congruence); lia].
    destruct (IH r P eq_refl) as (A & B). destruct (E_at L S j r H R) as (_ & A' & B' & _). rewrite Nat.add_1_r, Q0 in *. split; [apply (ltx_trans _ _ _ A A')|specialize (B' q eq_refl); lra].
Qed.
Lemma pval_same : forall p l x, same p l -> pval p x == val l x.
Proof. intros p l x (A & B & _). unfold pval, val. rewrite A, B. reflexivity. Qed.

Lemma E_env : forall L S, E L S -> starts S -> ((exists l, L l) -> S <> []) -> is_env S L.
Proof.
  intros L S H ST NE. constructor.
  - intros p IP. apply In_nth_error in IP. destruct IP as (i & N). apply (E_at L S i p H N).
  - exact ST.
  - intros i p p' N N'. destruct (E_at L S i p H N) as (_ & A & B & _). rewrite N' in A. split; [exact A|]. split; [|apply B, N'].
    destruct (E_at L S (i + 1) p' H N') as (_ & A' & _). destruct (px p'); [destruct (px p); discriminate| |destruct (nth_error S (i + 1 + 1)) as [z|]; [destruct (px z)|]; discriminate]; reflexivity.
  - intros i p x C. apply (E_at L S i p H); [apply C|exact C].
  - intros EX x. specialize (NE EX). clear EX.
    assert (G : forall R k, skipn k S = R -> R <> [] -> (forall p, hd_error R = Some p -> from_x (px p) x) -> exists i p, covers S i p x).
    { induction R as [|p R IH]; intros k K NN F; [congruence|]. assert (N : nth_error S k = Some p).
      { rewrite <- (firstn_skipn k S), nth_error_app2; [|rewrite firstn_length; lia]. rewrite K. rewrite firstn_length. assert (LK : (k <= length S)%nat).
        { destruct (le_lt_dec k (length S)); [exact l|]. rewrite skipn_all2 in K by lia. discriminate. }
        rewrite Nat.min_l, Nat.sub_diag by exact LK. reflexivity. }
      destruct (from_or_upto (next_x R) x) as [Y|Y].
      - destruct R as [|p' R]; [cbn in Y; contradiction|]. apply (IH (Datatypes.S k)); [|discriminate|cbn; intros ? [= <-]; exact Y].
        clear - K. revert S K. induction k as [|k IHk]; intros [|a S] K; cbn in K |- *; try discriminate; [injection K as _ K; exact K|apply IHk, K].
      - exists k, p. split; [exact N|]. split; [apply F; reflexivity|]. rewrite <- (next_nth S k p R N K). exact Y. }
    apply (G S O); [reflexivity|exact NE|]. intros p HP. destruct S as [|q S']; [discriminate|]. cbn in HP. injection HP as ->. rewrite (ST p) by reflexivity. exact I.
  - intros i p N. destruct (E_at L S i p H N) as (OK & LT & _ & MX). destruct (between _ _ LT) as (x & y & XY & FX & FY & UX & UY).
    exists ((x + y) / 2). assert (Z1 : x < (x + y) / 2) by (apply Qlt_shift_div_l; lra). assert (Z2 : (x + y) / 2 < y) by (apply Qlt_shift_div_r; lra).
    set (z := (x + y) / 2) in *. intros j q NE' NQ. destruct (E_at L S j q H NQ) as ((l & LL & SQ) & _).
    pose proof (MX x (conj N (conj FX UX)) l LL) as V1. pose proof (MX y (conj N (conj FY UY)) l LL) as V2. rewrite <- (pval_same q l x SQ) in V1. rewrite <- (pval_same q l y SQ) in V2. unfold pval in *.
    assert (NS : pm q < pm p \/ pm p < pm q).
    { destruct (Nat.lt_total i j) as [Q|[Q|Q]]; [|congruence|].
      - right. apply (E_all_increasing L S i j p q H Q N NQ).
      - left. apply (E_all_increasing L S j i q p H Q NQ N). }
    clearbody z. destruct NS as [NS|NS]; nra.
Qed.

(** * Sort *)
Fixpoint good (st : list pt) : Prop :=
  match st with
  | [] => True
  | p :: r => match r with
              | [] => px p = MInf
              | q :: _ => pm q < pm p /\ px p = Fin (cross p q) /\ ltx (px q) (px p) = true
              end /\ good r
  end.
Definition dom (st pre : list pt) : Prop := forall l x, In l pre -> exists p, In p st /\ pval l x <= pval p x.
Definition sub (st pre : list pt) : Prop := forall p, In p st -> exists l, In l pre /\ pm p = pm l /\ pb p = pb l /\ pp p = pp l.
Lemma cross_le : forall l p x, pm p < pm l -> (cross l p <= x <-> pval p x <= pval l x).
Proof.
  intros l p x H. unfold cross, pval. assert (D : 0 < pm l - pm p) by lra.
  assert (EQ : (pb l - pb p) / (pm p - pm l) == (pb p - pb l) / (pm l - pm p)) by (field; split; lra). rewrite EQ. split; intros Q.
  - apply (Qmult_le_compat_r _ _ (pm l - pm p)) in Q; [|lra]. assert (X : (pb p - pb l) / (pm l - pm p) * (pm l - pm p) == pb p - pb l) by (field; lra). rewrite X in Q. lra.
  - apply Qle_shift_div_r; [exact D|]. lra.
Qed.
Lemma cross_ge : forall l p x, pm p < pm l -> (x <= cross l p <-> pval l x <= pval p x).
Proof.
  intros l p x H. unfold cross, pval. assert (D : 0 < pm l - pm p) by lra.
  assert (EQ : (pb l - pb p) / (pm p - pm l) == (pb p - pb l) / (pm l - pm p)) by (field; split; lra). rewrite EQ. split; intros Q.
  - apply (Qmult_le_compat_r _ _ (pm l - pm p)) in Q; [|lra]. assert (X : (pb p - pb l) / (pm l - pm p) * (pm l - pm p) == pb p - pb l) by (field; lra). rewrite X in Q. lra.
  - apply Qle_shift_div_l; [exact D|]. lra.
Qed.
Lemma set_x_val : forall x p y, pval (set_x x p) y = pval p y.
Proof. reflexivity. Qed.
Lemma cross_set : forall l p x, cross (set_x x l) p = cross l p.
Proof. reflexivity. Qed.

Lemma pop_push_ok : forall l st, good st -> (forall p, In p st -> pm p < pm l) -> good (pop_push l st) /\ dom (pop_push l st) (l :: st) /\ sub (pop_push l st) (l :: st).
Proof.
  induction st as [|p r IH]; intros G SL; cbn [pop_push].
  - split; [cbn; auto|]. split.
    + intros l0 x [<-|[]]. exists (set_x MInf l). split; [left; reflexivity|]. rewrite set_x_val. lra.
    + intros p [<-|[]]. exists l. cbn. auto.
  - destruct (ltx (px p) (Fin (cross l p))) eqn:B.
    + split; [|split].
      * cbn [good]. split; [|exact G]. split; [cbn; apply SL; left; reflexivity|]. split; [reflexivity|exact B].
      * intros l0 x [<-|I0]; [exists (set_x (Fin (cross l p)) l); split; [left; reflexivity|rewrite set_x_val; lra]|exists l0; split; [right; exact I0|lra]].
      * intros q [<-|I0]; [exists l; cbn; auto|exists q; cbn; auto].
    + destruct r as [|q r'].
      { cbn in G. destruct G as (G & _). rewrite G in B. discriminate. }
      destruct (IH (proj2 G)) as (G1 & D1 & S1); [intros z Z; apply SL; right; exact Z|]. split; [exact G1|]. destruct G as ((SQ & PX & LT) & G'). split.
      * intros l0 x [<-|[<-|I0]]; [apply D1; left; reflexivity| |apply D1; right; exact I0].
        destruct (Qlt_le_dec x (cross p q)) as [Y|Y].
        -- destruct (D1 q x (or_intror (or_introl eq_refl))) as (z & IZ & VZ). exists z. split; [exact IZ|]. apply Qle_trans with (pval q x); [|exact VZ]. apply cross_ge; [exact SQ|lra].
        -- destruct (D1 l x (or_introl eq_refl)) as (z & IZ & VZ). exists z. split; [exact IZ|]. apply Qle_trans with (pval l x); [|exact VZ].
           rewrite PX in B. cbn in B. apply Qltb_false in B. apply cross_le; [apply SL; left; reflexivity|lra].
      * intros z IZ. destruct (S1 z IZ) as (l0 & [<-|I0] & K); [exists l; split; [left; reflexivity|exact K]|exists l0; split; [right; right; exact I0|exact K]].
Qed.
Lemma good_strict : forall r p, good (p :: r) -> forall z, In z r -> pm z < pm p.
Proof. induction r as [|q r IH]; intros p G z Z; [contradiction|]. destruct G as ((H & _) & G). destruct Z as [<-|Z]; [exact H|]. specialize (IH q G z Z). lra. Qed.
Lemma sort_step_ok : forall st l pre, good st -> dom st pre -> sub st pre -> (forall p, In p pre -> pm p <= pm l) ->
  let st' := sort_step st l in good st' /\ dom st' (l :: pre) /\ sub st' (l :: pre).
Proof.
  intros st l pre G D0 S0 SL st'. unfold st', sort_step. clear st'.
  assert (SL' : forall p, In p st -> pm p <= pm l) by (intros p IP; destruct (S0 p IP) as (z & IZ & EM & _); rewrite EM; apply SL, IZ).
  assert (UP : forall st', dom st' (l :: st) -> dom st' (l :: pre)).
  { intros st' DD l0 x [<-|I0]; [apply DD; left; reflexivity|]. destruct (D0 l0 x I0) as (z & IZ & VZ). destruct (DD z x (or_intror IZ)) as (z' & IZ' & VZ'). exists z'. split; [exact IZ'|lra]. }
  assert (UPS : forall st', sub st' (l :: st) -> sub st' (l :: pre)).
  { intros st' SS p IP. destruct (SS p IP) as (z & [<-|IZ] & A & B & C); [exists l; split; [left; reflexivity|auto]|]. destruct (S0 z IZ) as (z' & IZ' & A' & B' & C'). exists z'. split; [right; exact IZ'|]. repeat split; congruence. }
  destruct st as [|p r].
  - destruct (pop_push_ok l [] I) as (A & B & C); [intros p []|]. cbn [pop_push] in *. auto.
  - destruct (Qeq_bool (pm p) (pm l)) eqn:EQ.
    + apply Qeq_bool_iff in EQ. destruct (Qle_bool (pb l) (pb p)) eqn:LB.
      * apply Qle_bool_iff in LB. split; [exact G|]. split; [apply UP|apply UPS].
        -- intros l0 x [<-|I0]; [exists p; split; [left; reflexivity|]|exists l0; split; [exact I0|lra]]. unfold pval. rewrite <- EQ. lra.
        -- intros z IZ. exists z. split; [right; exact IZ|auto].
      * assert (LB' : pb p < pb l). { destruct (Qlt_le_dec (pb p) (pb l)) as [Y|Y]; [exact Y|]. apply Qle_bool_iff in Y. congruence. }
        assert (SR : forall z, In z r -> pm z < pm p).
        { intros z Z. apply (good_strict r p G z Z). }
        destruct (pop_push_ok l r (proj2 G)) as (A & B & C); [intros z Z; specialize (SR z Z); lra|]. split; [exact A|]. split; [apply UP|apply UPS].
        -- intros l0 x [<-|[<-|I0]]; [apply B; left; reflexivity| |apply B; right; exact I0]. destruct (B l x (or_introl eq_refl)) as (z & IZ & VZ). exists z. split; [exact IZ|]. unfold pval in *. rewrite EQ. lra.
        -- intros z IZ. destruct (C z IZ) as (l0 & [<-|I0] & K); [exists l; split; [left; reflexivity|exact K]|exists l0; split; [right; right; exact I0|exact K]].
    + assert (LM : pm p < pm l).
      { specialize (SL' p (or_introl eq_refl)). destruct (Qle_lt_or_eq _ _ SL') as [Y|Y]; [exact Y|]. apply Qeq_bool_iff in Y. congruence. }
      assert (SR : forall z, In z r -> pm z < pm p).
      { intros z Z. apply (good_strict r p G z Z). }
      destruct (pop_push_ok l (p :: r) G) as (A & B & C); [intros z [<-|Z]; [exact LM|specialize (SR z Z); lra]|]. split; [exact A|]. split; [apply UP, B|apply UPS, C].
Qed.
Lemma sort_fold_ok : forall ps st pre, good st -> dom st pre -> sub st pre -> (forall p l, In p pre -> In l ps -> pm p <= pm l) ->
  (forall i j p q, (i < j)%nat -> nth_error ps i = Some p -> nth_error ps j = Some q -> pm p <= pm q) ->
  let st' := fold_left sort_step ps st in good st' /\ dom st' (rev ps ++ pre) /\ sub st' (rev ps ++ pre).
Proof.
  induction ps as [|l ps IH]; intros st pre G D0 S0 SL SO; cbn [fold_left rev app]; [auto|].
  destruct (sort_step_ok st l pre G D0 S0) as (A & B & C); [intros p IP; apply SL; [exact IP|left; reflexivity]|]. rewrite <- app_assoc. cbn [app]. apply (IH (sort_step st l) (l :: pre) A B C).
  - intros p q [<-|IP] IQ; [|apply SL; [exact IP|right; exact IQ]]. apply In_nth_error in IQ. destruct IQ as (j & NJ). apply (SO O (S j)); [lia|reflexivity|exact NJ].
  - intros i j p q LT P0 Q0. apply (SO (S i) (S j)); [lia|exact P0|exact Q0].
Qed.
(** The chain read from the left. *)
Lemma good_below : forall p B x, good (p :: B) -> from_x (px p) x -> forall r, In r B -> pval r x <= pval p x.
Proof.
  intros p B. revert p. induction B as [|q B IH]; intros p x G FX r IR; [contradiction|]. destruct G as ((SQ & PX & LT) & G).
  assert (V : pval q x <= pval p x) by (rewrite PX in FX; cbn in FX; apply cross_le; [exact SQ|exact FX]).
  destruct IR as [<-|IR]; [exact V|]. specialize (IH q x G (from_mono _ _ _ (lt_lex _ _ LT) FX) r IR). lra.
Qed.
Lemma good_above : forall T p B x, good (T ++ p :: B) -> (forall q, In q T -> upto_x (px q) x) -> forall r, In r T -> pval r x <= pval p x.
Proof.
  induction T as [|t T IH]; intros p B x G U r IR; [contradiction|]. destruct T as [|s T].
  - destruct IR as [<-|[]]. destruct G as ((SQ & PX & LT) & G). specialize (U t (or_introl eq_refl)). rewrite PX in U. cbn in U. apply cross_ge; [exact SQ|exact U].
  - assert (V : pval s x <= pval p x). { apply (IH p B x (proj2 G)); [intros q Q; apply U; right; exact Q|left; reflexivity]. }
    destruct IR as [<-|IR]; [|apply (IH p B x (proj2 G)); [intros q Q; apply U; right; exact Q|exact IR]].
    destruct G as ((SQ & PX & LT) & G). specialize (U t (or_introl eq_refl)). rewrite PX in U. cbn in U. assert (pval t x <= pval s x) by (apply cross_ge; [exact SQ|exact U]). lra.
Qed.
Lemma good_tail : forall T B, good (T ++ B) -> good B.
Proof. induction T as [|t T IH]; intros B G; [exact G|]. cbn [app] in G. destruct (T ++ B) eqn:X in G; [|]; apply IH; rewrite X; apply G. Qed.
Lemma good_up : forall T p B, good (T ++ p :: B) -> forall q, In q T -> ltx (px p) (px q) = true.
Proof.
  induction T as [|t T IH]; intros p B G q IQ; [contradiction|]. destruct T as [|s T].
  - destruct IQ as [<-|[]]. apply G.
  - destruct IQ as [<-|IQ]; [|apply (IH p B (proj2 G) q IQ)]. apply (ltx_trans _ (px s)); [apply (IH p B (proj2 G) s); left; reflexivity|apply G].
Qed.
Lemma good_E : forall L T B, good (rev T ++ B) -> (forall p, In p (rev T ++ B) -> ok_in L p) ->
  (forall l x, L l -> exists p, In p (rev T ++ B) /\ val l x <= pval p x) -> E L T.
Proof.
  induction T as [|p R IH]; intros B G OK DM; [exact I|]. cbn [rev] in G, OK, DM. rewrite <- app_assoc in G, OK, DM. cbn [app] in G, OK, DM. cbn [E].
  split; [apply OK, in_app_iff; right; left; reflexivity|]. split; [|split; [|split]].
  - destruct R as [|p' R]; cbn [next_x].
    + pose proof (good_tail (rev []) _ G) as G'. cbn in G'. destruct B as [|q B].
      * destruct G' as (-> & _). reflexivity.
      * destruct G' as ((_ & -> & _) & _). reflexivity.
    + apply (good_up _ _ _ G). cbn [rev]. apply in_app_iff. right. left. reflexivity.
  - destruct R as [|p' R]; [exact I|]. cbn [rev] in G. rewrite <- app_assoc in G. cbn [app] in G. apply good_tail in G. apply G.
  - intros x FX UX l LL. destruct (DM l x LL) as (r & IR & V). apply Qle_trans with (pval r x); [exact V|]. apply in_app_iff in IR. destruct IR as [IR|[<-|IR]]; [|lra|].
    + apply (good_above _ _ _ x G); [|exact IR]. intros q IQ. destruct R as [|p' R]; [contradiction|]. cbn [next_x] in UX. cbn [rev] in IQ. apply in_app_iff in IQ. destruct IQ as [IQ|[<-|[]]]; [|exact UX].
      apply (upto_mono (px p')); [|exact UX]. apply lt_lex. cbn [rev] in G. rewrite <- app_assoc in G. cbn [app] in G. apply (good_up _ _ _ G q IQ).
    + apply (good_below p B x); [apply (good_tail _ _ G)|exact FX|exact IR].
  - apply (IH (p :: B)); assumption.
Qed.
Lemma good_last : forall st p, good (st ++ [p]) -> px p = MInf.
Proof. intros st p G. apply good_tail in G. apply G. Qed.

Lemma same_line_of : forall p, same p (line_of p).
Proof. intros p. repeat split; reflexivity. Qed.
Lemma same_eq : forall p l, pm p = lm l -> pb p = lb l -> pp p = lp l -> same p l.
Proof. intros p l A B C. unfold same. rewrite A, B, C. repeat split; reflexivity. Qed.

Lemma sort_loop_E : forall ps (L : line -> Prop), (forall i j p q, (i < j)%nat -> nth_error ps i = Some p -> nth_error ps j = Some q -> pm p <= pm q) ->
  (forall p, In p ps -> ok_in L p) -> (forall l x, L l -> exists p, In p ps /\ val l x <= pval p x) ->
  E L (sort_loop ps) /\ starts (sort_loop ps) /\ ((exists l, L l) -> sort_loop ps <> []) /\ (forall p, In p (sort_loop ps) -> ok_in L p).
Proof.
  intros ps L SO OK DM. unfold sort_loop.
  destruct (sort_fold_ok ps [] []) as (G & D0 & S0); [exact I|intros l x []|intros p []|intros p l []|exact SO|].
  set (st := fold_left sort_step ps []) in *. rewrite app_nil_r in D0, S0.
  assert (IN : forall p, In p (rev ps) <-> In p ps) by (intros p; rewrite <- in_rev; reflexivity).
  assert (OK' : forall p, In p st -> ok_in L p).
  { intros p IP. destruct (S0 p IP) as (l & IL & A & B & C). apply IN in IL. destruct (OK l IL) as (l' & LL & (A' & B' & C')). exists l'. split; [exact LL|]. unfold same. rewrite A, B, C. auto. }
  split; [|split; [|split]].
  - apply (good_E L (rev st) []); rewrite rev_involutive, app_nil_r; [exact G|exact OK'|].
    intros l x LL. destruct (DM l x LL) as (p & IP & V). apply IN in IP. destruct (D0 p x IP) as (q & IQ & V'). exists q. split; [exact IQ|lra].
  - intros p N. destruct st as [|a st'] using rev_ind; [discriminate|]. rewrite rev_app_distr in N. cbn in N. injection N as <-. apply (good_last _ _ G).
  - intros (l & LL) X. destruct (DM l 0 LL) as (p & IP & _). apply IN in IP. destruct (D0 p 0 IP) as (q & IQ & _). apply in_rev in IQ. rewrite X in IQ. contradiction.
  - intros p IP. apply in_rev in IP. apply OK', IP.
Qed.

Section S.
Variable srt : list pt -> list pt.
Hypothesis SRT : sorts srt.

Lemma sort_E : forall ps (L : line -> Prop), (forall p, In p ps -> ok_in L p) -> (forall l x, L l -> exists p, In p ps /\ val l x <= pval p x) ->
  E L (Sort srt ps) /\ starts (Sort srt ps) /\ ((exists l, L l) -> Sort srt ps <> []) /\ (forall p, In p (Sort srt ps) -> ok_in L p).
Proof.
  intros ps L OK DM. pose proof (srt_perm _ SRT ps) as PM. unfold Sort. apply sort_loop_E.
  - exact (srt_sorted _ SRT ps).
  - intros p IP. apply OK, (Permutation_in _ PM IP).
  - intros l x LL. destruct (DM l x LL) as (p & IP & V). exists p. split; [apply (Permutation_in _ (Permutation_sym PM) IP)|exact V].
Qed.
Theorem sort_env : forall ps, is_env (Sort srt ps) (fun l => exists p, In p ps /\ l = line_of p).
Proof.
  intros ps. destruct (sort_E ps (fun l => exists p, In p ps /\ l = line_of p)) as (A & B & C & _).
  - intros p IP. exists (line_of p). split; [exists p; auto|apply same_line_of].
  - intros l x (p & IP & ->). exists p. split; [exact IP|]. unfold val, pval, line_of; cbn. lra.
  - apply E_env; assumption.
Qed.

(** * From the specification back *)
Lemma env_E : forall S L, is_env S L -> E L S.
Proof.
  intros S L H. assert (G : forall R k, skipn k S = R -> E L R).
  { induction R as [|p R IH]; intros k K; [exact I|].
    assert (N : nth_error S k = Some p).
    { rewrite <- (firstn_skipn k S), nth_error_app2; [|rewrite firstn_length; lia]. rewrite K. rewrite firstn_length. assert (LK : (k <= length S)%nat).
      { destruct (le_lt_dec k (length S)); [exact l|]. rewrite skipn_all2 in K by lia. discriminate. }
      rewrite Nat.min_l, Nat.sub_diag by exact LK. reflexivity. }
    assert (K1 : skipn (k + 1) S = R).
    { clear - K. revert S K. induction k as [|k IHk]; intros [|a S] K; cbn in K |- *; try discriminate; [injection K as _ K; exact K|apply IHk, K]. }
    pose proof (next_nth S k p R N K) as NX. cbn [E]. split; [apply (env_lines _ _ H), (nth_error_In _ _ N)|].
    assert (MF : px p = MInf \/ exists q, px p = Fin q).
    { destruct k as [|k]; [left; apply (env_first _ _ H p N)|]. destruct (nth_error S k) as [o|] eqn:O0; [|apply nth_error_None in O0; assert (X : (Datatypes.S k < length S)%nat) by (apply nth_error_Some; congruence); lia].
      rewrite <- Nat.add_1_r in N. destruct (env_increasing _ _ H k o p O0 N) as (A & B & _). right. destruct (px p) as [|q|]; [destruct (px o); discriminate|eauto|discriminate]. }
    split; [|split; [|split]].
    - rewrite NX. destruct (nth_error S (k + 1)) as [p'|] eqn:N'; [apply (env_increasing _ _ H k p p' N N')|]. destruct MF as [->|(q & ->)]; reflexivity.
    - destruct R as [|p' R]; [exact I|]. apply (env_increasing _ _ H k p p' N). pose proof (nth_error_app2 (firstn (k + 1) S) (skipn (k + 1) S)) as X. rewrite firstn_skipn in X.
      assert (LK : (k < length S)%nat) by (apply nth_error_Some; congruence). rewrite X by (rewrite firstn_length; lia). rewrite K1, firstn_length, Nat.min_l, Nat.sub_diag by lia. reflexivity.
    - intros x FX UX. apply (env_maximal _ _ H k p x). split; [exact N|]. split; [exact FX|]. rewrite <- NX. exact UX.
    - apply (IH (k + 1)%nat K1). }
  apply (G S O). reflexivity.
Qed.
Lemma env_nonempty : forall S L, is_env S L -> (exists l, L l) -> S <> [].
Proof. intros S L H EX X. destruct (env_somewhere _ _ H EX 0) as (i & p & (N & _)). rewrite X in N. destruct i; discriminate. Qed.
Lemma env_ext : forall S (L L' : line -> Prop), (forall l, L l <-> L' l) -> is_env S L -> is_env S L'.
Proof.
  intros S L L' EQ H. apply E_env.
  - apply env_E in H. revert H. induction S as [|p R IH]; intros H; [exact I|]. destruct H as ((l & LL & SM) & B & C & D0 & H). cbn [E]. split; [exists l; split; [apply EQ, LL|exact SM]|]. split; [exact B|]. split; [exact C|]. split; [|apply IH, H].
    intros x FX UX l0 L0. apply D0; [exact FX|exact UX|apply EQ, L0].
  - exact (env_first _ _ H).
  - intros (l & LL). apply (env_nonempty S L H). exists l. apply EQ, LL.
Qed.
Lemma represents_ext : forall h (L L' : line -> Prop), (forall l, L l <-> L' l) -> represents srt h L -> represents srt h L'.
Proof. intros h L L' EQ (A & B). split; [intros p IP; destruct (A p IP) as (l & LL & SM); exists l; split; [apply EQ, LL|exact SM]|apply (env_ext _ L); assumption]. Qed.
(** A hull's points dominate what it represents. *)
Lemma segs_dom : forall h L, represents srt h L -> forall l x, L l -> exists p, In p (segs srt h) /\ val l x <= pval p x.
Proof.
  intros h L (_ & H) l x LL. destruct (env_somewhere _ _ H (ex_intro _ l LL) x) as (i & p & C). exists p. split; [apply (nth_error_In _ _ (proj1 C))|apply (env_maximal _ _ H i p x C l LL)].
Qed.
Lemma Sort_in : forall ps p, In p (Sort srt ps) -> exists q, In q ps /\ pm p = pm q /\ pb p = pb q /\ pp p = pp q.
Proof.
  intros ps p IP. pose proof (srt_perm _ SRT ps) as PM. unfold Sort, sort_loop in IP. apply in_rev in IP.
  destruct (sort_fold_ok (srt ps) [] []) as (_ & _ & S0); [exact I|intros l x []|intros q []|intros q l []|exact (srt_sorted _ SRT ps)|].
  destruct (S0 p IP) as (l & IL & K). rewrite app_nil_r in IL. apply in_rev in IL. exists l. split; [apply (Permutation_in _ PM IL)|exact K].
Qed.
Lemma points_dom : forall h L, represents srt h L -> forall l x, L l -> exists p, In p (points h) /\ val l x <= pval p x.
Proof.
  intros h L R l x LL. destruct (segs_dom h L R l x LL) as (p & IP & V). unfold segs in IP. destruct (is_sorted h); [exists p; auto|].
  destruct (Sort_in _ _ IP) as (q & IQ & A & B & _). exists q. split; [exact IQ|]. unfold pval in *. rewrite <- A, <- B. exact V.
Qed.
Lemma segs_ok : forall h L, represents srt h L -> forall p, In p (segs srt h) -> ok_in L p.
Proof. intros h L (_ & H) p IP. apply (env_lines _ _ H p IP). Qed.
Lemma represents_intro : forall h L, (is_sorted h = true -> is_env (points h) L) -> (forall p, In p (points h) -> ok_in L p) ->
  (is_sorted h = false -> forall l x, L l -> exists p, In p (points h) /\ val l x <= pval p x) -> represents srt h L.
Proof.
  intros h L A B C. split; [exact B|]. unfold segs. destruct (is_sorted h); [apply A; reflexivity|]. destruct (sort_E (points h) L B (C eq_refl)) as (X & Y & Z & _). apply E_env; assumption.
Qed.

(** * Sum *)
Theorem plus_env : forall a b La Lb, represents srt a La -> represents srt b Lb -> represents srt (plus srt a b) (fun l => La l \/ Lb l).
Proof.
  intros a b La Lb RA RB. unfold plus. destruct (points a) as [|p0 r0] eqn:PA.
  - assert (NA : forall l, ~ La l) by (intros l LL; destruct (points_dom a La RA l 0 LL) as (p & IP & _); rewrite PA in IP; contradiction).
    apply represents_intro; cbn [is_sorted points].
    + intros _. apply (env_ext _ Lb); [intros l; split; [intros X; right; exact X|intros [X|X]; [destruct (NA l X)|exact X]]|apply RB].
    + intros p IP. destruct (segs_ok b Lb RB p IP) as (l & LL & SM). exists l. split; [right; exact LL|exact SM].
    + intros _ l x [LL|LL]; [destruct (NA l LL)|]. apply (segs_dom b Lb RB l x LL).
  - rewrite <- PA. apply represents_intro; cbn [is_sorted points]; [discriminate| |].
    + intros p IP. apply in_app_iff in IP. destruct IP as [IP|IP].
      * destruct (proj1 RA p IP) as (l & LL & SM). exists l. split; [left; exact LL|exact SM].
      * destruct (segs_ok b Lb RB p IP) as (l & LL & SM). exists l. split; [right; exact LL|exact SM].
    + intros _ l x [LL|LL].
      * destruct (points_dom a La RA l x LL) as (p & IP & V). exists p. split; [apply in_app_iff; left; exact IP|exact V].
      * destruct (segs_dom b Lb RB l x LL) as (p & IP & V). exists p. split; [apply in_app_iff; right; exact IP|exact V].
Qed.

(** * Product *)
Definition prod (L1 L2 : line -> Prop) (l : line) : Prop := exists a b, L1 a /\ L2 b /\ l = add_line a b.
Lemma prod_val : forall a b x, val (add_line a b) x == val a x + val b x.
Proof. intros. unfold val, add_line; cbn. ring. Qed.
Lemma merge_eq : forall p r1 q r2 cur, merge (p :: r1) (q :: r2) cur =
  {| px := cur; pm := pm p + pm q; pb := pb p + pb q; pp := PPair (pp p) (pp q) |} ::
        (if ltx (next_x r1) (next_x r2) then merge r1 (q :: r2) (next_x r1)
         else if ltx (next_x r2) (next_x r1) then merge (p :: r1) r2 (next_x r2)
         else merge r1 r2 (next_x r1)).
Proof. reflexivity. Qed.
Lemma merge_nil_r : forall s1 cur, merge s1 [] cur = [].
Proof. destruct s1; reflexivity. Qed.
Definition hd_m (s1 s2 : list pt) : Q := match s1, s2 with p :: _, q :: _ => pm p + pm q | _, _ => 0 end.
Lemma merge_E : forall L1 L2 n s1 s2 cur p r1 q r2, (length s1 + length s2 <= n)%nat -> E L1 s1 -> E L2 s2 -> s1 = p :: r1 -> s2 = q :: r2 ->
  lex (px p) cur -> lex (px q) cur -> ltx cur (next_x r1) = true -> ltx cur (next_x r2) = true ->
  E (prod L1 L2) (merge s1 s2 cur) /\ next_x (merge s1 s2 cur) = cur /\ exists z r, merge s1 s2 cur = z :: r /\ pm z = pm p + pm q.
Proof.
  induction n as [|n IH]; intros s1 s2 cur p r1 q r2 LN E1 E2 -> -> XP XQ N1 N2; [cbn in LN; lia|].
  rewrite merge_eq. split; [|split; [reflexivity|eexists; eexists; split; reflexivity]].
  destruct E1 as ((lp1 & LP1 & SP1) & A1 & B1 & C1 & E1). destruct E2 as ((lq1 & LQ1 & SQ1) & A2 & B2 & C2 & E2).
  set (rest := if ltx (next_x r1) (next_x r2) then merge r1 (q :: r2) (next_x r1) else if ltx (next_x r2) (next_x r1) then merge (p :: r1) r2 (next_x r2) else merge r1 r2 (next_x r1)).
  assert (R : E (prod L1 L2) rest /\ (lex (next_x rest) (next_x r1) /\ lex (next_x rest) (next_x r2)) /\ ltx cur (next_x rest) = true /\ match rest with z :: _ => pm p + pm q < pm z | [] => True end).
  { unfold rest. cbn [length] in LN. destruct (ltx (next_x r1) (next_x r2)) eqn:C.
    - destruct r1 as [|p' r1]; [destruct (next_x r2); discriminate|]. cbn [next_x] in *.
      pose proof E1 as (_ & A' & _).
      destruct (IH (p' :: r1) (q :: r2) (px p') p' r1 q r2) as (X & Y & z & rr & Z & M); [cbn [length] in *; lia|exact E1|split; [exists lq1; auto|auto]|reflexivity|reflexivity|apply lex_refl|apply lt_lex, (lex_lt_trans _ cur _ XQ N1)|exact A'|exact C|].
      split; [exact X|]. rewrite Y. split; [split; [apply lex_refl|apply lt_lex, C]|]. split; [exact N1|]. rewrite Z, M. lra.
    - destruct (ltx (next_x r2) (next_x r1)) eqn:C'.
      + destruct r2 as [|q' r2]; [destruct (next_x r1); discriminate|]. cbn [next_x] in *. pose proof E2 as (_ & A' & _).
        destruct (IH (p :: r1) (q' :: r2) (px q') p r1 q' r2) as (X & Y & z & rr & Z & M); [cbn [length] in *; lia|split; [exists lp1; auto|auto]|exact E2|reflexivity|reflexivity|apply lt_lex, (lex_lt_trans _ cur _ XP N2)|apply lex_refl|exact C'|exact A'|].
        split; [exact X|]. rewrite Y. split; [split; [apply lt_lex, C'|apply lex_refl]|]. split; [exact N2|]. rewrite Z, M. lra.
      + destruct r1 as [|p' r1], r2 as [|q' r2]; cbn [next_x] in *.
        * cbn. split; [exact I|]. split; [split; reflexivity|]. split; [exact N1|exact I].
        * pose proof E2 as (_ & A' & _). exfalso. destruct (px q'); [destruct cur; discriminate|discriminate|]. destruct (next_x r2); discriminate.
        * pose proof E1 as (_ & A' & _). exfalso. destruct (px p'); [destruct cur; discriminate|discriminate|]. destruct (next_x r1); discriminate.
        * pose proof E1 as (_ & A' & _). pose proof E2 as (_ & A'' & _).
          destruct (IH (p' :: r1) (q' :: r2) (px p') p' r1 q' r2) as (X & Y & z & rr & Z & M); [cbn [length] in *; lia|exact E1|exact E2|reflexivity|reflexivity|apply lex_refl|exact C|exact A'|apply (lex_lt_trans _ (px q')); [exact C'|exact A'']|].
          split; [exact X|]. rewrite Y. split; [split; [apply lex_refl|exact C']|]. split; [exact N1|]. rewrite Z, M. lra. }
  destruct R as (ER & (R1 & R2) & R3 & R4). cbn [E px pm]. split.
  { exists (add_line lp1 lq1). split; [exists lp1, lq1; auto|]. destruct SP1 as (a1 & a2 & a3), SQ1 as (b1 & b2 & b3). unfold same, add_line; cbn. rewrite a1, a2, a3, b1, b2, b3. repeat split; reflexivity. }
  split; [exact R3|]. split; [exact R4|]. split; [|exact ER].
  intros x FX UX l (a & b & LA & LB & ->). rewrite prod_val.
  pose proof (C1 x (from_mono _ _ _ XP FX) (upto_mono _ _ _ R1 UX) a LA) as V1. pose proof (C2 x (from_mono _ _ _ XQ FX) (upto_mono _ _ _ R2 UX) b LB) as V2.
  unfold pval in *; cbn. lra.
Qed.
Lemma shift_E : forall (L1 L2 : line -> Prop) p e, E L1 [p] -> px p = MInf -> pp p = PEdge e -> forall s2, E L2 s2 ->
  E (prod L1 L2) (map (fun z => {| px := px z; pm := pm z + pm p; pb := pb z + pb p; pp := PPair (PEdge e) (pp z) |}) s2).
Proof.
  intros L1 L2 p e ((l1 & LL1 & S1) & _ & _ & C1 & _) XP PE s2. induction s2 as [|q r IH]; intros E2; [exact I|]. destruct E2 as ((l2 & LL2 & S2) & A & B & C & E2). cbn [map E px pm].
  assert (NX : next_x (map (fun z => {| px := px z; pm := pm z + pm p; pb := pb z + pb p; pp := PPair (PEdge e) (pp z) |}) r) = next_x r) by (destruct r; reflexivity).
  rewrite NX. split; [|split; [exact A|split; [destruct r; [exact I|cbn; lra]|split; [|apply IH, E2]]]].
  - exists (add_line l1 l2). split; [exists l1, l2; auto|]. destruct S1 as (a1 & a2 & a3), S2 as (b1 & b2 & b3). unfold same, add_line; cbn. rewrite a1, a2, b1, b2, <- a3, PE, b3. repeat split; ring.
  - intros x FX UX l (a & b & LA & LB & ->). rewrite prod_val. specialize (C x FX UX b LB). assert (V1 : val a x <= pval p x) by (apply C1; [rewrite XP; exact I|exact I|exact LA]). unfold pval in *; cbn. lra.
Qed.
Lemma times_pts_E : forall (L1 L2 : line -> Prop) s1 s2, E L1 s1 -> starts s1 -> E L2 s2 -> starts s2 ->
  E (prod L1 L2) (times_pts s1 s2) /\ starts (times_pts s1 s2) /\ (s1 <> [] -> s2 <> [] -> times_pts s1 s2 <> []).
Proof.
  intros L1 L2 s1 s2 E1 T1 E2 T2.
  assert (MG : E (prod L1 L2) (merge s1 s2 MInf) /\ starts (merge s1 s2 MInf) /\ (s1 <> [] -> s2 <> [] -> merge s1 s2 MInf <> [])).
  { destruct s1 as [|p r1]; [cbn; split; [exact I|]; split; [intros p Q; discriminate|congruence]|]. destruct s2 as [|q r2]; [rewrite merge_nil_r; split; [exact I|]; split; [intros z Q; discriminate|congruence]|].
    destruct (merge_E L1 L2 (length (p :: r1) + length (q :: r2)) (p :: r1) (q :: r2) MInf p r1 q r2) as (X & Y & z & r & Z & M); try reflexivity; try assumption.
    - rewrite (T1 p) by reflexivity. reflexivity.
    - rewrite (T2 q) by reflexivity. reflexivity.
    - pose proof E1 as (_ & A & _). rewrite (T1 p eq_refl) in A. exact A.
    - pose proof E2 as (_ & A & _). rewrite (T2 q eq_refl) in A. exact A.
    - split; [exact X|]. rewrite Z in Y |- *. split; [intros w W; cbn in W; injection W as <-; exact Y|discriminate]. }
  unfold times_pts. destruct s1 as [|[x m b [|e|a1 a2]] [|p' r1]]; try exact MG.
  split; [apply (shift_E L1 L2 {| px := x; pm := m; pb := b; pp := PEdge e |} e E1 (T1 _ eq_refl) eq_refl s2 E2)|].
  split; [|intros _ NE; destruct s2; [congruence|discriminate]]. intros p N. destruct s2 as [|q r]; [discriminate|]. cbn in N. injection N as <-. cbn. apply (T2 q eq_refl).
Qed.
Theorem times_env : forall a b La Lb, is_one a = false -> is_one b = false -> represents srt a La -> represents srt b Lb ->
  represents srt (times srt a b) (fun l => exists x y, La x /\ Lb y /\ l = add_line x y).
Proof.
  intros a b La Lb OA OB (A1 & A2) (B1 & B2). unfold times. rewrite OB, OA.
  destruct (times_pts_E La Lb (segs srt a) (segs srt b) (env_E _ _ A2) (env_first _ _ A2) (env_E _ _ B2) (env_first _ _ B2)) as (X & Y & Z).
  assert (EN : is_env (times_pts (segs srt a) (segs srt b)) (prod La Lb)).
  { apply E_env; [exact X|exact Y|]. intros (l & x & y & LX & LY & _). apply Z; [apply (env_nonempty _ _ A2); exists x; exact LX|apply (env_nonempty _ _ B2); exists y; exact LY]. }
  apply represents_intro; cbn [is_sorted points]; [intros _; exact EN|intros p IP; apply (env_lines _ _ EN p IP)|discriminate].
Qed.
End S.

(** * The identity *)
Lemma times_one_r : forall srt a u, times srt a (one u) = a.
Proof. reflexivity. Qed.
Lemma times_one_l : forall srt a u, is_one a = false -> times srt (one u) a = a.
Proof. intros srt a u H. unfold times. rewrite H. reflexivity. Qed.

(** * Inside over hulls *)
Section I.
Context {P Y : Type}.
Variable srt : list pt -> list pt.
Hypothesis SRT : sorts srt.
Variable g : hg P.
Variables dir ori : edge P -> Q.
Hypothesis T : topo g.
Hypothesis IDS : ids_ok g.
Let wf := edge_hull dir ori.

Definition ed_line (e : nat) : line := {| lm := edge_weight 0 dir g e; lb := edge_weight 0 ori g e; lp := PEdge e |}.
Fixpoint tline (t : tree) : line := match t with Tree e ts => fold_left (fun a s => add_line a (tline s)) ts (ed_line e) end.
Definition Ln (n : nat) (l : line) : Prop := exists t, derives g n t /\ l = tline t.

Lemma not_one : forall h L, represents srt h L -> (forall l, L l -> lp l <> PNone) -> is_one h = false.
Proof.
  intros h L (A & _) N. unfold is_one. destruct (points h) as [|p [|q r]] eqn:PE; try reflexivity.
  destruct (A p (or_introl eq_refl)) as (l & LL & _ & _ & PP). specialize (N l LL). rewrite <- PP in N. destruct (pp p); [congruence| |]; apply andb_false_r.
Qed.
Lemma fold_lp : forall ts l, lp l <> PNone -> lp (fold_left (fun a s => add_line a (tline s)) ts l) <> PNone.
Proof. induction ts as [|t ts IH]; intros l H; [exact H|]. cbn [fold_left]. apply IH. discriminate. Qed.
Lemma tline_lp : forall t, lp (tline t) <> PNone.
Proof. intros [e ts]. apply fold_lp. discriminate. Qed.
Lemma zero_env : represents srt zero (fun _ => False).
Proof.
  apply represents_intro; [exact SRT| | |]; cbn; [|intros p []|discriminate]. intros _. apply E_env; [exact I|intros p Q; discriminate|intros (l & [])].
Qed.
Lemma edge_env : forall e ed, nth_error (edges g) e = Some ed -> represents srt (wf ed) (fun l => l = ed_line e).
Proof.
  intros e ed N. assert (OK : ok_in (fun l => l = ed_line e) {| px := MInf; pm := dir ed; pb := ori ed; pp := PEdge (eid ed) |}).
  { exists (ed_line e). split; [reflexivity|]. apply same_eq; cbn; unfold edge_weight; rewrite ?N; try reflexivity. f_equal. apply (IDS e ed N). }
  apply represents_intro; [exact SRT| | |]; cbn; [|intros p [<-|[]]; exact OK|discriminate].
  intros _. apply E_env; [|intros p Q; cbn in Q; injection Q as <-; reflexivity|discriminate]. cbn [E]. split; [exact OK|]. split; [reflexivity|]. split; [exact I|]. split; [|exact I].
  intros x _ _ l ->. unfold val, pval, ed_line, edge_weight; cbn. rewrite N. lra.
Qed.
Lemma fold_times : forall (I0 : nat -> hull) ts h L, (forall t, In t ts -> represents srt (I0 t) (Ln t)) -> represents srt h L -> (forall l, L l -> lp l <> PNone) ->
  represents srt (fold_left (fun a t => times srt a (I0 t)) ts h) (fun l => exists l0 ds, L l0 /\ Forall2 (derives g) ts ds /\ l = fold_left (fun a s => add_line a (tline s)) ds l0).
Proof.
  intros I0. induction ts as [|t ts IH]; intros h L HT RH NO; cbn [fold_left].
  - apply (represents_ext srt _ L); [|exact RH]. intros l. split; [intros LL; exists l, []; auto|]. intros (l0 & ds & LL & F & ->). inversion F; subst. exact LL.
  - assert (RT : represents srt (I0 t) (Ln t)) by (apply HT; left; reflexivity).
    assert (NT : forall l, Ln t l -> lp l <> PNone) by (intros l (d & _ & ->); apply tline_lp).
    pose proof (times_env srt SRT h (I0 t) L (Ln t) (not_one _ _ RH NO) (not_one _ _ RT NT) RH RT) as RM.
    specialize (IH _ _ (fun t0 I1 => HT t0 (or_intror I1)) RM). eapply represents_ext; [|apply IH; intros l (x & y & _ & _ & ->); discriminate].
    intros l. cbn. split.
    + intros (l0 & ds & (x & y & LX & (d & DD & ->) & ->) & F & ->). exists x, (d :: ds). split; [exact LX|]. split; [constructor; assumption|reflexivity].
    + intros (l0 & ds & LL & F & ->). inversion F as [|? d ? ds' DD F']; subst. exists (add_line l0 (tline d)), ds'. split; [exists l0, (tline d); split; [exact LL|split; [exists d; auto|reflexivity]]|split; [exact F'|reflexivity]].
Qed.
Lemma fold_plus : forall (V : nat -> hull) (Le : nat -> line -> Prop) es h L, (forall e, In e es -> represents srt (V e) (Le e)) -> represents srt h L ->
  represents srt (fold_left (plus srt) (map V es) h) (fun l => L l \/ exists e, In e es /\ Le e l).
Proof.
  intros V Le. induction es as [|e es IH]; intros h L HE RH; cbn [map fold_left].
  - apply (represents_ext srt _ L); [|exact RH]. intros l. split; [auto|]. intros [X|(e & [] & _)]; exact X.
  - pose proof (plus_env srt SRT h (V e) L (Le e) RH (HE e (or_introl eq_refl))) as RP. specialize (IH _ _ (fun e0 I1 => HE e0 (or_intror I1)) RP).
    eapply represents_ext; [|exact IH]. intros l. cbn. split.
    + intros [[X|X]|(e0 & I0 & X)]; [left; exact X|right; exists e; auto|right; exists e0; auto].
    + intros [X|(e0 & [<-|I0] & X)]; [left; left; exact X|left; right; exact X|right; exists e0; auto].
Qed.
Lemma inside_hulls : exists sc, Inside zero (plus srt) (times srt) wf g = Some sc /\ length sc = length (nodes g) /\
  forall n, (n < length (nodes g))%nat -> represents srt (nth n sc zero) (Ln n).
Proof.
  destruct (inside_rec zero (plus srt) (times srt) wf g T) as (sc & R & LN & V). exists sc. split; [exact R|]. split; [exact LN|].
  intros n. induction n as [n IH] using (well_founded_induction lt_wf). intros LT. rewrite V by exact LT.
  destruct (nth_error (nodes g) n) as [nd|] eqn:N; [|apply nth_error_None in N; lia]. unfold in_of. rewrite N.
  eapply represents_ext; [|apply (fold_plus _ (fun e l => exists ed ds, nth_error (edges g) e = Some ed /\ Forall2 (derives g) (tails ed) ds /\ l = tline (Tree e ds)) _ _ (fun _ => False)); [|exact zero_env]].
  - intros l. cbn beta. split.
    + intros [[]|(e & IE & ed & ds & NE & F & ->)]. exists (Tree e ds). split; [apply (d_edge g n nd e ed ds N IE NE F)|reflexivity].
    + intros (t & DD & ->). right. inversion DD as [? nd' e ed ts N' IE NE F]; subst. rewrite N in N'. injection N' as <-. exists e. split; [exact IE|]. exists ed, ts. auto.
  - intros e IE. destruct (proj2 (T n nd N) e IE) as (ed & NE & TL). unfold edge_val, etails. rewrite NE.
    unfold edge_weight at 1. rewrite NE.
    eapply represents_ext; [|apply (fold_times _ _ _ (fun l => l = ed_line e)); [|apply (edge_env e ed NE)|intros l ->; discriminate]].
    + intros l. cbn beta. split.
      * intros (l0 & ds & -> & F & ->). exists ed, ds. auto.
      * intros (ed' & ds & NE' & F & ->). injection NE' as <-. exists (ed_line e), ds. auto.
    + intros t IT. specialize (TL t IT). apply IH; lia.
Qed.
End I.

(** * Reading a segment back *)
Section R.
Context {P Y : Type}.
Variable g : hg P.
Variables dir ori : edge P -> Q.
Variable traverse : edge P -> list Y -> Y.
Variable dflt : Y.
Local Notation tl := (tline g dir ori).

Lemma Qsum_app : forall a b, Qsum (a ++ b) == Qsum a + Qsum b.
Proof. induction a as [|x a IH]; intros b; [symmetry; apply Qplus_0_l|]. change (x + Qsum (a ++ b) == x + Qsum a + Qsum b). rewrite IH. ring. Qed.
Lemma tree_sum_eq : forall f e ts, tree_sum g f (Tree e ts) == edge_weight 0 f g e + Qsum (map (tree_sum g f) ts).
Proof.
  intros f e ts. unfold tree_sum. cbn [tree_edges]. rewrite map_app, Qsum_app. cbn [map].
  assert (X : Qsum (map (edge_weight 0 f g) (flat_map tree_edges ts)) == Qsum (map (fun t => Qsum (map (edge_weight 0 f g) (tree_edges t))) ts)).
  { induction ts as [|t ts IH]; [reflexivity|]. cbn [flat_map map]. rewrite map_app, Qsum_app, IH. reflexivity. }
  rewrite X. assert (Z : Qsum [edge_weight 0 f g e] == edge_weight 0 f g e) by apply Qplus_0_r. rewrite Z. apply Qplus_comm.
Qed.
Lemma tline_sum : forall t, lm (tl t) == tree_sum g dir t /\ lb (tl t) == tree_sum g ori t.
Proof.
  induction t as [e ts IH] using tree_ind'. rewrite !tree_sum_eq. cbn [tline].
  assert (X : forall l, lm (fold_left (fun a s => add_line a (tl s)) ts l) == lm l + Qsum (map (tree_sum g dir) ts) /\ lb (fold_left (fun a s => add_line a (tl s)) ts l) == lb l + Qsum (map (tree_sum g ori) ts)).
  { induction IH as [|t ts (H1 & H2) F IH']; intros l; cbn [fold_left map]; [unfold Qsum; cbn [fold_right]; split; ring|]. destruct (IH' (add_line l (tl t))) as (A & B). rewrite A, B. cbn [add_line lm lb]. rewrite H1, H2. unfold Qsum. cbn [fold_right]. split; ring. }
  apply (X (ed_line g dir ori e)).
Qed.
Lemma tree_score : forall t x, val (tl t) x == score g dir ori t x.
Proof. intros t x. destruct (tline_sum t) as (A & B). unfold val, score. rewrite A, B. reflexivity. Qed.

Lemma fold_derives : forall ts ds, Forall2 (derives g) ts ds -> length ds = length ts.
Proof. intros ts ds F. induction F; cbn; congruence. Qed.
Lemma translation_fold : forall ts l ants, (forall t, In t ts -> translation g traverse (lp (tl t)) [] = Some (tree_yield g traverse dflt t)) ->
  translation g traverse (lp (fold_left (fun a s => add_line a (tl s)) ts l)) ants = translation g traverse (lp l) (map (tree_yield g traverse dflt) ts ++ ants).
Proof.
  induction ts as [|t ts IH] using rev_ind; intros l ants H; [reflexivity|]. rewrite fold_left_app. cbn [fold_left add_line lp translation].
  rewrite H by (apply in_app_iff; right; left; reflexivity). rewrite IH by (intros s IS; apply H, in_app_iff; left; exact IS). rewrite map_app, <- app_assoc. reflexivity.
Qed.
Lemma translation_tree : forall t n, derives g n t -> translation g traverse (lp (tl t)) [] = Some (tree_yield g traverse dflt t).
Proof.
  induction t as [e ts IH] using tree_ind'. intros n D. inversion D as [? nd ? ed ? N IE NE F]; subst. cbn [tline]. rewrite translation_fold.
  - cbn [ed_line lp translation]. rewrite NE. rewrite app_nil_r, map_length, (fold_derives _ _ F), Nat.eqb_refl. cbn [tree_yield]. rewrite NE. reflexivity.
  - intros t IT. rewrite Forall_forall in IH. apply In_nth_error in IT. destruct IT as (i & NI).
    assert (X : exists m, derives g m t). { clear - F NI. revert i NI. induction F as [|a d ts ds H F IH]; intros [|i] NI; cbn in NI; try discriminate; [injection NI as <-; eauto|apply (IH i NI)]. }
    destruct X as (m & DM). apply (IH t (nth_error_In _ _ NI) m DM).
Qed.
Lemma marked_refl : forall u, marked u u [].
Proof. intros u. split; [reflexivity|]. intros e b N. rewrite N. destruct (in_dec Nat.eq_dec e []) as [[]|_]. rewrite orb_false_r. reflexivity. Qed.
Lemma marked_trans : forall u v w a b, marked u v a -> marked v w b -> marked u w (a ++ b).
Proof.
  intros u v w a b (L1 & H1) (L2 & H2). split; [congruence|]. intros e x N. rewrite (H2 e _ (H1 e x N)). f_equal.
  destruct (in_dec Nat.eq_dec e a) as [Q1|Q1], (in_dec Nat.eq_dec e b) as [Q2|Q2], (in_dec Nat.eq_dec e (a ++ b)) as [Q3|Q3]; rewrite in_app_iff in Q3; rewrite ?orb_true_r, ?orb_false_r; tauto || reflexivity.
Qed.
Lemma marked_ext : forall u v a b, (forall e, In e a <-> In e b) -> marked u v a -> marked u v b.
Proof.
  intros u v a b H (L1 & H1). split; [exact L1|]. intros e x N. rewrite (H1 e x N). do 2 f_equal. specialize (H e). destruct (in_dec Nat.eq_dec e a), (in_dec Nat.eq_dec e b); tauto || reflexivity.
Qed.
Lemma collect_edge : forall u e, (e < length u)%nat -> exists u', collect (PEdge e) u = Some u' /\ marked u u' [e].
Proof.
  intros u e L. cbn [collect]. destruct (upd_total _ u e (fun _ => true) L) as (u' & U). exists u'. split; [exact U|]. split; [apply (upd_length _ _ _ _ _ U)|].
  intros k b N. rewrite (upd_nth _ _ _ _ _ k U). destruct (Nat.eqb_spec e k) as [<-|NE].
  - rewrite N. destruct (in_dec Nat.eq_dec e [e]) as [_|NI]; [cbn; rewrite orb_true_r; reflexivity|destruct NI; left; reflexivity].
  - rewrite N. destruct (in_dec Nat.eq_dec k [e]) as [[X|[]]|_]; [congruence|rewrite orb_false_r; reflexivity].
Qed.
Lemma collect_fold : forall ts l es u, (forall t u, In t ts -> length u = length (edges g) -> exists u', collect (lp (tl t)) u = Some u' /\ marked u u' (tree_edges t)) ->
  (forall u, length u = length (edges g) -> exists u', collect (lp l) u = Some u' /\ marked u u' es) -> length u = length (edges g) ->
  exists u', collect (lp (fold_left (fun a s => add_line a (tl s)) ts l)) u = Some u' /\ marked u u' (es ++ flat_map tree_edges ts).
Proof.
  induction ts as [|t ts IH]; intros l es u H HL LU; cbn [fold_left flat_map]; [rewrite app_nil_r; apply HL, LU|].
  rewrite app_assoc. apply IH; [intros s v IS; apply H; right; exact IS| |exact LU]. intros v LV. cbn [add_line lp collect]. destruct (HL v LV) as (v1 & C1 & M1). rewrite C1.
  destruct (H t v1 (or_introl eq_refl)) as (v2 & C2 & M2); [rewrite (proj1 M1); exact LV|]. exists v2. split; [exact C2|apply (marked_trans _ _ _ _ _ M1 M2)].
Qed.
Lemma collect_tree : forall t n u, derives g n t -> length u = length (edges g) -> exists u', collect (lp (tl t)) u = Some u' /\ marked u u' (tree_edges t).
Proof.
  induction t as [e ts IH] using tree_ind'. intros n u D LU. inversion D as [? nd ? ed ? N IE NE F]; subst. cbn [tline].
  destruct (collect_fold ts (ed_line g dir ori e) [e] u) as (u' & C & M).
  - intros t v IT LV. rewrite Forall_forall in IH. pose proof IT as IT'. apply In_nth_error in IT. destruct IT as (i & NI).
    assert (X : exists m, derives g m t). { clear - F NI. revert i NI. induction F as [|a d ts ds H F IH]; intros [|i] NI; cbn in NI; try discriminate; [injection NI as <-; eauto|apply (IH i NI)]. }
    destruct X as (m & DM). apply (IH t IT' m v DM LV).
  - intros v LV. apply collect_edge. rewrite LV. apply nth_error_Some. congruence.
  - exact LU.
  - exists u'. split; [exact C|]. refine (marked_ext _ _ _ _ _ M). intros k. cbn [tree_edges]. rewrite !in_app_iff. tauto.
Qed.
End R.

Theorem inside_envelope : forall (P Y : Type) (srt : list pt -> list pt) (g : hg P) (dir ori : edge P -> Q) (traverse : edge P -> list Y -> Y) (dflt : Y),
  sorts srt -> topo g -> ids_ok g ->
  exists sc, Inside zero (plus srt) (times srt) (edge_hull dir ori) g = Some sc /\ length sc = length (nodes g) /\
  forall n h, nth_error sc n = Some h ->
    (forall i p, nth_error (segs srt h) i = Some p -> exists t, derives g n t /\ pm p == tree_sum g dir t /\ pb p == tree_sum g ori t /\
       ConstructTranslation g traverse p = Some (tree_yield g traverse dflt t) /\
       (forall used, length used = length (edges g) -> exists used', CollectEdgesUsed p used = Some used' /\ marked used used' (tree_edges t)) /\
       forall x, covers (segs srt h) i p x -> forall t', derives g n t' -> score g dir ori t' x <= score g dir ori t x) /\
    (forall t x, derives g n t -> exists i p, covers (segs srt h) i p x) /\
    (forall p, nth_error (segs srt h) 0 = Some p -> px p = MInf) /\
    (forall i p p', nth_error (segs srt h) i = Some p -> nth_error (segs srt h) (i + 1) = Some p' -> ltx (px p) (px p') = true /\ ltx (px p') PInf = true).
Proof.
  intros P Y srt g dir ori traverse dflt SRT T IDS. destruct (inside_hulls srt SRT g dir ori T IDS) as (sc & R & LN & V). exists sc. split; [exact R|]. split; [exact LN|].
  intros n h N. assert (LT : (n < length (nodes g))%nat) by (rewrite <- LN; apply nth_error_Some; congruence). specialize (V n LT). rewrite (nth_error_nth _ _ _ N) in V. destruct V as (_ & EN).
  split; [|split; [|split]].
  - intros i p NP. destruct (env_lines _ _ EN p (nth_error_In _ _ NP)) as (l & (t & DT & ->) & SM & SB & SP). exists t. split; [exact DT|]. destruct (tline_sum g dir ori t) as (A & B).
    split; [rewrite SM; exact A|]. split; [rewrite SB; exact B|]. split; [|split].
    + unfold ConstructTranslation. rewrite SP. apply (translation_tree g dir ori traverse dflt t n DT).
    + intros used LU. unfold CollectEdgesUsed. rewrite SP. apply (collect_tree g dir ori traverse t n used DT LU).
    + intros x C t' DT'. pose proof (env_maximal _ _ EN i p x C (tline g dir ori t') (ex_intro _ t' (conj DT' eq_refl))) as M. rewrite tree_score in M. rewrite <- (tree_score g dir ori t).
      rewrite <- (pval_same p _ x (conj SM (conj SB SP))). exact M.
  - intros t x DT. apply (env_somewhere _ _ EN). exists (tline g dir ori t), t. auto.
  - exact (env_first _ _ EN).
  - intros i p p' N1 N2. destruct (env_increasing _ _ EN i p p' N1 N2) as (X1 & X2 & _). auto.
Qed.

(** * Points in a heap *)
Module HeapProofs.
Import HeapHull.
Definition vals (h : list pt) (ps : list ptr) (vs : list pt) : Prop := Forall2 (fun a p => nth_error h a = Some p) ps vs.
Lemma vals_deref : forall h ps vs, vals h ps vs -> deref h ps = Some vs.
Proof. intros h ps vs F. induction F as [|a p ps vs H F IH]; [reflexivity|]. unfold deref in *. cbn [fold_right]. rewrite H, IH. reflexivity. Qed.
Lemma vals_exist : forall h ps, (forall a, In a ps -> (a < length h)%nat) -> exists vs, vals h ps vs.
Proof.
  induction ps as [|a ps IH]; intros H; [exists []; constructor|]. destruct IH as (vs & F); [intros b B; apply H; right; exact B|].
  destruct (nth_error h a) as [p|] eqn:N; [|apply nth_error_None in N; specialize (H a (or_introl eq_refl)); lia]. exists (p :: vs). constructor; assumption.
Qed.
Lemma vals_nth : forall h ps vs i a, vals h ps vs -> nth_error ps i = Some a -> exists p, nth_error vs i = Some p /\ nth_error h a = Some p.
Proof. intros h ps vs i a F. revert i. induction F as [|b p ps vs H F IH]; intros [|i] N; cbn in *; try discriminate; [injection N as <-; eauto|apply (IH i N)]. Qed.
Lemma vals_nth' : forall h ps vs i p, vals h ps vs -> nth_error vs i = Some p -> exists a, nth_error ps i = Some a /\ nth_error h a = Some p.
Proof. intros h ps vs i a F. revert i. induction F as [|b p ps vs H F IH]; intros [|i] N; cbn in *; try discriminate; [injection N as <-; eauto|apply (IH i N)]. Qed.
Lemma vals_firstn : forall h ps vs i, vals h ps vs -> vals h (firstn i ps) (firstn i vs).
Proof. intros h ps vs i F. revert i. induction F as [|b p ps vs H F IH]; intros [|i]; cbn; constructor; [exact H|apply IH]. Qed.
Lemma vals_len : forall h ps vs, vals h ps vs -> length ps = length vs.
Proof. intros h ps vs F. induction F; cbn; congruence. Qed.
Lemma firstn_snoc : forall (A : Type) i (l : list A) x, nth_error l i = Some x -> firstn (S i) l = firstn i l ++ [x].
Proof. induction i as [|i IH]; intros [|y l] x N; cbn in *; try discriminate; [injection N as ->; reflexivity|]. f_equal. apply IH, N. Qed.
Lemma vals_last : forall h ps i st, vals h (firstn (S i) ps) (rev st) -> (S i <= length ps)%nat -> exists a p r, nth_error ps i = Some a /\ nth_error h a = Some p /\ st = p :: r /\ vals h (firstn i ps) (rev r).
Proof.
  intros h ps i st F L. destruct (nth_error ps i) as [a|] eqn:N; [|apply nth_error_None in N; lia]. rewrite (firstn_snoc _ _ _ _ N) in F.
  destruct st as [|p r]; [apply vals_len in F; rewrite app_length in F; cbn in F; lia|]. cbn [rev] in F. apply Forall2_app_inv_l in F. destruct F as (l1 & l2 & F1 & F2 & EQ).
  inversion F2 as [|? p' ? l2' H2 F2']; subst. inversion F2'; subst. apply app_inj_tail in EQ. destruct EQ as (E1 & E2). subst p' l1. exists a, p, r. auto.
Qed.
(** Where a new line goes. *)
Lemma find_j_ok : forall h ps l j st, (j <= length ps)%nat -> vals h (firstn j ps) (rev st) ->
  exists j' x st', find_j h ps l j = Some (j', x) /\ (j' <= j)%nat /\ pop_push l st = set_x x l :: st' /\ vals h (firstn j' ps) (rev st').
Proof.
  induction j as [|j IH]; intros st L F.
  - cbn in F. assert (st = []) as -> by (destruct st as [|p r]; [reflexivity|apply vals_len in F; rewrite rev_length in F; cbn in F; lia]). exists O, MInf, []. cbn. split; [reflexivity|]. split; [lia|]. split; [reflexivity|constructor].
  - destruct (vals_last h ps j st F L) as (a & p & r & NA & NP & -> & F'). cbn [find_j pop_push]. rewrite NA, NP. destruct (ltx (px p) (Fin (cross l p))) eqn:B.
    + exists (S j), (Fin (cross l p)), (p :: r). auto.
    + destruct (IH r) as (j' & x & st' & A1 & A2 & A3 & A4); [lia|exact F'|]. exists j', x, st'. split; [exact A1|]. split; [lia|]. auto.
Qed.
Lemma nth_error_NoDup : forall (ps : list nat) i j a b, NoDup ps -> nth_error ps i = Some a -> nth_error ps j = Some b -> i <> j -> a <> b.
Proof. intros ps i j a b ND A B NE ->. apply NE. apply (proj1 (NoDup_nth_error ps) ND); [apply nth_error_Some; congruence|congruence]. Qed.
Lemma vals_upd : forall h ps vs t f h', upd h t f = Some h' -> ~ In t ps -> vals h ps vs -> vals h' ps vs.
Proof.
  intros h ps vs t f h' U NI F. induction F as [|a p ps vs H F IH]; constructor; [|apply IH; intros X; apply NI; right; exact X].
  rewrite (upd_nth _ _ _ _ _ a U). destruct (Nat.eqb_spec t a) as [->|_]; [destruct NI; left; reflexivity|exact H].
Qed.
Lemma firstn_notin : forall (ps : list nat) j t, NoDup ps -> nth_error ps j = Some t -> ~ In t (firstn j ps).
Proof.
  intros ps j t ND N IN. apply In_nth_error in IN. destruct IN as (i & NI).
  assert (L : (i < j)%nat) by (assert (i < length (firstn j ps))%nat by (apply nth_error_Some; congruence); rewrite firstn_length in *; lia).
  assert (NI' : nth_error ps i = Some t).
  { clear - NI. revert i ps NI. induction j as [|j IH]; intros [|i] [|a ps] NI; cbn in *; try discriminate; [exact NI|apply IH, NI]. }
  apply (nth_error_NoDup ps i j t t ND NI' N); [lia|reflexivity].
Qed.
Definition frame (h h' : list pt) (ps : list ptr) : Prop := length h' = length h /\ forall a, ~ In a ps -> nth_error h' a = nth_error h a.
Lemma heap_step_ok : forall h ps i j st l a, distinct h ps -> (j <= i)%nat -> nth_error ps i = Some a -> nth_error h a = Some l -> vals h (firstn j ps) (rev st) ->
  exists h' j', heap_step h ps i j = Some (h', j') /\ (j' <= S i)%nat /\ vals h' (firstn j' ps) (rev (sort_step st l)) /\ frame h h' ps /\
    forall k b, (i < k)%nat -> nth_error ps k = Some b -> nth_error h' b = nth_error h b.
Proof.
  intros h ps i j st l a (ND & BD) JI NA NL F. assert (LI : (i < length ps)%nat) by (apply nth_error_Some; congruence).
  assert (W : forall j0 x st0 st1, (j0 <= i)%nat -> pop_push l st0 = set_x x l :: st1 -> vals h (firstn j0 ps) (rev st1) ->
    exists h' j', match nth_error ps j0 with Some t => match upd h t (fun _ => set_x x l) with Some h' => Some (h', S j0) | None => None end | None => None end = Some (h', j') /\ (j' <= S i)%nat /\
      vals h' (firstn j' ps) (rev (pop_push l st0)) /\ frame h h' ps /\ forall k b, (i < k)%nat -> nth_error ps k = Some b -> nth_error h' b = nth_error h b).
  { intros j0 x st0 st1 L0 EQ V. destruct (nth_error ps j0) as [t|] eqn:NT; [|apply nth_error_None in NT; lia].
    destruct (upd_total _ h t (fun _ => set_x x l) (BD t (nth_error_In _ _ NT))) as (h' & U). rewrite U. exists h', (S j0). split; [reflexivity|]. split; [lia|]. rewrite EQ. split; [|split].
    - rewrite (firstn_snoc _ _ _ _ NT). cbn [rev]. apply Forall2_app; [apply (vals_upd _ _ _ _ _ _ U); [apply (firstn_notin ps j0 t ND NT)|exact V]|]. constructor; [|constructor].
      rewrite (upd_nth _ _ _ _ _ t U), Nat.eqb_refl. destruct (nth_error h t) eqn:X; [reflexivity|]. apply nth_error_None in X. specialize (BD t (nth_error_In _ _ NT)). lia.
    - split; [apply (upd_length _ _ _ _ _ U)|]. intros b NB. rewrite (upd_nth _ _ _ _ _ b U). destruct (Nat.eqb_spec t b) as [->|_]; [destruct NB; apply (nth_error_In _ _ NT)|reflexivity].
    - intros k b KI NB. rewrite (upd_nth _ _ _ _ _ b U). destruct (Nat.eqb_spec t b) as [->|_]; [|reflexivity]. destruct (nth_error_NoDup ps j0 k b b ND NT NB); [lia|reflexivity]. }
  unfold heap_step. rewrite NA, NL. destruct j as [|k].
  - assert (st = []) as -> by (destruct st as [|p r]; [reflexivity|apply vals_len in F; rewrite rev_length in F; cbn in F; lia]).
    apply (W O MInf [] []); [lia|reflexivity|constructor].
  - destruct (vals_last h ps k st F ltac:(lia)) as (c & p & r & NC & NP & -> & F'). rewrite NC, NP. cbn [sort_step]. destruct (Qeq_bool (pm p) (pm l)).
    + destruct (Qle_bool (pb l) (pb p)).
      * exists h, (S k). split; [reflexivity|]. split; [lia|]. split; [exact F|]. split; [split; [reflexivity|auto]|auto].
      * destruct (find_j_ok h ps l k r) as (j' & x & st' & A1 & A2 & A3 & A4); [lia|exact F'|]. rewrite A1. apply (W j' x r st'); [lia|exact A3|exact A4].
    + destruct (find_j_ok h ps l (S k) (p :: r)) as (j' & x & st' & A1 & A2 & A3 & A4); [lia|exact F|]. rewrite A1. apply (W j' x (p :: r) st'); [lia|exact A3|exact A4].
Qed.
Lemma frame_trans : forall h1 h2 h3 ps, frame h1 h2 ps -> frame h2 h3 ps -> frame h1 h3 ps.
Proof. intros h1 h2 h3 ps (A & B) (C & D). split; [congruence|]. intros a NA. rewrite D, B by exact NA. reflexivity. Qed.
Lemma heap_loop_ok : forall n h ps i j st vs, distinct h ps -> (j <= i)%nat -> (i + n = length ps)%nat -> vals h (firstn j ps) (rev st) -> vals h (skipn i ps) vs ->
  exists h' j', heap_loop h ps i n j = Some (h', j') /\ vals h' (firstn j' ps) (rev (fold_left sort_step vs st)) /\ frame h h' ps.
Proof.
  induction n as [|n IH]; intros h ps i j st vs DI JI LN F R; cbn [heap_loop].
  - rewrite skipn_all2 in R by lia. inversion R; subst. exists h, j. split; [reflexivity|]. split; [exact F|]. split; [reflexivity|auto].
  - destruct (nth_error ps i) as [a|] eqn:NA; [|apply nth_error_None in NA; lia].
    assert (SK : skipn i ps = a :: skipn (S i) ps). { clear - NA. revert ps NA. induction i as [|i IH]; intros [|b ps] NA; cbn in *; try discriminate; [injection NA as ->; reflexivity|apply IH, NA]. }
    rewrite SK in R. inversion R as [|? l ? vs' NL R']; subst.
    destruct (heap_step_ok h ps i j st l a DI JI NA NL F) as (h1 & j1 & S1 & L1 & V1 & F1 & K1). rewrite S1.
    destruct (IH h1 ps (S i) j1 (sort_step st l) vs') as (h2 & j2 & S2 & V2 & F2).
    + split; [apply DI|]. intros b B. rewrite (proj1 F1). apply DI, B.
    + exact L1.
    + lia.
    + exact V1.
    + assert (G : forall q ws, vals h q ws -> (forall b, In b q -> nth_error h1 b = nth_error h b) -> vals h1 q ws).
      { intros q ws V G. induction V as [|b p0 q ws H V IHV]; constructor; [rewrite G; [exact H|left; reflexivity]|apply IHV; intros c C; apply G; right; exact C]. }
      apply G; [exact R'|]. intros b B. apply In_nth_error in B. destruct B as (k & NK). apply (K1 (S i + k)%nat); [lia|]. 
      rewrite <- NK. clear. revert ps. generalize (S i) as m. induction m as [|m IHm]; intros [|c ps]; cbn; try reflexivity; [destruct k; reflexivity|apply IHm].
    + exists h2, j2. split; [exact S2|]. split; [exact V2|apply (frame_trans _ _ _ _ F1 F2)].
Qed.
Theorem heap_sort_ok : forall psort h c, psorts psort -> distinct h (h_points c) ->
  exists h' c' vs ws, heap_Sort psort h c = Some (h', c') /\ h_sorted c' = true /\ deref h (h_points c) = Some vs /\ deref h' (h_points c') = Some ws /\
    is_env ws (fun l => exists p, In p vs /\ l = line_of p) /\ distinct h' (h_points c') /\ incl (h_points c') (h_points c) /\
    length h' = length h /\ forall a, ~ In a (h_points c) -> nth_error h' a = nth_error h a.
Proof.
  intros psort h c PS (ND & BD). destruct (PS h (h_points c)) as (PM & SO). set (ps := psort h (h_points c)) in *.
  assert (DI : distinct h ps) by (split; [apply (Permutation_NoDup (Permutation_sym PM) ND)|intros a A; apply BD, (Permutation_in _ PM A)]).
  destruct (vals_exist h (h_points c) BD) as (vs & V). destruct (vals_exist h ps (proj2 DI)) as (us & U).
  destruct (heap_loop_ok (length ps) h ps 0 0 [] us DI (le_n 0) eq_refl (Forall2_nil _) U) as (h' & j & R & W & FR).
  exists h', {| h_sorted := true; h_points := firstn j ps |}, vs, (rev (fold_left sort_step us [])). unfold heap_Sort. fold ps. rewrite R. split; [reflexivity|]. split; [reflexivity|].
  split; [apply vals_deref, V|]. split; [apply vals_deref, W|]. 
  assert (IN : forall p, In p us <-> In p vs).
  { assert (G : forall q xs q' xs', vals h q xs -> vals h q' xs' -> (forall a, In a q -> In a q') -> forall p, In p xs -> In p xs').
    { intros q xs q' xs' VQ VQ' SB p IP. apply In_nth_error in IP. destruct IP as (i & NI). destruct (vals_nth' _ _ _ _ _ VQ NI) as (a & NA & HA). specialize (SB a (nth_error_In _ _ NA)). apply In_nth_error in SB. destruct SB as (k & NK).
      destruct (vals_nth _ _ _ _ _ VQ' NK) as (p' & NP' & HA'). rewrite HA in HA'. injection HA' as <-. apply (nth_error_In _ _ NP'). }
    intros p. split; [apply (G ps us (h_points c) vs U V); intros a A; apply (Permutation_in _ PM A)|apply (G (h_points c) vs ps us V U); intros a A; apply (Permutation_in _ (Permutation_sym PM) A)]. }
  split; [|split; [|split; [|split]]].
  - destruct (sort_loop_E us (fun l => exists p, In p vs /\ l = line_of p)) as (A & B & C & _).
    + intros i k p q LT NP NQ. destruct (vals_nth' _ _ _ _ _ U NP) as (a & NA & HA). destruct (vals_nth' _ _ _ _ _ U NQ) as (b & NB & HB). apply (SO i k a b p q LT NA NB HA HB).
    + intros p IP. exists (line_of p). split; [exists p; split; [apply IN, IP|reflexivity]|apply same_line_of].
    + intros l x (p & IP & ->). exists p. split; [apply IN, IP|]. unfold val, pval, line_of; cbn. lra.
    + apply E_env; assumption.
  - cbn. assert (IC : forall a, In a (firstn j ps) -> In a ps) by (intros a A; rewrite <- (firstn_skipn j ps); apply in_app_iff; left; exact A). split.
    + destruct DI as (ND' & _). clear - ND'. rewrite <- (firstn_skipn j ps) in ND'. induction (firstn j ps) as [|a l IH]; [constructor|]. inversion ND'; subst. constructor; [|apply IH; assumption]. intros X. apply H1. apply in_app_iff. left. exact X.
    + intros a A. rewrite (proj1 FR). apply DI, IC, A.
  - cbn. intros a A. apply (Permutation_in _ PM). rewrite <- (firstn_skipn j ps). apply in_app_iff. left. exact A.
  - apply FR.
  - intros a NA. apply FR. intros X. apply NA, (Permutation_in _ PM X).
Qed.
End HeapProofs.

(** * Copies share their points *)
Section Alias.
Import HeapHull.
Definition A_h : list pt := [{| px := MInf; pm := 0; pb := 0; pp := PEdge 0 |}; {| px := MInf; pm := 1; pb := 1; pp := PEdge 1 |}].
Definition A_a : hhull := {| h_sorted := true; h_points := [0%nat] |}.
Definition A_b : hhull := {| h_sorted := true; h_points := [1%nat] |}.
Lemma single_env : forall p, px p = MInf -> is_env [p] (fun l => exists q, In q [p] /\ l = line_of q).
Proof.
  intros p H. apply E_env; [|intros q Q; cbn in Q; injection Q as <-; exact H|discriminate]. cbn [E]. split; [exists (line_of p); split; [exists p; split; [left|]; reflexivity|apply same_line_of]|]. split; [rewrite H; reflexivity|]. split; [exact I|]. split; [|exact I].
  intros x _ _ l (q & [<-|[]] & ->). unfold val, pval, line_of; cbn. lra.
Qed.
Theorem sum_aliases : forall psort, psorts psort -> exists h a b wb h1 c o h2 c2 wb',
  deref h (h_points a) <> None /\ deref h (h_points b) = Some wb /\ is_env wb (fun l => exists p, In p wb /\ l = line_of p) /\
  heap_plus psort h a b = Some (h1, c, o) /\ o = b /\ deref h1 (h_points b) = Some wb /\
  heap_segs psort h1 c = Some (h2, c2) /\ deref h2 (h_points b) = Some wb' /\ ~ is_env wb' (fun l => exists p, In p wb /\ l = line_of p).
Proof.
  intros psort PS. destruct (PS A_h [0%nat; 1%nat]) as (PM & SO). apply Permutation_sym in PM. apply Permutation_length_2_inv in PM.
  assert (EQ : psort A_h [0%nat; 1%nat] = [0%nat; 1%nat]).
  { destruct PM as [PM|PM]; [exact PM|]. rewrite PM in SO. specialize (SO 0%nat 1%nat 1%nat 0%nat _ _ (le_n 1) eq_refl eq_refl eq_refl eq_refl). cbn in SO. lra. }
  exists A_h, A_a, A_b, [{| px := MInf; pm := 1; pb := 1; pp := PEdge 1 |}], A_h, {| h_sorted := false; h_points := [0%nat; 1%nat] |}, A_b,
    [{| px := MInf; pm := 0; pb := 0; pp := PEdge 0 |}; {| px := Fin (-1 # 1); pm := 1; pb := 1; pp := PEdge 1 |}], {| h_sorted := true; h_points := [0%nat; 1%nat] |}, [{| px := Fin (-1 # 1); pm := 1; pb := 1; pp := PEdge 1 |}].
  split; [discriminate|]. split; [reflexivity|]. split; [apply single_env; reflexivity|]. split; [reflexivity|]. split; [reflexivity|]. split; [reflexivity|]. split.
  - unfold heap_segs. cbn [h_sorted]. unfold heap_Sort. cbn [h_points]. rewrite EQ. reflexivity.
  - split; [reflexivity|]. intros H. pose proof (env_first _ _ H _ eq_refl) as X. discriminate.
Qed.
End Alias.
Lemma one_not_envelope : forall srt, ~ is_env (segs srt (one true)) (fun l => l = {| lm := 0; lb := 0; lp := PNone |}).
Proof. intros srt H. pose proof (env_first _ _ H _ eq_refl) as X. discriminate. Qed.
