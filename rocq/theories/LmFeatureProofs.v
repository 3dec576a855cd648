(** The language model feature of a derivation. *)
From Coq Require Import List ZArith Bool Lia Permutation.
Import ListNotations.
From Verif Require Import Opt Lm LmSpec LmProofs LmChartProofs.
Open Scope Z_scope.

Section D.
Variable P : deriv -> Prop.
Hypothesis step : forall e subs, Forall P subs -> P (Apply e subs).
Fixpoint deriv_ind' (d : deriv) : P d :=
  match d with
  | Apply e subs => step e subs ((fix go (l : list deriv) : Forall P l :=
      match l with [] => Forall_nil P | x :: l' => Forall_cons x (deriv_ind' x) (go l') end) subs)
  end.
End D.

Section P.
Variable m : search.
Hypothesis WB : well_built m.
Notation entry := (entry m).
Notation logprob := (logprob m).
Notation seq_score := (seq_score m).
Notation N := (order m).
Notation BL := (BL m).
Notation E := (E m).
Notation J := (J m).
Notation JC := (JC m).
Notation stands := (stands m).

Lemma BL_map h : forall g, map (fun i => bow m (g ++ firstn i h)) (seq 1 (length h)) = BL g h.
Proof.
  induction h as [|x h IH]; intros g; [reflexivity|]. cbn [length seq map LmProofs.BL firstn]. f_equal. rewrite <- IH, <- seq_shift, map_map.
  apply map_ext. intros i. cbn [firstn]. rewrite <- app_assoc. reflexivity.
Qed.
Lemma drop_E h : drop_history m h = E [] h.
Proof. unfold drop_history, LmProofs.E. f_equal. rewrite <- BL_map. reflexivity. Qed.

Lemma J_ext L s x SC H SC' H' : J L s x SC H -> (forall h, SC h = SC' h) -> (forall h, H h = H' h) -> J L s x SC' H'.
Proof.
  intros (H1 & H2 & V & H3 & H4) ES EH. split; [exact H1|]. split; [exact H2|]. exists V. split; [exact H3|].
  destruct (left_done s).
  - intros h. destruct (H4 h) as (pend & S1 & S2). exists pend. rewrite <- ES, <- EH. auto.
  - destruct H4 as (A1 & A2 & A3 & A4). sp; auto; intros h; rewrite <- ?ES, <- ?EH; auto.
Qed.
Lemma JC_ext L c p SC H SC' H' : JC L c p SC H -> (forall h, SC h = SC' h) -> (forall h, H h = H' h) -> JC L c p SC' H'.
Proof.
  intros (H1 & H2 & V & H3 & H4) ES EH. split; [exact H1|]. split; [exact H2|]. exists V. split; [exact H3|].
  destruct (full c).
  - intros h. destruct (H4 h) as (pend & S1 & S2). exists pend. rewrite <- ES, <- EH. auto.
  - destruct H4 as (A1 & A2 & A3 & A4). sp; auto; intros h; rewrite <- ?ES, <- ?EH; auto.
Qed.

Variable f : feature.
Variable eosw : Z.
Hypothesis LD : loaded f eosw.
Notation lmw := (lm_word f).
Notation toks := (toks f).
Notation tscore := (tscore m f).
Notation thist := (thist f).

Lemma tscore_app a : forall h b, tscore h (a ++ b) = tscore h a + tscore (thist h a) b.
Proof. induction a as [|[|w] a IH]; intros h b; cbn [app LmSpec.tscore LmSpec.thist]; [lia| |]; rewrite IH; lia. Qed.
Lemma thist_app a : forall h b, thist h (a ++ b) = thist (thist h a) b.
Proof. induction a as [|[|w] a IH]; intros h b; cbn [app LmSpec.thist]; auto. Qed.

Definition isS (t : tok) : bool := match t with TSOS => true | _ => false end.
Definition isE (t : tok) : bool := match t with TW w => Nat.eqb w (kEOS f) | _ => false end.
Definition hasS (ts : list tok) : bool := existsb isS ts.
Definition hasE (ts : list tok) : bool := existsb isE ts.
Definition b2z (b : bool) : Z := if b then 1 else 0.

Lemma hasS_app a b : hasS (a ++ b) = hasS a || hasS b. Proof. apply existsb_app. Qed.
Lemma hasE_app a b : hasE (a ++ b) = hasE a || hasE b. Proof. apply existsb_app. Qed.

(** <s> only at the front, </s> only at the end *)
Definition ok_toks (ts : list tok) : Prop :=
  (forall a b, ts = a ++ TSOS :: b -> a = []) /\ (forall a b, ts = a ++ TW (kEOS f) :: b -> b = []).

Lemma hasS_split ts : hasS ts = true -> exists a b, ts = a ++ TSOS :: b.
Proof. intros H. apply existsb_exists in H. destruct H as ([|w] & H1 & H2); [|discriminate]. apply in_split in H1. exact H1. Qed.
Lemma hasE_split ts : hasE ts = true -> exists a b, ts = a ++ TW (kEOS f) :: b.
Proof. intros H. apply existsb_exists in H. destruct H as ([|w] & H1 & H2); [discriminate|]. apply Nat.eqb_eq in H2. subst. apply in_split in H1. exact H1. Qed.
Lemma hasS_in a b : hasS (a ++ TSOS :: b) = true.
Proof. rewrite hasS_app. cbn. apply orb_true_r. Qed.
Lemma hasE_in a b : hasE (a ++ TW (kEOS f) :: b) = true.
Proof. rewrite hasE_app. cbn. rewrite Nat.eqb_refl. apply orb_true_r. Qed.

Lemma ok_app_intro a b : ok_toks a -> ok_toks b -> (hasS b = true -> a = []) -> (hasE a = true -> b = []) -> ok_toks (a ++ b).
Proof.
  intros (A1 & A2) (B1 & B2) HS HE. split; intros l r Hlr.
  - destruct b as [|t b]. { rewrite app_nil_r in Hlr. eapply A1. exact Hlr. }
    apply app_eq_app in Hlr. destruct Hlr as (x & [(-> & Hr)|(-> & Hr)]).
    + destruct x as [|y x]. { cbn in Hr. rewrite app_nil_r in *. apply HS. rewrite <- Hr. reflexivity. }
      cbn in Hr. injection Hr as <- Hr. eapply A1. reflexivity.
    + assert (a = []) as -> by (apply HS; rewrite Hr; apply hasS_in). cbn. eapply B1. exact Hr.
  - apply app_eq_app in Hlr. destruct Hlr as (x & [(-> & Hr)|(-> & Hr)]).
    + destruct x as [|y x].
      { cbn in Hr. eapply (B2 []). symmetry. exact Hr. }
      cbn in Hr. injection Hr as <- ->. assert (b = []) as -> by (apply HE; apply hasE_in). rewrite app_nil_r. eapply A2. reflexivity.
    + eapply B2. exact Hr.
Qed.
Lemma ok_app_elim a b : ok_toks (a ++ b) -> ok_toks a /\ ok_toks b /\ (hasS b = true -> a = []) /\ (hasE a = true -> b = []).
Proof.
  intros (H1 & H2). sp.
  - split; intros l r ->.
    + eapply H1. rewrite <- app_assoc. reflexivity.
    + assert (Q : r ++ b = []) by (eapply H2; rewrite <- app_assoc; reflexivity). apply app_eq_nil in Q. tauto.
  - split; intros l r ->.
    + assert (Q : a ++ l = []) by (eapply H1; rewrite app_assoc; reflexivity). apply app_eq_nil in Q. tauto.
    + eapply H2. rewrite app_assoc. reflexivity.
  - intros H. apply hasS_split in H. destruct H as (l & r & ->). assert (Q : a ++ l = []) by (eapply H1; rewrite app_assoc; reflexivity). apply app_eq_nil in Q. tauto.
  - intros H. apply hasE_split in H. destruct H as (l & r & ->). assert (Q : r ++ b = []) by (eapply H2; rewrite <- app_assoc; reflexivity). apply app_eq_nil in Q. tauto.
Qed.
Lemma ok_nil : ok_toks []. Proof. split; intros [|] ? H; discriminate. Qed.
Lemma ok_one t : ok_toks [t].
Proof. split; intros [|y [|]] b H; try discriminate; try reflexivity; injection H; auto. Qed.

(** what is known about a scored constituent *)
Definition good (d : deriv) (p : Z) (a : annotated) (k : Z) : Prop :=
  exists L, JC L (a_state a) (p + hundred * k) (fun h => tscore h (toks d)) (fun h => thist h (toks d))
  /\ seen_bos a = hasS (toks d) /\ seen_eos a = hasE (toks d) /\ 0 <= k
  /\ (k = 0 -> ok_toks (toks d))
  /\ (nonempty d -> ok_toks (toks d) -> k = 0)
  /\ (hasS (toks d) = false -> hasE (toks d) = false -> k = 0)
  /\ (k = 0 -> hasS (toks d) = true -> L = [] /\ full (a_state a) = true).

Section Rule0.
Variable subs : list deriv.

Definition idx (x : Z) : nat := Z.to_nat (- x).
Definition nts (e : list Z) : list nat := map idx (filter (fun x => x <=? 0) e).
Definition item (x : Z) : list tok := if x <=? 0 then nth (idx x) (map toks subs) [] else [TW (lmw x)].
Definition psum (l : list Z) (is : list nat) : Z := zsum (map (fun i => nth i l 0) is).
Definition oovs (e : list Z) : Z := count_oov f (filter (fun x => negb (x <=? 0)) e).
Definition emits (e : list Z) : Z := sum_emission f (filter (fun x => negb (x <=? 0)) e).

(** penalties of the rule itself *)
Fixpoint pens (T : list tok) (e : list Z) : Z :=
  match e with
  | [] => 0
  | x :: e' => (if x <=? 0 then b2z (hasS (item x)) else 0) + b2z (hasE T) + pens (T ++ item x) e'
  end.

Lemma psum_cons l i is : psum l ([i] ++ is) = nth i l 0 + psum l is.
Proof. reflexivity. Qed.
Lemma nts_cons x e : nts (x :: e) = (if x <=? 0 then [idx x] else []) ++ nts e.
Proof. unfold nts. cbn [filter]. destruct (x <=? 0); reflexivity. Qed.

Lemma pens_nonneg e : forall T, 0 <= pens T e.
Proof. induction e as [|x e IH]; intros T; cbn [pens]; [lia|]. specialize (IH (T ++ item x)). unfold b2z. destruct (x <=? 0), (hasS (item x)), (hasE T); lia. Qed.

Lemma pens_ok e : forall T, ok_toks T -> (forall x, In x e -> ok_toks (item x)) -> pens T e = 0 -> ok_toks (T ++ flat_map item e).
Proof.
  induction e as [|x e IH]; intros T HT Hok HP; cbn [pens flat_map] in *; [rewrite app_nil_r; exact HT|].
  pose proof (pens_nonneg e (T ++ item x)). rewrite app_assoc. assert (hasE T = false /\ ((x <=? 0) = true -> hasS (item x) = false) /\ pens (T ++ item x) e = 0) as (E1 & E2 & E3).
  { unfold b2z in HP. destruct (x <=? 0), (hasS (item x)), (hasE T); repeat split; try lia; auto; intros; discriminate. }
  apply IH; [|intros z Hz; apply Hok; right; exact Hz|exact E3].
  apply ok_app_intro; [exact HT|apply Hok; left; reflexivity| |congruence].
  intros Hs. destruct (x <=? 0) eqn:Hx; [rewrite E2 in Hs by reflexivity; discriminate|]. unfold item in Hs. rewrite Hx in Hs. discriminate.
Qed.

Lemma pens_zero e : forall T, T <> [] -> (forall x, In x e -> item x <> []) -> ok_toks (T ++ flat_map item e) -> pens T e = 0.
Proof.
  induction e as [|x e IH]; intros T HT Hne Hok; cbn [pens flat_map] in *; [reflexivity|].
  assert (Hx : item x <> []) by (apply Hne; left; reflexivity).
  rewrite (IH (T ++ item x)); [|destruct T; [destruct (HT eq_refl)|discriminate]|intros z Hz; apply Hne; right; exact Hz|rewrite <- app_assoc; exact Hok].
  rewrite app_assoc in Hok. apply ok_app_elim in Hok. destruct Hok as (Hok & _). apply ok_app_elim in Hok. destruct Hok as (_ & _ & K1 & K2).
  unfold b2z. destruct (hasE T); [destruct (Hx (K2 eq_refl))|]. destruct (hasS (item x)); [destruct (HT (K1 eq_refl))|]. destruct (x <=? 0); reflexivity.
Qed.

Lemma pens_plain e : forall T, hasS (T ++ flat_map item e) = false -> hasE (T ++ flat_map item e) = false -> pens T e = 0.
Proof.
  induction e as [|x e IH]; intros T HS HE; cbn [pens flat_map] in *; [reflexivity|]. rewrite app_assoc in HS, HE. rewrite (IH _ HS HE).
  rewrite hasS_app in HS. apply orb_false_elim in HS. rewrite hasS_app in HS. destruct HS as (HS & _). apply orb_false_elim in HS.
  rewrite hasE_app in HE. apply orb_false_elim in HE. rewrite hasE_app in HE. destruct HE as (HE & _). apply orb_false_elim in HE.
  destruct HS as (_ & ->), HE as (-> & _). destruct (x <=? 0); reflexivity.
Qed.

Lemma pens_S e : forall T, pens T e = 0 -> hasS (flat_map item e) = false.
Proof.
  induction e as [|x e IH]; intros T H; cbn [pens flat_map] in *; [reflexivity|]. pose proof (pens_nonneg e (T ++ item x)) as PN. rewrite hasS_app.
  rewrite (IH (T ++ item x)); [|unfold b2z in H; destruct (x <=? 0), (hasS (item x)), (hasE T); lia]. rewrite orb_false_r.
  destruct (x <=? 0) eqn:Hx; [|unfold item; rewrite Hx; reflexivity]. unfold b2z in H. destruct (hasS (item x)), (hasE T); auto; lia.
Qed.

End Rule0.

Section Rule.
Variables (subs : list deriv) (ants : list annotated) (ps ks : list Z).
Hypothesis La : length ants = length subs.
Hypothesis Lp : length ps = length subs.
Hypothesis Lk : length ks = length subs.
Hypothesis Good : forall i d p a k, nth_error subs i = Some d -> nth_error ps i = Some p -> nth_error ants i = Some a -> nth_error ks i = Some k -> good d p a k.

Notation item := (item subs).
Notation pens := (pens subs).

Lemma get_sub x : (idx x < length subs)%nat -> exists d p a k, nth_error subs (idx x) = Some d /\ nth_error ps (idx x) = Some p /\ nth_error ants (idx x) = Some a /\ nth_error ks (idx x) = Some k /\ nth (idx x) (map toks subs) [] = toks d /\ nth (idx x) ps 0 = p /\ nth (idx x) ks 0 = k.
Proof.
  intros H. destruct (nth_error subs (idx x)) as [d|] eqn:E1; [|apply nth_error_None in E1; lia].
  destruct (nth_error ps (idx x)) as [p|] eqn:E2; [|apply nth_error_None in E2; lia].
  destruct (nth_error ants (idx x)) as [a|] eqn:E3; [|apply nth_error_None in E3; lia].
  destruct (nth_error ks (idx x)) as [k|] eqn:E4; [|apply nth_error_None in E4; lia].
  exists d, p, a, k. sp; auto.
  - apply nth_error_nth. rewrite nth_error_map, E1. reflexivity.
  - apply nth_error_nth. exact E2.
  - apply nth_error_nth. exact E4.
Qed.

Lemma loop_good e : forall T L b x oo em,
  J L (b_back b) x (fun h => tscore h T) (fun h => thist h T) -> b_bos b = hasS T -> b_eos b = hasE T ->
  Forall (fun i => (i < length subs)%nat) (nts e) ->
  exists b' L', lookup_loop m f e ants b oo em = Some (b', oo + oovs e, em + emits e)
  /\ J L' (b_back b') (x + psum ps (nts e) + hundred * psum ks (nts e)) (fun h => tscore h (T ++ flat_map item e)) (fun h => thist h (T ++ flat_map item e))
  /\ b_bos b' = hasS (T ++ flat_map item e) /\ b_eos b' = hasE (T ++ flat_map item e) /\ b_pen b' = b_pen b + pens T e
  /\ (left_done (b_back b) = true -> left_done (b_back b') = true /\ L' = L).
Proof.
  induction e as [|y e IH]; intros T L b x oo em HJ HB HE HN.
  - exists b, L. cbn [flat_map lookup_loop]. rewrite app_nil_r. unfold oovs, emits, count_oov, sum_emission, nts, psum. cbn [filter map length zsum fold_right pens].
    sp; auto; try lia. { f_equal. f_equal; [f_equal|]; lia. } replace (x + 0 + hundred * 0) with x by lia. exact HJ.
  - cbn [lookup_loop flat_map pens]. rewrite nts_cons in *. apply Forall_app in HN. destruct HN as (HN1 & HN2).
    assert (IY : item y = if y <=? 0 then nth (idx y) (map toks subs) [] else [TW (lmw y)]) by reflexivity. rewrite !IY. destruct (y <=? 0) eqn:Hy.
    + assert (Hi : (idx y < length subs)%nat) by (inversion HN1; assumption).
      destruct (get_sub y Hi) as (d & p & a & k & G1 & G2 & G3 & G4 & G5 & G6 & G7).
      unfold antecedent. fold (idx y). rewrite G3. cbn [bind].
      destruct (Good _ _ _ _ _ G1 G2 G3 G4) as (Ld & A1 & A2 & A3 & A4 & A5 & A6 & A7 & A8).
      destruct (nonterminal_J m WB _ _ _ _ _ _ _ _ _ _ HJ A1) as (L' & s' & N1 & N2 & N3).
      unfold BNonTerminal. rewrite N1. cbn [bind]. rewrite G5.
      set (b1 := Bnd s' _ _ _).
      destruct (IH (T ++ toks d) L' b1 (x + (p + hundred * k)) oo em) as (b' & L2 & I1 & I2 & I3 & I4 & I5 & I6); auto.
      * eapply J_ext; [exact N2| |]; intros h; cbn beta; [rewrite tscore_app|rewrite thist_app]; reflexivity.
      * cbn [b_bos b1]. rewrite hasS_app, HB, A2. reflexivity.
      * cbn [b_eos b1]. rewrite hasE_app, HE, A3. reflexivity.
      * exists b', L2. rewrite I1. unfold oovs, emits. cbn [filter]. rewrite Hy. cbn [negb].
        rewrite app_assoc. sp; auto.
        -- match goal with |- J _ _ ?u _ _ => replace u with (x + (p + hundred * k) + psum ps (nts e) + hundred * psum ks (nts e)) end; [exact I2|].
           rewrite !psum_cons, G6, G7. lia.
        -- rewrite I5. cbn [b_pen b1]. rewrite A2, HE. unfold b2z. destruct (hasS (toks d)), (hasE T); lia.
        -- intros Hd. destruct (N3 Hd) as (N4 & N5). destruct (I6 N4) as (I7 & I8). split; [exact I7|congruence].
    + destruct (ClassifyWordIfNecessary f y) as (cls, ep) eqn:Hc.
      assert (Hw : MapWord f cls = lmw y) by (unfold lm_word; rewrite Hc; reflexivity).
      assert (He : emission f y = ep) by (unfold emission; rewrite Hc; reflexivity).
      destruct (terminal_J m WB _ _ _ _ _ (lmw y) HJ) as (L' & s' & N1 & N2 & N3).
      unfold BTerminal. rewrite Hw, N1. cbn [bind]. set (b1 := Bnd s' _ _ _).
      destruct (IH (T ++ [TW (lmw y)]) L' b1 x (if Nat.eqb (lmw y) 0 then oo + 1 else oo) (em + ep)) as (b' & L2 & I1 & I2 & I3 & I4 & I5 & I6); auto.
      * eapply J_ext; [exact N2| |]; intros h; cbn beta; [rewrite tscore_app; cbn [LmSpec.tscore]; lia|rewrite thist_app; reflexivity].
      * cbn [b_bos b1]. rewrite hasS_app, HB. cbn. rewrite orb_false_r. reflexivity.
      * cbn [b_eos b1]. rewrite hasE_app, HE. cbn. rewrite orb_false_r. reflexivity.
      * exists b', L2. rewrite I1. unfold oovs, emits. cbn [filter]. rewrite Hy. cbn [negb].
        rewrite app_assoc. sp; auto.
        -- unfold count_oov, sum_emission. cbn [filter map zsum fold_right]. rewrite He. f_equal. f_equal; [f_equal|unfold zsum; lia].
           destruct (Nat.eqb (lmw y) 0); [|lia]. cbn [length]. rewrite Nat2Z.inj_succ. lia.
        -- rewrite I5. cbn [b_pen b1]. rewrite HE. unfold b2z. destruct (hasE T); lia.
        -- intros Hd. destruct (N3 Hd) as (N4 & N5 & _). destruct (I6 N4) as (I7 & I8). split; [exact I7|congruence].
Qed.

End Rule.

Lemma zsum_perm a b : Permutation a b -> zsum a = zsum b.
Proof. unfold zsum. induction 1; cbn; lia. Qed.

Lemma psum_all l e n : Permutation (nts e) (seq 0 n) -> length l = n -> psum l (nts e) = zsum l.
Proof.
  intros HP <-. unfold psum. rewrite (zsum_perm _ _ (Permutation_map _ HP)). f_equal. clear. induction l as [|x l IH]; [reflexivity|].
  cbn [length seq map nth]. f_equal. rewrite <- seq_shift, map_map. exact IH.
Qed.

Lemma zsum_ge0 l : (forall x, In x l -> 0 <= x) -> 0 <= zsum l /\ (zsum l = 0 -> forall x, In x l -> x = 0).
Proof.
  unfold zsum. induction l as [|y l IH]; intros H; cbn [fold_right]; [split; [lia|intros _ x []]|].
  destruct IH as (I1 & I2); [intros x Hx; apply H; right; exact Hx|]. assert (0 <= y) by (apply H; left; reflexivity). split; [lia|].
  intros Hz x [<-|Hx]; [lia|apply I2; [lia|exact Hx]].
Qed.
Lemma zsum_zero l : (forall x, In x l -> x = 0) -> zsum l = 0.
Proof. unfold zsum. induction l as [|y l IH]; intros H; cbn [fold_right]; [reflexivity|]. rewrite (H y) by (left; reflexivity). rewrite IH; [lia|]. intros x Hx. apply H. right. exact Hx. Qed.

Fixpoint evals (ds : list deriv) : option (Z * Z * Z * list annotated) :=
  match ds with
  | [] => Some (0, 0, 0, [])
  | d1 :: ds' =>
    bind (eval m f d1) (fun '(p1, o1, e1, a1) =>
    bind (evals ds') (fun '(p2, o2, e2, as2) =>
    Some (p1 + p2, o1 + o2, e1 + e2, a1 :: as2)))
  end.
Lemma eval_eq e subs : eval m f (Apply e subs) =
  bind (evals subs) (fun '(ps, os, es, ants) => bind (LookupWords m f e ants) (fun '(p, o, em, a) => Some (p + ps, o + os, em + es, a))).
Proof. reflexivity. Qed.

Lemma count_app a b : count_oov f (a ++ b) = count_oov f a + count_oov f b.
Proof. unfold count_oov. rewrite filter_app, app_length. lia. Qed.
Lemma emit_app a b : sum_emission f (a ++ b) = sum_emission f a + sum_emission f b.
Proof. unfold sum_emission. rewrite map_app, zsum_app. reflexivity. Qed.
Lemma count_sos l : count_oov f (kCDEC_SOS f :: l) = count_oov f l.
Proof. unfold count_oov. cbn [filter]. rewrite (ld_sos _ _ LD). destruct (Nat.eqb_spec (kSOS f) 0) as [H|]; [destruct (proj1 (ld_known _ _ LD) H)|reflexivity]. Qed.
Lemma emit_sos l : sum_emission f (kCDEC_SOS f :: l) = sum_emission f l.
Proof. unfold sum_emission. cbn [map zsum fold_right]. rewrite (ld_emit _ _ LD). reflexivity. Qed.

(** sums over the yield of a rule *)
Lemma yield_sum (g : list Z -> Z) (g0 : g [] = 0) (gapp : forall a b, g (a ++ b) = g a + g b) e subs :
  g (yield (Apply e subs)) = g (filter (fun x => negb (x <=? 0)) e) + psum (map (fun d => g (yield d)) subs) (nts e).
Proof.
  cbn [yield]. induction e as [|x e IH]; [cbn [flat_map filter nts map psum zsum fold_right]; rewrite g0; reflexivity|]. cbn [flat_map filter]. rewrite gapp, IH, nts_cons. destruct (x <=? 0); cbn [negb app].
  - unfold psum. cbn [map zsum fold_right]. replace (g (nth (Z.to_nat (- x)) (map yield subs) [])) with (nth (idx x) (map (fun d => g (yield d)) subs) 0); [unfold zsum; lia|].
    unfold idx. generalize (Z.to_nat (- x)). clear - g0. induction subs as [|d subs IH]; intros [|n]; cbn; auto.
  - replace (g (x :: filter (fun x0 => negb (x0 <=? 0)) e)) with (g [x] + g (filter (fun x0 => negb (x0 <=? 0)) e)) by (rewrite <- gapp; reflexivity). lia.
Qed.

Lemma item_toks subs e x : (forall y, In y (nts (x :: e)) -> (y < length subs)%nat) ->
  toks (Apply (x :: e) subs) = (if x =? kCDEC_SOS f then [TSOS] else item subs x) ++ flat_map (item subs) e.
Proof. reflexivity. Qed.

Lemma toks_length d : linear d -> length (toks d) = length (yield d).
Proof.
  induction d as [e subs IH] using deriv_ind'. intros HL. inversion HL as [e' s' HP HF He]. subst e' s'.
  assert (HX : forall x, length (item subs x) = length (if x <=? 0 then nth (Z.to_nat (- x)) (map yield subs) [] else [x])).
  { intros x. unfold item. destruct (x <=? 0); [|reflexivity]. unfold idx. generalize (Z.to_nat (- x)). clear - IH HF. induction subs as [|d subs IHs]; intros [|n]; cbn; auto.
    - inversion IH; inversion HF; subst. auto.
    - inversion IH; inversion HF; subst. apply IHs; assumption. }
  assert (HY : forall l, length (flat_map (item subs) l) = length (flat_map (fun x => if x <=? 0 then nth (Z.to_nat (- x)) (map yield subs) [] else [x]) l)).
  { induction l as [|x l IHl]; [reflexivity|]. cbn [flat_map]. rewrite !app_length, HX, IHl. reflexivity. }
  destruct e as [|x e]; [reflexivity|]. rewrite item_toks by (intros y Hy; apply (Permutation_in _ HP) in Hy; apply in_seq in Hy; lia). cbn [yield flat_map]. rewrite !app_length, HY. f_equal.
  destruct (Z.eqb_spec x (kCDEC_SOS f)) as [->|]; [|apply HX]. pose proof (ld_pos _ _ LD). destruct (kCDEC_SOS f <=? 0) eqn:Q; [apply Z.leb_le in Q; lia|reflexivity].
Qed.

Definition rel (x : Z) (t : tok) : Prop := (x = kCDEC_SOS f /\ t = TSOS) \/ t = TW (lmw x).

Lemma toks_rel d : linear d -> Forall2 rel (yield d) (toks d).
Proof.
  induction d as [e subs IH] using deriv_ind'. intros HL. inversion HL as [e' s' HP HF He]. subst e' s'.
  assert (HX : forall x, Forall2 rel (if x <=? 0 then nth (Z.to_nat (- x)) (map yield subs) [] else [x]) (item subs x)).
  { intros x. unfold item. destruct (x <=? 0); [|repeat constructor; right; reflexivity]. unfold idx. generalize (Z.to_nat (- x)). clear - IH HF. induction subs as [|d subs IHs]; intros [|n]; cbn; auto.
    - inversion IH; inversion HF; subst. auto.
    - inversion IH; inversion HF; subst. apply IHs; assumption. }
  assert (HY : forall l, Forall2 rel (flat_map (fun x => if x <=? 0 then nth (Z.to_nat (- x)) (map yield subs) [] else [x]) l) (flat_map (item subs) l)).
  { induction l as [|x l IHl]; [constructor|]. cbn [flat_map]. apply Forall2_app; auto. }
  destruct e as [|x e]; [constructor|]. rewrite item_toks by (intros y Hy; apply (Permutation_in _ HP) in Hy; apply in_seq in Hy; lia). cbn [yield flat_map]. apply Forall2_app; [|apply HY].
  destruct (Z.eqb_spec x (kCDEC_SOS f)) as [->|]; [|apply HX]. pose proof (ld_pos _ _ LD). destruct (kCDEC_SOS f <=? 0) eqn:Q; [apply Z.leb_le in Q; lia|]. repeat constructor; left; auto.
Qed.

Lemma finish_good b x L T d k0 p0 :
  J L (b_back b) (p0 + hundred * k0) (fun h => tscore h T) (fun h => thist h T) -> b_bos b = hasS T -> b_eos b = hasE T -> b_pen b = k0 - x -> toks d = T ->
  let '(p, a) := BFinish m b in
  JC L (a_state a) (p + p0 + hundred * (b_pen b + k0)) (fun h => tscore h (toks d)) (fun h => thist h (toks d)) /\ seen_bos a = hasS (toks d) /\ seen_eos a = hasE (toks d)
  /\ (left_done (b_back b) = true -> full (a_state a) = true).
Proof.
  intros HJ HB HE HP HT. pose proof (finish_J m WB _ _ _ _ _ HJ) as HF. unfold BFinish. destruct (Finish m (b_back b)) as (p, c) eqn:EF.
  cbn [a_state seen_bos seen_eos]. rewrite HT. sp; auto.
  - replace (- hundred * b_pen b + p + p0 + hundred * (b_pen b + k0)) with (p + (p0 + hundred * k0)) by lia. exact HF.
  - intros Hd. unfold Finish in EF. injection EF as <- <-. cbn [full]. rewrite Hd. reflexivity.
Qed.

Lemma evals_good subs : Forall (fun d => linear d -> exists p o em a k, eval m f d = Some (p, o, em, a) /\ good d p a k /\ o = count_oov f (yield d) /\ em = sum_emission f (yield d)) subs ->
  Forall linear subs ->
  exists ps ants ks, evals subs = Some (zsum ps, zsum (map (fun d => count_oov f (yield d)) subs), zsum (map (fun d => sum_emission f (yield d)) subs), ants)
  /\ length ps = length subs /\ length ants = length subs /\ length ks = length subs
  /\ forall i d p a k, nth_error subs i = Some d -> nth_error ps i = Some p -> nth_error ants i = Some a -> nth_error ks i = Some k -> good d p a k.
Proof.
  intros H. induction H as [|d subs Hd H IH]; intros HL.
  - exists [], [], []. sp; auto. intros [|] ? ? ? ? Q; discriminate Q.
  - inversion HL; subst. destruct (Hd ltac:(assumption)) as (p & o & em & a & k & E1 & E2 & -> & ->). destruct (IH ltac:(assumption)) as (ps & ants & ks & I1 & I2 & I3 & I4 & I5).
    exists (p :: ps), (a :: ants), (k :: ks). cbn [evals]. rewrite E1. cbn [bind]. rewrite I1. cbn [bind]. sp; cbn [length]; auto.
    intros [|i] d' p' a' k' A1 A2 A3 A4; cbn in *.
    + injection A1 as <-. injection A2 as <-. injection A3 as <-. injection A4 as <-. exact E2.
    + eapply I5; eauto.
Qed.

Lemma nonempty_sub e subs i d : nonempty (Apply e subs) -> nth_error subs i = Some d -> nonempty d.
Proof. intros H Hn. inversion H as [e' s' H1 H2]; subst. eapply Forall_forall in H2; [exact H2|]. eapply nth_error_In. exact Hn. Qed.
Lemma nonempty_toks d : linear d -> nonempty d -> toks d <> [].
Proof. intros HL H. inversion H as [e s H1 H2]; subst. intros Q. apply (f_equal (@length _)) in Q. rewrite toks_length in Q by exact HL. apply length_zero_iff_nil in Q. contradiction. Qed.

Theorem eval_good d : linear d -> exists p o em a k, eval m f d = Some (p, o, em, a) /\ good d p a k /\ o = count_oov f (yield d) /\ em = sum_emission f (yield d).
Proof.
  induction d as [e subs IH] using deriv_ind'. intros HL. inversion HL as [e' s' HP HF He]. subst e' s'. change (map (fun x => Z.to_nat (- x)) (filter (fun x => x <=? 0) e)) with (nts e) in HP.
  destruct (evals_good subs IH HF) as (ps & ants & ks & E1 & E2 & E3 & E4 & E5).
  rewrite eval_eq, E1. cbn [bind]. clear E1 IH.
  assert (Bnd : Forall (fun i => (i < length subs)%nat) (nts e)).
  { apply Forall_forall. intros i Hi. apply (Permutation_in _ HP) in Hi. apply in_seq in Hi. lia. }
  assert (Hks : forall x, In x ks -> 0 <= x).
  { intros x Hx. apply In_nth_error in Hx. destruct Hx as (i & Hi). assert (i < length ks)%nat by (apply nth_error_Some; congruence).
    destruct (nth_error subs i) as [d|] eqn:Q1; [|apply nth_error_None in Q1; lia]. destruct (nth_error ps i) as [p|] eqn:Q2; [|apply nth_error_None in Q2; lia].
    destruct (nth_error ants i) as [a|] eqn:Q3; [|apply nth_error_None in Q3; lia]. destruct (E5 _ _ _ _ _ Q1 Q2 Q3 Hi) as (L & _ & _ & _ & K & _). exact K. }
  destruct (zsum_ge0 ks Hks) as (K0 & K1).
  assert (HO : count_oov f (yield (Apply e subs)) = oovs e + zsum (map (fun d => count_oov f (yield d)) subs)).
  { rewrite yield_sum by (first [reflexivity|apply count_app]). rewrite (psum_all _ e (length subs)) by (auto; rewrite map_length; reflexivity). reflexivity. }
  assert (HEm : sum_emission f (yield (Apply e subs)) = emits e + zsum (map (fun d => sum_emission f (yield d)) subs)).
  { rewrite yield_sum by (first [reflexivity|apply emit_app]). rewrite (psum_all _ e (length subs)) by (auto; rewrite map_length; reflexivity). reflexivity. }
  assert (Sub : forall x, In x e -> (x <=? 0) = true -> exists d k p a, nth_error subs (idx x) = Some d /\ item subs x = toks d /\ linear d /\ In k ks /\ good d p a k /\ nth_error ants (idx x) = Some a /\ nth_error ps (idx x) = Some p /\ nth_error ks (idx x) = Some k).
  { intros x Hx Hle. assert (Hi : (idx x < length subs)%nat). { eapply Forall_forall in Bnd; [exact Bnd|]. unfold nts. apply in_map. apply filter_In. auto. }
    destruct (get_sub subs ants ps ks E3 E2 E4 x Hi) as (d & p & a & k & G1 & G2 & G3 & G4 & G5 & G6 & G7). exists d, k, p, a. sp; auto.
    - unfold item. rewrite Hle. exact G5.
    - eapply Forall_forall in HF; [exact HF|]. eapply nth_error_In. exact G1.
    - eapply nth_error_In. exact G4.
    - eapply E5; eauto. }
  assert (Hitem_ok : zsum ks = 0 -> forall x, In x e -> ok_toks (item subs x)).
  { intros Hz x Hx. destruct (x <=? 0) eqn:Hle; [|unfold item; rewrite Hle; apply ok_one].
    destruct (Sub x Hx Hle) as (d & k & p & a & _ & -> & _ & Hk & (L & _ & _ & _ & _ & G & _) & _). apply G. apply K1; auto. }
  assert (Hks0 : nonempty (Apply e subs) -> (forall x, In x e -> (x <=? 0) = true -> ok_toks (item subs x)) -> zsum ks = 0).
  { intros Hne Hok. apply zsum_zero. intros k Hk. apply In_nth_error in Hk. destruct Hk as (i & Hi). assert (Hlt : (i < length ks)%nat) by (apply nth_error_Some; congruence).
    assert (Hin : In i (nts e)). { apply (Permutation_in (l := seq 0 (length subs))); [symmetry; exact HP|]. apply in_seq. lia. }
    unfold nts in Hin. apply in_map_iff in Hin. destruct Hin as (x & <- & Hx). apply filter_In in Hx. destruct Hx as (Hx & Hle).
    destruct (Sub x Hx Hle) as (d & k' & p & a & Q1 & Q2 & _ & _ & (L & _ & _ & _ & _ & _ & G & _) & _ & _ & Q3). rewrite Hi in Q3. injection Q3 as <-.
    apply G; [eapply nonempty_sub; eauto|]. rewrite <- Q2. apply Hok; auto. }
  assert (Hks1 : (forall x, In x e -> (x <=? 0) = true -> hasS (item subs x) = false /\ hasE (item subs x) = false) -> zsum ks = 0).
  { intros Hok. apply zsum_zero. intros k Hk. apply In_nth_error in Hk. destruct Hk as (i & Hi). assert (Hlt : (i < length ks)%nat) by (apply nth_error_Some; congruence).
    assert (Hin : In i (nts e)). { apply (Permutation_in (l := seq 0 (length subs))); [symmetry; exact HP|]. apply in_seq. lia. }
    unfold nts in Hin. apply in_map_iff in Hin. destruct Hin as (x & <- & Hx). apply filter_In in Hx. destruct Hx as (Hx & Hle).
    destruct (Sub x Hx Hle) as (d & k' & p & a & Q1 & Q2 & _ & _ & (L & _ & _ & _ & _ & _ & _ & G & _) & _ & _ & Q3). rewrite Hi in Q3. injection Q3 as <-.
    destruct (Hok x Hx Hle) as (O1 & O2). rewrite Q2 in O1, O2. auto. }
  assert (Hne_item : nonempty (Apply e subs) -> forall x, In x e -> item subs x <> []).
  { intros Hne x Hx. destruct (x <=? 0) eqn:Hle; [|unfold item; rewrite Hle; discriminate].
    destruct (Sub x Hx Hle) as (d & k & p & a & Q1 & -> & Q3 & _). apply nonempty_toks; auto. eapply nonempty_sub; eauto. }
  (* the part common to all three ways to begin *)
  assert (Main : forall T e0 b0 L0 x0 k0,
     J L0 (b_back b0) (x0 + hundred * k0) (fun h => tscore h T) (fun h => thist h T) -> b_bos b0 = hasS T -> b_eos b0 = hasE T -> b_pen b0 = 0 ->
     toks (Apply e subs) = T ++ flat_map (item subs) e0 -> incl e0 e ->
     oovs e0 + count_oov f (yield (Apply e subs)) = oovs e + count_oov f (yield (Apply e subs)) -> emits e0 = emits e ->
     x0 + psum ps (nts e0) = zsum ps -> k0 + psum ks (nts e0) = zsum ks ->
     (zsum ks = 0 -> ok_toks T) ->
     (nonempty (Apply e subs) -> ok_toks (toks (Apply e subs)) -> pens subs T e0 = 0) ->
     (forall x, In x e -> (x <=? 0) = true -> exists a b, toks (Apply e subs) = a ++ item subs x ++ b) ->
     (zsum ks = 0 -> hasS T = true -> L0 = [] /\ left_done (b_back b0) = true) ->
     Forall (fun i => (i < length subs)%nat) (nts e0) ->
     exists p o em a k, bind (bind (lookup_loop m f e0 ants b0 0 0) (fun '(b, oo, em) => let '(p, remnant) := BFinish m b in Some (p, oo, em, remnant)))
       (fun '(p, o, em, a) => Some (p + zsum ps, o + zsum (map (fun d => count_oov f (yield d)) subs), em + zsum (map (fun d => sum_emission f (yield d)) subs), a)) = Some (p, o, em, a)
     /\ good (Apply e subs) p a k /\ o = count_oov f (yield (Apply e subs)) /\ em = sum_emission f (yield (Apply e subs))).
  { intros T e0 b0 L0 x0 k0 HJ HB HEE HPn HT Hinc HO0 HE0 Hps Hksum HokT Hpen Hseg HL0 HN0.
    destruct (loop_good subs ants ps ks E3 E2 E4 E5 e0 T L0 b0 _ 0 0 HJ HB HEE HN0) as (b & L & I1 & I2 & I3 & I4 & I5 & I6).
    rewrite I1. cbn [bind]. pose proof (pens_nonneg subs e0 T) as PN.
    assert (HJ2 : J L (b_back b) (zsum ps + hundred * zsum ks) (fun h => tscore h (T ++ flat_map (item subs) e0)) (fun h => thist h (T ++ flat_map (item subs) e0))).
    { replace (zsum ps + hundred * zsum ks) with (x0 + hundred * k0 + psum ps (nts e0) + hundred * psum ks (nts e0)) by (rewrite <- Hps, <- Hksum; lia). exact I2. }
    pose proof (finish_good b (zsum ks - b_pen b) L _ (Apply e subs) (zsum ks) (zsum ps) HJ2 I3 I4 ltac:(lia) HT) as FG.
    destruct (BFinish m b) as (p, a). destruct FG as (F1 & F2 & F3 & F4). cbn [bind].
    exists (p + zsum ps), (0 + oovs e0 + zsum (map (fun d => count_oov f (yield d)) subs)), (0 + emits e0 + zsum (map (fun d => sum_emission f (yield d)) subs)), a, (b_pen b + zsum ks).
    split; [reflexivity|]. split; [|split; [rewrite HO; lia|rewrite HEm, HE0; lia]].
    exists L. sp; auto; try lia.
    - intros Hk. rewrite HT. apply pens_ok; [apply HokT; lia| |lia]. intros x Hx. apply Hitem_ok; [lia|apply Hinc; exact Hx].
    - intros Hne Hok. rewrite I5, HPn, Hpen by assumption. rewrite Hks0; [lia|exact Hne|]. intros x Hx Hle. destruct (Hseg x Hx Hle) as (l & r & Hs). rewrite Hs in Hok.
      apply ok_app_elim in Hok. destruct Hok as (_ & Hok & _). apply ok_app_elim in Hok. tauto.
    - intros HS0 HE00. rewrite I5, HPn. rewrite Hks1.
      + rewrite HT in HS0, HE00. rewrite (pens_plain subs e0 T HS0 HE00). lia.
      + intros x Hx Hle. destruct (Hseg x Hx Hle) as (l & r & Hs). rewrite Hs in HS0, HE00. rewrite !hasS_app in HS0. rewrite !hasE_app in HE00.
        apply orb_false_elim in HS0. destruct HS0 as (_ & HS0). apply orb_false_elim in HS0. apply orb_false_elim in HE00. destruct HE00 as (_ & HE00). apply orb_false_elim in HE00. tauto.
    - intros Hk HS0. rewrite HT, hasS_app, (pens_S subs e0 T) in HS0 by lia. rewrite orb_false_r in HS0. destruct (HL0 ltac:(lia) HS0) as (-> & Hd). destruct (I6 Hd) as (I7 & ->). split; [reflexivity|]. apply F4. exact I7. }
  assert (Seg : forall T l, (forall x, In x l -> exists a b, T ++ flat_map (item subs) l = a ++ item subs x ++ b)).
  { intros T l x Hx. apply in_split in Hx. destruct Hx as (l1 & l2 & ->). exists (T ++ flat_map (item subs) l1), (flat_map (item subs) l2). rewrite flat_map_app. cbn [flat_map]. rewrite <- app_assoc. reflexivity. }
  unfold LookupWords. destruct e as [|y e].
  - cbn [bind]. apply (Main [] [] NewBoundary [] 0 0); auto.
    + apply (J_new m).
    + intros x [].
    + rewrite (psum_all ps [] (length subs)) by auto. reflexivity.
    + rewrite (psum_all ks [] (length subs)) by auto. reflexivity.
    + intros _. apply ok_nil.
    + intros x [].
  - assert (TOK := item_toks subs e y ltac:(intros i Hi; apply (proj1 (Forall_forall _ _) Bnd); exact Hi)).
    pose proof (ld_pos _ _ LD) as SP. rewrite nts_cons in Bnd. apply Forall_app in Bnd. destruct Bnd as (Bnd1 & Bnd2).
    pose proof (psum_all ps (y :: e) (length subs) HP E2) as Pp. pose proof (psum_all ks (y :: e) (length subs) HP E4) as Pk. rewrite nts_cons in Pp, Pk.
    destruct (Z.eqb_spec y (kCDEC_SOS f)) as [Hy|Hy].
    + assert (Hle : (y <=? 0) = false) by (apply Z.leb_gt; lia). rewrite Hle in *. cbn [bind app] in *.
      apply (Main [TSOS] e (BBeginSentence m f NewBoundary) [] 0 0); auto.
      * eapply J_ext; [apply (J_begin_sentence m WB)| |]; intros h; cbn [LmSpec.tscore LmSpec.thist]; [rewrite drop_E; lia|reflexivity].
      * intros z Hz. right. exact Hz.
      * f_equal. unfold oovs. cbn [filter]. rewrite Hle. cbn [negb]. rewrite Hy. symmetry. apply count_sos.
      * unfold emits. cbn [filter]. rewrite Hle. cbn [negb]. rewrite Hy. symmetry. apply emit_sos.
      * intros _. apply ok_one.
      * intros Hne Hok. apply pens_zero; [discriminate| |rewrite TOK in Hok; exact Hok]. intros x Hx. apply Hne_item; [exact Hne|right; exact Hx].
      * intros x [<-|Hx] Hx0; [congruence|]. rewrite TOK. apply (Seg [TSOS] e x Hx).
    + destruct (y <=? 0) eqn:Hle.
      * destruct (Sub y (or_introl eq_refl) Hle) as (d & k & p & a & Q1 & Q2 & Q3 & Q4 & Q5 & Q6 & Q7 & Q8). unfold antecedent. fold (idx y). rewrite Q6. cbn [bind].
        destruct Q5 as (L & G1 & G2 & G3 & G4 & G5 & G6 & G7 & G8).
        assert (Np : nth (idx y) ps 0 = p) by (apply nth_error_nth; exact Q7). assert (Nk : nth (idx y) ks 0 = k) by (apply nth_error_nth; exact Q8).
        rewrite Q2 in TOK. unfold psum in Pp, Pk. cbn [app map zsum fold_right] in Pp, Pk. rewrite Np in Pp. rewrite Nk in Pk.
        apply (Main (toks d) e (BBeginNonTerminal NewBoundary a) L p k); auto.
        -- intros z Hz. right. exact Hz.
        -- unfold oovs. cbn [filter]. rewrite Hle. reflexivity.
        -- unfold emits. cbn [filter]. rewrite Hle. reflexivity.
        -- intros Hne Hok. apply pens_zero; [|intros x Hx; apply Hne_item; [exact Hne|right; exact Hx]|rewrite TOK in Hok; exact Hok].
           apply nonempty_toks; [exact Q3|]. eapply nonempty_sub; [exact Hne|exact Q1].
        -- intros x [<-|Hx] Hx0; rewrite TOK; [|apply Seg; exact Hx]. exists [], (flat_map (item subs) e). rewrite Q2. reflexivity.
      * cbn [bind]. apply (Main [] (y :: e) NewBoundary [] 0 0); auto.
        -- apply (J_new m).
        -- intros z Hz. exact Hz.
        -- rewrite nts_cons, Hle. exact Pp.
        -- rewrite nts_cons, Hle. exact Pk.
        -- intros _. apply ok_nil.
        -- intros Hne Hok. cbn [pens]. rewrite Hle. cbn [hasE existsb b2z app]. rewrite pens_zero; [reflexivity|apply Hne_item; [exact Hne|left; reflexivity]|intros x Hx; apply Hne_item; [exact Hne|right; exact Hx]|rewrite TOK in Hok; exact Hok].
        -- intros x Hx _. rewrite TOK. apply (Seg [] (y :: e) x Hx).
        -- rewrite nts_cons, Hle. exact Bnd2.
Qed.
End P.
