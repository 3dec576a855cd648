(** Proofs: the source side of extracted rules. *)
From Coq Require Import List ZArith Bool Lia Permutation.
From Verif Require Import Opt OptProofs Fix FixSpec FixProofs RuleEx RuleExSpec RuleExTargetProofs.
Import ListNotations.
Open Scope Z_scope.
Open Scope opt_scope.

(** * The target span found is bounded by links *)
Lemma for_up_proj R n m low high : described R n m low high -> forall k from tl th tl' th',
  for_up k from (proj_step low high) (tl, th) = Some (tl', th') ->
  (tl' = tl \/ exists s, R s tl') /\ (th' = th \/ exists s, R s (th' - 1)).
Proof.
  intros (S1 & S2 & D). induction k as [|k IH]; intros from tl th tl' th' E; cbn [for_up] in E; [injection E as <- <-; auto|].
  unfold proj_step at 1 in E. destruct (get low from) as [l|] eqn:G; [|discriminate]. cbn [bind] in E.
  destruct (get_inv _ _ _ G) as [B ->]. destruct (Z.eqb_spec (at_ low from) (-1)) as [X|X]; [cbn [bind] in E; eapply IH; eauto|].
  rewrite get_some in E by lia. cbn [bind] in E. apply IH in E. destruct E as [E1 E2]. destruct (D from) as [K|(K1 & K2 & K3 & K4 & K5)]; [lia|lia|]. split.
  - destruct E1 as [->|E1]; [|auto]. destruct (orb _ _); eauto.
  - destruct E2 as [->|E2]; [|auto]. destruct (Z.max_spec th (at_ high from)) as [[_ ->]|[_ ->]]; eauto.
Qed.
Lemma proj_hull R n m low high : described R n m low high -> forall from to tl th tl' th',
  FindProjection from to low high tl th = Some (tl', th') ->
  (tl' = tl \/ exists s, R s tl') /\ (th' = th \/ exists s, R s (th' - 1)).
Proof.
  intros D from to tl th tl' th' E. unfold FindProjection in E. destruct (to <? 0).
  - destruct (andb _ _); [injection E as <- <-; auto|discriminate].
  - destruct (from <? 0); [injection E as <- <-; auto|]. eapply for_up_proj; eauto.
Qed.
Section Hull.
Variable o : fix_opts.
Variable sp : spans.
Variable lks : list (Z * Z).
Variables ns nt : Z.
Hypothesis DS : described (fun s t => In (s, t) lks) ns nt (s_low sp) (s_high sp).
Hypothesis DT : described (fun t s => In (s, t) lks) nt ns (t_low sp) (t_high sp).
Definition hull (tl th : Z) : Prop := (exists s, In (s, tl) lks) /\ (exists s, In (s, th - 1) lks).
Lemma loop_hull : forall fuel spl sph tl th bl bh new_x nlx nhx r, hull tl th ->
  fix_loop o sp ns fuel spl sph tl th bl bh new_x nlx nhx = Some r -> found r = true -> hull (r_tl r) (r_th r).
Proof.
  induction fuel as [|f IH]; intros spl sph tl th bl bh new_x nlx nhx r H E F; [discriminate|]. cbn [fix_loop] in E.
  repeat match type of E with (if ?c then _ else _) = _ => destruct c; [injection E as <-; cbn [found r_tl r_th] in *; try discriminate; auto|] end.
  destruct (FindProjection _ _ (s_low sp) (s_high sp) tl th) as [[tl1 th1]|] eqn:P1; [|discriminate]. cbn [bind] in E.
  destruct (FindProjection _ _ (s_low sp) (s_high sp) tl1 th1) as [[tl2 th2]|] eqn:P2; [|discriminate]. cbn [bind] in E.
  apply (proj_hull _ _ _ _ _ DS) in P1. apply (proj_hull _ _ _ _ _ DS) in P2.
  assert (H2 : hull tl2 th2).
  { destruct H as [HA HB]. destruct P1 as [A1 B1], P2 as [A2 B2]. split.
    - destruct A2 as [->|A2]; [|auto]. destruct A1 as [->|A1]; auto.
    - destruct B2 as [->|B2]; [|auto]. destruct B1 as [->|B1]; auto. }
  repeat match type of E with (if ?c then _ else _) = _ => destruct c; [injection E as <-; cbn [found r_tl r_th] in *; try discriminate; auto|] end.
  destruct (FindProjection _ _ (t_low sp) (t_high sp) _ _) as [[bl2 bh2]|]; [|discriminate]. cbn [bind] in E.
  destruct (FindProjection _ _ (t_low sp) (t_high sp) bl2 bh2) as [[bl3 bh3]|]; [|discriminate]. cbn [bind] in E.
  eapply IH; eauto.
Qed.
Lemma fix_hull sl sh bl0 bh0 r : 0 <= sl <= sh -> sh <= ns -> FindFixPoint o sp ns nt sl sh (-1) (-1) bl0 bh0 = Some r -> found r = true -> hull (r_tl r) (r_th r).
Proof.
  intros H1 H2 E F. unfold FindFixPoint in E.
  destruct (proj_ok _ _ _ _ _ sl sh (-1) (-1) DS) as (tl & th & P & (X1 & X2 & X3 & X4 & X5) & V & Nn); [lia|lia|lia|left; auto|].
  rewrite P in E. cbn [bind] in E. destruct (Z.eqb_spec tl (-1)) as [Q|Q]; [injection E as <-; discriminate|].
  destruct V as [V|V]; [lia|]. destruct X1 as [X1|(s0 & Hs0 & L0)]; [lia|]. destruct X2 as [X2|(s1 & Hs1 & L1)]; [lia|].
  cbn [Z.eqb negb andb Pos.eqb] in E. destruct (max_rule_span o <? th - tl); [injection E as <-; discriminate|].
  destruct (FindProjection tl th (t_low sp) (t_high sp) (-1) (-1)) as [[bl bh]|]; [|discriminate]. cbn [bind] in E.
  eapply loop_hull; [|exact E|exact F]. split; eauto.
Qed.
(** A span that is closed with some target span is found as it stands. *)
Lemma fix_here sl sh bl0 bh0 tl' th' : 0 <= sl <= sh -> sh <= ns -> closed lks sl sh tl' th' -> (exists s t, In (s, t) lks /\ sl <= s < sh) ->
  th' - tl' <= max_rule_span o ->
  exists r, FindFixPoint o sp ns nt sl sh (-1) (-1) bl0 bh0 = Some r /\ found r = true /\ r_bl r = sl /\ r_bh r = sh /\
    hull (r_tl r) (r_th r) /\ closed lks sl sh (r_tl r) (r_th r) /\ tl' <= r_tl r < r_th r /\ r_th r <= th'.
Proof.
  intros H1 H2 C (s & t & L & Hs) W. unfold FindFixPoint.
  destruct (proj_ok _ _ _ _ _ sl sh (-1) (-1) DS) as (tl & th & -> & (X1 & X2 & X3 & X4 & X5) & V & Nn); [lia|lia|lia|left; auto|].
  cbn [bind]. destruct (Z.eqb_spec tl (-1)) as [Q|Q]; [exfalso; destruct (Nn Q) as [_ K]; apply (K s t); auto|].
  destruct V as [V|V]; [lia|]. destruct X1 as [X1|(s0 & Hs0 & L0)]; [lia|]. destruct X2 as [X2|(s1 & Hs1 & L1)]; [lia|].
  pose proof (proj1 (C _ _ L0) Hs0) as B0. pose proof (proj1 (C _ _ L1) Hs1) as B1.
  cbn [Z.eqb negb andb Pos.eqb]. destruct (Z.ltb_spec (max_rule_span o) (th - tl)); [lia|].
  destruct (proj_ok _ _ _ _ _ tl th (-1) (-1) DT) as (bl & bh & -> & (Y1 & Y2 & Y3 & Y4 & Y5) & V2 & Nb); [lia|lia|lia|left; auto|]. cbn [bind].
  destruct V2 as [V2|V2]; [exfalso; destruct (Nb ltac:(lia)) as [_ K]; apply (K tl s0); [lia|auto]|].
  destruct Y1 as [Y1|(t0 & T0 & K0)]; [lia|]. destruct Y2 as [Y2|(t1 & T1 & K1)]; [lia|].
  pose proof (proj2 (C _ _ K0) ltac:(lia)) as D0. pose proof (proj2 (C _ _ K1) ltac:(lia)) as D1.
  replace (Z.to_nat ns + 2)%nat with (Datatypes.S (Z.to_nat ns + 1)) by lia. cbn [fix_loop].
  replace (Z.min bl sl) with sl by lia. replace (Z.max bh sh) with sh by lia. rewrite !Z.eqb_refl. cbn [andb].
  eexists. split; [reflexivity|]. cbn [found r_bl r_bh r_tl r_th]. split; [auto|]. split; [auto|]. split; [auto|]. split; [split; eauto|].
  split; [|lia]. intros a b Lab. split; [intros K; apply (X3 a b); auto|]. intros K. apply (C a b Lab). lia.
Qed.
End Hull.

(** * Occurrences *)
Inductive laid (w : list Z) (start : Z) : list Z -> list (Z * Z) -> Prop :=
| laid_one c m : c <> [] -> Forall (fun x => 0 <= x) c -> 0 <= m - start -> slice w (m - start) (m - start + size c) = c -> laid w start c [(m, size c)]
| laid_more c x ph m m' len' r : c <> [] -> Forall (fun x => 0 <= x) c -> 0 <= m - start -> slice w (m - start) (m - start + size c) = c ->
    x < 0 -> m + size c < m' -> laid w start ph ((m', len') :: r) -> laid w start (c ++ x :: ph) ((m, size c) :: (m', len') :: r).

Lemma chunks_split : forall phrase, (Forall (fun x => 0 <= x) phrase /\ chunks_of phrase = [phrase]) \/
  exists c x ph, phrase = c ++ x :: ph /\ Forall (fun x => 0 <= x) c /\ x < 0 /\ chunks_of phrase = c :: chunks_of ph.
Proof.
  induction phrase as [|s r IH]; [left; split; [constructor|auto]|]. cbn [chunks_of]. destruct (Z.leb_spec 0 s).
  - destruct IH as [[F ->]|(c & x & ph & -> & F & X & ->)]; [left; split; [constructor; auto|auto]|].
    right. exists (s :: c), x, ph. split; [auto|]. split; [constructor; auto|auto].
  - right. exists [], s, r. split; [auto|]. split; [constructor|auto].
Qed.
Definition occ_of (phrase matching : list Z) : list (Z * Z) := combine matching (map size (chunks_of phrase)).
Lemma occurs_laid w start : forall matching phrase, occurs w start phrase matching -> laid w start phrase (occ_of phrase matching).
Proof.
  induction matching as [|m r IH]; intros phrase (L & H1 & H2).
  - exfalso. destruct (chunks_split phrase) as [[_ E]|(c & x & ph & _ & _ & _ & E)]; rewrite E in L; discriminate.
  - unfold occ_of. destruct (chunks_split phrase) as [[F E]|(c & x & ph & -> & F & X & E)]; rewrite E in *.
    + destruct r; [|discriminate]. cbn [map combine]. destruct (H1 O m phrase eq_refl eq_refl) as (A & B & C). constructor; auto.
    + destruct (H1 O m c eq_refl eq_refl) as (A & B & C). destruct r as [|m' r]; [exfalso; cbn in L; destruct (chunks_of ph) eqn:Q; [|discriminate]; destruct (chunks_split ph) as [[_ Q']|(? & ? & ? & _ & _ & _ & Q')]; congruence|].
      assert (OC : occurs w start ph (m' :: r)).
      { split; [cbn in *; lia|]. split.
        - intros i a b Ha Hb. apply (H1 (Datatypes.S i)); auto.
        - intros i a b a' Ha Hb Ha'. apply (H2 (Datatypes.S i) a b a'); auto. }
      specialize (IH ph OC). unfold occ_of in IH. cbn [map combine].
      destruct (chunks_of ph) as [|c' cs] eqn:Q; [destruct (chunks_split ph) as [[_ Q']|(? & ? & ? & _ & _ & _ & Q')]; congruence|].
      cbn [map combine] in *. constructor; auto. apply (H2 O m c m'); auto.
Qed.
(** the model computes the chunk lengths *)
Lemma var_pos_bounds : forall phrase i k c, nth_error (chunks_of phrase) k = Some c ->
  size c = at_ ((i - 1) :: var_pos i phrase ++ [i + size phrase]) (Z.of_nat k + 1) - at_ ((i - 1) :: var_pos i phrase ++ [i + size phrase]) (Z.of_nat k) - 1.
Proof.
  assert (AS : forall (l : list Z) x k, at_ (x :: l) (Z.of_nat (Datatypes.S k)) = at_ l (Z.of_nat k)).
  { intros l x k. unfold at_. rewrite !Nat2Z.id. reflexivity. }
  assert (A0 : forall (l : list Z) x, at_ (x :: l) 0 = x) by reflexivity.
  induction phrase as [|s r IH]; intros i k c E.
  - destruct k as [|k]; [|destruct k; discriminate]. cbn in E. injection E as <-. cbn [var_pos app]. change (size []) with 0.
    change (Z.of_nat 0 + 1) with (Z.of_nat 1). rewrite (AS _ _ 0%nat). change (Z.of_nat 0) with 0. rewrite !A0. lia.
  - assert (SZ : size (s :: r) = size r + 1) by (unfold size; cbn [length]; lia). cbn [chunks_of var_pos] in *. destruct (Z.leb_spec 0 s).
    + destruct (chunks_of r) as [|c0 cs] eqn:Q; [destruct k; discriminate|]. rewrite SZ. replace (i + (size r + 1)) with (i + 1 + size r) by lia.
      replace (Z.of_nat k + 1) with (Z.of_nat (Datatypes.S k)) by lia. destruct k as [|k].
      * cbn in E. injection E as <-. specialize (IH (i + 1) O c0 eq_refl). change (Z.of_nat 0 + 1) with (Z.of_nat 1) in IH.
        rewrite (AS _ _ 0%nat) in IH. rewrite (AS _ _ 0%nat). change (Z.of_nat 0) with 0 in *. rewrite A0 in IH. rewrite A0. unfold size in *. cbn [length]. lia.
      * specialize (IH (i + 1) (Datatypes.S k) c E). replace (Z.of_nat (Datatypes.S k) + 1) with (Z.of_nat (Datatypes.S (Datatypes.S k))) in IH by lia. rewrite !AS in IH. rewrite !AS. exact IH.
    + rewrite SZ. replace (i + (size r + 1)) with (i + 1 + size r) by lia. replace (Z.of_nat k + 1) with (Z.of_nat (Datatypes.S k)) by lia. destruct k as [|k].
      * cbn in E. injection E as <-. rewrite (AS _ _ 0%nat). cbn [app]. change (Z.of_nat 0) with 0. rewrite !A0. change (size []) with 0. lia.
      * specialize (IH (i + 1) k c E). rewrite !AS. replace (i + 1 - 1) with i in IH by lia. replace (Z.of_nat k + 1) with (Z.of_nat (Datatypes.S k)) in IH by lia.
        cbn [app]. exact IH.
Qed.
Lemma var_pos_length : forall phrase i, length (chunks_of phrase) = Datatypes.S (length (var_pos i phrase)).
Proof.
  induction phrase as [|s r IH]; intros i; [reflexivity|]. cbn [chunks_of var_pos]. destruct (0 <=? s).
  - rewrite <- (IH (i + 1)). pose proof (IH 0) as Q. destruct (chunks_of r); [discriminate|reflexivity].
  - cbn [length]. f_equal. apply IH.
Qed.
Lemma chunk_len_ok phrase k c : nth_error (chunks_of phrase) k = Some c -> GetChunkLen phrase (Z.of_nat k) = Some (size c).
Proof.
  intros E. pose proof (var_pos_bounds phrase 0 k c E) as B. pose proof (var_pos_length phrase 0) as L.
  assert (K : (k < length (chunks_of phrase))%nat) by (apply nth_error_Some; congruence).
  assert (AS : forall (l : list Z) x k, at_ (x :: l) (Z.of_nat (Datatypes.S k)) = at_ l (Z.of_nat k)).
  { intros l x j. unfold at_. rewrite !Nat2Z.id. reflexivity. }
  unfold GetChunkLen. set (vp := var_pos 0 phrase) in *. replace (Z.of_nat k + 1) with (Z.of_nat (Datatypes.S k)) in B by lia. rewrite AS in B.
  assert (SV : size vp = Z.of_nat (length vp)) by reflexivity.
  assert (LAST : forall q, at_ (vp ++ [q]) (Z.of_nat (length vp)) = q). { intros q. rewrite at_app2 by lia. rewrite SV, Z.sub_diag. reflexivity. }
  destruct (Z.eqb_spec (size vp) 0) as [Z0|Z0].
  - assert (k = O) by lia. subst k. assert (V : vp = []) by (apply length_zero_iff_nil; lia). rewrite V in B. cbn [app] in B. f_equal. rewrite B.
    change (at_ [0 + size phrase] (Z.of_nat 0)) with (0 + size phrase). change (at_ (_ :: _) (Z.of_nat 0)) with (0 - 1). lia.
  - destruct k as [|k].
    + change (Z.of_nat 0) with 0 in *. cbn [Z.eqb]. rewrite get_some by lia. f_equal. change (at_ (0 - 1 :: vp ++ [0 + size phrase]) 0) with (0 - 1) in B.
      rewrite at_app1 in B by lia. lia.
    + destruct (Z.eqb_spec (Z.of_nat (Datatypes.S k)) 0); [lia|]. rewrite AS in B. destruct (Z.eqb_spec (Z.of_nat (Datatypes.S k)) (size vp)) as [Q|Q].
      * rewrite get_some by lia. cbn [bind]. f_equal. rewrite B. replace (Z.of_nat (Datatypes.S k)) with (Z.of_nat (length vp)) by lia. rewrite LAST.
        rewrite at_app1 by lia. replace (Z.of_nat k) with (size vp - 1) by lia. lia.
      * rewrite get_some by lia. cbn [bind]. rewrite get_some by lia. cbn [bind]. f_equal. rewrite B. rewrite !at_app1 by lia.
        replace (Z.of_nat (Datatypes.S k) - 1) with (Z.of_nat k) by lia. lia.
Qed.
Lemma chunklens_from phrase : forall matching k cs, (forall i c, nth_error cs i = Some c -> nth_error (chunks_of phrase) (k + i) = Some c) ->
  length matching = length cs -> chunklens phrase (Z.of_nat k) matching = Some (combine matching (map size cs)).
Proof.
  induction matching as [|m r IH]; intros k [|c cs] H L; try discriminate; [reflexivity|]. cbn [chunklens].
  rewrite (chunk_len_ok phrase k c) by (specialize (H O c eq_refl); rewrite Nat.add_0_r in H; auto). cbn [bind].
  replace (Z.of_nat k + 1) with (Z.of_nat (Datatypes.S k)) by lia. rewrite (IH (Datatypes.S k) cs); [reflexivity| |cbn in L; lia].
  intros i c' E. specialize (H (Datatypes.S i) c' E). rewrite Nat.add_succ_r in H. exact H.
Qed.
Lemma chunklens_ok phrase matching : length matching = length (chunks_of phrase) -> chunklens phrase 0 matching = Some (occ_of phrase matching).
Proof. intros L. apply (chunklens_from phrase matching O); auto. Qed.
