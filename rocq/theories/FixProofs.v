From Coq Require Import List Arith ZArith Bool Lia.
From Verif Require Import Opt OptProofs Fix FixSpec.
Import ListNotations.
Open Scope Z_scope.

Lemma at_rep n x i : 0 <= i < Z.of_nat n -> at_ (repeat x n) i = x.
Proof. intros H. unfold at_. apply nth_error_nth. apply nth_error_repeat. lia. Qed.
Lemma size_rep x n : size (repeat x n) = Z.of_nat n.
Proof. unfold size. rewrite repeat_length. auto. Qed.

(** * The spans of the links *)
(** [low], [high] describe, per position, the partners related by [R]. *)
Definition described (R : Z -> Z -> Prop) (n m : Z) (low high : list Z) : Prop :=
  size low = n /\ size high = n /\
  forall i, 0 <= i < n ->
    (at_ low i = -1 /\ at_ high i = -1 /\ forall t, ~ R i t) \/
    (0 <= at_ low i < at_ high i /\ at_ high i <= m /\ R i (at_ low i) /\ R i (at_ high i - 1) /\ forall t, R i t -> at_ low i <= t < at_ high i).
Lemma widen_ok R n m low high i v : described R n m low high -> 0 <= i < n -> 0 <= v < m ->
  exists low' high', widen low high i v = Some (low', high') /\ described (fun a b => R a b \/ (a = i /\ b = v)) n m low' high'.
Proof.
  intros (S1 & S2 & D) Hi Hv. unfold widen. rewrite get_some by lia. cbn [bind].
  set (cond := orb (at_ low i =? -1) (v <? at_ low i)).
  assert (L : exists low', (if cond then put low i v else Some low) = Some low' /\ size low' = n /\
    forall k, 0 <= k < n -> at_ low' k = if k =? i then (if cond then v else at_ low i) else at_ low k).
  { destruct cond.
    - destruct (put_some low i v) as (l & -> & Sl & Al); [lia|]. exists l. split; [auto|]. split; [lia|]. intros k Hk. apply Al. lia.
    - exists low. split; [auto|]. split; [auto|]. intros k Hk. destruct (Z.eqb_spec k i) as [->|]; auto. }
  destruct L as (low' & -> & Sl & Al). cbn [bind]. rewrite get_some by lia. cbn [bind].
  destruct (put_some high i (Z.max (at_ high i) (v + 1))) as (high' & -> & Sh & Ah); [lia|]. cbn [bind].
  exists low', high'. split; [auto|]. split; [auto|]. split; [lia|]. intros k Hk. rewrite Al, Ah by lia.
  destruct (Z.eqb_spec k i) as [->|Ne].
  - right. unfold cond. destruct (D i Hi) as [(A & B & C)|(A & B & C & E & F)].
    + rewrite A, B. cbn. split; [lia|]. split; [lia|]. split; [right; lia|]. split; [right; lia|]. intros t [X|X]; [exfalso; eapply C; eauto|lia].
    + destruct (Z.eqb_spec (at_ low i) (-1)); [lia|]. cbn [orb]. destruct (Z.ltb_spec v (at_ low i)).
      * split; [lia|]. split; [lia|]. split; [right; auto|]. split.
        -- replace (Z.max (at_ high i) (v + 1)) with (at_ high i) by lia. left. auto.
        -- intros t [X|X]; [apply F in X; lia|lia].
      * split; [lia|]. split; [lia|]. split; [left; auto|]. split.
        -- destruct (Z.max_spec (at_ high i) (v + 1)) as [[X ->]|[X ->]]; [right; lia|left; auto].
        -- intros t [X|X]; [apply F in X; lia|lia].
  - destruct (D k Hk) as [(A & B & C)|(A & B & C & E & F)].
    + left. split; [auto|]. split; [auto|]. intros t [X|X]; [eapply C; eauto|lia].
    + right. split; [auto|]. split; [auto|]. split; [left; auto|]. split; [left; auto|]. intros t [X|X]; [auto|lia].
Qed.
Lemma described_ext R R' n m low high : (forall a b, R a b <-> R' a b) -> described R n m low high -> described R' n m low high.
Proof.
  intros E (S1 & S2 & D). split; [auto|]. split; [auto|]. intros i Hi. destruct (D i Hi) as [(A & B & C)|(A & B & C & F & G)].
  - left. split; [auto|]. split; [auto|]. intros t X. apply E in X. eapply C; eauto.
  - right. split; [auto|]. split; [auto|]. split; [apply E; auto|]. split; [apply E; auto|]. intros t X. apply E in X. auto.
Qed.
Lemma add_links_ok ns nt : forall links L sp, links_within links ns nt ->
  described (fun s t => In (s, t) L) ns nt (s_low sp) (s_high sp) -> described (fun t s => In (s, t) L) nt ns (t_low sp) (t_high sp) ->
  exists sp', add_links links sp = Some sp' /\
    described (fun s t => In (s, t) (links ++ L)) ns nt (s_low sp') (s_high sp') /\ described (fun t s => In (s, t) (links ++ L)) nt ns (t_low sp') (t_high sp').
Proof.
  induction links as [|[s t] r IH]; intros L sp W D1 D2; [exists sp; auto|].
  cbn [add_links]. unfold add_link. cbn [fst snd]. destruct (W s t (or_introl eq_refl)) as [W1 W2].
  destruct (widen_ok _ _ _ _ _ s t D1 W1 W2) as (a & b & -> & D1'). cbn [bind].
  destruct (widen_ok _ _ _ _ _ t s D2 W2 W1) as (c & d & -> & D2'). cbn [bind].
  destruct (IH ((s, t) :: L) {| s_low := a; s_high := b; t_low := c; t_high := d |}) as (sp' & -> & A & B).
  - intros x y X. apply W. right. auto.
  - cbn [s_low s_high]. eapply described_ext; [|exact D1']. intros x y. simpl. intuition congruence.
  - cbn [t_low t_high]. eapply described_ext; [|exact D2']. intros x y. simpl. intuition congruence.
  - exists sp'. split; [auto|]. split; (eapply described_ext; [|eassumption]); intros x y; simpl; rewrite !in_app_iff; simpl; intuition.
Qed.
Lemma spans_ok ns nt links : links_within links (Z.of_nat ns) (Z.of_nat nt) ->
  exists sp, GetLinksSpans ns nt links = Some sp /\
    described (fun s t => In (s, t) links) (Z.of_nat ns) (Z.of_nat nt) (s_low sp) (s_high sp) /\
    described (fun t s => In (s, t) links) (Z.of_nat nt) (Z.of_nat ns) (t_low sp) (t_high sp).
Proof.
  intros W. unfold GetLinksSpans.
  destruct (add_links_ok (Z.of_nat ns) (Z.of_nat nt) links [] {| s_low := repeat (-1) ns; s_high := repeat (-1) ns; t_low := repeat (-1) nt; t_high := repeat (-1) nt |})
    as (sp & E & A & B); auto.
  - cbn. split; [apply size_rep|]. split; [apply size_rep|]. intros i Hi. left. rewrite !at_rep by lia. auto.
  - cbn. split; [apply size_rep|]. split; [apply size_rep|]. intros i Hi. left. rewrite !at_rep by lia. auto.
  - exists sp. rewrite app_nil_r in *. auto.
Qed.

(** * Projections *)
Definition projected (R : Z -> Z -> Prop) (from to tl th tl' th' : Z) : Prop :=
  (tl' = tl \/ exists s, from <= s < to /\ R s tl') /\ (th' = th \/ exists s, from <= s < to /\ R s (th' - 1)) /\
  (forall s t, from <= s < to -> R s t -> tl' <= t < th') /\
  (0 <= tl -> tl' <= tl) /\ th <= th'.
Definition valid (m a b : Z) : Prop := (a = -1 /\ b = -1) \/ (0 <= a < b /\ b <= m).
Lemma proj_ok R n m low high from to tl th : described R n m low high -> 0 <= from -> to <= n -> 0 <= to -> valid m tl th ->
  exists tl' th', FindProjection from to low high tl th = Some (tl', th') /\ projected R from to tl th tl' th' /\ valid m tl' th' /\
    (tl' = -1 -> tl = -1 /\ forall s t, from <= s < to -> ~ R s t).
Proof.
  intros (S1 & S2 & D) Hf Ht Ht0 V. unfold FindProjection. destruct (Z.ltb_spec to 0); [lia|]. destruct (Z.ltb_spec from 0); [lia|].
  destruct (for_up_inv (fun i p => let '(a, b) := p in projected R from i tl th a b /\ valid m a b /\ (a = -1 -> tl = -1 /\ forall s t, from <= s < i -> ~ R s t))
    (proj_step low high) (Z.to_nat (to - from)) from (tl, th)) as ([a b] & E & I1 & I2 & I3).
  - intros i [a b] Hi ((P1 & P2 & P3 & P4 & P5) & V' & P6). assert (Hi' : 0 <= i < n) by lia.
    unfold proj_step. rewrite get_some by lia. cbn [bind]. destruct (D i Hi') as [(A & B & C)|(A & B & C & F & G)].
    + rewrite A, Z.eqb_refl. exists (a, b). split; [auto|]. split; [split; [|split; [|split; [|auto]]]|split; [auto|]].
      * destruct P1 as [|(s & X & Y)]; [auto|right; exists s; split; [lia|auto]].
      * destruct P2 as [|(s & X & Y)]; [auto|right; exists s; split; [lia|auto]].
      * intros s t Hs X. destruct (Z.eq_dec s i) as [->|]; [exfalso; eapply C; eauto|apply (P3 s t); [lia|auto]].
      * intros X. destruct (P6 X) as [Y Z]. split; [auto|]. intros s t Hs. destruct (Z.eq_dec s i) as [->|]; [apply C|apply Z; lia].
    + destruct (Z.eqb_spec (at_ low i) (-1)); [lia|]. rewrite get_some by lia. cbn [bind].
      eexists. split; [reflexivity|]. cbv beta iota.
      set (a' := if orb (a =? -1) (at_ low i <? a) then at_ low i else a).
      assert (Ha : (a' = at_ low i \/ a' = a) /\ a' <= at_ low i /\ 0 <= a' /\ (0 <= a -> a' <= a)).
      { unfold a'. destruct (Z.eqb_spec a (-1)); cbn [orb]; [lia|]. destruct V' as [V'|V']; [lia|]. destruct (Z.ltb_spec (at_ low i) a); lia. }
      destruct Ha as (H1 & H2 & H3 & H4). split; [split; [|split; [|split; [|split]]]|split].
      * destruct H1 as [-> | ->]; [right; exists i; split; [lia|auto]|]. destruct P1 as [|(s & X & Y)]; [auto|right; exists s; split; [lia|auto]].
      * destruct (Z.max_spec b (at_ high i)) as [[X ->]|[X ->]]; [right; exists i; split; [lia|auto]|].
        destruct P2 as [|(s & Y & Z)]; [auto|right; exists s; split; [lia|auto]].
      * intros s t Hs X. destruct (Z.eq_dec s i) as [->|Ne]; [apply G in X; lia|]. specialize (P3 s t ltac:(lia) X).
        destruct V' as [V'|V']; [lia|]. lia.
      * intros X. destruct V' as [[-> ->]|V']; [|lia]. destruct P1 as [P1|(s & Y & Z)]; [lia|]. specialize (P3 _ _ Y Z). lia.
      * lia.
      * right. destruct V' as [V'|V']; lia.
      * lia.
  - split; [split; [auto|]; split; [auto|]; split; [intros; lia|lia]|]. split; [auto|]. intros X. split; [auto|]. intros; lia.
  - rewrite E. exists a, b. split; [auto|].
    destruct (Z_le_dec from to) as [L|L].
    + replace (from + Z.of_nat (Z.to_nat (to - from))) with to in * by lia. auto.
    + replace (from + Z.of_nat (Z.to_nat (to - from))) with from in * by lia.
      assert (X : Z.to_nat (to - from) = O) by lia. rewrite X in E. cbn [for_up] in E. injection E as <- <-.
      split; [split; [auto|]; split; [auto|]; split; [intros; lia|lia]|]. split; [auto|]. intros Y. split; [auto|]. intros; lia.
Qed.

(** * The loop *)
Section Loop.
Variable o : fix_opts.
Variable sp : spans.
Variable links : list (Z * Z).
Variables ns nt : Z.
Hypothesis DS : described (fun s t => In (s, t) links) ns nt (s_low sp) (s_high sp).
Hypothesis DT : described (fun t s => In (s, t) links) nt ns (t_low sp) (t_high sp).
Variables sl sh : Z.   (* the phrase *)
Hypothesis PH : 0 <= sl < sh /\ sh <= ns.

Definition inv (spl sph tl th bl bh new_x : Z) (nlx nhx : bool) : Prop :=
  0 <= spl /\ spl <= sl /\ sh <= sph /\ sph <= ns /\ 0 <= tl < th /\ th <= nt /\ th - tl <= max_rule_span o /\
  0 <= bl < bh /\ bh <= ns /\
  (forall s t, In (s, t) links -> spl <= s < sph -> tl <= t < th) /\
  (forall s t, In (s, t) links -> tl <= t < th -> Z.min bl spl <= s < Z.max bh sph) /\
  (nlx = true <-> spl < sl) /\ (nhx = true <-> sh < sph) /\
  (spl < sl -> allow_low_x o = true /\ min_source_gap_size o <= sl - spl) /\
  (sh < sph -> allow_high_x o = true /\ min_source_gap_size o <= sph - sh) /\
  new_x = b2z nlx + b2z nhx /\ (0 < new_x -> new_x <= max_new_x o /\ sph - spl <= max_rule_span o).
(** contained in every closed pair of spans *)
Definition least (sl' sh' tl' th' spl sph tl th bl bh : Z) : Prop :=
  sl' <= spl /\ sph <= sh' /\ tl' <= tl /\ th <= th' /\ sl' <= bl /\ bh <= sh'.
Definition good_result (r : fixed) : Prop :=
  closed links (r_bl r) (r_bh r) (r_tl r) (r_th r) /\
  0 <= r_bl r <= sl /\ sh <= r_bh r <= ns /\ 0 <= r_tl r < r_th r /\ r_th r <= nt /\ r_th r - r_tl r <= max_rule_span o /\
  (r_bl r < sl -> allow_low_x o = true /\ min_source_gap_size o <= sl - r_bl r) /\
  (sh < r_bh r -> allow_high_x o = true /\ min_source_gap_size o <= r_bh r - sh) /\
  (0 < sides sl sh (r_bl r) (r_bh r) -> sides sl sh (r_bl r) (r_bh r) <= max_new_x o /\ r_bh r - r_bl r <= max_rule_span o).
(** the closed pair sl' .. th' satisfies the options *)
Definition admissible (sl' sh' tl' th' : Z) : Prop :=
  sh' - sl' <= max_rule_span o /\ th' - tl' <= max_rule_span o /\ sides sl sh sl' sh' <= max_new_x o /\
  (sl' < sl -> allow_low_x o = true) /\ (sh < sh' -> allow_high_x o = true) /\ allow_arbitrary_expansion o = true.

Lemma sides_b a b : sides sl sh a b = b2z (a <? sl) + b2z (sh <? b).
Proof. unfold sides, b2z. auto. Qed.

Lemma b2z_01 b : 0 <= b2z b <= 1.
Proof. destruct b; simpl; lia. Qed.
Ltac qlia := try solve [repeat match goal with H : ?T |- _ => match T with ?A -> ?B => clear H | _ <-> _ => clear H | _ \/ _ => clear H end end; lia]; lia.
Lemma loop_ok : forall fuel spl sph tl th bl bh new_x nlx nhx, inv spl sph tl th bl bh new_x nlx nhx ->
  ns - (sph - spl) < Z.of_nat fuel ->
  exists r, fix_loop o sp ns fuel spl sph tl th bl bh new_x nlx nhx = Some r /\
    (found r = true -> good_result r) /\
    (min_source_gap_size o <= 1 -> forall sl' sh' tl' th', closed links sl' sh' tl' th' -> least sl' sh' tl' th' spl sph tl th bl bh ->
       (found r = true -> sl' <= r_bl r /\ r_bh r <= sh' /\ tl' <= r_tl r /\ r_th r <= th') /\
       (0 <= sl' -> sh' <= ns -> admissible sl' sh' tl' th' -> found r = true)).
Proof.
  induction fuel as [|f IH]; intros spl sph tl th bl bh new_x nlx nhx I F.
  { destruct I as (I1 & I2 & I3 & I4 & _). lia. }
  destruct I as (I1 & I2 & I3 & I4 & I5 & I6 & I7 & I8 & I9 & C1 & C2 & NL & NH & AL & AH & NX & MX).
  cbn [fix_loop]. cbv zeta. set (bl0 := Z.min bl spl) in *. set (bh0 := Z.max bh sph) in *.
  assert (Hb : 0 <= bl0 <= spl /\ sph <= bh0 <= ns) by (unfold bl0, bh0; lia). destruct Hb as [Hb1 Hb2].
  assert (NL' : nlx = (spl <? sl)) by (apply eq_true_iff_eq; rewrite NL, Z.ltb_lt; reflexivity).
  assert (NH' : nhx = (sh <? sph)) by (apply eq_true_iff_eq; rewrite NH, Z.ltb_lt; reflexivity).
  assert (SB : new_x = sides sl sh spl sph) by (rewrite sides_b, NX, NL', NH'; auto).
  assert (LE : forall sl' sh' tl' th', least sl' sh' tl' th' spl sph tl th bl bh -> sl' <= bl0 /\ bh0 <= sh' /\ tl' <= tl /\ th <= th').
  { intros sl' sh' tl' th' (L1 & L2 & L3 & L4 & L5 & L6). unfold bl0, bh0. lia. }
  assert (MM : bl0 <= bl /\ bh <= bh0) by (unfold bl0, bh0; lia). clearbody bl0 bh0.
  destruct (andb (bl0 =? spl) (bh0 =? sph)) eqn:E0.
  { (* 163 *)
    apply andb_prop in E0. destruct E0 as [E1 E2]. apply Z.eqb_eq in E1, E2.
    eexists. split; [reflexivity|]. cbn [found r_tl r_th r_bl r_bh]. split.
    - intros _. unfold good_result. cbn [r_tl r_th r_bl r_bh]. rewrite E1, E2. split.
      { intros s t L. split; [apply C1; auto|]. intros X. specialize (C2 s t L X). qlia. }
      rewrite SB in MX. split; [qlia|]. split; [qlia|]. split; [qlia|]. split; [qlia|]. split; [qlia|]. auto.
    - intros _ sl' sh' tl' th' _ Q. apply LE in Q. split; [intros _; qlia|auto]. }
  assert (GR : bl0 < spl \/ sph < bh0).
  { destruct (Z.eqb_spec bl0 spl); destruct (Z.eqb_spec bh0 sph); cbn in E0; try discriminate; qlia. }
  clear E0.
  destruct (andb (negb (allow_low_x o)) (bl0 <? spl)) eqn:E1.
  { apply andb_prop in E1. destruct E1 as [E1 E2]. apply negb_true_iff in E1. apply Z.ltb_lt in E2.
    eexists; split; [reflexivity|]; cbn [found]; split; [discriminate|]. intros MG sl' sh' tl' th' CL Q. apply LE in Q. split; [discriminate|].
    intros Q1 Q2 (A1 & A2 & A3 & A4 & A5 & A6). specialize (A4 ltac:(qlia)). congruence. }
  destruct (andb (negb (allow_high_x o)) (sph <? bh0)) eqn:E2.
  { apply andb_prop in E2. destruct E2 as [E2 E3]. apply negb_true_iff in E2. apply Z.ltb_lt in E3.
    eexists; split; [reflexivity|]; cbn [found]; split; [discriminate|]. intros MG sl' sh' tl' th' CL Q. apply LE in Q. split; [discriminate|].
    intros Q1 Q2 (A1 & A2 & A3 & A4 & A5 & A6). specialize (A5 ltac:(qlia)). congruence. }
  assert (AL' : bl0 < spl -> allow_low_x o = true).
  { intros X. apply andb_false_iff in E1. destruct E1 as [E1|E1]; [apply negb_false_iff; auto|apply Z.ltb_ge in E1; qlia]. }
  assert (AH' : sph < bh0 -> allow_high_x o = true).
  { intros X. apply andb_false_iff in E2. destruct E2 as [E2|E2]; [apply negb_false_iff; auto|apply Z.ltb_ge in E2; qlia]. }
  clear E1 E2.
  (* the left side *)
  destruct (andb (bl0 <? spl) (andb (negb nlx) (max_new_x o <=? new_x))) eqn:E1.
  { apply andb_prop in E1. destruct E1 as [E1 E2]. apply Z.ltb_lt in E1. apply andb_prop in E2. destruct E2 as [E2 E3]. apply Z.leb_le in E3.
    eexists; split; [reflexivity|]; cbn [found]; split; [discriminate|]. intros MG sl' sh' tl' th' CL Q. apply LE in Q. split; [discriminate|].
    intros Q1 Q2 (A1 & A2 & A3 & A4 & A5 & A6). exfalso. unfold sides in A3, SB. rewrite NL' in E2.
    destruct (Z.ltb_spec spl sl); [discriminate|]. destruct (Z.ltb_spec sl' sl); [|qlia]. destruct (Z.ltb_spec sh sh'); destruct (Z.ltb_spec sh sph); qlia. }
  set (new_x1 := if andb (bl0 <? spl) (negb nlx) then new_x + 1 else new_x).
  set (bl1 := if andb (bl0 <? spl) (spl - bl0 <? min_source_gap_size o) then spl - min_source_gap_size o else bl0).
  assert (NX1 : new_x1 = b2z (orb nlx (bl0 <? spl)) + b2z nhx /\ (bl0 < spl -> new_x1 <= max_new_x o)).
  { unfold new_x1. pose proof (b2z_01 nhx). destruct (Z.ltb_spec bl0 spl) as [B|B]; destruct nlx; cbn [andb negb orb b2z] in *.
    - split; [qlia|]. intros _. apply MX. qlia.
    - apply Z.leb_gt in E1. split; qlia.
    - split; [qlia|qlia].
    - split; [qlia|qlia]. }
  destruct NX1 as [NX1 NX1'].
  assert (B1 : bl1 <= bl0 /\ (bl0 = spl -> bl1 = spl) /\ (bl0 < spl -> min_source_gap_size o <= spl - bl1) /\ (min_source_gap_size o <= 1 -> bl1 = bl0)).
  { unfold bl1. destruct (Z.ltb_spec bl0 spl); destruct (Z.ltb_spec (spl - bl0) (min_source_gap_size o)); cbn [andb]; qlia. }
  destruct B1 as (B1 & B2 & B3 & B4).
  destruct (andb (bl0 <? spl) (bl1 <? 0)) eqn:E2.
  { apply andb_prop in E2. destruct E2 as [E2 E3]. apply Z.ltb_lt in E2, E3.
    eexists; split; [reflexivity|]; cbn [found]; split; [discriminate|]. intros MG. specialize (B4 MG). qlia. }
  assert (P1 : 0 <= bl1).
  { destruct (Z.ltb_spec bl0 spl); cbn [andb] in E2; [apply Z.ltb_ge in E2; auto|qlia]. }
  clear E2. clearbody bl1.
  (* the right side *)
  destruct (andb (sph <? bh0) (andb (negb nhx) (max_new_x o <=? new_x1))) eqn:E2.
  { apply andb_prop in E2. destruct E2 as [E2 E3]. apply Z.ltb_lt in E2. apply andb_prop in E3. destruct E3 as [E3 E4]. apply Z.leb_le in E4.
    eexists; split; [reflexivity|]; cbn [found]; split; [discriminate|]. intros MG sl' sh' tl' th' CL Q. apply LE in Q. split; [discriminate|].
    intros Q1 Q2 (A1 & A2 & A3 & A4 & A5 & A6). exfalso. unfold sides in A3. rewrite NX1 in E4. rewrite NH' in E3, E4. rewrite NL' in E4.
    destruct (Z.ltb_spec sh sph); [discriminate|]. destruct (Z.ltb_spec sh sh'); [|qlia].
    destruct (Z.ltb_spec sl' sl); destruct (Z.ltb_spec spl sl); destruct (Z.ltb_spec bl0 spl); cbn [orb b2z] in *; qlia. }
  set (new_x2 := if andb (sph <? bh0) (negb nhx) then new_x1 + 1 else new_x1).
  set (bh1 := if andb (sph <? bh0) (bh0 - sph <? min_source_gap_size o) then sph + min_source_gap_size o else bh0).
  assert (NX2 : new_x2 = b2z (orb nlx (bl0 <? spl)) + b2z (orb nhx (sph <? bh0)) /\ new_x2 <= max_new_x o).
  { unfold new_x2. pose proof (b2z_01 (orb nlx (bl0 <? spl))). destruct (Z.ltb_spec sph bh0) as [B|B]; destruct nhx; cbn [andb negb orb b2z] in *.
    - split; [qlia|]. destruct (Z_lt_le_dec bl0 spl); [auto|]. rewrite NX1. destruct (Z.ltb_spec bl0 spl); [qlia|]. rewrite orb_false_r. rewrite <- NX. apply MX. pose proof (b2z_01 nlx). qlia.
    - apply Z.leb_gt in E2. split; qlia.
    - split; [qlia|]. apply NX1'. qlia.
    - split; [qlia|]. apply NX1'. qlia. }
  destruct NX2 as [NX2 NX2'].
  assert (D1 : bh0 <= bh1 /\ (bh0 = sph -> bh1 = sph) /\ (sph < bh0 -> min_source_gap_size o <= bh1 - sph) /\ (min_source_gap_size o <= 1 -> bh1 = bh0)).
  { unfold bh1. destruct (Z.ltb_spec sph bh0); destruct (Z.ltb_spec (bh0 - sph) (min_source_gap_size o)); cbn [andb]; qlia. }
  destruct D1 as (D1 & D2 & D3 & D4).
  destruct (andb (sph <? bh0) (ns <? bh1)) eqn:E3.
  { apply andb_prop in E3. destruct E3 as [E3 E4]. apply Z.ltb_lt in E3, E4.
    eexists; split; [reflexivity|]; cbn [found]; split; [discriminate|]. intros MG. specialize (D4 MG). qlia. }
  assert (P2 : bh1 <= ns).
  { destruct (Z.ltb_spec sph bh0); cbn [andb] in E3; [apply Z.ltb_ge in E3; auto|qlia]. }
  clear E3. clearbody bh1 new_x2.
  destruct (Z.ltb_spec (max_rule_span o) (bh1 - bl1)) as [E3|E3].
  { eexists; split; [reflexivity|]; cbn [found]; split; [discriminate|]. intros MG sl' sh' tl' th' CL Q. apply LE in Q. split; [discriminate|].
    intros Q1 Q2 (A1 & A2 & A3 & A4 & A5 & A6). specialize (B4 MG). specialize (D4 MG). qlia. }
  (* the new parts of the source side *)
  destruct (proj_ok _ _ _ _ _ bl1 spl tl th DS) as (tl1 & th1 & -> & (X1 & X2 & X3 & X4 & X5) & V1 & _); [qlia|qlia|qlia|right; qlia|]. cbn [bind].
  assert (V1' : 0 <= tl1 < th1 /\ th1 <= nt) by (destruct V1 as [V1|V1]; qlia).
  destruct (proj_ok _ _ _ _ _ sph bh1 tl1 th1 DS) as (tl2 & th2 & -> & (Y1 & Y2 & Y3 & Y4 & Y5) & V2 & _); [qlia|qlia|qlia|right; qlia|]. cbn [bind].
  assert (V2' : 0 <= tl2 < th2 /\ th2 <= nt) by (destruct V2 as [V2|V2]; qlia).
  assert (T1 : tl2 <= tl /\ th <= th2) by qlia.
  assert (C1' : forall s t, In (s, t) links -> bl1 <= s < bh1 -> tl2 <= t < th2).
  { intros s t L Hs. destruct (Z_lt_le_dec s spl); [specialize (X3 s t ltac:(qlia) L); qlia|].
    destruct (Z_lt_le_dec s sph); [specialize (C1 s t L ltac:(qlia)); qlia|]. apply (Y3 s t); [qlia|auto]. }
  assert (LT : forall sl' sh' tl' th', min_source_gap_size o <= 1 -> closed links sl' sh' tl' th' -> least sl' sh' tl' th' spl sph tl th bl bh ->
    sl' <= bl1 /\ bh1 <= sh' /\ tl' <= tl2 /\ th2 <= th').
  { intros sl' sh' tl' th' MG CL Q. apply LE in Q. specialize (B4 MG). specialize (D4 MG). split; [qlia|]. split; [qlia|].
    assert (K : forall s t, bl1 <= s < bh1 -> In (s, t) links -> tl' <= t < th') by (intros s t Hs L; apply (CL s t L); qlia).
    split.
    - destruct Y1 as [-> |(s & Hs & L)]; [|apply (K s tl2) in L; qlia].
      destruct X1 as [-> |(s & Hs & L)]; [qlia|apply (K s tl1) in L; qlia].
    - destruct Y2 as [-> |(s & Hs & L)]; [|apply (K s (th2 - 1)) in L; qlia].
      destruct X2 as [-> |(s & Hs & L)]; [qlia|apply (K s (th1 - 1)) in L; qlia]. }
  assert (SD : sides sl sh bl1 bh1 = new_x2).
  { rewrite sides_b, NX2, NL', NH'. f_equal; f_equal.
    - destruct (Z.ltb_spec bl1 sl); destruct (Z.ltb_spec spl sl); destruct (Z.ltb_spec bl0 spl); cbn [orb]; auto; try qlia.
    - destruct (Z.ltb_spec sh bh1); destruct (Z.ltb_spec sh sph); destruct (Z.ltb_spec sph bh0); cbn [orb]; auto; try qlia. }
  assert (AL2 : bl1 < sl -> allow_low_x o = true /\ min_source_gap_size o <= sl - bl1).
  { intros X. destruct (Z_lt_le_dec bl0 spl) as [Q|Q]; [split; [auto|specialize (B3 Q); qlia]|]. rewrite B2 in * by qlia. apply AL. auto. }
  assert (AH2 : sh < bh1 -> allow_high_x o = true /\ min_source_gap_size o <= bh1 - sh).
  { intros X. destruct (Z_lt_le_dec sph bh0) as [Q|Q]; [split; [auto|specialize (D3 Q); qlia]|]. rewrite D2 in * by qlia. apply AH. auto. }
  clear X1 X2 X3 X4 X5 Y1 Y2 Y3 Y4 Y5 V1 V2 V1'.
  destruct (andb (tl =? tl2) (th =? th2)) eqn:E4.
  { apply andb_prop in E4. destruct E4 as [E4 E5]. apply Z.eqb_eq in E4, E5.
    eexists. split; [reflexivity|]. cbn [found r_tl r_th r_bl r_bh]. split.
    - intros _. unfold good_result. cbn [r_tl r_th r_bl r_bh]. split.
      { intros s t L. split; [apply C1'; auto|]. intros X. specialize (C2 s t L ltac:(qlia)). qlia. }
      rewrite SD. split; [qlia|]. split; [qlia|]. split; [qlia|]. split; [qlia|]. split; [qlia|]. split; [auto|]. split; [auto|]. auto.
    - intros MG sl' sh' tl' th' CL Q. split; [intros _; apply LT; auto|auto]. }
  destruct (allow_arbitrary_expansion o) eqn:E5; cbn [negb].
  2:{ eexists; split; [reflexivity|]; cbn [found]; split; [discriminate|]. intros MG sl' sh' tl' th' CL Q. split; [discriminate|].
      intros Q1 Q2 (A1 & A2 & A3 & A4 & A5 & A6). congruence. }
  destruct (Z.ltb_spec (max_rule_span o) (th2 - tl2)) as [E6|E6].
  { eexists; split; [reflexivity|]; cbn [found]; split; [discriminate|]. intros MG sl' sh' tl' th' CL Q. specialize (LT _ _ _ _ MG CL Q). split; [discriminate|].
    intros Q1 Q2 (A1 & A2 & A3 & A4 & A5 & A6). qlia. }
  destruct (proj_ok _ _ _ _ _ tl2 tl bl1 bh1 DT) as (bl2 & bh2 & -> & (U1 & U2 & U3 & U4 & U5) & V3 & _); [qlia|qlia|qlia|right; qlia|]. cbn [bind].
  assert (V3' : 0 <= bl2 < bh2 /\ bh2 <= ns) by (destruct V3 as [V3|V3]; qlia).
  destruct (proj_ok _ _ _ _ _ th th2 bl2 bh2 DT) as (bl3 & bh3 & -> & (W1 & W2 & W3 & W4 & W5) & V4 & _); [qlia|qlia|qlia|right; qlia|]. cbn [bind].
  assert (V4' : 0 <= bl3 < bh3 /\ bh3 <= ns) by (destruct V4 as [V4|V4]; qlia).
  destruct (IH bl1 bh1 tl2 th2 bl3 bh3 new_x2 (orb nlx (bl0 <? spl)) (orb nhx (sph <? bh0))) as (r & -> & R1 & R2).
  - clear IH E4 LT LE F U1 U2 W1 W2 V3 V4 AL' AH' B4 D4 AL AH NX1 NX1' MX SB SD NL NH NX I7 I8 I9.
    unfold inv. repeat match goal with |- _ /\ _ => split end; try qlia; auto.
    + intros s t L Ht. destruct (Z_lt_le_dec t tl); [specialize (U3 t s ltac:(qlia) L); qlia|].
      destruct (Z_lt_le_dec t th); [specialize (C2 s t L ltac:(qlia)); qlia|]. specialize (W3 t s ltac:(qlia) L). qlia.
    + rewrite NL'. destruct (Z.ltb_spec spl sl); destruct (Z.ltb_spec bl0 spl); cbn [orb]; split; intros; auto; try qlia; discriminate.
    + rewrite NH'. destruct (Z.ltb_spec sh sph); destruct (Z.ltb_spec sph bh0); cbn [orb]; split; intros; auto; try qlia; discriminate.
  - qlia.
  - exists r. split; [auto|]. split; [auto|]. intros MG sl' sh' tl' th' CL Q. apply (R2 MG); auto.
    specialize (LT _ _ _ _ MG CL Q). unfold least.
    assert (K : forall s t, tl2 <= t < th2 -> In (s, t) links -> sl' <= s < sh') by (intros s t Hs L; apply (CL s t L); qlia).
    split; [qlia|]. split; [qlia|]. split; [qlia|]. split; [qlia|]. split.
    + destruct W1 as [-> |(t & Ht & L)]; [|apply (K bl3 t) in L; qlia].
      destruct U1 as [-> |(t & Ht & L)]; [qlia|apply (K bl2 t) in L; qlia].
    + destruct W2 as [-> |(t & Ht & L)]; [|apply (K (bh3 - 1) t) in L; qlia].
      destruct U2 as [-> |(t & Ht & L)]; [qlia|apply (K (bh2 - 1) t) in L; qlia].
Qed.
End Loop.

Lemma fix_top o sp links ns nt sl sh bl0 bh0 :
  described (fun s t => In (s, t) links) ns nt (s_low sp) (s_high sp) ->
  described (fun t s => In (s, t) links) nt ns (t_low sp) (t_high sp) ->
  0 <= sl <= sh -> sh <= ns ->
  exists r, FindFixPoint o sp ns nt sl sh (-1) (-1) bl0 bh0 = Some r /\
    (found r = true -> good_result o links ns nt sl sh r /\ exists s t, In (s, t) links /\ sl <= s < sh) /\
    (min_source_gap_size o <= 1 -> forall sl' sh' tl' th', closed links sl' sh' tl' th' -> sl' <= sl -> sh <= sh' ->
       (found r = true -> sl' <= r_bl r /\ r_bh r <= sh' /\ tl' <= r_tl r /\ r_th r <= th') /\
       ((exists s t, In (s, t) links /\ sl <= s < sh) -> 0 <= sl' -> sh' <= ns -> admissible o sl sh sl' sh' tl' th' -> found r = true)).
Proof.
  intros DS DT H1 H2. unfold FindFixPoint.
  destruct (proj_ok _ _ _ _ _ sl sh (-1) (-1) DS) as (tl & th & -> & (X1 & X2 & X3 & X4 & X5) & V & Nn); [lia|lia|lia|left; auto|]. cbn [bind].
  destruct (Z.eqb_spec tl (-1)) as [E|E].
  { eexists. split; [reflexivity|]. cbn [found]. split; [discriminate|]. intros _ sl' sh' tl' th' _ _ _. split; [discriminate|].
    intros (s & t & L & Hs). exfalso. destruct (Nn E) as [_ K]. apply (K s t); auto. }
  destruct V as [V|V]; [lia|]. destruct X1 as [X1|(s0 & Hs0 & L0)]; [lia|]. destruct X2 as [X2|(s1 & Hs1 & L1)]; [lia|].
  cbn [Z.eqb negb andb Pos.eqb].
  destruct (Z.ltb_spec (max_rule_span o) (th - tl)) as [E2|E2].
  { eexists. split; [reflexivity|]. cbn [found]. split; [discriminate|]. intros _ sl' sh' tl' th' CL Q1 Q2. split; [discriminate|].
    intros _ Q3 Q4 (A1 & A2 & _). exfalso. apply (CL s0 tl) in L0. apply (CL s1 (th - 1)) in L1. lia. }
  destruct (proj_ok _ _ _ _ _ tl th (-1) (-1) DT) as (bl & bh & -> & (Y1 & Y2 & Y3 & Y4 & Y5) & V2 & Nb); [lia|lia|lia|left; auto|]. cbn [bind].
  destruct V2 as [V2|V2]; [exfalso; destruct (Nb ltac:(lia)) as [_ K]; apply (K tl s0); [lia|auto]|].
  assert (PH : 0 <= sl < sh /\ sh <= ns) by lia.
  destruct (loop_ok o sp links ns nt DS DT sl sh PH (Z.to_nat ns + 2) sl sh tl th bl bh 0 false false) as (r & -> & R1 & R2).
  - unfold inv. split; [lia|]. split; [lia|]. split; [lia|]. split; [lia|]. split; [lia|]. split; [lia|]. split; [lia|]. split; [lia|]. split; [lia|].
    split; [intros s t L Hs; apply (X3 s t); auto|]. split; [intros s t L Ht; specialize (Y3 t s Ht L); lia|].
    split; [split; [discriminate|lia]|]. split; [split; [discriminate|lia]|]. split; [lia|]. split; [lia|]. split; [reflexivity|lia].
  - lia.
  - exists r. split; [auto|]. split; [intros Fd; split; [auto|eauto]|]. intros MG sl' sh' tl' th' CL Q1 Q2.
    destruct (R2 MG sl' sh' tl' th' CL) as [R3 R4].
    + unfold least. pose proof (CL s0 tl L0) as Z1. pose proof (CL s1 (th - 1) L1) as Z2. split; [lia|]. split; [lia|]. split; [lia|]. split; [lia|].
      destruct Y1 as [Y1|(t & Ht & L)]; [lia|]. destruct Y2 as [Y2|(t' & Ht' & L')]; [lia|].
      pose proof (CL bl t L) as Z3. pose proof (CL (bh - 1) t' L') as Z4. lia.
    + split; [auto|]. intros _. auto.
Qed.

(** * Gap order *)
Lemma gap_lt_spec a b : gap_lt a b = true <-> before a b.
Proof.
  unfold gap_lt, before. rewrite orb_true_iff, andb_true_iff, !Z.ltb_lt, Z.eqb_eq. tauto.
Qed.
Lemma order_safe gaps : exists ord, GetGapOrder gaps = Some ord /\ length ord = length gaps /\ forall i, 0 <= i < size ord -> 0 <= at_ ord i < size ord.
Proof.
  unfold GetGapOrder. set (n := Z.of_nat (length gaps)).
  assert (GG : forall k, 0 <= k < n -> exists g, get_gap gaps k = Some g).
  { intros k Hk. unfold get_gap. destruct (Z.ltb_spec k 0); [lia|]. destruct (nth_error gaps (Z.to_nat k)) eqn:E; [eauto|].
    apply nth_error_None in E. lia. }
  destruct (for_up_inv (fun i ord => size ord = n /\ (forall k, 0 <= k < i -> 0 <= at_ ord k < i) /\ (forall k, i <= k < n -> at_ ord k = 0))
    (fun i ord => for_up (Z.to_nat i) 0 (go_inner gaps i) ord) (length gaps) 0 (repeat 0 (length gaps))) as (ord & E & I1 & I2 & I3).
  - intros i ord Hi (A1 & A2 & A3).
    destruct (for_up_inv (fun j o => size o = n /\ (forall k, 0 <= k < j -> 0 <= at_ o k <= i) /\ (forall k, j <= k < i -> 0 <= at_ o k < i) /\
        0 <= at_ o i <= j /\ (forall k, i < k < n -> at_ o k = 0)) (go_inner gaps i) (Z.to_nat i) 0 ord) as (o & E & B1 & B2 & B3 & B4 & B5).
    + intros j o Hj (C1 & C2 & C3 & C4 & C5). unfold go_inner. rewrite get_some by lia. cbn [bind].
      pose proof (C3 j ltac:(lia)). destruct (GG (at_ o j)) as (gj & ->); [lia|]. cbn [bind]. destruct (GG i) as (gi & ->); [lia|]. cbn [bind].
      destruct (gap_lt gj gi).
      * rewrite get_some by lia. cbn [bind]. destruct (put_some o i (at_ o i + 1)) as (o' & -> & Sz & Ao); [lia|]. exists o'. split; [auto|].
        split; [lia|]. split; [|split; [|split]].
        -- intros k Hk. rewrite Ao by lia. destruct (Z.eqb_spec k i); [lia|]. destruct (Z.eq_dec k j) as [->|]; [lia|apply C2; lia].
        -- intros k Hk. rewrite Ao by lia. destruct (Z.eqb_spec k i); [lia|]. apply C3. lia.
        -- rewrite Ao by lia. rewrite Z.eqb_refl. lia.
        -- intros k Hk. rewrite Ao by lia. destruct (Z.eqb_spec k i); [lia|]. apply C5. lia.
      * destruct (put_some o j (at_ o j + 1)) as (o' & -> & Sz & Ao); [lia|]. exists o'. split; [auto|].
        split; [lia|]. split; [|split; [|split]].
        -- intros k Hk. rewrite Ao by lia. destruct (Z.eqb_spec k j); [lia|]. apply C2; lia.
        -- intros k Hk. rewrite Ao by lia. destruct (Z.eqb_spec k j); [lia|]. apply C3. lia.
        -- rewrite Ao by lia. destruct (Z.eqb_spec i j); lia.
        -- intros k Hk. rewrite Ao by lia. destruct (Z.eqb_spec k j); [lia|]. apply C5. lia.
    + split; [auto|]. split; [intros; lia|]. split; [intros; apply A2; lia|]. split; [rewrite A3; lia|]. intros; apply A3; lia.
    + exists o. split; [exact E|]. replace (0 + Z.of_nat (Z.to_nat i)) with i in * by lia. split; [auto|]. split.
      * intros k Hk. destruct (Z.eq_dec k i) as [->|]; [lia|]. specialize (B2 k ltac:(lia)). lia.
      * intros k Hk. apply B5. lia.
  - split; [unfold size; rewrite repeat_length; auto|]. split; [intros; lia|]. intros k Hk. unfold at_. apply nth_error_nth. apply nth_error_repeat. lia.
  - exists ord. split; [exact E|]. unfold size in *. split; [lia|]. intros i Hi. specialize (I2 i ltac:(lia)). lia.
Qed.
Lemma order_two a b : before a b \/ before b a -> exists r0 r1, GetGapOrder [a; b] = Some [Z.of_nat r0; Z.of_nat r1] /\ rank_of [a; b] 0 r0 /\ rank_of [a; b] 1 r1.
Proof.
  assert (IR : forall x, ~ before x x) by (unfold before; intros; lia).
  assert (AS : forall x y, before x y -> ~ before y x) by (unfold before; intros; lia).
  assert (RK0 : forall x y, before x y -> rank_of [x; y] 0 0).
  { intros x y B. exists []. split; [constructor|]. split; [auto|]. intros j. split; [intros []|]. intros (g & h & G & H & K). injection H as <-.
    destruct j as [|[|j]]; cbn in G; [| |destruct j; discriminate]; injection G as <-; exfalso; [eapply IR|eapply AS]; eauto. }
  assert (RK1 : forall x y, before x y -> rank_of [x; y] 1 1).
  { intros x y B. exists [0%nat]. split; [constructor; [intros []|constructor]|]. split; [auto|]. intros j. split.
    - intros [<-|[]]. exists x, y. auto.
    - intros (g & h & G & H & K). injection H as <-. destruct j as [|[|j]]; cbn in G; [left; auto| |destruct j; discriminate]. injection G as <-. exfalso. eapply IR; eauto. }
  assert (RK2 : forall x y, before y x -> rank_of [x; y] 0 1).
  { intros x y B. exists [1%nat]. split; [constructor; [intros []|constructor]|]. split; [auto|]. intros j. split.
    - intros [<-|[]]. exists y, x. auto.
    - intros (g & h & G & H & K). injection H as <-. destruct j as [|[|j]]; cbn in G; [|left; auto|destruct j; discriminate]. injection G as <-. exfalso. eapply IR; eauto. }
  assert (RK3 : forall x y, before y x -> rank_of [x; y] 1 0).
  { intros x y B. exists []. split; [constructor|]. split; [auto|]. intros j. split; [intros []|]. intros (g & h & G & H & K). injection H as <-.
    destruct j as [|[|j]]; cbn in G; [| |destruct j; discriminate]; injection G as <-; exfalso; [eapply AS|eapply IR]; eauto. }
  intros [B|B].
  - exists 0%nat, 1%nat. split; [|auto]. assert (E : gap_lt a b = true) by (apply gap_lt_spec; auto).
    cbv -[gap_lt]. rewrite E. reflexivity.
  - exists 1%nat, 0%nat. split; [|auto]. assert (E : gap_lt a b = false) by (destruct (gap_lt a b) eqn:E; auto; apply gap_lt_spec in E; exfalso; eapply AS; eauto).
    cbv -[gap_lt]. rewrite E. reflexivity.
Qed.

Lemma fix_spans links ns nt : links_within links (Z.of_nat ns) (Z.of_nat nt) -> exists sp, GetLinksSpans ns nt links = Some sp.
Proof. intros W. destruct (spans_ok _ _ _ W) as (sp & E & _). eauto. Qed.
Lemma fix_closed o links ns nt sp sl sh bl0 bh0 :
  links_within links (Z.of_nat ns) (Z.of_nat nt) -> GetLinksSpans ns nt links = Some sp ->
  0 <= sl <= sh -> sh <= Z.of_nat ns ->
  exists r, FindFixPoint o sp (Z.of_nat ns) (Z.of_nat nt) sl sh (-1) (-1) bl0 bh0 = Some r /\
    (found r = true ->
       closed links (r_bl r) (r_bh r) (r_tl r) (r_th r) /\
       (exists s t, In (s, t) links /\ sl <= s < sh) /\
       0 <= r_bl r <= sl /\ sh <= r_bh r <= Z.of_nat ns /\ 0 <= r_tl r < r_th r /\ r_th r <= Z.of_nat nt /\
       r_th r - r_tl r <= max_rule_span o /\
       (r_bl r < sl -> allow_low_x o = true /\ min_source_gap_size o <= sl - r_bl r) /\
       (sh < r_bh r -> allow_high_x o = true /\ min_source_gap_size o <= r_bh r - sh) /\
       (0 < sides sl sh (r_bl r) (r_bh r) ->
          sides sl sh (r_bl r) (r_bh r) <= max_new_x o /\ r_bh r - r_bl r <= max_rule_span o)).
Proof.
  intros W E H1 H2. destruct (spans_ok _ _ _ W) as (sp' & E' & DS & DT). rewrite E in E'. injection E' as <-.
  destruct (fix_top o sp links _ _ sl sh bl0 bh0 DS DT H1 H2) as (r & R & G & _). exists r. split; [auto|]. intros Fd. destruct (G Fd) as [(A & B) C].
  split; [auto|]. split; [auto|]. exact B.
Qed.
Lemma fix_least o links ns nt sp sl sh bl0 bh0 r :
  links_within links (Z.of_nat ns) (Z.of_nat nt) -> GetLinksSpans ns nt links = Some sp ->
  0 <= sl <= sh -> sh <= Z.of_nat ns -> min_source_gap_size o <= 1 ->
  FindFixPoint o sp (Z.of_nat ns) (Z.of_nat nt) sl sh (-1) (-1) bl0 bh0 = Some r -> found r = true ->
  forall sl' sh' tl' th', closed links sl' sh' tl' th' -> sl' <= sl -> sh <= sh' ->
    sl' <= r_bl r /\ r_bh r <= sh' /\ tl' <= r_tl r /\ r_th r <= th'.
Proof.
  intros W E H1 H2 MG R0 Fd sl' sh' tl' th' CL Q1 Q2. destruct (spans_ok _ _ _ W) as (sp' & E' & DS & DT). rewrite E in E'. injection E' as <-.
  destruct (fix_top o sp links _ _ sl sh bl0 bh0 DS DT H1 H2) as (r' & R & _ & G). rewrite R in R0. injection R0 as <-.
  apply (G MG sl' sh' tl' th' CL Q1 Q2). auto.
Qed.
Lemma fix_complete o links ns nt sp sl sh bl0 bh0 r :
  links_within links (Z.of_nat ns) (Z.of_nat nt) -> GetLinksSpans ns nt links = Some sp ->
  0 <= sl <= sh -> sh <= Z.of_nat ns -> min_source_gap_size o <= 1 -> allow_arbitrary_expansion o = true ->
  (exists s t, In (s, t) links /\ sl <= s < sh) ->
  FindFixPoint o sp (Z.of_nat ns) (Z.of_nat nt) sl sh (-1) (-1) bl0 bh0 = Some r ->
  forall sl' sh' tl' th', closed links sl' sh' tl' th' -> 0 <= sl' <= sl -> sh <= sh' <= Z.of_nat ns ->
    sh' - sl' <= max_rule_span o -> th' - tl' <= max_rule_span o -> sides sl sh sl' sh' <= max_new_x o ->
    (sl' < sl -> allow_low_x o = true) -> (sh < sh' -> allow_high_x o = true) -> found r = true.
Proof.
  intros W E H1 H2 MG AE XL R0 sl' sh' tl' th' CL Q1 Q2 Q3 Q4 Q5 Q6 Q7. destruct (spans_ok _ _ _ W) as (sp' & E' & DS & DT). rewrite E in E'. injection E' as <-.
  destruct (fix_top o sp links _ _ sl sh bl0 bh0 DS DT H1 H2) as (r' & R & _ & G). rewrite R in R0. injection R0 as <-.
  apply (G MG sl' sh' tl' th' CL); auto; try lia. unfold admissible. tauto.
Qed.
Lemma fix_order_safe gaps : exists ord, GetGapOrder gaps = Some ord /\ length ord = length gaps /\
  Forall (fun r => 0 <= r < Z.of_nat (length gaps)) ord.
Proof.
  destruct (order_safe gaps) as (ord & E & L & B). exists ord. split; [auto|]. split; [auto|]. apply Forall_forall. intros x Hx.
  destruct (in_at _ _ Hx) as (i & Hi & <-). specialize (B i Hi). unfold size in B. lia.
Qed.
Lemma fix_order_refuted : exists gaps ord, NoDup gaps /\ GetGapOrder gaps = Some ord /\
  ~ (forall i r, (i < length gaps)%nat -> rank_of gaps i r -> nth_error ord i = Some (Z.of_nat r)).
Proof.
  exists [(9, 10); (0, 1); (3, 4)], [1; 1; 1]. split; [|split; [vm_compute; reflexivity|]].
  - repeat (constructor; [cbn; intuition discriminate|]). constructor.
  - intros C. specialize (C 1%nat 0%nat ltac:(cbn; lia)). discriminate C. exists []. split; [constructor|]. split; [auto|].
    intros j. split; [intros []|]. intros (g & h & G & H & K). injection H as <-. unfold before in K. cbn in K.
    destruct j as [|[|[|j]]]; cbn in G; try (injection G as <-; cbn in K; lia). destruct j; discriminate.
Qed.
