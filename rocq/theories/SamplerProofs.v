From Coq Require Import List ZArith Bool Lia Sorted.
From Verif Require Import Opt OptProofs Precomp Intersect Sampler.
Import ListNotations.
Open Scope Z_scope.
Open Scope opt_scope.

Lemma round_pos a m : 0 < m -> 0 <= a -> 2 * a - m < 2 * m * round_div a m <= 2 * a + m.
Proof.
  intros Hm Ha. unfold round_div. destruct (Z.leb_spec 0 a); [|lia].
  pose proof (Z.div_mod (2 * a + m) (2 * m) ltac:(lia)). pose proof (Z.mod_pos_bound (2 * a + m) (2 * m) ltac:(lia)). lia.
Qed.
Lemma round_any a m : 0 < m -> 2 * a - m <= 2 * m * round_div a m <= 2 * a + m.
Proof.
  intros Hm. destruct (Z.le_gt_cases 0 a); [pose proof (round_pos a m Hm H); lia|]. unfold round_div. destruct (Z.leb_spec 0 a); [lia|].
  pose proof (Z.div_mod (- (2 * a) + m) (2 * m) ltac:(lia)). pose proof (Z.mod_pos_bound (- (2 * a) + m) (2 * m) ltac:(lia)). lia.
Qed.
Lemma round_add a b m : 0 < m -> 0 <= a -> 0 <= b -> round_div (a + b * m) m = round_div a m + b.
Proof.
  intros Hm Ha Hb. unfold round_div. destruct (Z.leb_spec 0 a); [|lia]. destruct (Z.leb_spec 0 (a + b * m)); [|nia].
  replace (2 * (a + b * m) + m) with (2 * a + m + b * (2 * m)) by lia. apply Z.div_add. lia.
Qed.
Lemma round_mono a b m : 0 < m -> 0 <= a <= b -> round_div a m <= round_div b m.
Proof.
  intros Hm H. unfold round_div. destruct (Z.leb_spec 0 a); [|lia]. destruct (Z.leb_spec 0 b); [|lia]. apply Z.div_le_mono; lia.
Qed.
Lemma round_int a m : 0 < m -> 0 <= a -> round_div (a * m) m = a.
Proof. intros Hm Ha. pose proof (round_pos (a * m) m Hm ltac:(nia)). nia. Qed.

Section Backoff.
Variable stray : option (Z -> Z).
Variable d : darray.
Variable blacklisted : Z -> bool.
Variable M : Z.
Variable position : Z -> option Z.
Variables low high : Z.
Hypothesis HM : 0 < M.
Hypothesis Hlow : 0 <= low <= high.
Variable B : Z -> bool.
Notation stepM := (stepM M low high).
Notation black := (black stray d blacklisted position).
Notation backoff := (backoff stray d blacklisted M position low high).
Notation points := (points stray d blacklisted M position low high).
Hypothesis HB : forall s, low <= s < high -> black s = Some (B s).
Let I (n : Z) : Z := low * M + n * stepM.

Lemma step_ge : M <= stepM /\ high - low <= stepM.
Proof. unfold Sampler.stepM. lia. Qed.
Lemma I_sample n : 0 <= n < M -> I n < high * M -> low <= round_div (I n) M < high.
Proof.
  intros Hn Hi. pose proof step_ge. assert (0 <= I n) by (unfold I; nia). pose proof (round_pos (I n) M HM H0).
  split; [unfold I in *; nia|].
  destruct (Z.le_gt_cases (high - low) M) as [Hs|Hs].
  - unfold I in *. assert (E : stepM = M) by (unfold Sampler.stepM; lia). rewrite E in *.
    replace (low * M + n * M) with ((low + n) * M) in * by lia. rewrite round_int by lia. nia.
  - unfold I in *. assert (E : stepM = high - low) by (unfold Sampler.stepM; lia). rewrite E in *. nia.
Qed.
Lemma I_succ n : I n + stepM = I (n + 1).
Proof. unfold I. lia. Qed.
Lemma I_next n b : 0 <= n -> 1 <= b -> b * M < stepM -> round_div (I n) M + b <= round_div (I (n + 1)) M.
Proof.
  intros Hn Hb Hs. pose proof step_ge. assert (0 <= I n) by (unfold I; nia). rewrite <- round_add by lia. apply round_mono; [lia|]. unfold I in *. nia.
Qed.
Lemma I_mono n : 0 <= n -> round_div (I n) M <= round_div (I (n + 1)) M.
Proof. intros Hn. pose proof step_ge. apply round_mono; [lia|]. unfold I. nia. Qed.

Section Access.
Hypothesis Hleft : M < stepM -> forall s, 0 <= s < low -> 2 * M * low - 2 * stepM - M < 2 * M * s -> exists b, black s = Some b.
Lemma left_black n b : 0 <= n < M -> I n < high * M -> 1 <= b -> b * M < stepM -> 0 <= round_div (I n - b * M) M ->
  round_div (I n - b * M) M < high /\ exists x, black (round_div (I n - b * M) M) = Some x /\ (low <= round_div (I n - b * M) M -> x = B (round_div (I n - b * M) M)).
Proof.
  intros Hn Hi Hb Hs Hp. pose proof step_ge. pose proof (round_any (I n - b * M) M HM).
  assert (HU : round_div (I n - b * M) M < high).
  { pose proof (I_sample n Hn Hi). assert (0 <= I n) by (unfold I; nia). pose proof (round_pos (I n) M HM H2). nia. }
  split; auto. destruct (Z.le_gt_cases low (round_div (I n - b * M) M)).
  - rewrite HB by lia. eauto.
  - destruct (Hleft ltac:(nia) (round_div (I n - b * M) M)) as (x & E); [lia| |rewrite E; exists x; split; auto; lia].
    assert (low * M <= I n) by (unfold I; nia). lia.
Qed.
Lemma backoff_ok n last : 0 <= n < M -> I n < high * M -> low - 1 <= last <= round_div (I n) M ->
  forall fuel b, 1 <= b -> stepM <= (b + Z.of_nat fuel) * M ->
  exists r, backoff fuel (I n) last b = Some r /\
    match r with
    | Some s => last < s < high /\ B s = false /\ s <= round_div (I (n + 1)) M
    | None => forall c, b <= c -> c * M < stepM -> round_div (I n) M + c < high -> B (round_div (I n) M + c) = true
    end.
Proof.
  intros Hn Hi Hl. assert (HI0 : 0 <= I n) by (pose proof step_ge; unfold I; nia).
  induction fuel as [|f IH]; intros b Hb Hf; cbn [Sampler.backoff].
  - destruct (Z.ltb_spec (b * M) stepM) as [Hs|Hs].
    + exfalso. nia.
    + exists None. split; auto. intros c Hc Hcs _. exfalso. nia.
  - destruct (Z.ltb_spec (b * M) stepM) as [Hs|Hs].
    2:{ exists None. split; auto. intros c Hc Hcs _. exfalso. nia. }
    cbv zeta. set (lft := round_div (I n - b * M) M).
    assert (HL : exists okl, (if 0 <=? lft then b <- black lft ;; Some (andb (last <? lft) (negb b)) else Some false) = Some okl /\
      (okl = true -> last < lft < high /\ B lft = false)).
    { destruct (Z.leb_spec 0 lft) as [H0|H0].
      - destruct (left_black n b Hn Hi Hb Hs H0) as (HU & x & EX & HX). fold lft in HU, EX, HX. rewrite EX. cbn [bind]. eexists. split; auto. intros E. apply andb_true_iff in E.
        destruct E as [E1 E2]. apply Z.ltb_lt in E1. split; [lia|]. rewrite <- HX by lia. destruct x; [discriminate|auto].
      - eexists. split; auto. discriminate. }
    destruct HL as (okl & -> & HL). cbn [bind]. destruct okl.
    { exists (Some lft). split; auto. destruct (HL eq_refl) as [A C]. split; auto. split; auto.
      transitivity (round_div (I n) M); [|apply I_mono; lia].
      pose proof (round_any (I n - b * M) M HM). fold lft in H. pose proof (round_pos (I n) M HM HI0). nia. }
    rewrite round_add by lia. set (rgt := round_div (I n) M + b).
    assert (Hr : last < rgt) by (subst rgt; lia).
    destruct (Z.ltb_spec rgt high) as [Hh|Hh].
    + rewrite HB by (pose proof (I_sample n Hn Hi); subst rgt; lia). cbn [bind]. destruct (B rgt) eqn:EB; cbn [negb].
      * destruct (IH (b + 1) ltac:(lia) ltac:(nia)) as (r & E & HR). exists r. split; auto. destruct r; auto.
        intros c Hc Hcs Hch. destruct (Z.eq_dec c b) as [->|]; [exact EB|]. apply HR; auto. lia.
      * exists (Some rgt). split; auto. split; [lia|]. split; auto. apply I_next; lia.
    + cbn [bind]. destruct (IH (b + 1) ltac:(lia) ltac:(nia)) as (r & E & HR). exists r. split; auto. destruct r; auto.
      intros c Hc Hcs Hch. destruct (Z.eq_dec c b) as [->|]; [subst rgt; lia|]. apply HR; auto. lia.
Qed.
Lemma points_ok : forall left n last, n + Z.of_nat left = M -> 0 <= n -> low - 1 <= last <= round_div (I n) M -> 
  exists l, points left (I n) last = Some l /\ Forall (fun s => last < s < high /\ B s = false) l /\ StronglySorted Z.lt l /\ (length l <= left)%nat /\
    (l = [] -> last = low - 1 -> forall x, round_div (I n) M <= x < high -> B x = true).
Proof.
  induction left as [|left IH]; intros n last Hn Hn0 Hl; cbn [Sampler.points].
  - exists []. split; [reflexivity|]. split; [constructor|]. split; [constructor|]. split; [cbn; lia|]. intros _ _ x Hx. exfalso.
    pose proof step_ge. assert (0 <= I n) by (unfold I; nia). pose proof (round_pos (I n) M HM H0). assert (I n >= high * M) by (unfold I; nia). nia.
  - destruct (Z.ltb_spec (I n) (high * M)) as [Hi|Hi].
    2:{ exists []. split; [reflexivity|]. split; [constructor|]. split; [constructor|]. split; [cbn; lia|]. intros _ _ x Hx. exfalso.
        pose proof step_ge. assert (0 <= I n) by (unfold I; nia). pose proof (round_pos (I n) M HM H0). nia. }
    cbv zeta. assert (Hn' : 0 <= n < M) by lia. pose proof (I_sample n Hn' Hi) as HS. rewrite HB by exact HS. cbn [bind].
    assert (HF : exists r, (if orb (round_div (I n) M <=? last) (B (round_div (I n) M)) then backoff (Z.to_nat stepM) (I n) last 1 else Some (Some (round_div (I n) M))) = Some r /\
      match r with
      | Some s => last < s < high /\ B s = false /\ s <= round_div (I (n + 1)) M
      | None => last = low - 1 -> forall c, 0 <= c -> c * M < stepM -> round_div (I n) M + c < high -> B (round_div (I n) M + c) = true
      end).
    { destruct (orb (round_div (I n) M <=? last) (B (round_div (I n) M))) eqn:EO.
      - pose proof step_ge. destruct (backoff_ok n last Hn' Hi Hl (Z.to_nat stepM) 1 ltac:(lia) ltac:(nia)) as (r & E & HR). exists r. split; auto. destruct r; auto.
        intros Hll c Hc Hcs Hch. destruct (Z.eq_dec c 0) as [->|]; [|apply HR; auto; lia]. rewrite Z.add_0_r in *. destruct (Z.leb_spec (round_div (I n) M) last); [lia|exact EO].
      - apply orb_false_iff in EO. destruct EO as [E1 E2]. apply Z.leb_gt in E1. eexists. split; [reflexivity|]. split; [lia|]. split; [auto|apply I_mono; lia]. }
    destruct HF as (r & -> & HR). cbn [bind]. rewrite I_succ. destruct r as [s|].
    + destruct HR as (H1 & H2 & H3). destruct (IH (n + 1) s ltac:(lia) ltac:(lia) ltac:(lia)) as (l & -> & F & SS & LL & _). cbn [bind].
      exists (s :: l). split; auto. split; [constructor; auto; eapply Forall_impl; [|exact F]; intros x [Hx HBx]; split; auto; lia|].
      split; [constructor; auto; eapply Forall_impl; [|exact F]; intros x [Hx _]; lia|]. split; [cbn; lia|]. discriminate.
    + pose proof (I_mono n Hn0). destruct (IH (n + 1) last ltac:(lia) ltac:(lia) ltac:(lia)) as (l & -> & F & SS & LL & HE).
      exists l. split; auto. split; auto. split; auto. split; [lia|]. intros El Ell x Hx.
      destruct (Z.lt_ge_cases x (round_div (I (n + 1)) M)) as [Hlt|Hge]; [|apply HE; auto; lia].
      replace x with (round_div (I n) M + (x - round_div (I n) M)) by lia. apply HR; auto; try lia.
      pose proof step_ge. assert (0 <= I n) by (unfold I; nia). assert (0 <= I (n + 1)) by (unfold I; nia).
      pose proof (round_pos (I n) M HM H1). pose proof (round_pos (I (n + 1)) M HM H2). pose proof (I_succ n) as ES.
      assert (M * (x + 1) <= M * round_div (I (n + 1)) M) by (apply Z.mul_le_mono_nonneg_l; lia). nia.
Qed.
End Access.

(** Few occurrences: all of them are taken. *)
Definition zseq (a : Z) (k : nat) : list Z := map (fun i => a + Z.of_nat i) (seq 0 k).
Lemma zseq_S a k : zseq a (S k) = a :: zseq (a + 1) k.
Proof.
  unfold zseq. cbn [seq map]. f_equal; [lia|]. rewrite <- seq_shift, map_map. apply map_ext. intros i. lia.
Qed.
Lemma points_all : high - low <= M -> forall left n last, n + Z.of_nat left = M -> 0 <= n -> last < low + n ->
  points left (I n) last = Some (filter (fun s => negb (B s)) (zseq (low + n) (Z.to_nat (high - low - n)))).
Proof.
  intros HS. assert (E : stepM = M) by (unfold Sampler.stepM; lia).
  induction left as [|left IH]; intros n last Hn Hn0 Hl; cbn [Sampler.points].
  - replace (Z.to_nat (high - low - n)) with 0%nat by lia. reflexivity.
  - assert (EI : I n = (low + n) * M) by (unfold I; rewrite E; lia). rewrite EI.
    destruct (Z.ltb_spec ((low + n) * M) (high * M)) as [Hi|Hi].
    2:{ replace (Z.to_nat (high - low - n)) with 0%nat by nia. reflexivity. }
    assert (low + n < high) by nia. cbv zeta. rewrite round_int by lia. rewrite HB by lia. cbn [bind].
    replace (Z.to_nat (high - low - n)) with (S (Z.to_nat (high - low - (n + 1)))) by lia. rewrite zseq_S. cbn [filter].
    replace (low + n + 1) with (low + (n + 1)) by lia. rewrite <- EI, I_succ.
    destruct (Z.leb_spec (low + n) last); [lia|]. cbn [orb]. destruct (B (low + n)) eqn:EB; cbn [negb].
    + assert (EBk : backoff (Z.to_nat stepM) (I n) last 1 = Some None).
      { rewrite E. destruct (Z.to_nat M); cbn [Sampler.backoff]; rewrite E; destruct (Z.ltb_spec (1 * M) M); try lia; reflexivity. }
      rewrite EBk. cbn [bind]. apply IH; lia.
    + cbn [bind]. rewrite (IH (n + 1) (low + n)) by lia. reflexivity.
Qed.
(** Nothing blacklisted: one sample per point. *)
Lemma points_free : (forall s, low <= s < high -> B s = false) -> forall left n last, n + Z.of_nat left = M -> 0 <= n -> last < round_div (I n) M ->
  exists l, points left (I n) last = Some l /\ Forall (fun s => last < s < high /\ low <= s) l /\ StronglySorted Z.lt l /\
    Z.of_nat (length l) = Z.max 0 (Z.min (high - low) M - n).
Proof.
  intros HF. induction left as [|left IH]; intros n last Hn Hn0 Hl; cbn [Sampler.points].
  - exists []. split; [reflexivity|]. split; [constructor|]. split; [constructor|]. cbn. lia.
  - destruct (Z.ltb_spec (I n) (high * M)) as [Hi|Hi].
    2:{ exists []. split; [reflexivity|]. split; [constructor|]. split; [constructor|]. pose proof step_ge. cbn [length].
        assert (high - low <= n); [|lia]. unfold I in *. destruct (Z.le_gt_cases (high - low) M).
        - assert (E : stepM = M) by (unfold Sampler.stepM; lia). rewrite E in *. nia.
        - assert (E : stepM = high - low) by (unfold Sampler.stepM; lia). rewrite E in *. nia. }
    cbv zeta. assert (Hn' : 0 <= n < M) by lia. pose proof (I_sample n Hn' Hi) as HS. rewrite HB by exact HS. cbn [bind]. rewrite HF by exact HS.
    destruct (Z.leb_spec (round_div (I n) M) last); [lia|]. cbn [orb bind]. rewrite I_succ. pose proof step_ge.
    assert (HN : round_div (I n) M < round_div (I (n + 1)) M).
    { assert (0 <= I n) by (unfold I; nia). assert (round_div (I n) M + 1 <= round_div (I (n + 1)) M); [|lia].
      rewrite <- round_add by lia. apply round_mono; [lia|]. unfold I in *. nia. }
    destruct (IH (n + 1) (round_div (I n) M) ltac:(lia) ltac:(lia) HN) as (l & -> & F & SS & LL). cbn [bind].
    exists (round_div (I n) M :: l). split; auto. split; [constructor; [lia|]; eapply Forall_impl; [|exact F]; intros x Hx; cbn in *; lia|].
    split; [constructor; auto; eapply Forall_impl; [|exact F]; intros x Hx; cbn in *; lia|]. cbn [length]. rewrite Nat2Z.inj_succ, LL.
    assert (n < high - low); [|lia]. unfold I in *. destruct (Z.le_gt_cases (high - low) M); [|lia].
    assert (E : stepM = M) by (unfold Sampler.stepM; lia). rewrite E in *. nia.
Qed.
End Backoff.
