From Coq Require Import List ZArith Bool Lia.
From Verif Require Import Opt OptProofs Precomp PrecompSpec RuleEx Intersect IntersectSpec IntersectProofs.
Import ListNotations.
Open Scope Z_scope.
Open Scope opt_scope.

Lemma slice_mid (a b c : list Z) i k : i = size a -> k = size b -> slice (a ++ b ++ c) i k = Some b.
Proof.
  intros -> ->. unfold slice. pose proof (size_nonneg a). pose proof (size_nonneg b). pose proof (size_nonneg c).
  rewrite !size_app. destruct (Z.ltb_spec (size a) 0); [lia|]. destruct (Z.ltb_spec (size a + (size b + size c)) (size a + size b)); [lia|]. cbn [orb].
  unfold size. rewrite !Nat2Z.id. rewrite skipn_app, skipn_all, Nat.sub_diag. cbn [skipn app]. rewrite firstn_app, firstn_all, Nat.sub_diag. cbn. rewrite app_nil_r. reflexivity.
Qed.
Lemma slice_skip (a b c : list Z) x i k : i = size a + 1 -> k = size b -> slice (a ++ (x :: b) ++ c) i k = Some b.
Proof.
  intros -> ->. replace (a ++ (x :: b) ++ c) with ((a ++ [x]) ++ b ++ c) by (rewrite <- !app_assoc; reflexivity).
  apply slice_mid; auto. rewrite size_app. reflexivity.
Qed.
Lemma get_last (a o c : list Z) k : size o = k -> 0 < k -> get (a ++ o ++ c) (size a + k - 1) = Some (last o 0).
Proof.
  intros <- Hk. destruct o as [|x o]; [change (size []) with 0 in Hk; lia|].
  assert (Hn : x :: o <> []) by discriminate. destruct (exists_last Hn) as (o' & y & E). rewrite E, last_last.
  rewrite size_app. change (size [y]) with 1. rewrite get_app2 by (pose proof (size_nonneg o'); lia).
  apply get_app1. rewrite get_app2 by lia. replace (_ - _) with 0 by lia. reflexivity.
Qed.
Lemma get_first (a o c : list Z) : o <> [] -> get (a ++ o ++ c) (size a) = Some (hd 0 o).
Proof. intros H. rewrite get_app2 by lia. rewrite Z.sub_diag. destruct o; [congruence|]. reflexivity. Qed.
Lemma nodup_app {A} (l1 l2 : list A) : NoDup l1 -> NoDup l2 -> (forall x, In x l1 -> ~ In x l2) -> NoDup (l1 ++ l2).
Proof.
  intros H1 H2 H. induction H1; auto. cbn. constructor.
  - rewrite in_app_iff. intros [X|X]; [auto|]. exact (H x (or_introl eq_refl) X).
  - apply IHNoDup. intros y Hy. apply H. right. exact Hy.
Qed.

Section Loops.
Variable d : darray.
Variable data : list Z.
Hypothesis Hdata : da_data d = data.
Variables max_rule_span min_gap_size : Z.

Lemma search_end_ok word first sent_end : sent_end <= size data -> forall k pe, 0 <= pe ->
  exists ends, search_end d max_rule_span k word first sent_end pe = Some ends /\ NoDup ends /\
    forall e, In e ends <-> pe <= e < pe + Z.of_nat k /\ e < sent_end /\ e - first < max_rule_span /\ get data e = Some word.
Proof.
  intros Hs. induction k as [|k IH]; intros pe Hp; cbn [search_end].
  - exists []. split; [reflexivity|]. split; [constructor|]. intros e. cbn [In]. split; [tauto|lia].
  - destruct (Z.leb_spec sent_end pe); cbn [orb].
    { exists []. split; [reflexivity|]. split; [constructor|]. intros e. cbn [In]. split; [tauto|lia]. }
    destruct (Z.leb_spec max_rule_span (pe - first)); cbn [orb].
    { exists []. split; [reflexivity|]. split; [constructor|]. intros e. cbn [In]. split; [tauto|lia]. }
    rewrite Hdata. rewrite get_some by lia. cbn [bind]. destruct (IH (pe + 1) ltac:(lia)) as (r & -> & A & B). cbn [bind].
    destruct (Z.eqb_spec (at_ data pe) word) as [E|E].
    + eexists. split; [reflexivity|]. split.
      * constructor; auto. rewrite B. lia.
      * intros e. cbn [In]. rewrite B. split.
        -- intros [<-|H1]; [|intuition lia]. rewrite get_some by lia. rewrite E. intuition lia.
        -- intros (H1 & H2 & H3 & H4). destruct (Z.eq_dec pe e); [left; auto|right]. intuition lia.
    + eexists. split; [reflexivity|]. split; auto. intros e. rewrite B. split; [intuition lia|]. intros (H1 & H2 & H3 & H4).
      destruct (Z.eq_dec pe e) as [<-|Hne]; [|intuition lia]. rewrite get_some in H4 by lia. congruence.
Qed.
Lemma search_start_ok word last sent_start : 0 <= sent_start -> forall k ps, ps < size data ->
  exists begins, search_start d max_rule_span k word last sent_start ps = Some begins /\ NoDup begins /\
    forall b, In b begins <-> ps - Z.of_nat k < b <= ps /\ sent_start <= b /\ last - b < max_rule_span /\ get data b = Some word.
Proof.
  intros Hs. induction k as [|k IH]; intros pe Hp; cbn [search_start].
  - exists []. split; [reflexivity|]. split; [constructor|]. intros e. cbn [In]. split; [tauto|lia].
  - destruct (Z.ltb_spec pe sent_start); cbn [orb].
    { exists []. split; [reflexivity|]. split; [constructor|]. intros e. cbn [In]. split; [tauto|lia]. }
    destruct (Z.leb_spec max_rule_span (last - pe)); cbn [orb].
    { exists []. split; [reflexivity|]. split; [constructor|]. intros e. cbn [In]. split; [tauto|lia]. }
    rewrite Hdata. rewrite get_some by lia. cbn [bind]. destruct (IH (pe - 1) ltac:(lia)) as (r & -> & A & B). cbn [bind].
    destruct (Z.eqb_spec (at_ data pe) word) as [E|E].
    + eexists. split; [reflexivity|]. split.
      * constructor; auto. rewrite B. lia.
      * intros e. cbn [In]. rewrite B. split.
        -- intros [<-|H1]; [|intuition lia]. rewrite get_some by lia. rewrite E. intuition lia.
        -- intros (H1 & H2 & H3 & H4). destruct (Z.eq_dec pe e); [left; auto|right]. intuition lia.
    + eexists. split; [reflexivity|]. split; auto. intros e. rewrite B. split; [intuition lia|]. intros (H1 & H2 & H3 & H4).
      destruct (Z.eq_dec pe e) as [<-|Hne]; [|intuition lia]. rewrite get_some in H4 by lia. congruence.
Qed.

(** One occurrence of the prefix. *)
Definition prefix_body (ends_x : bool) (len word : Z) (o : list Z) (V : Z -> Prop) : Prop :=
  let range := GetSearchRange max_rule_span min_gap_size ends_x in
  exists sent next ends, get (da_id d) (hd 0 o) = Some sent /\ get (da_start d) (sent + 1) = Some next /\
    search_end d max_rule_span (Z.to_nat (snd range - fst range)) word (hd 0 o) (next - 1)
      (last o 0 + fst range + (if ends_x then len - 1 else len - 2)) = Some ends /\ NoDup ends /\ forall e, In e ends <-> V e.
Lemma prefix_loop_ok (V : list Z -> Z -> Prop) ends_x len word k : 0 < k -> (ends_x = false -> forall o e e', V o e -> V o e' -> e = e') ->
  forall occs pre f, Forall (fun o => size o = k) occs -> NoDup occs -> (forall o, In o occs -> prefix_body ends_x len word o (V o)) -> (length occs < f)%nat ->
  exists new, prefix_loop d max_rule_span min_gap_size f (pre ++ concat occs) k ends_x len word (size pre) = Some (concat new) /\ NoDup new /\
    forall n, In n new <-> exists o e, In o occs /\ V o e /\ n = o ++ (if ends_x then [e] else []).
Proof.
  intros Hk HV. induction occs as [|o occs IH]; intros pre f HL HN HB Hf; (destruct f as [|f]; [cbn in Hf; lia|]); cbn [prefix_loop].
  - cbn [concat]. rewrite app_nil_r, Z.ltb_irrefl. exists []. split; [reflexivity|]. split; [constructor|]. intros n. cbn [In]. split; [tauto|]. intros (o & e & [] & _).
  - inversion HL as [|? ? Ho HL']; subst. inversion HN as [|? ? HNo HN']; subst. cbn [concat].
    assert (Hne : o <> []) by (intros ->; change (size []) with 0 in Hk; lia).
    assert (Hlt : (size pre <? size (pre ++ o ++ concat occs)) = true).
    { apply Z.ltb_lt. rewrite !size_app. pose proof (size_nonneg (concat occs)). lia. }
    rewrite Hlt. cbv zeta. rewrite (get_first pre o _ Hne). cbn [bind].
    destruct (HB o (or_introl eq_refl)) as (sent & next & ends & E1 & E2 & E3 & N & M). rewrite E1. cbn [bind]. rewrite E2. cbn [bind].
    rewrite (get_last pre o _ (size o) eq_refl Hk). cbn [bind]. cbv zeta in E3. rewrite E3. cbn [bind].
    rewrite (slice_mid pre o _ _ _ eq_refl eq_refl). cbn [bind].
    destruct (IH (pre ++ o) f HL' HN' (fun o' H => HB o' (or_intror H)) ltac:(cbn in Hf; lia)) as (new & E4 & N4 & M4).
    rewrite <- app_assoc, size_app in E4. rewrite E4. cbn [bind].
    exists (map (fun e => o ++ (if ends_x then [e] else [])) ends ++ new). split.
    { rewrite concat_app, <- flat_map_concat_map. reflexivity. }
    assert (Hinj : forall o' e e', size o' = size o -> o ++ (if ends_x then [e] else []) = o' ++ (if ends_x then [e'] else []) -> o = o' /\ (ends_x = true -> e = e')).
    { intros o' e e' Hs HE. destruct ends_x.
      - apply app_inj_tail in HE. destruct HE; auto.
      - rewrite !app_nil_r in HE. split; auto. discriminate. }
    split.
    + apply nodup_app; auto.
      * clear E3 M4 E4. assert (HVe : forall e, In e ends -> V o e) by (intros; apply M; auto). clear M. revert HVe. induction N as [|e ends He N IHN]; intros HVe; cbn [map]; constructor.
        -- intros HI. apply in_map_iff in HI. destruct HI as (e' & HE & HI). symmetry in HE. apply Hinj in HE; auto. destruct HE as [_ HE].
           destruct ends_x; [rewrite HE in He; auto|]. rewrite (HV eq_refl o e e') in He; [auto|apply HVe; left; auto|apply HVe; right; auto].
        -- apply IHN. intros; apply HVe; right; auto.
      * intros x HI HI'. apply in_map_iff in HI. destruct HI as (e & <- & HI). apply M4 in HI'. destruct HI' as (o' & e' & HI' & _ & HE).
        rewrite Forall_forall in HL'. apply Hinj in HE; [|apply HL'; auto]. destruct HE as [<- _]. auto.
    + intros n. rewrite in_app_iff, in_map_iff, M4. split.
      * intros [(e & <- & HI)|(o' & e & A & B & C)]; [exists o, e; split; [left; auto|split; [apply M; auto|auto]]|exists o', e; split; [right; auto|auto]].
      * intros (o' & e & [<-|A] & B & ->); [left; exists e; split; auto; apply M; auto|right; exists o', e; auto].
Qed.
Definition suffix_body (starts_x : bool) (len word : Z) (o : list Z) (V : Z -> Prop) : Prop :=
  let range := GetSearchRange max_rule_span min_gap_size starts_x in
  exists sent start begins, get (da_id d) (hd 0 o) = Some sent /\ get (da_start d) sent = Some start /\
    search_start d max_rule_span (Z.to_nat (snd range - fst range)) word (last o 0 + len - 1) start (hd 0 o - fst range) = Some begins /\
    NoDup begins /\ forall b, In b begins <-> V b.
Definition drop_x (starts_x : bool) (o : list Z) : list Z := if starts_x then o else tl o.
Lemma suffix_loop_ok (V : list Z -> Z -> Prop) starts_x len word k : 0 < k -> (starts_x = false -> forall o b, V o b -> b = hd 0 o - 1) ->
  forall occs pre f, Forall (fun o => size o = k) occs -> NoDup occs -> (forall o, In o occs -> suffix_body starts_x len word o (V o)) -> (length occs < f)%nat ->
  exists new, suffix_loop d max_rule_span min_gap_size f (pre ++ concat occs) k starts_x len word (size pre) = Some (concat new) /\ NoDup new /\
    forall n, In n new <-> exists o b, In o occs /\ V o b /\ n = b :: drop_x starts_x o.
Proof.
  intros Hk HV. induction occs as [|o occs IH]; intros pre f HL HN HB Hf; (destruct f as [|f]; [cbn in Hf; lia|]); cbn [suffix_loop].
  - cbn [concat]. rewrite app_nil_r, Z.ltb_irrefl. exists []. split; [reflexivity|]. split; [constructor|]. intros n. cbn [In]. split; [tauto|]. intros (o & e & [] & _).
  - inversion HL as [|? ? Ho HL']; subst. inversion HN as [|? ? HNo HN']; subst. cbn [concat].
    assert (Hne : o <> []) by (intros ->; change (size []) with 0 in Hk; lia).
    assert (Hlt : (size pre <? size (pre ++ o ++ concat occs)) = true).
    { apply Z.ltb_lt. rewrite !size_app. pose proof (size_nonneg (concat occs)). lia. }
    rewrite Hlt. cbv zeta. rewrite (get_first pre o _ Hne). cbn [bind].
    destruct (HB o (or_introl eq_refl)) as (sent & start & begins & E1 & E2 & E3 & N & M). rewrite E1. cbn [bind]. rewrite E2. cbn [bind].
    rewrite (get_last pre o _ (size o) eq_refl Hk). cbn [bind]. cbv zeta in E3. rewrite E3. cbn [bind].
    assert (ES : slice (pre ++ o ++ concat occs) (size pre + (if starts_x then 0 else 1)) (size o - (if starts_x then 0 else 1)) = Some (drop_x starts_x o)).
    { destruct starts_x; cbn [drop_x].
      - apply slice_mid; lia.
      - destruct o as [|x o]; [congruence|]. apply slice_skip; auto. cbn [tl]. rewrite size_cons. lia. }
    rewrite ES. cbn [bind].
    destruct (IH (pre ++ o) f HL' HN' (fun o' H => HB o' (or_intror H)) ltac:(cbn in Hf; lia)) as (new & E4 & N4 & M4).
    rewrite <- app_assoc, size_app in E4. rewrite E4. cbn [bind].
    exists (map (fun b => b :: drop_x starts_x o) begins ++ new). split.
    { rewrite concat_app, <- flat_map_concat_map. reflexivity. }
    split.
    + apply nodup_app; auto.
      * clear - N. induction N; cbn [map]; constructor; auto. intros HI. apply in_map_iff in HI. destruct HI as (e & HE & HI). congruence.
      * intros x HI HI'. apply in_map_iff in HI. destruct HI as (b & <- & HI). apply M4 in HI'. destruct HI' as (o' & b' & HI' & HV' & HE).
        injection HE as <- HE. apply M in HI. rewrite Forall_forall in HL'. specialize (HL' _ HI'). assert (o = o'); [|subst; auto].
        destruct starts_x; cbn [drop_x] in HE; auto. pose proof (HV eq_refl _ _ HI) as X1. pose proof (HV eq_refl _ _ HV') as X2.
        destruct o as [|x o]; [congruence|]. destruct o' as [|x' o']; [change (size []) with 0 in *; lia|]. cbn [tl hd] in *. f_equal; [lia|auto].
    + intros n. rewrite in_app_iff, in_map_iff, M4. split.
      * intros [(e & <- & HI)|(o' & e & A & B & C)]; [exists o, e; split; [left; auto|split; [apply M; auto|auto]]|exists o', e; split; [right; auto|auto]].
      * intros (o' & e & [<-|A] & B & ->); [left; exists e; split; auto; apply M; auto|right; exists o', e; auto].
Qed.
End Loops.
