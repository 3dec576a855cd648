From Coq Require Import List ZArith Bool Lia.
From Verif Require Import Opt OptProofs Precomp PrecompSpec RuleEx Intersect IntersectSpec IntersectProofs IntersectLoopProofs.
Import ListNotations.
Open Scope Z_scope.
Open Scope opt_scope.

Lemma same_split data p m e : p <= m <= e -> (same_sentence data p e <-> same_sentence data p m /\ same_sentence data m e).
Proof.
  intros H. unfold same_sentence. split; [intros A; split; intros k Hk; apply A; lia|].
  intros [A B] k Hk. destruct (Z.lt_ge_cases k m); [apply A|apply B]; lia.
Qed.
Lemma gather_ok sa : forall k i, 0 <= i -> i + Z.of_nat k <= size sa -> gather sa k i = Some (firstn k (skipn (Z.to_nat i) sa)).
Proof.
  induction k as [|k IH]; intros i Hi Hs; [reflexivity|]. cbn [gather].
  rewrite get_some by lia. cbn [bind]. rewrite IH by lia. cbn [bind].
  assert (E : skipn (Z.to_nat i) sa = at_ sa i :: skipn (Z.to_nat (i + 1)) sa).
  { replace (Z.to_nat (i + 1)) with (S (Z.to_nat i)) by lia. unfold at_.
    assert (Hl : (Z.to_nat i < length sa)%nat) by (unfold size in Hs; lia). clear - Hl. revert sa Hl.
    induction (Z.to_nat i) as [|n IHn]; intros [|x sa] Hl; cbn in *; try lia; auto. apply IHn. lia. }
  rewrite E. reflexivity.
Qed.
Lemma concat_single (l : list Z) : concat (map (fun p => [p]) l) = l.
Proof. induction l; cbn; congruence. Qed.
Lemma extend_ok sa l occs : denotes sa l occs ->
  exists l', ExtendPhraseLocation sa l = Some l' /\ denotes sa l' occs /\ matchings l' = Some (concat occs) /\ 0 < num_subpatterns l' /\
    Forall (fun o => size o = num_subpatterns l') occs.
Proof.
  unfold denotes, ExtendPhraseLocation. destruct (matchings l) as [ms|] eqn:E.
  - intros (A & -> & B). exists l. rewrite E. auto.
  - intros (A & B & C & ->). rewrite gather_ok by lia. cbn [bind]. eexists. split; [reflexivity|]. cbn [matchings match_loc num_subpatterns].
    rewrite concat_single. split; [|split; [reflexivity|split; [lia|]]]; [split; [lia|split; [reflexivity|]]|]; apply Forall_forall; intros o Ho; apply in_map_iff in Ho; destruct Ho as (p & <- & _); reflexivity.
Qed.
Lemma contig_app a b : contiguous (a ++ b) <-> contiguous a /\ contiguous b.
Proof.
  unfold contiguous. split; [intros H; split; intros s Hs; apply H; apply in_app_iff; auto|].
  intros [A B] s Hs. apply in_app_iff in Hs. destruct Hs; auto.
Qed.

Section Main.
Variable lines : list (list Z).
Variable wid : Z -> Z.
Variables span gap : Z.
Hypothesis Hlines : Forall (fun l => Forall (fun x => 2 <= x) l) lines.
Hypothesis Hgap : 0 <= gap.
Let d := CreateDataArray lines.
Let data := text lines.
Notation reads := (reads data wid gap).

Lemma data_eq : da_data d = data.
Proof. apply create_array. exact Hlines. Qed.
Lemma data_pos x : In x data -> 1 <= x.
Proof.
  unfold data, text. intros H. apply in_flat_map in H. destruct H as (l & Hl & Hx). apply in_app_iff in Hx.
  rewrite Forall_forall in Hlines. specialize (Hlines l Hl). rewrite Forall_forall in Hlines.
  destruct Hx as [Hx|[<-|[]]]; [apply Hlines in Hx|]; lia.
Qed.
Lemma data_get p x : get data p = Some x -> x <> -1.
Proof. intros H. apply get_inv in H. destruct H as [H ->]. pose proof (data_pos _ (at_in _ _ H)). lia. Qed.
Lemma after_bounds p : 0 <= p < size data -> exists i s e, get (da_id d) p = Some i /\ get (da_start d) i = Some s /\ get (da_start d) (i + 1) = Some (e + 1) /\
  0 <= s /\ s <= p <= e /\ e < size data /\ (forall x, p <= x -> (same_sentence data p x <-> x <= e)) /\ (forall q, 0 <= q <= p -> (same_sentence data q p <-> s <= q)).
Proof.
  intros Hp. destruct (proj2 (create_array lines Hlines) p Hp) as (i & s & e & A & B & C & D & E & F & G & H). exists i, s, e.
  split; auto. split; auto. split; auto. split; auto. split; auto.
  split. { apply get_inv in F. apply F. }
  split.
  - intros x Hx. split.
    + intros HS. destruct (Z.le_gt_cases x e); auto. exfalso. apply (HS e); [lia|]. rewrite get_nth in F by lia. exact F.
    + intros Hxe k Hk Hn. destruct (G k ltac:(lia)) as [X _]. apply X. rewrite get_nth by lia. exact Hn.
  - intros q Hq. split.
    + intros HS. destruct (Z.le_gt_cases s q); auto. exfalso. destruct H as [->|H]; [lia|]. apply (HS (s - 1)); [lia|]. rewrite get_nth in H by lia. exact H.
    + intros Hs k Hk Hn. destruct (G k ltac:(lia)) as [X _]. apply X. rewrite get_nth by lia. exact Hn.
Qed.
Lemma occ_sizes phrase occs : all_occurrences lines wid span gap phrase occs -> Forall (fun o => size o = size (var_pos 0 phrase) + 1) occs.
Proof.
  intros [_ H]. apply Forall_forall. intros o Ho. apply H in Ho. destruct Ho as (p & rest & e & -> & R & _).
  rewrite size_cons. f_equal. unfold size. f_equal. exact (reads_arity _ _ _ _ _ _ _ R 0).
Qed.

Section Prefix.
Variable P : list Z.
Variables x w : Z.
Variable ends_x : bool.
Hypothesis P_first : P <> [] /\ 0 <= hd 0 P.
Hypothesis P_last : 0 <= last P 0.
Hypothesis Hx : x < 0.
Hypothesis Hw : 0 <= w.
Let phrase := P ++ (if ends_x then [x; w] else [w]).
Hypothesis Hgapped : ~ contiguous phrase.

Definition VP (o : list Z) (e : Z) : Prop := exists p ps m, o = p :: ps /\ reads P p ps m /\ (if ends_x then m + gap <= e else e = m) /\
  same_sentence data p (e + 1) /\ e - p < span /\ get data e = Some (wid w).
Lemma reads_det : forall l p ps e e', reads l p ps e -> reads l p ps e' -> e = e'.
Proof.
  intros l p ps e e' H H'. destruct (tail_len_ex l) as (n & T). rewrite (tail_len_reads _ _ _ _ _ _ _ _ T H), (tail_len_reads _ _ _ _ _ _ _ _ T H'). reflexivity.
Qed.
Lemma VP_occ o : (exists o' e, occurrence lines wid span gap P o' /\ VP o' e /\ o = o' ++ (if ends_x then [e] else [])) <-> occurrence lines wid span gap phrase o.
Proof.
  unfold VP. split.
  - intros (o' & e & HO & (p & ps & m & -> & R & HE & HS & HL & HG) & ->).
    exists p, (ps ++ (if ends_x then [e] else [])), (e + 1). split; [reflexivity|]. fold data.
    assert (0 <= e) by (apply get_inv in HG; lia).
    split; [|split; [exact HS|right; lia]]. unfold phrase. apply reads_app. exists ps, (if ends_x then [e] else []), m. split; auto. split; auto.
    destruct ends_x.
    + apply reads_gap; auto. apply reads_one; auto.
    + subst m. apply reads_one; auto.
  - intros (p & rest & e & -> & R & HS & HC). fold data in R, HS. destruct HC as [HC|HC]; [contradiction|].
    unfold phrase in R. apply reads_app in R. destruct R as (ps1 & ps2 & m & -> & RP & R).
    assert (Hpm : p <= m) by exact (reads_le _ _ _ Hgap _ _ _ _ RP).
    assert (Hme : m <= e) by exact (reads_le _ _ _ Hgap _ _ _ _ R).
    exists (p :: ps1), (e - 1).
    assert (HO : occurrence lines wid span gap P (p :: ps1)).
    { exists p, ps1, m. split; auto. split; auto. fold data. split; [apply (same_split data p m e) in HS; [apply HS|lia]|right; lia]. }
    split; auto. destruct ends_x.
    + inversion R; subst; [lia|]. match goal with HR : reads [w] _ _ _ |- _ => apply reads_word_inv in HR; auto; destruct HR as (-> & -> & Hq & HG) end.
      replace (q + 1 - 1) with q by lia. split; auto. exists p, ps1, m. replace (q + 1 - 1) with q in * by lia. split; auto. split; auto. split; auto. split; [exact HS|]. split; [lia|auto].
    + apply reads_word_inv in R; auto. destruct R as (-> & -> & Hm & HG). replace (m + 1 - 1) with m by lia. split.
      * exists p, ps1, m. split; auto. split; auto. split; auto. split; [exact HS|]. split; [lia|auto].
      * rewrite !app_nil_r. reflexivity.
Qed.
Lemma tail_snoc n : tail_len P n -> ends_x = false -> GetChunkLen phrase (size (var_pos 0 phrase)) = Some (n + 1).
Proof.
  intros T E. apply chunk_last. unfold phrase. rewrite E. destruct T as [[C ->]|(l1 & y & c & -> & Hy & C & ->)].
  - left. split; [apply contig_app; split; auto; intros s [<-|[]]; auto|]. rewrite size_app. reflexivity.
  - right. exists l1, y, (c ++ [w]). rewrite <- app_assoc. split; auto. split; auto. split; [apply contig_app; split; auto; intros s [<-|[]]; auto|]. rewrite size_app. reflexivity.
Qed.
Lemma prefix_body_ok n o : tail_len P n -> occurrence lines wid span gap P o ->
  prefix_body d span gap ends_x (if ends_x then n else n + 1) (wid w) o (VP o).
Proof.
  intros T (p & rest & m & -> & R & HS & HC). fold data in R, HS.
  destruct (reads_bounds _ _ _ Hgap _ _ _ _ R (proj1 P_first) (proj2 P_first)) as (B1 & B2 & B3).
  destruct (after_bounds p ltac:(lia)) as (i & s & e & A1 & A2 & A3 & A4 & A5 & A6 & A7 & A8).
  assert (HL : 0 <= m - 1 /\ m <= size data) by exact (last_word _ _ _ _ _ _ _ R (proj1 P_first) P_last).
  pose proof (tail_len_reads _ _ _ _ _ _ _ _ T R) as HM.
  unfold prefix_body, VP. cbv zeta. cbn [hd].
  destruct (search_end_ok d data data_eq span (wid w) p (e + 1 - 1) ltac:(lia)
    (Z.to_nat (snd (GetSearchRange span gap ends_x) - fst (GetSearchRange span gap ends_x)))
    (last (p :: rest) 0 + fst (GetSearchRange span gap ends_x) + (if ends_x then (if ends_x then n else n + 1) - 1 else (if ends_x then n else n + 1) - 2))) as (ends & E1 & E2 & E3).
  { destruct ends_x; cbn [GetSearchRange fst snd]; lia. }
  exists i, (e + 1), ends. split; auto. split; auto. split; [exact E1|]. split; auto.
  intros f. rewrite E3. split.
  - intros (H1 & H2 & H3 & H4). exists p, rest, m. split; auto. split; auto.
    destruct ends_x; cbn [GetSearchRange fst snd] in H1; (split; [lia|]); (split; [apply A7; lia|]); auto.
  - intros (p' & ps & m' & HE & R' & HR & HS' & H3 & H4). injection HE as <- <-. assert (m' = m) by exact (reads_det _ _ _ _ _ R' R). subst m'.
    assert (m <= f) by (destruct ends_x; lia). apply A7 in HS'; [|lia].
    destruct ends_x; cbn [GetSearchRange fst snd]; (split; [lia|]); (split; [lia|]); auto.
Qed.
Lemma prefix_ok sa l occs : denotes sa l occs -> all_occurrences lines wid span gap P occs ->
  exists r l' new, ExtendPrefix d sa wid span gap l phrase ends_x w = Some (r, l') /\ denotes sa l' occs /\
    denotes sa r new /\ all_occurrences lines wid span gap phrase new.
Proof.
  intros HD HA. destruct (extend_ok _ _ _ HD) as (l' & E & D' & M & K & F). unfold ExtendPrefix. rewrite E. cbn [bind]. rewrite M. cbn [bind].
  destruct (Z.eqb_spec (wid w) (-1)) as [Ew|Ew].
  - exists (match_loc [] (num_subpatterns l')), l', []. split; auto. split; auto. split.
    + unfold denotes. cbn. auto.
    + split; [constructor|]. intros o. split; [intros []|]. intros HO. apply VP_occ in HO. destruct HO as (o' & e & _ & (p & ps & m & _ & _ & _ & _ & _ & HG) & _).
      apply data_get in HG. contradiction.
  - destruct (tail_len_ex P) as (n & T). cbv zeta.
    assert (EL : GetChunkLen phrase (if ends_x then size (var_pos 0 phrase) - 1 else size (var_pos 0 phrase)) = Some (if ends_x then n else n + 1)).
    { destruct (bool_dec ends_x true) as [Ex|Ex].
      - rewrite Ex. unfold phrase. rewrite Ex. apply chunk_prev; auto.
      - apply not_true_is_false in Ex. rewrite Ex. apply tail_snoc; auto. }
    rewrite EL. cbn [bind].
    destruct (prefix_loop_ok d span gap VP ends_x (if ends_x then n else n + 1) (wid w) (num_subpatterns l') K) with (occs := occs) (pre := @nil Z) (f := S (length (concat occs)))
      as (new & E1 & E2 & E3).
    + intros Ex o e e' (p & ps & m & -> & R & HE & _) (p' & ps' & m' & HO & R' & HE' & _). rewrite Ex in *. injection HO as <- <-. subst. exact (reads_det _ _ _ _ _ R R').
    + exact F.
    + apply HA.
    + intros o Ho. apply prefix_body_ok; auto. apply HA. exact Ho.
    + clear - F K. induction F; cbn; [lia|]. rewrite app_length. unfold size in *. lia.
    + cbn [app] in E1. change (size []) with 0 in E1. rewrite E1. cbn [bind]. eexists. exists l', new. split; [reflexivity|]. split; auto.
      assert (HA' : all_occurrences lines wid span gap phrase new).
      { split; auto. intros o. rewrite E3. rewrite <- VP_occ. split; intros (o' & e & A & B); exists o', e; (split; [apply HA; exact A|auto]). }
      split; auto. unfold denotes. cbn [matchings match_loc num_subpatterns]. split; [pose proof (size_nonneg (var_pos 0 phrase)); lia|]. split; auto.
      apply occ_sizes. exact HA'.
Qed.
End Prefix.

Section Suffix.
Variable Q : list Z.
Variables x w : Z.
Variable starts_x : bool.
Hypothesis Q_first : Q <> [] /\ 0 <= hd 0 Q.
Hypothesis Q_last : 0 <= last Q 0.
Hypothesis Hx : x < 0.
Hypothesis Hw : 0 <= w.
Let phrase := (if starts_x then [w; x] else [w]) ++ Q.
Hypothesis Hgapped : ~ contiguous phrase.
Definition VS (o : list Z) (b : Z) : Prop := exists q ps e, o = q :: ps /\ reads Q q ps e /\ 0 <= b /\ (if starts_x then b + 1 + gap <= q else q = b + 1) /\
  same_sentence data b e /\ e - b <= span /\ get data b = Some (wid w).
Lemma VS_occ o : (exists o' b, occurrence lines wid span gap Q o' /\ VS o' b /\ o = b :: drop_x starts_x o') <-> occurrence lines wid span gap phrase o.
Proof.
  unfold VS. split.
  - intros (o' & b & HO & (q & ps & e & -> & R & Hb & HQ & HS & HL & HG) & ->).
    exists b, (drop_x starts_x (q :: ps)), e. split; [reflexivity|]. fold data. split; [|split; [exact HS|right; lia]].
    rewrite get_nth in HG by lia. unfold phrase. destruct starts_x; cbn [app drop_x tl].
    + apply reads_word; auto. apply reads_gap; auto.
    + subst q. apply reads_word; auto.
  - intros (p & rest & e & -> & R & HS & HC). fold data in R, HS. destruct HC as [HC|HC]; [contradiction|].
    unfold phrase in R. destruct starts_x; cbn [app] in R.
    + inversion R; subst; [|lia]. match goal with HR : reads (x :: Q) _ _ _ |- _ => inversion HR; subst; [lia|] end.
      match goal with HR : reads Q _ _ _ |- _ => rename HR into RQ end.
      assert (Hqe : q <= e) by exact (reads_le _ _ _ Hgap _ _ _ _ RQ).
      exists (q :: ps), p. split.
      * exists q, ps, e. split; auto. split; auto. fold data. split; [apply (same_split data p q e) in HS; [apply HS|lia]|right; lia].
      * split; [|reflexivity]. exists q, ps, e. rewrite get_nth by lia. auto 10.
    + inversion R; subst; [|lia]. match goal with HR : reads Q _ _ _ |- _ => rename HR into RQ end.
      assert (Hqe : p + 1 <= e) by exact (reads_le _ _ _ Hgap _ _ _ _ RQ).
      exists (p + 1 :: rest), p. split.
      * exists (p + 1), rest, e. split; auto. split; auto. fold data. split; [apply (same_split data p (p + 1) e) in HS; [apply HS|lia]|right; lia].
      * split; [|reflexivity]. exists (p + 1), rest, e. rewrite get_nth by lia. auto 10.
Qed.
Lemma tail_cons n : tail_len Q n -> GetChunkLen phrase (size (var_pos 0 phrase)) = Some n.
Proof.
  intros T. apply chunk_last. unfold phrase in *. destruct T as [[C ->]|(l1 & y & c & -> & Hy & C & ->)].
  - destruct starts_x.
    + right. exists [w], x, Q. auto.
    + exfalso. apply Hgapped. intros s [<-|Hs]; auto.
  - right. exists ((if starts_x then [w; x] else [w]) ++ l1), y, c. rewrite <- app_assoc. auto.
Qed.
Lemma suffix_body_ok n o : tail_len Q n -> occurrence lines wid span gap Q o -> suffix_body d span gap starts_x n (wid w) o (VS o).
Proof.
  intros T (q & rest & e & -> & R & HS & HC). fold data in R, HS.
  destruct (reads_bounds _ _ _ Hgap _ _ _ _ R (proj1 Q_first) (proj2 Q_first)) as (B1 & B2 & B3).
  destruct (after_bounds q ltac:(lia)) as (i & s & e' & A1 & A2 & A3 & A4 & A5 & A6 & A7 & A8).
  pose proof (tail_len_reads _ _ _ _ _ _ _ _ T R) as HM.
  unfold suffix_body, VS. cbv zeta. cbn [hd].
  destruct (search_start_ok d data data_eq span (wid w) (last (q :: rest) 0 + n - 1) s A4
    (Z.to_nat (snd (GetSearchRange span gap starts_x) - fst (GetSearchRange span gap starts_x)))
    (q - fst (GetSearchRange span gap starts_x))) as (begins & E1 & E2 & E3).
  { destruct starts_x; cbn [GetSearchRange fst snd]; lia. }
  exists i, s, begins. split; auto. split; auto. split; [exact E1|]. split; auto.
  intros b. rewrite E3. split.
  - intros (H1 & H2 & H3 & H4). exists q, rest, e. split; auto. split; auto. split; [lia|].
    destruct starts_x; cbn [GetSearchRange fst snd] in H1; (split; [lia|]); (split; [apply (same_split data b q e); [lia|]; split; [apply A8; lia|auto]|]); (split; [lia|auto]).
  - intros (q' & ps & f & HE & R' & Hb & HQ & HS' & H3 & H4). injection HE as <- <-. assert (f = e) by exact (reads_det _ _ _ _ _ R' R). subst f.
    assert (b <= q) by (destruct starts_x; lia). assert (s <= b) by (apply A8; [lia|]; apply (same_split data b q e) in HS'; [apply HS'|lia]).
    destruct starts_x; cbn [GetSearchRange fst snd]; (split; [lia|]); (split; [lia|]); (split; [lia|auto]).
Qed.
Lemma suffix_ok sa l occs : denotes sa l occs -> all_occurrences lines wid span gap Q occs ->
  exists r l' new, ExtendSuffix d sa wid span gap l phrase starts_x w = Some (r, l') /\ denotes sa l' occs /\
    denotes sa r new /\ all_occurrences lines wid span gap phrase new.
Proof.
  intros HD HA. destruct (extend_ok _ _ _ HD) as (l' & E & D' & M & K & F). unfold ExtendSuffix. rewrite E. cbn [bind]. rewrite M. cbn [bind].
  destruct (Z.eqb_spec (wid w) (-1)) as [Ew|Ew].
  - exists (match_loc [] (num_subpatterns l')), l', []. split; auto. split; auto. split.
    + unfold denotes. cbn. auto.
    + split; [constructor|]. intros o. split; [intros []|]. intros HO. apply VS_occ in HO. destruct HO as (o' & b & _ & (q & ps & m & _ & _ & _ & _ & _ & _ & HG) & _).
      apply data_get in HG. contradiction.
  - destruct (tail_len_ex Q) as (n & T). cbv zeta. rewrite (tail_cons n T). cbn [bind].
    destruct (suffix_loop_ok d span gap VS starts_x n (wid w) (num_subpatterns l') K) with (occs := occs) (pre := @nil Z) (f := S (length (concat occs)))
      as (new & E1 & E2 & E3).
    + intros Ex o b (q & ps & e & -> & R & _ & HE & _). rewrite Ex in *. cbn. lia.
    + exact F.
    + apply HA.
    + intros o Ho. apply suffix_body_ok; auto. apply HA. exact Ho.
    + clear - F K. induction F; cbn; [lia|]. rewrite app_length. unfold size in *. lia.
    + cbn [app] in E1. change (size []) with 0 in E1. rewrite E1. cbn [bind]. eexists. exists l', new. split; [reflexivity|]. split; auto.
      assert (HA' : all_occurrences lines wid span gap phrase new).
      { split; auto. intros o. rewrite E3. rewrite <- VS_occ. split; intros (o' & e & A & B); exists o', e; (split; [apply HA; exact A|auto]). }
      split; auto. unfold denotes. cbn [matchings match_loc num_subpatterns]. split; [pose proof (size_nonneg (var_pos 0 phrase)); lia|]. split; auto.
      apply occ_sizes. exact HA'.
Qed.
End Suffix.

Lemma denotes_size sa l occs : denotes sa l occs -> exists n, GetSize l = Some n /\ (n = 0 <-> occs = []).
Proof.
  unfold denotes, GetSize. destruct (matchings l) as [ms|].
  - intros (A & -> & B). destruct (Z.ltb_spec 0 (num_subpatterns l)); [|lia]. cbn [bind]. eexists. split; [reflexivity|].
    destruct occs as [|o occs]; [split; reflexivity|]. inversion B; subst. split; [|discriminate]. intros E. exfalso. cbn [concat] in E. rewrite size_app in E.
    pose proof (size_nonneg (concat occs)). lia.
  - intros (A & B & C & ->). rewrite A. cbn [Z.ltb Z.compare]. eexists. split; [reflexivity|]. split.
    + intros E. replace (sa_high l - sa_low l) with 0. reflexivity.
    + intros E. apply map_eq_nil in E. apply (f_equal (@length Z)) in E. rewrite firstn_length, skipn_length in E. cbn in E. unfold size in C. lia.
Qed.
Lemma trim_back_x (P : list Z) (x : Z) : x < 0 -> trim_back (P ++ [x]) = P.
Proof. intros H. unfold trim_back. rewrite rev_app_distr. cbn. destruct (Z.ltb_spec x 0); [|lia]. apply rev_involutive. Qed.
Lemma trim_back_w (P : list Z) (x : Z) : 0 <= x -> trim_back (P ++ [x]) = P ++ [x].
Proof. intros H. unfold trim_back. rewrite rev_app_distr. cbn. destruct (Z.ltb_spec x 0); [lia|]. cbn [rev]. rewrite rev_involutive. reflexivity. Qed.

Theorem intersect_ok sa pre phrase prefix suffix po so :
  spaced phrase -> 0 <= hd 0 phrase -> 0 <= last phrase 0 -> ~ contiguous phrase ->
  denotes sa prefix po -> all_occurrences lines wid span gap (trim_back (removelast phrase)) po ->
  denotes sa suffix so -> all_occurrences lines wid span gap (trim_front (tl phrase)) so ->
  (forall ms, pre phrase = Some ms -> exists occs, ms = concat occs /\ all_occurrences lines wid span gap phrase occs) ->
  exists r prefix' suffix' occs, Intersect d sa wid pre span gap prefix suffix phrase = Some (r, prefix', suffix') /\
    denotes sa r occs /\ all_occurrences lines wid span gap phrase occs /\ denotes sa prefix' po /\ denotes sa suffix' so.
Proof.
  intros HSp Hh Hl HC DP AP DS AS HPre. unfold Intersect.
  destruct (pre phrase) as [ms|] eqn:EP.
  { destruct (HPre ms eq_refl) as (occs & -> & HA). eexists. exists prefix, suffix, occs. split; [reflexivity|]. split; auto.
    unfold denotes. cbn [matchings match_loc num_subpatterns]. split; [pose proof (size_nonneg (var_pos 0 phrase)); lia|]. split; auto. apply occ_sizes. exact HA. }
  assert (Hn : phrase <> []) by (intros ->; apply HC; intros s []).
  destruct (exists_last Hn) as (pr & w & E). assert (Hw : 0 <= w) by (rewrite E, last_last in Hl; exact Hl).
  assert (Hpr : pr <> []). { intros ->. cbn in E. apply HC. rewrite E. intros s [<-|[]]. auto. }
  destruct (exists_last Hpr) as (P & x & E'). rewrite E' in E.
  destruct phrase as [|w1 q]; [congruence|]. cbn [hd] in Hh.
  destruct q as [|y q]. { exfalso. apply HC. intros s [<-|[]]. auto. }
  assert (G1 : get (w1 :: y :: q) (size (w1 :: y :: q) - 2) = Some x).
  { rewrite E. rewrite !size_app. change (size [x]) with 1. change (size [w]) with 1. rewrite <- app_assoc. rewrite get_app2 by lia. replace (_ - _) with 0 by lia. reflexivity. }
  assert (G2 : get (w1 :: y :: q) (size (w1 :: y :: q) - 1) = Some w).
  { rewrite E. rewrite size_app. change (size [w]) with 1. rewrite get_app2 by lia. replace (_ - _) with 0 by lia. reflexivity. }
  rewrite G1. cbn [bind]. change (get (w1 :: y :: q) 1) with (Some y). cbn [bind]. cbv zeta.
  destruct (denotes_size _ _ _ DP) as (n1 & E1 & _). destruct (denotes_size _ _ _ DS) as (n2 & E2 & _).
  unfold EstimateNumOperations. rewrite E1, E2. cbn [bind].
  destruct ((if x <? 0 then n1 * span else n1) <=? (if y <? 0 then n2 * span else n2)) eqn:EC; clear EC.
  - rewrite G2. cbn [bind].
    assert (ER : removelast (w1 :: y :: q) = P ++ [x]) by (rewrite E; apply removelast_last). rewrite ER in AP.
    destruct (Z.ltb_spec x 0) as [Hx|Hx].
    + rewrite (trim_back_x P x Hx) in AP.
      assert (EPw : w1 :: y :: q = P ++ (if true then [x; w] else [w])) by (rewrite E, <- app_assoc; reflexivity).
      assert (HPn : P <> []). { intros ->. cbn in EPw. injection EPw as ? _. lia. }
      destruct (prefix_ok P x w true) with (sa := sa) (l := prefix) (occs := po) as (r & l' & new & X1 & X2 & X3 & X4); auto.
      * split; auto. destruct P; [congruence|]. cbn in EPw. injection EPw as <- _. exact Hh.
      * destruct (exists_last HPn) as (P' & z & EZ). rewrite EZ, last_last. destruct (HSp P' z x [w]) as [|]; [|auto|lia].
        rewrite EPw, EZ, <- app_assoc. reflexivity.
      * rewrite <- EPw. exact HC.
      * rewrite <- EPw in X1, X4. rewrite X1. cbn [bind]. exists r, l', suffix, new. auto 10.
    + rewrite (trim_back_w P x Hx) in AP.
      assert (EPw : w1 :: y :: q = (P ++ [x]) ++ (if false then [-1; w] else [w])) by (rewrite E; reflexivity).
      destruct (prefix_ok (P ++ [x]) (-1) w false) with (sa := sa) (l := prefix) (occs := po) as (r & l' & new & X1 & X2 & X3 & X4); auto; try lia.
      * split; [destruct P; discriminate|]. destruct P; cbn in EPw; injection EPw as <- _; exact Hh.
      * rewrite last_last. exact Hx.
      * rewrite <- EPw. exact HC.
      * rewrite <- EPw in X1, X4. rewrite X1. cbn [bind]. exists r, l', suffix, new. auto 10.
  - change (get (w1 :: y :: q) 0) with (Some w1). cbn [bind]. cbn [tl trim_front] in AS.
    destruct (Z.ltb_spec y 0) as [Hy|Hy].
    + assert (EPw : w1 :: y :: q = (if true then [w1; y] else [w1]) ++ q) by reflexivity.
      assert (HQn : q <> []). { intros ->. cbn in Hl. lia. }
      destruct (suffix_ok q y w1 true) with (sa := sa) (l := suffix) (occs := so) as (r & l' & new & X1 & X2 & X3 & X4); auto.
      * split; auto. destruct q as [|z q]; [congruence|]. cbn. destruct (HSp [w1] y z q); auto. lia.
      * destruct q; [congruence|exact Hl].
      * cbn [app] in X1. rewrite X1. cbn [bind]. exists r, prefix, l', new. auto 10.
    + destruct (suffix_ok (y :: q) (-1) w1 false) with (sa := sa) (l := suffix) (occs := so) as (r & l' & new & X1 & X2 & X3 & X4); auto; try lia.
      * split; [discriminate|]. exact Hy.
      * cbn [app] in X1. rewrite X1. cbn [bind]. exists r, prefix, l', new. auto 10.
Qed.
End Main.
