From Coq Require Import List ZArith Bool Lia Permutation Sorted.
From Verif Require Import Opt OptProofs Fix Precomp PrecompSpec PrecompProofs PrecompIndexProofs Suffix SuffixSpec SuffixLookupProofs RuleEx Intersect IntersectSpec IntersectProofs IntersectLoopProofs IntersectMainProofs RuleFactory RuleFactorySpec RuleFactoryProofs.
Import ListNotations.
Open Scope Z_scope.
Open Scope opt_scope.

Section Trie.
Variable rnd : nat -> N.
Variable voc : nat.
Variable lines : list (list Z).
Variables sa ws : list Z.
Variable wid : Z -> Z.
Variable pre : list Z -> option (list Z).
Variables span gap nonterms symbols : Z.
Variable words : list Z.
Hypothesis Hlines : Forall (fun l => Forall (fun x => 2 <= x < Z.of_nat voc) l) lines.
Hypothesis Hvoc : (2 <= voc)%nat.
Hypothesis Hsa : BuildSuffixArray rnd voc (text lines) = Some (sa, ws).
Hypothesis Hwords : Forall (fun w => 0 <= w /\ (wid w = -1 \/ 2 <= wid w < Z.of_nat voc)) words.
Hypothesis Hgap : 0 <= gap.
Hypothesis Hpre : forall phrase ms, ~ contiguous phrase -> pre phrase = Some ms -> exists occs, ms = concat occs /\ all_occurrences lines wid span gap phrase occs.
Notation occ := (occurrence lines wid span gap).
Notation all := (all_occurrences lines wid span gap).
Let d := CreateDataArray lines.
Let data := text lines.

Lemma Hlines2 : Forall (fun l => Forall (fun x => 2 <= x) l) lines.
Proof. eapply Forall_impl; [|exact Hlines]. intros l. apply Forall_impl. cbn. lia. Qed.
Lemma Hdata : Forall (fun x => 1 <= x < Z.of_nat voc) data.
Proof.
  apply Forall_forall. intros x Hx. unfold data, text in Hx. apply in_flat_map in Hx. destruct Hx as (l & Hl & Hx).
  rewrite Forall_forall in Hlines. specialize (Hlines l Hl). rewrite Forall_forall in Hlines. apply in_app_iff in Hx. destruct Hx as [Hx|[<-|[]]]; [apply Hlines in Hx|]; lia.
Qed.

(** ** Occurrences *)
Lemma occ_prefix a b ps : occ (a ++ b) ps -> exists ps', occ a ps'.
Proof.
  intros (p & rest & e & -> & R & S & C). apply reads_app in R. destruct R as (ps1 & ps2 & m & -> & R1 & R2).
  pose proof (reads_le _ _ _ Hgap _ _ _ _ R1). pose proof (reads_le _ _ _ Hgap _ _ _ _ R2).
  exists (p :: ps1), p, ps1, m. split; auto. split; auto. split; [apply (same_split _ p m e) in S; [apply S|lia]|].
  destruct C as [C|C]; [left; apply contig_app in C; apply C|right; lia].
Qed.
Lemma occ_suffix a b ps : occ (a ++ b) ps -> exists ps', occ b ps'.
Proof.
  intros (p & rest & e & -> & R & S & C). apply reads_app in R. destruct R as (ps1 & ps2 & m & -> & R1 & R2).
  pose proof (reads_le _ _ _ Hgap _ _ _ _ R1). pose proof (reads_le _ _ _ Hgap _ _ _ _ R2).
  exists (m :: ps2), m, ps2, e. split; auto. split; auto. split; [apply (same_split _ p m e) in S; [apply S|lia]|].
  destruct C as [C|C]; [left; apply contig_app in C; apply C|right; lia].
Qed.
Definition hasocc (p : list Z) : Prop := exists ps, occ (core p) ps.
Lemma trim_back_prefix l : exists r, l = trim_back l ++ r.
Proof.
  destruct l as [|x l] using rev_ind; [exists []; reflexivity|]. rewrite trim_back_snoc. destruct (x <? 0); [exists [x]; auto|exists []; rewrite app_nil_r; auto].
Qed.
Lemma hasocc_prefix p w : good p -> 0 <= w -> hasocc (p ++ [w]) -> hasocc p.
Proof.
  intros G Hw (ps & H). destruct (good_nonempty _ G) as [Hn _]. rewrite core_word in H by auto. rewrite trim_front_app in H by auto. unfold hasocc, core.
  destruct (trim_back_prefix (trim_front p)) as (r & E). rewrite E, <- app_assoc in H. eapply occ_prefix. exact H.
Qed.
Lemma hasocc_suffix p w : p <> [] -> good (p ++ [w]) -> 0 <= w -> hasocc (p ++ [w]) -> hasocc (suf p ++ [w]).
Proof.
  intros Hn G Hw (ps & H). unfold hasocc. rewrite core_word in * by auto. destruct p as [|s r]; [congruence|]. cbn [app suf] in *. destruct (Z.ltb_spec s 0) as [Hs|Hs].
  - cbn [trim_front] in H. destruct (Z.ltb_spec s 0); [|lia].
    assert (ES : sim (r ++ [w]) (shift (r ++ [w]))) by (apply sim_shift; intros x Hx; apply G; auto).
    assert (E2 : shift (r ++ [w]) = shift r ++ [w]) by (unfold shift; rewrite map_app; cbn; destruct (Z.ltb_spec w 0); [lia|reflexivity]).
    rewrite E2 in ES. apply (sim_occ _ _ _ _ _ _ _ ES) in H.
    assert (E3 : trim_front (shift r ++ [w]) = shift r ++ [w]); [|rewrite E3; eauto].
    destruct r as [|y r]; cbn; [destruct (Z.ltb_spec w 0); [lia|reflexivity]|].
    destruct G as (SP & _). destruct (SP [] s y (r ++ [w]) eq_refl) as [|Hy]; [lia|]. destruct (Z.ltb_spec y 0); [lia|]. destruct (Z.ltb_spec y 0); [lia|reflexivity].
  - cbn [trim_front] in H. destruct (Z.ltb_spec s 0); [lia|]. destruct r as [|y r].
    + cbn. destruct (Z.ltb_spec w 0); [lia|]. apply (occ_suffix [s] [w]) in H. exact H.
    + cbn [app trim_front]. destruct (Z.ltb_spec y 0).
      * apply (occ_suffix [s; y] (r ++ [w])) in H. exact H.
      * apply (occ_suffix [s] (y :: r ++ [w])) in H. exact H.
Qed.
(** ** Contiguous phrases *)
Lemma starts_nth : forall w l, starts w l <-> forall i, (i < length w)%nat -> nth_error l i = nth_error w i.
Proof.
  induction w as [|x w IH]; intros l.
  - split; [cbn; lia|]. intros _. exists l. reflexivity.
  - split.
    + intros (r & ->) i Hi. apply nth_error_app1. exact Hi.
    + intros H. destruct l as [|y l]; [specialize (H 0%nat ltac:(cbn; lia)); discriminate|]. pose proof (H 0%nat ltac:(cbn; lia)) as E. injection E as ->.
      assert (HW : starts w l). { apply IH. intros i Hi. exact (H (S i) ltac:(cbn; lia)). }
      destruct HW as (r & ->). exists r. reflexivity.
Qed.
Lemma reads_starts : forall phrase, contiguous phrase -> forall p, 0 <= p -> (starts (map wid phrase) (suffix data p) <-> reads data wid gap phrase p [] (p + size phrase)).
Proof.
  induction phrase as [|s r IH]; intros C p Hp.
  - change (size []) with 0. rewrite Z.add_0_r. split; [constructor|]. intros _. exists (suffix data p). reflexivity.
  - assert (C' : contiguous r) by (intros x Hx; apply C; right; auto). assert (Hs : 0 <= s) by (apply C; left; auto).
    rewrite size_cons. replace (p + (size r + 1)) with (p + 1 + size r) by lia. cbn [map].
    assert (ES : forall x l, suffix data p = x :: l -> nth_error data (Z.to_nat p) = Some x /\ suffix data (p + 1) = l).
    { intros x l E. unfold suffix in *. replace (Z.to_nat (p + 1)) with (S (Z.to_nat p)) by lia. revert E. generalize (Z.to_nat p) data. clear.
      induction n as [|n IH]; intros l' E; destruct l' as [|y l']; cbn in *; try discriminate; [injection E as -> ->; auto|]. apply IH in E. exact E. }
    split.
    + intros (t & E). cbn [app] in E. apply ES in E. destruct E as [E1 E2]. apply reads_word; auto. apply IH; auto; [lia|]. exists t. exact E2.
    + intros R. inversion R; subst. match goal with HR : reads _ _ _ r _ _ _ |- _ => apply (IH C' (p + 1) ltac:(lia)) in HR; destruct HR as (t & E2) end.
      destruct (suffix data p) as [|x l] eqn:E; [exfalso|].
      * unfold suffix in E. match goal with HN : nth_error data _ = _ |- _ => rename HN into HN end. assert (Z.to_nat p < length data)%nat by (apply nth_error_Some; congruence).
        apply (f_equal (@length Z)) in E. rewrite skipn_length in E. cbn in E. lia.
      * destruct (ES x l eq_refl) as [E3 E4]. exists t. cbn. rewrite <- E2, E4. congruence.
Qed.
Lemma contig_occ phrase : phrase <> [] -> contiguous phrase -> Forall (fun s => wid s = -1 \/ 2 <= wid s < Z.of_nat voc) phrase -> forall ps,
  occ phrase ps <-> exists p, ps = [p] /\ 0 <= p <= size data /\ starts (map wid phrase) (suffix data p).
Proof.
  intros Hn C F ps. split.
  - intros (p & rest & e & -> & R & S & _). destruct (reads_contig _ _ _ _ C _ _ _ R) as [-> ->]. exists p. split; auto.
    assert (0 <= p < size data). { destruct phrase as [|s r]; [congruence|]. inversion R; subst. split; auto. unfold size.
      assert (nth_error data (Z.to_nat p) <> None) by (unfold data; congruence). apply nth_error_Some in H. lia. }
    split; [lia|]. apply reads_starts; auto; lia.
  - intros (p & -> & Hp & H). exists p, [], (p + size phrase). split; auto. split; [apply reads_starts; auto; lia|]. split; [|auto].
    intros k Hk Hk1. fold data in Hk1. rewrite starts_nth in H. specialize (H (Z.to_nat (k - p))). rewrite map_length in H. specialize (H ltac:(unfold size in Hk; lia)).
    unfold suffix in H. rewrite nth_error_map in H.
    assert (E : nth_error (skipn (Z.to_nat p) data) (Z.to_nat (k - p)) = nth_error data (Z.to_nat k)).
    { rewrite <- (firstn_skipn (Z.to_nat p) data) at 2. rewrite nth_error_app2 by (rewrite firstn_length; lia). f_equal. rewrite firstn_length. unfold size in *. lia. }
    rewrite E, Hk1 in H. destruct (nth_error phrase (Z.to_nat (k - p))) as [s|] eqn:En; [|discriminate]. cbn in H. injection H as H.
    apply nth_error_In in En. rewrite Forall_forall in F. specialize (F _ En). lia.
Qed.
Lemma nodup_slice {A} (l : list A) a b : NoDup l -> NoDup (firstn a (skipn b l)).
Proof.
  intros H. assert (H2 : NoDup (skipn b l)). { rewrite <- (firstn_skipn b l) in H. revert H. generalize (skipn b l). induction (firstn b l); intros l' H; auto. inversion H; auto. }
  revert H2. generalize (skipn b l). clear. intros l H. revert l H. induction a as [|a IH]; intros l H; [constructor|]. destruct l as [|x l]; [constructor|]. inversion H; subst. cbn. constructor; [|apply IH; auto].
  intros HI. match goal with HN : ~ In x l |- _ => apply HN end. rewrite <- (firstn_skipn a l). apply in_app_iff. auto.
Qed.
Lemma range_all phrase low high : phrase <> [] -> contiguous phrase -> Forall (fun s => wid s = -1 \/ 2 <= wid s < Z.of_nat voc) phrase ->
  range_of data sa (map wid phrase) low high -> exists occs, denotes sa (range_loc low high) occs /\ all phrase occs.
Proof.
  intros Hn C F (R1 & R2 & R3). exists (map (fun p => [p]) (firstn (Z.to_nat (high - low)) (skipn (Z.to_nat low) sa))). split.
  { unfold denotes. cbn. auto. }
  destruct (suffix_build rnd voc data ltac:(lia) Hdata) as (sa' & ws' & E & HP & _). unfold data in E. rewrite Hsa in E. injection E as <- <-.
  assert (HND : NoDup sa). { eapply Permutation_NoDup; [symmetry; exact HP|]. unfold positions. apply FinFun.Injective_map_NoDup; [intros a b; lia|apply seq_NoDup]. }
  assert (HIn : forall p, In p (firstn (Z.to_nat (high - low)) (skipn (Z.to_nat low) sa)) <-> 0 <= p <= size data /\ starts (map wid phrase) (suffix data p)).
  { intros p. split.
    - intros H. apply In_nth_error in H. destruct H as (n & Hn').
      assert (Hlt : (n < Z.to_nat (high - low))%nat). { assert (X : nth_error (firstn (Z.to_nat (high - low)) (skipn (Z.to_nat low) sa)) n <> None) by congruence. apply nth_error_Some in X. rewrite firstn_length in X. lia. }
      assert (E : nth_error sa (Z.to_nat low + n) = Some p).
      { rewrite <- (firstn_skipn (Z.to_nat low) sa). rewrite nth_error_app2 by (rewrite firstn_length; lia). rewrite firstn_length.
        replace (Z.to_nat low + n - Nat.min (Z.to_nat low) (length sa))%nat with n by lia.
        rewrite <- (firstn_skipn (Z.to_nat (high - low)) (skipn (Z.to_nat low) sa)). rewrite nth_error_app1; auto. apply nth_error_Some. congruence. }
      split; [|apply (R3 _ _ E); lia].
      apply nth_error_In in E. eapply Permutation_in in E; [|exact HP]. apply in_map_iff in E. destruct E as (k & <- & Hk). apply in_seq in Hk. unfold size. lia.
    - intros [Hp HS].
      assert (HI : In p sa). { eapply Permutation_in; [symmetry; exact HP|]. apply in_map_iff. exists (Z.to_nat p). split; [lia|]. apply in_seq. unfold size in Hp. lia. }
      apply In_nth_error in HI. destruct HI as (n & Hn'). apply (R3 _ _ Hn') in HS.
      apply nth_error_In with (n := (n - Z.to_nat low)%nat).
      rewrite <- (firstn_skipn (Z.to_nat low) sa) in Hn'. rewrite nth_error_app2 in Hn' by (rewrite firstn_length; lia). rewrite firstn_length in Hn'.
      replace (n - Nat.min (Z.to_nat low) (length sa))%nat with (n - Z.to_nat low)%nat in Hn' by lia.
      rewrite <- (firstn_skipn (Z.to_nat (high - low)) (skipn (Z.to_nat low) sa)) in Hn'. rewrite nth_error_app1 in Hn'; auto.
      rewrite firstn_length, skipn_length. lia. }
  split.
  - apply FinFun.Injective_map_NoDup; [intros a b E; injection E; auto|]. apply nodup_slice. exact HND.
  - intros ps. rewrite contig_occ by auto. rewrite in_map_iff. split.
    + intros (p & <- & Hp). apply HIn in Hp. exists p. auto.
    + intros (p & -> & Hp). exists p. split; auto. apply HIn. exact Hp.
Qed.

(** ** The trie *)
Definition node (t : trie) (p : list Z) : Prop := exists n, t p = Some (Some n).
Definition wordsok (p : list Z) : Prop := Forall (fun s => s < 0 \/ wid s = -1 \/ 2 <= wid s < Z.of_nat voc) p.
Definition locok (p : list Z) (l : location) : Prop := exists occs, denotes sa l occs /\ all (core p) occs /\ occs <> [] /\
  (contiguous p -> matchings l = None /\ range_of data sa (map wid p) (sa_low l) (sa_high l)).
Definition rootok (l : location) : Prop := find_before sa l = range_loc 0 (size sa).
Record TI (t : trie) : Prop := {
  ti_root : exists l, t [] = Some (Some {| t_link := None; t_loc := l |}) /\ rootok l;
  ti_x : exists l, t [-1] = Some (Some {| t_link := Some []; t_loc := l |});
  ti_node : forall p n, t p = Some (Some n) -> p <> [] -> p <> [-1] -> good p /\ wordsok p /\ t_link n = Some (suf p) /\ node t (suf p) /\ locok p (t_loc n);
  ti_null : forall p, t p = Some None -> exists q w, p = q ++ [w] /\ 0 <= w /\ ~ hasocc p;
  ti_var : forall p, node t p -> p <> [] -> 0 <= last p 0 -> arity p < nonterms -> node t (p ++ [- (arity p + 1)])
}.
Lemma set_same t p v : set t p v p = Some v.
Proof. unfold set. rewrite list_eqb_refl. reflexivity. Qed.
Lemma set_other t p v q : p <> q -> set t p v q = t q.
Proof. intros H. unfold set. destruct (list_eqb p q) eqn:E; auto. apply list_eqb_spec in E. contradiction. Qed.
Lemma path_dec (p q : list Z) : p = q \/ p <> q.
Proof. destruct (list_eq_dec Z.eq_dec p q); auto. Qed.
Lemma snoc_not_x (q : list Z) w : 0 <= w -> q ++ [w] <> [] /\ q ++ [w] <> [-1].
Proof.
  intros H. split; [destruct q; discriminate|]. intros E. change [-1] with ([] ++ [-1]) in E. apply app_inj_tail in E. lia.
Qed.
Lemma node_set_null t p q : t p = None -> (node (set t p None) q <-> node t q).
Proof.
  intros H. unfold node. destruct (path_dec p q) as [<-|N]; [rewrite set_same, H|rewrite set_other by auto; tauto]. split; intros (n & E); discriminate.
Qed.
Lemma ti_addnull t q w : TI t -> t (q ++ [w]) = None -> 0 <= w -> ~ hasocc (q ++ [w]) -> TI (set t (q ++ [w]) None).
Proof.
  intros I E Hw NO. destruct (snoc_not_x q w Hw) as [N1 N2]. destruct I as [A B C D F]. constructor.
  - rewrite set_other by auto. exact A.
  - rewrite set_other by auto. exact B.
  - intros p n Hp Hn1 Hn2. destruct (path_dec (q ++ [w]) p) as [<-|N]; [rewrite set_same in Hp; discriminate|]. rewrite set_other in Hp by auto.
    destruct (C p n Hp Hn1 Hn2) as (X1 & X2 & X3 & X4 & X5). repeat (split; auto). apply node_set_null; auto.
  - intros p Hp. destruct (path_dec (q ++ [w]) p) as [<-|N]; [eauto|]. rewrite set_other in Hp by auto. auto.
  - intros p Hp. rewrite node_set_null in * by auto. auto.
Qed.
Lemma node_set t p v q : node (set t p (Some v)) q <-> p = q \/ node t q.
Proof.
  unfold node. destruct (path_dec p q) as [<-|N]; [rewrite set_same|rewrite set_other by auto].
  - split; auto. intros _. eauto.
  - tauto.
Qed.
Lemma ti_setloc t p n l : TI t -> t p = Some (Some n) -> (p = [] -> rootok l) -> (p <> [] -> p <> [-1] -> locok p l) ->
  TI (set t p (Some {| t_link := t_link n; t_loc := l |})).
Proof.
  intros I E HR HL. assert (NN : forall q, node (set t p (Some {| t_link := t_link n; t_loc := l |})) q <-> node t q).
  { intros q. rewrite node_set. split; auto. intros [<-|]; auto. exists n. exact E. }
  destruct I as [A B C D F]. constructor.
  - destruct A as (l0 & A & A'). destruct (path_dec p []) as [->|N]; [|rewrite set_other by auto; eauto]. rewrite set_same. rewrite A in E. injection E as <-. cbn. eauto.
  - destruct B as (l0 & B). destruct (path_dec p [-1]) as [->|N]; [|rewrite set_other by auto; eauto]. rewrite set_same. rewrite B in E. injection E as <-. cbn. eauto.
  - intros q n' Hq Hn1 Hn2. destruct (path_dec p q) as [<-|N].
    + rewrite set_same in Hq. injection Hq as <-. destruct (C p n E Hn1 Hn2) as (X1 & X2 & X3 & X4 & X5). split; auto. split; auto. split; auto. split; [apply NN; auto|]. cbn. auto.
    + rewrite set_other in Hq by auto. destruct (C q n' Hq Hn1 Hn2) as (X1 & X2 & X3 & X4 & X5). repeat (split; auto). apply NN; auto.
  - intros q Hq. destruct (path_dec p q) as [<-|N]; [rewrite set_same in Hq; discriminate|]. rewrite set_other in Hq by auto. auto.
  - intros q. rewrite !NN. auto.
Qed.
Lemma last_snoc (q : list Z) w : last (q ++ [w]) 0 = w.
Proof. apply last_last. Qed.
Lemma suf_last p w : p ++ [w] = p ++ [w] -> 0 <= w -> suf (p ++ [w]) = [] \/ exists q, suf (p ++ [w]) = q ++ [w].
Proof.
  intros _ Hw. destruct p as [|s p]; [left; cbn; destruct (Z.ltb_spec w 0); [lia|reflexivity]|]. right. rewrite suf_word by (auto; discriminate). eauto.
Qed.
Lemma not_contig_snoc p x : x < 0 -> ~ contiguous (p ++ [x]).
Proof. intros H C. specialize (C x). rewrite in_app_iff in C. cbn in C. lia. Qed.
Lemma suf_nil_word p w : 0 <= w -> suf (p ++ [w]) = [] -> p = [].
Proof. intros Hw E. destruct p as [|s p]; auto. rewrite suf_word in E by (auto; discriminate). destruct (suf (s :: p)); discriminate. Qed.
Lemma ti_addnode t p w l : TI t -> 0 <= w -> good (p ++ [w]) -> wordsok (p ++ [w]) -> node t (suf (p ++ [w])) -> locok (p ++ [w]) l ->
  let t2 := set t (p ++ [w]) (Some {| t_link := Some (suf (p ++ [w])); t_loc := l |}) in
  exists t3, AddTrailingNonterminal nonterms t2 (p ++ [w]) (hd 0 (p ++ [w]) <? 0) = Some t3 /\ TI t3 /\
    (forall q, node t q -> node t3 q) /\ node t3 (p ++ [w]) /\ (forall q, node t3 q -> node t q \/ q = p ++ [w] \/ last q 0 < 0).
Proof.
  intros I Hw HG HW HS HL. cbv zeta. set (f := p ++ [w]) in *. set (t2 := set t f _).
  assert (Hfl : last f 0 = w) by apply last_snoc. destruct (snoc_not_x p w Hw) as [N1 N2]. fold f in N1, N2.
  assert (N2f : forall q, node t2 q <-> f = q \/ node t q) by (intros q; apply node_set).
  assert (Hvar : forall x, x < 0 -> f ++ [x] <> f). { intros x Hx E. apply (f_equal (fun l => last l 0)) in E. rewrite last_snoc in E. lia. }
  unfold AddTrailingNonterminal. destruct (Z.leb_spec nonterms (arity f)) as [Hm|Hm].
  { exists t2. split; auto. split; [|split; [|split]].
    - destruct I as [A B C D F]. constructor.
      + unfold t2. rewrite set_other by auto. exact A.
      + unfold t2. rewrite set_other by auto. exact B.
      + intros q n Hq Hn1 Hn2. unfold t2 in Hq. destruct (path_dec f q) as [<-|N].
        * rewrite set_same in Hq. injection Hq as <-. cbn. split; auto. split; auto. split; auto. split; auto. apply N2f. auto.
        * rewrite set_other in Hq by auto. destruct (C q n Hq Hn1 Hn2) as (X1 & X2 & X3 & X4 & X5). repeat (split; auto). apply N2f. auto.
      + intros q Hq. unfold t2 in Hq. destruct (path_dec f q) as [<-|N]; [rewrite set_same in Hq; discriminate|]. rewrite set_other in Hq by auto. auto.
      + intros q Hq Hn Hl Ha. apply N2f in Hq. destruct Hq as [<-|Hq]; [lia|]. apply N2f. right. auto.
    - intros q Hq. apply N2f. auto.
    - apply N2f. auto.
    - intros q Hq. apply N2f in Hq. destruct Hq as [<-|Hq]; auto. }
  assert (E2 : t2 f = Some (Some {| t_link := Some (suf f); t_loc := l |})) by apply set_same.
  unfold node_at at 1. rewrite E2. cbn [bind t_link].
  assert (HS2 : node t2 (suf f)) by (apply N2f; auto). destruct HS2 as (nl & HS2).
  unfold node_at at 1. rewrite HS2. cbn [bind t_loc].
  pose proof (suf_var f N1) as SV. set (sv := - (arity f + b2z (negb (hd 0 f <? 0)))) in *.
  assert (HSV : node t2 (suf f ++ [sv])).
  { apply N2f. right. destruct (suf_last p w eq_refl Hw) as [E0|(q & E0)]; fold f in E0.
    - rewrite E0 in *. assert (Ep : p = []) by (apply (suf_nil_word p w Hw E0)). subst p. unfold sv, f. cbn [app hd]. rewrite arity_word by auto. destruct (Z.ltb_spec w 0); [lia|]. cbn.
      destruct (ti_x _ I) as (lx & Ex). exists {| t_link := Some []; t_loc := lx |}. exact Ex.
    - pose proof (suf_arity f HG) as SA. assert (X : node t (suf f ++ [- (arity (suf f) + 1)])).
      + apply (ti_var _ I); auto; [rewrite E0; destruct q; discriminate|rewrite E0, last_snoc; auto|]. destruct (hd 0 f <? 0); lia.
      + rewrite SA in X. replace sv with (- (arity f - (if hd 0 f <? 0 then 1 else 0) + 1)); auto. unfold sv. destruct (hd 0 f <? 0); cbn; lia. }
  unfold GetChild. destruct HSV as (nv & HSV). rewrite HSV. eexists. split; [reflexivity|]. pose proof (arity_nonneg f) as Hanf.
  set (f' := f ++ [- (arity f + 1)]) in *. set (t3 := set t2 f' _).
  assert (N3 : forall q, node t3 q <-> f' = q \/ f = q \/ node t q). { intros q. unfold t3. rewrite node_set, N2f. tauto. }
  assert (Hf' : f' <> [] /\ f' <> [-1] /\ f' <> f). { unfold f'. repeat split; [destruct f; discriminate| |apply Hvar; lia]. intros E. apply (f_equal (@length Z)) in E. rewrite app_length in E. cbn in E. destruct f; [congruence|cbn in E; lia]. }
  destruct Hf' as (F1 & F2 & F3). split; [|split; [|split]].
  - destruct I as [A B C D F]. constructor.
    + unfold t3, t2. rewrite !set_other by auto. exact A.
    + unfold t3, t2. rewrite !set_other by auto. exact B.
    + intros q n Hq Hn1 Hn2. unfold t3 in Hq. destruct (path_dec f' q) as [<-|N].
      * rewrite set_same in Hq. injection Hq as <-. cbn [t_link t_loc]. split; [apply good_var; auto; rewrite Hfl; auto|]. split.
        { unfold f'. apply Forall_app. split; auto. constructor; auto. left. lia. }
        split; [f_equal; symmetry; exact SV|]. split; [rewrite SV; exists nv; unfold t3; rewrite set_other; auto; intros E; unfold f' in E; apply (f_equal (fun x => length x)) in E; rewrite !app_length in E; cbn in E; assert (length (suf f) < length f)%nat; [|lia]; destruct f as [|y f0]; [congruence|]; cbn; destruct (y <? 0); unfold shift; rewrite ?map_length; lia|].
        destruct HL as (occs & L1 & L2 & L3 & L4). exists occs. split; auto. split; [unfold f'; rewrite core_var; auto; [lia|rewrite Hfl; auto]|]. split; auto.
        intros CC. exfalso. apply (not_contig_snoc f (- (arity f + 1)) ltac:(lia) CC).
      * rewrite set_other in Hq by auto. unfold t2 in Hq. destruct (path_dec f q) as [<-|N'].
        -- rewrite set_same in Hq. injection Hq as <-. cbn [t_link t_loc]. split; auto. split; auto. split; auto. split; auto. apply N3. auto.
        -- rewrite set_other in Hq by auto. destruct (C q n Hq Hn1 Hn2) as (X1 & X2 & X3 & X4 & X5). repeat (split; auto). apply N3. auto.
    + intros q Hq. unfold t3 in Hq. destruct (path_dec f' q) as [<-|N]; [rewrite set_same in Hq; discriminate|]. rewrite set_other in Hq by auto.
      unfold t2 in Hq. destruct (path_dec f q) as [<-|N']; [rewrite set_same in Hq; discriminate|]. rewrite set_other in Hq by auto. auto.
    + intros q Hq Hn Hl Ha. apply N3 in Hq. apply N3. destruct Hq as [<-|[<-|Hq]]; auto. unfold f' in Hl. rewrite last_snoc in Hl. lia.
  - intros q Hq. apply N3. auto.
  - apply N3. auto.
  - intros q Hq. apply N3 in Hq. destruct Hq as [<-|[<-|Hq]]; auto. right. right. unfold f'. rewrite last_snoc. lia.
Qed.

(** ** One state *)
Definition exts (s : state) (f : list Z) : list state :=
  if orb (orb (symbols <=? size f) (size words <=? s_end s + 1)) (span <=? s_end s - s_start s) then []
  else {| s_start := s_start s; s_end := s_end s + 1; s_phrase := f; s_x := s_x s |} ::
       (if orb (symbols <=? size f + 1) (nonterms <=? arity f) then []
        else gap_states span words (length words) s (f ++ [- (arity f + 1)]) (s_end s + 1 + gap)).
Lemma extend_pure t s f : TI t -> node t f -> f <> [] -> 0 <= last f 0 -> ExtendState span gap nonterms symbols words t s f = Some (t, exts s f).
Proof.
  intros I HN Hn Hl. unfold ExtendState, exts. destruct (orb (orb (symbols <=? size f) _) _); auto. unfold max_chunks.
  destruct (symbols <=? size f + 1); cbn [orb]; auto. destruct (Z.leb_spec nonterms (arity f)); cbn [orb]; auto.
  assert (HB : (nonterms + 1 <=? arity f + b2z (negb (s_x s))) = false) by (apply Z.leb_gt; destruct (s_x s); cbn; lia). rewrite HB.
  destruct (gap_states _ _ _ _ _ _) eqn:EG; auto. destruct (ti_var _ I f HN Hn Hl) as (n & E); auto.
  unfold GetChild. rewrite E. reflexivity.
Qed.
Lemma contig_dec p : contiguous p \/ ~ contiguous p.
Proof. destruct (Z.eq_dec (arity p) 0) as [H|H]; rewrite arity_contig in H; auto. Qed.
Lemma core_front f : f <> [] -> 0 <= hd 0 f -> trim_front f = f.
Proof. destruct f as [|x f]; [congruence|]. cbn. destruct (Z.ltb_spec x 0); [lia|reflexivity]. Qed.
Lemma node_path t p : TI t -> node t p -> p = [] \/ p = [-1] \/ (good p /\ wordsok p).
Proof.
  intros I (n & E). destruct (path_dec p []); auto. destruct (path_dec p [-1]); auto. destruct (ti_node _ I _ _ E) as (A & B & _); auto.
Qed.
Lemma node_link t p n : TI t -> t p = Some (Some n) -> p <> [] -> t_link n = Some (suf p) /\ node t (suf p).
Proof.
  intros I E Hn. destruct (path_dec p [-1]) as [->|N].
  - destruct (ti_x _ I) as (l & Ex). rewrite Ex in E. injection E as <-. split; auto. destruct (ti_root _ I) as (l0 & E0 & _). eexists. exact E0.
  - destruct (ti_node _ I _ _ E Hn N) as (_ & _ & A & B & _). auto.
Qed.
Lemma locok_hasocc p l : locok p l -> hasocc p.
Proof. intros (occs & _ & [_ A] & N & _). destruct occs as [|o occs]; [congruence|]. exists o. apply A. left. reflexivity. Qed.
Lemma node_hasocc t p : TI t -> node t p -> p <> [] -> p <> [-1] -> hasocc p.
Proof. intros I (n & E) H1 H2. destruct (ti_node _ I _ _ E H1 H2) as (_ & _ & _ & _ & L). eapply locok_hasocc. exact L. Qed.
Lemma empty_loc l occs : denotes sa l occs -> exists b, IsEmpty l = Some b /\ (b = true <-> occs = []).
Proof. intros D. destruct (denotes_size _ _ _ D) as (n & E & H). unfold IsEmpty. rewrite E. cbn [bind]. eexists. split; [reflexivity|]. rewrite Z.eqb_eq. exact H. Qed.
Lemma app_not_nil (p : list Z) w : p ++ [w] <> [].
Proof. destruct p; discriminate. Qed.

Definition call_ok (f : list Z) (l : location) : Prop := exists occs, denotes sa l occs /\ all f occs.
Definition stepped (t : trie) (s : state) (w : Z) (t' : trie) (c : list (list Z * location)) (more : list state) : Prop :=
  let f := s_phrase s ++ [w] in
  TI t' /\ (forall q, node t q -> node t' q) /\ (forall q, node t' q -> node t q \/ q = f \/ last q 0 < 0) /\
  (hasocc f -> node t' f /\ more = exts s f) /\ (~ node t' f -> more = []) /\
  ((c = [] /\ (s_x s = true \/ node t f \/ ~ node t' f)) \/
   (exists l, c = [(f, l)] /\ s_x s = false /\ ~ node t f /\ node t' f /\ call_ok f l)).
Lemma stepped_none t s w t' : TI t' -> (forall q, node t' q <-> node t q) -> ~ hasocc (s_phrase s ++ [w]) -> 0 <= w -> stepped t s w t' [] [].
Proof.
  intros I NN NO Hw. unfold stepped. split; auto. split; [intros q; apply NN|]. split; [intros q Hq; left; apply NN; auto|]. split; [tauto|]. split; auto.
  left. split; auto. right. right. intros HN. apply NO. destruct (snoc_not_x (s_phrase s) w Hw). eapply node_hasocc; eauto.
Qed.
Lemma stepped_new t t2 s w l c : TI t2 -> (forall q, node t2 q <-> node t q) -> 0 <= w -> good (s_phrase s ++ [w]) -> wordsok (s_phrase s ++ [w]) ->
  node t2 (suf (s_phrase s ++ [w])) -> locok (s_phrase s ++ [w]) l -> ~ node t (s_phrase s ++ [w]) ->
  ((c = [] /\ s_x s = true) \/ (c = [(s_phrase s ++ [w], l)] /\ s_x s = false /\ call_ok (s_phrase s ++ [w]) l)) ->
  s_x s = (hd 0 (s_phrase s ++ [w]) <? 0) ->
  exists t4 more, 
    (t3 <- AddTrailingNonterminal nonterms (set t2 (s_phrase s ++ [w]) (Some {| t_link := Some (suf (s_phrase s ++ [w])); t_loc := l |})) (s_phrase s ++ [w]) (s_x s) ;;
     '(t5, m) <- ExtendState span gap nonterms symbols words t3 s (s_phrase s ++ [w]) ;; Some (t5, c, m)) = Some (t4, c, more) /\ stepped t s w t4 c more.
Proof.
  intros I NN Hw HG HW HS HL NF HC HX. destruct (ti_addnode t2 _ w l I Hw HG HW HS HL) as (t3 & E & I3 & M1 & M2 & M3).
  rewrite HX, E. cbn [bind]. rewrite extend_pure; auto using app_not_nil; [|rewrite last_snoc; auto]. cbn [bind].
  eexists. eexists. split; [reflexivity|]. unfold stepped. split; auto. split; [intros q Hq; apply M1, NN; auto|]. split.
  { intros q Hq. apply M3 in Hq. rewrite NN in Hq. auto. }
  split; auto. split; [tauto|]. destruct HC as [(-> & HC)|(-> & HC & HC')]; [left; auto|right]. exists l. auto.
Qed.
Lemma pathish_node t p : TI t -> node t p -> pathish p.
Proof. intros I H. unfold pathish. destruct (node_path _ _ I H) as [H'|[H'|[H' _]]]; auto. Qed.
Lemma wordsok_word t p w : TI t -> node t p -> In w words -> wordsok (p ++ [w]).
Proof.
  intros I H Hw. apply Forall_app. split.
  - destruct (node_path _ _ I H) as [->|[->|[_ H']]]; auto; repeat constructor; lia.
  - constructor; auto. rewrite Forall_forall in Hwords. apply Hwords in Hw. intuition.
Qed.
Lemma da_text : da_data d = text lines.
Proof. apply create_array. exact Hlines2. Qed.

Lemma step_ok t s w : TI t -> get words (s_end s) = Some w -> node t (s_phrase s) -> s_x s = (hd 0 (s_phrase s) <? 0) ->
  (s_phrase s <> [] -> hasocc (suf (s_phrase s) ++ [w]) -> node t (suf (s_phrase s) ++ [w])) ->
  exists t' c more, step d sa ws wid pre span gap nonterms symbols words t s = Some (t', c, more) /\ stepped t s w t' c more.
Proof.
  intros I HW HN HX HC. assert (HIn : In w words). { apply get_inv in HW. destruct HW as [A ->]. apply at_in. exact A. }
  assert (Hw : 0 <= w). { rewrite Forall_forall in Hwords. apply Hwords. exact HIn. }
  set (p := s_phrase s) in *. set (f := p ++ [w]). assert (Hfn : f <> []) by apply app_not_nil.
  assert (HG : good f) by (apply good_word; auto; eapply pathish_node; eauto). assert (HWf : wordsok f) by (eapply wordsok_word; eauto).
  assert (HXf : s_x s = (hd 0 f <? 0)).
  { rewrite HX. unfold f. destruct p; [cbn; destruct (Z.ltb_spec w 0); [lia|reflexivity]|reflexivity]. }
  destruct HN as (n & EN). assert (HN : node t p) by (exists n; exact EN).
  unfold step. rewrite HW. cbn [bind]. fold p. fold f.
  unfold CannotHaveMatchings. unfold node_at at 1. rewrite EN. cbn [bind]. fold f.
  assert (HSuf : p <> [] -> suf f = suf p ++ [w]) by (intros; apply suf_word; auto).
  assert (LINK : t f <> Some None -> 
     (exists t1, (match t_link n with None => Some (t, false) | Some link => let '(t', c) := GetChild t link w in Some (t', match c with None => true | Some _ => false end) end) = Some (t1, true) /\
        TI t1 /\ (forall q, node t1 q <-> node t q) /\ ~ hasocc f) \/
     ((match t_link n with None => Some (t, false) | Some link => let '(t', c) := GetChild t link w in Some (t', match c with None => true | Some _ => false end) end) = Some (t, false) /\
        node t (suf f) /\ match t_link n with None => [] | Some l => l ++ [w] end = suf f)).
  { intros _. destruct (path_dec p []) as [Hp|Hp].
    - destruct (ti_root _ I) as (l & E0 & _). rewrite Hp, E0 in EN. injection EN as <-. cbn [t_link]. right. split; auto.
      assert (Es : suf f = []) by (unfold f; rewrite Hp; cbn; destruct (Z.ltb_spec w 0); [lia|reflexivity]). rewrite Es. split; auto. eexists. exact E0.
    - destruct (node_link _ _ _ I EN Hp) as [EL _]. rewrite EL. unfold GetChild. rewrite (HSuf Hp).
      destruct (t (suf p ++ [w])) as [[m|]|] eqn:Et.
      + right. split; auto. split; auto. eexists. exact Et.
      + left. exists t. split; auto. split; auto. split; [tauto|]. intros HO. apply hasocc_suffix in HO; auto. apply HC in HO; auto. destruct HO as (m & Em). congruence.
      + left. exists (set t (suf p ++ [w]) None). assert (NO : ~ hasocc (suf p ++ [w])) by (intros HO; apply HC in HO; auto; destruct HO as (m & Em); congruence).
        split; auto. split; [apply ti_addnull; auto|]. split; [intros q; apply node_set_null; auto|]. intros HO. apply NO. apply hasocc_suffix; auto. }
  destruct (t f) as [[m|]|] eqn:Ef.
  - (* a node already *)
    destruct LINK as [(t1 & E1 & I1 & NN & NO)|(E1 & HSf & _)]; [congruence| |].
    { exfalso. apply NO. apply (node_hasocc t f I); [exists m; exact Ef|auto|apply snoc_not_x; auto]. }
    rewrite E1. cbn [bind]. unfold HasChild. fold f. rewrite Ef. cbn [negb].
    rewrite extend_pure; auto; [|exists m; exact Ef|unfold f; rewrite last_snoc; auto]. cbn [bind]. eexists. eexists. eexists. split; [reflexivity|].
    unfold stepped. fold p. fold f. split; auto. split; auto. split; auto. split; [intros _; split; auto; exists m; exact Ef|]. split; [intros X; exfalso; apply X; exists m; exact Ef|].
    left. split; auto. right. left. exists m. exact Ef.
  - (* known to have no occurrence *)
    cbn [bind]. unfold HasChild. fold f. rewrite Ef. eexists. eexists. eexists. split; [reflexivity|]. apply stepped_none; auto; [tauto|]. fold p. fold f.
    destruct (ti_null _ I _ Ef) as (? & ? & _ & _ & X). exact X.
  - destruct LINK as [(t1 & E1 & I1 & NN & NO)|(E1 & HSf & EL)]; [congruence| |].
    { rewrite E1. cbn [bind]. unfold HasChild. fold f. destruct (t1 f) as [v|] eqn:E1f.
      - eexists. eexists. eexists. split; [reflexivity|]. apply stepped_none; auto.
      - eexists. eexists. eexists. split; [reflexivity|]. apply stepped_none; auto; [apply ti_addnull; auto|]. intros q. rewrite node_set_null; auto. }
    rewrite E1. cbn [bind]. unfold HasChild. fold f. rewrite Ef. cbn [negb]. unfold node_at at 1. rewrite EN. cbn [bind]. rewrite EL.
    assert (NF : ~ node t f) by (intros (? & X); congruence).
    destruct HSf as (ln & Eln). assert (HSf : node t (suf f)) by (exists ln; exact Eln).
    unfold node_at at 1. rewrite Eln. cbn [bind]. destruct (s_x s) eqn:Esx.
    + (* starts with a nonterminal *)
      assert (Hp : p <> []) by (intros E; rewrite E in HX; cbn in HX; discriminate).
      assert (Hxr : exists x r, p = x :: r) by (destruct p as [|x r]; [congruence|eauto]). destruct Hxr as (x & r & Ep). symmetry in HX. apply Z.ltb_lt in HX. rewrite Ep in HX. cbn [hd] in HX.
      assert (Ef0 : f = x :: r ++ [w]) by (unfold f; rewrite Ep; reflexivity).
      assert (Esuf : suf f = shift (r ++ [w])) by (rewrite Ef0; cbn [app suf]; destruct (Z.ltb_spec x 0); [reflexivity|lia]).
      assert (HL : locok f (t_loc ln)).
      { assert (S1 : sim (r ++ [w]) (shift (r ++ [w]))) by (apply sim_shift; intros y Hy; apply HG; rewrite Ef0; auto).
        destruct (ti_node _ I _ _ Eln) as (G2 & W2 & _ & _ & (occs & L1 & L2 & L3 & L4)).
        - rewrite Esuf. unfold shift. rewrite map_app. apply app_not_nil.
        - rewrite Esuf. unfold shift. rewrite map_app. cbn [map]. destruct (Z.ltb_spec w 0); [lia|]. apply snoc_not_x. exact Hw.
        - exists occs. split; auto. split; [|split; auto].
          + apply (sim_all _ _ _ _ (shift (r ++ [w]))); [apply sim_sym|].
            * unfold f. rewrite core_word by auto. fold f. rewrite Ef0. cbn [app trim_front]. destruct (Z.ltb_spec x 0); [exact S1|lia].
            * rewrite Esuf in L2. unfold shift in L2 at 1. rewrite map_app in L2. cbn [map] in L2. destruct (Z.ltb_spec w 0); [lia|]. rewrite core_word in L2 by auto.
              replace (trim_front (map (fun z => if z <? 0 then z + 1 else z) r ++ [w])) with (shift (r ++ [w])) in L2; auto.
              unfold shift. rewrite map_app. cbn [map]. destruct (Z.ltb_spec w 0); [lia|]. symmetry. apply core_front; [apply app_not_nil|].
              destruct HG as (SP & _). destruct r as [|y r]; [exact Hw|]. cbn. destruct (SP [] x y (r ++ [w]) Ef0) as [|Hy]; [lia|]. destruct (Z.ltb_spec y 0); lia.
          + intros CC. exfalso. rewrite Ef0 in CC. specialize (CC x (or_introl eq_refl)). lia. }
      destruct (stepped_new t t s w (t_loc ln) []) as (t4 & more & E & ST); auto; try (intros; tauto); fold p; fold f; auto; try congruence.
      fold p in E. fold f in E. rewrite Esx in E. rewrite E. eauto.
    + (* starts with a word *)
      symmetry in HXf. apply Z.ltb_ge in HXf. assert (Ecore : core f = f) by (unfold f; rewrite core_word by auto; apply core_front; auto).
      assert (FIN : forall t2 l occs, TI t2 -> (forall q, node t2 q <-> node t q) -> denotes sa l occs -> all f occs ->
        (contiguous f -> matchings l = None /\ range_of data sa (map wid f) (sa_low l) (sa_high l)) ->
        exists t' c more, (empty <- IsEmpty l ;; if (empty : bool) then Some (t2, [], []) else
          t4 <- AddTrailingNonterminal nonterms (set t2 f (Some {| t_link := Some (suf f); t_loc := l |})) f false ;;
          '(t5, more) <- ExtendState span gap nonterms symbols words t4 s f ;; Some (t5, [(f, l)], more)) = Some (t', c, more) /\ stepped t s w t' c more).
      { intros t2 l occs I2 NN DL AL CL. destruct (empty_loc _ _ DL) as (b & Eb & Hb). rewrite Eb. cbn [bind]. destruct b.
        - eexists. eexists. eexists. split; [reflexivity|]. apply stepped_none; auto. fold p. fold f. intros (ps & HO). rewrite Ecore in HO. apply AL in HO. rewrite (proj1 Hb eq_refl) in HO. destruct HO.
        - destruct (stepped_new t t2 s w l [(f, l)]) as (t4 & more & E & ST); auto; fold p; fold f; auto.
          + apply NN. auto.
          + exists occs. rewrite Ecore. split; auto. split; auto. split; auto. intros EO. apply Hb in EO. discriminate.
          + right. split; auto. split; auto. exists occs. auto.
          + rewrite Esx. symmetry. apply Z.ltb_ge. exact HXf.
          + fold p in E. fold f in E. rewrite Esx in E. rewrite E. eauto. }
      destruct (Z.ltb_spec 0 (arity f)) as [Ha|Ha].
      * assert (NC : ~ contiguous f) by (rewrite <- arity_contig; lia).
        assert (Hpn : p <> []). { intros E. unfold f in Ha. rewrite E in Ha. cbn [app] in Ha. rewrite arity_word in Ha by auto. lia. }
        assert (Hhp : 0 <= hd 0 p) by (unfold f in HXf; rewrite hd_app in HXf by auto; auto).
        assert (Hpx : p <> [-1]). { intros E. rewrite E in Hhp. cbn in Hhp. lia. }
        destruct (ti_node _ I _ _ EN Hpn Hpx) as (Gp & Wp & _ & _ & (po & P1 & P2 & P3 & P4)).
        assert (NCp : ~ contiguous p). { intros C. apply NC. intros x Hx. apply in_app_iff in Hx. destruct Hx as [Hx|[<-|[]]]; auto. }
        rewrite (HSuf Hpn) in *.
        assert (Etl : suf p ++ [w] = tl f). { unfold f. destruct p as [|y p']; [congruence|]. cbn in Hhp |- *. destruct (Z.ltb_spec y 0); [lia|reflexivity]. }
        destruct (snoc_not_x (suf p) w Hw) as [Ns1 Ns2].
        destruct (ti_node _ I _ _ Eln Ns1 Ns2) as (Gs & Ws & _ & _ & (so & S1 & S2 & S3 & S4)).
        assert (NCs : ~ contiguous (suf p ++ [w])). { intros C. apply NC. rewrite Etl in C. destruct f as [|y f']; [congruence|]. cbn in *. intros x [<-|Hx]; auto. }
        assert (X : exists r prefix' suffix' occs, Intersect d sa wid pre span gap (t_loc n) (t_loc ln) f = Some (r, prefix', suffix') /\
            denotes sa r occs /\ all f occs /\ denotes sa prefix' po /\ denotes sa suffix' so).
        { apply (intersect_ok lines wid span gap Hlines2 Hgap sa pre f); auto.
          - apply HG.
          - unfold f. rewrite last_snoc. exact Hw.
          - unfold f. rewrite removelast_last. unfold core in P2. rewrite core_front in P2 by auto. exact P2.
          - rewrite <- Etl. rewrite core_word in S2 by auto. exact S2. }
        destruct X as (r & l1 & l2 & occs & EI & D1 & A1 & D2 & D3). unfold d in *. rewrite EI. cbn [bind].
        unfold set_loc at 1. unfold node_at at 1. rewrite EN. cbn [bind].
        set (ta := set t p _). assert (Ia : TI ta). { apply (ti_setloc t p n l1); auto; [congruence|]. intros _ _. exists po. split; auto. split; auto. split; auto. intros C. contradiction. }
        assert (Na : forall q, node ta q <-> node t q). { intros q. unfold ta. rewrite node_set. split; auto. intros [<-|]; auto. }
        assert (Hla : node ta (suf p ++ [w])) by (apply Na; auto). destruct Hla as (na & Ena).
        unfold set_loc. unfold node_at at 1. rewrite Ena. cbn [bind]. apply (FIN _ r occs); auto; [| |intros C; contradiction].
        -- apply (ti_setloc ta (suf p ++ [w]) na l2); auto; [congruence|]. intros _ _. exists so. split; auto. split; auto. split; auto. intros C. contradiction.
        -- intros q. rewrite node_set, Na. split; auto. intros [<-|]; auto.
      * assert (CF : contiguous f) by (apply arity_contig; pose proof (arity_nonneg f); lia).
        assert (CP : contiguous p) by (intros x Hx; apply CF; apply in_app_iff; auto).
        assert (X : exists a b, FindLoc d sa ws wid (t_loc n) w (size p) = Some (range_loc a b, find_before sa (t_loc n)) /\ range_of data sa (map wid f) a b /\
           (p = [] -> rootok (find_before sa (t_loc n))) /\ (p <> [] -> p <> [-1] -> locok p (find_before sa (t_loc n)))).
        { assert (R : range_of data sa (map wid p) (sa_low (find_before sa (t_loc n))) (sa_high (find_before sa (t_loc n))) /\
             (p = [] -> rootok (find_before sa (t_loc n))) /\ (p <> [] -> p <> [-1] -> locok p (find_before sa (t_loc n)))).
          { destruct (path_dec p []) as [Hp|Hp].
            - destruct (ti_root _ I) as (l0 & E0 & R0). rewrite Hp, E0 in EN. injection EN as <-. cbn [t_loc]. unfold rootok in R0. rewrite R0. split; [|split; [|congruence]].
              + rewrite Hp. cbn [map]. unfold range_of. cbn. unfold size. split; [lia|]. split; [lia|]. intros i q Hq. split; [intros _; eexists; reflexivity|]. intros _.
                assert (i < length sa)%nat by (apply nth_error_Some; congruence). lia.
              + intros _. unfold rootok, find_before. cbn. destruct (size sa =? -1); reflexivity.
            - assert (Hpx : p <> [-1]). { intros E. rewrite E in CP. specialize (CP (-1) (or_introl eq_refl)). lia. }
              destruct (ti_node _ I _ _ EN Hp Hpx) as (_ & _ & _ & _ & LL). pose proof LL as (po & P1 & P2 & P3 & P4). destruct (P4 CP) as [Q1 Q2].
              assert (EB : find_before sa (t_loc n) = t_loc n). { unfold find_before. destruct Q2 as (Q2 & _). destruct (Z.eqb_spec (sa_low (t_loc n)) (-1)); [lia|reflexivity]. }
              rewrite EB. split; auto. split; [congruence|auto]. }
          destruct R as (R1 & R2 & R3). unfold FindLoc. rewrite da_text.
          assert (Hwid : 1 <= wid w < Z.of_nat voc \/ wid w = -1) by (rewrite Forall_forall in Hwords; destruct (Hwords _ HIn) as [_ [Hx|Hx]]; [right; auto|left; lia]).
          destruct (suffix_lookup rnd voc data sa ws (map wid p) (wid w) (sa_low (find_before sa (t_loc n))) (sa_high (find_before sa (t_loc n))) ltac:(lia) Hdata Hsa Hwid R1) as (a & b & E & R4).
          rewrite map_length in E. unfold size, data in *. rewrite E. cbn [bind]. exists a, b. split; auto. split; auto. unfold f. rewrite map_app. exact R4. }
        destruct X as (a & b & E & R1 & R2 & R3). unfold d in *. rewrite E. cbn [bind].
        unfold set_loc. unfold node_at at 1. rewrite EN. cbn [bind].
        destruct (range_all f a b) as (occs & D1 & A1); auto.
        { apply Forall_forall. intros x Hx. unfold wordsok in HWf. rewrite Forall_forall in HWf. destruct (HWf x Hx); auto. specialize (CF x Hx). lia. }
        apply (FIN _ (range_loc a b) occs); auto.
        -- apply (ti_setloc t p n); auto.
        -- intros q. rewrite node_set. split; auto. intros [<-|]; auto.
Qed.

(** ** All states *)
Hypothesis Hspan : 0 <= span.
Hypothesis Hsym : 1 <= symbols.
Hypothesis Hnon : 0 <= nonterms.
Definition fullp (s : state) : list Z := s_phrase s ++ [at_ words (s_end s)].
Definition reach (s : state) : Prop := 0 <= hd 0 (s_phrase s) ->
  (exists ps, reads words (fun w => w) gap (s_phrase s) (s_start s) ps (s_end s)) /\ s_end s - s_start s <= span /\ size (s_phrase s) < symbols /\
  arity (s_phrase s) <= nonterms /\ numbered (s_phrase s).
Definition stok (s : state) : Prop := 0 <= s_end s < size words /\ s_start s <= s_end s /\ s_x s = (hd 0 (s_phrase s) <? 0) /\ reach s.
Definition part (s s' : state) : Prop := s_end s' = s_end s /\ s_phrase s' = suf (s_phrase s) /\ s_start s <= s_start s'.
Definition ordered (l : list state) : Prop := forall l1 s l2, l = l1 ++ s :: l2 -> s_phrase s <> [] -> exists s', In s' l1 /\ part s s'.

Lemma gap_in s ph : forall k i e, 0 <= i -> (In e (gap_states span words k s ph i) <->
  exists j, i <= j < i + Z.of_nat k /\ j < size words /\ j - s_start s <= span /\ e = {| s_start := s_start s; s_end := j; s_phrase := ph; s_x := s_x s |}).
Proof.
  induction k as [|k IH]; intros i e Hi.
  - cbn. split; [tauto|]. intros (j & Hj & _). lia.
  - cbn [gap_states]. destruct (Z.ltb_spec i (size words)); destruct (Z.leb_spec (i - s_start s) span); cbn [andb].
    + cbn [In]. rewrite IH by lia. split.
      * intros [<-|(j & Hj & H1 & H2 & ->)]; [exists i; split; [lia|auto]|exists j; split; [lia|auto]].
      * intros (j & Hj & H1 & H2 & ->). destruct (Z.eq_dec i j) as [->|]; [left; auto|right]. exists j. split; [lia|auto].
    + cbn. split; [tauto|]. intros (j & Hj & H1 & H2 & _). lia.
    + cbn. split; [tauto|]. intros (j & Hj & H1 & H2 & _). lia.
    + cbn. split; [tauto|]. intros (j & Hj & H1 & H2 & _). lia.
Qed.
Lemma gap_len s ph : forall k i, (length (gap_states span words k s ph i) <= k)%nat.
Proof. induction k as [|k IH]; intros i; cbn; auto. destruct (andb _ _); cbn; [specialize (IH (i + 1))|]; lia. Qed.
Lemma exts_in s f e : 0 <= s_end s -> (In e (exts s f) <->
  size f < symbols /\ s_end s + 1 < size words /\ s_end s - s_start s < span /\
  (e = {| s_start := s_start s; s_end := s_end s + 1; s_phrase := f; s_x := s_x s |} \/
   (size f + 1 < symbols /\ arity f < nonterms /\ exists j, s_end s + 1 + gap <= j < size words /\ j - s_start s <= span /\
      e = {| s_start := s_start s; s_end := j; s_phrase := f ++ [- (arity f + 1)]; s_x := s_x s |}))).
Proof.
  intros He. unfold exts.
  destruct (Z.leb_spec symbols (size f)); cbn [orb]; [cbn; split; [tauto|lia]|].
  destruct (Z.leb_spec (size words) (s_end s + 1)); cbn [orb]; [cbn; split; [tauto|lia]|].
  destruct (Z.leb_spec span (s_end s - s_start s)); cbn [orb]; [cbn; split; [tauto|lia]|].
  cbn [In]. split.
  - intros [<-|HI]; [auto|]. split; auto. split; auto. split; auto. right. 
    destruct (Z.leb_spec symbols (size f + 1)); cbn [orb] in HI; [destruct HI|]. destruct (Z.leb_spec nonterms (arity f)); cbn [orb] in HI; [destruct HI|].
    split; auto. split; auto. apply gap_in in HI; [|lia]. destruct HI as (j & Hj & H4 & H5 & ->). exists j. split; [lia|auto].
  - intros (_ & _ & _ & [<-|(Q1 & Q2 & j & Q3 & Q4 & ->)]); [auto|]. right.
    destruct (Z.leb_spec symbols (size f + 1)); [lia|]. destruct (Z.leb_spec nonterms (arity f)); [lia|]. cbn [orb].
    apply gap_in; [lia|]. exists j. split; [|split; [lia|split; [lia|reflexivity]]]. unfold size in Q3. lia.
Qed.
Lemma size_negs l : size (negs l) = arity l.
Proof.
  induction l as [|x l IH]; auto. rewrite arity_cons. cbn [negs filter]. fold (negs l). destruct (Z.ltb_spec x 0).
  - rewrite arity_var, size_cons by auto. lia.
  - rewrite arity_word by auto. exact IH.
Qed.
Lemma numbered_app a b : numbered (a ++ b) -> numbered a.
Proof. intros H l1 x l2 -> Hx. apply (H l1 x (l2 ++ b)); auto. rewrite <- app_assoc. reflexivity. Qed.
Lemma snoc_split {A} (l : list A) x : forall l1 y l2, l ++ [x] = l1 ++ y :: l2 -> (l1 = l /\ y = x /\ l2 = []) \/ exists l3, l2 = l3 ++ [x] /\ l = l1 ++ y :: l3.
Proof.
  intros l1 y l2 E. destruct l2 as [|z l2] using rev_ind.
  - apply app_inj_tail in E. destruct E as [-> ->]. auto.
  - clear IHl2. right. exists l2. change (y :: l2 ++ [z]) with ((y :: l2) ++ [z]) in E. rewrite app_assoc in E. apply app_inj_tail in E. destruct E as [-> ->]. auto.
Qed.
Lemma numbered_snoc a x : numbered a -> (x < 0 -> x = - (arity a + 1)) -> numbered (a ++ [x]).
Proof.
  intros H Hx l1 y l2 E Hy. apply snoc_split in E. destruct E as [(-> & -> & _)|(l3 & -> & ->)].
  - rewrite size_negs. auto.
  - apply (H l1 y l3); auto.
Qed.
Lemma stok_word s : stok s -> get words (s_end s) = Some (at_ words (s_end s)) /\ 0 <= at_ words (s_end s) /\ In (at_ words (s_end s)) words.
Proof.
  intros (H & _). split; [apply get_some; auto|]. assert (HI : In (at_ words (s_end s)) words) by (apply at_in; auto). split; auto.
  rewrite Forall_forall in Hwords. apply Hwords. exact HI.
Qed.
Lemma full_hd s : stok s -> (hd 0 (fullp s) <? 0) = (hd 0 (s_phrase s) <? 0).
Proof.
  intros H. destruct (stok_word s H) as (_ & Hw & _). unfold fullp. destruct (s_phrase s); [cbn; destruct (Z.ltb_spec (at_ words (s_end s)) 0); [lia|reflexivity]|reflexivity].
Qed.
Lemma stok_exts s e : stok s -> In e (exts s (fullp s)) -> stok e.
Proof.
  intros H HI. pose proof (full_hd s H) as FH. destruct (stok_word s H) as (GW & Hw & _). destruct H as (H1 & H2 & H3 & H4).
  pose proof (arity_nonneg (fullp s)) as Han.
  assert (RR : 0 <= hd 0 (fullp s) -> exists ps, reads words (fun w => w) gap (fullp s) (s_start s) ps (s_end s + 1)).
  { intros Hh. destruct H4 as ((ps & R) & _); [apply Z.ltb_ge; rewrite <- FH; apply Z.ltb_ge; auto|]. exists (ps ++ []). unfold fullp. apply reads_app. exists ps, [], (s_end s). split; auto. split; auto.
    apply reads_one; auto. apply H1. }
  apply exts_in in HI; [|lia]. destruct HI as (Q1 & Q2 & Q3 & [->|(Q4 & Q5 & j & Q6 & Q7 & ->)]); unfold stok; cbn [s_end s_start s_x s_phrase].
  - split; [lia|]. split; [lia|]. split; [rewrite FH; auto|]. unfold reach. cbn [s_end s_start s_x s_phrase]. intros Hh. split; [auto|].
    destruct H4 as (_ & A & B & C & D); [apply Z.ltb_ge; rewrite <- FH; apply Z.ltb_ge; auto|]. split; [lia|]. split; auto. split.
    + unfold fullp. rewrite arity_app, arity_word by auto. lia.
    + apply numbered_snoc; auto. lia.
  - split; [lia|]. split; [lia|]. rewrite hd_app by apply app_not_nil. split; [rewrite FH; auto|]. unfold reach. cbn [s_end s_start s_x s_phrase]. rewrite hd_app by apply app_not_nil. intros Hh.
    destruct H4 as (_ & A & B & C & D); [apply Z.ltb_ge; rewrite <- FH; apply Z.ltb_ge; auto|].
    split; [|split; [lia|split; [|split]]].
    + destruct (RR Hh) as (ps & R). exists (ps ++ [j]). apply reads_app. exists ps, [j], (s_end s + 1). split; auto. split; auto. apply reads_gap; [lia|lia|constructor].
    + rewrite size_app. change (size [_]) with 1. lia.
    + rewrite arity_app, arity_var by lia. lia.
    + apply numbered_snoc; auto. apply numbered_snoc; auto. lia.
Qed.
Lemma part_exts s s' e : stok s -> stok s' -> good (fullp s) -> s_phrase s <> [] -> part s s' -> In e (exts s (fullp s)) -> exists e', In e' (exts s' (fullp s')) /\ part e e'.
Proof.
  intros H H' HG Hn (P1 & P2 & P3) HI. destruct (stok_word s H) as (_ & Hw & _). destruct H as (H1 & _). destruct H' as (H1' & _).
  assert (Ef : fullp s' = suf (fullp s)) by (unfold fullp; rewrite P1, P2, suf_word; auto).
  assert (Hfn : fullp s <> []) by apply app_not_nil.
  assert (SZ : size (fullp s') = size (fullp s) - 1).
  { rewrite Ef. destruct (fullp s) as [|x r]; [congruence|]. cbn [suf]. rewrite size_cons. destruct (x <? 0); unfold size, shift; rewrite ?map_length; lia. }
  assert (AR : arity (fullp s') = arity (fullp s) - (if hd 0 (fullp s) <? 0 then 1 else 0)) by (rewrite Ef; apply suf_arity; auto).
  apply exts_in in HI; [|lia]. destruct HI as (Q1 & Q2 & Q3 & [->|(Q4 & Q5 & j & Q6 & Q7 & ->)]).
  - eexists. split; [apply exts_in; [lia|]; split; [lia|]; split; [lia|]; split; [lia|]; left; reflexivity|].
    unfold part. cbn. split; [lia|]. split; auto.
  - eexists. split; [apply exts_in; [lia|]; split; [lia|]; split; [lia|]; split; [lia|]; right; split; [lia|]; split; [destruct (hd 0 (fullp s) <? 0); lia|]; exists j; split; [lia|]; split; [lia|reflexivity]|].
    unfold part. cbn. split; [lia|]. split; [|auto]. rewrite suf_var by auto. rewrite Ef. do 3 f_equal. rewrite <- Ef, AR. destruct (hd 0 (fullp s) <? 0); cbn; lia.
Qed.
Notation inits := (initial gap words).
Lemma in_initial e : In e inits <-> (exists i, 0 <= i < size words /\ e = {| s_start := i; s_end := i; s_phrase := []; s_x := false |}) \/
  (exists i, gap <= i < size words /\ e = {| s_start := i - gap; s_end := i; s_phrase := [-1]; s_x := true |}).
Proof.
  unfold initial. rewrite in_app_iff, !in_map_iff. split.
  - intros [(i & <- & Hi)|(i & <- & Hi)]; apply in_seq in Hi; [left|right]; exists (Z.of_nat i); split; auto; unfold size; lia.
  - intros [(i & Hi & ->)|(i & Hi & ->)]; [left|right]; exists (Z.to_nat i); unfold size in Hi; (split; [f_equal; lia|apply in_seq; lia]).
Qed.
Lemma initial_stok e : In e inits -> stok e.
Proof.
  intros H. apply in_initial in H. destruct H as [(i & Hi & ->)|(i & Hi & ->)]; unfold stok; cbn [s_end s_start s_x s_phrase]; (split; [lia|]; split; [lia|]; split; [reflexivity|]); unfold reach; cbn [s_end s_start s_x s_phrase].
  - intros _. split; [exists []; constructor|]. split; [lia|]. split; [cbn; lia|]. split; [cbn; lia|intros l1 x l2 E; destruct l1; discriminate].
  - cbn. lia.
Qed.

Lemma part_initial s e : stok s -> s_phrase s = [] -> In e (exts s (fullp s)) -> exists e', In e' inits /\ part e e'.
Proof.
  intros H Hp HI. destruct (stok_word s H) as (_ & Hw & _). destruct H as (H1 & H2 & _).
  assert (Ef : fullp s = [at_ words (s_end s)]) by (unfold fullp; rewrite Hp; reflexivity).
  apply exts_in in HI; [|lia]. rewrite Ef in HI. rewrite arity_word in HI by auto. destruct HI as (Q1 & Q2 & Q3 & [->|(Q4 & Q5 & j & Q6 & Q7 & ->)]).
  - exists {| s_start := s_end s + 1; s_end := s_end s + 1; s_phrase := []; s_x := false |}. split; [apply in_initial; left; eexists; split; [|reflexivity]; lia|].
    unfold part. cbn. split; auto. split; [destruct (Z.ltb_spec (at_ words (s_end s)) 0); [lia|reflexivity]|lia].
  - exists {| s_start := j - gap; s_end := j; s_phrase := [-1]; s_x := true |}. split; [apply in_initial; right; eexists; split; [|reflexivity]; lia|].
    unfold part. cbn. split; auto. split; [destruct (Z.ltb_spec (at_ words (s_end s)) 0); [lia|reflexivity]|lia].
Qed.
Lemma ordered_app l : forall more, ordered l -> (forall e, In e more -> exists s', In s' l /\ part e s') -> ordered (l ++ more).
Proof.
  induction more as [|e more IH] using rev_ind; intros O H; [rewrite app_nil_r; auto|].
  assert (O' : ordered (l ++ more)) by (apply IH; auto; intros x Hx; apply H; apply in_app_iff; auto). rewrite app_assoc.
  intros l1 s l2 E Hn. apply snoc_split in E. destruct E as [(-> & -> & ->)|(l3 & -> & E)].
  - destruct (H e) as (s' & A & B); [apply in_app_iff; right; left; auto|]. exists s'. split; auto. apply in_app_iff. auto.
  - apply (O' l1 s l3 E Hn).
Qed.
Lemma ordered_init : ordered inits.
Proof.
  unfold initial. apply ordered_app.
  - intros l1 s l2 E Hn. exfalso. apply Hn. assert (HI : In s (l1 ++ s :: l2)) by (apply in_app_iff; right; left; auto). rewrite <- E in HI. apply in_map_iff in HI. destruct HI as (i & <- & _). reflexivity.
  - intros e He. apply in_map_iff in He. destruct He as (i & <- & Hi). apply in_seq in Hi.
    exists {| s_start := Z.of_nat i; s_end := Z.of_nat i; s_phrase := []; s_x := false |}. split; [apply in_map_iff; exists i; split; auto; apply in_seq; lia|]. unfold part. cbn. split; auto. split; auto. lia.
Qed.

Record Inv (done q : list state) (t : trie) (calls : list (list Z * location)) : Prop := {
  i_ti : TI t;
  i_init : incl inits (done ++ q);
  i_st : forall s, In s (done ++ q) -> stok s /\ node t (s_phrase s);
  i_ord : ordered (done ++ q);
  i_done : forall s, In s done -> hasocc (fullp s) -> node t (fullp s) /\ incl (exts s (fullp s)) (done ++ q);
  i_from : forall p, node t p -> p = [] \/ last p 0 < 0 \/ exists s, In s done /\ p = fullp s;
  i_nodup : NoDup (map fst calls);
  i_calls : forall p, In p (map fst calls) <-> node t p /\ p <> [] /\ 0 <= hd 0 p /\ 0 <= last p 0;
  i_locs : forall p l, In (p, l) calls -> call_ok p l
}.
Lemma node_dec t p : node t p \/ ~ node t p.
Proof. unfold node. destruct (t p) as [[n|]|]; [left; eauto|right; intros (? & ?); discriminate|right; intros (? & ?); discriminate]. Qed.
Lemma inv_step done s q t calls : Inv done (s :: q) t calls ->
  exists t' c more, step d sa ws wid pre span gap nonterms symbols words t s = Some (t', c, more) /\
    (more = [] \/ more = exts s (fullp s)) /\ stok s /\ Inv (done ++ [s]) (q ++ more) t' (calls ++ c).
Proof.
  intros [A B C D E F G H J]. destruct (C s) as [SS SN]; [apply in_app_iff; right; left; auto|].
  destruct (stok_word s SS) as (GW & Hw & HIw).
  assert (PART : s_phrase s <> [] -> exists s', In s' done /\ part s s') by (intros Hn; apply (D done s q eq_refl Hn)).
  assert (Efull : forall s', part s s' -> s_phrase s <> [] -> fullp s' = suf (fullp s)) by (intros s' (P1 & P2 & P3) Hn; unfold fullp; rewrite P1, P2, suf_word; auto).
  assert (HG : good (fullp s)) by (apply good_word; auto; eapply pathish_node; eauto).
  destruct (step_ok t s (at_ words (s_end s)) A GW SN) as (t' & c & more & ES & ST); [apply SS| |].
  { intros Hn HO. destruct (PART Hn) as (s' & HI & HP). destruct (E s' HI) as [X _].
    - rewrite (Efull s' HP Hn). unfold fullp. rewrite suf_word; auto.
    - rewrite (Efull s' HP Hn) in X. unfold fullp in X. rewrite suf_word in X; auto. }
  unfold stepped in ST. fold (fullp s) in ST. destruct ST as (I' & M1 & M2 & M3 & M4 & M5).
  destruct (snoc_not_x (s_phrase s) _ Hw) as [N1 N2]. fold (fullp s) in N1, N2.
  assert (MORE : (more = [] /\ ~ node t' (fullp s)) \/ (more = exts s (fullp s) /\ node t' (fullp s) /\ hasocc (fullp s))).
  { destruct (node_dec t' (fullp s)) as [Y|Y]; [right|left; split; auto]. assert (HO : hasocc (fullp s)) by (apply (node_hasocc t'); auto). destruct (M3 HO). auto. }
  assert (LOG : (done ++ [s]) ++ q ++ more = (done ++ s :: q) ++ more) by (rewrite <- !app_assoc; reflexivity).
  exists t', c, more. split; auto. split; [destruct MORE as [[X _]|[X _]]; auto|]. split; auto. constructor; auto.
  - rewrite LOG. intros x Hx. apply in_app_iff. left. apply B. exact Hx.
  - rewrite LOG. intros x Hx. apply in_app_iff in Hx. destruct Hx as [Hx|Hx].
    + destruct (C x Hx). split; auto.
    + destruct MORE as [[X _]|(X & X1 & X2)]; subst more; [destruct Hx|]. split; [eapply stok_exts; eauto|].
      apply exts_in in Hx; [|apply SS]. destruct Hx as (Q1 & Q2 & Q3 & [->|(Q4 & Q5 & j & Q6 & Q7 & ->)]); cbn; auto.
      apply (ti_var _ I'); auto. unfold fullp. rewrite last_snoc. exact Hw.
  - rewrite LOG. apply ordered_app; auto. intros e He. destruct MORE as [[X _]|(X & X1 & X2)]; subst more; [destruct He|].
    destruct (path_dec (s_phrase s) []) as [Hp|Hp].
    + destruct (part_initial s e SS Hp He) as (e' & P1 & P2). exists e'. split; auto.
    + destruct (PART Hp) as (s' & HI & HP). destruct (C s') as [SS' _]; [apply in_app_iff; auto|].
      destruct (part_exts s s' e SS SS' HG Hp HP He) as (e' & P1 & P2). exists e'. split; auto.
      destruct (E s' HI) as [_ X]; [|apply X; exact P1]. rewrite (Efull s' HP Hp). unfold fullp. rewrite suf_word by auto. apply hasocc_suffix; auto.
  - rewrite LOG. intros x Hx HO. apply in_app_iff in Hx. destruct Hx as [Hx|[<-|[]]].
    + destruct (E x Hx HO) as [X1 X2]. split; auto. intros y Hy. apply in_app_iff. left. apply X2. exact Hy.
    + destruct MORE as [[X X1]|(X & X1 & X2)]; [destruct (M3 HO); contradiction|]. split; auto. subst more. intros y Hy. apply in_app_iff. auto.
  - intros p Hp. destruct (M2 p Hp) as [Y|[Y|Y]]; auto.
    + destruct (F p Y) as [Z0|[Z0|(x & Z1 & Z2)]]; auto. right. right. exists x. split; auto. apply in_app_iff. auto.
    + right. right. exists s. split; auto. apply in_app_iff. right. left. auto.
  - rewrite map_app. destruct M5 as [(-> & _)|(l & -> & X1 & X2 & X3 & X4)]; [cbn; rewrite app_nil_r; auto|]. cbn [map fst]. apply nodup_app; auto.
    + repeat constructor. intros [].
    + intros x Hx [<-|[]]. apply H in Hx. apply X2. apply Hx.
  - intros p. rewrite map_app, in_app_iff, H. destruct M5 as [(-> & X)|(l & -> & X1 & X2 & X3 & X4)]; cbn [map fst In].
    + split; [intros [(Y1 & Y2)|[]]; split; auto|]. intros (Y1 & Y2 & Y3 & Y4). left. split; auto. destruct (M2 p Y1) as [Y|[Y|Y]]; auto; [|lia].
      destruct X as [X|[X|X]]; [|rewrite Y; exact X|exfalso; apply X; rewrite <- Y; exact Y1]. exfalso. destruct SS as (_ & _ & SX & _). rewrite X in SX. symmetry in SX.
      rewrite Y in Y3. unfold fullp in Y3. destruct (s_phrase s) as [|z r]; [discriminate|]. cbn [hd] in SX. apply Z.ltb_lt in SX. cbn in Y3. lia.
    + split.
      * intros [(Y1 & Y2)|[<-|[]]]; [split; auto|]. split; auto. split; auto. split; [|unfold fullp; rewrite last_snoc; auto]. destruct SS as (_ & _ & SX & _). rewrite X1 in SX. symmetry in SX. apply Z.ltb_ge in SX.
        unfold fullp. destruct (s_phrase s) as [|z r]; auto.
      * intros (Y1 & Y2 & Y3 & Y4). destruct (M2 p Y1) as [Y|[Y|Y]]; [left; auto|right; left; auto|lia].
  - intros p l Hl. apply in_app_iff in Hl. destruct Hl as [Hl|Hl]; [apply J; auto|]. destruct M5 as [(-> & _)|(l' & -> & X1 & X2 & X3 & X4)]; [destruct Hl|].
    destruct Hl as [Hl|[]]. injection Hl as <- <-. exact X4.
Qed.

(** ** Termination *)
Notation n := (length words).
Definition wt (s : state) : nat := ((n + 2) ^ (n - Z.to_nat (s_end s)))%nat.
Definition sumw (q : list state) : nat := list_sum (map wt q).
Lemma sumw_app a b : sumw (a ++ b) = (sumw a + sumw b)%nat.
Proof. unfold sumw. rewrite map_app, list_sum_app. reflexivity. Qed.
Lemma wt_pos s : (1 <= wt s)%nat.
Proof. unfold wt. assert ((n + 2) ^ (n - Z.to_nat (s_end s)) <> 0)%nat by (apply Nat.pow_nonzero; lia). lia. Qed.
Lemma sumw_le b : forall q, (forall e, In e q -> (wt e <= b)%nat) -> (sumw q <= length q * b)%nat.
Proof.
  induction q as [|e q IH]; intros H; [cbn; lia|]. change (sumw (e :: q)) with (wt e + sumw q)%nat. cbn [length].
  specialize (IH ltac:(intros; apply H; right; auto)). specialize (H e (or_introl eq_refl)). nia.
Qed.
Lemma exts_len s f : (length (exts s f) <= n + 1)%nat.
Proof.
  unfold exts. destruct (orb (orb _ _) _); [cbn; lia|]. cbn [length]. destruct (orb _ _); [cbn; lia|]. pose proof (gap_len s (f ++ [- (arity f + 1)]) n (s_end s + 1 + gap)). lia.
Qed.
Lemma wt_exts s f : stok s -> (sumw (exts s f) < wt s)%nat.
Proof.
  intros (H1 & _). set (k := (n - Z.to_nat (s_end s) - 1)%nat).
  assert (EW : wt s = ((n + 2) * (n + 2) ^ k)%nat). { unfold wt. rewrite <- Nat.pow_succ_r'. f_equal. unfold k. unfold size in H1. lia. }
  assert (HP : ((n + 2) ^ k <> 0)%nat) by (apply Nat.pow_nonzero; lia).
  pose proof (sumw_le ((n + 2) ^ k) (exts s f)) as S. pose proof (exts_len s f) as L.
  assert (sumw (exts s f) <= length (exts s f) * (n + 2) ^ k)%nat.
  { apply S. intros e He. unfold wt. apply Nat.pow_le_mono_r; [lia|]. unfold k. apply exts_in in He; [|lia].
    destruct He as (Q1 & Q2 & Q3 & [->|(Q4 & Q5 & j & Q6 & Q7 & ->)]); cbn; lia. }
  rewrite EW. nia.
Qed.
Lemma run_ok : forall m done q t calls, (sumw q <= m)%nat -> Inv done q t calls ->
  exists calls' done' t', (forall fuel, (m <= fuel)%nat -> run d sa ws wid pre span gap nonterms symbols words fuel t q = Some calls') /\ Inv done' [] t' (calls ++ calls').
Proof.
  induction m as [|m IH]; intros done q t calls Hm I.
  - destruct q as [|s q]; [|change (sumw (s :: q)) with (wt s + sumw q)%nat in Hm; pose proof (wt_pos s); lia].
    exists [], done, t. split; [intros [|fuel] _; reflexivity|]. rewrite app_nil_r. exact I.
  - destruct q as [|s q].
    + exists [], done, t. split; [intros [|fuel] _; reflexivity|]. rewrite app_nil_r. exact I.
    + destruct (inv_step _ _ _ _ _ I) as (t' & c & more & ES & EM & SS & I').
      destruct (IH (done ++ [s]) (q ++ more) t' (calls ++ c)) as (calls' & done' & t'' & R & I''); auto.
      { rewrite sumw_app. change (sumw (s :: q)) with (wt s + sumw q)%nat in Hm. pose proof (wt_pos s). pose proof (wt_exts s (fullp s) SS).
        destruct EM as [->| ->]; [cbn; lia|]. cbn [plus] in *. lia. }
      exists (c ++ calls'), done', t''. split; [|rewrite app_assoc; exact I''].
      intros [|fuel] Hf; [lia|]. cbn [run]. rewrite ES. cbn [bind]. rewrite R by lia. reflexivity.
Qed.
Lemma root_ti : TI (root_trie).
Proof.
  assert (RN : forall p v, root_trie p = Some v -> (p = [] /\ v = Some {| t_link := None; t_loc := range_loc (-1) (-1) |}) \/ (p = [-1] /\ v = Some {| t_link := Some []; t_loc := range_loc (-1) (-1) |})).
  { intros p v. unfold root_trie. destruct (path_dec [-1] p) as [<-|N]; [rewrite set_same; intros E; injection E as <-; auto|]. rewrite set_other by auto.
    destruct (path_dec [] p) as [<-|N']; [rewrite set_same; intros E; injection E as <-; auto|]. rewrite set_other by auto. discriminate. }
  constructor.
  - eexists. split; reflexivity.
  - eexists. reflexivity.
  - intros p m E. apply RN in E. destruct E as [(-> & _)|(-> & _)]; congruence.
  - intros p E. apply RN in E. destruct E as [(_ & E)|(_ & E)]; discriminate.
  - intros p (m & E) Hn Hl. apply RN in E. destruct E as [(-> & _)|(-> & _)]; [congruence|]. cbn in Hl. lia.
Qed.
Lemma inv_init : Inv [] inits root_trie [].
Proof.
  assert (RN : forall p, node root_trie p <-> p = [] \/ p = [-1]).
  { intros p. unfold root_trie. rewrite node_set. split; [|intros [->| ->]; [right; eexists; reflexivity|auto]]. intros [<-|(m & H)]; auto.
    destruct (path_dec [] p) as [<-|N]; auto. rewrite set_other in H by auto. discriminate. }
  constructor; cbn [app map fst In].
  - apply root_ti.
  - intros x Hx. exact Hx.
  - intros s Hs. split; [apply initial_stok; auto|]. apply RN. apply in_initial in Hs. destruct Hs as [(i & _ & ->)|(i & _ & ->)]; cbn; auto.
  - apply ordered_init.
  - intros s [].
  - intros p Hp. apply RN in Hp. destruct Hp as [->| ->]; [auto|]. right. left. cbn. lia.
  - constructor.
  - intros p. split; [tauto|]. intros (Hp & A & B & C). apply RN in Hp. destruct Hp as [->| ->]; [congruence|]. cbn in C. lia.
  - intros p l [].
Qed.

(** ** The phrases *)
Lemma reads_last_word phrase w p ps e : 0 <= w -> reads words (fun x => x) gap (phrase ++ [w]) p ps e -> exists ps', reads words (fun x => x) gap phrase p ps' (e - 1) /\ 0 <= e - 1 < size words /\ at_ words (e - 1) = w.
Proof.
  intros Hw R. apply reads_app in R. destruct R as (ps1 & ps2 & m & -> & R1 & R2). apply reads_word_inv in R2; auto. destruct R2 as (-> & -> & Hm & G).
  replace (m + 1 - 1) with m by lia. exists ps1. split; auto. apply get_inv in G. destruct G as [G1 G2]. split; auto.
Qed.
Lemma reads_gap_inv x p ps e : x < 0 -> reads words (fun y => y) gap [x] p ps e -> p + gap <= e.
Proof. intros Hx R. inversion R as [| |? ? ? ? ? ? HH1 HH2 HH3]; subst; [lia|]. inversion HH3; subst. exact HH2. Qed.
Lemma exists_last_or (a : list Z) : a = [] \/ exists a' x, a = a' ++ [x].
Proof. destruct a as [|y a]; auto. right. destruct (@exists_last _ (y :: a)) as (a' & x & E); [discriminate|eauto]. Qed.
Lemma phrase_state done t calls phrase p0 : Inv done [] t calls -> numbered phrase -> spaced phrase -> 0 <= hd 0 phrase -> size phrase <= symbols -> arity phrase <= nonterms ->
  (exists ps, occ phrase ps) -> forall m a w b ps e, (length a <= m)%nat -> phrase = (a ++ [w]) ++ b -> 0 <= w -> reads words (fun x => x) gap (a ++ [w]) p0 ps e -> e - p0 <= span + 1 ->
  exists s, In s done /\ s_phrase s = a /\ s_end s = e - 1 /\ s_start s = p0 /\ fullp s = a ++ [w].
Proof.
  intros I HNum HSp Hh Hsz Har (pso & HO). induction m as [|m IH]; intros a w b ps e Hm E Hw R Hspn.
  - destruct a; [|cbn in Hm; lia]. apply reads_last_word in R; auto. destruct R as (ps' & R & He & Hat). cbn [app] in *. inversion R; subst.
    eexists. split; [pose proof (i_init _ _ _ _ I) as X; rewrite app_nil_r in X; apply X; apply in_initial; left; eexists; split; [exact He|reflexivity]|].
    cbn. split; auto.
  - destruct (exists_last_or a) as [->|(a' & x & ->)].
    + apply (IH [] w b ps e); auto. cbn. lia.
    + rewrite app_length in Hm. cbn in Hm. destruct (reads_last_word _ _ _ _ _ Hw R) as (ps' & R' & He & Hat).
      assert (PRE : forall a0 w0 b0, phrase = (a0 ++ [w0]) ++ b0 -> 0 <= w0 -> hasocc (a0 ++ [w0])).
      { intros a0 w0 b0 E0 Hw0. unfold hasocc. rewrite core_word by auto. rewrite core_front; [|apply app_not_nil|].
        - apply (occ_prefix (a0 ++ [w0]) b0 pso). rewrite <- E0. exact HO.
        - rewrite E0 in Hh. rewrite hd_app in Hh by apply app_not_nil. exact Hh. }
      destruct (Z.lt_ge_cases x 0) as [Hx|Hx].
      * (* a gap before the last word *)
        destruct (exists_last_or a') as [->|(a'' & w' & ->)].
        { exfalso. rewrite E in Hh. cbn in Hh. lia. }
        assert (Hw' : 0 <= w'). { destruct (HSp a'' w' x ([w] ++ b)); auto; [|lia]. rewrite E, <- !app_assoc. reflexivity. }
        apply reads_app in R'. destruct R' as (ps1 & ps2 & m1 & -> & R1 & R2). apply reads_gap_inv in R2; auto.
        assert (EX : x = - (arity (a'' ++ [w']) + 1)). { rewrite <- size_negs. apply (HNum (a'' ++ [w']) x ([w] ++ b)); auto. rewrite E, <- !app_assoc. reflexivity. }
        destruct (IH a'' w' ([x] ++ [w] ++ b) ps1 m1) as (s & S1 & S2 & S3 & S4 & S5); auto.
        { rewrite app_length in Hm. cbn in Hm. lia. }
        { rewrite E, <- !app_assoc. reflexivity. }
        { lia. }
        assert (HO2 : hasocc (fullp s)). { rewrite S5. apply (PRE a'' w' ([x] ++ [w] ++ b)); auto. rewrite E, <- !app_assoc. reflexivity. }
        destruct (i_done _ _ _ _ I s S1 HO2) as [_ X]. rewrite app_nil_r in X.
        exists {| s_start := s_start s; s_end := e - 1; s_phrase := fullp s ++ [- (arity (fullp s) + 1)]; s_x := s_x s |}.
        destruct (i_st _ _ _ _ I s) as [SS _]; [rewrite app_nil_r; auto|].
        pose proof (reads_le _ _ _ Hgap _ _ _ _ R1).
        split; [|cbn; rewrite S5; split; [rewrite <- EX; reflexivity|split; auto; split; auto]].
        -- apply X. apply exts_in; [apply SS|]. 
           assert (size phrase = size (a'' ++ [w']) + 2 + size b). { rewrite E, !size_app. change (size [x]) with 1. change (size [w]) with 1. lia. }
           pose proof (size_nonneg b). rewrite S5.
           assert (AR : arity phrase = arity (a'' ++ [w']) + 1 + arity b). { rewrite E, !arity_app, (arity_var x), (arity_word w) by auto. lia. }
           pose proof (arity_nonneg b).
           split; [lia|]. split; [lia|]. split; [lia|]. right. split; [lia|]. split; [lia|]. exists (e - 1). split; [lia|]. split; [lia|]. rewrite <- S5. reflexivity.
        -- rewrite <- EX, Hat. reflexivity.
      * destruct (IH a' x ([w] ++ b) ps' (e - 1)) as (s & S1 & S2 & S3 & S4 & S5); auto; try lia.
        { rewrite E, <- !app_assoc. reflexivity. }
        assert (HO2 : hasocc (fullp s)). { rewrite S5. apply (PRE a' x ([w] ++ b)); auto. rewrite E, <- !app_assoc. reflexivity. }
        destruct (i_done _ _ _ _ I s S1 HO2) as [_ X]. rewrite app_nil_r in X.
        exists {| s_start := s_start s; s_end := s_end s + 1; s_phrase := fullp s; s_x := s_x s |}.
        destruct (i_st _ _ _ _ I s) as [SS _]; [rewrite app_nil_r; auto|].
        split; [|cbn; rewrite S5; split; [reflexivity|split; [lia|split; auto]]].
        -- apply X. apply exts_in; [apply SS|].
           assert (size phrase = size (fullp s) + 1 + size b). { rewrite E, S5, !size_app. change (size [w]) with 1. lia. }
           pose proof (size_nonneg b). split; [lia|]. split; [lia|]. split; [lia|]. left. reflexivity.
        -- rewrite S3. replace (e - 1 - 1 + 1) with (e - 1) by lia. rewrite Hat. reflexivity.
Qed.

Theorem grammar_ok : exists n0 calls, (forall fuel, (n0 <= fuel)%nat -> GetGrammar d sa ws wid pre span gap nonterms symbols words fuel = Some calls) /\
  NoDup (map fst calls) /\
  (forall phrase, In phrase (map fst calls) <-> input_phrase words span gap nonterms symbols phrase /\ exists ps, occ phrase ps) /\
  (forall phrase l, In (phrase, l) calls -> exists occs, denotes sa l occs /\ all phrase occs).
Proof.
  destruct (run_ok (sumw inits) [] inits root_trie [] (le_n _) inv_init) as (calls & done & t & R & I). cbn [app] in I.
  exists (sumw inits), calls. split; [exact R|]. split; [apply I|]. split; [|apply I].
  intros phrase. rewrite (i_calls _ _ _ _ I). split.
  - intros (HN & Hn & Hh & Hl). assert (Hx : phrase <> [-1]) by (intros ->; cbn in Hh; lia).
    destruct (i_from _ _ _ _ I _ HN) as [X|[X|(s & HI & E)]]; [congruence|lia|].
    destruct (i_st _ _ _ _ I s) as [SS SN]; [rewrite app_nil_r; auto|]. destruct (stok_word s SS) as (GW & Hw & _).
    split.
    + pose proof (full_hd s SS) as FH. rewrite <- E in FH. destruct SS as (S1 & S2 & S3 & S4). destruct S4 as ((ps & RD) & L1 & L2 & L3 & L4); [apply Z.ltb_ge; rewrite <- FH; apply Z.ltb_ge; auto|].
      destruct HN as (nn & HN). destruct (ti_node _ (i_ti _ _ _ _ I) _ _ HN Hn Hx) as (HG & _).
      split; auto. split; auto. split; auto. split; [apply HG|]. split; [rewrite E; apply numbered_snoc; auto; lia|].
      split; [rewrite E; unfold fullp; rewrite size_app; change (size [_]) with 1; lia|]. split; [rewrite size_negs, E; unfold fullp; rewrite arity_app, arity_word by auto; lia|].
      exists (s_start s), (ps ++ []), (s_end s + 1). split; [|lia]. rewrite E. unfold fullp. apply reads_app. exists ps, [], (s_end s). split; auto. split; auto. apply reads_one; auto. apply S1.
    + destruct (node_hasocc _ _ (i_ti _ _ _ _ I) HN Hn Hx) as (ps & HO). exists ps. rewrite core_last, core_front in HO; auto.
  - intros ((Hn & Hh & Hl & HSp & HNum & Hsz & Hng & p & ps & e & RD & Hspn) & HO). rewrite size_negs in Hng.
    destruct (exists_last Hn) as (a & w & E). assert (Hw : 0 <= w) by (rewrite E, last_snoc in Hl; exact Hl).
    destruct (phrase_state done t calls phrase p I HNum HSp Hh Hsz Hng HO (length a) a w [] ps e) as (s & S1 & S2 & S3 & S4 & S5); auto.
    { rewrite app_nil_r. exact E. }
    { rewrite <- E. exact RD. }
    split; [|auto]. rewrite E, <- S5. apply (i_done _ _ _ _ I s S1). rewrite S5, <- E. unfold hasocc. rewrite core_last, core_front; auto.
Qed.
End Trie.
