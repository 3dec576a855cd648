(** Proofs: the target phrases for a source span with gaps. *)
From Coq Require Import List ZArith Bool Lia Permutation.
From Verif Require Import Opt OptProofs Fix FixSpec FixProofs RuleEx RuleExSpec RuleExTargetProofs.
Import ListNotations.
Open Scope Z_scope.
Open Scope opt_scope.

Lemma forall2_in_l (A B : Type) (R : A -> B -> Prop) l l' a : Forall2 R l l' -> In a l -> exists b, In b l' /\ R a b.
Proof. induction 1; intros I; [destruct I|]. destruct I as [<-|I]; [exists y; cbn; auto|]. destruct (IHForall2 I) as (b & I1 & I2). exists b; cbn; auto. Qed.
Lemma forall2_in_r (A B : Type) (R : A -> B -> Prop) l l' b : Forall2 R l l' -> In b l' -> exists a, In a l /\ R a b.
Proof. induction 1; intros I; [destruct I|]. destruct I as [<-|I]; [exists x; cbn; auto|]. destruct (IHForall2 I) as (a & I1 & I2). exists a; cbn; auto. Qed.
Lemma forall2_len (A B : Type) (R : A -> B -> Prop) l l' : Forall2 R l l' -> length l = length l'.
Proof. induction 1; cbn; auto. Qed.
Lemma forall2_nth (A B : Type) (R : A -> B -> Prop) l l' : Forall2 R l l' -> forall i a, nth_error l i = Some a -> exists b, nth_error l' i = Some b /\ R a b.
Proof. induction 1; intros [|i] a E; cbn in *; try discriminate; [injection E as <-; eauto|eauto]. Qed.
Lemma forall2_nth_r (A B : Type) (R : A -> B -> Prop) l l' : Forall2 R l l' -> forall i b, nth_error l' i = Some b -> exists a, nth_error l i = Some a /\ R a b.
Proof. induction 1; intros [|i] a E; cbn in *; try discriminate; [injection E as <-; eauto|eauto]. Qed.
Lemma map_fst_combine (A B : Type) : forall (l : list A) (l' : list B), length l = length l' -> map fst (combine l l') = l.
Proof. induction l as [|a l IH]; intros [|b l'] H; cbn in *; try discriminate; [auto|f_equal; auto]. Qed.
Lemma map_snd_combine (A B : Type) : forall (l : list A) (l' : list B), length l = length l' -> map snd (combine l l') = l'.
Proof. induction l as [|a l IH]; intros [|b l'] H; cbn in *; try discriminate; [auto|f_equal; auto]. Qed.
Lemma in_combine_nth (A B : Type) : forall (l : list A) (l' : list B) a b, In (a, b) (combine l l') -> exists i, nth_error l i = Some a /\ nth_error l' i = Some b.
Proof.
  induction l as [|x l IH]; intros [|y l'] a b I; cbn in I; try tauto. destruct I as [I|I]; [injection I as <- <-; exists O; auto|].
  destruct (IH _ _ _ I) as (i & I1 & I2). exists (Datatypes.S i). auto.
Qed.

(** * The ends of chunks, back and forth *)
Definition choice : Type := Z * list (Z * Z) * Z.
Definition enc (c : choice) : list Z := let '(a0, gaps, e) := c in a0 :: ends gaps e.
Fixpoint dec_ends (l : list Z) : list (Z * Z) * Z :=
  match l with
  | b :: a :: r => let '(gaps, e) := dec_ends r in ((b, a) :: gaps, e)
  | [e] => ([], e)
  | [] => ([], 0)
  end.
Definition dec (l : list Z) : choice := match l with a0 :: r => let '(gaps, e) := dec_ends r in (a0, gaps, e) | [] => (0, [], 0) end.
Lemma dec_ends_enc gaps : forall e, dec_ends (ends gaps e) = (gaps, e).
Proof. induction gaps as [|[b a] r IH]; intros e; [auto|]. cbn [ends dec_ends]. rewrite IH. auto. Qed.
Lemma dec_enc c : dec (enc c) = c.
Proof. destruct c as [[a0 gaps] e]. cbn [enc dec]. rewrite dec_ends_enc. auto. Qed.
Lemma last_ends gaps : forall e d, last (ends gaps e) d = e.
Proof. induction gaps as [|[b a] r IH]; intros e d; [auto|]. cbn [ends]. specialize (IH e d). destruct (ends r e) eqn:E; [destruct r as [|[? ?] ?]; discriminate|]. exact IH. Qed.

Section Phrases.
Variable o : ropts.
Variable p : sentence.
Variable sp : spans.
Let ns := Z.of_nat (length (src p)).
Let nt := Z.of_nat (length (tgt p)).
Hypothesis DS : described (fun s t => In (s, t) (links p)) ns nt (s_low sp) (s_high sp).
Hypothesis DT : described (fun t s => In (s, t) (links p)) nt ns (t_low sp) (t_high sp).
Definition gap_ok (s t : Z * Z) : Prop :=
  closed (links p) (fst s) (snd s) (fst t) (snd t) /\ fst t < snd t /\ tight_target p (fst t) (snd t).
Variables sl sh lo hi : Z.
Variables sgs tgs : list (Z * Z).
Variable si : index.
Hypothesis HC : closed (links p) sl sh lo hi.
Hypothesis HT : 0 <= lo < hi /\ hi <= nt.
Hypothesis OS : ordered sl sh sgs.
Hypothesis GO : Forall2 gap_ok sgs tgs.
Hypothesis SI : forall s, sl <= s < sh -> ~ in_gap sgs s -> find_index si s = Some (place sl sgs s).

Lemma tgs_in g : In g tgs -> lo <= fst g /\ fst g < snd g /\ snd g <= hi.
Proof.
  intros I. destruct (forall2_in_r _ _ _ _ _ _ GO I) as ([a b] & I1 & C & L & (s1 & L1) & (s2 & L2)). cbn [fst snd] in C.
  destruct (ordered_in _ _ _ _ _ OS I1) as (O1 & O2 & O3).
  pose proof (proj2 (C _ _ L1) ltac:(lia)) as Q1. pose proof (proj2 (C _ _ L2) ltac:(lia)) as Q2.
  pose proof (proj1 (HC _ _ L1) ltac:(lia)). pose proof (proj1 (HC _ _ L2) ltac:(lia)). lia.
Qed.
Definition loose_choice (order : list Z) (c : choice) : Prop :=
  let '(a0, gaps, e) := c in
  0 <= a0 <= lo /\ bare p a0 lo /\ hi <= e <= nt /\ bare p hi e /\ (o_tight o = true -> a0 = lo /\ e = hi) /\ ordered a0 e gaps /\
  Forall2 (fun j c => exists g, nth_error tgs (Z.to_nat j) = Some g /\ loosened o p g c) order gaps.
Definition narrow (c : choice) : bool := let '(a0, _, e) := c in e - a0 <=? o_span o.
Definition target_of (order : list Z) (gaps : list (Z * Z)) : list (Z * (Z * Z)) := combine (map (fun k => k + 1) order) gaps.
Definition inst_of (order : list Z) (c : choice) : instance :=
  let '(a0, gaps, e) := c in {| i_sl := sl; i_sh := sh; i_tl := a0; i_th := e; i_source := sgs; i_target := target_of order gaps |}.
Definition render (order : list Z) (c : choice) : list Z * list (Z * Z) :=
  let '(a0, gaps, e) := c in
  (side (tgt p) a0 e (target_of order gaps),
   map (fun l => (place sl sgs (fst l), place a0 gaps (snd l))) (filter (fun l => inside a0 e gaps (snd l)) (links p))).

Definition good_order (order : list Z) : Prop := length order = length tgs /\ Forall (fun r => 0 <= r < Z.of_nat (length tgs)) order.
Lemma choice_nodup : forall order gaps lo' hi', ordered lo' hi' gaps ->
  Forall2 (fun j c => exists g, nth_error tgs (Z.to_nat j) = Some g /\ loosened o p g c) order gaps ->
  Forall (fun r => 0 <= r) order -> NoDup order.
Proof.
  induction order as [|j r IH]; intros gaps lo' hi' O F FO; [constructor|]. inversion F as [|x c y cs (g & Eg & Lg) F2]; subst.
  inversion FO as [|x' y' J FO2]; subst. destruct c as [b a]. cbn [ordered] in O. destruct O as (O1 & O2 & O3).
  constructor; [|eapply IH; eauto]. intros I. destruct (forall2_in_l _ _ _ _ _ _ F2 I) as ([b' a'] & I2 & g' & Eg' & Lg').
  rewrite Eg in Eg'. injection Eg' as <-. apply (ordered_in _ _ _ _ _ O3) in I2. destruct Lg as (_ & L2 & _). destruct Lg' as (L3 & _ & _).
  cbn [fst snd] in *. apply nth_error_In in Eg. apply tgs_in in Eg. lia.
Qed.
Lemma choice_perm order c : good_order order -> loose_choice order c -> Permutation (map (fun k => k + 1) order) (numbers (length sgs)).
Proof.
  destruct c as [[a0 gaps] e]. intros [L FO] (_ & _ & _ & _ & _ & O & F).
  assert (N : NoDup order). { eapply choice_nodup; eauto. eapply Forall_impl; [|exact FO]. cbv beta. intros; lia. }
  pose proof (forall2_len _ _ _ _ _ GO) as LG.
  apply NoDup_Permutation_bis.
  - apply FinFun.Injective_map_NoDup; [intros x y H; lia|auto].
  - unfold numbers. rewrite !map_length, seq_length. lia.
  - intros x I. apply in_map_iff in I. destruct I as (k & <- & I). apply (proj1 (Forall_forall _ _) FO) in I. unfold numbers. apply in_map_iff.
    exists (Datatypes.S (Z.to_nat k)). split; [lia|]. apply in_seq. lia.
Qed.
Lemma choice_gap order a0 gaps e : good_order order -> loose_choice order (a0, gaps, e) -> forall k g, nth_error tgs k = Some g ->
  exists c, In c gaps /\ loosened o p g c.
Proof.
  intros GOr LC k g E. pose proof (choice_perm _ _ GOr LC) as P. destruct LC as (_ & _ & _ & _ & _ & _ & F).
  assert (K : (k < length sgs)%nat). { rewrite (forall2_len _ _ _ _ _ GO). apply nth_error_Some. congruence. }
  assert (I : In (Z.of_nat k + 1) (map (fun k => k + 1) order)).
  { eapply Permutation_in; [apply Permutation_sym; exact P|]. unfold numbers. apply in_map_iff. exists (Datatypes.S k). split; [lia|]. apply in_seq. lia. }
  apply in_map_iff in I. destruct I as (j & J & I). destruct (forall2_in_l _ _ _ _ _ _ F I) as (c & I2 & g' & E' & L').
  replace (Z.to_nat j) with k in E' by lia. rewrite E in E'. injection E' as <-. eauto.
Qed.
(** no link leaves the chosen spans *)
Lemma choice_closed order a0 gaps e : loose_choice order (a0, gaps, e) -> closed (links p) sl sh a0 e.
Proof.
  intros (A1 & A2 & A3 & A4 & _) s t L. pose proof (HC s t L) as Q. split; intros H; [apply Q in H; lia|]. apply Q.
  destruct (Z_lt_dec t lo) as [X|X]; [exfalso; apply (A2 s t); [lia|auto]|]. destruct (Z_le_dec hi t) as [Y|Y]; [exfalso; apply (A4 s t); [lia|auto]|]. lia.
Qed.
Lemma loosened_closed a b g c : closed (links p) a b (fst g) (snd g) -> fst g < snd g -> loosened o p g c -> closed (links p) a b (fst c) (snd c).
Proof.
  intros C LG (A1 & A3 & A2 & A4 & _) s t L. pose proof (C s t L) as Q. split; intros H; [apply Q in H; lia|]. apply Q.
  destruct (Z_lt_dec t (fst g)) as [X|X]; [exfalso; apply (A2 s t); [lia|auto]|]. destruct (Z_le_dec (snd g) t) as [Y|Y]; [exfalso; apply (A4 s t); [lia|auto]|]. lia.
Qed.
Lemma choice_terminal order a0 gaps e s t : good_order order -> loose_choice order (a0, gaps, e) -> In (s, t) (links p) -> inside a0 e gaps t = true ->
  sl <= s < sh /\ ~ in_gap sgs s.
Proof.
  intros GOr LC L I. apply inside_spec in I. destruct I as [I1 I2]. split; [apply (choice_closed _ _ _ _ LC s t L); auto|].
  intros (a & b & I3 & H). destruct (In_nth_error _ _ I3) as [k Ek]. destruct (forall2_nth _ _ _ _ _ GO _ _ Ek) as (g & Eg & C & LG & _). cbn [fst snd] in C.
  apply I2. destruct (choice_gap _ _ _ _ GOr LC _ _ Eg) as ([b' a'] & I4 & K1 & K2 & _). cbn [fst snd] in *. exists b', a'. split; [auto|].
  pose proof (proj1 (C s t L) H). lia.
Qed.
Lemma choice_consistent order c : 0 <= sl -> sh <= ns -> good_order order -> loose_choice order c -> consistent p (inst_of order c).
Proof.
  destruct c as [[a0 gaps] e]. intros Hs1 Hs2 GOr LC. pose proof (choice_perm _ _ GOr LC) as P. pose proof (choice_closed _ _ _ _ LC) as C.
  destruct LC as (A1 & A2 & A3 & A4 & A5 & O & F). pose proof (forall2_len _ _ _ _ _ F) as LF. unfold consistent, inst_of, target_gaps, target_of. cbn [i_sl i_sh i_tl i_th i_source i_target].
  split; [lia|]. split; [lia|]. split; [lia|]. split; [unfold nt in *; lia|]. split; [auto|]. split; [auto|].
  rewrite map_snd_combine by (rewrite map_length; auto). rewrite map_fst_combine by (rewrite map_length; auto). split; [auto|]. split; [auto|].
  intros k a b c d I E. destruct (in_combine_nth _ _ _ _ _ _ I) as (i & I1 & I2). destruct (forall2_nth_r _ _ _ _ _ F _ _ I2) as (j & J & g & Eg & LG).
  rewrite nth_error_map, J in I1. cbn in I1. injection I1 as <-. replace (j + 1 - 1) with j in E by lia.
  destruct (forall2_nth _ _ _ _ _ GO _ _ E) as (g' & Eg' & Cg & LT & (s1 & L1) & _). rewrite Eg in Eg'. injection Eg' as <-. cbn [fst snd] in Cg.
  split; [apply (loosened_closed a b g (c, d)); auto|]. exists s1, (fst g). split; [auto|]. split; [apply (Cg _ _ L1); lia|].
  destruct LG as (G1 & G2 & _). cbn [fst snd] in *. lia.
Qed.
(** the symbols and links of one choice *)
Lemma phrase_of_ok order c : good_order order -> loose_choice order c ->
  phrase_of o p order si (enc c) = Some (if narrow c then Some (render order c) else None).
Proof.
  destruct c as [[a0 gaps] e]. intros GOr LC. pose proof LC as (A1 & A2 & A3 & A4 & A5 & O & F). unfold phrase_of, enc, narrow. cbn [hd].
  assert (EL : last (a0 :: ends gaps e) 0 = e). { pose proof (last_ends gaps e 0) as X. destruct (ends gaps e) eqn:E; [destruct gaps as [|[? ?] ?]; discriminate|]. exact X. }
  rewrite EL. destruct (Z.ltb_spec (o_span o) (e - a0)); destruct (Z.leb_spec (e - a0) (o_span o)); try lia; [reflexivity|].
  destruct (target_symbols_ok p gaps order a0 e [] []) as (m & E & FI); [lia|unfold size, nt in *; lia|auto|eapply forall2_len; eauto|].
  change (list (Z * Z)) with index in *. rewrite E. cbn [bind app].
  rewrite (phrase_links_ok (links p) si m (inside a0 e gaps) (place sl sgs) (place a0 gaps)); [reflexivity| |].
  - intros t. rewrite FI. cbn. destruct (inside a0 e gaps t); auto.
  - intros s t L I. apply SI; eapply choice_terminal; eauto.
Qed.
Lemma phrases_of_ok order : good_order order -> forall cs, Forall (loose_choice order) cs ->
  phrases_of o p order si (map enc cs) = Some (map (render order) (filter narrow cs)).
Proof.
  intros GOr. induction cs as [|c cs IH]; intros F; [reflexivity|]. inversion F; subst. cbn [map phrases_of filter].
  rewrite (phrase_of_ok order c) by auto. cbn [bind]. rewrite IH by auto. cbn [bind]. destruct (narrow c); reflexivity.
Qed.

Theorem phrases_ok : exists order choices, GetGapOrder tgs = Some order /\ good_order order /\ NoDup choices /\
  (forall c, In c choices <-> loose_choice order c /\ narrow c = true) /\
  ExtractPhrases o p sp tgs lo hi si = Some (map (render order) choices).
Proof.
  unfold ExtractPhrases. destruct (fix_order_safe tgs) as (order & E & GOr). exists order. rewrite E. cbn [bind].
  destruct (loose_low_ok o p sp DT lo hi) as (xl & -> & X1 & X2 & X3 & X4); [lia|unfold nt in *; lia|]. cbn [bind].
  destruct (loose_high_ok o p sp DT lo hi) as (xh & -> & Y1 & Y2 & Y3 & Y4); [lia|unfold nt in *; lia|]. cbn [bind].
  destruct (gap_ranges_ok o p sp DT xl xh tgs) with (order := order) as (ghs & -> & FG & LG & Q); [lia|lia| |apply GOr|].
  { apply Forall_forall. intros g I. apply tgs_in in I. lia. }
  cbn [bind]. set (subs := generate ((xl, lo) :: ranges_of ghs ++ [(hi, xh)]) None).
  set (wide c := let '(a0, gaps, e) := (c : choice) in xl <= a0 <= lo /\ ordered a0 e gaps /\ Forall2 fits_gap ghs gaps /\ hi <= e <= xh).
  assert (SB : forall s, In s subs <-> exists c, s = enc c /\ wide c).
  { intros s. unfold subs. rewrite generate_in by auto. cbn [start_of]. split.
    - intros (a0 & gaps & e & A & B & C & D & F). exists (a0, gaps, e). unfold wide. auto.
    - intros ([[a0 gaps] e] & A & B & C & D & F). exists a0, gaps, e. auto. }
  assert (W : forall c, wide c -> loose_choice order c).
  { intros [[a0 gaps] e] (B & C & D & F). split; [lia|]. split; [intros s t Ht; apply X2; lia|]. split; [lia|]. split; [intros s t Ht; apply Y2; lia|].
    split; [intros T; specialize (X3 T); specialize (Y3 T); lia|]. split; [auto|]. apply Q; [|auto]. apply Forall_forall. intros [b a] I.
    apply (ordered_in _ _ _ _ _ C) in I. cbn. lia. }
  assert (W2 : forall c, loose_choice order c -> narrow c = true -> wide c).
  { intros [[a0 gaps] e] (A1 & A2 & A3 & A4 & A5 & O & F) Nr. unfold narrow in Nr. apply Z.leb_le in Nr.
    assert (xl <= a0). { destruct (o_tight o); [specialize (A5 eq_refl); lia|]. apply X4; auto; lia. }
    assert (e <= xh). { destruct (o_tight o); [specialize (A5 eq_refl); lia|]. apply Y4; auto; lia. }
    split; [lia|]. split; [auto|]. split; [|lia]. apply Q; [|auto]. apply Forall_forall. intros [b a] I. apply (ordered_in _ _ _ _ _ O) in I. cbn. lia. }
  assert (ND : NoDup subs) by (apply (generate_nodup (length ((xl, lo) :: ranges_of ghs ++ [(hi, xh)]))); lia).
  assert (ED : forall s, In s subs -> enc (dec s) = s). { intros s I. apply SB in I. destruct I as (c & -> & _). rewrite dec_enc. auto. }
  assert (EM : subs = map enc (map dec subs)).
  { clear - ED. induction subs as [|s r IH]; [auto|]. cbn. rewrite ED by (cbn; auto). f_equal. apply IH. intros; apply ED; cbn; auto. }
  assert (NC : NoDup (map dec subs)). { apply (NoDup_map_inv enc). rewrite <- EM. auto. }
  exists (filter narrow (map dec subs)). split; [auto|]. split; [exact GOr|]. split; [apply NoDup_filter; auto|]. split.
  - intros c. rewrite filter_In. split.
    + intros [I N]. split; [|auto]. apply W. apply in_map_iff in I. destruct I as (s & <- & I). apply SB in I. destruct I as (c & -> & Wc). rewrite dec_enc. auto.
    + intros [L N]. split; [|auto]. apply in_map_iff. exists (enc c). split; [apply dec_enc|]. apply SB. exists c. split; [auto|]. apply W2; auto.
  - transitivity (phrases_of o p order si (map enc (map dec subs))); [f_equal; exact EM|]. apply (phrases_of_ok order GOr). apply Forall_forall. intros c I. apply W. apply in_map_iff in I. destruct I as (s & <- & I).
    apply SB in I. destruct I as (c & -> & Wc). rewrite dec_enc. auto.
Qed.
End Phrases.
