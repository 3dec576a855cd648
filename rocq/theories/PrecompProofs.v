From Coq Require Import List ZArith Bool Lia Permutation Sorted.
From Verif Require Import Opt OptProofs Suffix SuffixSpec SuffixLookupProofs Precomp PrecompSpec.
Import ListNotations.
Open Scope Z_scope.

(** * Prefixes, order and common prefixes of lists *)
Lemma common_le_starts : forall w x y, Z.of_nat (length w) <= common x y -> starts w x -> starts w y.
Proof.
  induction w as [|a w IH]; intros x y C S; [exists y; auto|]. destruct S as (r & ->). cbn [length app common] in C.
  destruct y as [|b y]; [lia|]. destruct (Z.eqb_spec a b) as [<-|]; [|lia].
  destruct (IH (w ++ r) y) as (r' & ->); [lia|exists r; auto|]. exists r'. auto.
Qed.
Lemma starts_common : forall w x y, starts w x -> starts w y -> Z.of_nat (length w) <= common x y.
Proof.
  assert (P : forall x y, 0 <= common x y) by (induction x as [|a x IH]; intros [|b y]; cbn [common]; try lia; destruct (a =? b); [specialize (IH y)|]; lia).
  induction w as [|a w IH]; intros x y (r & ->) (r' & ->); cbn [length app common]; [apply P|].
  rewrite Z.eqb_refl. specialize (IH (w ++ r) (w ++ r')). pose proof (IH ltac:(exists r; auto) ltac:(exists r'; auto)). lia.
Qed.
Lemma common_sym : forall x y, common x y = common y x.
Proof. induction x as [|a x IH]; intros [|b y]; cbn [common]; auto. rewrite (Z.eqb_sym b a). destruct (a =? b); auto. rewrite IH. auto. Qed.
Lemma common_len : forall x y, 0 <= common x y <= Z.of_nat (length x).
Proof. induction x as [|a x IH]; intros [|b y]; cbn [common length]; try lia. destruct (a =? b); [specialize (IH y)|]; lia. Qed.
Lemma lex_convex : forall w x y z, starts w x -> starts w z -> lex x y -> lex y z -> starts w y.
Proof.
  induction w as [|a w IH]; intros x y z (r & ->) (r' & ->) L1 L2; [exists y; auto|]. cbn in *.
  inversion L1; subst; inversion L2; subst; try lia.
  destruct (IH (w ++ r) r0 (w ++ r')) as (q & ->); auto; [exists r; auto|exists r'; auto|]. exists q; auto.
Qed.
Lemma firstn_starts {A} n (l : list A) : exists r, l = firstn n l ++ r.
Proof. exists (skipn n l). symmetry. apply firstn_skipn. Qed.
Lemma starts_firstn w x : starts w x <-> firstn (length w) x = w.
Proof.
  split.
  - intros (r & ->). rewrite firstn_app, Nat.sub_diag, firstn_all, app_nil_r. auto.
  - intros E. exists (skipn (length w) x). rewrite <- E at 1. symmetry. apply firstn_skipn.
Qed.

Lemma nth_at_ (l : list Z) i x : nth_error l i = Some x -> at_ l (Z.of_nat i) = x.
Proof. intros E. unfold at_. rewrite Nat2Z.id. apply nth_error_nth. auto. Qed.
Lemma at_nth_ (l : list Z) i : 0 <= i < size l -> nth_error l (Z.to_nat i) = Some (at_ l i).
Proof. intros H. unfold at_. apply nth_error_nth'. unfold size in H. lia. Qed.

Lemma lex_irrefl x : ~ lex x x.
Proof. induction x as [|a x IH]; intros L; inversion L; subst; [lia|auto]. Qed.
Lemma lex_trans : forall x y z, lex x y -> lex y z -> lex x z.
Proof.
  induction x as [|a x IH]; intros y z L1 L2; inversion L1; subst; inversion L2; subst; try (constructor; lia); try (constructor; auto; fail).
  apply lex_eq. eauto.
Qed.

(** * Runs of the LCP array *)
Section Runs.
Variables data sa lcp : list Z.
Hypothesis PERM : Permutation sa (positions data).
Hypothesis SORT : StronglySorted (fun p q => lex (suffix data p) (suffix data q)) sa.
Hypothesis LCP : forall r p q, nth_error sa r = Some p -> nth_error sa (S r) = Some q ->
  nth_error lcp (S r) = Some (common (suffix data p) (suffix data q)).
Let N := size sa.

Definition run (len r e : Z) : Prop :=
  0 <= r < e /\ e < N /\ (r = 0 \/ at_ lcp r <= len) /\ (forall k, r < k < e -> len < at_ lcp k) /\ at_ lcp e <= len.

Lemma size_sa : N = size data + 1.
Proof. unfold N, size. apply Permutation_length in PERM. rewrite PERM. unfold positions. rewrite map_length, seq_length. lia. Qed.
Lemma sa_range i : 0 <= i < N -> 0 <= at_ sa i <= size data.
Proof.
  intros H. assert (X : In (at_ sa i) (positions data)) by (eapply Permutation_in; [exact PERM|apply at_in; auto]).
  unfold positions in X. apply in_map_iff in X. destruct X as (k & <- & K). apply in_seq in K. unfold size. lia.
Qed.
Lemma sa_inj_ i j : 0 <= i < N -> 0 <= j < N -> at_ sa i = at_ sa j -> i = j.
Proof.
  intros Hi Hj E. assert (ND : NoDup sa).
  { eapply Permutation_NoDup; [apply Permutation_sym; exact PERM|]. unfold positions. apply FinFun.Injective_map_NoDup; [intros a b; lia|apply seq_NoDup]. }
  rewrite NoDup_nth with (d := 0) in ND. unfold N, size in *. specialize (ND (Z.to_nat i) (Z.to_nat j)). unfold at_ in E. lia.
Qed.
Lemma sa_surj_ p : 0 <= p <= size data -> exists i, 0 <= i < N /\ at_ sa i = p.
Proof.
  intros H. destruct (in_at sa p) as (i & Hi & E); [|exists i; auto]. eapply Permutation_in; [apply Permutation_sym; exact PERM|].
  unfold positions. apply in_map_iff. exists (Z.to_nat p). split; [lia|]. apply in_seq. unfold size in H. lia.
Qed.
Lemma sorted_nth {A} (R : A -> A -> Prop) (d : A) l : StronglySorted R l -> forall i j, (i < j < length l)%nat -> R (nth i l d) (nth j l d).
Proof.
  induction 1 as [|a l S IH F]; intros i j H; cbn in H; [lia|]. destruct j as [|j]; [lia|]. destruct i as [|i]; cbn.
  - rewrite Forall_forall in F. apply F. apply nth_In. lia.
  - apply IH. lia.
Qed.
Definition suf (i : Z) := suffix data (at_ sa i).
Lemma suf_lex i j : 0 <= i -> i < j -> j < N -> lex (suf i) (suf j).
Proof. intros. unfold suf, at_. apply (sorted_nth _ 0 _ SORT). unfold N, size in *. lia. Qed.
Lemma lcp_at i : 1 <= i < N -> at_ lcp i = common (suf (i - 1)) (suf i).
Proof.
  intros H. replace i with (Z.of_nat (S (Z.to_nat (i - 1)))) at 1 by lia. apply nth_at_. apply LCP.
  - apply at_nth_. unfold N in H. lia.
  - replace (S (Z.to_nat (i - 1))) with (Z.to_nat i) by lia. apply at_nth_. unfold N in H. lia.
Qed.
Lemma convex w i j k : 0 <= i -> i <= j -> j <= k -> k < N -> starts w (suf i) -> starts w (suf k) -> starts w (suf j).
Proof.
  intros H1 H2 H3 H4 S1 S2. destruct (Z.eq_dec i j) as [->|]; auto. destruct (Z.eq_dec j k) as [->|]; auto.
  apply (lex_convex w (suf i) (suf j) (suf k)); auto; apply suf_lex; lia.
Qed.
Definition rng (w : list Z) (r e : Z) : Prop := forall i, 0 <= i < N -> (r <= i < e <-> starts w (suf i)).

Lemma run_range len r e : 0 <= len -> run len r e -> 2 <= e - r ->
  exists w, w = firstn (Z.to_nat (len + 1)) (suf r) /\ Z.of_nat (length w) = len + 1 /\ rng w r e.
Proof.
  intros HL ((R1 & R2) & R3 & R4 & R5 & R6) F. exists (firstn (Z.to_nat (len + 1)) (suf r)). set (w := firstn _ _).
  assert (K1 : len < common (suf r) (suf (r + 1))).
  { specialize (R5 (r + 1) ltac:(lia)). rewrite lcp_at in R5 by lia. replace (r + 1 - 1) with r in R5 by lia. auto. }
  pose proof (common_len (suf r) (suf (r + 1))) as K2.
  assert (LW : Z.of_nat (length w) = len + 1) by (unfold w; rewrite firstn_length; lia).
  assert (SW : starts w (suf r)) by (apply firstn_starts).
  split; [auto|]. split; [auto|].
  assert (IN : forall n, r + Z.of_nat n < e -> starts w (suf (r + Z.of_nat n))).
  { induction n as [|n IH]; intros H; [rewrite Z.add_0_r; auto|]. apply (common_le_starts w (suf (r + Z.of_nat n))); [|apply IH; lia].
    specialize (R5 (r + Z.of_nat (S n)) ltac:(lia)). rewrite lcp_at in R5 by lia. replace (r + Z.of_nat (S n) - 1) with (r + Z.of_nat n) in R5 by lia. lia. }
  assert (OUT1 : ~ starts w (suf e)).
  { intros X. pose proof (starts_common w (suf (e - 1)) (suf e)) as Y. rewrite lcp_at in R6 by lia.
    assert (starts w (suf (e - 1))) by (replace (e - 1) with (r + Z.of_nat (Z.to_nat (e - 1 - r))) by lia; apply IN; lia). specialize (Y ltac:(auto) X). lia. }
  assert (OUT2 : r <> 0 -> ~ starts w (suf (r - 1))).
  { intros Hr X. pose proof (starts_common w (suf (r - 1)) (suf r) X SW) as Y. destruct R4 as [|R4]; [auto|]. rewrite lcp_at in R4 by lia. lia. }
  intros i Hi. split.
  - intros Q. replace i with (r + Z.of_nat (Z.to_nat (i - r))) by lia. apply IN. lia.
  - intros Q. destruct (Z_lt_le_dec i r) as [A|A].
    + exfalso. apply OUT2; [lia|]. apply (convex w i (r - 1) r); auto; lia.
    + destruct (Z_lt_le_dec i e) as [B|B]; [lia|]. exfalso. apply OUT1. apply (convex w r e i); auto; lia.
Qed.
Lemma range_run w r e : rng w r e -> 0 <= r < e -> e < N -> w <> [] -> run (Z.of_nat (length w) - 1) r e.
Proof.
  intros R H1 H2 HW. assert (W : 1 <= Z.of_nat (length w)) by (destruct w; [congruence|cbn; lia]). unfold run. split; [auto|]. split; [auto|].
  assert (A : starts w (suf r)) by (apply R; lia). assert (B : starts w (suf (e - 1))) by (apply R; lia). assert (C : ~ starts w (suf e)) by (intros X; apply R in X; lia).
  split; [|split].
  - destruct (Z.eq_dec r 0); [auto|right]. rewrite lcp_at by lia. destruct (Z_le_gt_dec (common (suf (r - 1)) (suf r)) (Z.of_nat (length w) - 1)); auto.
    exfalso. assert (X : starts w (suf (r - 1))). { apply (common_le_starts w (suf r)); auto. rewrite common_sym. lia. } apply R in X; lia.
  - intros k Hk. rewrite lcp_at by lia. pose proof (starts_common w (suf (k - 1)) (suf k)) as Y. specialize (Y ltac:(apply R; lia) ltac:(apply R; lia)). lia.
  - rewrite lcp_at by lia. destruct (Z_le_gt_dec (common (suf (e - 1)) (suf e)) (Z.of_nat (length w) - 1)); auto.
    exfalso. apply C. apply (common_le_starts w (suf (e - 1))); auto. lia.
Qed.
Lemma run_unique len r e e' : run len r e -> run len r e' -> e = e'.
Proof.
  intros ((A1 & A2) & A3 & A4 & A5 & A6) ((B1 & B2) & B3 & B4 & B5 & B6). destruct (Z.lt_trichotomy e e') as [H|[H|H]]; auto; exfalso.
  - specialize (B5 e ltac:(lia)). lia.
  - specialize (A5 e' ltac:(lia)). lia.
Qed.

(** * The heap *)
Variable max_len : nat.
Variable minf : Z.
Definition run_entry (e0 : entry) (len r e : Z) : Prop :=
  run len r e /\ 0 <= len < Z.of_nat max_len /\ e0 = (e - r, (at_ sa r, len + 1)) /\ minf <= e - r /\ at_ sa r + len <= size data.
(** the run of length [len] that contains rank i - 1 starts at r *)
Definition open_run (len r i : Z) : Prop :=
  0 <= r < i /\ (r = 0 \/ at_ lcp r <= len) /\ (forall k, r < k < i -> len < at_ lcp k).
Lemma in_push e x h : In x (push e h) <-> x = e \/ In x h.
Proof.
  induction h as [|y h IH]; cbn [push In]; [intuition|]. destruct (entry_lt y e); cbn [In]; [intuition|]. rewrite IH. intuition.
Qed.
Lemma nodup_push e h : NoDup h -> ~ In e h -> NoDup (push e h).
Proof.
  induction h as [|y h IH]; cbn [push]; intros ND NI; [constructor; auto; constructor|]. destruct (entry_lt y e); [constructor; auto|].
  inversion ND; subst. constructor; [rewrite in_push; intros [->|X]; [apply NI; left; auto|auto]|apply IH; auto; intros X; apply NI; right; auto].
Qed.
Definition desc (h : list entry) : Prop := StronglySorted (fun a b => fst b <= fst a) h.
Lemma entry_lt_fst a b : (entry_lt a b = true -> fst a <= fst b) /\ (entry_lt a b = false -> fst b <= fst a).
Proof.
  destruct a as (f & s & l), b as (f' & s' & l'). unfold entry_lt. cbn.
  destruct (Z.ltb_spec f f'); cbn; [split; [lia|discriminate]|]. destruct (Z.eqb_spec f f'); cbn; [split; lia|split; [discriminate|lia]].
Qed.
Lemma desc_push e h : desc h -> desc (push e h).
Proof.
  unfold desc. induction h as [|y h IH]; cbn [push]; intros S; [constructor; [constructor|constructor]|].
  destruct (entry_lt_fst y e) as [E1 E2]. destruct (entry_lt y e).
  - constructor; auto. inversion S; subst. constructor; [auto|]. rewrite Forall_forall in *. intros x Hx. specialize (H2 x Hx). specialize (E1 eq_refl). lia.
  - inversion S; subst. constructor; [auto|]. rewrite Forall_forall in *. intros x Hx. apply in_push in Hx. destruct Hx as [->|Hx]; auto.
Qed.

Definition scan_inv (i : Z) (st : list Z * list entry) : Prop :=
  size (fst st) = Z.of_nat max_len /\ (forall len, 0 <= len < Z.of_nat max_len -> open_run len (at_ (fst st) len) i) /\
  (forall x, In x (snd st) <-> exists len r e, run_entry x len r e /\ e < i) /\ NoDup (snd st) /\ desc (snd st).

Lemma scan_ok : length lcp = length sa -> 1 <= N -> exists st, freq_scan data sa lcp max_len minf = Some st /\ scan_inv N st.
Proof.
  intros LEN HN. unfold freq_scan. assert (LL : size lcp = N) by (unfold N, size; lia).
  destruct (for_up_inv scan_inv (fun i st => bind (get lcp i) (fun l => for_up (Z.to_nat (Z.of_nat max_len - l)) l (freq_inner data sa minf i) st))
     (length lcp - 1) 1 (repeat 0 max_len, [])) as (st & E & I).
  - intros i st Hi (S1 & S2 & S3 & S4 & S5). assert (Hi' : 1 <= i < N) by (unfold size in LL; lia). rewrite get_some by lia. cbn [bind].
    set (l := at_ lcp i). assert (L0 : 0 <= l) by (unfold l; rewrite lcp_at by lia; apply common_len).
    destruct (for_up_inv (fun len st => size (fst st) = Z.of_nat max_len /\
        (forall k, 0 <= k < Z.of_nat max_len -> (l <= k < len -> at_ (fst st) k = i) /\ (k < l \/ len <= k -> open_run k (at_ (fst st) k) i)) /\
        (forall x, In x (snd st) <-> exists len' r e, run_entry x len' r e /\ (e < i \/ e = i /\ l <= len' < len)) /\ NoDup (snd st) /\ desc (snd st))
      (freq_inner data sa minf i) (Z.to_nat (Z.of_nat max_len - l)) l st) as (st' & E & T1 & T2 & T3 & T4 & T5).
    + intros len (rs & h) Hlen (U1 & U2 & U3 & U4 & U5). cbn [fst snd] in *. unfold freq_inner. rewrite get_some by lia. cbn [bind].
      destruct (proj2 (U2 len ltac:(lia))) as ((O1 & O1') & O2 & O3); [lia|]. set (r := at_ rs len) in *.
      rewrite get_some by (fold N; lia). cbn [bind]. destruct (put_some rs len i) as (rs' & -> & P1 & P2); [lia|]. cbn [bind].
      eexists. split; [reflexivity|]. cbn [fst snd]. split; [lia|].
      assert (RUN : run len r i). { unfold run. split; [lia|]. split; [lia|]. split; [auto|]. split; [auto|]. unfold l in Hlen. lia. }
      split; [|].
      { intros k Hk. rewrite P2 by lia. destruct (Z.eqb_spec k len) as [->|NE].
        - split; [auto|]. intros [X|X]; lia.
        - specialize (U2 k Hk). split; [intros X; apply U2; lia|intros X; apply U2; lia]. }
      destruct (Z.leb_spec minf (i - r)) as [F|F]; cbn [andb].
      * destruct (Z.leb_spec (at_ sa r + len) (size data)) as [G|G]; cbn [andb].
        -- split; [|split; [|apply desc_push; auto]].
           ++ intros x. rewrite in_push, U3. split.
              ** intros [->|(len' & r' & e' & X & Y)].
                 --- exists len, r, i. split; [|lia]. unfold run_entry. split; [auto|]. split; [lia|]. auto.
                 --- exists len', r', e'. split; [auto|]. lia.
              ** intros (len' & r' & e' & X & [Y|(Y & Z)]); [right; exists len', r', e'; auto|]. destruct (Z.eq_dec len' len) as [->|]; [|right; exists len', r', e'; split; [auto|lia]].
                 left. subst e'. destruct X as (X1 & X2 & -> & X3). replace r' with r; auto.
                 destruct X1 as (Y1 & Y2 & Y3 & Y4 & Y5). destruct (Z.lt_trichotomy r r') as [H|[H|H]]; auto; exfalso.
                 --- specialize (O3 r' ltac:(lia)). lia.
                 --- specialize (Y4 r ltac:(lia)). lia.
           ++ apply nodup_push; auto. rewrite U3. intros (len' & r' & e' & (X1 & X2 & X3 & X4) & Y). injection X3 as Q1 Q2 Q3.
              assert (len' = len) by lia. subst len'. assert (r' = r). { symmetry. apply sa_inj_; auto; [lia|]. destruct X1 as (X1 & _). lia. } subst r'.
              assert (e' = i) by lia. lia.
        -- split; [|auto]. intros x. rewrite U3. split; intros (len' & r' & e' & X & Y); exists len', r', e'; (split; [auto|]).
           ++ lia.
           ++ destruct Y as [Y|(Y & Z)]; [auto|]. destruct (Z.eq_dec len' len) as [->|]; [|lia]. subst e'. exfalso.
              destruct X as (X1 & X2 & -> & X3 & X4). assert (r' = r); [|subst; lia].
              destruct X1 as (Y1 & Y2 & Y3 & Y4 & Y5). destruct (Z.lt_trichotomy r r') as [H|[H|H]]; auto; exfalso; [specialize (O3 r' ltac:(lia))|specialize (Y4 r ltac:(lia))]; lia.
      * split; [|auto]. intros x. rewrite U3. split; intros (len' & r' & e' & X & Y); exists len', r', e'; (split; [auto|]).
        -- lia.
        -- destruct Y as [Y|(Y & Z)]; [auto|]. destruct (Z.eq_dec len' len) as [->|]; [|lia]. subst e'. exfalso.
           destruct X as (X1 & X2 & -> & X3 & X4). assert (r' = r); [|subst; lia].
           destruct X1 as (Y1 & Y2 & Y3 & Y4 & Y5). destruct (Z.lt_trichotomy r r') as [H|[H|H]]; auto; exfalso; [specialize (O3 r' ltac:(lia))|specialize (Y4 r ltac:(lia))]; lia.
    + split; [auto|]. split; [intros k Hk; split; [lia|intros _; auto]|]. split; [|auto]. intros x. rewrite S3.
      split; intros (len' & r & e & X & Y); exists len', r, e; (split; [auto|lia]).
    + exists st'. split; [exact E|]. destruct st' as (rs & h). cbn [fst snd] in *. split; [auto|].
      assert (HI : forall len', 0 <= len' < Z.of_nat max_len -> l <= len' -> len' < l + Z.of_nat (Z.to_nat (Z.of_nat max_len - l))) by lia.
      split; [|split; [|auto]].
      * intros len Hlen. cbn [fst snd]. destruct (T2 len Hlen) as [A B]. destruct (Z_lt_le_dec len l) as [C|C].
        -- destruct (B (or_introl C)) as (X1 & X2 & X3). split; [lia|]. split; [auto|]. intros k Hk. destruct (Z.eq_dec k i) as [->|]; [fold l; lia|apply X3; lia].
        -- rewrite A by (specialize (HI len Hlen C); lia). split; [lia|]. split; [right; fold l; lia|]. intros k Hk. lia.
      * intros x. cbn [fst snd]. rewrite T3. split; intros (len' & r & e & X & Y); exists len', r, e; (split; [auto|]).
        -- lia.
        -- destruct (Z.eq_dec e i) as [->|]; [|lia]. right. split; [auto|]. destruct X as ((X1 & X2 & X3 & X4 & X5) & X6 & _). fold l in X5. split; [lia|]. apply HI; lia.
  - unfold scan_inv. cbn [fst snd]. split; [unfold size; rewrite repeat_length; auto|]. split; [|split; [|split; [constructor|constructor]]].
    + intros len Hlen. assert (Z0 : at_ (repeat 0 max_len) len = 0). { unfold at_. apply nth_error_nth. apply nth_error_repeat. lia. } rewrite Z0.
      split; [lia|]. split; [auto|]. intros; lia.
    + intros x. split; [intros []|]. intros (len & r & e & ((X & _) & _) & Y). lia.
  - exists st. split; [exact E|]. replace N with (1 + Z.of_nat (length lcp - 1)) by (unfold size in LL; lia). auto.
Qed.
End Runs.

(** * The patterns taken from the heap *)
Definition pat (data : list Z) (e : entry) : list Z := firstn (Z.to_nat (snd (snd e))) (skipn (Z.to_nat (fst (snd e))) data).
Definition clean (w : list Z) : bool := negb (existsb (Z.eqb END_OF_LINE) w).
Lemma clean_spec w : clean w = true <-> ~ In END_OF_LINE w.
Proof.
  unfold clean. rewrite negb_true_iff. split.
  - intros E I. assert (existsb (Z.eqb END_OF_LINE) w = true); [|congruence]. apply existsb_exists. exists END_OF_LINE. rewrite Z.eqb_refl. auto.
  - intros I. destruct (existsb (Z.eqb END_OF_LINE) w) eqn:E; auto. apply existsb_exists in E. destruct E as (x & X & Y). apply Z.eqb_eq in Y. subst. tauto.
Qed.
Lemma take_ok data : forall heap num, (forall e, In e heap -> 0 <= fst (snd e) /\ fst (snd e) + snd (snd e) <= size data) ->
  take_frequent data heap num = Some (map (pat data) (firstn num (filter (fun e => clean (pat data e)) heap))).
Proof.
  induction heap as [|(f & s & l) heap IH]; intros num H; [destruct num; reflexivity|].
  destruct num as [|num]; [reflexivity|]. cbn [take_frequent]. destruct (H (f, (s, l)) (or_introl eq_refl)) as [H1 H2]. cbn in H1, H2.
  unfold slice. destruct (Z.ltb_spec s 0); [lia|]. destruct (Z.ltb_spec (size data) (s + l)); [lia|]. cbn [orb bind filter].
  change (firstn (Z.to_nat l) (skipn (Z.to_nat s) data)) with (pat data (f, (s, l))).
  unfold clean at 1. destruct (existsb (Z.eqb END_OF_LINE) (pat data (f, (s, l)))); cbn [negb].
  - apply IH. intros; apply H; right; auto.
  - rewrite IH by (intros; apply H; right; auto). reflexivity.
Qed.
Lemma lex_gt : forall w y, lex w y -> ~ starts w y -> forall x, starts w x -> lex x y.
Proof.
  induction 1 as [y r|x l y r H|x l r H IH]; intros NS z (q & ->).
  - exfalso. apply NS. exists (y :: r). auto.
  - constructor. auto.
  - cbn. apply lex_eq. apply IH; [|exists q; auto]. intros (q' & ->). apply NS. exists q'. auto.
Qed.
Lemma occurs_unique data w n m : occurs data w n -> occurs data w m -> n = m.
Proof.
  intros (ps & N1 & <- & I1) (qs & N2 & <- & I2). f_equal.
  assert (incl ps qs) by (intros x X; apply I2, I1; auto). assert (incl qs ps) by (intros x X; apply I1, I2; auto).
  pose proof (NoDup_incl_length N1 H). pose proof (NoDup_incl_length N2 H0). lia.
Qed.
Lemma firstn_in {A} (x : A) : forall n l, In x (firstn n l) -> In x l.
Proof. induction n as [|n IH]; intros [|y l]; cbn; intuition. Qed.
Lemma skipn_in {A} (x : A) : forall n l, In x (skipn n l) -> In x l.
Proof. induction n as [|n IH]; intros [|y l]; cbn; intuition. Qed.
Lemma desc_split (L : list entry) n : desc L -> forall a b, In a (firstn n L) -> In b (skipn n L) -> fst b <= fst a.
Proof.
  revert n. induction L as [|x L IH]; intros [|n] S a b; cbn [firstn skipn]; try (intros []; fail).
  inversion S; subst. intros [<-|A] B.
  - rewrite Forall_forall in H2. apply H2. eapply skipn_in; eauto.
  - eapply IH; eauto.
Qed.
Lemma desc_filter f (L : list entry) : desc L -> desc (filter f L).
Proof.
  unfold desc. induction 1 as [|x L S IH F]; cbn [filter]; [constructor|]. destruct (f x); auto. constructor; auto.
  rewrite Forall_forall in *. intros y Y. apply filter_In in Y. apply F. tauto.
Qed.
Lemma map_nodup {A B} (f : A -> B) l : NoDup l -> (forall x y, In x l -> In y l -> f x = f y -> x = y) -> NoDup (map f l).
Proof.
  induction 1 as [|x l NI ND IH]; intros I; cbn; constructor.
  - intros X. apply in_map_iff in X. destruct X as (y & E & Y). apply NI. rewrite (I x y); auto; [left|right]; auto.
  - apply IH. intros; apply I; auto; right; auto.
Qed.
Lemma firstn_nodup {A} n (l : list A) : NoDup l -> NoDup (firstn n l).
Proof.
  revert l. induction n as [|n IH]; intros [|x l] H; cbn; try constructor; inversion H; subst; auto. intros X. apply H2. eapply firstn_in; eauto.
Qed.

Lemma frequent_ok rnd voc data sa ws lcp num max_len minf : (1 <= voc)%nat -> Forall (fun x => 1 <= x < Z.of_nat voc) data ->
  BuildSuffixArray rnd voc data = Some (sa, ws) -> BuildLCPArray data sa = Some lcp -> 2 <= minf ->
  exists pats, FindMostFrequentPatterns data sa lcp num max_len minf = Some pats /\ (length pats <= num)%nat /\ NoDup pats /\
    (forall w, In w pats -> w <> [] /\ (length w <= max_len)%nat /\ ~ In 1 w /\ exists n, occurs data w n /\ minf <= n) /\
    (forall w n, w <> [] -> (length w <= max_len)%nat -> ~ In 1 w -> occurs data w n -> minf <= n -> not_last data w ->
       In w pats \/ (length pats = num /\ forall v m, In v pats -> occurs data v m -> n <= m)).
Proof.
  intros HV HD BS BL HM.
  destruct (suffix_build rnd voc data HV HD) as (sa' & ws' & E' & PERM & SORT). rewrite BS in E'. injection E' as <- <-.
  destruct (suffix_lcp rnd voc data sa ws HV HD BS) as (lcp' & E' & LEN & L0 & LCP). rewrite BL in E'. injection E' as <-.
  pose proof (size_sa data sa PERM) as NS. pose proof (size_nonneg data) as ND0.
  destruct (scan_ok data sa lcp PERM LCP max_len minf LEN ltac:(lia)) as ((rs & heap) & E & S1 & S2 & S3 & S4 & S5). cbn [fst snd] in *.
  unfold FindMostFrequentPatterns. rewrite E. cbn [bind snd].
  (* every entry stands for the range of its pattern *)
  assert (EN : forall x, In x heap -> exists len r e, run_entry data sa lcp max_len minf x len r e /\ pat data x <> [] /\ (Z.of_nat (length (pat data x)) = len + 1) /\
     rng data sa (pat data x) r e /\ 0 <= fst (snd x) /\ fst (snd x) + snd (snd x) <= size data /\ 0 <= len < Z.of_nat max_len /\ minf <= e - r /\ fst x = e - r /\ 0 <= r < e /\ e < size sa).
  { intros x X. apply S3 in X. destruct X as (len & r & e & R & He). exists len, r, e. split; [auto|]. destruct R as (R1 & R2 & -> & R3 & R4).
    destruct (run_range data sa lcp SORT LCP len r e ltac:(lia) R1 ltac:(lia)) as (w & W1 & W2 & W3).
    assert (PW : pat data (e - r, (at_ sa r, len + 1)) = w) by (unfold pat; cbn [fst snd]; rewrite W1; reflexivity).
    rewrite PW. destruct R1 as (R11 & R12 & _). pose proof (sa_range data sa PERM r ltac:(lia)) as SR. cbn [fst snd].
    split; [intros ->; cbn in W2; lia|]. split; [auto|]. split; [auto|]. split; [lia|]. split; [|repeat split; try lia; auto].
    assert (LW : Z.of_nat (length (suf data sa r)) = size data - at_ sa r) by (unfold suf, suffix; rewrite skipn_length; unfold size in *; lia).
    rewrite W1, firstn_length in W2. lia. }
  assert (OC : forall w r e, rng data sa w r e -> 0 <= r < e -> e <= size sa -> occurs data w (e - r)).
  { intros w r e R H1 H2. exists (map (fun k => at_ sa (r + Z.of_nat k)) (seq 0 (Z.to_nat (e - r)))). split; [|split].
    - apply map_nodup; [apply seq_NoDup|]. intros x y X Y Q. apply in_seq in X, Y. apply (sa_inj_ data sa PERM) in Q; lia.
    - rewrite map_length, seq_length. lia.
    - intros p. rewrite in_map_iff. split.
      + intros (k & <- & K). apply in_seq in K. pose proof (sa_range data sa PERM (r + Z.of_nat k) ltac:(lia)). split; [unfold size in *; lia|]. apply R; lia.
      + intros (P1 & P2). destruct (sa_surj_ data sa PERM p ltac:(unfold size; lia)) as (i & Hi & <-). apply R in P2; [|auto].
        exists (Z.to_nat (i - r)). split; [f_equal; lia|apply in_seq; lia]. }
  rewrite take_ok by (intros x X; destruct (EN x X) as (len & r & e & _ & _ & _ & _ & A & B & _); auto).
  set (L := filter (fun e => clean (pat data e)) heap).
  assert (LI : forall x, In x L <-> In x heap /\ ~ In 1 (pat data x)) by (intros x; unfold L; rewrite filter_In, clean_spec; tauto).
  assert (FO : forall x, In x heap -> occurs data (pat data x) (fst x)).
  { intros x X. destruct (EN x X) as (len & r & e & _ & _ & _ & R & _ & _ & _ & _ & -> & Hr & He). apply OC; auto. lia. }
  eexists. split; [reflexivity|]. split; [rewrite map_length, firstn_length; lia|]. split; [|split].
  - apply map_nodup; [apply firstn_nodup, NoDup_filter; auto|]. intros x y X Y Q.
    apply firstn_in, LI in X. apply firstn_in, LI in Y. destruct X as [X _], Y as [Y _].
    destruct (EN x X) as (len & r & e & X1 & X2 & X3 & X4 & X5 & X6 & X7 & X8 & X9 & X10 & X11).
    destruct (EN y Y) as (len' & r' & e' & Y1 & Y2 & Y3 & Y4 & Y5 & Y6 & Y7 & Y8 & Y9 & Y10 & Y11). rewrite Q in *.
    assert (len = len') by lia. subst len'. assert (r = r' /\ e = e').
    { assert (A1 : r' <= r < e') by (apply Y4; [lia|]; apply X4; lia). assert (A2 : r <= r' < e) by (apply X4; [lia|]; apply Y4; lia).
      assert (A3 : r' <= e - 1 < e') by (apply Y4; [lia|]; apply X4; lia). assert (A4 : r <= e' - 1 < e) by (apply X4; [lia|]; apply Y4; lia). lia. }
    destruct H as [<- <-]. destruct X1 as (_ & _ & -> & _), Y1 as (_ & _ & -> & _). auto.
  - intros w W. apply in_map_iff in W. destruct W as (x & <- & X). apply firstn_in, LI in X. destruct X as [X XC].
    destruct (EN x X) as (len & r & e & X1 & X2 & X3 & X4 & X5 & X6 & X7 & X8 & X9 & X10 & X11).
    split; [auto|]. split; [lia|]. split; [auto|]. exists (fst x). split; [auto|lia].
  - intros w n W1 W2 W3 O HN NL.
    assert (WD : Forall (fun x => 1 <= x < Z.of_nat voc \/ x = -1) w).
    { destruct O as (ps & _ & Hn & O). destruct ps as [|p ps]; [cbn in Hn; lia|]. destruct (proj1 (O p) (or_introl eq_refl)) as (_ & q & Q).
      apply Forall_forall. intros x X. left. rewrite Forall_forall in HD. apply HD. apply (skipn_in _ (Z.to_nat p)). unfold suffix in Q. rewrite Q. apply in_or_app; auto. }
    destruct (suffix_phrase rnd voc data sa ws w HV HD BS W1 WD) as (r & e & _ & R1 & R2 & R3). change (Z.of_nat (length sa)) with (size sa) in R2.
    assert (RG : rng data sa w r e).
    { intros i Hi. unfold suf. rewrite R3 by (pose proof (sa_range data sa PERM i Hi); unfold size in *; lia). split.
      - intros H. exists (Z.to_nat i). split; [lia|]. apply at_nth_. exact Hi.
      - intros (j & J & Q). apply nth_at_ in Q. apply (sa_inj_ data sa PERM) in Q; [lia| |lia]. unfold size in *. lia. }
    assert (RE : r < e).
    { destruct O as (ps & _ & Hn & O). destruct ps as [|p ps]; [cbn in Hn; lia|]. destruct (proj1 (O p) (or_introl eq_refl)) as (P & Q).
      destruct (sa_surj_ data sa PERM p ltac:(unfold size; lia)) as (i & Hi & <-). apply RG in Q; [lia|auto]. }
    assert (HE : e < size sa).
    { destruct (Z_lt_le_dec e (size sa)); auto. exfalso. destruct NL as (p & P1 & P2 & P3). destruct (sa_surj_ data sa PERM p ltac:(unfold size; lia)) as (i & Hi & <-).
      assert (I : i < r). { destruct (Z_lt_le_dec i r); auto. exfalso. apply P2. apply RG; lia. }
      pose proof (suf_lex data sa SORT i r ltac:(lia) I ltac:(lia)) as LX.  assert (starts w (suf data sa r)) by (apply RG; lia).
      pose proof (lex_gt w _ P3 P2 _ H) as LX2. eapply lex_irrefl. eapply lex_trans; eauto. }
    assert (n = e - r) by (eapply occurs_unique; [exact O|apply OC; auto; lia]). subst n.
    pose proof (range_run data sa lcp LCP w r e RG ltac:(lia) HE W1) as RUN.
    assert (WL : 1 <= Z.of_nat (length w)) by (destruct w; [congruence|cbn; lia]).
    assert (SW : starts w (suf data sa r)) by (apply RG; lia).
    set (x := (e - r, (at_ sa r, Z.of_nat (length w) - 1 + 1)) : entry).
    assert (PX : pat data x = w).
    { unfold pat, x. cbn [fst snd]. replace (Z.to_nat (Z.of_nat (length w) - 1 + 1)) with (length w) by lia. apply starts_firstn in SW. exact SW. }
    assert (X : In x heap).
    { apply S3. exists (Z.of_nat (length w) - 1), r, e. split; [|auto]. unfold run_entry. split; [auto|]. split; [lia|]. split; [reflexivity|]. split; [lia|].
      destruct SW as (q & Q). apply (f_equal (@length Z)) in Q. rewrite app_length in Q. unfold suf, suffix in Q. rewrite skipn_length in Q. pose proof (sa_range data sa PERM r ltac:(lia)). unfold size in *. lia. }
    assert (XL : In x L) by (apply LI; rewrite PX; auto).
    rewrite <- (firstn_skipn num L) in XL. apply in_app_or in XL. destruct XL as [XL|XL].
    + left. rewrite <- PX. apply in_map. auto.
    + right. split.
      * rewrite map_length, firstn_length. assert (skipn num L <> []) by (intros Q; rewrite Q in XL; destruct XL).
        assert (num < length L)%nat; [|lia]. destruct (Nat.lt_ge_cases num (length L)); auto. exfalso. apply H. apply skipn_all2. auto.
      * intros v m V OM. apply in_map_iff in V. destruct V as (y & <- & Y). pose proof (desc_split L num ltac:(apply desc_filter; auto) y x Y XL) as D.
        apply firstn_in, LI in Y. destruct Y as [Y _]. rewrite (occurs_unique _ _ _ _ OM (FO y Y)). cbn in D. lia.
Qed.
Lemma frequent_last : exists rnd voc data sa ws lcp pats, Forall (fun x => 1 <= x < Z.of_nat voc) data /\
  BuildSuffixArray rnd voc data = Some (sa, ws) /\ BuildLCPArray data sa = Some lcp /\
  FindMostFrequentPatterns data sa lcp 10 3 2 = Some pats /\ (length pats < 10)%nat /\ occurs data [4] 3 /\ ~ In [4] pats.
Proof.
  exists (fun k => N.of_nat (7 * k + 3)), 5%nat, [4;2;3;4;2;3;1;2;3;4;1]. eexists. eexists. eexists. eexists. split; [repeat constructor; discriminate|].
  split; [vm_compute; reflexivity|]. split; [vm_compute; reflexivity|]. split; [vm_compute; reflexivity|]. split; [cbn; lia|]. split.
  - exists [0; 3; 9]. split; [repeat (constructor; [cbn; intuition discriminate|]); constructor|]. split; [reflexivity|]. intros p. split.
    + intros [<-|[<-|[<-|[]]]]; (split; [cbn; lia|]); eexists; cbn; reflexivity.
    + intros (P & q & Q). cbn [length] in P. unfold suffix in Q. assert (E : exists n, p = Z.of_nat n /\ (n <= 11)%nat) by (exists (Z.to_nat p); lia). destruct E as (n & -> & N). rewrite Nat2Z.id in Q.
      do 12 (destruct n as [|n]; [cbn in Q; try discriminate Q; cbn; auto|]). lia.
  - cbn. intuition discriminate.
Qed.
