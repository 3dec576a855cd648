From Coq Require Import List Arith ZArith Bool Lia.
From Verif Require Import Opt OptProofs Suffix.
Import ListNotations.
Open Scope Z_scope.

(** * Rearranging a range of an array *)
Definition perm_on (l r : Z) (a a' : list Z) : Prop :=
  size a' = size a /\ exists s : Z -> Z,
    (forall t, l <= t <= r -> l <= s t <= r) /\
    (forall t u, l <= t <= r -> l <= u <= r -> s t = s u -> t = u) /\
    (forall t, l <= t <= r -> at_ a' t = at_ a (s t)) /\
    (forall t, 0 <= t -> ~ (l <= t <= r) -> at_ a' t = at_ a t).
Lemma perm_on_refl l r a : perm_on l r a a.
Proof. split; [auto|]. exists (fun t => t). repeat split; auto; lia. Qed.
Lemma perm_on_trans l r a b c : perm_on l r a b -> perm_on l r b c -> perm_on l r a c.
Proof.
  intros (E & s & A1 & A2 & A3 & A4) (E' & s' & B1 & B2 & B3 & B4). split; [lia|].
  exists (fun t => s (s' t)). split; [auto|]. split.
  - intros t u Ht Hu F. apply A2 in F; auto.
  - split.
    + intros t Ht. rewrite B3 by auto. apply A3. auto.
    + intros t H0 Ht. rewrite B4 by auto. apply A4; auto.
Qed.
Lemma perm_on_cycle l r a a' i j k : 0 <= l -> l <= i <= r -> l <= j <= r -> l <= k <= r -> j <> i -> i <> k ->
  size a' = size a ->
  (forall t, 0 <= t -> at_ a' t = if t =? i then at_ a k else if t =? j then at_ a i else if t =? k then at_ a j else at_ a t) ->
  perm_on l r a a'.
Proof.
  intros H0 Hi Hj Hk N1 N2 E H. split; [auto|].
  exists (fun t => if t =? i then k else if t =? j then i else if t =? k then j else t). split; [|split; [|split]].
  - intros t Ht. destruct (t =? i); [lia|]. destruct (t =? j); [lia|]. destruct (t =? k); lia.
  - intros t u Ht Hu.
    destruct (Z.eqb_spec t i); destruct (Z.eqb_spec u i); destruct (Z.eqb_spec t j); destruct (Z.eqb_spec u j);
    destruct (Z.eqb_spec t k); destruct (Z.eqb_spec u k); lia.
  - intros t Ht. rewrite H by lia. destruct (t =? i); [auto|]. destruct (t =? j); [auto|]. destruct (t =? k); auto.
  - intros t Ht Hn. rewrite H by lia. destruct (Z.eqb_spec t i); [lia|]. destruct (Z.eqb_spec t j); [lia|]. destruct (Z.eqb_spec t k); [lia|]. auto.
Qed.
Lemma perm_on_swap l r a a' i j : 0 <= l -> l <= i <= r -> l <= j <= r -> size a' = size a ->
  (forall t, 0 <= t -> at_ a' t = if t =? i then at_ a j else if t =? j then at_ a i else at_ a t) ->
  perm_on l r a a'.
Proof.
  intros H0 Hi Hj E H. split; [auto|].
  exists (fun t => if t =? i then j else if t =? j then i else t). split; [|split; [|split]].
  - intros t Ht. destruct (t =? i); [lia|]. destruct (t =? j); lia.
  - intros t u Ht Hu.
    destruct (Z.eqb_spec t i); destruct (Z.eqb_spec u i); destruct (Z.eqb_spec t j); destruct (Z.eqb_spec u j); lia.
  - intros t Ht. rewrite H by lia. destruct (t =? i); [auto|]. destruct (t =? j); auto.
  - intros t Ht Hn. rewrite H by lia. destruct (Z.eqb_spec t i); [lia|]. destruct (Z.eqb_spec t j); [lia|]. auto.
Qed.
Lemma swap_ok a i j : 0 <= i < size a -> 0 <= j < size a ->
  exists a', swap a i j = Some a' /\ size a' = size a /\
    forall t, 0 <= t -> at_ a' t = if t =? j then at_ a i else if t =? i then at_ a j else at_ a t.
Proof.
  intros Hi Hj. unfold swap. rewrite !get_some by auto. cbn [bind].
  destruct (put_some a i (at_ a j) Hi) as (a1 & -> & E1 & A1). cbn [bind].
  destruct (put_some a1 j (at_ a i)) as (a2 & -> & E2 & A2); [lia|]. exists a2. split; [auto|]. split; [lia|].
  intros t Ht. rewrite A2 by auto. rewrite A1 by auto. reflexivity.
Qed.

(** * Partition *)
Section Part.
Variables (g : list Z) (l r step pv : Z).
Definition key (x : Z) : Z := at_ g (x + step).
Hypothesis L0 : 0 <= l.
Hypothesis LR : l <= r.
Variable a0 : list Z.
Hypothesis RS : r < size a0.
Hypothesis SAFE : forall t, l <= t <= r -> 0 <= at_ a0 t + step < size g.
Definition pinv (i : Z) (st : list Z * Z * Z) : Prop :=
  let '(a, ml, mr) := st in
  perm_on l r a0 a /\ l <= ml <= mr /\ mr < i /\
  (forall t, l <= t < ml -> key (at_ a t) < pv) /\
  (forall t, ml <= t <= mr -> key (at_ a t) = pv) /\
  (forall t, mr < t < i -> pv < key (at_ a t)).
Lemma perm_safe a : perm_on l r a0 a -> forall t, l <= t <= r -> 0 <= at_ a t + step < size g.
Proof. intros (_ & s & A1 & _ & A3 & _) t Ht. rewrite A3 by auto. apply SAFE. auto. Qed.
Lemma part_step_ok i st : l + 1 <= i <= r -> pinv i st -> exists st', part_step g step pv i st = Some st' /\ pinv (i + 1) st'.
Proof.
  intros Hi. destruct st as [[a ml] mr]. intros (P & M1 & M2 & K1 & K2 & K3).
  pose proof (perm_safe a P) as Sa. assert (Es : size a = size a0) by (apply P).
  unfold part_step. rewrite (get_some a i) by lia. cbn [bind].
  rewrite (get_some g) by (apply Sa; lia). cbn [bind]. fold (key (at_ a i)).
  destruct (Z.ltb_spec (key (at_ a i)) pv) as [C|C].
  - rewrite (get_some a (mr + 1)) by lia. cbn [bind].
    destruct (put_some a i (at_ a (mr + 1))) as (a1 & -> & E1 & A1); [lia|]. cbn [bind].
    rewrite (get_some a1 ml) by lia. cbn [bind].
    destruct (put_some a1 (mr + 1) (at_ a1 ml)) as (a2 & -> & E2 & A2); [lia|]. cbn [bind].
    destruct (put_some a2 ml (at_ a i)) as (a3 & -> & E3 & A3); [lia|]. cbn [bind].
    eexists. split; [reflexivity|].
    assert (A : forall t, 0 <= t -> at_ a3 t = if t =? ml then at_ a i else if t =? mr + 1 then at_ a ml else if t =? i then at_ a (mr + 1) else at_ a t).
    { intros t Ht. rewrite A3, A2, !A1 by lia. destruct (t =? ml); [auto|]. destruct (t =? mr + 1); [|auto].
      destruct (Z.eqb_spec ml i); [lia|auto]. }
    split.
    { eapply perm_on_trans; [exact P|]. apply (perm_on_cycle l r a a3 ml (mr + 1) i); try lia. exact A. }
    split; [lia|]. split; [lia|]. split; [|split].
    + intros t Ht. rewrite A by lia. destruct (Z.eqb_spec t ml); [auto|].
      destruct (Z.eqb_spec t (mr + 1)); [lia|]. destruct (Z.eqb_spec t i); [lia|]. apply K1. lia.
    + intros t Ht. rewrite A by lia. destruct (Z.eqb_spec t ml); [lia|].
      destruct (Z.eqb_spec t (mr + 1)); [apply K2; lia|]. destruct (Z.eqb_spec t i); [lia|]. apply K2. lia.
    + intros t Ht. rewrite A by lia. destruct (Z.eqb_spec t ml); [lia|].
      destruct (Z.eqb_spec t (mr + 1)); [lia|]. destruct (Z.eqb_spec t i); [apply K3; lia|]. apply K3. lia.
  - destruct (Z.eqb_spec (key (at_ a i)) pv) as [C'|C'].
    + rewrite (get_some a (mr + 1)) by lia. cbn [bind].
      destruct (put_some a i (at_ a (mr + 1))) as (a1 & -> & E1 & A1); [lia|]. cbn [bind].
      destruct (put_some a1 (mr + 1) (at_ a i)) as (a2 & -> & E2 & A2); [lia|]. cbn [bind].
      eexists. split; [reflexivity|].
      assert (A : forall t, 0 <= t -> at_ a2 t = if t =? mr + 1 then at_ a i else if t =? i then at_ a (mr + 1) else at_ a t).
      { intros t Ht. rewrite A2, !A1 by lia. auto. }
      split.
      { eapply perm_on_trans; [exact P|]. apply (perm_on_swap l r a a2 (mr + 1) i); try lia. exact A. }
      split; [lia|]. split; [lia|]. split; [|split].
      * intros t Ht. rewrite A by lia. destruct (Z.eqb_spec t (mr + 1)); [lia|]. destruct (Z.eqb_spec t i); [lia|]. apply K1. lia.
      * intros t Ht. rewrite A by lia. destruct (Z.eqb_spec t (mr + 1)); [auto|]. destruct (Z.eqb_spec t i); [lia|]. apply K2. lia.
      * intros t Ht. rewrite A by lia. destruct (Z.eqb_spec t (mr + 1)); [lia|]. destruct (Z.eqb_spec t i); [apply K3; lia|]. apply K3. lia.
    + eexists. split; [reflexivity|]. split; [auto|]. split; [lia|]. split; [lia|]. split; [auto|]. split; [auto|].
      intros t Ht. destruct (Z.eq_dec t i) as [->|]; [lia|]. apply K3. lia.
Qed.
Lemma partition_ok : key (at_ a0 l) = pv ->
  exists a ml mr, partition a0 g l r step pv = Some (a, ml, mr) /\ perm_on l r a0 a /\ l <= ml <= mr /\ mr <= r /\
  (forall t, l <= t < ml -> key (at_ a t) < pv) /\
  (forall t, ml <= t <= mr -> key (at_ a t) = pv) /\
  (forall t, mr < t <= r -> pv < key (at_ a t)).
Proof.
  intros K. unfold partition.
  destruct (for_up_inv pinv (part_step g step pv) (Z.to_nat (r - l)) (l + 1) (a0, l, l)) as ([[a ml] mr] & E & P & M1 & M2 & K1 & K2 & K3).
  - intros i s Hi. apply part_step_ok. lia.
  - split; [apply perm_on_refl|]. split; [lia|]. split; [lia|]. split; [intros; lia|]. split; [|intros; lia].
    intros t Ht. replace t with l by lia. auto.
  - exists a, ml, mr. rewrite Z2Nat.id in * by lia. split; [exact E|]. split; [auto|]. split; [lia|]. split; [lia|].
    split; [auto|]. split; [auto|]. intros t Ht. apply K3. lia.
Qed.
End Part.

(** * The text, its suffixes, their order *)
Section Text.
Variable T : list Z.
Let N := size T.
Notation t_ i := (at_ T i).
Definition share (h p q : Z) : Prop := forall j, 0 <= j < h -> p + j < N /\ q + j < N /\ t_ (p + j) = t_ (q + j).
Definition sl (p q : Z) : Prop := exists k, 0 <= k /\ p + k < N /\ q + k < N /\ (forall j, 0 <= j < k -> t_ (p + j) = t_ (q + j)) /\ t_ (p + k) < t_ (q + k).
Lemma share_sl h p q : 0 <= h -> share h p q -> sl (p + h) (q + h) -> sl p q.
Proof.
  intros Hh S (k & K0 & K1 & K2 & K3 & K4). exists (h + k). split; [lia|]. split; [lia|]. split; [lia|]. split.
  - intros j Hj. destruct (Z_lt_le_dec j h) as [Q|Q]; [apply S; lia|].
    specialize (K3 (j - h) ltac:(lia)). replace (p + h + (j - h)) with (p + j) in K3 by lia. replace (q + h + (j - h)) with (q + j) in K3 by lia. auto.
  - replace (p + (h + k)) with (p + h + k) by lia. replace (q + (h + k)) with (q + h + k) by lia. auto.
Qed.
Lemma share_share h p q : 0 <= h -> share h p q -> share h (p + h) (q + h) -> share (2 * h) p q.
Proof.
  intros Hh S S' j Hj. destruct (Z_lt_le_dec j h) as [Q|Q]; [apply S; lia|].
  specialize (S' (j - h) ltac:(lia)). replace (p + h + (j - h)) with (p + j) in S' by lia. replace (q + h + (j - h)) with (q + j) in S' by lia. auto.
Qed.
Lemma share_sym h p q : share h p q -> share h q p.
Proof. intros H j Hj. specialize (H j Hj). intuition. Qed.

(** * Groups *)
(** [pm] lists the suffixes in the order reached so far, [at_ g p] is the last position
    of the group of suffix p. *)
Record good (pm : Z -> Z) (g : list Z) (h : Z) : Prop := {
  gd_size : size g = N;
  gd_rng : forall i, 0 <= i < N -> 0 <= pm i < N;
  gd_inj : forall i j, 0 <= i < N -> 0 <= j < N -> pm i = pm j -> i = j;
  gd_end : forall i, 0 <= i < N -> i <= at_ g (pm i) < N;
  gd_grp : forall i k, 0 <= i < N -> i <= k <= at_ g (pm i) -> at_ g (pm k) = at_ g (pm i);
  gd_ord : forall p q, 0 <= p < N -> 0 <= q < N -> at_ g p < at_ g q -> sl p q;
  gd_shr : forall p q, 0 <= p < N -> 0 <= q < N -> p <> q -> at_ g p = at_ g q -> share h p q }.

(** Blocks of the array from a to b: sorted runs, marked by a negative length, and
    groups of at least two. *)
Inductive blk (sa : list Z) (pm : Z -> Z) (g : list Z) : Z -> Z -> Prop :=
| bl_nil a : blk sa pm g a a
| bl_run a b k : 0 < k -> at_ sa a = - k -> (forall t, a <= t < a + k -> at_ g (pm t) = t) -> blk sa pm g (a + k) b -> blk sa pm g a b
| bl_grp a b e : a < e -> (forall t, a <= t <= e -> at_ sa t = pm t /\ at_ g (pm t) = e) -> blk sa pm g (e + 1) b -> blk sa pm g a b.
Lemma blk_app sa pm g a b c : blk sa pm g a b -> blk sa pm g b c -> blk sa pm g a c.
Proof. induction 1; intros; auto; [eapply bl_run; eauto|eapply bl_grp; eauto]. Qed.
Lemma blk_le sa pm g a b : blk sa pm g a b -> a <= b.
Proof. induction 1; lia. Qed.
Lemma blk_ext sa pm g sa' pm' g' a b : blk sa pm g a b ->
  (forall t, a <= t < b -> at_ sa' t = at_ sa t /\ pm' t = pm t /\ at_ g' (pm' t) = at_ g (pm t)) -> blk sa' pm' g' a b.
Proof.
  induction 1 as [a|a b k K E R B IH|a b e L E B IH]; intros H; [constructor| |].
  - pose proof (blk_le _ _ _ _ _ B). apply bl_run with k; auto.
    + destruct (H a) as (-> & _); [lia|auto].
    + intros t Ht. destruct (H t) as (_ & _ & ->); [lia|]. auto.
    + apply IH. intros t Ht. apply H. lia.
  - pose proof (blk_le _ _ _ _ _ B). apply bl_grp with e; auto.
    + intros t Ht. destruct (H t) as (-> & A2 & ->); [lia|]. rewrite A2. apply E. auto.
    + apply IH. intros t Ht. apply H. lia.
Qed.

Section Sort.
Variable rnd : nat -> BinNums.N.
Variable h : Z.
Hypothesis H0 : 0 < h.

(** state at a call: the group [l..R] is being sorted, of which [l..r] is this call's *)
Definition pre (l r R : Z) (s : qs) (pm : Z -> Z) : Prop :=
  good pm (qgr s) h /\ size (qsa s) = N /\ 0 <= l <= r + 1 /\ r <= R /\ R < N /\
  (forall t, 0 <= t < l -> at_ (qgr s) (pm t) < l) /\
  (forall t, l <= t <= R -> at_ (qgr s) (pm t) = R) /\
  (forall t, l <= t <= r -> at_ (qsa s) t = pm t) /\
  (forall t, l <= t <= r -> pm t + h < N) /\
  (forall t u, l <= t <= r -> r < u <= R -> sl (pm t) (pm u)).
Definition post (l r : Z) (s : qs) (pm : Z -> Z) (s' : qs) (pm' : Z -> Z) : Prop :=
  good pm' (qgr s') h /\ size (qsa s') = N /\
  (forall t, 0 <= t < N -> ~ (l <= t <= r) -> pm' t = pm t /\ at_ (qsa s') t = at_ (qsa s) t /\ at_ (qgr s') (pm' t) = at_ (qgr s) (pm t)) /\
  (forall t, l <= t <= r -> at_ (qgr s') (pm' t) <= r) /\
  (forall t u, l <= t <= r -> 0 <= u < N -> t <> u -> at_ (qgr s') (pm' t) = at_ (qgr s') (pm' u) -> share (2 * h) (pm' t) (pm' u)) /\
  blk (qsa s') pm' (qgr s') l (r + 1).

(** rearranging within a group keeps everything *)
Lemma good_perm pm g l r R a a' : good pm g h -> 0 <= l -> r <= R -> R < N ->
  (forall t, l <= t <= R -> at_ g (pm t) = R) -> (forall t, l <= t <= r -> at_ a t = pm t) -> perm_on l r a a' ->
  let pm1 := fun t => if (l <=? t) && (t <=? r) then at_ a' t else pm t in
  good pm1 g h /\ (forall t, 0 <= t < N -> at_ g (pm1 t) = at_ g (pm t)) /\
  (forall t, l <= t <= r -> exists u, l <= u <= r /\ pm1 t = pm u).
Proof.
  intros G L R1 R2 HR HA (_ & s & S1 & S2 & S3 & S4) pm1.
  assert (In1 : forall t, l <= t <= r -> pm1 t = pm (s t)).
  { intros t Ht. unfold pm1. destruct (Z.leb_spec l t); [|lia]. destruct (Z.leb_spec t r); [|lia]. cbn [andb].
    rewrite S3 by auto. apply HA. apply S1. auto. }
  assert (Out : forall t, ~ (l <= t <= r) -> pm1 t = pm t).
  { intros t Ht. unfold pm1. destruct (Z.leb_spec l t); [|auto]. destruct (Z.leb_spec t r); [lia|auto]. }
  assert (EE : forall t, 0 <= t < N -> at_ g (pm1 t) = at_ g (pm t)).
  { intros t Ht. destruct (Z_le_dec l t) as [A|A]; [destruct (Z_le_dec t r) as [B|B]|].
    - rewrite In1 by lia. pose proof (S1 t ltac:(lia)). rewrite !HR by lia. auto.
    - rewrite Out by lia. auto.
    - rewrite Out by lia. auto. }
  split; [|split; [exact EE|intros t Ht; exists (s t); split; [apply S1; auto|apply In1; auto]]].
  destruct G as [G1 G2 G3 G4 G5 G6 G7].
  constructor; auto.
  - intros i Hi. destruct (Z_le_dec l i) as [A|A]; [destruct (Z_le_dec i r) as [B|B]|].
    + rewrite In1 by lia. pose proof (S1 i ltac:(lia)). apply G2. lia.
    + rewrite Out by lia. auto.
    + rewrite Out by lia. auto.
  - intros i j Hi Hj.
    destruct (Z_le_dec l i) as [A|A]; [destruct (Z_le_dec i r) as [B|B]|];
    (destruct (Z_le_dec l j) as [C|C]; [destruct (Z_le_dec j r) as [D|D]|]);
    rewrite ?(In1 i) by lia; rewrite ?(In1 j) by lia; rewrite ?(Out i) by lia; rewrite ?(Out j) by lia; intros F; apply G3 in F; auto;
      try (pose proof (S1 i ltac:(lia))); try (pose proof (S1 j ltac:(lia))); try lia.
  - intros i Hi. rewrite EE by lia. auto.
  - intros i k Hi Hk. pose proof (G4 i Hi). rewrite (EE i) in Hk by lia. rewrite (EE i), (EE k) by lia. apply G5; auto.
Qed.

Lemma set_groups_ok a g pm ml mr : 0 <= ml -> mr < N -> size a = N -> size g = N ->
  (forall t, ml <= t <= mr -> at_ a t = pm t) -> (forall t, 0 <= t < N -> 0 <= pm t < N) ->
  exists g', set_groups a g ml mr = Some g' /\ size g' = N /\
    forall p, 0 <= p -> (forall t, ml <= t <= mr -> pm t <> p) /\ at_ g' p = at_ g p \/ (exists t, ml <= t <= mr /\ pm t = p) /\ at_ g' p = mr.
Proof.
  intros A B C D E F. unfold set_groups.
  destruct (Z_le_dec ml mr) as [LE|GT].
  - destruct (for_up_inv (fun i g' => size g' = N /\ forall p, 0 <= p -> (forall t, ml <= t < i -> pm t <> p) /\ at_ g' p = at_ g p \/ (exists t, ml <= t < i /\ pm t = p) /\ at_ g' p = mr)
      (fun i g => bind (get a i) (fun x => put g x mr)) (Z.to_nat (mr - ml + 1)) ml g) as (g' & E1 & S1 & P1).
    + intros i g1 Hi (S1 & P1). rewrite get_some by lia. cbn [bind]. rewrite E by lia.
      pose proof (F i ltac:(lia)) as Fi.
      destruct (put_some g1 (pm i) mr) as (g2 & -> & S2 & P2); [lia|]. exists g2. split; [auto|]. split; [lia|].
      intros p Hp. rewrite P2 by auto. destruct (Z.eqb_spec p (pm i)) as [->|Np].
      * right. split; [exists i; split; [lia|auto]|auto].
      * destruct (P1 p Hp) as [[Q1 Q2]|[(t & Q1 & Q2) Q3]].
        -- left. split; [|auto]. intros t Ht. destruct (Z.eq_dec t i) as [->|]; [auto|]. apply Q1. lia.
        -- right. split; [exists t; split; [lia|auto]|auto].
    + split; [auto|]. intros p Hp. left. split; [intros; lia|auto].
    + exists g'. rewrite Z2Nat.id in P1 by lia. split; [auto|]. split; [auto|]. intros p Hp.
      destruct (P1 p Hp) as [[Q1 Q2]|[(t & Q1 & Q2) Q3]]; [left|right]; split; auto.
      * intros t Ht. apply Q1. lia.
      * exists t. split; [lia|auto].
  - replace (Z.to_nat (mr - ml + 1)) with 0%nat by lia. exists g. split; [reflexivity|]. split; [auto|].
    intros p Hp. left. split; [intros; lia|auto].
Qed.

(** closing the middle part *)
Lemma close_mid_ok l ml mr R s pm : good pm (qgr s) h -> size (qsa s) = N ->
  0 <= l <= ml -> ml <= mr -> mr <= R -> R < N ->
  (forall t, 0 <= t < ml -> at_ (qgr s) (pm t) < ml) ->
  (forall t, ml <= t <= R -> at_ (qgr s) (pm t) = R) ->
  (forall t, ml <= t <= mr -> at_ (qsa s) t = pm t) ->
  (forall t u, ml <= t <= mr -> mr < u <= R -> sl (pm t) (pm u)) ->
  (forall t u, ml <= t <= mr -> ml <= u <= mr -> t <> u -> share (2 * h) (pm t) (pm u)) ->
  exists s', close_mid s ml mr = Some s' /\ qk s' = qk s /\ good pm (qgr s') h /\ size (qsa s') = N /\
    (forall t, 0 <= t < N -> ~ (ml <= t <= mr) -> at_ (qsa s') t = at_ (qsa s) t /\ at_ (qgr s') (pm t) = at_ (qgr s) (pm t)) /\
    (forall t, ml <= t <= mr -> at_ (qgr s') (pm t) = mr) /\
    blk (qsa s') pm (qgr s') ml (mr + 1).
Proof.
  intros G SS Hl Hm HR RN Lo Gr SA SL SH.
  (* the new group array *)
  assert (exists s', close_mid s ml mr = Some s' /\ qk s' = qk s /\ size (qsa s') = N /\ size (qgr s') = N /\
    (forall t, 0 <= t < N -> ~ (ml <= t <= mr) -> at_ (qsa s') t = at_ (qsa s) t) /\
    (ml = mr -> at_ (qsa s') ml = -1) /\ (ml <> mr -> qsa s' = qsa s) /\
    forall p, 0 <= p -> (forall t, ml <= t <= mr -> pm t <> p) /\ at_ (qgr s') p = at_ (qgr s) p \/ (exists t, ml <= t <= mr /\ pm t = p) /\ at_ (qgr s') p = mr)
    as (s' & E & EK & S1 & S2 & A1 & A2 & A3 & A4).
  { unfold close_mid. destruct (Z.eqb_spec ml mr) as [->|Ne].
    - rewrite get_some by lia. cbn [bind]. rewrite SA by lia. pose proof (gd_rng _ _ _ G mr ltac:(lia)). pose proof (gd_size _ _ _ G).
      destruct (put_some (qgr s) (pm mr) mr) as (g' & -> & E1 & P1); [lia|]. cbn [bind].
      destruct (put_some (qsa s) mr (-1)) as (a' & -> & E2 & P2); [lia|]. cbn [bind].
      eexists. split; [reflexivity|]. cbn [qsa qgr qk]. split; [auto|]. split; [lia|]. split; [lia|]. split; [|split; [|split]].
      + intros t Ht Hn. rewrite P2 by lia. destruct (Z.eqb_spec t mr); [lia|auto].
      + intros _. rewrite P2 by lia. rewrite Z.eqb_refl. auto.
      + lia.
      + intros p Hp. rewrite P1 by auto. destruct (Z.eqb_spec p (pm mr)) as [->|Np].
        * right. split; [exists mr; split; [lia|auto]|auto].
        * left. split; [|auto]. intros t Ht. replace t with mr by lia. auto.
    - destruct (set_groups_ok (qsa s) (qgr s) pm ml mr) as (g' & -> & E1 & P1); try lia; auto.
      + apply (gd_size _ _ _ G).
      + apply (gd_rng _ _ _ G).
      + cbn [bind]. eexists. split; [reflexivity|]. cbn [qsa qgr qk]. repeat split; auto; lia. }
  assert (M : forall t, ml <= t <= mr -> at_ (qgr s') (pm t) = mr).
  { intros t Ht. destruct (A4 (pm t)) as [[Q _]|[_ Q]]; [apply (gd_rng _ _ _ G); lia| |auto].
    exfalso. apply (Q t Ht). auto. }
  assert (O : forall t, 0 <= t < N -> ~ (ml <= t <= mr) -> at_ (qgr s') (pm t) = at_ (qgr s) (pm t)).
  { intros t Ht Hn. destruct (A4 (pm t)) as [[_ Q]|[(u & Q1 & Q2) _]]; [apply (gd_rng _ _ _ G); lia|auto|].
    apply (gd_inj _ _ _ G) in Q2; lia. }
  assert (SU : forall p, 0 <= p < N -> exists i, 0 <= i < N /\ pm i = p).
  { apply inj_surj; [apply (gd_rng _ _ _ G)|apply (gd_inj _ _ _ G)]. }
  assert (Hi : forall t, mr < t < N -> mr < at_ (qgr s) (pm t)).
  { intros t Ht. pose proof (gd_end _ _ _ G t ltac:(lia)). lia. }
  exists s'. split; [auto|]. split; [auto|]. split; [|split; [auto|split; [|split; [auto|]]]].
  - destruct G as [G1 G2 G3 G4 G5 G6 G7]. constructor; auto.
    + intros i Hi'. destruct (Z_le_dec ml i) as [A|A]; [destruct (Z_le_dec i mr) as [B|B]|].
      * rewrite M by lia. lia.
      * rewrite O by lia. auto.
      * rewrite O by lia. auto.
    + intros i k Hi' Hk. destruct (Z_le_dec ml i) as [A|A]; [destruct (Z_le_dec i mr) as [B|B]|].
      * rewrite (M i) in Hk |- * by lia. apply M. lia.
      * rewrite (O i) in Hk |- * by lia. pose proof (G4 i Hi'). rewrite O by lia. apply G5; auto.
      * rewrite (O i) in Hk |- * by lia. pose proof (Lo i ltac:(lia)). rewrite O by lia. apply G5; auto.
    + intros p q Hp Hq C. destruct (SU p Hp) as (i & Ii & <-). destruct (SU q Hq) as (k & Ik & <-).
      destruct (Z_le_dec ml i) as [A|A]; [destruct (Z_le_dec i mr) as [B|B]|].
      * rewrite M in C by lia.
        destruct (Z_le_dec k mr) as [D|D].
        { exfalso. destruct (Z_le_dec ml k) as [F|F]; [rewrite M in C by lia; lia|]. rewrite O in C by lia. pose proof (Lo k ltac:(lia)). lia. }
        destruct (Z_le_dec k R) as [F|F]; [apply SL; lia|].
        apply G6; auto. rewrite Gr by lia. pose proof (G4 k Ik). lia.
      * rewrite (O i) in C by lia. destruct (Z_le_dec ml k) as [D|D]; [destruct (Z_le_dec k mr) as [F|F]|].
        -- rewrite M in C by lia. pose proof (Hi i ltac:(lia)). lia.
        -- rewrite O in C by lia. apply G6; auto.
        -- rewrite O in C by lia. apply G6; auto.
      * rewrite (O i) in C by lia. destruct (Z_le_dec ml k) as [D|D]; [destruct (Z_le_dec k mr) as [F|F]|].
        -- apply G6; auto. pose proof (Lo i ltac:(lia)). rewrite (Gr k) by lia. lia.
        -- rewrite O in C by lia. apply G6; auto.
        -- rewrite O in C by lia. apply G6; auto.
    + intros p q Hp Hq Ne C. destruct (SU p Hp) as (i & Ii & <-). destruct (SU q Hq) as (k & Ik & <-).
      apply G7; auto.
      destruct (Z_le_dec ml i) as [A|A]; [destruct (Z_le_dec i mr) as [B|B]|];
      (destruct (Z_le_dec ml k) as [D|D]; [destruct (Z_le_dec k mr) as [F|F]|]);
      rewrite ?(M i) in C by lia; rewrite ?(M k) in C by lia; rewrite ?(O i) in C by lia; rewrite ?(O k) in C by lia;
      try (pose proof (Lo i ltac:(lia))); try (pose proof (Lo k ltac:(lia)));
      try (pose proof (Hi i ltac:(lia))); try (pose proof (Hi k ltac:(lia))); try lia; auto.
      rewrite !Gr by lia. auto.
  - intros t Ht Hn. split; [auto|]. apply O; auto.
  - destruct (Z.eq_dec ml mr) as [->|Ne].
    + apply bl_run with 1; [lia|apply A2; auto| |constructor]. intros t Ht. rewrite M by lia. lia.
    + apply bl_grp with mr; [lia| |constructor]. intros t Ht. rewrite (A3 Ne). split; [apply SA; auto|apply M; auto].
Qed.

Lemma tqs_ok : forall fuel l r R s pm, pre l r R s pm -> r - l + 1 <= Z.of_nat fuel ->
  exists s' pm', TernaryQuicksort rnd fuel l r h s = Some s' /\ post l r s pm s' pm'.
Proof.
  induction fuel as [|f IH]; intros l r R s pm (G & SS & Hl & HR & RN & Lo & Gr & SA & SF & SL) F.
  - exists s, pm. cbn [TernaryQuicksort]. destruct (Z.ltb_spec r l); [|lia]. split; [auto|].
    split; [auto|]. split; [auto|]. split; [auto|]. split; [intros; lia|]. split; [intros; lia|].
    replace (r + 1) with l by lia. constructor.
  - cbn [TernaryQuicksort]. destruct (Z.ltb_spec r l) as [E|LR].
    { exists s, pm. split; [auto|]. split; [auto|]. split; [auto|]. split; [auto|]. split; [intros; lia|]. split; [intros; lia|].
      replace (r + 1) with l by lia. constructor. }
    set (pivot := l + Z.of_N (rnd (qk s)) mod (r - l + 1)).
    assert (Hp : l <= pivot <= r).
    { unfold pivot. pose proof (Z.mod_pos_bound (Z.of_N (rnd (qk s))) (r - l + 1) ltac:(lia)). lia. }
    pose proof (gd_size _ _ _ G) as SG.
    assert (SAFE : forall t, l <= t <= r -> 0 <= at_ (qsa s) t + h < size (qgr s)).
    { intros t Ht. rewrite SA by lia. pose proof (SF t Ht). pose proof (gd_rng _ _ _ G t ltac:(lia)). lia. }
    rewrite get_some by lia. cbn [bind]. rewrite (get_some (qgr s)) by (apply SAFE; lia). cbn [bind].
    destruct (swap_ok (qsa s) pivot l) as (a & -> & Ea & Aa); [lia|lia|]. cbn [bind].
    assert (Pa : perm_on l r (qsa s) a).
    { apply perm_on_swap with (i := l) (j := pivot); auto; lia. }
    set (pv := at_ (qgr s) (at_ (qsa s) pivot + h)).
    destruct (partition_ok (qgr s) l r h pv ltac:(lia) ltac:(lia) a ltac:(lia)) as (a' & ml & mr & -> & Pa' & M1 & M2 & K1 & K2 & K3).
    { intros t Ht. destruct Pa as (_ & sg & Q1 & _ & Q3 & _). rewrite Q3 by auto. apply SAFE. apply Q1. auto. }
    { unfold key, pv. rewrite Aa by lia. rewrite Z.eqb_refl. reflexivity. }
    cbn [bind].
    pose proof (perm_on_trans _ _ _ _ _ Pa Pa') as P.
    set (pm1 := fun t => if (l <=? t) && (t <=? r) then at_ a' t else pm t).
    assert (GP : good pm1 (qgr s) h /\ (forall t, 0 <= t < N -> at_ (qgr s) (pm1 t) = at_ (qgr s) (pm t)) /\
      (forall t, l <= t <= r -> exists u, l <= u <= r /\ pm1 t = pm u)).
    { apply (good_perm pm (qgr s) l r R (qsa s) a' G); auto; lia. }
    destruct GP as (G1 & E1 & I1).
    assert (In1 : forall t, l <= t <= r -> pm1 t = at_ a' t).
    { intros t Ht. unfold pm1. destruct (Z.leb_spec l t); [|lia]. destruct (Z.leb_spec t r); [reflexivity|lia]. }
    assert (Out1 : forall t, ~ (l <= t <= r) -> pm1 t = pm t).
    { intros t Ht. unfold pm1. destruct (Z.leb_spec l t); [|auto]. destruct (Z.leb_spec t r); [lia|auto]. }
    assert (Gr1 : forall t, l <= t <= R -> at_ (qgr s) (pm1 t) = R) by (intros t Ht; rewrite E1 by lia; apply Gr; auto).
    assert (SF1 : forall t, l <= t <= r -> pm1 t + h < N).
    { intros t Ht. destruct (I1 t Ht) as (u & Hu & ->). apply SF. auto. }
    assert (RG1 : forall t, 0 <= t < N -> 0 <= pm1 t < N) by apply (gd_rng _ _ _ G1).
    assert (Sh1 : forall t u, l <= t <= R -> l <= u <= R -> t <> u -> share h (pm1 t) (pm1 u)).
    { intros t u Ht Hu Ne. apply (gd_shr _ _ _ G1); try (apply RG1; lia).
      - intros C. apply (gd_inj _ _ _ G1) in C; lia.
      - rewrite !Gr1; auto. }
    assert (KSL : forall t u, l <= t <= r -> l <= u <= r -> key (qgr s) h (at_ a' t) < key (qgr s) h (at_ a' u) -> sl (pm1 t) (pm1 u)).
    { intros t u Ht Hu C. apply share_sl with h; [lia| |].
      - apply Sh1; try lia. intros ->. lia.
      - rewrite <- !In1 in C by auto. unfold key in C. pose proof (RG1 t ltac:(lia)). pose proof (RG1 u ltac:(lia)).
        pose proof (SF1 t Ht). pose proof (SF1 u Hu). apply (gd_ord _ _ _ G1); try lia. }
    assert (SL1 : forall t u, l <= t <= r -> r < u <= R -> sl (pm1 t) (pm1 u)).
    { intros t u Ht Hu. destruct (I1 t Ht) as (u' & Hu' & ->). rewrite Out1 by lia. apply SL; auto. }
    assert (Ea' : size a' = N) by (destruct P as [P _]; lia).
    (* left part *)
    destruct (IH l (ml - 1) R {| qsa := a'; qgr := qgr s; qk := Datatypes.S (qk s) |} pm1) as (s1 & pm2 & -> & Q1 & Q2 & Q3 & Q4 & Q5 & Q6).
    { unfold pre. cbn [qsa qgr]. split; [auto|]. split; [auto|]. split; [lia|]. split; [lia|]. split; [lia|].
      split; [|split; [|split; [|split]]].
      - intros t Ht. rewrite Out1 by lia. auto.
      - auto.
      - intros t Ht. symmetry. apply In1. lia.
      - intros t Ht. apply SF1. lia.
      - intros t u Ht Hu. destruct (Z_le_dec u r) as [D|D]; [|apply SL1; lia].
        apply KSL; try lia. pose proof (K1 t ltac:(lia)).
        destruct (Z_le_dec u mr) as [D'|D']; [rewrite (K2 u) by lia; auto|]. pose proof (K3 u ltac:(lia)). lia. }
    { lia. }
    cbn [bind]. cbn [qsa qgr] in Q3.
    assert (F2 : forall t, 0 <= t < N -> ~ (l <= t <= ml - 1) -> pm2 t = pm1 t /\ at_ (qsa s1) t = at_ a' t /\ at_ (qgr s1) (pm2 t) = at_ (qgr s) (pm1 t)).
    { intros t Ht Hn. destruct (Q3 t Ht Hn) as (X1 & X2 & X3). auto. }
    assert (Lo2 : forall t, 0 <= t < ml -> at_ (qgr s1) (pm2 t) < ml).
    { intros t Ht. destruct (Z_le_dec l t); [pose proof (Q4 t ltac:(lia)); lia|].
      destruct (F2 t) as (_ & _ & ->); [lia|lia|]. rewrite Out1 by lia. pose proof (Lo t ltac:(lia)). lia. }
    (* middle part *)
    destruct (close_mid_ok l ml mr R s1 pm2) as (s2 & -> & _ & G2 & S2 & O2 & M2' & B2); auto; try lia.
    { intros t Ht. destruct (F2 t) as (_ & _ & ->); [lia|lia|]. apply Gr1. lia. }
    { intros t Ht. destruct (F2 t) as (-> & -> & _); [lia|lia|]. rewrite In1 by lia. auto. }
    { intros t u Ht Hu. destruct (F2 t) as (-> & _); [lia|lia|]. destruct (F2 u) as (-> & _); [lia|lia|].
      destruct (Z_le_dec u r) as [D|D]; [|apply SL1; lia].
      apply KSL; try lia. rewrite (K2 t) by lia. apply K3. lia. }
    { intros t u Ht Hu Ne. destruct (F2 t) as (-> & _); [lia|lia|]. destruct (F2 u) as (-> & _); [lia|lia|].
      apply share_share; [lia|apply Sh1; lia|].
      pose proof (RG1 t ltac:(lia)). pose proof (RG1 u ltac:(lia)). pose proof (SF1 t ltac:(lia)). pose proof (SF1 u ltac:(lia)).
      apply (gd_shr _ _ _ G1); try lia.
      - assert (pm1 t <> pm1 u); [|lia]. intros C. apply (gd_inj _ _ _ G1) in C; lia.
      - pose proof (K2 t ltac:(lia)) as K2t. pose proof (K2 u ltac:(lia)) as K2u. unfold key in K2t, K2u.
        rewrite !In1 by lia. congruence. }
    cbn [bind].
    assert (B1' : blk (qsa s2) pm2 (qgr s2) l ml).
    { replace (ml - 1 + 1) with ml in Q6 by lia. eapply blk_ext; [exact Q6|]. intros t Ht. split; [|split; [auto|]]; apply O2; lia. }
    (* right part *)
    destruct (IH (mr + 1) r R s2 pm2) as (s3 & pm3 & -> & U1 & U2 & U3 & U4 & U5 & U6).
    { unfold pre. split; [auto|]. split; [auto|]. split; [lia|]. split; [lia|]. split; [lia|].
      split; [|split; [|split; [|split]]].
      - intros t Ht. destruct (Z_le_dec ml t); [rewrite M2' by lia; lia|].
        destruct (O2 t) as (_ & ->); [lia|lia|]. pose proof (Lo2 t ltac:(lia)). lia.
      - intros t Ht. destruct (O2 t) as (_ & ->); [lia|lia|]. destruct (F2 t) as (_ & _ & ->); [lia|lia|]. apply Gr1. lia.
      - intros t Ht. destruct (O2 t) as (-> & _); [lia|lia|]. destruct (F2 t) as (-> & -> & _); [lia|lia|]. rewrite In1 by lia. auto.
      - intros t Ht. destruct (F2 t) as (-> & _); [lia|lia|]. apply SF1. lia.
      - intros t u Ht Hu. destruct (F2 t) as (-> & _); [lia|lia|]. destruct (F2 u) as (-> & _); [lia|lia|]. apply SL1; lia. }
    { lia. }
    exists s3, pm3. split; [auto|]. split; [auto|]. split; [auto|].
    assert (LM : forall t, 0 <= t <= mr -> at_ (qgr s3) (pm3 t) <= mr).
    { intros t Ht. destruct (U3 t) as (_ & _ & ->); [lia|lia|]. destruct (Z_le_dec ml t); [rewrite M2' by lia; lia|].
      destruct (O2 t) as (_ & ->); [lia|lia|]. pose proof (Lo2 t ltac:(lia)). lia. }
    split; [|split; [|split]].
    + intros t Ht Hn. destruct (U3 t) as (X1 & X2 & X3); [lia|lia|]. destruct (O2 t) as (Y1 & Y2); [lia|lia|].
      destruct (F2 t) as (Z1 & Z2 & Z3); [lia|lia|]. rewrite X3, Y2, Z3, X2, Y1, Z2, X1, Z1. rewrite !Out1 by lia.
      split; [auto|]. split; [|auto]. destruct P as (_ & sg & _ & _ & _ & P4). apply P4; lia.
    + intros t Ht. destruct (Z_le_dec t mr); [pose proof (LM t ltac:(lia)); lia|]. apply U4. lia.
    + intros t u Ht Hu Ne C. destruct (Z_le_dec t mr) as [D|D]; [|apply U5; auto; lia].
      assert (u <= mr) as Du.
      { destruct (Z_le_dec u mr); [auto|]. pose proof (LM t ltac:(lia)). pose proof (gd_end _ _ _ U1 u Hu). lia. }
      destruct (U3 t) as (X1 & _ & X3); [lia|lia|]. destruct (U3 u) as (Y1 & _ & Y3); [lia|lia|].
      rewrite X3, Y3 in C. rewrite X1, Y1.
      destruct (Z_le_dec ml t) as [Dt|Dt].
      * assert (ml <= u) as Du'.
        { destruct (Z_le_dec ml u); [auto|]. rewrite M2' in C by lia. destruct (O2 u) as (_ & Z2); [lia|lia|]. pose proof (Lo2 u ltac:(lia)). lia. }
        destruct (F2 t) as (-> & _); [lia|lia|]. destruct (F2 u) as (-> & _); [lia|lia|].
        pose proof (RG1 t ltac:(lia)). pose proof (RG1 u ltac:(lia)). pose proof (SF1 t ltac:(lia)). pose proof (SF1 u ltac:(lia)).
        apply share_share; [lia|apply Sh1; lia|]. apply (gd_shr _ _ _ G1); try lia.
        -- assert (pm1 t <> pm1 u); [|lia]. intros C'. apply (gd_inj _ _ _ G1) in C'; lia.
        -- pose proof (K2 t ltac:(lia)) as K2t. pose proof (K2 u ltac:(lia)) as K2u. unfold key in K2t, K2u. rewrite !In1 by lia. congruence.
      * destruct (O2 t) as (_ & Z2); [lia|lia|]. rewrite Z2 in C. pose proof (Lo2 t ltac:(lia)).
        assert (u < ml) as Du'.
        { destruct (Z_lt_le_dec u ml); [auto|]. rewrite M2' in C by lia. lia. }
        destruct (O2 u) as (_ & Z2'); [lia|lia|]. rewrite Z2' in C. apply Q5; auto. lia.
    + apply blk_app with ml; [|apply blk_app with (mr + 1); [|exact U6]].
      * eapply blk_ext; [exact B1'|]. intros t Ht. destruct (U3 t) as (X1 & X2 & X3); [lia|lia|auto].
      * eapply blk_ext; [exact B2|]. intros t Ht. destruct (U3 t) as (X1 & X2 & X3); [lia|lia|auto].
Qed.

(** * A pass *)
Hypothesis UNIQ : forall i, 0 <= i < N -> t_ i = t_ (N - 1) -> i = N - 1.
Lemma group_safe p q : 0 <= p < N -> 0 <= q < N -> p <> q -> share h p q -> p + h < N.
Proof.
  intros Hp Hq Ne S. destruct (S (h - 1) ltac:(lia)) as (A & B & C).
  destruct (Z.eq_dec (p + (h - 1)) (N - 1)) as [E|E]; [|lia].
  rewrite E in C. symmetry in C. apply UNIQ in C; lia.
Qed.
Definition passing (single : Prop) (i c : Z) (s : qs) (pm : Z -> Z) : Prop :=
  good pm (qgr s) h /\ size (qsa s) = N /\ 0 <= c <= i /\ i <= N /\
  blk (qsa s) pm (qgr s) 0 (i - c) /\
  (0 < c -> at_ (qsa s) (i - c) = - c /\ forall t, i - c <= t < i -> at_ (qgr s) (pm t) = t) /\
  blk (qsa s) pm (qgr s) i N /\
  (forall t u, 0 <= t < i -> 0 <= u < N -> t <> u -> at_ (qgr s) (pm t) = at_ (qgr s) (pm u) -> share (2 * h) (pm t) (pm u)) /\
  (forall t, 0 <= t < i -> at_ (qgr s) (pm t) < i) /\
  (single -> c = i /\ forall t, 0 <= t < N -> at_ (qgr s) (pm t) = t).
Lemma blk_close sa pm g i c : 0 <= c -> blk sa pm g 0 (i - c) -> (0 < c -> at_ sa (i - c) = - c /\ forall t, i - c <= t < i -> at_ g (pm t) = t) ->
  blk sa pm g 0 i.
Proof.
  intros C B R. destruct (Z.eq_dec c 0) as [->|Ne]; [rewrite Z.sub_0_r in B; auto|].
  eapply blk_app; [exact B|]. destruct (R ltac:(lia)) as [R1 R2]. apply bl_run with c; [lia|auto| |].
  - intros t Ht. apply R2. lia.
  - replace (i - c + c) with i by lia. constructor.
Qed.
Lemma pass_ok single : forall fuel i c s pm, passing single i c s pm -> N - i <= Z.of_nat fuel ->
  exists s' pm', ds_pass rnd fuel h i c s = Some s' /\
    good pm' (qgr s') (2 * h) /\ size (qsa s') = N /\ blk (qsa s') pm' (qgr s') 0 N /\
    (single -> 0 < N -> at_ (qsa s') 0 = - N).
Proof.
  assert (STOP : forall i c s pm, passing single i c s pm -> N <= i -> exists pm', good pm' (qgr s) (2 * h) /\ size (qsa s) = N /\ blk (qsa s) pm' (qgr s) 0 N /\
    (single -> 0 < N -> at_ (qsa s) 0 = - N)).
  { intros i c s pm (G & SS & Hc & Hi & B1 & Rn & B2 & D2 & Lo & Sg) C. assert (i = N) as -> by lia. exists pm. split; [|split; [auto|split]].
    - destruct G as [G1 G2 G3 G4 G5 G6 G7]. constructor; auto. intros p q Hp Hq Ne E.
      destruct (inj_surj pm N G2 G3 p Hp) as (t & Ht & <-). destruct (inj_surj pm N G2 G3 q Hq) as (u & Hu & <-).
      apply D2; auto. intros ->. auto.
    - eapply blk_close; eauto. lia.
    - intros X HN. destruct (Sg X) as [-> _]. destruct (Rn HN) as [R1 _]. rewrite Z.sub_diag in R1. auto. }
  induction fuel as [|f IH]; intros i c s pm P F.
  - cbn [ds_pass]. pose proof P as (_ & SS & _). rewrite SS. destruct (Z.leb_spec N i); [|lia].
    destruct (STOP _ _ _ _ P ltac:(lia)) as (pm' & X). exists s, pm'. auto.
  - cbn [ds_pass]. pose proof P as (G & SS & Hc & Hi & B1 & Rn & B2 & D2 & Lo & Sg). rewrite SS.
    destruct (Z.leb_spec N i) as [C|C].
    { destruct (STOP _ _ _ _ P ltac:(lia)) as (pm' & X). exists s, pm'. auto. }
    rewrite get_some by lia. cbn [bind].
    inversion B2 as [a Ea Eb|a b k K E R B Ea Eb|a b e L E B Ea Eb]; subst; [lia| |].
    + (* a sorted run *)
      pose proof (blk_le _ _ _ _ _ B) as Le. rewrite E. destruct (Z.ltb_spec (- k) 0); [|lia].
      replace (- - k) with k by lia. replace (i + k - (c + k)) with (i - c) by lia.
      destruct (put_some (qsa s) (i - c) (- (c + k))) as (a' & -> & Sa & Aa); [lia|]. cbn [bind].
      apply (IH (i + k) (c + k) (set_sa s a') pm); [|lia].
      unfold passing, set_sa. cbn [qsa qgr]. split; [auto|]. split; [lia|]. split; [lia|]. split; [lia|].
      replace (i + k - (c + k)) with (i - c) by lia.
      split; [|split; [|split; [|split; [|split]]]].
      * eapply blk_ext; [exact B1|]. intros t Ht. rewrite Aa by lia. destruct (Z.eqb_spec t (i - c)); [lia|auto].
      * intros _. split; [rewrite Aa by lia; rewrite Z.eqb_refl; auto|].
        intros t Ht. destruct (Z_lt_le_dec t i); [apply Rn; lia|apply R; lia].
      * eapply blk_ext; [exact B|]. intros t Ht. rewrite Aa by lia. destruct (Z.eqb_spec t (i - c)); [lia|auto].
      * intros t u Ht Hu Ne C'. destruct (Z_lt_le_dec t i) as [Q|Q]; [apply D2; auto; lia|]. exfalso.
        rewrite R in C' by lia. destruct (Z_lt_le_dec u i); [pose proof (Lo u ltac:(lia)); lia|].
        destruct (Z_lt_le_dec u (i + k)); [rewrite R in C' by lia; lia|]. pose proof (gd_end _ _ _ G u Hu). lia.
      * intros t Ht. destruct (Z_lt_le_dec t i); [pose proof (Lo t ltac:(lia)); lia|]. rewrite R by lia. lia.
      * intros X. destruct (Sg X). split; [lia|auto].
    + (* a group *)
      pose proof (blk_le _ _ _ _ _ B) as Le. destruct (E i ltac:(lia)) as [E1 E2]. rewrite E1.
      pose proof (gd_rng _ _ _ G i ltac:(lia)) as Rg. pose proof (gd_size _ _ _ G) as Sz.
      destruct (Z.ltb_spec (pm i) 0); [lia|]. rewrite get_some by lia. cbn [bind]. rewrite E2.
      destruct (tqs_ok (length (qsa s)) i e e s pm) as (s' & pm' & -> & G' & SS' & O' & L' & D' & B').
      { unfold pre. split; [auto|]. split; [auto|]. split; [lia|]. split; [lia|]. split; [lia|]. split; [|split; [|split; [|split]]].
        - intros t Ht. apply Lo. lia.
        - intros t Ht. apply E. auto.
        - intros t Ht. apply E. auto.
        - intros t Ht. set (u := if t =? i then i + 1 else i).
          assert (i <= u <= e /\ u <> t) as [Hu Nu] by (unfold u; destruct (Z.eqb_spec t i); lia).
          pose proof (gd_rng _ _ _ G t ltac:(lia)). pose proof (gd_rng _ _ _ G u ltac:(lia)).
          assert (pm t <> pm u) by (intros X; apply (gd_inj _ _ _ G) in X; lia).
          apply group_safe with (pm u); auto. apply (gd_shr _ _ _ G); auto.
          rewrite (proj2 (E t Ht)), (proj2 (E u Hu)). auto.
        - intros; lia. }
      { unfold size in SS. lia. }
      cbn [bind]. apply (IH (e + 1) 0 s' pm'); [|lia].
      unfold passing. split; [auto|]. split; [auto|]. split; [lia|]. split; [lia|]. rewrite Z.sub_0_r.
      split; [|split; [|split; [|split; [|split]]]].
      * apply blk_app with i; [|exact B']. apply blk_ext with (qsa s) pm (qgr s); [apply blk_close with c; [lia|auto|auto]|].
        intros t Ht. destruct (O' t) as (X1 & X2 & X3); [lia|lia|auto].
      * lia.
      * eapply blk_ext; [exact B|]. intros t Ht. destruct (O' t) as (X1 & X2 & X3); [lia|lia|auto].
      * intros t u Ht Hu Ne C'. destruct (Z_lt_le_dec t i) as [Q|Q]; [|apply D'; auto; lia].
        destruct (O' t) as (X1 & X2 & X3); [lia|lia|]. rewrite X3 in C'. pose proof (Lo t ltac:(lia)).
        assert (~ (i <= u <= e)) as Nu by (intros X; pose proof (gd_end _ _ _ G' u Hu); lia).
        destruct (O' u) as (Y1 & Y2 & Y3); [lia|lia|]. rewrite Y3 in C'. rewrite X1, Y1. apply D2; auto. lia.
      * intros t Ht. destruct (Z_lt_le_dec t i) as [Q|Q]; [|pose proof (L' t ltac:(lia)); lia].
        destruct (O' t) as (_ & _ & ->); [lia|lia|]. pose proof (Lo t ltac:(lia)). lia.
      * intros X. destruct (Sg X) as [_ Y]. rewrite (Y i) in E2 by lia. lia.
Qed.
End Sort.

(** * Doubling *)
Hypothesis UNIQ : forall i, 0 <= i < N -> t_ i = t_ (N - 1) -> i = N - 1.
Hypothesis NPOS : 0 < N.
Definition sorted_state (s : qs) (pm : Z -> Z) : Prop :=
  size (qsa s) = N /\ size (qgr s) = N /\
  (forall i, 0 <= i < N -> 0 <= pm i < N) /\ (forall i j, 0 <= i < N -> 0 <= j < N -> pm i = pm j -> i = j) /\
  (forall i, 0 <= i < N -> at_ (qgr s) (pm i) = i) /\
  (forall i j, 0 <= i -> i < j -> j < N -> sl (pm i) (pm j)).
Lemma doubling_ok rnd : forall fuel h s pm, 0 < h -> good pm (qgr s) h -> size (qsa s) = N -> blk (qsa s) pm (qgr s) 0 N ->
  (at_ (qsa s) 0 = - N \/ (1 <= Z.of_nat fuel /\ N - h + 1 <= Z.of_nat fuel)) ->
  exists s' pm', PrefixDoublingSort rnd fuel h s = Some s' /\ sorted_state s' pm'.
Proof.
  induction fuel as [|f IH]; intros h s pm Hh G SS B F.
  - cbn [PrefixDoublingSort]. rewrite get_some by lia. cbn [bind]. destruct F as [F|F]; [|lia].
    rewrite F, SS, Z.eqb_refl. exists s, pm. split; [auto|].
    assert (E : forall i, 0 <= i < N -> at_ (qgr s) (pm i) = i).
    { inversion B as [a Ea Eb|a b k K E R B' Ea Eb|a b e L E B' Ea Eb]; subst; [lia| |].
      - intros i Hi. apply R. lia.
      - destruct (E 0 ltac:(lia)) as [E1 _]. pose proof (gd_rng _ _ _ G 0 ltac:(lia)). lia. }
    destruct G as [G1 G2 G3 G4 G5 G6 G7]. repeat split; auto; try apply G2; auto.
    intros i j Hi Hj Hn. apply G6; try apply G2; try lia. rewrite !E by lia. lia.
  - cbn [PrefixDoublingSort]. rewrite get_some by lia. cbn [bind]. rewrite SS.
    destruct (Z.eqb_spec (at_ (qsa s) 0) (- N)) as [E0|E0].
    { exists s, pm. split; [auto|].
      assert (E : forall i, 0 <= i < N -> at_ (qgr s) (pm i) = i).
      { inversion B as [a Ea Eb|a b k K E R B' Ea Eb|a b e L E B' Ea Eb]; subst; [lia| |].
        - intros i Hi. apply R. lia.
        - destruct (E 0 ltac:(lia)) as [E1 _]. pose proof (gd_rng _ _ _ G 0 ltac:(lia)). lia. }
      destruct G as [G1 G2 G3 G4 G5 G6 G7]. repeat split; auto; try apply G2; auto.
      intros i j Hi Hj Hn. apply G6; try apply G2; try lia. rewrite !E by lia. lia. }
    destruct F as [F|[F1 F2]]; [lia|].
    destruct (pass_ok rnd h Hh UNIQ (N <= h) (length (qsa s)) 0 0 s pm) as (s' & pm' & -> & G' & SS' & B' & Sg).
    + unfold passing. split; [auto|]. split; [auto|]. split; [lia|]. split; [lia|]. split; [constructor|]. split; [lia|]. split; [auto|].
      split; [intros; lia|]. split; [intros; lia|]. intros X. split; [auto|]. intros t Ht.
      pose proof (gd_end _ _ _ G t Ht) as Et. destruct (Z.eq_dec (at_ (qgr s) (pm t)) t) as [|Ne]; [auto|]. exfalso.
      set (u := at_ (qgr s) (pm t)) in *. pose proof (gd_grp _ _ _ G t u Ht ltac:(lia)) as E. fold u in E.
      assert (S : share h (pm t) (pm u)).
      { apply (gd_shr _ _ _ G); try (apply (gd_rng _ _ _ G); lia); [|auto]. intros C. apply (gd_inj _ _ _ G) in C; lia. }
      destruct (S (N - 1) ltac:(lia)) as (S1 & S2 & _).
      pose proof (gd_rng _ _ _ G t Ht). pose proof (gd_rng _ _ _ G u ltac:(lia)).
      assert (pm t = pm u) as C by lia. apply (gd_inj _ _ _ G) in C; lia.
    + unfold size in SS. lia.
    + cbn [bind]. rewrite (Z.mul_comm h 2). apply (IH (2 * h) s' pm'); auto; [lia|].
      destruct (Z_le_dec N h) as [Q|Q]; [left; apply Sg; auto|right; lia].
Qed.
End Text.
