(** The dynamic program computes the string subsequence kernel. *)
From Coq Require Import Bool List Arith Reals Lia Lra.
From Verif Require Import Ssk SskSpec.
Import ListNotations.
Local Open Scope nat_scope.

Lemma loop_inv {S} (I : nat -> S -> Prop) (f : nat -> S -> option S) n : forall from st, I from st ->
  (forall i st, from <= i < from + n -> I i st -> exists st', f i st = Some st' /\ I (Datatypes.S i) st') ->
  exists st', loop n from f st = Some st' /\ I (from + n) st'.
Proof.
  induction n as [|n IH]; intros from st H0 Hs; cbn.
  - exists st. rewrite Nat.add_0_r. auto.
  - destruct (Hs from st ltac:(lia) H0) as (st1 & -> & H1). destruct (IH (Datatypes.S from) st1 H1) as (st' & E & H').
    + intros i x Hi. apply Hs. lia.
    + exists st'. rewrite E. split; auto. replace (from + Datatypes.S n) with (Datatypes.S from + n) by lia. auto.
Qed.

(** Sums. *)
Lemma sum_cons {A} (h : A -> R) a l : sum h (a :: l) = (h a + sum h l)%R.
Proof. reflexivity. Qed.
Lemma sum_nil {A} (h : A -> R) : sum h [] = 0%R.
Proof. reflexivity. Qed.
Lemma sum_app {A} (h : A -> R) l l' : sum h (l ++ l') = (sum h l + sum h l')%R.
Proof. induction l as [|a l IH]; cbn [app]; rewrite ?sum_cons, ?sum_nil; [lra|]. rewrite IH. lra. Qed.
Lemma sum_ext {A} (h h' : A -> R) l : (forall x, In x l -> h x = h' x) -> sum h l = sum h' l.
Proof.
  induction l as [|a l IH]; intro H; [reflexivity|]. rewrite !sum_cons. rewrite (H a) by now left. f_equal. apply IH. intros; apply H; now right.
Qed.
Lemma sum_map {A B} (f : A -> B) (h : B -> R) l : sum h (map f l) = sum (fun x => h (f x)) l.
Proof. induction l as [|a l IH]; [reflexivity|]. cbn [map]. rewrite !sum_cons, IH. reflexivity. Qed.
Lemma sum_plus {A} (h h' : A -> R) l : sum (fun x => h x + h' x)%R l = (sum h l + sum h' l)%R.
Proof. induction l as [|a l IH]; rewrite ?sum_cons, ?sum_nil; [lra|]. rewrite IH. lra. Qed.
Lemma sum_scale {A} c (h : A -> R) l : sum (fun x => c * h x)%R l = (c * sum h l)%R.
Proof. induction l as [|a l IH]; rewrite ?sum_cons, ?sum_nil; [lra|]. rewrite IH. lra. Qed.
Lemma sum_zero {A} (h : A -> R) l : (forall x, In x l -> h x = 0%R) -> sum h l = 0%R.
Proof. induction l as [|a l IH]; intro H; [reflexivity|]. rewrite sum_cons, (H a) by now left. rewrite IH; [lra|]. intros; apply H; now right. Qed.
Lemma sum_flat {A B} (f : A -> list B) (h : B -> R) l : sum h (flat_map f l) = sum (fun x => sum h (f x)) l.
Proof. induction l as [|a l IH]; [reflexivity|]. cbn [flat_map]. rewrite sum_app, sum_cons, IH. reflexivity. Qed.
Lemma sum_swap {A B} (h : A -> B -> R) l l' : sum (fun x => sum (h x) l') l = sum (fun y => sum (fun x => h x y) l) l'.
Proof.
  induction l as [|a l IH].
  - rewrite sum_nil. symmetry. apply sum_zero. reflexivity.
  - rewrite sum_cons, IH. rewrite <- sum_plus. apply sum_ext. intros. rewrite sum_cons. reflexivity.
Qed.
Lemma sum_seq_S (h : nat -> R) n : sum h (seq 0 (S n)) = (sum h (seq 0 n) + h n)%R.
Proof. rewrite seq_S, sum_app, sum_cons, sum_nil, Nat.add_0_l. lra. Qed.

(** Choices, by their last member. *)
Lemma choose_0 l : choose 0 l = [[]].
Proof. destruct l; reflexivity. Qed.
Lemma choose_snoc (x : nat) l : forall n (h : list nat -> R),
  sum h (choose (S n) (l ++ [x])) = (sum h (choose (S n) l) + sum (fun I => h (I ++ [x])) (choose n l))%R.
Proof.
  induction l as [|y l IH]; intros n h.
  - cbn. destruct n; cbn; unfold sum; cbn; lra.
  - cbn [app]. change (choose (S n) (y :: l ++ [x])) with (map (cons y) (choose n (l ++ [x])) ++ choose (S n) (l ++ [x])).
    change (choose (S n) (y :: l)) with (map (cons y) (choose n l) ++ choose (S n) l). rewrite !sum_app, !sum_map, IH.
    destruct n as [|n].
    + rewrite !choose_0. unfold sum. cbn. lra.
    + rewrite IH. change (choose (S n) (y :: l)) with (map (cons y) (choose n l) ++ choose (S n) l). rewrite sum_app, sum_map. cbn [app]. lra.
Qed.
Lemma choose_seq_S n m (h : list nat -> R) :
  sum h (choose (S n) (seq 0 (S m))) = (sum h (choose (S n) (seq 0 m)) + sum (fun I => h (I ++ [m])) (choose n (seq 0 m)))%R.
Proof. rewrite seq_S. apply choose_snoc. Qed.
Lemma choose_len l : forall n I, In I (choose n l) -> length I = n.
Proof.
  induction l as [|x l IH]; intros [|n] I H.
  - destruct H as [<- |[]]. reflexivity.
  - destruct H.
  - destruct H as [<- |[]]. reflexivity.
  - cbn in H. apply in_app_or in H. destruct H as [H|H]; [|now apply IH].
    apply in_map_iff in H. destruct H as (I' & <- & H). cbn. f_equal. now apply IH.
Qed.
Lemma choose_in l : forall n I, In I (choose n l) -> incl I l.
Proof.
  induction l as [|x l IH]; intros [|n] I H.
  - destruct H as [<- |[]]. intros ? [].
  - destruct H.
  - destruct H as [<- |[]]. intros ? [].
  - cbn in H. apply in_app_or in H. destruct H as [H|H].
    + apply in_map_iff in H. destruct H as (I' & <- & H). apply IH in H. intros y [<- |Hy]; [now left|right; auto].
    + apply IH in H. intros y Hy. right. auto.
Qed.
Lemma choose_lt n m I : In I (choose n (seq 0 m)) -> Forall (fun i => i < m) I.
Proof. intro H. apply Forall_forall. intros i Hi. apply choose_in in H. apply H, in_seq in Hi. lia. Qed.

Lemma same_words_snoc u v a b : length u = length v -> same_words (u ++ [a]) (v ++ [b]) = same_words u v && (a =? b).
Proof.
  intro L. unfold same_words. destruct (Nat.eqb_spec a b) as [->|Hn].
  - destruct (list_eq_dec Nat.eq_dec u v) as [->|H].
    + destruct (list_eq_dec _ _ _); [reflexivity|congruence].
    + destruct (list_eq_dec _ _ _) as [E|]; [|reflexivity]. apply app_inv_tail in E. congruence.
  - rewrite andb_false_r. destruct (list_eq_dec _ _ _) as [E|]; [|reflexivity]. exfalso. apply app_inj_tail in E. tauto.
Qed.

Lemma same_refl u : same_words u u = true.
Proof. unfold same_words. destruct (list_eq_dec _ u u); [reflexivity|congruence]. Qed.

Section K.
Variables (N : nat) (lam : R) (s t : list nat).
(** From the first place to the end of the prefix. *)
Definition ext (I : list nat) (j : nat) : nat := match I with [] => 0 | x :: _ => j - x end.
Definition term (j k : nat) (I J : list nat) : R :=
  if same_words (words s I) (words t J) then (lam ^ (ext I j + ext J k))%R else 0%R.
Definition K' (i j k : nat) : R := sum (fun I => sum (term j k I) (choose i (seq 0 k))) (choose i (seq 0 j)).
Definition K'' (i j k : nat) : R := sum (fun I => sum (fun J => term (S j) k (I ++ [j]) J) (choose (S i) (seq 0 k))) (choose i (seq 0 j)).
Definition ind (j k : nat) : R := if nth j s 0 =? nth k t 0 then 1%R else 0%R.

Lemma ext_S I j : Forall (fun i => i < j) I -> I <> [] -> ext I (S j) = S (ext I j).
Proof. intros H Hn. destruct I as [|x I]; [congruence|]. inversion H; subst. cbn [ext]. lia. Qed.
Lemma ext_snoc I j : Forall (fun i => i < j) I -> ext (I ++ [j]) (S j) = S (ext I j).
Proof. intros H. destruct I as [|x I]; cbn [ext app]; [lia|]. inversion H; subst. lia. Qed.
Lemma ext_snoc' I j k : ext (I ++ [j]) (S k) = match I with [] => S k - j | x :: _ => S k - x end.
Proof. destruct I; reflexivity. Qed.
Lemma len_S n m I : In I (choose (S n) (seq 0 m)) -> I <> [].
Proof. intros H ->. apply choose_len in H. discriminate. Qed.
Lemma words_snoc l I x : words l (I ++ [x]) = words l I ++ [nth x l 0].
Proof. unfold words. rewrite map_app. reflexivity. Qed.

Lemma K'_0 j k : K' 0 j k = 1%R.
Proof. unfold K'. rewrite !choose_0. rewrite !sum_cons, !sum_nil. unfold term. cbn [words map ext Nat.add pow]. rewrite same_refl. lra. Qed.
Lemma K'_j0 i k : K' (S i) 0 k = 0%R.
Proof. reflexivity. Qed.
Lemma K'_k0 i j : K' (S i) j 0 = 0%R.
Proof. unfold K'. apply sum_zero. reflexivity. Qed.
Lemma K''_k0 i j : K'' i j 0 = 0%R.
Proof. unfold K''. apply sum_zero. reflexivity. Qed.
Lemma K'_S i j k : K' (S i) (S j) (S k) = (lam * K' (S i) j (S k) + K'' i j (S k))%R.
Proof.
  unfold K' at 1. rewrite choose_seq_S. f_equal.
  unfold K'. rewrite <- sum_scale. apply sum_ext. intros I HI. rewrite <- sum_scale. apply sum_ext. intros J HJ.
  unfold term. destruct (same_words _ _); [|lra]. rewrite ext_S by (eauto using choose_lt, len_S). cbn. lra.
Qed.
Lemma K''_S i j k : K'' i j (S k) = (lam * (K'' i j k + lam * ind j k * K' i j k))%R.
Proof.
  unfold K'' at 1. rewrite (sum_ext _ (fun I => lam * sum (fun J => term (S j) k (I ++ [j]) J) (choose (S i) (seq 0 k)) + lam * (lam * ind j k) * sum (term j k I) (choose i (seq 0 k)))%R).
  - rewrite sum_plus, !sum_scale. unfold K'', K'. lra.
  - intros I HI. rewrite choose_seq_S. f_equal.
    + rewrite <- sum_scale. apply sum_ext. intros J HJ. unfold term. destruct (same_words _ _); [|lra].
      rewrite (ext_S J) by (eauto using choose_lt, len_S). rewrite Nat.add_succ_r. cbn. lra.
    + rewrite <- sum_scale. apply sum_ext. intros J HJ. unfold term. rewrite !words_snoc.
      rewrite same_words_snoc by (unfold words; rewrite !map_length; apply choose_len in HI; apply choose_len in HJ; congruence).
      unfold ind. destruct (same_words _ _); cbn [andb]; [|destruct (_ =? _); lra]. destruct (_ =? _); [|lra].
      rewrite !ext_snoc by (eauto using choose_lt). rewrite Nat.add_succ_r. cbn. lra.
Qed.

Notation m := (length s).
Notation n := (length t).
Definition dims (a : arr) : Prop := d1 a = N + 1 /\ d2 a = m + 1 /\ d3 a = n + 1.
Definition layer0 (a : arr) : Prop := forall j k, elt a 0 j k = if (j <? m) && (k <? n) then 1%R else 0%R.
Lemma eq_at_ind j k : j < m -> k < n -> eq_at s t j k = Some (ind j k).
Proof.
  intros Hj Hk. unfold eq_at, ind. rewrite (nth_error_nth' s 0 Hj), (nth_error_nth' t 0 Hk). reflexivity.
Qed.
Lemma inb_ok a i j k : dims a -> i <= N -> j <= m -> k <= n -> inb a i j k = true.
Proof. intros (E1 & E2 & E3) ? ? ?. unfold inb. rewrite E1, E2, E3. rewrite !(proj2 (Nat.ltb_lt _ _)) by lia. reflexivity. Qed.
Lemma rd_ok a i j k : dims a -> i <= N -> j <= m -> k <= n -> rd a i j k = Some (elt a i j k).
Proof. intros. unfold rd. rewrite inb_ok; auto. Qed.
Lemma wr_ok a i j k x : dims a -> i <= N -> j <= m -> k <= n -> exists a', wr a i j k x = Some a' /\ dims a' /\
  forall i' j' k', elt a' i' j' k' = if (i' =? i) && (j' =? j) && (k' =? k) then x else elt a i' j' k'.
Proof. intros D ? ? ?. unfold wr. rewrite inb_ok; auto. eexists. split; [reflexivity|]. split; [exact D|reflexivity]. Qed.

Lemma ones_ok a : dims a -> (forall i j k, elt a i j k = 0%R) -> exists a', ones s t a = Some a' /\ dims a' /\
  forall i j k, elt a' i j k = if (i =? 0) && (j <? m) && (k <? n) then 1%R else 0%R.
Proof.
  intros D Z. unfold ones.
  destruct (loop_inv (fun J a => dims a /\ forall i j k, elt a i j k = if (i =? 0) && (j <? J) && (k <? n) then 1%R else 0%R)
    (fun j a => loop n 0 (fun k a => wr a 0 j k 1%R) a) m 0 a) as (a' & E & D' & H').
  - split; auto. intros. rewrite Z. rewrite andb_false_r. reflexivity.
  - intros J b HJ (Db & Hb).
    destruct (loop_inv (fun Kk a => dims a /\ forall i j k, elt a i j k = if (i =? 0) && ((j <? J) && (k <? n) || (j =? J) && (k <? Kk)) then 1%R else 0%R)
      (fun k a => wr a 0 J k 1%R) n 0 b) as (b' & E & Db' & Hb').
    + split; auto. intros. rewrite Hb. rewrite andb_false_r, orb_false_r, andb_assoc. reflexivity.
    + intros k c Hk (Dc & Hc). destruct (wr_ok c 0 J k 1%R Dc) as (c' & E & Dc' & Hc'); try lia. exists c'. split; auto. split; auto.
      intros i' j' k'. rewrite Hc', Hc. destruct (Nat.eqb_spec i' 0); cbn [andb]; [|reflexivity].
      destruct (Nat.eqb_spec j' J); cbn [andb]; [subst j'|rewrite !orb_false_r; reflexivity].
      rewrite Nat.ltb_irrefl. cbn [andb orb]. destruct (Nat.eqb_spec k' k), (Nat.ltb_spec k' k), (Nat.ltb_spec k' (S k)); try lia; reflexivity.
    + exists b'. split; auto. split; auto. intros i j k. rewrite Hb'. rewrite Nat.add_0_l. destruct (i =? 0); cbn [andb]; [|reflexivity].
      destruct (Nat.ltb_spec j J), (Nat.eqb_spec j J), (Nat.ltb_spec j (S J)); try lia; cbn [andb orb]; rewrite ?orb_false_r; reflexivity.
  - exists a'. auto.
Qed.

(** What is filled in: rows of layer [i + 1] up to [j], and row [j + 1] up to [k]. *)
Definition Filled (i j k : nat) (a : arr) : Prop := dims a /\ forall i' j' k', i' <= N -> j' <= m -> k' <= n ->
  elt a i' j' k' =
    if i' =? 0 then (if (j' <? m) && (k' <? n) then 1 else 0)%R
    else if (i' <=? i) || ((i' =? S i) && ((j' <=? j) || ((j' =? S j) && (k' <=? k)))) then K' i' j' k' else 0%R.
Lemma filled_get i j k a : Filled i j k a -> i < N -> j < m -> k < n -> elt a i j k = K' i j k.
Proof.
  intros (_ & H) Hi Hj Hk. rewrite H by lia. destruct (Nat.eqb_spec i 0) as [->|].
  - rewrite K'_0. rewrite !(proj2 (Nat.ltb_lt _ _)) by auto. reflexivity.
  - rewrite (proj2 (Nat.leb_le i i)) by auto. reflexivity.
Qed.
Ltac bools := repeat match goal with
  | |- context [?a =? ?b] => destruct (Nat.eqb_spec a b); try lia
  | |- context [?a <=? ?b] => destruct (Nat.leb_spec a b); try lia
  | |- context [?a <? ?b] => destruct (Nat.ltb_spec a b); try lia end.
Lemma K'_edge i j k : i <> 0 -> j = 0 \/ k = 0 -> K' i j k = 0%R.
Proof. destruct i; [congruence|]. intros _ [->| ->]; [apply K'_j0|apply K'_k0]. Qed.

Lemma fill_ok a : dims a -> (forall i j k, elt a i j k = if (i =? 0) && (j <? m) && (k <? n) then 1%R else 0%R) ->
  exists a', fill N lam s t a = Some a' /\ dims a' /\ forall i j k, i < N -> j < m -> k < n -> elt a' i j k = K' i j k.
Proof.
  intros D H0. unfold fill.
  destruct (loop_inv (fun i a => Filled i 0 0 a) (fun i a => loop m 0 (fun j a =>
    match loop n 0 (inner lam s t i j) (0%R, a) with Some (_, a') => Some a' | None => None end) a) N 0 a) as (a' & E & D' & H').
  - split; auto. intros i j k _ _ _. rewrite H0. destruct (Nat.eqb_spec i 0) as [->|Hi]; [reflexivity|]. cbn [andb].
    bools; cbn [andb orb]; try reflexivity; symmetry; apply K'_edge; auto; lia.
  - intros i b Hi Fb.
    destruct (loop_inv (fun j a => Filled i j 0 a) (fun j a =>
      match loop n 0 (inner lam s t i j) (0%R, a) with Some (_, a') => Some a' | None => None end) m 0 b) as (b' & E & Fb'); auto.
    + intros j c Hj Fc.
      destruct (loop_inv (fun k st => fst st = K'' i j k /\ Filled i j k (snd st)) (inner lam s t i j) n 0 (0%R, c)) as ((kpp & c') & E & _ & Fc').
      * cbn. rewrite K''_k0. auto.
      * intros k (kpp & d) Hk (Ek & Fd). cbn [fst snd] in *. unfold inner. rewrite eq_at_ind by lia.
        pose proof (proj1 Fd) as Dd. rewrite rd_ok by (auto; lia). rewrite (filled_get i j k d) by (auto; lia). rewrite rd_ok by (auto; lia). cbv zeta.
        destruct (wr_ok d (S i) (S j) (S k) (lam * elt d (S i) j (S k) + lam * (kpp + lam * ind j k * K' i j k))%R Dd) as (d' & E & Dd' & Hd'); try lia.
        rewrite E. eexists. split; [reflexivity|]. cbn [fst snd]. rewrite K''_S, Ek. split; auto. split; auto.
        intros i' j' k' Hi' Hj' Hk'. rewrite Hd'. destruct Fd as (_ & Hd). rewrite !Hd by lia.
        destruct ((i' =? S i) && (j' =? S j) && (k' =? S k)) eqn:EQ.
        -- apply andb_prop in EQ. destruct EQ as (EQ & E3). apply andb_prop in EQ. destruct EQ as (E1 & E2).
           apply Nat.eqb_eq in E1. apply Nat.eqb_eq in E2. apply Nat.eqb_eq in E3. subst i' j' k'. rewrite Ek.
           bools; cbn [andb orb]; rewrite K'_S, K''_S; reflexivity.
        -- revert EQ. bools; cbn [andb orb]; intro; try reflexivity; try discriminate; try (exfalso; subst; lia).
      * rewrite E. exists c'. split; auto. destruct Fc' as (Dc' & Hc'). split; auto. intros i' j' k' Hi' Hj' Hk'. rewrite Hc' by auto.
        bools; cbn [andb orb]; try reflexivity; subst; symmetry; apply K'_edge; lia.
    + exists b'. split; auto. destruct Fb' as (Db' & Hb'). split; auto. intros i' j' k' Hi' Hj' Hk'. rewrite Hb' by auto.
      bools; cbn [andb orb]; try reflexivity; subst; symmetry; apply K'_edge; lia.
  - exists a'. split; auto. split; auto. intros i j k Hi Hj Hk. rewrite H' by lia. destruct (Nat.eqb_spec i 0) as [->|].
    + rewrite K'_0. rewrite !(proj2 (Nat.ltb_lt _ _)) by auto. reflexivity.
    + rewrite (proj2 (Nat.leb_le i (0 + N))) by lia. reflexivity.
Qed.

Lemma gather_ok a : dims a -> (forall i j k, i < N -> j < m -> k < n -> elt a i j k = K' i j k) ->
  gather N lam s t a = Some (sum (fun i => sum (fun j => sum (fun k => lam * lam * ind j k * K' i j k)%R (seq 0 n)) (seq 0 m)) (seq 0 N)).
Proof.
  intros D H. unfold gather.
  destruct (loop_inv (fun i kn => kn = sum (fun i => sum (fun j => sum (fun k => lam * lam * ind j k * K' i j k)%R (seq 0 n)) (seq 0 m)) (seq 0 i))
    (fun i kn => loop m 0 (fun j kn => loop n 0 (fun k kn =>
    match eq_at s t j k, rd a i j k with Some e, Some x => Some (kn + lam * lam * e * x)%R | _, _ => None end) kn) kn) N 0 0%R) as (r & E & Hr).
  - reflexivity.
  - intros i kn Hi ->. set (base := sum _ (seq 0 i)).
    destruct (loop_inv (fun j kn => kn = (base + sum (fun j => sum (fun k => lam * lam * ind j k * K' i j k)%R (seq 0 n)) (seq 0 j))%R)
      (fun j kn => loop n 0 (fun k kn =>
    match eq_at s t j k, rd a i j k with Some e, Some x => Some (kn + lam * lam * e * x)%R | _, _ => None end) kn) m 0 base) as (r & E & Hr).
    + cbn [seq]. rewrite sum_nil. lra.
    + intros j kn Hj ->. set (base2 := (base + _)%R).
      destruct (loop_inv (fun k kn => kn = (base2 + sum (fun k => lam * lam * ind j k * K' i j k)%R (seq 0 k))%R) (fun k kn =>
        match eq_at s t j k, rd a i j k with Some e, Some x => Some (kn + lam * lam * e * x)%R | _, _ => None end) n 0 base2) as (r & E & Hr).
      * cbn [seq]. rewrite sum_nil. lra.
      * intros k kn Hk ->. rewrite eq_at_ind by lia. rewrite rd_ok by (auto; lia). eexists. split; [reflexivity|]. rewrite H by lia. rewrite sum_seq_S. lra.
      * exists r. split; auto. rewrite Hr. unfold base2. rewrite sum_seq_S. cbn [Nat.add]. lra.
    + exists r. split; auto. rewrite Hr. unfold base. rewrite sum_seq_S. reflexivity.
  - rewrite E, Hr. reflexivity.
Qed.

(** The subsequences of a given length, by their last places. *)
Lemma span_snoc I j : Forall (fun i => i < j) I -> span (I ++ [j]) = S (ext I j).
Proof.
  intro H. unfold span. rewrite last_last. destruct I as [|x I]; cbn [app hd ext]; [lia|]. inversion H; subst. lia.
Qed.
Lemma sum_last i l (h : list nat -> R) : sum h (choose (S i) (seq 0 l)) = sum (fun j => sum (fun I => h (I ++ [j])) (choose i (seq 0 j))) (seq 0 l).
Proof.
  induction l as [|l IH]; [reflexivity|]. rewrite choose_seq_S, sum_seq_S, IH. reflexivity.
Qed.
Definition kernel_n (i : nat) : R := sum (fun I => sum (fun J => if same_words (words s I) (words t J) then lam ^ (span I + span J) else 0)%R
    (choose i (seq 0 n))) (choose i (seq 0 m)).
Lemma kernel_n_ok i : kernel_n (S i) = sum (fun j => sum (fun k => lam * lam * ind j k * K' i j k)%R (seq 0 n)) (seq 0 m).
Proof.
  unfold kernel_n. rewrite sum_last. apply sum_ext. intros j Hj.
  rewrite (sum_ext _ (fun I => sum (fun k => sum (fun J => lam * lam * ind j k * term j k I J)%R (choose i (seq 0 k))) (seq 0 n))).
  - rewrite sum_swap. apply sum_ext. intros k Hk. unfold K'. rewrite <- sum_scale. apply sum_ext. intros I HI. rewrite <- sum_scale. reflexivity.
  - intros I HI. rewrite sum_last. apply sum_ext. intros k Hk. apply sum_ext. intros J HJ. rewrite !words_snoc.
    rewrite same_words_snoc by (unfold words; rewrite !map_length; apply choose_len in HI; apply choose_len in HJ; congruence).
    unfold ind, term. destruct (same_words _ _); cbn [andb]; [|destruct (_ =? _); lra]. destruct (_ =? _); [|lra].
    rewrite !span_snoc by (eauto using choose_lt). rewrite Nat.add_succ_r. cbn. lra.
Qed.
Lemma kernel_split : kernel N lam s t = sum kernel_n (seq 1 N).
Proof.
  unfold kernel, places. rewrite sum_flat. apply sum_ext. intros i Hi. unfold kernel_n. apply sum_ext. intros I HI.
  rewrite sum_flat.
  assert (X : forall l, NoDup l -> sum (fun i' => sum (fun J => if same_words (words s I) (words t J) then (lam ^ (span I + span J))%R else 0%R) (choose i' (seq 0 n))) l =
    if in_dec Nat.eq_dec i l then sum (fun J => if same_words (words s I) (words t J) then (lam ^ (span I + span J))%R else 0%R) (choose i (seq 0 n)) else 0%R).
  { induction l as [|i' l IH]; intro ND; [reflexivity|]. inversion ND as [|? ? Hn ND']; subst. rewrite sum_cons, (IH ND').
    destruct (Nat.eq_dec i' i) as [->|Hne].
    - destruct (in_dec Nat.eq_dec i l); [tauto|]. destruct (in_dec Nat.eq_dec i (i :: l)) as [|X]; [lra|exfalso; apply X; now left].
    - rewrite sum_zero.
      + destruct (in_dec Nat.eq_dec i l), (in_dec Nat.eq_dec i (i' :: l)) as [Y|Y]; try lra.
        * exfalso. apply Y. now right.
        * exfalso. destruct Y; [congruence|tauto].
      + intros J HJ. unfold same_words. destruct (list_eq_dec _ _ _) as [E|]; [|reflexivity]. exfalso.
        apply (f_equal (@length nat)) in E. unfold words in E. rewrite !map_length in E. apply choose_len in HI. apply choose_len in HJ. congruence. }
  rewrite X by apply seq_NoDup. destruct (in_dec Nat.eq_dec i (seq 1 N)); [reflexivity|tauto].
Qed.

Theorem ssk_ok : ssk N lam s t = Some (kernel N lam s t).
Proof.
  unfold ssk. set (a0 := {| d1 := N + 1; d2 := m + 1; d3 := n + 1; elt := fun _ _ _ => 0%R |}).
  destruct (ones_ok a0) as (a1 & -> & D1 & H1); [repeat split|reflexivity|].
  destruct (fill_ok a1 D1 H1) as (a2 & -> & D2 & H2). rewrite (gather_ok a2 D2 H2). f_equal.
  rewrite kernel_split. rewrite <- seq_shift, sum_map. apply sum_ext. intros i _. symmetry. apply kernel_n_ok.
Qed.
End K.
