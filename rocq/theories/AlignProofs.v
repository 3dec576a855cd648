(** Specification and proofs for [Align.v]. *)
From Coq Require Import List Arith ZArith Bool Lia Sorted FinFun.
From Verif Require Import Array2D Array2DProofs Align.
Import ListNotations.

Section AL.
Variables W IM : nat.
Notation grid := (arr bool).

(** * Specification *)

(** A grid as the class keeps it: the buffer has width*height cells and that
    product is representable. *)
Definition wf (a : grid) : Prop :=
  width_ a * height_ a < W /\ length (data_ a) = width_ a * height_ a.

(** The link (i,j) is present. *)
Definition link (a : grid) (i j : nat) : Prop := get W a i j = Some true.

Definition max_dims (a b r : grid) : Prop :=
  width_ r = Nat.max (width_ a) (width_ b) /\ height_ r = Nat.max (height_ a) (height_ b).

(** Some link of [r] is in row [i] / column [j]. *)
Definition row_used (r : grid) (i : nat) : Prop := exists j, link r i j.
Definition col_used (r : grid) (j : nat) : Prop := exists i, link r i j.
(** The eight cells around (i,j). *)
Definition adjacent (i j i' j' : nat) : Prop :=
  (i <> i' \/ j <> j') /\ i <= i' + 1 /\ i' <= i + 1 /\ j <= j' + 1 /\ j' <= j + 1.

(** Koehn's conditions for adding a point to a set [S] of links. *)
Definition neither_covered (S : nat -> nat -> Prop) i j : Prop := ~ (exists j', S i j') /\ ~ (exists i', S i' j).
Definition not_both_covered (S : nat -> nat -> Prop) i j : Prop := ~ ((exists j', S i j') /\ (exists i', S i' j)).
Definition growable (S : nat -> nat -> Prop) i j : Prop :=
  not_both_covered S i j /\ exists i' j', adjacent i j i' j' /\ S i' j'.

(** [S] results from [S0] by adding points of [U] one after the other, each
    meeting condition [P] with respect to the set reached so far. *)
Definition plus (S : nat -> nat -> Prop) (l : list (nat * nat)) : nat -> nat -> Prop := fun i j => S i j \/ In (i, j) l.
Definition built (P : (nat -> nat -> Prop) -> nat -> nat -> Prop) (U S0 S : nat -> nat -> Prop) : Prop :=
  exists l, (forall i j, S i j <-> plus S0 l i j) /\
    forall done i j rest, l = done ++ (i, j) :: rest -> U i j /\ P (plus S0 done) i j.

(** Row-major order on points. *)
Definition plt (p q : nat * nat) : Prop := fst p < fst q \/ fst p = fst q /\ snd p < snd q.

(** [ds] is a run of decimal digits (leading zeros allowed) of value [n]. *)
Definition numeral (ds : list nat) (n : nat) : Prop :=
  ds <> [] /\ Forall (fun c => 48 <= c <= 57) ds /\
  fold_left (fun a c => a * 10 + (c - 48)) ds 0 = n.

(** Text listing points "i-j", separated by one or more spaces and followed by
    any number of spaces. *)
Inductive points_text : list (nat * nat) -> list nat -> Prop :=
| pt_nil : points_text [] []
| pt_last : forall i j di dj n, numeral di i -> numeral dj j ->
    points_text [(i, j)] (di ++ [45] ++ dj ++ repeat 32 n)
| pt_cons : forall i j di dj n ps t, numeral di i -> numeral dj j -> ps <> [] -> points_text ps t ->
    points_text ((i, j) :: ps) (di ++ [45] ++ dj ++ repeat 32 (S n) ++ t).

(** The points joined by single spaces, in canonical decimal. *)
Fixpoint pharaoh (ps : list (nat * nat)) : list nat :=
  match ps with
  | [] => []
  | [(i, j)] => show i ++ [45] ++ show j
  | (i, j) :: r => show i ++ [45] ++ show j ++ [32] ++ pharaoh r
  end.

(** * Basic lemmas *)

Lemma foldM_inv {S A} (f : S -> A -> option S) (P : list A -> S -> Prop) l s :
  P [] s ->
  (forall done x rest s, l = done ++ x :: rest -> P done s ->
     exists s', f s x = Some s' /\ P (done ++ [x]) s') ->
  exists s', foldM f l s = Some s' /\ P l s'.
Proof.
  intros H0 Hs.
  assert (G : forall rest done s, l = done ++ rest -> P done s ->
     exists s', foldM f rest s = Some s' /\ P l s').
  { induction rest; intros done s0 E Pd; simpl.
    - rewrite app_nil_r in E. subst. eauto.
    - destruct (Hs done a rest s0 E Pd) as (s1 & E1 & P1). rewrite E1.
      apply (IHrest (done ++ [a])); auto. rewrite <- app_assoc. auto. }
  apply (G l [] s); auto.
Qed.

Lemma in_cells w h i j : In (i, j) (cells w h) <-> i < w /\ j < h.
Proof.
  unfold cells. rewrite in_flat_map. split.
  - intros (i' & Hi & H). apply in_map_iff in H. destruct H as (j' & E & Hj). inversion E; subst.
    apply in_seq in Hi. apply in_seq in Hj. lia.
  - intros [Hi Hj]. exists i. split; [apply in_seq; lia|]. apply in_map_iff. exists j. split; auto. apply in_seq; lia.
Qed.

Lemma in_done {A} (l done rest : list A) x : l = done ++ x :: rest -> In x l.
Proof. intros ->. apply in_or_app. right; left; auto. Qed.

Definition wrep (a : grid) : rep bool W a (mkGrid bool (width_ a) (height_ a) (get W a)) -> wf a.
Proof. intros (E1 & E2 & L & Ld & C). simpl in *. split; auto. Qed.

Lemma rep_of a : wf a -> rep bool W a (mkGrid bool (width_ a) (height_ a) (get W a)).
Proof.
  intros [L Ld]. unfold rep; simpl. repeat split; auto. intros i j [Hi Hj]; simpl in *.
  unfold get, a_get, offset. rewrite (proj2 (Nat.ltb_lt _ _) Hi), (proj2 (Nat.ltb_lt _ _) Hj). simpl.
  pose proof (off_lt i j _ _ Hi Hj).
  rewrite (Nat.mod_small (j * width_ a)) by lia. rewrite Nat.mod_small by lia. auto.
Qed.

Lemma get_in a i j : wf a -> i < width_ a -> j < height_ a -> exists b, get W a i j = Some b.
Proof.
  intros Hw Hi Hj. destruct (get_ok bool W a _ i j (rep_of a Hw)) as [_ N]; [split; auto|].
  simpl in N. destruct (get W a i j); [eauto|congruence].
Qed.
Lemma get_range a i j b : get W a i j = Some b -> i < width_ a /\ j < height_ a.
Proof.
  unfold get, a_get, offset. destruct (Nat.ltb_spec i (width_ a)), (Nat.ltb_spec j (height_ a)); simpl; try discriminate. auto.
Qed.

Lemma set_ok a i j v : wf a -> i < width_ a -> j < height_ a ->
  exists a', set W a i j v = Some a' /\ wf a' /\ width_ a' = width_ a /\ height_ a' = height_ a /\
    forall i' j', get W a' i' j' = if (i =? i') && (j =? j') then Some v else get W a i' j'.
Proof.
  intros Hw Hi Hj. pose proof (rep_of a Hw) as R.
  destruct (aexec_ok bool W a _ (ASet bool i j v) R) as (a' & E & R'); [split; auto|].
  cbn [aexec gexec] in *. exists a'. split; auto.
  pose proof R' as (E1 & E2 & L & Ld & C). cbn [gw gh] in *.
  assert (wf a') by (split; congruence). repeat split; auto; try apply H.
  intros i' j'. destruct (Nat.lt_ge_cases i' (width_ a)) as [Hi'|Hi'];
    [destruct (Nat.lt_ge_cases j' (height_ a)) as [Hj'|Hj']|].
  - destruct (get_ok bool W a' _ i' j' R') as [K _]; [split; auto|]. exact K.
  - unfold get, a_get, offset. rewrite E1, E2. destruct (Nat.ltb_spec j' (height_ a)); [lia|].
    rewrite andb_false_r. destruct (Nat.eqb_spec j j'); [lia|]. rewrite andb_false_r. auto.
  - unfold get, a_get, offset. rewrite E1, E2. destruct (Nat.ltb_spec i' (width_ a)); [lia|].
    simpl. destruct (Nat.eqb_spec i i'); [lia|]. auto.
Qed.

Lemma new_ok w h : w * h < W ->
  let g := a_new bool W w h false in
  wf g /\ width_ g = w /\ height_ g = h /\ forall i j, i < w -> j < h -> get W g i j = Some false.
Proof.
  intros L g. pose proof (rep_new bool W w h false L) as R. fold g in R.
  pose proof R as (E1 & E2 & _ & Ld & C). simpl in *. repeat split; auto.
  intros i j Hi Hj. destruct (get_ok bool W g _ i j R) as [K _]; [split; auto|]. exact K.
Qed.

(** Resizing an empty array. *)
Lemma resize_empty x w h : data_ x = [] -> w * h < W -> a_resize bool W x w h false = a_new bool W w h false.
Proof.
  intros E L. unfold a_resize, a_new, vec_resize. rewrite E. simpl. rewrite firstn_nil. simpl.
  now rewrite Nat.sub_0_r.
Qed.

Lemma safe_n_eq a i j : safe_n W a (i, j) =
  if (i <? width_ a) && (j <? height_ a) then get W a i j else Some false.
Proof.
  unfold safe_n, safe. simpl. rewrite !Nat2Z.id.
  destruct (Nat.ltb_spec i (width_ a)), (Nat.ltb_spec j (height_ a)); simpl;
  destruct (Z.leb_spec 0 (Z.of_nat i)), (Z.leb_spec 0 (Z.of_nat j)),
   (Z.ltb_spec (Z.of_nat i) (Z.of_nat (width_ a))), (Z.ltb_spec (Z.of_nat j) (Z.of_nat (height_ a))); simpl; auto; lia.
Qed.

Lemma safe_n_ok a i j : wf a -> exists b, safe_n W a (i, j) = Some b /\ (b = true <-> link a i j).
Proof.
  intros Hw. rewrite safe_n_eq. unfold link.
  destruct (Nat.ltb_spec i (width_ a)), (Nat.ltb_spec j (height_ a)); simpl;
   try (exists false; split; auto; split; [discriminate|intro K; apply get_range in K; lia]).
  destruct (get_in a i j Hw H H0) as [b E]. exists b. rewrite E. split; auto. split; congruence.
Qed.

Lemma safe_z_ok a i j : wf a -> exists b, safe W a i j = Some b /\
   (b = true <-> exists i' j', Z.of_nat i' = i /\ Z.of_nat j' = j /\ link a i' j').
Proof.
  intros Hw. unfold safe.
  destruct (Z.leb_spec 0 i), (Z.leb_spec 0 j), (Z.ltb_spec i (Z.of_nat (width_ a))),
   (Z.ltb_spec j (Z.of_nat (height_ a))); simpl;
   try (exists false; split; auto; split; [discriminate|intros (i' & j' & <- & <- & K); apply get_range in K; lia]).
  destruct (get_in a (Z.to_nat i) (Z.to_nat j) Hw) as [b E]; try lia.
  exists b. split; auto. unfold link. split.
  - intros ->. exists (Z.to_nat i), (Z.to_nat j). rewrite !Z2Nat.id by lia. auto.
  - intros (i' & j' & <- & <- & K). rewrite !Nat2Z.id in E. congruence.
Qed.

Lemma link_dec a i j : {link a i j} + {~ link a i j}.
Proof. unfold link. destruct (get W a i j) as [[]|]; [left|right|right]; congruence. Qed.

(** * invert, intersect, union *)

Lemma pair_eqb_spec i j i' j' : (i =? i') && (j =? j') = true <-> (i, j) = (i', j').
Proof. rewrite andb_true_iff, !Nat.eqb_eq. split; [intros []; congruence|intros K; inversion K; auto]. Qed.

Lemma fill_loop (f : nat -> nat -> bool) (step : grid -> nat * nat -> option grid) w h w' h' x :
  wf x -> width_ x = w' -> height_ x = h' -> w <= w' -> h <= h' ->
  (forall r i j, i < w -> j < h -> step r (i, j) = set W r i j (f i j)) ->
  exists r, foldM step (cells w h) x = Some r /\ wf r /\ width_ r = w' /\ height_ r = h' /\
    forall i j, get W r i j = if (i <? w) && (j <? h) then Some (f i j) else get W x i j.
Proof.
  intros Hw Ew Eh Lw Lh Hs.
  destruct (foldM_inv step (fun done r => wf r /\ width_ r = w' /\ height_ r = h' /\
    forall i j, (In (i, j) done -> get W r i j = Some (f i j)) /\ (~ In (i, j) done -> get W r i j = get W x i j))
    (cells w h) x) as (r & E & Hr & Er1 & Er2 & G).
  - repeat split; auto; try apply Hw. intros [].
  - intros done [i j] rest s El (Hws & E1 & E2 & G).
    assert (i < w /\ j < h) as [Li Lj] by (apply in_cells; eapply in_done; eauto).
    rewrite Hs by auto. destruct (set_ok s i j (f i j) Hws) as (r & E & Hr & Er1 & Er2 & Gr); try lia.
    exists r. split; auto. repeat split; try apply Hr; try congruence.
    + intros H. rewrite Gr. destruct ((i =? i0) && (j =? j0)) eqn:K.
      * apply pair_eqb_spec in K. congruence.
      * apply in_app_or in H. destruct H as [H|[H|[]]]; [now apply G|].
        apply pair_eqb_spec in H. congruence.
    + intros H. rewrite Gr. destruct ((i =? i0) && (j =? j0)) eqn:K.
      * apply pair_eqb_spec in K. exfalso. apply H. apply in_or_app. right; left; auto.
      * apply G. intro. apply H. apply in_or_app; auto.
  - exists r. repeat split; auto; try apply Hr. intros i j.
    destruct (Nat.ltb_spec i w), (Nat.ltb_spec j h); simpl;
      try (apply G; rewrite in_cells; lia).
Qed.

Lemma invert_ok a : wf a ->
  exists r, invert W a (a_empty bool) = Some r /\ wf r /\ width_ r = height_ a /\ height_ r = width_ a /\
    forall i j, get W r i j = get W a j i.
Proof.
  intros Hw. unfold invert. rewrite resize_empty by (auto; rewrite Nat.mul_comm; apply Hw).
  pose proof (new_ok (height_ a) (width_ a)) as N. rewrite Nat.mul_comm in N. specialize (N (proj1 Hw)).
  destruct N as (Hn & E1 & E2 & G).
  destruct (fill_loop (fun i j => match get W a j i with Some b => b | None => false end)
     (fun r p => do v <- get W a (snd p) (fst p) ; set W r (fst p) (snd p) v)
     (height_ a) (width_ a) (height_ a) (width_ a) _ Hn E1 E2) as (r & E & Hr & Er1 & Er2 & Gr); auto.
  - intros r i j Hi Hj. simpl. destruct (get_in a j i Hw Hj Hi) as [b Eb]. now rewrite Eb.
  - exists r. repeat split; auto; try apply Hr. intros i j. rewrite Gr.
    destruct (Nat.ltb_spec i (height_ a)), (Nat.ltb_spec j (width_ a)); simpl.
    + destruct (get_in a j i Hw) as [b Eb]; auto. now rewrite Eb.
    + assert (get W a j i = None) as ->. { destruct (get W a j i) eqn:K; auto. apply get_range in K; lia. }
      destruct (get W _ i j) eqn:K; auto. apply get_range in K; lia.
    + assert (get W a j i = None) as ->. { destruct (get W a j i) eqn:K; auto. apply get_range in K; lia. }
      destruct (get W _ i j) eqn:K; auto. apply get_range in K; lia.
    + assert (get W a j i = None) as ->. { destruct (get W a j i) eqn:K; auto. apply get_range in K; lia. }
      destruct (get W _ i j) eqn:K; auto. apply get_range in K; lia.
Qed.

Lemma invert_involution a : wf a -> exists r r', invert W a (a_empty bool) = Some r /\
  invert W r (a_empty bool) = Some r' /\ width_ r' = width_ a /\ height_ r' = height_ a /\
  forall i j, get W r' i j = get W a i j.
Proof.
  intros Hw. destruct (invert_ok a Hw) as (r & E & Hr & E1 & E2 & G).
  destruct (invert_ok r Hr) as (r' & E' & Hr' & E1' & E2' & G').
  exists r, r'. repeat split; auto; try congruence.
Qed.

Definition fits (a b : grid) : Prop :=
  wf a /\ wf b /\ Nat.max (width_ a) (width_ b) * Nat.max (height_ a) (height_ b) < W.

Definition lk (a : grid) i j : bool := if link_dec a i j then true else false.
Lemma lk_true a i j : lk a i j = true <-> link a i j.
Proof. unfold lk. destruct (link_dec a i j); split; auto; discriminate. Qed.
Lemma safe_n_lk a i j : wf a -> safe_n W a (i, j) = Some (lk a i j).
Proof.
  intros Hw. destruct (safe_n_ok a i j Hw) as (b & E & K). rewrite E. f_equal.
  unfold lk. destruct (link_dec a i j) as [l|l], b; auto; [apply K in l; discriminate|exfalso; now apply l, K].
Qed.
Lemma lk_range a i j : lk a i j = true -> i < width_ a /\ j < height_ a.
Proof. intros H. apply lk_true in H. now apply get_range in H. Qed.

Lemma ensure_new a b x : fits a b -> data_ x = [] ->
  ensure_size W a b x = a_new bool W (Nat.max (width_ a) (width_ b)) (Nat.max (height_ a) (height_ b)) false.
Proof. intros F E. unfold ensure_size. apply resize_empty; auto. apply F. Qed.

Lemma intersect_ok a b : fits a b ->
  exists r, intersect W a b (a_empty bool) = Some r /\ wf r /\ max_dims a b r /\
    forall i j, link r i j <-> link a i j /\ link b i j.
Proof.
  intros F. pose proof F as (Ha & Hb & L). unfold intersect. rewrite (ensure_new a b (a_empty bool) F) by auto.
  destruct (new_ok _ _ L) as (Hn & E1 & E2 & G).
  destruct (fill_loop (fun i j => lk a i j && lk b i j)
     (fun r p => do u <- safe_n W a p ; do v <- safe_n W b p ; set W r (fst p) (snd p) (u && v))
     (width_ a) (height_ a) _ _ _ Hn E1 E2) as (r & E & Hr & Er1 & Er2 & Gr); try lia.
  - intros r i j Hi Hj. rewrite !safe_n_lk by auto. auto.
  - exists r. repeat split; auto; try apply Hr; intros; try (intros; split).
    + unfold link in H. rewrite Gr in H. destruct ((i <? width_ a) && (j <? height_ a)) eqn:K.
      * apply lk_true. injection H as H. apply andb_true_iff in H. tauto.
      * exfalso. pose proof (get_range _ _ _ _ H) as R. rewrite G in H by lia. discriminate.
    + unfold link in H. rewrite Gr in H. destruct ((i <? width_ a) && (j <? height_ a)) eqn:K.
      * apply lk_true. injection H as H. apply andb_true_iff in H. tauto.
      * exfalso. pose proof (get_range _ _ _ _ H) as R. rewrite G in H by lia. discriminate.
    + destruct H as [H1 H2]. unfold link. rewrite Gr. pose proof (get_range _ _ _ _ H1) as [R1 R2].
      apply Nat.ltb_lt in R1, R2. rewrite R1, R2. simpl.
      apply lk_true in H1, H2. now rewrite H1, H2.
Qed.

Lemma union_ok a b : fits a b ->
  exists r, union W a b (a_empty bool) = Some r /\ wf r /\ max_dims a b r /\
    forall i j, link r i j <-> link a i j \/ link b i j.
Proof.
  intros F. pose proof F as (Ha & Hb & L). unfold union. rewrite (ensure_new a b (a_empty bool) F) by auto.
  destruct (new_ok _ _ L) as (Hn & E1 & E2 & G). cbv zeta.
  destruct (fill_loop (fun i j => lk a i j || lk b i j)
     (fun r p => do u <- safe_n W a p ; do v <- safe_n W b p ; set W r (fst p) (snd p) (u || v))
     (Nat.max (width_ a) (width_ b)) (Nat.max (height_ a) (height_ b)) _ _ _ Hn E1 E2) as (r & E & Hr & Er1 & Er2 & Gr); try lia.
  - intros r i j Hi Hj. rewrite !safe_n_lk by auto. auto.
  - rewrite E1, E2. exists r. split; auto. repeat split; auto; try apply Hr.
    + intros H. unfold link in H. rewrite Gr in H. destruct ((i <? _) && _) eqn:K.
      * injection H as H. apply orb_true_iff in H. rewrite <- !lk_true. tauto.
      * exfalso. pose proof (get_range _ _ _ _ H) as R. rewrite E1, E2 in R.
        destruct R as [R1 R2]. apply Nat.ltb_lt in R1, R2. rewrite R1, R2 in K. discriminate.
    + intros H. unfold link. rewrite Gr.
      assert (R : i < Nat.max (width_ a) (width_ b) /\ j < Nat.max (height_ a) (height_ b)).
      { destruct H as [H|H]; apply get_range in H; lia. }
      destruct R as [R1 R2]. apply Nat.ltb_lt in R1, R2. rewrite R1, R2. simpl. f_equal.
      rewrite <- !lk_true in H. now apply orb_true_iff.
Qed.

(** * Refinement *)

(** The state of a refinement: rows and columns flags mirror the links. *)
Definition rinv (w h : nat) (s : rstate) : Prop :=
  wf (res_ s) /\ width_ (res_ s) = w /\ height_ (res_ s) = h /\
  length (is_i s) = w /\ length (is_j s) = h /\
  (forall i, nth_error (is_i s) i = Some true <-> row_used (res_ s) i) /\
  (forall j, nth_error (is_j s) j = Some true <-> col_used (res_ s) j).

Lemma bset_ok : forall (l : list bool) n v, n < length l ->
  exists l', bset l n v = Some l' /\ length l' = length l /\
   forall k, nth_error l' k = if n =? k then Some v else nth_error l k.
Proof.
  induction l; intros n v L; simpl in L; [lia|]. destruct n.
  - exists (v :: l). repeat split; auto. destruct k; reflexivity.
  - destruct (IHl n v) as (l' & E & L' & N); [lia|]. exists (a :: l'). simpl. rewrite E. simpl.
    repeat split; auto. destruct k; simpl; auto.
Qed.

Lemma align_ok w h s i j : rinv w h s -> i < w -> j < h ->
  exists s', align W s i j = Some s' /\ rinv w h s' /\
    forall i' j', link (res_ s') i' j' <-> link (res_ s) i' j' \/ (i', j') = (i, j).
Proof.
  intros (Hw & E1 & E2 & L1 & L2 & R & C) Hi Hj.
  destruct (set_ok (res_ s) i j true Hw) as (r & Er & Hr & W1 & W2 & G); try congruence.
  destruct (bset_ok (is_i s) i true) as (ii & Ei & Li & Ni); [congruence|].
  destruct (bset_ok (is_j s) j true) as (jj & Ej & Lj & Nj); [congruence|].
  assert (LK : forall i' j', link r i' j' <-> link (res_ s) i' j' \/ (i', j') = (i, j)).
  { intros i' j'. unfold link. rewrite G. destruct ((i =? i') && (j =? j')) eqn:K.
    - apply pair_eqb_spec in K. inversion K; subst. tauto.
    - split; [tauto|]. intros [H|H]; auto. symmetry in H. apply pair_eqb_spec in H. congruence. }
  unfold align. rewrite Er, Ei, Ej. eexists; split; [reflexivity|]. split; [|auto].
  unfold rinv; simpl. repeat split; try apply Hr; try congruence.
  - rewrite Ni. destruct (Nat.eqb_spec i i0).
    + subst. intros _. exists j. apply LK; auto.
    + intros H. apply R in H. destruct H as [j' H]. exists j'. apply LK; auto.
  - intros [j' H]. apply LK in H. rewrite Ni. destruct (Nat.eqb_spec i i0); auto.
    destruct H as [H|H]; [apply R; eexists; eauto|congruence].
  - rewrite Nj. destruct (Nat.eqb_spec j j0).
    + subst. intros _. exists i. apply LK; auto.
    + intros H. apply C in H. destruct H as [i' H]. exists i'. apply LK; auto.
  - intros [i' H]. apply LK in H. rewrite Nj. destruct (Nat.eqb_spec j j0); auto.
    destruct H as [H|H]; [apply C; eexists; eauto|congruence].
Qed.

(** Meaning of the three predicates. *)

(** The conditions depend only on the set. *)
Definition ext (P : (nat -> nat -> Prop) -> nat -> nat -> Prop) : Prop :=
  forall S S' i j, (forall a b, S a b <-> S' a b) -> P S i j -> P S' i j.
Lemma ext_neither : ext neither_covered.
Proof. intros S S' i j E [H1 H2]. split; [intros [k K]; apply H1|intros [k K]; apply H2]; exists k; now apply E. Qed.
Lemma ext_one : ext not_both_covered.
Proof. intros S S' i j E H [[k K] [k' K']]. apply H. split; [exists k|exists k']; now apply E. Qed.
Lemma ext_growable : ext growable.
Proof.
  intros S S' i j E [H (i' & j' & A & B)]. split; [eapply ext_one; eauto|]. exists i', j'. split; auto. now apply E.
Qed.

Lemma built_refl P U S : built P U S S.
Proof. exists []. split; [intros; unfold plus; simpl; tauto|]. intros [] ? ? ? K; discriminate K. Qed.
Lemma built_trans P U S0 S1 S2 : ext P -> built P U S0 S1 -> built P U S1 S2 -> built P U S0 S2.
Proof.
  intros X (l1 & E1 & H1) (l2 & E2 & H2). exists (l1 ++ l2). split.
  - intros i j. rewrite E2. unfold plus. rewrite E1. unfold plus. rewrite in_app_iff. tauto.
  - intros done i j rest K.
    assert (C : (exists m, l1 = done ++ (i, j) :: m) \/ (exists d, done = l1 ++ d /\ l2 = d ++ (i, j) :: rest)).
    { clear - K. revert done K. induction l1; intros done K; simpl in *.
      - right. exists done. auto.
      - destruct done; simpl in *; inversion K; subst.
        + left. eexists; reflexivity.
        + destruct (IHl1 _ H1) as [[m Em]|(d & Ed & Ed2)]; subst; [left; eauto|right; exists d; auto]. }
    destruct C as [[m C]|(d & -> & C)].
    + eapply H1; eauto.
    + destruct (H2 _ _ _ _ C) as [U2 P2]. split; auto. eapply X; [|exact P2].
      intros a b. unfold plus. rewrite E1. unfold plus. rewrite in_app_iff. tauto.
Qed.
Lemma built_one P (U S0 S1 : nat -> nat -> Prop) i j : ext P -> U i j -> P S0 i j ->
  (forall a b, S1 a b <-> S0 a b \/ (a, b) = (i, j)) -> built P U S0 S1.
Proof.
  intros X HU HP E. exists [(i, j)]. split.
  - intros a b. rewrite E. unfold plus. simpl. split; intros [K|K]; auto; destruct K as [K|[]]; auto.
  - intros done a b rest K. destruct done as [|d done]; simpl in K; inversion K; subst; [|destruct done; discriminate].
    split; auto. eapply X; [|exact HP]. intros; unfold plus; simpl; tauto.
Qed.
Lemma built_weaken P (U U' S0 S1 : nat -> nat -> Prop) : (forall i j, U i j -> U' i j) -> built P U S0 S1 -> built P U' S0 S1.
Proof. intros H (l & E & K). exists l. split; auto. intros. destruct (K _ _ _ _ H0). auto. Qed.
Lemma built_cong P (U S0 S0' S1 : nat -> nat -> Prop) : ext P -> (forall i j, S0 i j <-> S0' i j) -> built P U S0 S1 -> built P U S0' S1.
Proof.
  intros X E (l & El & K). exists l. split.
  - intros. rewrite El. unfold plus. rewrite E. tauto.
  - intros. destruct (K _ _ _ _ H). split; auto. eapply X; [|eassumption]. intros; unfold plus. rewrite E; tauto.
Qed.

Definition decides (w h : nat) (pred : rstate -> nat -> nat -> option bool) (P : (nat -> nat -> Prop) -> nat -> nat -> Prop) : Prop :=
  ext P /\ forall s i j, rinv w h s -> i < w -> j < h ->
    exists b, pred s i j = Some b /\ (b = true <-> P (link (res_ s)) i j).

Lemma nth_in_bool (l : list bool) n : n < length l -> exists b, nth_error l n = Some b.
Proof. intros H. apply nth_error_Some in H. destruct (nth_error l n); [eauto|congruence]. Qed.

Lemma flags_ok w h s i j : rinv w h s -> i < w -> j < h ->
  exists u v, nth_error (is_i s) i = Some u /\ nth_error (is_j s) j = Some v /\
   (u = true <-> row_used (res_ s) i) /\ (v = true <-> col_used (res_ s) j).
Proof.
  intros (Hw & E1 & E2 & L1 & L2 & R & C) Hi Hj.
  destruct (nth_in_bool (is_i s) i) as [u Eu]; [lia|].
  destruct (nth_in_bool (is_j s) j) as [v Ev]; [lia|].
  exists u, v. rewrite <- R, <- C, Eu, Ev. repeat split; congruence.
Qed.

Lemma dec_neither w h : decides w h is_neither_aligned neither_covered.
Proof.
  split; [apply ext_neither|]. intros s i j I Hi Hj. destruct (flags_ok w h s i j I Hi Hj) as (u & v & Eu & Ev & Ru & Rv).
  unfold is_neither_aligned. rewrite Eu, Ev. eexists; split; [reflexivity|].
  unfold neither_covered. fold (row_used (res_ s) i) (col_used (res_ s) j). rewrite <- Ru, <- Rv. destruct u, v; simpl; intuition congruence.
Qed.
Lemma dec_one w h : decides w h is_one_or_both_unaligned not_both_covered.
Proof.
  split; [apply ext_one|]. intros s i j I Hi Hj. destruct (flags_ok w h s i j I Hi Hj) as (u & v & Eu & Ev & Ru & Rv).
  unfold is_one_or_both_unaligned. rewrite Eu, Ev. eexists; split; [reflexivity|].
  unfold not_both_covered. fold (row_used (res_ s) i) (col_used (res_ s) j). rewrite <- Ru, <- Rv. destruct u, v; simpl; intuition congruence.
Qed.

Lemma any_neighbor_ok s i j : wf (res_ s) -> forall nb,
  exists b, any_neighbor W s i j nb = Some b /\
   (b = true <-> exists d i' j', In d nb /\ Z.of_nat i' = (Z.of_nat i + fst d)%Z /\
        Z.of_nat j' = (Z.of_nat j + snd d)%Z /\ link (res_ s) i' j').
Proof.
  intros Hw. induction nb as [|[di dj] nb IH]; simpl.
  - exists false. split; auto. split; [discriminate|]. intros (d & i' & j' & [] & _).
  - destruct (safe_z_ok (res_ s) (Z.of_nat i + di) (Z.of_nat j + dj) Hw) as (b & E & K).
    rewrite E. destruct b.
    + exists true. split; auto. split; auto. intros _. destruct K as [K _]. specialize (K eq_refl).
      destruct K as (i' & j' & K1 & K2 & K3). exists (di, dj), i', j'. simpl. auto.
    + destruct IH as (b & Eb & IH). exists b. split; auto. rewrite IH. split.
      * intros (d & i' & j' & I & R). exists d, i', j'. auto.
      * intros (d & i' & j' & [<-|I] & R1 & R2 & R3).
        { simpl in *. destruct K as [_ K]. discriminate K. eauto. }
        exists d, i', j'. auto.
Qed.

Lemma neighbors_adjacent i j i' j' :
  (exists d, In d neighbors_ /\ Z.of_nat i' = (Z.of_nat i + fst d)%Z /\ Z.of_nat j' = (Z.of_nat j + snd d)%Z)
  <-> adjacent i j i' j'.
Proof.
  unfold adjacent. split.
  - intros (d & I & E1 & E2). unfold neighbors_ in I. simpl in I.
    repeat (destruct I as [<-|I]; [simpl in *; lia|]). destruct I.
  - intros (N & H1 & H2 & H3 & H4).
    exists (Z.of_nat i' - Z.of_nat i, Z.of_nat j' - Z.of_nat j)%Z. simpl. split; [|lia].
    assert (Ci : (Z.of_nat i' - Z.of_nat i = -1 \/ Z.of_nat i' - Z.of_nat i = 0 \/ Z.of_nat i' - Z.of_nat i = 1)%Z) by lia.
    assert (Cj : (Z.of_nat j' - Z.of_nat j = -1 \/ Z.of_nat j' - Z.of_nat j = 0 \/ Z.of_nat j' - Z.of_nat j = 1)%Z) by lia.
    destruct Ci as [Ci|[Ci|Ci]], Cj as [Cj|[Cj|Cj]]; rewrite Ci, Cj; try tauto. lia.
Qed.

Lemma dec_koehn w h : decides w h (koehn_aligned W) growable.
Proof.
  split; [apply ext_growable|]. intros s i j I Hi Hj. unfold koehn_aligned, growable.
  destruct (proj2 (dec_one w h) s i j I Hi Hj) as (b & E & K). rewrite E. destruct b.
  - unfold is_neighbor_aligned. destruct (any_neighbor_ok s i j (proj1 I) neighbors_) as (b & Eb & Kb).
    exists b. split; auto. rewrite Kb. split.
    + intros (d & i' & j' & In_ & E1 & E2 & L). split; [now apply K|]. exists i', j'.
      split; auto. apply neighbors_adjacent. eauto.
    + intros (_ & i' & j' & A & L). apply neighbors_adjacent in A. destruct A as (d & ? & ? & ?).
      exists d, i', j'. auto.
  - exists false. split; auto. split; [discriminate|]. intros [K' _]. destruct K as [_ K]. now apply K in K'.
Qed.

(** InitRefine *)
Lemma init_ok prev pun a b : fits a b ->
  exists s un, init_refine W prev pun a b = Some (s, un) /\
    rinv (Nat.max (width_ a) (width_ b)) (Nat.max (height_ a) (height_ b)) s /\
    (forall i j, link (res_ s) i j <-> link a i j /\ link b i j) /\
    wf un /\ max_dims a b un /\ (forall i j, link un i j <-> link a i j \/ link b i j).
Proof.
  intros F. pose proof F as (Ha & Hb & L). unfold init_refine.
  rewrite !(ensure_new a b) by auto. cbv zeta.
  destruct (new_ok _ _ L) as (Hn & E1 & E2 & G).
  set (w := Nat.max (width_ a) (width_ b)) in *. set (h := Nat.max (height_ a) (height_ b)) in *.
  set (g0 := a_new bool W w h false) in *.
  assert (NL : forall i j, ~ link g0 i j).
  { intros i j K. pose proof (get_range _ _ _ _ K) as R. unfold link in K. rewrite G in K by lia. discriminate. }
  match goal with |- context [foldM ?st ?l ?s0] =>
  destruct (foldM_inv st (fun done su =>
     rinv w h (fst su) /\ (forall i j, link (res_ (fst su)) i j <-> In (i, j) done /\ link a i j /\ link b i j) /\
     wf (snd su) /\ width_ (snd su) = w /\ height_ (snd su) = h /\
     (forall i j, link (snd su) i j <-> In (i, j) done /\ (link a i j \/ link b i j))) l s0) as (su & E & I1 & I2 & I3 & I4 & I5 & I6) end.
  - simpl. split; [|split; [|split; [exact Hn|split; [exact E1|split; [exact E2|]]]]].
    + unfold rinv; simpl. rewrite !repeat_length. repeat split; auto; try apply Hn.
      * intros K. apply nth_error_In in K. apply repeat_spec in K. discriminate.
      * intros [j' K]. now apply NL in K.
      * intros K. apply nth_error_In in K. apply repeat_spec in K. discriminate.
      * intros [j' K]. now apply NL in K.
    + intros i j. split; [intro K; now apply NL in K|intros [[] _]].
    + intros i j. split; [intro K; now apply NL in K|intros [[] _]].
  - intros done [i j] rest [s un] El (I1 & I2 & I3 & I4 & I5 & I6). cbn [fst snd] in *.
    assert (i < w /\ j < h) as [Li Lj].
    { rewrite E1, E2 in El. apply in_cells. eapply in_done; eauto. }
    rewrite !safe_n_lk by auto.
    destruct (set_ok un i j (lk a i j || lk b i j) I3) as (un' & Eu & Hu & U1 & U2 & U3); try lia.
    rewrite Eu.
    assert (I6' : forall i' j', link un' i' j' <-> In (i', j') (done ++ [(i, j)]) /\ (link a i' j' \/ link b i' j')).
    { intros i' j'. unfold link at 1. rewrite U3. rewrite in_app_iff. cbn [In].
      destruct ((i =? i') && (j =? j')) eqn:K.
      - apply pair_eqb_spec in K. inversion K; subst. rewrite <- (lk_true a), <- (lk_true b).
        rewrite <- orb_true_iff. split; [intros K'; split; [auto|congruence]|intros [_ K']; congruence].
      - fold (link un i' j'). rewrite I6. assert ((i, j) <> (i', j')).
        { intro K'. apply pair_eqb_spec in K'. congruence. }
        tauto. }
    assert (Q : forall s', (rinv w h s' /\ forall i' j', link (res_ s') i' j' <-> In (i', j') (done ++ [(i, j)]) /\ link a i' j' /\ link b i' j') ->
       rinv w h s' /\ (forall i' j', link (res_ s') i' j' <-> In (i', j') (done ++ [(i, j)]) /\ link a i' j' /\ link b i' j') /\
     wf un' /\ width_ un' = w /\ height_ un' = h /\
     (forall i' j', link un' i' j' <-> In (i', j') (done ++ [(i, j)]) /\ (link a i' j' \/ link b i' j'))).
    { intros s' [Q1 Q2]. refine (conj Q1 (conj Q2 (conj Hu (conj _ (conj _ I6'))))); congruence. }
    destruct (lk a i j && lk b i j) eqn:K.
    + destruct (align_ok w h s i j I1 Li Lj) as (s' & Es & Is & Ls). rewrite Es.
      exists (s', un'). split; auto. cbn [fst snd]. apply Q. split; auto.
      intros i' j'. rewrite Ls, I2, in_app_iff. cbn [In]. apply andb_true_iff in K. rewrite !lk_true in K.
      split.
      * intros [H|H]; [tauto|]. inversion H; subst. tauto.
      * intros [[H|[H|[]]] H']; [tauto|]. right; congruence.
    + exists (s, un'). split; auto. cbn [fst snd]. apply Q. split; auto.
      intros i' j'. rewrite I2, in_app_iff. cbn [In]. split; [tauto|].
      intros [[H|[H|[]]] [H1 H2]]; [tauto|]. inversion H; subst.
      apply lk_true in H1, H2. rewrite H1, H2 in K. discriminate.
  - destruct su as [s un]. exists s, un. cbn [fst snd] in *. split; auto. rewrite E1, E2 in I2, I6.
    split; auto. split; [|split; [auto|split; [split; auto|]]].
    + intros i j. rewrite I2. split; [tauto|]. intros H. split; auto. apply in_cells.
      destruct H as [H1 H2]. apply get_range in H1, H2. unfold w, h; lia.
    + intros i j. rewrite I6. split; [tauto|]. intros H. split; auto. apply in_cells.
      destruct H as [H1|H1]; apply get_range in H1; unfold w, h; lia.
Qed.

Definition sub (a b : grid) : Prop := forall i j, link a i j -> link b i j.

(** Links only ever get added, so row and column use are monotone. *)
Lemma row_mono r r' i : sub r r' -> row_used r i -> row_used r' i.
Proof. intros S [j H]. exists j. auto. Qed.
Lemma col_mono r r' i : sub r r' -> col_used r i -> col_used r' i.
Proof. intros S [j H]. exists j. auto. Qed.

(** One idempotent pass. *)
Lemma grow_once_ok w h pred P adds s : decides w h pred P -> rinv w h s -> wf adds ->
  width_ adds <= w -> height_ adds <= h ->
  exists s', grow_once W pred adds s = Some s' /\ rinv w h s' /\
    sub (res_ s) (res_ s') /\
    (forall i j, link (res_ s') i j -> link (res_ s) i j \/
        link adds i j /\ exists r, sub (res_ s) r /\ sub r (res_ s') /\ P (link r) i j) /\
    (forall i j, link adds i j -> link (res_ s') i j \/
        exists r, sub (res_ s) r /\ sub r (res_ s') /\ ~ P (link r) i j) /\
    built P (link adds) (link (res_ s)) (link (res_ s')).
Proof.
  intros [X D] I Ha L1 L2. unfold grow_once.
  match goal with |- context [foldM ?st ?l s] =>
  destruct (foldM_inv st (fun done s' => rinv w h s' /\ sub (res_ s) (res_ s') /\
    (forall i j, link (res_ s') i j -> link (res_ s) i j \/
        link adds i j /\ exists r, sub (res_ s) r /\ sub r (res_ s') /\ P (link r) i j) /\
    (forall i j, In (i, j) done -> link adds i j -> link (res_ s') i j \/
        exists r, sub (res_ s) r /\ sub r (res_ s') /\ ~ P (link r) i j) /\
    built P (link adds) (link (res_ s)) (link (res_ s'))) l s) as (s' & E & Q1 & Q2 & Q3 & Q4 & Q5) end.
  - split; auto. split; [intros i j K; exact K|]. split; auto. split; [intros i j []|apply built_refl].
  - intros done [i j] rest s1 El (Q1 & Q2 & Q3 & Q4 & Q5). cbn [fst snd].
    assert (i < width_ adds /\ j < height_ adds) as [Li Lj] by (apply in_cells; eapply in_done; eauto).
    destruct (get_in adds i j Ha Li Lj) as [u Eu]. rewrite Eu. destruct u.
    + pose proof Q1 as (Hw & E1 & E2 & _). destruct (get_in (res_ s1) i j Hw) as [v Ev]; try lia. rewrite Ev. destruct v.
      * exists s1. split; auto. split; auto. split; auto. split; auto. split; [|exact Q5].
        intros i' j' K. apply in_app_or in K. destruct K as [K|[K|[]]]; auto.
        inversion K; subst. auto.
      * destruct (D s1 i j Q1) as (b & Eb & Kb); try lia. rewrite Eb. destruct b.
        { destruct (align_ok w h s1 i j Q1) as (s' & Es & Is & Ls); try lia.
          exists s'. split; auto. assert (sub (res_ s1) (res_ s')) by (intros ? ? ?; apply Ls; auto).
          split; auto. split; [intros ? ? ?; auto|]. split; [|split].
          - intros i' j' K. apply Ls in K. destruct K as [K|K].
            + apply Q3 in K. destruct K as [K|(K1 & r & K2 & K3 & K4)]; auto. right. split; auto.
              exists r. split; auto. split; auto. intros ? ? ?; auto.
            + inversion K; subst. right. split; [exact Eu|]. exists (res_ s1). split; auto. split; auto. now apply Kb.
          - intros i' j' K K'. apply in_app_or in K. destruct K as [K|[K|[]]].
            + destruct (Q4 i' j' K K') as [K1|(r & K1 & K2 & K3)]; auto. right. exists r.
              split; auto. split; auto. intros ? ? ?; auto.
            + left. apply Ls. right; congruence.
          - eapply built_trans; [exact X|exact Q5|]. eapply built_one; [exact X|exact Eu|now apply Kb|exact Ls]. }
        { exists s1. split; auto. split; auto. split; auto. split; auto. split; [|exact Q5].
          intros i' j' K K'. apply in_app_or in K. destruct K as [K|[K|[]]]; auto.
          inversion K; subst. right. exists (res_ s1). split; auto. split; [intros ? ? ?; auto|].
          intro K2. apply Kb in K2. discriminate. }
    + exists s1. split; auto. split; auto. split; auto. split; auto. split; [|exact Q5].
      intros i' j' K K'. apply in_app_or in K. destruct K as [K|[K|[]]]; auto.
      inversion K; subst. unfold link in K'. congruence.
  - exists s'. split; auto. split; auto. split; auto. split; auto. split; [|exact Q5].
    intros i j K. apply Q4; auto. apply in_cells. now apply get_range in K.
Qed.

(** The growing loop. *)
Lemma grow_pass_ok w h pred P : decides w h pred P -> forall p s, rinv w h s ->
  (forall i j, In (i, j) p -> i < w /\ j < h) ->
  exists s' q, grow_pass W pred s p = Some (s', q) /\ rinv w h s' /\ sub (res_ s) (res_ s') /\
    length q <= length p /\
    (forall x, In x p -> In x q \/ link (res_ s') (fst x) (snd x)) /\
    (forall x, In x q -> In x p) /\
    (forall i j, link (res_ s') i j -> link (res_ s) i j \/
        In (i, j) p /\ exists r, sub (res_ s) r /\ sub r (res_ s') /\ P (link r) i j) /\
    (length q = length p -> s' = s /\ q = p /\ forall i j, In (i, j) p -> ~ P (link (res_ s)) i j) /\
    built P (fun i j => In (i, j) p) (link (res_ s)) (link (res_ s')).
Proof.
  intros [X D]. induction p as [|[i j] p IH]; intros s I R; cbn [grow_pass].
  - exists s, []. repeat split; auto; try apply I; try (intros ? ? K; exact K); try (intros; contradiction); apply built_refl.
  - destruct (R i j (or_introl eq_refl)) as [Li Lj].
    destruct (D s i j I Li Lj) as (b & Eb & Kb). rewrite Eb. destruct b.
    + destruct (align_ok w h s i j I Li Lj) as (s1 & E1 & I1 & L1). rewrite E1.
      destruct (IH s1 I1) as (s' & q & E & I' & S & Lq & A & B & C & F & Bu); [intros; apply R; simpl; auto|].
      assert (S0 : sub (res_ s) (res_ s1)) by (intros ? ? ?; apply L1; auto).
      exists s', q. split; auto. split; auto. split; [intros ? ? ?; auto|]. split; [simpl; lia|]. split; [|split; [|split; [|split]]].
      * intros x [<-|K]; auto. right. simpl. apply S, L1. auto.
      * simpl; auto.
      * intros i' j' K. apply C in K. destruct K as [K|(K1 & r & K2 & K3 & K4)].
        { apply L1 in K. destruct K as [K|K]; auto. inversion K; subst. right. split; [simpl; auto|].
          exists (res_ s). split; [intros ? ? ?; auto|]. split; [intros ? ? ?; auto|]. now apply Kb. }
        { right. split; [simpl; auto|]. exists r. split; [intros ? ? ?; auto|]. auto. }
      * simpl. intros K. lia.
      * eapply built_trans; [exact X| |eapply built_weaken; [|exact Bu]; simpl; auto].
        eapply built_one; [exact X|simpl; auto|now apply Kb|exact L1].
    + destruct (IH s I) as (s' & q & E & I' & S & Lq & A & B & C & F & Bu); [intros; apply R; simpl; auto|].
      rewrite E. exists s', ((i, j) :: q). split; auto. split; auto. split; auto. split; [simpl; lia|].
      split; [|split; [|split; [|split]]].
      * intros x [<-|K]; [simpl; auto|]. destruct (A x K); simpl; auto.
      * intros x [<-|K]; simpl; auto.
      * intros i' j' K. apply C in K. destruct K as [K|(K1 & r & K2 & K3 & K4)]; auto.
        right. split; [simpl; auto|]. exists r. auto.
      * simpl. intros K. destruct F as (F1 & F2 & F3); [lia|]. subst. repeat split; auto.
        intros i' j' [K'|K']; auto. inversion K'; subst. intro K2. apply Kb in K2. discriminate.
      * eapply built_weaken; [|exact Bu]. simpl; auto.
Qed.

Lemma grow_loop_ok w h pred P : decides w h pred P -> forall fuel p s, rinv w h s ->
  (forall i j, In (i, j) p -> i < w /\ j < h) -> length p < fuel ->
  exists s', grow_loop W fuel pred s p = Some s' /\ rinv w h s' /\ sub (res_ s) (res_ s') /\
    (forall i j, link (res_ s') i j -> link (res_ s) i j \/
        In (i, j) p /\ exists r, sub (res_ s) r /\ sub r (res_ s') /\ P (link r) i j) /\
    (forall i j, In (i, j) p -> link (res_ s') i j \/ ~ P (link (res_ s')) i j) /\
    built P (fun i j => In (i, j) p) (link (res_ s)) (link (res_ s')).
Proof.
  intros D. induction fuel; intros p s I R L; [lia|]. cbn [grow_loop].
  destruct p as [|x p].
  { exists s. repeat split; auto; try apply I; try (intros ? ? K; exact K); try (intros; contradiction); apply built_refl. }
  remember (x :: p) as pp eqn:Epp. 
  destruct (grow_pass_ok w h pred P D pp s I R) as (s' & q & E & I' & S & Lq & A & B & C & F & Bu).
  rewrite E. destruct (Nat.ltb_spec (length q) (length pp)) as [K|K].
  - assert (exists s2, match q with [] => Some s' | _ :: _ => grow_loop W fuel pred s' q end = Some s2 /\
      rinv w h s2 /\ sub (res_ s') (res_ s2) /\
      (forall i j, link (res_ s2) i j -> link (res_ s') i j \/
        In (i, j) q /\ exists r, sub (res_ s') r /\ sub r (res_ s2) /\ P (link r) i j) /\
      (forall i j, In (i, j) q -> link (res_ s2) i j \/ ~ P (link (res_ s2)) i j) /\
      built P (fun i j => In (i, j) q) (link (res_ s')) (link (res_ s2))) as (s2 & E2 & I2 & S2 & C2 & F2 & Bu2).
    { destruct q as [|y q].
      - exists s'. repeat split; auto; try apply I'; try (intros ? ? K'; exact K'); try (intros; contradiction); apply built_refl.
      - apply IHfuel; auto; lia. }
    exists s2. split; auto. split; auto. split; [intros ? ? ?; auto|]. split; [|split].
    + intros i j K'. apply C2 in K'. destruct K' as [K'|(K1 & r & K2 & K3 & K4)].
      * apply C in K'. destruct K' as [K'|(K1 & r & K2 & K3 & K4)]; auto. right. split; auto.
        exists r. split; auto. split; auto. intros ? ? ?; auto.
      * right. split; auto. exists r. split; [intros ? ? ?; auto|]. auto.
    + intros i j K'. destruct (A (i, j) K') as [K1|K1]; auto.
    + eapply built_trans; [apply D|exact Bu|]. eapply built_weaken; [|exact Bu2]. auto.
  - destruct F as (F1 & F2 & F3); [lia|]. subst s' q. exists s. repeat split; auto; try apply I'; try (intros ? ? K'; exact K'); apply built_refl.
Qed.

Lemma pending_ok w h adds s : rinv w h s -> wf adds -> width_ adds <= w -> height_ adds <= h ->
  exists p, pending W adds s = Some p /\ forall i j, In (i, j) p <-> link adds i j /\ ~ link (res_ s) i j.
Proof.
  intros I Ha L1 L2. unfold pending.
  match goal with |- context [foldM ?st ?l ?z] =>
  destruct (foldM_inv st (fun done acc => forall i j, In (i, j) acc <-> In (i, j) done /\ link adds i j /\ ~ link (res_ s) i j) l z) as (p & E & Q) end.
  - intros; simpl; tauto.
  - intros done [i j] rest acc El Q. cbn [fst snd].
    assert (i < width_ adds /\ j < height_ adds) as [Li Lj] by (apply in_cells; eapply in_done; eauto).
    destruct (get_in adds i j Ha Li Lj) as [u Eu]. rewrite Eu. pose proof I as (Hw & E1 & E2 & _).
    destruct (get_in (res_ s) i j Hw) as [v Ev]; try lia.
    destruct u.
    + rewrite Ev. destruct v.
      * exists acc. split; auto. intros i' j'. rewrite Q, in_app_iff. simpl. split; [tauto|].
        intros [[K|[K|[]]] [K1 K2]]; auto. inversion K; subst. exfalso; apply K2; exact Ev.
      * eexists. split; [reflexivity|]. intros i' j'. rewrite !in_app_iff, Q. simpl. split.
        { intros [K|[K|[]]]; [tauto|]. inversion K; subst. split; auto. split; [exact Eu|]. unfold link. congruence. }
        { tauto. }
    + exists acc. split; auto. intros i' j'. rewrite Q, in_app_iff. simpl. split; [tauto|].
      intros [[K|[K|[]]] [K1 K2]]; auto. inversion K; subst. unfold link in K1; congruence.
  - exists p. split; auto. intros i j. rewrite Q. split; [tauto|]. intros K. split; auto.
    apply in_cells. destruct K as [K _]. now apply get_range in K.
Qed.

Lemma grow_ok w h pred P adds s : decides w h pred P -> rinv w h s -> wf adds ->
  width_ adds <= w -> height_ adds <= h ->
  exists s', grow W pred adds s = Some s' /\ rinv w h s' /\ sub (res_ s) (res_ s') /\
    (forall i j, link (res_ s') i j -> link (res_ s) i j \/
        link adds i j /\ exists r, sub (res_ s) r /\ sub r (res_ s') /\ P (link r) i j) /\
    (forall i j, link adds i j -> link (res_ s') i j \/ ~ P (link (res_ s')) i j) /\
    built P (link adds) (link (res_ s)) (link (res_ s')).
Proof.
  intros D I Ha L1 L2. unfold grow. destruct (pending_ok w h adds s I Ha L1 L2) as (p & E & Q). rewrite E.
  destruct (grow_loop_ok w h pred P D (S (length p)) p s I) as (s' & E' & I' & S & A & B & Bu).
  - intros i j K. apply Q in K. destruct K as [K _]. apply get_range in K. lia.
  - lia.
  - exists s'. split; auto. split; auto. split; auto. split; [|split].
    + intros i j K. apply A in K. destruct K as [K|(K1 & K2)]; auto. right. split; auto. now apply Q in K1.
    + intros i j K. destruct (link_dec (res_ s) i j) as [K'|K']; [left; auto|]. apply B. now apply Q.
    + eapply built_weaken; [|exact Bu]. intros i j K. now apply Q in K.
Qed.

(** A point that may be added to [r] under Koehn's condition. *)
Definition between (a b r : grid) : Prop :=
  (forall i j, link a i j -> link b i j -> link r i j) /\ (forall i j, link r i j -> link a i j \/ link b i j).

Lemma grow_diag_ok prev pun a b : fits a b ->
  exists r, grow_diag W prev pun a b = Some r /\ wf r /\ max_dims a b r /\ between a b r /\
    (forall i j, link r i j -> ~ (link a i j /\ link b i j) ->
        exists i' j', adjacent i j i' j' /\ link r i' j') /\
    (forall i j, link a i j \/ link b i j -> ~ link r i j -> ~ growable (link r) i j) /\
    built growable (fun i j => link a i j \/ link b i j) (fun i j => link a i j /\ link b i j) (link r).
Proof.
  intros F. destruct (init_ok prev pun a b F) as (s & un & E & I & Li & Hu & (U1 & U2) & Lu).
  unfold grow_diag. rewrite E.
  destruct (grow_ok _ _ _ _ un s (dec_koehn _ _) I Hu) as (s' & E' & I' & S & A & B & Bu); try (rewrite ?U1, ?U2; auto).
  rewrite E'. exists (res_ s'). split; auto. pose proof I' as (Hw & W1 & W2 & _).
  split; auto. split; [split; auto|]. split; [split|split; [|split]].
  - intros i j K1 K2. apply S, Li. auto.
  - intros i j K. apply A in K. destruct K as [K|[K _]]; [apply Li in K; tauto|]. now apply Lu.
  - intros i j K N. apply A in K. destruct K as [K|(K & r & S1 & S2 & _ & i' & j' & Aj & Lr)].
    + apply Li in K. tauto.
    + exists i', j'. auto.
  - intros i j K N. apply Lu in K. apply B in K. tauto.
  - eapply built_cong; [apply ext_growable|exact Li|]. eapply built_weaken; [|exact Bu]. intros i j. apply Lu.
Qed.

Lemma final_ok w h pred P a b s : decides w h pred P -> rinv w h s -> wf a -> wf b ->
  width_ a <= w -> height_ a <= h -> width_ b <= w -> height_ b <= h ->
  exists s', (do s2 <- grow_once W pred a s ; grow_once W pred b s2) = Some s' /\ rinv w h s' /\
   sub (res_ s) (res_ s') /\
   (forall i j, link (res_ s') i j -> link (res_ s) i j \/
        (link a i j \/ link b i j) /\ exists r, sub (res_ s) r /\ sub r (res_ s') /\ P (link r) i j) /\
   (forall i j, link a i j \/ link b i j -> link (res_ s') i j \/
        exists r, sub (res_ s) r /\ sub r (res_ s') /\ ~ P (link r) i j) /\
   built P (fun i j => link a i j \/ link b i j) (link (res_ s)) (link (res_ s')).
Proof.
  intros D I Ha Hb A1 A2 B1 B2.
  destruct (grow_once_ok w h pred P a s D I Ha A1 A2) as (s1 & E1 & I1 & S1 & C1 & F1 & Bu1). rewrite E1.
  destruct (grow_once_ok w h pred P b s1 D I1 Hb B1 B2) as (s2 & E2 & I2 & S2 & C2 & F2 & Bu2). rewrite E2.
  exists s2. split; auto. split; auto. split; [intros ? ? ?; auto|]. split; [|split].
  - intros i j K. apply C2 in K. destruct K as [K|(K & r & R1 & R2 & R3)].
    + apply C1 in K. destruct K as [K|(K & r & R1 & R2 & R3)]; auto. right. split; auto.
      exists r. split; auto. split; auto. intros ? ? ?; auto.
    + right. split; auto. exists r. split; auto. intros ? ? ?; auto.
  - intros i j [K|K].
    + apply F1 in K. destruct K as [K|(r & R1 & R2 & R3)]; auto. right. exists r. split; auto. split; auto.
      intros ? ? ?; auto.
    + apply F2 in K. destruct K as [K|(r & R1 & R2 & R3)]; auto. right. exists r. split; auto.
      intros ? ? ?; auto.
  - eapply built_trans; [apply D|eapply built_weaken; [|exact Bu1]|eapply built_weaken; [|exact Bu2]]; auto.
Qed.

Lemma used_dec r i : wf r -> {row_used r i} + {~ row_used r i}.
Proof.
  intros Hw. destruct (existsb (fun j => lk r i j) (seq 0 (height_ r))) eqn:E.
  - left. apply existsb_exists in E. destruct E as (j & _ & K). exists j. now apply lk_true.
  - right. intros [j K]. pose proof (get_range _ _ _ _ K) as [_ L].
    assert (existsb (fun j => lk r i j) (seq 0 (height_ r)) = true); [|congruence].
    apply existsb_exists. exists j. split; [apply in_seq; lia|now apply lk_true].
Qed.
Lemma cused_dec r j : wf r -> {col_used r j} + {~ col_used r j}.
Proof.
  intros Hw. destruct (existsb (fun i => lk r i j) (seq 0 (width_ r))) eqn:E.
  - left. apply existsb_exists in E. destruct E as (i & _ & K). exists i. now apply lk_true.
  - right. intros [i K]. pose proof (get_range _ _ _ _ K) as [L _].
    assert (existsb (fun i => lk r i j) (seq 0 (width_ r)) = true); [|congruence].
    apply existsb_exists. exists i. split; [apply in_seq; lia|now apply lk_true].
Qed.

Lemma gdf_ok prev pun a b : fits a b ->
  exists r g, grow_diag_final W prev pun a b = Some r /\ grow_diag W prev pun a b = Some g /\
    wf r /\ max_dims a b r /\ between a b r /\ sub g r /\
    (forall i j, link a i j \/ link b i j -> ~ link r i j -> row_used r i /\ col_used r j) /\
    built not_both_covered (fun i j => link a i j \/ link b i j) (link g) (link r).
Proof.
  intros F. pose proof F as (Ha & Hb & L).
  destruct (init_ok prev pun a b F) as (s & un & E & I & Li & Hu & (U1 & U2) & Lu).
  unfold grow_diag_final, grow_diag. rewrite E.
  destruct (grow_ok _ _ _ _ un s (dec_koehn _ _) I Hu) as (s1 & E' & I' & S & A & B & _); try (rewrite ?U1, ?U2; auto).
  rewrite E'.
  destruct (final_ok _ _ _ _ a b s1 (dec_one _ _) I' Ha Hb) as (s2 & E2 & I2 & S2 & C2 & F2 & Bu); try lia.
  destruct (grow_once W is_one_or_both_unaligned a s1) as [t|]; [|discriminate]. rewrite E2.
  exists (res_ s2), (res_ s1). split; auto. split; auto. pose proof I2 as (Hw & W1 & W2 & _).
  split; auto. split; [split; auto|]. split; [split|split; [auto|split; [|exact Bu]]].
  - intros i j K1 K2. apply S2, S, Li. auto.
  - intros i j K. apply C2 in K. destruct K as [K|[K _]]; auto.
    apply A in K. destruct K as [K|[K _]]; [apply Li in K; tauto|]. now apply Lu.
  - intros i j K N. apply F2 in K. destruct K as [K|(r & R1 & R2 & R3)]; [tauto|].
    unfold not_both_covered in R3.
    destruct (used_dec (res_ s2) i Hw) as [X|X].
    + destruct (cused_dec (res_ s2) j Hw) as [Y|Y]; auto.
      exfalso. apply R3. intros [_ Z]. apply Y. eapply col_mono; eauto.
    + exfalso. apply R3. intros [Z _]. apply X. eapply row_mono; eauto.
Qed.

Lemma gdfa_ok prev pun a b : fits a b ->
  exists r g, grow_diag_final_and W prev pun a b = Some r /\ grow_diag W prev pun a b = Some g /\
    wf r /\ max_dims a b r /\ between a b r /\ sub g r /\
    (forall i j, link r i j -> ~ link g i j -> ~ row_used g i /\ ~ col_used g j) /\
    (forall i j, link a i j \/ link b i j -> ~ link r i j -> row_used r i \/ col_used r j) /\
    built neither_covered (fun i j => link a i j \/ link b i j) (link g) (link r).
Proof.
  intros F. pose proof F as (Ha & Hb & L).
  destruct (init_ok prev pun a b F) as (s & un & E & I & Li & Hu & (U1 & U2) & Lu).
  unfold grow_diag_final_and, grow_diag. rewrite E.
  destruct (grow_ok _ _ _ _ un s (dec_koehn _ _) I Hu) as (s1 & E' & I' & S & A & B & _); try (rewrite ?U1, ?U2; auto).
  rewrite E'.
  destruct (final_ok _ _ _ _ a b s1 (dec_neither _ _) I' Ha Hb) as (s2 & E2 & I2 & S2 & C2 & F2 & Bu); try lia.
  destruct (grow_once W is_neither_aligned a s1) as [t|]; [|discriminate]. rewrite E2.
  exists (res_ s2), (res_ s1). split; auto. split; auto. pose proof I2 as (Hw & W1 & W2 & _).
  split; auto. split; [split; auto|]. split; [split|split; [auto|split; [|split; [|exact Bu]]]].
  - intros i j K1 K2. apply S2, S, Li. auto.
  - intros i j K. apply C2 in K. destruct K as [K|[K _]]; auto.
    apply A in K. destruct K as [K|[K _]]; [apply Li in K; tauto|]. now apply Lu.
  - intros i j K N. apply C2 in K. destruct K as [K|(_ & r & R1 & R2 & [R3 R4])]; [tauto|].
    split; intro X; [apply R3|apply R4]; [eapply row_mono|eapply col_mono]; eauto.
  - intros i j K N. apply F2 in K. destruct K as [K|(r & R1 & R2 & R3)]; [tauto|].
    unfold neither_covered in R3.
    destruct (used_dec (res_ s2) i Hw) as [X|X]; auto.
    destruct (cused_dec (res_ s2) j Hw) as [Y|Y]; auto.
    exfalso. apply R3. split; intro Z; [apply X|apply Y]; [eapply row_mono|eapply col_mono]; eauto.
Qed.

(** * F-measure statistics *)
Definition counts (P : nat -> nat -> Prop) (n : nat) : Prop :=
  exists l, NoDup l /\ length l = n /\ forall i j, In (i, j) l <-> P i j.

Lemma NoDup_app_intro {A} : forall l l' : list A, NoDup l -> NoDup l' -> (forall x, In x l -> ~ In x l') -> NoDup (l ++ l').
Proof.
  induction l; intros l' H H' D; simpl; auto. inversion H; subst. constructor.
  - rewrite in_app_iff. intros [K|K]; auto. apply (D a); simpl; auto.
  - apply IHl; auto. intros x K. apply D. simpl; auto.
Qed.

Lemma nodup_cells w h : NoDup (cells w h).
Proof.
  unfold cells. generalize (seq_NoDup w 0). generalize (seq 0 w) as l. induction l; intros N; simpl; [constructor|].
  inversion N; subst. apply NoDup_app_intro; auto.
  - apply FinFun.Injective_map_NoDup; [|apply seq_NoDup]. intros x y E. congruence.
  - intros [i j] H K. apply in_map_iff in H. destruct H as (j' & E & _). inversion E; subst.
    apply in_flat_map in K. destruct K as (i' & K1 & K2). apply in_map_iff in K2. destruct K2 as (? & E' & _).
    inversion E'; subst. auto.
Qed.

Lemma sorted_cells w h : StronglySorted plt (cells w h).
Proof.
  unfold cells.
  assert (G : forall n m k, StronglySorted plt (flat_map (fun i => map (fun j => (i, j)) (seq m h)) (seq k n))).
  { induction n; intros m k; simpl; [constructor|].
    assert (A : forall h m, StronglySorted plt (map (fun j => (k, j)) (seq m h))).
    { clear. induction h; intros m; simpl; constructor; auto. apply Forall_forall. intros x K.
      apply in_map_iff in K. destruct K as (j & <- & K). apply in_seq in K. right; simpl; lia. }
    assert (B : forall l l', StronglySorted plt l -> StronglySorted plt l' -> (forall x y, In x l -> In y l' -> plt x y) -> StronglySorted plt (l ++ l')).
    { clear. induction l; intros l' H H' D; simpl; auto. inversion H; subst. constructor.
      - apply IHl; auto. intros; apply D; simpl; auto.
      - apply Forall_app. split; auto. apply Forall_forall. intros; apply D; simpl; auto. }
    apply B; auto. intros x y Hx Hy. apply in_map_iff in Hx. destruct Hx as (j & <- & _).
    apply in_flat_map in Hy. destruct Hy as (i & Hi & Hy). apply in_map_iff in Hy. destruct Hy as (j' & <- & _).
    apply in_seq in Hi. left; simpl; lia. }
  apply G.
Qed.

Lemma sorted_filter {A} (R : A -> A -> Prop) f : forall l, StronglySorted R l -> StronglySorted R (filter f l).
Proof.
  induction l; intros H; simpl; auto. inversion H; subst. destruct (f a); auto. constructor; auto.
  rewrite Forall_forall in *. intros x K. apply filter_In in K. apply H3. tauto.
Qed.

Lemma fmeasure_ok hyp ref m0 np0 nr0 : wf hyp -> wf ref ->
  exists m np nr, fmeasure W (m0, np0, nr0) hyp ref = Some (m0 + m, np0 + np, nr0 + nr) /\
    counts (fun i j => link hyp i j /\ link ref i j) m /\
    counts (link hyp) np /\ counts (link ref) nr.
Proof.
  intros Hh Hr. unfold fmeasure.
  set (f1 := fun p : nat * nat => lk ref (fst p) (snd p) && lk hyp (fst p) (snd p)).
  set (f2 := fun p : nat * nat => lk ref (fst p) (snd p)).
  set (f3 := fun p : nat * nat => lk hyp (fst p) (snd p)).
  destruct (foldM_inv (fm_ref W hyp ref) (fun done s => s = (m0 + length (filter f1 done), np0, nr0 + length (filter f2 done)))
    (cells (width_ ref) (height_ ref)) (m0, np0, nr0)) as (s1 & E1 & Q1).
  - simpl. now rewrite !Nat.add_0_r.
  - intros done [i j] rest s El ->. rewrite !filter_app, !app_length. simpl. unfold fm_ref. cbn [fst snd].
    assert (i < width_ ref /\ j < height_ ref) as [Li Lj] by (apply in_cells; eapply in_done; eauto).
    destruct (get_in ref i j Hr Li Lj) as [u Eu]. rewrite Eu.
    assert (f2 (i, j) = u) as F2.
    { unfold f2; simpl. unfold lk. destruct (link_dec ref i j) as [K|K]; unfold link in K; destruct u; congruence. }
    assert (f1 (i, j) = u && lk hyp i j) as F1 by (unfold f1; unfold f2 in F2; cbn [fst snd] in *; now rewrite F2).
    rewrite F1, F2. destruct u; simpl.
    + rewrite safe_n_lk by auto. eexists; split; [reflexivity|]. destruct (lk hyp i j); simpl; repeat f_equal; lia.
    + eexists; split; [reflexivity|]. simpl. repeat f_equal; lia.
  - rewrite E1. subst s1.
    match goal with |- context [foldM ?st ?l ?s0] =>
    destruct (foldM_inv st (fun done s => s = (fst (fst s0), np0 + length (filter f3 done), snd s0)) l s0) as (s2 & E2 & Q2) end.
    + simpl. now rewrite Nat.add_0_r.
    + intros done [i j] rest s El ->. rewrite !filter_app, !app_length. simpl. unfold fm_hyp. cbn [fst snd].
      assert (i < width_ hyp /\ j < height_ hyp) as [Li Lj] by (apply in_cells; eapply in_done; eauto).
      destruct (get_in hyp i j Hh Li Lj) as [u Eu]. rewrite Eu.
      assert (f3 (i, j) = u) as F3.
      { unfold f3; simpl. unfold lk. destruct (link_dec hyp i j) as [K|K]; unfold link in K; destruct u; congruence. }
      rewrite F3. eexists; split; [reflexivity|]. destruct u; simpl; repeat f_equal; lia.
    + rewrite E2, Q2. cbn [fst snd]. eexists _, _, _. split; [reflexivity|].
      split; [|split]; (eexists; split; [apply NoDup_filter, nodup_cells|split; [reflexivity|]]);
       intros i j; rewrite filter_In, in_cells; unfold f1, f2, f3; cbn [fst snd]; rewrite ?andb_true_iff, ?lk_true.
      * split; [tauto|]. intros [K1 K2]. pose proof (get_range _ _ _ _ K2). tauto.
      * split; [tauto|]. intros K2. pose proof (get_range _ _ _ _ K2). tauto.
      * split; [tauto|]. intros K2. pose proof (get_range _ _ _ _ K2). tauto.
Qed.

(** * Pharaoh format *)
Definition val (x : nat) (ds : list nat) : nat := fold_left (fun a c => a * 10 + (c - 48)) ds x.

Lemma val_ge : forall ds x, x <= val x ds.
Proof. unfold val. induction ds; intros; cbn [fold_left]; auto. specialize (IHds (x * 10 + (a - 48))). lia. Qed.

Lemma val_snoc ds c x : val x (ds ++ [c]) = val x ds * 10 + (c - 48).
Proof. unfold val. rewrite fold_left_app. auto. Qed.

Lemma show_aux_ok : forall fuel n acc, n < fuel -> exists ds, show_aux fuel n acc = ds ++ acc /\ numeral ds n
   /\ (1 < length ds -> hd 0 ds <> 48).
Proof.
  induction fuel; intros n acc L; [lia|]. cbn [show_aux].
  assert (Hm : n mod 10 < 10) by (apply Nat.mod_upper_bound; lia).
  assert (Hd : n = 10 * (n / 10) + n mod 10) by (apply Nat.div_mod; lia).
  destruct (Nat.ltb_spec n 10).
  - exists [48 + n mod 10]. split; auto. split; [|simpl; lia]. split; [discriminate|]. split.
    + constructor; auto. lia.
    + cbn [fold_left]. rewrite Nat.mod_small by lia. lia.
  - destruct (IHfuel (n / 10) ((48 + n mod 10) :: acc)) as (ds & E & (N1 & N2 & N3) & Z).
    { lia. }
    exists (ds ++ [48 + n mod 10]). rewrite E, <- app_assoc. split; auto. split; [split; [|split]|].
    + intro K. now apply app_eq_nil in K as [_ K].
    + apply Forall_app. split; auto. constructor; auto. lia.
    + fold (val 0 (ds ++ [48 + n mod 10])). rewrite val_snoc. unfold val. rewrite N3. lia.
    + intros _. destruct ds as [|d ds]; [congruence|]. cbn [hd app].
      destruct ds as [|d2 ds].
      * cbn [fold_left] in N3. lia.
      * apply Z. simpl. lia.
Qed.
Lemma show_ok n : numeral (show n) n /\ (1 < length (show n) -> hd 0 (show n) <> 48).
Proof. unfold show. destruct (show_aux_ok (S n) n [] (Nat.lt_succ_diag_r n)) as (ds & E & N & Z). rewrite E, app_nil_r. auto. Qed.

Definition nondigit (l : list nat) : Prop := match l with c :: _ => is_digit c = false | [] => True end.

Lemma read_num_ok : forall ds x rest, Forall (fun c => 48 <= c <= 57) ds -> nondigit rest -> val x ds < IM ->
  read_num IM x (ds ++ rest) = Some (val x ds, rest).
Proof.
  induction ds; intros x rest F N L; cbn [app].
  - destruct rest; cbn; auto. cbn in N. now rewrite N.
  - inversion F; subst. cbn [read_num]. unfold is_digit at 1.
    rewrite (proj2 (Nat.leb_le 48 a)), (proj2 (Nat.leb_le a 57)) by lia. cbn [andb].
    pose proof (val_ge ds (x * 10 + (a - 48))) as G. cbn in L. fold (val (x * 10 + (a - 48)) ds) in L.
    rewrite (proj2 (Nat.ltb_lt _ _)) by lia. rewrite IHds; auto.
Qed.

Lemma skip_ok : forall n rest, match rest with c :: _ => c <> 32 | [] => True end -> skip_spaces (repeat 32 n ++ rest) = rest.
Proof.
  induction n; intros rest H; cbn [repeat app].
  - destruct rest; cbn; auto. destruct (Nat.eqb_spec n 32); congruence.
  - cbn. auto.
Qed.

(** What may follow the points: nothing, or an end of line and anything. *)
Definition eol (tail : list nat) : Prop := match tail with [] => True | c :: _ => c = 10 \/ c = 13 end.

Lemma eol_nondigit l : eol l -> nondigit l.
Proof. destruct l; cbn; auto. intros [->| ->]; reflexivity. Qed.

Definition small (ps : list (nat * nat)) : Prop := Forall (fun p => fst p < IM /\ snd p < IM) ps.

Lemma read_points_eol fuel l : eol l -> read_points IM fuel l = Some [].
Proof. destruct l; intros H; destruct fuel; cbn; auto; destruct H as [->| ->]; reflexivity. Qed.

Lemma numeral_hd ds n : numeral ds n -> exists c r, ds = c :: r /\ 48 <= c <= 57.
Proof. intros (H & F & _). destruct ds; [congruence|]. inversion F; subst. eauto. Qed.

Lemma text_hd ps t : ps <> [] -> points_text ps t -> exists c r, t = c :: r /\ 48 <= c <= 57.
Proof.
  intros N H. destruct H; [congruence| |]; destruct (numeral_hd _ _ H) as (c & r & -> & L); cbn; eauto.
Qed.

Lemma read_points_ok : forall ps t, points_text ps t -> small ps -> forall fuel tail, eol tail -> length ps <= fuel ->
  read_points IM fuel (t ++ tail) = Some ps.
Proof.
  induction 1 as [|i j di dj n Hi Hj|i j di dj n ps t Hi Hj NE Ht IH]; intros S fuel tail T L.
  - now apply read_points_eol.
  - inversion S as [|? ? [S1 S2] _]; subst. cbn in S1, S2.
    destruct (numeral_hd _ _ Hi) as (c & r & Ed & Lc).
    destruct Hi as (_ & Fi & Vi), Hj as (_ & Fj & Vj). fold (val 0 di) in Vi. fold (val 0 dj) in Vj.
    destruct fuel; [cbn in L; lia|].
    rewrite <- !app_assoc. rewrite Ed at 1. cbn [read_points app].
    destruct (Nat.eqb_spec c 10); [lia|]. destruct (Nat.eqb_spec c 13); [lia|]. cbn [orb].
    change (c :: r ++ ?x) with ((c :: r) ++ x). rewrite <- Ed.
    rewrite read_num_ok; auto; [|reflexivity|congruence].
    cbn [app Nat.eqb negb].
    rewrite read_num_ok; auto; [|destruct n; cbn; [now apply eol_nondigit|auto]|congruence].
    rewrite skip_ok by (destruct tail; cbn in *; auto; lia).
    rewrite read_points_eol by auto. congruence.
  - inversion S as [|? ? [S1 S2] S3]; subst. cbn in S1, S2.
    destruct (numeral_hd _ _ Hi) as (c & r & Ed & Lc).
    destruct Hi as (_ & Fi & Vi), Hj as (_ & Fj & Vj). fold (val 0 di) in Vi. fold (val 0 dj) in Vj.
    destruct fuel; [cbn in L; lia|].
    rewrite <- !app_assoc. rewrite Ed at 1. cbn [read_points app].
    destruct (Nat.eqb_spec c 10); [lia|]. destruct (Nat.eqb_spec c 13); [lia|]. cbn [orb].
    change (c :: r ++ ?x) with ((c :: r) ++ x). rewrite <- Ed.
    rewrite read_num_ok; auto; [|reflexivity|congruence].
    cbn [app Nat.eqb negb].
    rewrite read_num_ok; auto; [|reflexivity|congruence].
    rewrite skip_ok.
    + rewrite IH; auto; [congruence|cbn in L; lia].
    + destruct (text_hd _ _ NE Ht) as (c2 & r2 & -> & ?). cbn. lia.
Qed.

(** The grid built from a list of points. *)
Lemma mxf_max (f : nat * nat -> nat) : forall ps m, fold_left (fun m p => if m <? f p then f p else m) ps m = fold_right Nat.max m (map f ps).
Proof.
  induction ps; intros; cbn [fold_left fold_right map]; auto. rewrite IHps. destruct (Nat.ltb_spec m (f a)); clear IHps.
  - assert (G : forall l x y, x < y -> fold_right Nat.max y l = Nat.max y (fold_right Nat.max x l)).
    { induction l; intros; cbn; [lia|]. rewrite (IHl x y); lia. }
    apply G; auto.
  - assert (G : forall l x y, y <= x -> fold_right Nat.max x l = Nat.max y (fold_right Nat.max x l)).
    { induction l; intros; cbn; [lia|]. rewrite (IHl x y) by auto. lia. }
    apply G; auto.
Qed.

Lemma set_points_ok : forall ps g, wf g -> (forall i j, In (i, j) ps -> i < width_ g /\ j < height_ g) ->
  exists g', foldM (fun g p => set W g (fst p) (snd p) true) ps g = Some g' /\ wf g' /\
    width_ g' = width_ g /\ height_ g' = height_ g /\
    forall i j, link g' i j <-> link g i j \/ In (i, j) ps.
Proof.
  induction ps as [|[i j] ps IH]; intros g Hw R; cbn [foldM fst snd].
  - exists g. repeat split; auto; try apply Hw. intros [K|[]]; auto.
  - destruct (R i j (or_introl eq_refl)) as [Li Lj].
    destruct (set_ok g i j true Hw Li Lj) as (g1 & E & H1 & W1 & W2 & G). rewrite E.
    destruct (IH g1 H1) as (g' & E' & H' & W1' & W2' & G').
    { intros. rewrite W1, W2. apply R. simpl; auto. }
    exists g'. split; auto. split; auto. split; [congruence|]. split; [congruence|].
    intros i' j'. rewrite G'. unfold link at 1. rewrite G. cbn [In].
    destruct ((i =? i') && (j =? j')) eqn:K.
    + apply pair_eqb_spec in K. tauto.
    + fold (link g i' j'). assert ((i, j) <> (i', j')) by (intro X; apply pair_eqb_spec in X; congruence). tauto.
Qed.

(** Size of the grid read: one more than the largest index in each direction. *)
Definition rows_of (ps : list (nat * nat)) : nat := S (list_max (map fst ps)).
Definition cols_of (ps : list (nat * nat)) : nat := S (list_max (map snd ps)).

Lemma build_ok ps : rows_of ps < IM -> cols_of ps < IM -> rows_of ps * cols_of ps < W ->
  exists g, (let mx := fold_left (fun m p => if m <? fst p then fst p else m) ps 0 in
  let my := fold_left (fun m p => if m <? snd p then snd p else m) ps 0 in
  if (mx + 1 <? IM) && (my + 1 <? IM) then
    foldM (fun g p => set W g (fst p) (snd p) true) ps (a_new bool W (mx + 1) (my + 1) false)
  else None) = Some g /\ wf g /\ width_ g = rows_of ps /\ height_ g = cols_of ps /\
   forall i j, link g i j <-> In (i, j) ps.
Proof.
  unfold rows_of, cols_of. intros L1 L2 L3. cbv zeta.
  rewrite !mxf_max. fold (list_max (map fst ps)) (list_max (map snd ps)). rewrite !Nat.add_1_r.
  rewrite (proj2 (Nat.ltb_lt _ _) L1), (proj2 (Nat.ltb_lt _ _) L2). cbn [andb].
  destruct (new_ok _ _ L3) as (Hn & E1 & E2 & G).
  destruct (set_points_ok ps _ Hn) as (g & E & Hg & W1 & W2 & K).
  - intros i j I. rewrite E1, E2.
    pose proof (proj1 (list_max_le (map fst ps) _) (le_n _)) as M1.
    pose proof (proj1 (list_max_le (map snd ps) _) (le_n _)) as M2.
    rewrite Forall_forall in M1, M2. split; apply Nat.lt_succ_r; [apply M1|apply M2];
     apply in_map_iff; exists (i, j); auto.
  - exists g. split; auto. split; auto. split; [congruence|]. split; [congruence|].
    intros i j. rewrite K. split; [|tauto]. intros [X|X]; auto. exfalso.
    pose proof (get_range _ _ _ _ X) as R. unfold link in X. rewrite G in X by lia. discriminate.
Qed.

(** rfind *)
Lemma prefixb_124 l : prefixb sep l = true -> exists r, l = sep ++ r.
Proof.
  unfold sep. intros H.
  do 5 (destruct l as [|? l]; [cbn [prefixb] in H; try discriminate; rewrite ?andb_false_r in H; discriminate|];
     cbn [prefixb] in H; apply andb_true_iff in H; destruct H as [K H]; apply Nat.eqb_eq in K; subst).
  exists l. reflexivity.
Qed.
Lemma no_sep : forall l, ~ In 124 l -> after_last_sep l = None.
Proof.
  induction l; intros N; cbn [after_last_sep]; auto. rewrite IHl by (intro; apply N; simpl; auto).
  destruct (prefixb sep (a :: l)) eqn:E; auto. apply prefixb_124 in E. destruct E as [r E].
  exfalso. apply N. rewrite E. simpl; auto.
Qed.
Lemma last_sep : forall p t, ~ In 124 t -> after_last_sep (p ++ sep ++ t) = Some t.
Proof.
  induction p; intros t N.
  - cbn [app]. unfold sep. cbn [app after_last_sep]. rewrite no_sep by auto.
    assert (forall u, prefixb sep (124 :: u) = false) as F by reflexivity. rewrite !F.
    assert (prefixb sep (32 :: t) = false) as ->.
    { destruct (prefixb sep (32 :: t)) eqn:E; auto. apply prefixb_124 in E. destruct E as [r E].
      exfalso. apply N. inversion E. simpl; auto. }
    reflexivity.
  - cbn [app after_last_sep]. now rewrite IHp.
Qed.

Lemma numeral_no124 ds n : numeral ds n -> ~ In 124 ds.
Proof. intros (_ & F & _) K. rewrite Forall_forall in F. apply F in K. lia. Qed.
Lemma text_no124 ps t : points_text ps t -> ~ In 124 t.
Proof.
  induction 1; auto.
  - rewrite !in_app_iff. intros [K|[[K|[]]|[K|K]]]; try discriminate.
    + exact (numeral_no124 _ _ H K).
    + exact (numeral_no124 _ _ H0 K).
    + apply repeat_spec in K. discriminate.
  - rewrite !in_app_iff. intros [K|[[K|[]]|[K|[K|K]]]]; try discriminate; auto.
    + exact (numeral_no124 _ _ H K).
    + exact (numeral_no124 _ _ H0 K).
    + apply repeat_spec in K. discriminate.
Qed.

Lemma text_len ps t : points_text ps t -> length ps <= length t.
Proof.
  induction 1; cbn; auto.
  - destruct (numeral_hd _ _ H) as (c & r & -> & _). cbn. lia.
  - repeat (rewrite app_length; cbn [length]). lia.
Qed.

Definition reads (ps : list (nat * nat)) (o : option grid) : Prop :=
  exists g, o = Some g /\ wf g /\ width_ g = rows_of ps /\ height_ g = cols_of ps /\
    forall i j, link g i j <-> In (i, j) ps.

Lemma small_of ps : rows_of ps < IM -> cols_of ps < IM -> small ps.
Proof.
  unfold rows_of, cols_of, small. intros H1 H2. apply Forall_forall. intros [i j] I. cbn.
  pose proof (proj1 (list_max_le (map fst ps) _) (le_n _)) as M1.
  pose proof (proj1 (list_max_le (map snd ps) _) (le_n _)) as M2.
  rewrite Forall_forall in M1, M2.
  assert (i <= list_max (map fst ps)) by (apply M1, in_map_iff; exists (i, j); auto).
  assert (j <= list_max (map snd ps)) by (apply M2, in_map_iff; exists (i, j); auto). lia.
Qed.

Lemma read_ok ps t tail : points_text ps t -> eol tail -> ~ In 124 tail ->
  rows_of ps < IM -> cols_of ps < IM -> rows_of ps * cols_of ps < W ->
  reads ps (read_grid W IM (t ++ tail)) /\ forall pre, reads ps (read_grid W IM (pre ++ sep ++ t ++ tail)).
Proof.
  intros H T N L1 L2 L3. unfold read_grid, start_of.
  assert (N' : ~ In 124 (t ++ tail)).
  { rewrite in_app_iff. intros [K|K]; auto. now apply (text_no124 _ _ H). }
  pose proof (text_len _ _ H) as Len. split.
  - rewrite no_sep by auto. rewrite (read_points_ok ps t H); auto.
    + apply build_ok; auto.
    + now apply small_of.
    + rewrite app_length. lia.
  - intros pre. rewrite last_sep by auto. rewrite (read_points_ok ps t H); auto.
    + apply build_ok; auto.
    + now apply small_of.
    + rewrite !app_length. lia.
Qed.

(** serialize *)
Lemma pharaoh_snoc : forall ps i j, pharaoh (ps ++ [(i, j)]) =
  pharaoh ps ++ (match ps with [] => [] | _ => [32] end) ++ show i ++ [45] ++ show j.
Proof.
  induction ps as [|[a b] ps IH]; intros i j; auto.
  destruct ps as [|q ps].
  - cbn [app pharaoh]. rewrite <- !app_assoc. reflexivity.
  - change (((a, b) :: q :: ps) ++ [(i, j)]) with ((a, b) :: ((q :: ps) ++ [(i, j)])).
    assert (E : forall l, l <> [] -> pharaoh ((a, b) :: l) = show a ++ [45] ++ show b ++ [32] ++ pharaoh l).
    { intros l Hl. destruct l; [congruence|reflexivity]. }
    rewrite E by (destruct ps; discriminate). rewrite IH, E by discriminate. rewrite <- !app_assoc. reflexivity.
Qed.

Lemma pharaoh_text : forall ps, points_text ps (pharaoh ps).
Proof.
  induction ps as [|[i j] ps IH]; [constructor|]. destruct ps as [|q ps].
  - cbn [pharaoh]. replace (show i ++ [45] ++ show j) with (show i ++ [45] ++ show j ++ repeat 32 0).
    + apply pt_last; apply show_ok.
    + cbn. now rewrite app_nil_r.
  - change (pharaoh ((i, j) :: q :: ps)) with (show i ++ [45] ++ show j ++ repeat 32 1 ++ pharaoh (q :: ps)).
    apply pt_cons; auto; try apply show_ok. discriminate.
Qed.

Lemma serialize_ok a : wf a ->
  exists ps, serialize W a = Some (pharaoh ps ++ [10]) /\ StronglySorted plt ps /\
    forall i j, In (i, j) ps <-> link a i j.
Proof.
  intros Hw. unfold serialize. set (f := fun p : nat * nat => lk a (fst p) (snd p)).
  destruct (foldM_inv (ser_step W a) (fun done s => s = (pharaoh (filter f done), match filter f done with [] => false | _ => true end))
    (cells (width_ a) (height_ a)) ([], false)) as (s & E & Q).
  - reflexivity.
  - intros done [i j] rest s El ->. unfold ser_step. cbn [fst snd].
    assert (i < width_ a /\ j < height_ a) as [Li Lj] by (apply in_cells; eapply in_done; eauto).
    destruct (get_in a i j Hw Li Lj) as [u Eu]. rewrite Eu.
    assert (f (i, j) = u) as F.
    { unfold f; simpl. unfold lk. destruct (link_dec a i j) as [K|K]; unfold link in K; destruct u; congruence. }
    rewrite filter_app. cbn [filter]. rewrite F. eexists; split; [reflexivity|]. destruct u.
    + rewrite pharaoh_snoc. f_equal.
      * f_equal. destruct (filter f done); auto.
      * destruct (filter f done); auto.
    + rewrite app_nil_r. auto.
  - rewrite E, Q. cbn [fst]. exists (filter f (cells (width_ a) (height_ a))). split; auto. split.
    + apply sorted_filter, sorted_cells.
    + intros i j. rewrite filter_In, in_cells. unfold f; cbn [fst snd]. rewrite lk_true. split; [tauto|].
      intros K. pose proof (get_range _ _ _ _ K). tauto.
Qed.

Lemma roundtrip a : wf a -> width_ a < IM -> height_ a < IM -> 1 < IM -> 1 < W ->
  exists t g, serialize W a = Some t /\ read_grid W IM t = Some g /\ wf g /\
    forall i j, link g i j <-> link a i j.
Proof.
  intros Hw L1 L2 M1 M2. destruct (serialize_ok a Hw) as (ps & E & S & K).
  exists (pharaoh ps ++ [10]).
  assert (B : ps <> [] -> rows_of ps <= width_ a /\ cols_of ps <= height_ a).
  { intros NE. unfold rows_of, cols_of. destruct ps as [|[i0 j0] ps']; [congruence|].
    pose proof (get_range _ _ _ _ (proj1 (K i0 j0) (or_introl eq_refl))) as [R1 R2].
    remember ((i0, j0) :: ps') as ps eqn:Eps. clear Eps NE.
    assert (list_max (map fst ps) <= width_ a - 1).
    { apply list_max_le, Forall_forall. intros x Hx. apply in_map_iff in Hx. destruct Hx as ([i j] & <- & I).
      apply K in I. apply get_range in I. cbn. lia. }
    assert (list_max (map snd ps) <= height_ a - 1).
    { apply list_max_le, Forall_forall. intros x Hx. apply in_map_iff in Hx. destruct Hx as ([i j] & <- & I).
      apply K in I. apply get_range in I. cbn. lia. }
    lia. }
  assert (B' : rows_of ps < IM /\ cols_of ps < IM /\ rows_of ps * cols_of ps < W).
  { destruct ps as [|p ps']; [unfold rows_of, cols_of; cbn; lia|].
    destruct B as [B1 B2]; [discriminate|]. destruct Hw as [H1 H2]. repeat split; try lia.
    eapply Nat.le_lt_trans; [apply Nat.mul_le_mono; eassumption|auto]. }
  destruct B' as (B1 & B2 & B3).
  destruct (read_ok ps (pharaoh ps) [10] (pharaoh_text ps)) as [(g & Eg & Hg & _ & _ & G) _]; auto; cbn; auto.
  - intros [X|[]]; discriminate.
  - exists g. repeat split; auto; try apply Hg; intros X; [apply K, G|apply G, K]; auto.
Qed.
End AL.
