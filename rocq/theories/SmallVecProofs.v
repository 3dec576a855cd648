From Coq Require Import List Arith Bool Lia.
From Verif Require Import SmallVec.
Import ListNotations.

Section SV.
Variable T : Type.
Variable teqb : T -> T -> bool.
Variable tdef : T.
Variables M W A : nat.
Hypothesis M_ok : 1 <= M.
Hypothesis W_ok : 2 * M < W.
Hypothesis A_ok : A <= W.

Notation cell := (option T).
Notation exec := (exec T tdef M W A).
Notation exec_all := (exec_all T tdef M W A).

(** ** Specification: variables hold ideal sequences of cells ([None] = an
    indeterminate element, which only CNewN creates). *)
Definition spec := nat -> option (list cell).
Definition sput (l : list cell) (i : nat) (v : T) : list cell :=
  firstn i l ++ Some v :: skipn (S i) l.
Definition sget (s : spec) (x : nat) : list cell := match s x with Some l => l | None => [] end.
Definition sexec (s : spec) (c : cmd T) : spec :=
  match c with
  | CNew _ x => upd s x (Some [])
  | CNewN _ x n => upd s x (Some (repeat (if n <=? M then Some tdef else None) n))
  | CNewRange _ x l => upd s x (Some (map Some l))
  | CNewCopy _ x y => upd s x (s y)
  | CAssign _ x y => upd s x (s y)
  | CDelete _ x => upd s x None
  | CClear _ x => upd s x (Some [])
  | CPush _ x v => upd s x (Some (sget s x ++ [Some v]))
  | CPop _ x => upd s x (Some (removelast (sget s x)))
  | CCompact _ x n => upd s x (Some (firstn n (sget s x)))
  | CResize _ x n v =>
      upd s x (Some (firstn n (sget s x) ++ repeat (Some v) (n - length (sget s x))))
  | CPut _ x i v => upd s x (Some (sput (sget s x) i v))
  | CErase _ x i j => upd s x (Some (firstn i (sget s x) ++ skipn j (sget s x)))
  | CSwap _ x y => upd (upd s x (s y)) y (s x)
  end.
(** The client's obligations: lifetimes, index ranges, size limits. *)
Definition is_live (s : spec) (x : nat) : Prop := s x <> None.
Definition cmd_ok (s : spec) (c : cmd T) : Prop :=
  match c with
  | CNew _ x => ~ is_live s x
  | CNewN _ x n => ~ is_live s x /\ n < A
  | CNewRange _ x l => ~ is_live s x /\ length l < A
  | CNewCopy _ x y => ~ is_live s x /\ is_live s y
  | CAssign _ x y => is_live s x /\ is_live s y
  | CDelete _ x | CClear _ x => is_live s x
  | CPush _ x v => is_live s x /\ length (sget s x) + 1 < W
  | CPop _ x => is_live s x /\ sget s x <> []
  | CCompact _ x n => is_live s x /\ n <= length (sget s x)
  | CResize _ x n v => is_live s x /\ n < W
  | CPut _ x i v => is_live s x /\ i < length (sget s x)
  | CErase _ x i j => is_live s x /\ i <= j <= length (sget s x)
  | CSwap _ x y => is_live s x /\ is_live s y
  end.
Fixpoint prog_ok (s : spec) (p : list (cmd T)) : Prop :=
  match p with [] => True | c :: p' => cmd_ok s c /\ prog_ok (sexec s c) p' end.
Definition spec0 : spec := fun _ => None.

(** ** List facts *)
Lemma set_at_len {X} : forall (l : list X) i x, length (set_at l i x) = length l.
Proof. induction l; destruct i; simpl; auto. Qed.
Lemma set_at_same {X} : forall (l : list X) i x, i < length l -> nth_error (set_at l i x) i = Some x.
Proof. induction l; destruct i; simpl; intros; try lia; auto. apply IHl; lia. Qed.
Lemma set_at_other {X} : forall (l : list X) i j x, i <> j -> nth_error (set_at l i x) j = nth_error l j.
Proof. induction l; destruct i, j; simpl; intros; auto; try lia. Qed.
Lemma splice_len {X} (l : list X) off new : off + length new <= length l ->
  length (splice l off new) = length l.
Proof. intros. unfold splice. rewrite !app_length, firstn_length, skipn_length. lia. Qed.
Lemma firstn_splice {X} (l : list X) off new n : off + length new <= length l ->
  n = off + length new -> firstn n (splice l off new) = firstn off l ++ new.
Proof.
  intros H ->. unfold splice. rewrite app_assoc, firstn_app.
  rewrite firstn_all2 by (rewrite app_length, firstn_length; lia).
  replace (off + length new - _) with 0 by (rewrite app_length, firstn_length; lia).
  simpl. apply app_nil_r.
Qed.
Lemma firstn_firstn_le {X} (l : list X) n m : n <= m -> firstn n (firstn m l) = firstn n l.
Proof. intros. rewrite firstn_firstn. f_equal. lia. Qed.

Lemma nth_lt {X} (h : list X) a x : nth_error h a = Some x -> a < length h.
Proof. intros H. apply nth_error_Some. congruence. Qed.

(** ** Heap steps with footprints *)
Notation heap := (list (option (list cell))).
Definition hstep (h : heap) (f : option nat) (h' : heap) (f' : option nat) : Prop :=
  (forall a, f <> Some a -> a < length h -> nth_error h' a = nth_error h a) /\
  (forall a, f' = Some a -> f = Some a \/ length h <= a) /\
  length h <= length h' /\
  (forall a b, nth_error h' a = Some (Some b) -> f' = Some a \/ (f <> Some a /\ a < length h)).

Lemma hstep_trans h f h1 f1 h2 f2 : hstep h f h1 f1 -> hstep h1 f1 h2 f2 -> hstep h f h2 f2.
Proof.
  intros (A1 & B1 & C1 & D1) (A2 & B2 & C2 & D2).
  assert (Hf : forall a, f <> Some a -> a < length h -> f1 <> Some a).
  { intros a Ha Hl E. destruct (B1 a E); [congruence|lia]. }
  split; [|split; [|split]].
  - intros a Ha Hl. rewrite A2; [apply A1; auto|apply Hf; auto|lia].
  - intros a E. destruct (B2 a E); [apply B1; auto | right; lia].
  - lia.
  - intros a b E. destruct (D2 a b E) as [|[N L]]; auto.
    rewrite A2 in E by auto. destruct (D1 a b E); [congruence|auto].
Qed.

Definition blk_at (h : heap) (a : nat) (b : list cell) : Prop := nth_error h a = Some (Some b).

Lemma get_block_ok h a b : blk_at h a b -> get_block T h a = Ok b.
Proof. unfold blk_at, get_block. intros ->. reflexivity. Qed.

Lemma alloc_at (h : heap) n : blk_at (h ++ [Some (repeat None n)]) (length h) (repeat None n).
Proof. unfold blk_at. rewrite nth_error_app2, Nat.sub_diag by lia. reflexivity. Qed.
Lemma hstep_refl (h : heap) f : (forall b a, nth_error h a = Some (Some b) -> f = Some a -> True) ->
  (forall a, f = Some a -> a < length h) -> hstep h f h f.
Proof.
  intros _ H. split; [|split; [|split]]; auto.
  intros a b E. pose proof (nth_lt _ _ _ E).
  destruct f as [p|]; [|right; split; [discriminate|auto]].
  destruct (Nat.eq_dec p a); [left; subst; auto|right; split; [congruence|auto]].
Qed.
Lemma hstep_refl_none (h : heap) : hstep h None h None.
Proof. apply hstep_refl; auto; discriminate. Qed.
Lemma hstep_refl_blk (h : heap) a b : blk_at h a b -> hstep h (Some a) h (Some a).
Proof. intros B. apply hstep_refl; auto. intros a' [= <-]. eapply nth_lt; exact B. Qed.

Lemma hstep_alloc (h : heap) n :
  hstep h None (h ++ [Some (repeat None n)]) (Some (length h)).
Proof.
  split; [|split; [|split]].
  - intros. apply nth_error_app1; auto.
  - intros a [= <-]. right; lia.
  - rewrite app_length. lia.
  - intros a b E. pose proof (nth_lt _ _ _ E) as L. rewrite app_length in L; simpl in L.
    destruct (Nat.eq_dec a (length h)); [left; congruence|right; split; [discriminate|lia]].
Qed.
Lemma hstep_set (h : heap) a b b' : blk_at h a b ->
  hstep h (Some a) (set_at h a (Some b')) (Some a) /\ blk_at (set_at h a (Some b')) a b'.
Proof.
  intros B. pose proof (nth_lt _ _ _ B). split; [|apply set_at_same; auto].
  split; [|split; [|split]].
  - intros a' N _. apply set_at_other. congruence.
  - auto.
  - rewrite set_at_len. lia.
  - intros a' b2 E. pose proof (nth_lt _ _ _ E) as L. rewrite set_at_len in L.
    destruct (Nat.eq_dec a a'); [left; congruence|right; split; [congruence|lia]].
Qed.
Lemma free_ok (h : heap) a b : blk_at h a b ->
  free T h a = Ok (set_at h a None) /\ hstep h (Some a) (set_at h a None) None.
Proof.
  intros B. pose proof (nth_lt _ _ _ B). unfold free. rewrite (get_block_ok _ _ _ B). simpl.
  split; auto. split; [|split; [|split]].
  - intros a' N _. apply set_at_other. congruence.
  - discriminate.
  - rewrite set_at_len. lia.
  - intros a' b2 E. pose proof (nth_lt _ _ _ E) as L. rewrite set_at_len in L.
    right. split; auto. intros [= ->]. rewrite set_at_same in E by auto. discriminate.
Qed.
Lemma blk_read_ok (h : heap) a b off n : blk_at h a b -> off + n <= length b ->
  blk_read T h a off n = Ok (firstn n (skipn off b)).
Proof.
  intros B L. unfold blk_read. rewrite (get_block_ok _ _ _ B). simpl.
  destruct (Nat.leb_spec (off + n) (length b)); [reflexivity|lia].
Qed.
Lemma blk_write_ok (h : heap) a b off new : blk_at h a b -> off + length new <= length b ->
  exists h', blk_write T h a off new = Ok h' /\ hstep h (Some a) h' (Some a) /\
     blk_at h' a (splice b off new).
Proof.
  intros B L. unfold blk_write. rewrite (get_block_ok _ _ _ B). simpl.
  destruct (Nat.leb_spec (off + length new) (length b)); [|lia].
  eexists; split; [reflexivity|]. apply (hstep_set h a b); auto.
Qed.

(** Reallocation: new block, copy, free the old one. *)
Lemma realloc_hstep (h : heap) p b n new h2 : blk_at h p b ->
  blk_write T (h ++ [Some (repeat None n)]) (length h) 0 new = Ok h2 ->
  length new <= n ->
  exists h3, free T h2 p = Ok h3 /\ hstep h (Some p) h3 (Some (length h)) /\
     blk_at h3 (length h) (splice (repeat None n) 0 new).
Proof.
  intros B E L. pose proof (nth_lt _ _ _ B) as Lp.
  destruct (blk_write_ok _ _ _ 0 new (alloc_at h n)) as (h2' & E' & S & B').
  { rewrite repeat_length; lia. }
  rewrite E in E'. inversion E'; subst h2'. clear E'.
  destruct S as (S1 & S2 & S3 & S4).
  assert (Bp : blk_at h2 p b).
  { unfold blk_at. rewrite S1; [|intros [= ?]; lia|rewrite app_length; simpl; lia].
    rewrite nth_error_app1 by auto. exact B. }
  destruct (free_ok _ _ _ Bp) as [F (F1 & F2 & F3 & F4)].
  eexists; split; [exact F|]. split; [|].
  - rewrite app_length in *; simpl in *. split; [|split; [|split]].
    + intros a Na La. rewrite F1; [|auto|lia]. rewrite S1; [|intros [= ?]; lia|lia].
      apply nth_error_app1; auto.
    + intros a [= <-]. right; lia.
    + lia.
    + intros a b2 E2. destruct (F4 _ _ E2) as [|[N La]]; [discriminate|].
      destruct (Nat.eq_dec a (length h)); [left; congruence|right; split; auto].
      rewrite F1 in E2 by auto. destruct (S4 _ _ E2) as [X|[X1 X2]]; [congruence|lia].
  - unfold blk_at. rewrite F1; [exact B'|intros [= ?]; lia|].
    eapply nth_lt; exact B'.
Qed.

(** ** Objects *)
Notation sv := (sv T).
Notation vals_of := (vals_of T M).
Definition fp (o : sv) : option nat :=
  if size T o <=? M then None else match dat T o with Ptr _ a => Some a | Vals _ _ => None end.
Definition small_ok (o : sv) (l : list cell) : Prop :=
  length l <= M /\ length (vals_of (dat T o)) = M /\ firstn (length l) (vals_of (dat T o)) = l.
Definition big_ok (h : heap) (o : sv) (l : list cell) : Prop :=
  M < length l /\ length l <= cap T o < W /\
  exists a b, dat T o = Ptr T a /\ blk_at h a b /\ length b = cap T o /\ firstn (length l) b = l.
Definition obj_ok (h : heap) (o : sv) (l : list cell) : Prop :=
  size T o = length l /\ length l < W /\ (small_ok o l \/ big_ok h o l).

Lemma small_fp o (l : list cell) : size T o = length l -> small_ok o l -> fp o = None.
Proof. intros S (L & _). unfold fp. destruct (Nat.leb_spec (size T o) M); auto; lia. Qed.
Lemma big_fp o (l : list cell) a : size T o = length l -> M < length l -> dat T o = Ptr T a -> fp o = Some a.
Proof. intros S L E. unfold fp. destruct (Nat.leb_spec (size T o) M); [lia|]. rewrite E. auto. Qed.

(** Result of an operation: succeeds, new contents [l'], framing. *)
Definition good (h : heap) (f : option nat) (r : res (heap * sv)) (l' : list cell) : Prop :=
  exists h' o', r = Ok (h', o') /\ obj_ok h' o' l' /\ hstep h f h' (fp o').

Lemma wr16_small n : n < W -> wr16 W n = n.
Proof. intros. unfold wr16. apply Nat.mod_small; auto. Qed.

Lemma vals_of_Vals v : vals_of (Vals T v) = v. Proof. reflexivity. Qed.
Lemma vals_len_rep : length (vals_of (Vals T (repeat None M))) = M.
Proof. simpl. apply repeat_length. Qed.

Lemma vals_read_ok d off n : off + n <= M ->
  vals_read T M d off n = Ok (firstn n (skipn off (vals_of d))).
Proof. intros. unfold vals_read. destruct (Nat.leb_spec (off + n) M); auto; lia. Qed.
Lemma vals_write_ok d off new : off + length new <= M -> 
  vals_write T M d off new = Ok (Vals T (splice (vals_of d) off new)).
Proof. intros. unfold vals_write. destruct (Nat.leb_spec (off + length new) M); auto; lia. Qed.

(** Whatever the union holds, its inline view has M cells. *)
Definition data_wf (d : data T) : Prop := length (vals_of d) = M.
Lemma ptr_wf a : data_wf (Ptr T a).
Proof. unfold data_wf. simpl. apply repeat_length. Qed.
Lemma obj_wf h o l : obj_ok h o l -> data_wf (dat T o).
Proof.
  intros (_ & _ & [ (_ & H & _) | (_ & _ & a & b & E & _) ]); auto.
  rewrite E. apply ptr_wf.
Qed.

Lemma mk_small h f h' (v : list cell) n c l : length v = M -> n = length l -> n <= M ->
  firstn n v = l -> hstep h f h' None ->
  good h f (Ok (h', mkSv T (Vals T v) n c)) l.
Proof.
  intros Hv Hn HM Hl S. exists h', (mkSv T (Vals T v) n c). split; auto.
  assert (O : small_ok (mkSv T (Vals T v) n c) l).
  { split; [lia|]. simpl. split; auto. subst n; auto. }
  split.
  - split; [simpl; auto|]. split; [lia|]. left; auto.
  - erewrite small_fp; eauto.
Qed.
Lemma mk_big h f h' a b n c l : blk_at h' a b -> length b = c -> n = length l -> M < n ->
  n <= c -> c < W -> firstn n b = l -> hstep h f h' (Some a) ->
  good h f (Ok (h', mkSv T (Ptr T a) n c)) l.
Proof.
  intros B Lb Hn HM Hc HW Hl S. exists h', (mkSv T (Ptr T a) n c). split; auto. split.
  - split; [simpl; auto|]. split; [lia|]. right. split; [lia|]. simpl. split; [lia|].
    exists a, b. subst n. auto.
  - erewrite big_fp; eauto; simpl; auto. lia.
Qed.

Lemma skipn_0 {X} (l : list X) : skipn 0 l = l. Proof. reflexivity. Qed.

(** Constructors *)
Lemma ctor_good h : good h None (ctor T M h) [].
Proof. apply mk_small; auto; try (simpl; lia). apply repeat_length. apply hstep_refl_none. Qed.

Lemma Alloc_small h s : s < A -> s <= M ->
  Alloc T M W A h s = Ok (h, mkSv T (Vals T (repeat None M)) s 0).
Proof.
  intros. unfold Alloc. destruct (Nat.ltb_spec s A); [|lia]. simpl.
  destruct (Nat.ltb_spec M s); [lia|]. rewrite wr16_small by lia. auto.
Qed.
Lemma Alloc_big h s : s < A -> M < s ->
  Alloc T M W A h s = Ok (h ++ [Some (repeat None s)], mkSv T (Ptr T (length h)) s s).
Proof.
  intros. unfold Alloc. destruct (Nat.ltb_spec s A); [|lia]. simpl.
  destruct (Nat.ltb_spec M s); [|lia]. rewrite wr16_small by lia. auto.
Qed.

Lemma firstn_rep {X} (x : X) n m : n <= m -> firstn n (repeat x m) = repeat x n.
Proof. revert m; induction n; intros; simpl; auto. destruct m; [lia|]. simpl. f_equal. apply IHn; lia. Qed.

Lemma ctor_n_good h n : n < A ->
  good h None (ctor_n T tdef M W A h n) (repeat (if n <=? M then Some tdef else None) n).
Proof.
  intros L. unfold ctor_n. destruct (Nat.leb_spec n M).
  - rewrite Alloc_small by lia. cbn [bind dat size cap].
    rewrite vals_write_ok by (rewrite repeat_length; lia). cbn [bind].
    apply mk_small; try (rewrite ?repeat_length; lia).
    + simpl. rewrite splice_len; rewrite ?repeat_length; lia.
    + simpl. rewrite firstn_splice; rewrite ?repeat_length; try lia. reflexivity.
    + apply hstep_refl_none.
  - rewrite Alloc_big by lia. cbn [bind].
    apply mk_big with (b := repeat None n); try (rewrite ?repeat_length; lia).
    + apply alloc_at. + apply firstn_rep; lia. + apply hstep_alloc.
Qed.

Lemma ctor_range_good h l : length l < A -> good h None (ctor_range T M W A h l) (map Some l).
Proof.
  intros L. unfold ctor_range. destruct (Nat.leb_spec (length l) M).
  - rewrite Alloc_small by lia. cbn [bind dat size cap].
    rewrite vals_write_ok by (rewrite map_length; lia). cbn [bind].
    apply mk_small; try (rewrite ?map_length; lia).
    + simpl. rewrite splice_len; rewrite ?map_length, ?repeat_length; lia.
    + simpl. rewrite firstn_splice; rewrite ?map_length, ?repeat_length; try lia. reflexivity.
    + apply hstep_refl_none.
  - rewrite Alloc_big by lia. cbn [bind dat ptr_of].
    destruct (blk_write_ok _ _ _ 0 (map Some l) (alloc_at h (length l))) as (h2 & E & S & B).
    { rewrite map_length, repeat_length. lia. }
    rewrite E. cbn [bind].
    apply mk_big with (b := splice (repeat None (length l)) 0 (map Some l)); auto;
      try (rewrite ?map_length; lia).
    + rewrite splice_len; rewrite ?map_length, ?repeat_length; lia.
    + rewrite firstn_splice; rewrite ?map_length, ?repeat_length; try lia. reflexivity.
    + eapply hstep_trans; [apply hstep_alloc|exact S].
Qed.

Lemma blk_app (h : heap) a b x : blk_at h a b -> blk_at (h ++ [x]) a b.
Proof. intros B. unfold blk_at. rewrite nth_error_app1; auto. eapply nth_lt; exact B. Qed.

Lemma small_or_big h o l : obj_ok h o l ->
  (size T o <= M /\ small_ok o l) \/
  (M < size T o /\ exists a b, dat T o = Ptr T a /\ blk_at h a b /\ length b = cap T o /\
     firstn (length l) b = l /\ size T o <= cap T o < W /\ fp o = Some a).
Proof.
  intros (E & L & [H|H]).
  - left. split; auto. destruct H; lia.
  - right. destruct H as (HM & Hc & a & b & Ea & Bb & Lb & Fb). split; [lia|].
    exists a, b. repeat split; auto; try lia. eapply big_fp; eauto.
Qed.


(** Allocate a block of exactly the source's size and copy (lines 82-84, 111-113). *)
Lemma alloc_copy (h : heap) (s : sv) (l : list cell) a b :
  size T s = length l -> length l < W -> M < length l ->
  dat T s = Ptr T a -> blk_at h a b -> length l <= length b -> firstn (length l) b = l ->
  exists h2, bind (ptr_of T (dat T s)) (fun src =>
    bind (blk_read T (h ++ [Some (repeat None (size T s))]) src 0 (size T s)) (fun c =>
    bind (blk_write T (h ++ [Some (repeat None (size T s))]) (length h) 0 c) (fun h2 =>
    Ok (h2, mkSv T (Ptr T (length h)) (size T s) (size T s)))))
   = Ok (h2, mkSv T (Ptr T (length h)) (size T s) (size T s)) /\
  good h None (Ok (h2, mkSv T (Ptr T (length h)) (size T s) (size T s))) l.
Proof.
  intros Es LW LM Ed B Lb Fb. rewrite Ed. cbn [ptr_of bind].
  rewrite (blk_read_ok _ _ b) by (auto using blk_app; lia). cbn [bind]. rewrite skipn_0, Es, Fb.
  destruct (blk_write_ok _ _ _ 0 l (alloc_at h (length l))) as (h2 & E & S & B').
  { rewrite repeat_length. lia. }
  rewrite E. cbn [bind]. exists h2. split; auto.
  apply mk_big with (b := splice (repeat None (length l)) 0 l); auto; try lia.
  - rewrite splice_len; rewrite ?repeat_length; lia.
  - rewrite firstn_splice; rewrite ?repeat_length; try lia. reflexivity.
  - eapply hstep_trans; [apply hstep_alloc|exact S].
Qed.

Lemma ctor_copy_good h o l : obj_ok h o l -> good h None (ctor_copy T M h o) l.
Proof.
  intros O. pose proof O as (Es & LW & _).
  unfold ctor_copy. destruct (small_or_big _ _ _ O) as [(HM & H1 & H2 & H3)|(HM & a & b & Ed & B & Lb & Fb & Hc & _)].
  - destruct (Nat.leb_spec (size T o) M); [|lia].
    rewrite vals_read_ok by lia. cbn [bind]. rewrite skipn_0, Es, H3.
    rewrite vals_write_ok by lia. cbn [bind].
    apply mk_small; auto.
    + rewrite vals_of_Vals, splice_len; rewrite ?repeat_length; lia.
    + rewrite vals_of_Vals, firstn_splice; rewrite ?repeat_length; try lia. reflexivity.
    + apply hstep_refl_none.
  - destruct (Nat.leb_spec (size T o) M); [lia|]. cbn [alloc].
    destruct (alloc_copy h o l a b) as (h2 & E & G); auto; try lia. rewrite E. exact G.
Qed.

(** Two objects in the same heap are separate (or the same). *)
Definition sep (o s : sv) : Prop := o = s \/ (fp o = None \/ fp s = None \/ fp o <> fp s).

Lemma assign_good h o s lo ls : obj_ok h o lo -> obj_ok h s ls -> sep o s ->
  good h (fp o) (assign T M h o s) ls.
Proof.
  intros O S Sep. pose proof O as (Eo & LWo & _). pose proof S as (Es & LWs & _).
  pose proof (obj_wf _ _ _ O) as Wo. unfold data_wf in Wo.
  unfold assign.
  destruct (small_or_big _ _ _ O) as [(HM & Ho)|(HM & a & b & Ed & B & Lb & Fb & Hc & Hf)];
  destruct (small_or_big _ _ _ S) as [(HM' & S1 & S2 & S3)|(HM' & a' & b' & Ed' & B' & Lb' & Fb' & Hc' & Hf')].
  - destruct (Nat.leb_spec (size T o) M); [|lia]. destruct (Nat.leb_spec (size T s) M); [|lia].
    rewrite vals_read_ok by lia. cbn [bind]. rewrite skipn_0, firstn_all2 by lia.
    rewrite vals_write_ok by lia. cbn [bind].
    rewrite (small_fp o lo) by auto.
    apply mk_small; auto.
    + rewrite splice_len; lia.
    + unfold splice. simpl. rewrite firstn_app, S2.
      replace (size T s - M) with 0 by lia. simpl. rewrite app_nil_r, Es. auto.
    + apply hstep_refl_none.
  - destruct (Nat.leb_spec (size T o) M); [|lia]. destruct (Nat.leb_spec (size T s) M); [lia|].
    cbn [alloc]. rewrite (small_fp o lo) by auto.
    destruct (alloc_copy h s ls a' b') as (h2 & E & G); auto; try lia. rewrite E. exact G.
  - destruct (Nat.leb_spec (size T o) M); [lia|]. destruct (Nat.leb_spec (size T s) M); [|lia].
    rewrite Ed. cbn [ptr_of bind]. destruct (free_ok _ _ _ B) as [F HS]. rewrite F. cbn [bind].
    rewrite vals_read_ok by lia. cbn [bind]. rewrite skipn_0, Es, S3.
    rewrite Ed in Wo. rewrite vals_write_ok by lia. cbn [bind]. rewrite Hf.
    apply mk_small; auto.
    + rewrite splice_len; lia.
    + rewrite firstn_splice; auto; lia.
  - destruct (Nat.leb_spec (size T o) M); [lia|]. destruct (Nat.leb_spec (size T s) M); [lia|].
    rewrite Ed. cbn [ptr_of bind]. rewrite Hf.
    destruct (Nat.ltb_spec (cap T o) (size T s)).
    + destruct (free_ok _ _ _ B) as [F HS]. rewrite F. cbn [bind alloc].
      assert (Hne : a <> a').
      { intros ->. destruct Sep as [-> | [H2|[H2|H2]]]; try congruence. lia. }
      assert (B2 : blk_at (set_at h a None) a' b').
      { unfold blk_at. rewrite set_at_other by auto. exact B'. }
      rewrite Ed'. cbn [ptr_of bind].
      rewrite (blk_read_ok _ _ b') by (auto using blk_app; lia). cbn [bind]. rewrite skipn_0, Es, Fb'.
      destruct (blk_write_ok _ _ _ 0 ls (alloc_at (set_at h a None) (length ls))) as (h2 & E & HS2 & B3).
      { rewrite repeat_length. lia. }
      rewrite E. cbn [bind].
      apply mk_big with (b := splice (repeat None (length ls)) 0 ls); auto; try lia.
      * rewrite splice_len; rewrite ?repeat_length; lia.
      * rewrite firstn_splice; rewrite ?repeat_length; try lia. reflexivity.
      * eapply hstep_trans; [exact HS|]. eapply hstep_trans; [apply hstep_alloc|exact HS2].
    + cbn [bind]. rewrite Ed'. cbn [ptr_of bind].
      rewrite (blk_read_ok _ _ b') by (auto; lia). cbn [bind]. rewrite skipn_0, Es, Fb'.
      destruct (blk_write_ok h a b 0 ls B) as (h2 & E & HS2 & B3); [lia|].
      rewrite E. cbn [bind].
      apply mk_big with (b := splice b 0 ls); auto; try lia.
      * rewrite splice_len; lia.
      * rewrite firstn_splice; try lia. reflexivity.
Qed.

Lemma dtor_good h o l : obj_ok h o l -> exists h', dtor T M h o = Ok h' /\ hstep h (fp o) h' None.
Proof.
  intros O. unfold dtor. pose proof O as (Es & _).
  destruct (small_or_big _ _ _ O) as [(HM & H1)|(HM & a & b & Ed & B & Lb & Fb & Hc & Hf)].
  - destruct (Nat.leb_spec (size T o) M); [|lia]. exists h. split; auto.
    rewrite (small_fp o l) by auto. apply hstep_refl_none.
  - destruct (Nat.leb_spec (size T o) M); [lia|]. rewrite Ed. cbn [ptr_of bind].
    destruct (free_ok _ _ _ B) as [F HS]. rewrite F, Hf. eauto.
Qed.

Lemma clear_good h o l : obj_ok h o l -> good h (fp o) (clear T M h o) [].
Proof.
  intros O. unfold clear. pose proof O as (Es & _). pose proof (obj_wf _ _ _ O) as Wo.
  assert (K : forall h', hstep h (fp o) h' None ->
     good h (fp o) (Ok (h', mkSv T (dat T o) 0 (cap T o))) []).
  { intros h' HS. eexists _, _; split; [reflexivity|].
    split.
    - split; [auto|]. split; [simpl; lia|]. left. split; [simpl; lia|]. split; auto.
    - rewrite (small_fp (mkSv T (dat T o) 0 (cap T o)) []); auto.
      split; [simpl; lia|]. split; auto. }
  destruct (small_or_big _ _ _ O) as [(HM & H1)|(HM & a & b & Ed & B & Lb & Fb & Hc & Hf)].
  - destruct (Nat.ltb_spec M (size T o)); [lia|]. cbn [bind]. apply K.
    rewrite (small_fp o l) by auto. apply hstep_refl_none.
  - destruct (Nat.ltb_spec M (size T o)); [|lia]. rewrite Ed. cbn [ptr_of bind].
    destruct (free_ok _ _ _ B) as [F HS]. rewrite F. cbn [bind]. rewrite <- Ed. apply K. rewrite Hf. auto.
Qed.

(** copy_vals_to_ptr / ensure_capacity *)
Lemma cvp_ok h o l : size T o = length l -> small_ok o l -> exists h' b,
  copy_vals_to_ptr T M W h o = Ok (h', mkSv T (Ptr T (length h)) (size T o) (M * 2)) /\
  hstep h None h' (Some (length h)) /\ blk_at h' (length h) b /\ length b = M * 2 /\
  firstn (length l) b = l.
Proof.
  intros Es (L & Wd & Fl). unfold copy_vals_to_ptr. cbn [alloc].
  rewrite wr16_small by lia. rewrite vals_read_ok by lia. cbn [bind].
  rewrite skipn_0, firstn_all2 by lia.
  destruct (blk_write_ok _ _ _ 0 (vals_of (dat T o)) (alloc_at h (M * 2))) as (h2 & E & S & B).
  { rewrite repeat_length. lia. }
  rewrite E. cbn [bind]. eexists _, _. split; [reflexivity|]. split; [|split; [exact B|split]].
  - eapply hstep_trans; [apply hstep_alloc|exact S].
  - rewrite splice_len; rewrite ?repeat_length; lia.
  - unfold splice. simpl. rewrite firstn_app, Wd. replace (length l - M) with 0 by lia.
    simpl. rewrite app_nil_r. auto.
Qed.

Lemma ensure_ok h o a b n : dat T o = Ptr T a -> blk_at h a b -> length b = cap T o ->
  M < n -> n < W -> cap T o < W -> exists h' a' b' c',
  ensure_capacity T M W h o n = Ok (h', mkSv T (Ptr T a') (size T o) c') /\
  hstep h (Some a) h' (Some a') /\ blk_at h' a' b' /\ length b' = c' /\
  firstn (cap T o) b' = b /\ cap T o <= c' /\ n <= c' /\ c' < W.
Proof.
  intros Ed B Lb HM HW Hc. unfold ensure_capacity. rewrite (wr16_small n) by auto.
  destruct (Nat.ltb_spec M n); [|lia]. cbn [check bind].
  destruct (Nat.ltb_spec n (cap T o)).
  - exists h, a, b, (cap T o). rewrite <- Ed.
    split; [|split; [|split; [|split; [|split]]]]; auto; try lia.
    + destruct o; auto.
    + eapply hstep_refl_blk; eauto.
    + apply firstn_all2. lia.
  - set (nc := Nat.max (wr16 W (2 * cap T o)) n). cbn [alloc]. rewrite Ed. cbn [ptr_of bind].
    assert (wr16 W (2 * cap T o) < W) by (apply Nat.mod_upper_bound; lia).
    assert (n <= nc) by apply Nat.le_max_r.
    assert (nc < W) by (apply Nat.max_lub_lt; auto).
    rewrite (blk_read_ok _ _ b) by (auto using blk_app; lia). cbn [bind].
    rewrite skipn_0, firstn_all2 by lia.
    destruct (blk_write_ok _ _ _ 0 b (alloc_at h nc)) as (h2 & E & _ & _).
    { rewrite repeat_length; lia. }
    rewrite E. cbn [bind].
    destruct (realloc_hstep h a b nc b h2 B E) as (h3 & F & S & B3); [lia|].
    rewrite F. cbn [bind]. exists h3, (length h), (splice (repeat None nc) 0 b), nc.
    repeat split; auto; try apply S; try lia.
    + rewrite splice_len; rewrite ?repeat_length; lia.
    + rewrite firstn_splice; rewrite ?repeat_length; try lia. reflexivity.
Qed.

Lemma push_write h f (h1 : heap) o1 a b (l : list cell) v :
  dat T o1 = Ptr T a -> blk_at h1 a b -> length b = cap T o1 -> cap T o1 < W ->
  size T o1 = length l -> M <= length l -> length l < cap T o1 -> firstn (length l) b = l ->
  hstep h f h1 (Some a) ->
  good h f (bind (ptr_of T (dat T o1)) (fun p =>
    bind (blk_write T h1 p (size T o1) [Some v]) (fun h2 =>
    Ok (h2, mkSv T (dat T o1) (wr16 W (size T o1 + 1)) (cap T o1))))) (l ++ [Some v]).
Proof.
  intros Ed B Lb Hc Es HM Hl Fb HS. rewrite Ed. cbn [ptr_of bind].
  destruct (blk_write_ok h1 a b (size T o1) [Some v] B) as (h2 & E & HS2 & B2); [simpl; lia|].
  rewrite E. cbn [bind]. rewrite wr16_small by lia.
  apply mk_big with (b := splice b (size T o1) [Some v]); auto; rewrite ?app_length; simpl; try lia.
  - rewrite splice_len; simpl; lia.
  - rewrite firstn_splice; simpl; try lia. rewrite Es, Fb. auto.
  - eapply hstep_trans; eauto.
Qed.

Lemma push_good h o l v : obj_ok h o l -> length l + 1 < W ->
  good h (fp o) (push_back T M W h o (RExt T v)) (l ++ [Some v]).
Proof.
  intros O L. pose proof O as (Es & _). pose proof (obj_wf _ _ _ O) as Wo. unfold data_wf in Wo.
  unfold push_back. cbn [ref_read].
  destruct (small_or_big _ _ _ O) as [(HM & Hs)|(HM & a & b & Ed & B & Lb & Fb & Hc & Hf)].
  - rewrite (small_fp o l) by auto. destruct (Nat.ltb_spec (size T o) M).
    + cbn [bind]. rewrite vals_write_ok by (simpl; lia). cbn [bind]. rewrite wr16_small by lia.
      apply mk_small; rewrite ?app_length; simpl; try lia.
      * rewrite splice_len; simpl; lia.
      * rewrite firstn_splice; simpl; try lia. rewrite Es. destruct Hs as (_ & _ & ->). auto.
      * apply hstep_refl_none.
    + destruct (Nat.eqb_spec (size T o) M); [|lia].
      destruct (cvp_ok h o l Es Hs) as (h1 & b & E & HS & B & Lb & Fb). rewrite E. cbn [bind].
      eapply push_write with (b := b); simpl; eauto; lia.
  - destruct (Nat.ltb_spec (size T o) M); [lia|]. destruct (Nat.eqb_spec (size T o) M); [lia|].
    rewrite Hf. destruct (Nat.eqb_spec (size T o) (cap T o)).
    + destruct (ensure_ok h o a b (size T o + 1)) as (h' & a' & b' & c' & E & HS & B' & Lb' & Fb' & Hc' & Hn & HW); auto; try lia.
      rewrite E. cbn [bind]. eapply push_write with (b := b'); simpl; eauto; try lia.
      rewrite <- (firstn_firstn_le b' (length l) (cap T o)) by lia. rewrite Fb'. auto.
    + cbn [bind]. eapply push_write with (b := b); eauto; try lia. apply (hstep_refl_blk _ _ _ B).
Qed.

Lemma firstn_le_l {X} (b l : list X) n : firstn (length l) b = l -> n <= length l ->
  firstn n b = firstn n l.
Proof. intros H L. rewrite <- H. rewrite firstn_firstn_le; auto. Qed.

Lemma p2s_ok h o a b (l : list cell) n : dat T o = Ptr T a -> blk_at h a b ->
  firstn (length l) b = l -> length l <= length b -> n = size T o -> n <= M -> n <= length l ->
  good h (Some a) (ptr_to_small T M h o) (firstn n l).
Proof.
  intros Ed B Fb Lb -> HM Hl. unfold ptr_to_small.
  destruct (Nat.leb_spec (size T o) M); [|lia]. cbn [check bind]. rewrite Ed. cbn [ptr_of bind].
  rewrite (blk_read_ok _ _ b) by (auto; lia). cbn [bind]. rewrite skipn_0.
  rewrite (firstn_le_l b l) by auto.
  assert (Ll : length (firstn (size T o) l) = size T o) by (rewrite firstn_length; lia).
  rewrite vals_write_ok by lia. cbn [bind].
  destruct (free_ok _ _ _ B) as [F HS]. rewrite F. cbn [bind].
  pose proof (ptr_wf a) as Wp. unfold data_wf in Wp.
  apply mk_small; auto.
  - rewrite splice_len; lia.
  - rewrite firstn_splice; try lia. reflexivity.
Qed.

Lemma shrink_big h o l n : obj_ok h o l -> M < size T o -> n <= length l -> M < n -> n < W ->
  good h (fp o) (Ok (h, mkSv T (dat T o) n (cap T o))) (firstn n l).
Proof.
  intros O HM Hn HMn HW. pose proof O as (Es & _).
  destruct (small_or_big _ _ _ O) as [(HM' & _)|(_ & a & b & Ed & B & Lb & Fb & Hc & Hf)]; [lia|].
  rewrite Ed, Hf. apply mk_big with (b := b); auto; try lia.
  - rewrite firstn_length; lia.
  - apply firstn_le_l; auto.
  - eapply hstep_refl_blk; eauto.
Qed.
Lemma shrink_small h o l n : obj_ok h o l -> size T o <= M -> n <= length l ->
  good h (fp o) (Ok (h, mkSv T (dat T o) n (cap T o))) (firstn n l).
Proof.
  intros O HM Hn. pose proof O as (Es & _). pose proof (obj_wf _ _ _ O) as Wo.
  destruct (small_or_big _ _ _ O) as [(_ & Hs)|(HM' & _)]; [|lia].
  rewrite (small_fp o l) by auto.
  eexists _, _; split; [reflexivity|].
  assert (S2 : small_ok (mkSv T (dat T o) n (cap T o)) (firstn n l)).
  { destruct Hs as (A1 & A2 & A3). split; [rewrite firstn_length; lia|]. split; auto. simpl.
    rewrite firstn_length. replace (Nat.min n (length l)) with n by lia. apply firstn_le_l; auto. }
  assert (S3 : size T (mkSv T (dat T o) n (cap T o)) = length (firstn n l)).
  { simpl. rewrite firstn_length; lia. }
  split.
  - split; auto. split; [rewrite firstn_length; lia|]. auto.
  - rewrite (small_fp _ (firstn n l)); auto. apply hstep_refl_none.
Qed.

Lemma removelast_first {X} (l : list X) : l <> [] -> removelast l = firstn (length l - 1) l.
Proof. intros. rewrite removelast_firstn_len. f_equal. lia. Qed.

Lemma pop_good h o l : obj_ok h o l -> l <> [] -> good h (fp o) (pop_back T M h o) (removelast l).
Proof.
  intros O NE. pose proof O as (Es & LW & _).
  assert (0 < length l) by (destruct l; [congruence|simpl; lia]).
  rewrite removelast_first by auto. unfold pop_back.
  destruct (Nat.ltb_spec 0 (size T o)); [|lia]. cbn [check bind size].
  destruct (Nat.eqb_spec (size T o - 1) M).
  - destruct (small_or_big _ _ _ O) as [(HM & _)|(HM & a & b & Ed & B & Lb & Fb & Hc & Hf)]; [lia|].
    rewrite Hf. eapply p2s_ok; simpl; eauto; lia.
  - rewrite Es in *. destruct (Nat.le_gt_cases (length l) M).
    + apply shrink_small; auto; lia.
    + apply shrink_big; auto; lia.
Qed.

Lemma compact_good h o l n : obj_ok h o l -> n <= length l ->
  good h (fp o) (compact T M W h o n) (firstn n l).
Proof.
  intros O Hn. pose proof O as (Es & LW & _). unfold compact. rewrite wr16_small by lia.
  destruct (Nat.leb_spec n (size T o)); [|lia]. cbn [check bind].
  destruct (small_or_big _ _ _ O) as [(HM & _)|(HM & a & b & Ed & B & Lb & Fb & Hc & Hf)].
  - destruct (Nat.ltb_spec M (size T o)); [lia|]. apply shrink_small; auto.
  - destruct (Nat.ltb_spec M (size T o)); [|lia]. destruct (Nat.leb_spec n M).
    + rewrite Hf. eapply p2s_ok; simpl; eauto; lia.
    + apply shrink_big; auto. lia.
Qed.

Lemma grow_write h f (h1 : heap) o1 a b (l : list cell) n v :
  dat T o1 = Ptr T a -> blk_at h1 a b -> length b = cap T o1 -> cap T o1 < W ->
  size T o1 = length l -> M < n -> n <= cap T o1 -> length l <= cap T o1 ->
  firstn (length l) b = l -> hstep h f h1 (Some a) ->
  good h f (bind (if size T o1 <? n then
                bind (ptr_of T (dat T o1)) (fun p =>
                blk_write T h1 p (size T o1) (repeat (Some v) (n - size T o1)))
              else Ok h1) (fun h3 =>
    Ok (h3, mkSv T (dat T o1) (wr16 W n) (cap T o1)))) (firstn n l ++ repeat (Some v) (n - length l)).
Proof.
  intros Ed B Lb Hc Es HM Hn Hl Fb HS. rewrite Ed. cbn [ptr_of bind].
  rewrite wr16_small by lia. destruct (Nat.ltb_spec (size T o1) n).
  - destruct (blk_write_ok h1 a b (size T o1) (repeat (Some v) (n - size T o1)) B) as (h2 & E & HS2 & B2).
    { rewrite repeat_length; lia. }
    rewrite E. cbn [bind]. rewrite firstn_all2 by lia.
    apply mk_big with (b := splice b (size T o1) (repeat (Some v) (n - size T o1))); auto;
      rewrite ?app_length, ?repeat_length; try lia.
    + rewrite splice_len; rewrite ?repeat_length; lia.
    + rewrite firstn_splice; rewrite ?repeat_length; try lia. rewrite Es, Fb. auto.
    + eapply hstep_trans; eauto.
  - cbn [bind]. replace (n - length l) with 0 by lia. simpl. rewrite app_nil_r.
    apply mk_big with (b := b); auto; try lia.
    + rewrite firstn_length; lia.
    + apply firstn_le_l; auto; lia.
Qed.

Lemma resize_good h o l n v : obj_ok h o l -> n < W ->
  good h (fp o) (resize T M W h o n v) (firstn n l ++ repeat (Some v) (n - length l)).
Proof.
  intros O Hn. pose proof O as (Es & LW & _). pose proof (obj_wf _ _ _ O) as Wo. unfold data_wf in Wo.
  unfold resize.
  destruct (Nat.leb_spec n M).
  - destruct (small_or_big _ _ _ O) as [(HM & Hs)|(HM & a & b & Ed & B & Lb & Fb & Hc & Hf)].
    + destruct (Nat.ltb_spec M (size T o)); [lia|]. destruct (Nat.leb_spec n (size T o)).
      * replace (n - length l) with 0 by lia. simpl. rewrite app_nil_r, wr16_small by lia.
        apply shrink_small; auto; lia.
      * rewrite vals_write_ok by (rewrite repeat_length; lia). cbn [bind].
        rewrite (small_fp o l) by auto. rewrite wr16_small by lia. rewrite firstn_all2 by lia.
        apply mk_small; rewrite ?app_length, ?repeat_length; try lia.
        -- rewrite splice_len; rewrite ?repeat_length; lia.
        -- rewrite firstn_splice; rewrite ?repeat_length; try lia. rewrite Es.
           destruct Hs as (_ & _ & ->). auto.
        -- apply hstep_refl_none.
    + destruct (Nat.ltb_spec M (size T o)); [|lia].
      assert (G : good h (Some a) (ptr_to_small T M h (mkSv T (dat T o) n (cap T o))) (firstn n l)).
      { eapply p2s_ok; simpl; eauto; lia. }
      unfold ptr_to_small in G. cbn [size dat cap] in G.
      destruct (Nat.leb_spec n M); [|lia]. cbn [check bind] in G.
      replace (n - length l) with 0 by lia. simpl repeat. rewrite app_nil_r, wr16_small, Hf by lia.
      exact G.
  - destruct (small_or_big _ _ _ O) as [(HM & Hs)|(HM & a & b & Ed & B & Lb & Fb & Hc & Hf)].
    + destruct (Nat.leb_spec (size T o) M); [|lia]. rewrite (small_fp o l) by auto.
      destruct (cvp_ok h o l Es Hs) as (h1 & b & E & HS & B & Lb & Fb). rewrite E. cbn [bind cap].
      destruct (Nat.ltb_spec (M * 2) n).
      * destruct (ensure_ok h1 (mkSv T (Ptr T (length h)) (size T o) (M * 2)) (length h) b n)
          as (h' & a' & b' & c' & E' & HS' & B' & Lb' & Fb' & Hc' & Hn' & HW'); simpl; auto; try lia.
        rewrite E'. cbn [bind].
        eapply grow_write with (b := b'); simpl; eauto; try (simpl in *; lia).
        -- simpl in Fb', Hc'. rewrite <- (firstn_firstn_le b' (length l) (M * 2)) by lia. rewrite Fb'. auto.
        -- eapply hstep_trans; eauto.
      * cbn [bind]. eapply grow_write with (b := b); simpl; eauto; lia.
    + destruct (Nat.leb_spec (size T o) M); [lia|]. cbn [bind]. rewrite Hf.
      destruct (Nat.ltb_spec (cap T o) n).
      * destruct (ensure_ok h o a b n) as (h' & a' & b' & c' & E' & HS' & B' & Lb' & Fb' & Hc' & Hn' & HW'); auto; try lia.
        rewrite E'. cbn [bind].
        eapply grow_write with (b := b'); simpl; eauto; try lia.
        rewrite <- (firstn_firstn_le b' (length l) (cap T o)) by lia. rewrite Fb'. auto.
      * cbn [bind]. eapply grow_write with (b := b); eauto; try lia. eapply hstep_refl_blk; eauto.
Qed.

Lemma firstn_splice_ge {X} (b l : list X) off new : firstn (length l) b = l ->
  length l <= length b -> off + length new <= length l ->
  firstn (length l) (splice b off new) = splice l off new.
Proof.
  intros H Lb L. unfold splice.
  rewrite !firstn_app. rewrite firstn_length. replace (Nat.min off (length b)) with off by lia.
  rewrite (firstn_all2 (firstn off b)) by (rewrite firstn_length; lia).
  rewrite (firstn_le_l b l) by (auto; lia). f_equal.
  rewrite (firstn_all2 new) by lia. f_equal.
  rewrite <- H at 2. rewrite skipn_firstn_comm. f_equal. lia.
Qed.

(** Overwriting cells inside the contents. *)
Lemma write_good h o l off new : obj_ok h o l -> off + length new <= length l ->
  good h (fp o)
   (if size T o <=? M then bind (vals_write T M (dat T o) off new) (fun d => Ok (h, mkSv T d (size T o) (cap T o)))
    else bind (ptr_of T (dat T o)) (fun p => bind (blk_write T h p off new) (fun h1 => Ok (h1, o))))
   (splice l off new).
Proof.
  intros O L. pose proof O as (Es & LW & _). pose proof (obj_wf _ _ _ O) as Wo. unfold data_wf in Wo.
  destruct (small_or_big _ _ _ O) as [(HM & Hs)|(HM & a & b & Ed & B & Lb & Fb & Hc & Hf)].
  - destruct (Nat.leb_spec (size T o) M); [|lia]. rewrite vals_write_ok by lia. cbn [bind].
    rewrite (small_fp o l) by auto. destruct Hs as (_ & _ & Fl).
    apply mk_small; rewrite ?splice_len; try lia.
    + rewrite Es. apply firstn_splice_ge; auto; lia.
    + apply hstep_refl_none.
  - destruct (Nat.leb_spec (size T o) M); [lia|]. rewrite Ed at 1. cbn [ptr_of bind].
    destruct (blk_write_ok h a b off new B) as (h2 & E & HS2 & B2); [lia|].
    rewrite E. cbn [bind]. rewrite Hf. destruct o as [d s c]; simpl in *. subst d.
    apply mk_big with (b := splice b off new); auto; rewrite ?splice_len; try lia.
    rewrite Es. apply firstn_splice_ge; auto; lia.
Qed.

Lemma put_good h o l i v : obj_ok h o l -> i < length l ->
  good h (fp o) (put T M h o i v) (sput l i v).
Proof.
  intros O L. pose proof (write_good h o l i [Some v] O) as G. simpl length in G.
  assert (E : splice l i [Some v] = sput l i v).
  { unfold splice, sput. simpl length. rewrite Nat.add_1_r. reflexivity. }
  rewrite E in G. apply G. lia.
Qed.

Lemma read_ok h o l off n : obj_ok h o l -> off + n <= length l ->
  (if size T o <=? M then vals_read T M (dat T o) off n
   else bind (ptr_of T (dat T o)) (fun p => blk_read T h p off n)) = Ok (firstn n (skipn off l)).
Proof.
  intros O L. pose proof O as (Es & LW & _).
  assert (K : forall b : list cell, firstn (length l) b = l ->
     firstn n (skipn off b) = firstn n (skipn off l)).
  { intros b Fb. rewrite <- Fb. rewrite skipn_firstn_comm. symmetry. apply firstn_firstn_le. lia. }
  destruct (small_or_big _ _ _ O) as [(HM & Hs)|(HM & a & b & Ed & B & Lb & Fb & Hc & Hf)].
  - destruct (Nat.leb_spec (size T o) M); [|lia]. rewrite vals_read_ok by lia.
    f_equal. apply K. apply Hs.
  - destruct (Nat.leb_spec (size T o) M); [lia|]. rewrite Ed. cbn [ptr_of bind].
    rewrite (blk_read_ok _ _ b) by (auto; lia). f_equal. auto.
Qed.

Lemma good_trans h f h1 o1 r l : hstep h f h1 (fp o1) -> good h1 (fp o1) r l -> good h f r l.
Proof.
  intros S (h' & o' & E & O & S'). exists h', o'. split; auto. split; auto.
  eapply hstep_trans; eauto.
Qed.

Lemma erase_good h o l i j : obj_ok h o l -> i <= j <= length l ->
  good h (fp o) (erase T tdef M W h o i j) (firstn i l ++ skipn j l).
Proof.
  intros O L. pose proof O as (Es & LW & _). unfold erase.
  destruct (Nat.eqb_spec j (size T o)).
  - assert (G : good h (fp o) (resize T M W h o i tdef) (firstn i l ++ repeat (Some tdef) (i - length l)))
      by (apply resize_good; auto; lia).
    replace (i - length l) with 0 in G by lia. rewrite skipn_all2 by lia. exact G.
  - set (na := size T o - j).
    assert (Lr : length (firstn na (skipn j l)) = na) by (rewrite firstn_length, skipn_length; lia).
    pose proof (write_good h o l i (firstn na (skipn j l)) O) as G. rewrite Lr in G.
    specialize (G ltac:(lia)). pose proof (read_ok h o l j na O ltac:(lia)) as R.
    destruct G as (h1 & o1 & E & O1 & S1).
    assert (E1 : (if size T o <=? M then
         bind (vals_read T M (dat T o) j na) (fun c =>
         bind (vals_write T M (dat T o) i c) (fun d => Ok (h, mkSv T d (size T o) (cap T o))))
       else
         bind (ptr_of T (dat T o)) (fun p =>
         bind (blk_read T h p j na) (fun c =>
         bind (blk_write T h p i c) (fun h1 => Ok (h1, o))))) = Ok (h1, o1)).
    { destruct (size T o <=? M); [rewrite R; exact E|].
      destruct (ptr_of T (dat T o)) as [p| |]; try discriminate. cbn [bind] in *. rewrite R. exact E. }
    rewrite E1. cbn [bind]. eapply good_trans; [exact S1|].
    assert (Ln : length (splice l i (firstn na (skipn j l))) = length l) by (apply splice_len; lia).
    pose proof (resize_good h1 o1 _ (i + na) tdef O1 ltac:(lia)) as G. rewrite Ln in G.
    replace (i + na - length l) with 0 in G by lia. rewrite app_nil_r in G.
    rewrite firstn_splice in G by lia.
    rewrite (firstn_all2 (skipn j l)) in G by (rewrite skipn_length; lia). exact G.
Qed.

(** ** Whole programs *)
Notation state := (state T).
Definition inv (s : state) (S : spec) : Prop :=
  (forall x, match env T s x, S x with
             | Some o, Some l => obj_ok (hp T s) o l
             | None, None => True
             | _, _ => False end) /\
  (forall x y o o' a, env T s x = Some o -> env T s y = Some o' -> x <> y ->
     fp o = Some a -> fp o' <> Some a) /\
  (forall a b, nth_error (hp T s) a = Some (Some b) ->
     exists x o, env T s x = Some o /\ fp o = Some a).

Lemma fp_lt h o l a : obj_ok h o l -> fp o = Some a -> a < length h.
Proof.
  intros O E. pose proof O as (Es & _).
  destruct (small_or_big _ _ _ O) as [(HM & Hs)|(HM & a' & b & Ed & B & Lb & Fb & Hc & Hf)].
  - rewrite (small_fp o l) in E by auto. discriminate.
  - rewrite Hf in E. inversion E; subst. eapply nth_lt; exact B.
Qed.

Lemma frame_obj h f h' f' o l : hstep h f h' f' -> obj_ok h o l ->
  (forall a, fp o = Some a -> f <> Some a) -> obj_ok h' o l.
Proof.
  intros (A1 & _) O N. pose proof O as (Es & LW & _). split; auto. split; auto.
  destruct (small_or_big _ _ _ O) as [(HM & Hs)|(HM & a' & b & Ed & B & Lb & Fb & Hc & Hf)]; auto.
  right. split; [lia|]. split; [lia|]. exists a', b. repeat split; auto.
  unfold blk_at. rewrite A1; auto. eapply nth_lt; exact B.
Qed.

Definition fpx (s : state) (x : nat) : option nat :=
  match env T s x with Some o => fp o | None => None end.

(** General state update: variable [x] gets object [no]/contents [nl]. *)
Lemma inv_update s S x h' no nl :
  inv s S -> hstep (hp T s) (fpx s x) h' (match no with Some o => fp o | None => None end) ->
  match no, nl with Some o, Some l => obj_ok h' o l | None, None => True | _, _ => False end ->
  inv (mkState T h' (upd (env T s) x no)) (upd S x nl).
Proof.
  intros (I1 & I2 & I3) HS O.
  assert (Other : forall y o, y <> x -> env T s y = Some o -> forall a, fp o = Some a -> fpx s x <> Some a).
  { intros y o Hy Ey a Ea. unfold fpx. destruct (env T s x) eqn:Ex; [|discriminate].
    apply (I2 y x o s0 a); auto. }
  split; [|split]; simpl.
  - intros y. unfold upd. destruct (Nat.eqb_spec x y); auto.
    specialize (I1 y). destruct (env T s y) eqn:Ey, (S y); auto.
    eapply frame_obj; eauto.
  - intros y z o o' a Ey Ez Nyz Fo. unfold upd in *.
    destruct HS as (A1 & A2 & A3 & A4).
    assert (Fresh : forall w o2, w <> x -> env T s w = Some o2 -> fp o2 = Some a ->
       (match no with Some o => fp o | None => None end) <> Some a).
    { intros w o2 Hw Ew F2 E. destruct (A2 a E) as [K|K].
      - apply (Other w o2 Hw Ew a F2 K).
      - specialize (I1 w). rewrite Ew in I1. destruct (S w); [|contradiction].
        pose proof (fp_lt _ _ _ _ I1 F2). lia. }
    destruct (Nat.eqb_spec x y), (Nat.eqb_spec x z); subst; try congruence.
    + intros E. apply (Fresh z o'); auto.
    + intros E. apply (Fresh y o); auto.
    + apply (I2 y z o o' a); auto.
  - intros a b E. destruct HS as (A1 & A2 & A3 & A4).
    destruct (A4 a b E) as [K|[K1 K2]].
    + destruct no as [o|]; [|discriminate]. exists x, o. unfold upd. rewrite Nat.eqb_refl. auto.
    + rewrite A1 in E by auto. destruct (I3 a b E) as (y & o & Ey & Fy).
      exists y, o. unfold upd. destruct (Nat.eqb_spec x y); auto. subst. unfold fpx in K1.
      rewrite Ey in K1. congruence.
Qed.

Lemma store_good s S x r l : inv s S -> good (hp T s) (fpx s x) r l ->
  exists s', store T s x r = Ok s' /\ inv s' (upd S x (Some l)).
Proof.
  intros I (h' & o' & -> & O & HS). eexists; split; [reflexivity|].
  apply (inv_update s S x h' (Some o') (Some l)); auto.
Qed.

Lemma live_ok s S x : inv s S -> is_live S x ->
  exists o, live T s x = Ok o /\ env T s x = Some o /\ fpx s x = fp o /\ obj_ok (hp T s) o (sget S x)
            /\ S x = Some (sget S x).
Proof.
  intros (I1 & _) L. specialize (I1 x). unfold is_live, sget, live, fpx in *.
  destruct (S x) eqn:E; [|congruence]. destruct (env T s x); [|contradiction]. eauto 10.
Qed.
Lemma dead_ok s S x : inv s S -> ~ is_live S x -> dead T s x = Ok tt /\ fpx s x = None.
Proof.
  intros (I1 & _) L. specialize (I1 x). unfold is_live, dead, fpx in *.
  destruct (S x) eqn:E; [exfalso; apply L; discriminate|]. destruct (env T s x); [contradiction|]. auto.
Qed.

Lemma exec_ok s S c : inv s S -> cmd_ok S c -> exists s', exec s c = Ok s' /\ inv s' (sexec S c).
Proof.
  intros I C. destruct c; cbn [cmd_ok sexec] in *; unfold SmallVec.exec.
  - destruct (dead_ok _ _ _ I C) as [D F]. rewrite D. cbn [bind].
    apply store_good; auto. rewrite F. apply ctor_good.
  - destruct C as [C L]. destruct (dead_ok _ _ _ I C) as [D F]. rewrite D. cbn [bind].
    apply store_good; auto. rewrite F. apply ctor_n_good; auto.
  - destruct C as [C L]. destruct (dead_ok _ _ _ I C) as [D F]. rewrite D. cbn [bind].
    apply store_good; auto. rewrite F. apply ctor_range_good; auto.
  - destruct C as [C L]. destruct (dead_ok _ _ _ I C) as [D F]. rewrite D. cbn [bind].
    destruct (live_ok _ _ _ I L) as (o & E & _ & _ & O & Q). rewrite E, Q. cbn [bind].
    apply store_good; auto. rewrite F. apply ctor_copy_good; auto.
  - destruct C as [C L]. destruct (live_ok _ _ _ I C) as (o & E & En & F & O & _). rewrite E. cbn [bind].
    destruct (live_ok _ _ _ I L) as (o' & E' & En' & F' & O' & Q). rewrite E', Q. cbn [bind].
    apply store_good; auto. rewrite F. eapply assign_good; eauto.
    destruct (Nat.eq_dec x y) as [->|N]; [left; congruence|right].
    destruct (fp o) eqn:Fo; auto. destruct (fp o') eqn:Fo'; auto. right. right.
    rewrite <- Fo'. destruct I as (_ & I2 & _). intros K. eapply (I2 x y o o'); eauto.
  - destruct (live_ok _ _ _ I C) as (o & E & En & F & O & _). rewrite E. cbn [bind].
    destruct (dtor_good _ _ _ O) as (h' & -> & HS). cbn [bind]. eexists; split; [reflexivity|].
    apply (inv_update s S x h' None None); auto. rewrite F. auto.
  - destruct (live_ok _ _ _ I C) as (o & E & En & F & O & _). rewrite E. cbn [bind].
    apply store_good; auto. rewrite F. eapply clear_good; eauto.
  - destruct C as [C L]. destruct (live_ok _ _ _ I C) as (o & E & En & F & O & _). rewrite E. cbn [bind].
    apply store_good; auto. rewrite F. apply push_good; auto.
  - destruct C as [C L]. destruct (live_ok _ _ _ I C) as (o & E & En & F & O & _). rewrite E. cbn [bind].
    apply store_good; auto. rewrite F. apply pop_good; auto.
  - destruct C as [C L]. destruct (live_ok _ _ _ I C) as (o & E & En & F & O & _). rewrite E. cbn [bind].
    apply store_good; auto. rewrite F. apply compact_good; auto.
  - destruct C as [C L]. destruct (live_ok _ _ _ I C) as (o & E & En & F & O & _). rewrite E. cbn [bind].
    apply store_good; auto. rewrite F. apply resize_good; auto.
  - destruct C as [C L]. destruct (live_ok _ _ _ I C) as (o & E & En & F & O & _). rewrite E. cbn [bind].
    apply store_good; auto. rewrite F. apply put_good; auto.
  - destruct C as [C L]. destruct (live_ok _ _ _ I C) as (o & E & En & F & O & _). rewrite E. cbn [bind].
    apply store_good; auto. rewrite F. apply erase_good; auto.
  - destruct C as [C L]. destruct (live_ok _ _ _ I C) as (o & E & En & F & O & Q). rewrite E. cbn [bind].
    destruct (live_ok _ _ _ I L) as (o' & E' & En' & F' & O' & Q'). rewrite E'. cbn [bind].
    eexists; split; [reflexivity|]. destruct I as (I1 & I2 & I3). split; [|split]; simpl.
    + intros z. unfold upd. destruct (Nat.eqb_spec y z), (Nat.eqb_spec x z); subst;
        rewrite ?Q, ?Q'; auto; try congruence. apply I1.
    + intros z w p p' a Ez Ew N Fp. unfold upd in *.
      destruct (Nat.eqb_spec y z), (Nat.eqb_spec x z), (Nat.eqb_spec y w), (Nat.eqb_spec x w); subst;
        try congruence;
        repeat match goal with H : Some _ = Some _ |- _ => inversion H; subst; clear H end;
        try congruence.
      all: try (eapply (I2 _ _ _ _ a); [| |exact N|]; eassumption).
      all: try (eapply (I2 _ _ _ _ a); [exact En|exact En'| |eassumption]; congruence).
      all: try (eapply (I2 _ _ _ _ a); [exact En'|exact En| |eassumption]; congruence).
      all: try (eapply (I2 _ _ _ _ a); [exact En|exact Ew| |eassumption]; congruence).
      all: try (eapply (I2 _ _ _ _ a); [exact En'|exact Ew| |eassumption]; congruence).
      all: try (eapply (I2 _ _ _ _ a); [exact Ez|exact En| |eassumption]; congruence).
      all: try (eapply (I2 _ _ _ _ a); [exact Ez|exact En'| |eassumption]; congruence).
    + intros a b B. destruct (I3 a b B) as (z & p & Ez & Fz).
      destruct (Nat.eq_dec z x) as [->|N1].
      * exists y, o. unfold upd. rewrite Nat.eqb_refl. split; auto. congruence.
      * destruct (Nat.eq_dec z y) as [->|N2].
        -- exists x, o'. unfold upd. rewrite Nat.eqb_refl. destruct (Nat.eqb_spec y x); [congruence|].
           split; auto. congruence.
        -- exists z, p. unfold upd. destruct (Nat.eqb_spec y z); [congruence|].
           destruct (Nat.eqb_spec x z); [congruence|]. auto.
Qed.

Lemma inv0 : inv (state0 T) spec0.
Proof.
  split; [|split]; simpl; auto; try discriminate.
  intros a b H. destruct a; discriminate.
Qed.

Lemma exec_all_ok : forall p s S, inv s S -> prog_ok S p ->
  exists s', exec_all s p = Ok s' /\ inv s' (fold_left sexec p S).
Proof.
  induction p as [|c p IH]; intros s S I PO; simpl in *.
  - eauto.
  - destruct PO as [C P]. destruct (exec_ok s S c I C) as (s1 & E & I1).
    unfold SmallVec.exec_all at 1. fold SmallVec.exec_all. cbn.
    change (SmallVec.exec T tdef M W A s c) with (exec s c). rewrite E. cbn [bind]. apply IH; auto.
Qed.

(** Observations. *)
Lemma obs_size s S x o : inv s S -> env T s x = Some o -> size T o = length (sget S x).
Proof.
  intros (I1 & _) E. specialize (I1 x). rewrite E in I1. unfold sget.
  destruct (S x); [apply I1|contradiction].
Qed.
Lemma obs_get s S x o i : inv s S -> env T s x = Some o -> i < length (sget S x) ->
  exists c, get T M (hp T s) o i = Ok c /\ nth_error (sget S x) i = Some c.
Proof.
  intros I E L.
  assert (Lv : is_live S x).
  { destruct I as (I1 & _). specialize (I1 x). rewrite E in I1. unfold is_live. destruct (S x); [discriminate|contradiction]. }
  destruct (live_ok s S x I Lv) as (o' & _ & E' & _ & O & _). rewrite E in E'. inversion E'; subst o'.
  unfold get. rewrite (read_ok _ _ _ i 1 O) by lia. cbn [bind].
  destruct (skipn i (sget S x)) as [|c r] eqn:K.
  - apply (f_equal (@length _)) in K. rewrite skipn_length in K. simpl in K. lia.
  - simpl. exists c. split; auto. rewrite <- (firstn_skipn i (sget S x)), K.
    rewrite nth_error_app2; rewrite firstn_length; [|lia].
    replace (i - Nat.min i (length (sget S x))) with 0 by lia. reflexivity.
Qed.

Hypothesis teqb_ok : forall a b, teqb a b = true <-> a = b.
Lemma cells_eq_ok : forall a b, length a = length b ->
  cells_eq T teqb (map Some a) (map Some b) = Ok true <-> a = b.
Proof.
  induction a; destruct b; simpl; intros L; try discriminate; [tauto|].
  destruct (teqb a t) eqn:E.
  - apply teqb_ok in E; subst. rewrite IHa by lia. split; intros; congruence.
  - split; [discriminate|]. intros K. inversion K; subst.
    assert (teqb t t = true) by (apply teqb_ok; auto). congruence.
Qed.
Lemma cells_eq_def : forall a b, length a = length b ->
  exists r, cells_eq T teqb (map Some a) (map Some b) = Ok r.
Proof.
  induction a; destruct b; simpl; intros L; try discriminate; eauto.
  destruct (teqb a t); eauto.
Qed.
Lemma contents_ok h o l : obj_ok h o l -> contents T M h o = Ok l.
Proof.
  intros O. pose proof O as (Es & _). unfold contents. rewrite Es.
  pose proof (read_ok h o l 0 (length l) O ltac:(lia)) as R. rewrite Es in R.
  rewrite R. rewrite skipn_0, firstn_all2; auto.
Qed.
Lemma obs_eq s S x y o o' lx ly : inv s S -> env T s x = Some o -> env T s y = Some o' ->
  S x = Some (map Some lx) -> S y = Some (map Some ly) ->
  exists r, sv_eq T teqb M (hp T s) o o' = Ok r /\ (r = true <-> lx = ly).
Proof.
  intros (I1 & _) Ex Ey Sx Sy. pose proof (I1 x) as Ox. pose proof (I1 y) as Oy.
  rewrite Ex, Sx in Ox. rewrite Ey, Sy in Oy.
  pose proof Ox as (Lx & _). pose proof Oy as (Ly & _). rewrite map_length in Lx, Ly.
  unfold sv_eq. rewrite Lx, Ly. destruct (Nat.eqb_spec (length lx) (length ly)); simpl.
  - rewrite (contents_ok _ _ _ Ox), (contents_ok _ _ _ Oy). cbn [bind].
    destruct (cells_eq_def lx ly e) as [r E]. exists r. split; auto.
    rewrite <- (cells_eq_ok lx ly e), E. split; congruence.
  - exists false. split; auto. split; [discriminate|congruence].
Qed.

(** ** The property, assembled. *)
Lemma sv_refines p : prog_ok spec0 p ->
  exists s, exec_all (state0 T) p = Ok s /\
   (forall x, match env T s x, fold_left sexec p spec0 x with
     | Some o, Some l => size T o = length l /\ (M < size T o -> size T o <= cap T o) /\
         (forall i, i < length l -> exists c, get T M (hp T s) o i = Ok c /\ nth_error l i = Some c)
     | None, None => True
     | _, _ => False end).
Proof.
  intros P. destruct (exec_all_ok p _ _ inv0 P) as (s & E & I). exists s. split; auto.
  intros x. pose proof I as (I1 & _). specialize (I1 x).
  pose proof (fun o i => obs_get s (fold_left sexec p spec0) x o i) as OG. unfold sget in OG.
  destruct (env T s x) eqn:En, (fold_left sexec p spec0 x) eqn:Sx; auto.
  pose proof I1 as (Es & LW & _). split; [auto|]. split.
  - intros HM. destruct (small_or_big _ _ _ I1) as [(K & _)|(_ & a & b & _ & _ & _ & _ & K & _)]; lia.
  - intros i Hi. apply OG; auto.
Qed.

Lemma sv_no_leak p : prog_ok spec0 p ->
  exists s, exec_all (state0 T) p = Ok s /\
   ((forall x, fold_left sexec p spec0 x = None) -> Forall (fun b => b = None) (hp T s)).
Proof.
  intros P. destruct (exec_all_ok p _ _ inv0 P) as (s & E & I). exists s. split; auto.
  intros D. apply Forall_forall. intros b Hb. destruct b as [b|]; auto. exfalso.
  apply In_nth_error in Hb. destruct Hb as [a Ha]. destruct I as (I1 & _ & I3).
  destruct (I3 a b Ha) as (x & o & Ex & _). specialize (I1 x). rewrite Ex, D in I1. auto.
Qed.

Lemma sv_eq_correct p x y lx ly : prog_ok spec0 p ->
  fold_left sexec p spec0 x = Some (map Some lx) ->
  fold_left sexec p spec0 y = Some (map Some ly) ->
  exists s o o' r, exec_all (state0 T) p = Ok s /\ env T s x = Some o /\ env T s y = Some o' /\
    sv_eq T teqb M (hp T s) o o' = Ok r /\ (r = true <-> lx = ly).
Proof.
  intros P Sx Sy. destruct (exec_all_ok p _ _ inv0 P) as (s & E & I). exists s.
  destruct (live_ok _ _ x I) as (o & _ & Eo & _); [unfold is_live; rewrite Sx; discriminate|].
  destruct (live_ok _ _ y I) as (o' & _ & Eo' & _); [unfold is_live; rewrite Sy; discriminate|].
  destruct (obs_eq s _ x y o o' lx ly I Eo Eo' Sx Sy) as (r & Er & K).
  exists o, o', r. auto.
Qed.

(** ** push_back of one of the vector's own elements *)
Lemma push_own_ok h o l i v : obj_ok h o l -> nth_error l i = Some (Some v) ->
  length l + 1 < W -> size T o <> M -> (M < size T o -> size T o <> cap T o) ->
  exists r, elem_ref T M o i = Ok r /\ good h (fp o) (push_back T M W h o r) (l ++ [Some v]).
Proof.
  intros O Hi L NM NC. pose proof O as (Es & _).
  assert (Li : i < length l) by (apply nth_error_Some; congruence).
  pose proof (push_good h o l v O L) as G.
  pose proof (read_ok h o l i 1 O ltac:(lia)) as R.
  assert (F1 : firstn 1 (skipn i l) = [Some v]).
  { clear - Hi. revert i Hi. induction l as [|c l IH]; intros [|i] Hi; try discriminate;
    [inversion Hi; reflexivity | apply (IH i Hi)]. }
  rewrite F1 in R. unfold elem_ref. unfold push_back in *.
  destruct (Nat.leb_spec (size T o) M).
  - eexists; split; [reflexivity|]. destruct (Nat.ltb_spec (size T o) M); [|lia].
    cbn [ref_read] in *. rewrite R. cbn [bind] in *. exact G.
  - destruct (ptr_of T (dat T o)) as [p| |] eqn:Ep; try discriminate. cbn [bind] in *.
    eexists; split; [reflexivity|]. destruct (Nat.ltb_spec (size T o) M); [lia|].
    destruct (Nat.eqb_spec (size T o) M); [lia|]. destruct (Nat.eqb_spec (size T o) (cap T o)); [lia|].
    cbn [ref_read bind] in *. rewrite R. cbn [bind]. rewrite Ep in *. exact G.
Qed.

Lemma push_own_bad h o l i : obj_ok h o l -> size T o = M -> i < M ->
  exists r, elem_ref T M o i = Ok r /\ push_back T M W h o r = UB.
Proof.
  intros O E Hi. unfold elem_ref. rewrite (proj2 (Nat.leb_le (size T o) M)) by lia.
  exists (RVals T i). split; auto. unfold push_back.
  destruct (Nat.ltb_spec (size T o) M); [lia|]. rewrite (proj2 (Nat.eqb_eq (size T o) M) E).
  destruct (small_or_big _ _ _ O) as [(HM & Hs)|(HM & _)]; [|lia].
  destruct (cvp_ok h o l) as (h1 & b & E1 & _); auto; [apply O|]. rewrite E1. cbn [bind ref_read dat].
  rewrite vals_read_ok by lia. cbn [bind]. simpl vals_of.
  assert (K : firstn 1 (skipn i (repeat (@None T) M)) = [None]).
  { clear - Hi. revert i Hi. induction M; intros; [lia|]. destruct i; simpl; auto. apply IHn; lia. }
  rewrite K. reflexivity.
Qed.

(** resize to a size beyond 16 bits writes outside the block. *)
Lemma resize_wraps h o l k v : obj_ok h o l -> M < size T o -> M < k < cap T o ->
  resize T M W h o (W + k) v = UB.
Proof.
  intros O HM Hk. pose proof O as (Es & LW & _).
  destruct (small_or_big _ _ _ O) as [(HM' & _)|(_ & a & b & Ed & B & Lb & Fb & Hc & Hf)]; [lia|].
  unfold resize. destruct (Nat.leb_spec (W + k) M); [lia|]. destruct (Nat.leb_spec (size T o) M); [lia|].
  cbn [bind]. destruct (Nat.ltb_spec (cap T o) (W + k)); [|lia].
  unfold ensure_capacity. assert (Ek : wr16 W (W + k) = k).
  { unfold wr16. replace (W + k) with (k + 1 * W) by lia. rewrite Nat.mod_add by lia. apply Nat.mod_small; lia. }
  rewrite Ek. destruct (Nat.ltb_spec M k); [|lia]. cbn [check bind].
  destruct (Nat.ltb_spec k (cap T o)); [|lia]. cbn [bind].
  destruct (Nat.ltb_spec (size T o) (W + k)); [|lia]. rewrite Ed. cbn [ptr_of bind].
  unfold blk_write. rewrite (get_block_ok _ _ _ B). cbn [bind]. rewrite repeat_length.
  destruct (Nat.leb_spec (size T o + (W + k - size T o)) (length b)); [lia|]. reflexivity.
Qed.

(** Program-level forms. *)
Lemma sv_push_own p x l i v : prog_ok spec0 p -> fold_left sexec p spec0 x = Some l ->
  nth_error l i = Some (Some v) -> length l + 1 < W ->
  exists s o r, exec_all (state0 T) p = Ok s /\ env T s x = Some o /\ elem_ref T M o i = Ok r /\
   (length l = M -> push_back T M W (hp T s) o r = UB) /\
   (length l < M \/ M < length l < cap T o ->
    exists h' o', push_back T M W (hp T s) o r = Ok (h', o') /\ contents T M h' o' = Ok (l ++ [Some v])).
Proof.
  intros P Sx Hi L. destruct (exec_all_ok p _ _ inv0 P) as (s & E & I). exists s.
  destruct (live_ok _ _ x I) as (o & _ & Eo & _ & O & Q); [unfold is_live; rewrite Sx; discriminate|].
  unfold sget in O. rewrite Sx in O. clear Q. pose proof O as (Es & _).
  assert (Li : i < length l) by (apply nth_error_Some; congruence).
  assert (R : exists r, elem_ref T M o i = Ok r).
  { unfold elem_ref. destruct (small_or_big _ _ _ O) as [(HM & _)|(HM & a & b & Ed & _)].
    - destruct (Nat.leb_spec (size T o) M); [eauto|lia].
    - destruct (Nat.leb_spec (size T o) M); [lia|]. rewrite Ed. cbn. eauto. }
  destruct R as [r Er]. exists o, r. split; auto. split; auto. split; auto. split.
  - intros EM. destruct (push_own_bad _ _ _ i O) as (r' & Er' & K); [lia|lia|]. congruence.
  - intros HM. destruct (push_own_ok _ _ _ i v O Hi L) as (r' & Er' & h' & o' & K & O' & _); [lia|lia|].
    exists h', o'. rewrite Er in Er'. inversion Er'; subst. split; auto. apply contents_ok; auto.
Qed.

Lemma sv_resize_wraps (l : list T) k v : M < length l < A -> M < k < length l ->
  exec_all (state0 T) [CNewRange T 0 l; CResize T 0 (W + k) v] = UB.
Proof.
  intros L Hk. assert (P : prog_ok spec0 [CNewRange T 0 l]).
  { simpl. unfold is_live, spec0. repeat split; auto; lia. }
  destruct (exec_all_ok _ _ _ inv0 P) as (s & E & I). cbn [SmallVec.exec_all] in *.
  destruct (SmallVec.exec T tdef M W A (state0 T) (CNewRange T 0 l)) as [s1| |] eqn:E1; try discriminate.
  cbn [bind] in *. inversion E; subst s1. clear E.
  pose proof I as (I1 & _). specialize (I1 0). simpl in I1.
  destruct (env T s 0) as [o|] eqn:Eo; [|contradiction].
  unfold SmallVec.exec, live. rewrite Eo. cbn [bind]. unfold store.
  pose proof I1 as (Es & _). rewrite map_length in Es.
  rewrite (resize_wraps _ _ _ k v I1); auto; try lia.
  destruct (small_or_big _ _ _ I1) as [(K & _)|(_ & a & b & _ & _ & _ & _ & K & _)]; lia.
Qed.
End SV.
