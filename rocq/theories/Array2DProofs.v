From Coq Require Import List Arith Bool Lia.
From Verif Require Import Array2D.
Import ListNotations.

Section A2D.
Variable T : Type.
Variable W : nat.
Notation arr := (arr T).
Notation acmd := (acmd T).

(** ** Specification: a grid is its dimensions and a function on cells *)
Record grid := mkGrid { gw : nat; gh : nat; cell : nat -> nat -> option T }.
Definition g_in (g : grid) (i j : nat) : Prop := i < gw g /\ j < gh g.
(** Resizing keeps the column-major sequence of cells (cell (i,j) is number
    i + j*width), padded with [d]. *)
Definition g_resize (g : grid) (w h : nat) (d : T) : grid :=
  mkGrid w h (fun i j =>
    let k := i + j * w in
    if k <? gw g * gh g then cell g (k mod gw g) (k / gw g) else Some d).
Definition gexec (g : grid) (c : acmd) : grid :=
  match c with
  | ASet _ i j v => mkGrid (gw g) (gh g)
      (fun i' j' => if (i =? i') && (j =? j') then Some v else cell g i' j')
  | AFill _ v => mkGrid (gw g) (gh g) (fun _ _ => Some v)
  | AResize _ w h d => g_resize g w h d
  | AClear _ => mkGrid 0 0 (fun _ _ => None)
  end.
Definition acmd_ok (g : grid) (c : acmd) : Prop :=
  match c with
  | ASet _ i j v => g_in g i j
  | AResize _ w h d => w * h < W
  | _ => True
  end.
Fixpoint aprog_ok (g : grid) (p : list acmd) : Prop :=
  match p with [] => True | c :: p' => acmd_ok g c /\ aprog_ok (gexec g c) p' end.
Definition g_new (w h : nat) (d : T) : grid := mkGrid w h (fun _ _ => Some d).

(** ** Proof *)
Lemma off_lt i j w h : i < w -> j < h -> i + j * w < w * h.
Proof. intros. nia. Qed.
Lemma off_inj w i j i' j' : i < w -> i' < w -> i + j * w = i' + j' * w -> i = i' /\ j = j'.
Proof.
  intros Hi Hi' E. assert (j = j'); [|subst; lia].
  assert (K1 : (i + j * w) / w = j) by (rewrite Nat.div_add, Nat.div_small by lia; lia).
  assert (K2 : (i' + j' * w) / w = j') by (rewrite Nat.div_add, Nat.div_small by lia; lia).
  congruence.
Qed.

Definition rep (a : arr) (g : grid) : Prop :=
  width_ a = gw g /\ height_ a = gh g /\ gw g * gh g < W /\ length (data_ a) = gw g * gh g /\
  forall i j, g_in g i j -> nth_error (data_ a) (i + j * gw g) = cell g i j.

Lemma offset_ok a g i j : rep a g -> g_in g i j -> offset T W a i j = Some (i + j * gw g).
Proof.
  intros (E1 & E2 & L & _) [Hi Hj]. unfold offset. rewrite E1, E2.
  rewrite (proj2 (Nat.ltb_lt _ _) Hi), (proj2 (Nat.ltb_lt _ _) Hj). simpl.
  pose proof (off_lt i j _ _ Hi Hj).
  rewrite (Nat.mod_small (j * gw g)) by lia. rewrite Nat.mod_small by lia. auto.
Qed.
Lemma get_ok a g i j : rep a g -> g_in g i j -> a_get T W a i j = cell g i j /\ cell g i j <> None.
Proof.
  intros R I. unfold a_get. rewrite (offset_ok a g i j R I).
  destruct R as (E1 & E2 & L & Ld & C). rewrite C by auto. split; auto.
  rewrite <- C by auto. apply nth_error_Some. rewrite Ld. apply off_lt; apply I.
Qed.

Lemma lset_ok : forall (l : list T) n v, n < length l ->
  exists l', lset T l n v = Some l' /\ length l' = length l /\
   forall k, nth_error l' k = if n =? k then Some v else nth_error l k.
Proof.
  induction l; intros n v L; simpl in L; [lia|]. destruct n.
  - exists (v :: l). repeat split; auto. destruct k; reflexivity.
  - destruct (IHl n v) as (l' & E & L' & N); [lia|]. exists (a :: l'). simpl. rewrite E. simpl.
    repeat split; auto. destruct k; simpl; auto.
Qed.

Lemma vec_resize_nth (l : list T) n d k : k < n ->
  nth_error (vec_resize T l n d) k = if k <? length l then nth_error l k else Some d.
Proof.
  intros H. unfold vec_resize. destruct (Nat.ltb_spec k (length l)).
  - rewrite nth_error_app1 by (rewrite firstn_length; lia).
    rewrite <- (firstn_skipn n l) at 2. symmetry. apply nth_error_app1. rewrite firstn_length; lia.
  - rewrite nth_error_app2 by (rewrite firstn_length; lia). rewrite firstn_length.
    replace (k - Nat.min n (length l)) with (k - length l) by lia.
    apply nth_error_repeat. lia.
Qed.
Lemma vec_resize_len (l : list T) n d : length (vec_resize T l n d) = n.
Proof. unfold vec_resize. rewrite app_length, firstn_length, repeat_length. lia. Qed.

Lemma rep_new w h d : w * h < W -> rep (a_new T W w h d) (g_new w h d).
Proof.
  intros L. unfold rep, a_new, g_new; simpl. rewrite Nat.mod_small by auto. rewrite repeat_length.
  repeat split; auto. intros i j [Hi Hj]; simpl in *. apply nth_error_repeat. apply off_lt; auto.
Qed.

Lemma aexec_ok a g c : rep a g -> acmd_ok g c -> exists a', aexec T W a c = Some a' /\ rep a' (gexec g c).
Proof.
  intros R C. destruct c; cbn [aexec gexec acmd_ok] in *.
  - unfold a_set. rewrite (offset_ok a g i j R C). destruct R as (E1 & E2 & L & Ld & Cc).
    destruct (lset_ok (data_ a) (i + j * gw g) v) as (l' & E & L' & N).
    { rewrite Ld. apply off_lt; apply C. }
    rewrite E. simpl. eexists; split; [reflexivity|]. unfold rep; simpl.
    repeat split; auto; try lia. intros i' j' [Hi Hj]. simpl in *. rewrite N.
    destruct (Nat.eqb_spec (i + j * gw g) (i' + j' * gw g)) as [K|K].
    + destruct (off_inj (gw g) i j i' j') as [-> ->]; auto; [apply C|].
      rewrite !Nat.eqb_refl. auto.
    + destruct (Nat.eqb_spec i i'), (Nat.eqb_spec j j'); simpl; subst; try lia;
        apply Cc; split; auto.
  - eexists; split; [reflexivity|]. destruct R as (E1 & E2 & L & Ld & Cc).
    unfold rep; simpl. rewrite repeat_length. repeat split; auto.
    intros i j [Hi Hj]; simpl in *. rewrite Ld. apply nth_error_repeat. apply off_lt; auto.
  - eexists; split; [reflexivity|]. destruct R as (E1 & E2 & L & Ld & Cc).
    unfold rep, a_resize; simpl. rewrite Nat.mod_small by auto. rewrite vec_resize_len.
    repeat split; auto. intros i j [Hi Hj]; simpl in *.
    rewrite vec_resize_nth by (apply off_lt; auto). rewrite Ld.
    destruct (Nat.ltb_spec (i + j * w) (gw g * gh g)); auto.
    rewrite <- Cc.
    + f_equal. rewrite (Nat.div_mod (i + j * w) (gw g)) at 1; nia.
    + assert (gw g <> 0) by nia. split; [apply Nat.mod_upper_bound; auto|].
      apply Nat.div_lt_upper_bound; auto.
  - eexists; split; [reflexivity|]. destruct R as (E1 & E2 & L & Ld & Cc).
    unfold rep; simpl. repeat split; auto; try lia. intros i j [Hi _]. simpl in Hi. lia.
Qed.

Lemma aexec_all_ok : forall p a g, rep a g -> aprog_ok g p ->
  exists a', aexec_all T W a p = Some a' /\ rep a' (fold_left gexec p g).
Proof.
  induction p; intros a' g R P; simpl in *; [eauto|].
  destruct P as [P1 P2]. destruct (aexec_ok a' g a R P1) as (a2 & E & R2). rewrite E. auto.
Qed.

Lemma array_refines w h d p : w * h < W -> aprog_ok (g_new w h d) p ->
  exists a, aexec_all T W (a_new T W w h d) p = Some a /\
    let g := fold_left gexec p (g_new w h d) in
    width_ a = gw g /\ height_ a = gh g /\ length (data_ a) = gw g * gh g /\
    forall i j, g_in g i j -> a_get T W a i j = cell g i j /\ a_get T W a i j <> None.
Proof.
  intros L P. destruct (aexec_all_ok p _ _ (rep_new w h d L) P) as (a & E & R).
  exists a. split; auto. simpl. pose proof R as (E1 & E2 & _ & Ld & _). repeat split; auto;
  destruct (get_ok _ _ i j R H); congruence.
Qed.

Lemma resize_same_width (g : grid) h d i j : i < gw g -> j < h ->
  cell (g_resize g (gw g) h d) i j = if j <? gh g then cell g i j else Some d.
Proof.
  intros Hi Hj. unfold g_resize; simpl.
  assert (K1 : (i + j * gw g) / gw g = j) by (rewrite Nat.div_add, Nat.div_small by lia; lia).
  assert (K2 : (i + j * gw g) mod gw g = i) by (rewrite Nat.mod_add, Nat.mod_small by lia; lia).
  rewrite K1, K2. destruct (Nat.ltb_spec (i + j * gw g) (gw g * gh g)), (Nat.ltb_spec j (gh g)); auto; nia.
Qed.

(** Columns *)
Lemma nth_firstn_lt {X} : forall (l : list X) n i, i < n -> nth_error (firstn n l) i = nth_error l i.
Proof.
  induction l; intros [|n] i H; simpl; try lia; [destruct i; reflexivity|].
  destruct i; simpl; auto. apply IHl; lia.
Qed.
Lemma nth_skipn {X} : forall (l : list X) n i, nth_error (skipn n l) i = nth_error l (n + i).
Proof.
  induction l; intros [|n] i; simpl; auto. destruct i; reflexivity.
Qed.
Lemma col_ok w h d p j : 0 < w * h < W -> aprog_ok (g_new w h d) p ->
  let g := fold_left gexec p (g_new w h d) in j < gh g -> 0 < gw g ->
  exists a c, aexec_all T W (a_new T W w h d) p = Some a /\ a_col T W a j = Some c /\
    length c = gw g /\ forall i, i < gw g -> nth_error c i = cell g i j.
Proof.
  intros L P g Hj Hw. destruct (aexec_all_ok p _ _ (rep_new w h d (proj2 L)) P) as (a & E & R).
  fold g in R. exists a. unfold a_col. rewrite (offset_ok a g 0 j R); [|split; auto].
  destruct R as (E1 & E2 & L' & Ld & C). rewrite E1, Ld.
  assert (j * gw g + gw g <= gw g * gh g) by nia.
  destruct (Nat.leb_spec (0 + j * gw g + gw g) (gw g * gh g)); [|lia].
  eexists; split; auto. split; [reflexivity|]. split.
  - rewrite firstn_length, skipn_length. lia.
  - intros i Hi. rewrite <- C by (split; auto). simpl.
    rewrite nth_firstn_lt by auto. rewrite nth_skipn. f_equal. lia.
Qed.

(** Pointwise operations *)
Lemma transform2_ok op : forall m d, length m = length d ->
  exists r, transform2 T op m d = Some r /\ length r = length d /\
   forall k x y, nth_error m k = Some x -> nth_error d k = Some y -> nth_error r k = Some (op x y).
Proof.
  induction m; destruct d; simpl; intros L; try discriminate.
  - exists []. repeat split; auto. destruct k; discriminate.
  - destruct (IHm d) as (r & E & Lr & N); [lia|]. rewrite E. simpl. exists (op a t :: r). simpl.
    repeat split; auto. destruct k; simpl; intros; [congruence|auto].
Qed.
Lemma op_eq_ok op a g m gm : rep a g -> rep m gm -> gw g = gw gm -> gh g = gh gm ->
  exists r, a_op_eq T op a m = Some r /\ width_ r = gw g /\ height_ r = gh g /\
   forall i j x y, g_in g i j -> cell gm i j = Some x -> cell g i j = Some y ->
     a_get T W r i j = Some (op x y).
Proof.
  intros R Rm Ew Eh. pose proof R as (E1 & E2 & L & Ld & C). pose proof Rm as (M1 & M2 & Lm & Ldm & Cm).
  unfold a_op_eq. destruct (transform2_ok op (data_ m) (data_ a)) as (r & E & Lr & N); [congruence|].
  rewrite E. simpl. eexists; split; [reflexivity|]. simpl. repeat split; auto.
  intros i j x y I Hx Hy. unfold a_get.
  assert (O : offset T W (mkArr (width_ a) (height_ a) r) i j = Some (i + j * gw g)).
  { rewrite <- (offset_ok a g i j R I). reflexivity. }
  rewrite O. simpl. apply N.
  - rewrite Ew. rewrite Cm; auto. split; [rewrite <- Ew|rewrite <- Eh]; apply I.
  - rewrite C; auto.
Qed.

Lemma op_eq_prog op w h d p w' h' d' q : w * h < W -> w' * h' < W ->
  aprog_ok (g_new w h d) p -> aprog_ok (g_new w' h' d') q ->
  let g := fold_left gexec p (g_new w h d) in
  let gm := fold_left gexec q (g_new w' h' d') in
  gw g = gw gm -> gh g = gh gm ->
  exists a m r, aexec_all T W (a_new T W w h d) p = Some a /\
    aexec_all T W (a_new T W w' h' d') q = Some m /\ a_op_eq T op a m = Some r /\
    forall i j, g_in g i j -> exists x y, cell g i j = Some x /\ cell gm i j = Some y /\
      a_get T W r i j = Some (op y x).
Proof.
  intros L L' P Q g gm Ew Eh.
  destruct (aexec_all_ok p _ _ (rep_new w h d L) P) as (a & Ea & Ra). fold g in Ra.
  destruct (aexec_all_ok q _ _ (rep_new w' h' d' L') Q) as (m & Em & Rm). fold gm in Rm.
  destruct (op_eq_ok op a g m gm Ra Rm Ew Eh) as (r & Er & _ & _ & K).
  exists a, m, r. repeat split; auto. intros i j I.
  destruct (get_ok a g i j Ra I) as [_ N1].
  destruct (get_ok m gm i j Rm) as [_ N2]. { destruct I; split; congruence. }
  destruct (cell g i j) as [x|] eqn:Cx; [|congruence]. destruct (cell gm i j) as [y|] eqn:Cy; [|congruence].
  exists x, y. auto.
Qed.

Lemma overflow_dims w h d : 0 < w -> 0 < h -> w * h = W ->
  a_get T W (a_new T W w h d) 0 0 = None.
Proof.
  intros Hw Hh E. unfold a_get, offset, a_new. simpl.
  rewrite (proj2 (Nat.ltb_lt 0 w) Hw), (proj2 (Nat.ltb_lt 0 h) Hh). simpl.
  rewrite E, Nat.mod_same by nia. simpl repeat. match goal with |- nth_error [] ?n = None => destruct n; reflexivity end.
Qed.
End A2D.

Lemma resize_moves : exists (p : list (acmd nat)) a,
  aprog_ok nat 1000 (g_new nat 2 2 0) p /\
  aexec_all nat 1000 (a_new nat 1000 2 2 0) (p ++ [AResize nat 3 3 0]) = Some a /\
  cell nat (fold_left (gexec nat) p (g_new nat 2 2 0)) 0 1 = Some 7 /\ a_get nat 1000 a 0 1 = Some 0.
Proof.
  exists [ASet nat 0 1 7]. eexists. split; [|split; [|split]].
  - simpl. unfold g_in; simpl. lia.
  - vm_compute. reflexivity.
  - reflexivity.
  - vm_compute. reflexivity.
Qed.
