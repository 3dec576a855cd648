From Coq Require Import List Arith NArith Bool Lia Permutation Ring_theory Ring.
From Verif Require Import SparseVec.
Import ListNotations.

Section P.
Variable T : Type.
Variables (zero one : T) (tadd tsub tmul : T -> T -> T) (topp : T -> T).
Variable teqb : T -> T -> bool.
Hypothesis Rth : ring_theory zero one tadd tmul tsub topp eq.
Hypothesis teqb_ok : forall a b, teqb a b = true <-> a = b.
Variable LM : nat.
Hypothesis LM_ok : 1 <= LM < 255.
Add Ring TR : Rth.

Notation fsv := (fsv T).
Notation find := (hm_find T).

(** ** Specification: finite partial maps as functions *)
Definition pmap := N -> option T.
Definition pget (m : pmap) (k : N) : T := match m k with Some v => v | None => zero end.
Definition pupd (m : pmap) (k : N) (v : T) : pmap := fun k' => if N.eqb k k' then Some v else m k'.
Definition pdel (m : pmap) (k : N) : pmap := fun k' => if N.eqb k k' then None else m k'.
Definition pmerge (f : T -> T -> T) (m1 m2 : pmap) : pmap :=
  fun k => match m2 k with Some v => Some (f (pget m1 k) v) | None => m1 k end.

(** ** Representation *)
Definition contents (s : fsv) : list (N * T) :=
  if is_remote s then rbmap s else firstn (local_size s) (local s).
Definition keys (l : list (N * T)) := map fst l.
Definition wf (s : fsv) : Prop :=
  NoDup (keys (contents s)) /\ length (local s) = LM /\
  (is_remote s = false -> local_size s <= LM).
Definition rep (s : fsv) (m : pmap) : Prop := wf s /\ forall k, find k (contents s) = m k.

(** Association list facts. *)
Lemma find_none_iff k l : find k l = None <-> ~ In k (keys l).
Proof.
  induction l as [|[k' v] r IH]; simpl; [tauto|].
  destruct (N.eqb_spec k' k).
  - subst. split; [discriminate|tauto].
  - rewrite IH. tauto.
Qed.
Lemma find_some_in k v l : find k l = Some v -> In (k, v) l.
Proof.
  induction l as [|[k' v'] r IH]; simpl; [discriminate|].
  destruct (N.eqb_spec k' k); [intros [= ->]; subst; auto|auto].
Qed.
Lemma find_in k v l : NoDup (keys l) -> In (k, v) l -> find k l = Some v.
Proof.
  induction l as [|[k' v'] r IH]; simpl; [tauto|]. intros ND [E|H].
  - inversion E; subst. rewrite N.eqb_refl. auto.
  - inversion ND; subst. destruct (N.eqb_spec k' k); auto. subst.
    exfalso. apply H2. apply (in_map fst) in H. auto.
Qed.
Lemma find_perm k l l' : Permutation l l' -> NoDup (keys l) -> find k l = find k l'.
Proof.
  intros P ND. assert (ND' : NoDup (keys l')) by (eapply Permutation_NoDup; [apply Permutation_map|]; eauto).
  destruct (find k l) eqn:E.
  - symmetry. apply find_in; auto. eapply Permutation_in; [eauto|]. apply find_some_in; auto.
  - symmetry. apply find_none_iff. apply find_none_iff in E. intros H. apply E.
    eapply Permutation_in; [apply Permutation_map, Permutation_sym|]; eauto.
Qed.
Lemma find_app k a b : find k (a ++ b) = match find k a with Some v => Some v | None => find k b end.
Proof. induction a as [|[k' v] r IH]; simpl; auto. destruct (N.eqb k' k); auto. Qed.

Notation upd := (hm_update T zero).
Lemma find_update k f l k' :
  find k' (upd k f l) = if N.eqb k k' then Some (f (match find k l with Some v => v | None => zero end))
                        else find k' l.
Proof.
  induction l as [|[j v] r IH]; simpl.
  - destruct (N.eqb_spec k k'); auto.
  - destruct (N.eqb_spec j k); simpl.
    + subst. destruct (N.eqb_spec k k'); auto.
    + rewrite IH. destruct (N.eqb_spec j k'); destruct (N.eqb_spec k k'); subst; try congruence; auto.
Qed.
Lemma keys_update k f l : keys (upd k f l) = if in_dec N.eq_dec k (keys l) then keys l else keys l ++ [k].
Proof.
  induction l as [|[j v] r IH]; simpl; auto.
  destruct (N.eqb_spec j k).
  - subst. simpl. destruct (N.eq_dec k k); [|congruence]. auto.
  - simpl. rewrite IH. destruct (N.eq_dec j k); [congruence|].
    destruct (in_dec N.eq_dec k (keys r)); auto.
Qed.
Lemma NoDup_snoc {A} (l : list A) x : NoDup l -> ~ In x l -> NoDup (l ++ [x]).
Proof.
  intros. rewrite <- (rev_involutive (l ++ [x])). apply NoDup_rev. rewrite rev_app_distr. simpl.
  constructor; [rewrite <- in_rev; auto|apply NoDup_rev; auto].
Qed.
Lemma nodup_update k f l : NoDup (keys l) -> NoDup (keys (upd k f l)).
Proof.
  intros. rewrite keys_update. destruct in_dec; auto. apply NoDup_snoc; auto.
Qed.

(** Scanning the live slots. *)
Lemma scan_spec k : forall n sl, n <= length sl ->
  match scan T k n sl with
  | None => False
  | Some None => find k (firstn n sl) = None
  | Some (Some i) => i < n /\ exists v, nth_error sl i = Some (k, v) /\ find k (firstn n sl) = Some v
  end.
Proof.
  induction n; intros sl H; simpl; auto.
  destruct sl as [|[k' v] r]; simpl in H; [lia|]. simpl.
  destruct (N.eqb_spec k' k).
  - subst. split; [lia|]. exists v. auto.
  - specialize (IHn r ltac:(lia)). destruct (scan T k n r) as [[i|]|]; auto.
    destruct IHn as (Hi & v' & Hn & Hf). split; [lia|]. exists v'. auto.
Qed.
Lemma slot_set_len i p : forall sl, length (slot_set T i p sl) = length sl.
Proof. revert i. induction i; destruct sl; simpl; auto. Qed.
Lemma slot_set_snoc p : forall i sl, i < length sl ->
  firstn (S i) (slot_set T i p sl) = firstn i sl ++ [p].
Proof.
  induction i; destruct sl; simpl; intros; try lia; auto.
  f_equal. apply IHi. lia.
Qed.
Lemma slot_set_update k v f : forall n i sl,
  i < n -> nth_error sl i = Some (k, v) -> find k (firstn i sl) = None ->
  firstn n (slot_set T i (k, f v) sl) = upd k f (firstn n sl).
Proof.
  induction n; intros i sl Hi Hn Hf; [lia|].
  destruct sl as [|[k' v'] r]; [destruct i; discriminate|].
  destruct i; simpl in *.
  - inversion Hn; subst. rewrite N.eqb_refl. auto.
  - destruct (N.eqb_spec k' k); [discriminate|]. f_equal. apply IHn; auto. lia.
Qed.
Lemma scan_first k : forall n sl i, scan T k n sl = Some (Some i) -> find k (firstn i sl) = None.
Proof.
  induction n; intros sl i H; simpl in H; [discriminate|].
  destruct sl as [|[k' v] r]; [discriminate|].
  destruct (N.eqb_spec k' k); [inversion H; subst; auto|].
  destruct (scan T k n r) as [[j|]|] eqn:E; inversion H; subst. simpl.
  destruct (N.eqb_spec k' k); [congruence|]. eauto.
Qed.

Lemma hm_of_range_id_aux : forall l a, NoDup (keys (a ++ l)) ->
  fold_left (hm_insert T) l a = a ++ l.
Proof.
  induction l as [|p l IH]; intros a ND; simpl; [rewrite app_nil_r; auto|].
  unfold hm_insert at 2. destruct (find (fst p) a) eqn:E.
  - exfalso. unfold keys in ND. rewrite map_app in ND. simpl in ND.
    apply NoDup_remove_2 in ND. apply ND. apply in_or_app. left.
    apply find_some_in in E. apply (in_map fst) in E. auto.
  - rewrite IH; rewrite <- app_assoc; auto.
Qed.
Lemma hm_of_range_id l : NoDup (keys l) -> hm_of_range T l = l.
Proof. intros. unfold hm_of_range. rewrite hm_of_range_id_aux; auto. Qed.

(** ** upd_bin *)
Lemma upd_bin_rep s m k f : rep s m ->
  exists s', upd_bin T zero LM s k f = Some s' /\ rep s' (pupd m k (f (pget m k))).
Proof.
  intros [(ND & Hlen & Hls) Hm]. unfold upd_bin.
  assert (G : forall s', contents s' = upd k f (contents s) -> length (local s') = LM ->
     (is_remote s' = false -> local_size s' <= LM) -> rep s' (pupd m k (f (pget m k)))).
  { intros s' C L R. split; [split; [|split]|]; auto.
    - rewrite C. apply nodup_update; auto.
    - intros k'. rewrite C, find_update. unfold pupd, pget. rewrite <- !Hm. auto. }
  destruct (is_remote s) eqn:ER.
  - eexists; split; [reflexivity|]. apply G; simpl; auto; try discriminate.
    unfold contents. rewrite ER. auto.
  - specialize (Hls eq_refl).
    pose proof (scan_spec k (local_size s) (local s) ltac:(lia)) as Hsc.
    destruct (scan T k (local_size s) (local s)) as [[i|]|] eqn:Esc; [| |tauto].
    + destruct Hsc as (Hi & v & Hn & Hf). rewrite Hn.
      eexists; split; [reflexivity|]. apply G; simpl; auto.
      * unfold contents. simpl. rewrite ER. apply slot_set_update; auto.
        eapply scan_first; eauto.
      * rewrite slot_set_len; auto.
    + destruct (Nat.ltb_spec (local_size s) LM).
      * eexists; split; [reflexivity|].
        assert (Hu : u8 (S (local_size s)) = S (local_size s)) by (apply Nat.mod_small; lia).
        apply G; simpl; auto.
        -- unfold contents; cbn [is_remote local_size local]. rewrite ER, Hu.
           rewrite slot_set_snoc by lia.
           clear - Hsc. generalize dependent (firstn (local_size s) (local s)).
           induction l as [|[j w] r IH]; simpl; auto. destruct (N.eqb_spec j k); [discriminate|].
           intros. rewrite IH; auto.
        -- rewrite slot_set_len; auto.
        -- rewrite Hu. lia.
      * unfold swap_local_rbmap. destruct (Nat.leb_spec (local_size s) (length (local s))); [|lia].
        eexists; split; [reflexivity|]. apply G; simpl; auto; try discriminate.
        unfold contents in *; simpl. rewrite ER in *. rewrite hm_of_range_id; auto.
Qed.

Lemma rep_ext s m m' : rep s m -> (forall k, m k = m' k) -> rep s m'.
Proof. intros [W H] E. split; auto. intros. rewrite H; auto. Qed.

Lemma upd_all_rep op : forall ps s m, rep s m -> NoDup (keys ps) ->
  exists s', upd_all T zero LM s op ps = Some s' /\
   rep s' (fun k => match find k ps with Some v => Some (op (pget m k) v) | None => m k end).
Proof.
  induction ps as [|[k v] r IH]; intros s m R ND; simpl.
  - exists s; auto.
  - inversion ND; subst.
    destruct (upd_bin_rep s m k (fun x => op x v) R) as (s1 & -> & R1).
    destruct (IH s1 _ R1 H2) as (s2 & -> & R2). exists s2; split; auto.
    eapply rep_ext; [exact R2|]. intros k'. simpl.
    destruct (N.eqb_spec k k').
    + subst k'. apply find_none_iff in H1. rewrite H1. unfold pupd. rewrite N.eqb_refl. auto.
    + assert (Hp : pget (pupd m k (op (pget m k) v)) k' = pget m k').
      { unfold pget, pupd. destruct (N.eqb_spec k k'); [congruence|auto]. }
      rewrite Hp. unfold pupd at 1. destruct (N.eqb_spec k k'); [congruence|]. auto.
Qed.

Lemma pairs_rep s m : rep s m -> pairs T s = Some (contents s).
Proof.
  intros [(ND & Hlen & Hls) Hm]. unfold pairs, contents. destruct (is_remote s); auto.
  destruct (Nat.leb_spec (local_size s) (length (local s))); auto.
  specialize (Hls eq_refl). lia.
Qed.

Lemma size_rep s m : rep s m -> size T s = length (contents s).
Proof.
  intros [(ND & Hlen & Hls) Hm]. unfold size, contents. destruct (is_remote s); auto.
  rewrite firstn_length. specialize (Hls eq_refl). lia.
Qed.

Lemma value_rep s m k : rep s m -> value T zero s k = Some (pget m k).
Proof.
  intros [(ND & Hlen & Hls) Hm]. unfold value, pget. rewrite <- Hm. unfold contents.
  destruct (is_remote s) eqn:ER.
  - destruct (find k (rbmap s)); auto.
  - specialize (Hls eq_refl).
    pose proof (scan_spec k (local_size s) (local s) ltac:(lia)) as Hsc.
    destruct (scan T k (local_size s) (local s)) as [[i|]|]; [| |tauto].
    + destruct Hsc as (Hi & v & -> & ->). auto.
    + rewrite Hsc. auto.
Qed.

Lemma empty_rep : rep (fsv_empty T zero LM) (fun _ => None).
Proof.
  split; [split; [|split]|]; simpl; auto.
  - constructor.
  - apply repeat_length.
  - lia.
Qed.

Lemma clear_rep s m : rep s m -> rep (clear T s) (fun _ => None).
Proof.
  intros [(ND & Hlen & Hls) Hm]. split; [split; [|split]|]; simpl; auto.
  - constructor.
  - lia.
Qed.

Lemma size0_rep s m : rep s m -> size T s = 0 -> forall k, m k = None.
Proof.
  intros R H k. rewrite (size_rep s m R) in H. destruct R as [_ Hm]. rewrite <- Hm.
  destruct (contents s); [auto|discriminate].
Qed.

Lemma plus_eq_rep s o ms mo : rep s ms -> rep o mo ->
  exists s', plus_eq T zero tadd LM s o = Some s' /\ rep s' (pmerge tadd ms mo).
Proof.
  intros Rs Ro. unfold plus_eq. destruct (Nat.eqb_spec (size T s) 0) as [E|E].
  - exists o; split; auto. eapply rep_ext; [exact Ro|]. intros k. unfold pmerge, pget.
    rewrite (size0_rep s ms Rs E k). destruct (mo k); auto. f_equal. ring.
  - rewrite (pairs_rep o mo Ro).
    destruct (upd_all_rep tadd (contents o) s ms Rs) as (s' & E' & R'); [apply Ro|].
    exists s'; split; auto. eapply rep_ext; [exact R'|]. intros k. simpl.
    destruct Ro as [_ Hm]. rewrite Hm. reflexivity.
Qed.
Lemma minus_eq_rep s o ms mo : rep s ms -> rep o mo ->
  exists s', minus_eq T zero tsub LM s o = Some s' /\ rep s' (pmerge tsub ms mo).
Proof.
  intros Rs Ro. unfold minus_eq. rewrite (pairs_rep o mo Ro).
  destruct (upd_all_rep tsub (contents o) s ms Rs) as (s' & E' & R'); [apply Ro|].
  exists s'; split; auto. eapply rep_ext; [exact R'|]. intros k. simpl.
  destruct Ro as [_ Hm]. rewrite Hm. reflexivity.
Qed.
Lemma axpy_rep s o ms mo c : rep s ms -> rep o mo ->
  exists s', plus_eq_v_times_s T zero tadd tmul LM s o c = Some s' /\
     rep s' (pmerge (fun x v => tadd x (tmul v c)) ms mo).
Proof.
  intros Rs Ro. unfold plus_eq_v_times_s. rewrite (pairs_rep o mo Ro).
  destruct (upd_all_rep (fun x v => tadd x (tmul v c)) (contents o) s ms Rs) as (s' & E' & R'); [apply Ro|].
  exists s'; split; auto. eapply rep_ext; [exact R'|]. intros k. simpl.
  destruct Ro as [_ Hm]. rewrite Hm. reflexivity.
Qed.

Lemma plus_rep x y mx my : rep x mx -> rep y my ->
  exists s', plus T zero tadd LM x y = Some s' /\
    rep s' (fun k => match mx k, my k with
                     | None, None => None
                     | _, _ => Some (tadd (pget mx k) (pget my k)) end).
Proof.
  intros Rx Ry. unfold plus. destruct (Nat.ltb_spec (size T y) (size T x)).
  - destruct (plus_eq_rep x y mx my Rx Ry) as (s' & E & R). exists s'; split; auto.
    eapply rep_ext; [exact R|]. intros k. unfold pmerge, pget.
    destruct (mx k), (my k); auto. f_equal. ring.
  - destruct (plus_eq_rep y x my mx Ry Rx) as (s' & E & R). exists s'; split; auto.
    eapply rep_ext; [exact R|]. intros k. unfold pmerge, pget.
    destruct (mx k), (my k); auto; f_equal; ring.
Qed.

Lemma keys_map_snd (g : T -> T) l : keys (map (fun p => (fst p, g (snd p))) l) = keys l.
Proof. unfold keys. rewrite map_map. simpl. auto. Qed.
Lemma find_map_snd (g : T -> T) k l :
  find k (map (fun p => (fst p, g (snd p))) l) = option_map g (find k l).
Proof. induction l as [|[j v] r IH]; simpl; auto. destruct (N.eqb j k); auto. Qed.

Lemma times_eq_rep s m c : rep s m ->
  exists s', times_eq T tmul s c = Some s' /\ rep s' (fun k => option_map (fun v => tmul v c) (m k)).
Proof.
  intros [(ND & Hlen & Hls) Hm]. unfold times_eq.
  assert (G : forall s', contents s' = map (fun p => (fst p, tmul (snd p) c)) (contents s) ->
     length (local s') = LM -> (is_remote s' = false -> local_size s' <= LM) ->
     rep s' (fun k => option_map (fun v => tmul v c) (m k))).
  { intros s' C L R. split; [split; [|split]|]; auto.
    - rewrite C. rewrite (keys_map_snd (fun v => tmul v c)). auto.
    - intros k. rewrite C, (find_map_snd (fun v => tmul v c)), Hm. auto. }
  destruct (is_remote s) eqn:ER.
  - eexists; split; [reflexivity|]. apply G; simpl; auto; try discriminate.
    unfold contents. rewrite ER. auto.
  - specialize (Hls eq_refl).
    destruct (Nat.leb_spec (local_size s) (length (local s))); [|lia].
    eexists; split; [reflexivity|]. apply G; simpl; auto.
    + unfold contents; simpl. rewrite ER.
      rewrite firstn_app. rewrite map_length, firstn_length.
      replace (local_size s - Nat.min (local_size s) (length (local s))) with 0 by lia.
      simpl. rewrite app_nil_r. rewrite firstn_all2; auto.
      rewrite map_length, firstn_length. lia.
    + rewrite app_length, map_length, firstn_length, skipn_length. lia.
Qed.

(** ** erase *)
Lemma shift0_cons p q r n :
  shift_left T 0 (S (S n)) (p :: q :: r) = q :: shift_left T 0 (S n) (q :: r).
Proof. reflexivity. Qed.
Lemma shiftS_cons i p r n : shift_left T (S i) n (p :: r) = p :: shift_left T i (n - 1) r.
Proof. reflexivity. Qed.
Lemma shift_left_len : forall i n sl, length (shift_left T i n sl) = length sl.
Proof.
  intros i n sl; revert i n. induction sl as [|p r IH]; intros i n.
  - destruct i; auto.
  - destruct i.
    + destruct r as [|q r']; auto. destruct n as [|[|n']]; auto.
      rewrite shift0_cons. cbn [length]. f_equal. apply (IH 0).
    + rewrite shiftS_cons. cbn [length]. f_equal. apply IH.
Qed.
Lemma firstn_shift0 : forall sl n, n <= length sl ->
  firstn (n - 1) (shift_left T 0 n sl) = firstn (n - 1) (skipn 1 sl).
Proof.
  induction sl as [|p r IH]; intros n Hn.
  - simpl in Hn. replace n with 0 by lia. auto.
  - destruct r as [|q r'].
    + simpl in Hn. destruct n as [|[|]]; [auto|auto|lia].
    + destruct n as [|[|n']]; auto.
      simpl in Hn. rewrite shift0_cons. replace (S (S n') - 1) with (S n') by lia.
      cbn [skipn firstn].
      specialize (IH (S n') ltac:(simpl; lia)).
      replace (S n' - 1) with n' in IH by lia. cbn [skipn] in IH. rewrite IH. auto.
Qed.
Lemma firstn_shift : forall i n sl, i < n -> n <= length sl ->
  firstn (n - 1) (shift_left T i n sl) = firstn i sl ++ firstn (n - 1 - i) (skipn (S i) sl).
Proof.
  induction i; intros n sl Hi Hn.
  - simpl app. replace (n - 1 - 0) with (n - 1) by lia. apply firstn_shift0; auto.
  - destruct sl as [|p r]; simpl in Hn; [lia|].
    rewrite shiftS_cons. destruct n as [|n]; [lia|]. replace (S n - 1) with n by lia.
    destruct n as [|n']; [lia|].
    specialize (IHi (S n') r ltac:(lia) ltac:(lia)).
    replace (S n' - 1) with n' in IHi by lia.
    cbn [firstn]. simpl app. f_equal. rewrite IHi. f_equal.
Qed.

Lemma nth_shift_ge : forall i n sl j, i < n -> n <= length sl -> i <= j -> j < n ->
  nth_error (shift_left T i n sl) j = if Nat.ltb (S j) n then nth_error sl (S j) else nth_error sl j.
Proof.
  assert (Z0 : forall sl n j, n <= length sl -> j < n ->
     nth_error (shift_left T 0 n sl) j = if Nat.ltb (S j) n then nth_error sl (S j) else nth_error sl j).
  { induction sl as [|p r IH]; intros n j Hn Hj; [simpl in Hn; lia|].
    destruct r as [|q r'].
    - simpl in Hn. destruct (Nat.ltb_spec (S j) n); [lia|auto].
    - destruct n as [|[|n']]; [lia| |].
      + destruct (Nat.ltb_spec (S j) 1); [lia|auto].
      + rewrite shift0_cons. destruct j; [simpl; auto|].
        simpl in Hn. specialize (IH (S n') j ltac:(simpl; lia) ltac:(lia)).
        cbn [nth_error]. cbn [nth_error] in IH. rewrite IH.
        destruct (Nat.ltb_spec (S j) (S n')); destruct (Nat.ltb_spec (S (S j)) (S (S n'))); try lia; auto. }
  induction i; intros n sl j Hi Hn Hij Hj.
  - apply Z0; auto.
  - destruct sl as [|p r]; simpl in Hn; [lia|]. destruct j; [lia|].
    rewrite shiftS_cons. cbn [nth_error].
    rewrite IHi by lia.
    destruct (Nat.ltb_spec (S j) (n - 1)); destruct (Nat.ltb_spec (S (S j)) n); try lia; auto.
Qed.

(** After the key was found and removed the loop finds no further match. *)
Lemma erase_loop_absent k n : forall fuel i sl,
  i + fuel <= length sl ->
  (forall j, i <= j -> j < i + fuel -> forall v, nth_error sl j <> Some (k, v)) ->
  erase_loop T k fuel i n sl = Some sl.
Proof.
  induction fuel; intros i sl Hl H; simpl; auto.
  destruct (nth_error sl i) as [[k' v']|] eqn:E.
  - destruct (N.eqb_spec k' k).
    + subst. exfalso. eapply (H i); eauto; lia.
    + apply IHfuel; [lia|]. intros. apply H; lia.
  - apply nth_error_None in E. lia.
Qed.

Lemma nodup_keys_nth l i j k v v' :
  NoDup (keys l) -> nth_error l i = Some (k, v) -> nth_error l j = Some (k, v') -> i = j.
Proof.
  intros ND Hi Hj. unfold keys in ND.
  assert (i < length (map fst l)) by (rewrite map_length; apply nth_error_Some; congruence).
  eapply (NoDup_nth_error (map fst l)); auto.
  rewrite !nth_error_map, Hi, Hj. auto.
Qed.

Lemma nth_firstn_lt {A} (l : list A) n i : i < n -> nth_error (firstn n l) i = nth_error l i.
Proof.
  revert l i. induction n; intros l i H; [lia|]. destruct l; [destruct i; auto|].
  destruct i; simpl; auto. apply IHn; lia.
Qed.

Lemma erase_loop_present k n : forall fuel i sl,
  i + fuel = n -> n <= length sl -> NoDup (keys (firstn n sl)) ->
  forall p v, i <= p -> p < n -> nth_error sl p = Some (k, v) ->
  erase_loop T k fuel i n sl = Some (shift_left T p n sl).
Proof.
  induction fuel; intros i sl Hf Hn ND p v Hp Hpn E; [lia|].
  simpl. destruct (nth_error sl i) as [[k' v']|] eqn:Ei.
  2:{ apply nth_error_None in Ei. lia. }
  destruct (N.eqb_spec k' k).
  - subst k'. assert (p = i).
    { eapply (nodup_keys_nth (firstn n sl)); eauto; rewrite nth_firstn_lt; eauto; lia. }
    subst p. apply erase_loop_absent.
    + rewrite shift_left_len. lia.
    + intros j Hj1 Hj2 v'' Hc. rewrite nth_shift_ge in Hc by lia.
      destruct (Nat.ltb_spec (S j) n).
      * assert (S j = i); [|lia].
        eapply (nodup_keys_nth (firstn n sl)); eauto; rewrite nth_firstn_lt; eauto; lia.
      * assert (j = i); [|lia].
        eapply (nodup_keys_nth (firstn n sl)); eauto; rewrite nth_firstn_lt; eauto; lia.
  - assert (p <> i) by (intros ->; congruence).
    eapply IHfuel; eauto; lia.
Qed.

Lemma erase_rep s m k : rep s m -> (is_remote s = true \/ m k <> None) ->
  exists s', erase T s k = Some s' /\ rep s' (pdel m k).
Proof.
  intros [(ND & Hlen & Hls) Hm] Hk. unfold erase. destruct (is_remote s) eqn:ER.
  - eexists; split; [reflexivity|]. unfold contents in *. rewrite ER in *.
    split; [split; [|split]|]; simpl; auto; try discriminate.
    + unfold contents; simpl. unfold hm_erase.
      clear - ND. induction (rbmap s) as [|[j v] r IH]; simpl; [constructor|].
      inversion ND; subst. destruct (N.eqb_spec j k); simpl; auto.
      constructor; auto. intros H. apply H1. unfold keys in *.
      apply in_map_iff in H. destruct H as ([a b] & <- & Hin). apply filter_In in Hin.
      destruct Hin as [Hin _]. apply (in_map fst) in Hin. auto.
    + intros k'. unfold contents; simpl. unfold pdel. rewrite <- Hm. unfold hm_erase.
      clear - ND. induction (rbmap s) as [|[j v] r IH]; simpl; [destruct (N.eqb k k'); auto|].
      inversion ND; subst.
      destruct (N.eqb_spec j k); simpl.
      * subst. rewrite IH; auto. destruct (N.eqb_spec k k'); auto.
      * destruct (N.eqb_spec j k'); subst; auto.
        destruct (N.eqb_spec k k'); congruence.
  - destruct Hk as [|Hk]; [discriminate|]. specialize (Hls eq_refl).
    unfold contents in *. rewrite ER in *.
    destruct (m k) as [v|] eqn:Emk; [|congruence].
    rewrite <- Hm in Emk. apply find_some_in in Emk. apply In_nth_error in Emk.
    destruct Emk as [p Hp].
    assert (Hpl : p < local_size s).
    { assert (p < length (firstn (local_size s) (local s))) by (apply nth_error_Some; congruence).
      rewrite firstn_length in H. lia. }
    rewrite nth_firstn_lt in Hp by auto.
    rewrite (erase_loop_present k (local_size s) (local_size s) 0 (local s)) with (p := p) (v := v); auto; try lia.
    eexists; split; [reflexivity|].
    assert (Hu : u8 (local_size s + 255) = local_size s - 1).
    { unfold u8. replace (local_size s + 255) with ((local_size s - 1) + 1 * 256) by lia.
      rewrite Nat.mod_add by lia. apply Nat.mod_small. lia. }
    assert (C : firstn (local_size s - 1) (shift_left T p (local_size s) (local s))
              = firstn p (local s) ++ firstn (local_size s - 1 - p) (skipn (S p) (local s))).
    { apply firstn_shift; lia. }
    assert (D : firstn (local_size s) (local s) =
                firstn p (local s) ++ (k, v) :: firstn (local_size s - 1 - p) (skipn (S p) (local s))).
    { rewrite <- (firstn_skipn p (local s)) at 1. rewrite firstn_app.
      rewrite firstn_firstn. replace (Nat.min (local_size s) p) with p by lia. f_equal.
      rewrite firstn_length. replace (Nat.min p (length (local s))) with p by lia.
      assert (E : skipn p (local s) = (k, v) :: skipn (S p) (local s)).
      { clear - Hp. revert Hp. generalize (local s). induction p; intros l Hp.
        - destruct l; simpl in Hp; inversion Hp; subst; auto.
        - destruct l; [discriminate|]. simpl in Hp. simpl. apply IHp in Hp. simpl in Hp. auto. }
      rewrite E. replace (local_size s - p) with (S (local_size s - 1 - p)) by lia. auto. }
    assert (ND2 := ND). unfold keys in ND2. rewrite D, map_app in ND2. simpl in ND2.
    split; [split; [|split]|]; cbn [is_remote local local_size].
    + unfold contents; cbn [is_remote local_size local]. rewrite Hu, C. unfold keys. rewrite map_app.
      eapply NoDup_remove_1; eauto.
    + rewrite shift_left_len; auto.
    + intros _. rewrite Hu. lia.
    + intros k'. unfold contents; cbn [is_remote local_size local]. rewrite Hu, C.
      unfold pdel. rewrite <- Hm, D. rewrite !find_app. simpl.
      apply NoDup_remove_2 in ND2.
      destruct (N.eqb_spec k k').
      * subst k'.
        assert (find k (firstn p (local s)) = None) as ->.
        { apply find_none_iff. intros H; apply ND2, in_or_app; auto. }
        apply find_none_iff. intros H; apply ND2, in_or_app; auto.
      * destruct (find k' (firstn p (local s))); auto.
Qed.

Lemma rehash_rep s m l : rep s m -> is_remote s = true -> Permutation (rbmap s) l ->
  rep (fsv_rehash T s l) m.
Proof.
  intros [(ND & Hlen & Hls) Hm] ER P. unfold contents in *. rewrite ER in *.
  split; [split; [|split]|]; simpl; auto.
  - unfold contents; simpl. rewrite ER. eapply Permutation_NoDup; [|exact ND].
    apply Permutation_map; auto.
  - intros H. congruence.
  - intros k. unfold contents; simpl. rewrite ER. rewrite <- Hm.
    symmetry. apply find_perm; auto.
Qed.

(** ** Programs over a store of vectors *)
Inductive cmd :=
| CSet (x : nat) (k : N) (v : T)       (* x.set_value(k, v) *)
| CAdd (x : nat) (k : N) (v : T)       (* x.add_value(k, v) *)
| CClear (x : nat)                     (* x.clear() *)
| CCopy (x y : nat)                    (* x = y *)
| CPlusEq (x y : nat)                  (* x += y *)
| CMinusEq (x y : nat)                 (* x -= y *)
| CAxpy (x y : nat) (c : T)            (* x.plus_eq_v_times_s(y, c) *)
| CScale (x : nat) (c : T)             (* x *= c *)
| CSum (z x y : nat)                   (* z = x + y *)
| CDiff (z x y : nat)                  (* z = x - y *)
| CErase (x : nat) (k : N).            (* x.erase(k) *)

Definition store := nat -> fsv.
Definition sset {A} (st : nat -> A) (x : nat) (v : A) : nat -> A :=
  fun y => if Nat.eqb x y then v else st y.
Definition oset (st : store) (x : nat) (o : option fsv) : option store :=
  match o with Some v => Some (sset st x v) | None => None end.

Definition exec (st : store) (c : cmd) : option store :=
  match c with
  | CSet x k v => oset st x (set_value T zero LM (st x) k v)
  | CAdd x k v => oset st x (add_value T zero tadd LM (st x) k v)
  | CClear x => Some (sset st x (clear T (st x)))
  | CCopy x y => Some (sset st x (st y))
  | CPlusEq x y => oset st x (plus_eq T zero tadd LM (st x) (st y))
  | CMinusEq x y => oset st x (minus_eq T zero tsub LM (st x) (st y))
  | CAxpy x y c => oset st x (plus_eq_v_times_s T zero tadd tmul LM (st x) (st y) c)
  | CScale x c => oset st x (times_eq T tmul (st x) c)
  | CSum z x y => oset st z (plus T zero tadd LM (st x) (st y))
  | CDiff z x y => oset st z (minus T zero tsub LM (st x) (st y))
  | CErase x k => oset st x (erase T (st x) k)
  end.

(** The ideal semantics. *)
Definition sexec (M : nat -> pmap) (c : cmd) : nat -> pmap :=
  match c with
  | CSet x k v => sset M x (pupd (M x) k v)
  | CAdd x k v => sset M x (pupd (M x) k (tadd (pget (M x) k) v))
  | CClear x => sset M x (fun _ => None)
  | CCopy x y => sset M x (M y)
  | CPlusEq x y => sset M x (pmerge tadd (M x) (M y))
  | CMinusEq x y => sset M x (pmerge tsub (M x) (M y))
  | CAxpy x y c => sset M x (pmerge (fun a b => tadd a (tmul b c)) (M x) (M y))
  | CScale x c => sset M x (fun k => option_map (fun v => tmul v c) (M x k))
  | CSum z x y => sset M z (fun k => match M x k, M y k with
        | None, None => None | _, _ => Some (tadd (pget (M x) k) (pget (M y) k)) end)
  | CDiff z x y => sset M z (pmerge tsub (M x) (M y))
  | CErase x k => sset M x (pdel (M x) k)
  end.
Definition scmd_ok (M : nat -> pmap) (c : cmd) : Prop :=
  match c with CErase x k => M x k <> None | _ => True end.

(** Executions: commands interleaved with arbitrary changes of the hash maps'
    iteration order. *)
Inductive run : store -> list cmd -> store -> Prop :=
| run_nil st : run st [] st
| run_cmd st c st1 p st2 : exec st c = Some st1 -> run st1 p st2 -> run st (c :: p) st2
| run_rehash st x l p st2 : is_remote (st x) = true -> Permutation (rbmap (st x)) l ->
    run (sset st x (fsv_rehash T (st x) l)) p st2 -> run st p st2.

Fixpoint prog_ok (M : nat -> pmap) (p : list cmd) : Prop :=
  match p with [] => True | c :: p' => scmd_ok M c /\ prog_ok (sexec M c) p' end.

Definition init : store := fun _ => fsv_empty T zero LM.
Definition sinit : nat -> pmap := fun _ _ => None.
Definition srep (st : store) (M : nat -> pmap) := forall x, rep (st x) (M x).

Lemma srep_set st M x v m : srep st M -> rep v m -> srep (sset st x v) (sset M x m).
Proof. intros H Hv y. unfold sset. destruct (Nat.eqb x y); auto. Qed.

Lemma exec_rep st M c : srep st M -> scmd_ok M c ->
  exists st', exec st c = Some st' /\ srep st' (sexec M c).
Proof.
  intros H Hok. destruct c; simpl in *.
  - destruct (upd_bin_rep (st x) (M x) k (fun _ => v) (H x)) as (s & E & R).
    unfold set_value. rewrite E. simpl. eexists; split; [reflexivity|]. apply srep_set; auto.
  - destruct (upd_bin_rep (st x) (M x) k (fun a => tadd a v) (H x)) as (s & E & R).
    unfold add_value. rewrite E. simpl. eexists; split; [reflexivity|]. apply srep_set; auto.
  - eexists; split; [reflexivity|]. apply srep_set; auto. eapply clear_rep; eauto.
  - eexists; split; [reflexivity|]. apply srep_set; auto.
  - destruct (plus_eq_rep _ _ _ _ (H x) (H y)) as (s & E & R). rewrite E. simpl.
    eexists; split; [reflexivity|]. apply srep_set; auto.
  - destruct (minus_eq_rep _ _ _ _ (H x) (H y)) as (s & E & R). rewrite E. simpl.
    eexists; split; [reflexivity|]. apply srep_set; auto.
  - destruct (axpy_rep _ _ _ _ c (H x) (H y)) as (s & E & R). rewrite E. simpl.
    eexists; split; [reflexivity|]. apply srep_set; auto.
  - destruct (times_eq_rep _ _ c (H x)) as (s & E & R). rewrite E. simpl.
    eexists; split; [reflexivity|]. apply srep_set; auto.
  - destruct (plus_rep _ _ _ _ (H x) (H y)) as (s & E & R). rewrite E. simpl.
    eexists; split; [reflexivity|]. apply srep_set; auto.
  - destruct (minus_eq_rep _ _ _ _ (H x) (H y)) as (s & E & R). unfold minus. rewrite E. simpl.
    eexists; split; [reflexivity|]. apply srep_set; auto.
  - destruct (erase_rep (st x) (M x) k (H x)) as (s & E & R); auto. rewrite E. simpl.
    eexists; split; [reflexivity|]. apply srep_set; auto.
Qed.

Lemma run_rep : forall st p st', run st p st' -> forall M, srep st M -> prog_ok M p ->
  srep st' (fold_left sexec p M).
Proof.
  induction 1; intros M HM Hok; simpl in *; auto.
  - destruct Hok as [Hc Hp]. destruct (exec_rep st M c HM Hc) as (s' & E & R).
    rewrite E in H. inversion H; subst. auto.
  - apply IHrun; auto. intros y. unfold sset. destruct (Nat.eqb_spec x y); auto.
    subst. apply rehash_rep; auto.
Qed.

Lemma init_rep : srep init sinit.
Proof. intros x. apply empty_rep. Qed.

(** Reachable stores: what a client observes. *)
Lemma reach_value p st : run init p st -> prog_ok sinit p ->
  forall x k, value T zero (st x) k = Some (pget (fold_left sexec p sinit x) k).
Proof. intros R O x k. apply value_rep. exact (run_rep _ _ _ R _ init_rep O x). Qed.

Lemma reach_size p st : run init p st -> prog_ok sinit p ->
  forall x, exists l, NoDup l /\ (forall k, In k l <-> fold_left sexec p sinit x k <> None) /\
            size T (st x) = length l.
Proof.
  intros R O x. pose proof (run_rep _ _ _ R _ init_rep O x) as RR.
  exists (keys (contents (st x))). split; [apply RR|]. split.
  - intros k. destruct RR as [_ Hm]. rewrite <- Hm.
    pose proof (find_none_iff k (contents (st x))).
    destruct (in_dec N.eq_dec k (keys (contents (st x)))); tauto.
  - rewrite (size_rep _ _ RR). unfold keys. rewrite map_length. auto.
Qed.

Lemma reach_progress p st c : run init p st -> prog_ok sinit p ->
  scmd_ok (fold_left sexec p sinit) c -> exec st c <> None.
Proof.
  intros R O Hc. destruct (exec_rep st _ c (run_rep _ _ _ R _ init_rep O) Hc) as (s & -> & _).
  discriminate.
Qed.

(** Dot product: the sum over any duplicate-free key list covering the stored
    keys of the left operand. *)
Fixpoint tsum (f : N -> T) (l : list N) : T :=
  match l with [] => zero | k :: r => tadd (f k) (tsum f r) end.

Lemma dot_loop_spec o mo : rep o mo -> forall ps res,
  dot_loop T zero tadd tmul o ps res =
  Some (tadd res (fold_right tadd zero (map (fun p => tmul (pget mo (fst p)) (snd p)) ps))).
Proof.
  intros R. induction ps as [|[k v] r IH]; intros res; simpl.
  - f_equal. ring.
  - rewrite (value_rep o mo k R). rewrite IH. f_equal. simpl. ring.
Qed.

Lemma tsum_ext f g l : (forall k, In k l -> f k = g k) -> tsum f l = tsum g l.
Proof. induction l; simpl; intros H; auto. rewrite H, IHl; auto. Qed.
Lemma tsum_perm f l l' : Permutation l l' -> tsum f l = tsum f l'.
Proof.
  induction 1; simpl; auto.
  - rewrite IHPermutation; auto.
  - ring.
  - congruence.
Qed.
Lemma tsum_app f a b : tsum f (a ++ b) = tadd (tsum f a) (tsum f b).
Proof. induction a; simpl; [ring|rewrite IHa; ring]. Qed.
Lemma tsum_zero f l : (forall k, In k l -> f k = zero) -> tsum f l = zero.
Proof. induction l; simpl; intros H; auto. rewrite H, IHl; auto. ring. Qed.


Lemma split_cover : forall (l l' : list N), NoDup l -> NoDup l' -> incl l l' ->
  exists r, Permutation l' (l ++ r) /\ NoDup (l ++ r).
Proof.
  induction l as [|a l IH]; intros l' ND ND' I.
  - exists l'. auto.
  - inversion ND; subst.
    assert (Ha : In a l') by (apply I; left; auto).
    apply in_split in Ha. destruct Ha as (l1 & l2 & ->).
    assert (ND'' : NoDup (l1 ++ l2)) by (eapply NoDup_remove_1; eauto).
    assert (Hn : ~ In a (l1 ++ l2)) by (eapply NoDup_remove_2; eauto).
    destruct (IH (l1 ++ l2)) as (r & P & N); auto.
    { intros x Hx. assert (In x (l1 ++ a :: l2)) by (apply I; right; auto).
      apply in_app_iff in H. apply in_or_app. simpl in H.
      destruct H as [|[->|]]; auto. contradiction. }
    exists r. split.
    + simpl. rewrite <- Permutation_middle. constructor. auto.
    + simpl. constructor; auto. intros Hin. apply Hn. eapply Permutation_in; [apply Permutation_sym|]; eauto.
Qed.

Lemma tsum_cover f l l' : NoDup l -> NoDup l' -> incl l l' ->
  (forall k, In k l' -> ~ In k l -> f k = zero) -> tsum f l = tsum f l'.
Proof.
  intros ND ND' I Z. destruct (split_cover l l' ND ND' I) as (r & P & N).
  rewrite (tsum_perm f l' _ P), tsum_app.
  rewrite (tsum_zero f r); [ring|].
  intros k Hk. apply Z.
  - eapply Permutation_in; [apply Permutation_sym; eauto|]. apply in_or_app; auto.
  - intros Hl. clear - N Hk Hl. induction l; simpl in *; [auto|].
    inversion N; subst. destruct Hl as [->|]; auto. apply H1, in_or_app; auto.
Qed.

Lemma dot_rep s o ms mo : rep s ms -> rep o mo ->
  forall l, NoDup l -> (forall k, ms k <> None -> In k l) ->
  dot T zero tadd tmul s o = Some (tsum (fun k => tmul (pget ms k) (pget mo k)) l).
Proof.
  intros Rs Ro l ND Hl. unfold dot. rewrite (pairs_rep s ms Rs).
  rewrite (dot_loop_spec o mo Ro). f_equal.
  destruct Rs as [(NDs & _) Hm].
  rewrite <- (tsum_cover _ (keys (contents s)) l); auto.
  - transitivity (fold_right tadd zero (map (fun p => tmul (pget mo (fst p)) (snd p)) (contents s))); [ring|].
    assert (G : forall ps, (forall k v, In (k, v) ps -> pget ms k = v) ->
       fold_right tadd zero (map (fun p => tmul (pget mo (fst p)) (snd p)) ps) =
       tsum (fun k => tmul (pget ms k) (pget mo k)) (keys ps)).
    { induction ps as [|[k v] r IH]; intros H; simpl; auto.
      rewrite IH; [|intros; apply H; right; auto]. rewrite (H k v) by (left; auto). simpl. ring. }
    apply G. intros k v Hin. unfold pget. rewrite <- Hm. rewrite (find_in k v); auto.
  - intros k Hk. apply Hl. rewrite <- Hm. intros Hf. apply find_none_iff in Hf. auto.
  - intros k _ Hk. apply find_none_iff in Hk. unfold pget at 1. rewrite <- Hm, Hk. ring.
Qed.

Lemma reach_dot p st : run init p st -> prog_ok sinit p ->
  forall x y l, NoDup l -> (forall k, fold_left sexec p sinit x k <> None -> In k l) ->
  dot T zero tadd tmul (st x) (st y) =
    Some (tsum (fun k => tmul (pget (fold_left sexec p sinit x) k)
                              (pget (fold_left sexec p sinit y) k)) l).
Proof.
  intros R O x y l ND Hl. pose proof (run_rep _ _ _ R _ init_rep O) as RR.
  apply dot_rep; auto.
Qed.

(** ** operator== *)
Lemma eq_loop_spec o mo : rep o mo -> forall ps,
  eq_loop T zero teqb o ps = Some (forallb (fun p => teqb (pget mo (fst p)) (snd p)) ps).
Proof.
  intros R. induction ps as [|[k v] r IH]; simpl; auto.
  rewrite (value_rep o mo k R). destruct (teqb (pget mo k) v); auto.
Qed.

Lemma fsv_eq_spec s o ms mo : rep s ms -> rep o mo ->
  exists b, fsv_eq T zero teqb s o = Some b /\
   (b = true <-> size T s = size T o /\ forall k v, ms k = Some v -> pget mo k = v).
Proof.
  intros Rs Ro. unfold fsv_eq. destruct (Nat.eqb_spec (size T o) (size T s)).
  - rewrite (pairs_rep s ms Rs), (eq_loop_spec o mo Ro). eexists; split; [reflexivity|].
    rewrite forallb_forall. destruct Rs as [(NDs & _) Hm]. split.
    + intros H. split; auto. intros k v Hk. rewrite <- Hm in Hk. apply find_some_in in Hk.
      apply H in Hk. simpl in Hk. apply teqb_ok; auto.
    + intros [_ H] [k v] Hin. simpl. apply teqb_ok. apply H. rewrite <- Hm. apply find_in; auto.
  - eexists; split; [reflexivity|]. split; [discriminate|]. intros [E _]. congruence.
Qed.

Lemma fsv_eq_correct s o ms mo : rep s ms -> rep o mo ->
  (forall k, ms k <> Some zero) -> (forall k, mo k <> Some zero) ->
  exists b, fsv_eq T zero teqb s o = Some b /\
   (b = true <-> forall k, pget ms k = pget mo k).
Proof.
  intros Rs Ro Zs Zo. destruct (fsv_eq_spec s o ms mo Rs Ro) as (b & E & Hb).
  exists b; split; auto. rewrite Hb. rewrite (size_rep s ms Rs), (size_rep o mo Ro).
  destruct Rs as [(NDs & _) Hms]. destruct Ro as [(NDo & _) Hmo].
  assert (Ks : forall k, In k (keys (contents s)) <-> ms k <> None).
  { intros k. rewrite <- Hms. pose proof (find_none_iff k (contents s)).
    destruct (in_dec N.eq_dec k (keys (contents s))); tauto. }
  assert (Ko : forall k, In k (keys (contents o)) <-> mo k <> None).
  { intros k. rewrite <- Hmo. pose proof (find_none_iff k (contents o)).
    destruct (in_dec N.eq_dec k (keys (contents o))); tauto. }
  split.
  - intros [Hsz H].
    assert (I : incl (keys (contents s)) (keys (contents o))).
    { intros k Hk. apply Ks in Hk. apply Ko. destruct (ms k) as [v|] eqn:Ek; [|congruence].
      specialize (H k v Ek). intros Hn. unfold pget in H. rewrite Hn in H.
      apply (Zs k). congruence. }
    assert (I' : incl (keys (contents o)) (keys (contents s))).
    { apply NoDup_length_incl; auto. unfold keys. rewrite !map_length. lia. }
    intros k. unfold pget at 1. destruct (ms k) as [v|] eqn:Ek.
    + symmetry. apply H; auto.
    + unfold pget. destruct (mo k) eqn:Eo; auto. exfalso.
      assert (In k (keys (contents s))) by (apply I', Ko; congruence).
      apply Ks in H0. congruence.
  - intros H.
    assert (D : forall k, ms k <> None <-> mo k <> None).
    { intros k. specialize (H k). unfold pget in H.
      specialize (Zs k). specialize (Zo k). destruct (ms k), (mo k); split; congruence. }
    split.
    + assert (length (keys (contents s)) = length (keys (contents o))).
      { apply Nat.le_antisymm; apply NoDup_incl_length; auto; intros k Hk.
        - apply Ko, D, Ks; auto.
        - apply Ks, D, Ko; auto. }
      unfold keys in H0. rewrite !map_length in H0. auto.
    + intros k v Hk. rewrite <- H. unfold pget. rewrite Hk. auto.
Qed.

Lemma reach_eq p st : run init p st -> prog_ok sinit p ->
  forall x y, (forall k, fold_left sexec p sinit x k <> Some zero) ->
              (forall k, fold_left sexec p sinit y k <> Some zero) ->
  exists b, fsv_eq T zero teqb (st x) (st y) = Some b /\
   (b = true <-> forall k, pget (fold_left sexec p sinit x) k = pget (fold_left sexec p sinit y) k).
Proof.
  intros R O x y Zx Zy. pose proof (run_rep _ _ _ R _ init_rep O) as RR.
  apply fsv_eq_correct; auto.
Qed.

(** erase of an absent key in hash form is harmless. *)
Lemma reach_erase_remote p st x k : run init p st -> prog_ok sinit p ->
  is_remote (st x) = true ->
  exists s', erase T (st x) k = Some s' /\
    forall k', value T zero s' k' = Some (if N.eqb k k' then zero else pget (fold_left sexec p sinit x) k').
Proof.
  intros R O ER. pose proof (run_rep _ _ _ R _ init_rep O x) as RR.
  destruct (erase_rep _ _ k RR) as (s' & E & R'); auto. exists s'; split; auto.
  intros k'. rewrite (value_rep _ _ k' R'). unfold pget at 1, pdel. destruct (N.eqb k k'); auto.
Qed.
Lemma reach_erase_present p st x k : run init p st -> prog_ok sinit p ->
  fold_left sexec p sinit x k <> None ->
  exists s', erase T (st x) k = Some s' /\
    forall k', value T zero s' k' = Some (if N.eqb k k' then zero else pget (fold_left sexec p sinit x) k').
Proof.
  intros R O ER. pose proof (run_rep _ _ _ R _ init_rep O x) as RR.
  destruct (erase_rep _ _ k RR) as (s' & E & R'); auto. exists s'; split; auto.
  intros k'. rewrite (value_rep _ _ k' R'). unfold pget at 1, pdel. destruct (N.eqb k k'); auto.
Qed.
End P.

(** ** Counterexamples over the integers, LOCAL_MAX = 7 *)
From Coq Require Import ZArith.

Lemma erase_absent_false : exists p st k k' s',
  run Z 0%Z Z.add Z.sub Z.mul 7 (init Z 0%Z 7) p st /\
  prog_ok Z 0%Z Z.add Z.sub Z.mul (sinit Z) p /\ k <> k' /\
  erase Z (st 0%nat) k = Some s' /\
  value Z 0%Z s' k' <> Some (pget Z 0%Z (fold_left (sexec Z 0%Z Z.add Z.sub Z.mul) p (sinit Z) 0%nat) k').
Proof.
  exists [CSet Z 0 1%N 10%Z; CSet Z 0 2%N 20%Z]. eexists. exists 3%N, 2%N. eexists.
  split; [|split; [|split; [|split]]].
  - repeat (eapply run_cmd; [vm_compute; reflexivity|]). apply run_nil.
  - vm_compute. repeat split.
  - discriminate.
  - vm_compute. reflexivity.
  - vm_compute. discriminate.
Qed.

Lemma erase_empty_false : exists p st k s',
  run Z 0%Z Z.add Z.sub Z.mul 7 (init Z 0%Z 7) p st /\
  prog_ok Z 0%Z Z.add Z.sub Z.mul (sinit Z) p /\
  erase Z (st 0%nat) k = Some s' /\ size Z s' = 255%nat /\ value Z 0%Z s' 5%N = None.
Proof.
  exists []. eexists. exists 3%N. eexists.
  split; [|split; [|split; [|split]]].
  - apply run_nil.
  - exact I.
  - vm_compute. reflexivity.
  - vm_compute. reflexivity.
  - vm_compute. reflexivity.
Qed.

Lemma equality_false : exists p st,
  run Z 0%Z Z.add Z.sub Z.mul 7 (init Z 0%Z 7) p st /\
  prog_ok Z 0%Z Z.add Z.sub Z.mul (sinit Z) p /\
  fsv_eq Z 0%Z Z.eqb (st 0%nat) (st 1%nat) = Some true /\
  fsv_eq Z 0%Z Z.eqb (st 1%nat) (st 0%nat) = Some false /\
  exists k, pget Z 0%Z (fold_left (sexec Z 0%Z Z.add Z.sub Z.mul) p (sinit Z) 0%nat) k
         <> pget Z 0%Z (fold_left (sexec Z 0%Z Z.add Z.sub Z.mul) p (sinit Z) 1%nat) k.
Proof.
  exists [CSet Z 0 1%N 0%Z; CSet Z 1 2%N 5%Z]. eexists.
  split; [|split; [|split; [|split]]].
  - repeat (eapply run_cmd; [vm_compute; reflexivity|]). apply run_nil.
  - vm_compute. repeat split.
  - vm_compute. reflexivity.
  - vm_compute. reflexivity.
  - exists 2%N. vm_compute. discriminate.
Qed.
