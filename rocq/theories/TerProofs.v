From Coq Require Import List Arith ZArith Bool Lia Permutation.
From Verif Require Import Leven LevenSpec LevenProofs Ter TerSpec.
Import ListNotations.
Open Scope nat_scope.

Lemma bind_some {A B} (x : option A) (f : A -> option B) a : x = Some a -> bind x f = f a.
Proof. intros ->. reflexivity. Qed.

(** * Minimum edit distance *)
Lemma nth_error_Some_lt {X} (l : list X) i x : nth_error l i = Some x -> i < length l.
Proof. intros H. apply nth_error_Some. congruence. Qed.
Section Med.
Variables hyp ref : list Z.
(** distance of prefixes *)
Definition D (i j : nat) : nat := P ref hyp i j.

Lemma med_cell_ok i j hw rw : nth_error hyp i = Some hw -> nth_error ref j = Some rw ->
  let c := med_cell hw rw (D i j) (D i (S j)) (D (S i) j) in
  fst c = D (S i) (S j) /\
  match snd c with
  | MATCH => hw = rw /\ D (S i) (S j) = D i j
  | SUBSTITUTION => hw <> rw /\ D (S i) (S j) = S (D i j)
  | INSERTION => D (S i) (S j) = S (D i (S j))
  | DELETION => D (S i) (S j) = S (D (S i) j)
  end.
Proof.
  intros Hh Hr. unfold D. rewrite (P_SS _ _ _ _ _ _ Hr Hh). unfold med_cell.
  destruct (Z.eqb_spec rw hw) as [E|E]; cbn [fst snd].
  - destruct (Nat.ltb_spec (P ref hyp i (S j) + 1) (P ref hyp i j)); cbn [fst snd];
    destruct (Nat.ltb_spec (P ref hyp (S i) j + 1) (P ref hyp i (S j) + 1)); cbn [fst snd]; try lia;
    destruct (Nat.ltb_spec (P ref hyp (S i) j + 1) (P ref hyp i j)); cbn [fst snd]; try lia.
  - destruct (Nat.ltb_spec (P ref hyp i (S j) + 1) (P ref hyp i j + 1)); cbn [fst snd];
    destruct (Nat.ltb_spec (P ref hyp (S i) j + 1) (P ref hyp i (S j) + 1)); cbn [fst snd]; try lia;
    destruct (Nat.ltb_spec (P ref hyp (S i) j + 1) (P ref hyp i j + 1)); cbn [fst snd]; try lia.
Qed.

Definition good_cell (i j : nat) (c : nat * trans) : Prop :=
  fst c = D i j /\
  match i, j with
  | S i', S j' =>
    match snd c with
    | MATCH => nth_error hyp i' = nth_error ref j' /\ D (S i') (S j') = D i' j'
    | SUBSTITUTION => nth_error hyp i' <> nth_error ref j' /\ D (S i') (S j') = S (D i' j')
    | INSERTION => D (S i') (S j') = S (D i' (S j'))
    | DELETION => D (S i') (S j') = S (D (S i') j')
    end
  | _, _ => True
  end.
Definition good_row (i : nat) (row : list (nat * trans)) : Prop :=
  length row = length ref + 1 /\ forall j c, nth_error row j = Some c -> good_cell i j c.

Lemma med_row_ok i hw prev : nth_error hyp i = Some hw -> good_row i prev ->
  forall k j, j + k = length ref ->
  forall q, q = skipn j prev ->
  let row := med_row hw (skipn j ref) q (D (S i) j) in
  length row = k /\ forall t c, nth_error row t = Some c -> good_cell (S i) (S (j + t)) c.
Proof.
  intros Hh [Hl Hp]. induction k as [|k IH]; intros j E q Q row.
  - assert (skipn j ref = []) as S0 by (apply length_zero_iff_nil; rewrite skipn_length; lia).
    subst row. rewrite S0. simpl. split; [auto|]. intros t c H. destruct t; discriminate.
  - destruct (nth_error ref j) as [rw|] eqn:Er; [|apply nth_error_None in Er; lia].
    destruct (nth_error prev j) as [dg|] eqn:Ed; [|apply nth_error_None in Ed; lia].
    destruct (nth_error prev (S j)) as [up|] eqn:Eu; [|apply nth_error_None in Eu; lia].
    assert (SR : skipn j ref = rw :: skipn (S j) ref).
    { clear - Er. revert j Er. induction ref as [|x l IHl]; intros [|j] Er; simpl in *; try discriminate.
      - injection Er as ->. reflexivity. - apply IHl. auto. }
    assert (SK : forall (l : list (nat * trans)) j x, nth_error l j = Some x -> skipn j l = x :: skipn (S j) l).
    { clear. induction l as [|x l IHl]; intros [|j] y Er; simpl in *; try discriminate.
      - injection Er as ->. reflexivity. - apply IHl. auto. }
    pose proof (SK _ _ _ Ed) as S1. pose proof (SK _ _ _ Eu) as S2.
    subst row q. rewrite SR, S1, S2. cbn [med_row].
    pose proof (proj1 (Hp _ _ Ed)) as F1. pose proof (proj1 (Hp _ _ Eu)) as F2. rewrite F1, F2.
    pose proof (med_cell_ok i j hw rw Hh Er) as C. cbv zeta in C. destruct C as [C1 C2].
    set (c0 := med_cell hw rw (D i j) (D i (S j)) (D (S i) j)) in *.
    rewrite C1.
    destruct (IH (S j) ltac:(lia) _ eq_refl) as [IL IC]. rewrite S2 in IL, IC.
    split; [cbn [length]; lia|]. intros [|t] c Hc; cbn [nth_error] in Hc.
    + injection Hc as <-. rewrite Nat.add_0_r. split; [auto|]. rewrite Hh, Er. destruct (snd c0); auto.
      * destruct C2 as [-> C2]. auto.
      * destruct C2 as [C2 C3]. split; [congruence|auto].
    + replace (j + S t) with (S j + t) by lia. apply IC. auto.
Qed.
Lemma med_rows_ok : forall k i prev, i + k = length hyp -> good_row i prev ->
  let rows := med_rows (skipn i hyp) ref prev (S i) in
  length rows = k /\ forall t row, nth_error rows t = Some row -> good_row (S (i + t)) row.
Proof.
  induction k as [|k IH]; intros i prev E G.
  - assert (skipn i hyp = []) as -> by (apply length_zero_iff_nil; rewrite skipn_length; lia). simpl.
    split; [auto|]. intros [|t] row H; discriminate.
  - destruct (nth_error hyp i) as [hw|] eqn:Eh; [|apply nth_error_None in Eh; lia].
    assert (SR : skipn i hyp = hw :: skipn (S i) hyp).
    { clear - Eh. revert i Eh. induction hyp as [|x l IHl]; intros [|i] Eh; simpl in *; try discriminate.
      - injection Eh as ->. reflexivity. - apply IHl. auto. }
    rewrite SR. cbn [med_rows].
    set (row := (S i, MATCH) :: med_row hw ref prev (S i)).
    assert (GR : good_row (S i) row).
    { pose proof (med_row_ok i hw prev Eh G (length ref) 0 eq_refl prev eq_refl) as M. cbv zeta in M. simpl in M.
      unfold D in M at 1. rewrite P_i0 in M by lia. unfold D in M. rewrite P_i0 in M by lia.
      destruct M as [M1 M2]. split; [unfold row; simpl; lia|].
      intros [|j] c Hc; simpl in Hc.
      - injection Hc as <-. split; [|exact I]. simpl. unfold D. rewrite P_i0; auto. lia.
      - apply M2. auto. }
    destruct (IH (S i) row ltac:(lia) GR) as [IL IC].
    split; [cbn [length]; lia|]. intros [|t] r Hr; cbn [nth_error] in Hr.
    + injection Hr as <-. rewrite Nat.add_0_r. auto.
    + replace (i + S t) with (S i + t) by lia. apply IC. auto.
Qed.
Lemma row0_ok : good_row 0 (map (fun j => (j, MATCH)) (seq 0 (length ref + 1))).
Proof.
  split; [rewrite map_length, seq_length; auto|].
  intros j c H. assert (j < length ref + 1) as Lj.
  { apply nth_error_Some_lt in H. rewrite map_length, seq_length in H. auto. } 
  rewrite nth_error_map in H. rewrite (nth_error_nth' _ 0) in H by (rewrite seq_length; auto).
  rewrite seq_nth in H by auto. simpl in H. injection H as <-. split; [|destruct j; exact I].
  simpl. unfold D. rewrite P_0; auto. lia.
Qed.
Lemma matrix_cell i j : i <= length hyp -> j <= length ref -> exists c, cell (med_matrix hyp ref) i j = Some c /\ good_cell i j c.
Proof.
  intros Hi Hj. unfold cell, med_matrix.
  pose proof (med_rows_ok (length hyp) 0 _ eq_refl row0_ok) as M. cbv zeta in M. cbn [skipn] in M. destruct M as [M1 M2].
  set (row0 := map (fun j : nat => (j, MATCH)) (seq 0 (length ref + 1))) in *.
  assert (exists row, nth_error (row0 :: med_rows hyp ref row0 1) i = Some row /\ good_row i row) as (row & E & G).
  { destruct i as [|i].
    - exists row0. split; [reflexivity|]. apply row0_ok.
    - cbn [nth_error]. destruct (nth_error (med_rows hyp ref row0 1) i) as [row|] eqn:E.
      + exists row. split; [auto|]. apply (M2 _ _ E).
      + apply nth_error_None in E. lia. }
  rewrite E. cbn [bind]. destruct G as [G1 G2].
  destruct (nth_error row j) as [c|] eqn:Ec; [|apply nth_error_None in Ec; lia].
  exists c. auto.
Qed.

Inductive script : list trans -> list Z -> list Z -> Prop :=
| sc_nil : script [] [] []
| sc_match p x u v : script p u v -> script (MATCH :: p) (x :: u) (x :: v)
| sc_sub p x y u v : x <> y -> script p u v -> script (SUBSTITUTION :: p) (x :: u) (y :: v)
| sc_ins p x u v : script p u v -> script (INSERTION :: p) (x :: u) v
| sc_del p y u v : script p u v -> script (DELETION :: p) u (y :: v).
Hint Constructors script : core.
Lemma script_app p u v : script p u v -> forall p' u' v', script p' u' v' -> script (p ++ p') (u ++ u') (v ++ v').
Proof. induction 1; intros; simpl; auto. Qed.
Definition cost (p : list trans) : nat := let '(s, i, d) := GetPathStats p in s + i + d.
Lemma cost_cons t p : cost (t :: p) = (match t with MATCH => 0 | _ => 1 end) + cost p.
Proof. unfold cost. cbn [GetPathStats]. destruct (GetPathStats p) as [[s i] d]. destruct t; lia. Qed.
Lemma cost_app p q : cost (p ++ q) = cost p + cost q.
Proof. induction p as [|t p IH]; [reflexivity|]. cbn [app]. rewrite !cost_cons, IH. lia. Qed.

Lemma trace_ok : forall fuel i j path, i + j <= fuel -> i <= length hyp -> j <= length ref ->
  exists p, med_trace fuel (med_matrix hyp ref) i j path = Some (p ++ path) /\
    script p (firstn i hyp) (firstn j ref) /\ cost p = D i j.
Proof.
  induction fuel as [|f IH]; intros i j path Hf Hi Hj.
  - destruct i; [|lia]. destruct j; [|lia]. exists []. repeat split; constructor.
  - destruct i as [|i].
    + destruct j as [|j].
      * exists []. repeat split; constructor.
      * cbn [med_trace]. destruct (IH 0 j (DELETION :: path)) as (p & -> & S1 & C1); try lia.
        destruct (nth_error ref j) as [y|] eqn:Ey; [|apply nth_error_None in Ey; lia].
        exists (p ++ [DELETION]). rewrite <- app_assoc. split; [reflexivity|]. split.
        -- rewrite (firstn_snoc _ _ _ Ey). cbn [firstn] in *. apply (script_app p [] _ S1 [DELETION] [] [y]); auto.
        -- rewrite cost_app, C1. unfold D. rewrite !P_0 by lia. cbn. lia.
    + destruct (nth_error hyp i) as [x|] eqn:Ex; [|apply nth_error_None in Ex; lia].
      destruct j as [|j].
      * cbn [med_trace]. destruct (IH i 0 (INSERTION :: path)) as (p & -> & S1 & C1); try lia.
        exists (p ++ [INSERTION]). rewrite <- app_assoc. split; [reflexivity|]. split.
        -- rewrite (firstn_snoc _ _ _ Ex). cbn [firstn] in *. apply (script_app p _ [] S1 [INSERTION] [x] []); auto.
        -- rewrite cost_app, C1. unfold D. rewrite !P_i0 by lia. cbn. lia.
      * destruct (nth_error ref j) as [y|] eqn:Ey; [|apply nth_error_None in Ey; lia].
        cbn [med_trace]. destruct (matrix_cell (S i) (S j) Hi Hj) as (c & -> & G). cbn [bind].
        destruct G as [_ G]. rewrite Ex, Ey in G. destruct (snd c).
        -- destruct G as [G1 G2]. injection G1 as ->.
           destruct (IH i j (MATCH :: path)) as (p & -> & S1 & C1); try lia.
           exists (p ++ [MATCH]). rewrite <- app_assoc. split; [reflexivity|]. split.
           ++ rewrite (firstn_snoc _ _ _ Ex), (firstn_snoc _ _ _ Ey). apply script_app; auto.
           ++ rewrite cost_app, C1, G2. cbn. lia.
        -- destruct G as [G1 G2].
           destruct (IH i j (SUBSTITUTION :: path)) as (p & -> & S1 & C1); try lia.
           exists (p ++ [SUBSTITUTION]). rewrite <- app_assoc. split; [reflexivity|]. split.
           ++ rewrite (firstn_snoc _ _ _ Ex), (firstn_snoc _ _ _ Ey). apply script_app; auto.
              constructor; [congruence|constructor].
           ++ rewrite cost_app, C1, G2. cbn. lia.
        -- destruct (IH i (S j) (INSERTION :: path)) as (p & -> & S1 & C1); try lia.
           exists (p ++ [INSERTION]). rewrite <- app_assoc. split; [reflexivity|]. split.
           ++ rewrite (firstn_snoc _ _ _ Ex), <- (app_nil_r (firstn (S j) ref)). apply script_app; auto.
           ++ rewrite cost_app, C1, G. cbn. lia.
        -- destruct (IH (S i) j (DELETION :: path)) as (p & -> & S1 & C1); try lia.
           exists (p ++ [DELETION]). rewrite <- app_assoc. split; [reflexivity|]. split.
           ++ rewrite (firstn_snoc _ _ _ Ey), <- (app_nil_r (firstn (S i) hyp)). apply script_app; auto.
           ++ rewrite cost_app, C1, G. cbn. lia.
Qed.
Lemma med_ok : exists path, MinimumEditDistance hyp ref = Some (L hyp ref, path) /\ script path hyp ref /\ cost path = L hyp ref.
Proof.
  unfold MinimumEditDistance.
  destruct (trace_ok (length hyp + length ref) (length hyp) (length ref) []) as (p & -> & S1 & C1); try lia.
  cbn [bind]. destruct (matrix_cell (length hyp) (length ref)) as (c & -> & G); try lia.
  cbn [bind]. destruct G as [G _]. rewrite app_nil_r. rewrite !firstn_all in S1.
  assert (D (length hyp) (length ref) = L hyp ref) as E.
  { unfold D, P. rewrite !firstn_all. apply L_sym. }
  rewrite E in *. rewrite G. exists p. auto.
Qed.
End Med.
#[global] Hint Constructors script : core.

Lemma script_aligned p u v : script p u v -> forall s i d, GetPathStats p = (s, i, d) -> aligned s i d u v.
Proof.
  induction 1 as [|p x u v H IH|p x y u v N H IH|p x u v H IH|p y u v H IH]; intros s i d E; cbn [GetPathStats] in E.
  - injection E as <- <- <-. constructor.
  - destruct (GetPathStats p) as [[a b] c]. injection E as <- <- <-. constructor. auto.
  - destruct (GetPathStats p) as [[a b] c]. injection E as <- <- <-. constructor; auto.
  - destruct (GetPathStats p) as [[a b] c]. injection E as <- <- <-. constructor. auto.
  - destruct (GetPathStats p) as [[a b] c]. injection E as <- <- <-. constructor. auto.
Qed.

(** * Shifts *)
Lemma copy_ok l lo hi : (0 <= lo)%Z -> (hi < Z.of_nat (length l))%Z ->
  copy l lo hi = Some (firstn (Z.to_nat (hi - lo + 1)) (skipn (Z.to_nat lo) l)).
Proof.
  intros A B. unfold copy. destruct (Z.ltb_spec hi lo) as [H|H].
  - replace (Z.to_nat (hi - lo + 1)) with 0 by lia. reflexivity.
  - destruct (Z.ltb_spec lo 0); [lia|]. destruct (Z.leb_spec (Z.of_nat (length l)) hi); [lia|]. reflexivity.
Qed.
Lemma skipn_add {X} a b (l : list X) : skipn a (skipn b l) = skipn (b + a) l.
Proof. revert l. induction b as [|b IH]; intros [|x l]; simpl; rewrite ?skipn_nil; auto. Qed.
(** A list cut at three places. *)
Lemma cut3 (l : list Z) a b c : a <= b -> b <= c -> 
  l = firstn a l ++ firstn (b - a) (skipn a l) ++ firstn (c - b) (skipn b l) ++ skipn c l.
Proof.
  intros A B. rewrite <- (firstn_skipn a l) at 1. f_equal.
  assert (forall i j, i <= j -> skipn i l = firstn (j - i) (skipn i l) ++ skipn j l) as H.
  { intros i j Hij. rewrite <- (firstn_skipn (j - i) (skipn i l)) at 1. f_equal.
    rewrite skipn_add. f_equal. lia. }
  rewrite (H a b A) at 1. f_equal. apply H. auto.
Qed.
Lemma skipn_firstn_all (l : list Z) c : firstn (length l - c) (skipn c l) = skipn c l.
Proof. apply firstn_all2. rewrite skipn_length. lia. Qed.

Lemma PerformShift_ok l start end_ mv :
  (0 <= start <= end_)%Z -> (end_ < Z.of_nat (length l))%Z -> (-1 <= mv < Z.of_nat (length l))%Z ->
  exists out, PerformShift l start end_ mv = Some out /\ block_move l out /\ length out = length l.
Proof.
  intros A B C.
  assert (M : forall u v, block_move u v -> length u = length v).
  { intros u v (p & q & r & s & -> & ->). rewrite !app_length. lia. }
  assert (F : forall out, block_move l out ->
    exists out', (if length out =? length l then Some out else None) = Some out' /\ block_move l out' /\ length out' = length l).
  { intros out H. exists out. rewrite (M _ _ H), Nat.eqb_refl. auto. }
  unfold PerformShift.
  assert (NL : exists n, length l = n) by eauto. destruct NL as [n Hn]. rewrite Hn in *.
  destruct (Z.eqb_spec mv (-1)) as [E|E].
  - rewrite !copy_ok by lia. cbn [bind cat4]. apply F.
    exists [], (firstn (Z.to_nat start) l), (firstn (Z.to_nat end_ + 1 - Z.to_nat start) (skipn (Z.to_nat start) l)), (skipn (Z.to_nat end_ + 1) l).
    split.
    + rewrite (cut3 l (Z.to_nat start) (Z.to_nat end_ + 1) (Z.to_nat end_ + 1)) at 1 by lia. rewrite Nat.sub_diag. reflexivity.
    + cbn [app]. rewrite app_nil_r. f_equal; [f_equal; lia|]. f_equal; [f_equal; lia|].
      replace (Z.to_nat (end_ + 1)) with (Z.to_nat end_ + 1) by lia.
      apply firstn_all2; rewrite skipn_length; lia.
  - destruct (Z.ltb_spec mv start) as [E1|E1].
    + rewrite !copy_ok by lia. cbn [bind cat4]. apply F.
      exists (firstn (Z.to_nat mv + 1) l), (firstn (Z.to_nat start - (Z.to_nat mv + 1)) (skipn (Z.to_nat mv + 1) l)),
        (firstn (Z.to_nat end_ + 1 - Z.to_nat start) (skipn (Z.to_nat start) l)), (skipn (Z.to_nat end_ + 1) l).
      split; [apply cut3; lia|].
      f_equal; [f_equal; lia|]. f_equal; [f_equal; lia|].
      replace (Z.to_nat (mv + 1)) with (Z.to_nat mv + 1) by lia.
      replace (Z.to_nat (end_ + 1)) with (Z.to_nat end_ + 1) by lia.
      f_equal; [f_equal; lia|].
      apply firstn_all2; rewrite skipn_length; lia.
    + destruct (Z.ltb_spec end_ mv) as [E2|E2].
      * rewrite !copy_ok by lia. cbn [bind cat4]. apply F.
        exists (firstn (Z.to_nat start) l), (firstn (Z.to_nat end_ + 1 - Z.to_nat start) (skipn (Z.to_nat start) l)),
          (firstn (Z.to_nat mv + 1 - (Z.to_nat end_ + 1)) (skipn (Z.to_nat end_ + 1) l)), (skipn (Z.to_nat mv + 1) l).
        split; [apply cut3; lia|].
        f_equal; [f_equal; lia|].
        replace (Z.to_nat (mv + 1)) with (Z.to_nat mv + 1) by lia.
        replace (Z.to_nat (end_ + 1)) with (Z.to_nat end_ + 1) by lia.
        f_equal; [f_equal; lia|]. f_equal; [f_equal; lia|].
        apply firstn_all2; rewrite skipn_length; lia.
      * rewrite !copy_ok by lia. cbn [bind cat4]. apply F.
        set (h := Nat.min n (Z.to_nat (end_ + (mv - start) + 1))).
        exists (firstn (Z.to_nat start) l), (firstn (Z.to_nat end_ + 1 - Z.to_nat start) (skipn (Z.to_nat start) l)),
          (firstn (h - (Z.to_nat end_ + 1)) (skipn (Z.to_nat end_ + 1) l)), (skipn h l).
        split; [apply cut3; lia|].
        f_equal; [f_equal; lia|].
        replace (Z.to_nat (end_ + 1)) with (Z.to_nat end_ + 1) by lia.
        f_equal; [f_equal; lia|]. f_equal; [f_equal; lia|].
        destruct (Nat.le_gt_cases n (Z.to_nat (end_ + (mv - start) + 1))) as [K|K].
        -- rewrite (skipn_all2 l) by lia. rewrite firstn_nil. rewrite skipn_all2 by lia. reflexivity.
        -- replace h with (Z.to_nat (end_ + (mv - start) + 1)) by lia.
           apply firstn_all2; rewrite skipn_length; lia.
Qed.

(** * Packing *)
Lemma shift_value b e m : (0 <= b < 1024)%Z -> (0 <= e < 1024)%Z -> (0 <= m < 2048)%Z ->
  Shift b e m = (b + e * 1024 + m * 1048576)%Z.
Proof.
  intros B E M. unfold Shift, set_moveto, set_end, set_begin.
  destruct (Z.ltb_spec m 0) as [H|_]; [lia|].
  change 0x3ff%Z with (Z.ones 10). change 0x7ff%Z with (Z.ones 11). change 0xfffff%Z with (Z.ones 20).
  rewrite Z.land_0_l, Z.lor_0_l, !Z.land_ones by lia. change (2 ^ 10)%Z with 1024%Z. change (2 ^ 11)%Z with 2048%Z.
  rewrite (Z.mod_small b), (Z.mod_small e), (Z.mod_small m) by lia.
  assert (Z.land b 0xfff003ff = b) as ->.
  { change 0xfff003ff%Z with (Z.lor (Z.shiftl (Z.ones 12) 20) (Z.ones 10)).
    rewrite Z.land_lor_distr_r, Z.land_ones by lia. change (2 ^ 10)%Z with 1024%Z. rewrite Z.mod_small by lia.
    assert (Z.land b (Z.shiftl (Z.ones 12) 20) = 0%Z) as ->; [|apply Z.lor_0_l].
    apply Z.bits_inj'. intros k Hk. rewrite Z.land_spec, Z.bits_0.
    destruct (Z.ltb_spec k 20) as [Q|Q].
    - rewrite Z.shiftl_spec_low by lia. apply andb_false_r.
    - assert (Z.testbit b k = false) as ->; [|reflexivity].
      destruct (Z.eq_dec b 0) as [->|N]; [apply Z.bits_0|].
      apply Z.bits_above_log2; [lia|]. apply Z.log2_lt_pow2; [lia|].
      apply Z.lt_le_trans with (2 ^ 10)%Z; [lia|]. apply Z.pow_le_mono_r; lia. }
  assert (Lo : forall x y k, (0 <= k)%Z -> (0 <= x < 2 ^ k)%Z -> (0 <= y)%Z -> Z.lor x (Z.shiftl y k) = (x + y * 2 ^ k)%Z).
  { intros x y k Hk Hx Hy. rewrite <- Z.shiftl_mul_pow2 by lia. rewrite <- Z.lxor_lor; [symmetry; apply Z.add_nocarry_lxor|];
      apply Z.bits_inj'; intros i Hi; rewrite Z.land_spec, Z.bits_0;
      (destruct (Z.ltb_spec i k) as [Q|Q]; [rewrite Z.shiftl_spec_low by lia; apply andb_false_r|];
       assert (Z.testbit x i = false) as ->; [|reflexivity];
       destruct (Z.eq_dec x 0) as [->|N]; [apply Z.bits_0|];
       apply Z.bits_above_log2; [lia|]; apply Z.log2_lt_pow2; [lia|];
       apply Z.lt_le_trans with (2 ^ k)%Z; [lia|]; apply Z.pow_le_mono_r; lia). }
  rewrite (Lo b e 10%Z) by (change (2 ^ 10)%Z with 1024%Z; lia).
  change (2 ^ 10)%Z with 1024%Z.
  change (2 ^ 20)%Z with 1048576%Z. rewrite Z.mod_small by lia.
  rewrite (Lo (b + e * 1024)%Z m 20%Z) by (change (2 ^ 20)%Z with 1048576%Z; lia). reflexivity.
Qed.
Lemma shift_get b e m : (0 <= b < 1024)%Z -> (0 <= e < 1024)%Z -> (0 <= m <= 1024)%Z ->
  get_begin (Shift b e m) = b /\ get_end (Shift b e m) = e /\ get_moveto (Shift b e m) = m.
Proof.
  intros B E M. rewrite shift_value by lia. unfold get_begin, get_end, get_moveto.
  change 0x3ff%Z with (Z.ones 10). change 0x7ff%Z with (Z.ones 11).
  rewrite !Z.land_ones, !Z.shiftr_div_pow2 by lia.
  change (2 ^ 10)%Z with 1024%Z. change (2 ^ 20)%Z with 1048576%Z. change (2 ^ 11)%Z with 2048%Z.
  assert (((b + e * 1024 + m * 1048576) mod 1024 = b)%Z) as ->.
  { replace (b + e * 1024 + m * 1048576)%Z with (b + (e + m * 1024) * 1024)%Z by lia.
    rewrite Z.mod_add by lia. apply Z.mod_small. lia. }
  assert (((b + e * 1024 + m * 1048576) / 1024 = e + m * 1024)%Z) as ->.
  { replace (b + e * 1024 + m * 1048576)%Z with (b + (e + m * 1024) * 1024)%Z by lia.
    rewrite Z.div_add by lia. rewrite Z.div_small by lia. lia. }
  assert (((b + e * 1024 + m * 1048576) / 1048576 = m)%Z) as ->.
  { rewrite Z.div_add by lia. rewrite Z.div_small by lia. lia. }
  rewrite Z.mod_add, !Z.mod_small by lia.
  destruct (Z.ltb_spec 1024 m); [lia|]. auto.
Qed.

(** * Alignment data *)
Lemma info_ok p u v : script p u v -> forall hpos h e a, path_info p hpos = (h, e, a) ->
  length h = length u /\ length e = length v /\ length a = length v /\
  forall x, In x a -> (hpos <= x <= hpos + Z.of_nat (length u))%Z.
Proof.
  induction 1 as [|p x u v H IH|p x y u v N H IH|p x u v H IH|p y u v H IH]; intros hpos h e a E; cbn [path_info] in E.
  - injection E as <- <- <-. split; [auto|]. split; [auto|]. split; [auto|]. intros x [].
  - destruct (path_info p (hpos + 1)) as [[h1 e1] a1] eqn:F. injection E as <- <- <-.
    destruct (IH _ _ _ _ F) as (A & B & C & G). cbn [length]. split; [lia|]. split; [lia|]. split; [lia|].
    intros z I; first [specialize (G _ I); lia | destruct I as [<-|I]; [lia|]; specialize (G _ I); lia].
  - destruct (path_info p (hpos + 1)) as [[h1 e1] a1] eqn:F. injection E as <- <- <-.
    destruct (IH _ _ _ _ F) as (A & B & C & G). cbn [length]. split; [lia|]. split; [lia|]. split; [lia|].
    intros z I; first [specialize (G _ I); lia | destruct I as [<-|I]; [lia|]; specialize (G _ I); lia].
  - destruct (path_info p (hpos + 1)) as [[h1 e1] a1] eqn:F. injection E as <- <- <-.
    destruct (IH _ _ _ _ F) as (A & B & C & G). cbn [length]. split; [lia|]. split; [lia|]. split; [lia|].
    intros z I; first [specialize (G _ I); lia | destruct I as [<-|I]; [lia|]; specialize (G _ I); lia].
  - destruct (path_info p hpos) as [[h1 e1] a1] eqn:F. injection E as <- <- <-.
    destruct (IH _ _ _ _ F) as (A & B & C & G). cbn [length]. split; [lia|]. split; [lia|]. split; [lia|].
    intros z I; first [specialize (G _ I); lia | destruct I as [<-|I]; [lia|]; specialize (G _ I); lia].
Qed.

(** * n-grams of the reference *)
Definition nm_ok (ref : list Z) (m : nmap) : Prop :=
  forall cp s, nfind m cp = Some s -> forall x, In x s -> x + length cp <= length ref.
Lemma same_true u v : same u v = true <-> u = v.
Proof. unfold same. destruct (list_eq_dec Z.eq_dec u v); split; congruence. Qed.
Lemma set_insert_in x l y : In y (set_insert x l) -> y = x \/ In y l.
Proof.
  induction l as [|z l IH]; simpl; [intuition|].
  destruct (x <? z); [simpl; intuition|]. destruct (x =? z); [auto|]. simpl. intuition.
Qed.
Lemma ninsert_find m cp st q s : nfind (ninsert m cp st) q = Some s ->
  forall x, In x s -> (q = cp /\ x = st) \/ exists s', nfind m q = Some s' /\ In x s'.
Proof.
  induction m as [|[k t] m IH]; cbn [ninsert nfind].
  - destruct (same cp q) eqn:E; [|discriminate]. apply same_true in E. intros H x I. injection H as <-.
    destruct I as [<-|[]]. auto.
  - destruct (same k cp) eqn:E; cbn [nfind].
    + apply same_true in E. destruct (same k q) eqn:F.
      * apply same_true in F. intros H x I. injection H as <-. apply set_insert_in in I. destruct I as [->|I]; [left; split; congruence|right; eauto].
      * intros H x I. right. eauto.
    + destruct (same k q) eqn:F; [intros H x I; right; eauto|auto].
Qed.
Lemma ninsert_ok ref m cp st : nm_ok ref m -> st + length cp <= length ref -> nm_ok ref (ninsert m cp st).
Proof.
  intros H E q s F x I. destruct (ninsert_find _ _ _ _ _ F _ I) as [[-> ->]|(s' & G & J)]; [auto|]. apply (H _ _ G _ J).
Qed.
Lemma grams_ok both ref st : forall k suf first cp m, nm_ok ref m -> st + length cp + length suf <= length ref ->
  nm_ok ref (grams both k suf first cp st m).
Proof.
  induction k as [|k IH]; intros suf first cp m H E; [exact H|].
  destruct suf as [|w suf]; [exact H|]. cbn [grams]. destruct (negb first && negb (both w)); [exact H|].
  cbn [length] in E. apply IH; [apply ninsert_ok; auto|]; rewrite app_length; cbn [length]; lia.
Qed.
Lemma build_ok hyp ref : nm_ok ref (BuildWordMatches hyp ref).
Proof.
  unfold BuildWordMatches.
  assert (G : forall l m, (forall x, In x l -> x < length ref) -> nm_ok ref m -> nm_ok ref
    (fold_left (fun m start => match skipn start ref with
       | w :: _ => if existsb (Z.eqb w) ref && existsb (Z.eqb w) hyp
                   then grams (fun w => existsb (Z.eqb w) ref && existsb (Z.eqb w) hyp) MAX_SHIFT_SIZE (skipn start ref) true [] start m else m
       | [] => m end) l m)).
  { induction l as [|s l IH]; intros m Hl H; [exact H|]. cbn [fold_left]. apply IH; [intros; apply Hl; right; auto|].
    destruct (skipn s ref) as [|w r] eqn:E; [exact H|]. destruct (_ && _); [|exact H].
    apply grams_ok; auto. assert (length (skipn s ref) = length (w :: r)) as K by (rewrite E; auto).
    rewrite skipn_length in K. specialize (Hl s (or_introl eq_refl)). cbn [length] in *. lia. }
  apply G; [intros x I; apply in_seq in I; lia|]. intros cp s H. discriminate.
Qed.

(** * Candidate shifts *)
Section Cand.
Variables (cur ref : list Z) (nm : nmap) (ralign : list Z) (herr rerr : list bool).
Hypothesis NM : nm_ok ref nm.
Hypothesis LH : length herr = length cur.
Hypothesis LR : length rerr = length ref.
Hypothesis LA : length ralign = length ref.
Hypothesis SC : length cur <= 1024.
Hypothesis SR : length ref <= 1025.
Definition valid (s : Z) : Prop :=
  (0 <= get_begin s <= get_end s)%Z /\ (get_end s < Z.of_nat (length cur))%Z /\ (0 <= get_moveto s < Z.of_nat (length ref))%Z.
Lemma any_true_ok v k : forall from, from + k <= length v -> exists b, any_true v from k = Some b.
Proof.
  induction k as [|k IH]; intros from H; cbn [any_true]; [eauto|].
  destruct (nth_error v from) as [x|] eqn:E; [|apply nth_error_None in E; lia]. cbn [bind].
  destruct x; [eauto|]. apply IH. lia.
Qed.
Lemma any_move_ok start starts : (forall x, In x starts -> x < length ref) -> exists b, any_move ralign start starts = Some b.
Proof.
  induction starts as [|mv r IH]; intros H; cbn [any_move]; [eauto|].
  destruct (nth_error ralign mv) as [x|] eqn:E; [|apply nth_error_None in E; specialize (H mv (or_introl eq_refl)); lia].
  cbn [bind]. destruct (_ && _ && _); [eauto|]. apply IH. intros; apply H; right; auto.
Qed.
Lemma offsets_ok start end_ mv rm k : start <= end_ -> end_ < length cur ->
  forall roff, mv + roff + k <= length ref ->
  exists l, offsets ralign start end_ mv rm roff k = Some l /\ Forall valid l.
Proof.
  intros H1 H2. induction k as [|k IH]; intros roff H; cbn [offsets]; [eauto|].
  destruct (nth_error ralign (mv + roff)) as [x|] eqn:E; [|apply nth_error_None in E; lia]. cbn [bind].
  destruct (IH (S roff)) as (l & -> & V); [lia|]. cbn [bind]. eexists. split; [reflexivity|].
  destruct (_ && _); [|auto]. constructor; [|auto].
  unfold valid. destruct (shift_get (Z.of_nat start) (Z.of_nat end_) (Z.of_nat (mv + roff))) as (-> & -> & ->); lia.
Qed.
Lemma moves_ok start end_ starts : start <= end_ -> end_ < length cur ->
  (forall x, In x starts -> x + (end_ - start + 1) <= length ref) ->
  exists b l, moves ralign rerr start end_ starts = Some (b, l) /\ Forall valid l.
Proof.
  intros H1 H2. induction starts as [|mv r IH]; intros H; cbn [moves]; [eauto|].
  pose proof (H mv (or_introl eq_refl)) as Hm.
  destruct (nth_error ralign mv) as [x|] eqn:E; [|apply nth_error_None in E; lia]. cbn [bind].
  destruct IH as (b & l & IHm & V); [intros; apply H; right; auto|].
  destruct (_ && _ && _ && _).
  - destruct (any_true_ok rerr (end_ - start + 1) mv) as (a & ->); [lia|]. cbn [bind].
    assert (exists l', (if a then offsets ralign start end_ mv x 0 (end_ - start + 1) else Some []) = Some l' /\ Forall valid l') as (l' & -> & V').
    { destruct a; [|eauto]. apply offsets_ok; auto. lia. }
    cbn [bind]. rewrite IHm. cbn [bind snd]. eexists _, _. split; [reflexivity|]. apply Forall_app. auto.
  - rewrite IHm. eauto.
Qed.
Lemma add_at_ok sh new : Forall valid new -> forall i, i < length sh -> Forall (Forall valid) sh ->
  exists sh', add_at sh i new = Some sh' /\ length sh' = length sh /\ Forall (Forall valid) sh'.
Proof.
  intros V. induction sh as [|s sh IH]; intros i H F; cbn [length] in H; [lia|]. inversion F; subst.
  destruct i as [|i]; cbn [add_at].
  - eexists. split; [reflexivity|]. split; [reflexivity|]. constructor; [apply Forall_app; auto|auto].
  - destruct (IH i) as (sh' & -> & E & G); [lia|auto|]. cbn [option_map]. eexists. split; [reflexivity|]. cbn [length]. split; [lia|]. constructor; auto.
Qed.
Lemma ends_ok start : forall k end_ cp sh, start <= end_ -> length cp = end_ - start -> end_ + k <= start + 10 ->
  length sh = 11 -> Forall (Forall valid) sh ->
  exists sh', ends cur nm ralign herr rerr start k end_ cp sh = Some sh' /\ length sh' = 11 /\ Forall (Forall valid) sh'.
Proof.
  induction k as [|k IH]; intros end_ cp sh H1 H2 H3 H4 H5; cbn [ends]; [eauto|].
  destruct (Nat.ltb_spec end_ (length cur)) as [H|H]; [|eauto].
  destruct (nth_error cur end_) as [w|] eqn:E; [|apply nth_error_None in E; lia]. cbn [bind].
  destruct (nfind nm (cp ++ [w])) as [starts|] eqn:F; [|eauto].
  destruct (any_true_ok herr (end_ - start + 1) start) as (a & ->); [lia|]. cbn [bind].
  destruct a; cbn [negb].
  - destruct (moves_ok start end_ starts) as (b & l & -> & V); auto.
    { intros x I. specialize (NM _ _ F _ I). rewrite app_length in NM. cbn [length] in NM. lia. }
    cbn [bind fst snd]. destruct (add_at_ok sh l V (end_ - start)) as (sh' & -> & E1 & E2); [lia|auto|]. cbn [bind].
    destruct b; [|exists sh'; split; [reflexivity|split; [lia|auto]]].
    apply IH; try lia; [rewrite app_length; cbn [length]; lia|auto].
  - apply IH; try lia; [rewrite app_length; cbn [length]; lia|auto].
Qed.
Lemma shifts_ok : exists sh, GetAllPossibleShifts cur nm ralign herr rerr = Some sh /\ length sh = 11 /\ Forall (Forall valid) sh.
Proof.
  unfold GetAllPossibleShifts.
  assert (G : forall l sh, (forall x, In x l -> x < length cur) -> length sh = 11 -> Forall (Forall valid) sh ->
    exists sh', fold_left (shifts_from cur nm ralign herr rerr) l (Some sh) = Some sh' /\ length sh' = 11 /\ Forall (Forall valid) sh').
  { induction l as [|s l IH]; intros sh Hl H1 H2; cbn [fold_left]; [eauto|].
    assert (exists sh', shifts_from cur nm ralign herr rerr (Some sh) s = Some sh' /\ length sh' = 11 /\ Forall (Forall valid) sh') as (sh' & -> & A & B).
    { unfold shifts_from. cbn [bind]. pose proof (Hl s (or_introl eq_refl)) as Hs.
      destruct (nth_error cur s) as [w|] eqn:E; [|apply nth_error_None in E; lia]. cbn [bind].
      destruct (nfind nm [w]) as [starts|] eqn:F; [|eauto].
      destruct (any_move_ok (Z.of_nat s) starts) as (b & ->).
      { intros x I. specialize (NM _ _ F _ I). cbn [length] in NM. lia. }
      cbn [bind]. destruct b; [|eauto]. apply ends_ok; auto; cbn [length]; unfold MAX_SHIFT_SIZE; lia. }
    apply IH; auto. intros; apply Hl; right; auto. }
  apply G; [intros x I; apply in_seq in I; lia|reflexivity|]. apply Forall_forall. intros x I. apply repeat_spec in I. subst x. constructor.
Qed.
End Cand.

(** * The best shift *)
Section Best.
Variables (cur ref : list Z) (ralign : list Z) (curerr : nat).
Hypothesis LA : length ralign = length ref.
Hypothesis RA : forall x, In x ralign -> (-1 <= x < Z.of_nat (length cur))%Z.
Definition best_ok (b : best) : Prop :=
  match b_new b with
  | None => b_cost b = 0 /\ b_err b = curerr
  | Some (nh, np) => b_cost b = 1 /\ block_move cur nh /\ length nh = length cur /\ script np nh ref /\ cost np = L nh ref /\ b_err b = L nh ref /\ b_err b + 1 <= curerr
  end.
Lemma try_shift_ok i b s : best_ok b -> valid cur ref s -> exists b', try_shift cur ref ralign curerr i (Some b) s = Some b' /\ best_ok b'.
Proof.
  intros B (V1 & V2 & V3). unfold try_shift. cbn [bind]. destruct (hopeless _ _ _); [eauto|].
  destruct (Z.ltb_spec (get_moveto s) 0); [lia|].
  destruct (nth_error ralign (Z.to_nat (get_moveto s))) as [mv|] eqn:E; [|apply nth_error_None in E; lia]. cbn [bind].
  apply nth_error_In in E. apply RA in E.
  destruct (PerformShift_ok cur (get_begin s) (get_end s) mv) as (out & -> & M & Lo); auto. cbn [bind].
  destruct (med_ok out ref) as (p & -> & S1 & C1). cbn [bind fst snd].
  match goal with |- context [if ?c then _ else _] => destruct c eqn:Q end; [|eauto].
  eexists. split; [reflexivity|]. unfold best_ok. cbn [b_new b_cost b_err].
  split; [auto|]. split; [auto|]. split; [auto|]. split; [auto|]. split; [auto|]. split; [auto|].
  apply orb_true_iff in Q. unfold best_ok in B. destruct (b_new b) as [[nh np]|].
  - destruct B as (B1 & _ & _ & _ & _ & _ & B2). rewrite B1 in *. destruct Q as [Q|Q]; [apply Z.ltb_lt in Q; lia|].
    rewrite andb_false_l in Q. discriminate.
  - destruct B as [B1 B2]. rewrite B1, B2 in *. destruct Q as [Q|Q]; [apply Z.ltb_lt in Q; lia|].
    apply andb_true_iff in Q. destruct Q as [_ Q]. apply Z.eqb_eq in Q. lia.
Qed.
Lemma try_sizes_ok sh : Forall (Forall (valid cur ref)) sh -> forall i b, best_ok b ->
  exists b', try_sizes cur ref ralign curerr sh i (Some b) = Some b' /\ best_ok b'.
Proof.
  induction 1 as [|s sh V F IH]; intros i b B; cbn [try_sizes]; [eauto|]. cbn [bind].
  destruct (hopeless _ _ _); [eauto|].
  assert (exists b', fold_left (try_shift cur ref ralign curerr (i - 1)) s (Some b) = Some b' /\ best_ok b') as (b' & -> & B').
  { clear IH. revert b B. induction V as [|x s V1 V2 IHs]; intros b B; cbn [fold_left]; [eauto|].
    destruct (try_shift_ok (i - 1) b x B V1) as (b1 & -> & B1). apply IHs. auto. }
  apply IH. auto.
Qed.
End Best.

Lemma best_shift_ok cur ref nm curerr path : nm_ok ref nm -> script path cur ref -> length cur <= 1024 -> length ref <= 1025 ->
  exists b, CalculateBestShift cur ref nm curerr path = Some b /\ best_ok cur ref curerr b.
Proof.
  intros N S C R. unfold CalculateBestShift. destruct (path_info path (-1)) as [[h e] a] eqn:E.
  destruct (info_ok _ _ _ S _ _ _ _ E) as (A1 & A2 & A3 & A4).
  destruct (shifts_ok cur ref nm a h e N A1 A2 A3 C R) as (sh & -> & _ & V). cbn [bind].
  apply try_sizes_ok; auto.
  - intros x I. apply A4 in I. lia.
  - apply Forall_rev. auto.
  - split; reflexivity.
Qed.

(** * The loop *)
Lemma moves_snoc n u v w : block_moves n u v -> block_move v w -> block_moves (S n) u w.
Proof. induction 1; intros; econstructor; eauto; constructor. Qed.
Lemma shift_loop_ok hyp ref nm : nm_ok ref nm -> length ref <= 1025 -> forall fuel cur path shifts,
  L cur ref < fuel -> block_moves shifts hyp cur -> length cur <= 1024 -> script path cur ref -> cost path = L cur ref ->
  exists cur' path' shifts', shift_loop fuel ref nm cur (L cur ref) path shifts = Some (L cur' ref, path', shifts') /\
    block_moves shifts' hyp cur' /\ script path' cur' ref /\ cost path' = L cur' ref /\ L cur' ref + shifts' <= L cur ref + shifts.
Proof.
  intros N R. induction fuel as [|f IH]; intros cur path shifts F M C S1 C1; [lia|]. cbn [shift_loop].
  destruct (best_shift_ok cur ref nm (L cur ref) path N S1 C R) as (b & -> & B). cbn [bind].
  unfold best_ok in B. destruct (b_new b) as [[nh np]|].
  - destruct B as (B1 & B2 & B3 & B4 & B5 & B6 & B7). rewrite B6 in *.
    destruct (IH nh np (S shifts)) as (cur' & path' & sh' & -> & Q1 & Q2 & Q3 & Q4); auto; try lia.
    + eapply moves_snoc; eauto.
    + exists cur', path', sh'. repeat split; auto. lia.
  - exists cur, path, shifts. repeat split; auto.
Qed.

Theorem ter_ok hyp ref fuel : length hyp <= 1024 -> length ref <= 1025 -> L hyp ref < fuel ->
  exists t, Calculate fuel ref hyp = Some t /\
    t_score t = t_subs t + t_ins t + t_dels t + t_shifts t /\
    ter_meaning hyp ref (t_subs t) (t_ins t) (t_dels t) (t_shifts t) /\
    t_score t <= L hyp ref.
Proof.
  intros H R F. unfold Calculate. destruct (med_ok hyp ref) as (p & -> & S1 & C1). cbn [bind fst snd].
  destruct (shift_loop_ok hyp ref _ (build_ok hyp ref) R fuel hyp p 0 F) as (cur & path & sh & -> & M & S2 & C2 & Le); auto; [constructor|].
  cbn [bind]. destruct (GetPathStats path) as [[s i] d] eqn:G. eexists. split; [reflexivity|]. cbn [t_score t_subs t_ins t_dels t_shifts].
  unfold cost in C2. rewrite G in C2. split; [lia|]. split; [|lia].
  exists cur. split; [auto|]. split; [eapply script_aligned; eauto|]. rewrite C2. apply L_distance.
Qed.

Lemma loop_mono ref nm : forall fuel cur med path sh r, shift_loop fuel ref nm cur med path sh = Some r ->
  forall fuel', fuel <= fuel' -> shift_loop fuel' ref nm cur med path sh = Some r.
Proof.
  induction fuel as [|f IH]; intros cur med path sh r H fuel' Le; [discriminate|].
  destruct fuel' as [|f']; [lia|]. cbn [shift_loop] in *. destruct (CalculateBestShift cur ref nm med path) as [b|]; [|discriminate].
  cbn [bind] in *. destruct (b_new b) as [[nh np]|]; [|exact H]. apply (IH _ _ _ _ _ H). lia.
Qed.
Lemma Calculate_mono ref hyp fuel fuel' t : fuel <= fuel' -> Calculate fuel ref hyp = Some t -> Calculate fuel' ref hyp = Some t.
Proof.
  unfold Calculate. intros Le. destruct (MinimumEditDistance hyp ref) as [r|]; [|discriminate]. cbn [bind].
  destruct (shift_loop fuel ref _ hyp (fst r) (snd r) 0) as [l|] eqn:E; [|discriminate].
  rewrite (loop_mono _ _ _ _ _ _ _ _ E fuel' Le). auto.
Qed.


Theorem ter_score hyp ref : length hyp <= 1024 -> length ref <= 1025 ->
  exists t, result_of (fun n => Calculate n ref hyp) t /\
    t_score t = t_subs t + t_ins t + t_dels t + t_shifts t /\
    ter_meaning hyp ref (t_subs t) (t_ins t) (t_dels t) (t_shifts t) /\
    (forall d, is_distance hyp ref d -> t_score t <= d).
Proof.
  intros H R. destruct (ter_ok hyp ref (S (L hyp ref)) H R) as (t & E & A & B & C); [lia|].
  exists t. split; [exists (S (L hyp ref)); intros n Hn; eapply Calculate_mono; eauto|].
  split; [auto|]. split; [auto|]. intros d D0. apply distance_L in D0. lia.
Qed.

Lemma moves_length n u v : block_moves n u v -> length u = length v.
Proof.
  induction 1 as [|n u v w (p & q & r & s & -> & ->) H IH]; [auto|]. rewrite <- IH, !app_length. lia.
Qed.
Lemma meaning_zero hyp ref : ter_meaning hyp ref 0 0 0 0 -> hyp = ref.
Proof.
  intros (mid & M & A & _). inversion M; subst. clear M.
  assert (G : forall s i d u v, aligned s i d u v -> s + i + d = 0 -> u = v).
  { induction 1; intros; try lia; [auto|f_equal; auto]. }
  apply (G _ _ _ _ _ A). auto.
Qed.

Lemma ter_loop_ok hyp refs : length hyp <= 1024 -> (forall r, In r refs -> length r <= 1025) ->
  forall before r after0 t,
  result_of (fun n => Calculate n r hyp) t ->
  (forall r' t', In r' before -> result_of (fun n => Calculate n r' hyp) t' -> t_score t < t_score t') ->
  (forall r' t', In r' after0 -> result_of (fun n => Calculate n r' hyp) t' -> t_score t <= t_score t') ->
  exists bf r1 af t1, before ++ r :: after0 ++ refs = bf ++ r1 :: af /\ result_of (fun n => Calculate n r1 hyp) t1 /\
    result_of (fun n => ter_loop n hyp refs (Some t)) (Some t1) /\
    (forall r' t', In r' bf -> result_of (fun n => Calculate n r' hyp) t' -> t_score t1 < t_score t') /\
    (forall r' t', In r' af -> result_of (fun n => Calculate n r' hyp) t' -> t_score t1 <= t_score t').
Proof.
  intros H. induction refs as [|x refs IH]; intros Hr before r after0 t R B A.
  - exists before, r, after0, t. rewrite app_nil_r. split; [auto|]. split; [auto|]. split; [exists 0; auto|]. auto.
  - destruct (ter_score hyp x H (Hr x (or_introl eq_refl))) as (tx & Rx & _).
    destruct Rx as (n0 & Rx).
    assert (U : forall t', result_of (fun n => Calculate n x hyp) t' -> t' = tx).
    { intros t' (n1 & E). specialize (E (n0 + n1) ltac:(lia)). rewrite Rx in E by lia. congruence. }
    assert (Hr' : forall r, In r refs -> length r <= 1025) by (intros; apply Hr; right; auto).
    destruct (Nat.ltb_spec (t_score tx) (t_score t)) as [Q|Q].
    + destruct (IH Hr' (before ++ r :: after0) x [] tx) as (bf & r1 & af & t1 & E & R1 & (n1 & L1) & B1 & A1).
      * exists n0; auto.
      * intros r' t' I R'. apply in_app_or in I. destruct I as [I|[<-|I]].
        -- specialize (B _ _ I R'). lia.
        -- destruct R as (m & R). destruct R' as (m' & R'). specialize (R (m + m') ltac:(lia)). rewrite R' in R by lia. injection R as ->. auto.
        -- specialize (A _ _ I R'). lia.
      * intros r' t' [].
      * exists bf, r1, af, t1. split; [rewrite <- E, <- app_assoc; reflexivity|]. split; [auto|]. split; [|auto].
        exists (n0 + n1). intros n Hn. cbn [ter_loop]. rewrite Rx by lia. cbn [bind].
        destruct (Nat.ltb_spec (t_score tx) (t_score t)); [|lia]. apply L1. lia.
    + destruct (IH Hr' before r (after0 ++ [x]) t) as (bf & r1 & af & t1 & E & R1 & (n1 & L1) & B1 & A1); auto.
      * intros r' t' I R'. apply in_app_or in I. destruct I as [I|[<-|[]]]; [eauto|]. rewrite (U _ R'). auto.
      * exists bf, r1, af, t1. split; [rewrite <- E, <- app_assoc; reflexivity|]. split; [auto|]. split; [|auto].
        exists (n0 + n1). intros n Hn. cbn [ter_loop]. rewrite Rx by lia. cbn [bind].
        destruct (Nat.ltb_spec (t_score tx) (t_score t)); [lia|]. apply L1. lia.
Qed.
Lemma total_length (refs : list (list Z)) : forall a, fold_left (fun a r => a + length r) refs a = a + list_sum (map (@length Z) refs).
Proof.
  induction refs as [|r refs IH]; intros a; [simpl; lia|].
  cbn [fold_left map]. rewrite IH. unfold list_sum. cbn [fold_right]. lia.
Qed.
Theorem ter_stats_ok hyp refs : refs <> [] -> length hyp <= 1024 -> (forall r, In r refs -> length r <= 1025) ->
  exists bf r af t, refs = bf ++ r :: af /\ result_of (fun n => Calculate n r hyp) t /\
    result_of (fun n => ter_stats n hyp refs) (t, list_sum (map (@length Z) refs) / length refs) /\
    (forall r' t', In r' bf -> result_of (fun n => Calculate n r' hyp) t' -> t_score t < t_score t') /\
    (forall r' t', In r' af -> result_of (fun n => Calculate n r' hyp) t' -> t_score t <= t_score t').
Proof.
  intros N H Hr. destruct refs as [|x refs]; [congruence|].
  destruct (ter_score hyp x H (Hr x (or_introl eq_refl))) as (tx & (n0 & Rx) & _).
  destruct (ter_loop_ok hyp refs H (fun r I => Hr r (or_intror I)) [] x [] tx) as (bf & r1 & af & t1 & E & R1 & (n1 & L1) & B1 & A1).
  - exists n0. auto.
  - intros r' t' [].
  - intros r' t' [].
  - exists bf, r1, af, t1. split; [exact E|]. split; [auto|]. split; [|auto].
    exists (n0 + n1). intros n Hn. unfold ter_stats.
    change (length (x :: refs) =? 0) with false. cbv iota. cbn [ter_loop]. rewrite Rx by lia. cbn [bind].
    rewrite L1 by lia. cbn [bind]. rewrite total_length. reflexivity.
Qed.
