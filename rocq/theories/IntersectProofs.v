From Coq Require Import List ZArith Bool Lia.
From Verif Require Import Opt OptProofs Precomp PrecompSpec RuleEx Intersect IntersectSpec.
Import ListNotations.
Open Scope Z_scope.
Open Scope opt_scope.

Lemma size_cons x (l : list Z) : size (x :: l) = size l + 1.
Proof. unfold size. cbn [length]. lia. Qed.
Lemma get_nth (l : list Z) i : 0 <= i -> get l i = nth_error l (Z.to_nat i).
Proof. intros H. unfold get. destruct (Z.ltb_spec i 0); [lia|reflexivity]. Qed.
Lemma get_app1 (a b : list Z) i x : get a i = Some x -> get (a ++ b) i = Some x.
Proof. unfold get. destruct (i <? 0); [discriminate|]. intros H. rewrite nth_error_app1; [exact H|]. apply nth_error_Some. congruence. Qed.
Lemma get_app2 (a b : list Z) i : size a <= i -> get (a ++ b) i = get b (i - size a).
Proof.
  unfold size. intros H. rewrite !get_nth by lia. rewrite nth_error_app2 by lia. f_equal. lia.
Qed.

(** ** Sentences *)
Definition sentence_bounds (d : darray) (data : list Z) (p : Z) : Prop :=
  exists i s e, get (da_id d) p = Some i /\ get (da_start d) i = Some s /\ get (da_start d) (i + 1) = Some (e + 1) /\
    0 <= s /\ s <= p <= e /\ get data e = Some 1 /\ (forall k, s <= k < e -> get data k <> Some 1 /\ get data k <> None) /\ (s = 0 \/ get data (s - 1) = Some 1).
Lemma create_ok : forall lines i d pre, Forall (fun l => Forall (fun x => 2 <= x) l) lines ->
  da_data d = pre -> size (da_id d) = size pre -> size (da_start d) = i -> (pre = [] \/ get pre (size pre - 1) = Some 1) ->
  let d' := create i lines d in
  da_data d' = pre ++ text lines /\ size (da_id d') = size (pre ++ text lines) /\
  (exists a b, da_id d' = da_id d ++ a /\ da_start d' = da_start d ++ size pre :: b) /\
  (forall p, size pre <= p < size (pre ++ text lines) -> sentence_bounds d' (pre ++ text lines) p).
Proof.
  induction lines as [|l r IH]; intros i d pre HW HD HI HS HE; cbn [create text flat_map].
  - cbn. rewrite app_nil_r. split; [exact HD|]. split; [exact HI|]. split; [exists [], []; rewrite HD, app_nil_r; auto|]. intros p Hp. lia.
  - inversion HW; subst. 
    set (d1 := {| da_data := _; da_id := _; da_start := _ |}). cbv zeta.
    destruct (IH (size (da_start d) + 1) d1 (da_data d ++ l ++ [1])) as (A & B & (a & b & C1 & C2) & D); auto.
    + subst d1; cbn. rewrite !size_app. unfold size at 2. rewrite map_length. rewrite HI. rewrite <- size_app. reflexivity.
    + subst d1; cbn. rewrite size_app. reflexivity.
    + right. rewrite app_assoc, size_app, get_app2 by (change (size [1]) with 1; lia).
      change (size [1]) with 1. replace (_ - _) with 0 by lia. reflexivity.
    + fold (text r). rewrite <- app_assoc in A, B, D.
      change (flat_map (fun s => s ++ [1]) r) with (text r) in *. split; [exact A|]. split; [exact B|]. split.
      { eexists. eexists. split; [rewrite C1; subst d1; cbn [da_id]; rewrite <- app_assoc; reflexivity|].
        rewrite C2. subst d1; cbn [da_start]. rewrite <- app_assoc. reflexivity. }
      intros p Hp.
      destruct (Z.lt_ge_cases p (size (da_data d ++ l ++ [1]))) as [Hlt|Hge].
      2:{ apply D. split; auto. apply Hp. }
      exists (size (da_start d)), (size (da_data d)), (size (da_data d) + size l).
      rewrite !size_app in *. change (size [1]) with 1 in *.
      split.
      { rewrite C1. apply get_app1. subst d1; cbn [da_id]. rewrite get_app2 by lia.
        rewrite get_nth by lia. rewrite nth_error_map.
        destruct (nth_error (l ++ [END_OF_LINE]) (Z.to_nat (p - size (da_id d)))) eqn:E; [reflexivity|].
        apply nth_error_None in E. rewrite app_length in E. cbn in E. unfold size in *. lia. }
      split. { rewrite C2. apply get_app1. subst d1; cbn [da_start]. rewrite get_app2 by lia. rewrite Z.sub_diag. reflexivity. }
      split. { rewrite C2, get_app2 by (subst d1; cbn [da_start]; rewrite size_app; change (size [size (da_data d)]) with 1; lia).
        subst d1; cbn [da_start]. rewrite size_app. change (size [size (da_data d)]) with 1. rewrite Z.sub_diag. cbn [get nth_error Z.to_nat Z.ltb Z.compare].
        f_equal. lia. }
      pose proof (size_nonneg (da_data d)). pose proof (size_nonneg l).
      split; [lia|]. split; [lia|]. split.
      { rewrite get_app2 by lia. rewrite <- app_assoc, get_app2 by lia. replace (_ - _) with 0 by lia. reflexivity. }
      split.
      { intros k Hk. rewrite get_app2 by lia. rewrite <- app_assoc. rewrite get_some by (rewrite size_app; pose proof (size_nonneg ([1] ++ text r)); lia).
        split; [|discriminate].
        rewrite at_app1 by lia. intros E. injection E as E.
        match goal with HF : Forall (fun x => 2 <= x) l |- _ => rewrite Forall_forall in HF; specialize (HF (at_ l (k - size (da_data d)))) end.
        assert (In (at_ l (k - size (da_data d))) l) by (apply at_in; lia). intuition lia. }
      destruct HE as [HE|HE]; [left; rewrite HE; reflexivity|right]. apply get_app1. exact HE.
Qed.
Lemma create_array lines : Forall (fun l => Forall (fun x => 2 <= x) l) lines ->
  da_data (CreateDataArray lines) = text lines /\ forall p, 0 <= p < size (text lines) -> sentence_bounds (CreateDataArray lines) (text lines) p.
Proof.
  intros H. destruct (create_ok lines 0 {| da_data := []; da_id := []; da_start := [] |} []) as (A & B & C & D); auto.
Qed.

(** ** Reading phrases *)
Section Reads.
Variable data : list Z.
Variable wid : Z -> Z.
Variable gap : Z.
Hypothesis gap_nonneg : 0 <= gap.
Notation reads := (reads data wid gap).
Lemma reads_app : forall l1 l2 p ps e, reads (l1 ++ l2) p ps e <-> exists ps1 ps2 m, ps = ps1 ++ ps2 /\ reads l1 p ps1 m /\ reads l2 m ps2 e.
Proof.
  induction l1 as [|s l1 IH]; intros l2 p ps e; cbn [app].
  - split; [intros H; exists [], ps, p; repeat split; auto; constructor|]. intros (ps1 & ps2 & m & -> & A & B). inversion A; subst. exact B.
  - split.
    + intros H. inversion H; subst.
      * match goal with HR : reads (l1 ++ l2) _ _ _ |- _ => apply IH in HR; destruct HR as (ps1 & ps2 & m & -> & A & B) end.
        exists ps1, ps2, m. repeat split; auto. apply reads_word; auto.
      * match goal with HR : reads (l1 ++ l2) _ _ _ |- _ => apply IH in HR; destruct HR as (ps1 & ps2 & m & -> & A & B) end.
        exists (q :: ps1), ps2, m. repeat split; auto. apply reads_gap; auto.
    + intros (ps1 & ps2 & m & -> & A & B). inversion A; subst.
      * apply reads_word; auto. apply IH. exists ps1, ps2, m. auto.
      * cbn [app]. apply reads_gap; auto. apply IH. eexists _, _, _. repeat split; eauto.
Qed.
Lemma reads_le l p ps e : reads l p ps e -> p <= e.
Proof. induction 1; lia. Qed.
Lemma reads_word_inv s p ps e : 0 <= s -> reads [s] p ps e -> ps = [] /\ e = p + 1 /\ 0 <= p /\ get data p = Some (wid s).
Proof.
  intros Hs H. inversion H; subst; [|lia].
  match goal with HR : reads [] _ _ _ |- _ => inversion HR; subst end. rewrite get_nth by lia. auto.
Qed.
Lemma reads_one s p : 0 <= s -> 0 <= p -> get data p = Some (wid s) -> reads [s] p [] (p + 1).
Proof. intros Hs Hp H. rewrite get_nth in H by lia. apply reads_word; auto. constructor. Qed.
Lemma reads_arity l p ps e : reads l p ps e -> forall i, length ps = length (var_pos i l).
Proof.
  induction 1; intros i; cbn [var_pos length]; auto.
  - destruct (Z.leb_spec 0 s); [|lia]. apply IHreads.
  - destruct (Z.leb_spec 0 s); [lia|]. cbn. f_equal. apply IHreads.
Qed.
Lemma reads_contig l : contiguous l -> forall p ps e, reads l p ps e -> ps = [] /\ e = p + size l.
Proof.
  intros C p ps e H. induction H.
  - split; auto. change (size []) with 0. lia.
  - destruct IHreads as [-> ->]; [intros x Hx; apply C; right; auto|]. rewrite size_cons. split; auto. lia.
  - exfalso. specialize (C s (or_introl eq_refl)). lia.
Qed.
Lemma reads_bounds l p ps e : reads l p ps e -> l <> [] -> 0 <= hd 0 l -> 0 <= p /\ p + 1 <= e /\ p < size data.
Proof.
  intros H Hn Hh. destruct H; [congruence| |cbn in Hh; lia].
  assert (0 <= p < size data). { split; auto. unfold size. assert (nth_error data (Z.to_nat p) <> None) by congruence. apply nth_error_Some in H3. lia. }
  apply reads_le in H2. lia.
Qed.
Lemma split_last l : contiguous l \/ exists l1 x c, l = l1 ++ x :: c /\ x < 0 /\ contiguous c.
Proof.
  induction l as [|s l [C|(l1 & x & c & -> & A & B)]].
  - left. intros s [].
  - destruct (Z.lt_ge_cases s 0); [right; exists [], s, l; auto|left]. intros x [<-|Hx]; [lia|auto].
  - right. exists (s :: l1), x, c. auto.
Qed.
(** The last chunk. *)
Definition tail_len (l : list Z) (n : Z) : Prop := contiguous l /\ n = size l \/ exists l1 x c, l = l1 ++ x :: c /\ x < 0 /\ contiguous c /\ n = size c.
Lemma tail_len_reads l n p ps e : tail_len l n -> reads l p ps e -> e = last (p :: ps) 0 + n.
Proof.
  intros [[C ->]|(l1 & x & c & -> & Hx & C & ->)] H.
  - destruct (reads_contig _ C _ _ _ H) as [-> ->]. reflexivity.
  - apply reads_app in H. destruct H as (ps1 & ps2 & m & -> & A & B). inversion B; subst; [lia|].
    match goal with HR : reads c _ _ _ |- _ => destruct (reads_contig _ C _ _ _ HR) as [-> ->] end.
    rewrite app_comm_cons, last_last. reflexivity.
Qed.
Lemma tail_len_ex l : exists n, tail_len l n.
Proof. destruct (split_last l) as [C|(l1 & x & c & -> & A & B)]; eexists; [left; eauto|right; exists l1, x, c; eauto]. Qed.
Lemma var_pos_app : forall a i b, var_pos i (a ++ b) = var_pos i a ++ var_pos (i + size a) b.
Proof.
  induction a as [|s a IH]; intros i b; cbn [app var_pos].
  - change (size []) with 0. rewrite Z.add_0_r. reflexivity.
  - rewrite size_cons. rewrite IH. replace (i + 1 + size a) with (i + (size a + 1)) by lia. destruct (0 <=? s); reflexivity.
Qed.
Lemma var_pos_contig l : contiguous l -> forall i, var_pos i l = [].
Proof.
  intros C. induction l as [|s l IH]; intros i; auto. cbn. destruct (Z.leb_spec 0 s); [apply IH; intros x Hx; apply C; right; auto|].
  specialize (C s (or_introl eq_refl)). lia.
Qed.
Lemma chunk_last l n : tail_len l n -> GetChunkLen l (size (var_pos 0 l)) = Some n.
Proof.
  intros [[C ->]|(l1 & x & c & -> & Hx & C & ->)]; unfold GetChunkLen.
  - rewrite (var_pos_contig _ C). reflexivity.
  - rewrite var_pos_app. cbn [var_pos]. destruct (Z.leb_spec 0 x); [lia|]. rewrite (var_pos_contig _ C).
    rewrite size_app. change (size [0 + size l1]) with 1. pose proof (size_nonneg (var_pos 0 l1)).
    destruct (Z.eqb_spec (size (var_pos 0 l1) + 1) 0); [lia|]. rewrite Z.eqb_refl.
    rewrite get_app2 by lia. replace (_ + 1 - 1 - _) with 0 by lia. cbn. rewrite size_app, size_cons. f_equal. lia.
Qed.
Lemma chunk_prev l n x w : tail_len l n -> x < 0 -> 0 <= w -> GetChunkLen (l ++ [x; w]) (size (var_pos 0 (l ++ [x; w])) - 1) = Some n.
Proof.
  intros T Hx Hw. unfold GetChunkLen. rewrite var_pos_app. cbn [var_pos]. destruct (Z.leb_spec 0 x); [lia|]. destruct (Z.leb_spec 0 w); [|lia].
  rewrite size_app. change (size [0 + size l]) with 1. pose proof (size_nonneg (var_pos 0 l)).
  destruct (Z.eqb_spec (size (var_pos 0 l) + 1) 0); [lia|]. replace (size (var_pos 0 l) + 1 - 1) with (size (var_pos 0 l)) by lia.
  destruct T as [[C ->]|(l1 & y & c & -> & Hy & C & ->)].
  - rewrite (var_pos_contig _ C). reflexivity.
  - destruct (Z.eqb_spec (size (var_pos 0 (l1 ++ y :: c))) 0) as [E0|E0].
    { exfalso. rewrite var_pos_app, size_app in E0. cbn [var_pos] in E0. destruct (Z.leb_spec 0 y); [lia|]. rewrite size_cons in E0.
      pose proof (size_nonneg (var_pos 0 l1)). pose proof (size_nonneg (var_pos (0 + size l1 + 1) c)). lia. }
    destruct (Z.eqb_spec (size (var_pos 0 (l1 ++ y :: c))) (size (var_pos 0 (l1 ++ y :: c)) + 1)); [lia|].
    rewrite get_app2 by lia. rewrite Z.sub_diag. cbn [bind get Z.ltb Z.compare Z.to_nat nth_error].
    rewrite var_pos_app in E0 |- *. cbn [var_pos] in *. destruct (Z.leb_spec 0 y); [lia|]. rewrite (var_pos_contig _ C) in *.
    rewrite size_app in *. change (size [0 + size l1]) with 1 in *.
    rewrite (get_app1 (var_pos 0 l1 ++ [0 + size l1]) _ _ (0 + size l1))
      by (rewrite size_app; change (size [0 + size l1]) with 1; rewrite get_app2 by lia; replace (_ + 1 - 1 - _) with 0 by lia; reflexivity).
    cbn [bind]. rewrite size_cons. f_equal. lia.
Qed.
Lemma last_word l p ps e : reads l p ps e -> l <> [] -> 0 <= last l 0 -> 0 <= e - 1 /\ e <= size data.
Proof.
  intros H Hn Hl. destruct (exists_last Hn) as (l' & s & ->). rewrite last_last in Hl.
  apply reads_app in H. destruct H as (ps1 & ps2 & m & -> & A & B). apply reads_word_inv in B; auto. destruct B as (-> & -> & C & D).
  apply get_inv in D. lia.
Qed.
End Reads.
