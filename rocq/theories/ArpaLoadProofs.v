(** The tables after each line of the file. *)
From Coq Require Import String List ZArith NArith Bool Lia.
Import ListNotations.
From Verif Require Import Lm Arpa ArpaProofs.
Open Scope Z_scope.
Open Scope res_scope.

Section Lines.
Variable c : config.
Variable order : nat.
Variable count : nat -> nat.
Hypothesis order2 : (2 <= order)%nat.
(** Section n as n-grams of word ids with probability and back-off; the unigrams. *)
Variable sec : nat -> list (ngram * (Z * Z)).
Variable uni0 : list fw.
Hypothesis count_sec : forall n, (2 <= n <= order)%nat -> count n = length (sec n).

Notation view := (view order).
Notation evolve := (evolve order).
Notation marked_left := (marked_left order).
Notation marked_ctx := (marked_ctx order).
Notation bval := (bval order).

Definition fentry (g : ngram) : option (Z * Z) := find g (sec (length g)).
Definition bowF (g : ngram) : Z :=
  match g with
  | [] => 0
  | [w] => match nth_error uni0 w with Some x => val (f_backoff x) | None => 0 end
  | _ => match fentry g with Some (_, b) => b | None => 0 end
  end.
(** Katz score of the first word of [g] given the next k-1 *)
Fixpoint ak (g : ngram) (k : nat) : Z :=
  match k with
  | O => 0
  | S O => match g with w :: _ => match nth_error uni0 w with Some x => - Z.of_N (mag (f_prob x)) | None => 0 end | [] => 0 end
  | S k' => match fentry (firstn k g) with Some (p, _) => p | None => bowF (firstn k' (tl g)) + ak g k' end
  end.
Definition POS : Prop := forall n d, (2 <= n <= order)%nat -> In d (map fst (sec n)) -> forall k, (1 <= k <= length d)%nat -> ak d k <= 0.
Definition CLEAN : Prop := forall n d, (3 <= n <= order)%nat -> In d (map fst (sec n)) -> In (removelast d) (map fst (sec (n - 1))) /\ In (tl d) (map fst (sec (n - 1))).

Lemma ak_firstn g : forall k j, (k <= j)%nat -> ak (firstn j g) k = ak g k.
Proof.
  induction k as [|k IH]; intros j H; [reflexivity|]. destruct k as [|k].
  - destruct j; [lia|]. destruct g; reflexivity.
  - cbn [ak]. rewrite firstn_firstn. replace (Nat.min (S (S k)) j) with (S (S k)) by lia.
    destruct (fentry _) as [[p b]|]; [reflexivity|]. specialize (IH j ltac:(lia)). cbn [ak] in IH. rewrite IH. f_equal. f_equal.
    destruct j; [lia|]. destruct g as [|a g]; [reflexivity|]. cbn [tl firstn]. change (match firstn j g with [] => [] | a0 :: l => a0 :: firstn k l end) with (firstn (S k) (firstn j g)). rewrite firstn_firstn. change (firstn (Nat.min (S k) j) g = firstn (S k) g). f_equal. lia.
Qed.

Section Done.
Variable n : nat.
Variable pre : list (ngram * (Z * Z)).
Definition done (d : ngram) : Prop := (exists m, (2 <= m < n)%nat /\ In d (map fst (sec m))) \/ In d (map fst pre).
Definition dlen (m : nat) : nat := if Nat.ltb m n then length (sec m) else if Nat.eqb m n then length pre else 0%nat.

Record Inv (t : tables) : Prop := {
  i_len : (forall m d, (2 <= m < n)%nat -> In d (map fst (sec m)) -> length d = m) /\ (forall d, In d (map fst pre) -> length d = n);
  i_uni : length (t_uni t) = length uni0;
  i_pres : forall g, view t g <> None <-> (exists w, g = [w] /\ (w < length uni0)%nat) \/ ((2 <= length g)%nat /\ exists d, done d /\ g = firstn (length g) d);
  i_long : forall h p, In (h, p) (t_long t) -> neg p = true;
  i_left : forall g x, g <> [] -> view t (g ++ [x]) <> None -> marked_left t g;
  i_right : forall x g, g <> [] -> view t (x :: g) <> None -> marked_ctx t g;
  i_val : forall g w, view t g = Some w -> val (f_backoff w) = bowF g /\ (POS -> - Z.of_N (mag (f_prob w)) = ak g (length g));
  i_size : CLEAN -> (forall i, (i + 2 < order)%nat -> length (t_mid t i) = dlen (i + 2)) /\ length (t_long t) = dlen order }.
End Done.

Lemma closed_prefix t : (forall g x, g <> [] -> view t (g ++ [x]) <> None -> marked_left t g) -> forall h j, (1 <= j <= length h)%nat -> view t h <> None -> view t (firstn j h) <> None.
Proof.
  intros HL h. induction h as [|x h IH] using rev_ind; intros j Hj Hv; [cbn in Hj; lia|]. rewrite app_length in Hj. cbn in Hj.
  destruct (Nat.eq_dec j (length h + 1)) as [->|N]; [rewrite firstn_all2 by (rewrite app_length; cbn; lia); exact Hv|].
  rewrite firstn_app. replace (j - length h)%nat with 0%nat by lia. cbn [firstn]. rewrite app_nil_r. apply IH; [lia|].
  assert (Nh : h <> []) by (intros ->; cbn in *; lia). destruct (HL h x Nh Hv) as (w & V & _). rewrite V. discriminate.
Qed.

Lemma firstn_S_last (g : ngram) j h x : (S j <= length g)%nat -> h ++ [x] = firstn (S j) g -> h = firstn j g.
Proof.
  intros L E. assert (Lh : length h = j) by (apply (f_equal (@length word)) in E; rewrite app_length, firstn_length in E; cbn [length] in E; lia).
  apply (f_equal (firstn j)) in E. rewrite firstn_firstn, firstn_app in E. replace (Nat.min j (S j)) with j in E by lia. replace (j - length h)%nat with 0%nat in E by lia. cbn [firstn] in E. rewrite app_nil_r, firstn_all2 in E by lia. exact E.
Qed.

(** One line, once its words are known. *)
Definition insert_line (n : nat) (p : fl) (back : option fl) (g : ngram) (t : tables) : res tables :=
  let p' := SetSign p in
  '(t1, added) <-
    (if Nat.eqb n order then
       if negb (ReadNoBackoff back) then Throw
       else if Nat.leb (buckets c count n) (S (length (t_long t))) then Throw
       else Ok (Tables (t_uni t) (t_mid t) (t_long t ++ [(g, p')]), p')
     else if mid_ok order (n - 2) then
       if Nat.leb (buckets c count n) (S (length (t_mid t (n - 2)))) then Throw
       else
         let e := SetRest c g (FW p (ReadBackoff back) (c_junk c)) in
         let e := set_prob e p' in
         Ok (with_mid t (n - 2) (t_mid t (n - 2) ++ [(g, e)]), f_rest e)
     else Undefined) ;;
  '(t2, between) <- FindLower c order count (n - 2) g t1 ;;
  t3 <- AdjustLower c order added between n g t2 ;;
  t4 <- (if kMarkEvenLower c then
           match rev between with
           | [] => Undefined
           | back :: _ => w <- get order t3 back ;; MarkLower c order (n - length between - 1) g (f_rest w) t3
           end
         else Ok t3) ;;
  activate order n g t4.

(** The new entry *)
Lemma insert_entry (Bad : Prop) n p back (g : ngram) t : length g = n -> (2 <= n <= order)%nat ->
  (n = order -> ReadNoBackoff back = false -> Bad) ->
  (n = order -> (buckets c count n <= S (length (t_long t)))%nat -> Bad) ->
  ((n < order)%nat -> (buckets c count n <= S (length (t_mid t (n - 2))))%nat -> Bad) ->
  safe Bad (if Nat.eqb n order then
       if negb (ReadNoBackoff back) then Throw
       else if Nat.leb (buckets c count n) (S (length (t_long t))) then Throw
       else Ok (Tables (t_uni t) (t_mid t) (t_long t ++ [(g, SetSign p)]), SetSign p)
     else if mid_ok order (n - 2) then
       if Nat.leb (buckets c count n) (S (length (t_mid t (n - 2)))) then Throw
       else
         let e := SetRest c g (FW p (ReadBackoff back) (c_junk c)) in
         let e := set_prob e (SetSign p) in
         Ok (with_mid t (n - 2) (t_mid t (n - 2) ++ [(g, e)]), f_rest e)
     else Undefined)
  (fun r => let '(t1, added) := r in exists e, (forall h, view t1 h = if gdec h g then Some (match view t g with Some w => w | None => e end) else view t h)
     /\ f_prob e = SetSign p /\ val (f_backoff e) = (if Nat.eqb n order then 0 else match back with Some x => val x | None => 0 end)
     /\ (n = order -> ReadNoBackoff back = true)
     /\ (c_build c = MaxRest -> val added = val (SetSign p) /\ f_rest e = added)
     /\ (t_uni t1 = t_uni t /\ forall h q, In (h, q) (t_long t1) -> In (h, q) (t_long t) \/ neg q = true)
     /\ (forall i, length (t_mid t1 i) = if andb (Nat.ltb n order) (Nat.eqb i (n - 2)) then S (length (t_mid t i)) else length (t_mid t i))
     /\ length (t_long t1) = if Nat.eqb n order then S (length (t_long t)) else length (t_long t)).
Proof.
  intros Lg Hn B1 B2 B3. destruct (Nat.eqb_spec n order) as [E|N].
  - destruct (ReadNoBackoff back) eqn:Er; cbn [negb]; [|cbn; auto]. destruct (Nat.leb_spec (buckets c count n) (S (length (t_long t)))) as [Hc|Hc]; [cbn; auto|].
    cbn [safe]. exists (FW (SetSign p) nzero (SetSign p)). split; [apply view_long_app; congruence|]. split; [reflexivity|]. split; [reflexivity|]. split; [auto|]. split; [split; reflexivity|]. split; [split; [reflexivity|intros h q Hq; cbn [t_long] in Hq; apply in_app_or in Hq; destruct Hq as [Hq|[[= <- <-]|[]]]; auto]|].
    split; [|cbn; rewrite app_length; cbn; lia]. intros i. destruct (Nat.ltb_spec n order); [lia|]. reflexivity.
  - unfold mid_ok. destruct (Nat.ltb_spec (n - 2) (order - 2)); [|lia]. destruct (Nat.leb_spec (buckets c count n) (S (length (t_mid t (n - 2))))) as [Hc|Hc]; [cbn; apply B3; [lia|exact Hc]|].
    cbn [safe]. cbv zeta. eexists. split; [|split; [|split; [|split; [lia|split; [|split; [split; [reflexivity|intros h q Hq; left; exact Hq]|split; [|reflexivity]]]]]]].
    + replace (n - 2)%nat with (length g - 2)%nat by lia. apply view_mid_app; lia.
    + reflexivity.
    + cbn [set_prob f_backoff]. destruct (SetRest_prob c g (FW p (ReadBackoff back) (c_junk c))) as (_ & ->). cbn [f_backoff]. unfold ReadBackoff. destruct back as [x|]; [|reflexivity]. destruct (Z.eqb_spec (val x) 0) as [Ex|]; [rewrite Ex|]; reflexivity.
    + intros HM. unfold SetRest. rewrite HM. split; reflexivity.
    + intros i. cbn [with_mid t_mid]. destruct (Nat.ltb_spec n order); [|lia]. cbn [andb]. destruct (Nat.eqb_spec i (n - 2)) as [->|]; [rewrite app_length; cbn; lia|reflexivity].
Qed.

Lemma insert_line_ok (Bad : Prop) n (pre post : list (ngram * (Z * Z))) p back (g : ngram) pz bz t : (2 <= n <= order)%nat -> length g = n -> sec n = pre ++ (g, (pz, bz)) :: post ->
  (forall w, In w g -> (w < length uni0)%nat) -> val p <= 0 -> pz = val p -> bz = match back with Some x => val x | None => 0 end ->
  (~ CLEAN -> Bad) -> (n = order -> ReadNoBackoff back = false -> Bad) ->
  Inv n pre t -> safe Bad (insert_line n p back g t) (Inv n (pre ++ [(g, (pz, bz))])).
Proof.
  intros Hn Lg Hsec Hr Hp -> -> HB HNB I0.
  set (pre1 := fun j => firstn j g). set (ctx := fun j => firstn j (tl g)).
  assert (Hgin : In g (map fst (sec n))) by (rewrite Hsec, map_app; apply in_or_app; right; left; reflexivity).
  assert (Lpre : forall j, (j <= n)%nat -> length (pre1 j) = j) by (intros j Hj; unfold pre1; apply firstn_length_le; lia).
  assert (Lctx : forall j, (j <= n - 1)%nat -> length (ctx j) = j) by (intros j Hj; unfold ctx; rewrite firstn_length, tl_length'; lia).
  assert (Fpre : forall i j, (i <= j)%nat -> firstn i (pre1 j) = pre1 i) by (intros i j Hij; unfold pre1; rewrite firstn_firstn; f_equal; lia).
  (* what is known about the tables before the line *)
  assert (P1 : view t (pre1 1%nat) <> None).
  { apply (i_pres _ _ _ I0). left. destruct (two_items g ltac:(lia)) as (a & b & l & Eg). exists a. split; [unfold pre1; rewrite Eg; reflexivity|apply Hr; rewrite Eg; left; reflexivity]. }
  assert (C1 : view t (ctx 1%nat) <> None).
  { apply (i_pres _ _ _ I0). left. destruct (two_items g ltac:(lia)) as (a & b & l & Eg). exists b. split; [unfold ctx; rewrite Eg; reflexivity|apply Hr; rewrite Eg; right; left; reflexivity]. }
  assert (Fnone : forall h, (2 <= length h < n)%nat -> view t h = None -> fentry h = None).
  { intros h Lh Vh. destruct (fentry h) as [e|] eqn:Ef; [|reflexivity]. exfalso.
    assert (Hi : In h (map fst (sec (length h)))) by (apply find_in; unfold fentry in Ef; rewrite Ef; discriminate).
    apply (proj2 (i_pres _ _ _ I0 h)); [|exact Vh]. right. split; [lia|]. exists h. split; [left; exists (length h); split; [lia|exact Hi]|rewrite firstn_all; reflexivity]. }
  assert (Bt : forall h, (1 <= length h < n)%nat -> (length h = 1%nat -> view t h <> None) -> bval t h = bowF h).
  { intros h Lh H1. unfold bval. destruct (view t h) as [w|] eqn:Vh; [apply (i_val _ _ _ I0 h w Vh)|].
    destruct h as [|a [|b h]]; [reflexivity|exfalso; apply H1; reflexivity|]. unfold bowF. rewrite Fnone; [reflexivity|split; [cbn; lia|lia]|exact Vh]. }
  assert (Gnew : view t g = None -> fentry g = Some (val p, match back with Some x => val x | None => 0 end)).
  { intros Vg. unfold fentry. rewrite Lg, Hsec, find_app. destruct (find g pre) as [e|] eqn:Ef.
    - exfalso. apply (proj2 (i_pres _ _ _ I0 g)); [|exact Vg]. right. split; [lia|]. exists g. split; [right; apply find_in; rewrite Ef; discriminate|rewrite firstn_all; reflexivity].
    - cbn [find]. destruct (gdec g g); [reflexivity|congruence]. }
  assert (Cpre : CLEAN -> (3 <= n)%nat -> forall j, (1 <= j <= n - 1)%nat -> view t (pre1 j) <> None).
  { intros CL H3 j Hj. destruct (CL n g ltac:(lia) Hgin) as (Q & _). 
    assert (Er : removelast g = firstn (n - 1) g) by (rewrite <- Lg; replace (length g - 1)%nat with (Nat.pred (length g)) by lia; apply removelast_firstn_len).
    assert (Vr : view t (pre1 (n - 1)%nat) <> None).
    { apply (i_pres _ _ _ I0). right. rewrite Lpre by lia. split; [lia|]. exists (removelast g). split; [left; exists (n - 1)%nat; split; [lia|exact Q]|]. rewrite Er, firstn_firstn. unfold pre1. f_equal. lia. }
    pose proof (closed_prefix t (i_left _ _ _ I0) (pre1 (n - 1)%nat) j) as K. rewrite Lpre in K by lia. rewrite Fpre in K by lia. apply K; [lia|exact Vr]. }
  assert (Ctl : CLEAN -> (3 <= n)%nat -> view t (tl g) <> None).
  { intros CL H3. destruct (CL n g ltac:(lia) Hgin) as (_ & Q). apply (i_pres _ _ _ I0). right. rewrite tl_length'. split; [lia|]. exists (tl g). split; [left; exists (n - 1)%nat; split; [lia|exact Q]|].
    symmetry. apply firstn_all2. rewrite tl_length'. lia. }
  assert (Hcount : (length pre < count n)%nat) by (rewrite count_sec by lia; rewrite Hsec, app_length; cbn; lia).
  assert (Hbuck : (count n + 1 <= buckets c count n)%nat) by (unfold buckets; lia).
  unfold insert_line. cbv zeta.
  eapply safe_bind.
  { apply insert_entry; [exact Lg|lia|exact HNB| |].
    - intros En Hb. apply HB. intros CL. destruct (i_size _ _ _ I0 CL) as (_ & S2). unfold dlen in S2. rewrite <- En, Nat.ltb_irrefl, Nat.eqb_refl in S2. lia.
    - intros Ln Hb. apply HB. intros CL. destruct (i_size _ _ _ I0 CL) as (S1 & _). specialize (S1 (n - 2)%nat ltac:(lia)). unfold dlen in S1. replace (n - 2 + 2)%nat with n in S1 by lia. rewrite Nat.ltb_irrefl, Nat.eqb_refl in S1. lia. }
  intros (t1, added) (e & V1 & E1 & E2 & E3 & _ & (U1 & LG1) & S1 & S1').
  assert (V1o : forall h, h <> g -> view t1 h = view t h) by (intros h N; rewrite V1; destruct (gdec h g); [contradiction|reflexivity]).
  assert (Npre : forall j, (j <= n - 1)%nat -> pre1 j <> g) by (intros j Hj E; apply (f_equal (@length word)) in E; rewrite Lpre in E; lia).
  assert (Nctx : forall j, (j <= n - 1)%nat -> ctx j <> g) by (intros j Hj E; apply (f_equal (@length word)) in E; rewrite Lctx in E; lia).
  eapply safe_bind.
  { apply (FindLower_ok c order count order2 g Bad (n - 2) t1); [lia|lia| |].
    - change (firstn 1 g) with (pre1 1%nat). rewrite V1o by (apply Npre; lia). exact P1.
    - intros i Hi Vi _. apply HB. intros CL. change (firstn (i + 2) g) with (pre1 (i + 2)%nat) in Vi. rewrite V1o in Vi by (apply Npre; lia). apply (Cpre CL ltac:(lia) (i + 2)%nat); [lia|exact Vi]. }
  intros (t2, between) (b & Hb & -> & Vb & Hbl & Hot & Hsame & Hlong2 & Huni2).
  replace (n - 2 + 1)%nat with (n - 1)%nat in * by lia.
  change (firstn b g) with (pre1 b) in Vb. rewrite V1o in Vb by (apply Npre; lia).
  assert (Hbl' : forall j, (b < j <= n - 1)%nat -> view t (pre1 j) = None /\ view t2 (pre1 j) = Some (blank c)).
  { intros j Hj. destruct (Hbl j Hj) as (Q1 & Q2). split; [|exact Q2]. change (firstn j g) with (pre1 j) in Q1. rewrite V1o in Q1 by (apply Npre; lia). exact Q1. }
  assert (Hge : view t2 g = Some (match view t g with Some w => w | None => e end)).
  { rewrite Hot; [|intros j Hj E; apply (Npre j); [lia|symmetry; exact E]]. rewrite V1. destruct (gdec g g); [reflexivity|congruence]. }
  assert (Hot' : forall h, h <> g -> (forall j, (b < j <= n - 1)%nat -> h <> pre1 j) -> view t2 h = view t h) by (intros h N1 N2; rewrite Hot by exact N2; apply V1o, N1).
  assert (Pb : forall j, (1 <= j <= b)%nat -> view t (pre1 j) <> None).
  { intros j Hj. pose proof (closed_prefix t (i_left _ _ _ I0) (pre1 b) j) as K. rewrite Lpre in K by lia. rewrite Fpre in K by lia. apply K; [lia|exact Vb]. }
  assert (P2 : forall j, (1 <= j <= n - 1)%nat -> view t2 (pre1 j) <> None).
  { intros j Hj. destruct (le_gt_dec j b) as [L|L].
    - rewrite Hot'; [apply Pb; lia|apply Npre; lia|]. intros i Hi E. apply (f_equal (@length word)) in E. rewrite !Lpre in E by lia. lia.
    - destruct (Hbl' j ltac:(lia)) as (_ & Q). rewrite Q. discriminate. }
  assert (Bt2 : forall h, (1 <= length h < n)%nat -> (length h = 1%nat -> view t h <> None) -> bval t2 h = bowF h).
  { intros h Lh H1. rewrite <- Bt by assumption. unfold bval.
    assert (Ng : h <> g) by (intros ->; lia).
    destruct (in_dec gdec h (map pre1 (seq (S b) (n - 1 - b)))) as [Hi|Hi].
    - apply in_map_iff in Hi. destruct Hi as (j & <- & Hj). apply in_seq in Hj. destruct (Hbl' j ltac:(lia)) as (Q1 & Q2). rewrite Q1, Q2. reflexivity.
    - rewrite Hot'; [reflexivity|exact Ng|]. intros j Hj ->. apply Hi, in_map, in_seq. lia. }
  rewrite AdjustLower_split by lia.
  eapply safe_bind.
  { eapply safe_bind; [apply (adjust_ok c order order2 g Bad b n t2); [lia|lia|lia|intros j Hj; apply P2; lia|]|].
    - change (firstn 1 (tl g)) with (ctx 1%nat). destruct (in_dec gdec (ctx 1%nat) (map pre1 (seq (S b) (n - 1 - b)))) as [Hi|Hi].
      + apply in_map_iff in Hi. destruct Hi as (j & Ej & Hj). apply in_seq in Hj. rewrite <- Ej. destruct (Hbl' j ltac:(lia)) as (_ & Q). rewrite Q. discriminate.
      + rewrite Hot'; [exact C1|apply Nctx; lia|]. intros j Hj E. apply Hi. rewrite E. apply in_map, in_seq. lia.
    - intros t3 (q & Q0 & Q1 & Z3 & K3 & W3 & M3).
      eapply safe_mono; [apply (mark_between_ok c order order2 Bad)|].
      + intros h Hh. unfold between_of in Hh. apply in_map_iff in Hh. destruct Hh as (j & <- & Hj). apply in_rev in Hj. apply in_seq in Hj. split; [|change (firstn j g) with (pre1 j); rewrite Lpre; lia].
        intros E. apply (kept_none _ _ _ _ _ K3) in E. apply (P2 j); [lia|exact E].
      + intros t4 (Z4 & K4 & M4).
        (* from the tables with the blanks to the tables after AdjustLower *)
        instantiate (1 := fun t4 => sizes t2 t4
          /\ (forall h, view t2 h = None <-> view t4 h = None)
          /\ (forall h w, view t2 h = Some w -> (forall j, (b < j <= n - 1)%nat -> h <> pre1 j) -> exists w', view t4 h = Some w' /\ later w w')
          /\ (forall j, (b < j <= n - 1)%nat -> exists w', view t4 (pre1 j) = Some w' /\ val (f_backoff w') = 0 /\ (POS -> - Z.of_N (mag (f_prob w')) = ak g j))
          /\ (forall j, (b <= j <= n - 1)%nat -> marked_left t4 (pre1 j))
          /\ (forall j, (b <= j < n - 1)%nat -> view t2 (ctx j) <> None -> marked_ctx t4 (ctx j))).
        split; [eapply sizes_trans; eassumption|]. split; [intros h; rewrite (kept_none _ _ _ _ h K3); apply (evolve_none _ _ _ h K4)|].
        split; [|split; [|split]].
        * intros h w V N. destruct (kept_some _ _ _ _ _ _ K3 V) as (w1 & W1 & _ & X1). destruct (evolve_some _ _ _ _ _ K4 W1) as (w2 & W2 & L2). exists w2. split; [exact W2|]. eapply later_trans; [|exact L2]. apply ext_later, X1. intros (j & Hj & ->). apply (N j Hj). reflexivity.
        * intros j Hj. destruct (W3 j Hj) as (w1 & W1 & F1 & _). destruct (evolve_some _ _ _ _ _ K4 W1) as (w2 & W2 & L2). exists w2. split; [exact W2|]. destruct L2 as (Lm & _ & (Lv & _)). split.
          -- rewrite Lv. destruct (Hbl' j Hj) as (_ & Vj). destruct (kept_some _ _ _ _ _ _ K3 Vj) as (w1' & W1' & (Bv & _) & _). change (firstn j g) with (pre1 j) in W1. rewrite W1 in W1'. injection W1' as <-. rewrite Bv. reflexivity.
          -- intros PO. assert (Hq : forall i, (b <= i <= n - 1)%nat -> val (q i) = ak g i).
             { intros i Hi. replace i with (b + (i - b))%nat by lia. assert (Hd : (i - b <= n - 1 - b)%nat) by lia. induction (i - b)%nat as [|d IHd]; [|].
               - rewrite Nat.add_0_r. destruct (view t (pre1 b)) as [wb|] eqn:Ewb; [|congruence]. assert (Vb2 : view t2 (pre1 b) = Some wb).
                 { rewrite Hot'; [exact Ewb|apply Npre; lia|]. intros i' Hi' E. apply (f_equal (@length word)) in E. rewrite !Lpre in E by lia. lia. }
                 rewrite (Q0 wb Vb2). destruct (i_val _ _ _ I0 _ _ Ewb) as (_ & A). rewrite (A PO), Lpre by lia. apply ak_firstn. lia.
               - rewrite Nat.add_succ_r. rewrite Q1 by lia. rewrite IHd by lia. change (firstn (b + d) (tl g)) with (ctx (b + d)%nat).
                 rewrite Bt2; [|rewrite Lctx; lia|].
                 + destruct (b + d)%nat as [|m] eqn:Em; [lia|]. cbn [ak]. replace (fentry (firstn (S (S m)) g)) with (@None (Z * Z)); [fold (ctx (S m)); change (firstn (S m) (tl g)) with (ctx (S m)); lia|]. symmetry. change (firstn (S (S m)) g) with (pre1 (S (S m))). apply Fnone; [rewrite Lpre; lia|]. apply (Hbl' (S (S m))). lia.
                 + intros El. rewrite Lctx in El by lia. rewrite El. exact C1. }
             rewrite Lm, F1, mag_val, Hq by lia. assert (ak g j <= 0) by (apply (PO n g); [lia|exact Hgin|lia]). lia.
        * intros j Hj. apply M4. unfold between_of. apply in_map_iff. exists j. split; [reflexivity|]. apply -> in_rev. apply in_seq. lia.
        * intros j Hj Vj. apply (evolve_ctx _ _ _ _ K4). apply M3; [lia|exact Vj]. }
  intros t4 (Z4 & N4 & O4 & B4 & M4 & X4).
  eapply safe_bind.
  { instantiate (1 := fun t5 => sizes t4 t5 /\ evolve t4 t5). destruct (kMarkEvenLower c); [|cbn; split; [apply sizes_refl|apply evolve_refl]].
    unfold between_of. rewrite <- map_rev, rev_involutive, map_length, rev_length, seq_length. replace (S (n - 1) - b)%nat with (S (n - 1 - b)) by lia. cbn [seq map].
    change (firstn b g) with (pre1 b). destruct (M4 b ltac:(lia)) as (w & Vw & _). rewrite (view_get order order2 t4 (pre1 b) w Vw) by (rewrite Lpre; lia). cbn [rbind].
    apply (MarkLower_ok c order order2 g Bad); [lia|lia|]. intros j Hj E. apply N4 in E. apply (P2 j); [lia|exact E]. }
  intros t5 (Z5 & K5).
  eapply safe_mono; [apply (activate_ok order order2 g Bad n t5 Lg); [lia| |]|].
  - intros -> E. apply (evolve_none _ _ _ _ K5) in E. apply N4 in E. replace (tl g) with (ctx 1%nat) in E by (unfold ctx; apply firstn_all2; rewrite tl_length'; lia).
    rewrite Hot' in E; [contradiction|apply Nctx; lia|lia].
  - intros E. apply HB. intros CL. destruct (Nat.eq_dec n 2) as [->|N2].
    + apply (evolve_none _ _ _ _ K5) in E. apply N4 in E. replace (tl g) with (ctx 1%nat) in E by (unfold ctx; apply firstn_all2; rewrite tl_length'; lia). rewrite Hot' in E; [contradiction|apply Nctx; lia|lia].
    + apply (evolve_none _ _ _ _ K5) in E. apply N4 in E. assert (Eb : b = (n - 1)%nat).
      { destruct (Nat.eq_dec b (n - 1)) as [|Nb]; [assumption|]. exfalso. destruct (Hbl' (n - 1)%nat ltac:(lia)) as (Q & _). apply (Cpre CL ltac:(lia) (n - 1)%nat); [lia|exact Q]. }
      rewrite Hot' in E; [apply (Ctl CL); [lia|exact E]|intros Eg; apply (f_equal (@length word)) in Eg; rewrite tl_length' in Eg; lia|lia].
  - intros t6 (Z6 & K6 & M6).
    assert (K46 : evolve t4 t6) by (eapply evolve_trans; eassumption).
    assert (N6 : forall h, view t2 h = None <-> view t6 h = None) by (intros h; rewrite (N4 h); apply (evolve_none _ _ _ h K46)).
    assert (Old : forall h w, view t h = Some w -> exists w', view t6 h = Some w' /\ later w w').
    { intros h w V. assert (V2 : view t2 h = Some w).
      { destruct (gdec h g) as [->|Ng]; [rewrite Hge, V; reflexivity|]. rewrite Hot'; [exact V|exact Ng|]. intros j Hj ->. destruct (Hbl' j Hj) as (Q & _). congruence. }
      destruct (O4 h w V2) as (w4 & W4 & L4); [intros j Hj ->; destruct (Hbl' j Hj) as (Q & _); congruence|].
      destruct (evolve_some _ _ _ _ _ K46 W4) as (w6 & W6 & L6). exists w6. split; [exact W6|eapply later_trans; eassumption]. }
    assert (Cases : forall h, view t6 h <> None -> (view t h <> None) \/ h = g \/ exists j, (b < j <= n - 1)%nat /\ h = pre1 j).
    { intros h V. destruct (gdec h g) as [->|Ng]; [auto|]. destruct (in_dec gdec h (map pre1 (seq (S b) (n - 1 - b)))) as [Hi|Hi].
      - apply in_map_iff in Hi. destruct Hi as (j & <- & Hj). apply in_seq in Hj. right. right. exists j. split; [lia|reflexivity].
      - left. intros E. apply V, N6. rewrite Hot'; [exact E|exact Ng|]. intros j Hj ->. apply Hi, in_map, in_seq. lia. }
    assert (P6 : forall j, (1 <= j <= n)%nat -> view t6 (pre1 j) <> None).
    { intros j Hj E. apply N6 in E. destruct (Nat.eq_dec j n) as [->|Nj]; [|apply (P2 j); [lia|exact E]]. unfold pre1 in E. rewrite firstn_all2 in E by lia. rewrite Hge in E. discriminate. }
    assert (Left6 : forall h x, h <> [] -> view t6 (h ++ [x]) <> None -> marked_left t6 h).
    { intros h x Nh V. destruct (Cases _ V) as [V0|[E|(j & Hj & E)]].
      - destruct (i_left _ _ _ I0 h x Nh V0) as (w & W & G). destruct (Old h w W) as (w' & W' & (_ & G' & _)). exists w'. auto.
      - apply (evolve_left _ _ _ _ K46). replace h with (pre1 (n - 1)%nat); [apply M4; lia|]. symmetry. apply (firstn_S_last g (n - 1) h x); [lia|]. rewrite firstn_all2 by lia. exact E.
      - apply (evolve_left _ _ _ _ K46). replace h with (pre1 (j - 1)%nat); [apply M4; lia|]. symmetry. apply (firstn_S_last g (j - 1) h x); [lia|]. replace (S (j - 1)) with j by lia. exact E. }
    constructor.
    + split; [apply (i_len _ _ _ I0)|]. intros d Hd. rewrite map_app in Hd. apply in_app_or in Hd. destruct Hd as [Hd|[<-|[]]]; [apply (i_len _ _ _ I0), Hd|exact Lg].
    + destruct Z4 as (_ & _ & Z4), Z5 as (_ & _ & Z5), Z6 as (_ & _ & Z6). rewrite Z6, Z5, Z4, Huni2, U1. apply (i_uni _ _ _ I0).
    + intros h. split.
      * intros V. destruct (Cases _ V) as [V0|[->|(j & Hj & ->)]].
        -- apply (i_pres _ _ _ I0) in V0. destruct V0 as [V0|(L0 & d & [D|D] & E)]; [left; exact V0|right; split; [exact L0|]; exists d; split; [left; exact D|exact E]|right; split; [exact L0|]; exists d; split; [|exact E]]. right. rewrite map_app. apply in_or_app. left. exact D.
        -- right. split; [lia|]. exists g. split; [right; rewrite map_app; apply in_or_app; right; left; reflexivity|rewrite firstn_all; reflexivity].
        -- right. rewrite Lpre by lia. split; [lia|]. exists g. split; [right; rewrite map_app; apply in_or_app; right; left; reflexivity|reflexivity].
      * intros H. assert (Hold : view t h <> None -> view t6 h <> None) by (intros V; destruct (view t h) as [w|] eqn:E; [|congruence]; destruct (Old h w E) as (w' & W' & _); rewrite W'; discriminate).
        destruct H as [H|(L0 & d & D & E)]; [apply Hold, (i_pres _ _ _ I0); left; exact H|].
        assert (D' : done n pre d \/ d = g) by (destruct D as [D|D]; [left; left; exact D|rewrite map_app in D; apply in_app_or in D; destruct D as [D|[D|[]]]; [left; right; exact D|right; symmetry; exact D]]).
        destruct D' as [D'| ->]; [apply Hold, (i_pres _ _ _ I0); right; split; [exact L0|]; exists d; split; assumption|].
        rewrite E. destruct (le_gt_dec (length h) n) as [L|L]; [apply (P6 (length h)); lia|]. exfalso. apply (f_equal (@length word)) in E. rewrite firstn_length in E. lia.
    + intros h q Hq. destruct Z4 as (_ & Z4 & _), Z5 as (_ & Z5 & _), Z6 as (_ & Z6 & _). rewrite Z6, Z5, Z4, Hlong2 in Hq. destruct (LG1 h q Hq) as [Hq'|Hq']; [apply (i_long _ _ _ I0 h q Hq')|exact Hq'].
    + exact Left6.
    + intros x h Nh V.
      assert (Vtl : view t6 (tl g) <> None) by (destruct M6 as (w & W & _); rewrite W; discriminate).
      destruct (Cases _ V) as [V0|[E|(j & Hj & E)]].
      * destruct (i_right _ _ _ I0 x h Nh V0) as (w & W & G). destruct (Old h w W) as (w' & W' & (_ & _ & _ & G')). exists w'. auto.
      * rewrite <- E in M6. exact M6.
      * assert (Eh : h = ctx (j - 1)%nat).
        { unfold pre1 in E. destruct (two_items g ltac:(lia)) as (a & b' & l & Eg). unfold ctx. rewrite Eg in *. destruct j as [|j]; [lia|]. replace (S j - 1)%nat with j by lia. cbn [firstn tl] in E |- *. injection E as _ E. exact E. }
        assert (Lj : (1 <= length h)%nat) by (destruct h; [congruence|cbn; lia]). rewrite Eh in Lj |- *. rewrite Lctx in Lj by lia.
        apply (evolve_ctx _ _ _ _ K46), X4; [lia|]. intros Ez. apply N6 in Ez. revert Ez. unfold ctx. apply (closed_prefix t6 Left6); [rewrite tl_length'; lia|exact Vtl].
    + intros h w6 W6. assert (V6 : view t6 h <> None) by (rewrite W6; discriminate).
      assert (Hold : forall w, view t h = Some w -> val (f_backoff w6) = bowF h /\ (POS -> - Z.of_N (mag (f_prob w6)) = ak h (length h))).
      { intros w V0. destruct (Old h w V0) as (w' & W' & (L1 & _ & L2 & _)). rewrite W6 in W'. injection W' as <-. destruct (i_val _ _ _ I0 _ _ V0) as (A1 & A2). rewrite L2, L1. split; assumption. }
      destruct (Cases _ V6) as [V0|[->|(j & Hj & ->)]].
      * destruct (view t h) as [w|] eqn:V0'; [|congruence]. apply (Hold w eq_refl).
      * destruct (view t g) as [w|] eqn:V0'; [apply (Hold w eq_refl)|]. specialize (Gnew eq_refl).
        destruct (O4 g e Hge) as (w4 & W4 & L4); [intros j Hj E; apply (Npre j); [lia|symmetry; exact E]|].
        destruct (evolve_some _ _ _ _ _ K46 W4) as (w6' & W6' & L6). rewrite W6 in W6'. injection W6' as <-. destruct (later_trans _ _ _ L4 L6) as (A1 & _ & A2 & _). rewrite A2, A1, E2, E1.
        destruct (two_items g ltac:(lia)) as (a & b' & l & Eg). split.
        -- unfold bowF. rewrite Eg. rewrite <- Eg. rewrite Gnew. destruct (Nat.eqb_spec n order) as [En|]; [|reflexivity]. specialize (E3 En). unfold ReadNoBackoff in E3. destruct back as [x|]; [|reflexivity]. apply Z.eqb_eq in E3. symmetry. exact E3.
        -- intros _. rewrite Lg. destruct n as [|[|m]]; [lia|lia|]. cbn [ak]. rewrite (firstn_all2 g) by lia. rewrite Gnew. cbn [SetSign mag]. rewrite mag_val. lia.
      * destruct (B4 j Hj) as (w4 & W4 & A1 & A2). destruct (evolve_some _ _ _ _ _ K46 W4) as (w6' & W6' & (L1 & _ & L2 & _)). rewrite W6 in W6'. injection W6' as <-. rewrite L2, L1, A1, Lpre by lia.
        assert (Fn : fentry (pre1 j) = None) by (apply Fnone; [rewrite Lpre; lia|apply (Hbl' j Hj)]). split.
        -- unfold bowF. destruct (pre1 j) as [|a [|b' l]] eqn:Ep; [reflexivity| |rewrite Fn; reflexivity]. exfalso. apply (f_equal (@length word)) in Ep. rewrite Lpre in Ep by lia. cbn in Ep. lia.
        -- intros PO. rewrite (A2 PO). symmetry. apply ak_firstn. lia.
    + intros CL. destruct (i_size _ _ _ I0 CL) as (I1 & I2).
      assert (Eb : b = (n - 1)%nat).
      { destruct (Nat.eq_dec b (n - 1)) as [|Nb]; [assumption|]. exfalso. destruct (Hbl' (n - 1)%nat ltac:(lia)) as (Q & _). apply (Cpre CL ltac:(lia) (n - 1)%nat); [lia|exact Q]. }
      rewrite (Hsame ltac:(lia)) in *. destruct Z4 as (Z4a & Z4b & _), Z5 as (Z5a & Z5b & _), Z6 as (Z6a & Z6b & _). split.
      * intros i Hi. rewrite Z6a, Z5a, Z4a, S1, (I1 i Hi). unfold dlen. rewrite app_length. cbn [length].
        destruct (Nat.ltb_spec n order), (Nat.ltb_spec (i + 2) n), (Nat.eqb_spec (i + 2) n), (Nat.eqb_spec i (n - 2)); cbn [andb]; lia.
      * rewrite Z6b, Z5b, Z4b, S1', I2. unfold dlen. rewrite app_length. cbn [length]. destruct (Nat.ltb_spec order n), (Nat.eqb_spec order n), (Nat.eqb_spec n order); lia.
Qed.
End Lines.
