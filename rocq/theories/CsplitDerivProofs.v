(** The compound splitter: derivations are splittings. *)
From Coq Require Import List ZArith Bool Lia.
From Verif Require Import Opt HG HGProofs Deriv TopoSpec PruneSpec Rule Parser Constrain ConstrainSpec BuiltProofs Csplit CsplitSpec CsplitProofs CsplitBuildProofs.
Import ListNotations.
Open Scope opt_scope.
Local Open Scope nat_scope.

Lemma app_pref : forall (A : Type) (a b c d : list A), a ++ b = c ++ d -> exists r, (c = a ++ r /\ b = r ++ d) \/ (a = c ++ r /\ d = r ++ b).
Proof.
  induction a as [|x a IH]; intros b [|y c] d E; cbn in E.
  - exists []. left. auto.
  - exists (y :: c). left. auto.
  - exists (x :: a). right. auto.
  - injection E as <- E. destruct (IH _ _ _ E) as (r & [(-> & ->)|(-> & ->)]); exists r; [left|right]; auto.
Qed.
Lemma concat_nil : forall l : list (list nat), Forall (fun c => c <> []) l -> concat l = [] -> l = [].
Proof. intros l F E. destruct F as [|c l N F]; [reflexivity|]. cbn in E. apply app_eq_nil in E as [-> _]. congruence. Qed.
Lemma seg_inj : forall (ps qs : list (list (list nat))), Forall (fun c => c <> []) (concat ps) -> concat ps = concat qs -> map (@concat nat) ps = map (@concat nat) qs -> ps = qs.
Proof.
  induction ps as [|p ps IH]; intros [|q qs] F C M; try discriminate; [reflexivity|]. cbn [map concat] in *. injection M as M1 M. apply Forall_app in F as [F1 F2].
  assert (p = q). { destruct (app_pref _ _ _ _ _ C) as (r & [(-> & E)|(-> & E)]).
    - rewrite concat_app in M1. assert (concat r = []) by (apply (app_inv_head (concat p)); rewrite <- M1; symmetry; apply app_nil_r). rewrite (concat_nil r); [rewrite app_nil_r; reflexivity| |assumption]. rewrite E in F2. apply Forall_app in F2. apply F2.
    - rewrite concat_app in M1. assert (concat r = []) by (apply (app_inv_head (concat q)); rewrite M1; symmetry; apply app_nil_r). apply Forall_app in F1. rewrite (concat_nil r); [rewrite app_nil_r; reflexivity|apply F1|assumption]. }
  subst q. apply app_inv_head in C. rewrite (IH qs F2 C M). reflexivity.
Qed.

Section D.
Variable conv : list nat -> Z.
Variables kXCAT kGOALCAT kHASH fugS fugN : Z.
Notation label := (elab (Z * Z)).
Hypothesis CI : forall a b, conv a = conv b -> a = b.
Hypothesis CP : forall a, (0 < conv a)%Z.
Hypothesis HP : (0 < kHASH)%Z.
Hypothesis XN : (kXCAT < 0)%Z.
Variable chars : list (list nat).
Hypothesis NE : chars <> [].
Hypothesis NC : Forall (fun c => c <> []) chars.
Notation n := (length chars).
Notation pos := (pos chars). Notation num := (num chars). Notation part := (part chars).
Notation D := (descrs fugS fugN chars).
Notation reads := (reads conv kHASH).
Variables (cs : list Z) (g : hg label).
Hypothesis B : built cs (all_edges conv kXCAT kHASH fugS fugN chars) g.
Hypothesis LC : length cs = S (S (S (n - 5))).

Inductive dpath : nat -> list descr -> tree -> Prop :=
| dp_nil : dpath 0 [] (Tree 0 [])
| dp_snoc i j v p t k : dpath i p t -> nth_error D k = Some (i, j, v) -> dpath j (p ++ [(i, j, v)]) (Tree (S k) [t]).
Lemma np : 1 <= n.
Proof. destruct chars; [congruence|cbn; lia]. Qed.
Lemma d_at : forall k i j v, nth_error D k = Some (i, j, v) -> pos i = true /\ pos j = true /\ i < j <= n /\ ((i + 3 <= j) \/ (i = 0 /\ j = n)) /\ (v = None \/ j <> n /\ exists a f, v = Some (a, f) /\ linking fugS fugN (concat (part i j)) a f).
Proof. intros k i j v K. apply nth_error_In in K. apply descrs_in in K as (P & Q & L & R); [|exact NE]. pose proof np. repeat split; try assumption; lia. Qed.
Lemma dpath_pos : forall j p t, dpath j p t -> pos j = true /\ j <= n /\ (j = 0 -> p = []).
Proof.
  intros j p t H. destruct H as [|i j v p t k H K]; [split; [reflexivity|split; [lia|reflexivity]]|]. apply d_at in K as (_ & P & L & _). split; [exact P|]. split; lia.
Qed.
Lemma dpath_derives : forall j p t, dpath j p t -> derives g (num j) t.
Proof.
  intros j p t H. induction H as [|i j v p t k H IH K].
  - apply (built_derives _ _ _ B). exists [], (kWORDBREAK_RULE kHASH). split; [|constructor]. apply all_edges_nth. left. auto.
  - apply (built_derives _ _ _ B). eexists. eexists. split; [|constructor; [exact IH|constructor]]. apply all_edges_nth. right; left. exists k, (i, j, v). split; [reflexivity|]. split; [exact K|]. reflexivity.
Qed.
Lemma derives_dpath : forall t j, pos j = true -> derives g (num j) t -> exists p, dpath j p t.
Proof.
  induction t as [e ss IH] using tree_ind'. intros j P H. apply (built_derives _ _ _ B) in H as (ts & l & E & F). apply all_edges_nth in E as [(-> & -> & -> & E)|[(k & ((i, j'), v) & -> & K & E)|(_ & _ & _ & E)]].
  - inversion F; subst. assert (j = 0). { apply (num_inj chars NE); [exact P|reflexivity|]. rewrite E. reflexivity. } subst j. exists []. constructor.
  - unfold edge_of in E. cbn [fst snd] in E. injection E as -> _ E. destruct (d_at _ _ _ _ K) as (PI & PJ & _). apply num_inj in E; [|exact NE|exact P|exact PJ]. subst j'. inversion F as [|? t ? ss' H F' E1 E2]; subst. inversion F'; subst. inversion IH as [|? ? IHt _]; subst. destruct (IHt i PI H) as (p & Q). exists (p ++ [(i, j, v)]). econstructor; eassumption.
  - pose proof (num_lt chars j P). lia.
Qed.
Lemma dpath_fun : forall j p t, dpath j p t -> forall t', dpath j p t' -> t = t'.
Proof.
  intros j p t H. induction H as [|i j v p t k H IH K]; intros t' H'.
  - inversion H' as [|? ? ? p' ? ? ? ? E]; subst; [reflexivity|]. destruct p'; discriminate.
  - inversion H' as [E1 E2 E3|i' j' v' p' t2 k' H2 K2 E1 E2 E3]; subst; [destruct p; discriminate|]. apply app_inj_tail in E2 as (-> & [= -> ->]). assert (k = k'). { apply (proj1 (NoDup_nth_error D) (descrs_nodup conv fugS fugN chars)); [apply nth_error_Some; congruence|congruence]. } subst k'. rewrite (IH t2 H2). reflexivity.
Qed.

(** ** paths and splittings *)
Definition the_piece (d : descr) : piece := (part (fst (fst d)) (snd (fst d)), snd d).
Lemma part_len : forall i j, i <= j <= n -> length (part i j) = j - i.
Proof. intros i j L. unfold part. rewrite firstn_length, skipn_length. lia. Qed.
Lemma part_app : forall i j, i <= j <= n -> firstn i chars ++ part i j = firstn j chars.
Proof. intros i j L. unfold part. rewrite <- (firstn_skipn i chars) at 3. rewrite firstn_app, firstn_length, firstn_firstn. replace (Nat.min j i) with i by lia. replace (j - Nat.min i n) with (j - i) by lia. reflexivity. Qed.
Lemma dpath_concat : forall j p t, dpath j p t -> concat (map fst (map the_piece p)) = firstn j chars.
Proof.
  intros j p t H. induction H as [|i j v p t k H IH K]; [reflexivity|]. rewrite !map_app, concat_app, IH. cbn [map concat the_piece fst snd]. rewrite app_nil_r. apply part_app. apply d_at in K. lia.
Qed.
Lemma dpath_in : forall j p t, dpath j p t -> forall d, In d p -> exists k, nth_error D k = Some d.
Proof. intros j p t H. induction H as [|i j v p t k H IH K]; intros d I; [destruct I|]. apply in_app_or in I as [I|[<- |[]]]; eauto. Qed.
Lemma dpath_ends : forall j p t, dpath j p t -> forall i v, In (i, n, v) p -> j = n.
Proof.
  intros j p t H. induction H as [|i j v p t k H IH K]; intros i0 v0 I; [destruct I|]. apply in_app_or in I as [I|[[= _ -> _]|[]]]; [|reflexivity]. apply IH in I. subst i. apply d_at in K. lia.
Qed.
Lemma dpath_splits : forall p t, dpath n p t -> splits fugS fugN chars (map the_piece p).
Proof.
  intros p t H. split; [rewrite (dpath_concat _ _ _ H); apply firstn_all|]. split; [|split].
  - intros q I. apply in_map_iff in I as (((i, j), v) & <- & I). destruct (dpath_in _ _ _ H _ I) as (k & K). destruct (d_at _ _ _ _ K) as (_ & _ & L & [L3|(-> & ->)] & _).
    + left. cbn [the_piece fst snd]. rewrite part_len; lia.
    + right. clear K k. inversion H as [E1 E2 E3|i' j' v' p' t2 k' H2 K2 E1 E2 E3]; subst; [destruct I|]. pose proof np. apply in_app_or in I as [I|[[= -> ->]|[]]].
      * exfalso. apply (dpath_ends _ _ _ H2) in I. subst i'. apply d_at in K2. lia.
      * rewrite (proj2 (proj2 (dpath_pos _ _ _ H2)) eq_refl). reflexivity.
  - intros qs q E. inversion H as [E1 E2 E3|i' j' v' p' t2 k' H2 K2 E1 E2 E3]; subst; [destruct qs; discriminate|]. rewrite map_app in E. apply app_inj_tail in E as (_ & <-). cbn [the_piece snd]. apply d_at in K2 as (_ & _ & _ & _ & [->|(Q & _)]); [reflexivity|congruence].
  - intros w a f I. apply in_map_iff in I as (((i, j), v) & E & I). unfold the_piece in E. cbn [fst snd] in E. injection E as <- ->. destruct (dpath_in _ _ _ H _ I) as (k & K). apply d_at in K as (_ & _ & _ & _ & [K|(_ & a' & f' & K & Q)]); [discriminate|]. injection K as <- <-. exact Q.
Qed.
Lemma splits_dpath : forall ps, splits fugS fugN chars ps -> exists p t, dpath n p t /\ map the_piece p = ps.
Proof.
  intros ps (C & L & LA & K). pose proof np as NP.
  assert (ONE : (exists q, ps = [q]) \/ forall q, In q ps -> 3 <= length (fst q)).
  { destruct ps as [|q [|r ps]]; [right; intros ? []|left; eauto|right]. intros x I. destruct (L x I) as [|E]; [assumption|discriminate]. }
  destruct ONE as [(q & ->)|L3].
  - destruct q as (w, v). assert (v = None) by exact (LA [] (w, v) eq_refl). subst v. cbn in C. rewrite app_nil_r in C. subst w.
    assert (I : In (0, n, None) D). { apply descrs_in; [exact NE|]. split; [reflexivity|]. split; [apply pos_iff; lia|]. split; [lia|]. left. reflexivity. }
    apply In_nth_error in I as (k & I). exists ([] ++ [(0, n, None)]), (Tree (S k) [Tree 0 []]). split; [econstructor; [constructor|exact I]|]. cbn [app map]. unfold the_piece, part. cbn [fst snd skipn]. rewrite Nat.sub_0_r, firstn_all. reflexivity.
  - assert (G : forall qs rest, ps = qs ++ rest -> pos (length (concat (map fst qs))) = true -> exists p t, dpath (length (concat (map fst qs))) p t /\ map the_piece p = qs).
    { induction qs as [|(w, v) qs IH] using rev_ind; intros rest E P; [exists [], (Tree 0 []); split; [constructor|reflexivity]|]. rewrite <- app_assoc in E. cbn [app] in E.
      assert (LW : 3 <= length w) by (apply (L3 (w, v)); rewrite E; apply in_or_app; right; left; reflexivity).
      rewrite map_app, concat_app, app_length in *. cbn [map concat fst] in *. rewrite app_nil_r in *. set (i := length (concat (map fst qs))) in *.
      assert (FJ : length (concat (map fst qs)) = i) by reflexivity. assert (CJ : concat (map fst qs) ++ w ++ concat (map fst rest) = chars). { rewrite <- C, E, map_app, concat_app. reflexivity. }
      assert (LN : i + length w + length (concat (map fst rest)) = n) by (rewrite <- CJ at 1; rewrite !app_length; unfold i; lia).
      assert (PI : pos i = true). { apply pos_iff. destruct qs as [|q0 qs0]; [left; reflexivity|]. right; left. assert (3 <= length (fst q0)) by (apply L3; rewrite E; left; reflexivity). assert (length (fst q0) <= i) by (unfold i; cbn [map concat]; rewrite app_length; lia). lia. }
      destruct (IH ((w, v) :: rest) E PI) as (p & t & H & M).
      assert (PW : part i (i + length w) = w). { unfold part. rewrite <- CJ, skipn_app. fold i. rewrite Nat.sub_diag, skipn_all2 by (unfold i; lia). cbn [app skipn]. replace (i + length w - i) with (length w) by lia. rewrite firstn_app, firstn_all, Nat.sub_diag. cbn. apply app_nil_r. }
      assert (I : In (i, i + length w, v) D). { apply descrs_in; [exact NE|]. split; [exact PI|]. split; [exact P|]. split; [lia|]. destruct v as [(a, f)|]; [right|left; reflexivity]. split.
        - destruct rest as [|q1 rest]; [exfalso; specialize (LA qs (w, Some (a, f))); cbn in LA; rewrite E in LA; specialize (LA eq_refl); discriminate|]. assert (3 <= length (fst q1)) by (apply L3; rewrite E; apply in_or_app; right; right; left; reflexivity). cbn [map concat] in LN. rewrite app_length in LN. lia.
        - exists a, f. split; [reflexivity|]. rewrite PW. apply (K w a f). rewrite E. apply in_or_app. right. left. reflexivity. }
      apply In_nth_error in I as (k & I). exists (p ++ [(i, i + length w, v)]), (Tree (S k) [t]). split; [econstructor; eassumption|]. rewrite map_app, M. cbn [map]. unfold the_piece. cbn [fst snd]. rewrite PW. reflexivity. }
    destruct (G ps [] (eq_sym (app_nil_r ps))) as (p & t & H & M); [rewrite C; apply pos_iff; lia|]. rewrite C in H. eauto.
Qed.
Lemma pieces_inj : forall p j t, dpath j p t -> forall p' t', dpath j p' t' -> map the_piece p = map the_piece p' -> p = p'.
Proof.
  intros p j t H. induction H as [|i j v p t k H IH K]; intros p' t' H' M; [destruct p'; [reflexivity|discriminate]|].
  inversion H' as [E1 E2 E3|i' j' v' p2 t2 k' H2 K2 E1 E2 E3]; subst; [rewrite map_app in M; destruct (map the_piece p); discriminate|]. rewrite !map_app in M. apply app_inj_tail in M as (M & E). unfold the_piece in E. cbn [fst snd] in E. injection E as E ->. apply d_at in K. apply d_at in K2.
  assert (i = i'). { assert (LL := f_equal (@length _) E). rewrite !part_len in LL by lia. lia. } subst i'. rewrite (IH p2 t2 H2 M). reflexivity.
Qed.

(** ** what is read *)
Lemma edge_at : forall e, nth_error (edges g) e = match nth_error (all_edges conv kXCAT kHASH fugS fugN chars) e with Some x => Some (the_edge e x) | None => None end.
Proof. exact (b_edges _ _ _ B). Qed.
Lemma edge0 : nth_error (edges g) 0 = Some (the_edge 0 ([], kWORDBREAK_RULE kHASH, 0)).
Proof. rewrite edge_at. reflexivity. Qed.
Lemma edge_d : forall k d, nth_error D k = Some d -> nth_error (edges g) (S k) = Some (the_edge (S k) (edge_of conv kXCAT chars (S k) d)).
Proof. intros k d K. rewrite edge_at. assert (E : nth_error (all_edges conv kXCAT kHASH fugS fugN chars) (S k) = Some (edge_of conv kXCAT chars (S k) d)) by (apply all_edges_nth; right; left; exists k, d; auto). rewrite E. reflexivity. Qed.
Lemma edge_g : nth_error (edges g) (S (length D)) = Some (the_edge (S (length D)) ([S (n - 5)], kGOAL_RULE kXCAT, S (S (n - 5)))).
Proof. rewrite edge_at. assert (E : nth_error (all_edges conv kXCAT kHASH fugS fugN chars) (S (length D)) = Some ([S (n - 5)], kGOAL_RULE kXCAT, S (S (n - 5)))) by (apply all_edges_nth; right; right; auto). rewrite E. reflexivity. Qed.
Lemma d_of : forall e ts ed dvs, nth_error (edges g) e = Some ed -> map_opt (deriv_of g) ts = Some dvs -> deriv_of g (Tree e ts) = Some (Node (r_e (rule_ (lab ed))) (r_f (rule_ (lab ed))) dvs).
Proof. intros e ts ed dvs E M. cbn [deriv_of]. rewrite E. cbn [bind]. rewrite M. reflexivity. Qed.
Lemma neg_pos : forall w, (0 < w)%Z -> (w <? 1)%Z = false.
Proof. intros w W. apply Z.ltb_ge. lia. Qed.
Lemma neg_neg : (kXCAT <? 1)%Z = true.
Proof. apply Z.ltb_lt. lia. Qed.
Lemma dpath_reads : forall j p t, dpath j p t -> exists d, deriv_of g t = Some d /\
  fsentence d = Some (kHASH :: map (as_is conv) (map the_piece p)) /\ esentence d = Some (kHASH :: map (stem conv) (map the_piece p)) /\ features g t = flat_map feature (map the_piece p).
Proof.
  intros j p t H. induction H as [|i j v p t k H (d & DT & F & E & X) K].
  - eexists. split; [exact (d_of 0 [] _ [] edge0 eq_refl)|]. cbn [the_edge lab kWORDBREAK_RULE an_edge rule_ r_e r_f]. cbn [fsentence esentence map_opt bind]. unfold FSubstitute, ESubstitute. cbn [fsub_loop esub_loop]. rewrite (neg_pos _ HP). split; [reflexivity|]. split; [reflexivity|]. unfold features. cbn [tree_edges flat_map app]. rewrite edge0. reflexivity.
  - assert (M : map_opt (deriv_of g) [t] = Some [d]) by (cbn [map_opt]; rewrite DT; reflexivity). exists (Node (r_e (rule_ (lab_of conv kXCAT chars (S k) (i, j, v)))) (r_f (rule_ (lab_of conv kXCAT chars (S k) (i, j, v)))) [d]).
    split; [exact (d_of (S k) [t] _ [d] (edge_d k _ K) M)|].
    assert (RF : r_f (rule_ (lab_of conv kXCAT chars (S k) (i, j, v))) = [kXCAT; as_is conv (the_piece (i, j, v))]) by (destruct v as [(a, f)|]; reflexivity).
    assert (RE : r_e (rule_ (lab_of conv kXCAT chars (S k) (i, j, v))) = [0%Z; stem conv (the_piece (i, j, v))]) by (destruct v as [(a, f)|]; reflexivity).
    rewrite RF, RE. split; [|split].
    + cbn [fsentence map_opt]. rewrite F. cbn [bind]. unfold FSubstitute. cbn [fsub_loop]. rewrite neg_neg. cbn [nth_error bind fsub_loop]. rewrite (neg_pos (as_is conv (the_piece (i, j, v))) (CP _)). cbn [bind app length Nat.eqb]. rewrite !map_app. reflexivity.
    + cbn [esentence map_opt]. rewrite E. cbn [bind]. unfold ESubstitute. cbn [esub_loop]. replace (0 <? 1)%Z with true by reflexivity. replace (Z.to_nat (- 0)) with 0 by reflexivity. cbn [nth_error bind esub_loop]. rewrite (neg_pos (stem conv (the_piece (i, j, v)))) by (unfold stem; destruct (snd (the_piece (i, j, v))) as [(a, f)|]; apply CP). cbn [bind app length Nat.eqb]. rewrite !map_app. reflexivity.
    + unfold features in *. cbn [tree_edges flat_map]. rewrite app_nil_r, flat_map_app, X, map_app, flat_map_app. f_equal. cbn [flat_map map]. rewrite (edge_d k _ K). f_equal. destruct v as [(a, f)|]; reflexivity.
Qed.
Definition top (t : tree) : tree := Tree (S (length D)) [t].
Lemma top_reads : forall p t, dpath n p t -> reads g (top t) (map the_piece p).
Proof.
  intros p t H. destruct (dpath_reads _ _ _ H) as (d & DT & F & E & X).
  assert (M : map_opt (deriv_of g) [t] = Some [d]) by (cbn [map_opt]; rewrite DT; reflexivity).
  pose proof (d_of (S (length D)) [t] _ [d] edge_g M) as DD. cbn [the_edge lab kGOAL_RULE an_edge rule_ r_e r_f] in DD.
  unfold reads, top. unfold source, translation. rewrite DD. cbn [bind fsentence esentence map_opt]. rewrite F, E. cbn [bind]. unfold FSubstitute, ESubstitute. cbn [fsub_loop esub_loop]. rewrite neg_neg. replace (0 <? 1)%Z with true by reflexivity. replace (Z.to_nat (- 0)) with 0 by reflexivity. cbn [nth_error bind app length Nat.eqb].
  split; [reflexivity|]. split; [reflexivity|]. unfold features in *. cbn [tree_edges flat_map]. rewrite app_nil_r, flat_map_app, X. cbn [flat_map]. rewrite edge_g. cbn. apply app_nil_r.
Qed.
Lemma goal_num : goal g = S (S (n - 5)).
Proof. unfold goal. destruct (built_len _ _ _ B) as [-> _]. rewrite LC. lia. Qed.
Lemma num_n : num n = S (n - 5).
Proof. pose proof np. unfold num. destruct (Nat.eqb_spec n 0); [lia|]. rewrite Nat.eqb_refl. reflexivity. Qed.
Lemma pos_n : pos n = true.
Proof. apply pos_iff. auto. Qed.
Lemma goal_derives : forall t, derives g (goal g) t <-> exists p s, t = top s /\ dpath n p s.
Proof.
  intros t. rewrite goal_num. split.
  - intros H. destruct t as [e ss]. apply (built_derives _ _ _ B) in H as (ts & l & E & F). apply all_edges_nth in E as [(_ & _ & _ & E)|[(k & ((i, j'), v) & -> & K & E)|(-> & -> & _ & _)]]; [discriminate| |].
    + unfold edge_of in E. cbn [fst snd] in E. injection E as _ _ E. apply d_at in K as (_ & PJ & _). pose proof (num_lt chars _ PJ). lia.
    + inversion F as [|? s ? ss' H F' E1 E2]; subst. inversion F'; subst. rewrite <- num_n in H. apply derives_dpath in H as (p & H); [|exact pos_n]. exists p, s. auto.
  - intros (p & s & -> & H). apply dpath_derives in H. rewrite num_n in H. apply (built_derives _ _ _ B). exists [S (n - 5)], (kGOAL_RULE kXCAT). split; [apply all_edges_nth; right; right; auto|]. constructor; [exact H|constructor].
Qed.
Lemma splits_words : forall ps qs, splits fugS fugN chars ps -> splits fugS fugN chars qs -> map (as_is conv) ps = map (as_is conv) qs -> map (stem conv) ps = map (stem conv) qs -> ps = qs.
Proof.
  intros ps qs (C & _ & _ & K) (C' & _ & _ & K') S T.
  assert (F : map fst ps = map fst qs). { apply seg_inj; [rewrite C; exact NC|congruence|]. clear - S CI. revert qs S. induction ps as [|p ps IH]; intros [|q qs] S; try discriminate; [reflexivity|]. cbn [map] in *. injection S as S1 S. rewrite (IH qs S). f_equal. apply CI. exact S1. }
  clear - F T K K' CI. revert qs F T K'. induction ps as [|(w, v) ps IH]; intros [|(w', v') qs] F T K'; try discriminate; [reflexivity|]. cbn [map fst] in *. injection F as <- F. injection T as T1 T.
  rewrite (IH (fun c a f I => K c a f (or_intror I)) qs F T (fun c a f I => K' c a f (or_intror I))). f_equal. f_equal. unfold stem in T1. cbn [snd fst] in T1.
  destruct v as [(a, f)|], v' as [(a', f')|]; [| | |reflexivity].
  - assert (A := K w a f (or_introl eq_refl)). assert (A' := K' w a' f' (or_introl eq_refl)). destruct (fugen_ok fugS fugN (concat w)) as (o & _ & O). apply O in A. apply O in A'. congruence.
  - assert (A := K w a f (or_introl eq_refl)). apply linking_short in A. apply CI in T1. subst a. lia.
  - assert (A := K' w a' f' (or_introl eq_refl)). apply linking_short in A. apply CI in T1. subst a'. lia.
Qed.
Theorem derivs_ok :
  (forall t, derives g (goal g) t -> exists ps, splits fugS fugN chars ps /\ reads g t ps) /\
  (forall ps, splits fugS fugN chars ps -> exists t, derives g (goal g) t /\ reads g t ps /\ forall t', derives g (goal g) t' -> reads g t' ps -> t' = t).
Proof.
  split.
  - intros t H. apply goal_derives in H as (p & s & -> & H). exists (map the_piece p). split; [exact (dpath_splits _ _ H)|exact (top_reads _ _ H)].
  - intros ps S. destruct (splits_dpath ps S) as (p & t & H & <-). exists (top t). split; [apply goal_derives; eauto|]. split; [exact (top_reads _ _ H)|].
    intros t' H' (R1 & R2 & _). apply goal_derives in H' as (p' & s' & -> & H'). destruct (top_reads _ _ H') as (Q1 & Q2 & _). rewrite R1 in Q1. rewrite R2 in Q2. injection Q1 as Q1. injection Q2 as Q2.
    assert (M : map the_piece p = map the_piece p') by (apply splits_words; [exact S|exact (dpath_splits _ _ H')|exact Q1|exact Q2]). assert (p = p') by exact (pieces_inj _ _ _ H _ _ H' M). subst p'. rewrite (dpath_fun _ _ _ H _ H'). reflexivity.
Qed.

(** ** the edge of the whole word *)
Lemma outs_in : forall (es : list (list nat * label * nat)) k m e, In e (outs k m es) <-> k <= e /\ exists ts l h, nth_error es (e - k) = Some (ts, l, h) /\ In m ts.
Proof.
  induction es as [|((ts, l), h) es IH]; intros k m e; cbn [outs].
  - split; [intros []|]. intros (_ & ts & l & h & H & _). destruct (e - k); discriminate.
  - rewrite in_app_iff, IH. split.
    + intros [H|(L & ts' & l' & h' & H & I)].
      * assert (E := repeat_spec _ _ _ H). subst e. split; [lia|]. rewrite Nat.sub_diag. cbn. exists ts, l, h. split; [reflexivity|]. apply (count_occ_In Nat.eq_dec). destruct (count_occ Nat.eq_dec ts m); [destruct H|lia].
      * split; [lia|]. exists ts', l', h'. replace (e - k) with (S (e - S k)) by lia. auto.
    + intros (L & ts' & l' & h' & H & I). destruct (Nat.eq_dec e k) as [->|NK].
      * rewrite Nat.sub_diag in H. cbn in H. injection H as <- <- <-. left. apply (count_occ_In Nat.eq_dec) in I. destruct (count_occ Nat.eq_dec ts m); [lia|left; reflexivity].
      * right. split; [lia|]. exists ts', l', h'. replace (e - k) with (S (e - S k)) in H by lia. auto.
Qed.
Lemma longest_ok : forall es me mj, (forall e, In e es -> exists ed, nth_error (edges g) e = Some ed) ->
  exists r, longest g es me mj = Some r /\ ((r = me /\ forall e ed, In e es -> nth_error (edges g) e = Some ed -> (j_ (lab ed) <= mj)%Z) \/
    exists e ed, r = Some e /\ In e es /\ nth_error (edges g) e = Some ed /\ (mj < j_ (lab ed))%Z /\ forall e' ed', In e' es -> nth_error (edges g) e' = Some ed' -> (j_ (lab ed') <= j_ (lab ed))%Z).
Proof.
  induction es as [|e es IH]; intros me mj A; cbn [longest].
  - exists me. split; [reflexivity|]. left. split; [reflexivity|]. intros e ed [].
  - destruct (A e (or_introl eq_refl)) as (ed & E). rewrite E. cbn [bind]. assert (A' : forall x, In x es -> exists ed, nth_error (edges g) x = Some ed) by (intros x I; exact (A x (or_intror I))). destruct (Z.ltb_spec mj (j_ (lab ed))) as [L|L].
    + destruct (IH (Some e) (j_ (lab ed)) A') as (r & R & [(-> & M)|(e2 & ed2 & -> & I2 & E2 & L2 & M)]); rewrite R; eexists; (split; [reflexivity|]); right.
      * exists e, ed. split; [reflexivity|]. split; [left; reflexivity|]. split; [exact E|]. split; [exact L|]. intros x xd [<- |I] X; [assert (xd = ed) by congruence; subst; lia|exact (M x xd I X)].
      * exists e2, ed2. split; [reflexivity|]. split; [right; exact I2|]. split; [exact E2|]. split; [lia|]. intros x xd [<- |I] X; [assert (xd = ed) by congruence; subst; lia|exact (M x xd I X)].
    + destruct (IH me mj A') as (r & R & [(-> & M)|(e2 & ed2 & -> & I2 & E2 & L2 & M)]); rewrite R; eexists; (split; [reflexivity|]); [left|right].
      * split; [reflexivity|]. intros x xd [<- |I] X; [assert (xd = ed) by congruence; subst; lia|exact (M x xd I X)].
      * exists e2, ed2. split; [reflexivity|]. split; [right; exact I2|]. split; [exact E2|]. split; [lia|]. intros x xd [<- |I] X; [assert (xd = ed) by congruence; subst; lia|exact (M x xd I X)].
Qed.
Lemma dpath_edge : forall j p t, dpath j p t -> forall k d, nth_error D k = Some d -> In (S k) (tree_edges t) -> In d p.
Proof.
  intros j p t H. induction H as [|i j v p t m H IH K]; intros k d I J; [destruct J as [J|[]]; discriminate|]. cbn [tree_edges flat_map] in J. rewrite app_nil_r in J. apply in_or_app. apply in_app_or in J as [J|[J|[]]]; [left; exact (IH k d I J)|right; left; congruence].
Qed.
Theorem full_word_ok : exists e, GetFullWordEdgeIndex g = Some e /\ forall t, derives g (goal g) t -> (In e (tree_edges t) <-> reads g t [(chars, None)]).
Proof.
  pose proof np as NP. assert (I : In (0, n, None) D). { apply descrs_in; [exact NE|]. split; [reflexivity|]. split; [apply pos_iff; lia|]. split; [lia|]. left. reflexivity. }
  apply In_nth_error in I as (k & I).
  assert (N0 : exists nd, nth_error (nodes g) 0 = Some nd /\ out_edges nd = outs 0 0 (all_edges conv kXCAT kHASH fugS fugN chars)). { rewrite (b_nodes _ _ _ B). destruct cs as [|c cs']; [cbn in LC; lia|]. cbn. eauto. }
  destruct N0 as (nd & N0 & O). unfold GetFullWordEdgeIndex. rewrite N0. cbn [bind]. rewrite O.
  assert (OUT : forall e, In e (outs 0 0 (all_edges conv kXCAT kHASH fugS fugN chars)) <-> exists m j v, e = S m /\ nth_error D m = Some (0, j, v)).
  { intros e. rewrite outs_in, Nat.sub_0_r. split.
    - intros (_ & ts & l & h & E & M). apply all_edges_nth in E as [(_ & -> & _ & _)|[(m & ((i, j), v) & -> & K & E)|(_ & -> & _ & _)]]; [destruct M| |].
      + unfold edge_of in E. cbn [fst snd] in E. injection E as -> _ _. destruct M as [M|[]]. exists m, j, v. split; [reflexivity|]. destruct (d_at _ _ _ _ K) as (PI & _). assert (i = 0) by (apply (num_inj chars NE); [exact PI|reflexivity|rewrite M; reflexivity]). subst i. exact K.
      + destruct M as [M|[]]. discriminate.
    - intros (m & j & v & -> & K). split; [lia|]. eexists. eexists. eexists. split; [apply all_edges_nth; right; left; exists m, (0, j, v); split; [reflexivity|]; split; [exact K|reflexivity]|]. left. reflexivity. }
  assert (JD : forall m i j v, nth_error D m = Some (i, j, v) -> exists ed, nth_error (edges g) (S m) = Some ed /\ j_ (lab ed) = Z.of_nat j). { intros m i j v K. eexists. split; [exact (edge_d m _ K)|]. destruct v as [(a, f)|]; reflexivity. }
  destruct (longest_ok (outs 0 0 (all_edges conv kXCAT kHASH fugS fugN chars)) None (-1)%Z) as (r & R & Q). { intros e J. apply OUT in J as (m & j & v & -> & K). destruct (JD _ _ _ _ K) as (ed & E & _). eauto. }
  rewrite R. cbn [bind]. assert (KO : In (S k) (outs 0 0 (all_edges conv kXCAT kHASH fugS fugN chars))) by (apply OUT; eauto 6). destruct (JD _ _ _ _ I) as (edk & EK & JK).
  assert (r = Some (S k)). { destruct Q as [(-> & M)|(e & ed & -> & IE & EE & _ & M)]; [specialize (M _ _ KO EK); rewrite JK in M; lia|]. apply OUT in IE as (m & j & v & -> & K). specialize (M _ _ KO EK). destruct (JD _ _ _ _ K) as (ed' & E' & J'). assert (ed' = ed) by congruence. subst ed'. rewrite J', JK in M. destruct (d_at _ _ _ _ K) as (_ & _ & L & _ & V). assert (j = n) by lia. subst j. destruct V as [->|(V & _)]; [|congruence].
    assert (k = m). { apply (proj1 (NoDup_nth_error D) (descrs_nodup conv fugS fugN chars)); [apply nth_error_Some; congruence|congruence]. } subst m. reflexivity. }
  subst r. exists (S k). split; [reflexivity|].
  assert (DW : dpath n [(0, n, None)] (Tree (S k) [Tree 0 []])) by exact (dp_snoc 0 n None [] _ k dp_nil I).
  assert (PW : map the_piece [(0, n, None)] = [(chars, None)]) by (cbn [map]; unfold the_piece, part; cbn [fst snd skipn]; rewrite Nat.sub_0_r, firstn_all; reflexivity).
  intros t H. apply goal_derives in H as (p & s & -> & H). split.
  - intros J. assert (JS : In (0, n, None) p). { unfold top in J. cbn [tree_edges flat_map] in J. rewrite app_nil_r in J. apply in_app_or in J as [J|[J|[]]]; [|injection J as J; assert (k < length D) by (apply nth_error_Some; congruence); lia].
      exact (dpath_edge _ _ _ H _ _ I J). }
    assert (p = [(0, n, None)]). { inversion H as [E1 E2 E3|i' j' v' p' t2 k' H2 K2 E1 E2 E3]; subst; [destruct JS|]. apply in_app_or in JS as [JS|[[= -> ->]|[]]]; [exfalso; apply (dpath_ends _ _ _ H2) in JS; subst i'; apply d_at in K2; lia|]. rewrite (proj2 (proj2 (dpath_pos _ _ _ H2)) eq_refl). reflexivity. }
    subst p. rewrite <- PW. exact (top_reads _ _ H).
  - intros (R1 & R2 & _). destruct (top_reads _ _ H) as (Q1 & Q2 & _). rewrite R1 in Q1. rewrite R2 in Q2. injection Q1 as Q1. injection Q2 as Q2.
    assert (M : map the_piece [(0, n, None)] = map the_piece p) by (apply splits_words; [exact (dpath_splits _ _ DW)|exact (dpath_splits _ _ H)|rewrite PW; exact Q1|rewrite PW; exact Q2]).
    assert (E := pieces_inj _ _ _ DW _ _ H M). subst p. rewrite <- (dpath_fun _ _ _ DW _ H). unfold top. cbn. auto.
Qed.
End D.
