(** Proofs for Cfg.v. *)
From Coq Require Import String Ascii List ZArith Bool Lia.
From Verif Require Import Opt OptProofs RuleFf RuleFfSpec RuleFfProofs Cfg CfgSpec.
Import ListNotations.
Open Scope opt_scope.
Local Open Scope Z_scope.

(** ** labels *)
Lemma nth_cats nodes v : (v < length nodes)%nat -> nth_error (cats nodes) v = Some (label nodes v).
Proof.
  intros H. unfold cats, label. assert (E : nth_error (combine nodes (seq 0 (length nodes))) v = Some (nth v nodes None, v)).
  { rewrite nth_error_nth' with (d := (None, 0%nat)) by (rewrite combine_length, seq_length; lia). rewrite combine_nth by now rewrite seq_length. rewrite seq_nth by exact H. reflexivity. }
  apply (map_nth_error (fun ci => cat_text (fst ci) (snd ci))) in E. exact E.
Qed.
(** the text after the last mark *)
Lemma suffix_inj : forall a b x y, ~ has "_" x -> ~ has "_" y -> (a ++ "_" ++ x = b ++ "_" ++ y)%string -> a = b /\ x = y.
Proof.
  assert (G : forall a b x y : string, ~ has "_" x -> ~ has "_" y -> (a ++ String "_" x)%string = (b ++ String "_" y)%string -> a = b /\ x = y).
  { induction a as [|c a IH]; intros [|d b] x y X Y E; cbn [append] in E.
    - injection E as ->. auto.
    - injection E as <- E. exfalso. apply X. rewrite E. apply has_app. right. now left.
    - injection E as -> E. exfalso. apply Y. rewrite <- E. apply has_app. right. now left.
    - injection E as -> E. destruct (IH b x y X Y E) as [-> ->]. auto. }
  intros a b x y. exact (G a b x y).
Qed.
Lemma label_inj nodes v w : label nodes v = label nodes w -> v = w.
Proof.
  unfold label, cat_text. intros E. apply suffix_inj in E; [|apply show_clear|apply show_clear]. now apply show_inj.
Qed.

(** ** the written rule *)
Fixpoint fill (shape : list (option Z)) (ks : list Z) : list Z :=
  match shape, ks with
  | [], _ => []
  | Some w :: r, _ => w :: fill r ks
  | None :: r, k :: ks' => k :: fill r ks'
  | None :: r, [] => []
  end.
Definition gaps (shape : list (option Z)) : nat := length (filter (fun o => match o with None => true | Some _ => false end) shape).
Definition ok_shape (shape : list (option Z)) : Prop := Forall (fun o => match o with Some w => 0 < w | None => True end) shape.
Lemma fill_numbered : forall shape ks parts us, ok_shape shape -> gaps shape = length ks -> Forall (fun k => k <= 0) ks ->
  Forall2 (fun k p => nth_error us (Z.to_nat (- k)) = Some p) ks parts -> numbered (fill shape ks) us = in_order shape parts.
Proof.
  induction shape as [|o shape IH]; intros ks parts us O G N F; unfold gaps in G.
  - destruct ks; [|discriminate G]. inversion F. reflexivity.
  - inversion O as [|? ? O1 O2]; subst. destruct o as [w|]; cbn [filter] in G; cbn [fill in_order numbered].
    + rewrite (proj2 (Z.ltb_lt 0 w) O1). rewrite (IH ks parts us O2 G N F). destruct (in_order shape parts); reflexivity.
    + destruct ks as [|k ks]; [discriminate G|]. injection G as G. inversion N as [|? ? N1 N2]; subst. inversion F as [|? p ? ps F1 F2]; subst. cbn [fill numbered].
      rewrite (proj2 (Z.ltb_ge 0 k) N1), F1, (IH ks ps us O2 G N2 F2). destruct (in_order shape ps); reflexivity.
Qed.
Lemma word_or_gap_ok l : ok_shape (map word_or_gap l).
Proof. apply Forall_map, Forall_forall. intros z _. unfold word_or_gap. destruct (Z.ltb_spec 0 z); auto. Qed.
Lemma gaps_word l : gaps (map word_or_gap l) = length (filter (fun z => negb (0 <? z)) l).
Proof. unfold gaps. induction l as [|z l IH]; [reflexivity|]. cbn [map filter]. unfold word_or_gap at 1. destruct (0 <? z); cbn [negb length]; rewrite IH; reflexivity. Qed.
Definition minus (k : nat) : Z := - Z.of_nat k.
Lemma minus_vars l : exists ks, ks = filter (fun z => negb (0 <? z)) l /\ Forall (fun k => k <= 0) ks /\ map (fun k => Z.to_nat (- k)) ks = vars l /\ fill (map word_or_gap l) ks = l.
Proof.
  eexists. split; [reflexivity|]. induction l as [|z l (A & B & C)]; [repeat split; constructor|]. cbn [filter map vars flat_map]. unfold word_or_gap at 1. destruct (Z.ltb_spec 0 z) as [P|P]; cbn [negb fill map app].
  - repeat split; [exact A|exact B|now rewrite C].
  - repeat split; [constructor; [lia|exact A]| |now rewrite C]. f_equal. exact B.
Qed.
Lemma tgt_loop_ok cs tl : forall t n, length (vars t) = n -> (forall k, In k (vars t) -> exists v c, nth_error tl k = Some v /\ nth_error cs v = Some c) ->
  exists f, tgt_loop cs tl n t = Some (f, filter (fun z => negb (0 <? z)) t) /\ map gap f = map word_or_gap t
    /\ Forall2 (fun k c => exists v, nth_error tl k = Some v /\ nth_error cs v = Some c) (vars t) (nts f).
Proof.
  induction t as [|z t IH]; intros n L H; cbn [tgt_loop].
  - exists []. repeat split; constructor.
  - unfold vars in L, H |- *. cbn [flat_map filter map] in *. unfold word_or_gap at 1. destruct (Z.ltb_spec 0 z) as [P|P]; cbn [negb app] in *.
    + destruct (IH n L H) as (f & -> & A & B). cbn [bind]. exists (Word z :: f). split; [reflexivity|]. split; [cbn; now rewrite A|exact B].
    + destruct n as [|n]; [discriminate L|]. injection L as L. destruct (H _ (or_introl eq_refl)) as (v & c & E1 & E2). rewrite E1. cbn [bind]. rewrite E2. cbn [bind].
      destruct (IH n L (fun k I => H k (or_intror I))) as (f & -> & A & B). cbn [bind]. exists (Nt c :: f). split; [reflexivity|]. split; [cbn; now rewrite A|].
      cbn [nts flat_map app]. constructor; [eauto|exact B].
Qed.
Lemma src_loop_ok : forall s tn, length (filter (fun z => negb (0 <? z)) s) = length tn -> src_loop s tn = Some (fill (map word_or_gap s) tn).
Proof.
  induction s as [|z s IH]; intros tn L; cbn [src_loop]; [reflexivity|]. cbn [filter map] in *. unfold word_or_gap at 1. destruct (0 <? z); cbn [negb fill] in *.
  - rewrite IH by exact L. reflexivity.
  - destruct tn as [|k tn]; [discriminate L|]. injection L as L. rewrite IH by exact L. reflexivity.
Qed.

Section Main.
Context {X : Type}.
Variables (nodes : list (option string)) (es : list (edge X)).
Hypothesis Hgood : Forall (good_edge (length nodes)) es.
(** what is written for an edge *)
Definition written (ed : edge X) (r : grule X) : Prop :=
  lhs r = label nodes (head ed) /\ scores r = feats ed /\ map gap (gf r) = map word_or_gap (tgt ed)
  /\ Forall2 (fun k c => exists v, nth_error (tails ed) k = Some v /\ c = label nodes v) (vars (tgt ed)) (nts (gf r))
  /\ ge r = fill (map word_or_gap (src ed)) (filter (fun z => negb (0 <? z)) (tgt ed)).
Lemma Forall2_imp {A B} (P Q : A -> B -> Prop) l m : (forall a b, P a b -> Q a b) -> Forall2 P l m -> Forall2 Q l m.
Proof. induction 2; constructor; auto. Qed.
Lemma vars_filter (l : list Z) : length (vars l) = length (filter (fun z => negb (0 <? z)) l).
Proof. destruct (minus_vars l) as (ks & -> & _ & E & _). rewrite <- E. now rewrite map_length. Qed.
Lemma vars_bound (ed : edge X) k : good_edge (length nodes) ed -> In k (vars (tgt ed)) -> (k < length (tails ed))%nat.
Proof.
  intros (_ & _ & _ & L & I) H. apply In_nth_error in H. destruct H as (m & H). apply I in H. rewrite <- L. apply nth_error_Some. congruence.
Qed.
Lemma write_edge_ok (ed : edge X) : good_edge (length nodes) ed -> exists r, write_edge (cats nodes) ed = Some r /\ written ed r.
Proof.
  intros G. pose proof G as (G1 & G2 & G3 & G4 & G5). unfold write_edge. rewrite (nth_cats nodes (head ed) G1). cbn [bind].
  destruct (tgt_loop_ok (cats nodes) (tails ed) (tgt ed) (length (tails ed)) G4) as (f & -> & A & B).
  { intros k I. pose proof (vars_bound ed k G I) as L. destruct (nth_error (tails ed) k) as [v|] eqn:E; [|apply nth_error_None in E; lia]. exists v, (label nodes v). split; [reflexivity|].
    apply nth_cats. rewrite Forall_forall in G2. apply G2. eapply nth_error_In; eauto. }
  cbn [bind]. assert (LT : length (filter (fun z => negb (0 <? z)) (tgt ed)) = length (tails ed)) by (rewrite <- G4; symmetry; apply vars_filter).
  rewrite LT, Nat.sub_diag. cbn [repeat]. rewrite app_nil_r. rewrite src_loop_ok by congruence. cbn [bind]. eexists. split; [reflexivity|].
  repeat split; cbn [gf ge lhs scores]; auto. eapply Forall2_imp; [|exact B]. intros k c (v & E1 & E2). exists v. split; [exact E1|].
  assert (Lv : (v < length nodes)%nat) by (rewrite Forall_forall in G2; apply G2; eapply nth_error_In; eauto). rewrite (nth_cats nodes v Lv) in E2. congruence.
Qed.
Lemma write_ok : exists gs, WriteAsCFG nodes es = Some gs /\ Forall2 written es gs.
Proof.
  unfold WriteAsCFG. induction Hgood as [|ed l G F IH]; [exists []; split; [reflexivity|constructor]|]. cbn [write_edges]. destruct (write_edge_ok ed G) as (r & -> & W).
  assert (Fl : exists gs, write_edges (cats nodes) l = Some gs /\ Forall2 written l gs).
  { clear -F. induction F as [|ed l G F IH]; [exists []; split; [reflexivity|constructor]|]. cbn [write_edges]. destruct (write_edge_ok ed G) as (r & -> & W). destruct IH as (gs & -> & W2). exists (r :: gs). split; [reflexivity|now constructor]. }
  destruct Fl as (gs & -> & W2). exists (r :: gs). split; [reflexivity|now constructor].
Qed.

(** ** exchanging the subtrees *)
Lemma ext {A} : forall l m : list A, length l = length m -> (forall k, (k < length l)%nat -> nth_error l k = nth_error m k) -> l = m.
Proof.
  induction l as [|a l IH]; intros [|b m] L H; try discriminate; [reflexivity|]. pose proof (H 0%nat ltac:(cbn; lia)) as H0. injection H0 as ->. f_equal. apply IH; [now injection L|].
  intros k Lk. apply (H (S k)). cbn. lia.
Qed.
Lemma F2_nth {A B} (P : A -> B -> Prop) : forall l m, length l = length m -> (forall k a b, nth_error l k = Some a -> nth_error m k = Some b -> P a b) -> Forall2 P l m.
Proof.
  induction l as [|a l IH]; intros [|b m] L H; try discriminate; constructor; [apply (H 0%nat); reflexivity|]. apply IH; [now injection L|]. intros k x y Ex Ey. apply (H (S k)); assumption.
Qed.
Lemma F2_get {A B} (P : A -> B -> Prop) l m : Forall2 P l m -> length l = length m /\ forall k a b, nth_error l k = Some a -> nth_error m k = Some b -> P a b.
Proof. induction 1 as [|a b l m H F [L IH]]; [split; [reflexivity|]; intros [|k]; discriminate|]. split; [cbn; congruence|]. intros [|k] x y; cbn; [congruence|apply IH]. Qed.
Definition perm {A} (sg : list nat) (d : A) (l : list A) : list A := map (fun k => nth k l d) sg.
Definition involution (sg : list nat) (n : nat) : Prop := length sg = n /\ forall k m, nth_error sg k = Some m -> nth_error sg m = Some k.
Lemma perm_len {A} sg (d : A) l : length (perm sg d l) = length sg.
Proof. apply map_length. Qed.
Lemma inv_bound sg n k m : involution sg n -> nth_error sg k = Some m -> (m < n)%nat.
Proof. intros [L I] E. apply I in E. rewrite <- L. apply nth_error_Some. congruence. Qed.
Lemma perm_nth {A} sg (d : A) l k m : involution sg (length l) -> nth_error sg k = Some m -> nth_error (perm sg d l) k = nth_error l m.
Proof.
  intros I E. pose proof (inv_bound _ _ _ _ I E) as L. unfold perm. rewrite (map_nth_error (fun k => nth k l d) k sg E). symmetry. now apply nth_error_nth'.
Qed.
Lemma inv_some sg n k : involution sg n -> (k < n)%nat -> exists m, nth_error sg k = Some m.
Proof. intros [L I] H. destruct (nth_error sg k) eqn:E; [eauto|]. apply nth_error_None in E. lia. Qed.
Lemma perm_perm {A} sg (d d' : A) l : involution sg (length l) -> perm sg d (perm sg d' l) = l.
Proof.
  intros I. destruct I as [L I]. assert (I' : involution sg (length (perm sg d' l))) by (split; [now rewrite perm_len|exact I]).
  apply ext; [now rewrite perm_len|]. rewrite perm_len, L. intros k Hk. destruct (inv_some sg (length l) k ltac:(split; assumption) Hk) as (m & E).
  rewrite (perm_nth sg d _ k m I' E). apply perm_nth; [split; assumption|]. apply I, E.
Qed.
Lemma perm_map {A B} (g : A -> B) sg d d' l : involution sg (length l) -> map g (perm sg d l) = perm sg d' (map g l).
Proof.
  intros I. apply ext; [rewrite map_length, !perm_len; reflexivity|]. rewrite map_length, perm_len. intros k Hk. destruct (inv_some sg (length l) k I ltac:(destruct I; lia)) as (m & E).
  rewrite (perm_nth sg d' (map g l) k m); [|now rewrite map_length|exact E]. rewrite !nth_error_map. f_equal. now apply perm_nth.
Qed.
(** the numbers in a written rule *)
Lemma fill_perm (shape : list (option Z)) (t : list Z) (parts us : list (list Z)) : ok_shape shape -> gaps shape = length (vars t) ->
  Forall2 (fun m p => nth_error us m = Some p) (vars t) parts -> numbered (fill shape (filter (fun z => negb (0 <? z)) t)) us = in_order shape parts.
Proof.
  intros O G F. destruct (minus_vars t) as (ks & E0 & A & B & _). rewrite <- E0. apply fill_numbered; auto.
  - rewrite G, <- B. apply map_length.
  - rewrite <- B in F. clear -F. revert parts F. induction ks as [|k ks IH]; intros parts F; inversion F; subst; constructor; auto.
Qed.
Lemma tree_depth_ind (P : tree -> Prop) : (forall i kids, Forall P kids -> P (D i kids)) -> forall t, P t.
Proof. intros H. fix IH 1. intros [i kids]. apply H. induction kids as [|k kids IHk]; constructor; [apply IH|exact IHk]. Qed.
Lemma written_at gs i ed : Forall2 written es gs -> nth_error es i = Some ed -> exists r, nth_error gs i = Some r /\ written ed r.
Proof. intros F E. destruct (F2_get _ _ _ F) as [L G]. destruct (nth_error gs i) as [r|] eqn:Er; [eauto|]. apply nth_error_None in Er. assert (i < length es)%nat by (apply nth_error_Some; congruence). lia. Qed.
Lemma written_at' gs i r : Forall2 written es gs -> nth_error gs i = Some r -> exists ed, nth_error es i = Some ed /\ written ed r.
Proof. intros F E. destruct (F2_get _ _ _ F) as [L G]. destruct (nth_error es i) as [ed|] eqn:Er; [eauto|]. apply nth_error_None in Er. assert (i < length gs)%nat by (apply nth_error_Some; congruence). lia. Qed.
Lemma good_at i ed : nth_error es i = Some ed -> good_edge (length nodes) ed.
Proof. intros E. rewrite Forall_forall in Hgood. apply Hgood. eapply nth_error_In; eauto. Qed.
Lemma good_inv ed n : good_edge (length nodes) ed -> n = length (tails ed) -> involution (vars (@tgt X ed)) n.
Proof. intros (_ & _ & _ & L & I) ->. split; assumption. Qed.
(** swap of a tree with the right number of kids *)
Lemma swap_eq i ed kids d : nth_error es i = Some ed -> length kids = length (tails ed) -> swap es (D i kids) = D i (perm (vars (tgt ed)) d (map (swap es) kids)).
Proof.
  intros E L. cbn [swap]. rewrite E. f_equal. unfold perm. apply map_ext_in. intros k I. apply nth_indep. rewrite map_length, L. eapply vars_bound; eauto using good_at.
Qed.
Lemma swap_swap i ed kids : nth_error es i = Some ed -> length kids = length (tails ed) -> Forall (fun t => swap es (swap es t) = t) kids -> swap es (swap es (D i kids)) = D i kids.
Proof.
  intros E L F. pose proof (good_inv ed _ (good_at i ed E) eq_refl) as I. set (d := D 0 []). rewrite (swap_eq i ed kids d E L).
  rewrite (swap_eq i ed _ d E); [|rewrite perm_len; destruct I; assumption]. f_equal.
  rewrite (perm_map (swap es) _ d d) by (now rewrite map_length, L). rewrite perm_perm by (rewrite map_length, map_length, L; exact I).
  rewrite map_map. rewrite <- (map_id kids) at 2. apply map_ext_in. intros t It. rewrite Forall_forall in F. now apply F.
Qed.
Theorem forest_to_grammar gs : Forall2 written es gs -> forall t v s u, fderiv es t v s u -> gderiv gs (swap es t) (label nodes v) u s /\ swap es (swap es t) = t.
Proof.
  intros W t. induction t as [i kids IH] using tree_depth_ind. intros v s u H. inversion H as [i' ed ks s' u' E Fk Et Es Eu]; subst.
  destruct (written_at gs i ed W E) as (r & Er & W1 & W2 & W3 & W4 & W5). pose proof (good_at i ed E) as G. pose proof G as (G1 & G2 & G3 & G4 & G5).
  assert (Lk : length ks = length (tails ed)) by (rewrite <- Et; now rewrite map_length).
  pose proof (good_inv ed (length ks) G Lk) as I. set (sg := vars (tgt ed)) in *.
  assert (IHk : Forall (fun k => gderiv gs (swap es (fst (fst k))) (label nodes (snd (fst k))) (snd (snd k)) (fst (snd k)) /\ swap es (swap es (fst (fst k))) = fst (fst k)) ks).
  { apply Forall_forall. intros k Ik. rewrite Forall_forall in IH, Fk. apply (IH (fst (fst k))); [apply in_map_iff; eauto|]. now apply Fk. }
  split; [|apply (swap_swap i ed); auto; [now rewrite map_length|]; apply Forall_map; eapply Forall_impl; [|exact IHk]; intros k K; apply K].
  set (conv := fun k : tree * nat * (list Z * list Z) => (swap es (fst (fst k)), label nodes (snd (fst k)), (snd (snd k), fst (snd k)))).
  set (dk := (D 0 [], EmptyString, (@nil Z, @nil Z))). set (ks' := perm sg dk (map conv ks)).
  assert (I2 : involution sg (length (map conv ks))) by now rewrite map_length.
  rewrite (swap_eq i ed _ (D 0 []) E) by now rewrite map_length. fold sg. rewrite map_map.
  replace (perm sg (D 0 []) (map (fun k => swap es (fst (fst k))) ks)) with (map (fun k : tree * string * (list Z * list Z) => fst (fst k)) ks')
    by (unfold ks'; rewrite (perm_map _ sg dk (D 0 [])) by exact I2; now rewrite map_map).
  rewrite <- W1. apply (gd gs i r ks' u s Er).
  - apply Forall_forall. intros k' Ik. unfold ks', perm in Ik. apply in_map_iff in Ik. destruct Ik as (m & <- & Im).
    assert (Lm : (m < length (map conv ks))%nat) by (rewrite map_length, Lk; eapply vars_bound; eauto).
    pose proof (nth_In (map conv ks) dk Lm) as IN. apply in_map_iff in IN. destruct IN as (k & Ek & Ik). rewrite <- Ek. cbn [conv fst snd]. rewrite Forall_forall in IHk. apply IHk, Ik.
  - apply ext.
    + unfold ks'. rewrite map_length, perm_len. apply F2_get in W4. exact (proj1 W4).
    + intros k Hk. unfold ks' in *. rewrite map_length, perm_len in Hk. destruct I as [IL II]. destruct (inv_some sg (length ks) k ltac:(split; assumption) ltac:(lia)) as (m & Em).
      apply F2_get in W4. destruct W4 as [W4a W4b]. destruct (nth_error (nts (gf r)) k) as [c|] eqn:Ec; [|apply nth_error_None in Ec; unfold sg in *; lia].
      destruct (W4b k m c Em Ec) as (w & Ew & ->). rewrite nth_error_map, (perm_nth sg dk _ k m I2 Em), nth_error_map. rewrite <- Et, nth_error_map in Ew.
      destruct (nth_error ks m) as [q|]; [|discriminate]. injection Ew as <-. reflexivity.
  - rewrite W3. unfold ks'. rewrite (perm_map _ sg dk []) by exact I2. rewrite map_map. cbn [conv fst snd]. rewrite <- Eu.
    destruct (minus_vars (tgt ed)) as (mk & E0 & _ & _ & EF). symmetry. rewrite <- EF at 1. rewrite E0. apply fill_perm; [apply word_or_gap_ok|rewrite gaps_word; symmetry; apply vars_filter|].
    fold sg. apply F2_nth; [now rewrite perm_len|]. intros k m p Em Ep. rewrite (perm_nth sg _ _ k m) in Ep; [exact Ep|now rewrite map_length|exact Em].
  - rewrite W5. unfold ks'. rewrite (perm_map _ sg dk []) by exact I2. rewrite map_map. cbn [conv fst snd]. rewrite <- Es.
    apply fill_perm; [apply word_or_gap_ok|rewrite gaps_word; fold sg; congruence|]. fold sg. apply F2_nth; [rewrite map_length; destruct I; lia|].
    intros k m p Em Ep. destruct I as [IL II]. rewrite (perm_nth sg _ _ m k); [exact Ep|split; [now rewrite map_length|exact II]|apply II, Em].
Qed.
Theorem grammar_to_forest gs : Forall2 written es gs -> forall t v s u, gderiv gs t (label nodes v) u s -> fderiv es (swap es t) v s u /\ swap es (swap es t) = t.
Proof.
  intros W t. induction t as [i kids IH] using tree_depth_ind. intros v s u H. remember (label nodes v) as lv eqn:Ev. inversion H as [i' r ks s' u' E Fk Et Es Eu]; subst.
  destruct (written_at' gs i r W E) as (ed & Er & W1 & W2 & W3 & W4 & W5). pose proof (good_at i ed Er) as G. pose proof G as (G1 & G2 & G3 & G4 & G5).
  assert (Ev : lhs r = label nodes v) by congruence. rewrite W1 in Ev. apply label_inj in Ev. subst v. set (sg := vars (tgt ed)) in *.
  destruct (F2_get _ _ _ W4) as [W4a W4b].
  assert (Lk : length ks = length (tails ed)) by (rewrite <- G4; fold sg; rewrite W4a, <- Et; now rewrite map_length).
  pose proof (good_inv ed (length ks) G Lk) as I. fold sg in I.
  assert (KV : forall k m q w, nth_error sg k = Some m -> nth_error ks k = Some q -> nth_error (tails ed) m = Some w -> snd (fst q) = label nodes w).
  { intros k m q w Em Eq Ew. assert (Ec : nth_error (nts (gf r)) k = Some (snd (fst q))) by (rewrite <- Et, nth_error_map, Eq; reflexivity).
    destruct (W4b k m _ Em Ec) as (w' & Ew' & E2). rewrite Ew in Ew'. injection Ew' as <-. exact E2. }
  assert (IHk : forall q, In q ks -> forall w, snd (fst q) = label nodes w -> fderiv es (swap es (fst (fst q))) w (snd (snd q)) (fst (snd q)) /\ swap es (swap es (fst (fst q))) = fst (fst q)).
  { intros q Iq w Ew. rewrite Forall_forall in IH, Fk. apply (IH (fst (fst q))); [apply in_map_iff; eauto|]. rewrite <- Ew. now apply Fk. }
  assert (SS : Forall (fun t => swap es (swap es t) = t) (map (fun k : tree * string * (list Z * list Z) => fst (fst k)) ks)).
  { apply Forall_map, Forall_forall. intros q Iq. apply In_nth_error in Iq. destruct Iq as (k & Eq). assert (Hk : (k < length ks)%nat) by (apply nth_error_Some; congruence).
    destruct (inv_some sg _ k I Hk) as (m & Em). pose proof (inv_bound _ _ _ _ I Em) as Lm. destruct (nth_error (tails ed) m) as [w|] eqn:Ew; [|apply nth_error_None in Ew; lia].
    apply (IHk q (nth_error_In _ _ Eq) w). eapply KV; eauto. }
  split; [|apply (swap_swap i ed); auto; now rewrite map_length].
  set (conv := fun kv : (tree * string * (list Z * list Z)) * nat => (swap es (fst (fst (fst kv))), snd kv, (snd (snd (fst kv)), fst (snd (fst kv))))).
  set (dk := (D 0 [], EmptyString, (@nil Z, @nil Z))). set (pk := perm sg dk ks). set (ks' := map conv (combine pk (tails ed))).
  assert (Lp : length pk = length (tails ed)) by (unfold pk; rewrite perm_len; destruct I; congruence).
  assert (MF : forall (B : Type) (g : tree * string * (list Z * list Z) -> B), map (fun kv => g (fst kv)) (combine pk (tails ed)) = map g pk).
  { intros B g. clear -Lp. revert Lp. generalize (tails ed). induction pk as [|a l IH]; intros [|b m] L; try discriminate; [reflexivity|]. cbn. f_equal. apply IH. now injection L. }
  assert (MS : map snd (combine pk (tails ed)) = tails ed).
  { clear -Lp. revert Lp. generalize (tails ed). induction pk as [|a l IH]; intros [|b m] L; try discriminate; [reflexivity|]. cbn. f_equal. apply IH. now injection L. }
  rewrite (swap_eq i ed _ (D 0 []) Er) by now rewrite map_length. fold sg. rewrite map_map.
  replace (perm sg (D 0 []) (map (fun k => swap es (fst (fst k))) ks)) with (map (fun k : tree * nat * (list Z * list Z) => fst (fst k)) ks')
    by (unfold ks'; rewrite map_map; cbn [conv fst snd]; rewrite (MF tree (fun k => swap es (fst (fst k)))); unfold pk; apply perm_map; exact I).
  apply (fd es i ed ks' s u Er).
  - apply Forall_forall. intros k' Ik. unfold ks' in Ik. apply in_map_iff in Ik. destruct Ik as ([q w] & <- & Iq). cbn [conv fst snd].
    apply In_nth_error in Iq. destruct Iq as (k & Ek).
    assert (Eqw : nth_error pk k = Some q /\ nth_error (tails ed) k = Some w).
    { clear -Ek. revert k Ek. generalize (tails ed). induction pk as [|a l IH]; intros [|b m] [|k] E; cbn in *; try discriminate; [injection E as -> ->; auto|]. now apply IH. }
    destruct Eqw as [Eq Ew]. assert (Hk : (k < length ks)%nat) by (rewrite Lk; apply nth_error_Some; congruence). destruct (inv_some sg _ k I Hk) as (m & Em).
    unfold pk in Eq. rewrite (perm_nth sg dk ks k m I Em) in Eq. apply (IHk q (nth_error_In _ _ Eq) w). destruct I as [IL II]. exact (KV m k q w (II k m Em) Eq Ew).
  - unfold ks'. rewrite map_map. cbn [conv fst snd]. exact MS.
  - unfold ks'. rewrite map_map. cbn [conv fst snd]. rewrite (MF (list Z) (fun k => snd (snd k))). unfold pk. rewrite (perm_map _ sg dk []) by exact I.
    rewrite W5 in Eu. rewrite <- Eu. symmetry. apply fill_perm; [apply word_or_gap_ok|rewrite gaps_word; fold sg; congruence|]. fold sg.
    apply F2_nth; [now rewrite perm_len|]. intros k m p Em Ep. rewrite (perm_nth sg _ _ k m) in Ep; [exact Ep|now rewrite map_length|exact Em].
  - unfold ks'. rewrite map_map. cbn [conv fst snd]. rewrite (MF (list Z) (fun k => fst (snd k))). unfold pk. rewrite (perm_map _ sg dk []) by exact I.
    rewrite W3 in Es. rewrite <- Es. destruct (minus_vars (tgt ed)) as (mk & E0 & _ & _ & EF). rewrite <- EF at 1. rewrite E0. apply fill_perm; [apply word_or_gap_ok|rewrite gaps_word; symmetry; apply vars_filter|].
    fold sg. apply F2_nth; [rewrite map_length; destruct I; lia|].
    intros k m p Em Ep. destruct I as [IL II]. rewrite (perm_nth sg _ _ m k); [exact Ep|split; [now rewrite map_length|exact II]|apply II, Em].
Qed.
Theorem as_cfg : exists gs, WriteAsCFG nodes es = Some gs /\ Forall2 (fun ed r => lhs r = label nodes (head ed) /\ scores r = feats ed) es gs
  /\ (forall t v s u, fderiv es t v s u -> gderiv gs (swap es t) (label nodes v) u s /\ swap es (swap es t) = t)
  /\ (forall t v s u, gderiv gs t (label nodes v) u s -> fderiv es (swap es t) v s u /\ swap es (swap es t) = t).
Proof.
  destruct write_ok as (gs & E & W). exists gs. split; [exact E|]. split; [eapply Forall2_imp; [|exact W]; intros ed r R; split; apply R|].
  split; [apply forest_to_grammar; exact W|apply grammar_to_forest; exact W].
Qed.
End Main.
(** with at most two variables they can always be exchanged *)
Lemma two_vars l n : length l = n -> (n <= 2)%nat -> (forall m, In m l -> (m < n)%nat) -> NoDup l -> forall k m, nth_error l k = Some m -> nth_error l m = Some k.
Proof.
  intros L N B ND k m E. destruct l as [|a [|b [|c l]]]; cbn [length] in L.
  - destruct k; discriminate.
  - pose proof (B a ltac:(now left)). destruct k as [|k]; [|destruct k; discriminate]. injection E as ->. assert (m = 0%nat) by lia. subst. reflexivity.
  - pose proof (B a ltac:(now left)). pose proof (B b ltac:(right; now left)). inversion ND as [|? ? N1 _]; subst. assert (a <> b) by (intros ->; apply N1; now left).
    destruct k as [|[|k]]; [injection E as ->|injection E as ->|destruct k; discriminate].
    + destruct m as [|[|m]]; [reflexivity| |lia]. assert (b = 0%nat) by lia. now subst.
    + destruct m as [|[|m]]; [|reflexivity|lia]. assert (a = 1%nat) by lia. now subst.
  - lia.
Qed.
(** what the forest of the examples derives *)
Lemma forest3_texts e t s u : fderiv (forest3 e) t 3 s u -> s = [1; 2; 3] /\ numbered e [[11]; [12]; [13]] = Some u.
Proof.
  assert (LF : forall v a b, nth_error (forest3 e) v = Some (leaf v a b) -> (v < 3)%nat -> 0 < a -> 0 < b -> forall t' s' u', fderiv (forest3 e) t' v s' u' -> s' = [a] /\ u' = [b]).
  { intros v a b E Lv Pa Pb t' s' u' H. inversion H as [i ed ks s0 u0 E1 Fk Et Es Eu]; subst.
    assert (ed = leaf (head ed) a b) as Ed.
    { destruct i as [|[|[|[|i]]]]; cbn in E1; [..|destruct i; discriminate]; injection E1 as <-; cbn [head leaf] in *; try (cbn in E; congruence); cbn in Lv; lia. }
    rewrite Ed in Et, Es, Eu. cbn [tails leaf] in Et. apply map_eq_nil in Et. subst ks. cbn in Es, Eu. unfold word_or_gap in Es. rewrite (proj2 (Z.ltb_lt 0 a) Pa) in Es. rewrite (proj2 (Z.ltb_lt 0 b) Pb) in Eu.
    injection Es as <-. injection Eu as <-. auto. }
  intros H. inversion H as [i ed ks s0 u0 E1 Fk Et Es Eu]; subst. destruct i as [|[|[|[|i]]]]; cbn in E1; [..|destruct i; discriminate]; injection E1 as <-; try discriminate. cbn [head tails src tgt] in *.
  destruct ks as [|[[t1 v1] [s1 u1]] [|[[t2 v2] [s2 u2]] [|[[t3 v3] [s3 u3]] [|k ks]]]]; try discriminate. cbn [map fst snd] in *. injection Et as -> -> ->.
  inversion Fk as [|? ? F1 Fk1]; subst. inversion Fk1 as [|? ? F2 Fk2]; subst. inversion Fk2 as [|? ? F3 _]; subst. cbn [fst snd] in *.
  destruct (LF 0%nat 1 11 eq_refl ltac:(lia) ltac:(lia) ltac:(lia) _ _ _ F1) as [-> ->]. destruct (LF 1%nat 2 12 eq_refl ltac:(lia) ltac:(lia) ltac:(lia) _ _ _ F2) as [-> ->].
  destruct (LF 2%nat 3 13 eq_refl ltac:(lia) ltac:(lia) ltac:(lia) _ _ _ F3) as [-> ->]. cbn in Es. injection Es as <-. split; [reflexivity|exact Eu].
Qed.
