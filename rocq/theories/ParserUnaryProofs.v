(** Sorting the unary rules: what is kept, and that it has no cycle. *)
From Coq Require Import List ZArith Bool Lia Permutation.
From Verif Require Import Opt Deriv Parser.
Import ListNotations.
Open Scope nat_scope.
Open Scope opt_scope.

Section Sort.
Variable us0 : list rule.
Variable goal : Z.
Variable R : Z -> nat.
Hypothesis nd : NoDup us0.
Definition from (c : Z) : list rule := filter (fun r => Z.eqb (rhs r) c) us0.
Notation visit := (TopoSortVisit from).

Definition W (m : Z -> nat) : nat := length (filter (fun c => Nat.eqb (m c) 0) (map rhs us0)).
Definition ordered (fin : list Z) (e : rule) : Prop := exists l1 l2, fin = l1 ++ rhs e :: l2 /\ In (lhs e) l2.
Definition rising : Prop := forall r, In r us0 -> R (rhs r) < R (lhs r).
Record J (u : list rule) (fin : list Z) (m : Z -> nat) : Prop := {
  j_black : forall c, m c = 2 <-> In c fin;
  j_le : forall c, m c <= 2;
  j_fin : NoDup fin;
  j_goal : In goal fin;
  j_nd : NoDup u;
  j_in : forall e, In e u -> In e us0 /\ rhs e <> goal /\ ordered fin e;
  j_all : rising -> forall e, In e us0 -> In (rhs e) fin -> rhs e <> goal -> In e u
}.
Definition mono (m m' : Z -> nat) : Prop := (forall c, m c = 1 <-> m' c = 1) /\ forall c, m c = 2 -> m' c = 2.
Lemma W_le : forall m m', (forall c, m c <> 0 -> m' c <> 0) -> W m' <= W m.
Proof.
  intros m m' H. unfold W. induction (map rhs us0) as [|c l IH]; cbn; [lia|]. specialize (H c). destruct (Nat.eqb_spec (m c) 0), (Nat.eqb_spec (m' c) 0); cbn; try lia.
Qed.
Lemma W_lt : forall m m' c, (forall x, m x <> 0 -> m' x <> 0) -> In c (map rhs us0) -> m c = 0 -> m' c <> 0 -> W m' < W m.
Proof.
  intros m m' c H I Z1 Z2. unfold W. induction (map rhs us0) as [|y l IH]; [destruct I|]. cbn.
  assert (LE : length (filter (fun c => Nat.eqb (m' c) 0) l) <= length (filter (fun c => Nat.eqb (m c) 0) l)).
  { clear - H. induction l as [|z l IH]; cbn; [lia|]. specialize (H z). destruct (Nat.eqb_spec (m z) 0), (Nat.eqb_spec (m' z) 0); cbn; lia. }
  destruct I as [->|I].
  - rewrite Z1. cbn. destruct (Nat.eqb_spec (m' c) 0); [contradiction|]. lia.
  - specialize (IH I). specialize (H y). destruct (Nat.eqb_spec (m y) 0), (Nat.eqb_spec (m' y) 0); cbn; lia.
Qed.

Lemma ordered_cons : forall fin e x, ordered fin e -> ordered (x ++ fin) e.
Proof. intros fin e x (l1 & l2 & -> & I). exists (x ++ l1), l2. rewrite app_assoc. auto. Qed.

Lemma visit_ok : forall k node u fin m, J u fin m -> W m < k -> (rising -> forall c, m c = 1 -> R c < R node) ->
  exists ok u' m' x, visit k node u m = Some (ok, u', m') /\ J u' (x ++ fin) m' /\ mono m m' /\ (ok = true -> m' node = 2) /\ (rising -> ok = true) /\ (m node <> 1 -> ok = true).
Proof.
  induction k as [|k IH]; intros node u fin m JJ L GR; [lia|]. cbn [TopoSortVisit].
  destruct (Nat.eqb_spec (m node) 1) as [E1|N1].
  { exists false, u, m, []. split; [reflexivity|]. split; [exact JJ|]. split; [split; [reflexivity|auto]|]. split; [discriminate|]. split; [|contradiction]. intros H. specialize (GR H node E1). lia. }
  destruct (Nat.eqb_spec (m node) 2) as [E2|N2].
  { exists true, u, m, []. split; [reflexivity|]. split; [exact JJ|]. split; [split; [reflexivity|auto]|]. auto. }
  assert (Z0 : m node = 0) by (pose proof (j_le _ _ _ JJ node); lia).
  (* the edges *)
  assert (ED : forall es u fin m1, J u fin m1 -> m1 node = 1 -> (es <> [] -> W m1 < k) -> NoDup es -> incl es (from node) -> (rising -> forall c, m1 c = 1 -> R c <= R node) ->
    exists oks u' m' x, visit_edges (visit k) es u m1 = Some (oks, u', m') /\ J u' (x ++ fin) m' /\ mono m1 m' /\ incl oks es /\ NoDup oks /\ (forall e, In e oks -> m' (lhs e) = 2) /\
      (rising -> oks = es)).
  { induction es as [|e es IHes]; intros v f m1 J1 G1 W1 ND IN GL; cbn [visit_edges].
    - exists [], v, m1, []. split; [reflexivity|]. split; [exact J1|]. split; [split; [reflexivity|auto]|]. split; [apply incl_refl|]. split; [constructor|]. split; [intros e []|]. auto.
    - destruct (IH (lhs e) v f m1 J1 (W1 ltac:(discriminate))) as (ok & u1 & m2 & x1 & E & J2 & M2 & OK & RI & _).
      { intros RS c C. assert (In e (from node)) as I by (apply IN; left; reflexivity). apply filter_In in I. destruct I as (I & Q). apply Z.eqb_eq in Q. specialize (GL RS c C). specialize (RS e I). rewrite Q in RS. lia. }
      rewrite E. cbn [bind].
      inversion ND as [|? ? NI ND']; subst.
      destruct (IHes u1 (x1 ++ f) m2 J2) as (oks & u2 & m3 & x2 & E2 & J3 & M3 & IC & NO & BL & AL).
      + apply M2, G1.
      + intros _. eapply Nat.le_lt_trans; [|apply (W1 ltac:(discriminate))]. apply W_le. intros c C. destruct M2 as (MG & MB). pose proof (j_le _ _ _ J1 c). assert (m1 c = 1 \/ m1 c = 2) as [D|D] by lia; [apply MG in D; lia|apply MB in D; lia].
      + exact ND'.
      + intros z Z. apply IN. right. exact Z.
      + intros RS c C. apply GL; [exact RS|]. apply (proj1 M2 c), C.
      + rewrite E2. cbn [bind]. exists (if ok then e :: oks else oks), u2, m3, (x2 ++ x1). split; [reflexivity|]. split; [rewrite <- app_assoc; exact J3|].
        split; [split; [intros c; rewrite (proj1 M2 c); apply (proj1 M3 c)|intros c C; apply (proj2 M3), (proj2 M2), C]|].
        split; [destruct ok; intros z Z; [destruct Z as [<-|Z]; [left; reflexivity|]|]; right; apply IC, Z|].
        split; [destruct ok; [constructor; [intros H; apply NI, IC, H|exact NO]|exact NO]|].
        split; [destruct ok; intros z Z; [destruct Z as [<-|Z]; [apply (proj2 M3), OK; reflexivity|]|]; apply BL, Z|].
        intros RS. rewrite (RI RS). f_equal. apply AL, RS. }
  set (m1 := upd_mark m node 1).
  assert (U1 : forall c, m1 c = if Z.eqb c node then 1 else m c) by reflexivity.
  assert (J1 : J u fin m1).
  { destruct JJ as [B LE FN GO ND IN AL]. constructor; auto.
    - intros c. rewrite U1. destruct (Z.eqb_spec c node) as [->|]; [|apply B]. split; [discriminate|]. intros I. apply B in I. lia.
    - intros c. rewrite U1. destruct (Z.eqb c node); [lia|apply LE]. }
  destruct (ED (from node) u fin m1 J1) as (oks & u1 & m2 & x & E & J2 & M2 & IC & NO & BL & AL).
  { rewrite U1, Z.eqb_refl. reflexivity. }
  { intros NE. assert (I : In node (map rhs us0)).
    { unfold from in NE. destruct (filter _ us0) as [|r l] eqn:F; [contradiction|]. assert (In r (filter (fun r => Z.eqb (rhs r) node) us0)) as I by (rewrite F; left; reflexivity). apply filter_In in I. destruct I as (I & Q). apply Z.eqb_eq in Q. rewrite <- Q. apply in_map, I. }
    enough (W m1 < W m) by lia. apply (W_lt m m1 node); [|exact I|exact Z0|rewrite U1, Z.eqb_refl; discriminate]. intros c C. rewrite U1. destruct (Z.eqb c node); [discriminate|exact C]. }
  { apply NoDup_filter, nd. }
  { apply incl_refl. }
  { intros RS c. rewrite U1. destruct (Z.eqb_spec c node) as [->|]; [lia|]. intros C. specialize (GR RS c C). lia. }
  rewrite E. cbn [bind]. set (m3 := upd_mark m2 node 2). assert (U3 : forall c, m3 c = if Z.eqb c node then 2 else m2 c) by reflexivity.
  assert (G2 : m2 node = 1) by (apply (proj1 M2); rewrite U1, Z.eqb_refl; reflexivity).
  assert (NF : ~ In node (x ++ fin)) by (intros I; apply (j_black _ _ _ J2) in I; lia).
  assert (NG : node <> goal) by (intros ->; apply NF, (j_goal _ _ _ J2)).
  exists true, (u1 ++ oks), m3, (node :: x). split; [reflexivity|]. split; [|split; [|split; [|auto]]].
  - destruct J2 as [B LE FN GO ND2 IN AL2]. constructor.
    + intros c. rewrite U3. cbn. destruct (Z.eqb_spec c node) as [->|NE]; [split; auto|]. rewrite B. split; [auto|]. intros [->|H]; [contradiction|exact H].
    + intros c. rewrite U3. destruct (Z.eqb c node); [lia|apply LE].
    + cbn. constructor; assumption.
    + cbn. right. exact GO.
    + apply NoDup_app_intro; [exact ND2|exact NO|]. intros e I I'. apply IC in I'. apply filter_In in I'. destruct I' as (_ & Q). apply Z.eqb_eq in Q.
      destruct (IN e I) as (_ & _ & (l1 & l2 & F & _)). apply NF. rewrite F, Q. apply in_app_iff. right. left. reflexivity.
    + intros e I. apply in_app_iff in I. destruct I as [I|I].
      * destruct (IN e I) as (A & A2 & O). split; [exact A|]. split; [exact A2|]. exact (ordered_cons _ _ [node] O).
      * pose proof (IC e I) as I'. apply filter_In in I'. destruct I' as (I' & Q). apply Z.eqb_eq in Q. split; [exact I'|]. split; [congruence|]. exists [], (x ++ fin). rewrite Q. split; [reflexivity|].
        apply B. exact (BL e I).
    + intros RS e I F NE. cbn in F. destruct F as [F|F].
      * apply in_app_iff. right. rewrite (AL RS). apply filter_In. split; [exact I|]. apply Z.eqb_eq. auto.
      * apply in_app_iff. left. apply AL2; assumption.
  - split.
    + intros c. rewrite U3. destruct (Z.eqb_spec c node) as [->|NE]; [split; lia|]. rewrite <- (proj1 M2 c), U1. destruct (Z.eqb_spec c node); [contradiction|reflexivity].
    + intros c C. rewrite U3. destruct (Z.eqb_spec c node) as [->|NE]; [reflexivity|]. apply (proj2 M2). rewrite U1. destruct (Z.eqb_spec c node); [contradiction|exact C].
  - intros _. rewrite U3, Z.eqb_refl. reflexivity.
Qed.

Lemma visit_all_ok : forall ks k u fin m, J u fin m -> W m < k -> (forall c, m c <> 1) ->
  exists u' m' x, visit_all from k ks u m = Some u' /\ J u' (x ++ fin) m' /\ incl ks (x ++ fin).
Proof.
  induction ks as [|c ks IH]; intros k u fin m JJ L G; cbn [visit_all].
  { exists u, m, []. split; [reflexivity|]. split; [exact JJ|]. intros z []. }
  destruct (Nat.ltb_spec 0 (m c)) as [P|P].
  { destruct (IH k u fin m JJ L G) as (u2 & m2 & x2 & E2 & J2 & I2). exists u2, m2, x2. split; [exact E2|]. split; [exact J2|].
    intros z [<-|Z]; [|exact (I2 z Z)]. apply in_app_iff. right. apply (j_black _ _ _ JJ). pose proof (j_le _ _ _ JJ c). specialize (G c). lia. }
  destruct (visit_ok k c u fin m JJ L) as (ok & u1 & m1 & x1 & E & J1 & M1 & OK & _ & NG); [intros _ z Z; destruct (G z Z)|].
  rewrite E. cbn [bind].
  assert (G1 : forall z, m1 z <> 1) by (intros z Z; apply (proj1 M1) in Z; exact (G z Z)).
  assert (C1 : In c (x1 ++ fin)) by (apply (j_black _ _ _ J1), OK, NG, G).
  destruct (IH k u1 (x1 ++ fin) m1 J1) as (u2 & m2 & x2 & E2 & J2 & I2).
  { eapply Nat.le_lt_trans; [|exact L]. apply W_le. intros z Z. pose proof (j_le _ _ _ JJ z). assert (m z = 2) by (specialize (G z); lia). rewrite (proj2 M1 z) by assumption. discriminate. }
  { exact G1. }
  exists u2, m2, (x2 ++ x1). split; [exact E2|]. rewrite <- app_assoc. split; [exact J2|]. intros z [<-|Z]; [apply in_app_iff; right; exact C1|exact (I2 z Z)].
Qed.
End Sort.

Lemma key_insert_in : forall c l z, In z (key_insert c l) <-> z = c \/ In z l.
Proof.
  intros c. induction l as [|x l IH]; intros z; cbn; [intuition|].
  destruct (Z.eqb_spec c x) as [->|]; [cbn; intuition|]. destruct (Z.ltb c x); cbn; [intuition|]. rewrite IH. intuition.
Qed.
Lemma keys_in : forall us l r, In r us -> In (rhs r) (fold_left (fun l r => key_insert (rhs r) l) us l).
Proof.
  assert (K : forall us l z, In z l -> In z (fold_left (fun l r => key_insert (rhs r) l) us l)).
  { induction us as [|r us IH]; intros l z I; cbn; [exact I|]. apply IH, key_insert_in. auto. }
  induction us as [|r us IH]; intros l q I; [destruct I|]. destruct I as [->|I]; cbn.
  - apply K, key_insert_in. auto.
  - apply IH, I.
Qed.

Fixpoint place (c : Z) (l : list Z) : nat :=
  match l with [] => 0 | x :: r => if Z.eqb x c then 0 else S (place c r) end.
Lemma place_lt : forall l1 l2 a b, NoDup (l1 ++ a :: l2) -> In b l2 -> place a (l1 ++ a :: l2) < place b (l1 ++ a :: l2).
Proof.
  induction l1 as [|x l1 IH]; intros l2 a b ND I; cbn.
  - rewrite Z.eqb_refl. cbn in ND. inversion ND; subst. destruct (Z.eqb_spec a b) as [->|]; [contradiction|]. lia.
  - cbn in ND. inversion ND as [|? ? NI ND']; subst.
    destruct (Z.eqb_spec x a) as [->|]; [destruct NI; apply in_app_iff; right; left; reflexivity|].
    destruct (Z.eqb_spec x b) as [->|]; [destruct NI; apply in_app_iff; right; right; exact I|].
    specialize (IH l2 a b ND' I). lia.
Qed.

Theorem TopoSortUnaries_ok : forall goal us0, NoDup us0 ->
  exists us, TopoSortUnaries goal us0 = Some us /\ NoDup us /\ incl us us0 /\
    (exists rank : Z -> nat, forall r, In r us -> rank (rhs r) < rank (lhs r)) /\
    (forall R, (forall r, In r us0 -> R (rhs r) < R (lhs r)) -> forall r, In r us0 -> rhs r <> goal -> In r us) /\
    (forall r, In r us -> rhs r <> goal).
Proof.
  intros goal us0 nd.
  assert (J0 : forall R, J us0 goal R [] [goal] (upd_mark (fun _ => 0) goal 2)).
  { intros R. constructor; unfold upd_mark.
    - intros c. cbn. destruct (Z.eqb_spec c goal) as [->|]; intuition congruence.
    - intros c. destruct (Z.eqb c goal); lia.
    - constructor; [intros []|constructor].
    - left. reflexivity.
    - constructor.
    - intros e [].
    - intros _ e _ [->|[]] NE. contradiction. }
  assert (L : W us0 (upd_mark (fun _ => 0) goal 2) < S (S (length us0))).
  { unfold W. rewrite <- (map_length rhs us0). enough (FL : forall (f : Z -> bool) l, length (filter f l) <= length l) by (specialize (FL (fun c => Nat.eqb (upd_mark (fun _ => 0) goal 2 c) 0) (map rhs us0)); lia). intros f l. induction l as [|c l IH]; cbn; [lia|]. destruct (f c); cbn; lia. }
  assert (G : forall c, upd_mark (fun _ => 0) goal 2 c <> 1) by (intros c; unfold upd_mark; destruct (Z.eqb c goal); discriminate).
  destruct (visit_all_ok us0 goal (fun _ => 0) nd (fold_left (fun l r => key_insert (rhs r) l) us0 []) _ _ _ _ (J0 _) L G) as (u & m & x & E & JJ & I).
  unfold TopoSortUnaries. cbv zeta. unfold from in E. rewrite E. cbn [bind]. exists (rev u). split; [reflexivity|].
  split; [apply NoDup_rev, (j_nd _ _ _ _ _ _ JJ)|].
  split; [intros e H; apply in_rev in H; apply (j_in _ _ _ _ _ _ JJ e H)|].
  split.
  { exists (fun c => place c (x ++ [goal])). intros r H. apply in_rev in H. destruct (j_in _ _ _ _ _ _ JJ r H) as (_ & _ & (l1 & l2 & F & I2)).
    pose proof (j_fin _ _ _ _ _ _ JJ) as ND. rewrite F in ND |- *. apply place_lt; assumption. }
  split.
  - intros R RS r H NE.
    destruct (visit_all_ok us0 goal R nd (fold_left (fun l r => key_insert (rhs r) l) us0 []) _ _ _ _ (J0 _) L G) as (u' & m' & x' & E' & JJ' & I').
    unfold from in E'. rewrite E in E'. injection E' as <-. rewrite <- in_rev.
    apply (j_all _ _ _ _ _ _ JJ'); [exact RS|exact H|apply I', keys_in, H|exact NE].
  - intros r H. apply in_rev in H. apply (j_in _ _ _ _ _ _ JJ r H).
Qed.
