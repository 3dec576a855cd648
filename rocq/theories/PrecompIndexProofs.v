From Coq Require Import List ZArith Bool Lia Permutation Sorted.
From Verif Require Import Opt OptProofs SuffixSpec Precomp PrecompSpec PrecompProofs.
Import ListNotations.
Open Scope Z_scope.

(** * The map *)
Lemma list_eqb_spec : forall a b, list_eqb a b = true <-> a = b.
Proof.
  induction a as [|x a IH]; intros [|y b]; cbn [list_eqb]; split; intros H; try congruence.
  - apply andb_true_iff in H. destruct H as [H1 H2]. apply Z.eqb_eq in H1. apply IH in H2. congruence.
  - injection H as -> ->. rewrite Z.eqb_refl. apply IH. auto.
Qed.
Lemma list_eqb_refl a : list_eqb a a = true.
Proof. apply list_eqb_spec. auto. Qed.
Lemma get_append idx k pos key : GetCollocations (append idx k pos) key = GetCollocations idx key ++ (if list_eqb k key then pos else []).
Proof.
  induction idx as [|(k' & l) idx IH]; cbn [append GetCollocations].
  - destruct (list_eqb k key); auto.
  - destruct (list_eqb k' k) eqn:E; cbn [GetCollocations].
    + apply list_eqb_spec in E. subst k'. destruct (list_eqb k key); auto. rewrite app_nil_r. auto.
    + destruct (list_eqb k' key) eqn:E2; auto. destruct (list_eqb k key) eqn:E3; [|rewrite app_nil_r; auto].
      apply list_eqb_spec in E2, E3. subst. rewrite list_eqb_refl in E. discriminate.
Qed.
Lemma get_build calls key : GetCollocations (build_index calls) key = concat (map snd (filter (fun c => list_eqb (fst c) key) calls)).
Proof.
  unfold build_index. assert (G : forall idx, GetCollocations (fold_left (fun idx c => append idx (fst c) (snd c)) calls idx) key =
     GetCollocations idx key ++ concat (map snd (filter (fun c => list_eqb (fst c) key) calls))); [|apply (G [])].
  induction calls as [|(k & p) calls IH]; intros idx; cbn [fold_left filter map concat fst snd]; [rewrite app_nil_r; auto|].
  rewrite IH, get_append, <- app_assoc. f_equal. destruct (list_eqb k key); cbn [map concat snd]; auto.
Qed.

(** * The loops as lists of pairs and triples of matchings *)
Definition bcond (o : opts) (m1 m2 : matching) : bool :=
  andb (andb (gap o <=? m_start m2 - m_start m1 - m_size m1) (m_start m2 + m_size m2 - m_start m1 <=? span o)) (m_size m1 + m_size m2 + 1 <=? symbols o).
Definition tcond (o : opts) (m1 m2 m3 : matching) : bool :=
  andb (andb (gap o <=? m_start m3 - m_start m2 - m_size m2) (m_start m3 + m_size m3 - m_start m1 <=? span o))
       (andb (m_size m1 + m_size m2 + m_size m3 + 2 <=? symbols o) (orb (m_super m1) (m_super m3))).
Fixpoint bpairs (o : opts) (ms : list matching) : list (matching * matching) :=
  match ms with [] => [] | m1 :: r => map (pair m1) (filter (bcond o m1) r) ++ bpairs o r end.
Fixpoint tpairs1 (o : opts) (m1 : matching) (ms : list matching) : list (matching * matching * matching) :=
  match ms with
  | [] => []
  | m2 :: r => (if andb (bcond o m1 m2) (m_super m2) then map (pair (m1, m2)) (filter (tcond o m1 m2) r) else []) ++ tpairs1 o m1 r
  end.
Fixpoint tpairs (o : opts) (ms : list matching) : list (matching * matching * matching) :=
  match ms with [] => [] | m1 :: r => tpairs1 o m1 r ++ tpairs o r end.
Definition bkey (a1 a2 : list Z) : list Z := a1 ++ [-1] ++ a2.
Definition tkey (a1 a2 a3 : list Z) : list Z := (bkey a1 a2 ++ [-2]) ++ a3.
Definition bcall (p : matching * matching) : list Z * list Z := (bkey (m_ann (fst p)) (m_ann (snd p)), [m_start (fst p); m_start (snd p)]).
Definition tcall (p : matching * matching * matching) : list Z * list Z :=
  (tkey (m_ann (fst (fst p))) (m_ann (snd (fst p))) (m_ann (snd p)), [m_start (fst (fst p)); m_start (snd (fst p)); m_start (snd p)]).
Definition istern (c : list Z * list Z) : bool := existsb (Z.eqb (-2)) (fst c).

Definition wf (m : matching) : Prop := 1 <= m_size m /\ m_size m = size (m_ann m) /\ Forall (fun x => 0 <= x) (m_ann m).
Definition by_start (ms : list matching) : Prop := StronglySorted (fun a b => m_start a <= m_start b) ms.

Lemma filter_none {A} f (l : list A) : (forall x, In x l -> f x = false) -> filter f l = [].
Proof. induction l as [|x l IH]; cbn; intros H; auto. rewrite (H x); auto. Qed.
Lemma filter_all {A} f (l : list A) : (forall x, In x l -> f x = true) -> filter f l = l.
Proof. induction l as [|x l IH]; cbn; intros H; auto. rewrite (H x); auto. f_equal. auto. Qed.
Lemma nonneg_notin a x : Forall (fun y => 0 <= y) a -> x < 0 -> existsb (Z.eqb x) a = false.
Proof. induction 1 as [|y a H F IH]; intros Hx; cbn [existsb]; auto. rewrite IH by auto. destruct (Z.eqb_spec x y); [lia|auto]. Qed.

Lemma break_empty o m1 m2 r (f : matching -> bool) : Forall wf (m2 :: r) -> by_start (m2 :: r) -> span o <= m_start m2 - m_start m1 ->
  (forall m, f m = true -> m_start m + m_size m - m_start m1 <= span o) -> filter f (m2 :: r) = [].
Proof.
  intros W S B C. apply filter_none. intros x X. destruct (f x) eqn:E; auto. apply C in E. rewrite Forall_forall in W. destruct (W x X) as (W1 & _).
  inversion S; subst. rewrite Forall_forall in H2. destruct X as [<-|X]; [lia|]. specialize (H2 x X). cbn in H2. lia.
Qed.
Lemma tcond_span o m1 m2 m : tcond o m1 m2 m = true -> m_start m + m_size m - m_start m1 <= span o.
Proof. unfold tcond. rewrite !andb_true_iff. intros ((_ & H) & _). apply Z.leb_le in H. lia. Qed.
Lemma bcond_span o m1 m : bcond o m1 m = true -> m_start m + m_size m - m_start m1 <= span o.
Proof. unfold bcond. rewrite !andb_true_iff. intros ((_ & H) & _). apply Z.leb_le in H. lia. Qed.

Lemma erase_app l r : erase (l ++ r) (size (l ++ r) - size r) = l ++ tl r.
Proof.
  unfold erase. rewrite size_app. replace (Z.to_nat (size l + size r - size r)) with (length l) by (unfold size; lia).
  rewrite firstn_app, firstn_all, Nat.sub_diag, app_nil_r. f_equal. rewrite skipn_app, skipn_all2 by lia. replace (S (length l) - length l)%nat with 1%nat by lia. destruct r; auto.
Qed.
(** every ternary key keeps the -2 *)
Lemma ternary_tern o m1 m2 : forall ms pattern, Forall wf ms -> existsb (Z.eqb (-2)) pattern = true ->
  forall c, In c (ternary o m1 m2 pattern ms) -> istern c = true.
Proof.
  induction ms as [|m3 r IH]; intros pattern W P c; cbn [ternary]; [intros []|]. inversion W; subst. destruct H1 as (W1 & W2 & W3).
  destruct (span o <=? m_start m3 - m_start m1); [intros []|]. match goal with |- context[if ?b then _ else _] => destruct b end; [|apply IH; auto].
  cbn [In]. intros [<-|X].
  - unfold istern. cbn [fst]. rewrite existsb_app, P. auto.
  - revert X. apply IH; auto. rewrite W2, erase_app, existsb_app, P. auto.
Qed.
Lemma bkey_bin a1 a2 : Forall (fun x => 0 <= x) a1 -> Forall (fun x => 0 <= x) a2 -> existsb (Z.eqb (-2)) (bkey a1 a2) = false.
Proof. intros A1 A2. unfold bkey. rewrite !existsb_app, (nonneg_notin a1), (nonneg_notin a2) by (auto; lia). reflexivity. Qed.
Lemma bin_calls1 o m1 : wf m1 -> forall ms, Forall wf ms -> by_start ms ->
  filter (fun c => negb (istern c)) (binary o m1 ms) = map bcall (map (pair m1) (filter (bcond o m1) ms)).
Proof.
  intros W1. induction ms as [|m2 r IH]; intros W S; [reflexivity|]. cbn [binary].
  destruct (Z.leb_spec (span o) (m_start m2 - m_start m1)) as [B|B].
  { rewrite (break_empty o m1 m2 r); auto. intros; eapply bcond_span; eauto. }
  inversion W; inversion S; subst. cbn [filter]. fold (bcond o m1 m2). destruct (bcond o m1 m2); [|auto].
  cbn [filter map]. unfold istern at 1. cbn [fst].
  destruct W1 as (U1 & U2 & U3). destruct H1 as (V1 & V2 & V3). fold (bkey (m_ann m1) (m_ann m2)).
  rewrite (bkey_bin _ _ U3 V3). cbn [negb]. unfold bcall at 1. cbn [fst snd]. f_equal.
  rewrite filter_app, <- IH by auto. rewrite filter_none; [reflexivity|]. intros c C. rewrite negb_false_iff.
  destruct (m_super m2); [|destruct C]. eapply (ternary_tern o m1 m2 r); [auto| |exact C]. rewrite existsb_app. cbn. apply orb_true_r.
Qed.
Lemma bin_calls o : forall ms, Forall wf ms -> by_start ms -> filter (fun c => negb (istern c)) (UpdateIndex o ms) = map bcall (bpairs o ms).
Proof.
  induction ms as [|m1 r IH]; intros W S; [reflexivity|]. cbn [UpdateIndex bpairs]. inversion W; inversion S; subst.
  rewrite filter_app, map_app, IH, bin_calls1; auto.
Qed.
(** third chunks of one word *)
Lemma tern_calls2 o m1 m2 p : forall ms, Forall wf ms -> Forall (fun m => m_size m = 1) ms -> by_start ms ->
  ternary o m1 m2 p ms = map (fun m3 => (p ++ m_ann m3, [m_start m1; m_start m2; m_start m3])) (filter (tcond o m1 m2) ms).
Proof.
  induction ms as [|m3 r IH]; intros W O S; [reflexivity|]. cbn [ternary].
  destruct (Z.leb_spec (span o) (m_start m3 - m_start m1)) as [B|B].
  { rewrite (break_empty o m1 m3 r); auto. intros; eapply tcond_span; eauto. }
  inversion W; inversion O; inversion S; subst. cbn [filter]. fold (tcond o m1 m2 m3). destruct (tcond o m1 m2 m3); [|auto].
  cbn [map]. f_equal. destruct H1 as (V1 & V2 & V3). rewrite V2, erase_app. replace (tl (m_ann m3)) with (@nil Z); [rewrite app_nil_r; auto|].
  destruct (m_ann m3) as [|x [|y q]]; auto. rewrite H5 in V2. unfold size in V2. cbn [length] in V2. lia.
Qed.
Lemma tern_calls1 o m1 : wf m1 -> forall ms, Forall wf ms -> Forall (fun m => m_size m = 1) ms -> by_start ms ->
  filter istern (binary o m1 ms) = map tcall (tpairs1 o m1 ms).
Proof.
  intros W1. induction ms as [|m2 r IH]; intros W O S; [reflexivity|]. cbn [binary tpairs1].
  destruct (Z.leb_spec (span o) (m_start m2 - m_start m1)) as [B|B].
  { assert (G : forall l, Forall wf l -> by_start l -> (forall m, In m l -> m_start m2 <= m_start m) -> tpairs1 o m1 l = []).
    { induction l as [|m l IHl]; intros Wl Sl Hl; [reflexivity|]. cbn [tpairs1]. inversion Wl; inversion Sl; subst.
      rewrite IHl by (auto; intros; apply Hl; right; auto). destruct (bcond o m1 m) eqn:E; [|reflexivity]. apply bcond_span in E. destruct H1 as (V1 & _). specialize (Hl m (or_introl eq_refl)). lia. }
    pose proof (G (m2 :: r) W S) as G'. cbn [tpairs1] in G'. rewrite G'; [reflexivity|]. inversion S; subst. rewrite Forall_forall in H2. intros m [<-|M]; [lia|auto]. }
  inversion W; inversion O; inversion S; subst. fold (bcond o m1 m2). destruct (bcond o m1 m2); cbn [andb app]; [|auto].
  cbn [filter map]. unfold istern at 1. cbn [fst].
  pose proof W1 as (U1 & U2 & U3). pose proof H1 as (V1 & V2 & V3). change (m_ann m1 ++ -1 :: m_ann m2) with (bkey (m_ann m1) (m_ann m2)).
  rewrite (bkey_bin _ _ U3 V3). rewrite filter_app, map_app, IH by auto. f_equal.
  destruct (m_super m2); [|reflexivity]. rewrite filter_all.
  - rewrite tern_calls2 by auto. rewrite map_map. reflexivity.
  - intros c C. eapply (ternary_tern o m1 m2 r); [auto| |exact C]. rewrite existsb_app. cbn. apply orb_true_r.
Qed.
Lemma tern_calls o : forall ms, Forall wf ms -> Forall (fun m => m_size m = 1) ms -> by_start ms -> filter istern (UpdateIndex o ms) = map tcall (tpairs o ms).
Proof.
  induction ms as [|m1 r IH]; intros W O S; [reflexivity|]. cbn [UpdateIndex tpairs]. inversion W; inversion O; inversion S; subst.
  rewrite filter_app, map_app, IH, tern_calls1; auto.
Qed.

(** ** Members *)
Lemma in_bpairs o ms : 0 <= gap o -> Forall wf ms -> by_start ms -> forall m1 m2, In (m1, m2) (bpairs o ms) <-> In m1 ms /\ In m2 ms /\ bcond o m1 m2 = true.
Proof.
  intros G. induction ms as [|m r IH]; intros W S m1 m2; cbn [bpairs In]; [tauto|]. inversion W; inversion S; subst. rewrite in_app_iff, IH by auto.
  rewrite in_map_iff. split.
  - intros [(x & E & X)|(A & B & C)]; [|tauto]. injection E as <- <-. apply filter_In in X. tauto.
  - intros ([<-|A] & B & C).
    + left. exists m2. split; [auto|]. apply filter_In. split; [|auto]. destruct B as [<-|B]; [|auto]. exfalso. unfold bcond in C. rewrite !andb_true_iff, !Z.leb_le in C. destruct H1 as (V1 & _). lia.
    + destruct B as [<-|B]; [|tauto]. exfalso. rewrite Forall_forall in H6. specialize (H6 m1 A). rewrite Forall_forall in H2. destruct (H2 m1 A) as (V & _). unfold bcond in C. rewrite !andb_true_iff, !Z.leb_le in C. lia.
Qed.
Lemma nodup_app_ {A} (a b : list A) : NoDup a -> NoDup b -> (forall x, In x a -> In x b -> False) -> NoDup (a ++ b).
Proof.
  induction 1 as [|x a NI ND IH]; intros NB D; cbn; auto. constructor.
  - intros X. apply in_app_or in X. destruct X as [X|X]; [auto|]. apply (D x); cbn; auto.
  - apply IH; auto. intros y Y. apply D. right; auto.
Qed.
Lemma nodup_bpairs o : forall ms, NoDup ms -> NoDup (bpairs o ms).
Proof.
  induction 1 as [|m r NI ND IH]; cbn [bpairs]; [constructor|]. apply nodup_app_; auto.
  - apply map_nodup; [apply NoDup_filter; auto|]. intros x y _ _ E. injection E. auto.
  - intros x X Y. apply in_map_iff in X. destruct X as (z & <- & _). apply NI. clear - Y. induction r as [|m' r IH]; cbn [bpairs] in Y; [destruct Y|].
    apply in_app_or in Y. destruct Y as [Y|Y]; [apply in_map_iff in Y; destruct Y as (q & E & _); injection E as -> _; left; auto|right; auto].
Qed.
Lemma in_tpairs1 o m1 ms : 0 <= gap o -> wf m1 -> Forall wf ms -> by_start ms -> (forall m, In m ms -> m_start m1 <= m_start m) ->
  forall x m2 m3, In (x, m2, m3) (tpairs1 o m1 ms) <-> x = m1 /\ In m2 ms /\ In m3 ms /\ bcond o m1 m2 = true /\ m_super m2 = true /\ tcond o m1 m2 m3 = true.
Proof.
  intros G W1. induction ms as [|m r IH]; intros W S Hs x m2 m3; cbn [tpairs1 In]; [tauto|]. inversion W; inversion S; subst. rewrite in_app_iff, IH by (auto; intros; apply Hs; right; auto). split.
  - intros [X|X]; [|tauto]. destruct (bcond o m1 m) eqn:E1; [|destruct X]. destruct (m_super m) eqn:E2; [|destruct X]. cbn [andb] in X.
    apply in_map_iff in X. destruct X as (y & E & Y). injection E as <- <- <-. apply filter_In in Y. tauto.
  - intros (-> & A & B & C1 & C2 & C3). assert (Q : m_start m2 < m_start m3). { unfold tcond in C3. rewrite !andb_true_iff, !Z.leb_le in C3. rewrite Forall_forall in W. destruct (W m2 A) as (V & _). lia. }
    destruct A as [<-|A].
    + left. rewrite C1, C2. cbn [andb]. apply in_map_iff. exists m3. split; [auto|]. apply filter_In. split; [|auto]. destruct B as [<-|B]; [lia|auto].
    + destruct B as [<-|B]; [|tauto]. exfalso. rewrite Forall_forall in H6. specialize (H6 m2 A). lia.
Qed.
Lemma in_tpairs o ms : 0 <= gap o -> Forall wf ms -> by_start ms -> forall m1 m2 m3, In (m1, m2, m3) (tpairs o ms) <->
  In m1 ms /\ In m2 ms /\ In m3 ms /\ bcond o m1 m2 = true /\ m_super m2 = true /\ tcond o m1 m2 m3 = true.
Proof.
  intros G. induction ms as [|m r IH]; intros W S m1 m2 m3; cbn [tpairs In]; [tauto|]. inversion W; inversion S; subst.
  rewrite Forall_forall in H6. rewrite in_app_iff, IH, in_tpairs1 by auto. split.
  - intros [(-> & X)|X]; tauto.
  - intros (A & B & C & D1 & D2 & D3). rewrite Forall_forall in W.
    assert (Q : m_start m2 < m_start m3). { unfold tcond in D3. rewrite !andb_true_iff, !Z.leb_le in D3. destruct (W m2 B) as (V & _). lia. }
    assert (Q' : m_start m1 < m_start m2). { unfold bcond in D1. rewrite !andb_true_iff, !Z.leb_le in D1. destruct (W m1 A) as (V & _). lia. }
    destruct C as [<-|C]; [exfalso; destruct B as [<-|B]; [lia|specialize (H6 m2 B); lia]|].
    destruct B as [<-|B]; [exfalso; destruct A as [<-|A]; [lia|specialize (H6 m1 A); lia]|].
    destruct A as [<-|A]; tauto.
Qed.
Lemma nodup_tpairs1 o m1 : forall ms, NoDup ms -> NoDup (tpairs1 o m1 ms).
Proof.
  induction 1 as [|m r NI ND IH]; cbn [tpairs1]; [constructor|]. apply nodup_app_; auto.
  - destruct (andb _ _); [|constructor]. apply map_nodup; [apply NoDup_filter; auto|]. intros x y _ _ E. injection E. auto.
  - intros x X Y. destruct (andb _ _); [|destruct X]. apply in_map_iff in X. destruct X as (z & <- & _). apply NI. clear - Y. induction r as [|m' r IH]; cbn [tpairs1] in Y; [destruct Y|].
    apply in_app_or in Y. destruct Y as [Y|Y]; [|right; auto]. destruct (andb _ _); [|destruct Y]. apply in_map_iff in Y. destruct Y as (q & E & _). injection E as -> _. left; auto.
Qed.
Lemma nodup_tpairs o : forall ms, NoDup ms -> NoDup (tpairs o ms).
Proof.
  induction 1 as [|m r NI ND IH]; cbn [tpairs]; [constructor|]. apply nodup_app_; auto using nodup_tpairs1.
  assert (A : forall l x, In x (tpairs1 o m l) -> fst (fst x) = m).
  { induction l as [|y l IHl]; intros x; cbn [tpairs1]; [intros []|]. intros X. apply in_app_or in X. destruct X as [X|X]; [|auto]. destruct (andb _ _); [|destruct X].
    apply in_map_iff in X. destruct X as (q & <- & _). auto. }
  assert (B : forall l x, In x (tpairs o l) -> In (fst (fst x)) l).
  { clear. induction l as [|y l IHl]; intros x; cbn [tpairs]; [intros []|]. intros X. apply in_app_or in X. destruct X as [X|X]; [left|right; auto].
    clear - X. induction l as [|z l IHl]; cbn [tpairs1] in X; [destruct X|]. apply in_app_or in X. destruct X as [X|X]; [|auto]. destruct (andb _ _); [|destruct X].
    apply in_map_iff in X. destruct X as (q & <- & _). auto. }
  intros x X Y. apply A in X. apply B in Y. rewrite X in Y. auto.
Qed.

Lemma find_last_in : forall F i w, (exists k, find_last F i w = Some k) <-> In w F.
Proof.
  induction F as [|x F IH]; intros i w; cbn [find_last In]; [split; [intros (k & K); discriminate|tauto]|].
  destruct (find_last F (i + 1) w) eqn:E.
  - split; [|eauto]. intros _. right. apply (IH (i + 1)). eauto.
  - destruct (list_eqb x w) eqn:E2.
    + apply list_eqb_spec in E2. split; [auto|eauto].
    + split; [intros (k & K); discriminate|]. intros [->|X]; [rewrite list_eqb_refl in E2; discriminate|]. apply (IH (i + 1)) in X. destruct X as (k & K). congruence.
Qed.
(** * The matchings of a sentence *)
Section Build.
Variable ann : Z -> Z.
Variable o : opts.
Variable F : list (list Z).
Hypothesis ANN0 : forall x, 0 <= ann x.
Hypothesis ANNI : forall x y, ann x = ann y -> x = y.
Hypothesis FE : Forall (fun w => ~ In 1 w) F.
Hypothesis GAP : 0 <= gap o.

Definition supr (w : list Z) : bool := match find_last F 0 w with Some n => n <? num_super o | None => false end.
Definition mk (i : Z) (w : list Z) : matching := {| m_start := i; m_size := size w; m_super := supr w; m_ann := map ann w |}.
Definition okw (w rest : list Z) : Prop := w <> [] /\ (length w <= max_phrase o)%nat /\ starts w rest /\ prefixes_in F w.
Lemma in_matches_at i : forall left rest pattern m, In m (matches_at ann o F i pattern rest left) <->
  exists v, v <> [] /\ (length v <= left)%nat /\ starts v rest /\ (forall u, u <> [] -> starts u v -> In (pattern ++ u) F) /\ m = mk i (pattern ++ v).
Proof.
  induction left as [|k IH]; intros rest pattern m.
  { cbn [matches_at]. split; [intros []|]. intros (v & V & L & _). destruct v; [congruence|cbn in L; lia]. }
  destruct rest as [|x r]; cbn [matches_at].
  { split; [intros []|]. intros (v & V & _ & (q & Q) & _). destruct v; [congruence|discriminate]. }
  destruct (find_last F 0 (pattern ++ [x])) as [n|] eqn:E.
  - assert (FX : In (pattern ++ [x]) F) by (apply (find_last_in F 0); eauto). cbn [In]. rewrite IH. split.
    + intros [<-|(v & V1 & V2 & V3 & V4 & ->)].
      * exists [x]. split; [discriminate|]. split; [cbn; lia|]. split; [exists r; auto|]. split.
        -- intros [|y u] U1 (q & Q); [congruence|]. injection Q as <- Q. destruct u; [auto|discriminate].
        -- unfold mk, supr. rewrite E. auto.
      * exists (x :: v). split; [discriminate|]. split; [cbn; lia|]. split; [destruct V3 as (q & ->); exists q; auto|]. split.
        -- intros [|y u] U1 (q & Q); [congruence|]. injection Q as <- Q. destruct u as [|z u]; [auto|].
           change (pattern ++ x :: z :: u) with (pattern ++ [x] ++ z :: u). rewrite app_assoc. apply V4; [discriminate|exists q; auto].
        -- unfold mk. rewrite <- app_assoc. auto.
    + intros (v & V1 & V2 & (q & Q) & V4 & ->). destruct v as [|y v]; [congruence|]. injection Q as <- ->. destruct v as [|z v].
      * left. unfold mk, supr. rewrite E. auto.
      * right. exists (z :: v). split; [discriminate|]. split; [cbn in *; lia|]. split; [exists q; auto|]. split.
        -- intros u U1 (q' & U2). rewrite <- app_assoc. apply V4; [discriminate|]. exists q'. cbn [app]. f_equal. auto.
        -- unfold mk. rewrite <- app_assoc. auto.
  - split; [intros []|]. intros (v & V1 & V2 & (q & Q) & V4 & ->). destruct v as [|y v]; [congruence|]. injection Q as <- ->.
    assert (X : In (pattern ++ [x]) F) by (apply V4; [discriminate|exists v; auto]). apply (find_last_in F 0) in X. destruct X as (n & X). congruence.
Qed.
Lemma in_matches i rest m : In m (matches_at ann o F i [] rest (max_phrase o)) <-> exists w, okw w rest /\ m = mk i w.
Proof.
  rewrite in_matches_at. unfold okw, prefixes_in. split.
  - intros (v & A & B & C & D & ->). exists v. cbn [app] in *. auto.
  - intros (v & (A & B & C & D) & ->). exists v. cbn [app]. auto.
Qed.
Lemma matches_start i : forall left rest pattern m, In m (matches_at ann o F i pattern rest left) -> m_start m = i.
Proof. intros left rest pattern m H. apply in_matches_at in H. destruct H as (v & _ & _ & _ & _ & ->). auto. Qed.
Lemma matches_nodup i : forall left rest pattern, NoDup (matches_at ann o F i pattern rest left).
Proof.
  induction left as [|k IH]; intros rest pattern; cbn [matches_at]; [constructor|]. destruct rest as [|x r]; [constructor|].
  destruct (find_last F 0 (pattern ++ [x])) eqn:E; [|constructor]. constructor; auto. intros X. apply in_matches_at in X. destruct X as (v & V & _ & _ & _ & Q).
  apply (f_equal m_size) in Q. cbn [m_size mk] in Q. rewrite (size_app (pattern ++ [x]) v) in Q. destruct v; [congruence|]. unfold size in Q. cbn [length] in Q. lia.
Qed.
Lemma ann_inj : forall a b, map ann a = map ann b -> a = b.
Proof. induction a as [|x a IH]; intros [|y b] E; try discriminate; auto. injection E as E1 E2. f_equal; auto. Qed.

(** the matchings that start in [s], when the data from position i on are [s ++ tail] *)
Fixpoint sent_ms (i : Z) (s tail : list Z) : list matching :=
  match s with [] => [] | x :: r => matches_at ann o F i [] (s ++ tail) (max_phrase o) ++ sent_ms (i + 1) r tail end.
Lemma in_sent_ms : forall s i tail m, In m (sent_ms i s tail) <->
  exists p w, 0 <= p < size s /\ okw w (suffix (s ++ tail) p) /\ m = mk (i + p) w.
Proof.
  induction s as [|x r IH]; intros i tail m; cbn [sent_ms].
  { split; [intros []|]. intros (p & w & P & _). unfold size in P. cbn in P. lia. }
  rewrite in_app_iff, in_matches, IH. unfold size in *. cbn [length]. split.
  - intros [(w & W & ->)|(p & w & P & W & ->)].
    + exists 0, w. split; [lia|]. split; [exact W|]. rewrite Z.add_0_r. auto.
    + exists (p + 1), w. split; [lia|]. split; [|f_equal; lia]. unfold suffix in *. replace (Z.to_nat (p + 1)) with (S (Z.to_nat p)) by lia. exact W.
  - intros (p & w & P & W & ->). destruct (Z.eq_dec p 0) as [->|]; [left; exists w; split; [exact W|f_equal; lia]|]. right. exists (p - 1), w. split; [lia|]. split; [|f_equal; lia].
    unfold suffix in *. replace (Z.to_nat p) with (S (Z.to_nat (p - 1))) in W by lia. exact W.
Qed.
Lemma sent_start s i tail m : In m (sent_ms i s tail) -> i <= m_start m < i + size s.
Proof. intros H. apply in_sent_ms in H. destruct H as (p & w & P & _ & ->). cbn. lia. Qed.
Lemma sent_wf s i tail : Forall wf (sent_ms i s tail).
Proof.
  apply Forall_forall. intros m M. apply in_sent_ms in M. destruct M as (p & w & P & (W1 & _) & ->). unfold wf. cbn [mk m_size m_ann].
  split; [destruct w; [congruence|unfold size; cbn; lia]|]. split; [unfold size; rewrite map_length; auto|]. apply Forall_forall. intros x X. apply in_map_iff in X. destruct X as (y & <- & _). auto.
Qed.
Lemma ss_app {A} (R : A -> A -> Prop) a b : StronglySorted R a -> StronglySorted R b -> (forall x y, In x a -> In y b -> R x y) -> StronglySorted R (a ++ b).
Proof.
  induction 1 as [|x a S IH FA]; intros SB C; cbn; auto. constructor; [apply IH; auto; intros; apply C; auto; right; auto|].
  apply Forall_app. split; auto. apply Forall_forall. intros; apply C; auto; left; auto.
Qed.
Lemma ss_const {A} (f : A -> Z) i l : (forall x, In x l -> f x = i) -> StronglySorted (fun a b => f a <= f b) l.
Proof. induction l as [|x l IH]; intros H; constructor; [apply IH; intros; apply H; right; auto|]. apply Forall_forall. intros y Y. rewrite (H x), (H y); [lia|right; auto|left; auto]. Qed.
Lemma sent_sorted : forall s i tail, by_start (sent_ms i s tail).
Proof.
  unfold by_start. induction s as [|x r IH]; intros i tail; cbn [sent_ms]; [constructor|]. apply ss_app; auto.
  - apply (ss_const _ i). intros m M. eapply matches_start; eauto.
  - intros a b A B. apply matches_start in A. apply sent_start in B. lia.
Qed.
Lemma sent_nodup : forall s i tail, NoDup (sent_ms i s tail).
Proof.
  induction s as [|x r IH]; intros i tail; cbn [sent_ms]; [constructor|]. apply nodup_app_; auto using matches_nodup.
  intros m A B. apply matches_start in A. apply sent_start in B. lia.
Qed.

(** ** The corpus: sentences, each followed by the symbol 1 *)
Definition corpus (sents : list (list Z)) : list Z := flat_map (fun s => s ++ [1]) sents.
Lemma scan_sent : forall s i tail ms, ~ In 1 s ->
  scan ann o F i (s ++ 1 :: tail) ms = UpdateIndex o (ms ++ sent_ms i s (1 :: tail)) ++ scan ann o F (i + size s + 1) tail [].
Proof.
  induction s as [|x r IH]; intros i tail ms NI; cbn [scan app sent_ms].
  { rewrite app_nil_r. cbn. f_equal. f_equal. unfold size. cbn. lia. }
  destruct (Z.eqb_spec x END_OF_LINE) as [->|]; [exfalso; apply NI; left; auto|]. rewrite IH by (intros X; apply NI; right; auto).
  rewrite <- app_assoc. f_equal. f_equal. unfold size. cbn [length]. lia.
Qed.
Fixpoint all_ms (i : Z) (sents : list (list Z)) : list (list matching) :=
  match sents with [] => [] | s :: r => sent_ms i s (1 :: corpus r) :: all_ms (i + size s + 1) r end.
Lemma scan_all : forall sents i, Forall (fun s => ~ In 1 s) sents -> scan ann o F i (corpus sents) [] = flat_map (UpdateIndex o) (all_ms i sents).
Proof.
  induction sents as [|s r IH]; intros i H; [reflexivity|]. inversion H; subst. cbn [corpus flat_map all_ms]. change (flat_map (fun s0 => s0 ++ [1]) r) with (corpus r).
  rewrite <- app_assoc. cbn [app]. rewrite scan_sent by auto. cbn [app]. rewrite IH by auto. auto.
Qed.
Lemma all_ms_props : forall sents i ms, In ms (all_ms i sents) -> Forall wf ms /\ by_start ms /\ NoDup ms /\ forall m, In m ms -> i <= m_start m.
Proof.
  induction sents as [|s r IH]; intros i ms; cbn [all_ms]; [intros []|]. intros [<-|X].
  - split; [apply sent_wf|]. split; [apply sent_sorted|]. split; [apply sent_nodup|]. intros m M. apply sent_start in M. lia.
  - destruct (IH _ _ X) as (A & B & C & D). split; [auto|]. split; [auto|]. split; [auto|]. intros m M. apply D in M. pose proof (size_nonneg s). lia.
Qed.
(** positions in a sentence *)
Definition in_sent (i : Z) (sents : list (list Z)) (ws : list (list Z)) (ps : list Z) : Prop :=
  exists ms, In ms (all_ms i sents) /\ Forall2 (fun w p => In (mk p w) ms) ws ps.
Lemma mk_inj p w p' w' : mk p w = mk p' w' -> p = p' /\ w = w'.
Proof. intros E. injection E as -> _ _ E. apply ann_inj in E. auto. Qed.
Lemma sent_mem s i tail p w : In (mk p w) (sent_ms i s tail) <-> i <= p < i + size s /\ okw w (suffix (s ++ tail) (p - i)).
Proof.
  rewrite in_sent_ms. split.
  - intros (q & v & Q & V & E). apply mk_inj in E. destruct E as [-> ->]. split; [lia|]. replace (i + q - i) with q by lia. auto.
  - intros (A & B). exists (p - i), w. split; [lia|]. split; [auto|]. f_equal. lia.
Qed.
Lemma suffix_shift a b p : size a <= p -> suffix (a ++ b) p = suffix b (p - size a).
Proof.
  intros H. unfold suffix. rewrite skipn_app, skipn_all2 by (unfold size in *; lia). cbn. f_equal. unfold size. lia.
Qed.
Lemma head_at w data p : w <> [] -> 0 <= p -> starts w (suffix data p) -> exists x, In x w /\ nth_error data (Z.to_nat p) = Some x.
Proof.
  intros W P (q & Q). destruct w as [|x w]; [congruence|]. exists x. split; [left; auto|]. unfold suffix in Q.
  assert (E : nth_error (skipn (Z.to_nat p) data) 0 = Some x) by (rewrite Q; auto). clear Q. revert data E. generalize (Z.to_nat p). induction n as [|n IH]; intros [|y data] E; cbn in *; try discriminate; auto.
Qed.
Lemma okw_noend w rest : okw w rest -> ~ In 1 w.
Proof. intros (A & B & C & D). rewrite Forall_forall in FE. apply FE. apply D; auto. exists []. rewrite app_nil_r. auto. Qed.
Definition good_at (data : list Z) (w : list Z) (p : Z) : Prop := 0 <= p /\ okw w (suffix data p).
Lemma good_range data w p : good_at data w p -> p < size data.
Proof. intros (P & (W & _ & S & _)). destruct (head_at w data p W P S) as (x & _ & E). assert (nth_error data (Z.to_nat p) <> None) by congruence. apply nth_error_Some in H. unfold size. lia. Qed.
Lemma same_mono data p q q' : same_sentence data p q -> q' <= q -> same_sentence data p q'.
Proof. intros S H k K. apply S. lia. Qed.

(** two positions are matched in one sentence *)
Lemma in_sent_two : forall sents i w1 w2 p1 p2, Forall (fun s => ~ In 1 s) sents -> p1 <= p2 ->
  ((exists ms, In ms (all_ms i sents) /\ In (mk p1 w1) ms /\ In (mk p2 w2) ms) <->
   good_at (corpus sents) w1 (p1 - i) /\ good_at (corpus sents) w2 (p2 - i) /\ same_sentence (corpus sents) (p1 - i) (p2 - i)).
Proof.
  induction sents as [|s r IH]; intros i w1 w2 p1 p2 H LE.
  { cbn [all_ms corpus flat_map]. split; [intros (ms & [] & _)|]. intros (A & _). pose proof (good_range _ _ _ A) as B. destruct A as (A & _). unfold size in B. cbn in B. lia. }
  inversion H; subst. cbn [all_ms corpus flat_map]. change (flat_map (fun s0 => s0 ++ [1]) r) with (corpus r). rewrite <- app_assoc. cbn [app].
  pose proof (size_nonneg s) as S0.
  assert (SH : forall p, size s < p -> suffix (s ++ 1 :: corpus r) p = suffix (corpus r) (p - size s - 1)).
  { intros p P. rewrite suffix_shift by lia. unfold suffix. replace (Z.to_nat (p - size s)) with (S (Z.to_nat (p - size s - 1))) by lia. reflexivity. }
  assert (NT1 : forall k, 0 <= k < size s -> nth_error (s ++ 1 :: corpus r) (Z.to_nat k) = nth_error s (Z.to_nat k)) by (intros k K; apply nth_error_app1; unfold size in K; lia).
  assert (NTE : nth_error (s ++ 1 :: corpus r) (Z.to_nat (size s)) = Some 1) by (rewrite nth_error_app2 by (unfold size; lia); replace (Z.to_nat (size s) - length s)%nat with 0%nat by (unfold size; lia); auto).
  assert (NT2 : forall k, size s < k -> nth_error (s ++ 1 :: corpus r) (Z.to_nat k) = nth_error (corpus r) (Z.to_nat (k - size s - 1))).
  { intros k K. rewrite nth_error_app2 by (unfold size in K; lia). replace (Z.to_nat k - length s)%nat with (S (Z.to_nat (k - size s - 1))) by (unfold size in *; lia). auto. }
  assert (GNE : forall w p, good_at (s ++ 1 :: corpus r) w p -> p <> size s).
  { intros w p (P & O) ->. pose proof (okw_noend _ _ O) as NE. destruct O as (W & _ & ST & _). destruct (head_at _ _ _ W P ST) as (x & X & E). rewrite NTE in E. injection E as <-. auto. }
  specialize (IH (i + size s + 1) w1 w2 p1 p2 H3 LE). split.
  - intros (ms & [<-|M] & A & B).
    + apply sent_mem in A, B. destruct A as (A1 & A2), B as (B1 & B2). split; [split; [lia|auto]|]. split; [split; [lia|auto]|].
      intros k K. rewrite NT1 by lia. intros E. apply nth_error_In in E. auto.
    + destruct IH as [IH _]. destruct IH as ((A1 & A2) & (B1 & B2) & C); [exists ms; auto|].
      split; [split; [lia|rewrite SH by lia; replace (p1 - i - size s - 1) with (p1 - (i + size s + 1)) by lia; auto]|].
      split; [split; [lia|rewrite SH by lia; replace (p2 - i - size s - 1) with (p2 - (i + size s + 1)) by lia; auto]|].
      intros k K. rewrite NT2 by lia. apply C. lia.
  - intros (A & B & C). pose proof (GNE _ _ A) as NA. pose proof (GNE _ _ B) as NB. destruct A as (A1 & A2), B as (B1 & B2).
    destruct (Z_lt_le_dec (p1 - i) (size s)) as [L|L].
    + destruct (Z_lt_le_dec (p2 - i) (size s)) as [L2|L2].
      * exists (sent_ms i s (1 :: corpus r)). split; [left; auto|]. split; apply sent_mem; (split; [lia|auto]).
      * exfalso. apply (C (size s)); [lia|]. auto.
    + destruct IH as [_ IH]. destruct IH as (ms & M1 & M2 & M3).
      * split; [split; [lia|]|split; [split; [lia|]|]].
        -- rewrite SH in A2 by lia. replace (p1 - (i + size s + 1)) with (p1 - i - size s - 1) by lia. auto.
        -- rewrite SH in B2 by lia. replace (p2 - (i + size s + 1)) with (p2 - i - size s - 1) by lia. auto.
        -- intros k K. specialize (C (k + size s + 1) ltac:(lia)). rewrite NT2 in C by lia. replace (k + size s + 1 - size s - 1) with k in C by lia. auto.
      * exists ms. split; [right; auto|auto].
Qed.
(** matchings of different sentences have different starts *)
Lemma all_ms_disjoint : forall sents i ms ms' m m', In ms (all_ms i sents) -> In ms' (all_ms i sents) -> In m ms -> In m' ms' -> m_start m = m_start m' -> ms = ms'.
Proof.
  induction sents as [|s r IH]; intros i ms ms' m m'; cbn [all_ms]; [intros []|]. intros [<-|A] [<-|B] M M' E; auto; try (eapply IH; eauto; fail); exfalso.
  - apply sent_start in M. apply all_ms_props in B. destruct B as (_ & _ & _ & B). apply B in M'. lia.
  - apply sent_start in M'. apply all_ms_props in A. destruct A as (_ & _ & _ & A). apply A in M. lia.
Qed.
Lemma all_ms_nodup_flat {B} (f : list matching -> list B) (g : B -> matching) : (forall ms, NoDup ms -> NoDup (f ms)) -> (forall ms x, In x (f ms) -> In (g x) ms) ->
  forall sents i, NoDup (flat_map f (all_ms i sents)).
Proof.
  intros NF GF. induction sents as [|s r IH]; intros i; cbn [all_ms flat_map]; [constructor|]. apply nodup_app_; auto.
  - apply NF. apply sent_nodup.
  - intros x X Y. apply GF in X. apply sent_start in X. apply in_flat_map in Y. destruct Y as (ms & M & Y). apply GF in Y. apply all_ms_props in M. destruct M as (_ & _ & _ & M). apply M in Y. lia.
Qed.
Lemma filter_flat_map {A B} (f : B -> bool) (g : A -> list B) l : filter f (flat_map g l) = flat_map (fun x => filter f (g x)) l.
Proof. induction l as [|x l IH]; cbn; auto. rewrite filter_app, IH. auto. Qed.
Lemma flat_map_map_ {A B C} (f : B -> C) (g : A -> list B) l : flat_map (fun x => map f (g x)) l = map f (flat_map g l).
Proof. induction l as [|x l IH]; cbn; auto. rewrite map_app, IH. auto. Qed.
Lemma flat_map_ext_in {A B} (f g : A -> list B) l : (forall x, In x l -> f x = g x) -> flat_map f l = flat_map g l.
Proof. induction l as [|x l IH]; intros H; cbn; auto. rewrite (H x), IH; auto; [|left; auto]. intros; apply H; right; auto. Qed.
Lemma filter_filter {A} (f g : A -> bool) l : (forall x, f x = true -> g x = true) -> filter f (filter g l) = filter f l.
Proof. intros H. induction l as [|x l IH]; cbn; auto. destruct (g x) eqn:E; cbn; [destruct (f x); rewrite IH; auto|]. destruct (f x) eqn:E2; auto. rewrite (H x E2) in E. discriminate. Qed.
Lemma filter_map_ {A B} (f : B -> bool) (g : A -> B) l : filter f (map g l) = map g (filter (fun x => f (g x)) l).
Proof. induction l as [|x l IH]; cbn; auto. destruct (f (g x)); cbn; rewrite IH; auto. Qed.
Lemma split_unique (a b a' b' : list Z) x : ~ In x a -> ~ In x a' -> a ++ x :: b = a' ++ x :: b' -> a = a' /\ b = b'.
Proof.
  revert a'. induction a as [|y a IH]; intros [|y' a'] H1 H2 E; cbn in *.
  - injection E. auto.
  - injection E as -> _. tauto.
  - injection E as -> _. tauto.
  - injection E as -> E. destruct (IH a') as [-> ->]; auto.
Qed.
Lemma ann_notin w x : x < 0 -> ~ In x (map ann w).
Proof. intros H I. apply in_map_iff in I. destruct I as (y & <- & _). specialize (ANN0 y). lia. Qed.
Lemma bkey_inj w1 w2 v1 v2 : bkey (map ann w1) (map ann w2) = bkey (map ann v1) (map ann v2) -> w1 = v1 /\ w2 = v2.
Proof. unfold bkey. cbn [app]. intros E. apply split_unique in E; try (apply ann_notin; lia). destruct E as [E1 E2]. split; apply ann_inj; auto. Qed.
Lemma tkey_inj w1 w2 w3 v1 v2 v3 : tkey (map ann w1) (map ann w2) (map ann w3) = tkey (map ann v1) (map ann v2) (map ann v3) -> w1 = v1 /\ w2 = v2 /\ w3 = v3.
Proof.
  unfold tkey, bkey. rewrite <- !app_assoc. cbn [app]. intros E. apply split_unique in E; try (apply ann_notin; lia). destruct E as [E1 E2].
  apply split_unique in E2; try (apply ann_notin; lia). destruct E2 as [E2 E3]. split; [|split]; apply ann_inj; auto.
Qed.
Lemma concat_two {A} (f g : A -> Z) l : concat (map (fun x => [f x; g x]) l) = flat_map (fun p : Z * Z => [fst p; snd p]) (map (fun x => (f x, g x)) l).
Proof. induction l as [|x l IH]; cbn; auto. rewrite IH. auto. Qed.
Lemma concat_three {A} (f g h : A -> Z) l : concat (map (fun x => [f x; g x; h x]) l) = flat_map (fun p : Z * Z * Z => [fst (fst p); snd (fst p); snd p]) (map (fun x => (f x, g x, h x)) l).
Proof. induction l as [|x l IH]; cbn; auto. rewrite IH. auto. Qed.
Lemma all_mk : forall sents i ms m, In ms (all_ms i sents) -> In m ms -> exists p w, m = mk p w.
Proof.
  induction sents as [|s r IH]; intros i ms m; cbn [all_ms]; [intros []|]. intros [<-|A] M; [|eapply IH; eauto].
  apply in_sent_ms in M. destruct M as (p & w & _ & _ & ->). eauto.
Qed.

Theorem binary_ok sents w1 w2 : Forall (fun s => ~ In 1 s) sents ->
  exists pairs, GetCollocations (Precompute ann o F (corpus sents)) (map ann w1 ++ [-1] ++ map ann w2) = flat_map (fun p : Z * Z => [fst p; snd p]) pairs /\ NoDup pairs /\
  forall p1 p2, In (p1, p2) pairs <->
    good_at (corpus sents) w1 p1 /\ good_at (corpus sents) w2 p2 /\ same_sentence (corpus sents) p1 p2 /\
    gap o <= p2 - (p1 + size w1) /\ p2 + size w2 - p1 <= span o /\ size w1 + size w2 + 1 <= symbols o.
Proof.
  intros NS. unfold Precompute. rewrite get_build, scan_all by auto. set (K := map ann w1 ++ [-1] ++ map ann w2).
  assert (KB : K = bkey (map ann w1) (map ann w2)) by reflexivity.
  assert (NN : forall w, Forall (fun x => 0 <= x) (map ann w)) by (intros w; apply Forall_forall; intros x X; apply in_map_iff in X; destruct X as (y & <- & _); auto).
  rewrite <- (filter_filter _ (fun c => negb (istern c))).
  2:{ intros c E. apply list_eqb_spec in E. unfold istern. rewrite E, KB, bkey_bin by auto. auto. }
  rewrite filter_flat_map. rewrite (flat_map_ext_in _ (fun ms => map bcall (bpairs o ms))).
  2:{ intros ms M. destruct (all_ms_props _ _ _ M) as (A & B & _). apply bin_calls; auto. }
  rewrite flat_map_map_, filter_map_, map_map. set (BP := filter _ (flat_map (bpairs o) (all_ms 0 sents))).
  rewrite (map_ext _ (fun x => [m_start (fst x); m_start (snd x)])) by auto. rewrite concat_two.
  eexists. split; [reflexivity|].
  assert (BI : forall p1 p2 (x : matching * matching), In x BP -> m_start (fst x) = p1 -> m_start (snd x) = p2 -> x = (mk p1 w1, mk p2 w2)).
  { intros p1 p2 (a & b) X E1 E2. apply filter_In in X. destruct X as [X1 X2]. apply list_eqb_spec in X2. apply in_flat_map in X1. destruct X1 as (ms & M & X1).
    destruct (all_ms_props _ _ _ M) as (A & B & _). apply in_bpairs in X1; auto. destruct X1 as (Y1 & Y2 & Y3).
    destruct (all_mk _ _ _ _ M Y1) as (q1 & v1 & ->). destruct (all_mk _ _ _ _ M Y2) as (q2 & v2 & ->). cbn in E1, E2. subst q1 q2.
    unfold bcall in X2. cbn [fst snd mk m_ann] in X2. rewrite KB in X2. apply bkey_inj in X2. destruct X2 as [-> ->]. auto. }
  split.
  - apply map_nodup.
    + apply NoDup_filter. apply (all_ms_nodup_flat _ fst); [intros; apply nodup_bpairs; auto|]. intros ms (a & b). clear. cbn [fst]. induction ms as [|m r IH]; cbn [bpairs]; [intros []|].
      intros X. apply in_app_or in X. destruct X as [X|X]; [apply in_map_iff in X; destruct X as (q & E & _); injection E as -> _; left; auto|right; auto].
    + intros x y X Y E. injection E as E1 E2. rewrite (BI _ _ x X eq_refl eq_refl), (BI _ _ y Y eq_refl eq_refl), E1, E2. auto.
  - intros p1 p2. pose proof (in_sent_two sents 0 w1 w2 p1 p2 NS) as IS. rewrite !Z.sub_0_r in IS. rewrite in_map_iff. split.
    + intros (x & E & X). injection E as E1 E2. pose proof (BI _ _ x X E1 E2) as ->. clear E1 E2. apply filter_In in X. destruct X as [X _]. apply in_flat_map in X. destruct X as (ms & M & X).
      destruct (all_ms_props _ _ _ M) as (A & B & _). apply in_bpairs in X; auto. destruct X as (Y1 & Y2 & Y3). unfold bcond in Y3. cbn [mk m_start m_size] in Y3. rewrite !andb_true_iff, !Z.leb_le in Y3.
      pose proof (size_nonneg w1). destruct IS as [IS _]; [lia|]. destruct IS as (I1 & I2 & I3); [exists ms; auto|]. split; [auto|]. split; [auto|]. split; [auto|]. lia.
    + intros (A & B & C & D1 & D2 & D3). pose proof (size_nonneg w1). destruct IS as [_ IS]; [lia|]. destruct IS as (ms & M & Y1 & Y2); [auto|].
      exists (mk p1 w1, mk p2 w2). split; [auto|]. apply filter_In. split; [|apply list_eqb_refl]. apply in_flat_map. exists ms. split; [auto|].
      destruct (all_ms_props _ _ _ M) as (W & S & _). apply in_bpairs; auto. split; [auto|]. split; [auto|]. unfold bcond. cbn [mk m_start m_size]. rewrite !andb_true_iff, !Z.leb_le. lia.
Qed.
Theorem ternary_ok sents w1 w2 w3 : max_phrase o = 1%nat -> Forall (fun s => ~ In 1 s) sents ->
  exists triples, GetCollocations (Precompute ann o F (corpus sents)) (map ann w1 ++ [-1] ++ map ann w2 ++ [-2] ++ map ann w3) = flat_map (fun p : Z * Z * Z => [fst (fst p); snd (fst p); snd p]) triples /\ NoDup triples /\
  forall p1 p2 p3, In (p1, p2, p3) triples <->
    good_at (corpus sents) w1 p1 /\ good_at (corpus sents) w2 p2 /\ good_at (corpus sents) w3 p3 /\ same_sentence (corpus sents) p1 p3 /\
    gap o <= p2 - (p1 + size w1) /\ gap o <= p3 - (p2 + size w2) /\ p3 + size w3 - p1 <= span o /\ size w1 + size w2 + size w3 + 2 <= symbols o /\
    supr w2 = true /\ (supr w1 = true \/ supr w3 = true).
Proof.
  intros ONE NS. unfold Precompute. rewrite get_build, scan_all by auto. set (K := map ann w1 ++ [-1] ++ map ann w2 ++ [-2] ++ map ann w3).
  assert (KB : K = tkey (map ann w1) (map ann w2) (map ann w3)) by (unfold K, tkey, bkey; rewrite <- !app_assoc; reflexivity).
  assert (SZ : forall ms, In ms (all_ms 0 sents) -> Forall (fun m => m_size m = 1) ms).
  { generalize 0 as i. clear - ONE. induction sents as [|s r IH]; intros i ms; cbn [all_ms]; [intros []|]. intros [<-|A]; [|eapply IH; eauto]. apply Forall_forall. intros m M.
    apply in_sent_ms in M. destruct M as (p & w & _ & (W1 & W2 & _) & ->). cbn. destruct w as [|a [|b w]]; [congruence|auto|]. rewrite ONE in W2. cbn in W2. lia. }
  rewrite <- (filter_filter _ istern).
  2:{ intros c E. apply list_eqb_spec in E. unfold istern. rewrite E, KB. unfold tkey. rewrite !existsb_app. cbn. rewrite orb_true_r. auto. }
  rewrite filter_flat_map. rewrite (flat_map_ext_in _ (fun ms => map tcall (tpairs o ms))).
  2:{ intros ms M. destruct (all_ms_props _ _ _ M) as (A & B & _). apply tern_calls; auto. }
  rewrite flat_map_map_, filter_map_, map_map. set (TP := filter _ (flat_map (tpairs o) (all_ms 0 sents))).
  rewrite (map_ext _ (fun x => [m_start (fst (fst x)); m_start (snd (fst x)); m_start (snd x)])) by auto. rewrite concat_three.
  eexists. split; [reflexivity|].
  assert (BI : forall p1 p2 p3 (x : matching * matching * matching), In x TP -> m_start (fst (fst x)) = p1 -> m_start (snd (fst x)) = p2 -> m_start (snd x) = p3 -> x = (mk p1 w1, mk p2 w2, mk p3 w3)).
  { intros p1 p2 p3 ((a & b) & c) X E1 E2 E3. apply filter_In in X. destruct X as [X1 X2]. apply list_eqb_spec in X2. apply in_flat_map in X1. destruct X1 as (ms & M & X1).
    destruct (all_ms_props _ _ _ M) as (A & B & _). apply in_tpairs in X1; auto. destruct X1 as (Y1 & Y2 & Y3 & _).
    destruct (all_mk _ _ _ _ M Y1) as (q1 & v1 & ->). destruct (all_mk _ _ _ _ M Y2) as (q2 & v2 & ->). destruct (all_mk _ _ _ _ M Y3) as (q3 & v3 & ->). cbn in E1, E2, E3. subst q1 q2 q3.
    unfold tcall in X2. cbn [fst snd mk m_ann] in X2. rewrite KB in X2. apply tkey_inj in X2. destruct X2 as (-> & -> & ->). auto. }
  split.
  - apply map_nodup.
    + apply NoDup_filter. apply (all_ms_nodup_flat _ (fun x => fst (fst x))); [intros; apply nodup_tpairs; auto|]. clear. induction ms as [|y l IHl]; intros x; cbn [tpairs]; [intros []|]. intros X. apply in_app_or in X. destruct X as [X|X]; [left|right; auto].
      clear - X. induction l as [|z l IHl]; cbn [tpairs1] in X; [destruct X|]. apply in_app_or in X. destruct X as [X|X]; [|auto]. destruct (andb _ _); [|destruct X].
      apply in_map_iff in X. destruct X as (q & <- & _). auto.
    + intros x y X Y E. injection E as E1 E2 E3. rewrite (BI _ _ _ x X eq_refl eq_refl eq_refl), (BI _ _ _ y Y eq_refl eq_refl eq_refl), E1, E2, E3. auto.
  - intros p1 p2 p3. pose proof (in_sent_two sents 0 w1 w2 p1 p2 NS) as IS. pose proof (in_sent_two sents 0 w1 w3 p1 p3 NS) as IS'. rewrite !Z.sub_0_r in *. pose proof (size_nonneg w1). pose proof (size_nonneg w2). rewrite in_map_iff. split.
    + intros (x & E & X). injection E as E1 E2 E3. pose proof (BI _ _ _ x X E1 E2 E3) as ->. clear E1 E2 E3. apply filter_In in X. destruct X as [X _]. apply in_flat_map in X. destruct X as (ms & M & X).
      destruct (all_ms_props _ _ _ M) as (A & B & _). apply in_tpairs in X; auto. destruct X as (Y1 & Y2 & Y3 & Y4 & Y5 & Y6). unfold bcond in Y4. unfold tcond in Y6. cbn [mk m_start m_size m_super] in *. rewrite !andb_true_iff, !Z.leb_le in Y4. rewrite !andb_true_iff, orb_true_iff, !Z.leb_le in Y6.
      destruct IS as [IS _]; [lia|]. destruct IS as (I1 & I2 & I3); [exists ms; auto|]. destruct IS' as [IS' _]; [lia|]. destruct IS' as (I4 & I5 & I6); [exists ms; auto|]. split; [auto|]. split; [auto|]. split; [auto|]. split; [auto|].
      split; [lia|]. split; [lia|]. split; [lia|]. split; [lia|]. tauto.
    + intros (A & B & C & C' & D1 & D2 & D3 & D4 & D5 & D6). destruct IS as [_ IS]; [lia|]. destruct IS as (ms & M & Y1 & Y2); [split; [auto|]; split; [auto|]; apply (same_mono _ _ p3); [auto|lia]|].
      destruct IS' as [_ IS']; [lia|]. destruct IS' as (ms' & M' & Y1' & Y3); [auto|].
      assert (ms' = ms) by (apply (all_ms_disjoint sents 0 ms' ms (mk p1 w1) (mk p1 w1)); auto). subst ms'.
      exists (mk p1 w1, mk p2 w2, mk p3 w3). split; [auto|]. apply filter_In. split; [|unfold tcall; cbn [fst snd mk m_ann]; rewrite KB; apply list_eqb_refl]. apply in_flat_map. exists ms. split; [auto|].
      destruct (all_ms_props _ _ _ M) as (W & S & _). apply in_tpairs; auto. split; [auto|]. split; [auto|]. split; [auto|].
      assert (0 <= size w3) by apply size_nonneg. assert (1 <= size w3) by (destruct C as (_ & (C & _)); destruct w3; [congruence|unfold size; cbn; lia]).
      split; [unfold bcond; cbn [mk m_start m_size]; rewrite !andb_true_iff, !Z.leb_le; lia|]. split; [exact D5|].
      unfold tcond; cbn [mk m_start m_size m_super]. rewrite !andb_true_iff, orb_true_iff, !Z.leb_le. split; [lia|]. split; [lia|auto].
Qed.
End Build.

Lemma find_last_nth : forall F i w k, NoDup F -> find_last F i w = Some k -> exists n, nth_error F n = Some w /\ k = i + Z.of_nat n.
Proof.
  induction F as [|x F IH]; intros i w k ND E; cbn [find_last] in E; [discriminate|]. inversion ND; subst. destruct (find_last F (i + 1) w) eqn:E2.
  - injection E as <-. destruct (IH _ _ _ H2 E2) as (n & A & ->). exists (S n). split; [auto|lia].
  - destruct (list_eqb x w) eqn:E3; [|discriminate]. injection E as <-. apply list_eqb_spec in E3. subst. exists 0%nat. split; [auto|lia].
Qed.
Lemma supr_spec o F w : NoDup F -> supr o F w = true <-> among_first F (num_super o) w.
Proof.
  intros ND. unfold supr, among_first. destruct (find_last F 0 w) as [k|] eqn:E.
  - destruct (find_last_nth _ _ _ _ ND E) as (n & A & ->). rewrite Z.ltb_lt. split.
    + intros H. exists n. split; [auto|lia].
    + intros (m & M & H). rewrite NoDup_nth_error in ND. assert (n = m); [|subst; lia]. apply ND; [apply nth_error_Some; congruence|congruence].
  - split; [discriminate|]. intros (m & M & _). apply nth_error_In in M. apply (find_last_in F 0) in M. destruct M as (k & K). congruence.
Qed.
Lemma good_spec o F data w p : w <> [] -> (length w <= max_phrase o)%nat -> prefixes_in F w -> good_at o F data w p <-> at_pos data w p.
Proof. intros A B C. unfold good_at, okw, at_pos. tauto. Qed.

Lemma index_binary ann o F sents w1 w2 : (forall x, 0 <= ann x) -> (forall x y, ann x = ann y -> x = y) -> 0 <= gap o ->
  Forall (fun w => ~ In 1 w) F -> Forall (fun s => ~ In 1 s) sents ->
  w1 <> [] -> (length w1 <= max_phrase o)%nat -> prefixes_in F w1 -> w2 <> [] -> (length w2 <= max_phrase o)%nat -> prefixes_in F w2 ->
  exists pairs, GetCollocations (Precompute ann o F (text sents)) (map ann w1 ++ [-1] ++ map ann w2) = flat_map (fun p : Z * Z => [fst p; snd p]) pairs /\ NoDup pairs /\
  forall p1 p2, In (p1, p2) pairs <->
    at_pos (text sents) w1 p1 /\ at_pos (text sents) w2 p2 /\ same_sentence (text sents) p1 p2 /\
    gap o <= p2 - (p1 + Z.of_nat (length w1)) /\ p2 + Z.of_nat (length w2) - p1 <= span o /\ Z.of_nat (length w1 + length w2) + 1 <= symbols o.
Proof.
  intros A1 A2 G FE SE W1 W2 W3 V1 V2 V3. destruct (binary_ok ann o F A1 A2 FE G sents w1 w2 SE) as (pairs & E & N & P). exists pairs. split; [exact E|]. split; [auto|].
  intros p1 p2. rewrite P. rewrite !good_spec by auto. unfold size, corpus, text. rewrite Nat2Z.inj_add. tauto.
Qed.
Lemma index_ternary ann o F sents w1 w2 w3 : (forall x, 0 <= ann x) -> (forall x y, ann x = ann y -> x = y) -> 0 <= gap o -> NoDup F -> max_phrase o = 1%nat ->
  Forall (fun w => ~ In 1 w) F -> Forall (fun s => ~ In 1 s) sents ->
  length w1 = 1%nat -> In w1 F -> length w2 = 1%nat -> In w2 F -> length w3 = 1%nat -> In w3 F ->
  exists triples, GetCollocations (Precompute ann o F (text sents)) (map ann w1 ++ [-1] ++ map ann w2 ++ [-2] ++ map ann w3) = flat_map (fun p : Z * Z * Z => [fst (fst p); snd (fst p); snd p]) triples /\ NoDup triples /\
  forall p1 p2 p3, In (p1, p2, p3) triples <->
    at_pos (text sents) w1 p1 /\ at_pos (text sents) w2 p2 /\ at_pos (text sents) w3 p3 /\ same_sentence (text sents) p1 p3 /\
    gap o <= p2 - (p1 + 1) /\ gap o <= p3 - (p2 + 1) /\ p3 + 1 - p1 <= span o /\ 5 <= symbols o /\
    among_first F (num_super o) w2 /\ (among_first F (num_super o) w1 \/ among_first F (num_super o) w3).
Proof.
  intros A1 A2 G ND ONE FE SE W1 W2 V1 V2 U1 U2. destruct (ternary_ok ann o F A1 A2 FE G sents w1 w2 w3 ONE SE) as (tr & E & N & P). exists tr. split; [exact E|]. split; [auto|].
  assert (PI : forall w, length w = 1%nat -> In w F -> prefixes_in F w).
  { intros [|a [|b w]] L I; try discriminate. intros [|c v] H (q & Q); [congruence|]. injection Q as <- Q. symmetry in Q. apply app_eq_nil in Q. destruct Q as [-> ->]. auto. }
  assert (NE : forall w : list Z, length w = 1%nat -> w <> []) by (intros [|a w]; discriminate).
  intros p1 p2 p3. rewrite P. rewrite !good_spec by (auto; rewrite ?ONE; lia). rewrite !supr_spec by auto. unfold size, corpus, text. rewrite W1, V1, U1. change (Z.of_nat 1) with 1. tauto.
Qed.
Lemma index_ternary_bad : exists o F sents, 0 <= gap o /\ NoDup F /\ Forall (fun w => ~ In 1 w) F /\ Forall (fun s => ~ In 1 s) sents /\
  GetCollocations (Precompute (fun x => Z.abs x) o F (text sents)) ([2] ++ [-1] ++ [3] ++ [-2] ++ [3; 3]) = [0; 2; 5] /\
  forall p, ~ at_pos (text sents) [3; 3] p.
Proof.
  exists {| span := 10; gap := 1; symbols := 9; max_phrase := 2; num_super := 5 |}, [[2];[3];[2;3];[4]], [[2;5;3;6;2;3;6;4]].
  split; [cbn; lia|]. split; [repeat (constructor; [cbn; intuition discriminate|]); constructor|]. split; [repeat (constructor; [cbn; intuition discriminate|]); constructor|].
  split; [repeat (constructor; [cbn; intuition discriminate|]); constructor|]. split; [vm_compute; reflexivity|].
  intros p (P & q & Q). unfold suffix in Q. revert Q. generalize (Z.to_nat p) as n. intros n. unfold text. cbn [flat_map app].
  do 10 (destruct n as [|n]; [cbn; discriminate|]). destruct n; discriminate.
Qed.
