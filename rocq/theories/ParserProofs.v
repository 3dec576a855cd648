(** The parser's charts satisfy the chart equations. *)
From Coq Require Import List ZArith Bool Lia Permutation.
From Verif Require Import Opt HG Deriv TopoSpec Parser ParserSpec ParserForestProofs.
Import ListNotations.
Open Scope nat_scope.
Open Scope opt_scope.

(** ** Tries *)
Fixpoint at_path (t : trie) (p : list Z) : option trie :=
  match p with [] => Some t | s :: q => match Extend s t with Some t' => at_path t' q | None => None end end.
Definition bin (t : trie) (p : list Z) : list rule := match at_path t p with Some t' => GetRules t' | None => [] end.

Lemma at_path_snoc : forall p t s, at_path t (p ++ [s]) = match at_path t p with Some t' => Extend s t' | None => None end.
Proof.
  induction p as [|x p IH]; intros t s; cbn; [destruct (Extend s t); reflexivity|]. destruct (Extend x t); [apply IH|reflexivity].
Qed.
Lemma find_insert : forall (A : Type) (m : list (Z * A)) s s' v, find s (insert s' v m) = if Z.eqb s' s then Some v else find s m.
Proof.
  unfold find. induction m as [|(k, x) m IH]; intros s s' v; cbn.
  - destruct (Z.eqb s' s); reflexivity.
  - destruct (Z.eqb_spec k s') as [->|NE]; cbn.
    + destruct (Z.eqb s' s) eqn:E; reflexivity.
    + destruct (Z.eqb_spec k s) as [->|NE2]; [|apply IH]. destruct (Z.eqb_spec s' s); [congruence|reflexivity].
Qed.
Lemma bin_empty : forall p, bin (Trie [] []) p = [].
Proof. intros [|s p]; reflexivity. Qed.
Lemma add_path_bin : forall f r t p, bin (add_path f r t) p = bin t p ++ (if list_eq_dec Z.eq_dec f p then [r] else []).
Proof.
  induction f as [|x f IH]; intros r [b k] p.
  - destruct p as [|s p]; cbn; [reflexivity|]. rewrite app_nil_r. reflexivity.
  - destruct p as [|s p]; [cbn; rewrite app_nil_r; reflexivity|]. unfold bin in *. cbn [add_path at_path Extend]. rewrite find_insert.
    destruct (Z.eqb_spec x s) as [->|NE].
    + rewrite IH. destruct (find s k) as [t'|]; [|fold (bin (Trie [] []) p); rewrite bin_empty];
        (destruct (list_eq_dec Z.eq_dec f p), (list_eq_dec Z.eq_dec (s :: f) (s :: p)); try congruence; reflexivity).
    + destruct (list_eq_dec Z.eq_dec (x :: f) (s :: p)) as [Q|Q]; [congruence|]. rewrite app_nil_r. reflexivity.
Qed.
Lemma add_path_at : forall f r t p, at_path (add_path f r t) p <> None <-> at_path t p <> None \/ exists q, f = p ++ q.
Proof.
  induction f as [|x f IH]; intros r [b k] p.
  - destruct p as [|s p]; cbn; [split; [intros _; left; discriminate|intros _; discriminate]|].
    split; [intros H; left; exact H|]. intros [H|(q & H)]; [exact H|discriminate].
  - destruct p as [|s p]; [cbn; split; [intros _; left; discriminate|intros _; discriminate]|]. cbn [add_path at_path Extend]. rewrite find_insert.
    destruct (Z.eqb_spec x s) as [->|NE].
    + rewrite IH. destruct (find s k) as [t'|].
      * split; intros [H|(q & H)]; [left; exact H|right; exists q; cbn; congruence|left; exact H|right; exists q; cbn in H; congruence].
      * split; intros [H|(q & H)].
        -- destruct p as [|s' p]; [|destruct H; reflexivity]. right. exists f. reflexivity.
        -- right. exists q. cbn. congruence.
        -- destruct H. reflexivity.
        -- right. exists q. cbn in H. congruence.
    + split; [intros H; left; exact H|]. intros [H|(q & H)]; [exact H|]. cbn in H. congruence.
Qed.

Definition plain (r : rule) : bool := negb (IsUnary r).
Lemma load_ok : forall hs rs, let g := load_grammar hs rs in
  has_span g = hs /\ unaries g = filter IsUnary rs /\
  (forall p, bin (root g) p = filter (fun r => if list_eq_dec Z.eq_dec (rf r) p then plain r else false) rs) /\
  (forall r p q, In r rs -> plain r = true -> rf r = p ++ q -> at_path (root g) p <> None).
Proof.
  intros hs rs. unfold load_grammar. induction rs as [|r rs IH] using rev_ind.
  - cbn. split; [reflexivity|]. split; [reflexivity|]. split; [apply bin_empty|]. intros r p q [].
  - cbn zeta in *. rewrite fold_left_app. cbn [fold_left]. set (g := fold_left AddRule rs _) in *. destruct IH as (A & B & C & D).
    unfold AddRule. destruct (IsUnary r) eqn:U; cbn [has_span unaries root].
    + split; [exact A|]. split; [rewrite filter_app, B; cbn; rewrite U; reflexivity|]. split.
      * intros p. rewrite C, filter_app. replace (filter _ [r]) with (@nil rule); [rewrite app_nil_r; reflexivity|]. cbn. unfold plain. rewrite U. destruct (list_eq_dec Z.eq_dec (rf r) p); reflexivity.
      * intros r' p q I P. apply in_app_iff in I. destruct I as [I|[->|[]]]; [apply (D r' p q I P)|]. unfold plain in P. rewrite U in P. discriminate.
    + split; [exact A|]. split; [rewrite filter_app, B; cbn; rewrite U, app_nil_r; reflexivity|]. split.
      * intros p. rewrite add_path_bin, C, filter_app. f_equal. cbn. unfold plain. rewrite U. destruct (list_eq_dec Z.eq_dec (rf r) p); reflexivity.
      * intros r' p q I P E. apply add_path_at. apply in_app_iff in I. destruct I as [I|[->|[]]]; [left; apply (D r' p q I P E)|]. right. exists q. exact E.
Qed.

(** ** The forest, the charts of nodes and the map of nodes *)
Section Parser.
Variables kGOAL kEPS : Z.
Variable input : list (list arc).
Variable dist : nat -> nat -> Z.
Variable goal_cat : Z.
Variable goal_rule : rule.
Variable gs : list grammar.
Variable us : list rule.
Notation n := (length input).
Notation fedge := (list nat * payload * nat)%type.
Notation ApplyRule := (Parser.ApplyRule kGOAL).

Definition nongoal (p : Z * nat) : bool := negb (Z.eqb (fst p) kGOAL).
Record Core (s : state) (fn : list Z) (fe : list fedge) : Prop := {
  co_fv : FV (forest s) fn fe;
  co_cat : forall i j c h, In (c, h) (nodemap s i j) -> nth_error fn h = Some c;
  co_keys : forall i j, NoDup (map fst (nodemap s i j));
  co_place : forall i j i' j' c c' h, In (c, h) (nodemap s i j) -> In (c', h) (nodemap s i' j') -> i = i' /\ j = j';
  co_chart : forall i j, chart s i j = map snd (filter nongoal (nodemap s i j));
  co_head : forall tl p h, In (tl, p, h) fe -> In (lhs (p_rule p), h) (nodemap s (p_i p) (p_j p));
  co_edge : forall i j c h, In (c, h) (nodemap s i j) -> exists tl p, In (tl, p, h) fe /\ p_i p = i /\ p_j p = j /\ lhs (p_rule p) = c
}.

Definition desc (e : fedge) : rule * shape * list nat := let '(tl, p, _) := e in (p_rule p, p_feats p, tl).
(** [s'] comes from [s] by adding edges [es] over (i, j). *)
Record Adds (i j : nat) (es : list (rule * shape * list nat)) (s : state) fn fe (s' : state) fn' fe' : Prop := {
  ad_core : Core s' fn' fe';
  ad_fn : exists x, fn' = fn ++ x;
  ad_act : act s' = act s;
  ad_chart : forall i' j', (i', j') <> (i, j) -> chart s' i' j' = chart s i' j';
  ad_here : exists y, chart s' i j = chart s i j ++ y;
  ad_map : forall i' j', (i', j') <> (i, j) -> nodemap s' i' j' = nodemap s i' j';
  ad_keys : incl (map fst (nodemap s' i j)) (map fst (nodemap s i j) ++ map (fun e => lhs (fst (fst e))) es);
  ad_fe : exists ne, fe' = fe ++ ne /\ map desc ne = es /\ forall tl p h, In (tl, p, h) ne -> p_i p = i /\ p_j p = j
}.

Lemma pfind_some : forall (A : Type) c (m : list (Z * A)) v, find c m = Some v -> In (c, v) m.
Proof.
  unfold find. intros A c m v H. destruct (List.find _ m) as [(k, x)|] eqn:E; [|discriminate]. cbn in H. injection H as <-.
  apply find_some in E. destruct E as (I & Q). cbn in Q. apply Z.eqb_eq in Q. subst. exact I.
Qed.
Lemma pfind_none : forall (A : Type) c (m : list (Z * A)), find c m = None -> ~ In c (map fst m).
Proof.
  unfold find. intros A c m H I. destruct (List.find _ m) as [|] eqn:E; [discriminate|]. apply in_map_iff in I. destruct I as ((k, x) & <- & I).
  pose proof (List.find_none _ _ E _ I) as Q. cbn in Q. rewrite Z.eqb_refl in Q. discriminate.
Qed.

Lemma co_valid : forall s fn fe i j h, Core s fn fe -> In h (chart s i j) -> h < length fn /\ exists c, In (c, h) (nodemap s i j) /\ c <> kGOAL /\ nth_error fn h = Some c.
Proof.
  intros s fn fe i j h C I. rewrite (co_chart _ _ _ C) in I. apply in_map_iff in I. destruct I as ((c, h') & <- & I). apply filter_In in I. destruct I as (I & G).
  pose proof (co_cat _ _ _ C _ _ _ _ I) as Q. split; [apply nth_error_Some; cbn in *; congruence|]. exists c. split; [exact I|]. split; [|exact Q].
  unfold nongoal in G. cbn in G. intros ->. rewrite Z.eqb_refl in G. discriminate.
Qed.

Lemma Adds_refl : forall i j s fn fe, Core s fn fe -> Adds i j [] s fn fe s fn fe.
Proof.
  intros i j s fn fe C. constructor; auto; try (exists []; rewrite app_nil_r; reflexivity).
  - intros c I. apply in_app_iff. left. exact I.
  - exists []. rewrite app_nil_r. split; [reflexivity|]. split; [reflexivity|]. intros ? ? ? [].
Qed.
Lemma Adds_trans : forall i j es es' s fn fe s1 fn1 fe1 s2 fn2 fe2, Adds i j es s fn fe s1 fn1 fe1 -> Adds i j es' s1 fn1 fe1 s2 fn2 fe2 ->
  Adds i j (es ++ es') s fn fe s2 fn2 fe2.
Proof.
  intros i j es es' s fn fe s1 fn1 fe1 s2 fn2 fe2 [C (x & F) A CH (y & H) M K (ne & E & D & SP)] [C' (x' & F') A' CH' (y' & H') M' K' (ne' & E' & D' & SP')].
  constructor; auto.
  - exists (x ++ x'). rewrite F', F, app_assoc. reflexivity.
  - congruence.
  - intros i' j' N. rewrite CH' by exact N. apply CH, N.
  - exists (y ++ y'). rewrite H', H, app_assoc. reflexivity.
  - intros i' j' N. rewrite M' by exact N. apply M, N.
  - intros c I. apply K' in I. rewrite map_app, app_assoc. apply in_app_iff in I. apply in_app_iff. destruct I as [I|I]; [left; apply K, I|right; exact I].
  - exists (ne ++ ne'). split; [rewrite E', E, app_assoc; reflexivity|]. split; [rewrite map_app, D, D'; reflexivity|].
    intros tl p h I. apply in_app_iff in I. destruct I as [I|I]; [eapply SP, I|eapply SP', I].
Qed.

Lemma set2_same : forall (A : Type) (m : nat -> nat -> A) i j v, set2 m i j v i j = v.
Proof. intros. unfold set2. rewrite !Nat.eqb_refl. reflexivity. Qed.
Lemma set2_other : forall (A : Type) (m : nat -> nat -> A) i j v a b, (a, b) <> (i, j) -> set2 m i j v a b = m a b.
Proof. intros. unfold set2. destruct (Nat.eqb_spec a i), (Nat.eqb_spec b j); cbn; congruence. Qed.

Lemma in_key_unique : forall (A : Type) (m : list (Z * A)) c x y, NoDup (map fst m) -> In (c, x) m -> In (c, y) m -> x = y.
Proof.
  induction m as [|(k, v) m IH]; intros c x y N I J; [destruct I|]. cbn in N. inversion N as [|? ? NI N']; subst.
  destruct I as [[=]|I], J as [[=]|J]; subst; auto.
  - destruct NI. apply in_map_iff. exists (c, y). auto.
  - destruct NI. apply in_map_iff. exists (c, x). auto.
  - eapply IH; eauto.
Qed.

(** Adding an edge to the map and the forest: nodes, categories, heads. *)
Lemma core_step : forall s fn fe i j c s' fn' fe' tl p h nm, Core s fn fe -> p_i p = i -> p_j p = j -> lhs (p_rule p) = c ->
  FV (forest s') fn' fe' -> fe' = fe ++ [(tl, p, h)] ->
  (fn' = fn /\ nm = nodemap s i j /\ In (c, h) (nodemap s i j) \/
   fn' = fn ++ [c] /\ h = length fn /\ nm = nodemap s i j ++ [(c, h)] /\ ~ In c (map fst (nodemap s i j))) ->
  nodemap s' i j = nm -> (forall i' j', (i', j') <> (i, j) -> nodemap s' i' j' = nodemap s i' j') ->
  (forall i' j', chart s' i' j' = map snd (filter nongoal (nodemap s' i' j'))) -> Core s' fn' fe'.
Proof.
  intros s fn fe i j c s' fn' fe' tl p h nm C PI PJ LH FVV FE CASE NM OTH CHT.
  assert (MEM : forall i' j' c' h', In (c', h') (nodemap s' i' j') -> In (c', h') (nodemap s i' j') \/ (i' = i /\ j' = j /\ c' = c /\ h' = h /\ h = length fn /\ fn' = fn ++ [c])).
  { intros i' j' c' h' I. destruct (Nat.eq_dec i' i) as [->|NE]; [destruct (Nat.eq_dec j' j) as [->|NE]|].
    - rewrite NM in I. destruct CASE as [(_ & -> & _)|(F & HL & -> & _)]; [left; exact I|]. apply in_app_iff in I. destruct I as [I|[[=]|[]]]; [left; exact I|]. subst. right. auto 8.
    - rewrite OTH in I by congruence. left. exact I.
    - rewrite OTH in I by congruence. left. exact I. }
  assert (SUB : forall i' j' x, In x (nodemap s i' j') -> In x (nodemap s' i' j')).
  { intros i' j' x I. destruct (Nat.eq_dec i' i) as [->|NE]; [destruct (Nat.eq_dec j' j) as [->|NE]|]; [|rewrite OTH by congruence; exact I|rewrite OTH by congruence; exact I].
    rewrite NM. destruct CASE as [(_ & -> & _)|(_ & _ & -> & _)]; [exact I|]. apply in_app_iff. left. exact I. }
  assert (HERE : In (c, h) (nodemap s' i j)).
  { rewrite NM. destruct CASE as [(_ & -> & I)|(_ & _ & -> & _)]; [exact I|]. apply in_app_iff. right. left. reflexivity. }
  assert (EXT : exists x, fn' = fn ++ x) by (destruct CASE as [(-> & _)|(-> & _)]; [exists []; rewrite app_nil_r; reflexivity|eexists; reflexivity]).
  destruct EXT as (x & EXT). constructor.
  - exact FVV.
  - intros i' j' c' h' I. apply MEM in I. destruct I as [I|(-> & -> & -> & -> & -> & ->)].
    + rewrite EXT. rewrite nth_error_app1; [exact (co_cat _ _ _ C _ _ _ _ I)|]. apply nth_error_Some. rewrite (co_cat _ _ _ C _ _ _ _ I). discriminate.
    + rewrite nth_error_app2, Nat.sub_diag by lia. reflexivity.
  - intros i' j'. destruct (Nat.eq_dec i' i) as [->|NE]; [destruct (Nat.eq_dec j' j) as [->|NE]|]; [|rewrite OTH by congruence; apply (co_keys _ _ _ C)|rewrite OTH by congruence; apply (co_keys _ _ _ C)].
    rewrite NM. destruct CASE as [(_ & -> & _)|(_ & _ & -> & NI)]; [apply (co_keys _ _ _ C)|]. rewrite map_app. cbn. apply NoDup_app_intro; [apply (co_keys _ _ _ C)|repeat constructor; intros []|].
    intros k K [<-|[]]. contradiction.
  - intros i1 j1 i2 j2 c1 c2 h' I1 I2. apply MEM in I1, I2.
    assert (OLD : forall a b d, In (d, length fn) (nodemap s a b) -> False).
    { intros a b d I. pose proof (co_cat _ _ _ C _ _ _ _ I) as Q. assert (length fn < length fn) by (apply nth_error_Some; congruence). lia. }
    destruct I1 as [I1|(-> & -> & -> & E1 & L1 & _)], I2 as [I2|(-> & -> & -> & E2 & L2 & _)]; auto.
    + exact (co_place _ _ _ C _ _ _ _ _ _ _ I1 I2).
    + rewrite E2, L2 in I1. destruct (OLD _ _ _ I1).
    + rewrite E1, L1 in I2. destruct (OLD _ _ _ I2).
  - exact CHT.
  - intros tl' p' h' I. rewrite FE in I. apply in_app_iff in I. destruct I as [I|[[=]|[]]]; [apply SUB, (co_head _ _ _ C _ _ _ I)|]. subst. exact HERE.
  - intros i' j' c' h' I. apply MEM in I. destruct I as [I|(-> & -> & -> & -> & _)].
    + destruct (co_edge _ _ _ C _ _ _ _ I) as (tl' & p' & I' & R). exists tl', p'. split; [rewrite FE; apply in_app_iff; left; exact I'|exact R].
    + exists tl, p. split; [rewrite FE; apply in_app_iff; right; left; reflexivity|]. auto.
Qed.

Lemma ApplyRule_ok : forall i j r tl lf s fn fe, Core s fn fe -> (forall t, In t tl -> t < length fn) -> lhs r <> kGOAL ->
  exists s' fn' fe', ApplyRule i j r tl lf s = Some s' /\ goal_idx s' = goal_idx s /\ Adds i j [(r, lf, tl)] s fn fe s' fn' fe'.
Proof.
  intros i j r tl lf s fn fe C T NG. pose proof (FV_len _ _ _ (co_fv _ _ _ C)) as (LN & LE). unfold Parser.ApplyRule.
  set (p := {| p_rule := r; p_feats := lf; p_i := i; p_j := j |}).
  destruct (find (lhs r) (nodemap s i j)) as [h|] eqn:FD.
  - apply pfind_some in FD.
    assert (HL : h < length fn) by (apply nth_error_Some; rewrite (co_cat _ _ _ C _ _ _ _ FD); discriminate).
    destruct (FV_add_edge _ _ _ tl p h (co_fv _ _ _ C) T HL) as (g1 & g2 & A & B & F). rewrite A. cbn [bind]. rewrite B. cbn [bind].
    eexists. exists fn. eexists. split; [reflexivity|]. split; [reflexivity|]. constructor; cbn [act chart nodemap].
    + apply (core_step s fn fe i j (lhs r) _ fn (fe ++ [(tl, p, h)]) tl p h (nodemap s i j)); auto; exact (co_chart _ _ _ C).
    + exists []. rewrite app_nil_r. reflexivity.
    + reflexivity.
    + reflexivity.
    + exists []. rewrite app_nil_r. reflexivity.
    + reflexivity.
    + intros k K. apply in_app_iff. left. exact K.
    + eexists. split; [reflexivity|]. split; [reflexivity|]. intros ? ? ? [[=]|[]]. subst. auto.
  - apply pfind_none in FD.
    destruct (FV_add_node_edge _ _ _ tl p (lhs r) (co_fv _ _ _ C) T) as (g1 & g2 & g3 & A & A2 & L1 & B & F). rewrite A. cbn [bind]. rewrite A2. cbn [bind]. rewrite B. cbn [bind].
    destruct (Z.eqb_spec (lhs r) kGOAL) as [|_]; [contradiction|].
    eexists. eexists. eexists. split; [reflexivity|]. split; [reflexivity|]. constructor; cbn [act chart nodemap].
    + apply (core_step s fn fe i j (lhs r) _ (fn ++ [lhs r]) (fe ++ [(tl, p, length fn)]) tl p (length fn) (nodemap s i j ++ [(lhs r, length fn)])); try exact C; try exact F; try reflexivity; cbn [forest nodemap chart].
      * right. auto.
      * rewrite set2_same, L1. reflexivity.
      * intros i' j' NE. apply set2_other, NE.
      * intros i' j'. destruct (Nat.eq_dec i' i) as [->|NE]; [destruct (Nat.eq_dec j' j) as [->|NE]|].
        -- rewrite !set2_same, filter_app, map_app, <- (co_chart _ _ _ C). f_equal. cbn. unfold nongoal. cbn. destruct (Z.eqb_spec (lhs r) kGOAL); [contradiction|]. reflexivity.
        -- rewrite !set2_other by congruence. apply (co_chart _ _ _ C).
        -- rewrite !set2_other by congruence. apply (co_chart _ _ _ C).
    + eexists. reflexivity.
    + reflexivity.
    + intros i' j' NE. apply set2_other, NE.
    + rewrite set2_same. eexists. reflexivity.
    + intros i' j' NE. apply set2_other, NE.
    + rewrite set2_same, map_app. intros k K. exact K.
    + eexists. split; [reflexivity|]. split; [reflexivity|]. intros ? ? ? [[=]|[]]. subst. auto.
Qed.

Lemma Adds_valid : forall i j es s fn fe s' fn' fe' tl, Adds i j es s fn fe s' fn' fe' -> (forall t, In t tl -> t < length fn) -> forall t, In t tl -> t < length fn'.
Proof. intros i j es s fn fe s' fn' fe' tl [C (x & F) _ _ _ _ _ _] H t T. rewrite F, app_length. specialize (H t T). lia. Qed.

Lemma ApplyRules_ok : forall i j rs tl lf s fn fe, Core s fn fe -> (forall t, In t tl -> t < length fn) -> (forall r, In r rs -> lhs r <> kGOAL) ->
  exists s' fn' fe', ApplyRules kGOAL i j rs tl lf s = Some s' /\ goal_idx s' = goal_idx s /\ Adds i j (map (fun r => (r, lf, tl)) rs) s fn fe s' fn' fe'.
Proof.
  intros i j rs tl lf. induction rs as [|r rs IH]; intros s fn fe C T NG; cbn [ApplyRules map].
  - exists s, fn, fe. split; [reflexivity|]. split; [reflexivity|]. apply Adds_refl, C.
  - destruct (ApplyRule_ok i j r tl lf s fn fe C T (NG r (or_introl eq_refl))) as (s1 & fn1 & fe1 & E & G & A). rewrite E. cbn [bind].
    destruct (IH s1 fn1 fe1 (ad_core _ _ _ _ _ _ _ _ _ A) (Adds_valid _ _ _ _ _ _ _ _ _ _ A T)) as (s2 & fn2 & fe2 & E2 & G2 & A2); [intros q Q; apply NG; right; exact Q|].
    exists s2, fn2, fe2. split; [exact E2|]. split; [congruence|]. exact (Adds_trans _ _ [_] _ _ _ _ _ _ _ _ _ _ A A2).
Qed.

Definition item_edges (it : item) : list (rule * shape * list nat) := map (fun r => (r, feats it, ants it)) (GetRules (gptr it)).
Lemma apply_cell_ok : forall i j cell s fn fe, Core s fn fe -> (forall it t, In it cell -> In t (ants it) -> t < length fn) ->
  (forall it r, In it cell -> In r (GetRules (gptr it)) -> lhs r <> kGOAL) ->
  exists s' fn' fe', apply_cell kGOAL i j cell s = Some s' /\ goal_idx s' = goal_idx s /\ Adds i j (flat_map item_edges cell) s fn fe s' fn' fe'.
Proof.
  intros i j. induction cell as [|it cell IH]; intros s fn fe C T NG; cbn [apply_cell flat_map].
  - exists s, fn, fe. split; [reflexivity|]. split; [reflexivity|]. apply Adds_refl, C.
  - destruct (ApplyRules_ok i j (GetRules (gptr it)) (ants it) (feats it) s fn fe C (fun t => T it t (or_introl eq_refl)) (fun r => NG it r (or_introl eq_refl))) as (s1 & fn1 & fe1 & E & G & A).
    rewrite E. cbn [bind].
    destruct (IH s1 fn1 fe1 (ad_core _ _ _ _ _ _ _ _ _ A)) as (s2 & fn2 & fe2 & E2 & G2 & A2).
    + intros it' t I. apply (Adds_valid _ _ _ _ _ _ _ _ _ _ A). intros t' T'. exact (T it' t' (or_intror I) T').
    + intros it' r I. apply NG. right. exact I.
    + exists s2, fn2, fe2. split; [exact E2|]. split; [congruence|]. exact (Adds_trans _ _ _ _ _ _ _ _ _ _ _ _ _ A A2).
Qed.

(** ** Unary rules *)
Hypothesis us_nongoal : forall r, In r us -> lhs r <> kGOAL.
Definition unary_edges (fn : list Z) (nd : nat) : list (rule * shape * list nat) :=
  flat_map (fun r => if Z.eqb (rhs r) (nth nd fn 0%Z) then [(r, [None], [nd])] else []) us.

Lemma apply_unaries_ok : forall i j nd us' s fn fe, Core s fn fe -> nd < length fn -> incl us' us ->
  exists s' fn' fe', apply_unaries kGOAL i j (nth nd fn 0%Z) nd us' s = Some s' /\ goal_idx s' = goal_idx s /\
    Adds i j (flat_map (fun r => if Z.eqb (rhs r) (nth nd fn 0%Z) then [(r, [None], [nd])] else []) us') s fn fe s' fn' fe'.
Proof.
  intros i j nd us' s fn fe C L. remember (nth nd fn 0%Z) as c. clear Heqc. revert s fn fe C L. induction us' as [|r q IH]; intros s fn fe C L IN; cbn [apply_unaries flat_map].
  - exists s, fn, fe. split; [reflexivity|]. split; [reflexivity|]. apply Adds_refl, C.
  - assert (IQ : incl q us) by (intros x X; apply IN; right; exact X). destruct (Z.eqb (rhs r) c).
    + destruct (ApplyRule_ok i j r [nd] [None] s fn fe C) as (s1 & fn1 & fe1 & E & G & A); [intros t [<-|[]]; exact L|apply us_nongoal, IN; left; reflexivity|]. rewrite E. cbn [bind].
      destruct (ad_fn _ _ _ _ _ _ _ _ _ A) as (x & FX).
      destruct (IH s1 fn1 fe1 (ad_core _ _ _ _ _ _ _ _ _ A)) as (s2 & fn2 & fe2 & E2 & G2 & A2); [rewrite FX, app_length; lia|exact IQ|].
      exists s2, fn2, fe2. split; [exact E2|]. split; [congruence|]. exact (Adds_trans _ _ [_] _ _ _ _ _ _ _ _ _ _ A A2).
    + cbn [bind]. apply IH; assumption.
Qed.

Lemma chart_len : forall s fn fe i j K, Core s fn fe -> incl (map fst (nodemap s i j)) K -> length (chart s i j) <= length K.
Proof.
  intros s fn fe i j K C I. rewrite (co_chart _ _ _ C), map_length.
  transitivity (length (nodemap s i j)); [clear; induction (nodemap s i j) as [|q m IH]; cbn; [lia|]; destruct (nongoal q); cbn; lia|]. rewrite <- (map_length fst). apply NoDup_incl_length; [apply (co_keys _ _ _ C)|exact I].
Qed.

Lemma unary_loop_ok : forall K i j k di s fn fe, Core s fn fe -> incl (map fst (nodemap s i j) ++ map lhs us) K -> di <= length (chart s i j) ->
  length K < k + di ->
  exists s' fn' fe', unary_loop kGOAL k i j us di s = Some s' /\ goal_idx s' = goal_idx s /\
    Adds i j (flat_map (unary_edges fn') (skipn di (chart s' i j))) s fn fe s' fn' fe'.
Proof.
  intros K i j. induction k as [|k IH]; intros di s fn fe C KI DI L.
  - pose proof (chart_len s fn fe i j K C (fun x X => KI x (in_or_app _ _ _ (or_introl X)))). lia.
  - cbn [unary_loop]. destruct (nth_error (chart s i j) di) as [nd|] eqn:Q.
    + pose proof (nth_error_In _ _ Q) as I. destruct (co_valid _ _ _ _ _ _ C I) as (NL & c & _ & _ & NC).
      pose proof (FV_node _ _ _ nd (co_fv _ _ _ C)) as FN. destruct (nth_error (nodes (forest s)) nd) as [v|]; [|congruence]. destruct FN as (FC & _). cbn [bind].
      assert (CV : cat v = nth nd fn 0%Z) by (symmetry; apply nth_error_nth; congruence). rewrite CV.
      destruct (apply_unaries_ok i j nd us s fn fe C NL (incl_refl us)) as (s1 & fn1 & fe1 & E & G & A). rewrite E. cbn [bind].
      destruct (ad_here _ _ _ _ _ _ _ _ _ A) as (y & HY). destruct (ad_fn _ _ _ _ _ _ _ _ _ A) as (x & FX).
      assert (DL : S di <= length (chart s1 i j)) by (rewrite HY, app_length; assert (di < length (chart s i j)) by (apply nth_error_Some; congruence); lia).
      assert (KI1 : incl (map fst (nodemap s1 i j) ++ map lhs us) K).
      { intros a Ha. apply in_app_iff in Ha. destruct Ha as [Ha|Ha]; [|apply KI, in_or_app; right; exact Ha]. apply (ad_keys _ _ _ _ _ _ _ _ _ A) in Ha. apply in_app_iff in Ha.
        destruct Ha as [Ha|Ha]; [apply KI, in_or_app; left; exact Ha|]. apply KI, in_or_app. right. apply in_map_iff in Ha. destruct Ha as (((r, sh), tl) & <- & I2).
        apply in_flat_map in I2. destruct I2 as (r' & R' & I2). destruct (Z.eqb (rhs r') _); [|destruct I2]. destruct I2 as [[=]|[]]. subst. cbn. apply in_map, R'. }
      destruct (IH (S di) s1 fn1 fe1 (ad_core _ _ _ _ _ _ _ _ _ A) KI1 DL) as (s2 & fn2 & fe2 & E2 & G2 & A2); [lia|].
      exists s2, fn2, fe2. split; [exact E2|]. split; [congruence|].
      destruct (ad_here _ _ _ _ _ _ _ _ _ A2) as (y2 & HY2). destruct (ad_fn _ _ _ _ _ _ _ _ _ A2) as (x2 & FX2).
      assert (SK : skipn di (chart s2 i j) = nd :: skipn (S di) (chart s2 i j)).
      { assert (QQ : nth_error (chart s2 i j) di = Some nd) by (rewrite HY2, HY, !nth_error_app1; [exact Q| |rewrite app_length]; assert (di < length (chart s i j)) by (apply nth_error_Some; congruence); lia).
        clear - QQ. revert QQ. generalize (chart s2 i j). intros l. revert l. induction di as [|di IHd]; intros [|a l] H; cbn in *; try discriminate; [congruence|apply IHd, H]. }
      rewrite SK. cbn [flat_map].
      assert (UE : unary_edges fn2 nd = flat_map (fun r => if Z.eqb (rhs r) (nth nd fn 0%Z) then [(r, [None], [nd])] else []) us).
      { unfold unary_edges. replace (nth nd fn2 0%Z) with (nth nd fn 0%Z); [reflexivity|]. rewrite FX2, FX, !app_nth1; [reflexivity|lia|rewrite app_length; lia]. }
      rewrite UE. exact (Adds_trans _ _ _ _ _ _ _ _ _ _ _ _ _ A A2).
    + exists s, fn, fe. split; [reflexivity|]. split; [reflexivity|]. apply nth_error_None in Q. rewrite skipn_all2 by lia. apply Adds_refl, C.
Qed.

Lemma ApplyUnaryRules_ok : forall i j s fn fe, Core s fn fe -> (forall c, In c (map fst (nodemap s i j)) -> c <> kGOAL) ->
  exists s' fn' fe', ApplyUnaryRules kGOAL us i j s = Some s' /\ goal_idx s' = goal_idx s /\
    Adds i j (flat_map (unary_edges fn') (chart s' i j)) s fn fe s' fn' fe'.
Proof.
  intros i j s fn fe C NG. unfold ApplyUnaryRules.
  destruct (unary_loop_ok (map fst (nodemap s i j) ++ map lhs us) i j (S (length (chart s i j) + length us)) 0 s fn fe C (incl_refl _)) as (s' & fn' & fe' & E & G & A); [lia| |].
  - rewrite app_length, !map_length, (co_chart _ _ _ C), map_length.
    assert (FL : filter nongoal (nodemap s i j) = nodemap s i j).
    { clear - NG. induction (nodemap s i j) as [|(c, h) m IH]; [reflexivity|]. cbn. unfold nongoal at 1. cbn. destruct (Z.eqb_spec c kGOAL) as [->|]; [destruct (NG kGOAL (or_introl eq_refl) eq_refl)|].
      cbn. f_equal. apply IH. intros x X. apply NG. right. exact X. }
    rewrite FL. lia.
  - exists s', fn', fe'. split; [exact E|]. split; [exact G|]. cbn [skipn] in A. exact A.
Qed.
End Parser.
