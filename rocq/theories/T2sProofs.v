(** Proofs about [T2s]. *)
From Coq Require Import Ascii List Arith Bool Lia.
From Verif Require Import Opt Frag FragSpec FragProofs T2s T2sSpec.
Import ListNotations.
Local Open Scope nat_scope.
Open Scope opt_scope.

Scheme cut_mut := Induction for cut Sort Prop with cut_items_mut := Induction for cut_items Sort Prop.

(** ** the trie *)
Section Trie.
Context {A : Type}.
Definition rules_at (g : gnode A) (p : list tsym) : list A := match at_ g p with Some n => grules n | None => [] end.
Lemma look_replace x y (g : gnode A) l : look x (replace y g l) = if tsym_eq_dec x y then Some g else look x l.
Proof.
  induction l as [|[z h] l IH]; cbn [replace look].
  - reflexivity.
  - destruct (tsym_eq_dec y z) as [<- |N]; cbn [look].
    + destruct (tsym_eq_dec x y); reflexivity.
    + destruct (tsym_eq_dec x z) as [-> |N2].
      * destruct (tsym_eq_dec z y); [congruence|reflexivity].
      * exact IH.
Qed.
Lemma rules_insert p : forall (g : gnode A) r p', rules_at (insert p r g) p' = rules_at g p' ++ (if list_eq_dec tsym_eq_dec p p' then [r] else []).
Proof.
  induction p as [|x p IH]; intros g r p'.
  - destruct p' as [|y p']; destruct g as [n rs]; cbn [insert]; unfold rules_at; cbn [at_ gnext grules].
    + destruct (list_eq_dec tsym_eq_dec [] []); [reflexivity|congruence].
    + destruct (list_eq_dec tsym_eq_dec [] (y :: p')); [discriminate|]. now rewrite app_nil_r.
  - cbn [insert]. destruct p' as [|y p']; unfold rules_at; cbn [at_ gnext grules].
    + destruct (list_eq_dec tsym_eq_dec (x :: p) []); [discriminate|]. now rewrite app_nil_r.
    + rewrite look_replace. destruct (tsym_eq_dec y x) as [-> |N]; cbn [bind].
      * specialize (IH (match look x (gnext g) with Some h => h | None => G [] [] end) r p'). unfold rules_at in IH. rewrite IH.
        f_equal.
        -- destruct (look x (gnext g)); [reflexivity|]. destruct p'; reflexivity.
        -- destruct (list_eq_dec tsym_eq_dec p p'); destruct (list_eq_dec tsym_eq_dec (x :: p) (x :: p')); congruence.
      * destruct (list_eq_dec tsym_eq_dec (x :: p) (y :: p')); [congruence|]. now rewrite app_nil_r.
Qed.
Lemma at_insert p : forall (g : gnode A) r p', at_ (insert p r g) p' <> None -> at_ g p' <> None \/ exists q, p = p' ++ q.
Proof.
  induction p as [|x p IH]; intros g r p' H.
  - destruct p' as [|y p']; [left; discriminate|]. left. destruct g. exact H.
  - destruct p' as [|y p']; [left; discriminate|]. cbn [insert at_ gnext] in H. rewrite look_replace in H.
    destruct (tsym_eq_dec y x) as [-> |N]; cbn [bind] in H; [|left; exact H].
    destruct (IH _ _ _ H) as [C|(q & ->)]; [|right; now exists q].
    destruct (look x (gnext g)) eqn:E; [left; cbn [at_]; rewrite E; exact C|].
    destruct p' as [|z p']; [right; now exists p|]. now elim C.
Qed.
Lemma at_app (g : gnode A) p q : at_ g (p ++ q) <> None -> at_ g p <> None.
Proof.
  revert g; induction p as [|x p IH]; intros g H; [discriminate|]. cbn [app at_] in *. destruct (look x (gnext g)) as [h|]; [|exact H].
  cbn [bind] in *. now apply IH.
Qed.
Definition reading (rules : list (list tsym * A)) (g : gnode A) : gnode A := fold_left (fun g pr => insert (fst pr) (snd pr) g) rules g.
Lemma rules_reading rules : forall g p, rules_at (reading rules g) p =
  rules_at g p ++ map snd (filter (fun pr : list tsym * A => if list_eq_dec tsym_eq_dec (fst pr) p then true else false) rules).
Proof.
  induction rules as [|[q r] rules IH]; intros g p; [cbn; now rewrite app_nil_r|].
  cbn [reading fold_left fst snd]. change (fold_left _ rules ?x) with (reading rules x). rewrite IH, rules_insert. cbn [filter fst].
  destruct (list_eq_dec tsym_eq_dec q p); cbn [map snd]; rewrite <- app_assoc; reflexivity.
Qed.
Lemma at_reading rules : forall g p, at_ (reading rules g) p <> None -> at_ g p <> None \/ exists q pr, In pr rules /\ fst pr = p ++ q.
Proof.
  induction rules as [|[q r] rules IH]; intros g p H; [now left|].
  cbn [reading fold_left fst snd] in H. destruct (IH _ _ H) as [C|(q' & pr & I & E)].
  - destruct (at_insert _ _ _ _ C) as [D|(q' & ->)]; [now left|]. right. exists q', (p ++ q', r). split; [now left|reflexivity].
  - right. exists q', pr. split; [now right|exact E].
Qed.
Definition paths (gs : list (list (list tsym * A))) : list (list tsym) := map fst (concat gs).
Lemma grammar_at_paths gs g p : grammar_at (map read_grammar gs) g p <> None ->
  g < length gs /\ (p = [] \/ exists q, In (p ++ q) (paths gs)).
Proof.
  unfold grammar_at. intros H. destruct (nth_error (map read_grammar gs) g) as [o|] eqn:E; [|now elim H]. cbn [bind] in H.
  assert (L : g < length gs) by (rewrite <- (map_length read_grammar); apply nth_error_Some; congruence). split; [exact L|].
  rewrite nth_error_map in E. destruct (nth_error gs g) as [rules|] eqn:E2; [|discriminate]. injection E as <-.
  unfold read_grammar in H. destruct rules as [|pr0 rules0] eqn:Er; [now elim H|]. cbn [bind] in H. rewrite <- Er in *.
  change (fold_left _ rules ?x) with (reading rules x) in H. destruct (at_reading _ _ _ H) as [C|(q & pr & I & F)].
  - left. destruct p; [reflexivity|now elim C].
  - right. exists q. rewrite <- F. unfold paths. apply in_map. apply in_concat. exists rules. split; [eapply nth_error_In; eauto|exact I].
Qed.
Lemma grammar_rules gs g rules p : nth_error gs g = Some rules ->
  match grammar_at (map read_grammar gs) g p with Some n => grules n | None => [] end =
  map snd (filter (fun pr : list tsym * A => if list_eq_dec tsym_eq_dec (fst pr) p then true else false) rules).
Proof.
  intros E. unfold grammar_at. rewrite nth_error_map, E. cbn [option_map bind]. destruct rules as [|pr0 rules0] eqn:Er; [reflexivity|].
  rewrite <- Er in *. replace (read_grammar rules) with (Some (reading rules (G [] []))) by (rewrite Er; reflexivity). cbn [bind].
  change (rules_at (reading rules (G [] [])) p = map snd (filter (fun pr : list tsym * A => if list_eq_dec tsym_eq_dec (fst pr) p then true else false) rules)).
  rewrite rules_reading. destruct p; reflexivity.
Qed.
Lemma grammar_prefix gs g p q : grammar_at (map (@read_grammar A) gs) g (p ++ q) <> None -> grammar_at (map read_grammar gs) g p <> None.
Proof.
  unfold grammar_at. destruct (nth_error (map read_grammar gs) g) as [[t|]|]; cbn [bind]; auto. apply at_app.
Qed.
End Trie.

(** ** what an iterator still has to visit *)
Fixpoint locs (lo : nat) (k : list item) : list (nat * item) := match k with [] => [] | it :: r => (lo, it) :: locs (lo + item_size it) r end.
Inductive cursor := End_ | AtL (lo : nat) (t : tree) (its : list (nat * item)) | AtR (lo : nat) (t : tree) (its : list (nat * item)) | AtT (w : list ascii) (its : list (nat * item)).
Definition first (its : list (nat * item)) : cursor :=
  match its with [] => End_ | (_, Word w) :: r => AtT w r | (_, Site _) :: _ => End_ | (lo, Sub t) :: r => AtR lo t r end.
Definition follow (c : cursor) (x : tsym) : option (cursor * list nat) :=
  match c with
  | End_ => None
  | AtL lo (Tree nt kids) its => if tsym_eq_dec x (L nt) then Some (first (locs lo kids ++ its), []) else None
  | AtT w its => if tsym_eq_dec x (T w) then Some (first its, []) else None
  | AtR lo t its => if tsym_eq_dec x (R (label t)) then Some (AtL lo t its, [])
      else if tsym_eq_dec x (F (label t)) then Some (first its, [lo + size t - 1]) else None
  end.
Fixpoint run (c : cursor) (p : list tsym) : option (cursor * list nat) :=
  match p with [] => Some (c, []) | x :: p' => ' (c1, t1) <- follow c x ;; ' (c2, t2) <- run c1 p' ;; Some (c2, t1 ++ t2) end.
Lemma run_snoc p : forall c x, run c (p ++ [x]) = (' (c1, t1) <- run c p ;; ' (c2, t2) <- follow c1 x ;; Some (c2, t1 ++ t2)).
Proof.
  induction p as [|y p IH]; intros c x.
  - cbn [app run bind]. destruct (follow c x) as [[c1 t1]|]; cbn [bind]; [|reflexivity]. now rewrite app_nil_r.
  - cbn [app run]. destruct (follow c y) as [[c1 t1]|]; cbn [bind]; [|reflexivity]. rewrite IH.
    destruct (run c1 p) as [[c2 t2]|]; cbn [bind]; [|reflexivity]. destruct (follow c2 x) as [[c3 t3]|]; cbn [bind]; [|reflexivity].
    now rewrite app_assoc.
Qed.
Definition pre (ts : list nat) (o : option (cursor * list nat)) := match o with Some (c, u) => Some (c, ts ++ u) | None => None end.
Lemma pre_pre a b o : pre a (pre b o) = pre (a ++ b) o.
Proof. destruct o as [[c u]|]; cbn; [now rewrite app_assoc|reflexivity]. Qed.
Lemma run_step c x p c1 t1 : follow c x = Some (c1, t1) -> run c (x :: p) = pre t1 (run c1 p).
Proof. intros E. cbn [run]. rewrite E. cbn [bind]. unfold pre. destruct (run c1 p) as [[? ?]|]; reflexivity. Qed.
Lemma dec_refl {B} (x : tsym) (a b : B) : (if tsym_eq_dec x x then a else b) = a.
Proof. destruct (tsym_eq_dec x x); congruence. Qed.
Lemma walk_head t : exists p, walk t = L (label t) :: p.
Proof. destruct t. eexists. apply walk_eq. Qed.

Lemma run_cut_l lo s c ts : cut lo s c ts -> forall its p2, run (AtL lo s its) (walk c ++ p2) = pre ts (run (first its) p2).
Proof.
  intros H.
  refine (cut_mut (fun lo s c ts _ => forall its p2, run (AtL lo s its) (walk c ++ p2) = pre ts (run (first its) p2))
    (fun lo k k' ts _ => forall its p2, run (first (locs lo k ++ its)) (concat (map walk_item k') ++ p2) = pre ts (run (first its) p2)) _ _ _ _ _ lo s c ts H).
  - intros l0 nt kids kids' t0 CI IH its p2. rewrite walk_eq. cbn [app].
    rewrite (run_step _ _ _ (first (locs l0 kids ++ its)) []) by (cbn [follow]; apply dec_refl). rewrite IH, pre_pre. reflexivity.
  - intros l0 its p2. cbn [locs map concat app]. destruct (run (first its) p2) as [[? ?]|]; reflexivity.
  - intros l0 w k k' t0 CI IH its p2. cbn [locs map concat walk_item app first item_size]. rewrite Nat.add_0_r.
    rewrite (run_step _ _ _ (first (locs l0 k ++ its)) []) by (cbn [follow]; apply dec_refl). rewrite IH, pre_pre. reflexivity.
  - intros l0 s0 k k' t0 CI IH its p2. cbn [locs map concat walk_item app first item_size].
    rewrite (run_step _ _ _ (first (locs (l0 + size s0) k ++ its)) [l0 + size s0 - 1]).
    + rewrite IH, pre_pre. reflexivity.
    + cbn [follow]. destruct (tsym_eq_dec (F (label s0)) (R (label s0))); [discriminate|]. apply dec_refl.
  - intros l0 s0 s' k k' t1 t2 C IH1 CI IH2 its p2. cbn [locs map concat walk_item app first item_size].
    assert (EL : (match s' with Tree nt' _ => nt' end) = label s0) by (inversion C; reflexivity). rewrite EL.
    rewrite (run_step _ _ _ (AtL l0 s0 (locs (l0 + size s0) k ++ its)) []) by (cbn [follow]; apply dec_refl).
    rewrite <- app_assoc, IH1, IH2, !pre_pre. reflexivity.
Qed.
Definition clean (its : list (nat * item)) : Prop := Forall (fun x => item_sites (snd x) = []) its.
Lemma clean_locs k : forall lo, all_sites k = [] -> clean (locs lo k).
Proof.
  induction k as [|it k IH]; intros lo H; [constructor|]. rewrite all_sites_cons in H. apply app_eq_nil in H. destruct H as [H1 H2].
  constructor; [exact H1|apply IH, H2].
Qed.
Lemma follow_inv c x p c2 ts : run c (x :: p) = Some (c2, ts) -> exists c1 t1 t2, follow c x = Some (c1, t1) /\ run c1 p = Some (c2, t2) /\ ts = t1 ++ t2.
Proof.
  cbn [run]. destruct (follow c x) as [[c1 t1]|]; [|discriminate]. cbn [bind]. destruct (run c1 p) as [[c3 t3]|] eqn:Er; [|discriminate]. cbn [bind].
  intros [= <- <-]. exists c1, t1, t3. auto.
Qed.
Lemma run_cut_r s : forall lo its p ts, sites s = [] -> run (AtL lo s its) p = Some (End_, ts) ->
  exists c ts1 p2 ts2, cut lo s c ts1 /\ p = walk c ++ p2 /\ run (first its) p2 = Some (End_, ts2) /\ ts = ts1 ++ ts2.
Proof.
  pattern s. apply (tree_rect' _ (fun it => match it with Sub s => forall lo its p ts, sites s = [] -> run (AtL lo s its) p = Some (End_, ts) ->
    exists c ts1 p2 ts2, cut lo s c ts1 /\ p = walk c ++ p2 /\ run (first its) p2 = Some (End_, ts2) /\ ts = ts1 ++ ts2 | _ => True end)); auto.
  intros nt kids FK.
  assert (IK : forall lo its p ts, all_sites kids = [] -> run (first (locs lo kids ++ its)) p = Some (End_, ts) ->
    exists k' ts1 p2 ts2, cut_items lo kids k' ts1 /\ p = concat (map walk_item k') ++ p2 /\ run (first its) p2 = Some (End_, ts2) /\ ts = ts1 ++ ts2).
  { induction FK as [|it kids Fi FK IH]; intros lo its p ts CS H.
    - exists [], [], p, ts. repeat split; auto. constructor.
    - rewrite all_sites_cons in CS. apply app_eq_nil in CS. destruct CS as [CS1 CS2].
      destruct p as [|x p]; [destruct it; discriminate|]. destruct (follow_inv _ _ _ _ _ H) as (c1 & t1 & t2 & E1 & E2 & ->).
      destruct it as [w|w|s0]; [|discriminate CS1|].
      + cbn [locs app first follow item_size] in E1. rewrite Nat.add_0_r in E1. destruct (tsym_eq_dec x (T w)) as [-> |]; [|discriminate].
        injection E1 as <- <-. destruct (IH _ _ _ _ CS2 E2) as (k' & u1 & p2 & u2 & A1 & A2 & A3 & A4).
        exists (Word w :: k'), u1, p2, u2. split; [constructor; exact A1|]. split; [cbn [map concat walk_item app]; now rewrite A2|]. split; [exact A3|exact A4].
      + cbn [locs app first follow item_size] in E1. destruct (tsym_eq_dec x (R (label s0))) as [-> |].
        * injection E1 as <- <-. destruct (Fi _ _ _ _ CS1 E2) as (c & u1 & p2 & u2 & A1 & A2 & A3 & A4).
          destruct (IH _ _ _ _ CS2 A3) as (k' & v1 & p3 & v2 & B1 & B2 & B3 & B4).
          exists (Sub c :: k'), (u1 ++ v1), p3, v2. split; [constructor; assumption|]. split.
          { cbn [map concat walk_item app]. replace (match c with Tree nt' _ => nt' end) with (label s0) by (inversion A1; reflexivity).
            rewrite A2, B2, <- app_assoc. reflexivity. }
          split; [exact B3|]. rewrite A4, B4. cbn. now rewrite app_assoc.
        * destruct (tsym_eq_dec x (F (label s0))) as [-> |]; [|discriminate]. injection E1 as <- <-.
          destruct (IH _ _ _ _ CS2 E2) as (k' & u1 & p2 & u2 & A1 & A2 & A3 & A4).
          exists (Site (label s0) :: k'), (lo + size s0 - 1 :: u1), p2, u2. split; [constructor; exact A1|].
          split; [cbn [map concat walk_item app]; now rewrite A2|]. split; [exact A3|]. cbn. now rewrite A4. }
  intros lo its p ts CS H. rewrite sites_eq in CS. destruct p as [|x p]; [discriminate|].
  destruct (follow_inv _ _ _ _ _ H) as (c1 & t1 & t2 & E1 & E2 & ->). cbn [follow] in E1.
  destruct (tsym_eq_dec x (L nt)) as [-> |]; [|discriminate]. injection E1 as <- <-.
  destruct (IK _ _ _ _ CS E2) as (k' & u1 & p2 & u2 & A1 & A2 & A3 & A4).
  exists (Tree nt k'), u1, p2, u2. split; [constructor; exact A1|]. split; [rewrite walk_eq; cbn [app]; now rewrite A2|]. split; [exact A3|exact A4].
Qed.
Theorem run_cut lo s p ts : sites s = [] -> (run (AtL lo s []) p = Some (End_, ts) <-> exists c, cut lo s c ts /\ walk c = p).
Proof.
  intros CS. split.
  - intros H. destruct (run_cut_r s lo [] p ts CS H) as (c & t1 & p2 & t2 & A1 & A2 & A3 & A4). exists c.
    destruct p2 as [|x p2]; [|discriminate A3]. injection A3 as <-. rewrite app_nil_r in *. subst. auto.
  - intros (c & C & <-). pose proof (run_cut_l _ _ _ _ C [] []) as H. rewrite app_nil_r in H. rewrite H. cbn. now rewrite app_nil_r.
Qed.

(** ** subtrees *)
Lemma below_shows ns t : forall n l s, below t n l s -> forall lo, shows ns lo t -> shows ns (lo + n) s.
Proof.
  induction 1 as [t|nt k1 t0 k2 n l s B IH]; intros lo SH; [now rewrite Nat.add_0_r|].
  inversion SH as [lo' nt' rhs kids E SA]; subst. rewrite Nat.add_assoc. apply IH. clear -SA. rename lo into a.
  revert a rhs SA. induction k1 as [|it k1 IH]; intros a rhs SA; cbn [map list_sum fold_right app] in *.
  - rewrite Nat.add_0_r. inversion SA; subst. assumption.
  - inversion SA as [|? w r k S'|? w r k S'|? t r k Sj S']; subst; rewrite ?Nat.add_0_l; fold (list_sum (map (fun it => match it with Sub x => size x | _ => 0 end) k1)).
    + eapply IH; eauto.
    + eapply IH; eauto.
    + rewrite Nat.add_assoc. eapply IH; eauto.
Qed.
Lemma below_sites t n l s : below t n l s -> sites t = [] -> sites s = [].
Proof.
  induction 1 as [|nt k1 t0 k2 n l s B IH]; intros H; [exact H|]. apply IH. rewrite sites_eq in H. unfold all_sites in H.
  rewrite map_app, concat_app in H. apply app_eq_nil in H. destruct H as [_ H]. cbn [map concat item_sites] in H. now apply app_eq_nil in H.
Qed.
Lemma sizes_app a b : sizes (a ++ b) = sizes a + sizes b.
Proof. unfold sizes. rewrite map_app, list_sum_app. reflexivity. Qed.
Lemma below_size t n l s : below t n l s -> n + size s <= size t.
Proof.
  induction 1 as [|nt k1 t0 k2 n l s B IH]; [lia|]. rewrite size_eq, sizes_app, sizes_cons. cbn [item_size].
  change (list_sum (map (fun it => match it with Sub x => size x | _ => 0 end) k1)) with (sizes k1). lia.
Qed.
Lemma below_trans t n l s : below t n l s -> forall n' l' s', below s n' l' s' -> below t (n + n') (l + l') s'.
Proof.
  induction 1 as [|nt k1 t0 k2 n l s B IH]; intros n' l' s' B'; [exact B'|]. rewrite <- !Nat.add_assoc. constructor. apply IH, B'.
Qed.
(** the nodes where a part stops *)
Lemma cut_below lo s c ts : cut lo s c ts -> forall n, In n ts -> exists a l s', below s a l s' /\ n = lo + a + size s' - 1.
Proof.
  intros H.
  refine (cut_mut (fun lo s c ts _ => forall n, In n ts -> exists a l s', below s a l s' /\ n = lo + a + size s' - 1)
    (fun lo k k' ts _ => forall n, In n ts -> exists k1 t0 k2 a l s', k = k1 ++ Sub t0 :: k2 /\ below t0 a l s' /\ n = lo + sizes k1 + a + size s' - 1) _ _ _ _ _ lo s c ts H).
  - intros l0 nt kids kids' t0 CI IH n I. destruct (IH n I) as (k1 & t1 & k2 & a & l & s' & -> & B & ->).
    exists (sizes k1 + a), (list_sum (map item_width k1) + l), s'. split; [apply b_down, B|lia].
  - intros l0 n [].
  - intros l0 w k k' t0 CI IH n I. destruct (IH n I) as (k1 & t1 & k2 & a & l & s' & -> & B & ->).
    exists (Word w :: k1), t1, k2, a, l, s'. split; [reflexivity|]. split; [exact B|]. rewrite sizes_cons. cbn [item_size]. lia.
  - intros l0 s0 k k' t0 CI IH n [<- |I].
    + exists [], s0, k, 0, 0, s0. split; [reflexivity|]. split; [constructor|]. unfold sizes. cbn. lia.
    + destruct (IH n I) as (k1 & t1 & k2 & a & l & s' & -> & B & ->). exists (Sub s0 :: k1), t1, k2, a, l, s'.
      split; [reflexivity|]. split; [exact B|]. rewrite sizes_cons. cbn [item_size]. lia.
  - intros l0 s0 s' k k' t1 t2 C IH1 CI IH2 n I. apply in_app_or in I. destruct I as [I|I].
    + destruct (IH1 n I) as (a & l & s1 & B & ->). exists [], s0, k, a, l, s1. split; [reflexivity|]. split; [exact B|]. unfold sizes. cbn. lia.
    + destruct (IH2 n I) as (k1 & t3 & k2 & a & l & s1 & -> & B & ->). exists (Sub s0 :: k1), t3, k2, a, l, s1.
      split; [reflexivity|]. split; [exact B|]. rewrite sizes_cons. cbn [item_size]. lia.
Qed.
(** a node number belongs to one subtree *)
Lemma below_unique t : forall n l s n' l' s', below t n l s -> below t n' l' s' -> n + size s = n' + size s' -> n = n' /\ s = s'.
Proof.
  intros n l s n' l' s' B. revert n' l' s'. induction B as [t|nt k1 t0 k2 n l s B IH]; intros n' l' s' B' E.
  - inversion B' as [|nt k1 t0 k2 n l s B]; subst; [auto|]. exfalso. pose proof (below_size _ _ _ _ B). rewrite size_eq, sizes_app, sizes_cons in E. cbn [item_size] in E.
    change (list_sum (map (fun it => match it with Sub x => size x | _ => 0 end) k1)) with (sizes k1) in E. lia.
  - pose proof (below_size _ _ _ _ B) as Z. change (list_sum (map (fun it => match it with Sub x => size x | _ => 0 end) k1)) with (sizes k1) in *.
    pose proof (size_pos s) as PZ. pose proof (size_pos s') as PZ'.
    remember (Tree nt (k1 ++ Sub t0 :: k2)) as tt eqn:Et. destruct B' as [t|nt' k1' t0' k2' m l'' s' B'].
    + exfalso. subst t. rewrite size_eq, sizes_app, sizes_cons in E. cbn [item_size] in E. lia.
    + injection Et as <- Ek. pose proof (below_size _ _ _ _ B') as Z'.
      change (list_sum (map (fun it => match it with Sub x => size x | _ => 0 end) k1')) with (sizes k1') in *.
      assert (D : k1 = k1' /\ t0 = t0').
      { clear IH B B'. revert k1' Ek E. assert (X : forall (k1 k1' : list item), k1' ++ Sub t0' :: k2' = k1 ++ Sub t0 :: k2 ->
          sizes k1 + n + size s = sizes k1' + m + size s' -> k1 = k1' /\ t0 = t0').
        { clear k1. induction k1 as [|a k1 IHk]; intros [|b k1'] Ek E.
          - injection Ek as -> ->. auto.
          - exfalso. injection Ek as -> Ek. unfold sizes at 1 in E. cbn [map list_sum fold_right] in E. rewrite sizes_cons in E. cbn [item_size] in E. lia.
          - exfalso. injection Ek as <- Ek. unfold sizes at 2 in E. cbn [map list_sum fold_right] in E. rewrite sizes_cons in E. cbn [item_size] in E. lia.
          - injection Ek as -> Ek. rewrite !sizes_cons in E. destruct (IHk k1' Ek ltac:(lia)) as [-> ->]. auto. }
        intros k1' Ek E. apply X; auto. }
      destruct D as [-> ->]. destruct (IH m l'' s' B' ltac:(lia)) as [-> ->]. auto.
Qed.

(** ** the iterator follows the cursor *)
Inductive pend (ns : list (option (list ascii * list sym))) : list frame -> list (nat * item) -> Prop :=
| pd_nil : pend ns [] []
| pd_cons i n lo nt rhs kids q its : nth_error ns i = Some (Some (nt, rhs)) -> n <= length rhs -> shows_all ns lo (skipn n rhs) kids -> pend ns q its ->
    pend ns ({| fnode := i; next := n; started := true |} :: q) (locs lo kids ++ its).
Inductive iter_ok (ns : list (option (list ascii * list sym))) : list frame * tsym -> cursor -> Prop :=
| io_end x : iter_ok ns ([], x) End_
| io_T q w its : pend ns q its -> q <> [] -> clean its -> iter_ok ns (q, T w) (AtT w its)
| io_L q lo nt kids its : pend ns q (locs lo kids ++ its) -> q <> [] -> clean (locs lo kids ++ its) -> iter_ok ns (q, L nt) (AtL lo (Tree nt kids) its)
| io_R q lo t its : shows ns lo t -> sites t = [] -> pend ns q its -> q <> [] -> clean its ->
    iter_ok ns ({| fnode := lo + size t - 1; next := 0; started := false |} :: q, R (label t)) (AtR lo t its).
Lemma first_ok ns q its x0 : pend ns q its -> clean its ->
  exists q1 it', pop ns q = Some q1 /\ Stage ns q1 x0 = Some it' /\ iter_ok ns it' (first its).
Proof.
  induction 1 as [|i n lo nt rhs kids q its E N S P IH]; intros C.
  - do 2 eexists. repeat split. constructor.
  - cbn [pop fnode next started]. unfold get at 1. rewrite E. cbn [bind fst snd]. destruct kids as [|it kids].
    + assert (Ln : length rhs <= n) by (apply shows_all_len in S; cbn in S; rewrite skipn_length in S; lia).
      destruct (Nat.ltb_spec n (length rhs)); [lia|]. apply IH, C.
    + inversion S as [|? w r k S'|? w r k S'|? t r k Sj S']; subst;
        match goal with H : _ :: _ = skipn n rhs |- _ => symmetry in H; destruct (skipn_nth _ _ _ _ H) as (X1 & X2 & X3) end;
        (destruct (Nat.ltb_spec n (length rhs)); [|lia]);
        exists ({| fnode := i; next := n + 1; started := true |} :: q); unfold Stage; cbn [fnode next started]; unfold get; rewrite ?E; cbn [bind fst snd];
        (replace (n + 1 - 1) with n by lia); rewrite X1; cbn [bind]; cbn [locs app] in C; inversion C as [|? ? C1 C2]; subst.
      * eexists. split; [reflexivity|]. split; [reflexivity|]. cbn [locs app first item_size] in *. rewrite Nat.add_0_r in *.
        constructor; [|discriminate|exact C2]. econstructor; eauto; [lia|]. replace (n + 1) with (Datatypes.S n) by lia. exact S'.
      * discriminate C1.
      * destruct (shows_label _ _ _ Sj) as (m & M1 & M2). unfold get in M1. rewrite M1. cbn [bind].
        eexists. split; [reflexivity|]. split; [reflexivity|]. cbn [locs app first item_size] in *.
        rewrite M2. change (match t with Tree nt0 _ => nt0 end) with (label t).
        constructor; [exact Sj|exact C1| |discriminate|exact C2]. econstructor; eauto; [lia|]. replace (n + 1) with (Datatypes.S n) by lia. exact S'.
Qed.
Lemma pend_started ns q its : pend ns q its -> forall f q', q = f :: q' -> started f = true.
Proof. intros P f q' ->. inversion P; subst. reflexivity. Qed.
Lemma inc_first ns q its x0 : pend ns q its -> clean its -> q <> [] -> exists it', inc ns q x0 = Some it' /\ iter_ok ns it' (first its).
Proof.
  intros P C N. destruct q as [|f q]; [congruence|]. unfold inc. rewrite (pend_started _ _ _ P f q eq_refl).
  destruct (first_ok ns _ _ x0 P C) as (q1 & it' & A1 & A2 & A3). rewrite A1. cbn [bind]. rewrite A2. eauto.
Qed.
Lemma inc_same ns it c x c' ts : iter_ok ns it c -> follow c x = Some (c', ts) -> x = snd it ->
  ts = [] /\ exists it', inc ns (fst it) (snd it) = Some it' /\ iter_ok ns it' c'.
Proof.
  intros H Fo Ex. destruct H as [y|q w its P N C|q lo nt kids its P N C|q lo t its S St P N C]; cbn [follow fst snd] in *; subst x.
  - discriminate.
  - rewrite dec_refl in Fo. injection Fo as <- <-. split; [reflexivity|]. eapply inc_first; eauto.
  - rewrite dec_refl in Fo. injection Fo as <- <-. split; [reflexivity|]. eapply inc_first; eauto.
  - rewrite dec_refl in Fo. injection Fo as <- <-. split; [reflexivity|]. inversion S as [lo' nt rhs kids E SA]; subst.
    unfold inc, Stage. cbn [started fnode]. unfold get. rewrite E. cbn [bind fst snd next fnode]. eexists. split; [reflexivity|].
    constructor; [|discriminate|]. { econstructor; eauto; lia. }
    apply Forall_app. split; [|exact C]. apply clean_locs. now rewrite sites_eq in St.
Qed.
Lemma inc_var ns it lo t its : iter_ok ns it (AtR lo t its) ->
  exists var, truncate it = Some var /\ snd var = F (label t) /\ child_node it = Some (lo + size t - 1) /\
    exists it', inc ns (fst var) (snd var) = Some it' /\ iter_ok ns it' (first its).
Proof.
  intros H. inversion H as [| | |q lo' t' its' S St P N C]; subst. eexists. split; [reflexivity|]. split; [reflexivity|]. split; [reflexivity|].
  eapply inc_first; eauto.
Qed.

(** ** states *)
Definition with_iter (s : pstate) (it : list frame * tsym) (fw : list nat) (x : tsym) : pstate :=
  {| iter := it; future_work := fw; task := task s; gi := gi s; path := path s ++ [x] |}.
Definition cfollow (ns : list (option (list ascii * list sym))) (s : pstate) (x : tsym) : option pstate :=
  if tsym_eq_dec x (snd (iter s)) then it <- inc ns (fst (iter s)) (snd (iter s)) ;; Some (with_iter s it (future_work s) x)
  else var <- truncate (iter s) ;; if tsym_eq_dec x (snd var) then it <- inc ns (fst var) (snd var) ;; c <- child_node (iter s) ;; Some (with_iter s it (future_work s ++ [c]) x) else None.
Fixpoint crun (ns : list (option (list ascii * list sym))) (s : pstate) (p : list tsym) : option pstate :=
  match p with [] => Some s | x :: p' => s' <- cfollow ns s x ;; crun ns s' p' end.
Lemma crun_snoc ns p : forall s x, crun ns s (p ++ [x]) = (s' <- crun ns s p ;; cfollow ns s' x).
Proof.
  induction p as [|y p IH]; intros s x; cbn [app crun bind].
  - destruct (cfollow ns s x); reflexivity.
  - destruct (cfollow ns s y) as [s'|]; cbn [bind]; [apply IH|reflexivity].
Qed.
Lemma cfollow_ok ns s c x c' ts : iter_ok ns (iter s) c -> follow c x = Some (c', ts) ->
  exists s', cfollow ns s x = Some s' /\ iter_ok ns (iter s') c' /\ future_work s' = future_work s ++ ts /\ task s' = task s /\ gi s' = gi s /\ path s' = path s ++ [x].
Proof.
  intros H Fo. unfold cfollow. destruct (tsym_eq_dec x (snd (iter s))) as [E|E].
  - destruct (inc_same _ _ _ _ _ _ H Fo E) as (-> & it' & I1 & I2). rewrite I1. cbn [bind]. eexists. split; [reflexivity|]. cbn. rewrite app_nil_r. auto.
  - assert (X : exists lo t its, c = AtR lo t its /\ x = F (label t) /\ c' = first its /\ ts = [lo + size t - 1]).
    { inversion H as [y Ey|q w its P N C Ei Ec|q lo nt kids its P N C Ei Ec|q lo t its S St P N C Ei Ec]; subst c; rewrite <- ?Ei in E; cbn [follow snd] in *.
      - discriminate.
      - destruct (tsym_eq_dec x (T w)); [congruence|discriminate].
      - destruct (tsym_eq_dec x (L nt)); [congruence|discriminate].
      - destruct (tsym_eq_dec x (R (label t))); [congruence|]. destruct (tsym_eq_dec x (F (label t))); [|discriminate]. injection Fo as <- <-. eauto 10. }
    destruct X as (lo & t & its & -> & -> & -> & ->). destruct (inc_var _ _ _ _ _ H) as (var & V1 & V2 & V3 & it' & V4 & V5).
    rewrite V1. cbn [bind]. rewrite V2, dec_refl. rewrite V2 in V4. rewrite V4. cbn [bind]. rewrite V3. cbn [bind].
    eexists. split; [reflexivity|]. cbn. auto.
Qed.
Lemma cfollow_none ns s c x : iter_ok ns (iter s) c -> c <> End_ -> follow c x = None -> cfollow ns s x = None.
Proof.
  intros H NE Fo. unfold cfollow.
  inversion H as [y Ey|q w its P N C Ei Ec|q lo nt kids its P N C Ei Ec|q lo t its S St P N C Ei Ec]; subst c; rewrite <- ?Ei; cbn [follow snd] in *.
  - congruence.
  - destruct (tsym_eq_dec x (T w)); [discriminate|]. unfold truncate. destruct q; reflexivity.
  - destruct (tsym_eq_dec x (L nt)); [discriminate|]. unfold truncate. destruct q; reflexivity.
  - destruct (tsym_eq_dec x (R (label t))); [discriminate|]. unfold truncate. cbn [bind snd]. destruct (tsym_eq_dec x (F (label t))); [discriminate|reflexivity].
Qed.
Lemma iter_end ns it c : iter_ok ns it c -> (fst it = [] <-> c = End_).
Proof. intros H. destruct H; cbn; split; try congruence; try discriminate; auto. Qed.

Lemma start_ok ns lo s g : shows ns lo s -> sites s = [] ->
  exists s0, start ns (lo + size s - 1) g = Some s0 /\ iter_ok ns (iter s0) (AtL lo s []) /\ future_work s0 = [] /\ task s0 = lo + size s - 1 /\ gi s0 = g /\ path s0 = [].
Proof.
  intros S C. inversion S as [lo' nt rhs kids E SA]; subst. unfold start, begin_, Stage. cbn [fnode started]. unfold get. rewrite E. cbn [bind fst snd].
  eexists. split; [reflexivity|]. cbn [iter future_work task gi path]. split; [|auto].
  constructor; [|discriminate|].
  - econstructor; eauto; [lia|constructor].
  - apply Forall_app. split; [|constructor]. apply clean_locs. now rewrite sites_eq in C.
Qed.
Lemma same_spec a b : same a b = true -> future_work a = future_work b /\ task a = task b /\ gi a = gi b /\ path a = path b.
Proof.
  unfold same. rewrite !andb_true_iff. intros ((((_ & H2) & H3) & H4) & H5).
  destruct (list_eq_dec Nat.eq_dec (future_work a) (future_work b)); [|discriminate]. destruct (list_eq_dec tsym_eq_dec (path a) (path b)); [|discriminate].
  apply Nat.eqb_eq in H3, H4. auto.
Qed.
Lemma same_refl a : same a a = true.
Proof.
  unfold same. rewrite !Nat.eqb_refl. destruct (list_eq_dec frame_eq_dec (fst (iter a)) (fst (iter a))); [|congruence].
  destruct (list_eq_dec Nat.eq_dec (future_work a) (future_work a)); [|congruence]. destruct (list_eq_dec tsym_eq_dec (path a) (path a)); [reflexivity|congruence].
Qed.

(** ** the loop *)
Section Compose.
Context {A : Type}.
Variables (t : tree) (ns : list (option (list ascii * list sym))) (gs : list (list (tree * A))).
Hypothesis Hshows : shows ns 0 t.
Hypothesis Hlen : length ns = size t.
Hypothesis Hsites : sites t = [].
Definition grams : list (list (list tsym * A)) := map (map (fun fr => (walk (fst fr), snd fr))) gs.
Definition tg : list (option (gnode A)) := map read_grammar grams.

Lemma fits_map (gr : list (tree * A)) p : map snd (filter (fun pr : list tsym * A => if list_eq_dec tsym_eq_dec (fst pr) p then true else false)
  (map (fun fr => (walk (fst fr), snd fr)) gr)) = fits gr p.
Proof.
  unfold fits. induction gr as [|[f r] gr IH]; [reflexivity|]. cbn [map filter fst].
  destruct (list_eq_dec tsym_eq_dec (walk f) p); destruct (list_eq_dec tsym_dec (walk f) p); try congruence; cbn [map snd]; now rewrite IH.
Qed.
Lemma rules_fits g gr p : nth_error gs g = Some gr -> match grammar_at tg g p with Some n => grules n | None => [] end = fits gr p.
Proof.
  intros E. unfold tg. rewrite (grammar_rules grams g (map (fun fr => (walk (fst fr), snd fr)) gr)); [apply fits_map|].
  unfold grams. rewrite nth_error_map, E. reflexivity.
Qed.
Lemma grammar_nth g p : grammar_at tg g p <> None -> exists gr, nth_error gs g = Some gr.
Proof.
  intros H. destruct (nth_error gs g) as [gr|] eqn:E; [eauto|]. elim H. unfold grammar_at, tg, grams. rewrite !nth_error_map, E. reflexivity.
Qed.
Definition good (s : pstate) : Prop := exists lo l sub c s0,
  below t lo l sub /\ needed t gs (task s) /\ task s = lo + size sub - 1 /\ iter_ok ns (iter s) c
  /\ run (AtL lo sub []) (path s) = Some (c, future_work s) /\ grammar_at tg (gi s) (path s) <> None
  /\ start ns (task s) (gi s) = Some s0 /\ crun ns s0 (path s) = Some s.
Lemma good_key a b : good a -> good b -> task a = task b -> gi a = gi b -> path a = path b -> a = b.
Proof.
  intros (_ & _ & _ & _ & sa & _ & _ & _ & _ & _ & _ & Sa & Ra) (_ & _ & _ & _ & sb & _ & _ & _ & _ & _ & _ & Sb & Rb) E1 E2 E3.
  rewrite E1, E2 in Sa. rewrite E3 in Ra. congruence.
Qed.
Lemma good_same a b : good a -> good b -> same a b = true -> a = b.
Proof. intros Ga Gb S. destruct (same_spec _ _ S) as (_ & E1 & E2 & E3). now apply good_key. Qed.
Lemma good_follow s x : good s -> grammar_at tg (gi s) (path s ++ [x]) <> None -> forall s', fst (iter s) <> [] -> cfollow ns s x = Some s' -> good s'.
Proof.
  intros (lo & l & sub & c & s0 & B & N & T & I & Ru & _ & St & Cr) G s' NE Cf.
  assert (NC : c <> End_) by (intros E; apply NE; apply (iter_end _ _ _ I); exact E).
  destruct (follow c x) as [[c' ts]|] eqn:Fo; [|rewrite (cfollow_none _ _ _ _ I NC Fo) in Cf; discriminate].
  destruct (cfollow_ok _ _ _ _ _ _ I Fo) as (s2 & E2 & I2 & F2 & T2 & G2 & P2). rewrite Cf in E2. injection E2 as <-.
  exists lo, l, sub, c', s0. rewrite T2, G2, P2, F2. repeat split; auto.
  - rewrite run_snoc, Ru. cbn [bind]. rewrite Fo. reflexivity.
  - rewrite crun_snoc, Cr. exact Cf.
Qed.
Lemma more_ok s : good s -> fst (iter s) <> [] ->
  exists l, more ns tg s = Some l /\ forall s', In s' l <-> exists x, cfollow ns s x = Some s' /\ grammar_at tg (gi s) (path s ++ [x]) <> None.
Proof.
  intros (lo & l & sub & c & s0 & B & N & T_ & I & _) NE.
  assert (FU : forall x c' ts, x = snd (iter s) -> follow c x = Some (c', ts) -> exists l, full ns tg s x = Some l /\
     forall s', In s' l <-> cfollow ns s x = Some s' /\ grammar_at tg (gi s) (path s ++ [x]) <> None).
  { intros x c' ts Ex Fo. destruct (inc_same _ _ _ _ _ _ I Fo Ex) as (-> & it' & I1 & I2). unfold full, cfollow. rewrite <- Ex, dec_refl. rewrite <- Ex in I1.
    rewrite I1. cbn [bind]. destruct (grammar_at tg (gi s) (path s ++ [x])) as [nn|].
    - eexists. split; [reflexivity|]. intros s'. split.
      + intros [<- |[]]. split; [reflexivity|discriminate].
      + intros [[= <-] _]. now left.
    - eexists. split; [reflexivity|]. intros s'. split; [intros []|]. intros [_ H]. now elim H. }
  unfold more.
  inversion I as [y Ei Ec|q w its P Nq C Ei Ec|q lo' nt kids its P Nq C Ei Ec|q lo' t' its S St P Nq C Ei Ec]; subst c; rewrite <- Ei in *; cbn [fst snd] in *.
  - congruence.
  - destruct (FU (T w) _ _ eq_refl (dec_refl _ _ _)) as (l1 & F1 & F2). exists l1. split; [exact F1|]. intros s'. rewrite F2. split.
    + intros H. now exists (T w).
    + intros (x & Cf & G). unfold cfollow in Cf. rewrite <- Ei in Cf. cbn [snd] in Cf. destruct (tsym_eq_dec x (T w)) as [-> |].
      * split; [|exact G]. unfold cfollow. rewrite <- Ei. cbn [snd]. rewrite dec_refl. exact Cf.
      * destruct q; discriminate Cf.
  - destruct (FU (L nt) _ _ eq_refl (dec_refl _ _ _)) as (l1 & F1 & F2). exists l1. split; [exact F1|]. intros s'. rewrite F2. split.
    + intros H. now exists (L nt).
    + intros (x & Cf & G). unfold cfollow in Cf. rewrite <- Ei in Cf. cbn [snd] in Cf. destruct (tsym_eq_dec x (L nt)) as [-> |].
      * split; [|exact G]. unfold cfollow. rewrite <- Ei. cbn [snd]. rewrite dec_refl. exact Cf.
      * destruct q; discriminate Cf.
  - destruct (FU (R (label t')) _ _ eq_refl (dec_refl _ _ _)) as (l1 & F1 & F2).
    destruct (inc_var _ _ _ _ _ I) as (var & V1 & V2 & V3 & it' & V4 & V5). unfold variable. rewrite <- Ei. rewrite V1. cbn [bind]. rewrite V2 in *.
    destruct (grammar_at tg (gi s) (path s ++ [F (label t')])) as [nn|] eqn:Eg.
    + rewrite V4. cbn [bind]. rewrite V3. cbn [bind]. rewrite F1. cbn [bind]. eexists. split; [reflexivity|]. intros s'. rewrite in_app_iff, F2. split.
      * intros [[<- |[]]|[H1 H2]]; [|now exists (R (label t'))]. exists (F (label t')). split; [|rewrite Eg; discriminate].
        unfold cfollow. rewrite <- Ei. cbn [snd]. destruct (tsym_eq_dec (F (label t')) (R (label t'))); [discriminate|]. rewrite V1. cbn [bind].
        rewrite V2, dec_refl, V4. cbn [bind]. rewrite V3. reflexivity.
      * intros (x & Cf & G). destruct (tsym_eq_dec x (R (label t'))) as [-> |NR]; [now right|]. left.
        unfold cfollow in Cf. rewrite <- Ei in Cf. cbn [snd] in Cf. destruct (tsym_eq_dec x (R (label t'))); [congruence|]. rewrite V1 in Cf. cbn [bind] in Cf.
        rewrite V2 in Cf. destruct (tsym_eq_dec x (F (label t'))) as [-> |]; [|discriminate]. rewrite V4 in Cf. cbn [bind] in Cf. rewrite V3 in Cf. cbn [bind] in Cf.
        injection Cf as <-. now left.
    + rewrite F1. cbn [bind app]. eexists. split; [reflexivity|]. intros s'. rewrite F2. split; [intros H; now exists (R (label t'))|].
      intros (x & Cf & G). destruct (tsym_eq_dec x (R (label t'))) as [-> |NR]; [now split|]. exfalso.
      unfold cfollow in Cf. rewrite <- Ei in Cf. cbn [snd] in Cf. destruct (tsym_eq_dec x (R (label t'))); [congruence|]. rewrite V1 in Cf. cbn [bind] in Cf.
      rewrite V2 in Cf. destruct (tsym_eq_dec x (F (label t'))) as [-> |]; [|discriminate]. apply G, Eg.
Qed.
Lemma starts_ok n lo sub : shows ns lo sub -> sites sub = [] -> n = lo + size sub - 1 -> forall (l : list (option (gnode A))) g,
  exists r, starts ns l g n = Some r /\ forall s', In s' r <-> exists i tr, nth_error l i = Some (Some tr) /\ start ns n (g + i) = Some s'.
Proof.
  intros S C ->. induction l as [|[tr|] l IH]; intros g; cbn [starts].
  - eexists. split; [reflexivity|]. intros s'. split; [intros []|]. intros ([|i] & tr & E & _); discriminate.
  - destruct (start_ok ns lo sub g S C) as (s0 & E0 & _). rewrite E0. cbn [bind]. destruct (IH (g + 1)) as (r & E1 & E2). rewrite E1. cbn [bind].
    eexists. split; [reflexivity|]. intros s'. split.
    + intros [<- |H].
      * exists 0, tr. rewrite Nat.add_0_r. auto.
      * apply E2 in H. destruct H as (i & tr' & H1 & H2). exists (Datatypes.S i), tr'. split; [exact H1|]. now replace (g + Datatypes.S i) with (g + 1 + i) by lia.
    + intros ([|i] & tr' & H1 & H2).
      * rewrite Nat.add_0_r in H2. left. congruence.
      * right. apply E2. exists i, tr'. split; [exact H1|]. now replace (g + 1 + i) with (g + Datatypes.S i) by lia.
  - destruct (IH (g + 1)) as (r & E1 & E2). eexists. split; [exact E1|]. intros s'. rewrite E2. split.
    + intros (i & tr' & H1 & H2). exists (Datatypes.S i), tr'. split; [exact H1|]. now replace (g + Datatypes.S i) with (g + 1 + i) by lia.
    + intros ([|i] & tr' & H1 & H2); [discriminate|]. exists i, tr'. split; [exact H1|]. now replace (g + 1 + i) with (g + Datatypes.S i) by lia.
Qed.
Definition is_node (n : nat) : Prop := exists lo l sub, below t lo l sub /\ n = lo + size sub - 1.
Lemma all_starts_ok w : (forall n, In n w -> is_node n) ->
  exists r, all_starts ns tg w = Some r /\ forall s', In s' r <-> exists n g tr, In n w /\ nth_error tg g = Some (Some tr) /\ start ns n g = Some s'.
Proof.
  induction w as [|n w IH]; intros H; cbn [all_starts].
  - eexists. split; [reflexivity|]. intros s'. split; [intros []|]. intros (n & g & tr & [] & _).
  - destruct (H n (or_introl eq_refl)) as (lo & l & sub & B & E). pose proof (below_shows ns t _ _ _ B 0 Hshows) as S.
    destruct (starts_ok n lo sub S (below_sites _ _ _ _ B Hsites) E tg 0) as (r1 & E1 & E2). rewrite E1. cbn [bind].
    destruct IH as (r2 & E3 & E4); [intros m Hm; apply H; now right|]. rewrite E3. cbn [bind]. eexists. split; [reflexivity|].
    intros s'. rewrite in_app_iff, E2, E4. split.
    + intros [(i & tr & X1 & X2)|(m & g & tr & X0 & X1 & X2)]; [exists n, i, tr|exists m, g, tr]; cbn [Nat.add] in *; auto. split; [now left|auto]. split; [now right|auto].
    + intros (m & g & tr & [<- |X0] & X1 & X2); [left; exists g, tr; auto|right; exists m, g, tr; auto].
Qed.
Lemma good_start n g tr s' : is_node n -> needed t gs n -> nth_error tg g = Some (Some tr) -> start ns n g = Some s' -> good s'.
Proof.
  intros (lo & l & sub & B & E) N G S. subst n. pose proof (below_shows ns t _ _ _ B 0 Hshows) as SH. cbn [Nat.add] in SH.
  destruct (start_ok ns lo sub g SH (below_sites _ _ _ _ B Hsites)) as (s0 & E0 & I0 & F0 & T0 & G0 & P0). rewrite S in E0. injection E0 as <-.
  exists lo, l, sub, (AtL lo sub []), s'. rewrite T0, G0, P0, F0. repeat split; auto.
  unfold grammar_at. rewrite G. cbn. discriminate.
Qed.
(** a state at the end is a part of the input tree *)
Lemma good_end s : good s -> fst (iter s) = [] -> exists c, part t (task s) c (future_work s) /\ walk c = path s.
Proof.
  intros (lo & l & sub & c & s0 & B & N & T & I & Ru & _) E. apply (iter_end _ _ _ I) in E. subst c.
  apply (run_cut lo sub _ _ (below_sites _ _ _ _ B Hsites)) in Ru. destruct Ru as (c & C & W). exists c. split; [|exact W]. exists lo, l, sub. auto.
Qed.
Lemma part_nodes h c ts : part t h c ts -> forall n, In n ts -> is_node n.
Proof.
  intros (lo & l & s & B & E & C) n I. destruct (cut_below _ _ _ _ C n I) as (a & l' & s' & B' & ->).
  exists (lo + a), (l + l'), s'. split; [eapply below_trans; eauto|reflexivity].
Qed.
Definition next_of (s : pstate) (l : list pstate) : Prop := exists es, process ns tg s = Some (l, es).
Definition outs (s : pstate) : list (edge A) := match process ns tg s with Some (_, es) => es | None => [] end.
Definition rules_of (s : pstate) : list A := match fst (iter s) with [] => match nth_error gs (gi s) with Some gr => fits gr (path s) | None => [] end | _ => [] end.
Lemma process_ok s : good s -> exists l, process ns tg s = Some (l, map (Build_edge (task s) (future_work s)) (rules_of s)) /\ Forall good l
  /\ (fst (iter s) <> [] -> forall x s', cfollow ns s x = Some s' -> grammar_at tg (gi s) (path s ++ [x]) <> None -> In s' l)
  /\ (rules_of s <> [] -> forall n g tr s', In n (future_work s) -> nth_error tg g = Some (Some tr) -> start ns n g = Some s' -> In s' l).
Proof.
  intros Gs. unfold process, rules_of. destruct (fst (iter s)) as [|f q] eqn:Ei.
  - destruct (good_end s Gs Ei) as (c & P & W). pose proof Gs as (lo & l0 & sub & c0 & s0 & B & N & _ & _ & _ & G & _).
    destruct (grammar_nth _ _ G) as (gr & Egr). rewrite Egr. pose proof (rules_fits _ _ (path s) Egr) as RF.
    destruct (grammar_at tg (gi s) (path s)) as [nn|]; [|now elim G]. rewrite RF.
    destruct (all_starts_ok (future_work s) (part_nodes _ _ _ P)) as (r & E1 & E2).
    destruct (fits gr (path s)) as [|r1 rs] eqn:Ef.
    + eexists. split; [reflexivity|]. split; [constructor|]. split; [congruence|]. congruence.
    + rewrite E1. cbn [bind]. eexists. split; [reflexivity|]. split; [|split; [congruence|]].
      * apply Forall_forall. intros s' I. apply E2 in I. destruct I as (n & g & tr & In_ & X1 & X2).
        apply (good_start n g tr); auto; [eapply part_nodes; eauto|]. eapply n_rule; eauto; [eapply nth_error_In; eauto|]. rewrite W, Ef. discriminate.
      * intros _ n g tr s' In_ X1 X2. apply E2. eauto 10.
  - assert (NE : fst (iter s) <> []) by (rewrite Ei; discriminate).
    destruct (more_ok s Gs NE) as (l & E1 & E2). rewrite E1. cbn [bind map]. eexists. split; [reflexivity|]. split; [|split; [|congruence]].
    + apply Forall_forall. intros s' I. apply E2 in I. destruct I as (x & Cf & G). eapply good_follow; eauto.
    + intros _ x s' Cf G. apply E2. eauto.
Qed.
Lemma existsb_same s u : good s -> Forall good u -> existsb (same s) u = true <-> In s u.
Proof.
  intros Gs Gu. rewrite existsb_exists. split.
  - intros (b & I & S). rewrite Forall_forall in Gu. now rewrite (good_same s b Gs (Gu b I) S).
  - intros I. exists s. split; [exact I|apply same_refl].
Qed.
Lemma push_ok l : forall q u, NoDup u -> Forall good u -> Forall good l ->
  exists new, push l q u = (q ++ new, u ++ new) /\ NoDup (u ++ new) /\ Forall good (u ++ new) /\ incl l (u ++ new).
Proof.
  induction l as [|s l IH]; intros q u ND Gu Gl; cbn [push].
  - exists []. rewrite !app_nil_r. repeat split; auto. intros x [].
  - inversion Gl as [|? ? Gs Gl']; subst. destruct (existsb (same s) u) eqn:E.
    + apply existsb_same in E; auto. destruct (IH q u ND Gu Gl') as (new & P1 & P2 & P3 & P4). exists new. repeat split; auto.
      intros x [<- |I]; [apply in_or_app; now left|auto].
    + assert (NI : ~ In s u) by (intros I; apply (existsb_same s u) in I; auto; congruence).
      destruct (IH (q ++ [s]) (u ++ [s])) as (new & P1 & P2 & P3 & P4); auto.
      { apply NoDup_rev in ND. rewrite <- (rev_involutive (u ++ [s])). apply NoDup_rev. rewrite rev_app_distr. cbn. constructor; [now rewrite <- in_rev|exact ND]. }
      { apply Forall_app. split; auto. }
      exists (s :: new). rewrite <- !app_assoc in *. cbn [app] in *. repeat split; auto. intros x [<- |I]; [apply in_or_app; right; now left|auto].
Qed.
(** finitely many states *)
Definition prefixes : list (list tsym) := [] :: flat_map (fun p => map (fun k => firstn k p) (seq 0 (Datatypes.S (length p)))) (paths grams).
Definition universe : list pstate :=
  flat_map (fun h => flat_map (fun g => flat_map (fun p => match start ns h g with Some s0 => match crun ns s0 p with Some s => [s] | None => [] end | None => [] end)
    prefixes) (seq 0 (length gs))) (seq 0 (size t)).
Lemma good_universe s : good s -> In s universe.
Proof.
  intros (lo & l & sub & c & s0 & B & N & T & I & Ru & G & St & Cr). unfold universe. apply in_flat_map. exists (task s). split.
  { apply in_seq. pose proof (below_size _ _ _ _ B). pose proof (size_pos sub). lia. }
  destruct (grammar_at_paths _ _ _ G) as [Lg Hp]. apply in_flat_map. exists (gi s). split.
  { apply in_seq. unfold grams in Lg. rewrite map_length in Lg. lia. }
  apply in_flat_map. exists (path s). split.
  { unfold prefixes. destruct Hp as [-> |(q & Iq)]; [now left|]. right. apply in_flat_map. exists (path s ++ q). split; [exact Iq|].
    apply in_map_iff. exists (length (path s)). split.
    - rewrite firstn_app, Nat.sub_diag, firstn_all, firstn_O, app_nil_r. reflexivity.
    - apply in_seq. rewrite app_length. lia. }
  rewrite St, Cr. now left.
Qed.
Lemma loop_ok : forall fuel q done, NoDup (done ++ q) -> Forall good (done ++ q) ->
  (forall s l, In s done -> next_of s l -> incl l (done ++ q)) -> length universe < fuel + length done ->
  exists rest, loop fuel ns tg q (done ++ q) = Some (concat (map outs (q ++ rest))) /\ NoDup (done ++ q ++ rest) /\ Forall good (done ++ q ++ rest)
    /\ forall s l, In s (done ++ q ++ rest) -> next_of s l -> incl l (done ++ q ++ rest).
Proof.
  induction fuel as [|fuel IH]; intros q done ND Gd Cl Lf.
  - exfalso. assert (NoDup done) by (clear -ND; induction done as [|x d IHd]; [constructor|]; cbn in ND; inversion ND; subst; constructor; [|auto]; intros X; apply H1, in_or_app; now left).
    pose proof (NoDup_incl_length (l := done) (l' := universe) H) as X. apply Forall_app in Gd. destruct Gd as [Gd _].
    specialize (X (fun s I => good_universe s (proj1 (Forall_forall _ _) Gd s I))). lia.
  - cbn [loop]. destruct q as [|s q].
    + exists []. rewrite !app_nil_r in *. repeat split; auto.
    + assert (Gs : good s) by (rewrite Forall_forall in Gd; apply Gd, in_or_app; right; now left).
      destruct (process_ok s Gs) as (l & P1 & P2 & _). rewrite P1. cbn [bind].
      destruct (push_ok l q (done ++ s :: q) ND Gd P2) as (new & Q1 & Q2 & Q3 & Q4). rewrite Q1.
      replace ((done ++ s :: q) ++ new) with ((done ++ [s]) ++ q ++ new) in * by (rewrite <- !app_assoc; reflexivity).
      destruct (IH (q ++ new) (done ++ [s])) as (rest & R1 & R2 & R3 & R4); auto.
      { intros s' l' I Nx. apply in_app_or in I. destruct I as [I|[<- |[]]].
        - intros x Ix. specialize (Cl s' l' I Nx x Ix). rewrite <- app_assoc. apply in_app_or in Cl. apply in_or_app. destruct Cl as [Cl|[Cl|Cl]]; [now left|right; now left|].
          right. apply in_or_app. right. apply in_or_app. left. exact Cl.
        - destruct Nx as (es & Nx). rewrite P1 in Nx. injection Nx as <- <-. exact Q4. }
      { rewrite app_length. cbn. lia. }
      rewrite R1. cbn [bind]. exists (new ++ rest). replace (done ++ (s :: q) ++ new ++ rest) with ((done ++ [s]) ++ (q ++ new) ++ rest) by (rewrite <- !app_assoc; reflexivity).
      split; [|split; [exact R2|split; [exact R3|exact R4]]]. cbn [app map concat]. unfold outs at 2. rewrite P1. rewrite <- app_assoc. reflexivity.
Qed.
Lemma starts_nodup n : forall (l : list (option (gnode A))) g r, starts ns l g n = Some r -> NoDup r /\ Forall (fun s => g <= gi s) r.
Proof.
  induction l as [|[tr|] l IH]; intros g r; cbn [starts].
  - intros [= <-]. split; constructor.
  - destruct (start ns n g) as [s|] eqn:Es; [|discriminate]. cbn [bind]. destruct (starts ns l (g + 1) n) as [r'|] eqn:Er; [|discriminate]. cbn [bind]. intros [= <-].
    destruct (IH _ _ Er) as [N Fa]. assert (Gi : gi s = g) by (unfold start in Es; destruct (begin_ ns n); [|discriminate]; injection Es as <-; reflexivity).
    split.
    + constructor; [|exact N]. intros I. rewrite Forall_forall in Fa. specialize (Fa s I). lia.
    + constructor; [lia|]. eapply Forall_impl; [|exact Fa]. cbn. intros. lia.
  - intros H. destruct (IH _ _ H) as [N Fa]. split; [exact N|]. eapply Forall_impl; [|exact Fa]. cbn. intros. lia.
Qed.

Definition match_of (s : pstate) : list (nat * nat * list tsym * list nat) :=
  match rules_of s with [] => [] | _ => [(gi s, task s, path s, future_work s)] end.
Lemma outs_match s : good s -> outs s = concat (map (fun m => match m with (g, h, p, ts) => map (Build_edge h ts) (fits (nth g gs []) p) end) (match_of s)).
Proof.
  intros Gs. unfold outs. destruct (process_ok s Gs) as (l & P1 & _). rewrite P1. unfold match_of. destruct (rules_of s) as [|r rs] eqn:E; [reflexivity|].
  cbn [map concat]. rewrite app_nil_r. unfold rules_of in E. destruct (fst (iter s)); [|discriminate]. destruct (nth_error gs (gi s)) as [gr|] eqn:Eg; [|discriminate].
  rewrite (nth_error_nth _ _ [] Eg), E. reflexivity.
Qed.
Theorem compose_ok : exists N, forall fuel, N <= fuel -> exists ms es,
  compose fuel ns grams = Some es /\ NoDup ms
  /\ (forall g h p ts, In (g, h, p, ts) ms <-> needed t gs h /\ (exists c, part t h c ts /\ walk c = p) /\ fits (nth g gs []) p <> [])
  /\ es = concat (map (fun m => match m with (g, h, p, ts) => map (Build_edge h ts) (fits (nth g gs []) p) end) ms).
Proof.
  exists (Datatypes.S (length universe)). intros fuel Lf. unfold compose. change (map read_grammar grams) with tg. rewrite Hlen.
  destruct (starts_ok (size t - 1) 0 t Hshows Hsites eq_refl tg 0) as (q0 & E1 & E2). rewrite E1. cbn [bind].
  destruct (starts_nodup _ _ _ _ E1) as [ND0 _].
  assert (G0 : Forall good q0).
  { apply Forall_forall. intros s I. apply E2 in I. destruct I as (g & tr & X1 & X2). apply (good_start (size t - 1) g tr); auto; [|constructor].
    exists 0, 0, t. split; [constructor|reflexivity]. }
  destruct (loop_ok fuel q0 [] ND0 G0) as (rest & R1 & R2 & R3 & R4); [intros s l []|cbn; lia|]. cbn [app] in *.
  set (Ls := q0 ++ rest) in *.
  assert (CL : forall s x s', In s Ls -> fst (iter s) <> [] -> cfollow ns s x = Some s' -> grammar_at tg (gi s) (path s ++ [x]) <> None -> In s' Ls).
  { intros s x s' I NE Cf G. assert (Gs : good s) by (rewrite Forall_forall in R3; auto). destruct (process_ok s Gs) as (l & P1 & _ & P3 & _).
    apply (R4 s l I); [eexists; exact P1|]. eapply P3; eauto. }
  (* every needed node is started *)
  assert (ST : forall h, needed t gs h -> forall g tr, nth_error tg g = Some (Some tr) -> exists s0, start ns h g = Some s0 /\ In s0 Ls).
  { assert (PA : forall h lo l sub g tr s0, below t lo l sub -> h = lo + size sub - 1 -> nth_error tg g = Some (Some tr) -> start ns h g = Some s0 -> In s0 Ls ->
       forall p c ts, grammar_at tg g p <> None -> run (AtL lo sub []) p = Some (c, ts) -> exists s, In s Ls /\ task s = h /\ gi s = g /\ path s = p /\ future_work s = ts /\ iter_ok ns (iter s) c).
    { intros h lo l sub g tr s0 B Eh Eg S0 I0. induction p as [|x p IH] using rev_ind; intros c ts G Ru.
      - cbn in Ru. injection Ru as <- <-. subst h. pose proof (below_shows ns t _ _ _ B 0 Hshows) as SH. cbn [Nat.add] in SH.
        destruct (start_ok ns lo sub g SH (below_sites _ _ _ _ B Hsites)) as (s1 & Y0 & Y1 & Y2 & Y3 & Y4 & Y5). rewrite S0 in Y0. injection Y0 as <-.
        exists s0. auto 10.
      - rewrite run_snoc in Ru. destruct (run (AtL lo sub []) p) as [[c1 t1]|] eqn:Er; [|discriminate]. cbn [bind] in Ru.
        destruct (follow c1 x) as [[c2 t2]|] eqn:Fo; [|discriminate]. cbn [bind] in Ru. injection Ru as <- <-.
        destruct (IH c1 t1) as (s & Is & Ts & Gs & Ps & Fs & Iok); [eapply grammar_prefix; exact G|reflexivity|].
        destruct (cfollow_ok _ _ _ _ _ _ Iok Fo) as (s' & Z1 & Z2 & Z3 & Z4 & Z5 & Z6). exists s'. split.
        + apply (CL s x); auto; [|rewrite Gs, Ps; exact G]. intros E. apply (iter_end _ _ _ Iok) in E. subst c1. discriminate.
        + rewrite Z3, Z4, Z5, Z6, Ts, Gs, Ps, Fs. auto 10. }
    induction 1 as [|h c ts g0 n N IH P Ig Ef In_]; intros g tr Eg.
    - destruct (start_ok ns 0 t g Hshows Hsites) as (s0 & Y0 & _). exists s0. cbn [Nat.add] in Y0. split; [exact Y0|]. apply in_or_app. left. apply E2. exists g, tr. auto.
    - destruct (part_nodes _ _ _ P n In_) as (lo' & l' & sub' & B' & En). subst n. pose proof (below_shows ns t _ _ _ B' 0 Hshows) as SH'. cbn [Nat.add] in SH'.
      destruct (start_ok ns lo' sub' g SH' (below_sites _ _ _ _ B' Hsites)) as (s0 & Y0 & _). exists s0. split; [exact Y0|].
      apply In_nth_error in Ig. destruct Ig as (i & Ei).
      assert (GA : grammar_at tg i (walk c) <> None) by (pose proof (rules_fits _ _ (walk c) Ei) as RF; destruct (grammar_at tg i (walk c)); [discriminate|congruence]).
      assert (HT : exists tr', nth_error tg i = Some (Some tr')).
      { unfold grammar_at in GA. destruct (nth_error tg i) as [[tr'|]|]; [eauto|now elim GA|now elim GA]. }
      destruct HT as (tr' & Et). destruct (IH i tr' Et) as (s1 & S1 & I1). pose proof P as (lo & l & sub & B & Eh & C).
      assert (Ru : run (AtL lo sub []) (walk c) = Some (End_, ts)) by (apply run_cut; [eapply below_sites; eauto|eauto]).
      destruct (PA h lo l sub i tr' s1 B Eh Et S1 I1 (walk c) End_ ts GA Ru) as (s & Is & Ts & Gs & Ps & Fs & Iok).
      assert (Gds : good s) by (rewrite Forall_forall in R3; auto). destruct (process_ok s Gds) as (ll & P1 & _ & _ & P4).
      apply (R4 s ll Is); [eexists; exact P1|]. apply (P4) with (n := lo' + size sub' - 1) (g := g) (tr := tr); auto.
      + unfold rules_of. rewrite (proj2 (iter_end _ _ _ Iok) eq_refl), Gs, Ei, Ps. exact Ef.
      + rewrite Fs. exact In_. }
  exists (concat (map match_of Ls)), (concat (map outs Ls)). split; [exact R1|]. split; [|split].
  - assert (X : forall l, NoDup l -> Forall good l -> NoDup (concat (map match_of l))).
    { induction l as [|s l IHl]; intros N Gl; [constructor|]. inversion N as [|? ? NI N']; subst. inversion Gl as [|? ? Gs Gl']; subst. cbn [map concat].
      unfold match_of at 1. destruct (rules_of s); [apply IHl; auto|]. cbn [app]. constructor; [|apply IHl; auto]. intros I.
      apply in_concat in I. destruct I as (ml & I1 & I2). apply in_map_iff in I1. destruct I1 as (s' & <- & I1). unfold match_of in I2. destruct (rules_of s'); [destruct I2|].
      destruct I2 as [I2|[]]. injection I2 as Z1 Z2 Z3 Z4. apply NI. rewrite Forall_forall in Gl'. now rewrite (good_key s s' Gs (Gl' s' I1)) by congruence. }
    apply X; auto.
  - intros g h p ts. split.
    + intros I. apply in_concat in I. destruct I as (ml & I1 & I2). apply in_map_iff in I1. destruct I1 as (s & <- & Is).
      assert (Gs : good s) by (rewrite Forall_forall in R3; auto). unfold match_of in I2. destruct (rules_of s) as [|r rs] eqn:Er; [destruct I2|]. destruct I2 as [I2|[]].
      injection I2 as <- <- <- <-. unfold rules_of in Er. destruct (fst (iter s)) eqn:Ei; [|discriminate]. destruct (nth_error gs (gi s)) as [gr|] eqn:Eg; [|discriminate].
      split; [destruct Gs as (? & ? & ? & ? & ? & _ & N & _); exact N|]. split; [apply good_end; auto|]. rewrite (nth_error_nth _ _ [] Eg), Er. discriminate.
    + intros (N & (c & P & W) & Ef). destruct (nth_error gs g) as [gr|] eqn:Eg.
      2: { elim Ef. rewrite nth_overflow by (apply nth_error_None; exact Eg). reflexivity. }
      rewrite (nth_error_nth _ _ [] Eg) in Ef.
      assert (GA : grammar_at tg g p <> None) by (pose proof (rules_fits _ _ p Eg) as RF; destruct (grammar_at tg g p); [discriminate|congruence]).
      assert (HT : exists tr', nth_error tg g = Some (Some tr')).
      { unfold grammar_at in GA. destruct (nth_error tg g) as [[tr'|]|]; [eauto|now elim GA|now elim GA]. }
      destruct HT as (tr & Et). destruct (ST h N g tr Et) as (s1 & S1 & I1). destruct P as (lo & l & sub & B & Eh & C).
      assert (Ru : run (AtL lo sub []) p = Some (End_, ts)) by (apply run_cut; [eapply below_sites; eauto|eauto]).
      assert (PA : forall p c ts, grammar_at tg g p <> None -> run (AtL lo sub []) p = Some (c, ts) -> exists s, In s Ls /\ task s = h /\ gi s = g /\ path s = p /\ future_work s = ts /\ iter_ok ns (iter s) c).
      { clear Ru Ef W C c p ts GA. induction p as [|x p IH] using rev_ind; intros c ts G Ru.
        - cbn in Ru. injection Ru as <- <-. subst h. pose proof (below_shows ns t _ _ _ B 0 Hshows) as SH. cbn [Nat.add] in SH.
          destruct (start_ok ns lo sub g SH (below_sites _ _ _ _ B Hsites)) as (s2 & Y0 & Y1 & Y2 & Y3 & Y4 & Y5). rewrite S1 in Y0. injection Y0 as <-.
          exists s1. auto 10.
        - rewrite run_snoc in Ru. destruct (run (AtL lo sub []) p) as [[c1 t1]|] eqn:Er; [|discriminate]. cbn [bind] in Ru.
          destruct (follow c1 x) as [[c2 t2]|] eqn:Fo; [|discriminate]. cbn [bind] in Ru. injection Ru as <- <-.
          destruct (IH c1 t1) as (s & Is & Ts & Gs & Ps & Fs & Iok); [eapply grammar_prefix; exact G|reflexivity|].
          destruct (cfollow_ok _ _ _ _ _ _ Iok Fo) as (s' & Z1 & Z2 & Z3 & Z4 & Z5 & Z6). exists s'. split.
          + apply (CL s x); auto; [|rewrite Gs, Ps; exact G]. intros E. apply (iter_end _ _ _ Iok) in E. subst c1. discriminate.
          + rewrite Z3, Z4, Z5, Z6, Ts, Gs, Ps, Fs. auto 10. }
      destruct (PA p End_ ts GA Ru) as (s & Is & Ts & Gs & Ps & Fs & Iok). apply in_concat. exists (match_of s). split; [apply in_map, Is|].
      unfold match_of, rules_of. rewrite (proj2 (iter_end _ _ _ Iok) eq_refl), Gs, Eg, Ps. destruct (fits gr p); [congruence|]. left. congruence.
  - clear -R3 Hshows Hlen Hsites. clearbody Ls. induction Ls as [|s Ls IH]; [reflexivity|]. inversion R3 as [|? ? Gs R3']; subst. cbn [map concat]. rewrite map_app, concat_app, <- IH by exact R3'.
    f_equal. apply outs_match, Gs.
Qed.
End Compose.

(** ** trees whose labels fix the number of children *)
Definition ranked_items (rank : list ascii -> nat) := fix go (l : list item) : Prop := match l with [] => True | Sub s :: r => ranked rank s /\ go r | _ :: r => go r end.
Lemma ranked_eq rank nt kids : ranked rank (Tree nt kids) = (length kids = rank nt /\ ranked_items rank kids).
Proof. reflexivity. Qed.
Lemma walk_inj rank a : forall b p q, ranked rank a -> ranked rank b -> walk a ++ p = walk b ++ q -> a = b /\ p = q.
Proof.
  pattern a. apply (tree_rect' _ (fun it => match it with Sub s => forall b p q, ranked rank s -> ranked rank b -> walk s ++ p = walk b ++ q -> s = b /\ p = q | _ => True end)); auto.
  intros nt kids FK. intros [nt' kids'] p q Ra Rb E. rewrite !walk_eq in E. cbn [app] in E. injection E as <- E.
  rewrite ranked_eq in Ra, Rb. destruct Ra as [La Ra]. destruct Rb as [Lb Rb]. rewrite <- La in Lb. clear La.
  assert (X : kids = kids' /\ p = q).
  { revert kids' Lb Rb E. induction FK as [|it kids Fi FK IH]; intros [|it' kids'] Lb Rb E; try discriminate Lb; [auto|].
    injection Lb as Lb. cbn [map concat] in E. rewrite <- !app_assoc in E.
    destruct it as [w|w|s]; destruct it' as [w'|w'|s']; cbn [walk_item app] in E; try discriminate E; cbn [ranked_items] in Ra, Rb.
    - injection E as <- E. destruct (IH Ra kids' Lb Rb E) as [-> ->]. auto.
    - injection E as <- E. destruct (IH Ra kids' Lb Rb E) as [-> ->]. auto.
    - injection E as _ E. destruct Ra as [Ra1 Ra2]. destruct Rb as [Rb1 Rb2]. destruct (Fi _ _ _ Ra1 Rb1 E) as [-> E2].
      destruct (IH Ra2 kids' Lb Rb2 E2) as [-> ->]. auto. }
  destruct X as [-> ->]. auto.
Qed.
Lemma cut_ranked rank lo s c ts : cut lo s c ts -> ranked rank s -> ranked rank c.
Proof.
  intros H.
  refine (cut_mut (fun lo s c ts _ => ranked rank s -> ranked rank c) (fun lo k k' ts _ => ranked_items rank k -> ranked_items rank k' /\ length k' = length k) _ _ _ _ _ lo s c ts H).
  - intros l0 nt kids kids' t0 CI IH. rewrite !ranked_eq. intros [A B]. destruct (IH B) as [C D]. split; [congruence|exact C].
  - auto.
  - intros l0 w k k' t0 CI IH A. cbn [ranked_items] in *. destruct (IH A). split; [assumption|cbn; congruence].
  - intros l0 s0 k k' t0 CI IH [A B]. cbn [ranked_items] in *. destruct (IH B). split; [assumption|cbn; congruence].
  - intros l0 s0 s' k k' t1 t2 C IH1 CI IH2 [A B]. cbn [ranked_items] in *. destruct (IH2 B). split; [split; auto|cbn; congruence].
Qed.
Lemma below_ranked rank t n l s : below t n l s -> ranked rank t -> ranked rank s.
Proof.
  induction 1 as [|nt k1 t0 k2 n l s B IH]; intros H; [exact H|]. apply IH. rewrite ranked_eq in H. destruct H as [_ H]. clear -H.
  induction k1 as [|[w|w|x] k1 IH]; cbn [app ranked_items] in H; tauto.
Qed.
Theorem ranked_fits {A} rank t h c ts (gr : list (tree * A)) f r : ranked rank t -> part t h c ts -> In (f, r) gr -> ranked rank f -> walk f = walk c -> f = c.
Proof.
  intros Rt (lo & l & s & B & _ & C) I Rf E. apply (walk_inj rank f c [] [] Rf).
  - eapply cut_ranked; eauto. eapply below_ranked; eauto.
  - now rewrite E.
Qed.

(** ** pass-through rules *)
Definition shallow_item (it : item) : item := match it with Sub s => Site (label s) | x => x end.
Definition shallow (s : tree) : tree := match s with Tree nt kids => Tree nt (map shallow_item kids) end.
Fixpoint kid_nodes (lo : nat) (k : list item) : list nat :=
  match k with [] => [] | Sub s :: r => lo + size s - 1 :: kid_nodes (lo + size s) r | _ :: r => kid_nodes lo r end.
Lemma shallow_cut lo s : sites s = [] -> exists ts, cut lo s (shallow s) ts /\ Forall (fun n => n < lo + size s - 1) ts.
Proof.
  destruct s as [nt kids]. rewrite sites_eq, size_eq. intros H. exists (kid_nodes lo kids). cbn [shallow].
  assert (X : cut_items lo kids (map shallow_item kids) (kid_nodes lo kids) /\ Forall (fun n => n < lo + sizes kids) (kid_nodes lo kids)).
  { revert lo H. induction kids as [|it kids IH]; intros lo H; cbn [map kid_nodes]; [split; constructor|]. rewrite all_sites_cons in H. apply app_eq_nil in H. destruct H as [H1 H2].
    rewrite sizes_cons. destruct it as [w|w|s]; cbn [shallow_item item_size]; [|discriminate H1|].
    - destruct (IH lo H2) as [A B]. split; [constructor; exact A|exact B].
    - destruct (IH (lo + size s) H2) as [A B]. pose proof (size_pos s). split; [constructor; exact A|]. constructor; [lia|]. eapply Forall_impl; [|exact B]. cbn. intros. lia. }
  destruct X as [X1 X2]. split; [constructor; exact X1|]. eapply Forall_impl; [|exact X2]. cbn. intros. lia.
Qed.
Lemma rhs_walk_ok ns lo rhs kids : shows_all ns lo rhs kids -> all_sites kids = [] -> rhs_walk ns rhs = Some (concat (map walk_item (map shallow_item kids))).
Proof.
  induction 1 as [|lo w r k S IH|lo w r k S IH|lo t r k S1 S2 IH]; intros H; [reflexivity| | |]; rewrite all_sites_cons in H.
  - cbn [rhs_walk]. rewrite IH by exact H. reflexivity.
  - discriminate H.
  - apply app_eq_nil in H. destruct H as [_ H]. cbn [rhs_walk]. destruct (shows_label _ _ _ S1) as (m & M1 & M2). rewrite M1. cbn [bind]. rewrite IH by exact H. cbn [bind].
    cbn [map concat walk_item shallow_item app]. rewrite M2. reflexivity.
Qed.
Lemma rhs_text_ok ns lo rhs kids : shows_all ns lo rhs kids -> all_sites kids = [] ->
  rhs_text ns rhs = Some (concat (map (fun it => [" "%char] ++ match it with Word w => w | Site w => ["["%char] ++ w ++ ["]"%char] | Sub s => print s end) (map shallow_item kids)))
  /\ length rhs = length kids.
Proof.
  induction 1 as [|lo w r k S IH|lo w r k S IH|lo t r k S1 S2 IH]; intros H; [split; reflexivity| | |]; rewrite all_sites_cons in H.
  - cbn [rhs_text]. destruct (IH H) as [-> E]. split; [reflexivity|cbn; congruence].
  - discriminate H.
  - apply app_eq_nil in H. destruct H as [_ H]. cbn [rhs_text]. destruct (shows_label _ _ _ S1) as (m & M1 & M2). rewrite M1. cbn [bind]. destruct (IH H) as [-> E]. cbn [bind].
    cbn [map concat shallow_item]. rewrite M2. split; [rewrite <- !app_assoc; reflexivity|cbn; congruence].
Qed.
Fixpoint wf_items (l : list item) : Prop := match l with [] => True | Word w :: r => good_word w /\ wf_items r | Site w :: r => (w <> [] /\ Forall plain w) /\ wf_items r | Sub s :: r => wf s /\ wf_items r end.
Lemma wf_eq nt kids : wf (Tree nt kids) = (nt <> [] /\ Forall plain nt /\ wf_items kids).
Proof. reflexivity. Qed.
Lemma below_wf t n l s : below t n l s -> wf t -> wf s.
Proof.
  induction 1 as [|nt k1 t0 k2 n l s B IH]; intros H; [exact H|]. apply IH. rewrite wf_eq in H. destruct H as (_ & _ & H). clear -H.
  induction k1 as [|[w|w|x] k1 IH]; cbn [app wf_items] in H; tauto.
Qed.
Lemma shallow_wf s : wf s -> wf (shallow s).
Proof.
  destruct s as [nt kids]. cbn [shallow]. rewrite !wf_eq. intros (A & B & C). split; [exact A|]. split; [exact B|]. clear -C.
  induction kids as [|[w|w|[x k]] kids IH]; cbn [map shallow_item wf_items] in *; [exact I| | |].
  - tauto.
  - tauto.
  - destruct C as [C1 C2]. rewrite wf_eq in C1. cbn [label]. tauto.
Qed.
Lemma shallow_walk_len s : length (walk (shallow s)) = S (match s with Tree _ k => length k end).
Proof.
  destruct s as [nt k]. cbn [shallow]. rewrite walk_eq. cbn [length]. f_equal. induction k as [|it k IH]; [reflexivity|]. cbn [map concat]. rewrite app_length, IH. destruct it; reflexivity.
Qed.
Lemma rule_src_ok ns lo nt rhs kids : shows_all ns lo rhs kids -> all_sites kids = [] -> wf (Tree nt kids) -> rule_src ns (nt, rhs) = Some (walk (shallow (Tree nt kids))).
Proof.
  intros S H W. unfold rule_src. cbn [fst snd]. destruct (rhs_text_ok _ _ _ _ S H) as [-> EL]. cbn [bind].
  pose proof (shallow_wf _ W) as W'.
  match goal with |- context[TreeFragment 0 0 ?x true] => replace x with (print (shallow (Tree nt kids))) by reflexivity end.
  assert (P : writes (shallow (Tree nt kids)) (print (shallow (Tree nt kids)))).
  { apply print_writes, W'. }
  destruct (fragment_walked _ _ true 0 0 P (or_introl eq_refl)) as (f & -> & D). apply D. rewrite shallow_walk_len, EL. lia.
Qed.
(** every number is that of a node *)
Lemma node_all t : forall i, i < size t -> is_node t i.
Proof.
  pattern t. apply (tree_rect' _ (fun it => match it with Sub s => forall i, i < size s -> is_node s i | _ => True end)); auto.
  intros nt kids FK i H. rewrite size_eq in H. destruct (Nat.eq_dec i (sizes kids)) as [-> |N].
  - exists 0, 0, (Tree nt kids). split; [constructor|]. rewrite size_eq. lia.
  - assert (X : forall i, i < sizes kids -> exists k1 s k2 j, kids = k1 ++ Sub s :: k2 /\ is_node s j /\ i = sizes k1 + j).
    { clear H N i. induction FK as [|it kids Fi FK IH]; intros i H; [unfold sizes in H; cbn in H; lia|]. rewrite sizes_cons in H.
      destruct (Nat.lt_ge_cases i (item_size it)) as [L|L].
      - destruct it as [w|w|s]; cbn [item_size] in L; [lia|lia|]. exists [], s, kids, i. split; [reflexivity|]. split; [apply Fi, L|]. unfold sizes. cbn. lia.
      - destruct (IH (i - item_size it) ltac:(lia)) as (k1 & s & k2 & j & -> & B & E). exists (it :: k1), s, k2, j. split; [reflexivity|]. split; [exact B|]. rewrite sizes_cons. lia. }
    destruct (X i ltac:(lia)) as (k1 & s & k2 & j & -> & (lo & l & s' & B & ->) & ->).
    exists (sizes k1 + lo), (list_sum (map item_width k1) + l), s'. split; [apply b_down, B|]. pose proof (size_pos s'). lia.
Qed.
Section Pass.
Context {A : Type}.
Variables (t : tree) (ns : list (option (list ascii * list sym))) (gs : list (list (tree * A))).
Hypothesis Hshows : shows ns 0 t.
Hypothesis Hlen : length ns = size t.
Hypothesis Hsites : sites t = [].
Hypothesis Hwf : wf t.
Variables (mk : list tsym -> A) (is_copy : A -> nat -> bool).
Definition key_of (n : list ascii * list sym) (f : tree) : Prop := rhs_walk ns (snd n) = Some (tl (walk f)) /\ L (fst n) :: tl (walk f) = walk f /\ rule_src ns n = Some (walk f).
Lemma pass_ok others : forall prods seen, (forall o, In o prods -> exists n f, o = Some n /\ key_of n f) ->
  exists ptt : list (tree * A), pass_rules mk is_copy ns others prods seen = Some (map (fun fr => (walk (fst fr), snd fr)) ptt)
  /\ forall n f, In (Some n) prods -> key_of n f -> In (walk f) seen \/ (exists r g, In (g, r) ptt /\ walk g = walk f) \/ DoesAbstractPassThroughRuleExist is_copy others (walk f) = true.
Proof.
  induction prods as [|o prods IH]; intros seen H; cbn [pass_rules].
  - exists []. split; [reflexivity|]. intros n f [].
  - destruct (H o (or_introl eq_refl)) as (n & f & -> & K1 & K2 & K3). rewrite K1. cbn [bind]. rewrite K2.
    assert (H' : forall o, In o prods -> exists n f, o = Some n /\ key_of n f) by (intros; apply H; now right).
    assert (KE : forall n' f', Some n' = Some n -> key_of n' f' -> walk f' = walk f).
    { intros n' f' [= ->] (J1 & J2 & _). rewrite <- K2, <- J2. rewrite J1 in K1. injection K1 as ->. reflexivity. }
    destruct (in_dec (list_eq_dec tsym_eq_dec) (walk f) seen) as [I|NI].
    + destruct (IH seen H') as (ptt & E1 & E2). exists ptt. split; [exact E1|]. intros n' f' [J|J] K'; [|eauto]. left. rewrite (KE n' f' (eq_sym J) K'). exact I.
    + rewrite K3. cbn [bind]. destruct (IH (walk f :: seen) H') as (ptt & E1 & E2). destruct (abstract_rule (tl (walk f)) && DoesAbstractPassThroughRuleExist is_copy others (walk f)) eqn:Ab.
      * apply andb_true_iff in Ab. destruct Ab as [_ Ab]. exists ptt. split; [exact E1|]. intros n' f' [J|J] K'.
        -- right. right. rewrite (KE n' f' (eq_sym J) K'). exact Ab.
        -- destruct (E2 n' f' J K') as [[E|E]|E]; auto. right. right. rewrite <- E. exact Ab.
      * rewrite E1. cbn [bind]. exists ((f, mk (walk f)) :: ptt). split; [reflexivity|]. intros n' f' [J|J] K'.
        -- right. left. exists (mk (walk f)), f. split; [now left|]. symmetry. apply (KE n' f' (eq_sym J) K').
        -- destruct (E2 n' f' J K') as [[E|E]|[(r & g & E & E')|E]]; auto.
           ++ right. left. exists (mk (walk f)), f. split; [now left|exact E].
           ++ right. left. exists r, g. split; [now right|exact E'].
Qed.
Lemma abstract_fits p : DoesAbstractPassThroughRuleExist is_copy (tg gs) p = true -> exists g, In g gs /\ fits g p <> [].
Proof.
  unfold DoesAbstractPassThroughRuleExist. intros H. apply existsb_exists in H. destruct H as (o & I & H). apply In_nth_error in I. destruct I as (i & Ei).
  destruct o as [tr|]; [|discriminate]. destruct (at_ tr p) as [nn|] eqn:Ea; [|discriminate]. apply existsb_exists in H. destruct H as (r & Ir & _).
  assert (GA : grammar_at (tg gs) i p = Some nn) by (unfold grammar_at; rewrite Ei; exact Ea).
  destruct (grammar_nth gs i p ltac:(congruence)) as (gr & Egr). exists gr. split; [eapply nth_error_In; eauto|].
  pose proof (rules_fits gs i gr p Egr) as RF. rewrite GA in RF. rewrite <- RF. intros E. rewrite E in Ir. destruct Ir.
Qed.
Theorem pass_translates : exists N, forall fuel, N <= fuel -> exists es, compose_pass mk is_copy fuel ns (grams gs) = Some es
  /\ derivable (map (fun e => (head e, tails e)) es) (size t - 1).
Proof.
  assert (KN : forall lo l s, below t lo l s -> exists n, nth_error ns (lo + size s - 1) = Some (Some n) /\ key_of n (shallow s)).
  { intros lo l s B. pose proof (below_shows ns t _ _ _ B 0 Hshows) as SH. cbn [Nat.add] in SH. pose proof (below_sites _ _ _ _ B Hsites) as CS.
    inversion SH as [lo' nt rhs kids E SA]; subst. exists (nt, rhs). split; [exact E|]. rewrite sites_eq in CS. split; [|split; [reflexivity|]]; [cbn [snd shallow]; rewrite (rhs_walk_ok _ _ _ _ SA CS); reflexivity|].
    eapply rule_src_ok; eauto. eapply below_wf; eauto. }
  destruct (pass_ok (tg gs) ns []) as (ptt & E1 & E2).
  { intros o I. apply In_nth_error in I. destruct I as (i & Ei). assert (Li : i < size t) by (rewrite <- Hlen; apply nth_error_Some; congruence).
    destruct (node_all t i Li) as (lo & l & s & B & ->). destruct (KN lo l s B) as (n & En & K). rewrite Ei in En. injection En as ->. eauto. }
  destruct (compose_ok t ns (gs ++ [ptt]) Hshows Hlen Hsites) as (N & C). exists N. intros fuel Lf. destruct (C fuel Lf) as (ms & es & C1 & C2 & C3 & C4).
  exists es. unfold compose_pass. change (map read_grammar (grams gs)) with (tg gs). rewrite E1. cbn [bind].
  replace (grams gs ++ [map (fun fr => (walk (fst fr), snd fr)) ptt]) with (grams (gs ++ [ptt])) by (unfold grams; rewrite map_app; reflexivity).
  split; [exact C1|].
  assert (ND : forall h, needed t (gs ++ [ptt]) h -> is_node t h).
  { induction 1 as [|h c ts g n N' IH P Ig Ef In_]; [exists 0, 0, t; split; [constructor|reflexivity]|]. eapply part_nodes; eauto. }
  assert (D : forall h, needed t (gs ++ [ptt]) h -> derivable (map (fun e => (head e, tails e)) es) h).
  { induction h as [h IH] using lt_wf_ind. intros Nh. destruct (ND h Nh) as (lo & l & s & B & Eh).
    destruct (shallow_cut lo s (below_sites _ _ _ _ B Hsites)) as (ts & Cu & Fl). destruct (KN lo l s B) as (n & En & K).
    assert (Fg : exists g, In g (gs ++ [ptt]) /\ fits g (walk (shallow s)) <> []).
    { destruct (E2 n (shallow s) (nth_error_In _ _ En) K) as [[]|[(r & g & Ig & Wg)|Ab]].
      - exists ptt. split; [apply in_or_app; right; now left|]. unfold fits. intros E. apply map_eq_nil in E.
        assert (X : In (g, r) (filter (fun fr : tree * A => if list_eq_dec tsym_dec (walk (fst fr)) (walk (shallow s)) then true else false) ptt)).
        { apply filter_In. split; [exact Ig|]. cbn [fst]. destruct (list_eq_dec tsym_dec (walk g) (walk (shallow s))); [reflexivity|congruence]. }
        rewrite E in X. destruct X.
      - destruct (abstract_fits _ Ab) as (g & Ig & Ef). exists g. split; [apply in_or_app; now left|exact Ef]. }
    destruct Fg as (g & Ig & Ef). assert (P : part t h (shallow s) ts) by (exists lo, l, s; auto).
    destruct (In_nth_error _ _ Ig) as (i & Ei).
    assert (Im : In (i, h, walk (shallow s), ts) ms) by (apply C3; split; [exact Nh|]; split; [eauto|]; rewrite (nth_error_nth _ _ [] Ei); exact Ef).
    apply (der _ h ts).
    - rewrite C4. rewrite concat_map. rewrite map_map. apply in_concat. eexists. split; [apply in_map, Im|]. cbn beta iota. rewrite (nth_error_nth _ _ [] Ei).
      destruct (fits g (walk (shallow s))) as [|r rs]; [congruence|]. left. reflexivity.
    - apply Forall_forall. intros n' In'. apply IH; [rewrite Forall_forall in Fl; specialize (Fl n' In'); lia|]. eapply n_rule; eauto. }
  apply D. constructor.
Qed.
End Pass.

Theorem edges_of_text {A} t w (gs : list (list (tree * A))) : writes t w -> sites t = [] ->
  exists f, TreeFragment 0 0 w false = Ok f /\ exists N, forall fuel, N <= fuel -> exists ms es,
    compose fuel (f_nodes f) (map (map (fun fr => (walk (fst fr), snd fr))) gs) = Some es /\ NoDup ms
    /\ (forall g h p ts, In (g, h, p, ts) ms <-> needed t gs h /\ (exists c, part t h c ts /\ walk c = p) /\ fits (nth g gs []) p <> [])
    /\ es = concat (map (fun m => match m with (g, h, p, ts) => map (Build_edge h ts) (fits (nth g gs []) p) end) ms).
Proof.
  intros W S. destruct (fragment_of_text t w false 0 0 W (or_intror S)) as (f & E & Le & Sh & _). exists f. split; [exact E|]. exact (compose_ok t (f_nodes f) gs Sh Le S).
Qed.
Theorem pass_of_text {A} t w (gs : list (list (tree * A))) (mk : list tsym -> A) (is_copy : A -> nat -> bool) :
  writes t w -> sites t = [] -> wf t ->
  exists f, TreeFragment 0 0 w false = Ok f /\ exists N, forall fuel, N <= fuel -> exists es,
    compose_pass mk is_copy fuel (f_nodes f) (map (map (fun fr => (walk (fst fr), snd fr))) gs) = Some es
    /\ derivable (map (fun e => (head e, tails e)) es) (size t - 1).
Proof.
  intros W S F. destruct (fragment_of_text t w false 0 0 W (or_intror S)) as (f & E & Le & Sh & _). exists f. split; [exact E|]. exact (pass_translates t (f_nodes f) gs Sh Le S F mk is_copy).
Qed.
Lemma below_self_or_kid t n l s : below t n l s -> s = t \/ exists nt k1 t0 k2 n' l', t = Tree nt (k1 ++ Sub t0 :: k2) /\ below t0 n' l' s.
Proof. destruct 1; [now left|right]. eauto 10. Qed.
(** (S (NP a) b) is no part of (S (NP a b)) *)
Lemma no_part s n a b : s <> n -> ~ (exists h ts, part (Tree s [Sub (Tree n [Word a; Word b])]) h (Tree s [Sub (Tree n [Word a]); Word b]) ts).
Proof.
  intros SN (h & ts & lo & l & x & B & _ & C). inversion C as [lo' nt kids kids' ts' CI]; subst.
  apply below_self_or_kid in B. destruct B as [E|(nt & k1 & t0 & k2 & n' & l' & E & B)].
  - assert (E2 : kids = [Sub (Tree n [Word a; Word b])]) by congruence. subst kids. inversion CI as [| | |? ? ? ? ? ? ? ? CI2]; subst. inversion CI2.
  - assert (E2 : [Sub (Tree n [Word a; Word b])] = k1 ++ Sub t0 :: k2) by congruence. clear E. rename E2 into E. destruct k1 as [|y k1]; [|destruct k1; discriminate]. assert (E2 : Tree n [Word a; Word b] = t0) by (cbn [app] in E; congruence). subst t0. apply below_self_or_kid in B. destruct B as [E'|(nt' & k1 & t0 & k2' & n2 & l2 & E' & B)].
    + apply SN. congruence.
    + assert (E2 : [Word a; Word b] = k1 ++ Sub t0 :: k2') by congruence. clear E'. rename E2 into E'. destruct k1 as [|y k1]; [discriminate|]. destruct k1 as [|y2 k1]; [discriminate|]. destruct k1; discriminate.
Qed.
