(** Coverages, tries and the building of forests for Pb.v. *)
From Coq Require Import List Arith ZArith Bool Lia.
From Verif Require Import Opt HG HGProofs Deriv Topo TopoSpec UnionProofs Pb PbSpec.
Import ListNotations.
Local Open Scope nat_scope.
Open Scope opt_scope.

(** ** Coverages *)
Lemma ext_nth : forall (A : Type) (l m : list A), (forall k, nth_error l k = nth_error m k) -> l = m.
Proof. induction l as [|x l IH]; intros [|y m] H; [reflexivity|specialize (H 0); discriminate|specialize (H 0); discriminate|]. pose proof (H 0) as H0. injection H0 as ->. f_equal. apply IH. intros k. exact (H (S k)). Qed.
Lemma upd_true : forall (c : list bool) i, i < length c -> exists b, upd c i (fun _ => true) = Some b /\ length b = length c /\ forall m, nth_error b m = if i =? m then Some true else nth_error c m.
Proof.
  intros c i H. destruct (upd_total _ c i (fun _ => true) H) as (b & U). exists b. split; [exact U|]. split; [exact (upd_length _ _ _ _ _ U)|]. intros m. rewrite (upd_nth _ _ _ _ _ m U). destruct (Nat.eqb_spec i m) as [<-|]; [|reflexivity].
  destruct (nth_error c i) eqn:N; [reflexivity|]. apply nth_error_None in N. lia.
Qed.
Lemma set_bits_ok : forall k i c, i + k <= length c -> exists b, set_bits k i c = Some b /\ length b = length c /\ forall m, nth_error b m = if (i <=? m) && (m <? i + k) then Some true else nth_error c m.
Proof.
  induction k as [|k IH]; intros i c H; cbn [set_bits].
  - exists c. split; [reflexivity|]. split; [reflexivity|]. intros m. destruct (Nat.leb_spec i m), (Nat.ltb_spec m (i + 0)); cbn; try reflexivity. lia.
  - destruct (upd_true c i) as (b & U & LB & NB); [lia|]. rewrite U. cbn [bind]. destruct (IH (S i) b) as (b2 & S2 & L2 & N2); [lia|]. exists b2. split; [exact S2|]. split; [lia|]. intros m. rewrite N2, NB.
    destruct (Nat.leb_spec (S i) m), (Nat.leb_spec i m), (Nat.ltb_spec m (S i + k)), (Nat.ltb_spec m (i + S k)), (Nat.eqb_spec i m); cbn; try reflexivity; lia.
Qed.
Lemma covered_nth : forall C i j m, nth_error (covered C i j) m = match nth_error C m with Some b => Some (b || ((i <=? m) && (m <? j))) | None => None end.
Proof.
  intros C i j m. unfold covered. rewrite nth_error_map. destruct (nth_error C m) as [b|] eqn:N.
  - assert (m < length C) by (apply nth_error_Some; congruence). rewrite (nth_error_nth' _ 0) by (rewrite seq_length; assumption). rewrite seq_nth by assumption. cbn [option_map plus]. rewrite (nth_error_nth _ _ false N). reflexivity.
  - apply nth_error_None in N. replace (nth_error (seq 0 (length C)) m) with (@None nat); [reflexivity|]. symmetry. apply nth_error_None. rewrite seq_length. exact N.
Qed.
Lemma covered_len : forall C i j, length (covered C i j) = length C.
Proof. intros C i j. unfold covered. rewrite map_length, seq_length. reflexivity. Qed.
Lemma set_covered : forall i j c, i <= j <= length c -> set_bits (j - i) i c = Some (covered c i j).
Proof.
  intros i j c H. destruct (set_bits_ok (j - i) i c) as (b & S & LB & N); [lia|]. rewrite S. f_equal. apply ext_nth. intros m. rewrite N, covered_nth. replace (i + (j - i)) with j by lia.
  destruct (nth_error c m) as [x|] eqn:NM; [|apply nth_error_None in NM; destruct (Nat.leb_spec i m), (Nat.ltb_spec m j); cbn; try reflexivity; lia]. destruct ((i <=? m) && (m <? j)); [rewrite orb_true_r|rewrite orb_false_r]; reflexivity.
Qed.
Definition count (C : list bool) : nat := length (filter (fun b => b) C).
Lemma count_upd : forall c i b, nth_error c i = Some false -> upd c i (fun _ => true) = Some b -> count b = S (count c).
Proof.
  induction c as [|x c IH]; intros [|i] b N U; try discriminate; cbn [upd nth_error] in *.
  - injection N as ->. injection U as <-. reflexivity.
  - destruct (upd c i (fun _ => true)) as [b0|] eqn:U0; [|discriminate]. injection U as <-. pose proof (IH i b0 N U0) as Q. unfold count in *. cbn [filter]. destruct x; cbn [length]; rewrite Q; reflexivity.
Qed.
Lemma count_set : forall k i c b, (forall m, i <= m < i + k -> nth_error c m = Some false) -> set_bits k i c = Some b -> count b = count c + k.
Proof.
  induction k as [|k IH]; intros i c b N S; cbn [set_bits] in S; [injection S as <-; lia|]. assert (NI := N i ltac:(lia)). destruct (upd_true c i) as (c' & U & LC & NC); [apply nth_error_Some; congruence|]. rewrite U in S. cbn [bind] in S.
  rewrite (IH (Datatypes.S i) c' b); [rewrite (count_upd c i c' NI U); lia| |exact S]. intros m M. rewrite NC. destruct (Nat.eqb_spec i m); [lia|]. apply N. lia.
Qed.
Lemma count_covered : forall C i j, i <= j <= length C -> all_open C i j -> count (covered C i j) = count C + (j - i).
Proof. intros C i j H O. apply (count_set (j - i) i C); [|apply set_covered; exact H]. intros m M. apply O. lia. Qed.
Lemma leading_spec : forall c, (forall m, m < leading c -> nth_error c m = Some true) /\ (forall m, leading c = m -> nth_error c m = Some false \/ m = length c).
Proof.
  induction c as [|[|] c [I1 I2]]; cbn [leading length]; split.
  - intros m M. lia.
  - intros m <-. right. reflexivity.
  - intros [|m] M; [reflexivity|]. apply I1. lia.
  - intros m <-. cbn [nth_error]. destruct (I2 _ eq_refl) as [H|H]; [left; exact H|right; lia].
  - intros m M. lia.
  - intros m <-. left. reflexivity.
Qed.
Lemma leading_is : forall c k, (forall m, m < k -> nth_error c m = Some true) -> nth_error c k = Some false \/ k = length c -> leading c = k.
Proof.
  intros c k A B. destruct (leading_spec c) as [P Q]. destruct (lt_eq_lt_dec (leading c) k) as [[H|H]|H]; [|exact H|].
  - specialize (A _ H). destruct (Q _ eq_refl) as [X|X]; [congruence|]. assert (leading c < length c) by (apply nth_error_Some; congruence). lia.
  - specialize (P _ H). destruct B as [X|X]; [congruence|]. assert (k < length c) by (apply nth_error_Some; congruence). lia.
Qed.
Lemma leading_open : forall c k, first_open c k -> leading c = k.
Proof. intros c k [A B]. apply leading_is; auto. Qed.
Lemma leading_skip : forall c j, (forall m, m < j -> nth_error c m = Some true) -> leading c = j + leading (skipn j c).
Proof. induction c as [|b c IH]; intros [|j] H; try reflexivity. { specialize (H 0 ltac:(lia)). discriminate. } pose proof (H 0 ltac:(lia)) as H0. injection H0 as ->. cbn [leading skipn plus]. f_equal. apply IH. intros m M. apply (H (S m)). lia. Qed.
Lemma cover_ok : forall i j cov gap, i < j <= length (bits cov) -> first_gap cov = leading (bits cov) -> first_open (bits cov) gap -> gap <= i ->
  exists cov', Cover i j cov = Some cov' /\ bits cov' = covered (bits cov) i j /\ first_gap cov' = leading (bits cov').
Proof.
  intros i j cov gap H FG FO GI. unfold Cover. rewrite set_covered by lia. cbn [bind]. eexists. split; [reflexivity|]. split; [reflexivity|]. cbn [first_gap bits]. rewrite FG, (leading_open _ _ FO). destruct FO as [F1 F2].
  destruct (Nat.eqb_spec gap i) as [<-|NE].
  - symmetry. apply leading_skip. intros m M. rewrite covered_nth. destruct (nth_error (bits cov) m) as [b|] eqn:N; [|apply nth_error_None in N; lia].
    destruct (le_lt_dec gap m); [destruct (Nat.leb_spec gap m), (Nat.ltb_spec m j); try lia; rewrite orb_true_r; reflexivity|]. specialize (F2 m ltac:(lia)). assert (b = true) by congruence. subst b. reflexivity.
  - symmetry. apply leading_open. split; [rewrite covered_nth, F1; destruct (Nat.leb_spec i gap); [lia|reflexivity]|]. intros m M. rewrite covered_nth, (F2 m M). reflexivity.
Qed.
Lemma any_ok : forall k i c, i + k <= length c -> exists b, any_bit k i c = Some b /\ (b = false <-> forall m, i <= m < i + k -> nth_error c m = Some false).
Proof.
  induction k as [|k IH]; intros i c H; cbn [any_bit]; [exists false; split; [reflexivity|split; [intros _ m M; lia|reflexivity]]|]. destruct (nth_error c i) as [b|] eqn:N; [|apply nth_error_None in N; lia]. cbn [bind]. destruct b.
  - exists true. split; [reflexivity|]. split; [discriminate|]. intros Q. specialize (Q i ltac:(lia)). congruence.
  - destruct (IH (S i) c ltac:(lia)) as (b & A & B). exists b. split; [exact A|]. rewrite B. split; intros Q m M; [destruct (Nat.eq_dec i m) as [<-|]; [exact N|apply Q; lia]|apply Q; lia].
Qed.
Lemma collides_ok : forall i j cov, i <= j <= length (bits cov) -> exists b, Collides i j cov = Some b /\ (b = false <-> all_open (bits cov) i j).
Proof. intros i j cov H. destruct (any_ok (j - i) i (bits cov)) as (b & A & B); [lia|]. exists b. split; [exact A|]. rewrite B. unfold all_open. split; intros Q m M; apply Q; lia. Qed.
Lemma same_ok : forall a b, same a b = true <-> a = b.
Proof. intros a b. unfold same. destruct (list_eq_dec bool_dec a b); split; congruence. Qed.
Lemma existsb_same : forall c l, existsb (same c) l = true <-> In c l.
Proof. intros c l. rewrite existsb_exists. split; [intros (x & I & Q); apply same_ok in Q; subst; exact I|intros I; exists c; split; [exact I|apply same_ok; reflexivity]]. Qed.
Lemma empty_nth : forall n m, m < n -> nth_error (repeat false n) m = Some false.
Proof. induction n as [|n IH]; intros [|m] H; try lia; [reflexivity|]. cbn. apply IH. lia. Qed.
Lemma covered_not_empty : forall C i j n, i < j <= length C -> covered C i j <> repeat false n.
Proof.
  intros C i j n H E. assert (N : nth_error (covered C i j) i = Some true). { rewrite covered_nth. destruct (nth_error C i) as [b|] eqn:Q; [|apply nth_error_None in Q; lia]. destruct (Nat.leb_spec i i), (Nat.ltb_spec i j); try lia. rewrite orb_true_r. reflexivity. }
  rewrite E in N. assert (i < n) by (rewrite <- (repeat_length false n); apply nth_error_Some; congruence). rewrite empty_nth in N by assumption. discriminate.
Qed.

(** ** Tries *)
Section T.
Context {R : Type}.
Fixpoint walk (t : trie R) (ws : list Z) : option (trie R) := match ws with [] => Some t | w :: r => match Extend t w with Some k => walk k r | None => None end end.
Definition data_at (t : trie R) (ws : list Z) : option (list R) := match walk t ws with Some k => data k | None => None end.
Definition eqz (a b : list Z) : bool := if list_eq_dec Z.eq_dec a b then true else false.
Definition rules (table : list (list Z * R)) (ws : list Z) : list R := map snd (filter (fun p => eqz (fst p) ws) table).
Definition some_rules (l : list R) : option (list R) := match l with [] => None | _ => Some l end.
Definition trie_is (t : trie R) (table : list (list Z * R)) : Prop := forall ws, data_at t ws = some_rules (rules table ws).
Lemma find_put : forall w (t : trie R) v ks, find v (put w t ks) = if Z.eqb w v then Some t else find v ks.
Proof. intros w t v. induction ks as [|[u x] ks IH]; cbn [put find]; [reflexivity|]. destruct (Z.eqb_spec u w) as [->|N]; cbn [find]; [destruct (Z.eqb_spec w v); reflexivity|]. rewrite IH. destruct (Z.eqb_spec u v) as [->|], (Z.eqb_spec w v); try reflexivity. congruence. Qed.
Lemma find_erase : forall w v ks, find v (erase w ks : list (Z * trie R)) = if Z.eqb w v then None else find v ks.
Proof. intros w v. induction ks as [|[u x] ks IH]; cbn [erase find]; [destruct (Z.eqb w v); reflexivity|]. destruct (Z.eqb_spec u w) as [->|N]; cbn [find]; rewrite IH; [destruct (Z.eqb_spec w v); reflexivity|]. destruct (Z.eqb_spec u v) as [->|]; [|reflexivity]. destruct (Z.eqb_spec w v); [congruence|reflexivity]. Qed.
Lemma data_none : forall ws, data_at (no_trie : trie R) ws = None.
Proof. intros [|w ws]; reflexivity. Qed.
Lemma data_child : forall t w ws, data_at (child_of t w) ws = data_at t (w :: ws).
Proof. intros t w ws. unfold child_of, data_at. cbn [walk]. unfold Extend. destruct (find w (kids t)) as [k|]; [reflexivity|]. destruct ws; reflexivity. Qed.
Lemma data_node : forall d ks v ws, data_at (Node d ks) (v :: ws) = match find v ks with Some k => data_at k ws | None => None end.
Proof. intros d ks v ws. unfold data_at. cbn [walk]. unfold Extend. cbn [kids]. destruct (find v ks); reflexivity. Qed.
Lemma data_cons : forall (t : trie R) v ws, data_at t (v :: ws) = match find v (kids t) with Some k => data_at k ws | None => None end.
Proof. intros [d ks] v ws. apply data_node. Qed.
Definition add_rule (l : option (list R)) (r : R) := Some (match l with Some l => l ++ [r] | None => [r] end).
Lemma data_add : forall f r t ws, data_at (AddPhrase f r t) ws = if eqz f ws then add_rule (data_at t ws) r else data_at t ws.
Proof.
  unfold eqz. induction f as [|w f IH]; intros r t ws; cbn [AddPhrase].
  - destruct ws as [|v ws]; cbn [list_eq_dec]; [reflexivity|]. destruct (list_eq_dec Z.eq_dec [] (v :: ws)); [discriminate|]. rewrite data_node, data_cons. reflexivity.
  - destruct ws as [|v ws]; [destruct (list_eq_dec Z.eq_dec (w :: f) []); [discriminate|reflexivity]|]. rewrite data_node, find_put, (data_cons t). destruct (Z.eqb_spec w v) as [->|N].
    + rewrite IH, data_child, data_cons. destruct (list_eq_dec Z.eq_dec f ws), (list_eq_dec Z.eq_dec (v :: f) (v :: ws)); try congruence; reflexivity.
    + destruct (list_eq_dec Z.eq_dec (w :: f) (v :: ws)); [congruence|reflexivity].
Qed.
Lemma rules_app : forall a b ws, rules (a ++ b) ws = rules a ws ++ rules b ws.
Proof. intros a b ws. unfold rules. rewrite filter_app, map_app. reflexivity. Qed.
Lemma add_is : forall f r t table, trie_is t table -> trie_is (AddPhrase f r t) (table ++ [(f, r)]).
Proof.
  intros f r t table T ws. rewrite data_add, rules_app. pose proof (T ws) as TW. rewrite !TW. replace (rules [(f, r)] ws) with (if eqz f ws then [r] else []) by (unfold rules; cbn [filter fst]; destruct (eqz f ws); reflexivity). destruct (eqz f ws); [|rewrite app_nil_r; reflexivity].
  destruct (rules table ws) as [|x l]; reflexivity.
Qed.
Lemma load_is : forall table, trie_is (LoadTextPhrasetable table) table.
Proof.
  intros table. unfold LoadTextPhrasetable. change table with ([] ++ table) at 2. assert (T : trie_is no_trie []) by (intros ws; apply data_none). revert T. generalize (@nil (list Z * R)) as done. generalize (@no_trie R) as t. induction table as [|[f r] tb IH]; intros t done T; cbn [fold_left]; [rewrite app_nil_r; exact T|].
  replace (done ++ (f, r) :: tb) with ((done ++ [(f, r)]) ++ tb) by (rewrite <- app_assoc; reflexivity). apply IH. apply add_is. exact T.
Qed.
Lemma walk_app : forall a b t, walk t (a ++ b) = match walk t a with Some k => walk k b | None => None end.
Proof. induction a as [|w a IH]; intros b t; cbn [walk app]; [reflexivity|]. destruct (Extend t w) as [k|]; [apply IH|reflexivity]. Qed.
Lemma eqz_ok : forall a b, eqz a b = true <-> a = b.
Proof. intros a b. unfold eqz. destruct (list_eq_dec Z.eq_dec a b); split; congruence. Qed.
Lemma rules_in : forall table ws r, In r (rules table ws) <-> In (ws, r) table.
Proof. intros table ws r. unfold rules. rewrite in_map_iff. split; [intros ([f x] & <- & I); apply filter_In in I as [I Q]; apply eqz_ok in Q; cbn in *; subst; exact I|intros I; exists (ws, r); split; [reflexivity|]; apply filter_In; split; [exact I|apply eqz_ok; reflexivity]]. Qed.
Lemma rules_nodup : forall table ws, NoDup table -> NoDup (rules table ws).
Proof.
  intros table ws ND. unfold rules. induction ND as [|[f r] tb N ND IH]; cbn [filter]; [constructor|]. destruct (eqz (fst (f, r)) ws) eqn:Q; [|exact IH]. cbn [map snd]. constructor; [|exact IH]. apply eqz_ok in Q. cbn in Q. subst f. intros I. apply N. apply (rules_in tb ws r). exact I.
Qed.
Variable pass : Z -> R.
Definition passed (table : list (list Z * R)) (ps : list Z) : list (list Z * R) := table ++ map (fun w => ([w], pass w)) ps.
Lemma rules_pass : forall ps ws, rules (map (fun w => ([w], pass w)) ps) ws = match ws with [w] => map pass (filter (fun v => Z.eqb v w) ps) | _ => [] end.
Proof.
  unfold rules. induction ps as [|p ps IH]; intros ws; cbn [map filter]; [destruct ws as [|w [|? ?]]; reflexivity|]. cbn [fst]. destruct (eqz [p] ws) eqn:Q.
  - apply eqz_ok in Q. subst ws. cbn [map snd]. rewrite IH, Z.eqb_refl. reflexivity.
  - rewrite IH. destruct ws as [|w [|? ?]]; try reflexivity. destruct (Z.eqb_spec p w) as [->|]; [|reflexivity]. exfalso. rewrite (proj2 (eqz_ok [w] [w]) eq_refl) in Q. discriminate.
Qed.
Lemma pass_is : forall ws table t, trie_is t table -> exists t' ps, fold_left (AddPassThroughTranslation pass) ws (t, []) = (t', ps) /\ trie_is t' (passed table ps) /\ NoDup ps /\
  (forall w, In w ps <-> In w ws /\ rules table [w] = []).
Proof.
  intros ws table t T. assert (G : forall ws t0 ps0, trie_is t0 (passed table ps0) -> NoDup ps0 -> (forall w, In w ps0 -> rules table [w] = []) ->
     exists t' ps, fold_left (AddPassThroughTranslation pass) ws (t0, ps0) = (t', ps) /\ trie_is t' (passed table ps) /\ NoDup ps /\ (forall w, In w ps <-> In w ps0 \/ In w ws /\ rules table [w] = [])).
  { clear ws t T. induction ws as [|w ws IH]; intros t ps T ND RP; cbn [fold_left]; [exists t, ps; split; [reflexivity|]; split; [exact T|]; split; [exact ND|]; intros w; cbn; tauto|].
    cbn [AddPassThroughTranslation]. pose proof (T [w]) as TW. assert (DW : data (child_of t w) = data_at t [w]) by (rewrite <- data_child; reflexivity). rewrite DW, TW.
    assert (RW : rules (passed table ps) [w] = rules table [w] ++ map pass (filter (fun v => Z.eqb v w) ps)) by (unfold passed; rewrite rules_app, rules_pass; reflexivity).
    assert (IP : In w ps <-> filter (fun v => Z.eqb v w) ps <> []). { split; [intros I Q|intros Q; destruct (filter (fun v => Z.eqb v w) ps) as [|x l] eqn:E; [congruence|]]; [assert (In w (filter (fun v => Z.eqb v w) ps)) as X by (apply filter_In; split; [exact I|apply Z.eqb_refl]); rewrite Q in X; destruct X|]. assert (In x (filter (fun v => Z.eqb v w) ps)) as X by (rewrite E; left; reflexivity). apply filter_In in X as [X Y]. apply Z.eqb_eq in Y. subst x. exact X. }
    destruct (rules (passed table ps) [w]) as [|x l] eqn:RR; cbn [some_rules].
    - symmetry in RW. apply app_eq_nil in RW as [RT RF]. apply map_eq_nil in RF. assert (NI : ~ In w ps) by (intros I; apply IP in I; contradiction).
      destruct (IH (Node (data t) (put w (Node (Some [pass w]) (kids (child_of t w))) (kids t))) (ps ++ [w])) as (t' & ps' & F & T' & ND' & IN').
      + intros [|v us]; [rewrite <- (T []) || idtac; change (data_at (Node (data t) (put w (Node (Some [pass w]) (kids (child_of t w))) (kids t))) []) with (data_at t []); rewrite T; f_equal; unfold passed; rewrite !rules_app, !rules_pass; reflexivity|].
        rewrite data_node, find_put. destruct (Z.eqb_spec w v) as [<-|NV].
        * destruct us as [|u us].
          -- unfold data_at. cbn [walk data]. unfold passed. rewrite rules_app, rules_pass, filter_app, RT, RF. cbn [app filter]. rewrite Z.eqb_refl. reflexivity.
          -- transitivity (data_at t (w :: u :: us)); [|rewrite T; f_equal; unfold passed; rewrite !rules_app, !rules_pass; reflexivity]. rewrite <- (data_child t w). rewrite data_node, data_cons. reflexivity.
        * rewrite <- data_cons, T. f_equal. unfold passed. rewrite !rules_app, !rules_pass. destruct us; [|reflexivity]. rewrite filter_app. cbn [filter]. destruct (Z.eqb_spec w v); [congruence|]. rewrite app_nil_r. reflexivity.
      + clear - ND NI. induction ps as [|a ps IH]; cbn; [constructor; [intros []|constructor]|]. inversion ND; subst. constructor; [rewrite in_app_iff; cbn; intros [?|[?|[]]]; [contradiction|subst; apply NI; left; reflexivity]|apply IH; [assumption|intros C; apply NI; right; exact C]].
      + intros v I. apply in_app_or in I as [I|[<-|[]]]; [apply RP; exact I|exact RT].
      + exists t', ps'. split; [exact F|]. split; [exact T'|]. split; [exact ND'|]. intros v. rewrite IN', in_app_iff. cbn [In]. intuition congruence.
    - destruct (IH (Node (data t) (put w (child_of t w) (kids t))) ps) as (t' & ps' & F & T' & ND' & IN'); [|exact ND|exact RP|].
      + intros us. rewrite <- T. destruct us as [|v us]; [reflexivity|]. rewrite data_node, find_put. destruct (Z.eqb_spec w v) as [<-|]; [apply data_child|symmetry; apply data_cons].
      + exists t', ps'. split; [exact F|]. split; [exact T'|]. split; [exact ND'|]. intros v. rewrite IN'. cbn [In]. split; [tauto|]. intros [I|[[<-|I] Q]]; [tauto| |tauto]. left. apply IP. intros F0. rewrite F0, Q in RW. discriminate. }
  destruct (G ws t []) as (t' & ps & F & T' & ND & IN); [unfold passed; cbn; rewrite app_nil_r; exact T|constructor|intros w []|]. exists t', ps. split; [exact F|]. split; [exact T'|]. split; [exact ND|]. intros w. rewrite IN. cbn. tauto.
Qed.
Lemma single_in : forall (table : list (list Z * R)) w, existsb (fun p => match fst p with [v] => Z.eqb v w | _ => false end) table = true <-> rules table [w] <> [].
Proof.
  intros table w. rewrite existsb_exists. split.
  - intros ([f r] & I & Q) E. destruct f as [|v [|? ?]]; try discriminate. apply Z.eqb_eq in Q. cbn in Q. subst v. apply (rules_in table [w] r) in I. rewrite E in I. destruct I.
  - intros N. destruct (rules table [w]) as [|r l] eqn:E; [congruence|]. exists ([w], r). split; [apply rules_in; rewrite E; left; reflexivity|]. cbn. apply Z.eqb_refl.
Qed.
Lemma filter_eq1 : forall w l, NoDup l -> filter (fun v => Z.eqb v w) l = if in_dec Z.eq_dec w l then [w] else [].
Proof.
  intros w. induction l as [|x l IH]; intros ND; [reflexivity|]. inversion ND as [|? ? N ND']; subst. cbn [filter]. rewrite (IH ND'). destruct (Z.eqb_spec x w) as [->|NE].
  - destruct (in_dec Z.eq_dec w l); [contradiction|]. destruct (in_dec Z.eq_dec w (w :: l)) as [|Q]; [reflexivity|]. exfalso. apply Q. left. reflexivity.
  - destruct (in_dec Z.eq_dec w l) as [I|I], (in_dec Z.eq_dec w (x :: l)) as [J|J]; try reflexivity; exfalso; [apply J; right; exact I|destruct J; congruence].
Qed.
Lemma with_words_is : forall ws table t, trie_is t table -> exists t' ps, fold_left (AddPassThroughTranslation pass) ws (t, []) = (t', ps) /\ trie_is t' (with_words pass table ws) /\ (forall w, In w ps <-> In w ws /\ rules table [w] = []).
Proof.
  intros ws table t T. destruct (pass_is ws table t T) as (t' & ps & F & T' & ND & IN). exists t', ps. split; [exact F|]. split; [|exact IN]. intros us. rewrite T'. f_equal. unfold passed, with_words. rewrite !rules_app, !rules_pass. destruct us as [|u [|? ?]]; try reflexivity. do 2 f_equal.
  rewrite !filter_eq1; [|apply NoDup_filter, NoDup_nodup|exact ND]. destruct (in_dec Z.eq_dec u ps) as [I|I], (in_dec Z.eq_dec u (filter _ (nodup Z.eq_dec ws))) as [J|J]; try reflexivity; exfalso.
  - apply J. apply IN in I as [I Q]. apply filter_In. split; [apply nodup_In; exact I|]. destruct (existsb _ table) eqn:E; [|reflexivity]. apply single_in in E. contradiction.
  - apply I. apply filter_In in J as [J Q]. apply nodup_In in J. apply IN. split; [exact J|]. destruct (rules table [u]) as [|x l] eqn:E; [reflexivity|]. rewrite (proj2 (single_in table u)) in Q by congruence. discriminate.
Qed.
(** Clearing is safe when no phrase starts with a word passed through. *)
Lemma clear_is : forall ws table t, trie_is t table -> (forall w, In w ws -> rules table [w] = [] -> forall us r, ~ In (w :: us, r) table) ->
  trie_is (ClearPassThroughTranslations (fold_left (AddPassThroughTranslation pass) ws (t, []))) table.
Proof.
  intros ws table t T SAFE. destruct (pass_is ws table t T) as (t' & ps & F & T' & ND & IN). rewrite F. unfold ClearPassThroughTranslations. cbn [fst snd].
  assert (FE : forall ps ks v, find v (fold_left (fun ks w => erase w ks) ps ks : list (Z * trie R)) = if in_dec Z.eq_dec v ps then None else find v ks).
  { clear. induction ps as [|p ps IH]; intros ks v; cbn [fold_left]; [reflexivity|]. rewrite IH, find_erase. destruct (in_dec Z.eq_dec v ps) as [I|I], (in_dec Z.eq_dec v (p :: ps)) as [J|J], (Z.eqb_spec p v) as [E|E]; try reflexivity; exfalso; cbn in J; intuition congruence. }
  intros [|v us].
  - change (data_at (Node (data t') (fold_left (fun ks w => erase w ks) ps (kids t'))) []) with (data_at t' []). rewrite T'. f_equal. unfold passed. rewrite rules_app, rules_pass, app_nil_r. reflexivity.
  - rewrite data_node, FE. destruct (in_dec Z.eq_dec v ps) as [I|I].
    + apply IN in I as [I Q]. destruct (rules table (v :: us)) as [|r l] eqn:E; [reflexivity|]. exfalso. apply (SAFE v I Q us r). apply rules_in. rewrite E. left. reflexivity.
    + rewrite <- data_cons, T'. f_equal. unfold passed. rewrite rules_app, rules_pass. destruct us; [|rewrite app_nil_r; reflexivity]. replace (filter (fun w => Z.eqb w v) ps) with (@nil Z); [rewrite app_nil_r; reflexivity|]. symmetry. rewrite filter_eq1 by exact ND. destruct (in_dec Z.eq_dec v ps); [contradiction|reflexivity].
Qed.
End T.

(** ** Forests *)
Section F.
Context {P : Type}.
(** node [n] has the in-edge [e] with these tails and this label *)
Definition has (g : hg P) (n : nat) (ts : list nat) (l : P) (e : nat) : Prop := exists nd ed, nth_error (nodes g) n = Some nd /\ In e (in_edges nd) /\ nth_error (edges g) e = Some ed /\ tails ed = ts /\ lab ed = l.
Lemma derives_has : forall g n e sub, derives g n (Tree e sub) <-> exists ts l, has g n ts l e /\ Forall2 (derives g) ts sub.
Proof.
  intros g n e sub. split.
  - intros D. inversion D as [? nd ? ed ? N I E F2]; subst. exists (tails ed), (lab ed). split; [exists nd, ed; auto|exact F2].
  - intros (ts & l & (nd & ed & N & I & E & <- & _) & F2). econstructor; eassumption.
Qed.
Lemma has_bounds : forall g n ts l e, wf_hg g -> has g n ts l e -> n < length (nodes g) /\ e < length (edges g) /\ forall t, In t ts -> t < length (nodes g).
Proof. intros g n ts l e W (nd & ed & N & I & E & <- & _). split; [apply nth_error_Some; congruence|]. split; [apply nth_error_Some; congruence|]. intros t T. exact (wf_tails g W e ed t E T). Qed.
Lemma has_fun : forall g n n' ts ts' l l' e, wf_hg g -> has g n ts l e -> has g n' ts' l' e -> n = n' /\ ts = ts' /\ l = l'.
Proof.
  intros g n n' ts ts' l l' e W (nd & ed & N & I & E & <- & <-) (nd' & ed' & N' & I' & E' & <- & <-). rewrite E in E'. injection E' as <-. destruct (wf_in g W n nd e N I) as (x & X & H). destruct (wf_in g W n' nd' e N' I') as (y & Y & H'). rewrite E in X, Y. injection X as <-. injection Y as <-. rewrite H in H'. injection H' as <-. auto.
Qed.
Lemma node_has : forall (g : hg P) c, wf_hg g -> exists g', AddNode c g = Some g' /\ wf_hg g' /\ length (nodes g') = S (length (nodes g)) /\ edges g' = edges g /\ forall n ts l e, has g' n ts l e <-> has g n ts l e.
Proof.
  intros g c W. eexists. split; [reflexivity|]. split; [apply add_node_wf; exact W|]. cbn [nodes edges]. split; [rewrite app_length; cbn; lia|]. split; [reflexivity|]. intros n ts l e. split.
  - intros (nd & ed & N & I & E & Q). cbn [nodes edges] in *. apply snoc in N as [N|(_ & ->)]; [|destruct I]. exists nd, ed. auto.
  - intros (nd & ed & N & I & E & Q). exists nd, ed. cbn [nodes edges]. split; [apply snoc; auto|auto].
Qed.
Lemma edge_has : forall (g : hg P) ts0 l0 N, wf_hg g -> (forall t, In t ts0 -> t < length (nodes g)) -> N < length (nodes g) ->
  exists g1 g2, AddEdge ts0 l0 g = Some g1 /\ Connect (length (edges g)) N g1 = Some g2 /\ wf_hg g2 /\ length (nodes g2) = length (nodes g) /\ length (edges g2) = S (length (edges g)) /\
    forall n ts l e, has g2 n ts l e <-> has g n ts l e \/ (n = N /\ ts = ts0 /\ l = l0 /\ e = length (edges g)).
Proof.
  intros g ts0 l0 N W TS NN. destruct (add_conn g ts0 l0 N W TS NN) as (g1 & g2 & A & C & W2 & LN & EE & IE). exists g1, g2. split; [exact A|].
  assert (C' : Connect (length (edges g)) N g1 = Some g2).
  { unfold AddEdge in A. destruct (index_tails (length (edges g)) ts0 (nodes g)) as [ns|] eqn:IT; [|discriminate]. injection A as <-. unfold ConnectPtr in C. unfold Connect. cbn [nodes edges] in *.
    destruct (nth_error (edges g ++ _) (length (edges g))) as [ed|] eqn:E; [|discriminate]. apply snoc in E as [E|(_ & ->)]; [assert (length (edges g) < length (edges g)) by (apply nth_error_Some; congruence); lia|].
    destruct (nth_error ns N) as [nd|] eqn:NE; [|discriminate]. destruct (index_tails_spec _ _ _ _ IT) as (_ & SP). destruct (nth_error (nodes g) N) as [nd0|] eqn:N0; [|apply nth_error_None in N0; lia]. rewrite (proj2 SP N nd0 N0) in NE. injection NE as <-. cbn [eid nid] in C. rewrite (wf_nid g W N nd0 N0) in C. exact C. }
  split; [exact C'|]. split; [exact W2|]. split; [exact LN|]. split; [rewrite EE, app_length; cbn; lia|]. intros n ts l e. split.
  - intros (nd2 & ed & N2 & I & E & <- & <-). assert (n < length (nodes g)) by (rewrite <- LN; apply nth_error_Some; congruence). destruct (nth_error (nodes g) n) as [nd|] eqn:N0; [|apply nth_error_None in N0; lia]. destruct (IE n nd N0) as (nd' & N3 & _ & Q). rewrite N2 in N3. injection N3 as <-. rewrite Q in I. rewrite EE in E.
    apply in_app_or in I as [I|I].
    + destruct (wf_in g W n nd e N0 I) as (ed0 & E0 & _). apply snoc in E as [E|(-> & _)]; [|assert (length (edges g) < length (edges g)) by (apply nth_error_Some; congruence); lia]. left. exists nd, ed. auto.
    + destruct (Nat.eqb_spec N n) as [<-|]; [|destruct I]. destruct I as [<-|[]]. apply snoc in E as [E|(_ & ->)]; [assert (length (edges g) < length (edges g)) by (apply nth_error_Some; congruence); lia|]. right. auto.
  - intros [(nd & ed & N0 & I & E & Q)|(-> & -> & -> & ->)].
    + destruct (IE n nd N0) as (nd' & N3 & _ & QI). exists nd', ed. split; [exact N3|]. split; [rewrite QI; apply in_or_app; left; exact I|]. split; [rewrite EE; apply snoc; left; exact E|exact Q].
    + destruct (nth_error (nodes g) N) as [nd|] eqn:N0; [|apply nth_error_None in N0; lia]. destruct (IE N nd N0) as (nd' & N3 & _ & QI). eexists nd', _. split; [exact N3|]. split; [rewrite QI, Nat.eqb_refl; apply in_or_app; right; left; reflexivity|]. split; [rewrite EE; apply snoc; right; split; reflexivity|]. split; reflexivity.
Qed.
End F.
Section Q.
Context {R : Type}.
Definition new_phrase (i j : nat) (rs : list R) (p b n : nat) (ts : list nat) (l : plabel R) (e : nat) : Prop := n = p /\ ts = [] /\ exists k r, nth_error rs k = Some r /\ l = Phrase i j r /\ e = b + k.
Lemma phrases_has : forall i j rs p (g : hg (plabel R)), wf_hg g -> p < length (nodes g) ->
  exists g2, add_phrases i j rs p g = Some g2 /\ wf_hg g2 /\ length (nodes g2) = length (nodes g) /\ length (edges g2) = length (edges g) + length rs /\
    forall n ts l e, has g2 n ts l e <-> has g n ts l e \/ new_phrase i j rs p (length (edges g)) n ts l e.
Proof.
  intros i j. induction rs as [|r rs IH]; intros p g W NP; cbn [add_phrases].
  - exists g. split; [reflexivity|]. split; [exact W|]. split; [reflexivity|]. split; [cbn; lia|]. intros n ts l e. split; [auto|]. intros [H|(_ & _ & [|k] & r & N & _)]; [exact H|discriminate|discriminate].
  - destruct (edge_has g [] (Phrase i j r) p W ltac:(intros t []) NP) as (g1 & g2 & A & C & W2 & LN & LE & HS). rewrite A. cbn [bind]. rewrite C. cbn [bind]. destruct (IH p g2 W2 ltac:(lia)) as (g3 & F & W3 & LN3 & LE3 & HS3). exists g3. split; [exact F|]. split; [exact W3|]. split; [lia|]. split; [cbn [length]; lia|].
    intros n ts l e. rewrite HS3, HS, LE. unfold new_phrase. split.
    + intros [[H|(-> & -> & -> & ->)]|(-> & -> & k & x & N & -> & ->)]; [left; exact H|right|right]; (split; [reflexivity|split; [reflexivity|]]); [exists 0, r; cbn; auto with arith|exists (S k), x; cbn; split; [exact N|]; split; [reflexivity|lia]].
    + intros [H|(-> & -> & [|k] & x & N & -> & ->)]; [auto|injection N as ->; left; right; rewrite Nat.add_0_r; auto|right]. split; [reflexivity|]. split; [reflexivity|]. exists k, x. split; [exact N|]. split; [reflexivity|lia].
Qed.
End Q.
