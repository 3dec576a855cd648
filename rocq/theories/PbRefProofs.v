(** Phrase tables, sentences one after the other, and wrong forests. *)
From Coq Require Import List Arith ZArith Bool Lia.
From Verif Require Import Opt HG HGProofs Deriv Topo TopoSpec Pb PbSpec PbBaseProofs PbStepProofs PbProofs.
Import ListNotations.
Local Open Scope nat_scope.
Open Scope opt_scope.

Lemma sentence_forward : forall ws, forward (sentence ws).
Proof. intros ws i arcs w d N I. unfold sentence in *. rewrite map_length. assert (B : i < length ws) by (rewrite <- (map_length (fun w => [(w, 1)])); apply nth_error_Some; congruence). rewrite nth_error_map in N. destruct (nth_error ws i) as [v|]; [|discriminate]. injection N as <-. destruct I as [I|[]]. injection I as <- <-. lia. Qed.
Lemma sentence_words : forall ws, map fst (concat (sentence ws)) = ws.
Proof. induction ws as [|w ws IH]; [reflexivity|]. cbn. f_equal. exact IH. Qed.
Section R.
Context {R : Type}.
Variables (pass : Z -> R) (D : nat) (kNT kGOAL : Z).
Lemma exact_any : forall (table : list (list Z * R)) root ws, trie_is root table -> (forall us r, In (us, r) table -> us <> []) -> ws <> [] ->
  exists N res, (forall fuel, N <= fuel -> Translate D kNT kGOAL (sentence ws) root fuel = Some res) /\ all_ways (sentence ws) table D res /\ (NoDup table -> once res).
Proof.
  intros table root ws T NE WN. destruct (translate_exact D kNT kGOAL (sentence ws) table root T (sentence_forward ws) NE (ex_intro _ ws eq_refl)) as (N & res & F & H); [destruct ws; [contradiction|discriminate]|]. exists N, res. split; [exact F|]. destruct res as [g|]; [|split; [exact H|intros _; exact Logic.I]]. destruct H as (A & B & C & E & U). split; [split; [exact A|]; split; [exact B|]; split; assumption|exact U].
Qed.
Theorem sentence_ok : forall (table : list (list Z * R)) ws, (forall us r, In (us, r) table -> us <> []) -> ws <> [] ->
  exists N res, (forall fuel, N <= fuel -> Translate D kNT kGOAL (sentence ws) (LoadTextPhrasetable table) fuel = Some res) /\ all_ways (sentence ws) table D res /\ (NoDup table -> once res).
Proof. intros table ws. apply exact_any. apply load_is. Qed.
Theorem lattice_ok : forall (table : list (list Z * R)) lattice, (forall us r, In (us, r) table -> us <> []) -> forward lattice -> lattice <> [] ->
  exists N res, (forall fuel, N <= fuel -> Translate D kNT kGOAL lattice (LoadTextPhrasetable table) fuel = Some res) /\
    match res with
    | None => forall ps, ~ route lattice table D (repeat true (length lattice)) ps
    | Some g => wf_hg g /\ topo g /\ (exists t, derives g (length (nodes g) - 1) t) /\ forall t, derives g (length (nodes g) - 1) t -> route lattice table D (repeat true (length lattice)) (said g t)
    end.
Proof. intros table lattice NE FW LN. apply (translate_sound D kNT kGOAL lattice table (LoadTextPhrasetable table) (load_is table) FW NE LN). Qed.
Lemma nodup_two : forall (A : Type) (a b : list A), NoDup a -> NoDup b -> (forall x, In x a -> In x b -> False) -> NoDup (a ++ b).
Proof. intros A a b NA. induction NA as [|x a NI NA IH]; intros NB X; [exact NB|]. cbn. constructor; [|apply IH; [exact NB|]; intros y I J; exact (X y (or_intror I) J)]. intros I. apply in_app_or in I as [I|I]; [contradiction|]. exact (X x (or_introl eq_refl) I). Qed.
Lemma words_nodup : forall (table : list (list Z * R)) ws, NoDup table -> NoDup (with_words pass table ws).
Proof.
  intros table ws ND. unfold with_words. apply nodup_two; [exact ND| |].
  - pose proof (NoDup_filter (fun w => negb (existsb (fun p => match fst p with [v] => Z.eqb v w | _ => false end) table)) (NoDup_nodup Z.eq_dec ws)) as N. revert N. generalize (filter (fun w => negb (existsb (fun p => match fst p with [v] => Z.eqb v w | _ => false end) table)) (nodup Z.eq_dec ws)). intros l N. induction N as [|x l NI N IH]; [constructor|]. cbn. constructor; [|exact IH]. intros I. apply in_map_iff in I as (y & E & I). injection E as -> _. contradiction.
  - intros [us r] I J. apply in_map_iff in J as (w & E & J). injection E as <- <-. apply filter_In in J as [_ J]. rewrite (proj2 (existsb_exists _ _)) in J; [discriminate|]. exists ([w], pass w). split; [exact I|]. cbn. apply Z.eqb_refl.
Qed.
Lemma words_some : forall (table : list (list Z * R)) ws, (forall us r, In (us, r) table -> us <> []) -> forall us r, In (us, r) (with_words pass table ws) -> us <> [].
Proof. intros table ws NE us r I. unfold with_words in I. apply in_app_or in I as [I|I]; [exact (NE us r I)|]. apply in_map_iff in I as (w & E & _). injection E as <- _. discriminate. Qed.
Lemma rules_none : forall (table : list (list Z * R)) us, rules table us = [] <-> forall r, ~ In (us, r) table.
Proof. intros table us. split; [intros E r I; apply rules_in in I; rewrite E in I; destruct I|]. intros H. destruct (rules table us) as [|x l] eqn:E; [reflexivity|]. destruct (H x). apply rules_in. rewrite E. left. reflexivity. Qed.
Lemma lines_any : forall (passing : bool) (table : list (list Z * R)), (forall us r, In (us, r) table -> us <> []) ->
  forall wss root, trie_is root table -> Forall (fun ws => ws <> []) wss ->
  (passing = true -> forall ws w, In ws wss -> In w ws -> (forall r, ~ In ([w], r) table) -> forall us r, ~ In (w :: us, r) table) ->
  exists N ress, (forall fuel, N <= fuel -> TranslateLines pass D kNT kGOAL passing (map sentence wss) root fuel = Some ress) /\
    Forall2 (fun ws res => all_ways (sentence ws) (if passing then with_words pass table ws else table) D res /\ (NoDup table -> once res)) wss ress.
Proof.
  intros passing table NE wss. induction wss as [|ws wss IH]; intros root T F SAFE; [exists 0, []; split; [reflexivity|constructor]|]. inversion F as [|? ? WN F']; subst. cbn [map TranslateLines]. unfold TranslateLine.
  assert (ONE : exists root' N1 res, (forall fuel, N1 <= fuel -> TranslateLine pass D kNT kGOAL passing (sentence ws) root fuel = Some (res, root')) /\ trie_is root' table /\ all_ways (sentence ws) (if passing then with_words pass table ws else table) D res /\ (NoDup table -> once res)).
  { unfold TranslateLine. destruct passing.
    - rewrite sentence_words. destruct (with_words_is pass ws table root T) as (t' & ps & FL & T' & IN). destruct (exact_any (with_words pass table ws) t' ws T' (words_some table ws NE) WN) as (N1 & res & H1 & H2 & H3). eexists _, N1, res. split; [intros fuel LE; rewrite FL; cbn [fst]; rewrite (H1 fuel LE); cbn [bind]; rewrite <- FL; reflexivity|]. split; [|split; [exact H2|intros ND; apply H3; apply words_nodup; exact ND]].
      apply clear_is; [exact T|]. intros w I RN. apply (SAFE eq_refl ws w (or_introl eq_refl) I). apply rules_none. exact RN.
    - destruct (exact_any table root ws T NE WN) as (N1 & res & H1 & H2 & H3). exists root, N1, res. split; [intros fuel LE; rewrite (H1 fuel LE); reflexivity|]. split; [exact T|]. split; assumption. }
  destruct ONE as (root' & N1 & res & H1 & T' & H2 & H3). destruct (IH root' T' F' (fun P ws0 w I => SAFE P ws0 w (or_intror I))) as (N2 & ress & L2 & A2). exists (N1 + N2), (res :: ress). split; [|constructor; [split; assumption|exact A2]]. intros fuel LE. fold (TranslateLine pass D kNT kGOAL passing (sentence ws) root fuel). rewrite (H1 fuel ltac:(lia)). cbn [bind]. rewrite (L2 fuel ltac:(lia)). reflexivity.
Qed.
Theorem lines_ok : forall (passing : bool) (table : list (list Z * R)) wss, (forall us r, In (us, r) table -> us <> []) -> Forall (fun ws => ws <> []) wss ->
  (passing = true -> forall ws w, In ws wss -> In w ws -> (forall r, ~ In ([w], r) table) -> forall us r, ~ In (w :: us, r) table) ->
  exists N ress, (forall fuel, N <= fuel -> TranslateLines pass D kNT kGOAL passing (map sentence wss) (LoadTextPhrasetable table) fuel = Some ress) /\
    Forall2 (fun ws res => all_ways (sentence ws) (if passing then with_words pass table ws else table) D res /\ (NoDup table -> once res)) wss ress.
Proof. intros passing table wss NE F SAFE. exact (lines_any passing table NE wss (LoadTextPhrasetable table) (load_is table) F SAFE). Qed.
Lemma Translate_more : forall lattice (root : trie R) f f' r, f <= f' -> Translate D kNT kGOAL lattice root f = Some r -> Translate D kNT kGOAL lattice root f' = Some r.
Proof. intros lattice root f f' r LE H. unfold Translate in *. destruct (loop D kNT lattice root f _) as [w|] eqn:E; [|discriminate]. rewrite (loop_more _ _ _ _ f f' _ w LE E). exact H. Qed.
End R.

(** ** Two words at the first position *)
Definition pair_lat : list (list (Z * nat)) := [[(1%Z, 1); (2%Z, 1)]].
Definition pair_table : list (list Z * nat) := [([1%Z], 10); ([2%Z], 20)].
Definition goal_says (g : hg (plabel nat)) : list (list (nat * nat * nat)) := map (said g) (dvs g (length (nodes g) - 1)).
Lemma not_said : forall (g : hg (plabel nat)) ps, topo g -> ~ In ps (goal_says g) -> ~ exists t, derives g (length (nodes g) - 1) t /\ said g t = ps.
Proof. intros g ps T NI (t & DT & E). apply NI. unfold goal_says. apply in_map_iff. exists t. split; [exact E|]. apply (dvs_all g T). exact DT. Qed.
Theorem lattice_refuted : exists (lattice : list (list (Z * nat))) (table : list (list Z * nat)) N g ps,
  forward lattice /\ (forall us r, In (us, r) table -> us <> []) /\ NoDup table /\ (forall fuel, N <= fuel -> Translate 2 7%Z 8%Z lattice (LoadTextPhrasetable table) fuel = Some (Some g)) /\
  route lattice table 2 (repeat true (length lattice)) ps /\ ~ exists t, derives g (length (nodes g) - 1) t /\ said g t = ps.
Proof.
  assert (FW : forward pair_lat). { intros [|[|i]] arcs w d N I; try discriminate. injection N as <-. destruct I as [I|[I|[]]]; injection I as <- <-; cbn; lia. }
  assert (NE : forall us r, In (us, r) pair_table -> us <> []) by (intros us r [I|[I|[]]]; injection I as <- _; discriminate).
  destruct (lattice_ok 2 7%Z 8%Z pair_table pair_lat NE FW ltac:(discriminate)) as (N & res & F & H).
  assert (X : exists g, Translate 2 7%Z 8%Z pair_lat (LoadTextPhrasetable pair_table) 100 = Some (Some g) /\ goal_says g = [[(0, 1, 20)]]) by (eexists; split; vm_compute; reflexivity). destruct X as (g & E & GS).
  assert (res = Some g). { specialize (F (N + 100) ltac:(lia)). rewrite (Translate_more 2 7%Z 8%Z _ _ 100 (N + 100) _ ltac:(lia) E) in F. injection F as <-. reflexivity. } subst res.
  exists pair_lat, pair_table, N, g, [(0, 1, 10)]. split; [exact FW|]. split; [exact NE|]. split; [repeat constructor; cbn; intuition congruence|]. split; [exact F|]. split.
  - apply (r_step pair_lat pair_table 2 [false] [] 0 0 1 10 [1%Z]); [exact (r_start pair_lat pair_table 2)|split; [reflexivity|lia]|lia|intros [|k] K; [reflexivity|lia]| |left; reflexivity]. apply (sp_arc pair_lat 0 [(1%Z, 1); (2%Z, 1)] 1%Z 1 [] 1); [reflexivity|left; reflexivity|constructor].
  - apply not_said; [exact (proj1 (proj2 H))|]. rewrite GS. intros [I|[]]. discriminate.
Qed.
Theorem pass_refuted : exists (pass : Z -> nat) (table : list (list Z * nat)) ws N res g ps,
  (forall us r, In (us, r) table -> us <> []) /\ NoDup table /\ ws <> [] /\ (forall fuel, N <= fuel -> TranslateLines pass 2 7%Z 8%Z true [sentence ws; sentence ws] (LoadTextPhrasetable table) fuel = Some [res; Some g]) /\
  all_ways (sentence ws) (with_words pass table ws) 2 res /\ route (sentence ws) (with_words pass table ws) 2 (repeat true (length ws)) ps /\ ~ exists t, derives g (length (nodes g) - 1) t /\ said g t = ps.
Proof.
  set (pass := fun _ : Z => 99). set (table := [([1%Z; 2%Z], 30)]). set (ws := [1%Z; 2%Z]).
  assert (NE : forall us r, In (us, r) table -> us <> []) by (intros us r [I|[]]; injection I as <- _; discriminate).
  assert (T1 : trie_is (LoadTextPhrasetable table) table) by apply load_is.
  destruct (with_words_is pass ws table (LoadTextPhrasetable table) T1) as (t' & ps0 & FL & T' & _).
  destruct (exact_any 2 7%Z 8%Z (with_words pass table ws) t' ws T' (words_some pass table ws NE) ltac:(discriminate)) as (N1 & res & H1 & H2 & _).
  set (root2 := ClearPassThroughTranslations (t', ps0)).
  assert (T2 : trie_is root2 []).
  { assert (E : root2 = Node None []) by (unfold root2; rewrite <- FL; vm_compute; reflexivity). rewrite E. exact (load_is (R := nat) []). }
  destruct (with_words_is pass ws [] root2 T2) as (t3 & ps3 & FL3 & T3 & _).
  destruct (exact_any 2 7%Z 8%Z (with_words pass [] ws) t3 ws T3 (words_some pass [] ws (fun _ _ I => match I with end)) ltac:(discriminate)) as (N2 & res2 & H3 & H4 & _).
  assert (R2 : exists ps, route (sentence ws) (with_words pass [] ws) 2 (repeat true 2) ps).
  { exists ([] ++ [(0, 1, 99)] ++ [(1, 2, 99)]). rewrite app_assoc. apply (r_step (sentence ws) (with_words pass [] ws) 2 [true; false] ([] ++ [(0, 1, 99)]) 1 1 2 99 [2%Z]).
    - apply (r_step (sentence ws) (with_words pass [] ws) 2 [false; false] [] 0 0 1 99 [1%Z]); [exact (r_start (sentence ws) (with_words pass [] ws) 2)|split; [reflexivity|lia]|lia|intros [|k] K; [reflexivity|lia]| |left; reflexivity]. apply (sp_arc (sentence ws) 0 [(1%Z, 1)] 1%Z 1 [] 1); [reflexivity|left; reflexivity|constructor].
    - split; [reflexivity|]. intros [|m] M; [reflexivity|lia].
    - lia.
    - intros [|[|k]] K; [lia|reflexivity|lia].
    - apply (sp_arc (sentence ws) 1 [(2%Z, 1)] 2%Z 1 [] 2); [reflexivity|left; reflexivity|constructor].
    - right. left. reflexivity. }
  destruct res2 as [g|]; [|destruct R2 as (ps & RP); destruct (H4 ps RP)]. destruct H4 as (_ & _ & _ & EX).
  exists pass, table, ws, (N1 + N2), res, g, [(0, 2, 30)]. split; [exact NE|]. split; [repeat constructor; cbn; tauto|]. split; [discriminate|]. split; [|split; [exact H2|split]].
  - intros fuel LE. cbn [TranslateLines]. unfold TranslateLine. rewrite !sentence_words, FL. cbn [fst]. rewrite (H1 fuel ltac:(lia)). cbn [bind]. fold root2. rewrite FL3. cbn [fst]. rewrite (H3 fuel ltac:(lia)). reflexivity.
  - apply (r_step (sentence ws) (with_words pass table ws) 2 [false; false] [] 0 0 2 30 [1%Z; 2%Z]); [exact (r_start (sentence ws) (with_words pass table ws) 2)|split; [reflexivity|lia]|lia|intros [|[|k]] K; [reflexivity|reflexivity|lia]| |left; reflexivity].
    apply (sp_arc (sentence ws) 0 [(1%Z, 1)] 1%Z 1 [2%Z] 2); [reflexivity|left; reflexivity|]. apply (sp_arc (sentence ws) 1 [(2%Z, 1)] 2%Z 1 [] 2); [reflexivity|left; reflexivity|constructor].
  - intros X. apply EX in X.
    assert (RI : forall C l, route (sentence ws) (with_words pass [] ws) 2 C l -> forall i j r, In (i, j, r) l -> j <= S i).
    { clear. intros C l H. induction H as [|C ps gap i j r us H IH FO GB AO SP IT]; intros i' j' r' I; [destruct I|]. apply in_app_or in I as [I|[I|[]]]; [exact (IH _ _ _ I)|]. injection I as <- <- <-. unfold with_words in IT. cbn [app] in IT. apply in_map_iff in IT as (v & E & _). injection E as <- _. inversion SP as [|? arcs ? d ? ? N IA SP']; subst. inversion SP'; subst. assert (d = 1); [|lia]. destruct i as [|[|i]]; cbn in N; try discriminate; [| |destruct i; discriminate]; injection N as <-; destruct IA as [IA|[]]; injection IA as _ <-; reflexivity. }
    specialize (RI _ _ X 0 2 30 (or_introl eq_refl)). lia.
Qed.
