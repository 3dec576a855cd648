(** Concrete sentence pairs for the examples and the refutations. *)
From Coq Require Import List ZArith QArith Bool Lia Permutation Reals Lra.
From Verif Require Import Opt Fix FixSpec RuleEx RuleExSpec RuleExTopProofs RuleCount RuleCountSpec RuleCountProofs.
Import ListNotations.
Close Scope R_scope.
Close Scope Q_scope.
Open Scope Z_scope.

Definition opts_tight : ropts := {| o_span := 10; o_gap := 1; o_nonterms := 2; o_symbols := 5; o_terminal := true; o_chunks := false; o_tight := true |}.
Definition opts_loose : ropts := {| o_span := 10; o_gap := 1; o_nonterms := 2; o_symbols := 5; o_terminal := true; o_chunks := false; o_tight := false |}.
Definition opts_three : ropts := {| o_span := 10; o_gap := 1; o_nonterms := 3; o_symbols := 7; o_terminal := true; o_chunks := false; o_tight := true |}.
(** 10 11 12 13 ||| 20 21 22 23 24 ||| 0-0 1-3 2-1 3-4 *)
Definition pair4 : sentence := {| src := [10; 11; 12; 13]; tgt := [20; 21; 22; 23; 24]; links := [(0,0); (1,3); (2,1); (3,4)] |}.
Definition pair7 : sentence := {| src := [10; 11; 12; 13; 14; 15; 16]; tgt := [20; 21; 22; 23; 24; 25; 26]; links := [(0,0); (1,5); (2,2); (3,1); (4,4); (5,3); (6,6)] |}.
(** two equal words without link between two gaps *)
Definition pair5 : sentence := {| src := [10; 11; 12; 13; 14]; tgt := [20; 21; 5; 5; 23; 22; 24]; links := [(0,0); (1,1); (2,5); (3,4); (4,6)] |}.

Ltac each_link L := cbn in L; repeat (destruct L as [L|L]; [injection L as <- <-; cbn; lia|]); try (destruct L).
Ltac fits_tac :=
  split; [intros s t L; each_link L|];
  split; [split; [reflexivity|split];
    [intros i m c; do 5 (try destruct i as [|i]); cbn [nth_error chunks_of Z.leb Z.compare]; intros E1 E2; try discriminate; injection E1 as <-; injection E2 as <-; (split; [discriminate|split; [lia|reflexivity]])
    |intros i m c m'; do 5 (try destruct i as [|i]); cbn [nth_error chunks_of Z.leb Z.compare]; intros E1 E2 E3; try discriminate; injection E1 as <-; injection E2 as <-; injection E3 as <-; cbn; lia]|];
  split; [cbn; lia|]; split; [cbn; lia|]; split; [cbn; lia|];
  intros a b (i & m & c & E1 & E2 & H) (j & m' & c' & E3 & E4 & H');
  do 5 (try destruct i as [|i]); cbn [nth_error chunks_of Z.leb Z.compare] in E1, E2; try discriminate; injection E1 as <-; injection E2 as <-;
  do 5 (try destruct j as [|j]); cbn [nth_error chunks_of Z.leb Z.compare] in E3, E4; try discriminate; injection E3 as <-; injection E4 as <-; cbn in *; lia.
Lemma fits4_word : fits opts_tight pair4 100 [12] [102].
Proof. fits_tac. Qed.
Lemma fits4_first : fits opts_tight pair4 100 [10] [100].
Proof. fits_tac. Qed.
Lemma fits4_gap : fits opts_loose pair4 100 [10; -1; 13] [100; 103].
Proof. fits_tac. Qed.
Lemma fits7 : fits opts_three pair7 100 [10; -1; 12; -2; 14; -3; 16] [100; 102; 104; 106].
Proof. fits_tac. Qed.
Lemma fits5 : fits opts_loose pair5 100 [10; -1; 12; -2; 14] [100; 102; 104].
Proof. fits_tac. Qed.

(** The rule with three gaps that is there and is not found. *)
Definition rule7 : instance := {| i_sl := 0; i_sh := 7; i_tl := 0; i_th := 7; i_source := [(1, 2); (3, 4); (5, 6)]; i_target := [(2, (1, 2)); (3, (3, 4)); (1, (5, 6))] |}.
Ltac links_closed := intros s t L; each_link L.
Lemma rule7_plain : plain opts_three pair7 100 [10; -1; 12; -2; 14; -3; 16] [100; 102; 104; 106] rule7.
Proof.
  split; [|split; [|split; [reflexivity|split; [cbn; lia|split; [|split]]]]].
  - split; [cbn; lia|]. split; [cbn; lia|]. split; [cbn; lia|]. split; [cbn; lia|]. split; [links_closed|]. split; [cbn; lia|]. split; [cbn; lia|].
    split.
    + change (Permutation [2; 3; 1] [1; 2; 3]). apply (Permutation_trans (l' := [1; 2; 3])); [|apply Permutation_refl]. change [2; 3; 1] with ([2; 3] ++ [1]). symmetry. apply (Permutation_cons_append [2; 3] 1).
    + intros k a b c d I E. cbn in I. destruct I as [I|[I|[I|[]]]]; injection I as <- <- <-; cbn in E; injection E as <- <-; (split; [links_closed|]).
      * exists 3, 1. cbn. split; [auto 10|lia].
      * exists 5, 3. cbn. split; [auto 10|lia].
      * exists 1, 5. cbn. split; [auto 10|lia].
  - split.
    + intros pos. split.
      * intros (i & m & c & E1 & E2 & H). do 5 (try destruct i as [|i]); cbn [nth_error chunks_of Z.leb Z.compare] in E1, E2; try discriminate; injection E1 as <-; injection E2 as <-; cbn in H;
          (split; [cbn; lia|]; intros (a & b & I & R); cbn in I; destruct I as [I|[I|[I|[]]]]; injection I as <- <-; lia).
      * intros [R NG]. cbn in R.
        assert (P : pos = 0 \/ pos = 2 \/ pos = 4 \/ pos = 6).
        { assert (pos <> 1) by (intros ->; apply NG; exists 1, 2; cbn; split; [auto|lia]). assert (pos <> 3) by (intros ->; apply NG; exists 3, 4; cbn; split; [auto|lia]).
          assert (pos <> 5) by (intros ->; apply NG; exists 5, 6; cbn; split; [auto|lia]). lia. }
        destruct P as [-> | [-> | [-> | ->]]]; [exists 0%nat, 100, [10]|exists 1%nat, 102, [12]|exists 2%nat, 104, [14]|exists 3%nat, 106, [16]]; (split; [reflexivity|split; [reflexivity|cbn; lia]]).
    + intros a b I [E|E]; cbn in I, E; destruct I as [I|[I|[I|[]]]]; injection I as <- <-; cbn; lia.
  - intros _. split; [|split; [|split]].
    + split; [exists 0|exists 6]; cbn; auto 10.
    + split; [exists 0|exists 6]; cbn; auto 10.
    + intros a b I. cbn in I. destruct I as [I|[I|[I|[]]]]; injection I as <- <-; cbn; [split; exists 5|split; exists 1|split; exists 3]; cbn; auto 10.
    + intros a b I. cbn in I. destruct I as [I|[I|[I|[]]]]; injection I as <- <-; cbn; [split; exists 3|split; exists 5|split; exists 1]; cbn; auto 10.
  - exists 0, 0. cbn. split; [auto|lia].
  - intros _. split; [|intros Q; discriminate]. exists 0, 0. split; [|cbn; auto]. exists 0%nat, 100, [10]. split; [reflexivity|split; [reflexivity|cbn; lia]].
Qed.
Lemma three_refuted : exists o p start phrase matching i, fits o p start phrase matching /\ plain o p start phrase matching i /\
  forall f, ExtractAlignments (Some f) o p start phrase matching = Some [].
Proof.
  exists opts_three, pair7, 100, [10; -1; 12; -2; 14; -3; 16], [100; 102; 104; 106], rule7. split; [apply fits7|]. split; [apply rule7_plain|]. intros f. vm_compute. reflexivity.
Qed.
Lemma stray_refuted : exists o p start phrase matching, fits o p start phrase matching /\ ExtractAlignments None o p start phrase matching = None.
Proof. exists opts_tight, pair4, 100, [10], [100]. split; [apply fits4_first|]. vm_compute. reflexivity. Qed.

(** One occurrence, the same rule twice. *)
Definition at5 (pos : Z) : option (sentence * Z) := Some (pair5, 100).
Lemma occ5 : occurrences opts_loose at5 [10; -1; 12; -2; 14] [[100; 102; 104]].
Proof. intros m [<-|[]]. exists 100, pair5, 100. split; [reflexivity|]. split; [reflexivity|]. apply fits5. Qed.
Definition rules5 : list rule_stats := Eval vm_compute in match ExtractRules (Some (fun _ => 0)) opts_loose at5 [10; -1; 12; -2; 14] 3 (concat [[100; 102; 104]]) with Some r => r | None => [] end.
Lemma twice_refuted : exists o sentence_at phrase k ms rules r, (1 <= k)%nat /\ Forall (fun m => length m = k) ms /\ occurrences o sentence_at phrase ms /\
  ExtractRules (Some (fun _ => 0)) o sentence_at phrase k (concat ms) = Some rules /\ In r rules /\ r_samples r = 1 /\ r_pair_count r = 2 /\ (TargetGivenSourceCoherent r < 0)%R.
Proof.
  exists opts_loose, at5, [10; -1; 12; -2; 14], 3%nat, [[100; 102; 104]], rules5.
  assert (E : ExtractRules (Some (fun _ => 0)) opts_loose at5 [10; -1; 12; -2; 14] 3 (concat [[100; 102; 104]]) = Some rules5) by (vm_compute; reflexivity).
  destruct (find (fun r => r_pair_count r =? 2) rules5) as [r|] eqn:F; [|vm_compute in F; discriminate]. exists r.
  split; [lia|]. split; [repeat constructor|]. split; [apply occ5|]. split; [exact E|]. pose proof (find_some _ _ F) as [I P]. split; [auto|]. apply Z.eqb_eq in P.
  assert (S : r_samples r = 1) by (vm_compute in F; injection F as <-; reflexivity). split; [auto|]. split; [auto|].
  unfold TargetGivenSourceCoherent. rewrite S, P. destruct (Rlt_dec 0 (IZR 2 / IZR 1)) as [X|X]; [|exfalso; apply X; lra]. unfold log10. pose proof ln10_pos.
  assert (0 < ln (2 / 1))%R by (rewrite <- ln_1; apply ln_increasing; lra). assert (0 < ln (2 / 1) / ln 10)%R by (apply Rdiv_lt_0_compat; auto). lra.
Qed.
