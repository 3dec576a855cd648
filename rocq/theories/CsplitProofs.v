(** The compound splitter: characters, linking elements, and the graph built. *)
From Coq Require Import List ZArith Bool Lia.
From Verif Require Import Opt HG HGProofs Deriv TopoSpec PruneSpec Rule Parser Constrain ConstrainSpec BuiltProofs Csplit CsplitSpec.
Import ListNotations.
Open Scope opt_scope.
Local Open Scope nat_scope.

(** ** Characters *)
Lemma ulen_utf8 : forall c, utf8 c -> exists x r, c = x :: r /\ UTF8Len x = length c.
Proof.
  intros c H. assert (D : forall a b k, k < b -> b <> 0 -> (a * b + k) / b = a). { intros a b k L N. rewrite Nat.div_add_l by exact N. rewrite Nat.div_small by exact L. lia. }
  inversion H; subst; eexists; eexists; (split; [reflexivity|]); unfold UTF8Len; cbn [length].
  - destruct (Nat.ltb_spec b 128); [reflexivity|lia].
  - destruct (Nat.ltb_spec (192 + x) 128); [lia|]. change 192 with (6 * 32). rewrite (D 6 32 x) by lia. reflexivity.
  - destruct (Nat.ltb_spec (224 + x) 128); [lia|]. replace ((224 + x) / 32) with 7; [|change (224 + x) with (7 * 32 + x); rewrite D; lia]. change (224 + x) with (14 * 16 + x). rewrite (D 14 16 x) by lia. reflexivity.
  - destruct (Nat.ltb_spec (240 + x) 128); [lia|]. replace ((240 + x) / 32) with 7; [|replace (240 + x) with (7 * 32 + (16 + x)) by lia; rewrite D; lia]. replace ((240 + x) / 16) with 15; [|change (240 + x) with (15 * 16 + x); rewrite D; lia].
    change (240 + x) with (30 * 8 + x). rewrite (D 30 8 x) by lia. reflexivity.
Qed.
Lemma chars_utf8 : forall cs, Forall utf8 cs -> SplitUTF8String (concat cs) = Some cs.
Proof.
  intros cs F. unfold SplitUTF8String. assert (G : forall fuel, length (concat cs) <= fuel -> split_loop fuel (concat cs) = Some cs); [|apply G; lia].
  induction F as [|c cs U F IH]; intros fuel L; [destruct fuel; reflexivity|]. destruct (ulen_utf8 c U) as (x & r & -> & UL). cbn [concat app] in *. destruct fuel as [|fuel]; [cbn in L; lia|]. cbn [split_loop]. rewrite UL. destruct (Nat.eqb_spec (length (x :: r)) 0) as [E|_]; [discriminate|].
  change (x :: r ++ concat cs) with ((x :: r) ++ concat cs). rewrite skipn_app, skipn_all, Nat.sub_diag, firstn_app, firstn_all, Nat.sub_diag. cbn [skipn firstn app]. rewrite app_nil_r. rewrite IH; [reflexivity|]. cbn [length] in L. rewrite app_length in L. lia.
Qed.
Lemma chars_concat : forall input cs, SplitUTF8String input = Some cs -> concat cs = input /\ Forall (fun c => c <> []) cs.
Proof.
  intros input cs. unfold SplitUTF8String. generalize (length input) as fuel. intros fuel. revert input cs. induction fuel as [|fuel IH]; intros [|x r] cs H; cbn [split_loop] in H; try discriminate; try (injection H as <-; split; [reflexivity|constructor]).
  destruct (Nat.eqb_spec (UTF8Len x) 0) as [|N]; [discriminate|]. destruct (split_loop fuel (skipn (UTF8Len x) (x :: r))) as [out|] eqn:E; [|discriminate]. injection H as <-. destruct (IH _ _ E) as [C F]. split; [cbn [concat]; rewrite C; apply firstn_skipn|constructor; [|exact F]]. destruct (UTF8Len x); [lia|discriminate].
Qed.
Lemma split_fails : forall input, SplitUTF8String input = None -> exists pre x post, input = pre ++ x :: post /\ UTF8Len x = 0.
Proof.
  intros input. unfold SplitUTF8String. assert (G : forall fuel i, length i <= fuel -> split_loop fuel i = None -> exists pre x post, i = pre ++ x :: post /\ UTF8Len x = 0); [|apply G; lia].
  induction fuel as [|fuel IH]; intros [|x r] L H; cbn [split_loop] in H; try discriminate; [cbn in L; lia|]. destruct (Nat.eqb_spec (UTF8Len x) 0) as [E|N]; [exists [], x, r; auto|].
  destruct (split_loop fuel (skipn (UTF8Len x) (x :: r))) as [out|] eqn:E; [discriminate|]. apply IH in E as (pre & y & post & Q & Z); [|rewrite skipn_length; cbn [length] in *; lia].
  exists (firstn (UTF8Len x) (x :: r) ++ pre), y, post. split; [|exact Z]. rewrite <- app_assoc, <- Q. symmetry. apply firstn_skipn.
Qed.

(** ** Linking elements *)
Section L.
Variables fugS fugN : Z.
Lemma at_end_app : forall s (x : nat) k r, length r = k -> at_end (s ++ x :: r) (S k) = Some x.
Proof. intros s x k r <-. unfold at_end. rewrite app_length. cbn [length]. replace (length s + S (length r) - S (length r)) with (length s) by lia. rewrite nth_error_app2, Nat.sub_diag by lia. reflexivity. Qed.
Lemma firstn_but : forall (s r : list nat) k, length r = k -> firstn (length (s ++ r) - k) (s ++ r) = s.
Proof. intros s r k <-. rewrite app_length. replace (length s + length r - length r) with (length s) by lia. rewrite firstn_app, firstn_all, Nat.sub_diag. cbn. apply app_nil_r. Qed.
Lemma two_last : forall y : list nat, 2 <= length y -> exists s a b, y = s ++ [a; b].
Proof.
  intros y L. destruct y as [|b y _] using rev_ind; [cbn in L; lia|]. destruct y as [|a s _] using rev_ind; [cbn in L; lia|]. exists s, a, b. rewrite <- app_assoc. reflexivity.
Qed.
Lemma snoc2 : forall (s r : list nat) a b c d, s ++ [a; b] = r ++ [c; d] -> s = r /\ a = c /\ b = d.
Proof.
  intros s r a b c d E. change [a; b] with ([a] ++ [b]) in E. change [c; d] with ([c] ++ [d]) in E. rewrite !app_assoc in E. apply app_inj_tail in E as [E ->]. apply app_inj_tail in E as [-> ->]. auto.
Qed.
Lemma fugen_ok : forall y, exists o, fugen fugS fugN y = Some o /\ forall a f, o = Some (a, f) <-> linking fugS fugN y a f.
Proof.
  intros y. destruct (le_lt_dec 5 (length y)) as [L|L].
  - destruct (two_last y) as (s & a & b & ->); [lia|]. assert (LY : length (s ++ [a; b]) = length s + 2) by (rewrite app_length; reflexivity). rewrite LY in L.
    assert (A1 : at_end (s ++ [a; b]) 1 = Some b). { change [a; b] with ([a] ++ [b]). rewrite app_assoc. apply at_end_app. reflexivity. }
    assert (A2 : at_end (s ++ [a; b]) 2 = Some a) by (apply at_end_app; reflexivity).
    assert (F2 : firstn (length (s ++ [a; b]) - 2) (s ++ [a; b]) = s) by (apply firstn_but; reflexivity).
    assert (F1 : firstn (length (s ++ [a; b]) - 1) (s ++ [a; b]) = s ++ [a]). { change [a; b] with ([a] ++ [b]). rewrite app_assoc. apply firstn_but. reflexivity. }
    unfold fugen. rewrite A1, A2, F1, F2, LY. unfold min_size_. cbn [bind plus].
    assert (INV : forall y a0 f0, linking fugS fugN y a0 f0 -> y = s ++ [a; b] ->
      (a0 = s /\ f0 = fugS /\ a = 101 /\ b = 115 /\ 4 <= length s) \/ (a0 = s ++ [a] /\ f0 = fugS /\ b = 115 /\ (a <> 101 \/ length s < 4)) \/ (a0 = s ++ [a] /\ f0 = fugN /\ a = 101 /\ b = 110 /\ 4 <= length s)).
    { intros y a0 f0 K E. destruct K as [s0 K|s0 K NE|s0 K].
      - apply snoc2 in E as (-> & <- & <-). left. auto.
      - change [a; b] with ([a] ++ [b]) in E. rewrite app_assoc in E. apply app_inj_tail in E as (-> & <-). right; left. repeat split. destruct (Nat.eq_dec a 101) as [->|]; [right|left; assumption]. destruct (le_lt_dec 4 (length s)); [|assumption]. exfalso. apply NE. exists s. auto.
      - apply snoc2 in E as (-> & <- & <-). right; right. auto. }
    assert (ES : 4 <= length s -> a = 101 -> b = 115 -> linking fugS fugN (s ++ [a; b]) s fugS) by (intros K -> ->; constructor; exact K).
    assert (SS : b = 115 -> a <> 101 \/ length s < 4 -> linking fugS fugN (s ++ [a; b]) (s ++ [a]) fugS).
    { intros -> Q. change [a; 115] with ([a] ++ [115]). rewrite app_assoc. apply l_s; [rewrite app_length; cbn; lia|]. intros (r & E & LR). apply app_inj_tail in E as (-> & ->). destruct Q; [congruence|lia]. }
    assert (EN : 4 <= length s -> a = 101 -> b = 110 -> linking fugS fugN (s ++ [a; b]) (s ++ [a]) fugN) by (intros K -> ->; constructor; exact K).
    assert (FIN : forall o, (match o with Some (a0, f0) => linking fugS fugN (s ++ [a; b]) a0 f0 | None => forall a0 f0, ~ linking fugS fugN (s ++ [a; b]) a0 f0 end) -> forall a0 f0, o = Some (a0, f0) <-> linking fugS fugN (s ++ [a; b]) a0 f0).
    { intros [(a1, f1)|] H a0 f0; [|split; [discriminate|intros K; exfalso; exact (H _ _ K)]]. split; [intros [= <- <-]; exact H|]. intros K. assert (H2 := INV _ _ _ H eq_refl). apply INV in K; [|reflexivity]. 
      destruct H2 as [(-> & -> & ? & ? & ?)|[(-> & -> & ? & Q)|(-> & -> & ? & ? & ?)]], K as [(-> & -> & ? & ? & ?)|[(-> & -> & ? & Q')|(-> & -> & ? & ? & ?)]]; try reflexivity; exfalso; try lia; subst; discriminate. }
    destruct (Nat.ltb_spec 5 (length s + 2)) as [L1|L1], (Nat.ltb_spec 4 (length s + 2)) as [L2|L2]; try lia; cbn [bind];
      destruct (Nat.eqb_spec b 115) as [B1|B1]; cbn [bind]; destruct (Nat.eqb_spec a 101) as [AE|AE]; cbn [bind]; destruct (Nat.eqb_spec b 110) as [B2|B2]; cbn [bind]; try lia;
      (eexists; split; [reflexivity|]; apply FIN; try (apply ES; lia); try (apply EN; lia); try (apply SS; lia)); intros a0 f0 K; apply INV in K; [|reflexivity| |reflexivity| |reflexivity| |reflexivity| |reflexivity| |reflexivity| |reflexivity]; try lia.
  - unfold fugen, min_size_. cbn [plus]. destruct (Nat.ltb_spec 5 (length y)); [lia|]. destruct (Nat.ltb_spec 4 (length y)); [lia|]. cbn [bind]. eexists. split; [reflexivity|]. intros a f. split; [discriminate|]. intros K. exfalso. destruct K; rewrite app_length in *; cbn in *; lia.
Qed.
Lemma linking_short : forall y a f, linking fugS fugN y a f -> length a < length y /\ 4 <= length a.
Proof. intros y a f K. destruct K; rewrite !app_length; cbn; lia. Qed.
End L.
