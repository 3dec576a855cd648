(** Proofs about combinations of metrics. *)
From Coq Require Import Reals List Arith ZArith Lra Lia.
From Verif Require Import Comb CombSpec.
Import ListNotations.
Local Open Scope R_scope.

Section C.
Variable H : Type.
Local Notation metric := (metric H).
Definition sizes (ms : list metric) : nat := fold_right (fun m t => (size H m + t)%nat) 0%nat ms.
Lemma total_sizes : forall ms t, fold_left (fun t m => (t + size H m)%nat) ms t = (t + sizes ms)%nat.
Proof. induction ms as [|m ms IH]; intros t; cbn [fold_left sizes fold_right]; [lia|]. rewrite IH. unfold sizes. lia. Qed.
Lemma set_app : forall a b x v, set_field (a ++ x :: b) (length a) v = a ++ v :: b.
Proof. induction a as [|y a IH]; intros b x v; [reflexivity|]. cbn [app length set_field]. rewrite IH. reflexivity. Qed.
Lemma put_ok : forall t j a b rest, length a = (j + b)%nat -> (length t <= length rest)%nat ->
  put t j b (a ++ rest) = Some (a ++ t ++ skipn (length t) rest).
Proof.
  induction t as [|v t IH]; intros j a b rest L1 L2; [reflexivity|]. destruct rest as [|x rest]; [cbn in L2; lia|]. cbn [put].
  destruct (Nat.ltb_spec (j + b) (length (a ++ x :: rest))) as [_|X]; [|rewrite app_length in X; cbn [length] in X; lia].
  rewrite <- L1, set_app. replace (a ++ v :: rest) with ((a ++ [v]) ++ rest) by (rewrite <- app_assoc; reflexivity).
  rewrite IH; [|rewrite app_length; cbn [length]; lia|cbn [length] in L2; lia]. rewrite <- app_assoc. reflexivity.
Qed.
Definition sized (ms : list metric) : Prop := forall m h, In m ms -> length (evaluate H m h) = size H m.
Lemma put_all_ok : forall ms h a rest, sized ms -> length rest = sizes ms ->
  put_all H ms (offsets H ms (length a)) h (a ++ rest) = Some (a ++ flat_map (fun m => evaluate H m h) ms).
Proof.
  induction ms as [|m ms IH]; intros h a rest S L; cbn [put_all offsets flat_map].
  - destruct rest; [reflexivity|discriminate].
  - cbn [sizes fold_right] in L. fold (sizes ms) in L. assert (E := S m h (or_introl eq_refl)).
    rewrite put_ok by lia. rewrite app_assoc. replace (length a + size H m)%nat with (length (a ++ evaluate H m h)) by (rewrite app_length; lia).
    rewrite IH; [rewrite app_assoc; reflexivity|intros m' h' I; apply S; right; exact I|rewrite skipn_length; lia].
Qed.
Lemma evaluate_concat : forall ms h, sized ms -> Evaluate H ms h = Some (flat_map (fun m => evaluate H m h) ms).
Proof.
  intros ms h S. unfold Evaluate. apply (put_all_ok ms h [] (repeat 0 (total_size H ms)) S). rewrite repeat_length. unfold total_size. rewrite total_sizes. reflexivity.
Qed.
Lemma slice : forall a b c, map (field (a ++ b ++ c)) (seq (length a) (length b)) = b.
Proof.
  intros a b c. apply (nth_ext _ _ 0 0); [rewrite map_length, seq_length; reflexivity|]. intros k K. rewrite map_length, seq_length in K.
  rewrite (nth_indep _ 0 (field (a ++ b ++ c) 0%nat)) by (rewrite map_length, seq_length; exact K). rewrite map_nth, seq_nth by exact K. unfold field. rewrite app_nth2_plus, app_nth1 by exact K. reflexivity.
Qed.
Lemma score_ok : forall ms (V : list stats) a tot, length V = length ms -> (forall k, (k < length ms)%nat -> length (nth k V []) = nth k (map (size H) ms) 0%nat) ->
  score_from H ms (offsets H ms (length a)) (length a + sizes ms) (a ++ concat V) tot = tot + weighted (map (coeff H) ms) (map (fun p => compute H (fst p) (snd p)) (combine ms V)).
Proof.
  induction ms as [|m ms IH]; intros [|v V] a tot L S; cbn [length] in L; try lia; cbn [score_from offsets map combine weighted concat].
  - lra.
  - assert (Ev := S 0%nat ltac:(cbn; lia)). cbn [nth map] in Ev.
    assert (N : match offsets H ms (length a + size H m) with [] => (length a + sizes (m :: ms))%nat | o :: _ => o end = (length a + length v)%nat).
    { destruct ms as [|m' ms]; cbn [offsets]; [cbn [sizes fold_right]|]; lia. }
    rewrite N. replace (length a + length v - length a)%nat with (length v) by lia. rewrite slice. rewrite app_assoc.
    replace (length a + size H m)%nat with (length (a ++ v)) by (rewrite app_length; lia).
    replace (length a + sizes (m :: ms))%nat with (length (a ++ v) + sizes ms)%nat by (rewrite app_length; cbn [sizes fold_right]; fold (sizes ms); lia).
    rewrite IH; [cbn [fst snd]; lra|lia|]. intros k K. apply (S (Datatypes.S k)). cbn [length]. lia.
Qed.

(** Sums of statistics. *)
Lemma plus_length : forall a b, length (plus_equals a b) = Nat.max (length a) (length b).
Proof. induction a as [|x a IH]; intros [|y b]; cbn [plus_equals length]; try lia. rewrite IH. lia. Qed.
Lemma plus_field : forall a b k, nth k (plus_equals a b) 0 = nth k a 0 + nth k b 0.
Proof. induction a as [|x a IH]; intros [|y b] [|k]; cbn [plus_equals nth]; try lra. apply IH. Qed.
Lemma plus_app : forall a b c e, length a = length c -> plus_equals (a ++ b) (c ++ e) = plus_equals a c ++ plus_equals b e.
Proof. induction a as [|x a IH]; intros b [|y c] e L; cbn [length] in L; try lia; [reflexivity|]. cbn [app plus_equals]. rewrite IH by lia. reflexivity. Qed.
Lemma plus_flat : forall (ms : list metric) f g, (forall m, In m ms -> length (f m) = length (g m)) ->
  plus_equals (flat_map f ms) (flat_map g ms) = flat_map (fun m => plus_equals (f m) (g m)) ms.
Proof.
  induction ms as [|m ms IH]; intros f g L; [reflexivity|]. cbn [flat_map]. rewrite plus_app by (apply L; left; reflexivity). rewrite IH by (intros m' I; apply L; right; exact I). reflexivity.
Qed.
Lemma total_length : forall (f : H -> stats) n hs a, (forall h, length (f h) = n) -> length a = n -> length (fold_left (fun s h => plus_equals s (f h)) hs a) = n.
Proof. intros f n. induction hs as [|h hs IH]; intros a L A; [exact A|]. cbn [fold_left]. apply IH; [exact L|]. rewrite plus_length, L, A. lia. Qed.
Lemma total_flat : forall ms hs f, sized ms -> (forall m, In m ms -> length (f m) = size H m) ->
  fold_left (fun s h => plus_equals s (flat_map (fun m => evaluate H m h) ms)) hs (flat_map f ms) =
  flat_map (fun m => fold_left (fun s h => plus_equals s (evaluate H m h)) hs (f m)) ms.
Proof.
  intros ms. induction hs as [|h hs IH]; intros f S F; [reflexivity|]. cbn [fold_left]. rewrite plus_flat by (intros m I; rewrite (S m h I); apply F; exact I).
  apply (IH (fun m => plus_equals (f m) (evaluate H m h)) S). intros m I. rewrite plus_length, (S m h I), (F m I). lia.
Qed.
Lemma total_nil : forall (f : H -> stats) hs, hs <> [] -> exists h hs', hs = h :: hs' /\ fold_left (fun s h => plus_equals s (f h)) hs [] = fold_left (fun s h => plus_equals s (f h)) hs' (f h).
Proof. intros f [|h hs] N; [congruence|]. exists h, hs. split; [reflexivity|]. reflexivity. Qed.

Theorem comb_score : forall ms hs, sized ms -> hs <> [] ->
  exists sts, Forall2 (fun h s => Evaluate H ms h = Some s) hs sts /\
    ComputeScore H ms (fold_left plus_equals sts []) =
    weighted (map (coeff H) ms) (map (fun m => compute H m (fold_left plus_equals (map (evaluate H m) hs) [])) ms).
Proof.
  intros ms hs S N. exists (map (fun h => flat_map (fun m => evaluate H m h) ms) hs). split.
  - clear N. induction hs as [|h hs IH]; constructor; [apply evaluate_concat; exact S|exact IH].
  - assert (FM : forall (f : H -> stats) l a, fold_left plus_equals (map f l) a = fold_left (fun s h => plus_equals s (f h)) l a) by (intros f; induction l as [|x l IH]; intros a; [reflexivity|]; cbn [map fold_left]; apply IH).
    rewrite FM. destruct hs as [|h hs]; [congruence|]. cbn [fold_left plus_equals]. rewrite (total_flat ms hs (fun m => evaluate H m h) S) by (intros m I; apply S; exact I).
    set (V := map (fun m => fold_left (fun s h => plus_equals s (evaluate H m h)) hs (evaluate H m h)) ms).
    rewrite flat_map_concat_map. fold V. unfold ComputeScore. unfold total_size. rewrite total_sizes.
    pose proof (score_ok ms V [] 0) as X. cbn [length app] in X. change (0 + sizes ms)%nat with (sizes ms) in X. change (0 + sizes ms)%nat with (sizes ms). rewrite X; clear X; [|unfold V; rewrite map_length; reflexivity|].
    + rewrite Rplus_0_l. f_equal. unfold V. clear. induction ms as [|m ms IH]; [reflexivity|]. cbn [map combine fst snd]. rewrite IH. f_equal. f_equal.
      cbn [fold_left plus_equals]. assert (FM : forall (f : H -> stats) l a, fold_left plus_equals (map f l) a = fold_left (fun s h => plus_equals s (f h)) l a) by (intros f; induction l as [|x l IHl]; intros a; [reflexivity|]; cbn [map fold_left]; apply IHl). rewrite FM. reflexivity.
    + intros k K. unfold V. rewrite (nth_indep _ [] ((fun m => fold_left (fun s h => plus_equals s (evaluate H m h)) hs (evaluate H m h)) (nth k ms (Metric H 0 0 (fun _ => []) (fun _ => 0))))) by (rewrite map_length; exact K).
      rewrite (nth_indep _ 0%nat (size H (nth k ms (Metric H 0 0 (fun _ => []) (fun _ => 0))))) by (rewrite map_length; exact K).
      rewrite (map_nth (fun m => fold_left (fun s h => plus_equals s (evaluate H m h)) hs (evaluate H m h))), (map_nth (size H)).
      apply total_length; intros; apply S; apply nth_In; exact K.
Qed.
End C.

(** * Encoding *)
Theorem codec : forall bs ts, (length bs < 128)%nat -> Decode2 (Encode2 bs ts) = Some (bs, ts).
Proof.
  intros bs ts L. unfold Decode2, Encode2. rewrite Nat.mod_small by lia. unfold signed. destruct (Nat.ltb_spec (length bs) 128); [|lia].
  destruct (Z.ltb_spec (Z.of_nat (length bs)) 0); [lia|]. destruct (Z.ltb_spec (1 + Z.of_nat (length bs)) 0); [lia|].
  unfold substr. cbn [length]. rewrite app_length. destruct (Nat.ltb_spec (S (length bs + length ts)) 1); [lia|]. replace (Z.to_nat (1 + Z.of_nat (length bs))) with (S (length bs)) by lia.
  destruct (Nat.ltb_spec (S (length bs + length ts)) (S (length bs))); [lia|]. rewrite Nat2Z.id. cbn [skipn]. rewrite firstn_app, skipn_app, firstn_all, skipn_all, Nat.sub_diag. cbn [firstn skipn app]. rewrite app_nil_r. reflexivity.
Qed.
Theorem codec_refuted : forall bs ts, (128 <= length bs < 255)%nat -> Decode2 (Encode2 bs ts) = None.
Proof.
  intros bs ts L. unfold Decode2, Encode2. rewrite Nat.mod_small by lia. unfold signed. destruct (Nat.ltb_spec (length bs) 128); [lia|].
  destruct (Z.ltb_spec (Z.of_nat (length bs) - 256) 0); [|lia]. destruct (Z.ltb_spec (1 + (Z.of_nat (length bs) - 256)) 0); [|lia].
  destruct (substr _ _ _); reflexivity.
Qed.
