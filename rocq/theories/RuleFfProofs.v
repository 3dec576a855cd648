(** Proofs for RuleFf.v. *)
From Coq Require Import String Ascii List Arith Bool Lia Decimal DecimalString DecimalNat.
From Verif Require Import Opt OptProofs RuleFf RuleFfSpec.
Import ListNotations.
Open Scope string_scope.
Open Scope opt_scope.
Local Open Scope nat_scope.

Lemma escape_app : forall a b, Escape (a ++ b) = Escape a ++ Escape b.
Proof. induction a as [|c a IH]; intros b; [reflexivity|]. cbn. rewrite IH. reflexivity. Qed.
Lemma escape_same : forall s, ~ has "=" s -> ~ has ";" s -> Escape s = s.
Proof.
  induction s as [|c s IH]; intros N1 N2; [reflexivity|]. cbn in *. rewrite IH by tauto. f_equal. unfold escape1. destruct (Ascii.eqb_spec c "="); [tauto|]. destruct (Ascii.eqb_spec c ";"); [tauto|reflexivity].
Qed.
Lemma split_inj : forall u u' v v', ~ has "_" u -> ~ has "_" u' -> u ++ "_" ++ v = u' ++ "_" ++ v' -> u = u' /\ v = v'.
Proof.
  induction u as [|c u IH]; intros [|c' u'] v v' N N' Q; cbn in *.
  - injection Q as Q. auto.
  - injection Q as Q1 Q2. subst c'. tauto.
  - injection Q as Q1 Q2. subst c. tauto.
  - injection Q as <- Q. destruct (IH u' v v' ltac:(tauto) ltac:(tauto) Q) as (-> & ->). auto.
Qed.
Lemma app_inj : forall t a b : string, t ++ a = t ++ b -> a = b.
Proof. induction t as [|c t IH]; intros a b Q; [exact Q|]. cbn in Q. injection Q as Q. auto. Qed.
Lemma key_eqb_ok : forall a b, key_eqb a b = true <-> a = b.
Proof. intros [a|] [b|]; cbn; try (split; congruence). rewrite String.eqb_eq. split; congruence. Qed.

Lemma last_cons : forall A (ws : list A) w prev, last (w :: ws) prev = last ws w.
Proof. intros A. induction ws as [|x ws IH]; intros w prev; [reflexivity|]. change (last (x :: ws) prev = last (x :: ws) w). rewrite !IH. reflexivity. Qed.
Section Tag.
Variable takes : string -> bool.
Hypothesis all : forall s, takes s = true.
Variable tag : string.
Hypothesis tag_ok : Escape tag = tag.
Definition nm (q : string * string) : string := tag ++ fst q ++ "_" ++ snd q.
Definition cntk (k : option string) (l : list (string * string)) : nat := length (filter (fun q => key_eqb k (Some (nm q))) l).
Definition calm (s : string) : Prop := ~ has "_" s /\ ~ has "=" s /\ ~ has ";" s.
Lemma convert_nm : forall u v, calm u -> ~ has "=" v -> ~ has ";" v -> Convert takes (Escape (tag ++ u ++ "_" ++ v)) = Some (nm (u, v)).
Proof.
  intros u v (_ & U1 & U2) V1 V2. unfold Convert. rewrite all, !escape_app, tag_ok, (escape_same u U1 U2), (escape_same v V1 V2). reflexivity.
Qed.
Lemma loop_ok : forall ws prev f, Forall plain ws -> calm prev -> exists f', loop takes tag prev ws f = (f', Some (last ws prev)) /\ forall k, f' k = f k + cntk k (combine (prev :: ws) ws).
Proof.
  induction ws as [|w ws IH]; intros prev f F C; [exists f; split; [reflexivity|]; intros k; cbn; lia|]. inversion F as [|? ? (W1 & W2 & W3 & W4) F2]; subst. cbn [loop]. rewrite (convert_nm prev w C W2 W3).
  destruct (IH w (add_value (Some (nm (prev, w))) f) F2 ltac:(repeat split; assumption)) as (f' & Q1 & Q2). exists f'. split.
  - rewrite Q1. rewrite last_cons. reflexivity.
  - intros k. rewrite Q2. unfold add_value, cntk. change (combine (prev :: w :: ws) (w :: ws)) with ((prev, w) :: combine (w :: ws) ws). cbn [filter]. destruct (key_eqb k (Some (nm (prev, w)))); cbn [length]; lia.
Qed.
Lemma neighbours_split : forall ws prev, combine (prev :: ws) (ws ++ ["</r>"])%list = (combine (prev :: ws) ws ++ [(last ws prev, "</r>")])%list.
Proof.
  induction ws as [|w ws IH]; intros prev; [reflexivity|]. change (combine (prev :: w :: ws) ((w :: ws) ++ ["</r>"])%list) with ((prev, w) :: combine (w :: ws) (ws ++ ["</r>"])%list). rewrite IH.
  change (combine (prev :: w :: ws) (w :: ws)) with ((prev, w) :: combine (w :: ws) ws). rewrite last_cons. reflexivity.
Qed.
Lemma cntk_app : forall k a b, cntk k (a ++ b)%list = cntk k a + cntk k b.
Proof. intros. unfold cntk. rewrite filter_app, app_length. reflexivity. Qed.
Lemma calm_last : forall ws prev, Forall plain ws -> calm prev -> calm (last ws prev).
Proof. induction ws as [|w ws IH]; intros prev F C; [exact C|]. inversion F as [|? ? (W1 & W2 & W3 & W4) F2]; subst. rewrite last_cons. apply (IH w F2). repeat split; assumption. Qed.
Lemma firsts_calm : forall ws prev q, Forall plain ws -> calm prev -> In q (combine (prev :: ws) ws) -> calm (fst q) /\ plain (snd q).
Proof.
  induction ws as [|w ws IH]; intros prev q F C I; [destruct I|]. inversion F as [|? ? W F2]; subst. change (combine (prev :: w :: ws) (w :: ws)) with ((prev, w) :: combine (w :: ws) ws) in I. destruct I as [<- |I]; [auto|]. apply (IH w q F2); [|exact I]. destruct W as (W1 & W2 & W3 & _). repeat split; assumption.
Qed.
Lemma build_ok : forall ws, Forall plain ws -> exists f, build takes tag ws = (f, true) /\ forall k, f k = cntk k (neighbours ws).
Proof.
  intros ws F. assert (C : calm "<r>") by (repeat split; cbn; intuition discriminate). unfold build, neighbours. destruct (loop_ok ws "<r>" (fun _ => 0) F C) as (f & Q1 & Q2). rewrite Q1.
  change (tag ++ last ws "<r>" ++ "_" ++ "</r>") with (tag ++ last ws "<r>" ++ "_" ++ "</r>"). rewrite (convert_nm (last ws "<r>") "</r>" (calm_last ws _ F C)) by (cbn; intuition discriminate). eexists. split; [reflexivity|].
  intros k. rewrite neighbours_split, cntk_app. unfold set_value. unfold cntk at 2. cbn [filter]. destruct (key_eqb k (Some (nm (last ws "<r>", "</r>")))) eqn:K; cbn [length]; [|rewrite Q2; lia].
  apply key_eqb_ok in K. subst k. enough (Z : cntk (Some (nm (last ws "<r>", "</r>"))) (combine ("<r>" :: ws) ws) = 0) by (rewrite Z; reflexivity). unfold cntk.
  destruct (filter (fun q => key_eqb (Some (nm (last ws "<r>", "</r>"))) (Some (nm q))) (combine ("<r>" :: ws) ws)) as [|q l] eqn:E; [reflexivity|]. exfalso.
  assert (I : In q (q :: l)) by (left; reflexivity). rewrite <- E in I. apply filter_In in I as (I & K). apply key_eqb_ok in K. injection K as K. apply app_inj in K. cbn [fst snd] in K.
  destruct (firsts_calm ws "<r>" q F C I) as ((U & _) & (_ & _ & _ & V)). apply split_inj in K as (_ & K); [congruence|exact (proj1 (calm_last ws _ F C))|exact U].
Qed.
Lemma cntk_pairs : forall l f, (forall q, In q l -> ~ has "_" (fst q)) -> (forall k, f k = cntk k l) -> counts_pairs tag l f.
Proof.
  intros l f C Q. split.
  - intros u v U. rewrite Q. unfold cntk, times. f_equal. cbn [fst snd]. apply filter_ext_in. intros q I. apply eq_true_iff_eq. rewrite key_eqb_ok, andb_true_iff, !String.eqb_eq. unfold nm. split.
    + intros [= K]. apply app_inj in K. apply split_inj in K as (-> & ->); [auto|exact U|exact (C q I)].
    + intros (<- & <-). reflexivity.
  - intros k NZ. rewrite Q in NZ. unfold cntk in NZ. destruct (filter (fun q => key_eqb k (Some (nm q))) l) as [|q r] eqn:E; [destruct (NZ eq_refl)|]. assert (I : In q (q :: r)) by (left; reflexivity). rewrite <- E in I. apply filter_In in I as (I & K). apply key_eqb_ok in K. exists (fst q), (snd q). rewrite <- surjective_pairing. auto.
Qed.
Lemma neighbours_calm : forall ws q, Forall plain ws -> In q (neighbours ws) -> ~ has "_" (fst q).
Proof.
  intros ws q F I. assert (C : calm "<r>") by (repeat split; cbn; intuition discriminate). unfold neighbours in I. rewrite neighbours_split in I. apply in_app_or in I as [I|[<- |[]]]; [exact (proj1 (proj1 (firsts_calm ws "<r>" q F C I)))|exact (proj1 (calm_last ws _ F C))].
Qed.
(** the cache has what would be computed *)
Variable texts : nat -> list string.
Hypothesis texts_plain : forall p, Forall plain (texts p).
Definition cached (c : list (nat * (option string -> nat))) : Prop := forall p f, find_rule c p = Some f -> forall k, f k = cntk k (neighbours (texts p)).
Lemma step_ok : forall p c f, cached c -> exists c' f', bigram_features takes tag (texts p) p c f = (c', f') /\ cached c' /\ forall k, f' k = f k + cntk k (neighbours (texts p)).
Proof.
  intros p c f H. unfold bigram_features. destruct (find_rule c p) as [g|] eqn:E.
  - do 2 eexists. split; [reflexivity|]. split; [exact H|]. intros k. unfold plus_vec. rewrite (H p g E). reflexivity.
  - destruct (build_ok (texts p) (texts_plain p)) as (g & Q & QK). rewrite Q. do 2 eexists. split; [reflexivity|]. split.
    + intros p' f' FR. cbn in FR. destruct (Nat.eqb_spec p p') as [<- |]; [injection FR as <-; exact QK|exact (H p' f' FR)].
    + intros k. unfold plus_vec. rewrite QK. reflexivity.
Qed.
Lemma all_ok : forall (step : rule -> nat -> list (nat * (option string -> nat)) -> (option string -> nat) -> option (list (nat * (option string -> nat)) * (option string -> nat))) rule_at,
  (forall p c f, step (rule_at p) p c f = Some (bigram_features takes tag (texts p) p c f)) ->
  forall ptrs c f, cached c -> exists f', apply_all step rule_at ptrs c f = Some f' /\ forall k, f' k = f k + cntk k (List.concat (map (fun p => neighbours (texts p)) ptrs)).
Proof.
  intros step rule_at ST. induction ptrs as [|p ptrs IH]; intros c f H; [exists f; split; [reflexivity|]; intros k; cbn; lia|]. cbn [apply_all]. rewrite ST. destruct (step_ok p c f H) as (c' & f' & Q1 & Q2 & Q3). rewrite Q1. cbn [bind].
  destruct (IH c' f' Q2) as (f2 & Q4 & Q5). exists f2. split; [exact Q4|]. intros k. rewrite Q5, Q3. cbn [map List.concat]. rewrite cntk_app. lia.
Qed.
Theorem bigrams_ok : forall (step : rule -> nat -> list (nat * (option string -> nat)) -> (option string -> nat) -> option (list (nat * (option string -> nat)) * (option string -> nat))) rule_at,
  (forall p c f, step (rule_at p) p c f = Some (bigram_features takes tag (texts p) p c f)) ->
  forall ptrs, exists f', apply_all step rule_at ptrs [] (fun _ => 0) = Some f' /\ counts_pairs tag (List.concat (map (fun p => neighbours (texts p)) ptrs)) f'.
Proof.
  intros step rule_at ST ptrs. destruct (all_ok step rule_at ST ptrs [] (fun _ => 0) ltac:(intros p f H; discriminate)) as (f' & Q1 & Q2). exists f'. split; [exact Q1|]. apply cntk_pairs; [|exact Q2].
  intros q I. apply in_concat in I as (l & IL & IQ). apply in_map_iff in IL as (p & <- & _). exact (neighbours_calm (texts p) q (texts_plain p) IQ).
Qed.
End Tag.

Theorem source_bigrams : forall takes rule_at ptrs, (forall s, takes s = true) -> (forall p, Forall plain (source_texts (rule_at p))) ->
  exists f, apply_all (fun r p c f => Some (SourceBigrams takes r p c f)) rule_at ptrs [] (fun _ => 0) = Some f /\ counts_pairs "RBS:" (List.concat (map (fun p => neighbours (source_texts (rule_at p))) ptrs)) f.
Proof.
  intros takes rule_at ptrs A P. apply (bigrams_ok takes A "RBS:" eq_refl (fun p => source_texts (rule_at p)) P). reflexivity.
Qed.
Theorem target_bigrams : forall takes rule_at texts ptrs, (forall s, takes s = true) -> (forall p, target_texts (nt_types (rule_at p)) (e_ (rule_at p)) = Some (texts p) /\ Forall plain (texts p)) ->
  exists f, apply_all (TargetBigrams takes) rule_at ptrs [] (fun _ => 0) = Some f /\ counts_pairs "RBT:" (List.concat (map (fun p => neighbours (texts p)) ptrs)) f.
Proof.
  intros takes rule_at texts ptrs A P. apply (bigrams_ok takes A "RBT:" eq_refl texts (fun p => proj2 (P p))). intros p c f. unfold TargetBigrams, bigram_features. destruct (find_rule c p); [reflexivity|]. rewrite (proj1 (P p)). reflexivity.
Qed.
(** identity *)
Theorem identity_ok : forall takes rule_at ptrs, (forall s, takes s = true) ->
  exists f, apply_all (fun r p c f => Some (Identity takes r p c f)) rule_at ptrs [] (fun _ => 0) = Some f /\
    (forall n, f (Some n) = length (filter (fun p => String.eqb n (Escape (rule_name (rule_at p)))) ptrs)) /\ f None = 0.
Proof.
  intros takes rule_at ptrs A. assert (H : forall ptrs c g, (forall p k, find_rule c p = Some k -> k = Some (Escape (rule_name (rule_at p)))) ->
    exists f, apply_all (fun r p c f => Some (Identity takes r p c f)) rule_at ptrs c g = Some f /\ (forall n, f (Some n) = g (Some n) + length (filter (fun p => String.eqb n (Escape (rule_name (rule_at p)))) ptrs)) /\ f None = g None).
  { clear ptrs. induction ptrs as [|p ptrs IH]; intros c g C; [exists g; repeat split; intros; cbn; lia|]. cbn [apply_all bind].
    assert (ST : exists c', Identity takes (rule_at p) p c g = (c', add_value (Some (Escape (rule_name (rule_at p)))) g) /\ forall p k, find_rule c' p = Some k -> k = Some (Escape (rule_name (rule_at p)))).
    { unfold Identity. destruct (find_rule c p) as [k|] eqn:E; [exists c; rewrite (C p k E); auto|]. unfold Convert. rewrite A. eexists. split; [reflexivity|]. intros q k FR. cbn [find_rule] in FR. destruct (Nat.eqb_spec p q) as [<- |]; [congruence|exact (C q k FR)]. }
    destruct ST as (c' & -> & C'). destruct (IH c' (add_value (Some (Escape (rule_name (rule_at p)))) g) C') as (f & Q1 & Q2 & Q3). exists f. split; [exact Q1|]. split; [|rewrite Q3; reflexivity].
    intros n. rewrite Q2. unfold add_value. cbn [key_eqb filter]. destruct (String.eqb n (Escape (rule_name (rule_at p)))); cbn [length]; lia. }
  destruct (H ptrs [] (fun _ => 0) ltac:(discriminate)) as (f & Q1 & Q2 & Q3). exists f. auto.
Qed.

(** ** names of rules *)
Lemma target_texts_ok r : forall e ts, Forall2 (target_text r) e ts -> target_texts (nt_types r) e = Some ts.
Proof.
  induction 1 as [|x t e ts H F IH]; [reflexivity|]. destruct x as [k|w]; cbn [target_texts target_text] in *.
  - destruct H as (L & c & E & ->). rewrite (proj2 (Nat.ltb_lt k 1000) L). assert (NT : nth_error (nt_types r) k = Some c) by (unfold nt_types; rewrite <- flat_map_concat_map; exact E).
    rewrite NT. cbn [bind]. rewrite IH. reflexivity.
  - subst. rewrite IH. reflexivity.
Qed.
Lemma append_assoc (a b c : string) : (a ++ b) ++ c = a ++ b ++ c.
Proof. induction a as [|d a IH]; [reflexivity|]. cbn [append]. now rewrite IH. Qed.
Lemma has_app c a b : has c (a ++ b) <-> has c a \/ has c b.
Proof. induction a as [|d a IH]; cbn [append has]; [tauto|]. rewrite IH. tauto. Qed.
Lemma split_at c u u' v v' : ~ has c u -> ~ has c u' -> u ++ String c v = u' ++ String c v' -> u = u' /\ v = v'.
Proof.
  revert u'. induction u as [|d u IH]; intros [|d' u'] A B E; cbn [append has] in *.
  - injection E as E. subst. auto.
  - injection E as E1 E2. subst. exfalso. tauto.
  - injection E as E1 E2. subst. exfalso. tauto.
  - injection E as E1 E2. subst. destruct (IH u') as [-> ->]; try tauto.
Qed.
Lemma uint_chars d c : has c (NilEmpty.string_of_uint d) -> In c ["0"; "1"; "2"; "3"; "4"; "5"; "6"; "7"; "8"; "9"]%char.
Proof. induction d; cbn [NilEmpty.string_of_uint has]; intros H; [destruct H|..]; (destruct H as [<-|H]; [cbn; tauto|auto]). Qed.
Lemma show_clear n : clear (show n).
Proof. unfold clear, show. repeat split; intros H; apply uint_chars in H; cbn in H; intuition discriminate. Qed.
Lemma show_inj a b : show a = show b -> a = b.
Proof.
  unfold show. intros H. apply (f_equal NilEmpty.uint_of_string) in H. rewrite !DecimalString.NilEmpty.usu in H. injection H as H. now apply DecimalNat.Unsigned.to_uint_inj in H.
Qed.
Lemma join_inj : forall a b, Forall (fun s => ~ has "_" s /\ s <> "") a -> Forall (fun s => ~ has "_" s /\ s <> "") b -> String.concat "_" a = String.concat "_" b -> a = b.
Proof.
  assert (C2 : forall x y l, String.concat "_" (x :: y :: l) = x ++ String "_" (String.concat "_" (y :: l))) by reflexivity.
  assert (NE : forall x l, x <> "" -> String.concat "_" (x :: l) <> "").
  { intros x [|y l] N; [exact N|]. rewrite C2. destruct x; discriminate. }
  induction a as [|x a IH]; intros [|y b] A B E; auto.
  - inversion_clear B as [|? ? [B1 B2] B3]. symmetry in E. now apply NE in E.
  - inversion_clear A as [|? ? [A1 A2] A3]. now apply NE in E.
  - inversion_clear A as [|? ? [A1 A2] A3]. inversion_clear B as [|? ? [B1 B2] B3]. destruct a as [|x2 a]; destruct b as [|y2 b].
    + cbn in E. now subst.
    + rewrite C2 in E. cbn [String.concat] in E. subst x. exfalso. apply A1. apply has_app. right. now left.
    + rewrite C2 in E. cbn [String.concat] in E. subst y. exfalso. apply B1. apply has_app. right. now left.
    + rewrite !C2 in E. apply split_at in E; auto. destruct E as [-> E]. f_equal. apply IH; auto.
Qed.
Lemma map_inj {A B} (g : A -> B) (P : A -> Prop) : (forall x y, P x -> P y -> g x = g y -> x = y) -> forall a b, Forall P a -> Forall P b -> map g a = map g b -> a = b.
Proof.
  intros H. induction a as [|x a IH]; intros [|y b] A0 B0 E; try discriminate; auto. inversion_clear A0. inversion_clear B0. injection E as E1 E2. f_equal; auto.
Qed.
Definition fok (s : fsym) := match s with Cat c => clear c | FWord w => clear_word w end.
Definition eok (s : esym) := match s with Var _ => True | EWord w => clear_word w end.
Lemma f_text_inj x y : fok x -> fok y -> f_text x = f_text y -> x = y.
Proof.
  destruct x as [c|w], y as [c'|w']; cbn [fok f_text]; intros A B E.
  - apply app_inj in E. now subst.
  - exfalso. destruct B as (_ & _ & B). now apply (B c).
  - exfalso. destruct A as (_ & _ & A). now apply (A c').
  - now subst.
Qed.
Lemma e_text_inj x y : eok x -> eok y -> e_text x = e_text y -> x = y.
Proof.
  destruct x as [k|w], y as [k'|w']; cbn [eok e_text]; intros A B E.
  - apply app_inj in E. apply show_inj in E. f_equal. lia.
  - exfalso. destruct B as (_ & _ & B). now apply (B (show (k + 1))).
  - exfalso. destruct A as (_ & _ & A). now apply (A (show (k' + 1))).
  - now subst.
Qed.
Lemma N_clear s : clear s -> clear ("N" ++ s).
Proof. unfold clear. intros (A & B & C & D). rewrite !has_app. cbn [has]. intuition discriminate. Qed.
Lemma f_text_ok x : fok x -> clear (f_text x) /\ f_text x <> "".
Proof. destruct x as [c|w]; cbn [fok f_text]; intros A; [split; [now apply N_clear|discriminate]|destruct A as (A & B & _); auto]. Qed.
Lemma e_text_ok x : eok x -> clear (e_text x) /\ e_text x <> "".
Proof. destruct x as [c|w]; cbn [eok e_text]; intros A; [split; [apply N_clear, show_clear|discriminate]|destruct A as (A & B & _); auto]. Qed.
Lemma join_no c l : c <> "_"%char -> Forall (fun s => ~ has c s) l -> ~ has c (String.concat "_" l).
Proof.
  intros N. induction 1 as [|x l H F IH]; [auto|]. destruct l as [|y l]; [exact H|]. change (String.concat "_" (x :: y :: l)) with (x ++ String "_" (String.concat "_" (y :: l))).
  rewrite has_app. cbn [has]. intros [E|[E|E]]; auto.
Qed.
Lemma texts_no {A} (g : A -> string) (P : A -> Prop) c l : c <> "_"%char -> (forall x, P x -> ~ has c (g x)) -> Forall P l -> ~ has c (String.concat "_" (map g l)).
Proof. intros N H F. apply join_no; [exact N|]. apply Forall_map. eapply Forall_impl; [|exact F]. exact H. Qed.
Lemma rule_name_inj a b : clear_rule a -> clear_rule b -> rule_name a = rule_name b -> a = b.
Proof.
  intros (A1 & A2 & A3) (B1 & B2 & B3) E. unfold rule_name in E. apply app_inj in E.
  assert (NF : forall r, Forall fok (f_ r) -> ~ has ":" (String.concat "_" (map f_text (f_ r)))) by (intros r F; eapply texts_no; [discriminate| |exact F]; intros x X; apply f_text_ok in X; apply X).
  assert (NE : forall r, Forall eok (e_ r) -> ~ has ":" (String.concat "_" (map e_text (e_ r)))) by (intros r F; eapply texts_no; [discriminate| |exact F]; intros x X; apply e_text_ok in X; apply X).
  pose proof (NF a A2) as NFa. pose proof (NF b B2) as NFb. pose proof (NE a A3) as NEa. pose proof (NE b B3) as NEb.
  assert (X : lhs a = lhs b /\ String.concat "_" (map f_text (f_ a)) = String.concat "_" (map f_text (f_ b)) /\ String.concat "_" (map e_text (e_ a)) = String.concat "_" (map e_text (e_ b))).
  { set (fa := String.concat "_" (map f_text (f_ a))) in *. set (fb := String.concat "_" (map f_text (f_ b))) in *.
    set (ea := String.concat "_" (map e_text (e_ a))) in *. set (eb := String.concat "_" (map e_text (e_ b))) in *. clearbody fa fb ea eb.
    destruct (lhs a) as [la|], (lhs b) as [lb|].
    - rewrite !append_assoc in E. cbn [append] in E. apply split_at in E; [|apply A1|apply B1]. destruct E as [-> E]. apply split_at in E; auto. all: destruct E; subst; auto.
    - exfalso. rewrite append_assoc in E. cbn [append] in E. apply split_at in E; [|apply A1|exact NFb]. destruct E as [_ E]. apply NEb. rewrite <- E. apply has_app. right. now left.
    - exfalso. rewrite append_assoc in E. cbn [append] in E. apply split_at in E; [|exact NFa|apply B1]. destruct E as [_ E]. apply NEa. rewrite E. apply has_app. right. now left.
    - cbn [append] in E. apply split_at in E; auto. }
  destruct X as (X1 & X2 & X3).
  apply join_inj in X2; [|apply Forall_map; eapply Forall_impl; [|exact A2]; intros x X; apply f_text_ok in X; destruct X as [X ?]; split; [apply X|assumption]
    |apply Forall_map; eapply Forall_impl; [|exact B2]; intros x X; apply f_text_ok in X; destruct X as [X ?]; split; [apply X|assumption]].
  apply join_inj in X3; [|apply Forall_map; eapply Forall_impl; [|exact A3]; intros x X; apply e_text_ok in X; destruct X as [X ?]; split; [apply X|assumption]
    |apply Forall_map; eapply Forall_impl; [|exact B3]; intros x X; apply e_text_ok in X; destruct X as [X ?]; split; [apply X|assumption]].
  apply (map_inj f_text fok f_text_inj) in X2; auto. apply (map_inj e_text eok e_text_inj) in X3; auto.
  destruct a, b; cbn in *; now subst.
Qed.
Lemma rule_name_calm r : clear_rule r -> ~ has "=" (rule_name r) /\ ~ has ";" (rule_name r).
Proof.
  intros (A1 & A2 & A3).
  assert (G : forall c, c <> "_"%char -> c <> "R"%char -> c <> ":"%char -> (forall s, clear s -> ~ has c s) -> ~ has c (rule_name r)).
  { intros c N1 N2 N3 H. unfold rule_name. rewrite !has_app. cbn [has]. intros [E|[E|[E|[E|E]]]].
    - intuition congruence.
    - destruct (lhs r); [|exact E]. apply has_app in E. cbn [has] in E. destruct E as [E|E]; [|intuition congruence]. now apply (H _ A1).
    - revert E. eapply texts_no; [exact N1| |exact A2]. intros x X. apply H. apply f_text_ok, X.
    - intuition congruence.
    - revert E. eapply texts_no; [exact N1| |exact A3]. intros x X. apply H. apply e_text_ok, X. }
  split; apply G; try discriminate; intros s (_ & _ & C & D); assumption.
Qed.
Lemma escape_safe s : ~ has "=" (Escape s) /\ ~ has ";" (Escape s).
Proof.
  induction s as [|c s [IH1 IH2]]; cbn [Escape has]; [auto|]. unfold escape1. destruct (Ascii.eqb_spec c "=") as [->|N1]; [intuition discriminate|]. destruct (Ascii.eqb_spec c ";") as [->|N2]; intuition discriminate.
Qed.
Theorem identity_exact : exists name, (forall a b, clear_rule a -> clear_rule b -> name a = name b -> a = b) /\ (forall r, ~ has "=" (name r) /\ ~ has ";" (name r)) /\
  forall takes rule_at ptrs, (forall s, takes s = true) -> exists f, apply_all (fun r p c f => Some (Identity takes r p c f)) rule_at ptrs [] (fun _ => 0) = Some f /\
    (forall k, f k <> 0 -> exists p, In p ptrs /\ k = Some (name (rule_at p))) /\
    ((forall p, clear_rule (rule_at p)) -> forall r, clear_rule r -> f (Some (name r)) = length (filter (fun p => if rule_dec (rule_at p) r then true else false) ptrs)).
Proof.
  exists (fun r => Escape (rule_name r)).
  assert (INJ : forall a b, clear_rule a -> clear_rule b -> Escape (rule_name a) = Escape (rule_name b) -> a = b).
  { intros a b A B E. destruct (rule_name_calm a A). destruct (rule_name_calm b B). rewrite !escape_same in E by assumption. now apply rule_name_inj. }
  split; [exact INJ|]. split; [intros; apply escape_safe|]. intros takes rule_at ptrs TK. destruct (identity_ok takes rule_at ptrs TK) as (f & E & H & N). exists f. split; [exact E|]. split.
  - intros [n|] K; [|congruence]. rewrite H in K. destruct (filter _ ptrs) as [|p l] eqn:F; [now cbn in K|]. assert (I : In p (p :: l)) by now left. rewrite <- F in I. apply filter_In in I.
    destruct I as [I I2]. apply String.eqb_eq in I2. exists p. split; [exact I|]. now subst.
  - intros CR r C. rewrite H. f_equal. apply filter_ext. intros p. destruct (rule_dec (rule_at p) r) as [<-|NE]; [apply String.eqb_refl|]. apply String.eqb_neq. intros X. apply NE. symmetry in X. now apply INJ.
Qed.
Theorem target_bigrams' : forall takes rule_at texts ptrs, (forall s, takes s = true) ->
  (forall p, Forall2 (target_text (rule_at p)) (e_ (rule_at p)) (texts p) /\ Forall plain (texts p)) ->
  exists f, apply_all (TargetBigrams takes) rule_at ptrs [] (fun _ => 0) = Some f /\
    counts_pairs "RBT:" (List.concat (map (fun p => neighbours (texts p)) ptrs)) f.
Proof.
  intros takes rule_at texts ptrs TK H. apply target_bigrams; [exact TK|]. intros p. destruct (H p) as [A B]. split; [|exact B]. now apply target_texts_ok.
Qed.
