(** Proofs about Strlib.v. *)
From Coq Require Import String Ascii List Arith Bool Lia.
From Verif Require Import Opt RuleFfSpec RuleFfProofs Strlib StrlibSpec.
Import ListNotations.
Open Scope string_scope.
Open Scope nat_scope.
Open Scope opt_scope.

Lemma app_nil_r_s (s : string) : s ++ "" = s.
Proof. induction s; [reflexivity|]. cbn. now rewrite IHs. Qed.
(** * Words *)
Section Sep.
Variable sep : ascii -> Prop.
Variable sepb : ascii -> bool.
Hypothesis sep_ok : forall c, sepb c = true <-> sep c.
Fixpoint split (cur s : string) : list string :=
  match s with EmptyString => word_if cur | String c r => if sepb c then (word_if cur ++ split "" r)%list else split (cur ++ String c "") r end.
Lemma split_blanks b r : only sep b -> split "" (b ++ r) = split "" r.
Proof.
  induction b as [|c b IH]; intros H; [reflexivity|]. cbn [append split]. replace (sepb c) with true by (symmetry; apply sep_ok, H; now left). apply IH. intros d D. apply H. now right.
Qed.
Lemma split_word w r : free sep w -> forall cur, split cur (w ++ r) = split (cur ++ w) r.
Proof.
  induction w as [|c w IH]; intros H cur; [cbn [append]; now rewrite app_nil_r_s|]. cbn [append split]. destruct (sepb c) eqn:E; [exfalso; apply sep_ok in E; exact (H c (or_introl eq_refl) E)|].
  rewrite IH by (intros d D; apply H; now right). rewrite append_assoc. reflexivity.
Qed.
Lemma split_ends cur r : cur <> "" -> ends sep r -> split cur r = cur :: split "" r.
Proof.
  intros N [-> |(c & t & -> & S)]; [destruct cur; [contradiction|reflexivity]|]. cbn [split]. apply sep_ok in S. rewrite S. destruct cur; [contradiction|reflexivity].
Qed.
Lemma split_fields s ts : fields sep s ts -> split "" s = ts.
Proof.
  induction 1 as [b B|b w r ts B N F E _ IH]; [rewrite <- (app_nil_r_s b); now rewrite split_blanks|]. rewrite split_blanks by exact B. rewrite split_word by exact F. cbn [append]. rewrite split_ends by assumption. now rewrite IH.
Qed.
Lemma fields_ex s : exists ts, fields sep s ts.
Proof.
  induction s as [|c s (ts & IH)]; [exists []; constructor; intros c []|]. destruct (sepb c) eqn:E.
  - apply sep_ok in E. exists ts. inversion IH as [b B|b w r ts' B N F En Fr]; subst.
    + constructor. intros d [<- |D]; [exact E|]. now apply B.
    + change (String c (b ++ w ++ r)) with (String c b ++ w ++ r). constructor; auto. intros d [<- |D]; [exact E|]. now apply B.
  - assert (Nc : ~ sep c) by (intros S; apply sep_ok in S; congruence). destruct s as [|d s].
    + exists [String c ""]. change (String c "") with ("" ++ String c "" ++ "") at 1. constructor; [intros x []|discriminate|intros x [<- |[]]; exact Nc|now left|constructor; intros x []].
    + destruct (sepb d) eqn:D.
      * exists (String c "" :: ts). change (String c (String d s)) with ("" ++ String c "" ++ String d s). constructor; [intros x []|discriminate|intros x [<- |[]]; exact Nc|right; exists d, s; split; [reflexivity|now apply sep_ok]|exact IH].
      * assert (Nd : ~ sep d) by (intros S; apply sep_ok in S; congruence). inversion IH as [b B Eb|b w r ts' B N F En Fr Eb]; subst.
        -- exfalso. apply Nd, B. now left.
        -- destruct b as [|x b]; [|exfalso; cbn in Eb; injection Eb as -> _; apply Nd, B; now left]. cbn [append]. exists (String c w :: ts'). change (String c (w ++ r)) with ("" ++ String c w ++ r).
           constructor; [intros x []|discriminate|intros x [<- |X]; [exact Nc|now apply F]|exact En|exact Fr].
Qed.
Lemma fields_iff s ts : fields sep s ts <-> split "" s = ts.
Proof. split; [apply split_fields|]. intros <-. destruct (fields_ex s) as (ts & F). now rewrite (split_fields s ts F). Qed.
End Sep.
Lemma blank_ok c : IsWordSep c = true <-> blank c.
Proof. unfold IsWordSep, blank. rewrite orb_true_iff, !Ascii.eqb_eq. reflexivity. Qed.
Lemma whitespace_ok s ts : fields blank s ts <-> SplitOnWhitespace s = ts.
Proof.
  rewrite (fields_iff blank IsWordSep blank_ok). unfold SplitOnWhitespace. replace (split_from "" s) with (split IsWordSep "" s); [reflexivity|].
  generalize "". induction s as [|c s IH]; intros cur; [reflexivity|]. cbn. rewrite !IH. reflexivity.
Qed.
Lemma c_str_ok s : ~ has "000" s -> c_str s = s.
Proof. induction s as [|c s IH]; intros H; [reflexivity|]. cbn. destruct (Ascii.eqb_spec c "000"); [exfalso; apply H; now left|]. rewrite IH by (intros D; apply H; now right). reflexivity. Qed.
Lemma word_if_c cur : ~ has "000" cur -> map c_str (word_if cur) = word_if cur.
Proof. intros H. destruct cur; [reflexivity|]. unfold word_if, map. now rewrite c_str_ok. Qed.
Lemma tokenize_ok d s ts : ~ has "000" s -> fields (fun c => c = d) s ts <-> Tokenize s d = ts.
Proof.
  intros H. rewrite (fields_iff (fun c => c = d) (fun c => Ascii.eqb c d) (fun c => Ascii.eqb_eq c d)). unfold Tokenize. replace (tokens_from d "" s) with (split (fun c => Ascii.eqb c d) "" s); [reflexivity|].
  enough (G : forall cur, ~ has "000" cur -> split (fun c => Ascii.eqb c d) cur s = tokens_from d cur s) by (apply G; intros []). induction s as [|c s IH]; intros cur C; cbn [split tokens_from]; [now rewrite word_if_c|]. assert (Hs : ~ has "000" s) by (intros D; apply H; now right). specialize (IH Hs). destruct (Ascii.eqb c d).
  - rewrite word_if_c by exact C. rewrite IH; [reflexivity|intros []].
  - apply IH. rewrite has_app. intros [D|[D|[]]]; [auto|]. apply H. now left.
Qed.
(** * Commands *)
Lemma param_ok x : forall i, 1 < i -> x <> [] -> param_of i x = " " ++ join x.
Proof.
  induction x as [|w x IH]; intros i I N; [contradiction|]. cbn [param_of]. replace (1 <? i) with true by (symmetry; now apply Nat.ltb_lt). destruct x as [|v x]; [cbn; now rewrite app_nil_r_s|].
  rewrite IH by (lia || discriminate). reflexivity.
Qed.
Lemma command_ok s c x : fields blank s (c :: x) -> SplitCommandAndParam s = (c, join x).
Proof.
  intros F. apply whitespace_ok in F. unfold SplitCommandAndParam. rewrite F. f_equal. destruct x as [|w x]; [reflexivity|]. cbn [param_of]. change (1 <? 1) with false. cbn [append]. destruct x as [|v x]; [cbn; now rewrite app_nil_r_s|].
  rewrite param_ok by (lia || discriminate). reflexivity.
Qed.
Lemma command_none s : fields blank s [] -> SplitCommandAndParam s = ("", "").
Proof. intros F. apply whitespace_ok in F. unfold SplitCommandAndParam. now rewrite F. Qed.
(** * Trim *)
Lemma erase_end_blank b : only blank b -> erase_end b = "".
Proof. induction b as [|c b IH]; intros H; [reflexivity|]. cbn. rewrite IH by (intros d D; apply H; now right). replace (IsWordSep c) with true by (symmetry; apply blank_ok, H; now left). reflexivity. Qed.
Lemma erase_end_app a t : erase_end t <> "" -> erase_end (a ++ t) = a ++ erase_end t.
Proof. intros N. induction a as [|c a IH]; [reflexivity|]. cbn. rewrite IH. destruct (a ++ erase_end t) eqn:E; [|reflexivity]. exfalso. destruct a; [cbn in E; congruence|discriminate E]. Qed.
Lemma erase_begin_app a t : only blank a -> (forall c r, t = String c r -> ~ blank c) -> erase_begin (a ++ t) = t.
Proof.
  intros A H. induction a as [|c a IH].
  - cbn [append]. destruct t as [|c t]; [reflexivity|]. cbn. destruct (IsWordSep c) eqn:E; [|reflexivity]. exfalso. apply blank_ok in E. exact (H c t eq_refl E).
  - cbn. replace (IsWordSep c) with true by (symmetry; apply blank_ok, A; now left). apply IH. intros d D. apply A. now right.
Qed.
Lemma last_ex t : t <> "" -> exists r c, t = r ++ String c "".
Proof. induction t as [|c t IH]; intros N; [contradiction|]. destruct t as [|d t]; [exists "", c; reflexivity|]. destruct IH as (r & e & ->); [discriminate|]. exists (String c r), e. reflexivity. Qed.
Lemma trim_ok a t b : only blank a -> only blank b -> trimmed t -> Trim (a ++ t ++ b) = t.
Proof.
  intros A B [T1 T2]. unfold Trim. destruct t as [|x t].
  - cbn [append]. rewrite erase_end_blank; [reflexivity|]. intros c H. apply has_app in H. destruct H; auto.
  - destruct (last_ex (String x t) ltac:(discriminate)) as (r & c & E). rewrite E in *. assert (Ec : erase_end (String c "" ++ b) = String c "").
    + cbn. rewrite erase_end_blank by exact B. destruct (IsWordSep c) eqn:W; [|reflexivity]. exfalso. apply blank_ok in W. exact (T2 r c eq_refl W).
    + replace (a ++ (r ++ String c "") ++ b) with ((a ++ r) ++ (String c "" ++ b)) by (rewrite !append_assoc; reflexivity). rewrite erase_end_app by (rewrite Ec; discriminate). rewrite Ec, append_assoc. apply erase_begin_app; assumption.
Qed.
Lemma trim_ex s : exists a t b, s = a ++ t ++ b /\ only blank a /\ only blank b /\ trimmed t.
Proof.
  assert (L : exists a t, s = a ++ t /\ only blank a /\ (forall c r, t = String c r -> ~ blank c)).
  - induction s as [|c s (a & t & -> & A & T)]; [exists "", ""; split; [reflexivity|]; split; [intros c []|discriminate]|]. destruct (IsWordSep c) eqn:E.
    + exists (String c a), t. split; [reflexivity|]. split; [|exact T]. intros d [<- |D]; [now apply blank_ok|]. now apply A.
    + exists "", (String c (a ++ t)). split; [reflexivity|]. split; [intros d []|]. intros d r H. injection H as <- _. intros B. apply blank_ok in B. congruence.
  - destruct L as (a & t & -> & A & T). assert (R : exists u b, t = u ++ b /\ only blank b /\ (forall r c, u = r ++ String c "" -> ~ blank c)).
    + clear. induction t as [|c t (u & b & -> & B & U)]; [exists "", ""; split; [reflexivity|]; split; [intros c []|intros [|? ?] c H; discriminate H]|]. destruct u as [|d u].
      * destruct (IsWordSep c) eqn:E.
        -- exists "", (String c b). split; [reflexivity|]. split; [intros d [<- |D]; [now apply blank_ok|now apply B]|intros [|? ?] d H; discriminate H].
        -- exists (String c ""), b. split; [reflexivity|]. split; [exact B|]. intros [|x r] d H; [injection H as <-; intros W; apply blank_ok in W; congruence|]. cbn in H. injection H as _ H. destruct r; discriminate H.
      * exists (String c (String d u)), b. split; [reflexivity|]. split; [exact B|]. intros [|x r] e H; [discriminate H|]. cbn in H. injection H as _ H. exact (U r e H).
    + destruct R as (u & b & -> & B & U). exists a, u, b. split; [reflexivity|]. split; [exact A|]. split; [exact B|]. split; [|exact U]. intros c r ->. exact (T c (r ++ b) eq_refl).
Qed.
(** * Input lines *)
Lemma index_app s1 a : forall b, index (String.length a) s1 (a ++ b) = option_map (fun n => String.length a + n) (index 0 s1 b).
Proof.
  induction a as [|c a IH]; intros b; [cbn [String.length append]; destruct (index 0 s1 b); reflexivity|]. cbn [String.length append index]. rewrite IH. destruct (index 0 s1 b); reflexivity.
Qed.
Lemma index_no c s1 a b : ~ has c a -> (index 0 (String c s1) b <> None) -> index 0 (String c s1) (a ++ b) = option_map (fun n => String.length a + n) (index 0 (String c s1) b).
Proof.
  intros H N. induction a as [|d a IH]; [cbn [append String.length]; destruct (index 0 _ b); reflexivity|]. cbn [append index prefix]. destruct (ascii_dec c d) as [-> |D]; [exfalso; apply H; now left|].
  rewrite IH by (intros I; apply H; now right). destruct (index 0 _ b); [reflexivity|contradiction].
Qed.
Lemma index_none c s1 a : ~ has c a -> index 0 (String c s1) a = None.
Proof.
  intros H. induction a as [|d a IH]; [reflexivity|]. cbn [index prefix]. destruct (ascii_dec c d) as [-> |D]; [exfalso; apply H; now left|]. rewrite IH by (intros I; apply H; now right). reflexivity.
Qed.
Lemma length_app_s a b : String.length (a ++ b) = String.length a + String.length b.
Proof. induction a; [reflexivity|]. cbn. now rewrite IHa. Qed.
Lemma substring_0 a b : substring 0 (String.length a) (a ++ b) = a.
Proof. induction a as [|c a IH]; [destruct b; reflexivity|]. cbn. now rewrite IH. Qed.
Lemma substring_all b : substring 0 (String.length b) b = b.
Proof. rewrite <- (app_nil_r_s b) at 2. apply substring_0. Qed.
Lemma substring_skip a b : substring (String.length a) (String.length b) (a ++ b) = b.
Proof. induction a as [|c a IH]; [apply substring_all|]. exact IH. Qed.
Lemma substr_skip a b n : n = String.length a -> substr n (a ++ b) = Some b.
Proof.
  intros ->. unfold substr. rewrite length_app_s. replace (String.length a <=? String.length a + String.length b) with true by (symmetry; apply Nat.leb_le; lia).
  replace (String.length a + String.length b - String.length a) with (String.length b) by lia. now rewrite substring_skip.
Qed.
Lemma both_parts l h ref0 src ref : (if prefix "{""rules"":" l then (h <- index 0 "}}" l ;; Some (h + 2)) else Some 0) = Some h -> l = src ++ " ||| " ++ ref -> index h "|||" l = Some (String.length src + 1) ->
  ParseTranslatorInput l ref0 = Some (src, ref).
Proof.
  intros H E I. unfold ParseTranslatorInput. rewrite H. cbn [bind]. rewrite I. replace (String.length src + 1 =? 0) with false by (symmetry; apply Nat.eqb_neq; lia). replace (String.length src + 1 - 1) with (String.length src) by lia.
  rewrite E. rewrite substring_0. replace (src ++ " ||| " ++ ref) with ((src ++ " ||| ") ++ ref) by (rewrite append_assoc; reflexivity). rewrite substr_skip by (rewrite length_app_s; cbn; lia). reflexivity.
Qed.
Lemma index_div ref : index 0 "|||" (" ||| " ++ ref) = Some 1.
Proof. destruct ref; reflexivity. Qed.
Lemma divided_tail c s : ~ divided (String c s) -> ~ divided s.
Proof. intros H (a & b & ->). apply H. exists (String c a), b. reflexivity. Qed.
Lemma prefix_divided s : prefix "|||" s = true -> divided s.
Proof.
  intros X. destruct s as [|c [|d [|e s]]]; cbn [prefix] in X; [discriminate X| | |].
  - destruct (ascii_dec "|" c); discriminate X.
  - destruct (ascii_dec "|" c); [|discriminate X]. destruct (ascii_dec "|" d); discriminate X.
  - destruct (ascii_dec "|" c) as [<- |]; [|discriminate X]. destruct (ascii_dec "|" d) as [<- |]; [|discriminate X]. destruct (ascii_dec "|" e) as [<- |]; [|discriminate X]. exists "", s. reflexivity.
Qed.
Lemma prefix_src c s ref : ~ divided (String c s) -> prefix "|||" (String c s ++ " ||| " ++ ref) = false.
Proof.
  intros H. destruct s as [|d [|e s]]; cbn [append prefix].
  - destruct (ascii_dec "|" c); reflexivity.
  - destruct (ascii_dec "|" c); [|reflexivity]. destruct (ascii_dec "|" d); reflexivity.
  - destruct (ascii_dec "|" c) as [<- |]; [|reflexivity]. destruct (ascii_dec "|" d) as [<- |]; [|reflexivity]. destruct (ascii_dec "|" e) as [<- |]; [|reflexivity].
    exfalso. apply H. exists "", s. reflexivity.
Qed.
Lemma index_src src ref : ~ divided src -> index 0 "|||" (src ++ " ||| " ++ ref) = Some (String.length src + 1).
Proof.
  induction src as [|c s IH]; intros H; [apply index_div|]. pose proof (prefix_src c s ref H) as P. specialize (IH (divided_tail _ _ H)).
  change (String c s ++ " ||| " ++ ref) with (String c (s ++ " ||| " ++ ref)) in *. cbn [index]. rewrite P, IH. reflexivity.
Qed.
Lemma index_divided s : ~ divided s -> index 0 "|||" s = None.
Proof.
  induction s as [|c s IH]; intros H; [reflexivity|]. cbn [index]. rewrite IH by exact (divided_tail _ _ H). destruct (prefix "|||" (String c s)) eqn:E; [|reflexivity]. exfalso. now apply H, prefix_divided.
Qed.
Lemma input_ok src ref ref0 : ~ divided src -> ~ prefix "{""rules"":" (src ++ " ||| " ++ ref) = true -> ParseTranslatorInput (src ++ " ||| " ++ ref) ref0 = Some (src, ref).
Proof.
  intros N P. apply (both_parts _ 0); [|reflexivity|].
  - destruct (prefix _ _); [exfalso; now apply P|reflexivity].
  - now apply index_src.
Qed.
Lemma input_rules j r ref ref0 : ~ has "}" j -> ~ divided r -> ParseTranslatorInput (("{""rules"":" ++ j ++ "}}" ++ r) ++ " ||| " ++ ref) ref0 = Some ("{""rules"":" ++ j ++ "}}" ++ r, ref).
Proof.
  intros N R. set (a := "{""rules"":" ++ j). assert (E : ("{""rules"":" ++ j ++ "}}" ++ r) = a ++ "}}" ++ r) by (unfold a; now rewrite append_assoc). rewrite E.
  apply (both_parts _ (String.length (a ++ "}}"))); [|reflexivity|].
  - replace (prefix "{""rules"":" ((a ++ "}}" ++ r) ++ " ||| " ++ ref)) with true.
    + rewrite append_assoc. rewrite index_no; [| |rewrite append_assoc; destruct (r ++ " ||| " ++ ref); discriminate].
      * rewrite append_assoc. rewrite length_app_s. replace (index 0 "}}" ("}}" ++ r ++ " ||| " ++ ref)) with (Some 0) by (cbn; destruct (r ++ String " " (String "|" (String "|" (String "|" (String " " ref))))); reflexivity). cbn. f_equal. lia.
      * unfold a. rewrite has_app. intros [H|H]; [|auto]. cbn in H. intuition discriminate.
    + symmetry. unfold a. rewrite !append_assoc. generalize (j ++ "}}" ++ r ++ " ||| " ++ ref). intros z. cbn. destruct z; reflexivity.
  - replace ((a ++ "}}" ++ r) ++ " ||| " ++ ref) with ((a ++ "}}") ++ (r ++ " ||| " ++ ref)) by (rewrite !append_assoc; reflexivity). rewrite index_app. rewrite index_src by exact R. cbn [option_map].
    rewrite !length_app_s. f_equal. lia.
Qed.
Lemma input_only l ref0 : ~ divided l -> ~ prefix "{""rules"":" l = true -> ParseTranslatorInput l ref0 = Some (l, ref0).
Proof. intros N P. unfold ParseTranslatorInput. destruct (prefix _ l); [exfalso; now apply P|]. cbn [bind]. now rewrite index_divided. Qed.
