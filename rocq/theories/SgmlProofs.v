(** Proofs about Sgml.v. *)
From Coq Require Import String Ascii List Arith Bool Lia.
From Verif Require Import Opt RuleFfSpec RuleFfProofs Strlib StrlibSpec StrlibProofs Sgml SgmlSpec.
Import ListNotations.
Open Scope string_scope.
Open Scope nat_scope.
Open Scope opt_scope.

Lemma len_app (a b : string) : String.length (a ++ b) = String.length a + String.length b.
Proof. induction a; cbn; [reflexivity|]. now rewrite IHa. Qed.
Lemma sub_app (a b : string) n : substring (String.length a) n (a ++ b) = substring 0 n b.
Proof. induction a; cbn [String.length append substring]; [reflexivity|exact IHa]. Qed.
Lemma sub_pre (a b : string) : substring 0 (String.length a) (a ++ b) = a.
Proof. induction a as [|c a IH]; cbn; [destruct b; reflexivity|]. now rewrite IH. Qed.
Lemma from_app (a b : string) n : n = String.length a -> from n (a ++ b) = b.
Proof. intros ->. unfold from. rewrite sub_app, len_app. replace (String.length a + String.length b - String.length a) with (String.length b) by lia. rewrite <- (app_nil_r_s b) at 2. apply sub_pre. Qed.
Lemma get_pre (a b : string) i : i < String.length a -> String.get i (a ++ b) = String.get i a.
Proof. revert i. induction a as [|c a IH]; intros i H; cbn in H; [lia|]. destruct i; [reflexivity|]. cbn. apply IH. lia. Qed.
Lemma get_at (a b : string) c : String.get (String.length a) (a ++ String c b) = Some c.
Proof. induction a; [reflexivity|exact IHa]. Qed.
Lemma get_has a i c : String.get i a = Some c -> has c a.
Proof. revert i. induction a as [|d a IH]; intros i; [discriminate|]. destruct i; cbn; [intros [= ->]; now left|]. intros H. right. eauto. Qed.
Lemma is_not a i c : ~ has c a -> is (String.get i a) c = false.
Proof. intros H. unfold is. destruct (String.get i a) as [d|] eqn:E; [|reflexivity]. apply get_has in E. destruct (Ascii.eqb_spec d c); [|reflexivity]. subst. contradiction. Qed.
Lemma index_at c p a b : ~ has c a -> index 0 (String c p) (a ++ String c p ++ b) = Some (String.length a).
Proof.
  intros H. induction a as [|d a IH].
  - cbn [append index String.length]. assert (P : prefix (String c p) (String c (p ++ b)) = true) by (apply prefix_correct; change (String c (p ++ b)) with (String c p ++ b); apply sub_pre). rewrite P. reflexivity.
  - cbn [append index String.length]. assert (P : prefix (String c p) (String d (a ++ String c (p ++ b))) = false) by (cbn; destruct (ascii_dec c d) as [->|]; [exfalso; apply H; now left|reflexivity]). 
    change (a ++ String c p ++ b) with (a ++ String c (p ++ b)) in IH. rewrite P, IH by (intros D; apply H; now right). reflexivity.
Qed.
(** * Blanks around = *)
Definition starts (c : ascii) (s : string) : Prop := match s with String d _ => d = c | _ => False end.
Fixpoint okc (prev : ascii) (s : string) : Prop :=
  match s with EmptyString => True | String c r => (c = "="%char -> prev <> " "%char /\ ~ starts " " r) /\ okc c r end.
Lemma okc_get s : forall p j, okc p s -> is (String.get j s) "=" = true -> is (String.get (j + 1) s) " " = false /\ (0 < j -> is (String.get (j - 1) s) " " = false).
Proof.
  induction s as [|c s IH]; intros p j H G; [destruct j; discriminate G|]. destruct H as [Hc Hs]. destruct j as [|j].
  - cbn in G. apply Ascii.eqb_eq in G. destruct (Hc G) as [_ N]. split; [|lia]. cbn. destruct s as [|d s]; [reflexivity|]. cbn. destruct (Ascii.eqb_spec d " "); [contradiction|reflexivity].
  - cbn in G. destruct (IH c j Hs G) as [A B]. split; [exact A|]. intros _. replace (S j - 1) with j by lia. destruct j as [|j].
    + cbn. destruct s as [|d s]; [discriminate G|]. cbn in G. apply Ascii.eqb_eq in G. destruct Hs as [Hd _]. destruct (Hd G) as [N _]. destruct (Ascii.eqb_spec c " "); [contradiction|reflexivity].
    + cbn [String.get]. specialize (B ltac:(lia)). now replace (S j - 1) with j in B by lia.
Qed.
Lemma squeeze_ok p s : okc p s -> forall fuel i, 0 < i -> String.length s < fuel + i -> 0 < fuel -> squeeze fuel i s = Some s.
Proof.
  intros H. induction fuel as [|f IH]; intros i I F P; [lia|]. cbn [squeeze]. destruct (Nat.ltb_spec i (String.length s)); [|reflexivity].
  destruct (is (String.get i s) "=") eqn:E; [destruct (okc_get s p i H E) as [A B]; rewrite A, B by lia|]; cbn [andb]; apply IH; lia.
Qed.
Fixpoint last_of (p : ascii) (s : string) : ascii := match s with EmptyString => p | String c r => last_of c r end.
Lemma okc_app u v : forall p, ~ has "=" u -> okc (last_of p u) v -> okc p (u ++ v).
Proof. induction u as [|c u IH]; intros p H V; [exact V|]. cbn. split; [intros ->; exfalso; apply H; now left|]. apply IH; [intros D; apply H; now right|exact V]. Qed.
Lemma last_has u : forall p, u <> "" -> has (last_of p u) u.
Proof. induction u as [|c u IH]; intros p N; [contradiction|]. cbn. destruct u as [|d u]; [now left|]. right. apply IH. discriminate. Qed.
(** * The attributes *)
Definition tagtext (attr : list (string * string)) : string := fold_right (fun p r => " " ++ fst p ++ "=" ++ """" ++ snd p ++ """" ++ r) "" attr.
Lemma okc_tag attr : Forall attribute attr -> forall p, okc p (tagtext attr).
Proof.
  induction 1 as [|[n v] attr [[N Hn] Hv] _ IH]; intros p; [exact I|]. cbn [tagtext fold_right fst snd] in *. fold (tagtext attr) in *. cbn [append okc]. split; [discriminate|].
  apply okc_app; [intros D; pose proof (Hn _ D); intuition congruence|]. cbn [append okc]. split; [intros _; split; [apply Hn, last_has, N|discriminate]|]. split; [discriminate|]. apply okc_app; [intros D; pose proof (Hv _ D); intuition congruence|]. cbn [append okc]. split; [discriminate|]. apply IH.
Qed.
Lemma tag_trimmed n v attr : attribute (n, v) -> Forall attribute attr -> trimmed (n ++ "=" ++ """" ++ v ++ """" ++ tagtext attr).
Proof.
  intros [[N Hn] _] A. cbn [fst snd] in *. split.
  - intros c r E. destruct n as [|d n]; [contradiction|]. injection E as <- _. pose proof (Hn d (or_introl eq_refl)). intros [B|B]; intuition congruence.
  - assert (L : exists u, n ++ "=" ++ """" ++ v ++ """" ++ tagtext attr = u ++ """").
    + clear N Hn. revert n v. induction attr as [|[n' v'] attr IH]; intros n v; [exists (n ++ "=" ++ """" ++ v); cbn [tagtext fold_right]; rewrite !append_assoc; reflexivity|].
      inversion A; subst. destruct (IH H2 n' v') as (u & E). exists (n ++ "=" ++ """" ++ v ++ """" ++ " " ++ u). cbn [tagtext fold_right fst snd]. fold (tagtext attr). rewrite E. rewrite !append_assoc. cbn [append]. rewrite ?append_assoc. reflexivity.
    + destruct L as (u & ->). intros r c E B. assert (c = """"%char). { clear -E. revert r E. induction u as [|x u IH]; intros [|y r] E; cbn in E; [congruence|destruct r; discriminate|destruct u; discriminate|]. injection E as _ E. eauto. } subst. destruct B; discriminate.
Qed.
Lemma scan n s meta : ~ has "=" n -> forall k i f, i + k = String.length n -> attributes (k + f) i (n ++ s) meta = attributes f (String.length n) (n ++ s) meta.
Proof.
  intros H. induction k as [|k IH]; intros i f E; [cbn; f_equal; lia|]. cbn [Nat.add attributes]. replace (i <? String.length (n ++ s)) with true by (symmetry; apply Nat.ltb_lt; rewrite len_app; lia).
  rewrite get_pre by lia. rewrite is_not by exact H. apply IH. lia.
Qed.
Lemma trimmed_trim t : trimmed t -> Trim t = t.
Proof. intros T. rewrite <- (trim_ok "" t "") at 2; [cbn [append]; now rewrite app_nil_r_s|intros c []|intros c []|exact T]. Qed.
Lemma name_trim n : name n -> Trim n = n.
Proof. intros [N H]. apply trimmed_trim. split; [intros c r ->|intros r c ->]; intros B; [assert (D : has c (String c r)) by now left|assert (D : has c (r ++ String c "")) by (apply has_app; right; now left)]; pose proof (H c D); destruct B; intuition congruence. Qed.
Lemma tag_trim attr : Forall attribute attr -> Trim (tagtext attr) = match attr with [] => "" | p :: r => fst p ++ "=" ++ """" ++ snd p ++ """" ++ tagtext r end.
Proof.
  intros A. destruct attr as [|[n v] attr]; [reflexivity|]. inversion A; subst. cbn [tagtext fold_right fst snd]. fold (tagtext attr). rewrite <- (app_nil_r_s (n ++ "=" ++ """" ++ v ++ """" ++ tagtext attr)) at 1.
  apply trim_ok; [intros c [<- |[]]; now left|intros c []|]. now apply tag_trimmed.
Qed.
Lemma attributes_ok attr : Forall attribute attr -> forall fuel meta, String.length (tagtext attr) < fuel ->
  attributes fuel 1 (Trim (tagtext attr)) meta = Some (meta ++ attr)%list.
Proof.
  induction 1 as [|[n v] attr HA A IH]; intros fuel meta F; [destruct fuel; [cbn in F; lia|]; cbn; now rewrite app_nil_r|].
  rewrite tag_trim by now constructor. cbn [fst snd]. pose proof HA as [HN HV]. cbn [fst snd] in *. destruct HN as [N Hn].
  assert (F' : String.length n + String.length v + String.length (tagtext attr) + 4 < fuel) by (cbn [tagtext fold_right fst snd] in F; fold (tagtext attr) in F; rewrite !len_app in F; cbn [String.length] in F; lia).
  assert (Ln : 1 <= String.length n) by (destruct n; [contradiction|cbn; lia]).
  replace fuel with ((String.length n - 1) + S (fuel - String.length n)) by lia. rewrite scan by (lia || (intros D; pose proof (Hn _ D); intuition congruence)).
  cbn [attributes]. replace (String.length n <? String.length (n ++ "=" ++ """" ++ v ++ """" ++ tagtext attr)) with true by (symmetry; apply Nat.ltb_lt; rewrite !len_app; cbn; lia).
  change (n ++ "=" ++ """" ++ v ++ """" ++ tagtext attr) with (n ++ String "=" (String """" (v ++ """" ++ tagtext attr))). rewrite get_at. cbn [is]. rewrite Ascii.eqb_refl.
  assert (Ef : from (String.length n + 1) (n ++ String "=" (String """" (v ++ """" ++ tagtext attr))) = String """" (v ++ """" ++ tagtext attr)).
  { replace (n ++ String "=" (String """" (v ++ """" ++ tagtext attr))) with ((n ++ "=") ++ String """" (v ++ """" ++ tagtext attr)) by (rewrite append_assoc; reflexivity). apply from_app. rewrite len_app. reflexivity. }
  assert (E1 : from 1 (String """" (v ++ """" ++ tagtext attr)) = v ++ """" ++ tagtext attr) by (change (String """" (v ++ """" ++ tagtext attr)) with ("""" ++ (v ++ """" ++ tagtext attr)); now apply from_app).
  cbv zeta. rewrite sub_pre, Ef, E1. cbn [String.get is]. rewrite Ascii.eqb_refl.
  rewrite index_at by (intros D; pose proof (HV _ D); intuition congruence). rewrite sub_pre. replace (v ++ """" ++ tagtext attr) with ((v ++ """") ++ tagtext attr) by (rewrite append_assoc; reflexivity). rewrite from_app by (rewrite len_app; reflexivity).
  cbn [Nat.add]. rewrite IH by lia. rewrite name_trim by (split; assumption). now rewrite <- app_assoc.
Qed.
Lemma tag_free attr : Forall attribute attr -> ~ has ">" (tagtext attr).
Proof.
  induction 1 as [|[n v] attr [[_ Hn] Hv] _ IH]; [intros []|]. cbn [tagtext fold_right fst snd] in *. fold (tagtext attr) in *. rewrite !has_app. cbn [has].
  intros [[D|[]]|[D|[[D|[]]|[[D|[]]|[D|[[D|[]]|D]]]]]]; try discriminate D; [pose proof (Hn _ D); intuition congruence|pose proof (Hv _ D); intuition congruence|contradiction].
Qed.

Lemma tag_open attr : Forall attribute attr -> ~ has "<" (tagtext attr).
Proof.
  induction 1 as [|[n v] attr [[_ Hn] Hv] _ IH]; [intros []|]. cbn [tagtext fold_right fst snd] in *. fold (tagtext attr) in *. rewrite !has_app. cbn [has].
  intros [[D|[]]|[D|[[D|[]]|[[D|[]]|[D|[[D|[]]|D]]]]]]; try discriminate D; [pose proof (Hn _ D); intuition congruence|pose proof (Hv _ D); intuition congruence|contradiction].
Qed.

Lemma segment_ok fuel attr text : Forall attribute attr -> ~ has "<" text -> String.length (tagtext attr) < fuel ->
  forall rest, ProcessAndStripSGML fuel (SGMLOpenSegTag attr ++ text ++ "</seg>" ++ rest) = Some (Some (Trim text, attr)).
Proof.
  intros A T F rest. unfold ProcessAndStripSGML, SGMLOpenSegTag. fold (tagtext attr).
  replace (("<seg" ++ tagtext attr ++ ">") ++ text ++ "</seg>" ++ rest) with (("<seg" ++ tagtext attr) ++ ">" ++ (text ++ "</seg>" ++ rest)) by (rewrite !append_assoc; reflexivity).
  set (L := ("<seg" ++ tagtext attr) ++ ">" ++ (text ++ "</seg>" ++ rest)).
  change (prefix "<SEG" L) with false. change (prefix "<Seg" L) with false. change (prefix "<seg" L) with (prefix "" (tagtext attr ++ ">" ++ (text ++ "</seg>" ++ rest))).
  replace (prefix "" (tagtext attr ++ ">" ++ (text ++ "</seg>" ++ rest))) with true by (destruct (tagtext attr); reflexivity). cbn [orb negb].
  assert (H : index 0 ">" L = Some (String.length ("<seg" ++ tagtext attr))) by (apply (index_at ">" ""); rewrite has_app; intros [D|D]; [cbn in D; intuition discriminate|now apply (tag_free attr A)]).
  rewrite H. set (k := String.length ("<seg" ++ tagtext attr)).
  assert (Hk : k = 4 + String.length (tagtext attr)) by reflexivity.
  assert (S4 : substring 4 (k - 4) L = tagtext attr) by (unfold L; rewrite append_assoc; change 4 with (String.length "<seg") at 1; rewrite sub_app, Hk; replace (4 + String.length (tagtext attr) - 4) with (String.length (tagtext attr)) by lia; apply sub_pre).
  rewrite S4.
  assert (Q : squeeze fuel 1 (Trim (tagtext attr)) = Some (Trim (tagtext attr))).
  { pose proof (okc_tag attr A "x") as O. destruct attr as [|[n v] r]; [destruct fuel; [cbn in F; lia|reflexivity]|].
    rewrite (tag_trim _ A). cbn [fst snd]. set (w := n ++ "=" ++ """" ++ v ++ """" ++ tagtext r). change (S (String.length w) < fuel) in F. change (okc "x" (String " " w)) in O. destruct O as [_ O]. apply (squeeze_ok " "); [exact O|lia|lia|lia]. }
  rewrite Q. cbn [bind].
  assert (X : (if String.eqb (Trim (tagtext attr)) "" then Some [] else attributes fuel 1 (Trim (tagtext attr)) []) = Some attr).
  { destruct (String.eqb_spec (Trim (tagtext attr)) "") as [E|E]; [|now rewrite attributes_ok].
    rewrite (tag_trim _ A) in E. destruct attr as [|[n v] r]; [reflexivity|]. cbn [fst] in E. destruct n; discriminate E. }
  rewrite X. cbn [bind]. do 3 f_equal.
  assert (Y : index 0 "</seg>" L = Some (k + 1 + String.length text)).
  { replace L with (String "<" (("seg" ++ tagtext attr ++ ">" ++ text) ++ "</seg>" ++ rest)) by (unfold L; rewrite !append_assoc; reflexivity).
    assert (Z : index 0 "</seg>" (("seg" ++ tagtext attr ++ ">" ++ text) ++ "</seg>" ++ rest) = Some (String.length ("seg" ++ tagtext attr ++ ">" ++ text))).
    { apply (index_at "<" "/seg>"). rewrite !has_app. intros [D|[D|[D|D]]]; [cbn in D; intuition discriminate|now apply (tag_open attr A)|cbn in D; intuition discriminate|contradiction]. }
    cbn [index]. rewrite Z. change (prefix "</seg>" (String "<" (("seg" ++ tagtext attr ++ ">" ++ text) ++ "</seg>" ++ rest))) with false. cbv iota. f_equal. rewrite Hk. rewrite !len_app. cbn [String.length]. lia. }
  rewrite Y. replace (k <? k + 1 + String.length text) with true by (symmetry; apply Nat.ltb_lt; lia). replace (k + 1 + String.length text - k - 1) with (String.length text) by lia.
  f_equal. unfold L. replace (("<seg" ++ tagtext attr) ++ ">" ++ (text ++ "</seg>" ++ rest)) with ((("<seg" ++ tagtext attr) ++ ">") ++ (text ++ "</seg>" ++ rest)) by (rewrite !append_assoc; reflexivity).
  replace (k + 1) with (String.length (("<seg" ++ tagtext attr) ++ ">")) by (rewrite len_app; reflexivity). rewrite sub_app. apply sub_pre.
Qed.
Lemma plain_ok fuel line : prefix "<seg" line = false -> prefix "<SEG" line = false -> prefix "<Seg" line = false -> ProcessAndStripSGML fuel line = Some (Some (line, [])).
Proof. intros A B C. unfold ProcessAndStripSGML. now rewrite A, B, C. Qed.
Lemma tag_len attr fuel : String.length (SGMLOpenSegTag attr) <= fuel -> String.length (tagtext attr) < fuel.
Proof. unfold SGMLOpenSegTag. fold (tagtext attr). rewrite !len_app. cbn [String.length]. lia. Qed.
