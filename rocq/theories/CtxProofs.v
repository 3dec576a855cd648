(** Proofs about Ctx.v. *)
From Coq Require Import String Ascii List Arith ZArith Bool Lia Decimal DecimalString DecimalFacts DecimalZ.
From Verif Require Import Opt RuleFf RuleFfSpec RuleFfProofs Ctx CtxSpec.
Import ListNotations.
Open Scope string_scope.
Open Scope opt_scope.

(** * Numbers *)
Lemma digits d : all_chars digit (NilEmpty.string_of_uint d) = true.
Proof. induction d; cbn; auto. Qed.
Lemma digits19 d : ~ has "0" (NilEmpty.string_of_uint d) -> all_chars digit19 (NilEmpty.string_of_uint d) = true.
Proof. induction d; cbn; intros H; try (apply IHd; tauto); try reflexivity. exfalso. auto. Qed.
Definition lead (d : uint) : Prop := match d with Nil | D0 _ => False | _ => True end.
Lemma nz_lead d : nzhead d <> Nil -> lead (nzhead d).
Proof. intros H. destruct (nzhead d) eqn:E; cbn; auto. exact (nzhead_nonzero _ _ E). Qed.
Lemma to_int_pos p : exists d, Z.to_int (Zpos p) = Pos d /\ lead d.
Proof.
  assert (E := DecimalZ.to_of (Z.to_int (Zpos p))). rewrite DecimalZ.of_to in E. unfold Z.to_int in *. unfold norm, unorm in E.
  exists (Pos.to_uint p). split; [reflexivity|]. destruct (nzhead (Pos.to_uint p)) eqn:N.
  - exfalso. injection E as E. assert (Q := DecimalZ.of_to (Zpos p)). unfold Z.to_int in Q. rewrite E in Q. discriminate Q.
  - exfalso. exact (nzhead_nonzero _ _ N).
  - injection E as ->. exact I.
  - injection E as ->. exact I.
  - injection E as ->. exact I.
  - injection E as ->. exact I.
  - injection E as ->. exact I.
  - injection E as ->. exact I.
  - injection E as ->. exact I.
  - injection E as ->. exact I.
  - injection E as ->. exact I.
Qed.
Lemma decimal_shape k : (k = 0%Z /\ decimal k = "0") \/
  exists d, lead d /\ ((k > 0)%Z /\ decimal k = NilEmpty.string_of_uint d \/ (k < 0)%Z /\ decimal k = String "-" (NilEmpty.string_of_uint d)).
Proof.
  destruct k as [|p|p]; [left; split; reflexivity| |]; right; destruct (to_int_pos p) as (d & E & L); exists d; (split; [exact L|]).
  - left. split; [lia|]. unfold decimal. rewrite E. reflexivity.
  - right. split; [lia|]. unfold decimal, Z.to_int in *. injection E as ->. reflexivity.
Qed.
Lemma decimal_number k : (k <= 0)%Z \/ ~ has "0" (decimal k) -> is_number (decimal k) = true.
Proof.
  intros H. destruct (decimal_shape k) as [[_ ->]|(d & L & [[G E]|[G E]])]; [reflexivity| |]; rewrite E in *.
  - destruct H as [H|H]; [lia|]. apply digits19 in H. destruct d; try destruct L; cbn in H |- *; rewrite ?H; reflexivity.
  - destruct d; try destruct L; cbn; apply digits.
Qed.
Lemma decimal_chars k c : has c (decimal k) -> In c ["-"; "0"; "1"; "2"; "3"; "4"; "5"; "6"; "7"; "8"; "9"]%char.
Proof.
  destruct (decimal_shape k) as [[_ ->]|(d & L & [[G E]|[G E]])].
  - cbn. intros [<- |[]]. cbn. tauto.
  - rewrite E. intros H. right. exact (uint_chars _ _ H).
  - rewrite E. cbn [has]. intros [<- |H]; [now left|]. right. exact (uint_chars _ _ H).
Qed.
Lemma decimal_no k c : c = "%"%char \/ c = "]"%char \/ c = "["%char -> ~ has c (decimal k).
Proof. intros C H. apply decimal_chars in H. cbn in H. destruct C as [-> |[-> | ->]]; intuition discriminate. Qed.
Lemma atoi_decimal k : atoi (decimal k) = k.
Proof. unfold atoi, decimal. rewrite NilEmpty.isi. apply DecimalZ.of_to. Qed.

(** * Reading *)
Lemma before_ok s r : ~ has "]" s -> before_bracket (s ++ String "]" r) = Some s.
Proof.
  induction s as [|c s IH]; cbn [append has before_bracket]; intros H; [reflexivity|].
  destruct (Ascii.eqb_spec c "]"); [exfalso; auto|]. rewrite IH by tauto. reflexivity.
Qed.
Lemma macro_no_percent c s : c <> "%"%char -> macro_at (String c s) = None.
Proof. intros H. cbn. destruct s as [|k [|b r]]; try reflexivity. destruct (Ascii.eqb_spec c "%"); [contradiction|]. reflexivity. Qed.
Lemma macros_skip s r : ~ has "%" s -> macros (s ++ r) = macros r.
Proof.
  induction s as [|c s IH]; [reflexivity|]. cbn [append has]. intros H. cbn [macros]. rewrite macro_no_percent by tauto. apply IH. tauto.
Qed.
Lemma macro_x k r : (k <= 0)%Z \/ ~ has "0" (decimal k) -> macros ("%x[" ++ decimal k ++ "]" ++ r) = (Token, k) :: macros r.
Proof.
  intros H. cbn [append].
  transitivity ((match macro_at (String "%" (String "x" (String "[" (decimal k ++ String "]" r)))) with Some m => [m] | None => [] end ++ macros (("x[" ++ decimal k ++ "]") ++ r))%list).
  - cbn [append macros]. rewrite append_assoc. reflexivity.
  - unfold macro_at. cbn [Ascii.eqb Bool.eqb andb]. rewrite before_ok by (apply decimal_no; auto). cbn [bind]. rewrite decimal_number by exact H. rewrite atoi_decimal. cbn [List.app]. f_equal.
    apply macros_skip. cbn [append has]. rewrite has_app. intros [E|[E|[E|[E|[]]]]]; try discriminate E. revert E. apply decimal_no. auto.
Qed.
Lemma macro_y k r : (k <= 0)%Z \/ ~ has "0" (decimal k) -> macros ("%y[" ++ decimal k ++ "]" ++ r) = (Label, k) :: macros r.
Proof.
  intros H. cbn [append].
  transitivity ((match macro_at (String "%" (String "y" (String "[" (decimal k ++ String "]" r)))) with Some m => [m] | None => [] end ++ macros (("y[" ++ decimal k ++ "]") ++ r))%list).
  - cbn [append macros]. rewrite append_assoc. reflexivity.
  - unfold macro_at. cbn [Ascii.eqb Bool.eqb andb]. rewrite before_ok by (apply decimal_no; auto). cbn [bind]. rewrite decimal_number by exact H. rewrite atoi_decimal. cbn [List.app]. f_equal.
    apply macros_skip. cbn [append has]. rewrite has_app. intros [E|[E|[E|[E|[]]]]]; try discriminate E. revert E. apply decimal_no. auto.
Qed.
Lemma macros_ok ps : Forall fine ps -> tokens (macros (template ps)) = words_of ps /\ labels (macros (template ps)) = labels_of ps.
Proof.
  induction 1 as [|p ps F _ [IH1 IH2]]; [split; reflexivity|]. destruct p as [c|k|k]; cbn [template].
  - cbn [macros]. rewrite macro_no_percent by exact F. split; assumption.
  - rewrite macro_x by exact F. split; [exact (f_equal (cons k) IH1)|exact IH2].
  - rewrite macro_y by exact F. split; [exact IH1|exact (f_equal (cons k) IH2)].
Qed.
Lemma parse_ok ps : Forall fine ps -> ParseTemplate (template ps) =
  if forallb (Z.eqb 0) (labels_of ps) then match labels_of ps, words_of ps with [], _ | _, [] => None | _, ts => Some ts end else None.
Proof. intros F. unfold ParseTemplate. destruct (macros_ok _ F) as [-> ->]. reflexivity. Qed.

(** * Replacing *)
Lemma replace_skip m t s r : ~ has "%" s -> replace_first (String "%" m) t (s ++ r) = (x <- replace_first (String "%" m) t r ;; Some (s ++ x)).
Proof.
  induction s as [|c s IH]; cbn [append has]; intros H; [destruct (replace_first _ t r); reflexivity|].
  cbn [replace_first prefix]. destruct (ascii_dec "%" c) as [<- |N]; [exfalso; auto|]. rewrite IH by tauto. destruct (replace_first _ t r); reflexivity.
Qed.
Lemma prefix_app m r : prefix m (m ++ r) = true.
Proof. induction m as [|c m IH]; [destruct r; reflexivity|]. cbn. destruct (ascii_dec c c); [exact IH|contradiction]. Qed.
Lemma drop_app m r : drop (String.length m) (m ++ r) = r.
Proof. induction m; [destruct r; reflexivity|]. exact IHm. Qed.
Lemma replace_here m t r : replace_first m t (m ++ r) = Some (t ++ r).
Proof.
  destruct m as [|c m]; [destruct r; reflexivity|]. assert (P := prefix_app (String c m) r). assert (D := drop_app (String c m) r).
  destruct (String c m ++ r) eqn:E; [discriminate E|]. cbn [replace_first]. rewrite P, D. reflexivity.
Qed.
(** the first words already put in *)
Fixpoint part (ws : list string) (ps : list piece) : string :=
  match ps with
  | [] => ""
  | Lit c :: r => String c (part ws r)
  | X k :: r => match ws with w :: ws' => w ++ part ws' r | [] => "%x[" ++ decimal k ++ "]" ++ part [] r end
  | Y k :: r => "%y[" ++ decimal k ++ "]" ++ part ws r
  end.
Lemma part_nil ps : part [] ps = template ps.
Proof. induction ps as [|[c|k|k] ps IH]; cbn [part template]; rewrite ?IH; reflexivity. Qed.
Lemma skip_y k t m r : replace_first (String "%" (String "x" m)) t ("%y[" ++ decimal k ++ "]" ++ r) =
  (x <- replace_first (String "%" (String "x" m)) t r ;; Some ("%y[" ++ decimal k ++ "]" ++ x)).
Proof.
  transitivity (x <- replace_first (String "%" (String "x" m)) t (("y[" ++ decimal k ++ "]") ++ r) ;; Some (String "%" x)).
  - cbn [append]. rewrite append_assoc. cbn [append replace_first prefix]. destruct (ascii_dec "%" "%") as [_|N]; [|contradiction].
    destruct (ascii_dec "x" "y") as [E|_]; [discriminate E|]. reflexivity.
  - rewrite replace_skip; [|cbn [append has]; rewrite has_app; intros [E|[E|[E|[E|[]]]]]; try discriminate E; revert E; apply decimal_no; auto].
    destruct (replace_first _ t r) as [x|]; [|reflexivity]. cbn [bind append]. rewrite append_assoc. reflexivity.
Qed.
Lemma replace_token ps : forall ws k w ks1 ks2, Forall fine ps -> Forall (fun w => ~ has "%" w) ws -> words_of ps = (ks1 ++ k :: ks2)%list -> length ws = length ks1 ->
  ReplaceMacroWithString (part ws ps) Token k w = Some (part (ws ++ [w])%list ps).
Proof.
  unfold ReplaceMacroWithString. change (show_int) with decimal.
  induction ps as [|p ps IH]; intros ws k w ks1 ks2 F W E L; [destruct ks1; discriminate E|]. inversion F as [|? ? Fp Fs]; subst. destruct p as [c|k'|k']; cbn [part].
  - change (String c (part ws ps)) with (String c "" ++ part ws ps). cbn [append]. change (String c (part ws ps)) with (String c "" ++ part ws ps).
    rewrite replace_skip by (cbn; intros [-> |[]]; now apply Fp). cbn [append] in IH. rewrite (IH ws k w ks1 ks2 Fs W E L). reflexivity.
  - cbn [words_of flat_map] in E. fold (words_of ps) in E. destruct ks1 as [|k1 ks1]; destruct ws as [|v ws]; try discriminate L.
    + cbn in E. injection E as -> E. cbn [List.app]. replace ("%x[" ++ decimal k ++ "]" ++ part [] ps) with (("%x[" ++ decimal k ++ "]") ++ part [] ps) by (rewrite !append_assoc; reflexivity).
      rewrite replace_here. reflexivity.
    + cbn in E. injection E as -> E. inversion W as [|? ? Wv Ws]; subst. cbn [List.app]. cbn [append]. rewrite replace_skip by exact Wv. cbn [append] in IH. rewrite (IH ws k w ks1 ks2 Fs Ws E) by (cbn in L; lia). reflexivity.
  - cbn [append]. assert (Q := skip_y k' w (String "[" (decimal k ++ "]")) (part ws ps)). cbn [append] in Q. rewrite Q. cbn [append] in IH. rewrite (IH ws k w ks1 ks2 Fs W E L). reflexivity.
Qed.
Lemma replace_all input i ps : Forall fine ps -> forall ks2 ks1 ws, words_of ps = (ks1 ++ ks2)%list -> length ws = length ks1 -> Forall (fun w => ~ has "%" w) ws -> (forall k, In k ks2 -> ~ has "%" (token_at input i k)) ->
  replace_tokens input i ks2 (part ws ps) = Some (part (ws ++ map (token_at input i) ks2)%list ps).
Proof.
  intros F. induction ks2 as [|k ks2 IH]; intros ks1 ws E L W T; cbn [replace_tokens map]; [now rewrite List.app_nil_r|].
  rewrite (replace_token ps ws k _ ks1 ks2 F W E L). cbn [bind]. rewrite (IH (ks1 ++ [k])%list (ws ++ [token_at input i k])%list).
  - now rewrite <- List.app_assoc.
  - now rewrite <- List.app_assoc.
  - rewrite !List.app_length. cbn. lia.
  - apply Forall_app. split; [exact W|]. constructor; [apply T; now left|constructor].
  - intros k' H. apply T. now right.
Qed.
(** all words put in *)
Fixpoint full (input : list string) (i : nat) (y : option string) (ps : list piece) : string :=
  match ps with
  | [] => ""
  | Lit c :: r => String c (full input i y r)
  | X k :: r => token_at input i k ++ full input i y r
  | Y k :: r => match y with Some y' => y' | None => "%y[" ++ decimal k ++ "]" end ++ full input i y r
  end.
Lemma part_full input i ps : part (map (token_at input i) (words_of ps)) ps = full input i None ps.
Proof.
  induction ps as [|[c|k|k] ps IH]; [reflexivity| | |].
  - exact (f_equal (String c) IH).
  - exact (f_equal (append (token_at input i k)) IH).
  - cbn [part full]. rewrite !append_assoc. rewrite <- IH. reflexivity.
Qed.
Lemma full_none input i y ps : labels_of ps = [] -> full input i None ps = full input i y ps.
Proof. induction ps as [|[c|k|k] ps IH]; cbn [full]; intros E; [reflexivity| | |discriminate E]; now rewrite IH. Qed.
Lemma replace_label input i y ps : Forall fine ps -> labels_of ps = [0%Z] -> (forall k, In k (words_of ps) -> ~ has "%" (token_at input i k)) ->
  ReplaceMacroWithString (full input i None ps) Label 0 y = Some (full input i (Some y) ps).
Proof.
  unfold ReplaceMacroWithString. change (("%y[" ++ show_int 0 ++ "]")) with "%y[0]". induction 1 as [|p ps Fp Fs IH]; intros E T; [discriminate E|]. destruct p as [c|k|k]; cbn [full].
  - change (String c (full input i None ps)) with (String c "" ++ full input i None ps). rewrite replace_skip by (cbn; intros [-> |[]]; now apply Fp). rewrite IH by assumption. reflexivity.
  - rewrite replace_skip by (apply T; now left). rewrite IH; [reflexivity|exact E|]. intros k' H. apply T. now right.
  - cbn in E. injection E as -> E. change ("%y[" ++ decimal 0 ++ "]") with "%y[0]". rewrite replace_here. now rewrite (full_none input i (Some y) ps E).
Qed.
Lemma token_word input i k : (i < length input)%nat -> word_at input (Z.of_nat i + k) (token_at input i k).
Proof.
  intros L. unfold word_at, token_at. destruct (Z.leb_spec 0 (Z.of_nat i + k)); destruct (Z.ltb_spec (Z.of_nat i + k) (Z.of_nat (length input))); cbn [andb].
  - right. right. split; [assumption|]. apply nth_error_nth'. lia.
  - right. left. destruct (Z.ltb_spec k 0); [lia|]. auto.
  - left. destruct (Z.ltb_spec k 0); [auto|lia].
  - lia.
Qed.
Lemma word_at_fun input p w w' : word_at input p w -> word_at input p w' -> w = w'.
Proof.
  intros [[A ->]|[(A & B & ->)|[A B]]] [[A' ->]|[(A' & B' & ->)|[A' B']]]; try reflexivity; try lia; try congruence.
  - apply (f_equal (fun o => match o with Some _ => true | None => false end)) in B'. rewrite (proj2 (nth_error_None input (Z.to_nat p))) in B' by lia. discriminate B'.
  - rewrite (proj2 (nth_error_None input (Z.to_nat p))) in B by lia. discriminate B.
Qed.
Lemma full_filled input i y ps : (i < length input)%nat -> filled input i y ps (full input i (Some y) ps).
Proof. intros L. induction ps as [|[c|k|k] ps IH]; cbn [full]; constructor; auto. now apply token_word. Qed.
Lemma filled_fun input i y ps s : filled input i y ps s -> (i < length input)%nat -> s = full input i (Some y) ps.
Proof. induction 1; intros L; cbn [full]; rewrite <- ?IHfilled by exact L; try reflexivity. f_equal. eapply word_at_fun; [eassumption|]. now apply token_word. Qed.
Lemma escape_ok s t : escaped s t <-> t = Escape s.
Proof.
  split.
  - induction 1 as [|c s t [-> | ->] _ IH|c s t A B _ IH]; cbn [Escape]; rewrite <- ?IH; try reflexivity.
    unfold escape1. destruct (Ascii.eqb_spec c "="); [contradiction|]. destruct (Ascii.eqb_spec c ";"); [contradiction|]. reflexivity.
  - intros ->. induction s as [|c s IH]; cbn [Escape]; [constructor|]. unfold escape1. destruct (Ascii.eqb_spec c "="); [constructor; auto|]. destruct (Ascii.eqb_spec c ";"); constructor; auto.
Qed.
Lemma token_clear input i k : (forall w, In w input -> ~ has "%" w) -> ~ has "%" (token_at input i k).
Proof.
  intros H. unfold token_at. destruct (_ && _) eqn:E.
  - apply andb_true_iff in E. destruct E as [A B]. apply Z.leb_le in A. apply Z.ltb_lt in B. apply H. apply nth_In. lia.
  - destruct (k <? 0)%Z; cbn; intuition discriminate.
Qed.
Lemma feature_ok ps input y i s f : Forall fine ps -> words_of ps <> [] -> labels_of ps = [0%Z] -> (forall w, In w input -> ~ has "%" w) -> (i < length input)%nat ->
  filled input i y ps s -> escaped s f -> Context (template ps) input 0 [y] i (S i) = Some (Some f).
Proof.
  intros F X1 Y1 P L S1 S2. unfold Context. rewrite parse_ok by exact F. rewrite Y1. cbn [forallb Z.eqb andb]. destruct (words_of ps) as [|k ks] eqn:E; [contradiction|]. cbn [bind].
  replace (S i - i =? 1)%nat with true by (symmetry; apply Nat.eqb_eq; lia). cbn [negb]. rewrite <- part_nil. rewrite (replace_all input i ps F (k :: ks) [] [] E eq_refl) by (auto; intros; now apply token_clear).
  cbn [bind List.app]. rewrite <- E, part_full. rewrite replace_label by (auto; intros; now apply token_clear). cbn [bind]. apply filled_fun in S1; [|exact L]. apply escape_ok in S2. now subst.
Qed.
Lemma filled_ex input i y ps : (i < length input)%nat -> exists s f, filled input i y ps s /\ escaped s f.
Proof. intros L. exists (full input i (Some y) ps), (Escape (full input i (Some y) ps)). split; [now apply full_filled|now apply escape_ok]. Qed.
Lemma refused_ok ps input arity e i j : Forall fine ps -> words_of ps = [] \/ labels_of ps = [] \/ (exists k, In k (labels_of ps) /\ k <> 0%Z) -> Context (template ps) input arity e i j = None.
Proof.
  intros F H. unfold Context. rewrite parse_ok by exact F. destruct (forallb (Z.eqb 0) (labels_of ps)) eqn:B; [|reflexivity]. destruct H as [-> |[-> |(k & I & N)]].
  - destruct (labels_of ps); reflexivity.
  - reflexivity.
  - rewrite forallb_forall in B. apply B in I. apply Z.eqb_eq in I. congruence.
Qed.
Lemma none_ok ps input arity e i j : Forall fine ps -> words_of ps <> [] -> labels_of ps <> [] -> (forall k, In k (labels_of ps) -> k = 0%Z) -> arity <> 0%nat \/ length e <> 1%nat ->
  Context (template ps) input arity e i j = Some None.
Proof.
  intros F W L Z H. unfold Context. rewrite parse_ok by exact F. replace (forallb (Z.eqb 0) (labels_of ps)) with true by (symmetry; apply forallb_forall; intros k I; apply Z.eqb_eq; symmetry; auto).
  destruct (labels_of ps) as [|l ls]; [contradiction|]. destruct (words_of ps) as [|k ks]; [contradiction|]. cbn [bind]. destruct arity as [|a]; [|reflexivity]. destruct e as [|y [|y' e]]; try reflexivity. exfalso. cbn in H. lia.
Qed.
Lemma span_ok t input y i j : j <> S i -> (i <= j)%nat -> Context t input 0 [y] i j = None.
Proof.
  intros N L. unfold Context. destruct (ParseTemplate t); [|reflexivity]. cbn [bind]. replace (j - i =? 1)%nat with false by (symmetry; apply Nat.eqb_neq; lia). reflexivity.
Qed.
