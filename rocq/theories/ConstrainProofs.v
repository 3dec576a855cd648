(** Proofs for Constrain.v: names of categories, the rule filter, the inverted rules. *)
From Coq Require Import Ascii String DecimalString DecimalNat List ZArith Bool Lia Permutation.
From Verif Require Import Opt OptProofs HG Deriv Topo TopoSpec TopoProofs Prune PruneSpec Rule RuleSpec RuleProofs Parser ParserSpec Constrain ConstrainSpec.
Import ListNotations.
Open Scope opt_scope.
Local Open Scope nat_scope.

(** ** Names *)
Fixpoint has_us (s : string) : Prop := match s with EmptyString => False | String c r => c = "_"%char \/ has_us r end.
Lemma us_app : forall p d, has_us (append p (append "_" d)).
Proof. induction p as [|c p IH]; intros d; cbn; [left; reflexivity|right; apply IH]. Qed.
Lemma us_split : forall p1 p2 d1 d2, ~ has_us d1 -> ~ has_us d2 -> append p1 (append "_" d1) = append p2 (append "_" d2) -> d1 = d2.
Proof.
  induction p1 as [|c p1 IH]; intros [|c2 p2] d1 d2 N1 N2 E; cbn [append] in E.
  - injection E as E. exact E.
  - injection E as _ E2. elim N1. rewrite E2. apply us_app.
  - injection E as _ E2. elim N2. rewrite <- E2. apply us_app.
  - injection E as _ E2. apply (IH p2); assumption.
Qed.
Lemma digits_no_us : forall d, ~ has_us (NilEmpty.string_of_uint d).
Proof. induction d; cbn; try tauto; (intros [H|H]; [discriminate H|tauto]). Qed.
Lemma dec_no_us : forall n, ~ has_us (dec n).
Proof.
  intros n. unfold dec. pose proof (digits_no_us (Nat.to_uint n)) as H. destruct (Nat.to_uint n); [|exact H..].
  cbn. intros [E|[]]. discriminate E.
Qed.
Lemma to_uint_nonnil : forall n, Nat.to_uint n <> Decimal.Nil.
Proof. intros n E. pose proof (Unsigned.of_to n) as H. rewrite E in H. cbn in H. subst n. discriminate E. Qed.
Lemma dec_inj : forall n m, dec n = dec m -> n = m.
Proof.
  intros n m E. unfold dec in E. apply (f_equal NilZero.uint_of_string) in E.
  rewrite !NilZero.usu in E by apply to_uint_nonnil. injection E as E.
  rewrite <- (Unsigned.of_to n), <- (Unsigned.of_to m), E. reflexivity.
Qed.

Section Conv.
Variable conv : string -> Z.
Variable str : Z -> string.
Hypothesis conv_inj : forall a b, conv a = conv b -> a = b.
Hypothesis conv_pos : forall a, (0 < conv a)%Z.

Lemma cats_len : forall ns, length (cats_of conv str ns) = length ns.
Proof. intros. unfold cats_of. rewrite map_length, combine_length, seq_length. lia. Qed.
Lemma nth_combine_seq : forall (A : Type) (l : list A) s k, nth_error (combine (seq s (length l)) l) k = option_map (fun x => (s + k, x)) (nth_error l k).
Proof.
  induction l as [|x r IH]; intros s [|k]; cbn; try reflexivity; [rewrite Nat.add_0_r; reflexivity|].
  rewrite IH. destruct (nth_error r k); cbn; [f_equal; f_equal; lia|reflexivity].
Qed.
Lemma cats_nth : forall ns i, nth_error (cats_of conv str ns) i = option_map (fun nd => (- conv (cat_name str i (cat nd)))%Z) (nth_error ns i).
Proof.
  intros ns i. unfold cats_of. rewrite nth_error_map, nth_combine_seq. destruct (nth_error ns i); reflexivity.
Qed.
Lemma cats_inj : forall ns i j c, nth_error (cats_of conv str ns) i = Some c -> nth_error (cats_of conv str ns) j = Some c -> i = j.
Proof.
  intros ns i j c. rewrite !cats_nth. destruct (nth_error ns i) as [a|]; [|discriminate]. destruct (nth_error ns j) as [b|]; [|discriminate].
  cbn. intros [= <-] [= E]. assert (E' : conv (cat_name str j (cat b)) = conv (cat_name str i (cat a))) by lia. apply conv_inj in E'.
  unfold cat_name in E'. apply us_split in E'; [|apply dec_no_us..]. apply dec_inj in E'. congruence.
Qed.
Lemma cats_neg : forall ns i c, nth_error (cats_of conv str ns) i = Some c -> (c < 0)%Z.
Proof.
  intros ns i c. rewrite cats_nth. destruct (nth_error ns i) as [a|]; [|discriminate]. cbn. intros [= <-]. pose proof (conv_pos (cat_name str i (cat a))). lia.
Qed.
Lemma cats_goal : forall ns i c, nth_error (cats_of conv str ns) i = Some c -> c <> kGOAL conv.
Proof.
  intros ns i c. rewrite cats_nth. destruct (nth_error ns i) as [a|]; [|discriminate]. cbn. intros [= <-]. unfold kGOAL. intros E.
  assert (E' : conv (cat_name str i (cat a)) = conv "Goal"%string) by lia. apply conv_inj in E'.
  assert (U : has_us "Goal") by (rewrite <- E'; unfold cat_name; apply us_app).
  cbn in U. repeat (destruct U as [U|U]; [discriminate U|]). exact U.
Qed.
End Conv.

(** ** Pruning keeps the rules and the number of the tails *)
Lemma prune_edge : forall (P : Type) (g g' : hg P) mask run, wf_hg g -> nodes g <> [] -> PruneEdges mask run g = Pruned g' ->
  forall j ed', nth_error (edges g') j = Some ed' -> exists e ed, nth_error (edges g) e = Some ed /\ lab ed' = lab ed /\ length (tails ed') = length (tails ed).
Proof.
  intros P g g' mask run W NE E j ed' N.
  assert (TS : forall f, length f = length (edges g) -> of_topo (TopoSort (length (nodes g) - 1) (Some f) g) = Pruned g' ->
    exists e ed, nth_error (edges g) e = Some ed /\ lab ed' = lab ed /\ length (tails ed') = length (tails ed)).
  { intros f LF T. assert (GL : length (nodes g) - 1 < length (nodes g)) by (destruct (nodes g); [congruence|cbn; lia]).
    destruct (toposort_ok (Some f) g W LF _ GL) as [(h & rn & re & E' & _ & R)|(E' & _)]; rewrite E' in T; [|discriminate].
    injection T as ->. apply (edges_are _ _ _ _ _ _ R) in N as (e & ed & hh & _ & N & _ & ->).
    exists e, ed. cbn. rewrite map_length. auto. }
  unfold PruneEdges in E. destruct (length mask =? length (edges g)) eqn:L; [|discriminate]. apply Nat.eqb_eq in L. cbn [negb] in E.
  destruct run; [|exact (TS _ L E)].
  destruct (Inside.Inside _ _ _ _ g) as [sc|]; [|discriminate]. destruct (negb (last sc false)).
  { injection E as <-. destruct j; discriminate. }
  destruct (filter_edges sc mask (edges g)) as [f|] eqn:F; [|discriminate]. apply (TS f); [|exact E].
  clear - F. revert f F. generalize (edges g). revert mask. induction mask as [|[|] m IH]; intros [|ed es] f F; cbn in F; try discriminate.
  - injection F as <-. reflexivity.
  - destruct (filter_edges sc m es) as [l|] eqn:F'; [|discriminate]. injection F as <-. cbn. f_equal. exact (IH _ _ F').
  - destruct (some_unreachable sc (tails ed)); [|discriminate]. destruct (filter_edges sc m es) as [l|] eqn:F'; [|discriminate].
    injection F as <-. cbn. f_equal. exact (IH _ _ F').
Qed.

Lemma prune_nodes : forall (P : Type) (g g' : hg P) mask run, wf_hg g -> nodes g <> [] -> PruneEdges mask run g = Pruned g' -> nodes g' <> [].
Proof.
  intros P g g' mask run W NE E.
  assert (TS : forall f, length f = length (edges g) -> of_topo (TopoSort (length (nodes g) - 1) (Some f) g) = Pruned g' -> nodes g' <> []).
  { intros f LF T. assert (GL : length (nodes g) - 1 < length (nodes g)) by (destruct (nodes g); [congruence|cbn; lia]).
    destruct (toposort_ok (Some f) g W LF _ GL) as [(h & rn & re & E' & _ & R)|(E' & _)]; rewrite E' in T; [|discriminate].
    injection T as <-. pose proof (rn_goal _ _ _ _ _ _ R) as X. apply nth_error_Some in GL. destruct (nth_error (nodes g) (length (nodes g) - 1)) as [nd|] eqn:ND; [|congruence].
    pose proof (proj2 (nodes_are _ _ _ _ _ _ R _ _) (ex_intro _ _ (ex_intro _ nd (conj X (conj ND eq_refl))))) as Y. intros EM. rewrite EM in Y. discriminate. }
  unfold PruneEdges in E. destruct (length mask =? length (edges g)) eqn:L; [|discriminate]. apply Nat.eqb_eq in L. cbn [negb] in E.
  destruct run; [|exact (TS _ L E)].
  destruct (Inside.Inside _ _ _ _ g) as [sc|]; [|discriminate]. destruct (negb (last sc false)).
  { injection E as <-. cbn. discriminate. }
  destruct (filter_edges sc mask (edges g)) as [f|] eqn:F; [|discriminate]. apply (TS f); [|exact E].
  clear - F. revert f F. generalize (edges g). revert mask. induction mask as [|[|] m IH]; intros [|ed es] f F; cbn in F; try discriminate.
  - injection F as <-. reflexivity.
  - destruct (filter_edges sc m es) as [l|] eqn:F'; [|discriminate]. injection F as <-. cbn. f_equal. exact (IH _ _ F').
  - destruct (some_unreachable sc (tails ed)); [|discriminate]. destruct (filter_edges sc m es) as [l|] eqn:F'; [|discriminate].
    injection F as <-. cbn. f_equal. exact (IH _ _ F').
Qed.

(** ** map_opt *)
Lemma map_opt_iff : forall (A B : Type) (f : A -> option B) l r, map_opt f l = Some r <-> Forall2 (fun x y => f x = Some y) l r.
Proof.
  intros A B f. induction l as [|x l IH]; intros r; cbn [map_opt]; split; intros H.
  - injection H as <-. constructor.
  - inversion H. reflexivity.
  - destruct (f x) as [y|] eqn:Y; [|discriminate]. cbn [bind] in H. destruct (map_opt f l) as [ys|] eqn:M; [|discriminate]. cbn [bind] in H. injection H as <-.
    constructor; [exact Y|]. apply IH. reflexivity.
  - inversion H as [|? y ? ys Y F]; subst. rewrite Y. cbn [bind]. apply IH in F. rewrite F. reflexivity.
Qed.
Lemma map_opt_all : forall (A B : Type) (f : A -> option B) l, (forall x, In x l -> exists y, f x = Some y) -> exists r, map_opt f l = Some r.
Proof.
  intros A B f. induction l as [|x l IH]; intros H; [exists []; reflexivity|]. cbn [map_opt]. destruct (H x (or_introl eq_refl)) as (y & ->). cbn [bind].
  destruct IH as (r & ->); [intros z Z; apply H; right; exact Z|]. eexists; reflexivity.
Qed.
Lemma F2_len : forall (A B : Type) (R : A -> B -> Prop) l m, Forall2 R l m -> length l = length m.
Proof. intros A B R l m F. induction F; cbn; congruence. Qed.
Lemma F2_nth : forall (A B : Type) (R : A -> B -> Prop) l m, Forall2 R l m -> forall k x, nth_error l k = Some x -> exists y, nth_error m k = Some y /\ R x y.
Proof. intros A B R l m F. induction F as [|x y l m H F IH]; intros [|k] z Z; try discriminate; [injection Z as <-; exists y; auto|]. exact (IH k z Z). Qed.
Lemma F2_nth_r : forall (A B : Type) (R : A -> B -> Prop) l m, Forall2 R l m -> forall k y, nth_error m k = Some y -> exists x, nth_error l k = Some x /\ R x y.
Proof. intros A B R l m F. induction F as [|x y l m H F IH]; intros [|k] z Z; try discriminate; [injection Z as <-; exists x; auto|]. exact (IH k z Z). Qed.

(** ** Translations and sources *)
Section Yield.
Context {X : Type}.
Implicit Types g : hg (elab X).
Lemma translation_node : forall g e ed ts ws, nth_error (edges g) e = Some ed ->
  (translation g (Tree e ts) = Some ws <-> exists ys, Forall2 (fun t y => translation g t = Some y) ts ys /\
     (exists ds, map_opt (deriv_of g) ts = Some ds) /\ ESubstitute (r_e (rule_ (lab ed))) ys = Some ws).
Proof.
  intros g e ed ts ws N.
  unfold translation at 1. cbn [deriv_of]. rewrite N. cbn [bind].
  assert (CH : forall ds, map_opt (deriv_of g) ts = Some ds -> forall ys, map_opt esentence ds = Some ys <-> Forall2 (fun t y => translation g t = Some y) ts ys).
  { clear. induction ts as [|t ts IH]; intros ds M ys; cbn [map_opt] in M.
    - injection M as <-. cbn. split; [intros [= <-]; constructor|intros F; inversion F; reflexivity].
    - destruct (deriv_of g t) as [d|] eqn:D; [|discriminate]. cbn [bind] in M. destruct (map_opt (deriv_of g) ts) as [ds'|] eqn:M'; [|discriminate]. cbn [bind] in M. injection M as <-.
      specialize (IH ds' eq_refl). cbn [map_opt]. split.
      + intros H. destruct (esentence d) as [y|] eqn:Y; [|discriminate]. cbn [bind] in H. destruct (map_opt esentence ds') as [ys'|] eqn:M2; [|discriminate]. cbn [bind] in H. injection H as <-.
        constructor; [unfold translation; rewrite D; exact Y|]. apply IH. reflexivity.
      + intros F. inversion F as [|? y ? ys' Y F']; subst. unfold translation in Y. rewrite D in Y. cbn [bind] in Y. rewrite Y. cbn [bind]. apply IH in F'. rewrite F'. reflexivity. }
  destruct (map_opt (deriv_of g) ts) as [ds|] eqn:M; cbn [bind]; [|split; [discriminate|intros (ys & _ & (ds & D) & _); discriminate]].
  cbn [esentence]. split.
  - intros H. destruct (map_opt esentence ds) as [ys|] eqn:M2; [|discriminate]. cbn [bind] in H. exists ys. split; [apply (CH ds eq_refl), M2|]. split; [eauto|exact H].
  - intros (ys & F & _ & H). apply (CH ds eq_refl) in F. rewrite F. exact H.
Qed.
Lemma translation_tree : forall g e ed ts ws, nth_error (edges g) e = Some ed -> rules_ok g -> length ts = length (tails ed) ->
  (translation g (Tree e ts) = Some ws <-> exists ys, Forall2 (fun t y => translation g t = Some y) ts ys /\
     (exists ds, map_opt (deriv_of g) ts = Some ds) /\ ws = target_of (r_e (rule_ (lab ed))) ys).
Proof.
  intros g e ed ts ws N RO L. destruct (RO e ed N) as (W & LT & _). pose proof (wf_vars _ _ W) as (V1 & V2).
  rewrite (translation_node g e ed ts ws N). split; intros (ys & F & D & H); exists ys; (split; [exact F|]); (split; [exact D|]).
  - apply esub_iff in H. apply H.
  - subst ws. pose proof (F2_len _ _ _ _ _ F) as LY. apply esub_iff. split; [lia|]. split; [|reflexivity]. intros c C. specialize (V2 c C). lia.
Qed.
Lemma fsub_iff f ys r : FSubstitute f ys = Some r <-> source_of f ys r.
Proof.
  unfold FSubstitute. split.
  - intros H. destruct (fsub_loop f ys 0 []) as [(r', n)|] eqn:F; [|discriminate]. cbn [bind] in H. destruct (n =? length ys) eqn:E; [|discriminate]. injection H as <-. apply Nat.eqb_eq in E. subst n.
    destruct (fsub_some f ys 0 [] _ _ F) as (A & _). cbn in A. destruct (fsub_ok f ys [] 0 [] eq_refl A) as (r & S & F'). cbn [app] in F'. rewrite F in F'. injection F' as ->. exact S.
  - intros S. pose proof (source_len _ _ _ S) as L. destruct (fsub_ok f ys [] 0 [] eq_refl L) as (r' & S' & F'). cbn [app] in F'. rewrite F'. cbn [bind]. rewrite Nat.add_0_l, Nat.eqb_refl. f_equal. exact (source_det _ _ _ _ S' S).
Qed.
Lemma source_tree : forall g e ed ts ws, nth_error (edges g) e = Some ed ->
  (source g (Tree e ts) = Some ws <-> exists ys, Forall2 (fun t y => source g t = Some y) ts ys /\
     (exists ds, map_opt (deriv_of g) ts = Some ds) /\ source_of (r_f (rule_ (lab ed))) ys ws).
Proof.
  intros g e ed ts ws N.
  unfold source at 1. cbn [deriv_of]. rewrite N. cbn [bind].
  assert (CH : forall ds, map_opt (deriv_of g) ts = Some ds -> forall ys, map_opt fsentence ds = Some ys <-> Forall2 (fun t y => source g t = Some y) ts ys).
  { clear. induction ts as [|t ts IH]; intros ds M ys; cbn [map_opt] in M.
    - injection M as <-. cbn. split; [intros [= <-]; constructor|intros F; inversion F; reflexivity].
    - destruct (deriv_of g t) as [d|] eqn:D; [|discriminate]. cbn [bind] in M. destruct (map_opt (deriv_of g) ts) as [ds'|] eqn:M'; [|discriminate]. cbn [bind] in M. injection M as <-.
      specialize (IH ds' eq_refl). cbn [map_opt]. split.
      + intros H. destruct (fsentence d) as [y|] eqn:Y; [|discriminate]. cbn [bind] in H. destruct (map_opt fsentence ds') as [ys'|] eqn:M2; [|discriminate]. cbn [bind] in H. injection H as <-.
        constructor; [unfold source; rewrite D; exact Y|]. apply IH. reflexivity.
      + intros F. inversion F as [|? y ? ys' Y F']; subst. unfold source in Y. rewrite D in Y. cbn [bind] in Y. rewrite Y. cbn [bind]. apply IH in F'. rewrite F'. reflexivity. }
  destruct (map_opt (deriv_of g) ts) as [ds|] eqn:M; cbn [bind]; [|split; [discriminate|intros (ys & _ & (ds & D) & _); discriminate]].
  cbn [fsentence]. split.
  - intros H. destruct (map_opt fsentence ds) as [ys|] eqn:M2; [|discriminate]. cbn [bind] in H. apply fsub_iff in H. exists ys. split; [apply (CH ds eq_refl), M2|]. split; [eauto|exact H].
  - intros (ys & F & _ & S). apply (CH ds eq_refl) in F. rewrite F. cbn [bind]. apply fsub_iff. exact S.
Qed.
(** Every derivation has a rule derivation, a translation and a source. *)
Lemma derives_deriv : forall g t n, derives g n t -> exists d, deriv_of g t = Some d.
Proof.
  intros g t. induction t as [e ts IH] using tree_ind'. intros n D. inversion D as [? nd ? ed ? N I E F]; subst. cbn [deriv_of]. rewrite E. cbn [bind].
  assert (M : exists ds, map_opt (deriv_of g) ts = Some ds).
  { apply map_opt_all. intros t T. rewrite Forall_forall in IH. apply In_nth_error in T as (k & T). destruct (F2_nth_r _ _ _ _ _ F _ _ T) as (x & _ & DX). apply (IH t (nth_error_In _ _ T) x DX). }
  destruct M as (ds & ->). eexists; reflexivity.
Qed.
Lemma map_derivs : forall g tl ts, Forall2 (derives g) tl ts -> exists ds, map_opt (deriv_of g) ts = Some ds.
Proof.
  intros g tl ts F. apply map_opt_all. intros t T. apply In_nth_error in T as (k & T). destruct (F2_nth_r _ _ _ _ _ F _ _ T) as (x & _ & DX). exact (derives_deriv _ _ _ DX).
Qed.
Lemma derives_yield : forall g, rules_ok g -> forall t n, derives g n t -> exists ws vs, translation g t = Some ws /\ source g t = Some vs.
Proof.
  intros g RO t. induction t as [e ts IH] using tree_ind'. intros n D. inversion D as [? nd ? ed ? N I E F]; subst. destruct (RO e ed E) as (W & LT & _).
  pose proof (F2_len _ _ _ _ _ F) as L. pose proof (map_derivs _ _ _ F) as MD.
  assert (K : exists ys zs, Forall2 (fun t y => translation g t = Some y) ts ys /\ Forall2 (fun t y => source g t = Some y) ts zs).
  { clear - F IH. revert IH. induction F as [|x t tl ts D F IHF]; intros IH; [exists [], []; split; constructor|]. inversion IH as [|? ? H1 H2]; subst. destruct (H1 _ D) as (w & v & A & B). destruct (IHF H2) as (ys & zs & C1 & C2).
    exists (w :: ys), (v :: zs). split; constructor; assumption. }
  destruct K as (ys & zs & K1 & K2). pose proof (F2_len _ _ _ _ _ K2) as LZ. assert (LV : length zs = length (vars_of (r_f (rule_ (lab ed))))) by lia. destruct (fsub_ok _ zs [] 0 [] eq_refl LV) as (r & S & _).
  exists (target_of (r_e (rule_ (lab ed))) ys), r. split; [apply (translation_tree g e ed ts _ E RO (eq_sym L)); exists ys; auto|apply (source_tree g e ed ts _ E); exists zs; auto].
Qed.
End Yield.

(** ** The rule filter *)
Definition infix (p ws : list Z) : Prop := exists a b, ws = a ++ p ++ b.
Lemma present_in : forall ps p, In p ps -> present ps p = true.
Proof. intros ps p I. unfold present. apply existsb_exists. exists p. split; [exact I|]. unfold zlist_eqb. destruct (list_eq_dec Z.eq_dec p p); [reflexivity|congruence]. Qed.
Lemma run_there : forall ps e phrase, (forall a b, e = a ++ b -> a <> [] -> (forall c, In c a -> (0 < c)%Z) -> In (phrase ++ a) ps) -> run_missing ps e phrase = false.
Proof.
  induction e as [|c r IH]; intros phrase H; [reflexivity|]. cbn [run_missing]. destruct (Z.leb_spec c 0) as [N|N]; [reflexivity|].
  rewrite present_in; [|apply (H [c] r eq_refl ltac:(discriminate)); intros x [<-|[]]; exact N].
  apply IH. intros a b -> NE P. rewrite <- app_assoc. apply (H ([c] ++ a) b); [reflexivity|discriminate|]. intros x [<-|I]; [exact N|exact (P x I)].
Qed.
Lemma all_there : forall ps e, (forall a, infix a e -> a <> [] -> (forall c, In c a -> (0 < c)%Z) -> In a ps) -> some_missing ps e = false.
Proof.
  induction e as [|c r IH]; intros H; [reflexivity|]. cbn [some_missing].
  assert (R : some_missing ps r = false) by (apply IH; intros a (x & y & ->) NE P; apply H; [exists (c :: x), y; reflexivity|exact NE|exact P]).
  destruct (Z.leb_spec c 0) as [N|N]; [exact R|]. rewrite run_there; [exact R|]. intros a b E NE P. apply H; [exists [], b; exact E|exact NE|exact P].
Qed.
Lemma nth_sentence : forall ws k, nth_error (sentence ws) k = option_map (fun w => [{| label := w; len := 1 |}]) (nth_error ws k).
Proof. intros. unfold sentence. apply nth_error_map. Qed.
Lemma phrases_from_ok : forall ws k j phrase, j + k <= length ws ->
  exists ps, phrases_from (sentence ws) k j phrase = Some (ps, false) /\ forall m, m < k -> In (phrase ++ firstn (S m) (skipn j ws)) ps.
Proof.
  intros ws. induction k as [|k IH]; intros j phrase L; [exists []; split; [reflexivity|intros m M; lia]|]. cbn [phrases_from].
  assert (J : j < length ws) by lia. apply nth_error_Some in J. destruct (nth_error ws j) as [w|] eqn:W; [|congruence]. clear J.
  unfold first_label. rewrite nth_sentence, W. cbn [option_map bind nth_error]. change (1 <? length [{| label := w; len := 1 |}]) with false. cbn [label].
  destruct (IH (S j) (phrase ++ [w]) ltac:(lia)) as (ps & -> & A). cbn [bind]. eexists. split; [reflexivity|].
  assert (SK : skipn j ws = w :: skipn (S j) ws).
  { clear - W. revert ws W. induction j as [|j IH]; intros [|x r] W; try discriminate; [injection W as ->; reflexivity|]. exact (IH r W). }
  intros m M. rewrite SK. cbn [firstn]. destruct m as [|m]; [left; reflexivity|]. right. specialize (A m ltac:(lia)). rewrite <- app_assoc in A. exact A.
Qed.
Lemma phrases_all_ok : forall ws mx is, (Z.of_nat (length ws) <= mx)%Z -> (forall i, In i is -> i < length ws) ->
  exists ps, phrases_all (sentence ws) mx is = Some (ps, false) /\ forall i m, In i is -> i + m < length ws -> In (firstn (S m) (skipn i ws)) ps.
Proof.
  intros ws mx is LM. induction is as [|i is IH]; intros H; [exists []; split; [reflexivity|intros i m []]|]. cbn [phrases_all].
  assert (LS : length (sentence ws) = length ws) by apply map_length. rewrite LS.
  replace (Z.to_nat (Z.min (Z.of_nat (length ws)) (Z.of_nat i + mx)) - i) with (length ws - i) by lia.
  specialize (H i (or_introl eq_refl)) as HI. destruct (phrases_from_ok ws (length ws - i) i [] ltac:(lia)) as (ps & -> & A). cbn [bind].
  destruct IH as (qs & -> & B); [intros x X; apply H; right; exact X|]. cbn [bind orb]. eexists. split; [reflexivity|]. intros x m [<-|I] L; apply in_or_app; [left; apply (A m); lia|right; apply B; assumption].
Qed.
Lemma filter_sentence : forall sos ws, (Z.of_nat (length ws) <= 9999)%Z -> exists ps, RuleFilter sos (sentence ws) 9999 = Some (ps, false) /\ forall p, infix p ws -> p <> [] -> In p ps.
Proof.
  intros sos ws L. unfold RuleFilter. destruct (phrases_all_ok ws 9999 (seq 0 (length ws)) L) as (ps & E & A); [intros i I; apply in_seq in I; lia|].
  rewrite <- (map_length (fun w => [{| label := w; len := 1 |}]) ws) in E at 1. unfold sentence at 2. rewrite E. cbn [bind]. eexists. split; [reflexivity|].
  intros p (a & b & ->) NE. apply in_or_app. left. destruct p as [|c p]; [congruence|]. specialize (A (length a) (length p)). rewrite skipn_app, skipn_all, Nat.sub_diag, app_nil_l in A. cbn [skipn] in A.
  assert (F : firstn (S (length p)) ((c :: p) ++ b) = c :: p) by (rewrite firstn_app; cbn [length]; rewrite Nat.sub_diag, firstn_O, app_nil_r; exact (firstn_all (c :: p))). rewrite F in A. apply A; [apply in_seq|]; rewrite !app_length; cbn [length]; lia.
Qed.
(** A lattice with two arcs somewhere is not filtered by. *)
Lemma phrases_from_lat : forall (target : list (list arc)) k j phrase, (forall i alt, nth_error target i = Some alt -> alt <> []) -> j + k <= length target ->
  exists ps tl, phrases_from target k j phrase = Some (ps, tl) /\ (0 < k -> (exists alt, nth_error target j = Some alt /\ 1 < length alt) -> tl = true).
Proof.
  intros target. induction k as [|k IH]; intros j phrase NE L; [exists [], false; split; [reflexivity|lia]|]. cbn [phrases_from].
  assert (J : j < length target) by lia. apply nth_error_Some in J. unfold first_label. destruct (nth_error target j) as [alt|] eqn:A; [|congruence]. cbn [bind].
  destruct (Nat.ltb_spec 1 (length alt)) as [G|G]; [exists [], true; split; [reflexivity|reflexivity]|].
  pose proof (NE j alt A) as NA. destruct alt as [|x alt]; [congruence|]. cbn [nth_error bind]. destruct (IH (S j) (phrase ++ [label x]) NE ltac:(lia)) as (ps & tl & -> & _). cbn [bind].
  eexists _, tl. split; [reflexivity|]. intros _ (alt' & [= <-] & G'). cbn [length] in *. lia.
Qed.
Lemma phrases_all_lat : forall (target : list (list arc)) is, (forall i alt, nth_error target i = Some alt -> alt <> []) -> (forall i, In i is -> i < length target) ->
  exists ps tl, phrases_all target 9999 is = Some (ps, tl) /\ ((exists i alt, In i is /\ nth_error target i = Some alt /\ 1 < length alt) -> tl = true).
Proof.
  intros target is NE. induction is as [|i is IH]; intros H; [exists [], false; split; [reflexivity|intros (i & alt & [] & _)]|]. cbn [phrases_all].
  pose proof (H i (or_introl eq_refl)) as HI. set (k := Z.to_nat _ - i). destruct (phrases_from_lat target k i [] NE ltac:(subst k; lia)) as (ps & tl & -> & A). cbn [bind].
  destruct IH as (qs & tl' & -> & B); [intros x X; apply H; right; exact X|]. cbn [bind]. eexists _, _. split; [reflexivity|]. intros (x & alt & [<-|I] & N & G).
  - rewrite (A ltac:(subst k; lia)); [reflexivity|eauto].
  - rewrite (B ltac:(eauto)). apply orb_true_r.
Qed.
Lemma filter_lattice : forall sos (target : list (list arc)), (forall i alt, nth_error target i = Some alt -> alt <> []) -> (exists i alt, nth_error target i = Some alt /\ 1 < length alt) ->
  exists ps, RuleFilter sos target 9999 = Some (ps, true).
Proof.
  intros sos target NE (i & alt & N & G). unfold RuleFilter. destruct (phrases_all_lat target (seq 0 (length target)) NE) as (ps & tl & -> & A); [intros k K; apply in_seq in K; lia|]. cbn [bind]. rewrite A; [eexists; reflexivity|].
  exists i, alt. split; [|auto]. apply in_seq. pose proof (nth_error_Some target i). rewrite N in H. assert (i < length target) by (apply H; discriminate). lia.
Qed.

(** Runs of words of the rules of a derivation are in its translation. *)
Lemma run_target : forall ys a e, infix a e -> (forall c, In c a -> (0 < c)%Z) -> infix a (target_of e ys).
Proof.
  intros ys a e (x & y & ->) P. unfold target_of. rewrite !map_app, !concat_app. exists (target_of x ys), (target_of y ys). f_equal. f_equal. clear - P.
  induction a as [|c a IH]; [reflexivity|]. cbn [map concat]. pose proof (P c (or_introl eq_refl)). destruct (Z.ltb_spec c 1); [lia|]. cbn [app]. f_equal. apply IH. intros z Z. apply P. right; exact Z.
Qed.
Lemma infix_trans : forall a b c, infix a b -> infix b c -> infix a c.
Proof. intros a b c (x & y & ->) (u & v & ->). exists (u ++ x), (y ++ v). rewrite <- !app_assoc. reflexivity. Qed.
Lemma sub_target : forall ys e c y, In c e -> (c <= 0)%Z -> nth_error ys (Z.to_nat (- c)) = Some y -> infix y (target_of e ys).
Proof.
  intros ys e c y I N Y. apply in_split in I as (x & z & ->). unfold target_of. rewrite map_app, concat_app. cbn [map concat]. destruct (Z.ltb_spec c 1); [|lia].
  rewrite (nth_error_nth _ _ _ Y). exists (target_of x ys), (target_of z ys). reflexivity.
Qed.
Lemma wf_has : forall e f k, RuleSpec.wf_rule e f -> k < length (vars_of f) -> In (- Z.of_nat k)%Z e.
Proof.
  intros e f k W K. assert (I : In (- Z.of_nat k)%Z (vars_of e)) by (apply (Permutation_in _ (Permutation_sym W)); apply in_map_iff; exists k; split; [reflexivity|apply in_seq; lia]).
  apply in_vars in I. apply I.
Qed.
Lemma run_infix : forall (X : Type) (g : hg (elab X)), rules_ok g -> forall t n ws, derives g n t -> translation g t = Some ws ->
  forall e ed a, In e (tree_edges t) -> nth_error (edges g) e = Some ed -> infix a (r_e (rule_ (lab ed))) -> (forall c, In c a -> (0 < c)%Z) -> infix a ws.
Proof.
  intros X g RO t. induction t as [e0 ts IH] using tree_ind'. intros n ws D T e ed a I E A P. inversion D as [? nd ? ed0 ? N I0 E0 F]; subst.
  pose proof (F2_len _ _ _ _ _ F) as L. apply (translation_tree g e0 ed0 ts ws E0 RO (eq_sym L)) in T as (ys & FY & _ & ->). cbn [tree_edges] in I. apply in_app_or in I as [I|[<-|[]]].
  - apply in_flat_map in I as (t & T & I). apply In_nth_error in T as (k & T). destruct (F2_nth _ _ _ _ _ FY k t T) as (y & Y & TY). destruct (F2_nth_r _ _ _ _ _ F k t T) as (x & _ & DX).
    rewrite Forall_forall in IH. pose proof (IH t (nth_error_In _ _ T) x y DX TY e ed a I E A P) as H. apply (infix_trans _ _ _ H). destruct (RO e0 ed0 E0) as (W & LT & _).
    assert (K : k < length ts) by (apply nth_error_Some; congruence). apply (sub_target ys _ (- Z.of_nat k)%Z); [apply (wf_has _ _ k W); lia|lia|]. replace (Z.to_nat (- - Z.of_nat k)) with k by lia. exact Y.
  - assert (ed0 = ed) by congruence. subst ed0. apply run_target; assumption.
Qed.
