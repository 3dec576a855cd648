(** Proofs about Pmatch.v. *)
From Coq Require Import String Ascii List Arith Bool Lia QArith.
From Verif Require Import Opt RuleFfSpec Pmatch PmatchSpec.
From Verif Require RuleFfProofs.
Import ListNotations.
Open Scope string_scope.
Open Scope nat_scope.
Open Scope opt_scope.

(** * Trees *)
Fixpoint tree_ind2 (P : tree -> Prop) (H : forall cat subs ws, (forall t, In t subs -> P t) -> P (T cat subs ws)) (t : tree) : P t :=
  match t with
  | T cat subs ws => H cat subs ws ((fix go l : forall t, In t l -> P t := match l return forall t, In t l -> P t with [] => fun _ F => match F with end | x :: r => fun t I => match I with or_introl e => eq_ind x P (tree_ind2 P H x) t e | or_intror I' => go r t I' end end) subs)
  end.
Lemma width_pos t : good t -> 0 < width t.
Proof.
  induction t as [cat subs ws IH] using tree_ind2. intros G. inversion G as [? ? ? _ _ N GS]; subst. cbn [width]. destruct N as [N|N].
  - destruct subs as [|u us]; [contradiction|]. change (list_sum (map width (u :: us))) with (width u + list_sum (map width us)). specialize (IH u (or_introl eq_refl) (GS u (or_introl eq_refl))). lia.
  - destruct ws; [contradiction|]. cbn [length]. lia.
Qed.
Lemma starts_ge i l b u : In (b, u) (starts i l) -> i <= b /\ b + width u <= i + list_sum (map width l).
Proof. revert i. induction l as [|t l IH]; intros i; [intros []|]. change (list_sum (map width (t :: l))) with (width t + list_sum (map width l)). cbn [starts In]. intros [E|E]; [injection E as -> ->; lia|]. apply IH in E. lia. Qed.
Lemma starts_in i l b u : In (b, u) (starts i l) -> In u l.
Proof. revert i. induction l as [|t l IH]; intros i; [intros []|]. cbn. intros [E|E]; [injection E as -> ->; now left|]. right. eapply IH. exact E. Qed.
Lemma sub_range i t c v : sub i t c v -> i <= c /\ c + width v <= i + width t.
Proof.
  induction 1 as [|i t a cat subs ws b u c v -> -> I _ IH]; [lia|]. apply starts_ge in I. cbn [width]. lia.
Qed.
Lemma sub_good i t c v : sub i t c v -> good t -> good v.
Proof. induction 1 as [|i t a cat subs ws b u c v -> -> I _ IH]; [auto|]. intros G. inversion G; subst. apply IH. apply starts_in in I. auto. Qed.

(** * Labels, computed *)
Fixpoint lab (t : tree) (i a b : nat) : option string :=
  let (cat, subs, ws) := t in
  if (a =? i) && (b =? i + width t) then Some cat
  else (fix go i l := match l with [] => None | u :: r => match lab u i a b with Some x => Some x | None => go (i + width u) r end end) i subs.
Fixpoint labs (l : list tree) (i a b : nat) : option string := match l with [] => None | u :: r => match lab u i a b with Some x => Some x | None => labs r (i + width u) a b end end.
Lemma lab_eq cat subs ws i a b : lab (T cat subs ws) i a b = if (a =? i) && (b =? i + width (T cat subs ws)) then Some cat else labs subs i a b.
Proof. cbn [lab]. destruct (_ && _); [reflexivity|]. generalize i. induction subs as [|u us IH]; intros n; [reflexivity|]. cbn [labs]. destruct (lab u n a b); [reflexivity|]. apply IH. Qed.
Lemma labs_none l : forall i a b, (forall c u, In (c, u) (starts i l) -> lab u c a b = None) -> labs l i a b = None.
Proof. induction l as [|t l IH]; intros i a b H; [reflexivity|]. cbn. rewrite (H i t) by now left. apply IH. intros c u I. apply H. now right. Qed.
Lemma labs_inv l : forall i a b x, labs l i a b = Some x -> exists c u, In (c, u) (starts i l) /\ lab u c a b = Some x.
Proof. induction l as [|t l IH]; intros i a b x; cbn; [discriminate|]. destruct (lab t i a b) eqn:E; [intros H; injection H as ->; exists i, t; auto|]. intros H. destruct (IH _ _ _ _ H) as (c & u & A & B). exists c, u. auto. Qed.
(** what is labelled: the outermost *)
Lemma lab_some t : forall i a b x, lab t i a b = Some x -> exists u, sub i t a u /\ b = a + width u /\ cat_of u = x /\ (good t -> forall c v, sub i t c v -> c = a -> c + width v = b -> sub a u c v).
Proof.
  induction t as [cat subs ws IH] using tree_ind2. intros i a b x. rewrite lab_eq. destruct (_ && _) eqn:E.
  - apply andb_true_iff in E. destruct E as [A B]. apply Nat.eqb_eq in A, B. subst a. intros H. injection H as <-. exists (T cat subs ws). split; [constructor|]. split; [exact B|]. split; [reflexivity|]. auto.
  - intros H. destruct (labs_inv _ _ _ _ _ H) as (d & w & I & L). destruct (IH w (starts_in _ _ _ _ I) _ _ _ _ L) as (u & S1 & S2 & S3 & S4). exists u. split; [eapply sub_in; eauto|]. split; [exact S2|]. split; [exact S3|].
    intros G c v Sv C W. inversion G as [? ? ? _ _ _ GS]; subst. inversion Sv as [|a0 cat0 subs0 ws0 b0 u0 c0 v0 Et Ea I0 S0]; subst.
    + exfalso. rewrite Nat.eqb_refl in E. cbn [andb] in E. apply Nat.eqb_neq in E. lia.
    + injection Et as <- <- <-. assert (d = b0 /\ w = u0) as [<- <-].
      * apply sub_range in S1 as R1. apply sub_range in S0 as R0. assert (P := width_pos u (sub_good _ _ _ _ S1 (GS _ (starts_in _ _ _ _ I)))). assert (Q : 0 < width v) by lia.
        clear - I I0 R1 R0 P Q W GS. revert i I I0. induction subs as [|t subs IHs]; intros i I I0; [destruct I|]. cbn in I, I0. destruct I as [I|I]; destruct I0 as [I0|I0].
        -- injection I as <- <-. injection I0 as <- <-. auto.
        -- injection I as <- <-. apply starts_ge in I0. lia.
        -- injection I0 as <- <-. apply starts_ge in I. lia.
        -- apply (IHs (fun t' H => GS t' (or_intror H)) (i + width t)); assumption.
      * apply S4; [apply GS; eapply starts_in; exact I|exact S0|reflexivity|exact W].
Qed.
Lemma lab_sub i t c v : sub i t c v -> exists x, lab t i c (c + width v) = Some x.
Proof.
  induction 1 as [|i t a cat subs ws b u c v -> -> I S [x IH]].
  - exists (cat_of t). destruct t as [cat subs ws]. rewrite lab_eq, !Nat.eqb_refl. reflexivity.
  - rewrite lab_eq. destruct (_ && _); [eauto|]. clear - I IH. revert i I. induction subs as [|t subs IHs]; intros i I; [destruct I|]. cbn [labs]. destruct (lab t i c (c + width v)) eqn:E; [eauto|].
    destruct I as [I|I]; [injection I as -> ->; congruence|]. apply IHs. exact I.
Qed.

(** * Reading *)
Section Length.
Variable src_len : nat.
Notation run := (Pmatch.run src_len).
Lemma run_app s a b : run s (a ++ b) = (s' <- run s a ;; run s' b).
Proof. revert s. induction a as [|c a IH]; intros s; [reflexivity|]. cbn. destruct (step src_len s c); [apply IH|reflexivity]. Qed.
Definition ready (m : mode) : Prop := m = Outer \/ m = Skip.
Lemma run_cat st cu i g c : ~ has " " c -> forall buf, run {| md := Cat buf; stk := st; cur := cu; pos := i; tree_ := g |} (c ++ " ") = Some {| md := Outer; stk := st; cur := Some (i, buf ++ c); pos := i; tree_ := g |}.
Proof.
  induction c as [|x c IH]; intros H buf.
  - cbn. unfold category. cbn. replace (buf ++ "") with buf; [reflexivity|]. clear. induction buf as [|z buf IH]; [reflexivity|]. cbn. now rewrite <- IH.
  - cbn [append Pmatch.run]. unfold step at 1. cbn [md]. destruct (Ascii.eqb_spec x " ") as [-> |N]; [exfalso; apply H; now left|]. cbn [bind]. unfold with_mode. cbn [stk cur pos tree_]. rewrite IH by (intros K; apply H; now right).
    replace ((buf ++ String x "") ++ c) with (buf ++ String x c); [reflexivity|]. clear. induction buf as [|z buf IH]; [reflexivity|]. cbn. now rewrite <- IH.
Qed.
Lemma run_open m st cu i g c : ready m -> c <> "" -> ~ has " " c -> run {| md := m; stk := st; cur := cu; pos := i; tree_ := g |} ("(" ++ c ++ " ") = Some {| md := Outer; stk := cu :: st; cur := Some (i, c); pos := i; tree_ := g |}.
Proof.
  intros R N H. destruct c as [|x c]; [contradiction|]. rewrite run_app. replace (run _ "(") with (Some {| md := Cat0; stk := cu :: st; cur := cu; pos := i; tree_ := g |}) by (destruct R as [-> | ->]; reflexivity).
  cbn [bind append Pmatch.run]. unfold step at 1. cbn [md bind]. unfold with_mode. cbn [stk cur pos tree_]. rewrite run_cat by (intros K; apply H; now right). reflexivity.
Qed.
Lemma run_word st cu i g w : ~ has " " w -> ~ has ")" w -> run {| md := Word; stk := st; cur := cu; pos := i; tree_ := g |} w = Some {| md := Word; stk := st; cur := cu; pos := i; tree_ := g |}.
Proof.
  induction w as [|x w IH]; intros A B; [reflexivity|]. cbn [Pmatch.run]. unfold step. cbn [md]. destruct (Ascii.eqb_spec x ")"); [exfalso; apply B; now left|]. destruct (Ascii.eqb_spec x " "); [exfalso; apply A; now left|]. cbn [bind].
  apply IH; intros K; [apply A|apply B]; now right.
Qed.
Lemma run_first m st cu i g w : ready m \/ m = Spaces -> word_name w -> run {| md := m; stk := st; cur := cu; pos := i; tree_ := g |} w = Some {| md := Word; stk := st; cur := cu; pos := i; tree_ := g |}.
Proof.
  intros R (N & A & B & C & D). destruct w as [|x w]; [contradiction|]. cbn [Pmatch.run]. replace (step _ _ x) with (Some {| md := Word; stk := st; cur := cu; pos := i; tree_ := g |}).
  - cbn [bind]. apply run_word; intros K; [apply A|apply C]; now right.
  - unfold step. cbn [md]. destruct R as [[-> | ->]| ->].
    + unfold outer, blank. destruct (Ascii.eqb_spec x "("); [exfalso; apply B; now left|]. destruct (Ascii.eqb_spec x ")"); [exfalso; apply C; now left|]. destruct (Ascii.eqb_spec x " "); [exfalso; apply A; now left|]. destruct (Ascii.eqb_spec x "009"); [exfalso; apply D; now left|]. reflexivity.
    + unfold outer, blank. destruct (Ascii.eqb_spec x " "); [exfalso; apply A; now left|]. destruct (Ascii.eqb_spec x "009"); [exfalso; apply D; now left|]. cbn [orb]. destruct (Ascii.eqb_spec x "("); [exfalso; apply B; now left|]. destruct (Ascii.eqb_spec x ")"); [exfalso; apply C; now left|]. reflexivity.
    + destruct (Ascii.eqb_spec x " "); [exfalso; apply A; now left|]. destruct (Ascii.eqb_spec x ")"); [exfalso; apply C; now left|]. reflexivity.
Qed.
Lemma run_words l st j c g ws : forall m i, (ready m \/ m = Spaces) -> Forall word_name ws -> ws <> [] -> j < src_len -> i + length ws <= src_len ->
  run {| md := m; stk := c :: st; cur := Some (j, l); pos := i; tree_ := g |} (join ws ++ ")") = Some {| md := Skip; stk := st; cur := c; pos := i + length ws; tree_ := set g j (i + length ws) l |}.
Proof.
  induction ws as [|w ws IH]; intros m i R F N J L; [contradiction|]. inversion F as [|? ? Fw Fs]; subst. cbn [length] in *. destruct ws as [|w' ws].
  - cbn [join]. rewrite run_app, run_first by assumption. cbn [bind Pmatch.run]. unfold step, word. cbn [md pos]. cbn [Ascii.eqb Bool.eqb]. replace (S i <=? src_len) with true by (symmetry; apply Nat.leb_le; lia).
    cbn [bind]. unfold outer, close. cbn [Ascii.eqb Bool.eqb cur stk pos tree_]. replace (j <? src_len) with true by (symmetry; apply Nat.ltb_lt; lia). replace (S i <? src_len + 1) with true by (symmetry; apply Nat.ltb_lt; lia).
    cbn [andb bind length]. rewrite Nat.add_1_r. reflexivity.
  - change (join (w :: w' :: ws)) with (w ++ " " ++ join (w' :: ws)). replace ((w ++ " " ++ join (w' :: ws)) ++ ")") with (w ++ " " ++ (join (w' :: ws) ++ ")")) by (rewrite !RuleFfProofs.append_assoc; reflexivity).
    rewrite run_app, run_first by assumption. cbn [bind]. rewrite run_app. replace (run _ " ") with (Some {| md := Spaces; stk := c :: st; cur := Some (j, l); pos := S i; tree_ := g |}).
    + cbn [bind]. rewrite IH by (auto; try discriminate; cbn [length] in *; lia). cbn [length]. replace (S i + S (length ws)) with (i + S (S (length ws))) by lia. reflexivity.
    + cbn [Pmatch.run]. unfold step, word. cbn [md pos stk cur tree_]. cbn [Ascii.eqb Bool.eqb]. replace (S i <=? src_len) with true by (symmetry; apply Nat.leb_le; cbn [length] in L; lia). reflexivity.
Qed.
Definition merge (f : nat -> nat -> option string) (g : grid) : grid := fun a b => match f a b with Some x => x | None => g a b end.
Definition geq (g h : grid) : Prop := forall a b, g a b = h a b.
Definition result (o : option state) (st : list (option (nat * string))) (cu : option (nat * string)) (i : nat) (f : nat -> nat -> option string) (g : grid) : Prop :=
  exists h, o = Some {| md := Skip; stk := st; cur := cu; pos := i; tree_ := h |} /\ geq h (merge f g).
Definition reads (t : tree) : Prop := forall m st cu i g, ready m -> i + width t <= src_len -> result (run {| md := m; stk := st; cur := cu; pos := i; tree_ := g |} (show t)) st cu (i + width t) (lab t i) g.
Lemma run_blank st cu i g : run {| md := Skip; stk := st; cur := cu; pos := i; tree_ := g |} " " = Some {| md := Skip; stk := st; cur := cu; pos := i; tree_ := g |}.
Proof. reflexivity. Qed.
Lemma run_body l ws j c : Forall word_name ws -> j < src_len -> forall subs, (forall t, In t subs -> reads t) -> (forall t, In t subs -> good t) -> subs <> [] \/ ws <> [] -> forall m st i g, ready m -> i + list_sum (map width subs) + length ws <= src_len ->
  exists h, run {| md := m; stk := c :: st; cur := Some (j, l); pos := i; tree_ := g |} (join (map show subs ++ ws)%list ++ ")") = Some {| md := Skip; stk := st; cur := c; pos := i + list_sum (map width subs) + length ws; tree_ := set h j (i + list_sum (map width subs) + length ws) l |} /\ geq h (merge (labs subs i) g).
Proof.
  intros F J. induction subs as [|t subs IH]; intros R GS N m st i g M L.
  - destruct N as [N|N]; [contradiction|]. cbn [map List.app list_sum fold_right]. exists g. split; [|intros a b; reflexivity]. cbn [map list_sum fold_right] in L. rewrite run_words by (auto; lia). rewrite Nat.add_0_r. reflexivity.
  - assert (Es : list_sum (map width (t :: subs)) = width t + list_sum (map width subs)) by reflexivity. rewrite Es in *.
    destruct (R t (or_introl eq_refl) m (c :: st) (Some (j, l)) i g M ltac:(lia)) as (h1 & E1 & G1). cbn [map List.app]. destruct (map show subs ++ ws)%list as [|x xs] eqn:Q.
    + apply app_eq_nil in Q. destruct Q as [Q1 ->]. apply map_eq_nil in Q1. subst subs. cbn [join]. rewrite run_app, E1. cbn [bind Pmatch.run]. unfold step. cbn [md]. unfold blank, outer, close. cbn [Ascii.eqb Bool.eqb orb cur stk pos tree_].
      replace (j <? src_len) with true by (symmetry; apply Nat.ltb_lt; lia). replace (i + width t <? src_len + 1) with true by (symmetry; apply Nat.ltb_lt; lia). cbn [andb bind]. cbn [map list_sum fold_right length]. rewrite !Nat.add_0_r.
      exists h1. split; [reflexivity|]. intros a b. rewrite (G1 a b). unfold merge. cbn [labs]. destruct (lab t i a b); reflexivity.
    + change (join (show t :: x :: xs)) with (show t ++ " " ++ join (x :: xs)). rewrite <- Q. replace ((show t ++ " " ++ join (map show subs ++ ws)%list) ++ ")") with (show t ++ " " ++ (join (map show subs ++ ws)%list ++ ")")) by (rewrite !RuleFfProofs.append_assoc; reflexivity).
      rewrite run_app, E1. cbn [bind]. rewrite run_app, run_blank. cbn [bind]. destruct (IH (fun u I => R u (or_intror I)) (fun u I => GS u (or_intror I))) with (m := Skip) (st := st) (i := i + width t) (g := h1) as (h & E & G).
      * destruct subs; [right; intros ->; discriminate Q|left; discriminate].
      * now right.
      * lia.
      * exists h. rewrite Q in *. rewrite E. split; [rewrite !Nat.add_assoc; reflexivity|]. intros a b. rewrite (G a b). unfold merge. cbn [labs]. rewrite (G1 a b). unfold merge. destruct (lab t i a b) as [y|] eqn:Y; destruct (labs subs (i + width t) a b) as [z|] eqn:Z; try reflexivity.
        exfalso. apply lab_some in Y. destruct Y as (u & U1 & U2 & _). apply labs_inv in Z. destruct Z as (d & w & W1 & W2). apply lab_some in W2. destruct W2 as (v & V1 & V2 & _).
        assert (P := width_pos _ (sub_good _ _ _ _ U1 (GS t (or_introl eq_refl)))). apply sub_range in U1, V1. apply starts_ge in W1. lia.
Qed.
Lemma reads_ok t : good t -> reads t.
Proof.
  induction t as [cat subs ws IH] using tree_ind2. intros G m st cu i g M L. assert (P := width_pos _ G). inversion G as [? ? ? (C1 & C2 & C3) F N GS]; subst.
  destruct (run_body cat ws i cu F ltac:(lia) subs (fun t I => IH t I (GS t I)) GS N Outer st i g (or_introl eq_refl)) as (h & E & H); [cbn [width] in L; lia|].
  eexists. split.
  - cbn [show]. replace ("(" ++ cat ++ " " ++ join (map show subs ++ ws)%list ++ ")") with (("(" ++ cat ++ " ") ++ (join (map show subs ++ ws)%list ++ ")")) by (rewrite !RuleFfProofs.append_assoc; reflexivity).
    rewrite run_app, run_open by assumption. cbn [bind]. rewrite E. cbn [width]. rewrite Nat.add_assoc. reflexivity.
  - intros a b. unfold set, merge. rewrite lab_eq. cbn [width]. rewrite Nat.add_assoc. destruct (_ && _); [reflexivity|]. apply H.
Qed.
End Length.
Lemma grid_ok t : good t -> exists g, InitializeGrids (width t) (show t) = Some g /\ forall a b, g a b = match lab t 0 a b with Some x => x | None => "XX" end.
Proof.
  intros G. destruct (reads_ok (width t) t G Outer [] None 0 (fun _ _ => "XX") (or_introl eq_refl) (le_n _)) as (h & E & H). exists h. split; [|exact H].
  unfold InitializeGrids. destruct (show t) eqn:S; [destruct t; discriminate S|]. rewrite E. cbn [bind md pos tree_]. rewrite Nat.add_0_l, Nat.eqb_refl. reflexivity.
Qed.
Lemma labels_ok t : good t -> exists g, InitializeGrids (width t) (show t) = Some g /\
  (forall a u, sub 0 t a u -> outermost t a (a + width u) (g a (a + width u))) /\ (forall a b, (forall u, sub 0 t a u -> a + width u <> b) -> g a b = "XX").
Proof.
  intros G. destruct (grid_ok t G) as (g & E & H). exists g. split; [exact E|]. split.
  - intros a u S. destruct (lab_sub _ _ _ _ S) as [x L]. rewrite H, L. destruct (lab_some _ _ _ _ _ L) as (v & V1 & V2 & V3 & V4). exists v. split; [exact V1|]. split; [exact V2|]. split; [exact V3|]. exact (V4 G).
  - intros a b N. rewrite H. destruct (lab t 0 a b) as [x|] eqn:L; [|reflexivity]. destruct (lab_some _ _ _ _ _ L) as (v & V1 & V2 & _). exfalso. exact (N v V1 (eq_sym V2)).
Qed.
Lemma cons_ok t g : good t -> InitializeGrids (width t) (show t) = Some g -> forall a b, g a b <> "XX" <-> constituent t a b.
Proof.
  intros G E a b. destruct (grid_ok t G) as (g' & E' & H). rewrite E in E'. injection E' as <-. rewrite H. split.
  - destruct (lab t 0 a b) as [x|] eqn:L; [|congruence]. intros _. destruct (lab_some _ _ _ _ _ L) as (v & V1 & V2 & _). exists v. auto.
  - intros (u & U1 & ->). destruct (lab_sub _ _ _ _ U1) as [x L]. rewrite L. destruct (lab_some _ _ _ _ _ L) as (v & V1 & _ & V3 & _). apply sub_good in V1; [|exact G]. inversion V1 as [? ? ? (_ & C & _)]; subst. exact C.
Qed.

(** * Distances *)
Lemma found_ok t g : good t -> InitializeGrids (width t) (show t) = Some g -> forall a b, found (width t) g a b = true <-> constituent t a b.
Proof.
  intros G E a b. rewrite <- (cons_ok t g G E). unfold found. rewrite !andb_true_iff, negb_true_iff, String.eqb_neq, !Nat.ltb_lt. split; [tauto|]. intros N. split; [|exact N].
  apply (cons_ok t g G E) in N. destruct N as (u & U & ->). assert (P := width_pos _ (sub_good _ _ _ _ U G)). apply sub_range in U. lia.
Qed.
Lemma near_ok t g : good t -> InitializeGrids (width t) (show t) = Some g -> forall i j k, k < j - i -> near (width t) g i j k = true <-> changed (constituent t) i j k.
Proof.
  intros G E i j k K. unfold near, changed. rewrite existsb_exists. split.
  - intros (l & I & H). apply in_seq in I. exists l, (k - l). split; [lia|]. apply orb_true_iff in H. destruct H as [H|H].
    + apply andb_true_iff in H. destruct H as [A B]. apply Nat.leb_le in A. apply (found_ok t g G E) in B. auto.
    + apply (found_ok t g G E) in H. right. split; [lia|exact H].
  - intros (l & r & <- & H). exists l. split; [apply in_seq; lia|]. replace (l + r - l) with r by lia. apply orb_true_iff. destruct H as [[A B]|[A B]].
    + left. apply andb_true_iff. split; [now apply Nat.leb_le|]. now apply (found_ok t g G E).
    + right. now apply (found_ok t g G E).
Qed.
Lemma search_ok len g i j : forall n k d, match search len g i j n k d with
  | Some m => (k <= m < k + n /\ near len g i j m = true /\ (forall m', k <= m' < m -> near len g i j m' = false)) \/
              ((forall m', k <= m' < k + n -> near len g i j m' = false) /\ (if n =? 0 then d = Some m else m = k + n - 1))
  | None => n = 0 /\ d = None end.
Proof.
  induction n as [|n IH]; intros k d; cbn [search].
  - destruct d; [|auto]. right. split; [intros; lia|reflexivity].
  - destruct (near len g i j k) eqn:E.
    + left. split; [lia|]. split; [exact E|]. intros; lia.
    + specialize (IH (k + 1) (Some k)). destruct (search len g i j n (k + 1) (Some k)) as [m|].
      * destruct IH as [(A & B & C)|[A B]].
        -- left. split; [lia|]. split; [exact B|]. intros m' H. destruct (Nat.eq_dec m' k) as [-> |]; [exact E|]. apply C. lia.
        -- right. split; [intros m' H; destruct (Nat.eq_dec m' k) as [-> |]; [exact E|]; apply A; lia|]. cbn. destruct n; cbn in B; [injection B as <-; lia|lia].
      * destruct IH as [_ IH]. discriminate IH.
Qed.
Lemma dist_zero t g i j : good t -> InitializeGrids (width t) (show t) = Some g -> constituent t i j -> min_dist (width t) g i j = Some 0.
Proof. intros G E C. unfold min_dist. apply (cons_ok t g G E) in C. apply String.eqb_neq in C. rewrite C. reflexivity. Qed.
Lemma dist_ok t g i j : good t -> InitializeGrids (width t) (show t) = Some g -> ~ constituent t i j -> i + 1 < j ->
  exists d, min_dist (width t) g i j = Some d /\ 0 < d < j - i /\ (forall k, 0 < k < d -> ~ changed (constituent t) i j k) /\ ((exists k, 0 < k < j - i /\ changed (constituent t) i j k) -> changed (constituent t) i j d).
Proof.
  intros G E C L. unfold min_dist. destruct (String.eqb_spec (g i j) "XX") as [_|N]; [|exfalso; apply C; now apply (cons_ok t g G E)]. cbn [negb].
  assert (S := search_ok (width t) g i j (j - i - 1) 1 None). destruct (search _ g i j (j - i - 1) 1 None) as [d|]; [|exfalso; lia]. exists d. split; [reflexivity|]. destruct S as [(A & B & D)|[A B]].
  - split; [lia|]. split.
    + intros k K H. apply (near_ok t g G E) in H; [|lia]. rewrite D in H by lia. discriminate H.
    + intros _. apply (near_ok t g G E); [lia|exact B].
  - replace (j - i - 1 =? 0) with false in B by (symmetry; apply Nat.eqb_neq; lia). split; [lia|]. split.
    + intros k K H. apply (near_ok t g G E) in H; [|lia]. rewrite A in H by lia. discriminate H.
    + intros (k & K & H). apply (near_ok t g G E) in H; [|lia]. rewrite A in H by lia. discriminate H.
Qed.
Lemma dist_unset t g i : good t -> InitializeGrids (width t) (show t) = Some g -> ~ constituent t i (i + 1) -> min_dist (width t) g i (i + 1) = None.
Proof.
  intros G E C. unfold min_dist. destruct (String.eqb_spec (g i (i + 1)) "XX") as [_|N]; [|exfalso; apply C; now apply (cons_ok t g G E)]. cbn [negb]. replace (i + 1 - i - 1) with 0 by lia. reflexivity.
Qed.
Lemma dist_iff t g i j d : good t -> InitializeGrids (width t) (show t) = Some g -> min_dist (width t) g i j = Some d -> (d = 0 <-> constituent t i j).
Proof.
  intros G E D. split.
  - intros ->. destruct (String.eqb_spec (g i j) "XX") as [X|N]; [|now apply (cons_ok t g G E)]. exfalso. unfold min_dist in D. rewrite X in D. change (search (width t) g i j (j - i - 1) 1 None = Some 0) in D.
    assert (S := search_ok (width t) g i j (j - i - 1) 1 None). rewrite D in S. destruct S as [(A & _)|[_ A]]; [lia|]. destruct (j - i - 1 =? 0) eqn:Z; [discriminate A|]. apply Nat.eqb_neq in Z. lia.
  - intros C. rewrite (dist_zero t g i j G E C) in D. now injection D as <-.
Qed.
Lemma binary_ok t g i j spans ants v : good t -> InitializeGrids (width t) (show t) = Some g -> Forall2 (fun p d => min_dist (width t) g (fst p) (snd p) = Some d) spans ants ->
  PM (width t) g Binary i j ants = Some v -> (v == 1 /\ Forall (fun p => constituent t (fst p) (snd p)) ((i, j) :: spans) \/ v == 0 /\ ~ Forall (fun p => constituent t (fst p) (snd p)) ((i, j) :: spans))%Q.
Proof.
  intros G E A. unfold PM. destruct (_ && _); [|discriminate]. destruct (min_dist (width t) g i j) as [d|] eqn:D; [|discriminate]. cbn [bind]. intros V. injection V as <-.
  assert (S : list_sum ants = 0 <-> Forall (fun p => constituent t (fst p) (snd p)) spans).
  - clear D. induction A as [|p a spans ants H _ IH]; [split; [constructor|reflexivity]|]. change (list_sum (a :: ants)) with (a + list_sum ants). assert (Q := dist_iff _ _ _ _ _ G E H). split.
    + intros Z. constructor; [apply Q; lia|apply IH; lia].
    + intros F. inversion F; subst. assert (a = 0) by now apply Q. assert (list_sum ants = 0) by now apply IH. lia.
  - assert (Q := dist_iff _ _ _ _ _ G E D). destruct (Nat.eqb_spec (d + list_sum ants) 0) as [Z|Z].
    + left. split; [reflexivity|]. constructor; [apply Q; lia|apply S; lia].
    + right. split; [reflexivity|]. intros F. inversion F as [|? ? F1 F2]; subst. apply Q in F1. apply S in F2. lia.
Qed.
Lemma relative_01 len g i j ants v : i < j -> PM len g Relative i j ants = Some v -> exists d, min_dist len g i j = Some d /\ (v == if d =? 0 then 1 else 0)%Q.
Proof.
  intros L. unfold PM. destruct (_ && _); [|discriminate]. destruct (min_dist len g i j) as [d|]; [|discriminate]. cbn [bind]. intros V. injection V as <-. exists d. split; [reflexivity|].
  destruct (Nat.eqb_spec d 0) as [-> |N]; [rewrite Nat.add_0_r, Nat.div_same by lia; reflexivity|]. rewrite Nat.div_small by lia. reflexivity.
Qed.
Lemma value_ok len g m i j ants d : i < len -> j <= len -> length ants <= 8 -> min_dist len g i j = Some d -> exists v, PM len g m i j ants = Some v.
Proof.
  intros A B C D. unfold PM. rewrite D. replace ((length ants <=? 8) && (i <? len) && (j <? len + 1)) with true; [eexists; reflexivity|].
  symmetry. rewrite !andb_true_iff, Nat.leb_le, !Nat.ltb_lt. lia.
Qed.
Lemma linear_ok len g i j ants d : i < len -> j <= len -> length ants <= 8 -> min_dist len g i j = Some d ->
  exists v, PM len g Linear i j ants = Some v /\ (v * inject_Z (Z.of_nat (d + 1)) == 1)%Q.
Proof.
  intros A B C D. unfold PM. rewrite D. replace ((length ants <=? 8) && (i <? len) && (j <? len + 1)) with true.
  - eexists. split; [reflexivity|]. unfold Qdiv. rewrite Qmult_1_l, Qmult_comm. apply Qmult_inv_r. unfold Qeq. cbn. lia.
  - symmetry. rewrite !andb_true_iff, Nat.leb_le, !Nat.ltb_lt. lia.
Qed.
Lemma close_mono n n' s s' : n <= n' -> close n s = Some s' -> close n' s = Some s'.
Proof.
  intros L. unfold close. destruct (cur s) as [[i l]|]; [|discriminate]. destruct (stk s) as [|c st]; [discriminate|]. destruct (_ && _) eqn:E; [|discriminate]. apply andb_true_iff in E. rewrite !Nat.ltb_lt in E.
  replace ((i <? n') && (pos s <? n' + 1)) with true; [auto|]. symmetry. rewrite andb_true_iff, !Nat.ltb_lt. lia.
Qed.
Lemma outer_mono n n' s c s' : n <= n' -> outer n s c = Some s' -> outer n' s c = Some s'.
Proof. intros L. unfold outer. destruct (Ascii.eqb c "("); [auto|]. destruct (Ascii.eqb c ")"); [now apply close_mono|]. auto. Qed.
Lemma word_mono n n' s m s' : n <= n' -> word n s m = Some s' -> word n' s m = Some s'.
Proof. intros L. unfold word. destruct (Nat.leb_spec (S (pos s)) n); [|discriminate]. destruct (Nat.leb_spec (S (pos s)) n'); [auto|lia]. Qed.
Lemma step_mono n n' s c s' : n <= n' -> step n s c = Some s' -> step n' s c = Some s'.
Proof.
  intros L. unfold step. destruct (md s); auto.
  - now apply outer_mono.
  - destruct (blank c); [auto|]. now apply outer_mono.
  - destruct (Ascii.eqb c ")").
    + destruct (word n s Outer) as [x|] eqn:E; [|discriminate]. rewrite (word_mono _ _ _ _ _ L E). cbn [bind]. now apply outer_mono.
    + destruct (Ascii.eqb c " "); [now apply word_mono|auto].
  - destruct (Ascii.eqb c " "); [auto|]. destruct (Ascii.eqb c ")"); [now apply outer_mono|auto].
Qed.
Lemma run_mono n n' t : n <= n' -> forall s s', run n s t = Some s' -> run n' s t = Some s'.
Proof.
  intros L. induction t as [|c t IH]; intros s s'; [auto|]. cbn [run]. destruct (step n s c) as [x|] eqn:E; [|discriminate]. rewrite (step_mono _ _ _ _ _ L E). cbn [bind]. apply IH.
Qed.
Lemma length_ok t n : good t -> n <> width t -> InitializeGrids n (show t) = None.
Proof.
  intros G N. destruct (reads_ok (Nat.max n (width t)) t G Outer [] None 0 (fun _ _ => "XX") (or_introl eq_refl) ltac:(lia)) as (h & E & H).
  unfold InitializeGrids. destruct (show t) eqn:S; [reflexivity|]. rewrite <- S in *. destruct (run n _ (show t)) as [x|] eqn:R; [|reflexivity]. cbn [bind].
  assert (Q := R). apply (run_mono _ (Nat.max n (width t))) in Q; [|lia]. rewrite E in Q. injection Q as <-. cbn [md bind pos tree_]. change (0 + width t) with (width t). destruct (Nat.eqb_spec (width t) n); [congruence|reflexivity].
Qed.
