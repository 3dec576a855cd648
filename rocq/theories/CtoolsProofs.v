(** Proofs about Ctools.v. *)
From Coq Require Import List Arith Bool Lia Permutation.
From Verif Require Import Opt Ctools CtoolsSpec.
Import ListNotations.
Open Scope opt_scope.

Section Div.
Variable div : nat.
Notation words := (Ctools.words div).
Notation lines := (Ctools.lines div).
Lemma div_cases a : ~ In div a \/ exists b c, a = b ++ div :: c /\ ~ In div b.
Proof.
  induction a as [|x a [IH|(b & c & -> & IH)]]; [left; intros []| |].
  - destruct (Nat.eq_dec x div) as [-> |N]; [right; exists [], a; auto|]. left. intros [E|E]; auto.
  - destruct (Nat.eq_dec x div) as [-> |N]; right; [exists [], (b ++ div :: c); auto|]. exists (x :: b), c. split; [reflexivity|]. intros [E|E]; auto.
Qed.
Lemma ReadLine_line a b : ~ In div a -> ReadLine div (a ++ div :: b) = (a, b).
Proof.
  unfold ReadLine. induction a as [|x a IH]; intros H; cbn; [now rewrite Nat.eqb_refl|]. destruct (Nat.eqb_spec x div); [exfalso; apply H; now left|]. rewrite IH by (intros I; apply H; now right). reflexivity.
Qed.
Lemma ReadLine_one a : ~ In div a -> ReadLine div a = (a, []).
Proof.
  unfold ReadLine. induction a as [|x a IH]; intros H; cbn; [reflexivity|]. destruct (Nat.eqb_spec x div); [exfalso; apply H; now left|]. rewrite IH by (intros I; apply H; now right). reflexivity.
Qed.
Definition pushes (a : list nat) (l : list (list nat)) : list (list nat) := fold_left (fun l x => push_last x l) a l.
Definition inserts (a : list nat) (v : option (list nat)) : option (list nat) := fold_left (fun v x => insert x v) a v.
Lemma push_last_app x s b : push_last x (s ++ [b]) = s ++ [b ++ [x]].
Proof. induction s as [|y s IH]; [reflexivity|]. cbn [List.app push_last]. rewrite IH. destruct s; reflexivity. Qed.
Lemma pushes_app a : forall s b, pushes a (s ++ [b]) = s ++ [b ++ a].
Proof. induction a as [|x a IH]; intros s b; cbn; [now rewrite app_nil_r|]. rewrite push_last_app. unfold pushes in IH. rewrite IH. now rewrite <- app_assoc. Qed.
Lemma words_src skip a r : ~ In div a -> forall S sv t tv,
  words skip (a ++ r) 0 {| src := S; src_vocab := sv; trg := t; trg_vocab := tv |} = words skip r 0 {| src := if skip then S else pushes a S; src_vocab := inserts a sv; trg := t; trg_vocab := tv |}.
Proof.
  induction a as [|x a IH]; intros H S sv t tv; [destruct skip; reflexivity|]. cbn [List.app Ctools.words]. destruct (Nat.eqb_spec x div); [exfalso; apply H; now left|]. cbn [Nat.eqb src src_vocab trg trg_vocab].
  rewrite IH by (intros I; apply H; now right). destruct skip; reflexivity.
Qed.
Lemma words_trg skip a r : ~ In div a -> forall S sv t tv,
  words skip (a ++ r) 1 {| src := S; src_vocab := sv; trg := Some t; trg_vocab := tv |} = words skip r 1 {| src := S; src_vocab := sv; trg := Some (if skip then t else pushes a t); trg_vocab := inserts a tv |}.
Proof.
  induction a as [|x a IH]; intros H S sv t tv; [destruct skip; reflexivity|]. cbn [List.app Ctools.words]. destruct (Nat.eqb_spec x div); [exfalso; apply H; now left|]. cbn [Nat.eqb src src_vocab trg trg_vocab].
  destruct skip; cbn [option_map]; rewrite IH by (intros I; apply H; now right); reflexivity.
Qed.
Lemma words_line skip a b S sv t tv : ~ In div a -> ~ In div b ->
  words skip (a ++ div :: b) 0 {| src := if skip then S else S ++ [[]]; src_vocab := sv; trg := Some t; trg_vocab := tv |} =
  Some (1, {| src := if skip then S else S ++ [a]; src_vocab := inserts a sv; trg := Some (if skip then t else t ++ [b]); trg_vocab := inserts b tv |}).
Proof.
  intros A B. rewrite words_src by exact A. cbn [Ctools.words]. rewrite Nat.eqb_refl. change (1 <? 1) with false. cbn [src src_vocab trg trg_vocab bind]. rewrite <- (app_nil_r b) at 1. rewrite words_trg by exact B. cbn [Ctools.words].
  destruct skip; [reflexivity|]. rewrite !pushes_app. reflexivity.
Qed.
Lemma words_one skip a S sv t tv : ~ In div a ->
  words skip a 0 {| src := if skip then S else S ++ [[]]; src_vocab := sv; trg := t; trg_vocab := tv |} = Some (0, {| src := if skip then S else S ++ [a]; src_vocab := inserts a sv; trg := t; trg_vocab := tv |}).
Proof. intros A. rewrite <- (app_nil_r a) at 1. rewrite words_src by exact A. cbn [Ctools.words]. destruct skip; [reflexivity|]. rewrite pushes_app. reflexivity. Qed.
(** lines of two sides *)
Notation clean := (CtoolsSpec.clean div).
Lemma lines_ok rank size ps : Forall clean ps -> forall n k S sv t tv, share rank size n ps k ->
  lines rank size (map (line div) ps) n {| src := S; src_vocab := sv; trg := Some t; trg_vocab := tv |} =
  Some {| src := S ++ map fst k; src_vocab := fold_left (fun v p => inserts (fst p) v) ps sv; trg := Some (t ++ map snd k); trg_vocab := fold_left (fun v p => inserts (snd p) v) ps tv |}.
Proof.
  induction 1 as [|[a b] ps [A B] F IH]; intros n k S sv t tv H; inversion H as [|? ? ? k' M H'|? ? ? ? M H']; subst.
  - cbn. now rewrite !app_nil_r.
  - cbn [map Ctools.lines src src_vocab trg trg_vocab]. unfold line at 1. cbn [fst snd] in *. rewrite Nat.eqb_refl. cbn [negb]. rewrite (words_line false) by assumption. cbn [bind trg Nat.add Nat.eqb]. rewrite Nat.add_1_r. rewrite (IH (Datatypes.S n) k') by exact H'.
    rewrite <- !app_assoc. reflexivity.
  - cbn [map Ctools.lines src src_vocab trg trg_vocab]. unfold line at 1. cbn [fst snd] in *. replace (n mod size =? rank) with false by (symmetry; now apply Nat.eqb_neq). cbn [negb]. rewrite (words_line true) by assumption. cbn [bind trg Nat.add Nat.eqb]. rewrite Nat.add_1_r. now rewrite (IH (Datatypes.S n) k) by exact H'.
Qed.
Lemma lines_one rank size ls : Forall (fun l => ~ In div l) ls -> forall n k S sv tv, share rank size n ls k ->
  lines rank size ls n {| src := S; src_vocab := sv; trg := None; trg_vocab := tv |} = Some {| src := S ++ k; src_vocab := fold_left (fun v p => inserts p v) ls sv; trg := None; trg_vocab := tv |}.
Proof.
  induction 1 as [|a ls A F IH]; intros n k S sv tv H; inversion H as [|? ? ? k' M H'|? ? ? ? M H']; subst.
  - cbn. now rewrite !app_nil_r.
  - cbn [Ctools.lines src src_vocab trg trg_vocab]. rewrite Nat.eqb_refl. cbn [negb]. rewrite (words_one false) by assumption. cbn [bind trg Nat.add Nat.eqb]. rewrite Nat.add_1_r. rewrite (IH (Datatypes.S n) k') by exact H'. rewrite <- !app_assoc. reflexivity.
  - cbn [Ctools.lines src src_vocab trg trg_vocab]. replace (n mod size =? rank) with false by (symmetry; now apply Nat.eqb_neq). cbn [negb]. rewrite (words_one true) by assumption. cbn [bind trg Nat.add Nat.eqb]. rewrite Nat.add_1_r. now rewrite (IH (Datatypes.S n) k) by exact H'.
Qed.
(** sets *)
Lemma insert_ok x l : NoDup l -> exists l', insert x (Some l) = Some l' /\ NoDup l' /\ forall y, In y l' <-> In y l \/ y = x.
Proof.
  intros N. cbn. destruct (existsb (Nat.eqb x) l) eqn:E.
  - exists l. split; [reflexivity|]. split; [exact N|]. intros y. split; [auto|]. intros [H| ->]; [exact H|]. apply existsb_exists in E. destruct E as (z & I & Z). apply Nat.eqb_eq in Z. now subst.
  - exists (l ++ [x]). split; [reflexivity|]. split.
    + apply NoDup_rev in N. rewrite <- (rev_involutive (l ++ [x])). apply NoDup_rev. rewrite rev_app_distr. cbn. constructor; [|exact N]. rewrite <- in_rev. intros I. assert (existsb (Nat.eqb x) l = true) by (apply existsb_exists; exists x; split; [exact I|apply Nat.eqb_refl]). congruence.
    + intros y. rewrite in_app_iff. cbn. intuition.
Qed.
Lemma inserts_ok a : forall l, NoDup l -> exists l', inserts a (Some l) = Some l' /\ NoDup l' /\ forall y, In y l' <-> In y l \/ In y a.
Proof.
  induction a as [|x a IH]; intros l N; [exists l; cbn; intuition|]. destruct (insert_ok x l N) as (l1 & E1 & N1 & H1). destruct (IH l1 N1) as (l2 & E2 & N2 & H2). exists l2. cbn [inserts fold_left]. rewrite E1. split; [exact E2|]. split; [exact N2|].
  intros y. rewrite H2, H1. cbn. intuition.
Qed.
Lemma vocab_ok {A} (f : A -> list nat) ps : forall l, NoDup l -> exists l', fold_left (fun v p => inserts (f p) v) ps (Some l) = Some l' /\ NoDup l' /\ forall y, In y l' <-> In y l \/ exists p, In p ps /\ In y (f p).
Proof.
  induction ps as [|p ps IH]; intros l N; cbn [fold_left].
  - exists l. split; [reflexivity|]. split; [exact N|]. intros y. split; [auto|]. intros [H|(p & [] & _)]. exact H.
  - destruct (inserts_ok (f p) l N) as (l1 & E1 & N1 & H1). rewrite E1. destruct (IH l1 N1) as (l2 & E2 & N2 & H2). exists l2. split; [exact E2|]. split; [exact N2|]. intros y. rewrite H2, H1. split.
    + intros [[H|H]|(q & Q & H)]; [auto|right; exists p; cbn; auto|right; exists q; cbn; auto].
    + intros [H|(q & [<- |Q] & H)]; [auto|auto|right; exists q; auto].
Qed.
Lemma inserts_none a : inserts a None = None.
Proof. induction a; [reflexivity|]. exact IHa. Qed.
Lemma vocab_none {A} (f : A -> list nat) ps : fold_left (fun v p => inserts (f p) v) ps None = None.
Proof. induction ps; cbn [fold_left]; [reflexivity|]. now rewrite inserts_none. Qed.
Lemma vocab_of {A} (f : A -> list nat) ps (w : bool) :
  match fold_left (fun v p => inserts (f p) v) ps (if w then Some [] else None) with Some v => w = true /\ set_of v (map f ps) | None => w = false end.
Proof.
  destruct w; [|now rewrite vocab_none]. destruct (vocab_ok f ps [] (NoDup_nil _)) as (l & -> & N & H). split; [reflexivity|]. split; [exact N|]. intros x. rewrite H. split.
  - intros [[]|(p & I & X)]. exists (f p). split; [now apply in_map|exact X].
  - intros (s & I & X). apply in_map_iff in I. destruct I as (p & <- & I). right. exists p. auto.
Qed.
Lemma both_ok rank size sv tv ps k : rank < size -> Forall clean ps -> share rank size 0 ps k -> exists c, ReadFromFile div rank size sv true tv (map (line div) ps) = Some c /\
  src c = map fst k /\ trg c = Some (map snd k) /\
  match src_vocab c with Some v => sv = true /\ set_of v (map fst ps) | None => sv = false end /\ match trg_vocab c with Some v => tv = true /\ set_of v (map snd ps) | None => tv = false end.
Proof.
  intros R F H. unfold ReadFromFile. replace ((0 <? size) && (rank <? size)) with true by (symmetry; rewrite andb_true_iff, !Nat.ltb_lt; lia). rewrite (lines_ok rank size ps F 0 k) by exact H. eexists. split; [reflexivity|]. cbn [src trg src_vocab trg_vocab List.app].
  split; [reflexivity|]. split; [reflexivity|]. split; apply vocab_of.
Qed.
Lemma one_ok rank size sv tv ls k : rank < size -> Forall (fun l => ~ In div l) ls -> share rank size 0 ls k -> exists c, ReadFromFile div rank size sv false tv ls = Some c /\
  src c = k /\ trg c = None /\ match src_vocab c with Some v => sv = true /\ set_of v ls | None => sv = false end.
Proof.
  intros R F H. unfold ReadFromFile. replace ((0 <? size) && (rank <? size)) with true by (symmetry; rewrite andb_true_iff, !Nat.ltb_lt; lia). rewrite (lines_one rank size ls F 0 k) by exact H. eexists. split; [reflexivity|]. cbn [src trg src_vocab List.app].
  split; [reflexivity|]. split; [reflexivity|]. assert (V := vocab_of (fun l : list nat => l) ls sv). rewrite map_id in V. exact V.
Qed.
(** what is refused *)
Lemma words_bad skip tmp S sv t tv s c : words skip tmp 0 {| src := if skip then S else S ++ [[]]; src_vocab := sv; trg := t; trg_vocab := tv |} = Some (s, c) ->
  match s with 0 => ~ In div tmp /\ (trg c = t) | 1 => (exists p, tmp = line div p /\ clean p) /\ t <> None /\ trg c <> None | _ => False end.
Proof.
  destruct (div_cases tmp) as [N|(a & b & -> & A)].
  - rewrite words_one by exact N. intros H. injection H as <- <-. auto.
  - destruct (div_cases b) as [B|(b1 & b2 & -> & B)].
    + destruct t as [t|]; [|rewrite words_src by exact A; cbn [Ctools.words]; rewrite Nat.eqb_refl; discriminate]. rewrite words_line by assumption. intros H. injection H as <- <-. split; [exists (a, b); repeat split; assumption|]. split; discriminate.
    + destruct t as [t|]; rewrite words_src by exact A; cbn [Ctools.words]; rewrite Nat.eqb_refl; [|discriminate]. change (1 <? 1) with false. cbn [src src_vocab trg trg_vocab bind]. rewrite words_trg by exact B. cbn [Ctools.words]. rewrite Nat.eqb_refl. discriminate.
Qed.
Lemma lines_bad rank size ls : forall n S sv t tv c, lines rank size ls n {| src := S; src_vocab := sv; trg := t; trg_vocab := tv |} = Some c ->
  match t with Some _ => exists ps, ls = map (line div) ps /\ Forall clean ps | None => Forall (fun l => ~ In div l) ls end.
Proof.
  induction ls as [|l ls IH]; intros n S sv t tv c H; [destruct t; [exists []; split; [reflexivity|constructor]|constructor]|]. cbn [Ctools.lines src src_vocab trg trg_vocab] in H.
  destruct (words _ l 0 _) as [[s c']|] eqn:W; [|discriminate H]. apply words_bad in W. cbn [bind] in H. destruct c' as [S' sv' t' tv']. cbn [trg] in *. destruct s as [|[|s]]; [| |destruct W].
  - destruct W as [W ->]. destruct t as [t|]; [discriminate H|]. constructor; [exact W|]. apply IH in H. exact H.
  - destruct W as ((p & -> & P) & T & T'). destruct t as [t|]; [|contradiction]. destruct t' as [t'|]; [|contradiction]. cbn [Nat.add Nat.eqb] in H. apply IH in H. destruct H as (ps & -> & F). exists (p :: ps). split; [reflexivity|]. now constructor.
Qed.
Lemma refused_ok rank size sv t tv ls c : ReadFromFile div rank size sv t tv ls = Some c ->
  rank < size /\ if t then exists ps, ls = map (line div) ps /\ Forall clean ps else Forall (fun l => ~ In div l) ls.
Proof.
  unfold ReadFromFile. destruct (_ && _) eqn:E; [|discriminate]. apply andb_true_iff in E. rewrite !Nat.ltb_lt in E. intros H. apply lines_bad in H. split; [lia|]. destruct t; exact H.
Qed.
End Div.

(** * Shares *)
Fixpoint take {A} (rank size n : nat) (l : list A) : list A := match l with [] => [] | x :: r => if n mod size =? rank then x :: take rank size (S n) r else take rank size (S n) r end.
Lemma take_ok {A} rank size (l : list A) : forall n k, share rank size n l k <-> k = take rank size n l.
Proof.
  induction l as [|x l IH]; intros n k; cbn [take].
  - split; [intros H; now inversion H|intros ->; constructor].
  - split.
    + intros H. inversion H as [|? ? ? k' M H'|? ? ? ? M H']; subst; apply IH in H'; subst.
      * now rewrite Nat.eqb_refl.
      * apply Nat.eqb_neq in M. now rewrite M.
    + intros ->. destruct (Nat.eqb_spec (n mod size) rank); [apply share_take|apply share_skip]; auto; now apply IH.
Qed.
Lemma split_one {A} (x : A) q (f : nat -> list A) L : NoDup L -> In q L -> Permutation (concat (map (fun r => if q =? r then x :: f r else f r) L)) (x :: concat (map f L)).
Proof.
  induction L as [|r L IH]; intros N I; [destruct I|]. inversion N as [|? ? N1 N2]; subst. cbn [map concat]. destruct (Nat.eqb_spec q r) as [-> |D].
  - cbn [List.app]. apply perm_skip. apply Permutation_app_head. replace (map (fun r0 => if r =? r0 then x :: f r0 else f r0) L) with (map f L); [reflexivity|]. apply map_ext_in. intros a Ia. destruct (Nat.eqb_spec r a) as [-> |]; [contradiction|reflexivity].
  - destruct I as [I|I]; [congruence|]. rewrite (IH N2 I). symmetry. apply Permutation_middle.
Qed.
Lemma shares_ok {A} size (l : list A) (ks : nat -> list A) : 0 < size -> (forall r, r < size -> share r size 0 l (ks r)) -> Permutation (concat (map ks (seq 0 size))) l.
Proof.
  intros P H. replace (map ks (seq 0 size)) with (map (fun r => take r size 0 l) (seq 0 size)).
  - clear ks H. generalize 0 at 1 as n. induction l as [|x l IH]; intros n.
    + cbn [take]. replace (concat (map (fun _ => []) (seq 0 size))) with (@nil A); [constructor|]. generalize 0. induction size; intros k; [reflexivity|]. cbn. destruct size; [reflexivity|]. apply IHsize. lia.
    + cbn [take]. rewrite (split_one x (n mod size) (fun r => take r size (S n) l)); [apply perm_skip, IH|apply seq_NoDup|]. apply in_seq. assert (n mod size < size) by (apply Nat.mod_upper_bound; lia). lia.
  - apply map_ext_in. intros r I. apply in_seq in I. symmetry. apply take_ok. apply H. lia.
Qed.
Lemma share_ex {A} rank size n (l : list A) : exists k, share rank size n l k.
Proof. exists (take rank size n l). now apply take_ok. Qed.
