From Coq Require Import List Arith Bool Lia.
From Verif Require Import PCQueue.
Import ListNotations.

(** * Specification *)
Section Spec.
Context {T : Type}.

(** Values deposited / taken by thread [i], in order. *)
Definition of_thread (i : nat) (l : list (nat * T)) : list T :=
  map snd (filter (fun p => fst p =? i) l).

(** The values its completed calls report. *)
Fixpoint produced_results (rs : list (result (T:=T))) : list T :=
  match rs with [] => [] | Produced v :: r => v :: produced_results r | _ :: r => produced_results r end.
Fixpoint consumed_results (rs : list (result (T:=T))) : list T :=
  match rs with [] => [] | Consumed v :: r => v :: consumed_results r | _ :: r => consumed_results r end.

(** A result a call may have. *)
Definition answers (c : call (T:=T)) (r : result (T:=T)) : Prop :=
  match c, r with
  | _, Threw => True
  | Produce v, Produced w => v = w
  | Consume, Consumed _ => True
  | _, _ => False
  end.

(** Slot which the next step of a thread reads or writes, and whether it writes. *)
Definition slot_access (s : state (T:=T)) (t : thread (T:=T)) : option (nat * bool) :=
  match at_ t with
  | InP PAssign _ => Some (produce_at_ (q s), true)
  | InC CAssign => Some (consume_at_ (q s), false)
  | _ => None
  end.
(** The next step of a thread reads and writes the producers' (consumers') cursor. *)
Definition moves_producer_cursor (t : thread (T:=T)) : Prop :=
  match at_ t with InP PAssign _ | InP PAdvance _ => True | _ => False end.
Definition moves_consumer_cursor (t : thread (T:=T)) : Prop :=
  match at_ t with InC CAssign | InC (CAdvance _) => True | _ => False end.

Definition finished (t : thread (T:=T)) : Prop := at_ t = Idle /\ todo t = [].
Definition waits_to_produce (t : thread (T:=T)) : Prop := exists v, at_ t = InP PWait v.
Definition waits_to_consume (t : thread (T:=T)) : Prop := at_ t = InC CWait.
End Spec.

Section P.
Context {T : Type}.
Variable size : nat.
Local Notation thread := (thread (T:=T)).
Local Notation queue := (queue (T:=T)).
Local Notation pc := (pc (T:=T)).
Implicit Types (ts : list thread) (t : thread) (x : queue) (p : pc).

Lemma set_nth_length : forall (A : Type) (l : list A) i (x : A), length (set_nth l i x) = length l.
Proof. induction l; intros [|i] x; cbn; try rewrite IHl; reflexivity. Qed.
Lemma nth_set_eq : forall (A : Type) (l : list A) i (x : A), i < length l -> nth_error (set_nth l i x) i = Some x.
Proof. induction l; intros [|i] x H; cbn in *; try lia; [reflexivity|]. apply IHl. lia. Qed.
Lemma nth_set_neq : forall (A : Type) (l : list A) i j (x : A), i <> j -> nth_error (set_nth l i x) j = nth_error l j.
Proof. induction l; intros [|i] [|j] x H; cbn; try lia; try reflexivity. apply IHl. lia. Qed.

Fixpoint cnt (f : pc -> nat) ts : nat :=
  match ts with [] => 0 | t :: r => f (at_ t) + cnt f r end.

Lemma cnt_set : forall f ts i t t', nth_error ts i = Some t ->
  cnt f (set_nth ts i t') + f (at_ t) = cnt f ts + f (at_ t').
Proof.
  induction ts as [|u r IH]; intros [|i] t t' H; cbn in *; try discriminate.
  - injection H as ->. lia.
  - specialize (IH i t t' H). lia.
Qed.
Lemma cnt_ge : forall f ts i t, nth_error ts i = Some t -> f (at_ t) <= cnt f ts.
Proof.
  induction ts as [|u r IH]; intros [|i] t H; cbn in *; try discriminate.
  - injection H as ->. lia.
  - specialize (IH i t H). lia.
Qed.

(** Calls holding a filled slot, respectively an empty one. *)
Definition fU p : nat := match p with
  | InP PUnlock _ | InP PPost _ | InC CLock | InC CAssign | InC (CAdvance _) | InC CXPost => 1 | _ => 0 end.
Definition fE p : nat := match p with
  | InP PLock _ | InP PAssign _ | InP PAdvance _ | InP PXPost _ | InC (CUnlock _) | InC (CPost _) => 1 | _ => 0 end.
Definition inP p : bool := match p with
  | InP PAssign _ | InP PAdvance _ | InP PUnlock _ | InP PXPost _ | InP PXUnlock _ => true | _ => false end.
Definition inC p : bool := match p with
  | InC CAssign | InC (CAdvance _) | InC (CUnlock _) | InC CXPost | InC CXUnlock => true | _ => false end.

Local Notation D x := (length (deposited x)).
Local Notation K x := (length (taken x)).

Definition Counts (s : state) :=
  D (q s) = K (q s) + used_ (q s) + cnt fU (threads s) /\
  size + K (q s) = D (q s) + empty_ (q s) + cnt fE (threads s).

Lemma inner_counts : forall i x p x' p', inner size i x p x' p' ->
  forall a b,
  D x = K x + used_ x + (a + fU p) -> size + K x = D x + empty_ x + (b + fE p) ->
  D x' = K x' + used_ x' + (a + fU p') /\ size + K x' = D x' + empty_ x' + (b + fE p').
Proof.
  intros i x p x' p' H a b A B. destruct H; cbn in *; rewrite ?app_length; cbn; lia.
Qed.
Lemma final_counts : forall i x p x' r, final i x p x' r ->
  forall a b,
  D x = K x + used_ x + (a + fU p) -> size + K x = D x + empty_ x + (b + fE p) ->
  D x' = K x' + used_ x' + a /\ size + K x' = D x' + empty_ x' + b.
Proof. intros i x p x' r H a b A B. destruct H; cbn in *; lia. Qed.

Lemma step_counts : forall s s', step size s s' -> Counts s -> Counts s'.
Proof.
  intros s s' H [A B]. destruct H as [x ts i t c r N I C|x ts i t x' p' N IN|x ts i t x' r N F]; cbn [q threads] in *.
  - pose proof (cnt_set fU ts i t {| at_ := entry c; todo := r; results := results t |} N) as U.
    pose proof (cnt_set fE ts i t {| at_ := entry c; todo := r; results := results t |} N) as E.
    cbn [at_] in U, E. rewrite I in U, E. unfold Counts. cbn [q threads].
    destruct c; cbn [entry fU fE] in U, E |- *; lia.
  - pose proof (cnt_set fU ts i t {| at_ := p'; todo := todo t; results := results t |} N) as U.
    pose proof (cnt_set fE ts i t {| at_ := p'; todo := todo t; results := results t |} N) as E.
    pose proof (cnt_ge fU ts i t N) as GU. pose proof (cnt_ge fE ts i t N) as GE.
    cbn [at_] in U, E.
    destruct (inner_counts _ _ _ _ _ IN (cnt fU ts - fU (at_ t)) (cnt fE ts - fE (at_ t))) as [A' B']; [lia|lia|].
    unfold Counts. cbn [q threads]. lia.
  - pose proof (cnt_set fU ts i t {| at_ := Idle; todo := todo t; results := results t ++ [r] |} N) as U.
    pose proof (cnt_set fE ts i t {| at_ := Idle; todo := todo t; results := results t ++ [r] |} N) as E.
    pose proof (cnt_ge fU ts i t N) as GU. pose proof (cnt_ge fE ts i t N) as GE.
    cbn [at_] in U, E. change (fU Idle) with 0 in U. change (fE Idle) with 0 in E.
    destruct (final_counts _ _ _ _ _ F (cnt fU ts - fU (at_ t)) (cnt fE ts - fE (at_ t))) as [A' B']; [lia|lia|].
    unfold Counts. cbn [q threads]. lia.
Qed.

(** ** Locks *)
Definition Locks (s : state) :=
  (forall i t, nth_error (threads s) i = Some t -> inP (at_ t) = true -> produce_lock (q s) = Some i) /\
  (forall i t, nth_error (threads s) i = Some t -> inC (at_ t) = true -> consume_lock (q s) = Some i) /\
  (forall i, produce_lock (q s) = Some i -> exists t, nth_error (threads s) i = Some t /\ inP (at_ t) = true) /\
  (forall i, consume_lock (q s) = Some i -> exists t, nth_error (threads s) i = Some t /\ inC (at_ t) = true).

(** How a step of thread [i] may change a lock. *)
Definition lock_move (i : nat) (inx : pc -> bool) p p' (l l' : option nat) :=
  (inx p = inx p' /\ l = l') \/ (inx p = false /\ inx p' = true /\ l = None /\ l' = Some i) \/
  (inx p = true /\ inx p' = false /\ l' = None).

Lemma lock_half : forall inx ts i t t' l l',
  nth_error ts i = Some t -> lock_move i inx (at_ t) (at_ t') l l' ->
  (forall j u, nth_error ts j = Some u -> inx (at_ u) = true -> l = Some j) ->
  (forall j, l = Some j -> exists u, nth_error ts j = Some u /\ inx (at_ u) = true) ->
  (forall j u, nth_error (set_nth ts i t') j = Some u -> inx (at_ u) = true -> l' = Some j) /\
  (forall j, l' = Some j -> exists u, nth_error (set_nth ts i t') j = Some u /\ inx (at_ u) = true).
Proof.
  intros inx ts i t t' l l' N M A B.
  assert (LI : i < length ts) by (apply nth_error_Some; congruence).
  split.
  - intros j u J U. destruct (Nat.eq_dec i j) as [<-|NE].
    + rewrite nth_set_eq in J by exact LI. injection J as <-.
      destruct M as [[M1 M2]|[(M1 & M2 & M3 & M4)|(M1 & M2 & M3)]]; [|exact M4|congruence].
      subst l'. apply (A i t N). congruence.
    + rewrite nth_set_neq in J by exact NE. pose proof (A j u J U) as AJ.
      destruct M as [[M1 M2]|[(M1 & M2 & M3 & M4)|(M1 & M2 & M3)]]; [congruence|congruence|].
      pose proof (A i t N M1). congruence.
  - intros j J. destruct M as [[M1 M2]|[(M1 & M2 & M3 & M4)|(M1 & M2 & M3)]]; [| |congruence].
    + subst l'. destruct (B j J) as (u & U1 & U2). destruct (Nat.eq_dec i j) as [<-|NE].
      * exists t'. split; [apply nth_set_eq, LI|]. rewrite <- M1. congruence.
      * exists u. split; [rewrite nth_set_neq by exact NE; exact U1|exact U2].
    + assert (j = i) as -> by congruence. exists t'. split; [apply nth_set_eq, LI|exact M2].
Qed.

Lemma inner_locks : forall i x p x' p', inner size i x p x' p' ->
  lock_move i inP p p' (produce_lock x) (produce_lock x') /\ lock_move i inC p p' (consume_lock x) (consume_lock x').
Proof. intros i x p x' p' H. unfold lock_move. destruct H; cbn; tauto. Qed.
Lemma final_locks : forall i x p x' r, final i x p x' r ->
  lock_move i inP p Idle (produce_lock x) (produce_lock x') /\ lock_move i inC p Idle (consume_lock x) (consume_lock x').
Proof. intros i x p x' r H. unfold lock_move. destruct H; cbn; tauto. Qed.

Lemma locks_gen : forall x ts i t t' x', Locks {| q := x; threads := ts |} -> nth_error ts i = Some t ->
  lock_move i inP (at_ t) (at_ t') (produce_lock x) (produce_lock x') ->
  lock_move i inC (at_ t) (at_ t') (consume_lock x) (consume_lock x') ->
  Locks {| q := x'; threads := set_nth ts i t' |}.
Proof.
  intros x ts i t t' x' (A & B & C & E) N MP MC. unfold Locks in *. cbn [q threads] in *.
  destruct (lock_half inP ts i t t' _ _ N MP A C) as [A' C'].
  destruct (lock_half inC ts i t t' _ _ N MC B E) as [B' E'].
  split; [exact A'|]. split; [exact B'|]. split; [exact C'|exact E'].
Qed.

Lemma step_locks : forall s s', step size s s' -> Locks s -> Locks s'.
Proof.
  intros s s' H L. destruct H as [x ts i t c r N I C|x ts i t x' p' N IN|x ts i t x' r N F].
  - apply (locks_gen x ts i t); [exact L|exact N| |]; left; cbn [at_]; rewrite I; destruct c; split; reflexivity.
  - destruct (inner_locks _ _ _ _ _ IN). apply (locks_gen x ts i t); assumption.
  - destruct (final_locks _ _ _ _ _ F). apply (locks_gen x ts i t); assumption.
Qed.

(** ** Cursors and contents *)
Definition Content (s : state) := let x := q s in
  length (storage_ x) = size /\
  produce_at_ x = D x mod size /\ consume_at_ x = K x mod size /\
  (forall j, K x <= j < D x -> nth_error (storage_ x) (j mod size) = option_map snd (nth_error (deposited x) j)) /\
  map snd (taken x) = firstn (K x) (map snd (deposited x)) /\
  (forall i t v, nth_error (threads s) i = Some t -> at_ t = InP PAdvance v -> nth_error (storage_ x) (produce_at_ x) = Some v) /\
  (forall i t v, nth_error (threads s) i = Some t -> at_ t = InC (CAdvance v) -> nth_error (storage_ x) (consume_at_ x) = Some v).

Lemma advance_mod : forall n, 0 < size -> advance size (n mod size) = S n mod size.
Proof.
  intros n H. unfold advance. pose proof (Nat.mod_upper_bound n size ltac:(lia)).
  replace (S n mod size) with ((n mod size + 1) mod size)
    by (rewrite Nat.add_mod_idemp_l by lia; f_equal; lia).
  destruct (Nat.eqb_spec (S (n mod size)) size) as [E|E].
  - replace (n mod size + 1) with size by lia. rewrite Nat.mod_same; lia.
  - rewrite (Nat.mod_small (n mod size + 1)); lia.
Qed.

Lemma mod_neq : forall a b, a < b -> b - a < size -> a mod size <> b mod size.
Proof.
  intros a b H L E. pose proof (Nat.div_mod a size ltac:(lia)) as DA. pose proof (Nat.div_mod b size ltac:(lia)) as DB.
  rewrite E in DA. pose proof (Nat.div_le_mono a b size ltac:(lia) ltac:(lia)) as LE.
  revert DA DB LE. generalize (a / size) (b / size) (b mod size). intros x y r DA DB LE.
  destruct (Nat.eq_dec x y) as [->|N]; [lia|]. assert (size * (x + 1) <= size * y) by (apply Nat.mul_le_mono_l; lia).
  rewrite Nat.mul_add_distr_l in *. lia.
Qed.

Lemma firstn_snoc : forall (A : Type) (l : list A) n v, nth_error l n = Some v -> firstn (S n) l = firstn n l ++ [v].
Proof.
  induction l as [|a r IH]; intros [|n] v H; cbn in *; try discriminate.
  - injection H as ->. reflexivity.
  - f_equal. apply IH, H.
Qed.

Lemma nth_map_snd : forall (l : list (nat * T)) n, nth_error (map snd l) n = option_map snd (nth_error l n).
Proof. induction l as [|a r IH]; intros [|n]; cbn; try reflexivity. apply IH. Qed.

(** Threads other than the stepping one at the same point are excluded by the lock. *)
Lemma lockP_uniq : forall s i j t u, Locks s -> nth_error (threads s) i = Some t -> nth_error (threads s) j = Some u ->
  inP (at_ t) = true -> inP (at_ u) = true -> i = j.
Proof. intros s i j t u (A & _) I J X Y. pose proof (A i t I X). pose proof (A j u J Y). congruence. Qed.
Lemma lockC_uniq : forall s i j t u, Locks s -> nth_error (threads s) i = Some t -> nth_error (threads s) j = Some u ->
  inC (at_ t) = true -> inC (at_ u) = true -> i = j.
Proof. intros s i j t u (_ & A & _) I J X Y. pose proof (A i t I X). pose proof (A j u J Y). congruence. Qed.

(** Steps which leave storage, cursors and histories alone. *)
Lemma content_same : forall x x' ts i t t', Content {| q := x; threads := ts |} -> nth_error ts i = Some t ->
  storage_ x' = storage_ x -> produce_at_ x' = produce_at_ x -> consume_at_ x' = consume_at_ x ->
  deposited x' = deposited x -> taken x' = taken x ->
  (forall v, at_ t' <> InP PAdvance v) -> (forall v, at_ t' = InC (CAdvance v) -> nth_error (storage_ x) (consume_at_ x) = Some v) ->
  Content {| q := x'; threads := set_nth ts i t' |}.
Proof.
  intros x x' ts i t t' (L & P & C & J & F & SP & SC) N E1 E2 E3 E4 E5 NP NC.
  unfold Content. cbn [q threads] in *. rewrite E1, E2, E3, E4, E5.
  assert (LI : i < length ts) by (apply nth_error_Some; congruence).
  split; [exact L|]. split; [exact P|]. split; [exact C|]. split; [exact J|]. split; [exact F|]. split.
  - intros j u v U A. destruct (Nat.eq_dec i j) as [<-|NE].
    + rewrite nth_set_eq in U by exact LI. injection U as <-. destruct (NP v A).
    + rewrite nth_set_neq in U by exact NE. exact (SP j u v U A).
  - intros j u v U A. destruct (Nat.eq_dec i j) as [<-|NE].
    + rewrite nth_set_eq in U by exact LI. injection U as <-. exact (NC v A).
    + rewrite nth_set_neq in U by exact NE. exact (SC j u v U A).
Qed.

(** A producer's assignment (or failed assignment) to its slot. *)
Lemma content_write : forall x ts i t t' g, Counts {| q := x; threads := ts |} -> Locks {| q := x; threads := ts |} ->
  Content {| q := x; threads := ts |} -> nth_error ts i = Some t ->
  (exists v, at_ t = InP PAssign v) -> (at_ t' = InP PAdvance g \/ exists v, at_ t' = InP PXPost v) ->
  Content {| q := set_storage (set_nth (storage_ x) (produce_at_ x) g) x; threads := set_nth ts i t' |}.
Proof.
  intros x ts i t t' g [CU CE] LK (L & P & C & J & F & SP & SC) N (v0 & AT) AT'.
  unfold Content. cbn [q threads] in *. cbn [set_storage storage_ produce_at_ consume_at_ deposited taken].
  assert (LI : i < length ts) by (apply nth_error_Some; congruence).
  pose proof (cnt_ge fE ts i t N) as GE. rewrite AT in GE. cbn in GE.
  assert (SZ : 0 < size) by lia.
  assert (PB : produce_at_ x < length (storage_ x)) by (rewrite P, L; apply Nat.mod_upper_bound; lia).
  rewrite set_nth_length.
  split; [exact L|]. split; [exact P|]. split; [exact C|]. split; [|split; [exact F|split]].
  - intros j JJ. rewrite nth_set_neq; [apply J, JJ|]. rewrite P.
    intros E. symmetry in E. revert E. apply mod_neq; lia.
  - intros j u v U A. destruct (Nat.eq_dec i j) as [<-|NE].
    + rewrite nth_set_eq in U by exact LI. injection U as <-.
      destruct AT' as [AT'|(v' & AT')]; rewrite AT' in A; [|discriminate]. injection A as <-.
      apply nth_set_eq, PB.
    + rewrite nth_set_neq in U by exact NE. exfalso. apply NE.
      apply (lockP_uniq _ i j t u LK N U); [rewrite AT|rewrite A]; reflexivity.
  - intros j u v U A. destruct (Nat.eq_dec i j) as [<-|NE].
    + rewrite nth_set_eq in U by exact LI. injection U as <-.
      destruct AT' as [AT'|(v' & AT')]; rewrite AT' in A; discriminate.
    + rewrite nth_set_neq in U by exact NE. rewrite nth_set_neq; [exact (SC j u v U A)|].
      pose proof (cnt_ge fU ts j u U) as GU. rewrite A in GU. cbn in GU.
      rewrite P, C. intros E. symmetry in E. revert E. apply mod_neq; lia.
Qed.

Lemma step_content : forall s s', step size s s' -> Counts s -> Locks s -> Content s -> Content s'.
Proof.
  intros s s' H CT LK CO. destruct H as [x ts i t c r N I C|x ts i t x' p' N IN|x ts i t x' r N F].
  - apply (content_same x x ts i t); try reflexivity; try assumption.
    + intros v. cbn. destruct c; discriminate.
    + intros v. cbn. destruct c; discriminate.
  - remember (at_ t) as p eqn:AT. symmetry in AT.
    assert (LI : i < length ts) by (apply nth_error_Some; congruence).
    destruct IN.
    + apply (content_same x _ ts i t); try reflexivity; try assumption; cbn; discriminate.
    + apply (content_same x _ ts i t); try reflexivity; try assumption; cbn; discriminate.
    + apply (content_write x ts i t _ v CT LK CO N); [eexists; exact AT|left; reflexivity].
    + apply (content_write x ts i t _ g CT LK CO N); [eexists; exact AT|right; eexists; reflexivity].
    + (* advance of the producers' cursor *)
      destruct CO as (L & P & C & J & F & SP & SC). destruct CT as [CU CE]. cbn [q threads] in *.
      pose proof (cnt_ge fE ts i t N) as GE. rewrite AT in GE. cbn in GE.
      pose proof (SP i t v N AT) as SV.
      unfold Content. cbn [q threads advance_p storage_ produce_at_ consume_at_ deposited taken].
      rewrite app_length. cbn [length]. rewrite Nat.add_1_r.
      split; [exact L|]. split; [rewrite P; apply advance_mod; lia|]. split; [exact C|]. split; [|split; [|split]].
      * intros j JJ. destruct (Nat.eq_dec j (D x)) as [->|NE].
        -- rewrite nth_error_app2 by lia. rewrite Nat.sub_diag. cbn. rewrite <- P. exact SV.
        -- rewrite nth_error_app1 by lia. apply J. lia.
      * rewrite F, map_app, firstn_app.
        replace (K x - length (map snd (deposited x))) with 0 by (rewrite map_length; lia).
        cbn [firstn]. rewrite app_nil_r. reflexivity.
      * intros j u w U A. destruct (Nat.eq_dec i j) as [<-|NE].
        -- rewrite nth_set_eq in U by exact LI. injection U as <-. discriminate.
        -- rewrite nth_set_neq in U by exact NE. exfalso. apply NE.
           apply (lockP_uniq _ i j t u LK N U); [rewrite AT|rewrite A]; reflexivity.
      * intros j u w U A. destruct (Nat.eq_dec i j) as [<-|NE].
        -- rewrite nth_set_eq in U by exact LI. injection U as <-. discriminate.
        -- rewrite nth_set_neq in U by exact NE. exact (SC j u w U A).
    + apply (content_same x _ ts i t); try reflexivity; try assumption; cbn; discriminate.
    + apply (content_same x _ ts i t); try reflexivity; try assumption; cbn; discriminate.
    + apply (content_same x _ ts i t); try reflexivity; try assumption; cbn; discriminate.
    + apply (content_same x _ ts i t); try reflexivity; try assumption; cbn; discriminate.
    + apply (content_same x _ ts i t); try reflexivity; try assumption; cbn; [discriminate|].
      intros w E. injection E as <-. assumption.
    + apply (content_same x _ ts i t); try reflexivity; try assumption; cbn; discriminate.
    + (* advance of the consumers' cursor *)
      destruct CO as (L & P & C & J & F & SP & SC). destruct CT as [CU CE]. cbn [q threads] in *.
      pose proof (cnt_ge fU ts i t N) as GU. rewrite AT in GU. cbn in GU.
      pose proof (SC i t v N AT) as SV.
      assert (SZ : 0 < size).
      { rewrite <- L. assert (consume_at_ x < length (storage_ x)) by (apply nth_error_Some; congruence). lia. }
      unfold Content. cbn [q threads advance_c storage_ produce_at_ consume_at_ deposited taken].
      rewrite app_length. cbn [length]. rewrite Nat.add_1_r.
      split; [exact L|]. split; [exact P|]. split; [rewrite C; apply advance_mod; lia|]. split; [|split; [|split]].
      * intros j JJ. apply J. lia.
      * rewrite map_app. cbn [map snd]. rewrite F. symmetry. apply firstn_snoc.
        rewrite nth_map_snd, <- J by lia. rewrite <- C. exact SV.
      * intros j u w U A. destruct (Nat.eq_dec i j) as [<-|NE].
        -- rewrite nth_set_eq in U by exact LI. injection U as <-. discriminate.
        -- rewrite nth_set_neq in U by exact NE. exact (SP j u w U A).
      * intros j u w U A. destruct (Nat.eq_dec i j) as [<-|NE].
        -- rewrite nth_set_eq in U by exact LI. injection U as <-. discriminate.
        -- rewrite nth_set_neq in U by exact NE. exfalso. apply NE.
           apply (lockC_uniq _ i j t u LK N U); [rewrite AT|rewrite A]; reflexivity.
    + apply (content_same x _ ts i t); try reflexivity; try assumption; cbn; discriminate.
    + apply (content_same x _ ts i t); try reflexivity; try assumption; cbn; discriminate.
  - apply (content_same x x' ts i t); try assumption; try (destruct F; reflexivity); cbn; discriminate.
Qed.

(** ** Accounting per thread *)
Definition flightP p : list T := match p with InP PUnlock v | InP PPost v => [v] | _ => [] end.
Definition flightC p : list T := match p with InC (CUnlock v) | InC (CPost v) => [v] | _ => [] end.
Definition current p : list (call (T:=T)) := match p with Idle => [] | InP _ v => [Produce v] | InC _ => [Consume] end.

Definition Acct (progs : list (list call)) (s : state) :=
  length (threads s) = length progs /\
  forall i t, nth_error (threads s) i = Some t ->
    of_thread i (deposited (q s)) = produced_results (results t) ++ flightP (at_ t) /\
    of_thread i (taken (q s)) = consumed_results (results t) ++ flightC (at_ t) /\
    exists done, nth_error progs i = Some (done ++ current (at_ t) ++ todo t) /\ Forall2 answers done (results t).

Lemma of_thread_app : forall i (l : list (nat * T)) j v,
  of_thread i (l ++ [(j, v)]) = of_thread i l ++ (if j =? i then [v] else []).
Proof.
  intros i l j v. unfold of_thread. rewrite filter_app, map_app. cbn [filter fst].
  destruct (j =? i); reflexivity.
Qed.
Lemma produced_app : forall a b, produced_results (T:=T) (a ++ b) = produced_results a ++ produced_results b.
Proof. induction a as [|[]]; intros; cbn; rewrite ?IHa; reflexivity. Qed.
Lemma consumed_app : forall a b, consumed_results (T:=T) (a ++ b) = consumed_results a ++ consumed_results b.
Proof. induction a as [|[]]; intros; cbn; rewrite ?IHa; reflexivity. Qed.

Lemma inner_acct : forall i x p x' p', inner size i x p x' p' ->
  current p' = current p /\
  (forall j, exists e, of_thread j (deposited x') = of_thread j (deposited x) ++ e /\
     (j = i -> flightP p' = flightP p ++ e) /\ (j <> i -> e = [])) /\
  (forall j, exists e, of_thread j (taken x') = of_thread j (taken x) ++ e /\
     (j = i -> flightC p' = flightC p ++ e) /\ (j <> i -> e = [])).
Proof.
  intros i x p x' p' H.
  destruct H; (split; [reflexivity|]); split; intros j;
    cbn [deposited taken set_empty set_used set_storage set_plock set_clock advance_p advance_c];
    try rewrite of_thread_app;
    try (exists []; rewrite app_nil_r; split; [reflexivity|]; split; [intros; reflexivity|intros; reflexivity]).
  - exists (if i =? j then [v] else []). split; [reflexivity|]. split.
    + intros ->. rewrite Nat.eqb_refl. reflexivity.
    + intros NE. destruct (Nat.eqb_spec i j); congruence.
  - exists (if i =? j then [v] else []). split; [reflexivity|]. split.
    + intros ->. rewrite Nat.eqb_refl. reflexivity.
    + intros NE. destruct (Nat.eqb_spec i j); congruence.
Qed.

Lemma step_acct : forall progs s s', step size s s' -> Acct progs s -> Acct progs s'.
Proof.
  intros progs s s' H [LN A]. destruct H as [x ts i t c r N I C|x ts i t x' p' N IN|x ts i t x' r N F];
    cbn [q threads] in *; (split; [cbn [threads]; rewrite set_nth_length; exact LN|]); cbn [q threads];
    (assert (LI : i < length ts) by (apply nth_error_Some; congruence)); intros j u U.
  - destruct (Nat.eq_dec i j) as [<-|NE].
    + rewrite nth_set_eq in U by exact LI. injection U as <-. destruct (A i t N) as (A1 & A2 & d & A3 & A4).
      rewrite I in *. cbn [at_ results todo]. split; [|split].
      * destruct c; exact A1.
      * destruct c; exact A2.
      * exists d. split; [|exact A4]. rewrite A3, C. destruct c; reflexivity.
    + rewrite nth_set_neq in U by exact NE. exact (A j u U).
  - destruct (inner_acct _ _ _ _ _ IN) as (E & EP & EC).
    destruct (EP j) as (ep & P1 & P2 & P3). destruct (EC j) as (ec & C1 & C2 & C3).
    destruct (Nat.eq_dec i j) as [<-|NE].
    + rewrite nth_set_eq in U by exact LI. injection U as <-. destruct (A i t N) as (A1 & A2 & d & A3 & A4).
      cbn [at_ results todo]. rewrite P1, C1, A1, A2, P2, C2, E by reflexivity.
      rewrite <- !app_assoc. split; [reflexivity|]. split; [reflexivity|]. exists d. split; assumption.
    + rewrite nth_set_neq in U by exact NE. rewrite P1, C1, P3, C3 by congruence. rewrite !app_nil_r. exact (A j u U).
  - destruct (Nat.eq_dec i j) as [<-|NE].
    + rewrite nth_set_eq in U by exact LI. injection U as <-. destruct (A i t N) as (A1 & A2 & d & A3 & A4).
      cbn [at_ results todo flightP flightC current app].
      rewrite produced_app, consumed_app, !app_nil_r.
      remember (at_ t) as p eqn:AT. destruct F; cbn in *; rewrite ?app_nil_r in *.
      * split; [exact A1|]. split; [exact A2|]. exists (d ++ [Produce v]). rewrite <- app_assoc. split; [exact A3|].
        apply Forall2_app; [exact A4|]. repeat constructor.
      * split; [exact A1|]. split; [exact A2|]. exists (d ++ [Produce v]). rewrite <- app_assoc. split; [exact A3|].
        apply Forall2_app; [exact A4|]. repeat constructor.
      * split; [exact A1|]. split; [exact A2|]. exists (d ++ [Consume]). rewrite <- app_assoc. split; [exact A3|].
        apply Forall2_app; [exact A4|]. repeat constructor.
      * split; [exact A1|]. split; [exact A2|]. exists (d ++ [Consume]). rewrite <- app_assoc. split; [exact A3|].
        apply Forall2_app; [exact A4|]. repeat constructor.
    + rewrite nth_set_neq in U by exact NE.
      assert (deposited x' = deposited x /\ taken x' = taken x) as [-> ->] by (destruct F; split; reflexivity).
      exact (A j u U).
Qed.

(** ** Reachable states *)
Definition Inv progs s := Counts s /\ Locks s /\ Content s /\ Acct progs s.

Lemma start_thread : forall progs i t,
  nth_error (map (fun pr => {| at_ := Idle; todo := pr; results := [] |}) progs) i = Some t ->
  exists pr, nth_error progs i = Some pr /\ t = {| at_ := Idle; todo := pr; results := [] |}.
Proof.
  induction progs as [|p r IH]; intros [|i] t H; cbn in *; try discriminate.
  - injection H as <-. exists p. split; reflexivity.
  - apply IH, H.
Qed.

Lemma start_inv : forall init progs, length init = size -> Inv progs (start size init progs).
Proof.
  intros init progs L.
  assert (Z : forall f : pc -> nat, f Idle = 0 -> cnt f (map (fun pr => {| at_ := Idle; todo := pr; results := [] |}) progs) = 0).
  { intros f F. induction progs; cbn; [reflexivity|]. rewrite F. assumption. }
  split; [|split; [|split]].
  - unfold Counts, start. cbn [q threads deposited taken used_ empty_ length]. rewrite !Z by reflexivity. lia.
  - unfold Locks, start. cbn [q threads produce_lock consume_lock].
    split; [|split; [|split]]; try discriminate; intros i t N; apply start_thread in N as (p & _ & ->); discriminate.
  - unfold Content, start. cbn [q threads storage_ produce_at_ consume_at_ deposited taken length map firstn].
    assert (M : 0 mod size = 0) by (destruct size; [reflexivity|apply Nat.mod_0_l; lia]). rewrite M.
    split; [exact L|]. split; [reflexivity|]. split; [reflexivity|]. split; [lia|]. split; [reflexivity|].
    split; intros i t v N; apply start_thread in N as (p & _ & ->); discriminate.
  - unfold Acct, start. cbn [q threads deposited taken]. split; [apply map_length|].
    intros i t N. apply start_thread in N as (p & P & ->). cbn. split; [reflexivity|]. split; [reflexivity|].
    exists []. split; [exact P|constructor].
Qed.

Lemma reachable_inv : forall (init : list T) progs s, length init = size ->
  reachable size (start size init progs) s -> Inv progs s.
Proof.
  intros init progs s L H. induction H as [|s s' R IH ST].
  - apply start_inv, L.
  - destruct IH as (A & B & C & E). split; [|split; [|split]].
    + exact (step_counts s s' ST A).
    + exact (step_locks s s' ST B).
    + exact (step_content s s' ST A B C).
    + exact (step_acct progs s s' ST E).
Qed.

Lemma fifo : forall (init : list T) progs s, length init = size -> reachable size (start size init progs) s ->
  map snd (taken (q s)) = firstn (length (taken (q s))) (map snd (deposited (q s))) /\
  length (taken (q s)) <= length (deposited (q s)) <= length (taken (q s)) + size.
Proof.
  intros init progs s L R. destruct (reachable_inv init progs s L R) as ([A B] & _ & (_ & _ & _ & _ & F & _) & _).
  split; [exact F|]. lia.
Qed.

Lemma accounting : forall (init : list T) progs s i t, length init = size -> reachable size (start size init progs) s ->
  nth_error (threads s) i = Some t -> at_ t = Idle ->
  of_thread i (deposited (q s)) = produced_results (results t) /\
  of_thread i (taken (q s)) = consumed_results (results t) /\
  exists done, nth_error progs i = Some (done ++ todo t) /\ Forall2 answers done (results t).
Proof.
  intros init progs s i t L R N I. destruct (reachable_inv init progs s L R) as (_ & _ & _ & _ & A).
  destruct (A i t N) as (A1 & A2 & A3). rewrite I in *. cbn in *. rewrite !app_nil_r in *.
  split; [exact A1|]. split; [exact A2|exact A3].
Qed.

Lemma no_races : forall (init : list T) progs s i j t u, length init = size -> reachable size (start size init progs) s ->
  i <> j -> nth_error (threads s) i = Some t -> nth_error (threads s) j = Some u ->
  (forall a b wa wb, slot_access s t = Some (a, wa) -> slot_access s u = Some (b, wb) -> a <> b) /\
  ~ (moves_producer_cursor t /\ moves_producer_cursor u) /\
  ~ (moves_consumer_cursor t /\ moves_consumer_cursor u).
Proof.
  intros init progs s i j t u L R NE N M.
  destruct (reachable_inv init progs s L R) as ([CU CE] & LK & (_ & P & C & _) & _).
  assert (X : forall a b ta tb, nth_error (threads s) a = Some ta -> nth_error (threads s) b = Some tb ->
    (exists v, at_ ta = InP PAssign v) -> at_ tb = InC CAssign -> produce_at_ (q s) <> consume_at_ (q s)).
  { intros a b ta tb A B (v & TA) TB.
    pose proof (cnt_ge fE _ a ta A) as GE. rewrite TA in GE. cbn in GE.
    pose proof (cnt_ge fU _ b tb B) as GU. rewrite TB in GU. cbn in GU.
    rewrite P, C. intros E. symmetry in E. revert E. apply mod_neq; lia. }
  split; [|split].
  - intros a b wa wb A B E. unfold slot_access in A, B.
    destruct (at_ t) as [|st v|st] eqn:ET; [discriminate| |].
    + destruct st; try discriminate. injection A as <- _.
      destruct (at_ u) as [|su w|su] eqn:EU; [discriminate| |]; destruct su; try discriminate; injection B as <- _.
      * apply NE. apply (lockP_uniq s i j t u LK N M); [rewrite ET|rewrite EU]; reflexivity.
      * exact (X i j t u N M (ex_intro _ v ET) EU E).
    + destruct st; try discriminate. injection A as <- _.
      destruct (at_ u) as [|su w|su] eqn:EU; [discriminate| |]; destruct su; try discriminate; injection B as <- _.
      * exact (X j i u t M N (ex_intro _ w EU) ET (eq_sym E)).
      * apply NE. apply (lockC_uniq s i j t u LK N M); [rewrite ET|rewrite EU]; reflexivity.
  - intros [A B]. apply NE. unfold moves_producer_cursor in *.
    apply (lockP_uniq s i j t u LK N M).
    + destruct (at_ t) as [|[] ?|?]; try tauto; reflexivity.
    + destruct (at_ u) as [|[] ?|?]; try tauto; reflexivity.
  - intros [A B]. apply NE. unfold moves_consumer_cursor in *.
    apply (lockC_uniq s i j t u LK N M).
    + destruct (at_ t) as [|?|[]]; try tauto; reflexivity.
    + destruct (at_ u) as [|?|[]]; try tauto; reflexivity.
Qed.

Lemma in_bounds : forall (init : list T) progs s, length init = size -> reachable size (start size init progs) s -> ~ out_of_bounds s.
Proof.
  intros init progs s L R (i & t & N & H).
  destruct (reachable_inv init progs s L R) as ([CU CE] & _ & (LS & P & C & _) & _).
  assert (SZ : 0 < size).
  { destruct H as [(v & AT & _)|(AT & _)].
    - pose proof (cnt_ge fE _ i t N) as G. rewrite AT in G. cbn in G. lia.
    - pose proof (cnt_ge fU _ i t N) as G. rewrite AT in G. cbn in G. lia. }
  rewrite LS, P, C in H.
  pose proof (Nat.mod_upper_bound (length (deposited (q s))) size ltac:(lia)).
  pose proof (Nat.mod_upper_bound (length (taken (q s))) size ltac:(lia)).
  destruct H as [(v & _ & H)|(_ & H)]; lia.
Qed.

(** ** Deadlock *)
Lemma state_eta : forall s : state (T:=T), s = {| q := q s; threads := threads s |}.
Proof. intros []. reflexivity. Qed.

Lemma stuck_thread : forall (init : list T) progs s i t, length init = size -> reachable size (start size init progs) s ->
  (forall s', ~ step size s s') -> nth_error (threads s) i = Some t ->
  finished t \/ (waits_to_produce t /\ empty_ (q s) = 0) \/ (waits_to_consume t /\ used_ (q s) = 0).
Proof.
  intros init progs s i t L R ST N.
  destruct (reachable_inv init progs s L R) as ([CU CE] & (LA & LB & LC & LD) & (LS & P & C & J & _) & _).
  assert (BND := in_bounds init progs s L R).
  assert (IN : forall j u x' p', nth_error (threads s) j = Some u -> ~ inner size j (q s) (at_ u) x' p').
  { intros j u x' p' U I. rewrite (state_eta s) in ST. eapply ST. eapply st_inner; [exact U|exact I]. }
  assert (FI : forall j u x' r, nth_error (threads s) j = Some u -> ~ final j (q s) (at_ u) x' r).
  { intros j u x' r U I. rewrite (state_eta s) in ST. eapply ST. eapply st_final; [exact U|exact I]. }
  assert (CA : forall j u, nth_error (threads s) j = Some u -> at_ u = Idle -> todo u = []).
  { intros j u U I. destruct (todo u) as [|c r] eqn:E; [reflexivity|]. exfalso.
    rewrite (state_eta s) in ST. eapply ST. eapply st_call; [exact U|exact I|exact E]. }
  assert (NP : forall j u, nth_error (threads s) j = Some u -> inP (at_ u) = false).
  { intros j u U. destruct (at_ u) as [|st v|st] eqn:E; try reflexivity; destruct st; try reflexivity; exfalso.
    - eapply (IN j u); [exact U|]. rewrite E. apply s_passign.
      destruct (Nat.lt_ge_cases (produce_at_ (q s)) (length (storage_ (q s)))) as [X|X]; [exact X|].
      exfalso. apply BND. exists j, u. split; [exact U|]. left. exists v. split; assumption.
    - eapply (IN j u); [exact U|]. rewrite E. apply s_padvance.
    - eapply (IN j u); [exact U|]. rewrite E. apply s_punlock.
    - eapply (IN j u); [exact U|]. rewrite E. apply s_pxpost.
    - eapply (FI j u); [exact U|]. rewrite E. apply f_pxunlock. }
  assert (NC : forall j u, nth_error (threads s) j = Some u -> inC (at_ u) = false).
  { intros j u U. destruct (at_ u) as [|st v|st] eqn:E; try reflexivity; destruct st; try reflexivity; exfalso.
    - eapply (IN j u); [exact U|]. rewrite E. apply s_cassign_throws.
    - eapply (IN j u); [exact U|]. rewrite E. apply s_cadvance.
    - eapply (IN j u); [exact U|]. rewrite E. apply s_cunlock.
    - eapply (IN j u); [exact U|]. rewrite E. apply s_cxpost.
    - eapply (FI j u); [exact U|]. rewrite E. apply f_cxunlock. }
  destruct (at_ t) as [|st v|st] eqn:E.
  - left. split; [exact E|]. exact (CA i t N E).
  - pose proof (NP i t N) as NPt. rewrite E in NPt. destruct st; try discriminate NPt.
    + right. left. split; [exists v; exact E|]. destruct (empty_ (q s)) as [|n] eqn:EM; [reflexivity|]. exfalso.
      eapply (IN i t); [exact N|]. rewrite E. apply s_pwait. exact EM.
    + exfalso. destruct (produce_lock (q s)) as [j|] eqn:PL.
      * destruct (LC j eq_refl) as (u & U1 & U2). rewrite (NP j u U1) in U2. discriminate.
      * eapply (IN i t); [exact N|]. rewrite E. apply s_plock. exact PL.
    + exfalso. eapply (FI i t); [exact N|]. rewrite E. apply f_ppost.
  - pose proof (NC i t N) as NCt. rewrite E in NCt. destruct st; try discriminate NCt.
    + right. right. split; [exact E|]. destruct (used_ (q s)) as [|n] eqn:EM; [reflexivity|]. exfalso.
      eapply (IN i t); [exact N|]. rewrite E. apply s_cwait. exact EM.
    + exfalso. destruct (consume_lock (q s)) as [j|] eqn:PL.
      * destruct (LD j eq_refl) as (u & U1 & U2). rewrite (NC j u U1) in U2. discriminate.
      * eapply (IN i t); [exact N|]. rewrite E. apply s_clock. exact PL.
    + exfalso. eapply (FI i t); [exact N|]. rewrite E. apply f_cpost.
Qed.

Lemma cnt_zero : forall f ts, (forall i t, nth_error ts i = Some t -> f (at_ t) = 0) -> cnt f ts = 0.
Proof.
  induction ts as [|u r IH]; intros H; cbn; [reflexivity|].
  rewrite (H 0 u eq_refl), IH; [reflexivity|]. intros i t N. exact (H (S i) t N).
Qed.

Lemma progress : forall (init : list T) progs s, length init = size -> 0 < size -> reachable size (start size init progs) s ->
  (forall s', ~ step size s s') ->
  (forall i t, nth_error (threads s) i = Some t -> finished t) \/
  ((forall i t, nth_error (threads s) i = Some t -> finished t \/ waits_to_produce t) /\
   length (deposited (q s)) = length (taken (q s)) + size) \/
  ((forall i t, nth_error (threads s) i = Some t -> finished t \/ waits_to_consume t) /\
   map snd (taken (q s)) = map snd (deposited (q s))).
Proof.
  intros init progs s L SZ R ST.
  pose proof (fun i t => stuck_thread init progs s i t L R ST) as TH.
  destruct (reachable_inv init progs s L R) as ([CU CE] & _ & (_ & _ & _ & _ & F & _) & _).
  assert (ZU : cnt fU (threads s) = 0).
  { apply cnt_zero. intros i t N. destruct (TH i t N) as [[H _]|[[(v & H) _]|[H _]]]; rewrite H; reflexivity. }
  assert (ZE : cnt fE (threads s) = 0).
  { apply cnt_zero. intros i t N. destruct (TH i t N) as [[H _]|[[(v & H) _]|[H _]]]; rewrite H; reflexivity. }
  rewrite ZU in CU. rewrite ZE in CE.
  destruct (Nat.eq_dec (empty_ (q s)) 0) as [E0|E0]; [|destruct (Nat.eq_dec (used_ (q s)) 0) as [U0|U0]].
  - right. left. split; [|lia]. intros i t N.
    destruct (TH i t N) as [H|[[H _]|[_ H]]]; [left; exact H|right; exact H|lia].
  - right. right. split.
    + intros i t N. destruct (TH i t N) as [H|[[_ H]|[H _]]]; [left; exact H|lia|right; exact H].
    + rewrite F. apply firstn_all2. rewrite map_length. lia.
  - left. intros i t N. destruct (TH i t N) as [H|[[_ H]|[_ H]]]; [exact H|lia|lia].
Qed.
Lemma reachable_cons : forall (a b s : state (T:=T)), step size a b -> reachable size b s -> reachable size a s.
Proof.
  intros a b s H R. induction R as [|s s' R IH ST].
  - eapply r_step; [apply r_start|exact H].
  - eapply r_step; [exact IH|exact ST].
Qed.
End P.
