From Coq Require Import List Arith Bool Lia Permutation.
From Verif Require Import Probing.
Import ListNotations.

(** * Specification: a bounded map with a counter of attempted insertions *)
Section Spec.
Context {K V : Type}.
Variable keq : forall a b : K, {a = b} + {a <> b}.

(** Entries in the order of their insertion; an earlier one hides later ones. *)
Fixpoint lookup (k : K) (m : list (K * V)) : option V :=
  match m with
  | [] => None
  | (k', v) :: r => if keq k' k then Some v else lookup k r
  end.
Fixpoint assign (k : K) (v : V) (m : list (K * V)) : list (K * V) :=
  match m with
  | [] => []
  | (k', v') :: r => if keq k' k then (k, v) :: r else (k', v') :: assign k v r
  end.

Record spec := { content : list (K * V); attempts : nat; buckets : nat }.

Definition sinsert (s : spec) (k : K) (v : V) : spec * res :=
  let n := S (attempts s) in
  if buckets s <=? n then ({| content := content s; attempts := n; buckets := buckets s |}, RThrow)
  else ({| content := content s ++ [(k, v)]; attempts := n; buckets := buckets s |}, RInserted v).

Definition sstep (s : spec) (o : op) : spec * res :=
  match o with
  | Insert k v => sinsert s k v
  | FindOrInsert k v =>
      match lookup k (content s) with Some v' => (s, RFound v') | None => sinsert s k v end
  | Find k => (s, match lookup k (content s) with Some v => RFound v | None => RAbsent end)
  | FindAssign k v =>
      match lookup k (content s) with
      | Some _ => ({| content := assign k v (content s); attempts := attempts s; buckets := buckets s |}, RBool true)
      | None => (s, RBool false)
      end
  | Clear => ({| content := []; attempts := 0; buckets := buckets s |}, RUnit)
  | Double => ({| content := content s; attempts := attempts s; buckets := 2 * buckets s |}, RUnit)
  | Size => (s, RSize (attempts s))
  end.
Fixpoint srun (s : spec) (os : list op) : list res :=
  match os with
  | [] => []
  | o :: r => let '(s', x) := sstep s o in x :: srun s' r
  end.

(** Every Insert is of a key which is not in the table. *)
Fixpoint fresh_inserts (s : spec) (os : list op) : Prop :=
  match os with
  | [] => True
  | o :: r =>
    match o with Insert k _ => lookup k (content s) = None | _ => True end /\
    fresh_inserts (fst (sstep s o)) r
  end.

Definition op_key (o : op (K:=K) (V:=V)) : option K :=
  match o with
  | Insert k _ => Some k | FindOrInsert k _ => Some k | Find k => Some k | FindAssign k _ => Some k
  | _ => None
  end.
Definition keys_ok (invalid : K) (os : list (op (K:=K) (V:=V))) : Prop := Forall (fun o => op_key o <> Some invalid) os.

(** The growing table: an unbounded map and its size. *)
Definition asstep (m : list (K * V)) (o : aop) : list (K * V) * res :=
  match o with
  | AInsert k v => (m ++ [(k, v)], RInserted v)
  | AFindOrInsert k v =>
      match lookup k m with Some v' => (m, RFound v') | None => (m ++ [(k, v)], RInserted v) end
  | AFind k => (m, match lookup k m with Some v => RFound v | None => RAbsent end)
  | AFindAssign k v =>
      match lookup k m with Some _ => (assign k v m, RBool true) | None => (m, RBool false) end
  | AClear => ([], RUnit)
  | ASize => (m, RSize (length m))
  end.
Fixpoint asrun (m : list (K * V)) (os : list aop) : list res :=
  match os with [] => [] | o :: r => let '(m', x) := asstep m o in x :: asrun m' r end.
Definition aop_key (o : aop (K:=K) (V:=V)) : option K :=
  match o with
  | AInsert k _ => Some k | AFindOrInsert k _ => Some k | AFind k => Some k | AFindAssign k _ => Some k
  | _ => None
  end.
Definition akeys_ok (invalid : K) (os : list (aop (K:=K) (V:=V))) : Prop := Forall (fun o => aop_key o <> Some invalid) os.
(** Number of calls of AutoProbing::Insert, and its documented precondition. *)
Fixpoint inserts (os : list (aop (K:=K) (V:=V))) : nat :=
  match os with [] => 0 | AInsert _ _ :: r => S (inserts r) | _ :: r => inserts r end.
Fixpoint fresh_ainserts (m : list (K * V)) (os : list aop) : Prop :=
  match os with
  | [] => True
  | o :: r =>
    match o with AInsert k _ => lookup k m = None | _ => True end /\
    fresh_ainserts (fst (asstep m o)) r
  end.
End Spec.

(** * Proofs *)
Section P.
Context {K V : Type}.
Variable keq : forall a b : K, {a = b} + {a <> b}.
Variable hash : K -> nat.
Variable invalid : K.
Local Notation cell := (K * V)%type.
Implicit Types (cs : list cell) (k : K) (v dv : V) (os : list (op (K:=K) (V:=V))).

Lemma set_nth_length : forall (A : Type) (l : list A) i x, length (set_nth l i x) = length l.
Proof. induction l; intros [|i] x; cbn; try rewrite IHl; reflexivity. Qed.
Lemma nth_set_eq : forall (A : Type) (l : list A) i x, i < length l -> nth_error (set_nth l i x) i = Some x.
Proof. induction l; intros [|i] x H; cbn in *; try lia; [reflexivity|]. apply IHl. lia. Qed.
Lemma nth_set_neq : forall (A : Type) (l : list A) i j x, i <> j -> nth_error (set_nth l i x) j = nth_error l j.
Proof.
  induction l; intros [|i] [|j] x H; cbn; try lia; try reflexivity. apply IHl. lia.
Qed.
Lemma set_nth_split : forall (A : Type) (l : list A) i x y, nth_error l i = Some y ->
  exists a b, l = a ++ y :: b /\ set_nth l i x = a ++ x :: b.
Proof.
  induction l; intros [|i] x y H; cbn in *; try discriminate.
  - injection H as ->. exists [], l. split; reflexivity.
  - destruct (IHl i x y H) as (u & w & -> & ->). exists (a :: u), w. split; reflexivity.
Qed.

Definition validb (c : cell) : bool := if keq (fst c) invalid then false else true.
Definition vents cs : list cell := filter validb cs.

Lemma validb_true : forall c, validb c = true <-> fst c <> invalid.
Proof. intros c. unfold validb. destruct (keq (fst c) invalid); split; intros; congruence. Qed.
Lemma validb_false : forall c, validb c = false <-> fst c = invalid.
Proof. intros c. unfold validb. destruct (keq (fst c) invalid); split; intros; congruence. Qed.

Lemma vents_set_valid : forall cs i c x, nth_error cs i = Some c -> validb c = false -> validb x = true ->
  Permutation (vents (set_nth cs i x)) (x :: vents cs).
Proof.
  intros cs i c x H C X. destruct (set_nth_split _ cs i x c H) as (a & b & -> & ->).
  unfold vents. rewrite !filter_app. cbn [filter]. rewrite C, X.
  symmetry. apply Permutation_middle.
Qed.
Lemma vents_set_invalid : forall cs i c x, nth_error cs i = Some c -> validb c = true -> validb x = false ->
  Permutation (vents cs) (c :: vents (set_nth cs i x)).
Proof.
  intros cs i c x H C X. destruct (set_nth_split _ cs i x c H) as (a & b & -> & ->).
  unfold vents. rewrite !filter_app. cbn [filter]. rewrite C, X.
  symmetry. apply Permutation_middle.
Qed.
Lemma vents_set_same : forall cs i c x, nth_error cs i = Some c -> validb c = true -> validb x = true ->
  exists E, Permutation (vents cs) (c :: E) /\ Permutation (vents (set_nth cs i x)) (x :: E).
Proof.
  intros cs i c x H C X. destruct (set_nth_split _ cs i x c H) as (a & b & -> & ->).
  unfold vents. rewrite !filter_app. cbn [filter]. rewrite C, X.
  exists (filter validb a ++ filter validb b). split; symmetry; apply Permutation_middle.
Qed.
Lemma vents_repeat : forall v n, vents (repeat (invalid, v) n) = [].
Proof.
  intros v. induction n; cbn; [reflexivity|]. unfold validb at 1. cbn.
  destruct (keq invalid invalid); [exact IHn|congruence].
Qed.
Lemma vents_in : forall cs k v, k <> invalid ->
  (In (k, v) (vents cs) <-> exists p, nth_error cs p = Some (k, v)).
Proof.
  intros cs k v N. unfold vents. rewrite filter_In. split.
  - intros [I _]. apply In_nth_error in I. exact I.
  - intros [p P]. split; [apply nth_error_In in P; exact P|]. apply validb_true. exact N.
Qed.
(** A table with fewer entries than buckets has an empty bucket. *)
Lemma hole : forall cs, length (vents cs) < length cs ->
  exists p c, nth_error cs p = Some c /\ validb c = false.
Proof.
  induction cs as [|c r IH]; cbn; [lia|]. intros H. fold (vents r) in H.
  destruct (validb c) eqn:E.
  - cbn in H. destruct IH as (p & c' & P & F); [lia|]. exists (S p), c'. split; assumption.
  - exists 0, c. split; [reflexivity|exact E].
Qed.

(** ** Cyclic positions *)
Lemma next_mod : forall B i, i < B -> next B i = (i + 1) mod B.
Proof.
  intros B i H. unfold next. destruct (Nat.eqb_spec (S i) B).
  - rewrite Nat.add_1_r, e, Nat.mod_same; lia.
  - rewrite Nat.mod_small; lia.
Qed.
Lemma next_lt : forall B i, i < B -> next B i < B.
Proof. intros B i H. unfold next. destruct (Nat.eqb_spec (S i) B); lia. Qed.
Lemma step_shift : forall B i n, i < B -> (next B i + n) mod B = (i + S n) mod B.
Proof.
  intros B i n H. rewrite next_mod by exact H. rewrite Nat.add_mod_idemp_l by lia. f_equal. lia.
Qed.
Lemma mod_start : forall B s n, B <> 0 -> (s mod B + n) mod B = (s + n) mod B.
Proof. intros. apply Nat.add_mod_idemp_l. assumption. Qed.
(** Every bucket is reached within [B] steps. *)
Lemma reach : forall B s p, p < B -> exists n, n < B /\ (s + n) mod B = p.
Proof.
  intros B s p H. exists ((p + (B - s mod B)) mod B). split; [apply Nat.mod_upper_bound; lia|].
  rewrite <- (mod_start B s) by lia.
  rewrite Nat.add_mod_idemp_r by lia.
  pose proof (Nat.mod_upper_bound s B ltac:(lia)).
  replace (s mod B + (p + (B - s mod B))) with (p + 1 * B) by lia.
  rewrite Nat.mod_add by lia. apply Nat.mod_small. exact H.
Qed.
Lemma step_inj : forall B s n m, n < B -> m < B -> (s + n) mod B = (s + m) mod B -> n = m.
Proof.
  intros B s n m N M H.
  assert (D : forall a b, a <= b -> b < B -> (s + a) mod B = (s + b) mod B -> a = b).
  { intros a b L BB E.
    pose proof (Nat.div_mod (s + a) B ltac:(lia)).
    pose proof (Nat.div_mod (s + b) B ltac:(lia)).
    assert ((s + a) / B = (s + b) / B \/ (s + a) / B + 1 <= (s + b) / B) as [Q|Q].
    { pose proof (Nat.div_le_mono (s + a) (s + b) B ltac:(lia) ltac:(lia)). lia. }
    - rewrite Q, E in *. lia.
    - rewrite E in *. nia. }
  destruct (Nat.le_ge_cases n m); [|symmetry]; apply D; auto.
Qed.

Lemma least : forall (P : nat -> bool) n, P n = true ->
  exists m, m <= n /\ P m = true /\ forall j, j < m -> P j = false.
Proof.
  intros P n. induction n as [n IH] using lt_wf_ind. intros H.
  destruct (existsb P (seq 0 n)) eqn:E.
  - apply existsb_exists in E as (j & J & PJ). apply in_seq in J.
    destruct (IH j ltac:(lia) PJ) as (m & M1 & M2 & M3). exists m. split; [lia|]. split; assumption.
  - exists n. split; [lia|]. split; [exact H|]. intros j J.
    destruct (P j) eqn:PJ; [|reflexivity].
    assert (existsb P (seq 0 n) = true) by (apply existsb_exists; exists j; split; [apply in_seq; lia|exact PJ]).
    congruence.
Qed.

(** ** The two probe loops *)
Lemma find_loop_spec : forall k cs n fuel i c,
  i < length cs -> n < fuel ->
  (forall m, m < n -> exists c', nth_error cs ((i + m) mod length cs) = Some c' /\ fst c' <> k /\ fst c' <> invalid) ->
  nth_error cs ((i + n) mod length cs) = Some c -> fst c = k \/ fst c = invalid ->
  find_loop keq invalid fuel cs k i = Ret ((i + n) mod length cs, if keq (fst c) k then true else false).
Proof.
  intros k cs. induction n as [|n IH]; intros fuel i c I F M N C; (destruct fuel as [|fuel]; [lia|]); cbn [find_loop].
  - rewrite Nat.add_0_r, Nat.mod_small in * by exact I. rewrite N. destruct c as [k' v]. cbn [fst] in *.
    destruct (keq k' k); [reflexivity|]. destruct (keq k' invalid); [reflexivity|]. destruct C; congruence.
  - destruct (M 0 ltac:(lia)) as (c' & N' & A & B). rewrite Nat.add_0_r, Nat.mod_small in N' by exact I.
    rewrite N'. destruct c' as [k' v']. cbn [fst] in *.
    destruct (keq k' k); [congruence|]. destruct (keq k' invalid); [congruence|].
    rewrite (IH fuel (next (length cs) i) c).
    + rewrite step_shift by exact I. reflexivity.
    + apply next_lt, I.
    + lia.
    + intros m L. rewrite step_shift by exact I. apply M. lia.
    + rewrite step_shift by exact I. exact N.
    + exact C.
Qed.

Lemma free_loop_spec : forall cs n fuel i c,
  i < length cs -> n < fuel ->
  (forall m, m < n -> exists c', nth_error cs ((i + m) mod length cs) = Some c' /\ fst c' <> invalid) ->
  nth_error cs ((i + n) mod length cs) = Some c -> fst c = invalid ->
  free_loop keq invalid fuel cs i = Ret ((i + n) mod length cs).
Proof.
  intros cs. induction n as [|n IH]; intros fuel i c I F M N C; (destruct fuel as [|fuel]; [lia|]); cbn [free_loop].
  - rewrite Nat.add_0_r, Nat.mod_small in * by exact I. rewrite N. destruct c as [k' v]. cbn [fst] in *.
    destruct (keq k' invalid); [reflexivity|congruence].
  - destruct (M 0 ltac:(lia)) as (c' & N' & B). rewrite Nat.add_0_r, Nat.mod_small in N' by exact I.
    rewrite N'. destruct c' as [k' v']. cbn [fst] in *.
    destruct (keq k' invalid); [congruence|].
    rewrite (IH fuel (next (length cs) i) c).
    + rewrite step_shift by exact I. reflexivity.
    + apply next_lt, I.
    + lia.
    + intros m L. rewrite step_shift by exact I. apply M. lia.
    + rewrite step_shift by exact I. exact N.
    + exact C.
Qed.

(** [occ cs p]: bucket [p] exists and is occupied. *)
Definition occ cs p := exists c, nth_error cs p = Some c /\ fst c <> invalid.

(** Bucket [p] is at the end of an unbroken run from the ideal bucket of [k]. *)
Definition run_to cs k p n :=
  n < length cs /\ (hash k + n) mod length cs = p /\ forall m, m < n -> occ cs ((hash k + m) mod length cs).

(** The probing invariant. *)
Definition Inv cs := forall p k v, nth_error cs p = Some (k, v) -> k <> invalid -> exists n, run_to cs k p n.

Lemma lookup_pos_eq : forall cs k, 0 < length cs ->
  lookup_pos keq hash invalid cs k = find_loop keq invalid (length cs) cs k (hash k mod length cs).
Proof. intros [|c r] k H; [cbn in H; lia|reflexivity]. Qed.
Lemma unchecked_eq : forall cs t, 0 < length cs ->
  unchecked_insert keq hash invalid cs t =
  match free_loop keq invalid (length cs) cs (hash (fst t) mod length cs) with
  | Ret i => Ret (set_nth cs i t, i) | Loop => Loop | UB => UB end.
Proof. intros [|c r] t H; [cbn in H; lia|reflexivity]. Qed.

Lemma nth_lt_some : forall cs p, p < length cs -> exists c, nth_error cs p = Some c.
Proof.
  intros cs p H. destruct (nth_error cs p) as [c|] eqn:E; [exists c; reflexivity|].
  apply nth_error_None in E. lia.
Qed.

(** With an empty bucket somewhere, a probe ends at the first empty bucket or
    the first bucket holding the key. *)
Lemma lookup_pos_spec : forall cs k, k <> invalid -> length (vents cs) < length cs ->
  exists p n c, p < length cs /\ run_to cs k p n /\ nth_error cs p = Some c /\
    (fst c = k \/ fst c = invalid) /\
    (forall m c', m < n -> nth_error cs ((hash k + m) mod length cs) = Some c' -> fst c' <> k) /\
    lookup_pos keq hash invalid cs k = Ret (p, if keq (fst c) k then true else false).
Proof.
  intros cs k NI H. assert (LB : 0 < length cs) by lia.
  destruct (hole cs H) as (h & c0 & Hh & F).
  assert (h < length cs) as HL by (apply nth_error_Some; congruence).
  destruct (reach (length cs) (hash k) h HL) as (n0 & N0 & R0).
  set (P := fun n => match nth_error cs ((hash k + n) mod length cs) with
    | Some c => if keq (fst c) k then true else negb (validb c) | None => true end).
  destruct (least P n0) as (n & NL & PN & MIN).
  { unfold P. rewrite R0, Hh, F. destruct (keq (fst c0) k); reflexivity. }
  set (p := (hash k + n) mod length cs) in *.
  assert (PL : p < length cs) by (apply Nat.mod_upper_bound; lia).
  destruct (nth_lt_some cs p PL) as (c & C).
  assert (CC : fst c = k \/ fst c = invalid).
  { unfold P in PN. fold p in PN. rewrite C in PN. destruct (keq (fst c) k); [left; assumption|].
    right. apply validb_false. destruct (validb c); [discriminate|reflexivity]. }
  assert (BEF : forall m, m < n -> exists c', nth_error cs ((hash k + m) mod length cs) = Some c' /\ fst c' <> k /\ fst c' <> invalid).
  { intros m M. specialize (MIN m M). unfold P in MIN.
    destruct (nth_error cs ((hash k + m) mod length cs)) as [c'|]; [|discriminate].
    exists c'. split; [reflexivity|]. destruct (keq (fst c') k); [discriminate|]. split; [assumption|].
    apply validb_true. destruct (validb c'); [reflexivity|discriminate]. }
  exists p, n, c. split; [exact PL|]. split.
  { split; [lia|]. split; [reflexivity|]. intros m M. destruct (BEF m M) as (c' & A & _ & B). exists c'. split; assumption. }
  split; [exact C|]. split; [exact CC|]. split.
  { intros m c' M E. destruct (BEF m M) as (c'' & A & B & _). congruence. }
  rewrite lookup_pos_eq by exact LB.
  rewrite (find_loop_spec k cs n (length cs) (hash k mod length cs) c).
  - rewrite mod_start by lia. reflexivity.
  - apply Nat.mod_upper_bound. lia.
  - lia.
  - intros m M. rewrite mod_start by lia. apply BEF, M.
  - rewrite mod_start by lia. exact C.
  - exact CC.
Qed.

Lemma unchecked_spec : forall cs k v, length (vents cs) < length cs ->
  exists p n c, run_to cs k p n /\ nth_error cs p = Some c /\ fst c = invalid /\
    unchecked_insert keq hash invalid cs (k, v) = Ret (set_nth cs p (k, v), p).
Proof.
  intros cs k v H. assert (LB : 0 < length cs) by lia.
  destruct (hole cs H) as (h & c0 & Hh & F).
  assert (h < length cs) as HL by (apply nth_error_Some; congruence).
  destruct (reach (length cs) (hash k) h HL) as (n0 & N0 & R0).
  set (P := fun n => match nth_error cs ((hash k + n) mod length cs) with
    | Some c => negb (validb c) | None => true end).
  destruct (least P n0) as (n & NL & PN & MIN).
  { unfold P. rewrite R0, Hh, F. reflexivity. }
  set (p := (hash k + n) mod length cs) in *.
  assert (PL : p < length cs) by (apply Nat.mod_upper_bound; lia).
  destruct (nth_lt_some cs p PL) as (c & C).
  assert (CC : fst c = invalid).
  { unfold P in PN. fold p in PN. rewrite C in PN.
    apply validb_false. destruct (validb c); [discriminate|reflexivity]. }
  assert (BEF : forall m, m < n -> exists c', nth_error cs ((hash k + m) mod length cs) = Some c' /\ fst c' <> invalid).
  { intros m M. specialize (MIN m M). unfold P in MIN.
    destruct (nth_error cs ((hash k + m) mod length cs)) as [c'|]; [|discriminate].
    exists c'. split; [reflexivity|]. apply validb_true. destruct (validb c'); [reflexivity|discriminate]. }
  exists p, n, c. split.
  { split; [lia|]. split; [reflexivity|]. exact BEF. }
  split; [exact C|]. split; [exact CC|].
  rewrite unchecked_eq by exact LB. cbn [fst].
  rewrite (free_loop_spec cs n (length cs) (hash k mod length cs) c).
  - rewrite mod_start by lia. reflexivity.
  - apply Nat.mod_upper_bound. lia.
  - lia.
  - intros m M. rewrite mod_start by lia. apply BEF, M.
  - rewrite mod_start by lia. exact C.
  - exact CC.
Qed.

(** A completely full table: neither loop ends. *)
Lemma find_loop_full : forall cs k fuel i, i < length cs ->
  (forall c, In c cs -> fst c <> invalid /\ fst c <> k) ->
  find_loop keq invalid fuel cs k i = Loop.
Proof.
  intros cs k. induction fuel as [|f IH]; intros i I H; cbn [find_loop]; [reflexivity|].
  destruct (nth_lt_some cs i I) as ([k' v'] & E). rewrite E.
  destruct (H _ (nth_error_In _ _ E)) as [A B]. cbn in A, B.
  destruct (keq k' k); [congruence|]. destruct (keq k' invalid); [congruence|].
  apply IH; [apply next_lt, I|exact H].
Qed.
Lemma free_loop_full : forall cs fuel i, i < length cs ->
  (forall c, In c cs -> fst c <> invalid) -> free_loop keq invalid fuel cs i = Loop.
Proof.
  intros cs. induction fuel as [|f IH]; intros i I H; cbn [free_loop]; [reflexivity|].
  destruct (nth_lt_some cs i I) as ([k' v'] & E). rewrite E.
  pose proof (H _ (nth_error_In _ _ E)) as A. cbn in A.
  destruct (keq k' invalid); [congruence|].
  apply IH; [apply next_lt, I|exact H].
Qed.

(** ** The relation between table and content *)
Definition first_at cs k p := exists n, run_to cs k p n /\
  forall m c, m < n -> nth_error cs ((hash k + m) mod length cs) = Some c -> fst c <> k.

Definition finds cs (m : list cell) := forall k, k <> invalid ->
  match lookup keq k m with
  | None => forall p v, nth_error cs p <> Some (k, v)
  | Some v => exists p, nth_error cs p = Some (k, v) /\ first_at cs k p
  end.

Definition Rel cs (m : list cell) :=
  Inv cs /\ Permutation (vents cs) m /\ finds cs m.

Lemma run_to_uniq : forall cs k p n p' n' , run_to cs k p n -> run_to cs k p' n' -> n = n' -> p = p'.
Proof. intros cs k p n p' n' (_ & A & _) (_ & B & _) ->. congruence. Qed.

Lemma lookup_rel : forall cs m k, Rel cs m -> length m < length cs -> k <> invalid ->
  match lookup keq k m with
  | Some v => exists p, p < length cs /\ lookup_pos keq hash invalid cs k = Ret (p, true) /\ nth_error cs p = Some (k, v) /\ first_at cs k p
  | None => exists p n c, run_to cs k p n /\ nth_error cs p = Some c /\ fst c = invalid /\
              lookup_pos keq hash invalid cs k = Ret (p, false)
  end.
Proof.
  intros cs m k (I & PM & F) L NI.
  rewrite <- (Permutation_length PM) in L.
  destruct (lookup_pos_spec cs k NI L) as (p & n & c & PL & R & C & CC & MIN & E).
  specialize (F k NI). destruct (lookup keq k m) as [v|].
  - destruct F as (p1 & P1 & n1 & R1 & M1).
    assert (n = n1) as ->.
    { destruct R as (Rn & Rp & Ro). destruct R1 as (Rn1 & Rp1 & Ro1).
      destruct (Nat.lt_trichotomy n n1) as [X|[X|X]]; [|exact X|].
      - exfalso. destruct CC as [CC|CC].
        + rewrite <- Rp in C. exact (M1 n c X C CC).
        + destruct (Ro1 n X) as (c' & C' & Vd). rewrite Rp in C'. congruence.
      - exfalso. rewrite <- Rp1 in P1. exact (MIN n1 _ X P1 eq_refl). }
    pose proof (run_to_uniq _ _ _ _ _ _ R R1 eq_refl) as <-.
    rewrite P1 in C. injection C as <-. cbn [fst] in E.
    destruct (keq k k); [|congruence].
    exists p. split; [exact PL|]. split; [exact E|]. split; [exact P1|]. exists n1. split; assumption.
  - destruct c as [k' v']. cbn [fst] in *.
    destruct CC as [->|CC]; [exfalso; exact (F p v' C)|].
    destruct (keq k' k); [congruence|]. exists p, n, (k', v'). repeat split; try assumption; apply R.
Qed.

(** Filling an empty bucket at the end of the run of its key. *)
Lemma occ_set : forall cs p x q, fst x <> invalid -> occ cs q -> occ (set_nth cs p x) q.
Proof.
  intros cs p x q N (c & C & Vd). destruct (Nat.eq_dec p q) as [->|NE].
  - exists x. split; [|exact N]. apply nth_set_eq. apply nth_error_Some. congruence.
  - exists c. split; [|exact Vd]. rewrite nth_set_neq by exact NE. exact C.
Qed.
Lemma run_to_set : forall cs p x k q n, fst x <> invalid -> run_to cs k q n -> run_to (set_nth cs p x) k q n.
Proof.
  intros cs p x k q n N (A & B & C). unfold run_to. rewrite set_nth_length.
  split; [exact A|]. split; [exact B|]. intros m M. apply occ_set; [exact N|]. apply C, M.
Qed.

Lemma Inv_fill : forall cs p k v n c, Inv cs -> k <> invalid -> run_to cs k p n ->
  nth_error cs p = Some c -> Inv (set_nth cs p (k, v)).
Proof.
  intros cs p k v n c I N R C q k' v' Q Vd.
  destruct (Nat.eq_dec p q) as [<-|NE].
  - rewrite nth_set_eq in Q by (apply nth_error_Some; congruence). injection Q as <- <-.
    exists n. apply run_to_set; [exact N|exact R].
  - rewrite nth_set_neq in Q by exact NE. destruct (I q k' v' Q Vd) as (n' & R').
    exists n'. apply run_to_set; [exact N|exact R'].
Qed.

Lemma lookup_app : forall k m m', lookup keq k (m ++ m') =
  match lookup keq k m with Some v => Some v | None => lookup (V:=V) keq k m' end.
Proof.
  induction m as [|[k' v'] r IH]; intros m'; cbn; [reflexivity|].
  destruct (keq k' k); [reflexivity|apply IH].
Qed.

Lemma Rel_fill : forall cs m p k v n c, Rel cs m -> k <> invalid -> run_to cs k p n ->
  nth_error cs p = Some c -> fst c = invalid ->
  Rel (set_nth cs p (k, v)) (m ++ [(k, v)]).
Proof.
  intros cs m p k v n c (I & PM & F) N R C CI. split; [|split].
  - exact (Inv_fill cs p k v n c I N R C).
  - rewrite (vents_set_valid cs p c (k, v) C); [|apply validb_false, CI|apply validb_true, N].
    rewrite PM. apply Permutation_cons_append.
  - intros k' N'. specialize (F k' N'). rewrite lookup_app. destruct (lookup keq k' m) as [w|].
    + destruct F as (q & Q & nq & Rq & Mq).
      assert (NE : p <> q) by (intros <-; rewrite C in Q; injection Q as ->; cbn in CI; congruence).
      exists q. split; [rewrite nth_set_neq by exact NE; exact Q|].
      exists nq. split; [apply run_to_set; [exact N|exact Rq]|].
      rewrite set_nth_length. intros j cj J CJ.
      destruct (Nat.eq_dec p ((hash k' + j) mod length cs)) as [E|E].
      * exfalso. destruct Rq as (_ & _ & O). destruct (O j J) as (c' & C' & V'). congruence.
      * rewrite nth_set_neq in CJ by exact E. exact (Mq j cj J CJ).
    + cbn [lookup]. destruct (keq k k') as [<-|NK].
      * exists p. split; [apply nth_set_eq, nth_error_Some; congruence|].
        exists n. split; [apply run_to_set; [exact N|exact R]|].
        rewrite set_nth_length. intros j cj J CJ.
        destruct R as (Rn & Rp & Ro).
        rewrite nth_set_neq in CJ.
        -- intros E. destruct cj as [kj vj]. cbn in E. subst kj. exact (F _ _ CJ).
        -- intros E. rewrite <- Rp in E. pose proof (step_inj _ _ n j Rn ltac:(lia) E). lia.
      * intros q w Q. destruct (Nat.eq_dec p q) as [<-|NE].
        -- rewrite nth_set_eq in Q by (apply nth_error_Some; congruence). injection Q as -> _. congruence.
        -- rewrite nth_set_neq in Q by exact NE. exact (F q w Q).
Qed.

Lemma Rel_insert : forall cs m k v, Rel cs m -> k <> invalid -> length m < length cs ->
  exists cs' p, unchecked_insert keq hash invalid cs (k, v) = Ret (cs', p) /\
    entry_at cs' p = Ret v /\ length cs' = length cs /\ Rel cs' (m ++ [(k, v)]).
Proof.
  intros cs m k v R N L. destruct (R) as (_ & PM & _).
  destruct (unchecked_spec cs k v) as (p & n & c & RT & C & CI & U).
  { rewrite (Permutation_length PM). exact L. }
  eexists _, p. split; [exact U|]. split.
  { unfold entry_at. rewrite nth_set_eq by (apply nth_error_Some; congruence). reflexivity. }
  split; [apply set_nth_length|]. exact (Rel_fill cs m p k v n c R N RT C CI).
Qed.

Lemma assign_perm : forall k v w m, lookup keq k m = Some w ->
  exists E, Permutation m ((k, w) :: E) /\ Permutation (assign keq k v m) ((k, v) :: E).
Proof.
  intros k v w. induction m as [|[k' v'] r IH]; cbn; [discriminate|]. destruct (keq k' k) as [->|NK].
  - intros H. injection H as ->. exists r. split; reflexivity.
  - intros H. destruct (IH H) as (E & A & B). exists ((k', v') :: E). split.
    + rewrite A. apply perm_swap.
    + rewrite B. apply perm_swap.
Qed.
Lemma lookup_assign : forall k v k' m, lookup keq k' (assign keq k v m) =
  if keq k k' then match lookup keq k m with Some _ => Some v | None => None end else lookup keq k' m.
Proof.
  intros k v k'. induction m as [|[k1 v1] r IH]; cbn.
  - destruct (keq k k'); reflexivity.
  - destruct (keq k1 k) as [->|N1]; cbn.
    + destruct (keq k k'); reflexivity.
    + rewrite IH. destruct (keq k1 k') as [->|N2]; destruct (keq k k') as [->|N3]; try congruence; reflexivity.
Qed.
Lemma assign_length : forall k v (m : list cell), length (assign keq k v m) = length m.
Proof. induction m as [|[k1 v1] r IH]; cbn; [reflexivity|]. destruct (keq k1 k); cbn; [|rewrite IH]; reflexivity. Qed.

Lemma Rel_assign : forall cs m k v w p, Rel cs m -> k <> invalid -> lookup keq k m = Some w ->
  nth_error cs p = Some (k, w) -> first_at cs k p -> Rel (set_nth cs p (k, v)) (assign keq k v m).
Proof.
  intros cs m k v w p (I & PM & F) N LK C (n & RT & MIN).
  assert (PL : p < length cs) by (apply nth_error_Some; congruence).
  split; [|split].
  - exact (Inv_fill cs p k v n _ I N RT C).
  - destruct (vents_set_same cs p (k, w) (k, v) C) as (E1 & A1 & B1); [apply validb_true, N|apply validb_true, N|].
    destruct (assign_perm k v w m LK) as (E2 & A2 & B2).
    rewrite B1, B2. apply perm_skip. apply Permutation_cons_inv with (a := (k, w)).
    rewrite <- A1, <- A2. exact PM.
  - intros k' N'. specialize (F k' N'). rewrite lookup_assign.
    assert (KEY : forall q c, nth_error (set_nth cs p (k, v)) q = Some c -> exists u, nth_error cs q = Some (fst c, u)).
    { intros q c Q. destruct (Nat.eq_dec p q) as [<-|NE].
      - rewrite nth_set_eq in Q by exact PL. injection Q as <-. exists w. exact C.
      - rewrite nth_set_neq in Q by exact NE. exists (snd c). rewrite Q. destruct c; reflexivity. }
    destruct (keq k k') as [<-|NK].
    + rewrite LK. exists p. split; [apply nth_set_eq; exact PL|].
      exists n. split; [apply run_to_set; [exact N|exact RT]|].
      rewrite set_nth_length. intros j cj J CJ.
      destruct (KEY _ _ CJ) as (u & U). exact (MIN j _ J U).
    + destruct (lookup keq k' m) as [u|].
      * destruct F as (q & Q & nq & Rq & Mq). exists q. split.
        { rewrite nth_set_neq; [exact Q|]. intros <-. rewrite C in Q. injection Q as -> _. congruence. }
        exists nq. split; [apply run_to_set; [exact N|exact Rq]|].
        rewrite set_nth_length. intros j cj J CJ.
        destruct (KEY _ _ CJ) as (u' & U). exact (Mq j _ J U).
      * intros q u Q. destruct (KEY _ _ Q) as (u' & U). exact (F q u' U).
Qed.

Lemma nth_repeat_some : forall (A : Type) (x : A) n p y, nth_error (repeat x n) p = Some y -> y = x.
Proof. intros A x n p y H. apply nth_error_In in H. apply repeat_spec in H. exact H. Qed.

Lemma Rel_empty : forall dv B, Rel (repeat (invalid, dv) B) [].
Proof.
  intros dv B. split; [|split].
  - intros p k v H N. apply nth_repeat_some in H. congruence.
  - rewrite vents_repeat. reflexivity.
  - intros k N. cbn. intros p v H. apply nth_repeat_some in H. congruence.
Qed.

(** With distinct keys the invariant and the set of entries are enough. *)
Lemma Rel_of_nodup : forall cs m, Inv cs -> Permutation (vents cs) m -> NoDup (map fst m) -> Rel cs m.
Proof.
  intros cs m I PM ND. split; [exact I|]. split; [exact PM|]. intros k N.
  assert (UNI : forall v w, In (k, v) m -> In (k, w) m -> v = w).
  { clear - ND. intros v w. induction m as [|[k1 v1] r IH]; cbn; [tauto|].
    inversion ND; subst. intros [A|A] [B|B].
    - congruence.
    - injection A as -> ->. exfalso. apply H1. apply in_map_iff. exists (k, w). split; [reflexivity|exact B].
    - injection B as -> ->. exfalso. apply H1. apply in_map_iff. exists (k, v). split; [reflexivity|exact A].
    - exact (IH H2 A B). }
  assert (LI : forall v, lookup keq k m = Some v -> In (k, v) m).
  { clear. induction m as [|[k1 v1] r IH]; cbn; [discriminate|]. intros v. destruct (keq k1 k) as [->|NK].
    - intros H. injection H as ->. left. reflexivity.
    - intros H. right. apply IH, H. }
  assert (LN : lookup keq k m = None -> forall v, ~ In (k, v) m).
  { clear. induction m as [|[k1 v1] r IH]; cbn; [tauto|]. destruct (keq k1 k) as [->|NK]; [discriminate|].
    intros H v [A|A]; [congruence|]. exact (IH H v A). }
  destruct (lookup keq k m) as [v|].
  - (* the first bucket holding k *)
    assert (In (k, v) (vents cs)) as IV by (rewrite PM; apply LI; reflexivity).
    apply vents_in in IV as (p & P); [|exact N].
    destruct (I p k v P N) as (n & RT).
    set (Q := fun j => match nth_error cs ((hash k + j) mod length cs) with
       Some c => if keq (fst c) k then true else false | None => false end).
    destruct (least Q n) as (j & JL & QJ & MIN).
    { unfold Q. destruct RT as (_ & -> & _). rewrite P. cbn. destruct (keq k k); [reflexivity|congruence]. }
    unfold Q in QJ. destruct (nth_error cs ((hash k + j) mod length cs)) as [[k' w]|] eqn:E; [|discriminate].
    cbn in QJ. destruct (keq k' k) as [->|]; [|discriminate].
    assert (w = v) as ->.
    { apply (UNI w v); [|apply LI; reflexivity]. apply (Permutation_in _ PM), vents_in; [exact N|]. eexists; exact E. }
    exists ((hash k + j) mod length cs). split; [exact E|].
    destruct RT as (Rn & Rp & Ro).
    exists j. split.
    + split; [lia|]. split; [reflexivity|]. intros i Hi. apply Ro. lia.
    + intros i c Hi C. specialize (MIN i Hi). unfold Q in MIN. rewrite C in MIN.
      destruct (keq (fst c) k); [discriminate|assumption].
  - intros p v P. apply (LN eq_refl v). apply (Permutation_in _ PM), vents_in; [exact N|]. exists p. exact P.
Qed.

(** ** Double *)

(** Collecting the roll-over entries: a prefix becomes empty, the rest is kept. *)
Lemma roll_spec : forall f cs B i acc cs1 rolled, B <= length cs -> B < i + f ->
  roll keq invalid f cs B i acc = (cs1, rolled) -> i <= B ->
  (forall p, p < i -> ~ occ cs p) ->
  exists g, i <= g <= B /\ length cs1 = length cs /\
    (forall p, p < g -> ~ occ cs1 p) /\ (forall p, g <= p -> nth_error cs1 p = nth_error cs p) /\
    (forall p, i <= p < g -> occ cs p) /\
    (g < B -> ~ occ cs g) /\
    Permutation (vents cs ++ acc) (vents cs1 ++ rolled) /\
    exists ext, rolled = acc ++ ext /\ Forall (fun c => fst c <> invalid) ext.
Proof.
  induction f as [|f IH]; intros cs B i acc cs1 rolled L FU E IB EMP; [lia|].
  cbn [roll] in E. destruct (Nat.eqb_spec i B) as [->|NE].
  { injection E as <- <-. exists B. split; [lia|]. split; [reflexivity|]. split; [exact EMP|].
    split; [reflexivity|]. split; [lia|]. split; [lia|]. split; [reflexivity|].
    exists []. split; [rewrite app_nil_r; reflexivity|constructor]. }
  destruct (nth_lt_some cs i ltac:(lia)) as ([k v] & C). rewrite C in E.
  destruct (keq k invalid) as [->|NK].
  { injection E as <- <-. exists i. split; [lia|]. split; [reflexivity|]. split; [exact EMP|].
    split; [reflexivity|]. split; [lia|]. split.
    { intros _ (c & C' & Vd). rewrite C in C'. injection C' as <-. cbn in Vd. congruence. }
    split; [reflexivity|]. exists []. split; [rewrite app_nil_r; reflexivity|constructor]. }
  apply IH in E; [|rewrite set_nth_length; lia|lia|lia|].
  - destruct E as (g & G1 & G2 & G3 & G4 & G5 & G6 & G7 & ext & X1 & X2).
    rewrite set_nth_length in *.
    exists g. split; [lia|]. split; [exact G2|]. split; [exact G3|]. split; [|split; [|split; [|split]]].
    + intros p P. rewrite G4 by exact P. apply nth_set_neq. lia.
    + intros p P. destruct (Nat.eq_dec p i) as [->|NP].
      * exists (k, v). split; assumption.
      * destruct (G5 p ltac:(lia)) as (c & C' & Vd). rewrite nth_set_neq in C' by lia. exists c. split; assumption.
    + intros GB (c & C' & Vd). apply (G6 GB). exists c. split; [|exact Vd]. rewrite nth_set_neq by lia. exact C'.
    + rewrite <- G7.
      rewrite (vents_set_invalid cs i (k, v) (invalid, v) C); [|apply validb_true; exact NK|apply validb_false; reflexivity].
      rewrite app_assoc. cbn [app]. apply Permutation_cons_append.
    + exists ((k, v) :: ext). split; [rewrite X1, <- app_assoc; reflexivity|]. constructor; assumption.
  - intros p P (c & C' & Vd). destruct (Nat.eq_dec p i) as [->|NP].
    + rewrite nth_set_eq in C' by lia. injection C' as <-. cbn in Vd. congruence.
    + rewrite nth_set_neq in C' by lia. apply (EMP p ltac:(lia)). exists c. split; assumption.
Qed.

Section Dbl.
Variable B : nat.
Hypothesis BP : 0 < B.
Local Notation d k := (hash k mod B).
Local Notation d2 k := (hash k mod (2 * B)).

Lemma d2_cases : forall k, d2 k = d k \/ d2 k = d k + B.
Proof.
  intros k. pose proof (Nat.div_mod (hash k) (2 * B) ltac:(lia)) as E.
  pose proof (Nat.mod_upper_bound (hash k) (2 * B) ltac:(lia)) as U.
  set (q := hash k / (2 * B)) in *. set (r := hash k mod (2 * B)) in *.
  assert (D : d k = r mod B).
  { rewrite E. replace (2 * B * q + r) with (r + (2 * q) * B) by lia. apply Nat.mod_add. lia. }
  rewrite D. destruct (Nat.lt_ge_cases r B).
  - left. symmetry. apply Nat.mod_small. assumption.
  - right. replace r with ((r - B) + 1 * B) at 2 by lia. rewrite Nat.mod_add by lia.
    rewrite Nat.mod_small by lia. lia.
Qed.

(** State of the main loop before position [i] is handled. *)
Definition DI cs i :=
  length cs = 2 * B /\
  (forall p k v, nth_error cs p = Some (k, v) -> k <> invalid ->
    (p < i -> (d2 k <= p \/ B <= d2 k) /\ exists n, run_to cs k p n) /\
    (i <= p < B -> d k <= p) /\
    (B <= p -> B <= d2 k <= p /\ exists n, run_to cs k p n)).

(** The steps of a run stay in the stretch between the ideal bucket and [p]. *)
Lemma run_pos : forall cs k p n m, length cs = 2 * B -> run_to cs k p n -> m < n ->
  let q := (hash k + m) mod (2 * B) in
  (d2 k <= p -> d2 k <= q < p) /\ (p < d2 k -> d2 k <= q \/ q < p).
Proof.
  intros cs k p n m L (Rn & Rp & _) M. cbn zeta. rewrite L in *.
  rewrite <- mod_start in Rp by lia. rewrite <- (mod_start (2 * B) (hash k) m) by lia.
  pose proof (Nat.mod_upper_bound (hash k) (2 * B) ltac:(lia)) as U.
  set (s := hash k mod (2 * B)) in *.
  assert (W : forall a, a < 2 * B -> (s + a) mod (2 * B) = if s + a <? 2 * B then s + a else s + a - 2 * B).
  { intros a A. destruct (Nat.ltb_spec (s + a) (2 * B)); [apply Nat.mod_small; assumption|].
    replace (s + a) with ((s + a - 2 * B) + 1 * (2 * B)) at 1 by lia.
    rewrite Nat.mod_add by lia. apply Nat.mod_small. lia. }
  rewrite W in Rp by lia. rewrite W by lia.
  destruct (Nat.ltb_spec (s + n) (2 * B)); destruct (Nat.ltb_spec (s + m) (2 * B)); lia.
Qed.

(** Emptying bucket [i] does not break any run that must be kept. *)
Lemma run_hole : forall cs k p n i x, length cs = 2 * B -> run_to cs k p n -> i < B ->
  (d2 k <= p /\ (i < d2 k \/ p <= i)) \/ (p < d2 k /\ p <= i /\ B <= d2 k) ->
  run_to (set_nth cs i x) k p n.
Proof.
  intros cs k p n i x L R I H. pose proof R as (Rn & Rp & Ro).
  unfold run_to. rewrite set_nth_length. split; [exact Rn|]. split; [exact Rp|].
  intros m M. destruct (Ro m M) as (c & C & Vd). exists c. split; [|exact Vd].
  rewrite nth_set_neq; [exact C|]. rewrite L.
  destruct (run_pos cs k p n m L R M) as [A A']. cbn zeta in A, A'. lia.
Qed.

Lemma reinsert_spec : forall f cs i, DI cs i -> i <= B -> B < i + f ->
  length (vents cs) < 2 * B ->
  exists cs', reinsert keq hash invalid f cs B i = Ret cs' /\ DI cs' B /\ Permutation (vents cs) (vents cs').
Proof.
  induction f as [|f IH]; intros cs i (L & D) IB FU LV; [lia|].
  cbn [reinsert]. destruct (Nat.eqb_spec i B) as [->|NE].
  { exists cs. split; [reflexivity|]. split; [split; assumption|reflexivity]. }
  destruct (nth_lt_some cs i ltac:(lia)) as ([k v] & C). rewrite C.
  destruct (keq k invalid) as [->|NK].
  - apply IH; [|lia|lia|exact LV]. split; [exact L|]. intros p k' v' P Vd.
    destruct (D p k' v' P Vd) as (A & A' & A''). split; [|split]; [|intros; apply A'; lia|exact A''].
    intros PI. destruct (Nat.eq_dec p i) as [->|NP]; [rewrite C in P; congruence|]. apply A. lia.
  - set (cs1 := set_nth cs i (invalid, v)).
    assert (L1 : length cs1 = 2 * B) by (unfold cs1; rewrite set_nth_length; exact L).
    assert (PV : Permutation (vents cs) ((k, v) :: vents cs1)).
    { apply (vents_set_invalid cs i (k, v)); [exact C|apply validb_true, NK|apply validb_false; reflexivity]. }
    assert (LV1 : length (vents cs1) < length cs1).
    { apply Permutation_length in PV. cbn in PV. lia. }
    destruct (D i k v C NK) as (_ & DK & _). specialize (DK ltac:(lia)).
    destruct (unchecked_spec cs1 k v LV1) as (q & n & c & RT & CQ & CI & ->).
    assert (C1 : nth_error cs1 i = Some (invalid, v)) by (apply nth_set_eq; lia).
    (* where the entry went *)
    assert (QL : q < 2 * B) by (rewrite <- L1; apply nth_error_Some; congruence).
    assert (QP : (d2 k <= q <= i /\ d2 k = d k) \/ (d2 k = d k + B /\ (d2 k <= q \/ q < B))).
    { assert (NH : forall m, m < n -> (hash k + m) mod (2 * B) <> i).
      { intros m M E. destruct RT as (_ & _ & Ro). rewrite L1 in Ro. destruct (Ro m M) as (c' & C' & V').
        rewrite E in C'. rewrite C1 in C'. injection C' as <-. cbn in V'. congruence. }
      pose proof RT as (Rn & Rp & _). rewrite L1 in Rn, Rp.
      pose proof (Nat.mod_upper_bound (hash k) (2 * B) ltac:(lia)) as U.
      pose proof (d2_cases k) as DC.
      rewrite <- mod_start in Rp by lia.
      assert (W : forall a, a < 2 * B -> (d2 k + a) mod (2 * B) = if d2 k + a <? 2 * B then d2 k + a else d2 k + a - 2 * B).
      { intros a A. destruct (Nat.ltb_spec (d2 k + a) (2 * B)); [apply Nat.mod_small; assumption|].
        replace (d2 k + a) with ((d2 k + a - 2 * B) + 1 * (2 * B)) at 1 by lia.
        rewrite Nat.mod_add by lia. apply Nat.mod_small. lia. }
      assert (NH' : forall m, m < n -> (d2 k + m) mod (2 * B) <> i).
      { intros m M. rewrite mod_start by lia. apply NH, M. }
      rewrite W in Rp by lia.
      destruct DC as [DC|DC].
      - left. split; [|exact DC].
        assert (n <= i - d2 k).
        { destruct (Nat.le_gt_cases n (i - d2 k)) as [X|X]; [exact X|]. exfalso.
          apply (NH' (i - d2 k) X). rewrite W by lia.
          destruct (Nat.ltb_spec (d2 k + (i - d2 k)) (2 * B)); lia. }
        destruct (Nat.ltb_spec (d2 k + n) (2 * B)); lia.
      - right. split; [exact DC|].
        assert (n <= i + 2 * B - d2 k).
        { destruct (Nat.le_gt_cases n (i + 2 * B - d2 k)) as [X|X]; [exact X|]. exfalso.
          apply (NH' (i + 2 * B - d2 k) X). rewrite W by lia.
          destruct (Nat.ltb_spec (d2 k + (i + 2 * B - d2 k)) (2 * B)); lia. }
        destruct (Nat.ltb_spec (d2 k + n) (2 * B)); lia. }
    destruct (IH (set_nth cs1 q (k, v)) (S i)) as (cs' & -> & D' & P').
    + split; [rewrite set_nth_length; exact L1|]. intros p k' v' P Vd.
      destruct (Nat.eq_dec q p) as [->|NQ].
      * (* the moved entry *)
        rewrite nth_set_eq in P by lia. injection P as <- <-.
        assert (RT' : exists n, run_to (set_nth cs1 p (k, v)) k p n)
          by (exists n; apply run_to_set; [exact NK|exact RT]).
        split; [|split].
        -- intros PI. split; [|exact RT']. lia.
        -- intros PI. lia.
        -- intros PI. split; [|exact RT']. lia.
      * rewrite nth_set_neq in P by exact NQ.
        destruct (Nat.eq_dec i p) as [<-|NI]; [rewrite C1 in P; congruence|].
        unfold cs1 in P. rewrite nth_set_neq in P by exact NI.
        destruct (D p k' v' P Vd) as (A & A' & A'').
        split; [|split].
        -- intros PI. destruct (A ltac:(lia)) as (X & n' & R'). split; [exact X|].
           exists n'. apply run_to_set; [exact NK|]. apply run_hole; [exact L|exact R'|lia|].
           destruct X as [X|X]; [left; lia|].
           destruct (Nat.le_gt_cases (d2 k') p); [left; lia|right; lia].
        -- intros PI. apply A'. lia.
        -- intros PI. destruct (A'' PI) as (X & n' & R'). split; [exact X|].
           exists n'. apply run_to_set; [exact NK|]. apply run_hole; [exact L|exact R'|lia|].
           left. lia.
    + lia.
    + lia.
    + rewrite (Permutation_length (vents_set_valid cs1 q c (k, v) CQ (proj2 (validb_false c) CI) (proj2 (validb_true (k,v)) NK))).
      apply Permutation_length in PV. rewrite <- PV. exact LV.
    + exists cs'. split; [reflexivity|]. split; [exact D'|].
      rewrite <- P', PV. symmetry. apply (vents_set_valid cs1 q c); [exact CQ|apply validb_false, CI|apply validb_true, NK].
Qed.
End Dbl.

Lemma insert_all_spec : forall l cs, Inv cs -> Forall (fun c => fst c <> invalid) l ->
  length (vents cs) + length l < length cs ->
  exists cs', insert_all keq hash invalid cs l = Ret cs' /\ Inv cs' /\ length cs' = length cs /\
    Permutation (vents cs') (vents cs ++ l).
Proof.
  induction l as [|[k v] r IH]; intros cs I F L; cbn [insert_all].
  { exists cs. split; [reflexivity|]. split; [exact I|]. split; [reflexivity|]. rewrite app_nil_r. reflexivity. }
  inversion F; subst. cbn [fst] in *. cbn [length] in L.
  destruct (unchecked_spec cs k v ltac:(lia)) as (p & n & c & RT & C & CI & ->).
  assert (PV := vents_set_valid cs p c (k, v) C (proj2 (validb_false c) CI) (proj2 (validb_true (k,v)) H1)).
  destruct (IH (set_nth cs p (k, v))) as (cs' & -> & I' & L' & P').
  - exact (Inv_fill cs p k v n c I H1 RT C).
  - exact H2.
  - rewrite set_nth_length, (Permutation_length PV). cbn. lia.
  - exists cs'. split; [reflexivity|]. split; [exact I'|]. split; [rewrite L'; apply set_nth_length|].
    rewrite P', PV. cbn [app]. apply Permutation_middle.
Qed.

Lemma nth_app_repeat : forall cs dv p k v, nth_error (cs ++ repeat (invalid, dv) (length cs)) p = Some (k, v) ->
  k <> invalid -> p < length cs /\ nth_error cs p = Some (k, v).
Proof.
  intros cs dv p k v H N. destruct (Nat.lt_ge_cases p (length cs)) as [L|L].
  - rewrite nth_error_app1 in H by exact L. split; assumption.
  - rewrite nth_error_app2 in H by exact L. apply nth_repeat_some in H. congruence.
Qed.

Lemma double_spec : forall dv t, Inv (cells t) -> length (vents (cells t)) < length (cells t) ->
  exists t', double keq hash invalid dv t = Ret t' /\ entries t' = entries t /\
    length (cells t') = 2 * length (cells t) /\ Inv (cells t') /\
    Permutation (vents (cells t')) (vents (cells t)).
Proof.
  intros dv [cs e] I L. cbn [cells entries] in *. unfold double. cbn [cells entries].
  set (B := length cs) in *. set (cs0 := cs ++ repeat (invalid, dv) B).
  assert (BP : 0 < B) by lia.
  assert (L0 : length cs0 = 2 * B) by (unfold cs0; rewrite app_length, repeat_length; fold B; lia).
  assert (V0 : vents cs0 = vents cs).
  { unfold cs0, vents. rewrite filter_app. fold (vents (repeat (invalid, dv) B)). rewrite vents_repeat. apply app_nil_r. }
  destruct (roll keq invalid (S B) cs0 B 0 []) as [cs1 rolled] eqn:ER.
  apply roll_spec in ER; [|lia|lia|lia|lia].
  destruct ER as (g & G1 & G2 & G3 & G4 & G5 & G6 & G7 & ext & X1 & X2).
  cbn [app] in X1. subst ext. rewrite app_nil_r, V0 in G7.
  assert (N0 : forall p k v, nth_error cs0 p = Some (k, v) -> k <> invalid -> p < B /\ nth_error cs p = Some (k, v)).
  { intros p k v P N. exact (nth_app_repeat cs dv p k v P N). }
  (* an empty bucket in the old part *)
  assert (GB : g < B).
  { destruct (Nat.lt_ge_cases g B) as [X|X]; [exact X|]. exfalso.
    destruct (hole cs L) as (h & c & Hh & F). apply validb_false in F.
    assert (h < B) by (apply nth_error_Some; congruence).
    destruct (G5 h ltac:(lia)) as (c' & C' & V').
    unfold cs0 in C'. rewrite nth_error_app1 in C' by exact H. congruence. }
  specialize (G6 GB).
  destruct (reinsert_spec B BP (S B) cs1 0) as (cs2 & -> & (L2 & D2) & P2).
  - split; [lia|]. intros p k v P N.
    assert (GP : g <= p).
    { destruct (Nat.le_gt_cases g p) as [X|X]; [exact X|]. exfalso. apply (G3 p X). exists (k, v). split; assumption. }
    rewrite G4 in P by exact GP. destruct (N0 p k v P N) as (PB & PC).
    split; [lia|]. split; [|lia]. intros _.
    destruct (I p k v PC N) as (n & Rn & Rp & Ro). fold B in Rn, Rp, Ro.
    rewrite <- mod_start in Rp by lia.
    pose proof (Nat.mod_upper_bound (hash k) B ltac:(lia)) as U.
    destruct (Nat.le_gt_cases (hash k mod B) p) as [X|X]; [exact X|]. exfalso.
    (* a wrapped run would pass through the gap g *)
    assert (p <> g).
    { intros ->. apply G6. exists (k, v). split; assumption. }
    assert (E : hash k mod B + n = p + B).
    { destruct (Nat.lt_ge_cases (hash k mod B + n) B) as [Y|Y].
      - rewrite Nat.mod_small in Rp by exact Y. lia.
      - replace (hash k mod B + n) with ((hash k mod B + n - B) + 1 * B) in Rp by lia.
        rewrite Nat.mod_add in Rp by lia. rewrite Nat.mod_small in Rp by lia. lia. }
    destruct (Ro (g + B - hash k mod B) ltac:(lia)) as (c & C & Vd).
    rewrite <- mod_start in C by lia.
    replace (hash k mod B + (g + B - hash k mod B)) with (g + 1 * B) in C by lia.
    rewrite Nat.mod_add, Nat.mod_small in C by lia.
    apply G6. exists c. split; [|exact Vd]. unfold cs0. rewrite nth_error_app1 by exact GB. exact C.
  - lia.
  - lia.
  - apply Permutation_length in G7. rewrite app_length in G7. lia.
  - assert (I2 : Inv cs2).
    { intros p k v P N. destruct (D2 p k v P N) as (A & _ & A'').
      destruct (Nat.lt_ge_cases p B) as [X|X]; [apply (A X)|apply (A'' X)]. }
    destruct (insert_all_spec rolled cs2 I2 X2) as (cs3 & -> & I3 & L3 & P3).
    { apply Permutation_length in G7, P2. rewrite app_length in G7. lia. }
    eexists. split; [reflexivity|]. cbn [cells entries]. split; [reflexivity|]. split; [lia|].
    split; [exact I3|]. rewrite P3, <- P2. symmetry. exact G7.
Qed.

Lemma double_rel : forall dv t m, Rel (cells t) m -> length m < length (cells t) -> NoDup (map fst m) ->
  exists t', double keq hash invalid dv t = Ret t' /\ entries t' = entries t /\
    length (cells t') = 2 * length (cells t) /\ Rel (cells t') m.
Proof.
  intros dv t m (I & PM & F) L ND.
  destruct (double_spec dv t I) as (t' & D & E & L' & I' & P').
  { rewrite (Permutation_length PM). exact L. }
  exists t'. split; [exact D|]. split; [exact E|]. split; [exact L'|].
  apply Rel_of_nodup; [exact I'|rewrite P'; exact PM|exact ND].
Qed.

(** ** Histories *)
Definition St (t : table) (s : spec) :=
  Rel (cells t) (content s) /\ entries t = attempts s /\ length (cells t) = buckets s /\
  length (content s) < buckets s /\ length (content s) <= attempts s.

Lemma entry_at_some : forall cs p k v, nth_error cs p = Some (k, v) -> entry_at cs p = Ret v.
Proof. intros cs p k v H. unfold entry_at. rewrite H. reflexivity. Qed.

Lemma step_ok : forall dv o t s, St t s -> op_key o <> Some invalid ->
  (o = Double -> NoDup (map fst (content s))) ->
  exists t', step keq hash invalid dv t o = Ret (t', snd (sstep keq s o)) /\ St t' (fst (sstep keq s o)).
Proof.
  intros dv o t s (R & E & LB & LC & LA) KO DO.
  destruct o as [k v|k v|k|k v| | |]; cbn [step sstep op_key] in *.
  - (* Insert *)
    unfold insert, sinsert. rewrite LB, E. destruct (Nat.leb_spec (buckets s) (S (attempts s))) as [X|X].
    + eexists. split; [reflexivity|]. cbn [fst]. unfold St. cbn. split; [exact R|]. split; [reflexivity|].
      split; [exact LB|]. lia.
    + destruct (Rel_insert (cells t) (content s) k v R ltac:(congruence) ltac:(lia)) as (cs' & p & -> & EA & L' & R').
      rewrite EA. eexists. split; [reflexivity|]. cbn [fst]. unfold St. cbn [cells entries content attempts buckets].
      split; [exact R'|]. split; [reflexivity|]. split; [congruence|]. rewrite app_length. cbn. lia.
  - (* FindOrInsert *)
    unfold find_or_insert. cbn [fst].
    pose proof (lookup_rel (cells t) (content s) k R ltac:(lia) ltac:(congruence)) as LK.
    destruct (lookup keq k (content s)) as [w|] eqn:EL.
    + destruct LK as (p & PL & -> & PC & FA). rewrite (entry_at_some _ _ _ _ PC).
      eexists. split; [reflexivity|]. cbn [fst]. unfold St. repeat split; try assumption; apply R.
    + destruct LK as (p & n & c & RT & C & CI & ->). rewrite LB, E. unfold sinsert.
      destruct (Nat.leb_spec (buckets s) (S (attempts s))) as [X|X].
      * eexists. split; [reflexivity|]. cbn [fst]. unfold St. cbn. split; [exact R|]. split; [reflexivity|].
        split; [exact LB|]. lia.
      * unfold entry_at. rewrite nth_set_eq by (apply nth_error_Some; congruence).
        eexists. split; [reflexivity|]. cbn [fst]. unfold St. cbn [cells entries content attempts buckets].
        split; [exact (Rel_fill _ _ p k v n c R ltac:(congruence) RT C CI)|]. split; [reflexivity|].
        rewrite set_nth_length, app_length. cbn. lia.
  - (* Find *)
    unfold find.
    pose proof (lookup_rel (cells t) (content s) k R ltac:(lia) ltac:(congruence)) as LK.
    destruct (lookup keq k (content s)) as [w|].
    + destruct LK as (p & PL & -> & PC & FA). rewrite (entry_at_some _ _ _ _ PC).
      eexists. split; [reflexivity|]. cbn [fst]. unfold St. repeat split; try assumption; apply R.
    + destruct LK as (p & n & c & RT & C & CI & ->).
      eexists. split; [reflexivity|]. cbn [fst]. unfold St. repeat split; try assumption; apply R.
  - (* FindAssign *)
    unfold find_assign.
    pose proof (lookup_rel (cells t) (content s) k R ltac:(lia) ltac:(congruence)) as LK.
    destruct (lookup keq k (content s)) as [w|] eqn:EL.
    + destruct LK as (p & PL & -> & PC & FA).
      eexists. split; [reflexivity|]. cbn [fst]. unfold St. cbn [cells entries content attempts buckets].
      split; [exact (Rel_assign _ _ k v w p R ltac:(congruence) EL PC FA)|]. split; [exact E|].
      rewrite set_nth_length, assign_length. lia.
    + destruct LK as (p & n & c & RT & C & CI & ->).
      eexists. split; [reflexivity|]. cbn [fst]. unfold St. repeat split; try assumption; apply R.
  - (* Clear *)
    eexists. split; [reflexivity|]. cbn [fst]. unfold St, clear. cbn [cells entries content attempts buckets length].
    split; [apply Rel_empty|]. split; [reflexivity|]. rewrite repeat_length. lia.
  - (* Double *)
    destruct (double_rel dv t (content s) R ltac:(lia) (DO eq_refl)) as (t' & -> & E' & L' & R').
    eexists. split; [reflexivity|]. cbn [fst]. unfold St. cbn [content attempts buckets].
    split; [exact R'|]. lia.
  - eexists. rewrite E. split; [reflexivity|]. cbn [fst]. unfold St. repeat split; try assumption; apply R.
Qed.

Lemma lookup_none_notin : forall k (m : list cell), lookup keq k m = None -> ~ In k (map fst m).
Proof.
  intros k. induction m as [|[k1 v1] r IH]; cbn; [tauto|]. destruct (keq k1 k) as [->|N]; [discriminate|].
  intros H [A|A]; [congruence|]. exact (IH H A).
Qed.
Lemma nodup_snoc : forall k v (m : list cell), NoDup (map fst m) -> lookup keq k m = None -> NoDup (map fst (m ++ [(k, v)])).
Proof.
  intros k v m ND H. rewrite map_app. cbn [map fst].
  apply (Permutation_NoDup (Permutation_cons_append _ _)). constructor; [|exact ND].
  apply lookup_none_notin, H.
Qed.
Lemma map_fst_assign : forall k v (m : list cell), map fst (assign keq k v m) = map fst m.
Proof. induction m as [|[k1 v1] r IH]; cbn; [reflexivity|]. destruct (keq k1 k) as [->|N]; cbn; [|rewrite IH]; reflexivity. Qed.

Lemma nodup_step : forall o (s : spec (K:=K) (V:=V)), NoDup (map fst (content s)) ->
  match o with Insert k _ => lookup keq k (content s) = None | _ => True end ->
  NoDup (map fst (content (fst (sstep keq s o)))).
Proof.
  intros o s ND H. destruct o as [k v|k v|k|k v| | |]; cbn [sstep] in *; try exact ND.
  - unfold sinsert. destruct (buckets s <=? S (attempts s)); cbn; [exact ND|]. apply nodup_snoc; assumption.
  - destruct (lookup keq k (content s)) eqn:EL; [exact ND|].
    unfold sinsert. destruct (buckets s <=? S (attempts s)); cbn; [exact ND|]. apply nodup_snoc; assumption.
  - destruct (lookup keq k (content s)); cbn; [rewrite map_fst_assign|]; exact ND.
  - constructor.
Qed.

Lemma run_ok : forall dv os t s, St t s -> keys_ok invalid os ->
  ((Forall (fun o => o <> Double) os) \/ (fresh_inserts keq s os /\ NoDup (map fst (content s)))) ->
  run keq hash invalid dv t os = Ret (srun keq s os).
Proof.
  intros dv. induction os as [|o r IH]; intros t s ST KO H; cbn [run srun]; [reflexivity|].
  inversion KO; subst.
  destruct (step_ok dv o t s ST H2) as (t' & -> & ST').
  { intros ->. destruct H as [H|[_ H]]; [inversion H; congruence|exact H]. }
  destruct (sstep keq s o) as [s' x] eqn:ES. cbn [fst snd] in *.
  rewrite (IH t' s' ST' H3); [reflexivity|].
  destruct H as [H|[[HA HB] HC]].
  - left. inversion H; assumption.
  - right. rewrite ES in HB. split; [exact HB|].
    pose proof (nodup_step o s HC HA) as Y. rewrite ES in Y. exact Y.
Qed.

Lemma fresh_ok : forall dv B, 0 < B -> St (fresh invalid dv B) {| content := []; attempts := 0; buckets := B |}.
Proof.
  intros dv B H. unfold St, fresh. cbn [cells entries content attempts buckets length].
  rewrite repeat_length. split; [apply Rel_empty|]. lia.
Qed.

Lemma table_is_map : forall dv B os, 0 < B -> keys_ok invalid os ->
  (Forall (fun o => o <> Double) os \/ fresh_inserts keq {| content := []; attempts := 0; buckets := B |} os) ->
  run keq hash invalid dv (fresh invalid dv B) os = Ret (srun keq {| content := []; attempts := 0; buckets := B |} os).
Proof.
  intros dv B os BP KO H. apply run_ok; [apply fresh_ok, BP|exact KO|].
  destruct H as [H|H]; [left; exact H|right]. split; [exact H|constructor].
Qed.

(** ** AutoProbing *)

(** [I]: Inserts allowed over the whole history; [rem]: those left. *)
Definition AS (I rem : nat) (a : auto) (m : list cell) :=
  Rel (cells (backend a)) m /\ NoDup (map fst m) /\
  length m + rem <= entries (backend a) + I /\ rem <= I /\
  (I = 0 -> entries (backend a) = length m) /\
  entries (backend a) + I < length (cells (backend a)) /\
  threshold a + I < length (cells (backend a)).

Lemma double_if_ok : forall dv I rem a m, AS I rem a m ->
  exists a', double_if_needed keq hash invalid dv a = Ret a' /\ AS I rem a' m /\
    S (entries (backend a')) + I < length (cells (backend a')).
Proof.
  intros dv I rem a m (R & ND & L1 & L2 & L3 & L4 & L5). unfold double_if_needed.
  destruct (Nat.ltb_spec (entries (backend a)) (threshold a)) as [X|X].
  - exists a. split; [reflexivity|]. split; [|lia]. split; [exact R|]. split; [exact ND|]. tauto.
  - destruct (double_rel dv (backend a) m R ltac:(lia) ND) as (t & -> & E & L & R').
    eexists. split; [reflexivity|]. unfold AS. cbn [backend threshold]. rewrite E, L.
    split; [|lia]. split; [exact R'|]. split; [exact ND|]. lia.
Qed.

Definition spends (o : aop (K:=K) (V:=V)) : nat := match o with AInsert _ _ => 1 | _ => 0 end.

Lemma astep_ok : forall dv I rem o a m, AS I (spends o + rem) a m -> aop_key o <> Some invalid ->
  match o with AInsert k _ => lookup keq k m = None | _ => True end ->
  (I = 0 \/ o <> ASize) ->
  exists a', astep keq hash invalid dv a o = Ret (a', snd (asstep keq m o)) /\ AS I rem a' (fst (asstep keq m o)).
Proof.
  intros dv I rem o a m H KO FR SZ.
  destruct o as [k v|k v|k|k v| |]; cbn [astep asstep aop_key spends Nat.add] in *.
  - (* Insert *)
    unfold auto_insert. destruct (double_if_ok dv I (S rem) a m H) as (a' & -> & (R & ND & L1 & L2 & L3 & L4 & L5) & X).
    destruct (Rel_insert _ m k v R ltac:(congruence) ltac:(lia)) as (cs' & p & -> & -> & L' & R').
    eexists. split; [reflexivity|]. cbn [fst]. unfold AS. cbn [backend threshold cells entries].
    split; [exact R'|]. split; [apply nodup_snoc; assumption|]. rewrite app_length, L'. cbn [length]. lia.
  - (* FindOrInsert *)
    destruct (double_if_ok dv I rem a m H) as (a' & -> & (R & ND & L1 & L2 & L3 & L4 & L5) & X).
    cbn [step]. unfold find_or_insert. cbn [fst].
    pose proof (lookup_rel _ m k R ltac:(lia) ltac:(congruence)) as LK.
    destruct (lookup keq k m) as [w|] eqn:EL.
    + destruct LK as (p & PL & -> & PC & FA). rewrite (entry_at_some _ _ _ _ PC).
      eexists. split; [reflexivity|]. cbn [fst]. unfold AS. cbn [backend threshold].
      split; [exact R|]. split; [exact ND|]. lia.
    + destruct LK as (p & n & c & RT & C & CI & ->).
      destruct (Nat.leb_spec (length (cells (backend a'))) (S (entries (backend a')))) as [Y|Y]; [lia|].
      unfold entry_at. rewrite nth_set_eq by (apply nth_error_Some; congruence).
      eexists. split; [reflexivity|]. cbn [fst]. unfold AS. cbn [backend threshold cells entries].
      split; [exact (Rel_fill _ _ p k v n c R ltac:(congruence) RT C CI)|].
      split; [apply nodup_snoc; assumption|].
      rewrite set_nth_length, app_length. cbn [length]. lia.
  - (* Find *)
    destruct H as (R & ND & L1 & L2 & L3 & L4 & L5). cbn [step]. unfold find.
    pose proof (lookup_rel _ m k R ltac:(lia) ltac:(congruence)) as LK.
    destruct (lookup keq k m) as [w|].
    + destruct LK as (p & PL & -> & PC & FA). rewrite (entry_at_some _ _ _ _ PC).
      eexists. split; [reflexivity|]. cbn [fst]. unfold AS. cbn [backend threshold].
      split; [exact R|]. split; [exact ND|]. lia.
    + destruct LK as (p & n & c & RT & C & CI & ->).
      eexists. split; [reflexivity|]. cbn [fst]. unfold AS. cbn [backend threshold].
      split; [exact R|]. split; [exact ND|]. lia.
  - (* FindAssign *)
    destruct H as (R & ND & L1 & L2 & L3 & L4 & L5). cbn [step]. unfold find_assign.
    pose proof (lookup_rel _ m k R ltac:(lia) ltac:(congruence)) as LK.
    destruct (lookup keq k m) as [w|] eqn:EL.
    + destruct LK as (p & PL & -> & PC & FA).
      eexists. split; [reflexivity|]. cbn [fst]. unfold AS. cbn [backend threshold cells entries].
      split; [exact (Rel_assign _ _ k v w p R ltac:(congruence) EL PC FA)|].
      split; [rewrite map_fst_assign; exact ND|].
      rewrite set_nth_length, assign_length. lia.
    + destruct LK as (p & n & c & RT & C & CI & ->).
      eexists. split; [reflexivity|]. cbn [fst]. unfold AS. cbn [backend threshold].
      split; [exact R|]. split; [exact ND|]. lia.
  - (* Clear *)
    destruct H as (R & ND & L1 & L2 & L3 & L4 & L5). cbn [step].
    eexists. split; [reflexivity|]. cbn [fst]. unfold AS, clear. cbn [backend threshold cells entries length map].
    split; [apply Rel_empty|]. split; [constructor|]. rewrite repeat_length. lia.
  - (* Size *)
    destruct H as (R & ND & L1 & L2 & L3 & L4 & L5). cbn [step].
    destruct SZ as [SZ|SZ]; [|congruence]. rewrite (L3 SZ).
    eexists. split; [reflexivity|]. cbn [fst]. unfold AS. cbn [backend threshold].
    split; [exact R|]. split; [exact ND|]. lia.
Qed.

Lemma arun_ok : forall dv I (os : list aop) a m, AS I (inserts os) a m -> akeys_ok invalid os ->
  fresh_ainserts keq m os -> (I = 0 \/ ~ In ASize os) ->
  arun keq hash invalid dv a os = Ret (asrun keq m os).
Proof.
  intros dv I. induction os as [|o r IH]; intros a m H KO FR SZ; cbn [arun asrun]; [reflexivity|].
  destruct FR as [FA FB].
  inversion KO; subst.
  destruct (astep_ok dv I (inserts r) o a m) as (a' & -> & H').
  - destruct o; exact H.
  - exact H2.
  - exact FA.
  - destruct SZ as [SZ|SZ]; [left; exact SZ|]. right. intros ->. apply SZ. left. reflexivity.
  - destruct (asstep keq m o) as [m' x]. cbn [fst snd] in *. rewrite (IH a' m' H' H3 FB); [reflexivity|].
    destruct SZ as [SZ|SZ]; [left; exact SZ|]. right. intros Y. apply SZ. right. exact Y.
Qed.

Lemma auto_new_room : forall n, 6 * n / 5 < Nat.max (S n) (3 * n / 2).
Proof.
  intros n. pose proof (Nat.div_mod (6 * n) 5 ltac:(lia)). pose proof (Nat.div_mod (3 * n) 2 ltac:(lia)).
  pose proof (Nat.mod_upper_bound (6 * n) 5 ltac:(lia)). pose proof (Nat.mod_upper_bound (3 * n) 2 ltac:(lia)).
  lia.
Qed.

Lemma auto_is_map : forall dv n (os : list aop), akeys_ok invalid os -> inserts os = 0 ->
  arun keq hash invalid dv (auto_new invalid dv n) os = Ret (asrun keq [] os).
Proof.
  intros dv n os KO NI. apply (arun_ok dv 0).
  - rewrite NI. unfold AS, auto_new, fresh. cbn [backend threshold cells entries length map].
    split; [apply Rel_empty|]. split; [constructor|]. rewrite repeat_length.
    pose proof (auto_new_room n). lia.
  - exact KO.
  - clear KO. generalize (@nil cell). revert NI. induction os as [|o r IH]; intros NI m; cbn; [exact Logic.I|].
    destruct o; cbn in NI; try discriminate; (split; [exact Logic.I|apply IH; exact NI]).
  - left. reflexivity.
Qed.

(** Any starting capacity and threshold with room for the uncounted inserts. *)
Lemma auto_few_inserts : forall dv a (os : list aop), akeys_ok invalid os ->
  backend a = fresh invalid dv (length (cells (backend a))) ->
  threshold a + inserts os < length (cells (backend a)) ->
  fresh_ainserts keq [] os -> ~ In ASize os ->
  arun keq hash invalid dv a os = Ret (asrun keq [] os).
Proof.
  intros dv a os KO FR L FI NS. apply (arun_ok dv (inserts os)); [|exact KO|exact FI|right; exact NS].
  unfold AS. rewrite FR at 1. cbn [fresh cells entries length map]. 
  split; [apply Rel_empty|]. split; [constructor|].
  assert (entries (backend a) = 0) as -> by (rewrite FR; reflexivity). lia.
Qed.

(** Insert alone never grows the table: when it is full the next call hangs. *)
Lemma full_cells : forall cs, length (vents cs) = length cs -> forall c, In c cs -> fst c <> invalid.
Proof.
  induction cs as [|x r IH]; cbn; [tauto|]. fold (vents r). intros H c [<-|C].
  - destruct (validb x) eqn:E; [apply validb_true, E|].
    assert (length (vents r) <= length r) by (unfold vents; clear; induction r as [|y r IH]; cbn; [lia|destruct (validb y); cbn; lia]).
    lia.
  - apply IH; [|exact C]. destruct (validb x); cbn in H; [lia|].
    assert (length (vents r) <= length r) by (unfold vents; clear; induction r as [|y r IH]; cbn; [lia|destruct (validb y); cbn; lia]).
    lia.
Qed.

Lemma auto_insert_hangs : forall dv (l : list cell) a, 0 < length (cells (backend a)) ->
  entries (backend a) < threshold a ->
  Forall (fun c => fst c <> invalid) l ->
  length (vents (cells (backend a))) + length l = length (cells (backend a)) ->
  forall k v rest,
  arun keq hash invalid dv a (map (fun c => AInsert (fst c) (snd c)) l ++ AInsert k v :: rest) = Loop.
Proof.
  intros dv. induction l as [|[k1 v1] r IH]; intros a P T F L k v rest; cbn [map app arun astep];
    unfold auto_insert, double_if_needed.
  - destruct (Nat.ltb_spec (entries (backend a)) (threshold a)); [|lia]. cbn [length] in L.
    rewrite unchecked_eq by exact P. rewrite free_loop_full; [reflexivity| |].
    + apply Nat.mod_upper_bound. lia.
    + apply full_cells. lia.
  - destruct (Nat.ltb_spec (entries (backend a)) (threshold a)); [|lia]. cbn [length fst snd] in *.
    inversion F; subst. cbn [fst] in *.
    destruct (unchecked_spec (cells (backend a)) k1 v1 ltac:(lia)) as (p & n & c & RT & C & CI & ->).
    unfold entry_at. rewrite nth_set_eq by (apply nth_error_Some; congruence).
    rewrite IH; [reflexivity| | | |]; cbn [backend threshold cells entries].
    + rewrite set_nth_length. exact P.
    + exact T.
    + assumption.
    + rewrite set_nth_length.
      rewrite (Permutation_length (vents_set_valid _ p c (k1, v1) C (proj2 (validb_false c) CI) (proj2 (validb_true (k1, v1)) H2))).
      cbn. lia.
Qed.

Lemma auto_insert_new_hangs : forall dv n (l : list cell) k v rest, 0 < n ->
  Forall (fun c => fst c <> invalid) l -> length l = Nat.max (S n) (3 * n / 2) ->
  arun keq hash invalid dv (auto_new invalid dv n) (map (fun c => AInsert (fst c) (snd c)) l ++ AInsert k v :: rest) = Loop.
Proof.
  intros dv n l k v rest N F L. apply auto_insert_hangs; unfold auto_new, fresh; cbn [backend threshold cells entries].
  - rewrite repeat_length. lia.
  - apply Nat.div_str_pos. lia.
  - exact F.
  - rewrite vents_repeat, repeat_length. exact L.
Qed.

(** Looking up the key used to mark empty buckets "succeeds". *)
Lemma find_invalid : forall dv B, 0 < B -> find keq hash invalid (fresh invalid dv B) invalid = Ret (Some dv).
Proof.
  intros dv B H. unfold find, fresh. cbn [cells]. rewrite lookup_pos_eq by (rewrite repeat_length; exact H).
  rewrite repeat_length. destruct B as [|B]; [lia|].
  pose proof (Nat.mod_upper_bound (hash invalid) (S B) ltac:(lia)) as U.
  set (i := hash invalid mod S B) in *. change (find_loop keq invalid (S B) (repeat (invalid, dv) (S B)) invalid i)
    with (match nth_error (repeat (invalid, dv) (S B)) i with
      | None => UB | Some (got, _) => if keq got invalid then Ret (i, true) else
        if keq got invalid then Ret (i, false) else find_loop keq invalid B (repeat (invalid, dv) (S B)) invalid (next (length (repeat (invalid, dv) (S B))) i) end).
  assert (E : nth_error (repeat (invalid, dv) (S B)) i = Some (invalid, dv)).
  { destruct (nth_error (repeat (invalid, dv) (S B)) i) eqn:E.
    - apply nth_repeat_some in E. congruence.
    - apply nth_error_None in E. rewrite repeat_length in E. lia. }
  rewrite E. destruct (keq invalid invalid); [|congruence]. unfold entry_at. rewrite E. reflexivity.
Qed.
End P.
