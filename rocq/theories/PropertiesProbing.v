(** C26-C28: the linear probing hash table (klm/util/probing_hash_table.hh).
    [srun] / [asrun] (top of ProbingProofs.v) are a bounded and an unbounded
    association list; [keq] is the key equality, [hash] and the key [invalid]
    marking empty buckets are arbitrary.  [Ret] on the right-hand side says that
    no probe loops forever and no bucket outside the array is touched. *)
From Coq Require Import List Arith Bool Lia.
From Verif Require Import Probing ProbingProofs.
Import ListNotations.

(** Every program of Insert (also of keys already present), FindOrInsert, Find,
    assignment through a mutable iterator, Clear and Size behaves like the
    bounded map; in particular Insert throws exactly when this would be the
    [B]-th insertion attempt. *)
Theorem C26_table_is_map : forall (K V : Type) (keq : forall a b : K, {a = b} + {a <> b})
    (hash : K -> nat) (invalid : K) (dv : V) (B : nat) (os : list op),
  0 < B -> keys_ok invalid os -> Forall (fun o => o <> Double) os ->
  run keq hash invalid dv (fresh invalid dv B) os
  = Ret (srun keq {| content := []; attempts := 0; buckets := B |} os).
Proof. intros K V keq hash invalid dv B os P KO F. exact (table_is_map keq hash invalid dv B os P KO (or_introl F)). Qed.
Print Assumptions C26_table_is_map.

(** Finding: looking up the key that marks empty buckets reports an entry. *)
Theorem C26_find_marker_refuted : forall (K V : Type) (keq : forall a b : K, {a = b} + {a <> b})
    (hash : K -> nat) (invalid : K) (dv : V) (B : nat), 0 < B ->
  find keq hash invalid (fresh invalid dv B) invalid = Ret (Some dv).
Proof. intros K V. exact find_invalid. Qed.
Print Assumptions C26_find_marker_refuted.

(** With Double anywhere in the program, provided Insert is not used for a key
    already present (FindOrInsert may be), the map is unaffected by it. *)
Theorem C27_double_in_place : forall (K V : Type) (keq : forall a b : K, {a = b} + {a <> b})
    (hash : K -> nat) (invalid : K) (dv : V) (B : nat) (os : list op),
  0 < B -> keys_ok invalid os ->
  fresh_inserts keq {| content := []; attempts := 0; buckets := B |} os ->
  run keq hash invalid dv (fresh invalid dv B) os
  = Ret (srun keq {| content := []; attempts := 0; buckets := B |} os).
Proof. intros K V keq hash invalid dv B os P KO F. exact (table_is_map keq hash invalid dv B os P KO (or_intror F)). Qed.
Print Assumptions C27_double_in_place.

(** AutoProbing without Insert: an unbounded map, for every initial size. *)
Theorem C28_auto_is_map : forall (K V : Type) (keq : forall a b : K, {a = b} + {a <> b})
    (hash : K -> nat) (invalid : K) (dv : V) (n : nat) (os : list aop),
  akeys_ok invalid os -> inserts os = 0 ->
  arun keq hash invalid dv (auto_new invalid dv n) os = Ret (asrun keq [] os).
Proof. intros K V. exact auto_is_map. Qed.
Print Assumptions C28_auto_is_map.

(** With Insert the same holds only while the inserts fit in the slack between
    the threshold and the number of buckets. *)
Theorem C28_auto_few_inserts : forall (K V : Type) (keq : forall a b : K, {a = b} + {a <> b})
    (hash : K -> nat) (invalid : K) (dv : V) (a : auto) (os : list aop),
  akeys_ok invalid os -> backend a = fresh invalid dv (length (cells (backend a))) ->
  threshold a + inserts os < length (cells (backend a)) ->
  fresh_ainserts keq [] os -> ~ In ASize os ->
  arun keq hash invalid dv a os = Ret (asrun keq [] os).
Proof. intros K V. exact auto_few_inserts. Qed.
Print Assumptions C28_auto_few_inserts.

(** Finding: Insert is not counted, so the table never grows, and the call
    after the one that fills the last bucket does not return. *)
Theorem C28_auto_insert_refuted : forall (K V : Type) (keq : forall a b : K, {a = b} + {a <> b})
    (hash : K -> nat) (invalid : K) (dv : V) (n : nat) (l : list (K * V)) (k : K) (v : V) (rest : list aop),
  0 < n -> Forall (fun c => fst c <> invalid) l -> length l = Nat.max (S n) (3 * n / 2) ->
  arun keq hash invalid dv (auto_new invalid dv n)
    (map (fun c => AInsert (fst c) (snd c)) l ++ AInsert k v :: rest) = Loop.
Proof. intros K V. exact auto_insert_new_hangs. Qed.
Print Assumptions C28_auto_insert_refuted.

(** Concrete cases: colliding and wrapping keys, growth in the middle. *)
Definition ex_ops : list (op (K:=nat) (V:=nat)) :=
  [Insert 6 60; Insert 3 30; FindOrInsert 7 70; Find 3; Insert 9 90; Double; Find 6; Find 7; Find 9;
   FindAssign 3 31; FindOrInsert 3 32; Insert 11 110; Size; Find 11; Clear; Find 6].
Example C27_ex_hyp : keys_ok 0 ex_ops /\ fresh_inserts Nat.eq_dec {| content := []; attempts := 0; buckets := 4 |} ex_ops.
Proof. split; [repeat constructor; discriminate|cbn; tauto]. Qed.
Example C27_ex_run : run Nat.eq_dec (fun k => k) 0 99 (fresh 0 99 4) ex_ops =
  Ret [RInserted 60; RInserted 30; RInserted 70; RFound 30; RThrow; RUnit; RFound 60; RFound 70; RAbsent;
       RBool true; RFound 31; RInserted 110; RSize 5; RFound 110; RUnit; RAbsent].
Proof. reflexivity. Qed.
Example C26_ex_run : run Nat.eq_dec (fun k => k) 0 99 (fresh 0 99 3) [Insert 5 1; Insert 5 2; Insert 5 3; Find 5; Find 4] =
  Ret [RInserted 1; RInserted 2; RThrow; RFound 1; RAbsent].
Proof. reflexivity. Qed.
Example C28_ex_run : arun Nat.eq_dec (fun k => k) 0 99 (auto_new 0 99 0)
    [AFindOrInsert 5 1; AFindOrInsert 6 2; AFindOrInsert 5 3; AFindOrInsert 9 4; AFind 9; AFind 6; AFind 8; ASize] =
  Ret [RInserted 1; RInserted 2; RFound 1; RInserted 4; RFound 4; RFound 2; RAbsent; RSize 3].
Proof. reflexivity. Qed.
Example C28_ex_few : fresh_ainserts Nat.eq_dec [] [AInsert 5 1; AInsert 6 2] /\
  threshold (auto_new (K:=nat) 0 99 10) + inserts (K:=nat) (V:=nat) [AInsert 5 1; AInsert 6 2]
  < length (cells (backend (auto_new (K:=nat) 0 99 10))).
Proof. split; [cbn; tauto|]. vm_compute. lia. Qed.
