(** Model of klm/util/probing_hash_table.hh.

    A table is the array of its buckets, each holding a key and a value; an
    empty bucket holds the key [invalid] (its value is whatever was there).
    Keys, values and the hash function are arbitrary; hash values are [nat], the
    byte size of entries and the overflow of 64-bit sizes are not modelled.

    Probe loops run for as many steps as there are buckets: after that many
    steps an unsuccessful probe is back where it started, with nothing changed,
    so that it never ends.  This is the outcome [Loop].  A table with no buckets
    divides by zero: [UB]. *)
From Coq Require Import List Arith Bool.
Import ListNotations.

Inductive out (A : Type) := Ret (a : A) | Loop | UB.
Arguments Ret {A} _. Arguments Loop {A}. Arguments UB {A}.

Notation "'go' x <- e ; f" := (match e with Ret x => f | Loop => Loop | UB => UB end)
  (at level 200, x pattern, e at level 100, f at level 200).

Fixpoint set_nth {A} (l : list A) (i : nat) (x : A) : list A :=
  match l, i with
  | [], _ => []
  | _ :: r, O => x :: r
  | y :: r, S j => y :: set_nth r j x
  end.

Section Probing.
Context {K V : Type}.
Variable keq : forall a b : K, {a = b} + {a <> b}.
Variable hash : K -> nat.
Variable invalid : K.

Local Notation cell := (K * V)%type.

Record table := { cells : list cell; entries : nat }.

(** ++i with wrap-around: probing_hash_table.hh:100, 115, 126, 138, 148, 240. *)
Definition next (B i : nat) : nat := if S i =? B then 0 else S i.

(** The loop of Find, UnsafeMutableFind, MustFind and FindOrInsert
    (probing_hash_table.hh:91-101, 111-116, 121-126, 134-139, 144-149):
    position and whether the key was found there (otherwise it is empty). *)
Fixpoint find_loop (fuel : nat) (cs : list cell) (k : K) (i : nat) : out (nat * bool) :=
  match fuel with
  | O => Loop
  | S f =>
    match nth_error cs i with
    | None => UB
    | Some (got, _) =>
      if keq got k then Ret (i, true)
      else if keq got invalid then Ret (i, false)
      else find_loop f cs k (next (length cs) i)
    end
  end.
Definition lookup_pos (cs : list cell) (k : K) : out (nat * bool) :=
  match cs with
  | [] => UB
  | _ => find_loop (length cs) cs k (hash k mod length cs)
  end.

(** probing_hash_table.hh:237-242 UncheckedInsert *)
Fixpoint free_loop (fuel : nat) (cs : list cell) (i : nat) : out nat :=
  match fuel with
  | O => Loop
  | S f =>
    match nth_error cs i with
    | None => UB
    | Some (got, _) =>
      if keq got invalid then Ret i else free_loop f cs (next (length cs) i)
    end
  end.
Definition unchecked_insert (cs : list cell) (t : cell) : out (list cell * nat) :=
  match cs with
  | [] => UB
  | _ => go i <- free_loop (length cs) cs (hash (fst t) mod length cs) ; Ret (set_nth cs i t, i)
  end.

(** Entry at a position (dereferencing the returned iterator). *)
Definition entry_at (cs : list cell) (i : nat) : out V :=
  match nth_error cs i with Some (_, v) => Ret v | None => UB end.

(** probing_hash_table.hh:78-84 Insert: [None] is the ProbingSizeException. *)
Definition insert (t : table) (e : cell) : out (table * option V) :=
  let n := S (entries t) in
  if length (cells t) <=? n then Ret ({| cells := cells t; entries := n |}, None)
  else
    go (cs, i) <- unchecked_insert (cells t) e ;
    go v <- entry_at cs i ;
    Ret ({| cells := cs; entries := n |}, Some v).

(** probing_hash_table.hh:87-102 FindOrInsert: found flag and the entry. *)
Definition find_or_insert (t : table) (e : cell) : out (table * option (bool * V)) :=
  go (i, b) <- lookup_pos (cells t) (fst e) ;
  if b then go v <- entry_at (cells t) i ; Ret (t, Some (true, v))
  else
    let n := S (entries t) in
    if length (cells t) <=? n then Ret ({| cells := cells t; entries := n |}, None)
    else
      let cs := set_nth (cells t) i e in
      go v <- entry_at cs i ;
      Ret ({| cells := cs; entries := n |}, Some (false, v)).

(** probing_hash_table.hh:130-140 Find *)
Definition find (t : table) (k : K) : out (option V) :=
  go (i, b) <- lookup_pos (cells t) k ;
  if b then go v <- entry_at (cells t) i ; Ret (Some v) else Ret None.

(** probing_hash_table.hh:107-117 UnsafeMutableFind, followed by an assignment
    to the value of the entry found. *)
Definition find_assign (t : table) (k : K) (v : V) : out (table * bool) :=
  go (i, b) <- lookup_pos (cells t) k ;
  if b then Ret ({| cells := set_nth (cells t) i (k, v); entries := entries t |}, true)
  else Ret (t, false).

(** probing_hash_table.hh:152-157 Clear; [dv] is the value of a fresh Entry. *)
Definition clear (dv : V) (t : table) : table :=
  {| cells := repeat (invalid, dv) (length (cells t)); entries := 0 |}.

(** probing_hash_table.hh:184-187: collect the roll-over entries. *)
Fixpoint roll (fuel : nat) (cs : list cell) (old_end i : nat) (acc : list cell) : list cell * list cell :=
  match fuel with
  | O => (cs, acc)
  | S f =>
    if i =? old_end then (cs, acc)
    else match nth_error cs i with
         | None => (cs, acc)
         | Some (k, v) =>
           if keq k invalid then (cs, acc)
           else roll f (set_nth cs i (invalid, v)) old_end (S i) (acc ++ [(k, v)])
         end
  end.

(** probing_hash_table.hh:195-201: re-insert everything. *)
Fixpoint reinsert (fuel : nat) (cs : list cell) (old_end i : nat) : out (list cell) :=
  match fuel with
  | O => Ret cs
  | S f =>
    if i =? old_end then Ret cs
    else match nth_error cs i with
         | None => UB
         | Some (k, v) =>
           if keq k invalid then reinsert f cs old_end (S i)
           else
             go (cs', _) <- unchecked_insert (set_nth cs i (invalid, v)) (k, v) ;
             reinsert f cs' old_end (S i)
         end
  end.

(** probing_hash_table.hh:203-205 *)
Fixpoint insert_all (cs : list cell) (l : list cell) : out (list cell) :=
  match l with
  | [] => Ret cs
  | t :: r => go (cs', _) <- unchecked_insert cs t ; insert_all cs' r
  end.

(** probing_hash_table.hh:172-206 Double (with clear_new = true) *)
Definition double (dv : V) (t : table) : out table :=
  let B := length (cells t) in
  let cs := cells t ++ repeat (invalid, dv) B in
  let '(cs1, rolled) := roll (S B) cs B 0 [] in
  go cs2 <- reinsert (S B) cs1 B 0 ;
  go cs3 <- insert_all cs2 rolled ;
  Ret {| cells := cs3; entries := entries t |}.

(** Programs over one table. *)
Inductive op :=
| Insert (k : K) (v : V) | FindOrInsert (k : K) (v : V) | Find (k : K)
| FindAssign (k : K) (v : V) | Clear | Double | Size.

Inductive res :=
| RInserted (v : V) | RFound (v : V) | RAbsent | RThrow | RBool (b : bool) | RUnit | RSize (n : nat).

Definition step (dv : V) (t : table) (o : op) : out (table * res) :=
  match o with
  | Insert k v =>
      go (t', r) <- insert t (k, v) ;
      Ret (t', match r with None => RThrow | Some v' => RInserted v' end)
  | FindOrInsert k v =>
      go (t', r) <- find_or_insert t (k, v) ;
      Ret (t', match r with None => RThrow | Some (true, v') => RFound v' | Some (false, v') => RInserted v' end)
  | Find k => go r <- find t k ; Ret (t, match r with None => RAbsent | Some v => RFound v end)
  | FindAssign k v => go (t', b) <- find_assign t k v ; Ret (t', RBool b)
  | Clear => Ret (clear dv t, RUnit)
  | Double => go t' <- double dv t ; Ret (t', RUnit)
  | Size => Ret (t, RSize (entries t))
  end.

Fixpoint run (dv : V) (t : table) (os : list op) : out (list res) :=
  match os with
  | [] => Ret []
  | o :: r => go (t', x) <- step dv t o ; go xs <- run dv t' r ; Ret (x :: xs)
  end.

(** A table over freshly cleared memory (constructor, 60-71, and Clear). *)
Definition fresh (dv : V) (B : nat) : table :=
  {| cells := repeat (invalid, dv) B; entries := 0 |}.

(** AutoProbing, probing_hash_table.hh:257-327. *)
Record auto := { backend : table; threshold : nat }.

(** probing_hash_table.hh:272-276 with Size (48-51).  The floating-point
    products 1.5f * initial_size and initial_size * 1.2 are computed exactly and
    truncated. *)
Definition auto_new (dv : V) (initial_size : nat) : auto :=
  {| backend := fresh dv (Nat.max (S initial_size) (3 * initial_size / 2));
     threshold := 6 * initial_size / 5 |}.

(** probing_hash_table.hh:314-321 DoubleIfNeeded *)
Definition double_if_needed (dv : V) (a : auto) : out auto :=
  if entries (backend a) <? threshold a then Ret a
  else go t <- double dv (backend a) ; Ret {| backend := t; threshold := threshold a * 2 |}.

(** probing_hash_table.hh:279-287 Insert, FindOrInsert; the remaining functions
    are forwarded to the table (289-311). *)
Inductive aop :=
| AInsert (k : K) (v : V) | AFindOrInsert (k : K) (v : V) | AFind (k : K)
| AFindAssign (k : K) (v : V) | AClear | ASize.

Definition auto_insert (dv : V) (a : auto) (e : cell) : out (auto * V) :=
  go a' <- double_if_needed dv a ;
  go (cs, i) <- unchecked_insert (cells (backend a')) e ;
  go v <- entry_at cs i ;
  Ret ({| backend := {| cells := cs; entries := entries (backend a') |}; threshold := threshold a' |}, v).

Definition astep (dv : V) (a : auto) (o : aop) : out (auto * res) :=
  let fwd a o := go (t, r) <- step dv (backend a) o ; Ret ({| backend := t; threshold := threshold a |}, r) in
  match o with
  | AInsert k v => go (a', v') <- auto_insert dv a (k, v) ; Ret (a', RInserted v')
  | AFindOrInsert k v => go a' <- double_if_needed dv a ; fwd a' (FindOrInsert k v)
  | AFind k => fwd a (Find k)
  | AFindAssign k v => fwd a (FindAssign k v)
  | AClear => fwd a Clear
  | ASize => fwd a Size
  end.

Fixpoint arun (dv : V) (a : auto) (os : list aop) : out (list res) :=
  match os with
  | [] => Ret []
  | o :: r => go (a', x) <- astep dv a o ; go xs <- arun dv a' r ; Ret (x :: xs)
  end.

End Probing.
