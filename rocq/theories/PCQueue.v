(** Model of klm/util/pcqueue.hh (lines 75-150): a bounded queue used by any
    number of threads.

    The semantics is an interleaving one: a step is one access to a semaphore, a
    mutex, a slot of the storage or one of the two cursors, by one thread, in
    any order the semaphores and mutexes permit.  A mutex has a holder; a
    semaphore is a counter.  An assignment of a value may throw at any time; the
    target (a slot, or the consumer's variable) then holds anything.  Not
    modelled: spurious wake-ups (EINTR is retried, 59-71), failing semaphores
    ("undefined" by the documentation), weak memory. *)
From Coq Require Import List Arith.
Import ListNotations.

Section Q.
Context {T : Type}.
Variable size : nat.

(** Where a thread is inside Produce (92-106). *)
Inductive pstage :=
| PWait     (* 93: WaitSemaphore(empty_) *)
| PLock     (* 95: lock produce_at_mutex_ *)
| PAssign   (* 97: *produce_at_ = val *)
| PAdvance  (* 103: ++produce_at_, wrapping *)
| PUnlock   (* 104: end of the lock's scope *)
| PPost     (* 105: used_.post() *)
| PXPost    (* 100: empty_.post() after an exception *)
| PXUnlock. (* 101: rethrow, releasing the lock *)

(** Where a thread is inside Consume (109-124); [x] is what [out] holds. *)
Inductive cstage :=
| CWait               (* 110 *)
| CLock               (* 112 *)
| CAssign             (* 114: out = *consume_at_ *)
| CAdvance (x : T)    (* 120 *)
| CUnlock (x : T)     (* 121 *)
| CPost (x : T)       (* 122: empty_.post() *)
| CXPost              (* 117 *)
| CXUnlock.           (* 118 *)

Inductive call := Produce (v : T) | Consume.
Inductive result := Produced (v : T) | Consumed (x : T) | Threw.
Inductive pc := Idle | InP (s : pstage) (v : T) | InC (s : cstage).

(** A thread: where it is, the calls it will still make, the results so far. *)
Record thread := { at_ : pc; todo : list call; results : list result }.

Record queue := {
  empty_ : nat; used_ : nat; storage_ : list T;
  produce_at_ : nat; consume_at_ : nat;
  produce_lock : option nat; consume_lock : option nat;
  (** History, not part of the program: values deposited and taken, with the
      thread, in the order of the cursors' advances. *)
  deposited : list (nat * T); taken : list (nat * T) }.

Record state := { q : queue; threads : list thread }.

(** 103, 120: ++cursor, back to the start at the end of the storage. *)
Definition advance (c : nat) : nat := if S c =? size then 0 else S c.

Fixpoint set_nth {A} (l : list A) (i : nat) (x : A) : list A :=
  match l, i with
  | [], _ => []
  | _ :: r, O => x :: r
  | y :: r, S j => y :: set_nth r j x
  end.

Definition set_empty n x := {| empty_ := n; used_ := used_ x; storage_ := storage_ x; produce_at_ := produce_at_ x;
  consume_at_ := consume_at_ x; produce_lock := produce_lock x; consume_lock := consume_lock x; deposited := deposited x; taken := taken x |}.
Definition set_used n x := {| empty_ := empty_ x; used_ := n; storage_ := storage_ x; produce_at_ := produce_at_ x;
  consume_at_ := consume_at_ x; produce_lock := produce_lock x; consume_lock := consume_lock x; deposited := deposited x; taken := taken x |}.
Definition set_storage s x := {| empty_ := empty_ x; used_ := used_ x; storage_ := s; produce_at_ := produce_at_ x;
  consume_at_ := consume_at_ x; produce_lock := produce_lock x; consume_lock := consume_lock x; deposited := deposited x; taken := taken x |}.
Definition set_plock l x := {| empty_ := empty_ x; used_ := used_ x; storage_ := storage_ x; produce_at_ := produce_at_ x;
  consume_at_ := consume_at_ x; produce_lock := l; consume_lock := consume_lock x; deposited := deposited x; taken := taken x |}.
Definition set_clock l x := {| empty_ := empty_ x; used_ := used_ x; storage_ := storage_ x; produce_at_ := produce_at_ x;
  consume_at_ := consume_at_ x; produce_lock := produce_lock x; consume_lock := l; deposited := deposited x; taken := taken x |}.
Definition advance_p i v x := {| empty_ := empty_ x; used_ := used_ x; storage_ := storage_ x; produce_at_ := advance (produce_at_ x);
  consume_at_ := consume_at_ x; produce_lock := produce_lock x; consume_lock := consume_lock x; deposited := deposited x ++ [(i, v)]; taken := taken x |}.
Definition advance_c i v x := {| empty_ := empty_ x; used_ := used_ x; storage_ := storage_ x; produce_at_ := produce_at_ x;
  consume_at_ := advance (consume_at_ x); produce_lock := produce_lock x; consume_lock := consume_lock x; deposited := deposited x; taken := taken x ++ [(i, v)] |}.

(** One step of thread [i]: its new program counter and the new queue. *)
Inductive inner (i : nat) : queue -> pc -> queue -> pc -> Prop :=
| s_pwait : forall x v n, empty_ x = S n -> inner i x (InP PWait v) (set_empty n x) (InP PLock v)
| s_plock : forall x v, produce_lock x = None -> inner i x (InP PLock v) (set_plock (Some i) x) (InP PAssign v)
| s_passign : forall x v, produce_at_ x < length (storage_ x) ->
    inner i x (InP PAssign v) (set_storage (set_nth (storage_ x) (produce_at_ x) v) x) (InP PAdvance v)
| s_passign_throws : forall x v g, produce_at_ x < length (storage_ x) ->
    inner i x (InP PAssign v) (set_storage (set_nth (storage_ x) (produce_at_ x) g) x) (InP PXPost v)
| s_padvance : forall x v, inner i x (InP PAdvance v) (advance_p i v x) (InP PUnlock v)
| s_punlock : forall x v, inner i x (InP PUnlock v) (set_plock None x) (InP PPost v)
| s_pxpost : forall x v, inner i x (InP PXPost v) (set_empty (S (empty_ x)) x) (InP PXUnlock v)
| s_cwait : forall x n, used_ x = S n -> inner i x (InC CWait) (set_used n x) (InC CLock)
| s_clock : forall x, consume_lock x = None -> inner i x (InC CLock) (set_clock (Some i) x) (InC CAssign)
| s_cassign : forall x v, nth_error (storage_ x) (consume_at_ x) = Some v -> inner i x (InC CAssign) x (InC (CAdvance v))
| s_cassign_throws : forall x, inner i x (InC CAssign) x (InC CXPost)
| s_cadvance : forall x v, inner i x (InC (CAdvance v)) (advance_c i v x) (InC (CUnlock v))
| s_cunlock : forall x v, inner i x (InC (CUnlock v)) (set_clock None x) (InC (CPost v))
| s_cxpost : forall x, inner i x (InC CXPost) (set_used (S (used_ x)) x) (InC CXUnlock).

(** The last step of a call: its result. *)
Inductive final (i : nat) : queue -> pc -> queue -> result -> Prop :=
| f_ppost : forall x v, final i x (InP PPost v) (set_used (S (used_ x)) x) (Produced v)
| f_pxunlock : forall x v, final i x (InP PXUnlock v) (set_plock None x) Threw
| f_cpost : forall x v, final i x (InC (CPost v)) (set_empty (S (empty_ x)) x) (Consumed v)
| f_cxunlock : forall x, final i x (InC CXUnlock) (set_clock None x) Threw.

Definition entry (c : call) : pc := match c with Produce v => InP PWait v | Consume => InC CWait end.

Inductive step : state -> state -> Prop :=
| st_call : forall x ts i t c r, nth_error ts i = Some t -> at_ t = Idle -> todo t = c :: r ->
    step {| q := x; threads := ts |}
         {| q := x; threads := set_nth ts i {| at_ := entry c; todo := r; results := results t |} |}
| st_inner : forall x ts i t x' p', nth_error ts i = Some t -> inner i x (at_ t) x' p' ->
    step {| q := x; threads := ts |}
         {| q := x'; threads := set_nth ts i {| at_ := p'; todo := todo t; results := results t |} |}
| st_final : forall x ts i t x' r, nth_error ts i = Some t -> final i x (at_ t) x' r ->
    step {| q := x; threads := ts |}
         {| q := x'; threads := set_nth ts i {| at_ := Idle; todo := todo t; results := results t ++ [r] |} |}.

(** A step that would access the storage out of bounds. *)
Definition out_of_bounds (s : state) : Prop :=
  exists i t, nth_error (threads s) i = Some t /\
    ((exists v, at_ t = InP PAssign v /\ length (storage_ (q s)) <= produce_at_ (q s)) \/
     (at_ t = InC CAssign /\ length (storage_ (q s)) <= consume_at_ (q s))).

(** Constructor (84-89): [init] is what the [size] default-constructed slots hold. *)
Definition start (init : list T) (progs : list (list call)) : state :=
  {| q := {| empty_ := size; used_ := 0; storage_ := init; produce_at_ := 0; consume_at_ := 0;
             produce_lock := None; consume_lock := None; deposited := []; taken := [] |};
     threads := map (fun p => {| at_ := Idle; todo := p; results := [] |}) progs |}.

Inductive reachable (s0 : state) : state -> Prop :=
| r_start : reachable s0 s0
| r_step : forall s s', reachable s0 s -> step s s' -> reachable s0 s'.
End Q.
