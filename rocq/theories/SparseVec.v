(** Model of utils/fast_sparse_vector.h: FastSparseVector<T, LOCAL_MAX>.

    The element type is arbitrary ([T] with its operations are section
    variables, discharged at the end of the section).  The object is
    the union [data_] (lines 465-468): an array of LOCAL_MAX slots or a hash map,
    plus [local_size_] (an unsigned char, line 469) and [is_remote_].
    SPARSE_HASH_MAP is taken at its specification: a list of pairs with distinct
    keys, in an unspecified order; [fsv_rehash] lets the order change
    arbitrarily at any time.  Reading or writing a slot outside the array is
    undefined: the functions return [None]. *)
From Coq Require Import List NArith Bool Lia Permutation.
Import ListNotations.

Section FSV.
Variable T : Type.
Variables (zero : T) (tadd tsub tmul : T -> T -> T) (teqb : T -> T -> bool).
Variable LM : nat. (* LOCAL_MAX, line 65: 15 or 7 *)

Record fsv := mkFsv {
  is_remote : bool;
  local_size : nat;            (* unsigned char: kept below 256 by [u8] *)
  local : list (N * T);        (* data_.local: LOCAL_MAX slots *)
  rbmap : list (N * T)         (* *data_.rbmap *)
}.

Definition u8 (n : nat) : nat := Nat.modulo n 256.

(** Line 177 (memset 0). *)
Definition fsv_empty : fsv := mkFsv false 0 (repeat (0%N, zero) LM) [].

(** The hash map interface. *)
Fixpoint hm_find (k : N) (m : list (N * T)) : option T :=
  match m with
  | [] => None
  | (k', v) :: r => if N.eqb k' k then Some v else hm_find k r
  end.
(** [f] applied to [m[k]] (operator[] creates the entry with T()). *)
Fixpoint hm_update (k : N) (f : T -> T) (m : list (N * T)) : list (N * T) :=
  match m with
  | [] => [(k, f zero)]
  | (k', v) :: r => if N.eqb k' k then (k', f v) :: r else (k', v) :: hm_update k f r
  end.
Definition hm_erase (k : N) (m : list (N * T)) : list (N * T) :=
  filter (fun p => negb (N.eqb (fst p) k)) m.
Definition hm_insert (m : list (N * T)) (p : N * T) : list (N * T) :=
  match hm_find (fst p) m with Some _ => m | None => m ++ [p] end.
(** Range constructor: inserts the pairs one by one, first one wins. *)
Definition hm_of_range (l : list (N * T)) : list (N * T) := fold_left hm_insert l [].

(** The loop "for i < local_size_: if local[i].first() == k" of lines 82, 247
    and 427: [None] = reads outside the array, [Some (Some i)] = found at [i]. *)
Fixpoint scan (k : N) (n : nat) (slots : list (N * T)) : option (option nat) :=
  match n with
  | O => Some None
  | S n' =>
      match slots with
      | [] => None
      | (k', _) :: r =>
          if N.eqb k' k then Some (Some O)
          else match scan k n' r with
               | None => None
               | Some None => Some None
               | Some (Some i) => Some (Some (S i))
               end
      end
  end.

Fixpoint slot_set (i : nat) (p : N * T) (slots : list (N * T)) : list (N * T) :=
  match slots, i with
  | [], _ => []
  | _ :: r, O => p :: r
  | q :: r, S i' => q :: slot_set i' p r
  end.

(** Lines 242-253 [value(k)]. *)
Definition value (s : fsv) (k : N) : option T :=
  if is_remote s then
    match hm_find k (rbmap s) with Some v => Some v | None => Some zero end
  else
    match scan k (local_size s) (local s) with
    | None => None
    | Some None => Some zero
    | Some (Some i) =>
        match nth_error (local s) i with Some (_, v) => Some v | None => None end
    end.

(** Lines 443-463 [swap_local_rbmap], called only in local form (line 439). *)
Definition swap_local_rbmap (s : fsv) : option fsv :=
  if Nat.leb (local_size s) (length (local s)) then
    Some (mkFsv true (local_size s) (local s)
                (hm_of_range (firstn (local_size s) (local s))))
  else None.

(** Lines 423-442: [f] applied to the reference returned by get_or_create_bin(k). *)
Definition upd_bin (s : fsv) (k : N) (f : T -> T) : option fsv :=
  if is_remote s then
    Some (mkFsv true (local_size s) (local s) (hm_update k f (rbmap s)))
  else
    match scan k (local_size s) (local s) with
    | None => None
    | Some (Some i) =>
        match nth_error (local s) i with
        | Some (k', v) =>
            Some (mkFsv false (local_size s) (slot_set i (k', f v) (local s)) (rbmap s))
        | None => None
        end
    | Some None =>
        if Nat.ltb (local_size s) LM then
          Some (mkFsv false (u8 (S (local_size s)))
                      (slot_set (local_size s) (k, f zero) (local s)) (rbmap s))
        else
          match swap_local_rbmap s with
          | None => None
          | Some s' =>
              Some (mkFsv true (local_size s') (local s') (hm_update k f (rbmap s')))
          end
    end.

(** Lines 233-238. *)
Definition set_value (s : fsv) (k : N) (v : T) : option fsv := upd_bin s k (fun _ => v).
Definition add_value (s : fsv) (k : N) (v : T) : option fsv := upd_bin s k (fun x => tadd x v).

(** Iteration begin()..end() (lines 122-175): the stored pairs in order. *)
Definition pairs (s : fsv) : option (list (N * T)) :=
  if is_remote s then Some (rbmap s)
  else if Nat.leb (local_size s) (length (local s)) then Some (firstn (local_size s) (local s))
  else None.

(** Lines 275-280 [size], 294 [empty]. *)
Definition size (s : fsv) : nat := if is_remote s then length (rbmap s) else local_size s.

(** Lines 289-293 [clear]: the slots keep their old contents. *)
Definition clear (s : fsv) : fsv := mkFsv false 0 (local s) [].

(** Lines 203-206: shift local[i+1..n) one to the left; the last slot keeps its
    (now stale) contents. *)
Fixpoint shift_left (i n : nat) (slots : list (N * T)) : list (N * T) :=
  match i, slots with
  | S i', p :: r => p :: shift_left i' (n - 1) r
  | O, p :: ((q :: _) as r) =>
      match n with
      | O | 1%nat => slots
      | S n' => q :: shift_left 0 n' r
      end
  | _, _ => slots
  end.

(** Lines 201-208: the outer loop over i < local_size_ (fuel = iterations left). *)
Fixpoint erase_loop (k : N) (fuel i n : nat) (slots : list (N * T)) : option (list (N * T)) :=
  match fuel with
  | O => Some slots
  | S f =>
      match nth_error slots i with
      | None => None
      | Some (k', _) =>
          erase_loop k f (S i) n (if N.eqb k' k then shift_left i n slots else slots)
      end
  end.

(** Lines 197-211 [erase(k)]: note the unconditional decrement of the unsigned
    char in line 209. *)
Definition erase (s : fsv) (k : N) : option fsv :=
  if is_remote s then
    Some (mkFsv true (local_size s) (local s) (hm_erase k (rbmap s)))
  else
    match erase_loop k (local_size s) 0 (local_size s) (local s) with
    | None => None
    | Some sl => Some (mkFsv false (u8 (local_size s + 255)) sl (rbmap s))
    end.

(** Loop of lines 300-302, 322-324 and 316-318: every pair of [other] updates
    the bin of its key. *)
Fixpoint upd_all (s : fsv) (op : T -> T -> T) (ps : list (N * T)) : option fsv :=
  match ps with
  | [] => Some s
  | (k, v) :: r =>
      match upd_bin s k (fun x => op x v) with
      | None => None
      | Some s' => upd_all s' op r
      end
  end.

(** Lines 297-304 [operator+=].  When [other] is [*this] the iteration runs over
    the object being updated: all keys exist, each is visited once and doubled,
    the pairs read are those of the original, as here. *)
Definition plus_eq (s other : fsv) : option fsv :=
  if Nat.eqb (size s) 0 then Some other
  else match pairs other with None => None | Some ps => upd_all s tadd ps end.

(** Lines 320-326 [operator-=]. *)
Definition minus_eq (s other : fsv) : option fsv :=
  match pairs other with None => None | Some ps => upd_all s tsub ps end.

(** Lines 313-319 [plus_eq_v_times_s]. *)
Definition plus_eq_v_times_s (s other : fsv) (c : T) : option fsv :=
  match pairs other with
  | None => None
  | Some ps => upd_all s (fun x v => tadd x (tmul v c)) ps
  end.

(** Lines 327-337 [operator*=]. *)
Definition times_eq (s : fsv) (c : T) : option fsv :=
  if is_remote s then
    Some (mkFsv true (local_size s) (local s) (map (fun p => (fst p, tmul (snd p) c)) (rbmap s)))
  else if Nat.leb (local_size s) (length (local s)) then
    Some (mkFsv false (local_size s)
       (map (fun p => (fst p, tmul (snd p) c)) (firstn (local_size s) (local s))
        ++ skipn (local_size s) (local s)) (rbmap s))
  else None.

(** Lines 506-517 [operator+]. *)
Definition plus (x y : fsv) : option fsv :=
  if Nat.ltb (size y) (size x) then plus_eq x y else plus_eq y x.
(** Lines 519-524 [operator-]. *)
Definition minus (x y : fsv) : option fsv := minus_eq x y.

(** Lines 392-401 [dot(FastSparseVector)]. *)
Fixpoint dot_loop (other : fsv) (ps : list (N * T)) (res : T) : option T :=
  match ps with
  | [] => Some res
  | (k, v) :: r =>
      match value other k with
      | None => None
      | Some o => dot_loop other r (tadd res (tmul o v))
      end
  end.
Definition dot (s other : fsv) : option T :=
  match pairs s with None => None | Some ps => dot_loop other ps zero end.

(** Lines 402-408 [operator==]. *)
Fixpoint eq_loop (other : fsv) (ps : list (N * T)) : option bool :=
  match ps with
  | [] => Some true
  | (k, v) :: r =>
      match value other k with
      | None => None
      | Some o => if teqb o v then eq_loop other r else Some false
      end
  end.
Definition fsv_eq (s other : fsv) : option bool :=
  if Nat.eqb (size other) (size s) then
    match pairs s with None => None | Some ps => eq_loop other ps end
  else Some false.

(** The iteration order of the hash map is unspecified and may change. *)
Definition fsv_rehash (s : fsv) (l : list (N * T)) : fsv :=
  mkFsv (is_remote s) (local_size s) (local s) l.

End FSV.
Arguments mkFsv {T}.
Arguments is_remote {T}. Arguments local_size {T}. Arguments local {T}. Arguments rbmap {T}.
