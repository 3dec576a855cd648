(** Model of ErrorSurface::Serialize and Deserialize (training/dpmert/
    error_surface.cc 10-41), SufficientStats::Encode and the constructor from text
    (mteval/ns.cc 312-329), and of the way surfaces travel from mr_dpmert_map.cc
    (105-109) to mr_dpmert_reduce.cc (59-69), in base64.

    Bytes are numbers below 256 ([N]), as in B64.  Of the statistics only whole
    numbers are modelled: a field is an integer, printed by operator<< with six
    significant digits (%g), read back as a rational.  The x of a segment is its
    eight bytes. *)
From Coq Require Import List Arith ZArith NArith QArith Bool.
From Verif Require Import B64.
Import ListNotations.
Open Scope N_scope.

Record istats := { iid : list N; ifields : list Z }.
Record iseg := { ix : list N; idelta : istats }.
(** What is read back. *)
Record rstats := { rid : list N; rfields : list Q }.
Record rseg := { rx : list N; rdelta : rstats }.

(** Decimal digits, most significant first; [fuel] at least their number. *)
Fixpoint dec (fuel : nat) (n : N) : list N :=
  match fuel with
  | O => []
  | S f => if n <? 10 then [48 + n] else dec f (n / 10) ++ [48 + n mod 10]
  end.
Definition digits (n : N) : list N := dec (S (N.size_nat n)) n.
Fixpoint strip0 (l : list N) : list N := match l with 48 :: r => strip0 r | _ => l end.
(** The nearest integer to n / d, ties to even. *)
Definition round_div (n d : N) : N :=
  let q := n / d in let r := n mod d in
  if (2 * r <? d) || ((2 * r =? d) && N.even q) then q else q + 1.
(** %g of a natural number: as it is below a million, otherwise d.ddddde+XX
    without trailing zeros. *)
Definition print_nat (n : N) : list N :=
  if n <? 1000000 then digits n
  else
    let e0 := N.of_nat (length (digits n)) - 1 in
    let m0 := round_div n (10 ^ (e0 - 5)) in
    let '(m, e) := if m0 <? 1000000 then (m0, e0) else (m0 / 10, e0 + 1) in
    match digits m with
    | [] => []
    | d :: r =>
      let frac := rev (strip0 (rev r)) in
      d :: (match frac with [] => [] | _ => 46 :: frac end) ++ [101; 43] ++ (if e <? 10 then 48 :: digits e else digits e)
    end.
Definition print_float (z : Z) : list N := if (z <? 0)%Z then 45 :: print_nat (Z.to_N (- z)) else print_nat (Z.to_N z).
(** ns.cc 320-329; an empty id is written NULL *)
Definition Encode (s : istats) : list N :=
  (match iid s with [] => [78; 85; 76; 76] | i => i end) ++ concat (map (fun z => 32 :: print_float z) (ifields s)).

(** isspace *)
Definition space (c : N) : bool := (c =? 32) || ((9 <=? c) && (c <=? 13)).
Fixpoint skip_ws (s : list N) : list N := match s with c :: r => if space c then skip_ws r else s | [] => [] end.
Fixpoint token (s : list N) : list N * list N :=
  match s with c :: r => if space c then ([], s) else let '(t, u) := token r in (c :: t, u) | [] => ([], []) end.
Definition digit (c : N) : bool := (48 <=? c) && (c <=? 57).
Fixpoint take_digits (s : list N) (a : N) (k : nat) : N * nat * list N :=
  match s with c :: r => if digit c then take_digits r (10 * a + (c - 48)) (S k) else (a, k, s) | [] => (a, k, []) end.
Definition take_sign (s : list N) : bool * list N := match s with 45 :: r => (true, r) | 43 :: r => (false, r) | _ => (false, s) end.
Definition p10 (z : Z) : Q := if (z <? 0)%Z then 1 / inject_Z (10 ^ (- z)) else inject_Z (10 ^ z).
(** operator>>(float&): the number and what is left; None sets failbit *)
Definition read_float (s0 : list N) : option (Q * list N) :=
  let '(neg, s1) := take_sign (skip_ws s0) in
  let '(i, n1, s2) := take_digits s1 0 0 in
  let '(m, n2, s3) := match s2 with 46 :: r => take_digits r i 0 | _ => (i, O, s2) end in
  if ((n1 + n2) =? 0)%nat then None
  else
    let val (e : Z) : Q := (inject_Z (if neg : bool then - Z.of_N m else Z.of_N m) * p10 (e - Z.of_nat n2))%Q in
    match s3 with
    | 101 :: r =>
      let '(eneg, r1) := take_sign r in
      let '(e, n3, r2) := take_digits r1 0 0 in
      if (n3 =? 0)%nat then None else Some (val (if eneg : bool then - Z.of_N e else Z.of_N e)%Z, r2)
    | _ => Some (val 0%Z, s3)
    end.
(** ns.cc 316-317; each number read takes at least one byte, [fuel] is their number *)
Fixpoint read_floats (fuel : nat) (s : list N) : list Q :=
  match fuel with
  | O => []
  | S f => match read_float s with Some (v, r) => v :: read_floats f r | None => [] end
  end.
(** ns.cc 312-318 *)
Definition Parse (s : list N) : rstats :=
  let '(t, r) := token (skip_ws s) in
  {| rid := t; rfields := match t with [] => [] | _ => read_floats (length r) r end |}.

(** The four bytes of an int. *)
Definition int_bytes (n : N) : list N := [n mod 256; n / 256 mod 256; n / 65536 mod 256; n / 16777216 mod 256].
Definition int_value (l : list N) : option N := match l with [a; b; c; d] => Some (a + 256 * b + 65536 * c + 16777216 * d) | _ => None end.
(** error_surface.cc 14-23; 18: the assertion *)
Fixpoint ser_segs (l : list iseg) : option (list N) :=
  match l with
  | [] => Some []
  | s :: r =>
    let senc := Encode (idelta s) in
    if (length senc <? 1024)%nat then
      let len := N.of_nat (length senc) mod 256 in
      match ser_segs r with Some t => Some (ix s ++ [len] ++ firstn (N.to_nat len) senc ++ t) | None => None end
    else None
  end.
(** error_surface.cc 10-25 *)
Definition Serialize (l : list iseg) : option (list N) :=
  match ser_segs l with Some t => Some (int_bytes (N.of_nat (length l)) ++ t) | None => None end.

(** is.read(p, n): [None] if fewer than n bytes are left *)
Definition read (n : nat) (s : list N) : option (list N * list N) := if (n <=? length s)%nat then Some (firstn n s, skipn n s) else None.
(** error_surface.cc 32-40 *)
Fixpoint deser_segs (n : nat) (s : list N) : option (list rseg) :=
  match n with
  | O => Some []
  | S n' =>
    match read 8 s with
    | Some (x, s1) =>
      match s1 with
      | [] => None
      | len :: s2 =>
        match read (N.to_nat len) s2 with
        | Some (senc, s3) => match deser_segs n' s3 with Some l => Some ({| rx := x; rdelta := Parse senc |} :: l) | None => None end
        | None => None
        end
      end
    | None => None
    end
  end.
(** error_surface.cc 27-41; a negative count makes resize throw *)
Definition Deserialize (s : list N) : option (list rseg) :=
  match read 4 s with
  | Some (b, r) =>
    match int_value b with
    | Some n => if n <? 2147483648 then deser_segs (N.to_nat n) r else None
    | None => None
    end
  | None => None
  end.

(** mr_dpmert_map.cc 105-108 and mr_dpmert_reduce.cc 59-69: what the reducer
    makes of a surface; [None] if it skips the line, or on undefined behaviour *)
Definition transport (l : list iseg) : option (list rseg) :=
  match Serialize l with
  | None => None
  | Some v =>
    let val := b64encode v in
    match b64decode val 0 (N.of_nat (length val / 4 * 3)) with
    | DOk encoded => Deserialize encoded
    | _ => None
    end
  end.
