(** utils/stringlib.cc: the attributes of a segment.  std::string::find, substr and operator[] are [index], [substring] and [get] of the standard
    library.  Outer [None]: the loop did not end within the steps given; inner [None]: an abort.  The map of attributes is given by the
    assignments made to it, in order. *)
From Coq Require Import String Ascii List Arith Bool.
From Verif Require Import Opt Strlib.
Import ListNotations.
Open Scope string_scope.
Open Scope nat_scope.
Open Scope opt_scope.

Definition is (o : option ascii) (c : ascii) : bool := match o with Some d => Ascii.eqb d c | None => false end.
(** substr from a position to the end *)
Definition from (n : nat) (s : string) : string := substring n (String.length s - n) s.
(** 48-58: blanks around = are taken out *)
Fixpoint squeeze (fuel i : nat) (seg : string) : option string :=
  match fuel with
  | O => None
  | S f =>
      if i <? String.length seg then
        if is (String.get i seg) "=" && is (String.get (i - 1) seg) " " then squeeze f 1 (substring 0 (i - 1) seg ++ from i seg)
        else if is (String.get i seg) "=" && is (String.get (i + 1) seg) " " then squeeze f 1 (substring 0 (i + 1) seg ++ from (i + 2) seg)
        else squeeze f (i + 1) seg
      else Some seg
  end.
(** 61-91 *)
Fixpoint attributes (fuel i : nat) (seg : string) (meta : list (string * string)) : option (list (string * string)) :=
  match fuel with
  | O => None
  | S f =>
      if i <? String.length seg then
        if is (String.get i seg) "=" then
          let label := substring 0 i seg in
          let val := from (i + 1) seg in
          let '(val, seg', i') :=
            (if is (String.get 0 val) """" then
               let val := from 1 val in
               match index 0 """" val with None => (val, "", 0) | Some close => (substring 0 close val, from (close + 1) val, 0) end
             else
               match index 0 " " val with None => (val, "", 0) | Some close => (substring 0 close val, from (close + 1) val, i) end) in
          attributes f (i' + 1) (Trim seg') (meta ++ [(Trim label, val)])%list
        else attributes f (i + 1) seg meta
      else Some meta
  end.
(** 34-92: the line left and the assignments *)
Definition ProcessAndStripSGML (fuel : nat) (line : string) : option (option (string * list (string * string))) :=
  if prefix "<SEG" line || prefix "<Seg" line then Some None
  else if negb (prefix "<seg" line) then Some (Some (line, []))
  else match index 0 ">" line with
  | None => Some (Some (line, []))
  | Some close =>
      let text := match index 0 "</seg>" line with
                  | Some e => if close <? e then substring (close + 1) (e - close - 1) line else from (close + 1) line
                  | None => from (close + 1) line end in
      seg <- squeeze fuel 1 (Trim (substring 4 (close - 4) line)) ;;
      meta <- (if String.eqb seg "" then Some [] else attributes fuel 1 seg []) ;;
      Some (Some (Trim text, meta))
  end.
(** 94-101 *)
Definition SGMLOpenSegTag (attr : list (string * string)) : string :=
  "<seg" ++ fold_right (fun p r => " " ++ fst p ++ "=" ++ """" ++ snd p ++ """" ++ r) "" attr ++ ">".
