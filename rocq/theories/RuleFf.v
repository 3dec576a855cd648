(** decoder/ff_rules.cc: features named after a rule and after the neighbouring symbols of a rule, with the cache of every function.
    Features are named by their text; [None] is feature 0, the number of all names a frozen dictionary does not know
    (utils/fdict.h 25-37, dict.h 29-45).  Rules are told apart by their address, a number.  Symbols are texts already:
    a category or a word of the source side, a word or the number of a variable of the target side. *)
From Coq Require Import String Ascii List Arith Bool Decimal DecimalString.
From Verif Require Import Opt.
Import ListNotations.
Open Scope string_scope.
Open Scope opt_scope.
Local Open Scope nat_scope.

Inductive fsym := Cat (s : string) | FWord (s : string).
Inductive esym := Var (k : nat) | EWord (s : string).
(** [lhs]: [None] if lhs_ is not negative *)
Record rule := { lhs : option string; f_ : list fsym; e_ : list esym }.
Notation vec := (option string -> nat) (only parsing).
Definition key_eqb (a b : option string) : bool := match a, b with None, None => true | Some s, Some t => String.eqb s t | _, _ => false end.
Definition add_value (k : option string) (f : vec) : vec := fun x => if key_eqb x k then S (f x) else f x.
Definition set_value (k : option string) (f : vec) : vec := fun x => if key_eqb x k then 1 else f x.
Definition plus_vec (f g : vec) : vec := fun x => f x + g x.

(** ff_rules.cc 18-27 *)
Definition escape1 (c : ascii) : ascii := if Ascii.eqb c "=" then "_" else if Ascii.eqb c ";" then "_" else c.
Fixpoint Escape (s : string) : string := match s with EmptyString => EmptyString | String c r => String (escape1 c) (Escape r) end.
(** ostream << of a number *)
Definition show (n : nat) : string := NilEmpty.string_of_uint (Nat.to_uint n).

Section Known.
(** the names the dictionary takes: all, or those it knows when it is frozen *)
Variable takes : string -> bool.
(** FD::Convert *)
Definition Convert (s : string) : option string := if takes s then Some s else None.

(** 83-94, 131-147: all neighbours but the last; the text before, or [None] for the return on the way *)
Fixpoint loop (tag prev : string) (ws : list string) (f : vec) : vec * option string :=
  match ws with
  | [] => (f, Some prev)
  | cur :: r =>
      match Convert (Escape (tag ++ prev ++ "_" ++ cur)) with
      | None => (f, None)
      | Some n => loop tag cur r (add_value (Some n) f)
      end
  end.
(** 81-97, 126-150: what is put into the cache, and whether the end is reached *)
Definition build (tag : string) (ws : list string) : vec * bool :=
  match loop tag "<r>" ws (fun _ => 0) with
  | (f, None) => (f, false)
  | (f, Some prev) => (set_value (Convert (Escape (tag ++ prev ++ "_" ++ "</r>"))) f, true)
  end.
Fixpoint find_rule {A} (cache : list (nat * A)) (ptr : nat) : option A :=
  match cache with [] => None | (p, f) :: r => if p =? ptr then Some f else find_rule r ptr end.
(** 72-100, 116-153: [ws] is the texts of the symbols; the cache and the features after *)
Definition bigram_features (tag : string) (ws : list string) (ptr : nat) (cache : list (nat * vec)) (features : vec) : list (nat * vec) * vec :=
  match find_rule cache ptr with
  | Some f => (cache, plus_vec features f)
  | None => let '(f, ended) := build tag ws in ((ptr, f) :: cache, if ended then plus_vec features f else features)
  end.
(** 83-88 *)
Definition source_texts (r : rule) : list string := map (fun s => match s with Cat c => c | FWord w => w end) (f_ r).
(** 127-140; [None]: a variable without a category, or beyond the thousandth (undefined) *)
Definition nt_types (r : rule) : list string := concat (map (fun s => match s with Cat c => [c] | FWord _ => [] end) (f_ r)).
Fixpoint target_texts (types : list string) (e : list esym) : option (list string) :=
  match e with
  | [] => Some []
  | EWord w :: e' => l <- target_texts types e' ;; Some (w :: l)
  | Var k :: e' =>
      if k <? 1000 then c <- nth_error types k ;; l <- target_texts types e' ;; Some ((c ++ show (k + 1)) :: l) else None
  end.
(** RuleSourceBigramFeatures (72-100) *)
Definition SourceBigrams (r : rule) (ptr : nat) (cache : list (nat * vec)) (features : vec) := bigram_features "RBS:" (source_texts r) ptr cache features.
(** RuleTargetBigramFeatures (116-153) *)
Definition TargetBigrams (r : rule) (ptr : nat) (cache : list (nat * vec)) (features : vec) : option (list (nat * vec) * vec) :=
  match find_rule cache ptr with
  | Some f => Some (cache, plus_vec features f)
  | None => ws <- target_texts (nt_types r) (e_ r) ;; Some (bigram_features "RBT:" ws ptr cache features)
  end.

(** 44-66: the name of a rule *)
Definition f_text (s : fsym) : string := match s with Cat c => "N" ++ c | FWord w => w end.
Definition e_text (s : esym) : string := match s with Var k => "N" ++ show (k + 1) | EWord w => w end.
Definition rule_name (r : rule) : string :=
  "R:" ++ (match lhs r with Some l => l ++ ":" | None => "" end) ++ String.concat "_" (map f_text (f_ r)) ++ ":" ++ String.concat "_" (map e_text (e_ r)).
(** RuleIdentityFeatures (37-69) *)
Definition Identity (r : rule) (ptr : nat) (cache : list (nat * option string)) (features : vec) : list (nat * option string) * vec :=
  match find_rule cache ptr with
  | Some fid => (cache, add_value fid features)
  | None => let fid := Convert (Escape (rule_name r)) in ((ptr, fid) :: cache, add_value fid features)
  end.
(** a sequence of applications after PrepareForInput (the cache is empty): the features after *)
Fixpoint apply_all {C} (step : rule -> nat -> C -> vec -> option (C * vec)) (rule_at : nat -> rule) (ptrs : list nat) (c : C) (f : vec) : option vec :=
  match ptrs with [] => Some f | p :: r => ' (c', f') <- step (rule_at p) p c f ;; apply_all step rule_at r c' f' end.
End Known.
