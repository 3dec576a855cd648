(** Model of the repository of k-best candidates (training/utils/candidate_set.{h,cc},
    SufficientStats of mteval/ns.cc, TD::GetString and ConvertSentence of utils/tdict.cc,
    VisitTokens of utils/stringlib.h and print of utils/sparse_vector.h).
    Simplified: a character is a number; a file is the list of its lines; a number is its
    text: how the standard library prints and reads numbers is left open (print, strtod). *)
From Coq Require Import List Arith NArith Bool Permutation.
Import ListNotations.

(** * Text *)
Notation text := (list nat).
Definition SPACE : nat := 32.
Definition TAB : nat := 9.
Definition EQUALS : nat := 61.

(** stringlib.h:189-191 IsWordSep *)
Definition IsWordSep (c : nat) : bool := (c =? SPACE) || (c =? TAB).

(** stringlib.h:196-224, 263-275 VisitTokens: the words it visits (the characters before p since
    last, and whether a word is being read) *)
Fixpoint VisitTokens (s : text) (word : text) (inword : bool) : list text :=
  match s with
  | [] => if inword then [word] else []
  | c :: s' =>
    if IsWordSep c then (if inword then word :: VisitTokens s' [] false else VisitTokens s' [] false)
    else VisitTokens s' (word ++ [c]) true
  end.
Definition tokens (s : text) : list text := VisitTokens s [] false.

(** tdict.cc:22-29 GetString, and print of sparse_vector.h:33-45: parts with separators between *)
Fixpoint join (l : list text) : text :=
  match l with [] => [] | [w] => w | w :: l' => w ++ SPACE :: join l' end.

Section File.
Variable V : Type.                       (* values of features, double *)
Variable print : V -> text.              (* out << value, precision 10 *)
Variable strtod : text -> V.
Variable F : Type.                       (* fields of the statistics, float *)
Variable print_f : F -> text.            (* os << field *)
Variable read_f : text -> option F.      (* is >> val; None: no number *)

(** ns.h SufficientStats: id_ and fields *)
Record stats := Stats { id_ : text; fields : list F }.
(** candidate_set.h:15-41 Candidate, words and features by their names *)
Record candidate := Candidate { ewords : list text; fmap : list (text * V); eval_feats : stats }.

(** sparse_vector.h:42 *)
Definition pair_text (p : text * V) : text := fst p ++ EQUALS :: print (snd p).

(** candidate_set.cc:88-111 ParseSparseVector: seg: the characters since last_start; comma:
    the place of the last '=' in them; None: the error message and exit(1) *)
Fixpoint ParseSparseVector (line seg : text) (comma : option nat) : option (list (text * V)) :=
  let flush := match seg, comma with
               | _ :: _, Some k => Some (firstn k seg, strtod (skipn (S k) seg))
               | _, _ => None
               end in
  match line with
  | [] => match flush with Some p => Some [p] | None => None end
  | c :: line' =>
    if c =? SPACE then
      match flush with
      | Some p => match ParseSparseVector line' [] None with Some l => Some (p :: l) | None => None end
      | None => None
      end
    else ParseSparseVector line' (seg ++ [c]) (if c =? EQUALS then Some (length seg) else comma)
  end.

Definition NULL_ : text := [78; 85; 76; 76].
(** ns.cc:320-329 Encode *)
Definition Encode (s : stats) : text :=
  fold_left (fun o f => o ++ SPACE :: print_f f) (fields s) (match id_ s with [] => NULL_ | _ => id_ s end).

(** ns.cc:316-317 *)
Fixpoint read_fields (l : list text) : list F :=
  match l with [] => [] | t :: l' => match read_f t with Some f => f :: read_fields l' | None => [] end end.
(** ns.cc:312-318 *)
Definition decode (line : text) : stats :=
  match tokens line with [] => Stats [] [] | i :: l => Stats i (read_fields l) end.

(** candidate_set.cc:113-124 WriteToFile *)
Definition WriteToFile (cs : list candidate) : list text :=
  flat_map (fun c => [join (ewords c); join (map pair_text (fmap c)); Encode (eval_feats c)]) cs.

(** candidate_set.cc:126-143 ReadFromFile; None: an error which ends the program *)
Fixpoint ReadFromFile (lines : list text) : option (list candidate) :=
  match lines with
  | [] => Some []
  | cand :: feats :: ss :: lines' =>
    match ParseSparseVector feats [] None, ReadFromFile lines' with
    | Some fm, Some cs => Some (Candidate (tokens cand) fm (decode ss) :: cs)
    | _, _ => None
    end
  | _ => None
  end.
End File.

(** * Removing duplicates *)
Local Open Scope N_scope.

(** candidate_set.cc:26-40: the bits of a double *)
Definition MASK : N := 0xFFFFFFFF.
Definition word (i : N) : N := i mod 2 ^ 64.
Definition round (i : N) : N :=
  let r := N.land i MASK in
  if MASK <? word (2 * r) then word (i + (MASK - r + 1))
  else N.land i (word (1 + (2 ^ 64 - MASK))).

(** A candidate: words, features with the bits of their values (NaN and -0 left out), and the
    rest *)
Record cand := Cand { words : list nat; feats : list (nat * N); rest : nat }.

(** candidate_set.cc:56-69 ApproxVectorEquals *)
Fixpoint approx_equals (a b : list (nat * N)) : bool :=
  match a, b with
  | [], [] => true
  | (i, x) :: a', (j, y) :: b' => (i =? j)%nat && (round x =? round y) && approx_equals a' b'
  | _, _ => false
  end.
(** candidate_set.cc:71-76 CandidateCompare *)
Definition same (a b : cand) : bool := (if list_eq_dec Nat.eq_dec (words a) (words b) then true else false) && approx_equals (feats a) (feats b).
(** candidate_set.cc:41-53, 78-86: what the hash is computed from *)
Definition hashed (c : cand) : list nat * list (nat * N) :=
  (words c, map (fun p => (fst p, N.shiftr (snd p) 32)) (filter (fun p => negb (snd p =? 0)) (feats c))).

Section Dedup.
Variable H : Type.
Variable hash : list nat * list (nat * N) -> H.

(** u.insert(x): an element with the same hash which is the same is found; one with another
    hash may be found, if it is in the same bucket, or not *)
Definition inserted (u : list cand) (x : cand) (u' : list cand) : Prop :=
  (exists e, In e u /\ same e x = true /\ u' = u) \/
  ((forall e, In e u -> hash (hashed e) = hash (hashed x) -> same e x = false) /\ u' = x :: u).

Inductive all_inserted : list cand -> list cand -> list cand -> Prop :=
| ai_nil : forall u, all_inserted [] u u
| ai_cons : forall x l u u' u'', inserted u x u' -> all_inserted l u' u'' -> all_inserted (x :: l) u u''.

(** candidate_set.cc:145-158 Dedup: the results it may have *)
Definition Dedup (cs out : list cand) : Prop := exists u, all_inserted (rev cs) [] u /\ Permutation u out.
End Dedup.
