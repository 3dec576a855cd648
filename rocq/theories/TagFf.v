(** decoder/ff_tagger.cc, factored_lexicon_helper.h/.cc: the features of the linear-chain models.
    Features are named by their text: the numbers cached per pair of words are those of the
    names.  [None]: an access out of bounds or a failed assertion.  Left out: reading the
    files of words to use in place of the surface words, which are given as lists. *)
From Coq Require Import String Ascii List ZArith Bool.
From Verif Require Import Opt HG Deriv Rule Constrain.
Import ListNotations.
Open Scope opt_scope.
Local Open Scope string_scope.
Local Open Scope Z_scope.

(** ff_tagger.cc 13-20 *)
Definition escape_char (c : ascii) : ascii :=
  if Ascii.eqb c "="%char then "_"%char else if Ascii.eqb c ";"%char then "_"%char else c.
Fixpoint Escape (s : string) : string :=
  match s with EmptyString => EmptyString | String c s' => String (escape_char c) (Escape s') end.

(** sparse_vector.h: the vectors of features; set_value(fid, 1.0) and the sum over a derivation *)
Notation vec := (string -> Z) (only parsing).
Definition no_features : vec := fun _ => 0.
Definition set1 (v : vec) (x : string) : vec := fun y => if String.eqb y x then 1 else v y.
Definition vadd (u v : vec) : vec := fun y => u y + v y.

Section Walk.
Context {X St : Type}.
(** ffset.cc 43-56: a feature function is called for every edge, with the states of its tails *)
Variable ff : elab X -> list St -> option (St * vec).
Fixpoint traverse (g : hg (elab X)) (t : tree) : option (St * vec) :=
  match t with
  | Tree e ts =>
      ed <- nth_error (edges g) e ;;
      rs <- map_opt (traverse g) ts ;;
      sv <- ff (lab ed) (map fst rs) ;;
      Some (fst sv, fold_left vadd (map snd rs) (snd sv))
  end.
End Walk.

Section Features.
Context {X : Type}.
(** TD::Convert *)
Variable text : Z -> string.

(** ** Tagger_BigramIndicator *)
(** ff_tagger.cc 31-43 *)
Definition bigram_name (lft rgt : Z) : string :=
  Escape (if rgt =? 0 then "Uni:" ++ text lft
          else "Bi:" ++ (if lft <? 0 then "BOS" else text lft) ++ "_" ++ (if rgt <? 0 then "EOS" else text rgt)).
(** 27-45 *)
Definition FireBigram (no_uni : bool) (lft rgt : Z) (v : vec) : vec :=
  if no_uni && (rgt =? 0) then v else set1 v (bigram_name lft rgt).
(** 48-72 *)
Definition BigramIndicator (no_uni : bool) (source_length : Z) (l : elab X) (ants : list Z) : option (Z * vec) :=
  match ants with
  | [] => out <- nth_error (r_e (rule_ l)) 0 ;; Some (out, FireBigram no_uni out 0 no_features)
  | [s] => Some (s, no_features)
  | [lft; rgt] =>
      let v := no_features in
      let v := if (i_ l =? 0) && (j_ l =? 2) then FireBigram no_uni (-1) lft v else v in
      let v := FireBigram no_uni lft rgt v in
      let v := if (i_ l =? 0) && (j_ l =? source_length) then FireBigram no_uni rgt (-1) v else v in
      Some (rgt, v)
  | _ => None
  end.

(** ** factored_lexicon_helper *)
(** .cc 54-58, .h 56-60: words which are not allowed in names *)
Variable escape_ : list (Z * Z).
Definition escape_word (w : Z) : Z :=
  match find (fun p => fst p =? w) escape_ with Some p => snd p | None => w end.
(** .cc 60-72: the words to use for sentence [id] *)
Definition cur_src (corpus : option (list (list Z))) (id : nat) (src : list Z) : option (list Z) :=
  match corpus with Some c => nth_error c id | None => Some src end.
(** .h 36-40 *)
Definition SourceWordAtPosition (kNULL : Z) (cur : list Z) (i : Z) : option Z :=
  if i <? 0 then Some kNULL else w <- nth_error cur (Z.to_nat i) ;; Some (escape_word w).
(** .h 42-50 *)
Definition CoarsenedTargetWord (trgmap : option (list (Z * Z))) (w : Z) : Z :=
  match trgmap with
  | Some m => match find (fun p => fst p =? w) m with None => w | Some p => escape_word (snd p) end
  | None => escape_word w
  end.

(** ** LexicalPairIndicator *)
(** ff_tagger.cc 98-108 *)
Definition pair_name (name : string) (src trg : Z) : string := Escape (name ++ ":" ++ text src ++ ":" ++ text trg).
(** 110-125 *)
Definition LexicalPairIndicator (name : string) (kNULL : Z) (cur : list Z) (trgmap : option (list (Z * Z)))
  (l : elab X) (ants : list unit) : option (unit * vec) :=
  match ants with
  | [] =>
      src <- SourceWordAtPosition kNULL cur (i_ l) ;;
      match r_e (rule_ l) with
      | [w] => Some (tt, set1 no_features (pair_name name src (CoarsenedTargetWord trgmap w)))
      | _ => None
      end
  | _ => Some (tt, no_features)
  end.

(** ** OutputIndicator *)
(** 129-146 *)
Definition output_name (trg : Z) : string := Escape ("T:" ++ text (escape_word trg)).
(** 148-159 *)
Definition OutputIndicator (l : elab X) (ants : list unit) : option (unit * vec) :=
  Some (tt, fold_left (fun v e => if 0 <? e then set1 v (output_name e) else v) (r_e (rule_ l)) no_features).
End Features.
