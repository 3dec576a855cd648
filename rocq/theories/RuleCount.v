(** Model of the rules of a source phrase and the numbers their feature scores are computed
    from (extractor/rule_extractor.cc 77-122, features/*.cc).  std::map is a list in the
    order of its keys; the counts of type double are rationals. *)
From Coq Require Import List ZArith QArith Bool Reals Qreals.
From Verif Require Import Opt Fix RuleEx.
Import ListNotations.
Close Scope R_scope.
Close Scope Q_scope.
Open Scope Z_scope.
Open Scope opt_scope.

(** operator< of vector and of pair *)
Fixpoint lex {A : Type} (cmp : A -> A -> comparison) (a b : list A) : comparison :=
  match a, b with
  | [], [] => Eq | [], _ => Lt | _, [] => Gt
  | x :: a', y :: b' => match cmp x y with Eq => lex cmp a' b' | c => c end
  end.
Definition pair_cmp (a b : Z * Z) : comparison := match fst a ?= fst b with Eq => snd a ?= snd b | c => c end.
Definition phrase_cmp : list Z -> list Z -> comparison := lex Z.compare.
Definition align_cmp : list (Z * Z) -> list (Z * Z) -> comparison := lex pair_cmp.
(** operator[] of std::map, followed by an assignment *)
Fixpoint update {K V : Type} (cmp : K -> K -> comparison) (d : V) (f : V -> V) (k : K) (m : list (K * V)) : list (K * V) :=
  match m with
  | [] => [(k, f d)]
  | (k', v) :: r => match cmp k k' with Eq => (k', f v) :: r | Lt => (k, f d) :: m | Gt => (k', v) :: update cmp d f k r end
  end.
Fixpoint lookup {K V : Type} (cmp : K -> K -> comparison) (d : V) (k : K) (m : list (K * V)) : V :=
  match m with [] => d | (k', v) :: r => match cmp k k' with Eq => v | _ => lookup cmp d k r end end.

Definition align_count := list (list (Z * Z) * Z).
Definition counters : Type := list (list Z * Q) * list (list Z * list (list Z * align_count)).
(** 89-92 *)
Definition count_extract (st : counters) (e : extract) : counters :=
  (update phrase_cmp 0%Q (fun q => (q + e_count e)%Q) (e_source e) (fst st),
   update phrase_cmp [] (update phrase_cmp [] (update align_cmp 0 (fun n => n + 1) (e_align e)) (e_target e)) (e_source e) (snd st)).
(** struct FeatureContext with the alignment of the rule *)
Record rule_stats := { r_source : list Z; r_target : list Z; r_source_count : Q; r_pair_count : Z; r_samples : Z; r_align : list (Z * Z) }.
(** 104-112: state: most frequent alignment, its count, the sum of the counts *)
Definition most_frequent (m : align_count) : list (Z * Z) * Z * Z :=
  fold_left (fun '(best, mx, num) '(a, n) => if mx <? n then (a, n, num + n) else (best, mx, num + n)) m ([], 0, 0).
Definition rules_of (samples : Z) (st : counters) : list rule_stats :=
  flat_map (fun '(s, targets) => map (fun '(t, m) =>
    let '(best, _, num) := most_frequent m in
    {| r_source := s; r_target := t; r_source_count := lookup phrase_cmp 0%Q s (fst st); r_pair_count := num; r_samples := samples; r_align := best |}) targets) (snd st).

(** 85-86: the occurrences.  None: the iterator passes the end, or never reaches it. *)
Fixpoint groups (fuel k : nat) (l : list Z) : option (list (list Z)) :=
  match l with
  | [] => Some []
  | _ => match fuel with O => None | S f =>
      if Nat.ltb (length l) k then None else r <- groups f k (skipn k l) ;; Some (firstn k l :: r) end
  end.

Section Rules.
Variable stray : option (Z -> Z).
Variable o : ropts.
(** The sentence a position of the source data lies in and the position where it starts
    (data_array.cc GetSentenceId, GetSentenceStart; 127-128): a parameter. *)
Variable sentence_at : Z -> option (sentence * Z).
Definition extracts_at (phrase matching : list Z) : option (list extract) :=
  m <- get matching 0 ;; ' (p, start) <- sentence_at m ;; ExtractAlignments stray o p start phrase matching.
Fixpoint count_all (phrase : list Z) (ms : list (list Z)) (st : counters) : option counters :=
  match ms with [] => Some st | m :: r => es <- extracts_at phrase m ;; count_all phrase r (fold_left count_extract es st) end.
Definition ExtractRules (phrase : list Z) (num_subpatterns : nat) (matchings : list Z) : option (list rule_stats) :=
  ms <- groups (length matchings) num_subpatterns matchings ;;
  st <- count_all phrase ms ([], []) ;;
  Some (rules_of (size matchings / Z.of_nat num_subpatterns) st).
End Rules.

(** ** Scores (features/target_given_source_coherent.cc 8-11, count_source_target.cc 8-10,
    sample_source_count.cc 8-10, is_source_singleton.cc 8-10, is_source_target_singleton.cc 8-10);
    double is a real number, 1e-6 is 1/1000000 *)
Definition log10 (x : R) : R := (ln x / ln 10)%R.
Definition MAX_SCORE : R := 99%R.
Definition TargetGivenSourceCoherent (r : rule_stats) : R :=
  let prob := (IZR (r_pair_count r) / IZR (r_samples r))%R in if Rlt_dec 0 prob then (- log10 prob)%R else MAX_SCORE.
Definition CountSourceTarget (r : rule_stats) : R := log10 (IZR (1 + r_pair_count r)).
Definition SampleSourceCount (r : rule_stats) : R := log10 (IZR (1 + r_samples r)).
Definition IsSourceSingleton (r : rule_stats) : R := if Rlt_dec (Rabs (Q2R (r_source_count r) - 1)) (/ 1000000) then 1%R else 0%R.
Definition IsSourceTargetSingleton (r : rule_stats) : R := if r_pair_count r =? 1 then 1%R else 0%R.
