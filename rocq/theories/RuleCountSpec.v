(** What the numbers of a rule are: counts over the extracts of all occurrences. *)
From Coq Require Import List ZArith QArith Bool.
From Verif Require Import RuleEx RuleCount RuleExSpec.
Import ListNotations.
Close Scope Q_scope.
Open Scope Z_scope.

Definition phrase_eqb (a b : list Z) : bool := if list_eq_dec Z.eq_dec a b then true else false.
Definition align_eqb (a b : list (Z * Z)) : bool := if list_eq_dec (fun x y => match Z.eq_dec (fst x) (fst y), Z.eq_dec (snd x) (snd y) with left p, left q => left (injective_projections x y p q) | right p, _ => right (fun h => p (f_equal fst h)) | _, right q => right (fun h => q (f_equal snd h)) end) a b then true else false.
Definition of_source (s : list Z) (e : extract) : bool := phrase_eqb (e_source e) s.
Definition of_pair (s t : list Z) (e : extract) : bool := andb (of_source s e) (phrase_eqb (e_target e) t).
Definition of_rule (s t : list Z) (a : list (Z * Z)) (e : extract) : bool := andb (of_pair s t e) (align_eqb (e_align e) a).
Definition how_many {A : Type} (f : A -> bool) (l : list A) : Z := Z.of_nat (length (filter f l)).
Definition sum_counts (es : list extract) : Q := fold_right (fun e q => (e_count e + q)%Q) 0%Q es.
(** [ess]: the extracts of every occurrence. *)
Definition describes (ess : list (list extract)) (rules : list rule_stats) : Prop :=
  let es := concat ess in
  NoDup (map (fun r => (r_source r, r_target r)) rules) /\
  (forall s t, In (s, t) (map (fun r => (r_source r, r_target r)) rules) <-> exists e, In e es /\ e_source e = s /\ e_target e = t) /\
  (forall r, In r rules ->
     r_samples r = Z.of_nat (length ess) /\
     (r_source_count r == sum_counts (filter (of_source (r_source r)) es))%Q /\
     r_pair_count r = how_many (of_pair (r_source r) (r_target r)) es /\
     1 <= how_many (of_rule (r_source r) (r_target r) (r_align r)) es /\
     (forall a, how_many (of_rule (r_source r) (r_target r) a) es <= how_many (of_rule (r_source r) (r_target r) (r_align r)) es)).
(** The occurrences: groups of k positions, each inside the sentence it is attributed to. *)
Definition occurrences (o : ropts) (sentence_at : Z -> option (sentence * Z)) (phrase : list Z) (ms : list (list Z)) : Prop :=
  forall m, In m ms -> exists m0 p start, hd_error m = Some m0 /\ sentence_at m0 = Some (p, start) /\ fits o p start phrase m.
(** Occurrences that yield an extract with this property. *)
Definition yield (f : extract -> bool) (ess : list (list extract)) : Z := how_many (existsb f) ess.
(** All extracts of the rules with source phrase s. *)
Definition with_source (s : list Z) (r : rule_stats) : bool := phrase_eqb (r_source r) s.
Definition pairs_of (rules : list rule_stats) (s : list Z) : Z := fold_right (fun r n => r_pair_count r + n) 0 (filter (with_source s) rules).
