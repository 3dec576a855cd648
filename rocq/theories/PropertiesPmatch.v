(** C106: parse match features. *)
From Coq Require Import String Ascii List Arith QArith Lia.
From Verif Require Import RuleFfSpec Pmatch PmatchSpec PmatchProofs.
Import ListNotations.
Open Scope string_scope.
Open Scope nat_scope.

(** A tree written with brackets is read: the span of every constituent has the label of the outermost constituent with that span, and no other
    span has a label. *)
Theorem C106_labels t : good t -> exists g, InitializeGrids (width t) (show t) = Some g /\
  (forall a u, sub 0 t a u -> outermost t a (a + width u) (g a (a + width u))) /\ (forall a b, (forall u, sub 0 t a u -> a + width u <> b) -> g a b = "XX").
Proof. exact (labels_ok t). Qed.
Print Assumptions C106_labels.
(** A tree for another number of words is refused. *)
Theorem C106_length t n : good t -> n <> width t -> InitializeGrids n (show t) = None.
Proof. exact (length_ok t n). Qed.
Print Assumptions C106_length.
(** The distance of a constituent is 0; that of any other span of two words or more is the least number of words whose addition, or whose
    removal, makes it a constituent, if there is such a number below its length. *)
Theorem C106_distance_zero t g i j : good t -> InitializeGrids (width t) (show t) = Some g -> constituent t i j -> min_dist (width t) g i j = Some 0.
Proof. exact (dist_zero t g i j). Qed.
Print Assumptions C106_distance_zero.
Theorem C106_distance t g i j : good t -> InitializeGrids (width t) (show t) = Some g -> ~ constituent t i j -> i + 1 < j ->
  exists d, min_dist (width t) g i j = Some d /\ 0 < d < j - i /\ (forall k, 0 < k < d -> ~ changed (constituent t) i j k) /\ ((exists k, 0 < k < j - i /\ changed (constituent t) i j k) -> changed (constituent t) i j d).
Proof. exact (dist_ok t g i j). Qed.
Print Assumptions C106_distance.
(** With binary scoring the feature is 1 if the span of a rule and the spans of its antecedents are constituents, else 0. *)
Theorem C106_binary t g i j spans ants v : good t -> InitializeGrids (width t) (show t) = Some g -> Forall2 (fun p d => min_dist (width t) g (fst p) (snd p) = Some d) spans ants ->
  PM (width t) g Binary i j ants = Some v -> (v == 1 /\ Forall (fun p => constituent t (fst p) (snd p)) ((i, j) :: spans) \/ v == 0 /\ ~ Forall (fun p => constituent t (fst p) (snd p)) ((i, j) :: spans))%Q.
Proof. exact (binary_ok t g i j spans ants v). Qed.
Print Assumptions C106_binary.
(** With linear scoring it is 1 over the distance of the span and one; there is a value for all spans of the sentence with a distance and up to
    eight antecedents. *)
Theorem C106_linear len g i j ants d : i < len -> j <= len -> length ants <= 8 -> min_dist len g i j = Some d ->
  exists v, PM len g Linear i j ants = Some v /\ (v * inject_Z (Z.of_nat (d + 1)) == 1)%Q.
Proof. exact (linear_ok len g i j ants d). Qed.
Print Assumptions C106_linear.
Theorem C106_value len g m i j ants d : i < len -> j <= len -> length ants <= 8 -> min_dist len g i j = Some d -> exists v, PM len g m i j ants = Some v.
Proof. exact (value_ok len g m i j ants d). Qed.
Print Assumptions C106_value.

(** Finding: relative scoring divides integers (ff_parse_match.cc 175): the feature, which should be the length of the span over its length and
    distance together, is 0 whenever the distance is not 0. *)
Theorem C106_relative_refuted len g i j ants v : i < j -> PM len g Relative i j ants = Some v -> exists d, min_dist len g i j = Some d /\ (v == if d =? 0 then 1 else 0)%Q.
Proof. exact (relative_01 len g i j ants v). Qed.
Print Assumptions C106_relative_refuted.
(** Finding: the distance of a single word which is not a constituent is never set, and is used (ff_parse_match.cc 111-150). *)
Theorem C106_single_refuted t g i : good t -> InitializeGrids (width t) (show t) = Some g -> ~ constituent t i (i + 1) -> min_dist (width t) g i (i + 1) = None.
Proof. exact (dist_unset t g i). Qed.
Print Assumptions C106_single_refuted.
(** Finding: a constituent after a word in the same constituent is read as words (ff_parse_match.cc 87-96): a tree of the right length stops
    the program. *)
Theorem C106_mixed_refuted : InitializeGrids 2 "(NP the (N dog))" = None /\ InitializeGrids 2 "(NP (D the) dog)" <> None.
Proof. split; [reflexivity|]. vm_compute. discriminate. Qed.
Print Assumptions C106_mixed_refuted.

Definition tree_ex := T "S" [T "NP" [] ["John"]; T "VP" [T "V" [] ["has"]; T "NP" [T "D" [] ["a"]] ["big"; "dog"]] []] [].
Example C106_ex_show : show tree_ex = "(S (NP John) (VP (V has) (NP (D a) big dog)))" /\ width tree_ex = 5.
Proof. split; reflexivity. Qed.
Example C106_ex_good : good tree_ex.
Proof.
  assert (W : forall w, In w ["John"; "has"; "a"; "big"; "dog"] -> word_name w).
  { intros w I. cbn in I. repeat (destruct I as [<- |I]; [repeat split; try discriminate; cbn; intuition discriminate|]). destruct I. }
  assert (L : forall c w, cat_name c -> word_name w -> good (T c [] [w])) by (intros c w C N; constructor; [exact C|constructor; [exact N|constructor]|right; discriminate|intros t []]).
  assert (C : forall c, In c ["S"; "NP"; "VP"; "V"; "D"] -> cat_name c).
  { intros c I. cbn in I. repeat (destruct I as [<- |I]; [repeat split; try discriminate; cbn; intuition discriminate|]). destruct I. }
  constructor; [apply C; cbn; tauto|constructor|left; discriminate|]. intros t [<- |[<- |[]]]; [apply L; [apply C|apply W]; cbn; tauto|].
  constructor; [apply C; cbn; tauto|constructor|left; discriminate|]. intros t [<- |[<- |[]]]; [apply L; [apply C|apply W]; cbn; tauto|].
  constructor; [apply C; cbn; tauto|repeat constructor; apply W; cbn; tauto|left; discriminate|]. intros t [<- |[]]. apply L; [apply C|apply W]; cbn; tauto.
Qed.
Example C106_ex_grid : match InitializeGrids 5 "(S (NP John) (VP (V has) (NP (D a) big dog)))" with
  | Some g => (g 0 5, g 0 1, g 1 5, g 2 5, g 3 5) = ("S", "NP", "VP", "NP", "XX") /\
      [min_dist 5 g 1 5; min_dist 5 g 3 5; min_dist 5 g 0 4; min_dist 5 g 0 3; min_dist 5 g 3 4] = [Some 0; Some 1; Some 1; Some 2; None]
  | None => False end.
Proof. vm_compute. split; reflexivity. Qed.
(** The label of a unary chain is the outermost. *)
Example C106_ex_unary : match InitializeGrids 1 "(S (NP (N John)))" with Some g => g 0 1 = "S" | None => False end.
Proof. vm_compute. reflexivity. Qed.
