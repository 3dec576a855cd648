(** C103: features named after the shapes of rules. *)
From Coq Require Import String Ascii List Arith ZArith Bool Lia.
From Verif Require Import RuleFfSpec RuleFfProofs Shape ShapeSpec ShapeProofs.
Import ListNotations.
Open Scope string_scope.
Local Open Scope nat_scope.

(** A side of a rule has a shape if and only if it has at most two variables, and never two shapes. *)
Theorem C103_shapes : forall l, ((exists b, shape l b) <-> variables l <= 2) /\ forall b b', shape l b -> shape l b' -> b = b'.
Proof. intros l. split; [exact (shape_total l)|exact (shape_fun l)]. Qed.
Print Assumptions C103_shapes.
(** The feature of a rule with at most two variables spells its two shapes; two such rules have the same feature if and only if they have
    the same shapes. *)
Theorem C103_feature : forall f e bf be, shape f bf -> shape e be -> RuleShape f e = Some ("Shape_S" ++ chars bf ++ "_T" ++ chars be).
Proof. exact rule_shape. Qed.
Print Assumptions C103_feature.
Theorem C103_same : forall f e f' e' bf be bf' be', shape f bf -> shape e be -> shape f' bf' -> shape e' be' -> (RuleShape f e = RuleShape f' e' <-> bf = bf' /\ be = be').
Proof. exact same_shape. Qed.
Print Assumptions C103_same.
(** Exactly the rules with more variables on a side stop the program. *)
Theorem C103_too_many : forall f e, (2 < variables f \/ 2 < variables e) <-> RuleShape f e = None.
Proof. exact too_many. Qed.
Print Assumptions C103_too_many.

(** With word classes for one side, the feature of a rule spells the classes of the symbols of that side, whatever rules were seen before. *)
Theorem C103_source_classes : forall pfx ls pv rs f e cf, LoadWordClasses pfx ls = Some pv -> Forall2 (sym_class pfx ls) f cf ->
  let c := {| f2class := Some pv; e2class := None |} in snd (RuleShape2 c (after_rules c rs) f e) = "RS:" ++ String.concat "_" cf.
Proof. exact source_classes. Qed.
Print Assumptions C103_source_classes.
Theorem C103_target_classes : forall pfx ls pv rs f e ce, LoadWordClasses pfx ls = Some pv -> Forall2 (sym_class pfx ls) e ce ->
  let c := {| f2class := None; e2class := Some pv |} in snd (RuleShape2 c (after_rules c rs) f e) = "RS:" ++ String.concat "_" ce.
Proof. exact target_classes. Qed.
Print Assumptions C103_target_classes.
(** With classes for both sides this needs that no earlier rule has the same classes, one side after the other, divided elsewhere. *)
Theorem C103_both_classes : forall pf lf pvf pe le pve rs f e cf ce, LoadWordClasses pf lf = Some pvf -> LoadWordClasses pe le = Some pve ->
  Forall2 (sym_class pf lf) f cf -> Forall2 (sym_class pe le) e ce ->
  (forall f' e' cf' ce', In (f', e') rs -> Forall2 (sym_class pf lf) f' cf' -> Forall2 (sym_class pe le) e' ce' -> (cf' ++ ce' = cf ++ ce)%list -> length cf' = length cf) ->
  let c := {| f2class := Some pvf; e2class := Some pve |} in snd (RuleShape2 c (after_rules c rs) f e) = "RS:" ++ String.concat "_" cf ++ "__" ++ String.concat "_" ce.
Proof. exact both_classes. Qed.
Print Assumptions C103_both_classes.
(** Every file of lines with a class, a word and perhaps one more word is read, and every symbol has a class. *)
Theorem C103_read : forall pfx ls, (Forall (fun l => exists w, line_for w l) ls <-> LoadWordClasses pfx ls <> None) /\ forall s, Forall (fun l => exists w, line_for w l) ls -> exists c, sym_class pfx ls s c.
Proof.
  intros pfx ls. split; [split; [exact (load_some pfx ls)|]|].
  - destruct (LoadWordClasses pfx ls) as [pv|] eqn:E; [|congruence]. intros _. exact (load_format _ _ _ _ E).
  - intros s F. apply (load_some pfx) in F. destruct (LoadWordClasses pfx ls) as [pv|] eqn:E; [|congruence]. exists (Map pv s). now apply loaded.
Qed.
Print Assumptions C103_read.
(** Names are different for different classes which are not empty and have no underscore. *)
Theorem C103_names : forall a b, Forall (fun s => ~ has "_" s /\ s <> "") a -> Forall (fun s => ~ has "_" s /\ s <> "") b -> "RS:" ++ String.concat "_" a = "RS:" ++ String.concat "_" b -> a = b.
Proof. intros a b A B E. injection E as E. exact (join_inj a b A B E). Qed.
Print Assumptions C103_names.

Definition file_ex : list (list string) := [["D"; "das"]; ["Noun"; "Haus"; "12"]; ["D"; "der"]; ["Verb"; "ist"]; ["Det"; "der"; "7"]].
(** Finding: with classes for both sides the tree in which names are looked up does not keep the sides apart: the feature of a rule is the
    one of another rule if that was seen before, so that the features of a translation depend on the order of the rules. *)
Theorem C103_order_refuted : exists c r1 r2, LoadWordClasses 0 file_ex = f2class c /\ LoadWordClasses 0 file_ex = e2class c /\
  snd (RuleShape2 c (after_rules c []) (fst r2) (snd r2)) = "RS:D__Noun_Verb" /\ snd (RuleShape2 c (after_rules c [r1]) (fst r2) (snd r2)) = "RS:D_Noun__Verb".
Proof.
  eexists {| f2class := Some _; e2class := Some _ |}, ([Some "das"; Some "Haus"], [Some "ist"]), ([Some "das"], [Some "Haus"; Some "ist"]). cbn [f2class e2class].
  split; [reflexivity|]. split; [reflexivity|]. split; reflexivity.
Qed.
Print Assumptions C103_order_refuted.

(** ** Examples *)
Example C103_shape_ex : shape [3; 4; -1; 5; 0]%Z [true; true; true; true; false] /\ shape [0; -1; 7]%Z [false; true; false; true; true].
Proof.
  split.
  - apply (shape2 [3; 4]%Z (-1)%Z [5]%Z 0%Z []); unfold words; repeat constructor; lia.
  - apply (shape2 []%Z 0%Z [] (-1)%Z [7]%Z); unfold words; repeat constructor; lia.
Qed.
Example C103_ex : RuleShape [3; 4; -1; 5; 0]%Z [0; -1; 7]%Z = Some "Shape_S11110_T01011" /\ RuleShape [-1; -1; -1]%Z [3]%Z = None.
Proof. split; vm_compute; reflexivity. Qed.
Example C103_class_ex : exists pv, LoadWordClasses 3 file_ex = Some pv /\ Forall2 (sym_class 3 file_ex) [Some "der"; None; Some "ist"; Some "gut"; Some "</s>"] ["Det"; "NT"; "Ver"; "<unk>"; "</s>"].
Proof.
  eexists. split; [reflexivity|].
  assert (N : forall w l, (forall c n, l <> c :: w :: n) -> ~ line_for w l) by (intros w l H (c & n & E & _); exact (H _ _ E)).
  repeat apply Forall2_cons; [..|apply Forall2_nil].
  - apply (by_line 3 file_ex "der" [["D"; "das"]; ["Noun"; "Haus"; "12"]; ["D"; "der"]; ["Verb"; "ist"]] "Det" ["7"] []); [reflexivity|constructor].
  - reflexivity.
  - apply (by_line 3 file_ex "ist" [["D"; "das"]; ["Noun"; "Haus"; "12"]; ["D"; "der"]] "Verb" [] [["Det"; "der"; "7"]]); [reflexivity|]. repeat constructor; apply N; discriminate.
  - apply unknown; try discriminate. repeat constructor; apply N; discriminate.
  - apply by_mark; [|auto]. repeat constructor; apply N; discriminate.
Qed.
