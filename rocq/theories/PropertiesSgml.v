(** C109: segments with attributes.  The functions are those of utils/stringlib.cc. *)
From Coq Require Import String Ascii List Arith.
From Verif Require Import RuleFfSpec StrlibSpec Strlib Sgml SgmlSpec SgmlProofs.
Import ListNotations.
Open Scope string_scope.
Open Scope nat_scope.

(** A segment with quoted attributes, as the writer makes its opening tag, is read back: exactly these attributes with exactly these values, and
    the text without the blanks around it (C108_trim), whatever follows the closing tag.  The step count is any that is larger than the tag. *)
Theorem C109_read_back fuel attr text : Forall attribute attr -> ~ has "<" text -> String.length (SGMLOpenSegTag attr) <= fuel ->
  forall rest, ProcessAndStripSGML fuel (SGMLOpenSegTag attr ++ text ++ "</seg>" ++ rest) = Some (Some (Trim text, attr)).
Proof. exact (fun A T F => segment_ok fuel attr text A T (tag_len attr fuel F)). Qed.
Print Assumptions C109_read_back.

(** A line without such a tag stays as it is. *)
Theorem C109_plain fuel line : prefix "<seg" line = false -> prefix "<SEG" line = false -> prefix "<Seg" line = false -> ProcessAndStripSGML fuel line = Some (Some (line, [])).
Proof. exact (plain_ok fuel line). Qed.
Print Assumptions C109_plain.

(** Finding: of attributes without quotation marks the second can be lost: the search goes on behind the place of the first = in the
    attributes left (stringlib.cc 61-87). *)
Theorem C109_unquoted_refuted : ProcessAndStripSGML 100 "<seg a=1 b=2>x</seg>" = Some (Some ("x", [("a", "1")])) /\
  ProcessAndStripSGML 100 "<seg id=1 grammar=g>x</seg>" = Some (Some ("x", [("id", "1"); ("grammar", "g")])).
Proof. split; vm_compute; reflexivity. Qed.
Print Assumptions C109_unquoted_refuted.

(** Finding: blanks around a = inside of a quoted value are lost as well (stringlib.cc 48-58). *)
Theorem C109_value_refuted : ProcessAndStripSGML 100 (SGMLOpenSegTag [("a", "x = y")] ++ "t</seg>") = Some (Some ("t", [("a", "x=y")])).
Proof. vm_compute. reflexivity. Qed.
Print Assumptions C109_value_refuted.

(** Finding: a value with a greater sign, which the writer does not escape, ends the tag. *)
Theorem C109_greater_refuted : ProcessAndStripSGML 100 (SGMLOpenSegTag [("a", "x>y")] ++ "t</seg>") = Some (Some ("y"">t", [("a", "x")])).
Proof. vm_compute. reflexivity. Qed.
Print Assumptions C109_greater_refuted.

(** Two attributes, one with a blank in its value. *)
Example C109_ex : Forall attribute [("grammar", "g.gz"); ("id", "a 1")] /\ ProcessAndStripSGML 100 "<seg grammar=""g.gz"" id=""a 1""> the cat </seg>" = Some (Some ("the cat", [("grammar", "g.gz"); ("id", "a 1")])) /\
  SGMLOpenSegTag [("grammar", "g.gz"); ("id", "a 1")] = "<seg grammar=""g.gz"" id=""a 1"">".
Proof. split; [|split; vm_compute; reflexivity]. repeat (apply Forall_cons || apply Forall_nil); (split; [split; [discriminate|]|]); intros c H; cbn in H; repeat (destruct H as [H|H]; [subst c; repeat split; discriminate|]); destruct H. Qed.
Print Assumptions C109_ex.
