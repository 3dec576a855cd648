(** C95: the features of tag sequences. *)
From Coq Require Import String Ascii List ZArith Bool Lia.
From Verif Require Import Opt HG Deriv TopoSpec Prune PruneSpec Rule RuleSpec Lattice Parser Constrain ConstrainSpec ConstrainRefProofs Trellis TrellisSpec TagFf TagFfSpec TagFfProofs.
Import ListNotations.
Local Open Scope nat_scope.

(** C95. For an input of at least two words, the bigram features of every derivation count
    the tags and the pairs of neighbouring tags with BOS (-1) before and EOS (-1) after,
    and nothing else. *)
Theorem C95_bigrams : forall (X : Type) kXCAT kGOALCAT bin_addr goal_addr, (kXCAT < 0)%Z -> forall tagset ts,
  Forall (fun w => (0 < w)%Z) tagset -> Forall (fun w => (0 < w)%Z) ts -> 2 <= length ts ->
  forall text no_uni, readable text tagset ->
  exists g : hg (elab X), TaggerTrellis kXCAT kGOALCAT bin_addr goal_addr tagset ts = Some g /\
  forall t ws, derives g (goal g) t -> translation g t = Some ws -> exists v,
    traverse (BigramIndicator text no_uni (Z.of_nat (length ts))) g t = Some (last ws 0%Z, v) /\
    (forall w, In w tagset -> v (bigram_name text w 0) = if no_uni then 0%Z else Z.of_nat (count_occ Z.eq_dec ws w)) /\
    (forall l r, l = (-1)%Z \/ In l tagset -> r = (-1)%Z \/ In r tagset ->
       v (bigram_name text l r) = times_in (l, r) (neighbours ((-1)%Z :: ws ++ [(-1)%Z]))) /\
    (forall x, v x <> 0%Z -> exists l r, x = bigram_name text l r /\
       (In l tagset /\ r = 0%Z \/ (l = (-1)%Z \/ In l tagset) /\ (r = (-1)%Z \/ In r tagset))).
Proof.
  intros X kX kG ba ga NEG tagset ts TP SP L text nu CL. assert (NE : ts <> []) by (intros ->; cbn in L; lia).
  destruct (bigrams_ok (X := X) kX kG ba ga NEG tagset ts TP SP NE text nu CL) as (g & B & H). exists g. split; [exact B|].
  intros t ws D T. destruct (H t ws D T) as (v & E & U & V & W). exists v. split; [exact E|]. split; [exact U|]. split; [|exact W].
  intros l r PL PR. rewrite (V l r PL PR), (proj2 (Nat.leb_le 2 (length ts)) L). reflexivity.
Qed.
Print Assumptions C95_bigrams.

(** C95. The lexical pair features count the pairs of a source word, or the word given for
    it, and its tag; the output features count the tags. *)
Theorem C95_pairs : forall (X : Type) kXCAT kGOALCAT bin_addr goal_addr, (kXCAT < 0)%Z -> forall tagset ts,
  Forall (fun w => (0 < w)%Z) tagset -> Forall (fun w => (0 < w)%Z) ts -> ts <> [] ->
  forall text escape_ name kNULL corpus id cur trgmap,
  match corpus with None => cur = ts | Some lines => nth_error lines id = Some cur /\ length ts <= length cur end ->
  exists g : hg (elab X), TaggerTrellis kXCAT kGOALCAT bin_addr goal_addr tagset ts = Some g /\
  forall t ws, derives g (goal g) t -> translation g t = Some ws -> exists words v, cur_src corpus id ts = Some words /\
    traverse (LexicalPairIndicator text escape_ name kNULL words trgmap) g t = Some (tt, v) /\
    forall x, v x = times_named x (map (fun p => pair_name text name (escape_word escape_ (fst p)) (CoarsenedTargetWord escape_ trgmap (snd p))) (combine cur ws)).
Proof. exact (@pairs_given). Qed.
Print Assumptions C95_pairs.
Theorem C95_outputs : forall (X : Type) kXCAT kGOALCAT bin_addr goal_addr, (kXCAT < 0)%Z -> forall tagset ts,
  Forall (fun w => (0 < w)%Z) tagset -> Forall (fun w => (0 < w)%Z) ts -> ts <> [] -> forall text escape_,
  exists g : hg (elab X), TaggerTrellis kXCAT kGOALCAT bin_addr goal_addr tagset ts = Some g /\
  forall t ws, derives g (goal g) t -> translation g t = Some ws -> exists v,
    traverse (OutputIndicator text escape_) g t = Some (tt, v) /\ forall x, v x = times_named x (map (output_name text escape_) ws).
Proof. exact (@outputs_ok). Qed.
Print Assumptions C95_outputs.

(** C95. The names of the features: never a character with a meaning in files of weights, and for words without such characters the
    words after Uni:, Bi:, the name of the feature function or T:. *)
Theorem C95_names : forall (text : Z -> string) escape_,
  (forall l r, safe_name (bigram_name text l r)) /\ (forall n s t, safe_name (pair_name text n s t)) /\ (forall t, safe_name (output_name text escape_ t))
  /\ ((forall w, safe_name (text w)) ->
      (forall w, bigram_name text w 0 = "Uni:" ++ text w)%string
      /\ (forall l r, (0 < l -> 0 < r -> bigram_name text l r = "Bi:" ++ text l ++ "_" ++ text r)%string%Z)
      /\ (forall r, (0 < r -> bigram_name text (-1) r = "Bi:BOS_" ++ text r)%string%Z)
      /\ (forall l, (0 < l -> bigram_name text l (-1) = "Bi:" ++ text l ++ "_EOS")%string%Z)
      /\ (forall n s t, safe_name n -> pair_name text n s t = n ++ ":" ++ text s ++ ":" ++ text t)%string
      /\ (forall t, output_name text [] t = "T:" ++ text t)%string).
Proof. exact names_ok. Qed.
Print Assumptions C95_names.

(** Finding: the features with BOS and EOS are fired where two parts are combined
    (ff_tagger.cc 61-68), so a sentence of one word has neither. *)
Theorem C95_one_word_refuted : forall (X : Type) kXCAT kGOALCAT bin_addr goal_addr, (kXCAT < 0)%Z -> forall tagset w,
  Forall (fun w => (0 < w)%Z) tagset -> (0 < w)%Z -> forall text no_uni, readable text tagset ->
  exists g : hg (elab X), TaggerTrellis kXCAT kGOALCAT bin_addr goal_addr tagset [w] = Some g /\
  forall t ws, derives g (goal g) t -> translation g t = Some ws -> exists v,
    traverse (BigramIndicator text no_uni 1) g t = Some (last ws 0%Z, v) /\
    forall l r, l = (-1)%Z \/ In l tagset -> r = (-1)%Z \/ In r tagset -> v (bigram_name text l r) = 0%Z.
Proof.
  intros X kX kG ba ga NEG tagset w TP WP text nu CL.
  destruct (bigrams_ok (X := X) kX kG ba ga NEG tagset [w] TP ltac:(constructor; [exact WP|constructor]) ltac:(discriminate) text nu CL) as (g & B & H).
  exists g. split; [exact B|]. intros t ws D T. destruct (H t ws D T) as (v & E & _ & V & _). exists v. split; [exact E|]. exact V.
Qed.
Print Assumptions C95_one_word_refuted.

(** Three tags, two words, written so that names can be read. *)
Definition tag_text (w : Z) : string := match w with 5%Z => "N" | 6%Z => "V" | 7%Z => "BOS" | 8%Z => "N_V" | 9%Z => "V_N" | _ => "x" end.

(** Finding: a tag called BOS has the name of the beginning, and as values are set and not
    added (ff_tagger.cc 44) the two bigrams of the first edge count once. *)
Theorem C95_bos_refuted : exists (g : hg (elab nat)) t v, TaggerTrellis (-50) (-51) 0 1 [7]%Z [11; 12]%Z = Some g /\
  derives g (goal g) t /\ traverse (BigramIndicator tag_text true 2) g t = Some (7%Z, v) /\
  bigram_name tag_text (-1) 7 = bigram_name tag_text 7 7 /\ v (bigram_name tag_text 7 7) = 1%Z /\
  times_in ((-1)%Z, 7%Z) (neighbours [-1; 7; 7; -1]%Z) = 1%Z /\ times_in (7%Z, 7%Z) (neighbours [-1; 7; 7; -1]%Z) = 1%Z.
Proof.
  destruct (TaggerTrellis (X := nat) (-50) (-51) 0 1 [7]%Z [11; 12]%Z) as [g|] eqn:E; [|vm_compute in E; discriminate].
  exists g, (Tree 3 [Tree 2 [Tree 0 []; Tree 1 []]]). vm_compute in E. injection E as <-. eexists. split; [reflexivity|]. split.
  { econstructor; [reflexivity|left; reflexivity|reflexivity|]. constructor; [|constructor]. econstructor; [reflexivity|left; reflexivity|reflexivity|].
    constructor; [|constructor; [|constructor]]; (econstructor; [reflexivity|left; reflexivity|reflexivity|constructor]). }
  split; [reflexivity|]. repeat split; vm_compute; reflexivity.
Qed.
Print Assumptions C95_bos_refuted.

(** Finding: with tags which contain the separator different bigrams are one feature. *)
Theorem C95_names_refuted : exists text a b c d, (text a, text b) <> (text c, text d) /\ bigram_name text a b = bigram_name text c d.
Proof. exists tag_text, 5%Z, 9%Z, 8%Z, 5%Z. split; [discriminate|reflexivity]. Qed.
Print Assumptions C95_names_refuted.

(** Finding: values are set and not added within a rule (ff_tagger.cc 145), so a word which
    a rule produces twice counts once. *)
Theorem C95_twice_refuted : exists (l : elab nat) v, OutputIndicator tag_text [] l [] = Some (tt, v) /\
  r_e (rule_ l) = [5; 5]%Z /\ v "T:N"%string = 1%Z.
Proof. exists {| rule_ := TR None [5; 5]%Z [] 0 None; feats_ := []; i_ := 0; j_ := 1; prev_i_ := 0; prev_j_ := 1 |}. eexists. split; [reflexivity|]. split; reflexivity. Qed.
Print Assumptions C95_twice_refuted.

Example C95_readable : readable tag_text [5; 6]%Z.
Proof.
  split.
  - intros a [<- |[<- |[]]]; cbn; repeat split; discriminate.
  - intros a b [<- |[<- |[]]] [<- |[<- |[]]]; cbn; congruence.
Qed.
(** The first derivation of three words with tags N V N. *)
Example C95_ex : match TaggerTrellis (X := nat) (-50) (-51) 0 1 [5; 6]%Z [11; 12; 13]%Z with
  | Some g => match List.find (fun t => match translation g t with Some ws => if list_eq_dec Z.eq_dec ws [5; 6; 5]%Z then true else false | None => false end) (dvs g (goal g)) with
    | Some t => match traverse (BigramIndicator tag_text false 3) g t, traverse (OutputIndicator tag_text []) g t, traverse (LexicalPairIndicator tag_text [] "Id" 4 [6; 6; 5]%Z None) g t with
      | Some (s, v), Some (_, o), Some (_, p) => s = 5%Z /\ map v ["Uni:N"; "Uni:V"; "Bi:BOS_N"; "Bi:N_V"; "Bi:V_N"; "Bi:N_EOS"; "Bi:N_N"; "Bi:BOS_V"]%string = [2; 1; 1; 1; 1; 1; 0; 0]%Z /\
          map o ["T:N"; "T:V"]%string = [2; 1]%Z /\ map p ["Id:V:N"; "Id:V:V"; "Id:N:N"; "Id:N:V"]%string = [1; 1; 1; 0]%Z
      | _, _, _ => False
      end
    | None => False
    end
  | None => False
  end.
Proof. vm_compute. repeat split; reflexivity. Qed.
Example C95_safe_ex : safe_name "Bi:N_V" /\ ~ safe_name "a=b".
Proof. split; [exact (proj1 (names_ok tag_text []) 5%Z 6%Z)|]. intros H. now destruct (H 1 "="%char eq_refl). Qed.
Example C95_given_ex : cur_src (Some [[1; 2]; [3; 4]]%Z) 1 [5; 6]%Z = Some [3; 4]%Z /\ cur_src None 1 [5; 6]%Z = Some [5; 6]%Z.
Proof. split; reflexivity. Qed.
