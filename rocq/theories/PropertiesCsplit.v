(** C80: the compound splitter. *)
From Coq Require Import List ZArith Bool Lia.
From Verif Require Import Opt HG Deriv TopoSpec PruneSpec Rule Parser Constrain ConstrainSpec Csplit CsplitSpec CsplitProofs CsplitTopProofs.
Import ListNotations.
Local Open Scope nat_scope.

(** C80. UTF-8 text is cut into its characters. *)
Theorem C80_characters : forall cs, Forall utf8 cs -> SplitUTF8String (concat cs) = Some cs.
Proof. exact chars_utf8. Qed.
Print Assumptions C80_characters.

(** C80. For every word the forest's derivations are exactly the splittings into pieces of at
    least three characters (or the whole word), with or without linking elements: each
    derivation is read as a splitting, and each splitting from exactly one derivation.  The edge
    said to be that of the whole word is in the derivation of the unsplit word, and no other. *)
Theorem C80_splittings : forall (conv : list nat -> Z) (kXCAT kGOALCAT kHASH fugS fugN : Z),
  (forall a b, conv a = conv b -> a = b) -> (forall a, (0 < conv a)%Z) -> (0 < kHASH)%Z -> (kXCAT < 0)%Z ->
  forall input chars, SplitUTF8String input = Some chars -> input <> [] -> ~ In 32 input ->
  concat chars = input /\ exists g, TranslateImpl conv kXCAT kGOALCAT kHASH fugS fugN input = Some g /\
  (forall t, derives g (goal g) t -> exists ps, splits fugS fugN chars ps /\ reads conv kHASH g t ps) /\
  (forall ps, splits fugS fugN chars ps -> exists t, derives g (goal g) t /\ reads conv kHASH g t ps /\ forall t', derives g (goal g) t' -> reads conv kHASH g t' ps -> t' = t) /\
  exists e, GetFullWordEdgeIndex g = Some e /\ forall t, derives g (goal g) t -> (In e (tree_edges t) <-> reads conv kHASH g t [(chars, None)]).
Proof. exact translate_ok. Qed.
Print Assumptions C80_splittings.
(** "arbeitszeit" as "arbeit" and "zeit". *)
Definition arbeits : list (list nat) := map (fun c => [c]) [97; 114; 98; 101; 105; 116; 115].
Definition zeit : list (list nat) := map (fun c => [c]) [122; 101; 105; 116].
Example C80_case : splits 7 8 (arbeits ++ zeit) [(arbeits, Some ([97; 114; 98; 101; 105; 116], 7%Z)); (zeit, None)].
Proof.
  split; [reflexivity|]. split; [|split].
  - intros p [<- |[<- |[]]]; left; cbn; lia.
  - intros qs p E. destruct qs as [|q0 [|q1 [|q2 qs]]]; try discriminate. injection E as _ <-. reflexivity.
  - intros w a f [[= <- <- <-]|[[=]|[]]]. change (concat arbeits) with ([97; 114; 98; 101; 105; 116] ++ [115]). apply l_s; [cbn; lia|]. intros (r & E & _). apply (app_inj_tail [97; 114; 98; 101; 105] r 116 101) in E as [_ E]. discriminate.
Qed.
Example C80_numbering : (forall a b, Zpos (code a) = Zpos (code b) -> a = b) /\ forall a, (0 < Zpos (code a))%Z.
Proof. split; [intros a b E; injection E as E; exact (code_inj a b E)|intros; lia]. Qed.
(** its forest: the number of edges, and the edge of the whole word *)
Example C80_forest : option_map (fun g => (length (nodes g), length (edges g), GetFullWordEdgeIndex g))
  (TranslateImpl (fun l => Zpos (code l)) (-1) (-2) 1 7 8 (concat (arbeits ++ zeit))) = Some (9, 22, Some 8).
Proof. vm_compute. reflexivity. Qed.

(** Finding: the minimal size of a piece is in characters, that of a stem in bytes: the linking
    element is taken off though less than three characters remain (csplit.cc:80-94). *)
Theorem C80_stem_refuted : ~ (forall conv kXCAT kGOALCAT kHASH fugS fugN, (forall a b, conv a = conv b -> a = b) -> (forall a, (0 < conv a)%Z) -> (0 < kHASH)%Z -> (kXCAT < 0)%Z ->
  forall chars g t ws, Forall utf8 chars -> 3 <= length chars -> TranslateImpl conv kXCAT kGOALCAT kHASH fugS fugN (concat chars) = Some g -> derives g (goal g) t -> translation g t = Some (kHASH :: ws) ->
  forall w, In w ws -> exists s cs, w = conv s /\ SplitUTF8String s = Some cs /\ 3 <= length cs).
Proof. exact stem_refuted. Qed.
Print Assumptions C80_stem_refuted.
