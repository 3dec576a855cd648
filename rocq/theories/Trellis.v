(** decoder/tagger.cc, lextrans.cc, lexalign.cc: the trellises of the linear-chain models.
    The three builders add, for each position, a node with the edges for the words there, and
    combine it with what is before; [chain] is that loop over the labels of those edges.  Rule
    objects carry their address; the tagger makes a new one per edge, numbered here by the
    edge.  A grammar is what Extend and GetRules give for a word; [None] for the inner option is
    a missing RuleBin (an assertion).  Left out: dynasearch, the unused all_sources_to_all_targets_,
    edge probabilities and node hashes.  [None]: an access out of bounds or a failed assertion. *)
From Coq Require Import List ZArith Bool.
From Verif Require Import Opt HG Rule Parser Constrain.
Import ListNotations.
Open Scope opt_scope.
Local Open Scope nat_scope.

Section Trellis.
Context {X : Type}.
(** kXCAT, the category Goal, and the objects kBINARY and kGOAL_RULE *)
Variables (kXCAT kGOALCAT kNULL : Z) (bin_addr goal_addr : nat).
Definition kBINARY : trule := TR (Some bin_addr) [0; -1]%Z [kXCAT; kXCAT] 2 None.
Definition kGOAL_RULE : trule := TR (Some goal_addr) [0]%Z [kXCAT] 1 None.
(** an edge with no features and the positions given; hg.h 49-52: otherwise -1 *)
Definition plain (r : trule) (i j : Z) : elab X := {| rule_ := r; feats_ := []; i_ := i; j_ := j; prev_i_ := -1; prev_j_ := -1 |}.

(** AddEdge and ConnectEdgeToHeadNode, for edges into node [n] *)
Fixpoint add_in (n : nat) (es : list (list nat * elab X)) (g : hg (elab X)) : option (hg (elab X)) :=
  match es with
  | [] => Some g
  | (ts, l) :: r => g1 <- AddEdge ts l g ;; g2 <- Connect (length (edges g)) n g1 ;; add_in n r g2
  end.
(** tagger.cc 51-77, lextrans.cc 184-243, lexalign.cc 30-62; [comb i]: what is on the edge
    which combines position [i] *)
Fixpoint chain (comb : nat -> elab X) (cells : list (list (elab X))) (i : nat) (prev : option nat) (g : hg (elab X)) : option (hg (elab X)) :=
  match cells with
  | [] => Some g
  | c :: r =>
      let new := length (nodes g) in
      g1 <- AddNode kXCAT g ;;
      g2 <- add_in new (map (fun l => ([], l)) c) g1 ;;
      match prev with
      | None => chain comb r (S i) (Some new) g2
      | Some p =>
          let cn := length (nodes g2) in
          g3 <- AddNode kXCAT g2 ;;
          g4 <- add_in cn [([p; new], comb i)] g3 ;;
          chain comb r (S i) (Some cn) g4
      end
  end.
(** tagger.cc 78-81, lextrans.cc 244-247, lexalign.cc 63-66 *)
Definition finish (g : hg (elab X)) : option (hg (elab X)) :=
  match nodes g with
  | [] => None
  | _ :: _ =>
      let last := length (nodes g) - 1 in
      g1 <- AddNode kGOALCAT g ;;
      g2 <- AddEdge [last] (plain kGOAL_RULE (-1) (-1)) g1 ;;
      ConnectPtr (length (edges g1)) (length (nodes g)) g2
  end.

(** ** tagger.cc *)
(** 55-63, the [k]th tag at [i]; trule.h 75-77, 229 *)
Definition tag_edge (ntags : nat) (i : nat) (src : Z) (k : nat) (tag : Z) : elab X :=
  {| rule_ := TR (Some (i * ntags + k)) [tag] [src] 0 None; feats_ := [];
     i_ := Z.of_nat i; j_ := Z.of_nat i + 1; prev_i_ := Z.of_nat i; prev_j_ := Z.of_nat i + 1 |}.
Definition tag_cells (tagset seq : list Z) : list (list (elab X)) :=
  map (fun q => map (fun kt => tag_edge (length tagset) (fst q) (snd q) (fst kt) (snd kt)) (combine (List.seq 0 (length tagset)) tagset))
      (combine (List.seq 0 (length seq)) seq).
(** 50-82 *)
Definition TaggerTrellis (tagset seq : list Z) : option (hg (elab X)) :=
  g <- chain (fun i => plain kBINARY 0 (Z.of_nat i + 1)) (tag_cells tagset seq) 0 None empty_hg ;; finish g.

(** ** lextrans.cc *)
Definition grammar_t := Z -> option (option (list (trule * list X))).
(** 189-199; [Some None]: no translation, BuildTrellis returns false *)
Definition rules_for (gram : grammar_t) (sup : option grammar_t) (w : Z) : option (option (list (trule * list X))) :=
  match gram w with
  | Some r => x <- r ;; Some (Some x)
  | None =>
      match sup with
      | None => Some None
      | Some s => match s w with Some r => x <- r ;; Some (Some x) | None => Some None end
      end
  end.
Definition lex_edge (i : nat) (j : Z) (r : trule) (fs : list X) : elab X :=
  {| rule_ := r; feats_ := fs; i_ := j; j_ := j + 1; prev_i_ := Z.of_nat i; prev_j_ := Z.of_nat i + 1 |}.
(** 200-216; [vocab]: target_vocab, if only words of the reference are wanted *)
Fixpoint rule_edges (vocab : option (list Z)) (i : nat) (j : Z) (rs : list (trule * list X)) : option (list (elab X)) :=
  match rs with
  | [] => Some []
  | (r, fs) :: q =>
      w <- nth_error (r_e r) 0 ;;
      es <- rule_edges vocab i j q ;;
      if match vocab with Some v => existsb (Z.eqb w) v | None => true end then Some (lex_edge i j r fs :: es) else Some es
  end.
(** 187-231, over the source positions with their words *)
Fixpoint lex_cell (gram : grammar_t) (sup : option grammar_t) (vocab : option (list Z)) (i : nat) (src : list (Z * Z)) : option (option (list (elab X))) :=
  match src with
  | [] => Some (Some [])
  | (j, w) :: q =>
      rs <- rules_for gram sup w ;;
      match rs with
      | None => Some None
      | Some rs =>
          es <- rule_edges vocab i j rs ;;
          o <- lex_cell gram sup vocab i q ;;
          match o with None => Some None | Some es' => Some (Some (es ++ es')) end
      end
  end.
Fixpoint lex_cells (cell : nat -> option (option (list (elab X)))) (is : list nat) : option (option (list (list (elab X)))) :=
  match is with
  | [] => Some (Some [])
  | i :: q =>
      c <- cell i ;;
      match c with
      | None => Some None
      | Some c => o <- lex_cells cell q ;; match o with None => Some None | Some cs => Some (Some (c :: cs)) end
      end
  end.
Definition first_labels (lat : list (list arc)) : option (list Z) := map_opt (fun alt => x <- nth_error alt 0 ;; Some (label x)) lat.
(** 175, 187-188: the source positions, after the empty word if [use_null] *)
Definition sources (use_null : bool) (ws : list Z) : list (Z * Z) :=
  (if use_null then [((-1)%Z, kNULL)] else []) ++ combine (map Z.of_nat (List.seq 0 (length ws))) ws.
(** 158-249; [Some None]: false is returned *)
Definition LexTrellis (gram : grammar_t) (sup : option grammar_t) (use_null align_only : bool) (lattice ref : list (list arc)) : option (option (hg (elab X))) :=
  match ref with
  | [] => None
  | _ :: _ =>
      ws <- first_labels lattice ;;
      trg <- first_labels ref ;;
      o <- lex_cells (fun i => lex_cell gram sup (if align_only then Some trg else None) i (sources use_null ws)) (List.seq 0 (length ref)) ;;
      match o with
      | None => Some None
      | Some cells => g <- chain (fun _ => plain kBINARY (-1) (-1)) cells 0 None empty_hg ;; h <- finish g ;; Some (Some h)
      end
  end.

(** ** lexalign.cc *)
(** 31-51; [lexrule f e] is LexRule (83-94): one object per pair of words, none without a
    feature for it *)
Definition align_cell (lexrule : Z -> Z -> option (trule * list X)) (i : nat) (e : Z) (src : list (Z * Z)) : option (list (elab X)) :=
  match flat_map (fun q => match lexrule (snd q) e with Some (r, fs) => [lex_edge i (fst q) r fs] | None => [] end) src with
  | [] => None
  | c => Some c
  end.
(** 22-67 *)
Definition AlignTrellis (lexrule : Z -> Z -> option (trule * list X)) (use_null : bool) (lattice ref : list (list arc)) : option (hg (elab X)) :=
  ws <- first_labels lattice ;;
  trg <- first_labels ref ;;
  cells <- map_opt (fun q => align_cell lexrule (fst q) (snd q) (sources use_null ws)) (combine (List.seq 0 (length trg)) trg) ;;
  g <- chain (fun _ => plain kBINARY (-1) (-1)) cells 0 None empty_hg ;; finish g.
End Trellis.
