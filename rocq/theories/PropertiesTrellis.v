(** Trellises of the linear-chain models (decoder/tagger.cc, lextrans.cc, lexalign.cc). *)
From Coq Require Import String List ZArith Lia.
From Verif Require Import Opt HG Deriv TopoSpec Prune PruneSpec Rule RuleSpec Lattice Parser ParserSpec Constrain ConstrainSpec Trellis TrellisSpec TrellisAllProofs TrellisLexProofs ConstrainRefProofs.
Import ListNotations.
Local Open Scope nat_scope.

(** ** C71 *)
Theorem C71_tagger : forall (X : Type) kXCAT kGOALCAT bin_addr goal_addr, (kXCAT < 0)%Z -> forall tagset ts,
  Forall (fun w => (0 < w)%Z) tagset -> Forall (fun w => (0 < w)%Z) ts -> ts <> [] ->
  exists (g : hg (elab X)) (enc : list nat -> tree), TaggerTrellis kXCAT kGOALCAT bin_addr goal_addr tagset ts = Some g /\ wf_hg g /\ topo g /\ own_rules g /\
  let valid ks := length ks = length ts /\ Forall (fun k => k < length tagset) ks in
  (forall t, derives g (goal g) t <-> exists ks, valid ks /\ t = enc ks) /\
  (forall ks ks', valid ks -> valid ks' -> enc ks = enc ks' -> ks = ks') /\
  (forall ks, valid ks -> translation g (enc ks) = Some (map (fun k => nth k tagset 0%Z) ks) /\ source g (enc ks) = Some ts).
Proof. exact (@tagger_ok). Qed.
Print Assumptions C71_tagger.
Theorem C71_reference : forall (X : Type) kXCAT kGOALCAT bin_addr goal_addr, (kXCAT < 0)%Z -> forall tagset ts,
  Forall (fun w => (0 < w)%Z) tagset -> Forall (fun w => (0 < w)%Z) ts -> ts <> [] ->
  forall ws conv str arc_feats dist, length ws = length ts -> exists (g : hg (elab X)) ok h, TaggerTrellis kXCAT kGOALCAT bin_addr goal_addr tagset ts = Some g /\
  Intersect conv str arc_feats true (sentence ws) dist g = Some (ok, h) /\ wf_hg h /\ topo h /\ (ok = true <-> forall w, In w ws -> In w tagset) /\ limited (fun _ => turned) ws g h /\ own_rules g.
Proof. exact (@tagger_limited). Qed.
Print Assumptions C71_reference.
(** Finding: with a reference shorter than the input, restricting the forest reads past the end of
    the reference (hg_intersect.cc 66-67). *)
Theorem C71_short_refuted : exists tagset ts ws (g : hg (elab nat)), tagset <> [] /\ Forall (fun w => (0 < w)%Z) tagset /\ Forall (fun w => (0 < w)%Z) ts /\ length ws < length ts /\
  TaggerTrellis (-50) (-51) 0 1 tagset ts = Some g /\ Intersect code noname afeat true (sentence ws) diff g = None.
Proof. exact short_refuted. Qed.
Print Assumptions C71_short_refuted.
(** Finding: for an empty line the tagger takes the last of no nodes (tagger.cc 78-80). *)
Theorem C71_empty_refuted : forall (X : Type) kXCAT kGOALCAT bin_addr goal_addr tagset, TaggerTrellis (X := X) kXCAT kGOALCAT bin_addr goal_addr tagset [] = None.
Proof. reflexivity. Qed.
Print Assumptions C71_empty_refuted.
(** Tags 5 and 6 for 11 12. *)
Example C71_ex : match TaggerTrellis (X := nat) (-50) (-51) 0 1 [5; 6]%Z [11; 12]%Z with
  | Some g => map (translation g) (dvs g (goal g)) = [Some [5; 5]; Some [5; 6]; Some [6; 5]; Some [6; 6]]%Z /\ map (source g) (dvs g (goal g)) = repeat (Some [11; 12]%Z) 4 /\
      match Intersect code noname afeat true (sentence [6; 5]%Z) diff g with
      | Some (true, h) => map (source h) (dvs h (goal h)) = [Some [6; 5]]%Z /\ map (translation h) (dvs h (goal h)) = [Some [11; 12]]%Z
      | _ => False
      end
  | None => False
  end.
Proof. vm_compute. auto. Qed.

(** ** C72 *)
Theorem C72_lextrans : forall (X : Type) kXCAT kGOALCAT kNULL bin_addr goal_addr, (kXCAT < 0)%Z ->
  forall (gram : Z -> option (option (list (trule * list X)))) sup use_null align_only src trg,
  (forall j w, source_at kNULL use_null src j w -> gram w <> Some None /\ (forall s, sup = Some s -> gram w = None -> s w <> Some None)) ->
  (forall j w rs r fs, source_at kNULL use_null src j w -> translations gram sup w rs -> In (r, fs) rs -> r_e r <> []) ->
  trg <> [] ->
  (LexTrellis kXCAT kGOALCAT kNULL bin_addr goal_addr gram sup use_null align_only (sentence src) (sentence trg) = Some None <-> exists j w, source_at kNULL use_null src j w /\ untranslatable gram sup w) /\
  ((forall j w, source_at kNULL use_null src j w -> ~ untranslatable gram sup w) -> exists (g : hg (elab X)) cells, LexTrellis kXCAT kGOALCAT kNULL bin_addr goal_addr gram sup use_null align_only (sentence src) (sentence trg) = Some (Some g) /\
     wf_hg g /\ topo g /\ trellis_of cells g /\ length cells = length trg /\
     (forall i c l, nth_error cells i = Some c -> In l c <-> exists j w rs r fs, source_at kNULL use_null src j w /\ translations gram sup w rs /\ In (r, fs) rs /\ (align_only = true -> exists v, hd_error (r_e r) = Some v /\ In v trg) /\ links i j r fs l)).
Proof. exact (@lextrans_ok). Qed.
Print Assumptions C72_lextrans.
Theorem C72_reference : forall (X : Type) kXCAT kGOALCAT kNULL bin_addr goal_addr, (kXCAT < 0)%Z ->
  forall (gram : Z -> option (option (list (trule * list X)))) sup use_null align_only src trg,
  (forall j w, source_at kNULL use_null src j w -> gram w <> Some None /\ (forall s, sup = Some s -> gram w = None -> s w <> Some None)) ->
  (forall j w rs r fs, source_at kNULL use_null src j w -> translations gram sup w rs -> In (r, fs) rs -> r_e r <> []) ->
  trg <> [] ->
  (forall j w rs r fs, source_at kNULL use_null src j w -> translations gram sup w rs -> In (r, fs) rs -> one_word r) ->
  (forall j w rs r fs j' w' rs' r' fs', source_at kNULL use_null src j w -> translations gram sup w rs -> In (r, fs) rs -> source_at kNULL use_null src j' w' -> translations gram sup w' rs' -> In (r', fs') rs' -> r_addr r = r_addr r' -> r = r') ->
  (forall j w, source_at kNULL use_null src j w -> ~ untranslatable gram sup w) -> forall ws conv str arc_feats dist, length ws = length trg -> exists (g : hg (elab X)) ok h,
  LexTrellis kXCAT kGOALCAT kNULL bin_addr goal_addr gram sup use_null align_only (sentence src) (sentence trg) = Some (Some g) /\
  Intersect conv str arc_feats true (sentence ws) dist g = Some (ok, h) /\ wf_hg h /\ topo h /\
  (ok = true <-> forall v, In v ws -> (align_only = true -> In v trg) /\ exists j w rs r fs, source_at kNULL use_null src j w /\ translations gram sup w rs /\ In (r, fs) rs /\ r_e r = [v]) /\
  limited (fun e l l' => (~ used_before (sentence ws) g e -> turned l l') /\ (used_before (sentence ws) g e -> half_turned l l')) ws g h.
Proof. exact (@lextrans_limited). Qed.
Print Assumptions C72_reference.
(** 11 12 to two words: three rules at each position; with a reference only its words. *)
Example C72_lextrans_ex :
  match LexTrellis (-50) (-51) 9 0 1 ex_gram None false false (sentence [11; 12]%Z) (sentence [2; 1]%Z) with
  | Some (Some g) => length (dvs g (goal g)) = 9 /\
      match Intersect code noname afeat true (sentence [2; 1]%Z) diff g with
      | Some (true, h) => map (source h) (dvs h (goal h)) = [Some [2; 1]; Some [2; 1]]%Z /\ map (translation h) (dvs h (goal h)) = [Some [11; 11]; Some [11; 12]]%Z
      | _ => False
      end
  | _ => False
  end /\
  LexTrellis (-50) (-51) 9 0 1 ex_gram None true false (sentence [11; 12]%Z) (sentence [2; 1]%Z) = Some None /\
  match LexTrellis (-50) (-51) 9 0 1 ex_gram None false true (sentence [11; 12]%Z) (sentence [1; 1]%Z) with Some (Some g) => length (dvs g (goal g)) = 4 | _ => False end.
Proof. vm_compute. auto. Qed.

Theorem C72_lexalign : forall (X : Type) kXCAT kGOALCAT kNULL bin_addr goal_addr, (kXCAT < 0)%Z ->
  forall (lexrule : Z -> Z -> option (trule * list X)) use_null src trg,
  (forall f e r fs, lexrule f e = Some (r, fs) -> r_e r = [e] /\ r_f r = [f] /\ r_arity r = 0%Z) ->
  Forall (fun w => (0 < w)%Z) src -> (0 < kNULL)%Z -> Forall (fun w => (0 < w)%Z) trg -> trg <> [] ->
  let at_ := source_at kNULL use_null src in
  let alignment a := Forall2 (fun e j => exists w r fs, at_ j w /\ lexrule w e = Some (r, fs)) trg a in
  let possible e := exists j w r fs, at_ j w /\ lexrule w e = Some (r, fs) in
  (AlignTrellis (X := X) kXCAT kGOALCAT kNULL bin_addr goal_addr lexrule use_null (sentence src) (sentence trg) = None <-> exists e, In e trg /\ ~ possible e) /\
  ((forall e, In e trg -> possible e) -> exists g : hg (elab X), AlignTrellis kXCAT kGOALCAT kNULL bin_addr goal_addr lexrule use_null (sentence src) (sentence trg) = Some g /\ wf_hg g /\ topo g /\
     (forall t, derives g (goal g) t -> alignment (map i_ (leaves g t)) /\ translation g t = Some trg /\ exists ws, source g t = Some ws /\ Forall2 at_ (map i_ (leaves g t)) ws) /\
     (forall a, alignment a -> exists! t, derives g (goal g) t /\ map i_ (leaves g t) = a)).
Proof. exact (@lexalign_ok). Qed.
Print Assumptions C72_lexalign.
(** 11 12 with the empty word 9, to 1 2: four alignments. *)
Example C72_lexalign_ex :
  match AlignTrellis (-50) (-51) 9 0 1 ex_lexrule true (sentence [11; 12]%Z) (sentence [1; 2]%Z) with
  | Some g => map (fun t => map i_ (leaves g t)) (dvs g (goal g)) = [[0; -1]; [0; 0]; [1; -1]; [1; 0]]%Z /\ map (source g) (dvs g (goal g)) = [Some [11; 9]; Some [11; 11]; Some [12; 9]; Some [12; 11]]%Z
  | None => False
  end /\
  AlignTrellis (-50) (-51) 9 0 1 ex_lexrule false (sentence [12]%Z) (sentence [1; 2]%Z) = None.
Proof. vm_compute. auto. Qed.
