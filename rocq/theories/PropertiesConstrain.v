(** Forests restricted to a reference (decoder/hg_intersect.cc). *)
From Coq Require Import String List ZArith Lia.
From Verif Require Import Opt HG Deriv TopoSpec Prune PruneSpec Rule RuleSpec Lattice Parser ParserSpec Constrain ConstrainSpec Trellis TrellisSpec ConstrainTopProofs ConstrainRefProofs.
Import ListNotations.
Local Open Scope nat_scope.

(** ** C69 *)
Theorem C69_reference : forall (X : Type) conv str (arc_feats : nat * nat -> X) linear target dist (g : hg (elab X)),
  (forall a b, conv a = conv b -> a = b) -> (forall a, (0 < conv a)%Z) ->
  wf_hg g -> topo g -> nodes g <> [] -> rules_ok g -> no_deletion g ->
  arcs_ok target -> (forall i alt, nth_error target i = Some alt -> alt <> []) ->
  (forall p a x, arc_at target p a x -> (0 < label x)%Z /\ label x <> kEPS conv) ->
  (linear = false /\ exists ws, target = sentence ws /\ (Z.of_nat (length ws) <= 9999)%Z) \/ (exists i alt, nth_error target i = Some alt /\ 1 < length alt) ->
  (Z.of_nat (length target) < 99999998)%Z -> distances target dist ->
  exists ok h, Intersect conv str arc_feats linear target dist g = Some (ok, h) /\
    (ok = true <-> exists t p ws, derives g (goal g) t /\ translation g t = Some ws /\ path target 0 (length target) p ws) /\
    (ok = true -> wf_hg h /\ topo h /\ constrained arc_feats target g h).
Proof. exact (@intersect_general). Qed.
Print Assumptions C69_reference.
(** Finding: with a rule whose target side is empty the reference is not found, although a
    derivation has it as its translation: the inverted rule covers nothing, and the parser has no
    items over empty spans (hg_intersect.cc 133-157). *)
Theorem C69_deletion_refuted : exists conv str target dist (g : hg (elab nat)), (forall a b, conv a = conv b -> a = b) /\ (forall a, (0 < conv a)%Z) /\ wf_hg g /\ topo g /\ rules_ok g /\
  (exists ws, target = sentence ws /\ Forall (fun w => (0 < w)%Z /\ w <> kEPS conv) ws) /\ distances target dist /\
  (exists h, IntersectGeneral conv str afeat target dist g = Some (false, h)) /\
  exists t ws, derives g (goal g) t /\ translation g t = Some ws /\ target = sentence ws.
Proof. exact del_refuted. Qed.
Print Assumptions C69_deletion_refuted.
(** Finding: a lattice with one arc at each position is filtered as if it were the sentence of
    those words, although an arc may skip positions (hg_intersect.cc 28-36): rules with the words
    of a path are removed, and the reference is not found. *)
Theorem C69_lattice_refuted : exists conv str target dist (g : hg (elab nat)), (forall a b, conv a = conv b -> a = b) /\ (forall a, (0 < conv a)%Z) /\ wf_hg g /\ topo g /\ rules_ok g /\ no_deletion g /\
  arcs_ok target /\ (forall i alt, nth_error target i = Some alt -> length alt = 1) /\ (forall p a x, arc_at target p a x -> (0 < label x)%Z /\ label x <> kEPS conv) /\ distances target dist /\
  (exists h, IntersectGeneral conv str afeat target dist g = Some (false, h)) /\
  exists t p ws, derives g (goal g) t /\ translation g t = Some ws /\ path target 0 (length target) p ws.
Proof. exact lattice_refuted. Qed.
Print Assumptions C69_lattice_refuted.
(** Finding: remove_intersected_rule_annotations (decoder.cc 1026-1031) puts the old rules back
    over tails which are in the order of the target: where a rule reorders, the forest then has
    derivations with another translation than the reference. *)
Theorem C69_annotations_refuted : exists conv str target dist (g : hg (elab nat)) h, (forall a b, conv a = conv b -> a = b) /\ (forall a, (0 < conv a)%Z) /\ wf_hg g /\ topo g /\ rules_ok g /\ no_deletion g /\
  IntersectGeneral conv str afeat target dist g = Some (true, h) /\
  exists t ws ws', derives (RemoveAnnotations h) (goal (RemoveAnnotations h)) t /\ target = sentence ws /\ translation (RemoveAnnotations h) t = Some ws' /\ ws' <> ws.
Proof. exact annotations_refuted. Qed.
Print Assumptions C69_annotations_refuted.
(** Of the four derivations of the forest two have a translation in the lattice. *)
Example C69_ex : wf_hg ex_g /\ topo ex_g /\ rules_ok ex_g /\ no_deletion ex_g /\ arcs_ok ex_lat /\ distances ex_lat diff /\
  map (translation ex_g) (dvs ex_g (goal ex_g)) = [Some [1; 3]; Some [2; 3]; Some [3; 1]; Some [3; 2]]%Z /\
  match Intersect code noname afeat false ex_lat diff ex_g with
  | Some (true, h) => map (source h) (dvs h (goal h)) = [Some [3; 1]; Some [3; 2]]%Z /\ map (translation h) (dvs h (goal h)) = [Some [11; 12]; Some [11; 12]]%Z /\
      map feats_ (map lab (edges h)) = [[3; 100]; [1; 110]; [2; 111]; [5]; []]
  | _ => False
  end /\
  match Intersect code noname afeat false (sentence [1; 1]%Z) diff ex_g with Some (false, _) => True | _ => False end.
Proof. split; [exact ex_wf|]. split; [exact ex_topo|]. split; [exact ex_rules|]. split; [exact ex_full|]. split; [exact ex_arcs|]. split; [left; reflexivity|]. vm_compute. auto. Qed.

(** ** C70 *)
Theorem C70_linear : forall (X : Type) conv str (arc_feats : nat * nat -> X) target dist (g : hg (elab X)),
  wf_hg g -> topo g -> nodes g <> [] -> (forall i alt, nth_error target i = Some alt -> length alt <= 1) ->
  (forall e ed, nth_error (edges g) e = Some ed -> tails ed = [] -> usable target (lab ed)) -> heap_ok g ->
  exists ok h, Intersect conv str arc_feats true target dist g = Some (ok, h) /\ wf_hg h /\ topo h /\
    (ok = true <-> forall i, i < length target -> exists e ed, nth_error (edges g) e = Some ed /\ tails ed = [] /\ matches target (lab ed) /\ prev_i_ (lab ed) = Z.of_nat i) /\
    selected target (fun e l l' => (~ used_before target g e -> turned l l') /\ (used_before target g e -> half_turned l l')) g h.
Proof. exact (@intersect_fast). Qed.
Print Assumptions C70_linear.
(** Finding: the rule put into the map for a matching edge is the old one (hg_intersect.cc 70-76: the
    swap exchanges the two pointers), so the next matching edge with the same rule object keeps
    its rule as it is: with a word twice in the reference, source and target are mixed. *)
Theorem C70_shared_refuted : exists gram src ws (g h : hg (elab nat)), (forall w, gram w <> Some None) /\
  (forall j w rs r fs, source_at 9 false src j w -> translations gram None w rs -> In (r, fs) rs -> one_word r) /\
  LexTrellis (-50) (-51) 9 0 1 gram None false false (sentence src) (sentence ws) = Some (Some g) /\
  Intersect code noname afeat true (sentence ws) diff g = Some (true, h) /\
  exists t, derives h (goal h) t /\ exists vs, source h t = Some vs /\ vs <> ws.
Proof. exact shared_refuted. Qed.
Print Assumptions C70_shared_refuted.
(** Two positions, readings 5 and 6 at each. *)
Definition lin (a : nat) (e f : Z) (i : Z) : elab nat := {| rule_ := tr a e f; feats_ := [a]; i_ := i; j_ := i + 1; prev_i_ := i; prev_j_ := i + 1 |}.
Definition ex_lin : hg (elab nat) := {|
  nodes := [xn 0 [0; 1] [4]; xn 1 [2; 3] [4]; xn 2 [4] []];
  edges := [xe 0 [] (lin 0 5 11 0) 0; xe 0 [] (lin 1 6 11 0) 1; xe 1 [] (lin 2 5 12 1) 2; xe 1 [] (lin 3 6 12 1) 3; xe 2 [0; 1] (xl [0; -1]%Z [-50; -50]%Z 2 [] (-1) (-1)) 4] |}.
Example C70_ex : wf_hg ex_lin /\ topo ex_lin /\ (forall e ed, nth_error (edges ex_lin) e = Some ed -> tails ed = [] -> usable (sentence [6; 5]%Z) (lab ed)) /\ heap_ok ex_lin /\
  (forall e, ~ used_before (sentence [6; 5]%Z) ex_lin e) /\
  match Intersect code noname afeat true (sentence [6; 5]%Z) diff ex_lin with
  | Some (true, h) => map (source h) (dvs h (goal h)) = [Some [6; 5]]%Z /\ map (translation h) (dvs h (goal h)) = [Some [11; 12]]%Z /\ map feats_ (map lab (edges h)) = [[1]; [2]; []]
  | _ => False
  end /\
  match Intersect code noname afeat true (sentence [6; 7]%Z) diff ex_lin with Some (false, _) => True | _ => False end.
Proof.
  split; [wf_tac|]. split; [topo_tac|]. split. { intros e ed H T. cases H; try discriminate; (split; [cbn; lia|]; split; [eexists; reflexivity|]; split; [reflexivity|]; eexists; eexists; reflexivity). }
  split. { intros a b ed fd A B TA TB AE. cases A; cases B; try discriminate; reflexivity. }
  split. { intros e (b & ed & fd & L & E & B & TF & _ & AE). cases E; cases B; try discriminate; lia. }
  vm_compute. auto.
Qed.
