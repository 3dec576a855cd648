(** C21, C22: the envelopes over which MERT computes.  Vocabulary: MertSpec. *)
From Coq Require Import List Arith QArith Permutation Lia Lqa.
From Verif Require Import HG Deriv Inside KBestSpec Mert MertSpec MertProofs.
Import ListNotations.
Open Scope Q_scope.

(** Sorting any points yields the upper envelope of their lines. *)
Theorem C21_sort : forall srt, sorts srt -> forall ps, is_env (Sort srt ps) (fun l => exists p, In p ps /\ l = line_of p).
Proof. exact sort_env. Qed.
Print Assumptions C21_sort.

(** The sum of two hulls represents the lines of both. *)
Theorem C21_plus : forall srt, sorts srt -> forall a b La Lb, represents srt a La -> represents srt b Lb ->
  represents srt (plus srt a b) (fun l => La l \/ Lb l).
Proof. exact plus_env. Qed.
Print Assumptions C21_plus.

(** The product of two hulls represents the sums of one line of each. *)
Theorem C21_times : forall srt, sorts srt -> forall a b La Lb, is_one a = false -> is_one b = false -> represents srt a La -> represents srt b Lb ->
  represents srt (times srt a b) (fun l => exists x y, La x /\ Lb y /\ l = add_line x y).
Proof. exact times_env. Qed.
Print Assumptions C21_times.

(** The constant 1 is neutral. *)
Theorem C21_one : forall srt a u, times srt a (one u) = a /\ (is_one a = false -> times srt (one u) a = a).
Proof. exact (fun srt a u => conj (times_one_r srt a u) (times_one_l srt a u)). Qed.
Print Assumptions C21_one.

(** The constant 1 itself is not an envelope: its only segment starts at 0. *)
Theorem C21_one_refuted : forall srt, ~ is_env (segs srt (one true)) (fun l => l = {| lm := 0; lb := 0; lp := PNone |}).
Proof. exact one_not_envelope. Qed.
Print Assumptions C21_one_refuted.

(** Points as heap objects: sorting a hull whose pointers are distinct terminates
    without a bad access, makes it the envelope, and changes no other object. *)
Theorem C21_heap_sort : forall psort h c, psorts psort -> distinct h (HeapHull.h_points c) ->
  exists h' c' vs ws, HeapHull.heap_Sort psort h c = Some (h', c') /\ HeapHull.h_sorted c' = true /\
    HeapHull.deref h (HeapHull.h_points c) = Some vs /\ HeapHull.deref h' (HeapHull.h_points c') = Some ws /\
    is_env ws (fun l => exists p, In p vs /\ l = line_of p) /\ distinct h' (HeapHull.h_points c') /\ incl (HeapHull.h_points c') (HeapHull.h_points c) /\
    length h' = length h /\ forall a, ~ In a (HeapHull.h_points c) -> nth_error h' a = nth_error h a.
Proof. exact HeapProofs.heap_sort_ok. Qed.
Print Assumptions C21_heap_sort.

(** But a sum shares its operands' points: reading the sum damages an operand.
    [a] and [b] are envelopes; after c = a; c += b; c.GetSortedSegs(), [b], which
    was only ever passed as const, is not the envelope of its line. *)
Theorem C21_sum_aliases_refuted : forall psort, psorts psort -> exists h a b wb h1 c o h2 c2 wb',
  HeapHull.deref h (HeapHull.h_points a) <> None /\ HeapHull.deref h (HeapHull.h_points b) = Some wb /\
  is_env wb (fun l => exists p, In p wb /\ l = line_of p) /\
  HeapHull.heap_plus psort h a b = Some (h1, c, o) /\ o = b /\ HeapHull.deref h1 (HeapHull.h_points b) = Some wb /\
  HeapHull.heap_segs psort h1 c = Some (h2, c2) /\ HeapHull.deref h2 (HeapHull.h_points b) = Some wb' /\
  ~ is_env wb' (fun l => exists p, In p wb /\ l = line_of p).
Proof. exact sum_aliases. Qed.
Print Assumptions C21_sum_aliases_refuted.

(** A sort by slope, and the four lines 0, x, 2x - 1, x/2 - 5 (dominated). *)
Fixpoint ins (p : pt) (l : list pt) : list pt :=
  match l with [] => [p] | q :: r => if Qle_bool (pm p) (pm q) then p :: q :: r else q :: ins p r end.
Definition isort (l : list pt) : list pt := fold_right ins [] l.
Lemma ins_perm : forall p l, Permutation (ins p l) (p :: l).
Proof. induction l as [|q r IH]; cbn; [auto|]. destruct (Qle_bool (pm p) (pm q)); [auto|]. rewrite IH. apply perm_swap. Qed.
Fixpoint asc (l : list pt) : Prop := match l with [] => True | p :: r => (forall q, In q r -> pm p <= pm q) /\ asc r end.
Lemma ins_asc : forall p l, asc l -> asc (ins p l).
Proof.
  induction l as [|q r IH]; intros H; cbn [ins]; [cbn; split; [intros q []|exact I]|]. destruct H as (H1 & H2). destruct (Qle_bool (pm p) (pm q)) eqn:B.
  - apply Qle_bool_iff in B. cbn. split; [|auto]. intros z [<-|Z]; [exact B|]. specialize (H1 z Z). lra.
  - cbn. split; [|apply IH, H2]. intros z Z. apply (Permutation_in _ (ins_perm p r)) in Z. destruct Z as [<-|Z]; [|apply H1, Z].
    destruct (Qlt_le_dec (pm q) (pm p)) as [X|X]; [lra|]. apply Qle_bool_iff in X. congruence.
Qed.
Lemma isort_sorts : sorts isort.
Proof.
  constructor.
  - induction l as [|p l IH]; cbn; [constructor|]. rewrite ins_perm. constructor. exact IH.
  - intros l. assert (A : asc (isort l)) by (induction l as [|p l IH]; cbn; [exact I|apply ins_asc, IH]). generalize dependent (isort l). clear l.
    induction l as [|a l IH]; intros H [|i] [|j] p q LT NP NQ; cbn in *; try discriminate; try lia; destruct H as (H1 & H2).
    + injection NP as <-. apply H1, (nth_error_In _ _ NQ).
    + apply (IH H2 i j p q); [lia|exact NP|exact NQ].
Qed.
Definition pnt m b e : pt := {| px := Fin 7; pm := m; pb := b; pp := PEdge e |}.
Example C21_case : map (fun p => (px p, pp p)) (Sort isort [pnt 1 0 1; pnt 2 (-1) 2; pnt (1 # 2) (-5) 3; pnt 0 0 0]) =
  [(MInf, PEdge 0%nat); (Fin (0 # 1), PEdge 1%nat); (Fin (1 # 1), PEdge 2%nat)].
Proof. vm_compute. reflexivity. Qed.

(** Inside over hulls: for every node the segments are the derivations that are
    best somewhere. *)
Theorem C22_inside_envelope : forall (P Y : Type) (srt : list pt -> list pt) (g : hg P) (dir ori : edge P -> Q) (traverse : edge P -> list Y -> Y) (dflt : Y),
  sorts srt -> topo g -> ids_ok g ->
  exists sc, Inside zero (plus srt) (times srt) (edge_hull dir ori) g = Some sc /\ length sc = length (nodes g) /\
  forall n h, nth_error sc n = Some h ->
    (forall i p, nth_error (segs srt h) i = Some p -> exists t, derives g n t /\ pm p == tree_sum g dir t /\ pb p == tree_sum g ori t /\
       ConstructTranslation g traverse p = Some (tree_yield g traverse dflt t) /\
       (forall used, length used = length (edges g) -> exists used', CollectEdgesUsed p used = Some used' /\ marked used used' (tree_edges t)) /\
       forall x, covers (segs srt h) i p x -> forall t', derives g n t' -> score g dir ori t' x <= score g dir ori t x) /\
    (forall t x, derives g n t -> exists i p, covers (segs srt h) i p x) /\
    (forall p, nth_error (segs srt h) 0 = Some p -> px p = MInf) /\
    (forall i p p', nth_error (segs srt h) i = Some p -> nth_error (segs srt h) (i + 1) = Some p' -> ltx (px p) (px p') = true /\ ltx (px p') PInf = true).
Proof. exact inside_envelope. Qed.
Print Assumptions C22_inside_envelope.

(** A goal with two rules over a node with two words, and one rule of its own. *)
Definition ed h ts (l : Q * Q) i : edge (Q * Q) := {| head := Some h; tails := ts; lab := l; eid := i |}.
Definition nd i ins outs : node := {| nid := i; cat := (-1)%Z; in_edges := ins; out_edges := outs |}.
Definition G : hg (Q * Q) :=
  {| nodes := [nd 0 [0; 1] [2; 2; 3]; nd 1 [2; 3; 4] []]%nat;
     edges := [ed 0%nat [] (1, 0) 0%nat; ed 0%nat [] (-1, 1) 1%nat; ed 1%nat [0; 0]%nat (0, 0) 2%nat; ed 1%nat [0%nat] (0, 3) 3%nat; ed 1%nat [] (0, 4) 4%nat] |}.
Example C22_case : topo G /\ ids_ok G /\
  option_map (map (fun h => map (fun p => ConstructTranslation G (fun e l => eid e :: concat l) p) (segs isort h)))
    (Inside zero (plus isort) (times isort) (edge_hull (fun e => fst (lab e)) (fun e => snd (lab e))) G) =
  Some [[Some [1]; Some [0]]; [Some [2; 1; 1]; Some [3; 1]; Some [4]; Some [3; 0]; Some [2; 0; 0]]]%nat.
Proof.
  split; [|split].
  - intros n x N. destruct n as [|[|[|n]]]; cbn in N; try discriminate; injection N as <-; cbn [in_edges]; (split; [repeat constructor; cbn; lia|]);
      intros e E; cbn in E; repeat (destruct E as [<-|E]; [eexists; split; [reflexivity|cbn; lia]|]); contradiction.
  - intros e x N. do 5 (destruct e as [|e]; [injection N as <-; reflexivity|]). destruct e; discriminate.
  - vm_compute. reflexivity.
Qed.
