(** Witnesses for Constrain.v and Trellis.v: where the claims fail, and examples. *)
From Coq Require Import Ascii String List ZArith Bool Lia Permutation.
From Verif Require Import Opt HG Deriv TopoSpec Prune PruneSpec Rule RuleSpec Lattice Parser ParserSpec Constrain ConstrainSpec Trellis TrellisSpec.
Import ListNotations.
Open Scope opt_scope.
Local Open Scope nat_scope.

(** A dictionary. *)
Fixpoint code (s : string) : Z := match s with EmptyString => 1 | String c r => 1 + Z.of_nat (nat_of_ascii c) + 257 * code r end%Z.
Lemma code_pos : forall s, (0 < code s)%Z.
Proof. induction s; cbn [code]; lia. Qed.
Lemma code_inj : forall a b, code a = code b -> a = b.
Proof.
  induction a as [|c r IH]; intros [|d s] E; cbn [code] in E; [reflexivity|pose proof (code_pos s); lia|pose proof (code_pos r); lia|].
  assert (Bc : nat_of_ascii c < 256) by apply nat_ascii_bounded. assert (Bd : nat_of_ascii d < 256) by apply nat_ascii_bounded.
  assert (nat_of_ascii c = nat_of_ascii d) by lia. assert (code r = code s) by lia. f_equal; [rewrite <- (ascii_nat_embedding c), <- (ascii_nat_embedding d); f_equal; assumption|apply IH; assumption].
Qed.
Definition noname (z : Z) : string := "N"%string.
Definition afeat (a : nat * nat) : nat := 100 + 10 * fst a + snd a.
Definition diff (i j : nat) : Z := Z.of_nat (j - i).

Definition xl (e f : list Z) (k : Z) (fs : list nat) (i j : Z) : elab nat := {| rule_ := TR None e f k None; feats_ := fs; i_ := i; j_ := j; prev_i_ := -1; prev_j_ := -1 |}.
Definition xe (hd : nat) (tl : list nat) (l : elab nat) (id : nat) : edge (elab nat) := {| head := Some hd; tails := tl; lab := l; eid := id |}.
Definition xn (id : nat) (ins outs : list nat) : node := {| nid := id; cat := (-50)%Z; in_edges := ins; out_edges := outs |}.

Ltac cases H :=
  match type of H with nth_error _ ?n = Some _ =>
    destruct n as [|n]; cbn in H; [first [discriminate H | injection H as <-] | first [discriminate H | cases H]]
  end.
Ltac tree_cases H := cbn in H; repeat (destruct H as [<-|H]); try destruct H.
Ltac wf_tac := constructor;
  [intros n nd H; cases H; reflexivity
  |intros e ed H; cases H; reflexivity
  |intros n nd e H I; cases H; tree_cases I; eexists; (split; [reflexivity|reflexivity])
  |intros n nd H; cases H; repeat constructor; cbn; lia
  |intros n nd e H I; cases H; tree_cases I; cbn; lia
  |intros e ed t H I; cases H; tree_cases I; cbn; lia
  |intros e ed H; cases H; eexists; (split; [reflexivity|cbn; lia])].
Ltac topo_tac := intros n nd H; cases H; (split; [repeat constructor; cbn; lia|]); intros e I; tree_cases I; eexists; (split; [reflexivity|]); intros t T; tree_cases T; lia.
Ltac arcs_tac := intros p arcs x E I; cases E; cbn in I; repeat (destruct I as [<-|I]; [cbn; lia|]); destruct I.

(** ** The forest of the examples: 11 -> 1 or 2, 12 -> 3, and the two in either order *)
Definition ex_g : hg (elab nat) := {|
  nodes := [xn 0 [0; 1] [3; 4]; xn 1 [2] [3; 4]; xn 2 [3; 4] []];
  edges := [xe 0 [] (xl [1] [11] 0 [1]%nat 0 1)%Z 0; xe 0 [] (xl [2] [11] 0 [2]%nat 0 1)%Z 1; xe 1 [] (xl [3] [12] 0 [3]%nat 1 2)%Z 2;
            xe 2 [0; 1] (xl [0; -1] [-50; -50] 2 [4]%nat 0 2)%Z 3; xe 2 [0; 1] (xl [-1; 0] [-50; -50] 2 [5]%nat 0 2)%Z 4] |}.
Lemma ex_wf : wf_hg ex_g. Proof. wf_tac. Qed.
Lemma ex_topo : topo ex_g. Proof. topo_tac. Qed.
Lemma ex_rules : rules_ok ex_g.
Proof. intros e ed H. cases H; cbn; (split; [first [apply Permutation_refl|apply perm_swap]|split; [reflexivity|lia]]). Qed.
Lemma ex_full : no_deletion ex_g.
Proof. intros e ed H. cases H; cbn; discriminate. Qed.
(** 3, then 1 or 2 *)
Definition ex_lat : list (list arc) := [[{| label := 3; len := 1 |}]; [{| label := 1; len := 1 |}; {| label := 2; len := 1 |}]].
Lemma ex_arcs : arcs_ok ex_lat.
Proof. arcs_tac. Qed.

(** ** Deletion: 11 -> nothing *)
Definition del_g : hg (elab nat) := {|
  nodes := [xn 0 [0] [2]; xn 1 [1] [2]; xn 2 [2] []];
  edges := [xe 0 [] (xl [] [11] 0 [1]%nat 0 1)%Z 0; xe 1 [] (xl [3] [12] 0 [3]%nat 1 2)%Z 1; xe 2 [0; 1] (xl [0; -1] [-50; -50] 2 [4]%nat 0 2)%Z 2] |}.
Lemma del_refuted : exists conv str target dist (g : hg (elab nat)), (forall a b, conv a = conv b -> a = b) /\ (forall a, (0 < conv a)%Z) /\ wf_hg g /\ topo g /\ rules_ok g /\
  (exists ws, target = sentence ws /\ Forall (fun w => (0 < w)%Z /\ w <> kEPS conv) ws) /\ distances target dist /\
  (exists h, IntersectGeneral conv str afeat target dist g = Some (false, h)) /\
  exists t ws, derives g (goal g) t /\ translation g t = Some ws /\ target = sentence ws.
Proof.
  exists code, noname, (sentence [3]%Z), diff, del_g. split; [exact code_inj|]. split; [exact code_pos|]. split; [wf_tac|]. split; [topo_tac|].
  split. { intros e ed H. cases H; cbn; (split; [apply Permutation_refl|split; [reflexivity|lia]]). }
  split. { exists [3]%Z. split; [reflexivity|]. repeat constructor; vm_compute; congruence. }
  split; [left; reflexivity|]. split; [eexists; vm_compute; reflexivity|].
  exists (Tree 2 [Tree 0 []; Tree 1 []]), [3]%Z. split; [|split; [reflexivity|reflexivity]].
  econstructor; [reflexivity|left; reflexivity|reflexivity|]. constructor; [|constructor; [|constructor]]; (econstructor; [reflexivity|left; reflexivity|reflexivity|constructor]).
Qed.
(** ** A lattice of one arc per position, one of them over a position *)
Definition lat_g : hg (elab nat) := {|
  nodes := [xn 0 [0; 1] []];
  edges := [xe 0 [] (xl [1; 2] [11] 0 [1]%nat 0 1)%Z 0; xe 0 [] (xl [9] [11] 0 [2]%nat 0 1)%Z 1] |}.
Lemma lattice_refuted : exists conv str target dist (g : hg (elab nat)), (forall a b, conv a = conv b -> a = b) /\ (forall a, (0 < conv a)%Z) /\ wf_hg g /\ topo g /\ rules_ok g /\ no_deletion g /\
  arcs_ok target /\ (forall i alt, nth_error target i = Some alt -> length alt = 1) /\ (forall p a x, arc_at target p a x -> (0 < label x)%Z /\ label x <> kEPS conv) /\ distances target dist /\
  (exists h, IntersectGeneral conv str afeat target dist g = Some (false, h)) /\
  exists t p ws, derives g (goal g) t /\ translation g t = Some ws /\ path target 0 (length target) p ws.
Proof.
  set (lt := [[{| label := 1; len := 2 |}]; [{| label := 9; len := 1 |}]; [{| label := 2; len := 1 |}]]). set (ls := map (map (fun x => Z.of_nat (len x))) lt).
  exists code, noname, lt, (fun i j => match (d <- ComputeDistances [] ls ;; Distance ls d (Z.of_nat i) (Z.of_nat j)) with Some v => v | None => 0%Z end), lat_g.
  split; [exact code_inj|]. split; [exact code_pos|]. split; [wf_tac|]. split; [topo_tac|].
  split. { intros e ed H. cases H; cbn; (split; [apply Permutation_refl|split; [reflexivity|lia]]). }
  split. { intros e ed H. cases H; cbn; discriminate. }
  split; [arcs_tac|]. split. { intros i alt H. cases H; reflexivity. }
  split. { intros p a x (ar & E & I). cases E; (destruct a as [|a]; [|destruct a; discriminate]); injection I as <-; (split; [reflexivity|vm_compute; discriminate]). }
  split. { right. cbv zeta. fold ls. eexists. split; [vm_compute; reflexivity|]. intros i j I J. destruct i as [|[|[|[|i]]]]; try (cbn in I; lia); destruct j as [|[|[|[|j]]]]; try (cbn in J; lia); vm_compute; reflexivity. }
  split; [eexists; vm_compute; reflexivity|]. exists (Tree 0 []), [(0, 0); (2, 0)], [1; 2]%Z. split; [econstructor; [reflexivity|left; reflexivity|reflexivity|constructor]|]. split; [reflexivity|].
  apply (p_arc lt 0 0 {| label := 1; len := 2 |}); [eexists; split; reflexivity|]. apply (p_arc lt 2 0 {| label := 2; len := 1 |}); [eexists; split; reflexivity|]. constructor.
Qed.
(** ** The rules put back *)
Lemma annotations_refuted : exists conv str target dist (g : hg (elab nat)) h, (forall a b, conv a = conv b -> a = b) /\ (forall a, (0 < conv a)%Z) /\ wf_hg g /\ topo g /\ rules_ok g /\ no_deletion g /\
  IntersectGeneral conv str afeat target dist g = Some (true, h) /\
  exists t ws ws', derives (RemoveAnnotations h) (goal (RemoveAnnotations h)) t /\ target = sentence ws /\ translation (RemoveAnnotations h) t = Some ws' /\ ws' <> ws.
Proof.
  exists code, noname, (sentence [3; 1]%Z), diff, ex_g. destruct (IntersectGeneral code noname afeat (sentence [3; 1]%Z) diff ex_g) as [([], h)|] eqn:E; [|exfalso; vm_compute in E; discriminate|exfalso; vm_compute in E; discriminate].
  exists h. split; [exact code_inj|]. split; [exact code_pos|]. split; [exact ex_wf|]. split; [exact ex_topo|]. split; [exact ex_rules|]. split; [exact ex_full|]. split; [reflexivity|].
  vm_compute in E. injection E as <-. eexists. exists [3; 1]%Z, [1; 3]%Z. split; [|split; [reflexivity|split; [|discriminate]]].
  - econstructor; [reflexivity|left; reflexivity|reflexivity|]. constructor; [|constructor]. econstructor; [reflexivity|left; reflexivity|reflexivity|]. constructor; [|constructor; [|constructor]]; (econstructor; [reflexivity|left; reflexivity|reflexivity|constructor]).
  - vm_compute. reflexivity.
Qed.

(** ** Trellises *)
Definition tr (a : nat) (e f : Z) : trule := TR (Some a) [e] [f] 0 None.
(** lextrans: 11 -> 1 or 2; 12 -> 1 *)
Definition ex_gram (w : Z) : option (option (list (trule * list nat))) :=
  if Z.eqb w 11 then Some (Some [(tr 1 1 11, [1]); (tr 2 2 11, [2])]) else if Z.eqb w 12 then Some (Some [(tr 3 1 12, [3])]) else None.
(** lexalign: 11 -> 1, 11 -> 2, 12 -> 1, the empty word 9 -> 2 *)
Definition ex_lexrule (f e : Z) : option (trule * list nat) :=
  if andb (Z.eqb f 11) (Z.eqb e 1) then Some (tr 1 1 11, [1]) else if andb (Z.eqb f 11) (Z.eqb e 2) then Some (tr 2 2 11, [2]) else
  if andb (Z.eqb f 12) (Z.eqb e 1) then Some (tr 3 1 12, [3]) else if andb (Z.eqb f 9) (Z.eqb e 2) then Some (tr 4 2 9, [4]) else None.
Lemma shared_refuted : exists gram src ws (g h : hg (elab nat)), (forall w, gram w <> Some None) /\
  (forall j w rs r fs, source_at 9 false src j w -> translations gram None w rs -> In (r, fs) rs -> one_word r) /\
  LexTrellis (-50) (-51) 9 0 1 gram None false false (sentence src) (sentence ws) = Some (Some g) /\
  Intersect code noname afeat true (sentence ws) diff g = Some (true, h) /\
  exists t, derives h (goal h) t /\ exists vs, source h t = Some vs /\ vs <> ws.
Proof.
  exists ex_gram, [11]%Z, [1; 1]%Z. destruct (LexTrellis (-50) (-51) 9 0 1 ex_gram None false false (sentence [11]%Z) (sentence [1; 1]%Z)) as [[g|]|] eqn:E; [|exfalso; vm_compute in E; discriminate|exfalso; vm_compute in E; discriminate].
  destruct (Intersect code noname afeat true (sentence [1; 1]%Z) diff g) as [([], h)|] eqn:F; [|exfalso; vm_compute in E; injection E as <-; vm_compute in F; discriminate|exfalso; vm_compute in E; injection E as <-; vm_compute in F; discriminate].
  exists g, h. split. { intros w. unfold ex_gram. destruct (Z.eqb w 11); [discriminate|]. destruct (Z.eqb w 12); discriminate. }
  split. { intros j w rs r fs _ [T|(_ & s & S & _)]; [|discriminate]. unfold ex_gram in T. destruct (Z.eqb w 11); [injection T as <-|destruct (Z.eqb w 12); [injection T as <-|discriminate]]; intros I; repeat (destruct I as [[= <- <-]|I]; [split; [eexists; split; [reflexivity|lia]|split; [reflexivity|repeat constructor]]|]); destruct I. }
  split; [reflexivity|]. split; [exact F|]. vm_compute in E. injection E as <-. vm_compute in F. injection F as <-.
  eexists. split.
  - econstructor; [reflexivity|left; reflexivity|reflexivity|]. constructor; [|constructor]. econstructor; [reflexivity|left; reflexivity|reflexivity|]. constructor; [|constructor; [|constructor]]; (econstructor; [reflexivity|left; reflexivity|reflexivity|constructor]).
  - exists [1; 11]%Z. split; [vm_compute; reflexivity|discriminate].
Qed.
Lemma short_refuted : exists tagset ts ws (g : hg (elab nat)), tagset <> [] /\ Forall (fun w => (0 < w)%Z) tagset /\ Forall (fun w => (0 < w)%Z) ts /\ length ws < length ts /\
  TaggerTrellis (-50) (-51) 0 1 tagset ts = Some g /\ Intersect code noname afeat true (sentence ws) diff g = None.
Proof.
  exists [5]%Z, [11; 12]%Z, [5]%Z. eexists. split; [discriminate|]. split; [repeat constructor|]. split; [repeat constructor|]. split; [cbn; lia|]. split; [reflexivity|vm_compute; reflexivity].
Qed.
