(** The parser's charts: what processing a span and all spans does. *)
From Coq Require Import List ZArith Bool Lia Permutation.
From Verif Require Import Opt HG Deriv TopoSpec Parser ParserSpec ParserForestProofs ParserProofs.
Import ListNotations.
Open Scope nat_scope.
Open Scope opt_scope.

Section Chart.
Variables kGOAL kEPS : Z.
Variable input : list (list arc).
Variable dist : nat -> nat -> Z.
Variable gs : list grammar.
Variable us : list rule.
Notation NN := (length input).
Notation fedge := (list nat * payload * nat)%type.
Notation Core := (ParserProofs.Core kGOAL).
Notation unary_edges := (ParserProofs.unary_edges us).
Hypothesis arcs : arcs_ok input.
Hypothesis gs_nongoal : forall g p r, In g gs -> In r (bin (root g) p) -> lhs r <> kGOAL.
Hypothesis us_nongoal : forall r, In r us -> lhs r <> kGOAL.

Definition al (gi i j : nat) : bool := match nth_error gs gi with Some g => has_span g i j (dist i j) | None => false end.
(** Items extended over the arcs from p to j, and over nodes. *)
Definition Tm (ac : list item) (p j : nat) : list item :=
  match nth_error input p with
  | None => []
  | Some xs => flat_map (fun ax => if Nat.eqb (p + len (snd ax)) j then flat_map (ExtendTerminal kEPS p (fst ax) (label (snd ax))) ac else []) (combine (seq 0 (length xs)) xs)
  end.
Definition ntx (fn : list Z) (it : item) (nd : nat) : list item :=
  match Extend (nth nd fn 0%Z) (gptr it) with
  | Some t => [{| gptr := t; ants := ants it ++ [nd]; feats := feats it ++ [None] |}]
  | None => []
  end.
Definition nts (fn : list Z) (its : list item) (ns : list nat) : list item := flat_map (fun it => flat_map (ntx fn it) ns) its.
Definition NT (fn : list Z) (s : state) (gi i j : nat) (ks : list nat) : list item := flat_map (fun k => nts fn (act s gi i k) (chart s k j)) ks.

Definition valid (fn : list Z) (l : list nat) : Prop := forall t, In t l -> t < length fn.
Lemma chart_valid : forall s fn fe i j, Core s fn fe -> valid fn (chart s i j).
Proof. intros s fn fe i j C t I. exact (proj1 (co_valid _ _ _ _ _ _ _ C I)). Qed.
Lemma flat_map_ext_in : forall (A B : Type) (f g : A -> list B) l, (forall x, In x l -> f x = g x) -> flat_map f l = flat_map g l.
Proof. induction l as [|x l IH]; intros H; cbn; [reflexivity|]. rewrite (H x (or_introl eq_refl)), IH; [reflexivity|]. intros y Y. apply H. right. exact Y. Qed.
Lemma nts_ext : forall fn x its ns, valid fn ns -> nts (fn ++ x) its ns = nts fn its ns.
Proof.
  intros fn x its ns V. unfold nts. apply flat_map_ext_in. intros it _. apply flat_map_ext_in. intros nd I. unfold ntx. rewrite app_nth1 by (apply V, I). reflexivity.
Qed.
Lemma extend_items_ok : forall s fn fe its ns, Core s fn fe -> valid fn ns -> extend_items (forest s) its ns = Some (nts fn its ns).
Proof.
  intros s fn fe its ns C V. assert (EN : forall it, extend_nodes (forest s) it ns = Some (flat_map (ntx fn it) ns)).
  { intros it. induction ns as [|nd ns IH]; [reflexivity|]. cbn [extend_nodes flat_map]. unfold ExtendNonTerminal.
    pose proof (FV_node _ _ _ nd (co_fv _ _ _ _ C)) as FN. assert (L : nd < length fn) by (apply V; left; reflexivity).
    destruct (nth_error (nodes (forest s)) nd) as [v|]; [|apply nth_error_None in FN; lia]. destruct FN as (Q & _). cbn [bind]. unfold ntx at 1.
    rewrite (nth_error_nth fn nd 0%Z Q). destruct (Extend (cat v) (gptr it)); cbn [bind]; rewrite IH by (intros ? T; apply V; right; exact T); reflexivity. }
  induction its as [|it its IH]; [reflexivity|]. cbn [extend_items]. rewrite EN. cbn [bind]. rewrite IH. reflexivity.
Qed.

(** ** Changes of the active charts only *)
Record Upd (gi i : nat) (f : nat -> list item) (s s' : state) : Prop := {
  up_forest : forest s' = forest s; up_chart : chart s' = chart s; up_map : nodemap s' = nodemap s; up_goal : goal_idx s' = goal_idx s;
  up_act : forall g a b, act s' g a b = act s g a b ++ (if andb (Nat.eqb g gi) (Nat.eqb a i) then f b else [])
}.
Lemma Upd_core : forall gi i f s s' fn fe, Upd gi i f s s' -> Core s fn fe -> Core s' fn fe.
Proof. intros gi i f s s' fn fe [F C M _ _] [A1 A2 A3 A4 A5 A6 A7]. constructor; rewrite ?F, ?C, ?M; assumption. Qed.
Lemma Upd_trans : forall gi i f f' s s1 s2, Upd gi i f s s1 -> Upd gi i f' s1 s2 -> Upd gi i (fun b => f b ++ f' b) s s2.
Proof.
  intros gi i f f' s s1 s2 [F C M G A] [F' C' M' G' A']. constructor; try congruence. intros g a b. rewrite A', A, <- app_assoc. f_equal.
  destruct (andb (Nat.eqb g gi) (Nat.eqb a i)); reflexivity.
Qed.
Lemma Upd_ext : forall gi i f f' s s', (forall b, f b = f' b) -> Upd gi i f s s' -> Upd gi i f' s s'.
Proof. intros gi i f f' s s' E [F C M G A]. constructor; try assumption. intros g a b. rewrite A, E. reflexivity. Qed.
Lemma Upd_set : forall gi i j v s, Upd gi i (fun b => if Nat.eqb b j then v else []) s (set_act s gi i j (act s gi i j ++ v)).
Proof.
  intros. constructor; try reflexivity. intros g a b. cbn. destruct (Nat.eqb_spec g gi) as [->|]; cbn; [|rewrite app_nil_r; reflexivity].
  unfold set2. destruct (Nat.eqb_spec a i) as [->|]; cbn; [|rewrite app_nil_r; reflexivity]. destruct (Nat.eqb_spec b j) as [->|]; [|rewrite app_nil_r]; reflexivity.
Qed.
Lemma Upd_refl : forall gi i s, Upd gi i (fun _ => []) s s.
Proof. intros. constructor; try reflexivity. intros g a b. destruct (andb _ _); rewrite app_nil_r; reflexivity. Qed.

Lemma ExtendActiveItems_ok : forall gi i k j s fn fe, Core s fn fe -> k < j ->
  exists s', ExtendActiveItems gi i k j s = Some s' /\ Upd gi i (fun b => if Nat.eqb b j then nts fn (act s gi i k) (chart s k j) else []) s s'.
Proof.
  intros gi i k j s fn fe C L. unfold ExtendActiveItems. destruct (Nat.leb_spec j k); [lia|].
  rewrite (extend_items_ok s fn fe _ _ C (chart_valid _ _ _ _ _ C)). cbn [bind]. eexists. split; [reflexivity|]. apply Upd_set.
Qed.
Lemma extend_from_ok : forall gi i j ks s fn fe, Core s fn fe -> (forall k, In k ks -> k < j) ->
  exists s', extend_from gi i j ks s = Some s' /\ Upd gi i (fun b => if Nat.eqb b j then NT fn s gi i j ks else []) s s'.
Proof.
  intros gi i j ks. induction ks as [|k ks IH]; intros s fn fe C L; cbn [extend_from].
  - exists s. split; [reflexivity|]. eapply Upd_ext; [|apply Upd_refl]. intros b. cbn. destruct (Nat.eqb b j); reflexivity.
  - destruct (ExtendActiveItems_ok gi i k j s fn fe C (L k (or_introl eq_refl))) as (s1 & E & U). rewrite E. cbn [bind].
    destruct (IH s1 fn fe (Upd_core _ _ _ _ _ _ _ U C)) as (s2 & E2 & U2); [intros q Q; apply L; right; exact Q|]. exists s2. split; [exact E2|].
    eapply Upd_ext; [|exact (Upd_trans _ _ _ _ _ _ _ U U2)]. intros b. cbn beta. destruct (Nat.eqb b j); [|reflexivity]. unfold NT. cbn [flat_map]. f_equal.
    apply flat_map_ext_in. intros q Q. rewrite (up_chart _ _ _ _ _ U). f_equal. rewrite (up_act _ _ _ _ _ U), !Nat.eqb_refl. cbn. specialize (L q (or_intror Q)).
    destruct (Nat.eqb_spec q j); [lia|]. apply app_nil_r.
Qed.

Definition Tarcs (ac : list item) (p j a : nat) (xs : list arc) : list item :=
  flat_map (fun ax => if Nat.eqb (p + len (snd ax)) j then flat_map (ExtendTerminal kEPS p (fst ax) (label (snd ax))) ac else []) (combine (seq a (length xs)) xs).
Lemma extend_arcs_ok : forall gi i p xs a s, (forall x, In x xs -> 1 <= len x /\ p + len x <= NN) ->
  exists s', extend_arcs kEPS input gi i (S p) a xs s = Some s' /\ Upd gi i (fun b => Tarcs (act s gi i p) p b a xs) s s'.
Proof.
  intros gi i p. induction xs as [|x xs IH]; intros a s L; cbn [extend_arcs].
  - exists s. split; [reflexivity|]. apply Upd_refl.
  - cbn zeta. destruct (L x (or_introl eq_refl)) as (L1 & L2). rewrite Nat.sub_succ, Nat.sub_0_r. replace (S p + len x - 1) with (p + len x) by lia.
    set (ec := act s gi i p).
    assert (S1 : exists s1, (match ec with [] => Some s | _ :: _ => if Nat.eqb (len x) 0 then None else if Nat.ltb NN (p + len x) then None
        else Some (set_act s gi i (p + len x) (act s gi i (p + len x) ++ flat_map (ExtendTerminal kEPS p a (label x)) ec)) end) = Some s1 /\
        Upd gi i (fun b => if Nat.eqb b (p + len x) then flat_map (ExtendTerminal kEPS p a (label x)) ec else []) s s1).
    { destruct ec as [|it ec'].
      - exists s. split; [reflexivity|]. eapply Upd_ext; [|apply Upd_refl]. intros b. cbn. destruct (Nat.eqb b (p + len x)); reflexivity.
      - destruct (Nat.eqb_spec (len x) 0); [lia|]. destruct (Nat.ltb_spec NN (p + len x)); [lia|]. eexists. split; [reflexivity|]. apply Upd_set. }
    destruct S1 as (s1 & E & U). rewrite E. cbn [bind].
    destruct (IH (S a) s1) as (s2 & E2 & U2); [intros y Y; apply L; right; exact Y|]. exists s2. split; [exact E2|].
    eapply Upd_ext; [|exact (Upd_trans _ _ _ _ _ _ _ U U2)]. intros b. cbn beta. unfold Tarcs. cbn [length seq combine flat_map fst snd].
    rewrite (Nat.eqb_sym b). f_equal. apply flat_map_ext_in. intros (a', y) Y. cbn [fst snd]. destruct (Nat.eqb (p + len y) b); [|reflexivity]. f_equal.
    rewrite (up_act _ _ _ _ _ U), !Nat.eqb_refl. cbn. destruct (Nat.eqb_spec p (p + len x)); [lia|]. apply app_nil_r.
Qed.

Lemma AdvanceDots_ok : forall gi i j s fn fe, Core s fn fe -> i < j -> j <= NN ->
  exists s', AdvanceDots kEPS input gi i j s = Some s' /\
    Upd gi i (fun b => (if Nat.eqb b j then NT fn s gi i j (seq (S i) (j - S i)) else []) ++ Tm (act s gi i (j - 1)) (j - 1) b) s s'.
Proof.
  intros gi i j s fn fe C L1 L2. unfold AdvanceDots.
  destruct (extend_from_ok gi i j (seq (S i) (j - S i)) s fn fe C) as (s1 & E & U); [intros k K; apply in_seq in K; lia|]. rewrite E. cbn [bind].
  destruct (nth_error input (j - 1)) as [xs|] eqn:Q; [|apply nth_error_None in Q; lia]. cbn [bind].
  destruct (extend_arcs_ok gi i (j - 1) xs 0 s1) as (s2 & E2 & U2); [intros x X; exact (arcs _ _ _ Q X)|]. replace (S (j - 1)) with j in E2 by lia. rewrite E2.
  exists s2. split; [reflexivity|]. eapply Upd_ext; [|exact (Upd_trans _ _ _ _ _ _ _ U U2)]. intros b. cbn beta. f_equal. unfold Tm, Tarcs. rewrite Q.
  apply flat_map_ext_in. intros (a', y) Y. cbn [fst snd]. destruct (Nat.eqb _ b); [|reflexivity]. f_equal.
  rewrite (up_act _ _ _ _ _ U), !Nat.eqb_refl. cbn. destruct (Nat.eqb_spec (j - 1) j); [lia|]. apply app_nil_r.
Qed.
Lemma Tm_back : forall ac p b, b <= p -> Tm ac p b = [].
Proof.
  intros ac p b L. unfold Tm. destruct (nth_error input p) as [xs|] eqn:Q; [|reflexivity].
  assert (H : forall ax, In ax (combine (seq 0 (length xs)) xs) -> 1 <= len (snd ax)). { intros (a, x) I. apply in_combine_r in I. exact (proj1 (arcs _ _ _ Q I)). }
  induction (combine _ xs) as [|ax l IH]; [reflexivity|]. cbn. rewrite IH by (intros y Y; apply H; right; exact Y). specialize (H ax (or_introl eq_refl)). destruct (Nat.eqb_spec (p + len (snd ax)) b); [lia|]. reflexivity.
Qed.
Lemma Tm_end : forall ac p b, NN <= p -> Tm ac p b = [].
Proof. intros ac p b L. unfold Tm. destruct (nth_error input p) eqn:Q; [|reflexivity]. assert (p < NN) by (apply nth_error_Some; congruence). lia. Qed.

(** ** Items *)
Definition ItemOK (fn : list Z) (g : nat) (it : item) : Prop :=
  valid fn (ants it) /\ exists gr p, nth_error gs g = Some gr /\ at_path (root gr) p = Some (gptr it).
Definition ItemsOK (fn : list Z) (s : state) : Prop := forall g a b it, In it (act s g a b) -> ItemOK fn g it.
Lemma ItemOK_ext : forall fn x g it, ItemOK fn g it -> ItemOK (fn ++ x) g it.
Proof. intros fn x g it (V & R). split; [|exact R]. intros t T. rewrite app_length. specialize (V t T). lia. Qed.
Lemma Tm_ok : forall fn g ac p b it, (forall it', In it' ac -> ItemOK fn g it') -> In it (Tm ac p b) -> ItemOK fn g it.
Proof.
  intros fn g ac p b it H I. unfold Tm in I. destruct (nth_error input p) as [xs|]; [|destruct I]. apply in_flat_map in I. destruct I as ((a, x) & _ & I). cbn [fst snd] in I.
  destruct (Nat.eqb _ b); [|destruct I]. apply in_flat_map in I. destruct I as (it' & I' & I). destruct (H it' I') as (V & gr & q & G & A). unfold ExtendTerminal in I.
  destruct (Z.eqb (label x) kEPS); [destruct I as [<-|[]]; split; [exact V|exists gr, q; auto]|].
  destruct (Extend (label x) (gptr it')) as [t|] eqn:E; [|destruct I]. destruct I as [<-|[]]. split; [exact V|]. exists gr, (q ++ [label x]). split; [exact G|]. cbn. rewrite at_path_snoc, A. exact E.
Qed.
Lemma nts_ok : forall fn g ac ns it, (forall it', In it' ac -> ItemOK fn g it') -> valid fn ns -> In it (nts fn ac ns) -> ItemOK fn g it.
Proof.
  intros fn g ac ns it H VN I. unfold nts in I. apply in_flat_map in I. destruct I as (it' & I' & I). apply in_flat_map in I. destruct I as (nd & N & I).
  destruct (H it' I') as (V & gr & q & G & A). unfold ntx in I. destruct (Extend _ _) as [t|] eqn:E; [|destruct I]. destruct I as [<-|[]]. split.
  - cbn. intros t' T. apply in_app_iff in T. destruct T as [T|[<-|[]]]; [apply V, T|apply VN, N].
  - exists gr, (q ++ [nth nd fn 0%Z]). split; [exact G|]. cbn. rewrite at_path_snoc, A. exact E.
Qed.
Lemma NT_ok : forall fn fe s g i j ks it, Core s fn fe -> ItemsOK fn s -> In it (NT fn s g i j ks) -> ItemOK fn g it.
Proof.
  intros fn fe s g i j ks it C IO I. unfold NT in I. apply in_flat_map in I. destruct I as (k & _ & I). eapply nts_ok; [|eapply chart_valid, C|exact I]. intros it' I'. exact (IO _ _ _ _ I').
Qed.
Lemma item_nongoal : forall fn g it r, ItemOK fn g it -> In r (GetRules (gptr it)) -> lhs r <> kGOAL.
Proof. intros fn g it r (_ & gr & p & G & A) I. apply (gs_nongoal gr p r); [exact (nth_error_In _ _ G)|]. unfold bin. rewrite A. exact I. Qed.

(** ** Steps: edges [es] added over (i, j), items [F] added in row i *)
Record Step (i j : nat) (es : list (rule * shape * list nat)) (F : nat -> nat -> list item) (s : state) fn fe (s' : state) fn' fe' : Prop := {
  sp_core : Core s' fn' fe';
  sp_items : ItemsOK fn' s';
  sp_fn : exists x, fn' = fn ++ x;
  sp_act : forall g a b, act s' g a b = act s g a b ++ (if Nat.eqb a i then F g b else []);
  sp_chart : forall i' j', (i', j') <> (i, j) -> chart s' i' j' = chart s i' j';
  sp_here : exists y, chart s' i j = chart s i j ++ y;
  sp_map : forall i' j', (i', j') <> (i, j) -> nodemap s' i' j' = nodemap s i' j';
  sp_keys : incl (map fst (nodemap s' i j)) (map fst (nodemap s i j) ++ map (fun e => lhs (fst (fst e))) es);
  sp_fe : exists ne, fe' = fe ++ ne /\ map desc ne = es /\ forall tl p h, In (tl, p, h) ne -> p_i p = i /\ p_j p = j;
  sp_goal : goal_idx s' = goal_idx s
}.
Lemma Step_adds : forall i j es s fn fe s' fn' fe', ItemsOK fn s -> goal_idx s' = goal_idx s -> Adds kGOAL i j es s fn fe s' fn' fe' -> Step i j es (fun _ _ => []) s fn fe s' fn' fe'.
Proof.
  intros i j es s fn fe s' fn' fe' IO G [C F A CH H M K FE]. constructor; auto.
  - destruct F as (x & ->). intros g a b it I. rewrite A in I. apply ItemOK_ext, (IO _ _ _ _ I).
  - intros g a b. rewrite A. destruct (Nat.eqb a i); rewrite app_nil_r; reflexivity.
Qed.
Lemma Step_upd : forall gi i j f s s' fn fe, Core s fn fe -> ItemsOK fn s -> (forall b it, In it (f b) -> ItemOK fn gi it) -> Upd gi i f s s' ->
  Step i j [] (fun g b => if Nat.eqb g gi then f b else []) s fn fe s' fn fe.
Proof.
  intros gi i j f s s' fn fe C IO FO U. pose proof (Upd_core _ _ _ _ _ _ _ U C) as C'. destruct U as [F CH M G A]. constructor; auto.
  - intros g a b it I. rewrite A in I. apply in_app_iff in I. destruct I as [I|I]; [exact (IO _ _ _ _ I)|].
    destruct (Nat.eqb_spec g gi) as [->|]; [|destruct I]. destruct (Nat.eqb a i); [|destruct I]. exact (FO _ _ I).
  - exists []. rewrite app_nil_r. reflexivity.
  - intros g a b. rewrite A. f_equal. destruct (Nat.eqb g gi), (Nat.eqb a i); reflexivity.
  - rewrite CH. reflexivity.
  - rewrite CH. exists []. rewrite app_nil_r. reflexivity.
  - rewrite M. reflexivity.
  - rewrite M. cbn. rewrite app_nil_r. apply incl_refl.
  - exists []. rewrite app_nil_r. split; [reflexivity|]. split; [reflexivity|]. intros ? ? ? [].
Qed.
Lemma Step_trans : forall i j es es' F F' s fn fe s1 fn1 fe1 s2 fn2 fe2, Step i j es F s fn fe s1 fn1 fe1 -> Step i j es' F' s1 fn1 fe1 s2 fn2 fe2 ->
  Step i j (es ++ es') (fun g b => F g b ++ F' g b) s fn fe s2 fn2 fe2.
Proof.
  intros i j es es' F F' s fn fe s1 fn1 fe1 s2 fn2 fe2 [C IO (x & FX) A CH (y & H) M K (ne & E & D & SP) G] [C' IO' (x' & FX') A' CH' (y' & H') M' K' (ne' & E' & D' & SP') G'].
  constructor; auto.
  - exists (x ++ x'). rewrite FX', FX, app_assoc. reflexivity.
  - intros g a b. rewrite A', A, <- app_assoc. f_equal. destruct (Nat.eqb a i); reflexivity.
  - intros i' j' N. rewrite CH' by exact N. apply CH, N.
  - exists (y ++ y'). rewrite H', H, app_assoc. reflexivity.
  - intros i' j' N. rewrite M' by exact N. apply M, N.
  - intros c I. apply K' in I. rewrite map_app, app_assoc. apply in_app_iff in I. apply in_app_iff. destruct I as [I|I]; [left; apply K, I|right; exact I].
  - exists (ne ++ ne'). split; [rewrite E', E, app_assoc; reflexivity|]. split; [rewrite map_app, D, D'; reflexivity|].
    intros tl p h I. apply in_app_iff in I. destruct I as [I|I]; [eapply SP, I|eapply SP', I].
  - congruence.
Qed.
Lemma Step_ext : forall i j es es' F F' s fn fe s' fn' fe', es = es' -> (forall g b, F g b = F' g b) -> Step i j es F s fn fe s' fn' fe' -> Step i j es' F' s fn fe s' fn' fe'.
Proof. intros i j es es' F F' s fn fe s' fn' fe' <- E [C IO FX A CH H M K FE G]. constructor; auto. intros g a b. rewrite A, E. reflexivity. Qed.
Lemma Step_refl : forall i j s fn fe, Core s fn fe -> ItemsOK fn s -> Step i j [] (fun _ _ => []) s fn fe s fn fe.
Proof. intros i j s fn fe C IO. apply Step_adds; [exact IO|reflexivity|]. apply Adds_refl, C. Qed.

(** What the dots of grammar g, row i bring on reaching j. *)
Definition adv (fn : list Z) (s : state) (i j g b : nat) : list item :=
  (if Nat.eqb b j then NT fn s g i j (seq (S i) (j - S i)) else []) ++ Tm (act s g i (j - 1)) (j - 1) b.
Definition advcell fn s i j g := act s g i j ++ adv fn s i j g j.
Definition memb (g : nat) (l : list nat) : bool := existsb (Nat.eqb g) l.

Lemma advance_ok : forall i j, i < j -> j <= NN -> forall gs' gi s fn fe, Core s fn fe -> ItemsOK fn s ->
  (forall q, nth_error gs' q = nth_error gs (gi + q)) ->
  exists s' fn' fe', advance_all kGOAL kEPS input dist i j gi gs' s = Some s' /\
    Step i j (flat_map (fun g => if al g i j then flat_map item_edges (advcell fn s i j g) else []) (seq gi (length gs')))
      (fun g b => if memb g (seq gi (length gs')) then if al g i j then adv fn s i j g b else [] else []) s fn fe s' fn' fe'.
Proof.
  intros i j L1 L2. induction gs' as [|g gs' IH]; intros gi s fn fe C IO SUF; cbn [advance_all].
  - exists s, fn, fe. split; [reflexivity|]. apply Step_refl; assumption.
  - assert (AL : al gi i j = has_span g i j (dist i j)) by (unfold al; rewrite <- (Nat.add_0_r gi), <- SUF; reflexivity). rewrite <- AL.
    assert (ST : exists s1 fn1 fe1, (if al gi i j then s' <- AdvanceDots kEPS input gi i j s ;; apply_cell kGOAL i j (act s' gi i j) s' else Some s) = Some s1 /\
      Step i j (if al gi i j then flat_map item_edges (advcell fn s i j gi) else []) (fun g b => if Nat.eqb g gi then if al gi i j then adv fn s i j gi b else [] else []) s fn fe s1 fn1 fe1).
    { destruct (al gi i j).
      - destruct (AdvanceDots_ok gi i j s fn fe C L1 L2) as (s1 & E & U). rewrite E. cbn [bind].
        assert (S1 : Step i j [] (fun g b => if Nat.eqb g gi then adv fn s i j gi b else []) s fn fe s1 fn fe).
        { apply Step_upd; [exact C|exact IO| |exact U]. intros b it I. apply in_app_iff in I. destruct I as [I|I].
          - destruct (Nat.eqb b j); [|destruct I]. eapply NT_ok; eauto.
          - eapply Tm_ok; [|exact I]. intros it' I'. exact (IO _ _ _ _ I'). }
        assert (CELL : act s1 gi i j = advcell fn s i j gi) by (rewrite (sp_act _ _ _ _ _ _ _ _ _ _ S1), !Nat.eqb_refl; reflexivity).
        destruct (apply_cell_ok kGOAL i j (act s1 gi i j) s1 fn fe (sp_core _ _ _ _ _ _ _ _ _ _ S1)) as (s2 & fn2 & fe2 & E2 & G2 & A2).
        + intros it t I. exact (proj1 (sp_items _ _ _ _ _ _ _ _ _ _ S1 _ _ _ _ I) t).
        + intros it r I. exact (item_nongoal _ _ _ _ (sp_items _ _ _ _ _ _ _ _ _ _ S1 _ _ _ _ I)).
        + exists s2, fn2, fe2. split; [exact E2|]. rewrite CELL in A2.
          eapply Step_ext; [| |exact (Step_trans _ _ _ _ _ _ _ _ _ _ _ _ _ _ _ S1 (Step_adds _ _ _ _ _ _ _ _ _ (sp_items _ _ _ _ _ _ _ _ _ _ S1) G2 A2))]; [reflexivity|]. intros g' b. cbn beta. rewrite app_nil_r. reflexivity.
      - exists s, fn, fe. split; [reflexivity|]. eapply Step_ext; [reflexivity| |apply Step_refl; assumption]. intros g' b. cbn. destruct (Nat.eqb g' gi); reflexivity. }
    destruct ST as (s1 & fn1 & fe1 & E & S1). rewrite E. cbn [bind].
    destruct (IH (S gi) s1 fn1 fe1 (sp_core _ _ _ _ _ _ _ _ _ _ S1) (sp_items _ _ _ _ _ _ _ _ _ _ S1)) as (s2 & fn2 & fe2 & E2 & S2).
    { intros q. specialize (SUF (S q)). cbn in SUF. rewrite SUF. f_equal. lia. }
    exists s2, fn2, fe2. split; [exact E2|].
    assert (ADV : forall g' b, g' <> gi -> adv fn1 s1 i j g' b = adv fn s i j g' b).
    { intros g' b NE. unfold adv. destruct (sp_fn _ _ _ _ _ _ _ _ _ _ S1) as (x & ->).
      assert (AC : forall k, act s1 g' i k = act s g' i k). { intros k. rewrite (sp_act _ _ _ _ _ _ _ _ _ _ S1), Nat.eqb_refl. destruct (Nat.eqb_spec g' gi); [contradiction|]. apply app_nil_r. }
      f_equal; [|rewrite AC; reflexivity]. destruct (Nat.eqb b j); [|reflexivity]. unfold NT. apply flat_map_ext_in. intros k K. apply in_seq in K.
      rewrite AC, (sp_chart _ _ _ _ _ _ _ _ _ _ S1) by (intros [=]; lia). apply nts_ext. eapply chart_valid, C. }
    eapply Step_ext; [| |exact (Step_trans _ _ _ _ _ _ _ _ _ _ _ _ _ _ _ S1 S2)].
    + cbn [length seq flat_map]. f_equal. apply flat_map_ext_in. intros g' I. apply in_seq in I. destruct (al g' i j); [|reflexivity]. unfold advcell. rewrite ADV by lia.
      rewrite (sp_act _ _ _ _ _ _ _ _ _ _ S1), Nat.eqb_refl. destruct (Nat.eqb_spec g' gi); [lia|]. rewrite app_nil_r. reflexivity.
    + intros g' b. cbn beta. cbn [length seq memb existsb]. destruct (Nat.eqb_spec g' gi) as [->|NE]; cbn [orb].
      * replace (memb gi (seq (S gi) (length gs'))) with false; [rewrite app_nil_r; reflexivity|]. symmetry. apply not_true_is_false. intros H. apply existsb_exists in H. destruct H as (x & X & Q). apply Nat.eqb_eq in Q. apply in_seq in X. lia.
      * cbn [app]. unfold memb. destruct (existsb (Nat.eqb g') (seq (S gi) (length gs'))); [|reflexivity]. destruct (al g' i j); [|reflexivity]. apply ADV, NE.
Qed.

Lemma extend_all_ok : forall i j, i < j -> forall gs' gi s fn fe, Core s fn fe -> ItemsOK fn s ->
  (forall q, nth_error gs' q = nth_error gs (gi + q)) ->
  exists s', extend_all dist i j gi gs' s = Some s' /\
    Step i j [] (fun g b => if memb g (seq gi (length gs')) then if al g i j then if Nat.eqb b j then nts fn (act s g i i) (chart s i j) else [] else [] else []) s fn fe s' fn fe /\ chart s' = chart s.
Proof.
  intros i j L1. induction gs' as [|g gs' IH]; intros gi s fn fe C IO SUF; cbn [extend_all].
  - exists s. split; [reflexivity|]. split; [|reflexivity]. apply Step_refl; assumption.
  - assert (AL : al gi i j = has_span g i j (dist i j)) by (unfold al; rewrite <- (Nat.add_0_r gi), <- SUF; reflexivity). rewrite <- AL.
    assert (ST : exists s1, (if al gi i j then ExtendActiveItems gi i i j s else Some s) = Some s1 /\
      Step i j [] (fun g b => if Nat.eqb g gi then if al gi i j then if Nat.eqb b j then nts fn (act s gi i i) (chart s i j) else [] else [] else []) s fn fe s1 fn fe /\ chart s1 = chart s).
    { destruct (al gi i j).
      - destruct (ExtendActiveItems_ok gi i i j s fn fe C L1) as (s1 & E & U). exists s1. split; [exact E|]. split; [|exact (up_chart _ _ _ _ _ U)].
        apply Step_upd; [exact C|exact IO| |exact U]. intros b it I. destruct (Nat.eqb b j); [|destruct I]. eapply nts_ok; [|eapply chart_valid, C|exact I]. intros it' I'. exact (IO _ _ _ _ I').
      - exists s. split; [reflexivity|]. split; [|reflexivity]. eapply Step_ext; [reflexivity| |apply Step_refl; assumption]. intros g' b. cbn. destruct (Nat.eqb g' gi); reflexivity. }
    destruct ST as (s1 & E & S1 & CH). rewrite E. cbn [bind].
    destruct (IH (S gi) s1 fn fe (sp_core _ _ _ _ _ _ _ _ _ _ S1) (sp_items _ _ _ _ _ _ _ _ _ _ S1)) as (s2 & E2 & S2 & CH2).
    { intros q. specialize (SUF (S q)). cbn in SUF. rewrite SUF. f_equal. lia. }
    exists s2. split; [exact E2|]. split; [|congruence].
    eapply Step_ext; [| |exact (Step_trans _ _ _ _ _ _ _ _ _ _ _ _ _ _ _ S1 S2)]; [reflexivity|].
    intros g' b. cbn beta. cbn [length seq memb existsb]. destruct (Nat.eqb_spec g' gi) as [->|NE]; cbn [orb].
    + replace (memb gi (seq (S gi) (length gs'))) with false; [rewrite app_nil_r; reflexivity|]. symmetry. apply not_true_is_false. intros H. apply existsb_exists in H. destruct H as (x & X & Q). apply Nat.eqb_eq in Q. apply in_seq in X. lia.
    + cbn [app]. unfold memb. destruct (existsb (Nat.eqb g') (seq (S gi) (length gs'))); [|reflexivity]. destruct (al g' i j); [|reflexivity]. destruct (Nat.eqb b j); [|reflexivity].
      rewrite CH. f_equal. rewrite (sp_act _ _ _ _ _ _ _ _ _ _ S1), Nat.eqb_refl. destruct (Nat.eqb_spec g' gi); [contradiction|]. apply app_nil_r.
Qed.

Lemma al_memb : forall g i j, memb g (seq 0 (length gs)) = false -> al g i j = false.
Proof.
  intros g i j H. unfold al. destruct (nth_error gs g) eqn:Q; [|reflexivity]. assert (L : g < length gs) by (apply nth_error_Some; congruence).
  assert (T : memb g (seq 0 (length gs)) = true); [|congruence]. apply existsb_exists. exists g. split; [apply in_seq; lia|apply Nat.eqb_refl].
Qed.

Lemma span_ok : forall i j s fn fe, i < j -> j <= NN -> Core s fn fe -> ItemsOK fn s -> nodemap s i j = [] ->
  exists s' fn' fe', span kGOAL kEPS input dist gs us i j s = Some s' /\
    Step i j (flat_map (fun g => if al g i j then flat_map item_edges (advcell fn s i j g) else []) (seq 0 (length gs)) ++ flat_map (unary_edges fn') (chart s' i j))
      (fun g b => if al g i j then adv fn s i j g b ++ (if Nat.eqb b j then nts fn' (act s g i i) (chart s' i j) else []) else []) s fn fe s' fn' fe'.
Proof.
  intros i j s fn fe L1 L2 C IO NM. unfold span.
  destruct (advance_ok i j L1 L2 gs 0 s fn fe C IO (fun q => eq_refl)) as (s1 & fn1 & fe1 & E1 & S1). rewrite E1. cbn [bind].
  destruct (ApplyUnaryRules_ok kGOAL us us_nongoal i j s1 fn1 fe1 (sp_core _ _ _ _ _ _ _ _ _ _ S1)) as (s2 & fn2 & fe2 & E2 & G2 & A2).
  { intros c I. apply (sp_keys _ _ _ _ _ _ _ _ _ _ S1) in I. rewrite NM in I. cbn in I. apply in_map_iff in I. destruct I as (((r, sh), tl) & <- & I). cbn.
    apply in_flat_map in I. destruct I as (g & _ & I). destruct (al g i j); [|destruct I]. apply in_flat_map in I. destruct I as (it & I & R).
    unfold item_edges in R. apply in_map_iff in R. destruct R as (r' & [= -> _ _] & R). apply (item_nongoal fn g it); [|exact R]. unfold advcell, adv in I.
    apply in_app_iff in I. destruct I as [I|I]; [exact (IO _ _ _ _ I)|]. rewrite Nat.eqb_refl in I. apply in_app_iff in I. destruct I as [I|I]; [eapply NT_ok; eauto|].
    eapply Tm_ok; [|exact I]. intros it' I'. exact (IO _ _ _ _ I'). }
  rewrite E2. cbn [bind]. pose proof (Step_adds _ _ _ _ _ _ _ _ _ (sp_items _ _ _ _ _ _ _ _ _ _ S1) G2 A2) as S2.
  destruct (extend_all_ok i j L1 gs 0 s2 fn2 fe2 (sp_core _ _ _ _ _ _ _ _ _ _ S2) (sp_items _ _ _ _ _ _ _ _ _ _ S2) (fun q => eq_refl)) as (s3 & E3 & S3 & CH). rewrite E3.
  exists s3, fn2, fe2. split; [reflexivity|]. eapply Step_ext; [| |exact (Step_trans _ _ _ _ _ _ _ _ _ _ _ _ _ _ _ (Step_trans _ _ _ _ _ _ _ _ _ _ _ _ _ _ _ S1 S2) S3)].
  - rewrite app_nil_r, CH. reflexivity.
  - intros g b. cbn beta. rewrite app_nil_r. destruct (memb g (seq 0 (length gs))) eqn:MB; [|rewrite (al_memb g i j MB); reflexivity].
    destruct (al g i j) eqn:ALG; [|reflexivity]. f_equal. destruct (Nat.eqb b j); [|reflexivity]. rewrite CH. f_equal.
    rewrite (sp_act _ _ _ _ _ _ _ _ _ _ S2), (sp_act _ _ _ _ _ _ _ _ _ _ S1), !Nat.eqb_refl, app_nil_r, MB, ALG. unfold adv. destruct (Nat.eqb_spec i j); [lia|]. rewrite Tm_back by lia. rewrite !app_nil_r. reflexivity.
Qed.
End Chart.
