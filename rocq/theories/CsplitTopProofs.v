(** The compound splitter: the whole. *)
From Coq Require Import List ZArith Bool Lia.
From Verif Require Import Opt HG Deriv TopoSpec PruneSpec Rule Parser Constrain ConstrainSpec BuiltProofs Csplit CsplitSpec CsplitProofs CsplitBuildProofs CsplitDerivProofs.
Import ListNotations.
Open Scope opt_scope.
Local Open Scope nat_scope.

Section T.
Variable conv : list nat -> Z.
Variables kXCAT kGOALCAT kHASH fugS fugN : Z.
Hypothesis CI : forall a b, conv a = conv b -> a = b.
Hypothesis CP : forall a, (0 < conv a)%Z.
Hypothesis HP : (0 < kHASH)%Z.
Hypothesis XN : (kXCAT < 0)%Z.
Lemma translate_ok : forall input chars, SplitUTF8String input = Some chars -> input <> [] -> ~ In 32 input ->
  concat chars = input /\ exists g, TranslateImpl conv kXCAT kGOALCAT kHASH fugS fugN input = Some g /\
  (forall t, derives g (goal g) t -> exists ps, splits fugS fugN chars ps /\ reads conv kHASH g t ps) /\
  (forall ps, splits fugS fugN chars ps -> exists t, derives g (goal g) t /\ reads conv kHASH g t ps /\ forall t', derives g (goal g) t' -> reads conv kHASH g t' ps -> t' = t) /\
  exists e, GetFullWordEdgeIndex g = Some e /\ forall t, derives g (goal g) t -> (In e (tree_edges t) <-> reads conv kHASH g t [(chars, None)]).
Proof.
  intros input chars S NE N32. destruct (chars_concat _ _ S) as [C F]. split; [exact C|]. assert (NC : chars <> []) by (intros ->; cbn in C; congruence).
  destruct (build_ok conv kXCAT kGOALCAT kHASH fugS fugN chars NC) as (cs & g & E & B & L). exists g. split.
  - unfold TranslateImpl. destruct (existsb (Nat.eqb 32) input) eqn:X; [|rewrite S; exact E]. exfalso. apply N32. apply existsb_exists in X as (x & I & Q). apply Nat.eqb_eq in Q. subst x. exact I.
  - destruct (derivs_ok conv kXCAT kHASH fugS fugN CI CP HP XN chars NC F cs g B L) as [A1 A2]. split; [exact A1|]. split; [exact A2|]. exact (full_word_ok conv kXCAT kHASH fugS fugN CI CP HP XN chars NC F cs g B L).
Qed.
End T.

(** an injective numbering of the strings *)
Fixpoint code (l : list nat) : positive := match l with [] => xH | x :: r => Nat.iter x xI (xO (code r)) end.
Lemma code_inj : forall a b, code a = code b -> a = b.
Proof.
  induction a as [|x a IH]; intros [|y b] E; try reflexivity.
  - exfalso. cbn [code] in E. destruct y; discriminate.
  - exfalso. cbn [code] in E. destruct x; discriminate.
  - cbn [code] in E. revert y E. induction x as [|x IHx]; intros [|y] E; cbn in E; try discriminate.
    + injection E as E. rewrite (IH b E). reflexivity.
    + injection E as E. apply IHx in E. congruence.
Qed.

(** a stem of two characters: "üüs" *)
Definition ue : list nat := [195; 188].
Definition short_word : list (list nat) := [ue; ue; [115]; [97]; [97]; [97]].
Definition short_split : list piece := [([ue; ue; [115]], Some (ue ++ ue, 7%Z)); ([[97]; [97]; [97]], None)].
Lemma short_splits : splits 7 8 short_word short_split.
Proof.
  split; [reflexivity|]. split; [|split].
  - intros p [<- |[<- |[]]]; left; cbn; lia.
  - intros qs p E. unfold short_split in E. destruct qs as [|q0 [|q1 [|q2 qs]]]; try discriminate. injection E as _ <-. reflexivity.
  - intros w a f [[= <- <- <-]|[[=]|[]]]. change (concat [ue; ue; [115]]) with ((ue ++ ue) ++ [115]). apply l_s; [cbn; lia|]. intros (r & E & _). apply (app_inj_tail [195; 188; 195] r 188 101) in E as [_ E]. discriminate.
Qed.
Lemma stem_refuted : ~ (forall conv kXCAT kGOALCAT kHASH fugS fugN, (forall a b, conv a = conv b -> a = b) -> (forall a, (0 < conv a)%Z) -> (0 < kHASH)%Z -> (kXCAT < 0)%Z ->
  forall chars g t ws, Forall utf8 chars -> 3 <= length chars -> TranslateImpl conv kXCAT kGOALCAT kHASH fugS fugN (concat chars) = Some g -> derives g (goal g) t -> translation g t = Some (kHASH :: ws) ->
  forall w, In w ws -> exists s cs, w = conv s /\ SplitUTF8String s = Some cs /\ 3 <= length cs).
Proof.
  intros H. set (conv := fun l => Zpos (code l)). assert (CI : forall a b, conv a = conv b -> a = b) by (intros a b E; injection E as E; exact (code_inj a b E)). assert (CP : forall a, (0 < conv a)%Z) by (intros a; unfold conv; lia).
  assert (U : Forall utf8 short_word). { assert (UE : utf8 ue) by (exact (u2 3 60 ltac:(lia) ltac:(lia))). assert (UA : forall c, c < 128 -> utf8 [c]) by (intros c L; constructor; exact L). repeat constructor; try exact UE; lia. }
  destruct (translate_ok conv (-1) (-2) 1 7 8 CI CP eq_refl eq_refl (concat short_word) short_word (chars_utf8 _ U)) as (_ & g & E & _ & A & _); [discriminate| |].
  { intros I. cbn in I. repeat destruct I as [I|I]; try discriminate. destruct I. }
  destruct (A short_split short_splits) as (t & D & (_ & T & _) & _).
  destruct (H conv (-1)%Z (-2)%Z 1%Z 7%Z 8%Z CI CP eq_refl eq_refl short_word g t _ U ltac:(cbn; lia) E D T (conv (ue ++ ue))) as (s & cs & W & SP & L); [left; reflexivity|].
  apply CI in W. subst s. vm_compute in SP. injection SP as <-. cbn in L. lia.
Qed.
