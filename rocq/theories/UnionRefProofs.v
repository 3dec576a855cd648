(** Forests to join. *)
From Coq Require Import List Arith ZArith Bool Relations Lia.
From Verif Require Import Opt HG HGProofs Deriv Topo TopoSpec Union UnionSpec UnionProofs UnionSortProofs.
Import ListNotations.
Local Open Scope nat_scope.

Definition lb (w : Z) (p : nat) : ulab unit Z nat := {| u_e := [w]; u_f := [w]; u_rest := tt; u_feats := (100 * w)%Z; u_prob := p |}.
Definition near (a b : Z) : bool := Z.leb (Z.abs (a - b)) 1.
Definition nd_ (i : nat) (c : Z) (ins outs : list nat) : node := {| nid := i; cat := c; in_edges := ins; out_edges := outs |}.
Definition ed_ (i h : nat) (ts : list nat) (l : ulab unit Z nat) : edge (ulab unit Z nat) := {| head := Some h; tails := ts; lab := l; eid := i |}.

(** 71 <- a | b; 75 <- c 71 *)
Definition left_ : hg (ulab unit Z nat) * list Z :=
  ({| nodes := [nd_ 0 1 [0; 1] [2]; nd_ 1 2 [2] []]; edges := [ed_ 0 0 [] (lb 1 5); ed_ 1 0 [] (lb 2 6); ed_ 2 1 [0] (lb 3 7)] |}, [71; 75]%Z).
(** 72 <- d; 71 <- b; 75 <- c 71 | e 72 71 *)
Definition right_ : hg (ulab unit Z nat) * list Z :=
  ({| nodes := [nd_ 0 3 [0] [3]; nd_ 1 1 [1] [2; 3]; nd_ 2 2 [2; 3] []];
      edges := [ed_ 0 0 [] (lb 4 8); ed_ 1 1 [] (lb 2 6); ed_ 2 2 [1] (lb 3 7); ed_ 3 2 [0; 1] (lb 5 9)] |}, [72; 71; 75]%Z).
(** 71 <- a; 72 <- b 71; 75 <- c 72 *)
Definition up_ : hg (ulab unit Z nat) * list Z :=
  ({| nodes := [nd_ 0 1 [0] [1]; nd_ 1 1 [1] [2]; nd_ 2 2 [2] []]; edges := [ed_ 0 0 [] (lb 1 5); ed_ 1 1 [0] (lb 2 6); ed_ 2 2 [1] (lb 3 7)] |}, [71; 72; 75]%Z).
(** 72 <- a; 71 <- b 72; 75 <- c 71 *)
Definition down_ : hg (ulab unit Z nat) * list Z := (fst up_, [72; 71; 75]%Z).

Ltac cases := repeat match goal with
  | H : nth_error _ ?n = Some _ |- _ => is_var n; destruct n; cbn in H; try discriminate
  | H : Some _ = Some _ |- _ => injection H as <-
  | H : In _ _ |- _ => cbn in H
  | H : _ \/ _ |- _ => destruct H as [H|H]; try (subst; cbn in *)
  | H : False |- _ => destruct H
  end.
Ltac gd := match goal with |- good ?f => split; [split; intros; cases; cbn; try lia; repeat constructor; cbn; try tauto; try (eexists; split; [reflexivity|cbn; first [tauto|lia]]); try lia | split; [intros n nd H; cases; (split; [repeat constructor; cbn; intuition lia|]); intros e I; cases; eexists; (split; [reflexivity|]); cbn; intros t T; cases; lia | split; [discriminate|split; [reflexivity|repeat constructor; cbn; intuition lia]]]] end.
Lemma left_good : good left_.
Proof. gd. Qed.
Lemma right_good : good right_.
Proof. gd. Qed.
Lemma up_good : good up_.
Proof. gd. Qed.
Lemma down_good : good down_.
Proof. gd. Qed.
Lemma left_irr : irredundant near left_.
Proof. intros n nd i j e e' ed ed' N LT I J E E' T (M & _). destruct n as [|[|[|n]]]; cbn in N; try discriminate; injection N as <-; destruct i as [|[|[|i]]]; cbn in I; try discriminate; destruct j as [|[|[|j]]]; cbn in J; try discriminate; try lia. injection I as <-. injection J as <-. cbn in E, E'. injection E as <-. injection E' as <-. cbn in M. discriminate. Qed.
Lemma cycle_refuted : exists (input out : hg (ulab unit Z nat) * list Z) h, good input /\ good out /\ goal_hash input h /\ goal_hash out h /\ Union near 0 input out = Some Aborted.
Proof. exists up_, down_, 75%Z. split; [exact up_good|]. split; [exact down_good|]. split; [reflexivity|]. split; [reflexivity|]. vm_compute. reflexivity. Qed.
Lemma union_refused : forall (X F W : Type) (close : F -> F -> bool) (no_prob : W) (input out : hg (ulab X F W) * list Z),
  (nodes (fst out) = [] -> Union close no_prob input out = Some (Joined input)) /\
  (nodes (fst out) <> [] -> ~ NoDup (snd input) \/ ~ NoDup (snd out) -> Union close no_prob input out = Some Aborted) /\
  (nodes (fst out) <> [] -> forall h h', goal_hash input h -> goal_hash out h' -> h <> h' -> Union close no_prob input out = Some Aborted).
Proof.
  intros X F W close no_prob input out. unfold Union. split; [intros ->; reflexivity|]. split.
  - intros NE D. destruct (nodes (fst out)); [congruence|]. destruct (unique (snd input)) eqn:U; [|reflexivity]. cbn [negb]. destruct (unique (snd out)) eqn:V; [|reflexivity]. apply unique_ok in U. apply unique_ok in V. tauto.
  - intros NE h h' GI GO NH. destruct (nodes (fst out)); [congruence|]. destruct (unique (snd input)); [|reflexivity]. cbn [negb]. destruct (unique (snd out)); [|reflexivity]. cbn [negb]. unfold goal_hash in *. rewrite GI, GO. cbn [Opt.bind]. destruct (Z.eqb_spec h' h) as [Q|Q]; [congruence|reflexivity].
Qed.
