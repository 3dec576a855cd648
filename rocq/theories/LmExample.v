(** A way to write down small models, and a check that they are well built. *)
From Coq Require Import List ZArith Bool Lia.
Import ListNotations.
From Verif Require Import Opt Lm LmSpec.
Open Scope Z_scope.

Fixpoint assoc {A : Type} (g : ngram) (tab : list (ngram * A)) : option A :=
  match tab with [] => None | (k, v) :: tab' => if list_eq_dec Nat.eq_dec k g then Some v else assoc g tab' end.

Lemma assoc_in {A} g tab (v : A) : assoc g tab = Some v -> In (g, v) tab.
Proof. induction tab as [|(k, u) tab IH]; cbn; [discriminate|]. destruct (list_eq_dec Nat.eq_dec k g) as [->|]; [|auto]. intros H. injection H as ->. auto. Qed.

(** unigrams that are not listed are like [unk] *)
Definition mk (mx n : nat) (unk : weights) (uni tab : list (ngram * weights)) : search :=
  Search mx n (fun w => match assoc [w] uni with Some v => v | None => unk end)
    (fun i g => if Nat.eqb (length g) (i + 2) then assoc g tab else None) (fun g => option_map prob (assoc g tab)).

Definition zero_ok (w : weights) : bool := orb (has_ext w) (backoff w =? 0).
Definition check (m : search) (unk : weights) (uni tab : list (ngram * weights)) : bool :=
  (Nat.leb 2 (order m) && Nat.leb (order m) (max_order m) && zero_ok unk
   && forallb (fun p => zero_ok (snd p)) uni
   && forallb (fun p => let '(g, w) := p in
        Nat.leb 2 (length g) && zero_ok w
        && match entry m (removelast g) with Some v => ext_left v | None => false end
        && match entry m (tl g) with Some v => has_ext v | None => false end) tab)%bool.

Lemma entry_mk mx n unk uni tab g w : entry (mk mx n unk uni tab) g = Some w -> (2 <= length g)%nat ->
  exists w', In (g, w') tab /\ (w = w' \/ w = Wt (prob w') false 0 false (prob w')).
Proof.
  intros H Hl. destruct g as [|a [|b g]]; [cbn in Hl; lia|cbn in Hl; lia|]. unfold entry in H. cbn [mk order middle longest] in H.
  destruct (Nat.ltb (length (a :: b :: g)) n).
  - destruct (Nat.eqb_spec (length (a :: b :: g)) (length (a :: b :: g) - 2 + 2)); [|discriminate]. apply assoc_in in H. exists w. auto.
  - destruct (Nat.eqb (length (a :: b :: g)) n); [|discriminate]. destruct (assoc (a :: b :: g) tab) as [v|] eqn:E; [|discriminate]. cbn in H. injection H as <-. apply assoc_in in E. exists v. auto.
Qed.

Lemma check_ok mx n unk uni tab : check (mk mx n unk uni tab) unk uni tab = true -> well_built (mk mx n unk uni tab).
Proof.
  intros H. unfold check in H. apply andb_prop in H. destruct H as (H & H5). apply andb_prop in H. destruct H as (H & H4). apply andb_prop in H. destruct H as (H & H3). apply andb_prop in H. destruct H as (H1 & H2).
  apply Nat.leb_le in H1. apply Nat.leb_le in H2. rewrite forallb_forall in H4, H5.
  assert (K : forall g w, In (g, w) tab -> (2 <= length g)%nat /\ zero_ok w = true /\ (exists v, entry (mk mx n unk uni tab) (removelast g) = Some v /\ ext_left v = true) /\ (exists v, entry (mk mx n unk uni tab) (tl g) = Some v /\ has_ext v = true)).
  { intros g w Hi. specialize (H5 _ Hi). cbn beta iota in H5. apply andb_prop in H5. destruct H5 as (H5 & Q4). apply andb_prop in H5. destruct H5 as (H5 & Q3). apply andb_prop in H5. destruct H5 as (Q1 & Q2).
    apply Nat.leb_le in Q1. split; [exact Q1|]. split; [exact Q2|]. split.
    - destruct (entry _ (removelast g)) as [v|]; [exists v; auto|discriminate].
    - destruct (entry _ (tl g)) as [v|]; [exists v; auto|discriminate]. }
  constructor.
  - split; assumption.
  - intros g x w Hg He. apply entry_mk in He; [|rewrite app_length; destruct g; [destruct (Hg eq_refl)|cbn; lia]]. destruct He as (w' & Hi & _). destruct (K _ _ Hi) as (_ & _ & Q & _). rewrite removelast_last in Q. exact Q.
  - intros x g w Hg He. apply entry_mk in He; [|destruct g; [destruct (Hg eq_refl)|cbn; lia]]. destruct He as (w' & Hi & _). destruct (K _ _ Hi) as (_ & _ & _ & Q). exact Q.
  - intros g w He Hx. destruct g as [|a [|b g]]; [discriminate| |].
    + cbn in He. injection He as <-. assert (Z0 : zero_ok (match assoc [a] uni with Some v => v | None => unk end) = true).
      { destruct (assoc [a] uni) as [v|] eqn:E; [|exact H3]. apply assoc_in in E. apply (H4 _ E). }
      unfold zero_ok in Z0. rewrite Hx in Z0. apply Z.eqb_eq in Z0. exact Z0.
    + apply entry_mk in He; [|cbn; lia]. destruct He as (w' & Hi & [->| ->]); [|reflexivity]. destruct (K _ _ Hi) as (_ & Z0 & _). unfold zero_ok in Z0. rewrite Hx in Z0. apply Z.eqb_eq in Z0. exact Z0.
Qed.

(** An order-3 model over <unk>, <s>, </s>, a, b = 0, 1, 2, 3, 4. *)
Definition ex_unk : weights := Wt (-50) false 0 false (-50).
Definition ex_uni : list (ngram * weights) :=
  [([1%nat], Wt (-99) false (-4) true (-99)); ([2%nat], Wt (-12) true 0 false (-12));
   ([3%nat], Wt (-10) true (-3) true (-8)); ([4%nat], Wt (-11) true (-2) true (-9))].
Definition ex_tab : list (ngram * weights) :=
  [([3%nat; 1%nat], Wt (-5) false (-1) true (-5)); ([4%nat; 3%nat], Wt (-6) true (-2) true (-4));
   ([2%nat; 4%nat], Wt (-7) true 0 false (-6)); ([4%nat; 3%nat; 1%nat], Wt (-3) false 0 false (-3)); ([2%nat; 4%nat; 3%nat], Wt (-2) false 0 false (-2))].
Definition ex_m : search := mk 6 3 ex_unk ex_uni ex_tab.
(** ... with 10, 11, 12, 13, 14 in the decoder. *)
Definition ex_f : feature := Feature 1%nat 2%nat 11 10 (repeat 0%nat 11 ++ [1; 2; 3; 4]%nat) [].

Lemma ex_built : well_built ex_m.
Proof. apply check_ok. vm_compute. reflexivity. Qed.
Lemma ex_loaded : loaded ex_f 12.
Proof. constructor; try reflexivity. split; discriminate. Qed.

(** The same without rest costs, and with a back-off weight on "a </s>". *)
Definition ex2_tab : list (ngram * weights) :=
  [([3%nat; 1%nat], Wt (-5) false (-1) true (-5)); ([2%nat; 3%nat], Wt (-7) false (-5) true (-7))].
Definition ex2_uni : list (ngram * weights) :=
  [([1%nat], Wt (-99) false (-4) true (-99)); ([2%nat], Wt (-12) true 0 false (-12)); ([3%nat], Wt (-10) true (-3) true (-10))].
Definition ex2_m : search := mk 6 3 ex_unk ex2_uni ex2_tab.
Lemma ex2_built : well_built ex2_m.
Proof. apply check_ok. vm_compute. reflexivity. Qed.
Lemma ex2_ordinary : ordinary ex2_m.
Proof.
  intros g w H. destruct g as [|a [|b g]]; [discriminate| |].
  - change (Some (match assoc [a] ex2_uni with Some v => v | None => ex_unk end) = Some w) in H. destruct (assoc [a] ex2_uni) as [v|] eqn:E; injection H as <-; [|reflexivity].
    apply assoc_in in E. cbn in E. destruct E as [E|[E|[E|[]]]]; injection E as _ <-; reflexivity.
  - apply entry_mk in H; [|cbn; lia]. destruct H as (w' & Hi & H). cbn in Hi. destruct Hi as [Hi|[Hi|[]]]; injection Hi; intros; subst; destruct H as [->| ->]; reflexivity.
Qed.

