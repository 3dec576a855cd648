From Coq Require Import List ZArith Bool Lia Permutation Sorted.
From Verif Require Import Opt OptProofs Fix Precomp PrecompSpec PrecompProofs PrecompIndexProofs Suffix SuffixSpec SuffixLookupProofs RuleEx Intersect IntersectSpec IntersectProofs IntersectLoopProofs IntersectMainProofs RuleFactory RuleFactorySpec.
Import ListNotations.
Open Scope Z_scope.
Open Scope opt_scope.

(** ** Paths *)
Lemma arity_app a b : arity (a ++ b) = arity a + arity b.
Proof.
  unfold arity. rewrite var_pos_app, size_app. f_equal. unfold size. f_equal.
  generalize (0 + Z.of_nat (length a)). intros i. generalize 0. revert i. induction b as [|x b IH]; intros i j; cbn; auto. destruct (0 <=? x); cbn; auto.
Qed.
Lemma arity_word w : 0 <= w -> arity [w] = 0.
Proof. intros H. unfold arity. cbn. destruct (Z.leb_spec 0 w); [reflexivity|lia]. Qed.
Lemma arity_var x : x < 0 -> arity [x] = 1.
Proof. intros H. unfold arity. cbn. destruct (Z.leb_spec 0 x); [lia|reflexivity]. Qed.
Lemma arity_nonneg l : 0 <= arity l.
Proof. apply size_nonneg. Qed.
Lemma arity_cons s r : arity (s :: r) = arity [s] + arity r.
Proof. exact (arity_app [s] r). Qed.
Lemma arity_contig l : arity l = 0 <-> contiguous l.
Proof.
  split.
  - induction l as [|s l IH]; intros H x Hx; [destruct Hx|]. rewrite arity_cons in H. pose proof (arity_nonneg l).
    destruct (Z.lt_ge_cases s 0) as [Hs|Hs]; [rewrite arity_var in H by lia; lia|]. rewrite arity_word in H by lia. destruct Hx as [<-|Hx]; [lia|apply IH; auto].
  - intros H. unfold arity. rewrite (var_pos_contig _ H). reflexivity.
Qed.
Definition shift (l : list Z) : list Z := map (fun x => if x <? 0 then x + 1 else x) l.
Definition suf (p : list Z) : list Z := match p with [] => [] | s :: r => if s <? 0 then shift r else r end.
(** Symbols that stand for the same: equal words, or two nonterminals. *)
Definition sim (l l' : list Z) : Prop := Forall2 (fun a b => (0 <= a /\ a = b) \/ (a < 0 /\ b < 0)) l l'.
Lemma sim_refl l : sim l l.
Proof. induction l; constructor; auto. destruct (Z.lt_ge_cases a 0); [right|left]; lia. Qed.
Lemma sim_sym l l' : sim l l' -> sim l' l.
Proof. induction 1; constructor; auto. intuition lia. Qed.
Lemma sim_shift l : (forall x, In x l -> x < 0 -> x <= -2) -> sim l (shift l).
Proof.
  induction l as [|x l IH]; intros H; cbn; constructor.
  - destruct (Z.ltb_spec x 0); [right|left; lia]. specialize (H x (or_introl eq_refl)). lia.
  - apply IH. intros; apply H; auto. right; auto.
Qed.
Lemma sim_arity l l' : sim l l' -> arity l = arity l'.
Proof.
  induction 1; auto. rewrite (arity_cons x), (arity_cons y), IHForall2. f_equal. destruct H as [[H <-]|[H H']]; auto. rewrite !arity_var; auto.
Qed.
Lemma sim_reads data wid gap l l' : sim l l' -> forall p ps e, reads data wid gap l p ps e -> reads data wid gap l' p ps e.
Proof.
  induction 1; intros p ps e HR; inversion HR; subst; try (constructor; fail).
  - destruct H as [[H <-]|[H H']]; [|lia]. apply reads_word; auto.
  - destruct H as [[H <-]|[H H']]; [lia|]. apply reads_gap; auto.
Qed.
Lemma sim_contig l l' : sim l l' -> contiguous l -> contiguous l'.
Proof. intros H C. apply arity_contig. rewrite <- (sim_arity _ _ H). apply arity_contig. exact C. Qed.
Lemma sim_occ lines wid span gap l l' ps : sim l l' -> occurrence lines wid span gap l ps -> occurrence lines wid span gap l' ps.
Proof.
  intros H (p & rest & e & -> & R & S & C). exists p, rest, e. split; auto. split; [eapply sim_reads; eauto|]. split; auto. destruct C; [left; eapply sim_contig; eauto|auto].
Qed.
Lemma sim_all lines wid span gap l l' occs : sim l l' -> all_occurrences lines wid span gap l occs -> all_occurrences lines wid span gap l' occs.
Proof.
  intros H [N A]. split; auto. intros ps. rewrite A. split; apply sim_occ; auto. apply sim_sym. exact H.
Qed.

Definition core (p : list Z) : list Z := trim_back (trim_front p).
Lemma trim_front_app a b : a <> [] -> trim_front (a ++ b) = trim_front a ++ b.
Proof. destruct a as [|x a]; [congruence|]. cbn. destruct (x <? 0); reflexivity. Qed.
Lemma trim_back_snoc p x : trim_back (p ++ [x]) = if x <? 0 then p else p ++ [x].
Proof. destruct (Z.ltb_spec x 0); [apply trim_back_x|apply trim_back_w]; lia. Qed.
Lemma core_word p w : 0 <= w -> core (p ++ [w]) = trim_front (p ++ [w]).
Proof.
  intros H. unfold core. destruct p as [|x p].
  - cbn. destruct (Z.ltb_spec w 0); [lia|]. apply (trim_back_w [] w H).
  - rewrite trim_front_app by discriminate. apply trim_back_w. exact H.
Qed.
Lemma core_last p : p <> [] -> 0 <= last p 0 -> core p = trim_front p.
Proof. intros Hn Hl. destruct (exists_last Hn) as (q & w & ->). rewrite last_last in Hl. apply core_word. exact Hl. Qed.
Lemma core_var p x : x < 0 -> p <> [] -> 0 <= last p 0 -> core (p ++ [x]) = core p.
Proof.
  intros Hx Hn Hl. rewrite (core_last p Hn Hl). unfold core. rewrite trim_front_app by auto. apply trim_back_x. exact Hx.
Qed.
(** Paths of nodes other than the root and its nonterminal. *)
Definition good (p : list Z) : Prop :=
  spaced p /\ (exists w, In w p /\ 0 <= w) /\ (hd 0 p < 0 -> forall x, In x (tl p) -> x < 0 -> x <= -2).
Lemma good_nonempty p : good p -> p <> [] /\ p <> [-1].
Proof. intros (_ & (w & Hw & H) & _). split; intros ->; [destruct Hw|destruct Hw as [<-|[]]; lia]. Qed.
Lemma spaced_app1 a b : spaced (a ++ b) -> spaced a.
Proof. intros H l1 x y l2 ->. apply (H l1 x y (l2 ++ b)). rewrite <- app_assoc. reflexivity. Qed.
Lemma spaced_app2 a b : spaced (a ++ b) -> spaced b.
Proof. intros H l1 x y l2 ->. apply (H (a ++ l1) x y l2). rewrite <- app_assoc. reflexivity. Qed.
Lemma spaced_snoc_word p w : spaced p -> 0 <= w -> spaced (p ++ [w]).
Proof.
  intros H Hw l1 x y l2 E. destruct l2 as [|z l2] using rev_ind.
  - change (l1 ++ [x; y]) with (l1 ++ [x] ++ [y]) in E. rewrite app_assoc in E. apply app_inj_tail in E. destruct E as [_ <-]. right. exact Hw.
  - clear IHl2. replace (l1 ++ x :: y :: l2 ++ [z]) with ((l1 ++ x :: y :: l2) ++ [z]) in E by (rewrite <- app_assoc; reflexivity).
    apply app_inj_tail in E. destruct E as [-> _]. apply (H l1 x y l2 eq_refl).
Qed.
Lemma spaced_snoc_var p x : spaced p -> p <> [] -> 0 <= last p 0 -> spaced (p ++ [x]).
Proof.
  intros H Hn Hl l1 a b l2 E. destruct l2 as [|z l2] using rev_ind.
  - change (l1 ++ [a; b]) with (l1 ++ [a] ++ [b]) in E. rewrite app_assoc in E. apply app_inj_tail in E. destruct E as [-> _]. left. rewrite last_last in Hl. exact Hl.
  - clear IHl2. replace (l1 ++ a :: b :: l2 ++ [z]) with ((l1 ++ a :: b :: l2) ++ [z]) in E by (rewrite <- app_assoc; reflexivity).
    apply app_inj_tail in E. destruct E as [-> _]. apply (H l1 a b l2 eq_refl).
Qed.
Lemma hd_app (a b : list Z) : a <> [] -> hd 0 (a ++ b) = hd 0 a.
Proof. destruct a; [congruence|reflexivity]. Qed.
Lemma tl_app (a b : list Z) : a <> [] -> tl (a ++ b) = tl a ++ b.
Proof. destruct a; [congruence|reflexivity]. Qed.
Definition pathish (p : list Z) : Prop := p = [] \/ p = [-1] \/ good p.
Lemma good_word p w : pathish p -> 0 <= w -> good (p ++ [w]).
Proof.
  intros H Hw. split; [|split].
  - apply spaced_snoc_word; auto. destruct H as [->|[->|H]]; [intros l1 ? ? ? E; destruct l1; discriminate|intros l1 ? ? ? E; destruct l1 as [|? [|? ?]]; discriminate|apply H].
  - exists w. split; [apply in_app_iff; right; left; auto|auto].
  - destruct H as [->|[->|H]].
    + cbn. lia.
    + cbn. intros _ x [<-|[]]. lia.
    + intros Hh x Hx Hx0. destruct (good_nonempty _ H) as [Hn _]. rewrite hd_app in Hh by auto. rewrite tl_app in Hx by auto. apply in_app_iff in Hx. destruct Hx as [Hx|[<-|[]]]; [|lia].
      apply H; auto.
Qed.
Lemma good_var p : good p -> 0 <= last p 0 -> good (p ++ [- (arity p + 1)]).
Proof.
  intros H Hl. destruct (good_nonempty _ H) as [Hn _]. pose proof (arity_nonneg p). destruct H as (A & (w & Hw & Hw0) & B). split; [|split].
  - apply spaced_snoc_var; auto.
  - exists w. split; auto. apply in_app_iff. auto.
  - intros Hh x Hx Hx0. rewrite hd_app in Hh by auto. rewrite tl_app in Hx by auto. apply in_app_iff in Hx. destruct Hx as [Hx|[<-|[]]]; [apply B; auto|].
    destruct p as [|y p]; [congruence|]. cbn in Hh. rewrite arity_cons, arity_var by lia. pose proof (arity_nonneg p). lia.
Qed.
Lemma suf_word p w : p <> [] -> 0 <= w -> suf (p ++ [w]) = suf p ++ [w].
Proof.
  destruct p as [|s p]; [congruence|]. intros _ H. cbn. destruct (s <? 0); auto. unfold shift. rewrite map_app. cbn. destruct (Z.ltb_spec w 0); [lia|reflexivity].
Qed.
Lemma suf_arity p : good p -> arity (suf p) = arity p - (if hd 0 p <? 0 then 1 else 0).
Proof.
  intros H. destruct (good_nonempty _ H) as [Hn _]. destruct p as [|s p]; [congruence|]. cbn [suf hd]. rewrite arity_cons. destruct (Z.ltb_spec s 0).
  - rewrite arity_var by auto. rewrite <- (sim_arity p (shift p)); [lia|]. apply sim_shift. intros x Hx. apply H; auto.
  - rewrite arity_word by auto. lia.
Qed.
Lemma suf_var p : p <> [] -> suf (p ++ [- (arity p + 1)]) = suf p ++ [- (arity p + b2z (negb (hd 0 p <? 0)))].
Proof.
  destruct p as [|s p]; [congruence|]. intros _. pose proof (arity_nonneg (s :: p)). cbn [suf app hd]. destruct (Z.ltb_spec s 0); cbn [negb b2z].
  - unfold shift. rewrite map_app. cbn [map]. destruct (Z.ltb_spec (- (arity (s :: p) + 1)) 0); [|lia]. do 2 f_equal. lia.
  - reflexivity.
Qed.
Lemma shift_nil l : shift l = [] -> l = [].
Proof. destruct l; auto. discriminate. Qed.
Lemma last_shift l : 0 <= last l 0 -> l <> [] -> 0 <= last (shift l) 0.
Proof.
  intros H Hn. destruct (exists_last Hn) as (q & w & ->). unfold shift. rewrite map_app. cbn [map]. rewrite last_last in *. destruct (Z.ltb_spec w 0); lia.
Qed.
