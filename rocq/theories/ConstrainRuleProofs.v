(** Proofs for Constrain.v: the rules with their sides exchanged. *)
From Coq Require Import String List ZArith Bool Lia Permutation.
From Verif Require Import Opt OptProofs HG Deriv TopoSpec PruneSpec Rule RuleSpec RuleProofs Parser ParserSpec Constrain ConstrainSpec ConstrainProofs.
Import ListNotations.
Open Scope opt_scope.
Local Open Scope nat_scope.

Lemma nth_upd : forall (a : list Z) i v k, nth_error (Opt.upd a i v) k = if k =? i then (if i <? length a then Some v else None) else nth_error a k.
Proof.
  induction a as [|x r IH]; intros [|i] v [|k]; cbn; try reflexivity.
  - destruct (k =? i); reflexivity.
  - rewrite IH. destruct (k =? i); [|reflexivity]. reflexivity.
Qed.
Lemma upd_len : forall (a : list Z) i v, length (Opt.upd a i v) = length a.
Proof. induction a as [|x r IH]; intros [|i] v; cbn; auto. Qed.
Lemma put_ok : forall (a : list Z) i v, (0 <= i)%Z -> Z.to_nat i < length a -> put a i v = Some (Opt.upd a (Z.to_nat i) v).
Proof. intros a i v P L. unfold put, size. destruct (Z.ltb_spec i 0); [lia|]. destruct (Z.leb_spec (Z.of_nat (length a)) i); [lia|]. reflexivity. Qed.

Section Inv.
Variable cats : list Z.
Variable tl : list nat.
Hypothesis tl_in : forall t, In t tl -> t < length cats.

Definition sym (c : Z) : Z := if (0 <? c)%Z then c else nth (nth (Z.to_nat (- c)) tl 0) cats 0%Z.
Lemma fill_f_ok : forall e tn ntc, (forall c, In c (vars_of e) -> Z.to_nat (- c) < length tl) -> length tn = length tl -> NoDup (vars_of e) ->
  exists tn', fill_f cats tl e tn ntc = Some (map sym e, tn') /\ length tn' = length tn /\
    (forall m c, nth_error (vars_of e) m = Some c -> nth_error tn' (Z.to_nat (- c)) = Some (- (ntc + Z.of_nat m))%Z) /\
    (forall k, ~ In (- Z.of_nat k)%Z (vars_of e) -> nth_error tn' k = nth_error tn k).
Proof.
  induction e as [|c e IH]; intros tn ntc B L ND; cbn [fill_f].
  { exists tn. split; [reflexivity|]. split; [reflexivity|]. split; [intros [|m] c; discriminate|reflexivity]. }
  unfold vars_of in *. cbn [filter] in *. destruct (Z.ltb_spec 0 c) as [P|P].
  - destruct (Z.ltb_spec c 1); [lia|]. destruct (IH tn ntc B L ND) as (tn' & -> & A). cbn [bind]. exists tn'. split; [|exact A]. cbn [map]. unfold sym at 2. destruct (Z.ltb_spec 0 c); [reflexivity|lia].
  - destruct (Z.ltb_spec c 1); [|lia]. inversion ND as [|? ? NI ND']; subst. pose proof (B c (or_introl eq_refl)) as BC.
    rewrite put_ok by lia. cbn [bind]. destruct (nth_error tl (Z.to_nat (- c))) as [t|] eqn:T; [|apply nth_error_None in T; lia]. cbn [bind].
    pose proof (tl_in t (nth_error_In _ _ T)) as TI. destruct (nth_error cats t) as [k|] eqn:K; [|apply nth_error_None in K; lia]. cbn [bind].
    destruct (IH (Opt.upd tn (Z.to_nat (- c)) (- ntc)%Z) (ntc + 1)%Z) as (tn' & -> & A1 & A2 & A3); [intros x X; apply B; right; exact X|rewrite upd_len; exact L|exact ND'|]. cbn [bind].
    exists tn'. split.
    { cbn [map]. unfold sym at 2. destruct (Z.ltb_spec 0 c); [lia|]. rewrite (nth_error_nth _ _ _ T), (nth_error_nth _ _ _ K). reflexivity. }
    rewrite upd_len in A1. split; [exact A1|]. split.
    + intros [|m] x X; cbn [nth_error] in X.
      * injection X as <-. rewrite A3; [|replace (- Z.of_nat (Z.to_nat (- c)))%Z with c by lia; exact NI]. rewrite nth_upd, Nat.eqb_refl. destruct (Nat.ltb_spec (Z.to_nat (- c)) (length tn)); [|lia]. f_equal. lia.
      * rewrite (A2 m x X). f_equal. lia.
    + intros k0 NK. rewrite A3; [|intros I; apply NK; right; exact I]. rewrite nth_upd. destruct (Nat.eqb_spec k0 (Z.to_nat (- c))) as [->|_]; [|reflexivity]. elim NK. left. lia.
Qed.
(** The other side: the words stay, the variables get the places in turn. *)
Fixpoint back (src : list Z) (tn : list Z) : list Z :=
  match src with
  | [] => []
  | c :: r => if (0 <? c)%Z then c :: back r tn else match tn with [] => [] | v :: tn' => v :: back r tn' end
  end.
Lemma fill_e_ok : forall src tn ntc, (0 <= ntc)%Z -> (Z.to_nat ntc + length (vars_of src) = length tn) -> fill_e src tn ntc = Some (back src (skipn (Z.to_nat ntc) tn)).
Proof.
  induction src as [|c r IH]; intros tn ntc P L; [reflexivity|]. cbn [fill_e back]. unfold vars_of in *. cbn [filter] in L. destruct (Z.ltb_spec 0 c) as [Q|Q].
  - destruct (Z.ltb_spec c 1); [lia|]. rewrite IH by assumption. reflexivity.
  - destruct (Z.ltb_spec c 1); [|lia]. cbn [length] in L. unfold Opt.get. destruct (Z.ltb_spec ntc 0); [lia|]. destruct (nth_error tn (Z.to_nat ntc)) as [v|] eqn:V; [|apply nth_error_None in V; lia]. cbn [bind].
    rewrite IH by lia. replace (Z.to_nat (ntc + 1)) with (S (Z.to_nat ntc)) by lia. cbn [bind].
    assert (SK : skipn (Z.to_nat ntc) tn = v :: skipn (S (Z.to_nat ntc)) tn).
    { clear - V. revert V. generalize (Z.to_nat ntc). intros n. revert tn. induction n as [|n IH]; intros [|x l] V; try discriminate; [injection V as ->; reflexivity|]. exact (IH l V). }
    rewrite SK. reflexivity.
Qed.
Lemma back_vars : forall src tn, length (vars_of src) = length tn -> (forall v, In v tn -> (v <= 0)%Z) -> vars_of (back src tn) = tn.
Proof.
  induction src as [|c r IH]; intros tn L B; [destruct tn; [reflexivity|discriminate]|]. cbn [back]. unfold vars_of in *. cbn [filter] in L. destruct (Z.ltb_spec 0 c) as [Q|Q].
  - destruct (Z.ltb_spec c 1); [lia|]. cbn [filter]. destruct (Z.ltb_spec c 1); [lia|]. apply IH; assumption.
  - destruct (Z.ltb_spec c 1); [|lia]. destruct tn as [|v tn]; [discriminate|]. cbn [filter]. pose proof (B v (or_introl eq_refl)). destruct (Z.ltb_spec v 1); [|lia]. f_equal. apply IH; [cbn in L; lia|]. intros x X. apply B. right; exact X.
Qed.
(** The exchanged target side spells what the source side did. *)
Lemma back_target : forall zs' src tn zs r, source_of src zs r -> (forall v, In v tn -> (v <= 0)%Z) ->
  Forall2 (fun v z => nth (Z.to_nat (- v)) zs' [] = z) tn zs -> target_of (back src tn) zs' = r.
Proof.
  intros zs' src tn zs r S. revert tn. induction S as [|c f ys r C S IH|c f y ys r C S IH]; intros tn B F.
  - reflexivity.
  - cbn [back]. destruct (Z.ltb_spec 0 c); [|lia]. unfold target_of. cbn [map concat]. destruct (Z.ltb_spec c 1); [lia|]. cbn [app]. f_equal. apply (IH tn); assumption.
  - cbn [back]. destruct (Z.ltb_spec 0 c); [lia|]. inversion F as [|v z tn' ? V F']; subst. unfold target_of. cbn [map concat]. pose proof (B v (or_introl eq_refl)). destruct (Z.ltb_spec v 1); [|lia]. f_equal. apply (IH tn'); [|exact F']. intros x X. apply B. right; exact X.
Qed.
(** The exchanged source side spells what the target side did. *)
Lemma sym_source : (forall c, In c cats -> (c < 0)%Z) -> forall ys e, (forall c, In c (vars_of e) -> Z.to_nat (- c) < length tl) ->
  source_of (map sym e) (map (fun c => nth (Z.to_nat (- c)) ys []) (vars_of e)) (target_of e ys).
Proof.
  intros CN ys. induction e as [|c e IH]; intros B; [constructor|]. unfold vars_of, target_of in *. cbn [map filter concat] in *. unfold sym at 1. destruct (Z.ltb_spec 0 c) as [Q|Q].
  - destruct (Z.ltb_spec c 1); [lia|]. cbn [app]. constructor; [lia|]. apply IH, B.
  - destruct (Z.ltb_spec c 1); [|lia]. cbn [map]. constructor; [|apply IH; intros x X; apply B; right; exact X].
    assert (H1 : (nth (nth (Z.to_nat (- c)) tl O) cats 0 < 0)%Z); [|lia]. apply CN. apply nth_In. apply tl_in. apply nth_In. apply B. left; reflexivity.
Qed.
Lemma sym_vars : (forall c, In c cats -> (c < 0)%Z) -> forall e, (forall c, In c (vars_of e) -> Z.to_nat (- c) < length tl) -> filter (fun s => (s <? 0)%Z) (map sym e) = map sym (vars_of e) /\ vars_of (map sym e) = map sym (vars_of e).
Proof.
  intros CN. induction e as [|c e IH]; intros B; [split; reflexivity|]. unfold vars_of in *. cbn [map filter] in *. destruct (Z.ltb_spec c 1) as [Q|Q].
  - destruct IH as (I1 & I2); [intros x X; apply B; right; exact X|]. assert (H1 : (sym c < 0)%Z). { unfold sym. destruct (Z.ltb_spec 0 c); [lia|]. apply CN. apply nth_In. apply tl_in. apply nth_In. apply B. left; reflexivity. }
    destruct (Z.ltb_spec (sym c) 0); [|lia]. destruct (Z.ltb_spec (sym c) 1); [|lia]. cbn [map]. rewrite I1, I2. split; reflexivity.
  - destruct IH as (I1 & I2); [exact B|]. assert (H1 : sym c = c). { unfold sym. destruct (Z.ltb_spec 0 c); [reflexivity|lia]. } rewrite H1. destruct (Z.ltb_spec c 0); [lia|]. destruct (Z.ltb_spec c 1); [lia|]. split; assumption.
Qed.
End Inv.

(** ** The rules of the new grammar *)
Record inv_of {X} (cats : list Z) (e : nat) (ed : edge (elab X)) (q : irule X) (tn : list Z) : Prop := {
  io_rid : rid (ir q) = e;
  io_lhs : exists h, head ed = Some h /\ nth_error cats h = Some (lhs (ir q));
  io_rf : rf (ir q) = map (sym cats (tails ed)) (r_e (rule_ (lab ed)));
  io_e : ir_e q = back (r_f (rule_ (lab ed))) tn;
  io_ar : arity (ir q) = Z.of_nat (length (vars_of (r_e (rule_ (lab ed)))));
  io_tn : length tn = length (tails ed);
  io_neg : forall v, In v tn -> (v <= 0)%Z;
  io_at : forall m c, nth_error (vars_of (r_e (rule_ (lab ed)))) m = Some c -> nth_error tn (Z.to_nat (- c)) = Some (- Z.of_nat m)%Z;
  io_feats : ir_feats q = feats_ (lab ed);
  io_pi : ir_prev_i q = i_ (lab ed);
  io_pj : ir_prev_j q = j_ (lab ed);
  io_parent : ir_parent q = Some (rule_ (lab ed));
  io_wf : RuleSpec.wf_rule (ir_e q) (rf (ir q)) }.

Lemma perm_nodup : forall n, NoDup (map (fun k => - Z.of_nat k)%Z (seq 0 n)).
Proof. intros n. apply FinFun.Injective_map_NoDup; [|apply seq_NoDup]. intros a b E. lia. Qed.
Lemma invert_ok : forall (X : Type) (cats : list Z) (e : nat) (ed : edge (elab X)), (forall c, In c cats -> (c < 0)%Z) -> (exists h, head ed = Some h /\ h < length cats) -> (forall t, In t (tails ed) -> t < length cats) ->
  RuleSpec.wf_rule (r_e (rule_ (lab ed))) (r_f (rule_ (lab ed))) -> length (tails ed) = length (vars_of (r_f (rule_ (lab ed)))) -> length (tails ed) <= 127 ->
  exists q tn, invert cats (e, ed) = Some q /\ inv_of cats e ed q tn.
Proof.
  intros X cats e ed CN (h & HD & HL) TI W LT L127. pose proof (wf_vars _ _ W) as (V1 & V2). unfold invert. cbn [fst snd]. rewrite HD. cbn [bind].
  destruct (nth_error cats h) as [c|] eqn:C; [|apply nth_error_None in C; lia]. cbn [bind].
  set (te := r_e (rule_ (lab ed))) in *. set (sf := r_f (rule_ (lab ed))) in *.
  assert (ND : NoDup (vars_of te)) by (apply (Permutation_NoDup (Permutation_sym W)), perm_nodup).
  destruct (fill_f_ok cats (tails ed) TI te (repeat 0%Z (length (tails ed))) 0) as (tn & -> & A1 & A2 & A3); [rewrite LT; exact V2|apply repeat_length|exact ND|]. cbn [bind].
  rewrite repeat_length in A1. cbn [Z.add] in A2.
  rewrite fill_e_ok; [|lia|cbn [Z.to_nat Nat.add]; lia]. cbn [bind Z.to_nat skipn].
  assert (LV : length (vars_of te) = length (tails ed)) by lia.
  (* every entry of tn is the place of a variable *)
  assert (AT : forall k, k < length tn -> exists m, m < length tn /\ nth_error tn k = Some (- Z.of_nat m)%Z).
  { intros k K. assert (I : In (- Z.of_nat k)%Z (vars_of te)) by (apply in_vars; split; [apply (wf_has _ _ _ W); lia|lia]). apply In_nth_error in I as (m & M). exists m. split; [|pose proof (A2 m _ M) as H; replace (Z.to_nat (- - Z.of_nat k)) with k in H by lia; exact H].
    assert (m < length (vars_of te)) by (apply nth_error_Some; congruence). lia. }
  assert (NEG : forall v, In v tn -> (v <= 0)%Z). { intros v I. apply In_nth_error in I as (k & K). assert (k < length tn) by (apply nth_error_Some; congruence). destruct (AT k H) as (m & _ & M). rewrite K in M. injection M as ->. lia. }
  assert (WF : RuleSpec.wf_rule (back sf tn) (map (sym cats (tails ed)) te)).
  { unfold RuleSpec.wf_rule. rewrite back_vars by (auto; lia). destruct (sym_vars cats (tails ed) TI CN te) as (_ & ->); [rewrite LT; exact V2|]. rewrite map_length. apply Permutation_sym. apply NoDup_Permutation_bis; [apply perm_nodup|rewrite map_length, seq_length; lia|].
    intros v I. apply in_map_iff in I as (m & <- & M). apply in_seq in M. destruct (nth_error (vars_of te) m) as [x|] eqn:N; [|apply nth_error_None in N; lia]. exact (nth_error_In _ _ (A2 m x N)). }
  eexists _, tn. split; [reflexivity|]. constructor; cbn; auto.
  - exists h. auto.
  - rewrite (arity_ok _ _ WF); (destruct (sym_vars cats (tails ed) TI CN te) as (_ & ->); [rewrite LT; exact V2|]); rewrite map_length; [reflexivity|lia].
Qed.
Lemma inv_det : forall (X : Type) cats e (ed : edge (elab X)) q, invert cats (e, ed) = Some q -> forall q', invert cats (e, ed) = Some q' -> q = q'.
Proof. intros. congruence. Qed.
(** All of them *)
Lemma invert_all_ok : forall (X : Type) (cats : list Z) (g : hg (elab X)), (forall c, In c cats -> (c < 0)%Z) -> length cats = length (nodes g) -> wf_hg g -> rules_ok g ->
  exists rs, invert_all cats (edges g) = Some rs /\ length rs = length (edges g) /\
    forall e ed, nth_error (edges g) e = Some ed -> exists q tn, nth_error rs e = Some q /\ inv_of cats e ed q tn.
Proof.
  intros X cats g CN LC WF RO. unfold invert_all.
  assert (H : forall e ed, nth_error (edges g) e = Some ed -> exists q tn, invert cats (e, ed) = Some q /\ inv_of cats e ed q tn).
  { intros e ed E. destruct (RO e ed E) as (W & LT & L). apply invert_ok; auto; [destruct (wf_head g WF e ed E) as (h & A & B); exists h; split; [exact A|lia]|]. intros t T. pose proof (wf_tails g WF e ed t E T). lia. }
  destruct (map_opt_all _ _ (invert cats) (combine (seq 0 (length (edges g))) (edges g))) as (rs & M).
  { intros (e, ed) I. apply In_nth_error in I as (k & K). rewrite nth_combine_seq in K. destruct (nth_error (edges g) k) as [ed'|] eqn:N; [|discriminate]. cbn in K. injection K as <- <-. destruct (H k ed' N) as (q & _ & Q & _). eauto. }
  exists rs. split; [exact M|]. apply map_opt_iff in M. split.
  { pose proof (F2_len _ _ _ _ _ M) as L. rewrite combine_length, seq_length in L. lia. }
  intros e ed E. assert (K : nth_error (combine (seq 0 (length (edges g))) (edges g)) e = Some (e, ed)) by (rewrite nth_combine_seq, E; reflexivity).
  destruct (F2_nth _ _ _ _ _ M _ _ K) as (q & Q & I). destruct (H e ed E) as (q' & tn & I' & IO). rewrite I in I'. injection I' as <-. eauto.
Qed.
