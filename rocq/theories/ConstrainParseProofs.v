(** Proofs for Constrain.v: derivations of the forest with paths through the lattice are the
    parses with the exchanged rules. *)
From Coq Require Import String List ZArith Bool Lia Permutation.
From Verif Require PruneProofs.
From Verif Require Import Opt OptProofs HG Deriv TopoSpec PruneSpec Rule RuleSpec RuleProofs Parser ParserSpec Constrain ConstrainSpec ConstrainProofs ConstrainRuleProofs.
Import ListNotations.
Open Scope opt_scope.
Local Open Scope nat_scope.

Scheme parses_mut := Minimality for parses Sort Prop with covers_mut := Minimality for covers Sort Prop.
Combined Scheme parses_covers_ind from parses_mut, covers_mut.

Lemma path_le : forall lat i j p ws, arcs_ok lat -> path lat i j p ws -> i <= j /\ (ws <> [] -> i < j) /\ (i < j -> j <= length lat) /\ length p = length ws.
Proof.
  intros lat i j p ws A P. induction P as [i|i a x j p ws AT P IH].
  - split; [lia|]. split; [congruence|]. split; [lia|reflexivity].
  - destruct AT as (arcs & N & I). apply nth_error_In in I. destruct (A i arcs x N I) as (L1 & L2). destruct IH as (I1 & I2 & I3 & I4). split; [lia|]. split; [lia|]. split; [|cbn; lia]. intros _. destruct (Nat.eq_dec (i + len x) j); [lia|]. apply I3. lia.
Qed.
Lemma path_app : forall lat i k p ws, path lat i k p ws -> forall j p' ws', path lat k j p' ws' -> path lat i j (p ++ p') (ws ++ ws').
Proof. intros lat i k p ws P. induction P as [i|i a x k p ws AT P IH]; intros j p' ws' Q; [exact Q|]. cbn. constructor 2 with (1 := AT). apply IH, Q. Qed.
Lemma path_split : forall lat ws1 ws2 i j p, path lat i j p (ws1 ++ ws2) -> exists k p1 p2, p = p1 ++ p2 /\ path lat i k p1 ws1 /\ path lat k j p2 ws2.
Proof.
  intros lat. induction ws1 as [|w ws1 IH]; intros ws2 i j p P; cbn [app] in P; [exists i, [], p; split; [reflexivity|split; [constructor|exact P]]|].
  inversion P as [|? a x ? p' ? AT P']; subst. destruct (IH _ _ _ _ P') as (k & p1 & p2 & -> & A & B). exists k, ((i, a) :: p1), p2. split; [reflexivity|]. split; [|exact B]. econstructor; eassumption.
Qed.

Lemma F2_build : forall (A B : Type) (R : A -> B -> Prop) (l : list A) (m : list B), length l = length m -> (forall k x y, nth_error l k = Some x -> nth_error m k = Some y -> R x y) -> Forall2 R l m.
Proof.
  induction l as [|x l IH]; intros [|y m] L H; try discriminate; [constructor|]. constructor; [exact (H 0 x y eq_refl eq_refl)|]. apply IH; [cbn in L; lia|]. intros k. exact (H (S k)).
Qed.

Section M.
Context {X : Type}.
Variable h : hg (elab X).
Variable cats : list Z.
Variable rs : list (irule X).
Variable lat : list (list arc).
Variable kEPS : Z.
Variable ok : nat -> nat -> bool.
Hypothesis wf : wf_hg h.
Hypothesis tp : topo h.
Hypothesis linked : forall e ed n, nth_error (edges h) e = Some ed -> head ed = Some n -> exists nd, nth_error (nodes h) n = Some nd /\ In e (in_edges nd).
Hypothesis ro : rules_ok h.
Hypothesis nodel : no_deletion h.
Hypothesis cats_len : length cats = length (nodes h).
Hypothesis cats_neg : forall c, In c cats -> (c < 0)%Z.
Hypothesis cats_inj : forall i j c, nth_error cats i = Some c -> nth_error cats j = Some c -> i = j.
Hypothesis rs_len : length rs = length (edges h).
Hypothesis rs_ok : forall e ed, nth_error (edges h) e = Some ed -> exists q tn, nth_error rs e = Some q /\ inv_of cats e ed q tn.
Hypothesis arcs : arcs_ok lat.
Hypothesis no_eps : forall p a x, arc_at lat p a x -> label x <> kEPS.
Hypothesis pos : forall p a x, arc_at lat p a x -> (0 < label x)%Z.
Hypothesis ok_path : forall i j p ws, path lat i j p ws -> ws <> [] -> ok i j = true.

Let gs : list (list rule * (nat -> nat -> bool)) := [(map ir rs, ok)].
Let us := filter IsUnary (map ir rs).

(** A derivation and a path, read as a parse *)
Inductive pt : tree -> nat -> nat -> list (nat * nat) -> parse -> Prop :=
| pt_node e ed q ts i j p st : nth_error (edges h) e = Some ed -> nth_error rs e = Some q -> length ts = length (tails ed) ->
    ptw ts (r_e (rule_ (lab ed))) i j p st -> pt (Tree e ts) i j p (PT (ir q) st)
with ptw : list tree -> list Z -> nat -> nat -> list (nat * nat) -> list (nat * nat + parse) -> Prop :=
| pw_nil ts i : ptw ts [] i i [] []
| pw_word ts w e i a x j p st : (0 < w)%Z -> arc_at lat i a x -> label x = w -> ptw ts e (i + len x) j p st -> ptw ts (w :: e) i j ((i, a) :: p) (inl (i, a) :: st)
| pw_var ts c e i k j s d p1 p2 st : (c <= 0)%Z -> nth_error ts (Z.to_nat (- c)) = Some s -> pt s i k p1 d -> ptw ts e k j p2 st -> ptw ts (c :: e) i j (p1 ++ p2) (inr d :: st).
Scheme pt_mut := Minimality for pt Sort Prop with ptw_mut := Minimality for ptw Sort Prop.
Combined Scheme pt_ptw_ind from pt_mut, ptw_mut.

Lemma rule_in : forall e q, nth_error rs e = Some q -> In (ir q) (map ir rs).
Proof. intros e q N. apply in_map. exact (nth_error_In _ _ N). Qed.
Lemma rule_from : forall r, In r (map ir rs) -> exists e ed q tn, nth_error (edges h) e = Some ed /\ nth_error rs e = Some q /\ ir q = r /\ inv_of cats e ed q tn.
Proof.
  intros r I. apply in_map_iff in I as (q & <- & I). apply In_nth_error in I as (e & E). assert (L : e < length rs) by (apply nth_error_Some; congruence). rewrite rs_len in L. apply nth_error_Some in L.
  destruct (nth_error (edges h) e) as [ed|] eqn:N; [|congruence]. destruct (rs_ok e ed N) as (q' & tn & Q & IO). assert (q' = q) by congruence. subst q'. exists e, ed, q, tn. auto.
Qed.
Lemma unary_var : forall e ed q tn, nth_error (edges h) e = Some ed -> inv_of cats e ed q tn ->
  (IsUnary (ir q) = true <-> exists c, (c <= 0)%Z /\ r_e (rule_ (lab ed)) = [c]).
Proof.
  intros e ed q tn N IO. unfold IsUnary. rewrite andb_true_iff, Z.eqb_eq, Nat.eqb_eq, (io_ar _ _ _ _ _ IO), (io_rf _ _ _ _ _ IO), map_length. split.
  - intros (A & L). destruct (r_e (rule_ (lab ed))) as [|c [|? ?]]; try discriminate. exists c. split; [|reflexivity]. unfold vars_of in A. cbn [filter] in A. destruct (Z.ltb_spec c 1); [lia|]. discriminate.
  - intros (c & C & ->). split; [|reflexivity]. unfold vars_of. cbn [filter]. destruct (Z.ltb_spec c 1); [reflexivity|lia].
Qed.
Lemma unary_zero : forall e ed c, nth_error (edges h) e = Some ed -> (c <= 0)%Z -> r_e (rule_ (lab ed)) = [c] -> c = 0%Z /\ length (tails ed) = 1.
Proof.
  intros e ed c N C E. destruct (ro e ed N) as (W & L & _). pose proof (wf_vars _ _ W) as (V1 & V2). rewrite E in *. assert (VV : vars_of [c] = [c]) by (unfold vars_of; cbn [filter]; destruct (Z.ltb_spec c 1); [reflexivity|lia]).
  rewrite VV in *. cbn [length] in V1. split; [|lia]. specialize (V2 c (or_introl eq_refl)). lia.
Qed.

Lemma covers_inv : forall i j st f, covers kEPS lat gs us i j st f -> (st = [] /\ f = [] /\ i = j) \/
  (exists a x st' f', st = inl (i, a) :: st' /\ f = label x :: f' /\ arc_at lat i a x /\ covers kEPS lat gs us (i + len x) j st' f') \/
  (exists k d c st' f', st = inr d :: st' /\ f = c :: f' /\ parses kEPS lat gs us d i k c /\ covers kEPS lat gs us k j st' f').
Proof.
  intros i j st f C. destruct C as [i|i a x j st f AT NE C|i a x j st f AT EQ C|i k j d c st f P C].
  - left. auto.
  - right. left. exists a, x, st, f. auto.
  - elim (no_eps _ _ _ AT EQ).
  - right. right. exists k, d, c, st, f. auto.
Qed.
(** ** From derivations to parses *)
Lemma cat_of : forall n, n < length (nodes h) -> exists c, nth_error cats n = Some c.
Proof. intros n L. rewrite <- cats_len in L. apply nth_error_Some in L. destruct (nth_error cats n); [eauto|congruence]. Qed.
Lemma covers_of : forall tl ts ys, Forall2 (fun n t => n < length (nodes h) /\ derives h n t) tl ts -> Forall2 (fun t y => translation h t = Some y) ts ys ->
  (forall t, In t ts -> forall n ws i j p, derives h n t -> translation h t = Some ws -> path lat i j p ws -> exists d c, pt t i j p d /\ nth_error cats n = Some c /\ parses kEPS lat gs us d i j c) ->
  forall e i j p, (forall c, In c (vars_of e) -> Z.to_nat (- c) < length tl) -> path lat i j p (target_of e ys) ->
  exists st, ptw ts e i j p st /\ covers kEPS lat gs us i j st (map (sym cats tl) e).
Proof.
  intros tl ts ys F FY IH. induction e as [|c e IHe]; intros i j p B P.
  - inversion P; subst. exists []. split; constructor.
  - unfold target_of in P. cbn [map concat] in P. fold (target_of e ys) in P. cbn [map]. unfold vars_of in B. cbn [filter] in B. unfold sym at 1. destruct (Z.ltb_spec c 1) as [C|C].
    + destruct (Z.ltb_spec 0 c); [lia|]. apply path_split in P as (k & p1 & p2 & -> & P1 & P2).
      destruct (IHe k j p2 ltac:(intros x X0; apply B; right; exact X0) P2) as (st & W & CV). pose proof (B c (or_introl eq_refl)) as BC. apply nth_error_Some in BC.
      destruct (nth_error tl (Z.to_nat (- c))) as [n|] eqn:N; [|congruence]. destruct (F2_nth _ _ _ _ _ F _ _ N) as (t & T & LN & D). destruct (F2_nth _ _ _ _ _ FY _ _ T) as (y & Y & TY).
      rewrite (nth_error_nth _ _ _ Y) in P1. destruct (IH t (nth_error_In _ _ T) n y i k p1 D TY P1) as (d & cc & PT & CN & PS). exists (inr d :: st). split; [econstructor; eauto; lia|].
      rewrite (nth_error_nth _ _ _ N), (nth_error_nth _ _ _ CN). econstructor; eassumption.
    + destruct (Z.ltb_spec 0 c); [|lia]. cbn [app] in P. inversion P as [|? a x ? p' ? AT P' E1 E2 E3]; subst. destruct (IHe _ _ _ B P') as (st & W & CV). exists (inl (i, a) :: st). split; [apply (pw_word ts (label x) e i a x j p' st); [lia|exact AT|reflexivity|exact W]|].
      apply (c_word kEPS lat gs us i a x); [exact AT|exact (no_eps _ _ _ AT)|exact CV].
Qed.
Lemma target_ne : forall t n ws, derives h n t -> translation h t = Some ws -> ws <> [].
Proof.
  intros t. induction t as [e ts IH] using tree_ind'. intros n ws D T. inversion D as [? nd ? ed ? N I E F]; subst. pose proof (F2_len _ _ _ _ _ F) as L.
  apply (translation_tree h e ed ts ws E ro (eq_sym L)) in T as (ys & FY & _ & ->). pose proof (nodel e ed E) as NE. destruct (ro e ed E) as (W & LT & _). pose proof (wf_vars _ _ W) as (V1 & V2).
  destruct (r_e (rule_ (lab ed))) as [|c r]; [congruence|]. unfold target_of. cbn [map concat]. unfold vars_of in V2 at 1. cbn [filter] in V2. destruct (Z.ltb_spec c 1) as [C|C]; [|discriminate].
  pose proof (V2 c (or_introl eq_refl)) as BC. rewrite <- LT, L in BC. apply nth_error_Some in BC. destruct (nth_error ts (Z.to_nat (- c))) as [t|] eqn:T; [|congruence]. destruct (F2_nth _ _ _ _ _ FY _ _ T) as (y & Y & TY).
  destruct (F2_nth_r _ _ _ _ _ F _ _ T) as (m & _ & DM). rewrite Forall_forall in IH. pose proof (IH t (nth_error_In _ _ T) m y DM TY) as YN. rewrite (nth_error_nth _ _ _ Y). destruct y; [congruence|discriminate].
Qed.
Lemma to_parse : forall t n ws i j p, derives h n t -> translation h t = Some ws -> path lat i j p ws ->
  exists d c, pt t i j p d /\ nth_error cats n = Some c /\ parses kEPS lat gs us d i j c.
Proof.
  intros t. induction t as [e ts IH] using tree_ind'. intros n ws i j p D T P. pose proof (target_ne _ _ _ D T) as WN. inversion D as [? nd ? ed ? N I E F]; subst. pose proof (F2_len _ _ _ _ _ F) as L.
  pose proof T as T0. apply (translation_tree h e ed ts ws E ro (eq_sym L)) in T as (ys & FY & _ & ->). rewrite Forall_forall in IH. destruct (ro e ed E) as (W & LT & _). pose proof (wf_vars _ _ W) as (V1 & V2).
  destruct (covers_of (tails ed) ts ys) with (e := r_e (rule_ (lab ed))) (i := i) (j := j) (p := p) as (st & PW & CV); [|exact FY|intros t TI; intros; eapply IH; eassumption|rewrite LT; exact V2|exact P|].
  { clear - F E wf. pose proof (fun t => wf_tails h wf e ed t E) as TB. revert TB. induction F as [|x y l m D F IH]; intros TB; constructor; [split; [apply TB; left; reflexivity|exact D]|]. apply IH. intros t T. apply TB. right; exact T. }
  destruct (rs_ok e ed E) as (q & tn & Q & IO). exists (PT (ir q) st), (lhs (ir q)). split; [econstructor; eauto|].
  destruct (wf_in h wf n nd e N I) as (ed' & E' & HD). assert (ed' = ed) by congruence. subst ed'. destruct (io_lhs _ _ _ _ _ IO) as (hh & HD' & CH). assert (hh = n) by congruence. subst hh. split; [exact CH|].
  rewrite <- (io_rf _ _ _ _ _ IO) in CV. destruct (IsUnary (ir q)) eqn:U.
  - pose proof (proj1 (unary_var e ed q tn E IO) U) as (c & C & RE). rewrite (io_rf _ _ _ _ _ IO), RE in CV. cbn [map] in CV. apply covers_inv in CV as [(_ & E1 & _)|[(a & x & st' & f' & -> & _ & AT & _)|(k & d & c' & st' & f' & -> & E1 & PD & CV')]].
    + discriminate.
    + exfalso. rewrite RE in PW. inversion PW; subst; lia.
    + injection E1 as <- <-. apply covers_inv in CV' as [(-> & _ & ->)|[(? & ? & ? & ? & _ & E1 & _)|(? & ? & ? & ? & ? & _ & E1 & _)]]; [|discriminate E1..].
      apply (ps_unary kEPS lat gs us (ir q) d i j (sym cats (tails ed) c)); [apply filter_In; split; [exact (rule_in _ _ Q)|exact U]|rewrite (io_rf _ _ _ _ _ IO), RE; reflexivity|exact PD].
  - apply (ps_rule kEPS lat gs us (map ir rs) ok (ir q) st i j); [left; reflexivity|exact (rule_in _ _ Q)|exact U| |exact (ok_path _ _ _ _ P WN)|exact CV]. destruct (path_le _ _ _ _ _ arcs P) as (_ & H & _). exact (H WN).
Qed.

(** ** From parses to derivations *)
Lemma arrange : forall (e : list Z) n (ss : list tree), NoDup (vars_of e) -> length (vars_of e) = length ss -> (forall k, k < n -> In (- Z.of_nat k)%Z (vars_of e)) -> (forall c, In c (vars_of e) -> Z.to_nat (- c) < n) ->
  exists ts, length ts = n /\ forall m c, nth_error (vars_of e) m = Some c -> nth_error ts (Z.to_nat (- c)) = nth_error ss m.
Proof.
  intros e n ss ND LS ALL IN. destruct (PruneProofs.choose_all nat tree (fun k t => exists m, nth_error (vars_of e) m = Some (- Z.of_nat k)%Z /\ nth_error ss m = Some t) (seq 0 n)) as (ts & F).
  { intros k K. apply in_seq in K. destruct (In_nth_error _ _ (ALL k ltac:(lia))) as (m & M). assert (L : m < length ss) by (rewrite <- LS; apply nth_error_Some; congruence). apply nth_error_Some in L. destruct (nth_error ss m) as [t|] eqn:T; [|congruence]. exists t, m. auto. }
  exists ts. split; [rewrite <- (F2_len _ _ _ _ _ F); apply seq_length|]. intros m c C. pose proof (IN c (nth_error_In _ _ C)) as B. pose proof (proj1 (in_vars _ _) (nth_error_In _ _ C)) as (_ & CN).
  assert (K : nth_error (seq 0 n) (Z.to_nat (- c)) = Some (Z.to_nat (- c))) by (rewrite nth_error_nth' with (d := 0) by (rewrite seq_length; exact B); rewrite seq_nth by exact B; reflexivity).
  destruct (F2_nth _ _ _ _ _ F _ _ K) as (t & T & m' & M' & S). rewrite T, <- S. f_equal. replace (- Z.of_nat (Z.to_nat (- c)))%Z with c in M' by lia.
  apply (NoDup_nth_error (vars_of e)); [exact ND|apply nth_error_Some; congruence|congruence].
Qed.
Lemma sym_neg : forall tl c, (forall t, In t tl -> t < length cats) -> (c <= 0)%Z -> Z.to_nat (- c) < length tl -> (sym cats tl c < 0)%Z /\ exists n, nth_error tl (Z.to_nat (- c)) = Some n /\ nth_error cats n = Some (sym cats tl c).
Proof.
  intros tl c TI C L. unfold sym. destruct (Z.ltb_spec 0 c); [lia|]. apply nth_error_Some in L. destruct (nth_error tl (Z.to_nat (- c))) as [n|] eqn:N; [|congruence]. rewrite (nth_error_nth _ _ _ N).
  pose proof (TI n (nth_error_In _ _ N)) as B. apply nth_error_Some in B. destruct (nth_error cats n) as [k|] eqn:K; [|congruence]. rewrite (nth_error_nth _ _ _ K). split; [exact (cats_neg _ (nth_error_In _ _ K))|exists n; auto].
Qed.
Lemma edge_facts : forall e ed, nth_error (edges h) e = Some ed -> (forall t, In t (tails ed) -> t < length cats) /\ (forall c, In c (vars_of (r_e (rule_ (lab ed)))) -> Z.to_nat (- c) < length (tails ed)) /\
  NoDup (vars_of (r_e (rule_ (lab ed)))) /\ length (vars_of (r_e (rule_ (lab ed)))) = length (tails ed) /\ (forall k, k < length (tails ed) -> In (- Z.of_nat k)%Z (vars_of (r_e (rule_ (lab ed))))).
Proof using wf ro cats_len.
  clear rs_len rs_ok.
  intros e ed N. destruct (ro e ed N) as (W & L & _). pose proof (wf_vars _ _ W) as (V1 & V2). split; [intros t T; rewrite cats_len; exact (wf_tails h wf e ed t N T)|]. split; [rewrite L; exact V2|].
  split; [apply (Permutation_NoDup (Permutation_sym W)), perm_nodup|]. split; [lia|]. intros k K. apply in_vars. split; [apply (wf_has _ _ _ W); lia|lia].
Qed.
Lemma node_in : forall e ed q tn ts, nth_error (edges h) e = Some ed -> inv_of cats e ed q tn -> Forall2 (derives h) (tails ed) ts -> exists n, nth_error cats n = Some (lhs (ir q)) /\ derives h n (Tree e ts).
Proof.
  intros e ed q tn ts E IO F. destruct (io_lhs _ _ _ _ _ IO) as (n & HD & C). destruct (linked e ed n E HD) as (nd & N & I). exists n. split; [exact C|]. econstructor; eassumption.
Qed.
Lemma from_parse :
  (forall d i j c, parses kEPS lat gs us d i j c -> exists n t p, nth_error cats n = Some c /\ derives h n t /\ pt t i j p d) /\
  (forall i j st f, covers kEPS lat gs us i j st f -> forall tl e, (forall t, In t tl -> t < length cats) -> f = map (sym cats tl) e -> (forall c, In c (vars_of e) -> Z.to_nat (- c) < length tl) ->
     exists ss, Forall2 (fun c t => derives h (nth (Z.to_nat (- c)) tl 0) t) (vars_of e) ss /\
       forall ts, (forall m c, nth_error (vars_of e) m = Some c -> nth_error ts (Z.to_nat (- c)) = nth_error ss m) -> exists p, ptw ts e i j p st).
Proof.
  apply parses_covers_ind.
  - intros rs' ok' r st i j I R U L OK C IH. destruct I as [[= <- <-]|[]]. destruct (rule_from r R) as (e & ed & q & tn & E & Q & <- & IO). destruct (edge_facts e ed E) as (TI & VI & ND & LV & ALL).
    destruct (IH (tails ed) (r_e (rule_ (lab ed))) TI (io_rf _ _ _ _ _ IO) VI) as (ss & FS & B). destruct (arrange _ (length (tails ed)) ss ND (F2_len _ _ _ _ _ FS) ALL VI) as (ts & LT & AT).
    destruct (B ts AT) as (p & PW). destruct (node_in e ed q tn ts E IO) as (n & CN & D).
    { apply F2_build; [lia|]. intros k x t XK TK. assert (KL : k < length (tails ed)) by (apply nth_error_Some; congruence). destruct (In_nth_error _ _ (ALL k KL)) as (m & M). pose proof (AT m _ M) as H. replace (Z.to_nat (- - Z.of_nat k)) with k in H by lia. rewrite TK in H.
      destruct (F2_nth_r _ _ _ _ _ FS m t (eq_sym H)) as (c & C' & D). assert (c = (- Z.of_nat k)%Z) by congruence. subst c. replace (Z.to_nat (- - Z.of_nat k)) with k in D by lia. rewrite (nth_error_nth _ _ _ XK) in D. exact D. }
    exists n, (Tree e ts), p. split; [exact CN|]. split; [exact D|]. econstructor; eauto.
  - intros r d i j c R RF _ (n' & t' & p & CN & D & PD). apply filter_In in R as (R & U). destruct (rule_from r R) as (e & ed & q & tn & E & Q & <- & IO). destruct (edge_facts e ed E) as (TI & VI & ND & LV & ALL).
    pose proof (proj1 (unary_var e ed q tn E IO) U) as (c0 & C0 & RE). destruct (unary_zero e ed c0 E C0 RE) as (-> & L1). destruct (sym_neg (tails ed) 0%Z TI C0 ltac:(cbn; lia)) as (_ & x & XN & XC).
    rewrite (io_rf _ _ _ _ _ IO), RE in RF. cbn [map] in RF. injection RF as RF. rewrite RF in XC. assert (x = n') by exact (cats_inj _ _ _ XC CN). subst x. destruct (tails ed) as [|y [|? ?]] eqn:TL; try discriminate. cbn in XN. injection XN as ->.
    destruct (node_in e ed q tn [t'] E IO) as (n & CN' & D'); [rewrite TL; constructor; [exact D|constructor]|]. exists n, (Tree e [t']), p. split; [exact CN'|]. split; [exact D'|]. econstructor; [exact E|exact Q|rewrite TL; reflexivity|].
    rewrite RE. rewrite <- (app_nil_r p). eapply pw_var; [lia|reflexivity|exact PD|constructor].
  - intros i tl e TI E VI. destruct e; [|discriminate]. exists []. split; [constructor|]. intros ts _. exists []. constructor.
  - intros i a x j st f AT NE C IH tl e TI E VI. destruct e as [|c e]; [discriminate|]. cbn [map] in E. injection E as E1 E2. pose proof (pos _ _ _ AT) as PX. unfold vars_of in *. cbn [filter] in *. destruct (Z.ltb_spec c 1) as [C1|C1].
    { exfalso. destruct (sym_neg tl c TI ltac:(lia) (VI c (or_introl eq_refl))) as (SN & _). lia. }
    destruct (IH tl e TI E2 VI) as (ss & FS & B). exists ss. split; [exact FS|]. intros ts H. destruct (B ts H) as (p & PW). exists ((i, a) :: p). assert (label x = c). { rewrite E1. unfold sym. destruct (Z.ltb_spec 0 c); [reflexivity|lia]. } eapply pw_word; eauto. lia.
  - intros i a x j st f AT EQ. elim (no_eps _ _ _ AT EQ).
  - intros i k j d c' st f P (n & t & p & CN & D & PD) C IH tl e TI E VI. destruct e as [|c e]; [discriminate|]. cbn [map] in E. injection E as E1 E2. unfold vars_of in *. cbn [filter] in *. pose proof (cats_neg _ (nth_error_In _ _ CN)) as NG.
    destruct (Z.ltb_spec c 1) as [C1|C1]; [|exfalso; unfold sym in E1; destruct (Z.ltb_spec 0 c); lia].
    destruct (sym_neg tl c TI ltac:(lia) (VI c (or_introl eq_refl))) as (_ & x & XN & XC). rewrite <- E1 in XC. assert (x = n) by exact (cats_inj _ _ _ XC CN). subst x.
    destruct (IH tl e TI E2 ltac:(intros y Y; apply VI; right; exact Y)) as (ss & FS & B). exists (t :: ss). split; [constructor; [rewrite (nth_error_nth _ _ _ XN); exact D|exact FS]|].
    intros ts H. destruct (B ts (fun m => H (S m))) as (p2 & PW). exists (p ++ p2). eapply pw_var; [lia|exact (H 0 c eq_refl)|exact PD|exact PW].
Qed.
(** The path spells the translation. *)
Lemma pt_path :
  (forall t i j p d, pt t i j p d -> forall n ws, derives h n t -> translation h t = Some ws -> path lat i j p ws) /\
  (forall ts e i j p st, ptw ts e i j p st -> forall tl ys, Forall2 (derives h) tl ts -> Forall2 (fun t y => translation h t = Some y) ts ys -> path lat i j p (target_of e ys)).
Proof.
  apply pt_ptw_ind.
  - intros e ed q ts i j p st E Q L _ IH n ws D T. inversion D as [? nd ? ed' ? N I E' F]; subst. assert (ed' = ed) by congruence. subst ed'. apply (translation_tree h e ed ts ws E ro L) in T as (ys & FY & _ & ->). exact (IH _ ys F FY).
  - intros ts i tl ys _ _. constructor.
  - intros ts w e i a x j p st W AT LX _ IH tl ys F FY. unfold target_of. cbn [map concat]. destruct (Z.ltb_spec w 1); [lia|]. cbn [app]. rewrite <- LX. econstructor; [exact AT|]. exact (IH tl ys F FY).
  - intros ts c e i k j s d p1 p2 st C S _ IH1 _ IH2 tl ys F FY. unfold target_of. cbn [map concat]. destruct (Z.ltb_spec c 1); [|lia]. destruct (F2_nth _ _ _ _ _ FY _ _ S) as (y & Y & TY). destruct (F2_nth_r _ _ _ _ _ F _ _ S) as (n & _ & D).
    rewrite (nth_error_nth _ _ _ Y). eapply path_app; [exact (IH1 n y D TY)|exact (IH2 tl ys F FY)].
Qed.
(** The derivation, and the path, determine the parse. *)
Lemma pt_fun :
  (forall t i j p d, pt t i j p d -> forall j' p' d' q q', pt t i j' p' d' -> p ++ q = p' ++ q' -> j = j' /\ p = p' /\ d = d') /\
  (forall ts e i j p st, ptw ts e i j p st -> forall j' p' st' q q', ptw ts e i j' p' st' -> p ++ q = p' ++ q' -> j = j' /\ p = p' /\ st = st').
Proof.
  apply pt_ptw_ind.
  - intros e ed r ts i j p st E Q L _ IH j' p' d' q q' P' EQ. inversion P' as [? ed' r' ? ? ? ? st' E' Q' L' W']; subst. assert (ed' = ed) by congruence. assert (r' = r) by congruence. subst ed' r'. destruct (IH _ _ _ _ _ W' EQ) as (-> & -> & ->). auto.
  - intros ts i j' p' st' q q' P' _. inversion P'; subst; auto.
  - intros ts w e i a x j p st W AT LX _ IH j' p' st' q q' P' EQ. inversion P' as [|? ? ? ? a' x' ? p0 st0 W0 AT0 LX0 PW0|]; subst; [|lia]. cbn [app] in EQ. injection EQ as <- EQ.
    assert (x' = x). { destruct AT as (al & A1 & A2), AT0 as (al' & B1 & B2). congruence. } subst x'. destruct (IH _ _ _ _ _ PW0 EQ) as (-> & -> & ->). auto.
  - intros ts c e i k j s d p1 p2 st C S _ IH1 _ IH2 j' p' st' q q' P' EQ. inversion P' as [| |? ? ? ? k' ? s' d' p1' p2' st0 C' S' PD' PW']; subst; [lia|]. assert (s' = s) by congruence. subst s'.
    rewrite <- !app_assoc in EQ. destruct (IH1 _ _ _ _ _ PD' EQ) as (-> & -> & ->). apply app_inv_head in EQ. destruct (IH2 _ _ _ _ _ PW' EQ) as (-> & -> & ->). auto.
Qed.
(** The parse determines the derivation and the path. *)
Lemma pt_inj :
  (forall t i j p d, pt t i j p d -> forall t' i' j' p', pt t' i' j' p' d -> t = t' /\ p = p') /\
  (forall ts e i j p st, ptw ts e i j p st -> forall ts' i' j' p', ptw ts' e i' j' p' st -> p = p' /\ forall c, In c (vars_of e) -> nth_error ts (Z.to_nat (- c)) = nth_error ts' (Z.to_nat (- c))).
Proof.
  apply pt_ptw_ind.
  - intros e ed r ts i j p st E Q L _ IH t' i' j' p' P'. inversion P' as [e' ed' r' ts' ? ? ? st' E' Q' L' W' T1 T2 T3 T4 (RR & SS)]; subst. 
    destruct (rs_ok e ed E) as (q1 & tn & Q1 & IO). assert (q1 = r) by congruence. subst q1. destruct (rs_ok e' ed' E') as (q1 & tn' & Q1' & IO'). assert (q1 = r') by congruence. subst q1.
    assert (e' = e) by (rewrite <- (io_rid _ _ _ _ _ IO), <- (io_rid _ _ _ _ _ IO'); congruence). subst e'. assert (ed' = ed) by congruence. subst ed'. destruct (IH _ _ _ _ W') as (-> & TS). split; [|reflexivity]. f_equal.
    destruct (edge_facts e ed E) as (_ & VI & _ & LV & ALL). apply nth_ext with (d := Tree 0 []) (d' := Tree 0 []); [lia|]. intros k K. pose proof (TS _ (ALL k ltac:(lia))) as H. replace (Z.to_nat (- - Z.of_nat k)) with k in H by lia.
    destruct (nth_error ts k) as [u|] eqn:U; [|apply nth_error_None in U; lia]. rewrite (nth_error_nth _ _ _ U). symmetry in H. rewrite (nth_error_nth _ _ _ H). reflexivity.
  - intros ts i ts' i' j' p' P'. inversion P'; subst. split; [reflexivity|intros c []].
  - intros ts w e i a x j p st W AT LX _ IH ts' i' j' p' P'. inversion P' as [|? ? ? ? a' x' ? p0 st0 W0 AT0 LX0 PW0|]; subst. destruct (IH _ _ _ _ PW0) as (-> & H). split; [reflexivity|]. intros c I. apply in_vars in I as ([<-|I] & C); [lia|]. apply H. apply in_vars. auto.
  - intros ts c e i k j s d p1 p2 st C S _ IH1 _ IH2 ts' i' j' p' P'. inversion P' as [| |? ? ? ? k' ? s' d' p1' p2' st0 C' S' PD' PW']; subst. destruct (IH1 _ _ _ _ PD') as (-> & ->). destruct (IH2 _ _ _ _ PW') as (-> & H). split; [reflexivity|].
    intros x I. apply in_vars in I as ([<-|I] & CX); [congruence|]. apply H. apply in_vars. auto.
Qed.
End M.
