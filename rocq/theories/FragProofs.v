(** Proofs about [Frag]. *)
From Coq Require Import String Ascii List Arith Bool Lia.
From Verif Require Import Opt Frag FragSpec.
Import ListNotations.
Local Open Scope nat_scope.
Open Scope opt_scope.

Scheme writes_mut := Induction for writes Sort Prop with writes_items_mut := Induction for writes_items Sort Prop.
Scheme shows_mut := Induction for shows Sort Prop with shows_all_mut := Induction for shows_all Sort Prop.

Lemma is_spec c d : reflect (c = d) (is c d).
Proof. unfold is. apply Ascii.eqb_spec. Qed.
Lemma is_refl c : is c c = true.
Proof. unfold is. apply Ascii.eqb_refl. Qed.
Lemma is_no c d : c <> d -> is c d = false.
Proof. destruct (is_spec c d); congruence. Qed.

(** ** blanks and tokens *)
Lemma skip_ok t : In ")"%char t -> skip t = Ok (skip_end t).
Proof.
  induction t as [|c r IH]; [intros [] |]. intros [-> |H]; cbn [skip skip_end].
  - reflexivity.
  - destruct (is_spec c " "); [apply IH, H|reflexivity].
Qed.
Lemma skip_end_blanks n t : skip_end (blanks n ++ t) = skip_end t.
Proof. induction n as [|n IH]; [reflexivity|]. cbn. exact IH. Qed.
Lemma skip_end_idem t : skip_end (skip_end t) = skip_end t.
Proof. induction t as [|c r IH]; [reflexivity|]. cbn [skip_end]. destruct (is c " ") eqn:E; [exact IH|]. cbn [skip_end]. now rewrite E. Qed.
Lemma skip_end_no c t : c <> " "%char -> skip_end (c :: t) = c :: t.
Proof. intros H. cbn [skip_end]. now rewrite (is_no _ _ H). Qed.
Lemma in_skip_end t c : c <> " "%char -> In c t -> In c (skip_end t).
Proof.
  intros N. induction t as [|d r IH]; [intros [] |]. intros H. cbn [skip_end]. destruct (is_spec d " ") as [-> |E]; [|exact H].
  apply IH. destruct H as [H|H]; [congruence|exact H].
Qed.
Definition starts_stop (t : text) : Prop := exists c r, t = c :: r /\ stop c = true.
Lemma plain_stop c : plain c -> stop c = false.
Proof. intros (A & B & C). unfold stop. now rewrite !is_no. Qed.
Lemma token_ok w t : Forall plain w -> starts_stop t -> token (w ++ t) = Ok (w, t).
Proof.
  intros P (c & r & -> & S). induction P as [|d w D P IH]; cbn [app token].
  - now rewrite S.
  - rewrite (plain_stop _ D). cbn [app] in IH. rewrite IH. reflexivity.
Qed.
Lemma writes_open t w : writes t w -> exists r, w = "("%char :: r.
Proof. intros H. inversion H; subst. cbn. eauto. Qed.
Lemma items_stop kids s rest : writes_items true kids s -> starts_stop (s ++ ")"%char :: rest).
Proof.
  intros H. inversion H as [b n|b n it w k s' N T W|b n t w k s' T W]; subst.
  - destruct n; cbn; unfold starts_stop; eauto.
  - specialize (N eq_refl). destruct n; [lia|]. cbn. unfold starts_stop; eauto.
  - destruct n; cbn; [|unfold starts_stop; eauto]. destruct (writes_open _ _ T) as (r & ->). cbn. unfold starts_stop; eauto.
Qed.
Lemma token_plain it w : token_of it w -> w <> [] /\ Forall plain w.
Proof.
  destruct it as [x|x|]; cbn.
  - intros (-> & A & B & _). auto.
  - intros (-> & A & B). split; [discriminate|]. constructor; [repeat split; discriminate|].
    apply Forall_app. split; [exact B|]. constructor; [repeat split; discriminate|constructor].
  - intros [].
Qed.
Lemma last_snoc {A} (l : list A) x d : last (l ++ [x]) d = x.
Proof. apply last_last. Qed.
Lemma is_terminal_word w : good_word w -> is_terminal w = true.
Proof.
  intros (N & _ & B). unfold is_terminal.
  destruct (is_spec (hd " "%char w) "[") as [E|E]; [|reflexivity]. cbn [negb orb].
  destruct (Nat.ltb_spec (length w) 3) as [S|S]; [reflexivity|]. cbn [orb].
  destruct (is_spec (last w " "%char) "]") as [F|F]; [|reflexivity]. exfalso. apply B.
  destruct w as [|c w]; [congruence|]. cbn in E. subst c.
  destruct w as [|d w'] using rev_ind; [cbn in S; lia|]. exists w'. split.
  - intros ->. cbn in S. lia.
  - change ("["%char :: w' ++ [d]) with (("["%char :: w') ++ [d]) in F. rewrite last_snoc in F. now subst d.
Qed.
Lemma is_terminal_site x : x <> [] -> is_terminal (["["%char] ++ x ++ ["]"%char]) = false.
Proof.
  intros N. unfold is_terminal. rewrite app_assoc, last_snoc, <- app_assoc. cbn [hd app]. rewrite !is_refl. cbn [negb orb].
  rewrite orb_false_r. apply Nat.ltb_ge. cbn [length]. rewrite app_length. destruct x; [congruence|]. cbn. lia.
Qed.
Lemma inside_site x : inside (["["%char] ++ x ++ ["]"%char]) = x.
Proof. unfold inside. cbn [app tl]. apply removelast_last. Qed.

(** ** the node vector *)
Lemma put_ok l i n : i < length l -> exists l', put l i n = Some l' /\ length l' = length l /\ nth_error l' i = Some (Some n)
  /\ forall k, k <> i -> nth_error l' k = nth_error l k.
Proof.
  revert i; induction l as [|x r IH]; intros i H; [cbn in H; lia|]. destruct i as [|i]; cbn [put].
  - eexists. split; [reflexivity|]. split; [reflexivity|]. split; [reflexivity|]. intros [|k] K; [congruence|reflexivity].
  - cbn in H. destruct (IH i ltac:(lia)) as (l' & E & A & B & C). rewrite E. cbn. eexists. split; [reflexivity|].
    split; [cbn; now rewrite A|]. split; [exact B|]. intros [|k] K; [reflexivity|]. cbn. apply C. congruence.
Qed.
Definition item_size (it : item) : nat := match it with Sub s => size s | _ => 0 end.
Definition item_words (it : item) : list (list ascii) := match it with Word w => [w] | Site _ => [] | Sub s => words s end.
Definition item_sites (it : item) : list (list ascii) := match it with Word _ => [] | Site w => [w] | Sub s => sites s end.
Definition sizes (l : list item) : nat := list_sum (map item_size l).
Definition all_words (l : list item) := concat (map item_words l).
Definition all_sites (l : list item) := concat (map item_sites l).
Lemma size_eq nt kids : size (Tree nt kids) = S (sizes kids).
Proof. reflexivity. Qed.
Lemma words_eq nt kids : words (Tree nt kids) = all_words kids.
Proof. reflexivity. Qed.
Lemma sites_eq nt kids : sites (Tree nt kids) = all_sites kids.
Proof. reflexivity. Qed.
Lemma sizes_cons it l : sizes (it :: l) = item_size it + sizes l.
Proof. reflexivity. Qed.
Lemma all_words_cons it l : all_words (it :: l) = item_words it ++ all_words l.
Proof. reflexivity. Qed.
Lemma all_sites_cons it l : all_sites (it :: l) = item_sites it ++ all_sites l.
Proof. reflexivity. Qed.
Lemma size_pos t : 1 <= size t.
Proof. destruct t. rewrite size_eq. lia. Qed.
Global Opaque size words sites.


Lemma shows_ext ns lo t : shows ns lo t -> forall ns', (forall k, lo <= k < lo + size t -> nth_error ns' k = nth_error ns k) -> shows ns' lo t.
Proof.
  intros H.
  refine (shows_mut ns (fun lo t _ => forall ns', (forall k, lo <= k < lo + size t -> nth_error ns' k = nth_error ns k) -> shows ns' lo t)
    (fun lo r k _ => forall ns', (forall i, lo <= i < lo + sizes k -> nth_error ns' i = nth_error ns i) -> shows_all ns' lo r k) _ _ _ _ _ lo t H).
  - intros i0 nt rhs kids E _ IH ns' A. rewrite size_eq in *. apply (sh _ _ _ rhs); [rewrite size_eq, A; [exact E|lia]|]. apply IH. intros k K. apply A. lia.
  - intros. constructor.
  - intros i0 w r k _ IH ns' A. constructor. apply IH, A.
  - intros i0 w r k _ IH ns' A. constructor. apply IH, A.
  - intros i0 t0 r k _ IH1 _ IH2 ns' A. rewrite sizes_cons in A. cbn [item_size] in A.
    constructor; [apply IH1; intros; apply A; lia|apply IH2; intros; apply A; lia].
Qed.
Lemma shows_all_ext ns lo r k : shows_all ns lo r k -> forall ns', (forall i, lo <= i < lo + sizes k -> nth_error ns' i = nth_error ns i) -> shows_all ns' lo r k.
Proof.
  induction 1 as [| | |lo t r k S H IH]; intros ns' A; constructor; auto; rewrite sizes_cons in A; cbn [item_size] in A.
  - apply (shows_ext _ _ _ S). intros. apply A. lia.
  - apply IH. intros. apply A. lia.
Qed.

(** ** parsing *)
Lemma blanks_len n : length (blanks n) = n.
Proof. apply repeat_length. Qed.
Definition parses (t : tree) (w : text) : Prop := forall fuel afs rest s,
  length w <= fuel -> (afs = true \/ sites t = []) -> np s + size t <= length (nodes s) ->
  exists s', ParseRec fuel afs (w ++ rest) s = Ok (skip_end rest, s') /\ np s' = np s + size t /\ length (nodes s') = length (nodes s)
    /\ (forall k, k < np s \/ np s' <= k -> nth_error (nodes s') k = nth_error (nodes s) k) /\ shows (nodes s') (np s) t
    /\ frontier_sites s' = frontier_sites s + length (sites t) /\ terminals s' = terminals s + length (words t).
Definition parses_rhs (b : bool) (kids : list item) (x : text) : Prop := forall fuel afs rest s acc,
  S (length x) <= fuel -> (afs = true \/ all_sites kids = []) -> np s + sizes kids <= length (nodes s) ->
  exists s' rhs, ParseRhs fuel afs (skip_end (x ++ ")"%char :: rest)) s acc = Ok (acc ++ rhs, ")"%char :: rest, s')
    /\ np s' = np s + sizes kids /\ length (nodes s') = length (nodes s)
    /\ (forall k, k < np s \/ np s' <= k -> nth_error (nodes s') k = nth_error (nodes s) k) /\ shows_all (nodes s') (np s) rhs kids
    /\ frontier_sites s' = frontier_sites s + length (all_sites kids) /\ terminals s' = terminals s + length (all_words kids).
Lemma first_token it w : token_of it w -> exists c r, w = c :: r /\ plain c.
Proof. intros H. destruct (token_plain _ _ H) as [N P]. destruct P as [|c r C P]; [congruence|]. eauto. Qed.
Lemma in_close a rest : In ")"%char (a ++ ")"%char :: rest).
Proof. apply in_or_app. right. now left. Qed.

Lemma parse_tree nt kids n x : Forall plain nt -> (nt = [] -> kids = [] \/ exists t r, kids = Sub t :: r) ->
  writes_items true kids x -> parses_rhs true kids x -> parses (Tree nt kids) (["("%char] ++ blanks n ++ nt ++ x ++ [")"%char]).
Proof.
  intros P E W IH fuel afs rest s L A C. rewrite size_eq in *. rewrite sites_eq in *. rewrite words_eq in *.
  rewrite !app_length in L. cbn [length] in L. destruct fuel as [|k]; [lia|].
  replace ((["("%char] ++ blanks n ++ nt ++ x ++ [")"%char]) ++ rest) with ("("%char :: blanks n ++ nt ++ x ++ ")"%char :: rest)
    by (rewrite <- !app_assoc; reflexivity).
  cbn [ParseRec]. rewrite is_refl. rewrite skip_ok by (rewrite !app_assoc; apply in_close). cbn [rbind].
  rewrite skip_end_blanks.
  assert (TK : exists t2, rbind (token (skip_end (nt ++ x ++ ")"%char :: rest)))
     (fun nt0 => rbind (skip (snd nt0)) (fun t2 => Ok (fst nt0, t2))) = Ok (nt, t2) /\ t2 = skip_end (x ++ ")"%char :: rest)).
  { eexists. split; [|reflexivity]. destruct nt as [|c nt].
    - cbn [app]. assert (SS : starts_stop (skip_end (x ++ ")"%char :: rest))).
      { destruct (E eq_refl) as [-> |(t & r & ->)]; inversion W as [b m|b m it w k0 s' N T W'|b m t' w k0 s' T W']; subst.
        - rewrite skip_end_blanks. cbn. unfold starts_stop; eauto.
        - destruct T.
        - rewrite <- !app_assoc. rewrite skip_end_blanks. destruct (writes_open _ _ T) as (r' & ->). cbn. unfold starts_stop; eauto. }
      rewrite (token_ok [] _ (Forall_nil _) SS : token (skip_end (x ++ ")"%char :: rest)) = _). cbn [rbind snd fst].
      rewrite skip_ok by (apply in_skip_end; [discriminate|apply in_close]). cbn [rbind]. now rewrite skip_end_idem.
    - assert (PC : plain c) by now inversion P. cbn [app]. rewrite skip_end_no by apply PC.
      change (c :: nt ++ x ++ ")"%char :: rest) with ((c :: nt) ++ x ++ ")"%char :: rest).
      rewrite token_ok; [|exact P|apply (items_stop kids), W]. cbn [rbind snd fst].
      rewrite skip_ok by apply in_close. reflexivity. }
  destruct TK as (t2 & TK & T2).
  destruct (token (skip_end (nt ++ x ++ ")"%char :: rest))) as [[nt0 t0]| | |]; try discriminate TK. cbn [rbind snd fst] in TK |- *.
  destruct (skip t0) as [t1| | |]; try discriminate TK. cbn [rbind] in TK |- *. injection TK as -> ->. subst t2.
  destruct (IH k afs rest s [] ltac:(lia) A ltac:(lia)) as (s' & rhs & R1 & R2 & R3 & R4 & R5 & R6 & R7).
  rewrite R1. cbn [rbind app].
  destruct (put_ok (nodes s') (np s') (nt, rhs) ltac:(lia)) as (l' & Q1 & Q2 & Q3 & Q4). rewrite Q1. cbn [tl].
  eexists. split; [reflexivity|]. cbn [np nodes frontier_sites terminals].
  split; [lia|]. split; [congruence|]. split.
  { intros k0 K. rewrite Q4 by lia. apply R4. lia. }
  split; [|split; assumption].
  apply (sh _ _ _ rhs); [rewrite size_eq; replace (np s + S (sizes kids) - 1) with (np s') by lia; exact Q3|].
  apply (shows_all_ext _ _ _ _ R5). intros k0 K. apply Q4. lia.
Qed.
Lemma parse_nil b n : parses_rhs b [] (blanks n).
Proof.
  intros fuel afs rest s acc L A C. destruct fuel as [|k]; [lia|]. rewrite skip_end_blanks, skip_end_no by discriminate. cbn [ParseRhs]. rewrite ?is_refl.
  exists s, []. rewrite app_nil_r. cbn. repeat split; auto; try lia. constructor.
Qed.
Lemma parse_token b n it w kids x : token_of it w -> writes_items true kids x -> parses_rhs true kids x ->
  parses_rhs b (it :: kids) (blanks n ++ w ++ x).
Proof.
  intros T W IH fuel afs rest s acc L A C. destruct fuel as [|k]; [lia|].
  rewrite !app_length, blanks_len in L. destruct (token_plain _ _ T) as [NE PW]. destruct (first_token _ _ T) as (c & r & Ew & PC).
  assert (LW : 1 <= length w) by (rewrite Ew; cbn; lia).
  rewrite <- !app_assoc, skip_end_blanks.
  assert (E1 : skip_end (w ++ x ++ ")"%char :: rest) = w ++ x ++ ")"%char :: rest) by (rewrite Ew; cbn [app]; apply skip_end_no, PC).
  rewrite E1. rewrite all_sites_cons in *. rewrite all_words_cons. rewrite sizes_cons in *.
  assert (TK : token (w ++ x ++ ")"%char :: rest) = Ok (w, x ++ ")"%char :: rest)) by (apply token_ok; [exact PW|apply (items_stop kids), W]).
  assert (SK : skip (x ++ ")"%char :: rest) = Ok (skip_end (x ++ ")"%char :: rest))) by apply skip_ok, in_close.
  assert (U : ParseRhs (S k) afs (w ++ x ++ ")"%char :: rest) s acc =
    if is_terminal w then ParseRhs k afs (skip_end (x ++ ")"%char :: rest)) {| np := np s; nodes := nodes s; frontier_sites := frontier_sites s; terminals := terminals s + 1 |} (acc ++ [Term w])
    else if afs then ParseRhs k afs (skip_end (x ++ ")"%char :: rest)) {| np := np s; nodes := nodes s; frontier_sites := frontier_sites s + 1; terminals := terminals s |} (acc ++ [Front (inside w)])
    else Abort).
  { rewrite Ew at 1. cbn [app ParseRhs]. destruct PC as (P1 & P2 & P3). rewrite (is_no _ _ P3), (is_no _ _ P2).
    change (c :: r ++ x ++ ")"%char :: rest) with ((c :: r) ++ x ++ ")"%char :: rest). rewrite <- Ew, TK. cbn [rbind]. rewrite SK. reflexivity. }
  rewrite U. destruct it as [v|v|]; [| |destruct T].
  - destruct T as [-> G]. rewrite is_terminal_word by exact G. cbn [item_size item_words item_sites app length] in *.
    destruct (IH k afs rest {| np := np s; nodes := nodes s; frontier_sites := frontier_sites s; terminals := terminals s + 1 |} (acc ++ [Term v]) ltac:(lia) A ltac:(cbn; lia))
      as (s' & rhs & R1 & R2 & R3 & R4 & R5 & R6 & R7). cbn [np nodes frontier_sites terminals] in *.
    exists s', (Term v :: rhs). rewrite R1, <- app_assoc. split; [reflexivity|]. repeat split; auto; try lia. constructor. exact R5.
  - destruct T as (Et & G1 & G2). rewrite Et, is_terminal_site by exact G1. rewrite inside_site.
    cbn [item_size item_words item_sites app length] in *. destruct A as [-> |A]; [|discriminate].
    destruct (IH k true rest {| np := np s; nodes := nodes s; frontier_sites := frontier_sites s + 1; terminals := terminals s |} (acc ++ [Front v]) ltac:(lia) (or_introl eq_refl) ltac:(cbn; lia))
      as (s' & rhs & R1 & R2 & R3 & R4 & R5 & R6 & R7). cbn [np nodes frontier_sites terminals] in *.
    exists s', (Front v :: rhs). rewrite R1, <- app_assoc. split; [reflexivity|]. repeat split; auto; try lia. constructor. exact R5.
Qed.
Lemma parse_sub b n t w kids x : writes t w -> parses t w -> parses_rhs false kids x -> parses_rhs b (Sub t :: kids) (blanks n ++ w ++ x).
Proof.
  intros T IH1 IH2 fuel afs rest s acc L A C. destruct fuel as [|k]; [lia|].
  rewrite !app_length, blanks_len in L. destruct (writes_open _ _ T) as (r & Ew).
  assert (LW : 1 <= length w) by (rewrite Ew; cbn; lia).
  rewrite <- !app_assoc, skip_end_blanks. rewrite all_sites_cons in *. rewrite all_words_cons. rewrite sizes_cons in *.
  cbn [item_size item_words item_sites] in *. rewrite !app_length.
  assert (A1 : afs = true \/ sites t = []) by (destruct A as [A|A]; [now left|right; now apply app_eq_nil in A]).
  assert (A2 : afs = true \/ all_sites kids = []) by (destruct A as [A|A]; [now left|right; now apply app_eq_nil in A]).
  destruct (IH1 k afs (x ++ ")"%char :: rest) s ltac:(lia) A1 ltac:(lia)) as (s1 & P1 & P2 & P3 & P4 & P5 & P6 & P7).
  destruct (IH2 k afs rest s1 (acc ++ [Node (np s1 - 1)]) ltac:(lia) A2 ltac:(lia)) as (s' & rhs & R1 & R2 & R3 & R4 & R5 & R6 & R7).
  exists s', (Node (np s1 - 1) :: rhs).
  assert (U : ParseRhs (S k) afs (skip_end (w ++ x ++ ")"%char :: rest)) s acc =
     rbind (ParseRec k afs (w ++ x ++ ")"%char :: rest) s) (fun '(t1, s1) => ParseRhs k afs t1 s1 (acc ++ [Node (np s1 - 1)]))).
  { rewrite Ew. reflexivity. }
  rewrite U, P1. cbn [rbind]. rewrite R1, <- app_assoc. split; [reflexivity|]. pose proof (size_pos t).
  split; [lia|]. split; [lia|]. split; [intros k0 K; rewrite R4, P4 by lia; reflexivity|]. split; [|split; lia].
  rewrite P2 in *. constructor; [|exact R5]. apply (shows_ext _ _ _ P5). intros k0 K. apply R4. lia.
Qed.
Theorem parse_ok t w : writes t w -> parses t w.
Proof.
  intros H. apply (writes_mut (fun t w _ => parses t w) (fun b k x _ => parses_rhs b k x)).
  - intros. now apply parse_tree.
  - intros. apply parse_nil.
  - intros. now apply parse_token.
  - intros. now apply parse_sub.
  - exact H.
Qed.

(** ** the brackets *)
Lemma brackets_plain w : Forall plain w -> forall rest b o, brackets (w ++ rest) b o = brackets rest b o.
Proof.
  induction 1 as [|c w (A & B & C) P IH]; intros rest b o; [reflexivity|]. cbn [app brackets]. rewrite (is_no _ _ B), (is_no _ _ C). apply IH.
Qed.
Lemma brackets_blanks n rest b o : brackets (blanks n ++ rest) b o = brackets rest b o.
Proof. induction n as [|n IH]; [reflexivity|]. exact IH. Qed.
Lemma brackets_ok t w : writes t w -> forall rest b o, (2 <= b \/ rest = []) -> 1 <= b ->
  brackets (w ++ rest) b o = brackets rest b (o + size t).
Proof.
  intros H. apply (writes_mut (fun t w _ => forall rest b o, (2 <= b \/ rest = []) -> 1 <= b -> brackets (w ++ rest) b o = brackets rest b (o + size t))
    (fun _ k x _ => forall rest b o, 2 <= b -> brackets (x ++ rest) b o = brackets rest b (o + sizes k))).
  - intros nt kids n s P _ W IH rest b o B B1. rewrite <- !app_assoc. cbn [app brackets]. rewrite is_refl, brackets_blanks, brackets_plain by exact P.
    rewrite IH by lia. cbn [app brackets]. rewrite (is_no ")" "(") by discriminate. rewrite is_refl.
    replace (S b - 1) with b by lia. rewrite size_eq. replace (S o + sizes kids) with (o + S (sizes kids)) by lia.
    destruct B as [B| ->]; [|rewrite andb_false_r; reflexivity]. destruct (Nat.ltb_spec b 2); [lia|]. reflexivity.
  - intros b n rest b' o B. rewrite brackets_blanks. unfold sizes. cbn. now rewrite Nat.add_0_r.
  - intros b n it w0 kids s N T W IH rest b' o B. rewrite <- !app_assoc, brackets_blanks, brackets_plain by apply (token_plain _ _ T).
    rewrite IH by exact B. rewrite sizes_cons. destruct it; [reflexivity|reflexivity|destruct T].
  - intros b n t0 w0 kids s W1 IH1 W2 IH2 rest b' o B. rewrite <- !app_assoc, brackets_blanks, IH1 by lia. rewrite IH2 by lia.
    rewrite sizes_cons. cbn [item_size]. f_equal. lia.
  - exact H.
Qed.

(** ** spans *)
Definition spans_go (k : nat) (ns : list (option (list ascii * list sym))) :=
  fix go (rhs : list sym) (right_ : nat) : option (nat * list (nat * (nat * nat))) :=
          match rhs with
          | [] => Some (right_, [])
          | Node i :: r => ' (right1, sp1) <- SetupSpansRec k ns i right_ ;; ' (right2, sp2) <- go r right1 ;; Some (right2, sp1 ++ sp2)
          | _ :: r => go r (right_ + 1)
          end.
Lemma spans_eq k ns cur left_ : SetupSpansRec (S k) ns cur left_ =
      (n <- nth_error ns cur ;; n' <- n ;; ' (right_, sp) <- spans_go k ns (snd n') left_ ;; Some (right_, sp ++ [(cur, (left_, right_))])).
Proof. reflexivity. Qed.
Definition widths (l : list item) : nat := list_sum (map item_width l).
Lemma widths_cons it l : widths (it :: l) = item_width it + widths l.
Proof. reflexivity. Qed.
Lemma width_eq nt kids : width (Tree nt kids) = widths kids.
Proof.
  unfold width. rewrite words_eq, sites_eq. induction kids as [|it kids IH]; [reflexivity|].
  rewrite all_words_cons, all_sites_cons, widths_cons, !app_length. destruct it; cbn [item_words item_sites item_width length]; unfold width; lia.
Qed.
Lemma spans_ok ns lo t : shows ns lo t -> forall fuel l, lo + size t - 1 < fuel ->
  exists sp, SetupSpansRec fuel ns (lo + size t - 1) l = Some (l + width t, sp) /\ map fst sp = seq lo (size t)
    /\ forall n l' s, below t n l' s -> In (lo + n + size s - 1, (l + l', l + l' + width s)) sp.
Proof.
  intros H.
  refine (shows_mut ns (fun lo t _ => forall fuel l, lo + size t - 1 < fuel -> exists sp, SetupSpansRec fuel ns (lo + size t - 1) l = Some (l + width t, sp)
      /\ map fst sp = seq lo (size t) /\ forall n l' s, below t n l' s -> In (lo + n + size s - 1, (l + l', l + l' + width s)) sp)
    (fun lo r k _ => forall fuel l, lo + sizes k <= fuel -> exists sp, spans_go fuel ns r l = Some (l + widths k, sp)
      /\ map fst sp = seq lo (sizes k)
      /\ forall k1 t0 k2 n l' s, k = k1 ++ Sub t0 :: k2 -> below t0 n l' s ->
          In (lo + sizes k1 + n + size s - 1, (l + widths k1 + l', l + widths k1 + l' + width s)) sp) _ _ _ _ _ lo t H).
  - intros i0 nt rhs kids E SA IH fuel l L. destruct fuel as [|k]; [lia|]. rewrite spans_eq, E. cbn [bind fst snd]. rewrite size_eq in *.
    destruct (IH k l ltac:(lia)) as (sp & G & M & B). rewrite G. cbn [bind]. rewrite width_eq. eexists. split; [reflexivity|]. split.
    { rewrite map_app, M. cbn [map fst]. replace (i0 + S (sizes kids) - 1) with (i0 + sizes kids) by lia. symmetry. apply seq_S. }
    intros n l' s BL. apply in_or_app.
    inversion BL as [t1|nt1 kids1 t0 kids2 n1 l1 s1 B1]; subst.
    + right. left. rewrite !Nat.add_0_r, width_eq, size_eq. reflexivity.
    + left. specialize (B _ _ _ _ _ _ eq_refl B1). unfold sizes, widths in B. rewrite !Nat.add_assoc. exact B.
  - intros i0 fuel l L. exists []. split; [cbn; unfold widths; cbn; f_equal; f_equal; lia|]. split; [reflexivity|]. intros [|? ?] ? ? ? ? ? E; discriminate E.
  - intros i0 w r k SA IH fuel l L. destruct (IH fuel (l + 1) L) as (sp & G & M & B). exists sp. split; [|split; [exact M|]].
    + cbn [spans_go]. rewrite G. rewrite widths_cons. cbn [item_width]. do 2 f_equal. lia.
    + intros k1 t0 k2 n l' s E1 BL. destruct k1 as [|x k1]; [discriminate|].
      injection E1 as <- ->. rewrite widths_cons, sizes_cons. cbn [item_width item_size Nat.add].
      replace (l + S (widths k1)) with (l + 1 + widths k1) by lia. eapply B; eauto.
  - intros i0 w r k SA IH fuel l L. destruct (IH fuel (l + 1) L) as (sp & G & M & B). exists sp. split; [|split; [exact M|]].
    + cbn [spans_go]. rewrite G. rewrite widths_cons. cbn [item_width]. do 2 f_equal. lia.
    + intros k1 t0 k2 n l' s E1 BL. destruct k1 as [|x k1]; [discriminate|].
      injection E1 as <- ->. rewrite widths_cons, sizes_cons. cbn [item_width item_size Nat.add].
      replace (l + S (widths k1)) with (l + 1 + widths k1) by lia. eapply B; eauto.
  - intros i0 t0 r k S0 IH1 SA IH2 fuel l L. pose proof (size_pos t0). rewrite sizes_cons in *. cbn [item_size] in *.
    destruct (IH1 fuel l ltac:(lia)) as (sp1 & G1 & M1 & B1).
    destruct (IH2 fuel (l + width t0) ltac:(lia)) as (sp2 & G2 & M2 & B2). exists (sp1 ++ sp2). split; [|split].
    + cbn [spans_go]. rewrite G1. cbn [bind]. rewrite G2. cbn [bind]. rewrite widths_cons. cbn [item_width]. do 2 f_equal. lia.
    + rewrite map_app, M1, M2. symmetry. apply seq_app.
    + intros k1 t1 k2 n l' s E1 BL. apply in_or_app. destruct k1 as [|x k1].
      * injection E1 as <- <-. left. unfold widths, sizes. cbn [map list_sum fold_right]. rewrite !Nat.add_0_r. apply B1, BL.
      * injection E1 as <- ->. right. rewrite widths_cons, sizes_cons. cbn [item_width item_size].
        rewrite (Nat.add_assoc l), (Nat.add_assoc i0). eapply B2; eauto.
Qed.

(** ** printing *)
Definition print_item (it : item) : text := match it with Word w => w | Site w => ["["%char] ++ w ++ ["]"%char] | Sub s => print s end.
Definition print_items (l : list item) : text := concat (map (fun it => [" "%char] ++ print_item it) l).
Lemma print_eq nt kids : print (Tree nt kids) = ["("%char] ++ nt ++ print_items kids ++ [")"%char].
Proof. reflexivity. Qed.
Definition debug_go (k : nat) (ns : list (option (list ascii * list sym))) :=
  fix go (rhs : list sym) : option text :=
          match rhs with
          | [] => Some []
          | x :: r =>
              w <- match x with Front w => Some (["["%char] ++ w ++ ["]"%char]) | Node i => DebugRec k ns i | Term w => Some w end ;;
              ws <- go r ;; Some ([" "%char] ++ w ++ ws)
          end.
Lemma debug_eq k ns cur : DebugRec (S k) ns cur =
  (n <- nth_error ns cur ;; n' <- n ;; out <- debug_go k ns (snd n') ;; Some (["("%char] ++ fst n' ++ out ++ [")"%char])).
Proof. reflexivity. Qed.
Lemma debug_ok ns lo t : shows ns lo t -> forall fuel, lo + size t - 1 < fuel -> DebugRec fuel ns (lo + size t - 1) = Some (print t).
Proof.
  intros H.
  refine (shows_mut ns (fun lo t _ => forall fuel, lo + size t - 1 < fuel -> DebugRec fuel ns (lo + size t - 1) = Some (print t))
    (fun lo r k _ => forall fuel, lo + sizes k <= fuel -> debug_go fuel ns r = Some (print_items k)) _ _ _ _ _ lo t H).
  - intros i0 nt rhs kids E SA IH fuel L. destruct fuel as [|k]; [lia|]. rewrite debug_eq, E. cbn [bind fst snd]. rewrite size_eq in L. rewrite IH by lia. reflexivity.
  - reflexivity.
  - intros i0 w r k _ IH fuel L. cbn [debug_go bind]. rewrite IH by exact L. reflexivity.
  - intros i0 w r k _ IH fuel L. cbn [debug_go bind]. rewrite IH by exact L. cbn [bind].
    unfold print_items. cbn [map concat print_item]. rewrite <- !app_assoc. reflexivity.
  - intros i0 t0 r k _ IH1 _ IH2 fuel L. rewrite sizes_cons in L. cbn [item_size] in L. pose proof (size_pos t0). cbn [debug_go bind].
    rewrite IH1 by lia. cbn [bind]. rewrite IH2 by lia. reflexivity.
Qed.
Fixpoint tree_rect' (P : tree -> Prop) (Q : item -> Prop) (Hw : forall w, Q (Word w)) (Hs : forall w, Q (Site w)) (Hsub : forall t, P t -> Q (Sub t))
  (HT : forall nt kids, Forall Q kids -> P (Tree nt kids)) (t : tree) : P t :=
  match t with
  | Tree nt kids => HT nt kids ((fix go (l : list item) : Forall Q l := match l with
      | [] => Forall_nil _
      | it :: r => Forall_cons _ (match it with Word w => Hw w | Site w => Hs w | Sub s => Hsub s (tree_rect' P Q Hw Hs Hsub HT s) end) (go r) end) kids)
  end.
Definition wf_items := fix go (l : list item) : Prop := match l with
        | [] => True
        | Word w :: r => good_word w /\ go r
        | Site w :: r => (w <> [] /\ Forall plain w) /\ go r
        | Sub s :: r => wf s /\ go r end.
Lemma print_writes t : wf t -> writes t (print t).
Proof.
  pattern t. apply (tree_rect' _ (fun it => match it with Sub s => wf s -> writes s (print s) | _ => True end)); auto.
  intros nt kids F (N & P & G). rewrite print_eq. change (["("%char] ++ nt ++ print_items kids ++ [")"%char]) with (["("%char] ++ blanks 0 ++ nt ++ print_items kids ++ [")"%char]).
  constructor; [exact P|congruence|]. change (wf_items kids) in G. clear N P nt. generalize true as b.
  induction F as [|it kids Fi F IH]; intros b.
  - exact (w_nil b 0).
  - change (print_items (it :: kids)) with (([" "%char] ++ print_item it) ++ print_items kids). rewrite <- app_assoc.
    destruct it as [w|w|s]; cbn [wf_items] in G; destruct G as [G1 G2].
    + apply (w_token b 1); [lia| |apply IH, G2]. split; [reflexivity|exact G1].
    + apply (w_token b 1); [lia| |apply IH, G2]. split; [reflexivity|exact G1].
    + apply (w_sub b 1); [apply Fi, G1|]. apply IH, G2.
Qed.

(** ** the depth first iterator *)
Definition walk_item (it : item) : list tsym := match it with Word w => [T w] | Site w => [F w] | Sub s => R (match s with Tree nt' _ => nt' end) :: walk s end.
Lemma walk_eq nt kids : walk (Tree nt kids) = L nt :: concat (map walk_item kids).
Proof. reflexivity. Qed.
(** a frame with the children still to come *)
Inductive frame_ok (ns : list (option (list ascii * list sym))) : frame -> list tsym -> Prop :=
| fr_new lo t : shows ns lo t -> frame_ok ns {| fnode := lo + size t - 1; next := 0; started := false |} (walk t)
| fr_on i n lo nt rhs rest : nth_error ns i = Some (Some (nt, rhs)) -> n <= length rhs -> shows_all ns lo (skipn n rhs) rest ->
    frame_ok ns {| fnode := i; next := n; started := true |} (concat (map walk_item rest)).
(** all frames below the top are started *)
Inductive stack_ok (ns : list (option (list ascii * list sym))) : list frame -> list tsym -> Prop :=
| st_nil : stack_ok ns [] []
| st_cons f q a b : frame_ok ns f a -> started f = true -> stack_ok ns q b -> stack_ok ns (f :: q) (a ++ b).
Inductive top_ok (ns : list (option (list ascii * list sym))) : list frame -> list tsym -> Prop :=
| tp f q a b : frame_ok ns f a -> stack_ok ns q b -> top_ok ns (f :: q) (a ++ b).
Lemma shows_all_len ns i r k : shows_all ns i r k -> length r = length k.
Proof. induction 1; cbn; congruence. Qed.
Lemma skipn_nth {A} (l : list A) n x r : skipn n l = x :: r -> nth_error l n = Some x /\ skipn (S n) l = r /\ n < length l.
Proof.
  revert l; induction n as [|n IH]; intros [|y l] H; try discriminate.
  - injection H as -> ->. cbn. repeat split; lia.
  - cbn [skipn] in H. destruct (IH l H) as (A1 & A2 & A3). cbn. repeat split; [exact A1|exact A2|lia].
Qed.
Lemma shows_label ns lo t : shows ns lo t -> exists m, get ns (lo + size t - 1) = Some m /\ fst m = match t with Tree nt _ => nt end.
Proof. intros H. inversion H as [i nt rhs kids E _]; subst. unfold get. rewrite E. cbn. eexists. split; reflexivity. Qed.
Lemma pop_stage ns q o x0 : stack_ok ns q o ->
  exists q1 q' x', pop ns q = Some q1 /\ Stage ns q1 x0 = Some (q', x') /\
    (o = [] -> q' = []) /\ (o <> [] -> exists o', o = x' :: o' /\ top_ok ns q' o').
Proof.
  induction 1 as [|f q a b Ff St SO IH].
  - exists [], [], x0. repeat split; auto. congruence.
  - inversion Ff as [lo t S|i n lo nt rhs rest E N S]; subst; [discriminate St|]. cbn [pop fnode next started].
    unfold get at 1. rewrite E. cbn [bind fst snd]. destruct rest as [|it rest].
    + assert (Ln : length rhs <= n) by (apply shows_all_len in S; cbn in S; rewrite skipn_length in S; lia).
      destruct (Nat.ltb_spec n (length rhs)); [lia|]. exact IH.
    + inversion S as [|? w r k S'|? w r k S'|? t r k Sj S']; subst;
        match goal with H : _ :: _ = skipn n rhs |- _ => symmetry in H; destruct (skipn_nth _ _ _ _ H) as (X1 & X2 & X3) end;
        (destruct (Nat.ltb_spec n (length rhs)); [|lia]);
        exists ({| fnode := i; next := n + 1; started := true |} :: q); unfold Stage; cbn [fnode next started]; unfold get; rewrite ?E; cbn [bind fst snd];
        (replace (n + 1 - 1) with n by lia); rewrite X1.
      * do 2 eexists. split; [reflexivity|]. split; [reflexivity|]. split; [discriminate|]. intros _. eexists. split; [reflexivity|].
        constructor; [|exact SO]. eapply (fr_on ns i (n + 1) _ nt rhs); [exact E|lia|]. replace (n + 1) with (Datatypes.S n) by lia. rewrite X2. exact S'.
      * do 2 eexists. split; [reflexivity|]. split; [reflexivity|]. split; [discriminate|]. intros _. eexists. split; [reflexivity|].
        constructor; [|exact SO]. eapply (fr_on ns i (n + 1) _ nt rhs); [exact E|lia|]. replace (n + 1) with (Datatypes.S n) by lia. rewrite X2. exact S'.
      * destruct (shows_label _ _ _ Sj) as (m & M1 & M2). unfold get in M1. do 2 eexists. split; [reflexivity|].
        cbn [bind]. rewrite M1. cbn [bind]. split; [reflexivity|]. split; [discriminate|]. intros _. eexists.
        split; [cbn [map concat walk_item app]; rewrite M2, <- app_assoc; reflexivity|].
        constructor; [apply fr_new, Sj|]. constructor; [|reflexivity|exact SO].
        eapply (fr_on ns i (n + 1) _ nt rhs); [exact E|lia|]. replace (n + 1) with (Datatypes.S n) by lia. rewrite X2. exact S'.
Qed.
Lemma inc_ok ns q o x0 : top_ok ns q o ->
  exists q' x', inc ns q x0 = Some (q', x') /\ (o = [] -> q' = []) /\ (o <> [] -> exists o', o = x' :: o' /\ top_ok ns q' o').
Proof.
  intros H. inversion H as [f q0 a b Ff SO]; subst. unfold inc. destruct (started f) eqn:St.
  - destruct (pop_stage ns (f :: q0) (a ++ b) x0 ltac:(constructor; assumption)) as (q1 & q' & x' & P1 & P2 & P3 & P4).
    rewrite P1. cbn [bind]. rewrite P2. eauto 10.
  - inversion Ff as [lo t S|i n lo nt rhs rest E N S]; subst; [|discriminate St].
    inversion S as [i' nt rhs kids E SA]; subst. unfold Stage. cbn [fnode started]. unfold get. rewrite E. cbn [bind fst snd next fnode].
    do 2 eexists. split; [reflexivity|]. split; [discriminate|]. intros _. rewrite walk_eq. eexists. split; [reflexivity|].
    constructor; [|exact SO]. apply (fr_on ns _ 0 lo nt rhs); [exact E|lia|exact SA].
Qed.
Lemma collect_ok ns : forall o q x fuel, top_ok ns q o -> length o + 1 < fuel -> collect fuel ns q x = Some (x :: o).
Proof.
  induction o as [|y o IH]; intros q x fuel H L; (destruct fuel as [|fuel]; [lia|]); cbn [collect];
    destruct (inc_ok ns q _ x H) as (q' & x' & I1 & I2 & I3); (destruct q as [|f q]; [inversion H|]); rewrite I1; cbn [bind].
  - rewrite (I2 eq_refl). destruct fuel; [cbn in L; lia|]. reflexivity.
  - destruct (I3 ltac:(discriminate)) as (o' & E & T'). injection E as <- <-. rewrite (IH q' y fuel T') by (cbn in L; lia). reflexivity.
Qed.
Lemma dfs_ok ns t fuel : shows ns 0 t -> length ns = size t -> length (walk t) < fuel -> dfs fuel ns = Some (walk t).
Proof.
  intros H LN L. unfold dfs, begin_, Stage. cbn [fnode started]. inversion H as [i nt rhs kids E SA]; subst. cbn [Nat.add] in E. rewrite <- LN in E. unfold get. rewrite E. cbn [bind fst snd].
  rewrite walk_eq in *. cbn [length] in L. apply collect_ok; [|lia]. rewrite <- (app_nil_r (concat _)). constructor; [|constructor].
  apply (fr_on ns _ 0 0 nt rhs); [exact E|lia|exact SA].
Qed.
Lemma walk_words t : concat (map (fun x => match x with T w => [w] | _ => [] end) (walk t)) = words t.
Proof.
  pattern t. apply (tree_rect' _ (fun it => concat (map (fun x => match x with T w => [w] | _ => [] end) (walk_item it)) = item_words it)); auto.
  intros nt kids F. rewrite walk_eq, words_eq. cbn [map concat app]. induction F as [|it kids Fi F IH]; [reflexivity|].
  cbn [map concat]. rewrite map_app, concat_app, IH, Fi. reflexivity.
Qed.

(** ** everything *)
Theorem fragment_of_text t w afs fs0 ts0 : writes t w -> (afs = true \/ sites t = []) ->
  exists f, TreeFragment fs0 ts0 w afs = Ok f /\ length (f_nodes f) = size t /\ shows (f_nodes f) 0 t
    /\ f_terminals f = ts0 + length (words t) /\ f_frontier f = fs0 + length (sites t)
    /\ (afs = false -> map fst (f_spans f) = seq 0 (size t) /\ forall n l s, below t n l s -> In (n + size s - 1, (l, l + width s)) (f_spans f)).
Proof.
  intros W A. unfold TreeFragment.
  pose proof (brackets_ok t w W [] 1 0 (or_intror eq_refl) (le_n 1)) as B. rewrite app_nil_r in B. rewrite B. cbn [brackets Nat.add].
  destruct (parse_ok t w W (S (length w)) afs [] {| np := 0; nodes := repeat None (size t); frontier_sites := fs0; terminals := ts0 |}
     ltac:(lia) A ltac:(cbn; rewrite repeat_length; lia)) as (s' & P1 & P2 & P3 & P4 & P5 & P6 & P7).
  cbn [np nodes frontier_sites terminals] in *. rewrite repeat_length in P3. rewrite app_nil_r in P1. rewrite P1. cbn [rbind].
  destruct afs.
  - eexists. split; [reflexivity|]. cbn [f_nodes f_terminals f_frontier f_spans]. repeat split; auto; discriminate.
  - pose proof (size_pos t). destruct (spans_ok _ _ _ P5 (S (size t)) 0 ltac:(lia)) as (sp & S1 & S2). cbn [Nat.add] in S1, S2. rewrite S1.
    eexists. split; [reflexivity|]. cbn [f_nodes f_terminals f_frontier f_spans]. repeat split; auto; apply S2.
Qed.
Theorem fragment_shown t w afs fs0 ts0 : writes t w -> (afs = true \/ sites t = []) ->
  exists f, TreeFragment fs0 ts0 w afs = Ok f /\ show f = Some (print t) /\ (wf t -> writes t (print t)).
Proof.
  intros W A. destruct (fragment_of_text t w afs fs0 ts0 W A) as (f & E & N & S & _). exists f. split; [exact E|]. split; [|apply print_writes].
  unfold show. rewrite N. pose proof (size_pos t). exact (debug_ok _ 0 _ S (Datatypes.S (size t)) ltac:(lia)).
Qed.
Theorem fragment_walked t w afs fs0 ts0 : writes t w -> (afs = true \/ sites t = []) ->
  exists f, TreeFragment fs0 ts0 w afs = Ok f /\ forall fuel, length (walk t) < fuel ->
    dfs fuel (f_nodes f) = Some (walk t) /\ Terminals fuel (f_nodes f) = Some (words t).
Proof.
  intros W A. destruct (fragment_of_text t w afs fs0 ts0 W A) as (f & E & N & S & _). exists f. split; [exact E|]. intros fuel L.
  pose proof (dfs_ok (f_nodes f) t fuel S N L) as D. split; [exact D|]. unfold Terminals. rewrite D. cbn [bind]. now rewrite walk_words.
Qed.
