(** Proofs about source paths, other letters and reordering. *)
From Coq Require Import List Arith ZArith Bool Lia Permutation.
From Verif Require Import Opt OptProofs CfgSpec Srcpath SrcpathSpec.
Import ListNotations.
Open Scope opt_scope.
Local Open Scope nat_scope.

Section Ind.
Variable P : deriv -> Prop.
Hypothesis step : forall f e kids, Forall P kids -> P (Node f e kids).
Fixpoint deriv_ind' (d : deriv) : P d :=
  match d with Node f e kids => step f e kids ((fix go (ks : list deriv) : Forall P ks := match ks with [] => Forall_nil _ | k :: r => Forall_cons _ (deriv_ind' k) (go r) end) kids) end.
End Ind.
Fixpoint paths (ks : list deriv) : option (list (Z * list feat)) := match ks with [] => Some [] | k :: r => x <- source_path k ;; xs <- paths r ;; Some (x :: xs) end.
Lemma source_path_eq f e kids : source_path (Node f e kids) = (rs <- paths kids ;; ' (res, fired) <- path f (map fst rs) 0 ;; Some (res, fired ++ concat (map snd rs))).
Proof.
  cbn [source_path]. assert (E : forall ks, (fix go (ks : list deriv) := match ks with [] => Some [] | k :: r => x <- source_path k ;; xs <- go r ;; Some (x :: xs) end) ks = paths ks).
  { induction ks as [|k r IH]; [reflexivity|]. cbn. rewrite IH. reflexivity. }
  now rewrite E.
Qed.
Lemma Forall2_length' {A B} (P : A -> B -> Prop) l m : Forall2 P l m -> length l = length m.
Proof. induction 1; cbn; congruence. Qed.
(** ** unigrams *)
Definition unis (l : list feat) : list feat := filter is_SU l.
Definition bis (l : list feat) : list feat := filter (fun x => negb (is_SU x)) l.
Lemma fills_words f ps s : fills f ps s -> Permutation s (filter (fun z => (0 <? z)%Z) f ++ concat ps) .
Proof.
  induction 1 as [|w f ps s W _ IH|v f p ps s V _ IH]; [constructor|..]; cbn [filter concat].
  - rewrite (proj2 (Z.ltb_lt 0 w) W). cbn [app]. now constructor.
  - rewrite (proj2 (Z.ltb_ge 0 v)) by lia. rewrite app_assoc, (Permutation_app_comm _ p), <- app_assoc. now apply Permutation_app_head.
Qed.
Lemma path_unis f ps s : fills f ps s -> forall ants prev, length ants = length ps -> exists res fired, path f ants prev = Some (res, fired) /\ unis fired = map SU (filter (fun z => (0 <? z)%Z) f).
Proof.
  induction 1 as [|w f ps s W _ IH|v f p ps s V _ IH]; intros ants prev L; cbn [path].
  - exists prev, []. split; reflexivity.
  - rewrite (proj2 (Z.ltb_ge w 0)) by lia. cbn [bind]. destruct (IH ants w L) as (res & fired & -> & U). cbn [bind]. do 2 eexists. split; [reflexivity|].
    cbn [filter]. rewrite (proj2 (Z.ltb_lt 0 w) W). unfold unis in *. rewrite !filter_app. cbn [filter is_SU app map]. rewrite U. destruct (prev =? 0)%Z; reflexivity.
  - destruct ants as [|a ants]; [discriminate|]. injection L as L. rewrite (proj2 (Z.ltb_lt v 0) V). cbn [bind]. destruct (IH ants a L) as (res & fired & -> & U). cbn [bind]. do 2 eexists. split; [reflexivity|].
    cbn [filter]. rewrite (proj2 (Z.ltb_ge 0 v)) by lia. unfold unis in *. rewrite !filter_app, U. destruct (prev =? 0)%Z; reflexivity.
Qed.
Lemma concat_snoc {A} (l : list (list A)) : concat l = fold_right (@app A) [] l.
Proof. induction l as [|x l IH]; [reflexivity|]. cbn. now rewrite IH. Qed.
Theorem unigrams : forall d s, source d s -> exists res fired, source_path d = Some (res, fired) /\ Permutation (unis fired) (map SU s).
Proof.
  induction d as [f e kids IH] using deriv_ind'. intros s H. inversion H as [? ? ? ps ? NE F FI]; subst.
  assert (K : exists rs, paths kids = Some rs /\ length rs = length ps /\ Permutation (unis (concat (map snd rs))) (map SU (concat ps))).
  { clear FI H. revert IH. induction F as [|k p kids ps S F IHF]; intros IH; [exists []; repeat split; constructor|].
    inversion IH as [|? ? I1 I2]; subst. destruct (I1 _ S) as (res & fired & E & U). destruct (IHF I2) as (rs & E' & L & U'). exists ((res, fired) :: rs). cbn [paths]. rewrite E, E'. cbn [bind].
    split; [reflexivity|]. split; [cbn; now rewrite L|]. cbn [map snd concat]. unfold unis in *. rewrite filter_app, map_app. now apply Permutation_app. }
  destruct K as (rs & E & L & U). rewrite source_path_eq, E. cbn [bind]. destruct (path_unis _ _ _ FI (map fst rs) 0 ltac:(now rewrite map_length)) as (res & fired & -> & U'). cbn [bind].
  do 2 eexists. split; [reflexivity|]. unfold unis in *. rewrite filter_app, U'. apply fills_words in FI. rewrite (Permutation_map SU FI), map_app. now apply Permutation_app_head.
Qed.
(** ** bigrams *)
Definition sb (p : Z * Z) : feat := SB (fst p) (snd p).
Lemma neighbours_app a x s : neighbours (a ++ x :: s) = neighbours (a ++ [x]) ++ neighbours (x :: s).
Proof. induction a as [|y a IH]; [reflexivity|]. destruct a as [|z a]; [reflexivity|]. change (neighbours ((y :: z :: a) ++ x :: s)) with ((y, z) :: neighbours ((z :: a) ++ x :: s)). rewrite IH. reflexivity. Qed.
Lemma source_pos : forall d s, source d s -> s <> [] /\ Forall (fun z => (0 < z)%Z) s.
Proof.
  induction d as [f e kids IH] using deriv_ind'. intros s H. inversion H as [? ? ? ps ? NE F FI]; subst.
  assert (K : Forall (fun p => p <> [] /\ Forall (fun z => (0 < z)%Z) p) ps).
  { clear FI H. revert IH. induction F as [|k p kids ps S F IHF]; intros IH; constructor; inversion IH; subst; auto. }
  split.
  - destruct FI as [|w f ps s W _|v f p ps s V _]; [congruence|discriminate|]. inversion K as [|? ? [N _] _]; subst. destruct p; [congruence|discriminate].
  - clear NE F H. induction FI as [|w f ps s W _ IHf|v f p ps s V _ IHf]; [constructor|constructor; auto|]. inversion K as [|? ? [_ N] K']; subst. apply Forall_app. auto.
Qed.
Lemma fills_fun f ps s : fills f ps s -> forall s', fills f ps s' -> s = s'.
Proof.
  induction 1 as [|w f ps s W _ IH|v f p ps s V _ IH]; intros s' H; inversion H; subst; try lia; auto; f_equal; auto.
Qed.
Lemma source_fun : forall d s s', source d s -> source d s' -> s = s'.
Proof.
  induction d as [f e kids IH] using deriv_ind'. intros s s' H H'. inversion H as [? ? ? ps ? NE F FI]; subst. inversion H' as [? ? ? ps' ? _ F' FI']; subst.
  assert (E : ps = ps').
  { clear - IH F F'. revert ps' F' IH. induction F as [|k p kids ps S F IHF]; intros ps' F' IH; inversion F'; subst; [reflexivity|]. inversion IH as [|? ? I1 I2]; subst. f_equal; eauto. }
  subst. exact (fills_fun _ _ _ FI _ FI').
Qed.
(** the part after the first symbol: every variable stands for one word *)
Lemma path_single f ps s : fills f ps s -> forall ants prev, Forall2 (fun p a => p = [a] /\ (0 < a)%Z) ps ants -> (0 < prev)%Z ->
  exists fired, path f ants prev = Some (last (prev :: s) 0%Z, fired) /\ Permutation (fired ++ map SU ants) (map SU s ++ map sb (neighbours (prev :: s))).
Proof.
  induction 1 as [|w f ps s W _ IH|v f p ps s V _ IH]; intros ants prev A P; cbn [path].
  - inversion A; subst. exists []. split; [reflexivity|constructor].
  - rewrite (proj2 (Z.ltb_ge w 0)) by lia. cbn [bind]. destruct (IH ants w A W) as (fired & -> & Q). cbn [bind]. rewrite (proj2 (Z.eqb_neq prev 0)) by lia. eexists. split; [reflexivity|].
    change (neighbours (prev :: w :: s)) with ((prev, w) :: neighbours (w :: s)). cbn [map app]. constructor. rewrite <- Permutation_middle. constructor. exact Q.
  - inversion A as [|? a ? ants' [-> Pa] A']; subst. rewrite (proj2 (Z.ltb_lt v 0) V). cbn [bind]. destruct (IH ants' a A' Pa) as (fired & -> & Q). cbn [bind]. rewrite (proj2 (Z.eqb_neq prev 0)) by lia. eexists. split; [reflexivity|].
    change ([a] ++ s) with (a :: s). change (neighbours (prev :: a :: s)) with ((prev, a) :: neighbours (a :: s)). cbn [map app]. rewrite <- !Permutation_middle. cbn [app]. rewrite perm_swap. constructor. constructor. exact Q.
Qed.
Lemma single_kids kids ps : Forall2 source kids ps -> Forall (fun k => exists x, source k [x]) kids ->
  Forall (fun k => forall s, source k s -> exists fired, source_path k = Some (last s 0%Z, fired) /\ Permutation fired (map SU s ++ map sb (neighbours s))) kids ->
  exists rs, paths kids = Some rs /\ Forall2 (fun p a => p = [a] /\ (0 < a)%Z) ps (map fst rs) /\ Permutation (concat (map snd rs)) (map SU (map fst rs)).
Proof.
  induction 1 as [|k p kids ps S F IH]; intros X I; [exists []; repeat split; constructor|]. inversion X as [|? ? [x Sx] X']; subst. inversion I as [|? ? I1 I2]; subst. destruct (IH X' I2) as (rs & E & A & Q).
  assert (p = [x]) as -> by (eapply source_fun; eassumption). destruct (I1 _ S) as (fired & E1 & Q1). cbn [last neighbours map app] in *. exists ((x, fired) :: rs). cbn [paths]. rewrite E1, E. cbn [bind map fst snd concat].
  split; [reflexivity|]. apply source_pos in S. destruct S as [_ S]. apply Forall_inv in S. split; [constructor; auto|]. now apply (Permutation_app Q1 Q).
Qed.
Lemma last_app (a : list Z) s d : a <> [] -> last (a ++ s) d = last (last a d :: s) d.
Proof.
  intros N. induction a as [|x a IH]; [congruence|]. destruct a as [|y a]; [reflexivity|]. cbn [app]. change (last (x :: y :: a ++ s) d) with (last ((y :: a) ++ s) d). rewrite IH by discriminate. reflexivity.
Qed.
Lemma neighbours_join (a : list Z) s : a <> [] -> neighbours (a ++ s) = neighbours a ++ neighbours (last a 0%Z :: s).
Proof.
  intros N. destruct (exists_last N) as (b & x & ->). rewrite last_last. rewrite <- app_assoc. cbn [app]. apply neighbours_app.
Qed.
Lemma mix {A} (fi a u b s t : list A) : Permutation (fi ++ a) (s ++ t) -> Permutation (fi ++ (u ++ b) ++ a) ((u ++ s) ++ b ++ t).
Proof.
  intros H. rewrite Permutation_app_swap_app, H. rewrite <- !app_assoc. apply Permutation_app_head. apply Permutation_app_swap_app.
Qed.
Theorem bigrams : forall d, front d -> forall s, source d s -> exists fired, source_path d = Some (last s 0%Z, fired) /\ Permutation fired (map SU s ++ map sb (neighbours s)).
Proof.
  induction d as [f e kids IH] using deriv_ind'. intros FR s H. inversion H as [? ? ? ps ? NE F FI]; subst.
  inversion FR as [w f' ? ? W FK SK|v f' ? k kids' V F1 FK SK]; subst.
  - inversion FI as [|? ? ? s' _ FI'|]; subst; [|lia].
    destruct (single_kids _ _ F SK) as (rs & E & A & Q). { rewrite Forall_forall in *. intros k I. apply IH; auto. }
    rewrite source_path_eq, E. cbn [bind path]. rewrite (proj2 (Z.ltb_ge w 0)) by lia. cbn [bind Z.eqb]. destruct (path_single _ _ _ FI' _ w A W) as (fired & -> & Q'). cbn [bind]. eexists. split; [reflexivity|].
    cbn [app map]. constructor. rewrite Q. exact Q'.
  - inversion FI as [| |? ? p ps' s' _ FI']; subst; [lia|]. inversion F as [|? ? ? ? S1 F']; subst. inversion IH as [|? ? I1 I2]; subst.
    destruct (I1 F1 _ S1) as (fired1 & E1 & Q1). destruct (single_kids _ _ F' SK) as (rs & E & A & Q). { rewrite Forall_forall in *. intros k' I. apply I2; auto. }
    rewrite source_path_eq. cbn [paths]. rewrite E1, E. cbn [bind map fst path]. rewrite (proj2 (Z.ltb_lt v 0) V). cbn [bind Z.eqb].
    apply source_pos in S1. destruct S1 as [N1 P1]. assert (0 < last p 0)%Z as PL. { destruct (exists_last N1) as (b & x & ->). rewrite last_last. apply Forall_app in P1. destruct P1 as [_ P1]. now apply Forall_inv in P1. }
    destruct (path_single _ _ _ FI' _ (last p 0%Z) A PL) as (fired & -> & Q'). cbn [bind]. rewrite last_app by exact N1. eexists. split; [reflexivity|].
    cbn [app map snd concat]. rewrite (neighbours_join p s' N1), !map_app, Q1, Q. now apply mix.
Qed.

(** ** other letters *)
Lemma utf8_ascii b : b < 128 -> UTF8Len b = 1.
Proof. intros H. unfold UTF8Len. now rewrite (proj2 (Nat.ltb_lt b 128) H). Qed.
Lemma utf8_lead b : lead b -> 1 < UTF8Len b.
Proof.
  intros [H1 H2]. unfold UTF8Len. rewrite (proj2 (Nat.ltb_ge b 128)) by lia.
  destruct (le_lt_dec 224 b) as [A|A]; [|replace (b / 32) with 6 by (apply (Nat.div_unique b 32 6 (b - 192)); lia); cbn; lia].
  replace (b / 32 =? 6) with false by (symmetry; apply Nat.eqb_neq; pose proof (Nat.div_le_lower_bound b 32 7); lia).
  destruct (le_lt_dec 240 b) as [B|B]; [|replace (b / 16) with 14 by (apply (Nat.div_unique b 16 14 (b - 224)); lia); cbn; lia].
  replace (b / 16 =? 14) with false by (symmetry; apply Nat.eqb_neq; pose proof (Nat.div_le_lower_bound b 16 15); lia).
  destruct (le_lt_dec 248 b) as [C|C]; [|replace (b / 8) with 30 by (apply (Nat.div_unique b 8 30 (b - 240)); lia); cbn; lia].
  replace (b / 8 =? 30) with false by (symmetry; apply Nat.eqb_neq; pose proof (Nat.div_le_lower_bound b 8 31); lia).
  destruct (le_lt_dec 252 b) as [D|D]; [|replace (b / 4) with 62 by (apply (Nat.div_unique b 4 62 (b - 248)); lia); cbn; lia].
  replace (b / 4 =? 62) with false by (symmetry; apply Nat.eqb_neq; pose proof (Nat.div_le_lower_bound b 4 63); lia).
  replace (b / 2) with 126 by (apply (Nat.div_unique b 2 126 (b - 252)); lia). cbn. lia.
Qed.
Lemma contains_ok w : readable w -> ContainsNonLatin w = Some (not_ascii w).
Proof.
  induction 1 as [|b r B _ IH|b r L]; [reflexivity|..]; cbn [ContainsNonLatin].
  - rewrite utf8_ascii by exact B. cbv zeta. change (1 <? 1) with false. change (1 =? 0) with false. cbv iota. rewrite IH. unfold not_ascii. cbn [existsb]. now rewrite (proj2 (Nat.leb_gt 128 b) B).
  - cbv zeta. rewrite (proj2 (Nat.ltb_lt 1 _) (utf8_lead b L)). destruct L. unfold not_ascii. cbn [existsb]. rewrite (proj2 (Nat.leb_le 128 b)) by lia. reflexivity.
Qed.
Section NonLatin.
Variable text : Z -> list nat.
Hypothesis texts : forall w, readable (text w).
Definition other (w : Z) : bool := not_ascii (text w).
Definition others (l : list Z) : nat := length (filter other l).
Definition true_cache (c : list (Z * bool)) : Prop := forall w b, find_word c w = Some b -> b = other w.
Lemma count_ok e : forall c, true_cache c -> exists c', count_words text e c = Some (c', others (filter (fun z => (0 <? z)%Z) e)) /\ true_cache c'.
Proof.
  induction e as [|w r IH]; intros c T; [exists c; split; auto|]. cbn [count_words filter]. destruct (0 <? w)%Z.
  - assert (X : exists c1, (match find_word c w with Some b => Some (c, b) | None => b <- ContainsNonLatin (text w) ;; Some ((w, b) :: c, b) end) = Some (c1, other w) /\ true_cache c1).
    { destruct (find_word c w) as [b|] eqn:E; [exists c; split; [rewrite (T _ _ E); reflexivity|exact T]|]. rewrite contains_ok by apply texts. cbn [bind]. exists ((w, other w) :: c). split; [reflexivity|].
      intros x b. cbn [find_word]. destruct (Z.eqb_spec x w) as [->|_]; [intros [= <-]; reflexivity|apply T]. }
    destruct X as (c1 & -> & T1). cbn [bind]. destruct (IH c1 T1) as (c' & -> & T'). cbn [bind]. exists c'. split; [|exact T']. unfold others. cbn [filter]. destruct (other w); reflexivity.
  - cbn [bind]. destruct (IH c T) as (c' & -> & T'). exists c'. split; [reflexivity|exact T'].
Qed.
Fixpoint non_latins (ks : list deriv) (c : list (Z * bool)) : option (list (Z * bool) * nat) :=
  match ks with [] => Some (c, 0) | k :: r => ' (c', n) <- non_latin text k c ;; ' (c'', m) <- non_latins r c' ;; Some (c'', n + m) end.
Lemma non_latin_eq f e kids c : non_latin text (Node f e kids) c = (' (c1, n1) <- non_latins kids c ;; ' (c2, n2) <- count_words text e c1 ;; Some (c2, n1 + n2)).
Proof.
  cbn [non_latin]. assert (E : forall ks c, (fix go (ks : list deriv) (c : list (Z * bool)) := match ks with [] => Some (c, 0) | k :: r => ' (c', n) <- non_latin text k c ;; ' (c'', m) <- go r c' ;; Some (c'', n + m) end) ks c = non_latins ks c).
  { induction ks as [|k r IH]; intros c0; [reflexivity|]. cbn. destruct (non_latin text k c0) as [[c' n]|]; [|reflexivity]. cbn [bind]. rewrite IH. reflexivity. }
  now rewrite E.
Qed.
Lemma others_app a b : others (a ++ b) = others a + others b.
Proof. unfold others. now rewrite filter_app, app_length. Qed.
Lemma numbered_count e ps : forall u, numbered e ps = Some u -> others u = others (filter (fun z => (0 <? z)%Z) e) + list_sum (map (fun m => others (nth m ps [])) (vars e)).
Proof.
  induction e as [|w r IH]; intros u E; cbn [numbered] in E; [injection E as <-; reflexivity|].
  unfold vars. cbn [flat_map filter]. fold (vars r). destruct (0 <? w)%Z.
  - destruct (numbered r ps) as [l|]; [|discriminate]. injection E as <-. cbn [app]. change (w :: l) with ([w] ++ l). change (w :: filter (fun z => (0 <? z)%Z) r) with ([w] ++ filter (fun z => (0 <? z)%Z) r). rewrite !others_app, (IH l eq_refl). lia.
  - destruct (nth_error ps (Z.to_nat (- w))) as [p|] eqn:N; [|discriminate]. destruct (numbered r ps) as [l|]; [|discriminate]. injection E as <-. rewrite others_app, (IH l eq_refl). cbn [app map list_sum fold_right]. rewrite (nth_error_nth _ _ _ N).
    change (fold_right Nat.add 0 (map (fun m => others (nth m ps [])) (vars r))) with (list_sum (map (fun m => others (nth m ps [])) (vars r))). lia.
Qed.
Lemma numbered_vars e ps u : numbered e ps = Some u -> forall m, In m (vars e) -> m < length ps.
Proof.
  revert u. induction e as [|w r IH]; intros u E m I; [destruct I|]. cbn [numbered] in E. unfold vars in I. cbn [flat_map] in I. fold (vars r) in I. destruct (0 <? w)%Z.
  - destruct (numbered r ps) as [l|]; [|discriminate]. exact (IH l eq_refl m I).
  - destruct (nth_error ps (Z.to_nat (- w))) as [p|] eqn:N; [|discriminate]. destruct (numbered r ps) as [l|]; [|discriminate]. destruct I as [<- |I]; [apply nth_error_Some; congruence|exact (IH l eq_refl m I)].
Qed.
Lemma sum_perm (l l' : list nat) : Permutation l l' -> list_sum l = list_sum l'.
Proof. unfold list_sum. induction 1; cbn [fold_right]; lia. Qed.
Lemma sum_nth (ps : list (list Z)) : map (fun m => others (nth m ps [])) (seq 0 (length ps)) = map others ps.
Proof.
  induction ps as [|p ps IH]; [reflexivity|]. cbn [length seq map nth]. f_equal. rewrite <- seq_shift, map_map. exact IH.
Qed.
Theorem letters : forall d s, target d s -> forall c, true_cache c -> exists c', non_latin text d c = Some (c', others s) /\ true_cache c'.
Proof.
  induction d as [f e kids IH] using deriv_ind'. intros s H c T. inversion H as [? ? ? ps ? F IN ND NU]; subst.
  assert (K : forall c, true_cache c -> exists c', non_latins kids c = Some (c', list_sum (map others ps)) /\ true_cache c').
  { clear - IH F. revert IH. induction F as [|k p kids ps S F IHF]; intros IH c T; [exists c; split; auto|]. inversion IH as [|? ? I1 I2]; subst. cbn [non_latins].
    destruct (I1 _ S c T) as (c1 & -> & T1). cbn [bind]. destruct (IHF I2 c1 T1) as (c2 & -> & T2). exists c2. split; [reflexivity|exact T2]. }
  destruct (K c T) as (c1 & E1 & T1). rewrite non_latin_eq, E1. cbn [bind]. destruct (count_ok e c1 T1) as (c2 & -> & T2). cbn [bind]. exists c2. split; [|exact T2].
  do 2 f_equal. rewrite (numbered_count _ _ _ NU). rewrite <- sum_nth. rewrite (sum_perm _ (map (fun m => others (nth m ps [])) (vars e))); [lia|]. apply Permutation_map. apply NoDup_Permutation; [apply seq_NoDup|exact ND|].
  intros m. rewrite in_seq. apply Forall2_length' in F. split; [intros [_ L]; apply IN; cbn in L; lia|]. intros I. apply (numbered_vars _ _ _ NU) in I. lia.
Qed.
Theorem all_letters ds ss : Forall2 target ds ss -> all_non_latin text ds [] = Some (map (fun s => length (filter (fun w => not_ascii (text w)) s)) ss).
Proof.
  assert (T0 : true_cache []) by discriminate. revert T0. generalize (@nil (Z * bool)). intros c T F. revert c T. induction F as [|d s ds ss D _ IH]; intros c T; [reflexivity|].
  cbn [all_non_latin]. destruct (letters _ _ D c T) as (c' & -> & T'). cbn [bind]. rewrite (IH c' T'). reflexivity.
Qed.
End NonLatin.
Lemma endless w b r : Forall (fun x => x < 128) w -> 128 <= b < 192 -> ContainsNonLatin (w ++ b :: r) = None.
Proof.
  induction 1 as [|x w L _ IH]; intros B; cbn [app ContainsNonLatin].
  - assert (UTF8Len b = 0) as ->; [|reflexivity]. unfold UTF8Len. rewrite (proj2 (Nat.ltb_ge b 128)) by lia.
    pose proof (Nat.div_lt_upper_bound b 32 6 ltac:(lia) ltac:(lia)). pose proof (Nat.div_lt_upper_bound b 16 12 ltac:(lia) ltac:(lia)). pose proof (Nat.div_lt_upper_bound b 8 24 ltac:(lia) ltac:(lia)).
    pose proof (Nat.div_lt_upper_bound b 4 48 ltac:(lia) ltac:(lia)). pose proof (Nat.div_lt_upper_bound b 2 96 ltac:(lia) ltac:(lia)).
    rewrite !(proj2 (Nat.eqb_neq _ _)) by lia. reflexivity.
  - rewrite utf8_ascii by exact L. exact (IH B).
Qed.
(** ** reordering *)
Lemma reordered_first e m r : vars e = m :: r -> IsArity2RuleReordered e = Some (negb (m =? 0)).
Proof.
  induction e as [|x e IH]; [discriminate|]. unfold vars. cbn [flat_map IsArity2RuleReordered]. fold (vars e). destruct (0 <? x)%Z eqn:X.
  - apply Z.ltb_lt in X. rewrite (proj2 (Z.leb_gt x 0) X). exact IH.
  - apply Z.ltb_ge in X. rewrite (proj2 (Z.leb_le x 0) X). intros [= <- _]. f_equal. destruct (Z.ltb_spec x 0) as [L|L]; [|replace x with 0%Z by lia; reflexivity].
    rewrite (proj2 (Nat.eqb_neq _ 0)) by lia. reflexivity.
Qed.
Theorem cmr_ok bin e i j m n : vars e = [m; n] -> (0 <= i)%Z -> (i < j <= i + 15)%Z ->
  Cmr bin false 2 e i j = Some (if m =? 0 then [Mono; MonoSpan (bin (Z.to_nat (j - i)))] else [Reorder; ReorderSpan (bin (Z.to_nat (j - i)))]).
Proof.
  intros V I J. unfold Cmr. cbn [Nat.eqb negb]. rewrite (proj2 (Z.leb_le 0 i) I), (proj2 (Z.ltb_lt i j)) by lia. cbn [andb]. rewrite (reordered_first _ _ _ V). cbn [bind].
  assert (E : forall k, 1 <= k <= 15 -> nth_error (fids bin) k = Some (Some (MonoSpan (bin k), ReorderSpan (bin k)))).
  { intros k K. do 16 (destruct k as [|k]; [try lia; reflexivity|]). lia. }
  rewrite E by lia. cbn [bind]. destruct (m =? 0); reflexivity.
Qed.
