(** Proofs about the dictionary model. *)
From Coq Require Import String Ascii List ZArith Bool Lia.
From Verif Require Import Dict.
Import ListNotations.
Open Scope Z_scope.

(** ** Specification helpers (independent of the model) *)

(** The words a call asks to add. *)
Fixpoint split_ws (acc : list ascii) (l : list ascii) : list (list ascii) :=
  match l with
  | [] => [rev acc]
  | c :: r => if (c =? " ")%char || (c =? "009")%char then rev acc :: split_ws [] r
              else split_ws (c :: acc) r
  end.
(** Tokens of a line: the non-empty pieces between blanks and tabs. *)
Definition tokens_spec (line : string) : list string :=
  map string_of_list_ascii
      (filter (fun t => match t with [] => false | _ => true end)
              (split_ws [] (list_ascii_of_string line))).

Definition call_words (c : dcall) : list string :=
  match c with
  | CallConvert w => [w]
  | CallFrozen _ | CallLookup _ => []
  | CallLine l => tokens_spec l
  end.
Definition history_words (h : list dcall) : list string := concat (map call_words h).

(** ** Tokenisation *)

Lemma substring_prefix : forall (a b : string) n,
  n = String.length a -> substring 0 n (a ++ b) = a.
Proof.
  induction a; intros b n ->; simpl.
  - destruct b; reflexivity.
  - rewrite IHa; auto.
Qed.

Lemma substring_mid : forall (p a b : string) n m,
  n = String.length p -> m = String.length a -> substring n m (p ++ (a ++ b)) = a.
Proof.
  induction p; intros; simpl in *; subst.
  - apply substring_prefix; auto.
  - simpl. apply IHp; auto.
Qed.

Lemma sola_app : forall a b, string_of_list_ascii (a ++ b)%list
   = (string_of_list_ascii a ++ string_of_list_ascii b)%string.
Proof. induction a; simpl; intros; [auto|rewrite IHa; auto]. Qed.
Lemma sola_len : forall a, String.length (string_of_list_ascii a) = length a.
Proof. induction a; simpl; auto. Qed.

Lemma substring_sola : forall (p a b : list ascii) n m,
  n = length p -> m = length a ->
  substring n m (string_of_list_ascii (p ++ a ++ b)%list) = string_of_list_ascii a.
Proof.
  intros. rewrite !sola_app. apply substring_mid; rewrite sola_len; auto.
Qed.

Definition keep (t : list ascii) : bool := match t with [] => false | _ => true end.

Lemma is_ws_spec c : is_ws c = ((c =? " ")%char || (c =? "009")%char).
Proof. reflexivity. Qed.

Lemma ws_loop_spec : forall k p a line state,
  line = string_of_list_ascii (p ++ a ++ k)%list ->
  (state = false -> a = []) -> (state = true -> a <> []) ->
  forall last, (state = true -> last = length p) ->
  ws_loop line k (length p + length a) last state =
  map string_of_list_ascii (filter keep (split_ws (rev a) k)).
Proof.
  induction k as [|c k IH]; intros p a line state Hl H0 H1 last Hlast; cbn [ws_loop split_ws].
  - rewrite rev_involutive. destruct state.
    + specialize (H1 eq_refl). specialize (Hlast eq_refl).
      destruct a; [congruence|]. cbn [keep filter map].
      rewrite Hl. rewrite (substring_sola p _ []); auto.
      simpl. lia.
    + rewrite (H0 eq_refl). reflexivity.
  - rewrite is_ws_spec. destruct ((c =? " ")%char || (c =? "009")%char) eqn:E.
    + rewrite rev_involutive. destruct state.
      * specialize (H1 eq_refl). specialize (Hlast eq_refl).
        destruct a as [|a0 a]; [congruence|]. cbn [keep filter map]. f_equal.
        -- rewrite Hl. rewrite (substring_sola p (a0 :: a) (c :: k)); auto. cbn [length]; lia.
        -- replace (S (length p + length (a0 :: a)))
             with (length (p ++ (a0 :: a) ++ [c])%list + length (@nil ascii))%nat
             by (rewrite !app_length; simpl; lia).
           apply IH; try congruence.
           rewrite Hl. f_equal. rewrite <- !app_assoc. reflexivity.
      * specialize (H0 eq_refl). subst a. cbn [keep filter rev].
        replace (S (length p + length (@nil ascii)))
             with (length (p ++ [c])%list + length (@nil ascii))%nat
             by (rewrite !app_length; simpl; lia).
        apply IH; try congruence.
        rewrite Hl. f_equal. rewrite <- !app_assoc. reflexivity.
    + change (c :: rev a) with (rev [c] ++ rev a)%list. rewrite <- rev_app_distr.
      destruct state.
      * replace (S (length p + length a)) with (length p + length (a ++ [c]))%nat
          by (rewrite app_length; simpl; lia).
        apply IH; try congruence.
        -- rewrite Hl. f_equal. rewrite <- !app_assoc. reflexivity.
        -- intros _. destruct a; discriminate.
        -- auto.
      * specialize (H0 eq_refl). subst a.
        replace (S (length p + length (@nil ascii))) with (length p + length ([] ++ [c])%list)%nat
          by (simpl; lia).
        apply IH.
        -- rewrite Hl. reflexivity.
        -- discriminate.
        -- intros _ Hx. destruct c; discriminate Hx.
        -- intros _. simpl. lia.
Qed.

Lemma tokens_correct line :
  ws_loop line (list_ascii_of_string line) 0 0 false = tokens_spec line.
Proof.
  change (ws_loop line (list_ascii_of_string line) (length (@nil ascii) + length (@nil ascii))%nat 0 false = tokens_spec line).
  rewrite (ws_loop_spec _ [] []); try congruence; auto.
  simpl. symmetry. apply string_of_list_ascii_of_string.
Qed.

(** ** Invariant *)

Definition BOUND : Z := 2^31.

Lemma wrap32_small z : 0 <= z < BOUND -> wrap32 z = z.
Proof.
  unfold wrap32, BOUND. intros. rewrite Z.mod_small; lia.
Qed.

Record inv (s : dict) : Prop := {
  inv_size : Z.of_nat (length (words_ s)) < BOUND;
  inv_nodup : NoDup (words_ s);
  inv_map : forall w i, d_ s w = Some i <->
              (exists n, nth_error (words_ s) n = Some w /\ i = Z.of_nat n + 1)
}.

Lemma inv_init : inv dict_init.
Proof.
  constructor; simpl.
  - unfold BOUND; lia.
  - constructor.
  - intros; split; [discriminate|]. intros (n & H & _). destruct n; discriminate.
Qed.

Lemma inv_none s w : inv s -> d_ s w = None -> ~ In w (words_ s).
Proof.
  intros I H Hin. apply In_nth_error in Hin. destruct Hin as [n Hn].
  assert (d_ s w = Some (Z.of_nat n + 1)) by (apply (inv_map s I); eauto). congruence.
Qed.

Lemma inv_in s w : inv s -> In w (words_ s) -> exists i, d_ s w = Some i.
Proof.
  intros I Hin. apply In_nth_error in Hin. destruct Hin as [n Hn].
  eexists. apply (inv_map s I); eauto.
Qed.

Lemma convert_word_inv s w f :
  inv s -> Z.of_nat (length (words_ s)) + 1 < BOUND -> inv (snd (convert_word s w f)).
Proof.
  intros I Hb. unfold convert_word. destruct (d_ s w) eqn:E; [exact I|].
  destruct f; [exact I|]. cbn [snd]. constructor; cbn [words_ d_].
  - rewrite app_length; simpl. lia.
  - pose proof (inv_none s w I E) as Hn.
    pose proof (inv_nodup s I) as Hd.
    apply NoDup_rev in Hd. rewrite <- (rev_involutive (words_ s ++ [w])).
    apply NoDup_rev. rewrite rev_app_distr. simpl. constructor; auto.
    rewrite <- in_rev. auto.
  - intros w' i. unfold map_set. rewrite app_length; simpl length.
    rewrite wrap32_small by lia.
    destruct (string_dec w w') as [->|Hne].
    + split.
      * intros [= <-]. exists (length (words_ s)).
        rewrite nth_error_app2, Nat.sub_diag by lia. split; [reflexivity|lia].
      * intros (n & Hn & ->). f_equal.
        assert (n = length (words_ s)); [|lia].
        destruct (Nat.lt_ge_cases n (length (words_ s))) as [Hlt|Hge].
        -- rewrite nth_error_app1 in Hn by lia. apply nth_error_In in Hn.
           exfalso. eapply inv_none; eauto.
        -- assert (nth_error (words_ s ++ [w']) n <> None) by congruence.
           apply nth_error_Some in H. rewrite app_length in H; simpl in H. lia.
    + rewrite (inv_map s I). split.
      * intros (n & Hn & ->). exists n. split; auto. rewrite nth_error_app1; auto.
        apply nth_error_Some. congruence.
      * intros (n & Hn & ->). exists n. split; auto.
        destruct (Nat.lt_ge_cases n (length (words_ s))) as [Hlt|Hge].
        -- rewrite nth_error_app1 in Hn by lia. auto.
        -- rewrite nth_error_app2 in Hn by lia.
           destruct (n - length (words_ s))%nat; simpl in Hn; [congruence|].
           destruct n0; discriminate.
Qed.

(** Effect on the word list. *)
Definition add_word (ws : list string) (w : string) : list string :=
  if in_dec string_dec w ws then ws else ws ++ [w].

Lemma convert_word_words s w :
  inv s -> words_ (snd (convert_word s w false)) = add_word (words_ s) w.
Proof.
  intros I. unfold convert_word, add_word. destruct (d_ s w) eqn:E.
  - destruct (in_dec string_dec w (words_ s)); auto.
    exfalso. apply n. apply (inv_map s I) in E. destruct E as (m & Hm & _).
    eapply nth_error_In; eauto.
  - destruct (in_dec string_dec w (words_ s)); auto.
    exfalso. eapply inv_none; eauto.
Qed.

Lemma add_word_len ws w : (length (add_word ws w) <= length ws + 1)%nat.
Proof. unfold add_word. destruct in_dec; [lia|rewrite app_length; simpl; lia]. Qed.

Lemma convert_all_inv : forall ws s,
  inv s -> Z.of_nat (length (words_ s)) + Z.of_nat (length ws) < BOUND ->
  inv (snd (convert_all s ws)) /\
  words_ (snd (convert_all s ws)) = fold_left add_word ws (words_ s).
Proof.
  induction ws; intros s I Hb; cbn [convert_all snd fold_left]; auto.
  cbn [length] in Hb.
  destruct (convert_word s a false) as [i s1] eqn:E1.
  destruct (convert_all s1 ws) as [is s2] eqn:E2. cbn [snd].
  assert (I1 : inv s1) by (change s1 with (snd (i, s1)); rewrite <- E1;
                            apply convert_word_inv; auto; lia).
  assert (W1 : words_ s1 = add_word (words_ s) a)
    by (change s1 with (snd (i, s1)); rewrite <- E1; apply convert_word_words; auto).
  pose proof (add_word_len (words_ s) a).
  destruct (IHws s1) as [I2 W2]; auto.
  { rewrite W1. lia. }
  rewrite E2 in *. cbn [snd] in *. rewrite W1 in W2. auto.
Qed.

Lemma dstep_inv s c :
  inv s -> Z.of_nat (length (words_ s)) + Z.of_nat (length (call_words c)) < BOUND ->
  inv (dstep s c) /\ words_ (dstep s c) = fold_left add_word (call_words c) (words_ s).
Proof.
  intros I Hb. destruct c; cbn [dstep call_words fold_left length] in *.
  - split; [apply convert_word_inv; auto; lia| apply convert_word_words; auto].
  - unfold convert_word. destruct (d_ s w); auto.
  - auto.
  - unfold convert_line in *. rewrite tokens_correct. apply convert_all_inv; auto.
Qed.

Lemma fold_add_len : forall ws l, (length (fold_left add_word ws l) <= length l + length ws)%nat.
Proof.
  induction ws; intros l; simpl; [lia|].
  pose proof (IHws (add_word l a)). pose proof (add_word_len l a). lia.
Qed.

Lemma dict_run_inv : forall h s,
  inv s -> Z.of_nat (length (words_ s)) + Z.of_nat (length (history_words h)) < BOUND ->
  inv (dict_run s h) /\ words_ (dict_run s h) = fold_left add_word (history_words h) (words_ s).
Proof.
  induction h as [|c h IH]; intros s I Hb; [simpl; auto|].
  unfold history_words in *. cbn [map concat] in *. rewrite app_length in Hb.
  destruct (dstep_inv s c I) as [I1 W1]; [lia|].
  change (dict_run s (c :: h)) with (dict_run (dstep s c) h).
  destruct (IH (dstep s c) I1) as [I2 W2].
  { rewrite W1. pose proof (fold_add_len (call_words c) (words_ s)). lia. }
  split; auto. rewrite W2, W1, fold_left_app. reflexivity.
Qed.

Lemma fold_add_prefix : forall ws l, exists t, fold_left add_word ws l = l ++ t.
Proof.
  induction ws; intros l; simpl.
  - exists []. rewrite app_nil_r; auto.
  - destruct (IHws (add_word l a)) as [t Ht]. rewrite Ht.
    unfold add_word. destruct in_dec; eauto. exists ([a] ++ t)%list. rewrite app_assoc. auto.
Qed.

Lemma fold_add_in : forall ws l w, In w (fold_left add_word ws l) <-> In w l \/ In w ws.
Proof.
  induction ws; intros l w; simpl; [tauto|].
  rewrite IHws. unfold add_word. destruct in_dec.
  - intuition subst; auto.
  - rewrite in_app_iff. simpl. tauto.
Qed.

(** ** The property lemmas *)

Lemma convert_id_of s w i :
  inv s -> d_ s w = Some i -> 1 <= i /\ convert_id s i = Some w.
Proof.
  intros I H. apply (inv_map s I) in H. destruct H as (n & Hn & ->).
  split; [lia|]. unfold convert_id.
  assert (n < length (words_ s))%nat by (apply nth_error_Some; congruence).
  pose proof (inv_size s I).
  rewrite wrap32_small by lia.
  destruct (Z.eqb_spec (Z.of_nat n + 1) 0); [lia|].
  destruct (Z.leb_spec (Z.of_nat n + 1) (Z.of_nat (length (words_ s)))); [|lia].
  destruct (Z.ltb_spec (Z.of_nat n + 1 - 1) 0); [lia|].
  replace (Z.to_nat (Z.of_nat n + 1 - 1)) with n by lia. auto.
Qed.

Definition in_budget (h : list dcall) : Prop := Z.of_nat (length (history_words h)) < 2^31.

Lemma run_init h : in_budget h ->
  inv (dict_run dict_init h) /\
  words_ (dict_run dict_init h) = fold_left add_word (history_words h) [].
Proof. intros. apply dict_run_inv; [apply inv_init|]. simpl. exact H. Qed.

Lemma history_app h h' : history_words (h ++ h') = (history_words h ++ history_words h')%list.
Proof. unfold history_words. rewrite map_app, concat_app. auto. Qed.

Lemma dict_run_app s h h' : dict_run s (h ++ h') = dict_run (dict_run s h) h'.
Proof. unfold dict_run. apply fold_left_app. Qed.

Lemma dict_grow s h : inv s ->
  Z.of_nat (length (words_ s)) + Z.of_nat (length (history_words h)) < BOUND ->
  forall w i, d_ s w = Some i -> d_ (dict_run s h) w = Some i.
Proof.
  intros I Hb w i H. destruct (dict_run_inv h s I Hb) as [I2 W2].
  apply (inv_map s I) in H. destruct H as (n & Hn & ->).
  apply (inv_map _ I2). exists n. split; auto. rewrite W2.
  destruct (fold_add_prefix (history_words h) (words_ s)) as [t ->].
  rewrite nth_error_app1; auto. apply nth_error_Some. congruence.
Qed.

(** Converting [w] after history [h], then anything [h']: the id still means [w]. *)
Lemma dict_stable h w h' :
  in_budget (h ++ CallConvert w :: h') ->
  let '(i, s1) := convert_word (dict_run dict_init h) w false in
  let s2 := dict_run s1 h' in
  1 <= i /\ convert_id s1 i = Some w /\ convert_id s2 i = Some w /\
  fst (convert_word s2 w false) = i /\ fst (convert_word s2 w true) = i.
Proof.
  intros Hb. destruct (convert_word (dict_run dict_init h) w false) as [i s1] eqn:E.
  unfold in_budget in Hb. rewrite history_app in Hb. unfold history_words at 2 in Hb.
  cbn [map concat call_words] in Hb. fold (history_words h') in Hb.
  rewrite !app_length in Hb. cbn [length] in Hb.
  destruct (run_init h) as [I W]; [unfold in_budget; lia|].
  pose proof (fold_add_len (history_words h) []). rewrite <- W in H. cbn [length] in H.
  assert (I1 : inv s1).
  { change s1 with (snd (i, s1)); rewrite <- E. apply convert_word_inv; auto. unfold BOUND; lia. }
  assert (W1 : words_ s1 = add_word (words_ (dict_run dict_init h)) w).
  { change s1 with (snd (i, s1)); rewrite <- E. apply convert_word_words; auto. }
  assert (Hd : d_ s1 w = Some i).
  { unfold convert_word in E. destruct (d_ (dict_run dict_init h) w) eqn:E2; inversion E; subst; auto.
    cbn [d_]. unfold map_set. destruct string_dec; congruence. }
  pose proof (add_word_len (words_ (dict_run dict_init h)) w).
  assert (Hb2 : Z.of_nat (length (words_ s1)) + Z.of_nat (length (history_words h')) < BOUND).
  { rewrite W1. unfold BOUND. lia. }
  pose proof (dict_grow s1 h' I1 Hb2 w i Hd) as Hd2.
  destruct (dict_run_inv h' s1 I1 Hb2) as [I2 _].
  destruct (convert_id_of _ _ _ I1 Hd). destruct (convert_id_of _ _ _ I2 Hd2).
  repeat split; auto.
  - unfold convert_word; rewrite Hd2; auto.
  - unfold convert_word; rewrite Hd2; auto.
Qed.

Lemma dict_injective h w1 w2 :
  in_budget (h ++ [CallConvert w1; CallConvert w2]) ->
  let '(i1, s1) := convert_word (dict_run dict_init h) w1 false in
  let '(i2, _) := convert_word s1 w2 false in
  i1 = i2 <-> w1 = w2.
Proof.
  intros Hb. pose proof (dict_stable h w1 [CallConvert w2] Hb) as H1.
  assert (Hb' : in_budget ((h ++ [CallConvert w1]) ++ CallConvert w2 :: [])).
  { rewrite <- app_assoc. exact Hb. }
  pose proof (dict_stable (h ++ [CallConvert w1]) w2 [] Hb') as H2.
  rewrite dict_run_app in H2. cbn [dict_run fold_left dstep] in H2.
  unfold dict_run in *. cbn [fold_left dstep] in *.
  destruct (convert_word (fold_left dstep h dict_init) w1 false) as [i1 s1] eqn:E1.
  cbn [snd] in *.
  destruct (convert_word s1 w2 false) as [i2 s2] eqn:E2. cbn [fst snd] in *.
  destruct H1 as (_ & _ & A & B & _). destruct H2 as (_ & C & _ & D & _).
  split; intros ->; congruence.
Qed.

Lemma dict_frozen h w :
  in_budget h ->
  let s := dict_run dict_init h in
  snd (convert_word s w true) = s /\
  (fst (convert_word s w true) = 0 <-> ~ In w (history_words h)) /\
  (In w (history_words h) -> convert_id s (fst (convert_word s w true)) = Some w).
Proof.
  intros Hb s. destruct (run_init h Hb) as [I W]. fold s in I, W.
  assert (Hin : In w (history_words h) <-> In w (words_ s)).
  { rewrite W, fold_add_in. simpl. tauto. }
  unfold convert_word. destruct (d_ s w) eqn:E; cbn [fst snd].
  - destruct (convert_id_of _ _ _ I E). apply (inv_map s I) in E.
    destruct E as (n & Hn & ->). apply nth_error_In in Hn.
    split; auto. split; [|auto]. split; [lia|tauto].
  - pose proof (inv_none s w I E). split; auto. split; [|tauto]. tauto.
Qed.

Lemma dict_max_count h :
  in_budget h ->
  exists l, NoDup l /\ (forall w, In w l <-> In w (history_words h)) /\
            dict_max (dict_run dict_init h) = Z.of_nat (length l).
Proof.
  intros Hb. destruct (run_init h Hb) as [I W].
  exists (words_ (dict_run dict_init h)). split; [apply inv_nodup; auto|]. split.
  - intros w. rewrite W, fold_add_in. simpl. tauto.
  - unfold dict_max. apply wrap32_small. split; [lia|]. apply inv_size; auto.
Qed.

(** Ids handed out for a line: each token's id converts back to it. *)
Lemma convert_all_ids : forall ws s,
  inv s -> Z.of_nat (length (words_ s)) + Z.of_nat (length ws) < BOUND ->
  let '(ids, s') := convert_all s ws in
  map (convert_id s') ids = map Some ws.
Proof.
  induction ws; intros s I Hb; cbn [convert_all]; auto.
  destruct (convert_word s a false) as [i s1] eqn:E1.
  cbn [length] in Hb.
  assert (I1 : inv s1) by (change s1 with (snd (i, s1)); rewrite <- E1;
                            apply convert_word_inv; auto; lia).
  assert (W1 : words_ s1 = add_word (words_ s) a)
    by (change s1 with (snd (i, s1)); rewrite <- E1; apply convert_word_words; auto).
  assert (Hd : d_ s1 a = Some i).
  { unfold convert_word in E1. destruct (d_ s a) eqn:E2; inversion E1; subst; auto.
    cbn [d_]. unfold map_set. destruct string_dec; congruence. }
  pose proof (add_word_len (words_ s) a).
  assert (Hb1 : Z.of_nat (length (words_ s1)) + Z.of_nat (length ws) < BOUND) by (rewrite W1; lia).
  specialize (IHws s1 I1 Hb1).
  destruct (convert_all_inv ws s1 I1 Hb1) as [I2 W2].
  destruct (convert_all s1 ws) as [is s2]. cbn [snd] in *. cbn [map]. f_equal; auto.
  apply convert_id_of; auto. apply (inv_map _ I2).
  apply (inv_map _ I1) in Hd. destruct Hd as (n & Hn & ->). exists n; split; auto.
  rewrite W2. destruct (fold_add_prefix ws (words_ s1)) as [t ->].
  rewrite nth_error_app1; auto. apply nth_error_Some. congruence.
Qed.

Lemma dict_line h line :
  in_budget (h ++ [CallLine line]) ->
  let '(ids, s') := convert_line (dict_run dict_init h) line in
  map (convert_id s') ids = map Some (tokens_spec line).
Proof.
  intros Hb. unfold in_budget in Hb. rewrite history_app, app_length in Hb.
  unfold history_words at 2 in Hb. cbn [map concat call_words] in Hb. rewrite app_nil_r in Hb.
  destruct (run_init h) as [I W]; [unfold in_budget; lia|].
  unfold convert_line. rewrite tokens_correct. apply convert_all_ids; auto.
  rewrite W. pose proof (fold_add_len (history_words h) []). cbn [length] in H. unfold BOUND; lia.
Qed.
