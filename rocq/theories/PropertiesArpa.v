(** C52: building a language model from an ARPA file. *)
From Coq Require Import String List ZArith NArith Bool Lia.
Import ListNotations.
From Verif Require Import Lm LmSpec LmProofs LmMainProofs Arpa ArpaSpec ArpaFileProofs ArpaMarkProofs.
Open Scope Z_scope.

(** Whatever the file says, loading ends in a model or in an exception. *)
Theorem C52_defined : forall c a, LoadARPA c a <> Undefined.
Proof. exact load_defined. Qed.
Print Assumptions C52_defined.

(** Small files.  Log probabilities and weights in the units of the model. *)
Definition Mi (n : N) : fl := Fl true n.
Definition Pl (n : N) : fl := Fl false n.
Definition ex_c : config := Config 6 true true true (Mi 100) (fun n => n + n)%nat NoRest (FW pzero pzero pzero) pzero.
Definition with_build (c : config) (b : rest_build) := Config (c_max c) (c_positive c) (c_unk c) (c_marker c) (c_unk_prob c) (c_scaled c) b (c_mem c) (c_junk c).
Definition lenient (c : config) : config := Config (c_max c) false false false (c_unk_prob c) (c_scaled c) (c_build c) (c_mem c) (c_junk c).
Definition ln (p : N) (s : list string) (b : option fl) : line := Line (Mi p) s b.
Open Scope string_scope.
Definition ex_uni : list (fl * string * option fl) :=
  [(Mi 90, "<unk>", None); (Mi 99, "<s>", Some (Mi 3)); (Mi 20, "</s>", None); (Mi 10, "a", Some (Mi 2)); (Mi 11, "b", Some (Mi 4))].
(** The trigram "a b </s>" is listed without the bigram "b </s>", which becomes a blank. *)
Definition ex_a : arpa := Arpa ex_uni
  [[ln 5 ["<s>"; "a"] (Some (Mi 1)); ln 6 ["a"; "b"] None; ln 7 ["b"; "a"] (Some (Mi 3))];
   [ln 2 ["<s>"; "a"; "b"] None; ln 1 ["a"; "b"; "</s>"] None]].
(** All lower orders listed *)
Definition ex_closed : arpa := Arpa ex_uni
  [[ln 5 ["<s>"; "a"] (Some (Mi 1)); ln 6 ["a"; "b"] None; ln 7 ["b"; "a"] (Some (Mi 3))];
   [ln 2 ["<s>"; "a"; "b"] None; ln 1 ["a"; "b"; "a"] None]].
Definition loads (c : config) (a : arpa) : bool := match LoadARPA c a with Ok _ => true | _ => false end.
Definition model_of (c : config) (a : arpa) : option (vocab * search) := match LoadARPA c a with Ok (v, t) => Some (v, to_search c a t) | _ => None end.
Close Scope string_scope.

Example C52_defined_ex : loads ex_c ex_a = true /\ LoadARPA ex_c (Arpa ex_uni []) = Throw.
Proof. split; vm_compute; reflexivity. Qed.

(** Files that keep the rules are accepted. *)
Theorem C52_accepts : forall c a, ok_config c a -> Forall (unigram_fine (c_positive c)) (one a) -> (forall n l, line_of a n l -> line_fine a (c_positive c) n l) -> closed a ->
  exists v t, LoadARPA c a = Ok (v, t).
Proof. exact load_accepts. Qed.
Print Assumptions C52_accepts.
Definition b_sa := ln 5 ["<s>"; "a"]%string (Some (Mi 1)).
Definition b_ab := ln 6 ["a"; "b"]%string None.
Definition b_ba := ln 7 ["b"; "a"]%string (Some (Mi 3)).
Ltac each_line n Hl := destruct Hl as (Hn & Hl); destruct n as [|[|[|[|n]]]]; [lia|lia| | |]; cbn in Hl; [| |destruct n; contradiction]; repeat (destruct Hl as [<-|Hl]); try contradiction.
Ltac words := let s := fresh in let H := fresh in intros s H; cbn in H; repeat (destruct H as [<-|H]; [vm_compute; auto|]); contradiction.
Example C52_accepts_ex : ok_config ex_c ex_closed /\ Forall (unigram_fine (c_positive ex_c)) (one ex_closed) /\ (forall n l, line_of ex_closed n l -> line_fine ex_closed (c_positive ex_c) n l) /\ closed ex_closed.
Proof.
  split; [repeat split; cbn; try lia; intros; vm_compute; reflexivity|]. split; [repeat constructor; intros _; cbn; lia|]. split.
  - intros n l Hl. each_line n Hl; (split; [reflexivity|split; [intros _; cbn; lia|split; [words|cbn; try lia; intros; reflexivity]]]).
  - intros n l H3 Hl. revert H3. each_line n Hl; intros H3; try lia;
      (split; [first [exists b_ab; split; [split; [lia|cbn; tauto]|reflexivity] | exists b_ba; split; [split; [lia|cbn; tauto]|reflexivity]]
             | first [exists b_sa; split; [split; [lia|cbn; tauto]|reflexivity] | exists b_ab; split; [split; [lia|cbn; tauto]|reflexivity]]]).
Qed.

(** A file that was accepted keeps the rules about its lines. *)
Theorem C52_checks : forall c a v t, LoadARPA c a = Ok (v, t) ->
  ok_config c a /\ Forall (unigram_fine (c_positive c)) (one a) /\ (forall n l, line_of a n l -> line_fine a (c_positive c) n l).
Proof. exact load_checks. Qed.
Print Assumptions C52_checks.
Example C52_checks_ex : loads ex_c ex_a = true
  /\ loads ex_c (Arpa ex_uni [[ln 5 ["a"; "zzz"] None]])%string = false /\ loads ex_c (Arpa ex_uni [[ln 5 ["a"; "b"; "a"] None]])%string = false
  /\ loads ex_c (Arpa ex_uni [[ln 5 ["a"; "b"] (Some (Mi 1))]])%string = false /\ loads ex_c (Arpa (tl ex_uni) [[]]) = false /\ loads ex_c (Arpa ((Pl 1, "c", None)%string :: ex_uni) [[]]) = false.
Proof. repeat split; vm_compute; reflexivity. Qed.

(** The context of every n-gram of an accepted file is the end of an n-gram of the file. *)
Theorem C52_contexts : forall c a v t n l, LoadARPA c a = Ok (v, t) -> (3 <= n)%nat -> line_of a n l ->
  exists n' l' e, line_of a n' l' /\ map canon (l_words l') = e ++ removelast (map canon (l_words l)).
Proof. exact load_contexts. Qed.
Print Assumptions C52_contexts.
Example C52_contexts_ex : loads ex_c ex_a = true /\ loads ex_c (Arpa ex_uni [[ln 6 ["a"; "b"] None]; [ln 1 ["b"; "a"; "b"] None]])%string = false.
Proof. split; vm_compute; reflexivity. Qed.

(** The model is properly built: the language model properties C49 and C50 apply to it. *)
Theorem C52_built : forall c a v t, LoadARPA c a = Ok (v, t) -> unk_ok a -> well_built (to_search c a t).
Proof. exact load_built. Qed.
Print Assumptions C52_built.
Example C52_built_ex : loads ex_c ex_a = true /\ unk_ok ex_a.
Proof. split; [vm_compute; reflexivity|left; reflexivity]. Qed.

(** Scores are those of the lines of the file, for all words and histories, known or not. *)
Theorem C52_score : forall c a v t, LoadARPA c a = Ok (v, t) -> unk_ok a -> nonpositive a (- Z.abs (val (c_unk_prob c))) ->
  forall w h, logprob (to_search c a t) (Index v w) (map (Index v) h) = file_logprob a (- Z.abs (val (c_unk_prob c))) w h.
Proof. exact load_score. Qed.
Print Assumptions C52_score.
Lemma katz_lines a u k w h : (length h < k)%nat -> file_katz a u k w h = file_katz a u (length h) w h.
Proof. induction k as [|k IH]; intros H; [lia|]. cbn [file_katz]. destruct (Nat.ltb_spec (length h) (S k)); [|lia]. destruct (Nat.eq_dec (length h) k) as [<-|]; [reflexivity|apply IH; lia]. Qed.
Ltac nonpos := let n := fresh in let l := fresh in let w := fresh in let h := fresh in let k := fresh in let Hl := fresh in let E := fresh in
  intros n l w h k Hl E; each_line n Hl; cbn in E; injection E as <- <-;
  (destruct k as [|[|[|k]]]; [vm_compute; discriminate|vm_compute; discriminate|vm_compute; discriminate|]); rewrite katz_lines by (cbn; lia); vm_compute; discriminate.
Lemma ex_nonpositive u : nonpositive ex_a u.
Proof. nonpos. Qed.
Example C52_score_ex : loads ex_c ex_a = true /\ nonpositive ex_a (-100)
  /\ option_map (fun p => let '(v, m) := p in (logprob m (Index v "</s>") (map (Index v) ["b"; "a"]), logprob m (Index v "</s>") (map (Index v) ["b"; "b"]), logprob m (Index v "huh") (map (Index v) ["a"; "b"])))%string (model_of ex_c ex_a)
    = Some (-1, -20 - 4, -90 - 2 - 3)
  /\ file_logprob ex_a (-100) "huh" ["a"; "b"]%string = -90 - 2 - 3.
Proof. split; [vm_compute; reflexivity|]. split; [apply ex_nonpositive|]. split; vm_compute; reflexivity. Qed.

(** A sentence scored word by word, with the states of the model, gets the sum of the
    scores of the file. *)
Theorem C52_sentence : forall c a v t, LoadARPA c a = Ok (v, t) -> unk_ok a -> nonpositive a (- Z.abs (val (c_unk_prob c))) ->
  forall b ws, exists s, run (to_search c a t) (BeginSentenceState (to_search c a t) (Index v b)) (map (Index v) ws) = Some (file_score a (- Z.abs (val (c_unk_prob c))) [b] ws, s).
Proof.
  intros c a v t E U N b ws. destruct (run_begin _ (load_built c a v t E U) (Index v b) (map (Index v) ws)) as (s & H & _). exists s. rewrite H. do 2 f_equal. exact (load_seq c a v t E U N [b] ws).
Qed.
Print Assumptions C52_sentence.
Example C52_sentence_ex : option_map (fun p => let '(v, m) := p in option_map fst (run m (BeginSentenceState m (Index v "<s>")) (map (Index v) ["a"; "b"; "</s>"])))%string (model_of ex_c ex_a) = Some (Some (-5 - 2 - 1))
  /\ file_score ex_a (-100) ["<s>"]%string ["a"; "b"; "</s>"]%string = -8.
Proof. split; vm_compute; reflexivity. Qed.

(** States stay small: words are only kept as a context if the file gives them a back-off
    weight, or some n-gram of the file goes on after them.  (An <unk> without a line of its
    own is always kept.) *)
Theorem C52_marks : forall c a v t g w, LoadARPA c a = Ok (v, t) -> listed a "<unk>" = true \/ map (norm a) g <> ["<unk>"%string] ->
  entry (to_search c a t) (map (Index v) g) = Some w -> has_ext w = true ->
  file_bow a (map (norm a) g) <> 0 \/ exists n l x older, line_of a n l /\ map canon (l_words l) = older ++ rev (map (norm a) g) ++ [x].
Proof. exact load_marks. Qed.
Print Assumptions C52_marks.
(** "a b" has no weight but goes on to "a b </s>"; "b a" has a weight; "</s>" and, with a
    weight of 0 on its line, "b b" have neither. *)
Definition ex_marks : arpa := Arpa ex_uni
  [[ln 6 ["a"; "b"] None; ln 7 ["b"; "a"] (Some (Mi 3)); ln 8 ["b"; "b"] (Some (Pl 0))]; [ln 1 ["a"; "b"; "</s>"] None]]%string.
Example C52_marks_ex : option_map (fun p => let '(v, m) := p in map (fun g => option_map has_ext (entry m (map (Index v) g))) [["b"; "a"]; ["a"; "b"]; ["b"; "b"]; ["</s>"]; ["b"]])%string (model_of ex_c ex_marks)
  = Some [Some true; Some true; Some false; Some false; Some true].
Proof. vm_compute. reflexivity. Qed.

(** Without separate rest costs the model is ordinary (see C49). *)
Theorem C52_ordinary : forall c a t, c_build c = NoRest -> ordinary (to_search c a t).
Proof. exact load_ordinary. Qed.
Print Assumptions C52_ordinary.
Example C52_ordinary_ex : c_build ex_c = NoRest. Proof. reflexivity. Qed.

(** Finding: a blank n-gram with a positive Katz score is read back with the opposite
    sign.  Here "a c" is only listed inside "b a c" and its score is -1 + 3. *)
Definition pos_a : arpa := Arpa ((Mi 10, "<unk>", None) :: (Mi 99, "<s>", None) :: (Mi 20, "</s>", None) :: (Mi 8, "a", Some (Pl 3)) :: (Mi 9, "b", None) :: (Mi 1, "c", None) :: [])%string
  [[ln 5 ["b"; "a"] None; ln 5 ["b"; "b"] None]; [ln 7 ["b"; "a"; "c"] None]]%string.
Theorem C52_positive_blank_refuted : exists c a v t, LoadARPA c a = Ok (v, t) /\ unk_ok a /\ Forall (unigram_fine true) (one a)
  /\ file_logprob a (- Z.abs (val (c_unk_prob c))) "c" ["a"]%string = 2 /\ logprob (to_search c a t) (Index v "c"%string) (map (Index v) ["a"]%string) = -2.
Proof.
  exists ex_c, pos_a. destruct (LoadARPA ex_c pos_a) as [[v t]| |] eqn:E; [|exfalso; vm_compute in E; discriminate|exfalso; vm_compute in E; discriminate].
  exists v, t. split; [reflexivity|]. split; [left; reflexivity|]. split; [repeat constructor; intros _; cbn; lia|]. split; [vm_compute; reflexivity|].
  assert (H : option_map (fun p => let '(v, m) := p in logprob m (Index v "c"%string) (map (Index v) ["a"%string])) (model_of ex_c pos_a) = Some (-2)) by (vm_compute; reflexivity).
  unfold model_of in H. rewrite E in H. cbn [option_map] in H. injection H as H. exact H.
Qed.
Print Assumptions C52_positive_blank_refuted.

(** Finding: whether a file loads depends on the order of the lines in a section. *)
Definition l1 := ln 5 ["b"; "a"; "c"]%string None.
Definition l2 := ln 5 ["a"; "c"; "b"]%string None.
Definition order_a (x y : line) : arpa := Arpa ((Mi 10, "<unk>", None) :: (Mi 99, "<s>", None) :: (Mi 20, "</s>", None) :: (Mi 8, "a", None) :: (Mi 9, "b", None) :: (Mi 1, "c", None) :: [])%string
  [[ln 5 ["b"; "a"] None; ln 5 ["c"; "b"] None]%string; [x; y]].
Theorem C52_line_order_refuted : exists c x y u b, (exists r, LoadARPA c (Arpa u [b; [x; y]]) = Ok r) /\ LoadARPA c (Arpa u [b; [y; x]]) = Throw.
Proof.
  exists ex_c, l1, l2, (one (order_a l1 l2)), (nth 0 (more (order_a l1 l2)) []). split; [|vm_compute; reflexivity].
  change (exists r, LoadARPA ex_c (order_a l1 l2) = Ok r). destruct (LoadARPA ex_c (order_a l1 l2)) as [r| |] eqn:E; [exists r; reflexivity|exfalso; vm_compute in E; discriminate|exfalso; vm_compute in E; discriminate].
Qed.
Print Assumptions C52_line_order_refuted.

(** Finding: if unknown words have no line of their own, n-grams that end in one are never
    used, since writing the substitute probability clears the mark that they exist. *)
Definition unk_a : arpa := Arpa ((Mi 99, "<s>", None) :: (Mi 20, "</s>", None) :: (Mi 8, "a", Some (Mi 3)) :: [])%string [[ln 5 ["a"; "<unk>"] None]]%string.
Theorem C52_missing_unk_refuted : exists c a v t, LoadARPA c a = Ok (v, t) /\ nonpositive a (- Z.abs (val (c_unk_prob c)))
  /\ file_score a (- Z.abs (val (c_unk_prob c))) ["a"]%string ["huh"]%string = -5
  /\ exists s, run (to_search c a t) (BeginSentenceState (to_search c a t) (Index v "a"%string)) (map (Index v) ["huh"%string]) = Some (-103, s).
Proof.
  exists (lenient ex_c), unk_a. destruct (LoadARPA (lenient ex_c) unk_a) as [[v t]| |] eqn:E; [|exfalso; vm_compute in E; discriminate|exfalso; vm_compute in E; discriminate].
  exists v, t. split; [reflexivity|]. split; [|split; [vm_compute; reflexivity|]].
  - intros n l w h k Hl Ew. destruct Hl as (Hn & Hl). destruct n as [|[|[|n]]]; try lia; cbn in Hl; [|destruct n; contradiction]. destruct Hl as [<-|[]]. cbn in Ew. injection Ew as <- <-.
    destruct k as [|[|k]]; [vm_compute; discriminate|vm_compute; discriminate|]. rewrite katz_lines by (cbn; lia). vm_compute. discriminate.
  - assert (H : match LoadARPA (lenient ex_c) unk_a with Ok (v, t) => let m := to_search (lenient ex_c) unk_a t in option_map fst (run m (BeginSentenceState m (Index v "a"%string)) (map (Index v) ["huh"%string])) = Some (-103) | _ => False end) by (vm_compute; reflexivity).
    rewrite E in H. cbv iota beta zeta in H. destruct (run _ _ _) as [[p s]|]; [|discriminate]. injection H as ->. exists s. reflexivity.
Qed.
Print Assumptions C52_missing_unk_refuted.

(** Finding: in that case the rest cost of the last unigram is never set. *)
Definition rest_c (r : fl) : config := Config 6 false false false (Mi 100) (fun n => n + n)%nat MaxRest (FW pzero pzero r) pzero.
Definition last_rest (r : fl) : option Z := option_map (fun p => let '(v, m) := p in rest (unigram m (Index v "a"%string))) (model_of (rest_c r) unk_a).
Theorem C52_last_rest_refuted : exists mem1 mem2, last_rest mem1 = Some 0 /\ last_rest mem2 = Some (-2).
Proof. exists pzero, (Mi 2). split; vm_compute; reflexivity. Qed.
Print Assumptions C52_last_rest_refuted.
