(** C94: n-gram indicator features. *)
From Coq Require Import List ZArith Bool Permutation Lia.
Import ListNotations.
From Verif Require Import Opt Lm LmSpec Ngrams NgramsSpec NgramsProofs.
Open Scope Z_scope.

(** Sentence markers added by the feature: whatever derivation a sentence has, a feature's
    value is the number of stretches of the sentence, with </s>, that have its name.  <s>
    takes part with order 2 only. *)
Theorem C94_features : forall order kSOS kEOS malformed cls name eos d,
  (1 <= order <= 5)%nat -> kSOS <> 0 -> kEOS <> 0 -> kEOS <> kSOS -> 0 < eos -> cls eos = kEOS ->
  (forall g h, (length g <= order)%nat -> (length h <= order)%nat -> name g = name h -> length g = length h) ->
  linear d -> ~ In kSOS (map cls (yield d)) -> ~ In kEOS (map cls (yield d)) -> ~ In 0 (map cls (yield d)) ->
  exists F, Features order kSOS kEOS malformed cls name false eos d = Some F
  /\ forall f, F f = count_named name f (windows order (if Nat.eqb order 2 then [kSOS] else []) (map cls (yield d) ++ [kEOS])).
Proof. exact features_ok. Qed.
Print Assumptions C94_features.

(** If different n-grams have different names: the value is the number of occurrences. *)
Theorem C94_counts : forall order kSOS kEOS malformed cls name eos d,
  (1 <= order <= 5)%nat -> kSOS <> 0 -> kEOS <> 0 -> kEOS <> kSOS -> 0 < eos -> cls eos = kEOS ->
  (forall g h, (length g <= order)%nat -> (length h <= order)%nat -> name g = name h -> g = h) ->
  linear d -> ~ In kSOS (map cls (yield d)) -> ~ In kEOS (map cls (yield d)) -> ~ In 0 (map cls (yield d)) ->
  exists F, Features order kSOS kEOS malformed cls name false eos d = Some F
  /\ forall g, (length g <= order)%nat -> F (name g) = count_gram g (windows order (if Nat.eqb order 2 then [kSOS] else []) (map cls (yield d) ++ [kEOS])).
Proof.
  intros order kSOS kEOS malformed cls name eos d Ho Hs He Hes Pe Ce Hn HL N1 N2 N3.
  destruct (features_ok order kSOS kEOS malformed cls name eos d Ho Hs He Hes Pe Ce) as (F & E & HF); auto; [intros g h Lg Lh En; f_equal; auto|].
  exists F. split; [exact E|]. intros g Hg. rewrite HF. apply (count_inj name g _ order); [intros h Hh; apply Hn; assumption|apply windows_short].
Qed.
Print Assumptions C94_counts.

(** Sentence markers produced by the rules: the same, if they are in their places. *)
Theorem C94_explicit : forall order kSOS kEOS malformed cls name eos d ws,
  (1 <= order <= 5)%nat -> kSOS <> 0 -> kEOS <> 0 -> kEOS <> kSOS ->
  (forall g h, (length g <= order)%nat -> (length h <= order)%nat -> name g = name h -> length g = length h) ->
  linear d -> map cls (yield d) = kSOS :: ws ++ [kEOS] -> ~ In kSOS ws -> ~ In kEOS ws -> ~ In 0 ws ->
  exists F, Features order kSOS kEOS malformed cls name true eos d = Some F
  /\ forall f, F f = count_named name f (windows order (if Nat.eqb order 2 then [kSOS] else []) (ws ++ [kEOS])).
Proof. exact features_marked. Qed.
Print Assumptions C94_explicit.

(** Examples: words 1 to 9, <s> = 1, </s> = 2; names are digits and the number of words. *)
Definition ex_name (g : list Z) : Z := 10 * fold_left (fun a w => 10 * a + w) g 0 + Z.of_nat (length g).
Lemma ex_name_length g h : (length g <= 5)%nat -> (length h <= 5)%nat -> ex_name g = ex_name h -> length g = length h.
Proof. unfold ex_name. intros. lia. Qed.
Definition ex_value (order : nat) (explicit : bool) (d : deriv) (f : Z) : option Z :=
  match Features order 1 2 7 (fun x => x) ex_name explicit 2 d with Some F => Some (F f) | None => None end.
Definition ex_left : deriv := Apply [0; 4] [Apply [0; 3] [Apply [0; 4] [Apply [3] []]]].
Definition ex_right : deriv := Apply [3; 0] [Apply [-1; 0] [Apply [3; 4] []; Apply [4] []]].
Lemma ex_left_ok : linear ex_left. Proof. repeat (constructor; try apply perm_swap). Qed.
Lemma ex_right_ok : linear ex_right. Proof. repeat (constructor; try apply perm_swap). Qed.
Example C94_ex : yield ex_left = [3; 4; 3; 4] /\ yield ex_right = [3; 4; 3; 4] /\ linear ex_left /\ linear ex_right
  /\ map (ex_value 3 false ex_left) [ex_name [3]; ex_name [3; 4]; ex_name [4; 3]; ex_name [3; 4; 2]; ex_name [3; 4; 3; 4]; 7] = [Some 2; Some 2; Some 1; Some 1; Some 0; Some 0]
  /\ map (ex_value 3 false ex_right) [ex_name [3]; ex_name [3; 4]; ex_name [4; 3]; ex_name [3; 4; 2]; ex_name [3; 4; 3; 4]; 7] = [Some 2; Some 2; Some 1; Some 1; Some 0; Some 0]
  /\ ex_value 2 false ex_left (ex_name [1; 3]) = Some 1
  /\ ex_value 2 true (Apply [1; 0] [Apply [3; 0] [Apply [4; 2] []]]) (ex_name [1; 3]) = Some 1
  /\ windows 3 [] [3; 4; 2] = [[3]; [4]; [3; 4]; [2]; [4; 2]; [3; 4; 2]].
Proof. split; [reflexivity|]. split; [reflexivity|]. split; [exact ex_left_ok|]. split; [exact ex_right_ok|]. repeat split; vm_compute; reflexivity. Qed.

(** Finding: with an order of 3 or more (3 is the default) no feature has <s> in it: the
    word goes to the oldest place of the state, behind places without a word. *)
Theorem C94_sos_refuted : ~ (forall order kSOS kEOS malformed cls name eos d,
  (1 <= order <= 5)%nat -> kSOS <> 0 -> kEOS <> 0 -> kEOS <> kSOS -> 0 < eos -> cls eos = kEOS ->
  (forall g h, (length g <= order)%nat -> (length h <= order)%nat -> name g = name h -> length g = length h) ->
  linear d -> ~ In kSOS (map cls (yield d)) -> ~ In kEOS (map cls (yield d)) -> ~ In 0 (map cls (yield d)) ->
  exists F, Features order kSOS kEOS malformed cls name false eos d = Some F
  /\ forall f, F f = count_named name f (windows order [kSOS] (map cls (yield d) ++ [kEOS]))).
Proof.
  intros H. destruct (H 3%nat 1 2 7 (fun x => x) ex_name 2 ex_left) as (F & E & HF); try lia.
  - intros g h Hg Hh. apply ex_name_length; lia.
  - exact ex_left_ok.
  - cbn. lia.
  - cbn. lia.
  - cbn. lia.
  - assert (V : ex_value 3 false ex_left (ex_name [1; 3]) = Some (F (ex_name [1; 3]))) by (unfold ex_value; rewrite E; reflexivity).
    rewrite HF in V. vm_compute in V. discriminate V.
Qed.
Print Assumptions C94_sos_refuted.

(** Finding: with -x a sentence without <s> loses the features of its first words instead
    of being marked as malformed. *)
Theorem C94_no_marker_refuted : exists d, linear d /\ yield d = [3; 4; 2]
  /\ ex_value 3 true d (ex_name [3]) = Some 0 /\ ex_value 3 true d (ex_name [3; 4]) = Some 0 /\ ex_value 3 true d (ex_name [3; 4; 2]) = Some 1 /\ ex_value 3 true d 7 = Some 0.
Proof. exists (Apply [3; 4; 2] []). split; [repeat constructor|]. split; [reflexivity|]. repeat split; vm_compute; reflexivity. Qed.
Print Assumptions C94_no_marker_refuted.

(** Finding: what a second <s> costs depends on the derivation: -100 if the rule has a word
    in front of it, +1 if it begins a constituent. *)
Theorem C94_second_sos_refuted : exists d1 d2, linear d1 /\ linear d2 /\ yield d1 = [1; 3; 1; 4; 2] /\ yield d2 = yield d1
  /\ ex_value 3 true d1 7 = Some (-100) /\ ex_value 3 true d2 7 = Some 1.
Proof.
  exists (Apply [1; 3; 1; 4; 2] []), (Apply [1; 3; 0] [Apply [1; 4; 2] []]). split; [repeat constructor|]. split; [repeat constructor|]. split; [reflexivity|]. split; [reflexivity|].
  split; vm_compute; reflexivity.
Qed.
Print Assumptions C94_second_sos_refuted.

(** Finding: an empty constituent hides that a word follows </s>. *)
Theorem C94_empty_refuted : exists d1 d2, linear d1 /\ linear d2 /\ yield d1 = [1; 3; 2; 4] /\ yield d2 = yield d1
  /\ ex_value 3 true d1 7 = Some 1 /\ ex_value 3 true d2 7 = Some 0.
Proof.
  exists (Apply [1; 3; 2; 4] []), (Apply [1; 3; 2; 0; 4] [Apply [] []]). split; [repeat constructor|]. split; [repeat constructor|]. split; [reflexivity|]. split; [reflexivity|].
  split; vm_compute; reflexivity.
Qed.
Print Assumptions C94_empty_refuted.

(** Finding: an order of 6 is accepted and reads past the prefixes. *)
Theorem C94_order_refuted : exists d, linear d /\ ex_value 6 false d 7 = None.
Proof. exists (Apply [3; 3; 3; 3; 3; 3] []). split; [repeat constructor|]. vm_compute. reflexivity. Qed.
Print Assumptions C94_order_refuted.
