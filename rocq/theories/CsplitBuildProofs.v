(** The compound splitter: the graph built. *)
From Coq Require Import List ZArith Bool Lia.
From Verif Require Import Opt HG HGProofs Deriv TopoSpec PruneSpec Rule Parser Constrain ConstrainSpec BuiltProofs Csplit CsplitSpec CsplitProofs.
Import ListNotations.
Open Scope opt_scope.
Local Open Scope nat_scope.

Notation descr := (nat * nat * option (list nat * Z))%type.
Section G.
Variable conv : list nat -> Z.
Variables kXCAT kGOALCAT kHASH fugS fugN : Z.
Notation label := (elab (Z * Z)).
Variable chars : list (list nat).
Hypothesis NE : chars <> [].
Let n := length chars.

(** positions with nodes, and their numbers *)
Definition pos (i : nat) : bool := (i =? 0) || ((3 <=? i) && (i + 3 <=? n)) || (i =? n).
Definition num (i : nat) : nat := if i =? 0 then 0 else if i =? n then S (n - 5) else i - 2.
Definition part (i j : nat) : list (list nat) := firstn (j - i) (skipn i chars).
Definition alt_of (i j : nat) : list descr :=
  if j =? n then [] else match fugen fugS fugN (concat (part i j)) with Some (Some (a, f)) => [(i, j, Some (a, f))] | _ => [] end.
Definition descr_of (i j : nat) : list descr := if pos j then (i, j, None) :: alt_of i j else [].
Definition start (i : nat) : nat := Nat.min (i + 3) n.
Definition descrs_from (i : nat) : list descr := if pos i then flat_map (descr_of i) (seq (start i) (S n - start i)) else [].
Definition descrs : list descr := flat_map descrs_from (seq 0 (max_split_ chars)).
Definition lab_of (k : nat) (d : descr) : label :=
  let '(i, j, v) := d in let w := conv (concat (part i j)) in
  match v with
  | None => an_edge (template kXCAT k w w) [] (Z.of_nat i) (Z.of_nat j)
  | Some (a, f) => an_edge (template kXCAT k (conv a) w) [(f, 1%Z)] (Z.of_nat i) (Z.of_nat j)
  end.
Definition edge_of (k : nat) (d : descr) : list nat * label * nat := ([num (fst (fst d))], lab_of k d, num (snd (fst d))).
Fixpoint edges_of (k : nat) (ds : list descr) : list (list nat * label * nat) := match ds with [] => [] | d :: r => edge_of k d :: edges_of (S k) r end.
Lemma edges_of_app : forall a k b, edges_of k (a ++ b) = edges_of k a ++ edges_of (k + length a) b.
Proof. induction a as [|d a IH]; intros k b; cbn; [f_equal; lia|]. rewrite IH. do 2 f_equal. f_equal. lia. Qed.
Lemma edges_of_len : forall ds k, length (edges_of k ds) = length ds.
Proof. induction ds as [|d r IH]; intros k; cbn; [reflexivity|]. rewrite IH. reflexivity. Qed.
Lemma edges_of_nth : forall ds k m, nth_error (edges_of k ds) m = option_map (edge_of (k + m)) (nth_error ds m).
Proof. induction ds as [|d r IH]; intros k [|m]; cbn; try reflexivity; [rewrite Nat.add_0_r; reflexivity|]. rewrite IH. replace (S k + m) with (k + S m) by lia. reflexivity. Qed.

Lemma n_pos : 1 <= n.
Proof. subst n. destruct chars; [congruence|cbn; lia]. Qed.
Lemma pos_iff : forall i, pos i = true <-> i = 0 \/ (3 <= i /\ i + 3 <= n) \/ i = n.
Proof. intros i. unfold pos. rewrite !orb_true_iff, andb_true_iff, !Nat.eqb_eq, !Nat.leb_le. tauto. Qed.
Lemma num_lt : forall i, pos i = true -> num i < S (S (n - 5)).
Proof. intros i P. apply pos_iff in P. unfold num. destruct (Nat.eqb_spec i 0); [lia|]. destruct (Nat.eqb_spec i n); lia. Qed.
Lemma num_inj : forall i j, pos i = true -> pos j = true -> num i = num j -> i = j.
Proof. intros i j P Q E. apply pos_iff in P. apply pos_iff in Q. pose proof n_pos. unfold num in E. destruct (Nat.eqb_spec i 0), (Nat.eqb_spec j 0), (Nat.eqb_spec i n), (Nat.eqb_spec j n); lia. Qed.
Lemma max_split_n : max_split_ chars = Nat.max (n - 2) 1.
Proof. unfold max_split_, min_size_. fold n. lia. Qed.

(** the vector of nodes *)
Definition node_vec (ns : list (option nat)) (ok : nat -> bool) : Prop := forall i, nth_error ns i = if i <=? n then Some (if ok i then Some (num i) else None) else None.
Lemma paste_ok : forall k i, i + k <= n -> paste chars k i = Some (concat (firstn k (skipn i chars))).
Proof.
  induction k as [|k IH]; intros i L; cbn [paste]; [reflexivity|]. destruct (nth_error chars i) as [c|] eqn:E; [|apply nth_error_None in E; subst n; lia]. cbn [bind]. rewrite IH by lia. cbn [bind]. f_equal.
  assert (S : skipn i chars = c :: skipn (S i) chars). { clear - E. revert i E. induction chars as [|x l IHl]; intros [|i] E; try discriminate; [injection E as ->; reflexivity|]. cbn [skipn] in *. apply (IHl i E). }
  rewrite S. reflexivity.
Qed.
Lemma add_edge_ok : forall cs es g ts l h, built cs es g -> (forall t, In t ts -> t < length cs) -> h < length cs ->
  exists g', add_edge ts l h g = Some g' /\ built cs (es ++ [(ts, l, h)]) g'.
Proof. intros cs es g ts l h B T H. destruct (built_edge cs es g ts l h B T H) as (g1 & g2 & A & C & B2 & _). exists g2. unfold add_edge. rewrite A. cbn [bind]. auto. Qed.
Section C.
Variables (cs : list Z) (ns : list (option nat)).
Hypothesis LC : length cs = S (S (n - 5)).
Hypothesis NV : node_vec ns pos.
Lemma span_ok : forall i j es g, built cs es g -> pos i = true -> i <= j <= n ->
  exists g', span conv kXCAT fugS fugN chars ns i j g = Some g' /\ built cs (es ++ edges_of (length es) (descr_of i j)) g'.
Proof.
  intros i j es g B PI J. unfold span. rewrite (NV j). destruct (Nat.leb_spec j n); [|lia]. cbn [bind]. unfold descr_of. destruct (pos j) eqn:PJ; [|exists g; cbn [edges_of]; rewrite app_nil_r; auto].
  unfold PasteTogetherStrings. rewrite paste_ok by lia. fold (part i j). cbn [bind]. rewrite (NV i). destruct (Nat.leb_spec i n); [|lia]. rewrite PI. cbn [bind].
  destruct (built_len _ _ _ B) as [_ LE]. rewrite LE.
  destruct (add_edge_ok cs es g [num i] (lab_of (length es) (i, j, None)) (num j) B) as (g1 & A & B1). { intros t [<- |[]]. rewrite LC. apply num_lt. exact PI. } { rewrite LC. apply num_lt. exact PJ. }
  unfold lab_of in A at 1. rewrite A. cbn [bind]. destruct (built_len _ _ _ B1) as [_ LE1]. rewrite LE1. rewrite app_length. cbn [length]. replace (length es + 1) with (S (length es)) by lia.
  unfold alt_of. fold n. destruct (j =? n); [exists g1; cbn [edges_of]; auto|]. destruct (fugen_ok fugS fugN (concat (part i j))) as (o & F & K). rewrite F. cbn [bind]. destruct o as [(a, f)|]; [|exists g1; cbn [edges_of]; auto].
  destruct (linking_short _ _ _ _ _ (proj1 (K a f) eq_refl)) as [_ LA]. destruct (Nat.eqb_spec (length a) 0); [lia|].
  destruct (add_edge_ok cs _ g1 [num i] (lab_of (S (length es)) (i, j, Some (a, f))) (num j) B1) as (g2 & A2 & B2). { intros t [<- |[]]. rewrite LC. apply num_lt. exact PI. } { rewrite LC. apply num_lt. exact PJ. }
  unfold lab_of in A2 at 1. rewrite A2. exists g2. split; [reflexivity|]. cbn [edges_of]. rewrite <- app_assoc in B2. exact B2.
Qed.
Lemma spans_ok : forall i js es g, built cs es g -> pos i = true -> (forall j, In j js -> i <= j <= n) ->
  exists g', spans conv kXCAT fugS fugN chars ns i js g = Some g' /\ built cs (es ++ edges_of (length es) (flat_map (descr_of i) js)) g'.
Proof.
  intros i. induction js as [|j r IH]; intros es g B P J; cbn [spans flat_map]; [exists g; cbn; rewrite app_nil_r; auto|].
  destruct (span_ok i j es g B P (J j (or_introl eq_refl))) as (g1 & -> & B1). cbn [bind]. destruct (IH _ g1 B1 P) as (g2 & E & B2); [intros k I; exact (J k (or_intror I))|]. exists g2. split; [exact E|].
  rewrite app_length, edges_of_len, <- app_assoc in B2. rewrite edges_of_app. exact B2.
Qed.
Lemma starts_ok : forall is es g, built cs es g -> (forall i, In i is -> i <= n) ->
  exists g', starts conv kXCAT fugS fugN chars ns is g = Some g' /\ built cs (es ++ edges_of (length es) (flat_map descrs_from is)) g'.
Proof.
  induction is as [|i r IH]; intros es g B J; cbn [starts flat_map]; [exists g; cbn; rewrite app_nil_r; auto|].
  assert (L : i <= n) by (apply J; left; reflexivity). assert (J' : forall k, In k r -> k <= n) by (intros k I; apply J; right; exact I). rewrite (NV i). destruct (Nat.leb_spec i n); [|lia]. cbn [bind]. destruct (pos i) eqn:P; [|unfold descrs_from at 1; rewrite P; cbn [app]; exact (IH es g B J')].
  unfold min_size_. fold n. fold (start i). destruct (spans_ok i (seq (start i) (S n - start i)) es g B P) as (g1 & -> & B1). { intros j I. apply in_seq in I. unfold start in I. lia. }
  cbn [bind]. destruct (IH _ g1 B1 J') as (g2 & E & B2). exists g2. split; [exact E|]. unfold descrs_from at 1. rewrite P. rewrite app_length, edges_of_len, <- app_assoc in B2. rewrite edges_of_app. exact B2.
Qed.
End C.

Lemma new_node_ok : forall i ns ok cs es g, i <= n -> node_vec ns ok -> built cs es g -> length cs = num i ->
  exists ns' g', new_node kXCAT i (ns, g) = Some (ns', g') /\ node_vec ns' (fun k => (k =? i) || ok k) /\ built (cs ++ [kXCAT]) es g'.
Proof.
  intros i ns ok cs es g L V B E. unfold new_node. destruct (built_node cs es g kXCAT B) as (g1 & A & B1). rewrite A. cbn [bind]. destruct (built_len _ _ _ B) as [LN _]. rewrite LN, E.
  destruct (upd_total _ ns i (fun _ => Some (num i))) as (ns' & U). { apply nth_error_Some. rewrite (V i). destruct (Nat.leb_spec i n); [discriminate|lia]. }
  rewrite U. cbn [bind]. exists ns', g1. split; [reflexivity|]. split; [|exact B1]. intros k. rewrite (upd_nth _ _ _ _ _ k U), (V k). rewrite (Nat.eqb_sym k i). destruct (Nat.eqb_spec i k) as [<-|]; [|reflexivity]. destruct (Nat.leb_spec i n); [reflexivity|lia].
Qed.
Lemma new_nodes_ok : forall m i ns ok cs es g, 3 <= i -> i + m + 2 <= n \/ m = 0 -> node_vec ns ok -> built cs es g -> length cs = i - 2 ->
  exists ns' g', new_nodes kXCAT (seq i m) (ns, g) = Some (ns', g') /\ node_vec ns' (fun k => ((i <=? k) && (k <? i + m)) || ok k) /\ built (cs ++ repeat kXCAT m) es g'.
Proof.
  induction m as [|m IH]; intros i ns ok cs es g L3 LM V B E; cbn [seq new_nodes repeat].
  - exists ns, g. split; [reflexivity|]. rewrite app_nil_r. split; [|exact B]. intros k. rewrite (V k). destruct (Nat.leb_spec i k), (Nat.ltb_spec k (i + 0)); try lia; reflexivity.
  - destruct (new_node_ok i ns ok cs es g) as (ns1 & g1 & -> & V1 & B1); [lia|exact V|exact B|unfold num; destruct (Nat.eqb_spec i 0), (Nat.eqb_spec i n); lia|]. cbn [bind].
    destruct (IH (S i) ns1 _ (cs ++ [kXCAT]) es g1 ltac:(lia) ltac:(lia) V1 B1) as (ns2 & g2 & E2 & V2 & B2); [rewrite app_length; cbn; lia|]. exists ns2, g2. split; [exact E2|]. split; [|rewrite <- app_assoc in B2; exact B2].
    intros k. rewrite (V2 k). replace ((S i <=? k) && (k <? S i + m) || ((k =? i) || ok k)) with ((i <=? k) && (k <? i + S m) || ok k); [reflexivity|].
    destruct (Nat.leb_spec i k), (Nat.ltb_spec k (i + S m)), (Nat.leb_spec (S i) k), (Nat.ltb_spec k (S i + m)), (Nat.eqb_spec k i); cbn; try reflexivity; lia.
Qed.
Definition all_edges : list (list nat * label * nat) := ([], kWORDBREAK_RULE kHASH, 0) :: edges_of 1 descrs ++ [([S (n - 5)], kGOAL_RULE kXCAT, S (S (n - 5)))].
Lemma build_ok : exists cs g, BuildTrellis conv kXCAT kGOALCAT kHASH fugS fugN chars = Some g /\ built cs all_edges g /\ length cs = S (S (S (n - 5))).
Proof.
  pose proof n_pos as NP. unfold BuildTrellis. fold n.
  assert (V0 : node_vec (repeat None (n + 1)) (fun _ => false)). { intros i. destruct (Nat.leb_spec i n) as [L|L]; [|apply nth_error_None; rewrite repeat_length; lia]. destruct (nth_error (repeat None (n + 1)) i) as [o|] eqn:E; [|apply nth_error_None in E; rewrite repeat_length in E; lia]. apply nth_error_In, repeat_spec in E. subst o. reflexivity. }
  destruct (new_node_ok 0 _ _ [] [] empty_hg ltac:(lia) V0 built_empty eq_refl) as (ns1 & g1 & -> & V1 & B1). cbn [bind].
  destruct (add_edge_ok _ _ g1 [] (kWORDBREAK_RULE kHASH) 0 B1) as (g2 & -> & B2); [intros t []|cbn; lia|]. cbn [bind app] in *.
  rewrite max_split_n. unfold min_size_. replace (Nat.max (n - 2) 1 - 3) with (n - 5) by lia.
  destruct (new_nodes_ok (n - 5) 3 ns1 _ _ _ g2 ltac:(lia) ltac:(lia) V1 B2 eq_refl) as (ns3 & g3 & -> & V3 & B3). cbn [bind].
  rewrite (V3 n), Nat.leb_refl. replace ((3 <=? n) && (n <? 3 + (n - 5)) || ((n =? 0) || false)) with false by (destruct (Nat.leb_spec 3 n), (Nat.ltb_spec n (3 + (n - 5))), (Nat.eqb_spec n 0); try lia; reflexivity). cbn [bind].
  destruct (new_node_ok n ns3 _ _ _ g3 (le_n n) V3 B3) as (ns4 & g4 & -> & V4 & B4). { cbn [app length]. rewrite repeat_length. unfold num. destruct (Nat.eqb_spec n 0); [lia|]. rewrite Nat.eqb_refl. reflexivity. }
  cbn [bind]. assert (V5 : node_vec ns4 pos).
  { intros k. rewrite (V4 k). destruct (Nat.leb_spec k n); [|reflexivity]. replace (pos k) with ((k =? n) || ((3 <=? k) && (k <? 3 + (n - 5)) || ((k =? 0) || false))); [reflexivity|]. unfold pos. destruct (Nat.eqb_spec k n), (Nat.leb_spec 3 k), (Nat.ltb_spec k (3 + (n - 5))), (Nat.eqb_spec k 0), (Nat.leb_spec (k + 3) n); cbn; try reflexivity; lia. }
  assert (LC : length ((([] ++ [kXCAT]) ++ repeat kXCAT (n - 5)) ++ [kXCAT]) = S (S (n - 5))) by (rewrite !app_length, repeat_length; cbn; lia).
  destruct (starts_ok _ ns4 LC V5 (seq 0 (Nat.max (n - 2) 1)) _ g4 B4) as (g5 & -> & B5). { intros i I. apply in_seq in I. lia. }
  cbn [bind]. destruct (built_node _ _ g5 kGOALCAT B5) as (g6 & -> & B6). cbn [bind]. destruct (built_len _ _ _ B5) as [LN5 _]. rewrite LN5. cbn [app length]. rewrite app_length, repeat_length. cbn [length].
  replace (S (n - 5 + 1) - 1) with (S (n - 5)) by lia.
  destruct (built_edge_ptr _ _ g6 [S (n - 5)] (kGOAL_RULE kXCAT) (S (S (n - 5))) B6) as (g7 & g8 & -> & C & B8). { intros t [<- |[]]. cbn [app length]. rewrite !app_length, repeat_length. cbn. lia. } { cbn [app length]. rewrite !app_length, repeat_length. cbn. lia. }
  cbn [bind]. replace (S (n - 5 + 1)) with (S (S (n - 5))) by lia. rewrite C. eexists. exists g8. split; [reflexivity|]. split.
  - unfold all_edges, descrs. rewrite max_split_n. cbn [app length] in B8. exact B8.
  - cbn [app length]. rewrite !app_length, repeat_length. cbn. lia.
Qed.

(** ** the edges *)
Lemma descrs_in : forall i j v, In (i, j, v) descrs <-> pos i = true /\ pos j = true /\ ((i + 3 <= j <= n) \/ (i = 0 /\ j = n)) /\ (v = None \/ j <> n /\ exists a f, v = Some (a, f) /\ linking fugS fugN (concat (part i j)) a f).
Proof.
  intros i j v. unfold descrs. rewrite in_flat_map, max_split_n. pose proof n_pos as NP.
  assert (A : forall i j v i0 j0, In (i, j, v) (descr_of i0 j0) <-> i = i0 /\ j = j0 /\ pos j = true /\ (v = None \/ j <> n /\ exists a f, v = Some (a, f) /\ linking fugS fugN (concat (part i j)) a f)).
  { clear i j v. intros i j v i0 j0. unfold descr_of, alt_of. destruct (pos j0) eqn:P; [|split; [intros []|intros (-> & -> & Q & _); congruence]]. cbn [In]. destruct (Nat.eqb_spec j0 n) as [->|N].
    - split; [intros [[= <- <- <-]|[]]; auto|intros (-> & -> & _ & [->|(Q & _)]); [left; reflexivity|congruence]].
    - destruct (fugen_ok fugS fugN (concat (part i0 j0))) as (o & -> & K). split.
      + intros [[= <- <- <-]|I]; [auto|]. destruct o as [(a, f)|]; [|destruct I]. destruct I as [[= <- <- <-]|[]]. repeat split; try assumption. right. split; [exact N|]. exists a, f. split; [reflexivity|]. apply K. reflexivity.
      + intros (-> & -> & _ & [->|(_ & a & f & -> & Q)]); [left; reflexivity|]. apply K in Q. subst o. right. left. reflexivity. }
  split.
  - intros (i0 & I0 & I). apply in_seq in I0. unfold descrs_from in I. destruct (pos i0) eqn:P; [|destruct I]. apply in_flat_map in I as (j0 & J0 & I). apply in_seq in J0. apply A in I as (-> & -> & Q & R). split; [exact P|]. split; [exact Q|]. split; [|exact R]. unfold start in J0. apply pos_iff in P. lia.
  - intros (P & Q & L & R). assert (LE : (i + 3 <= j <= n) \/ (i = 0 /\ j = n /\ n < 3)) by lia. exists i. split; [apply in_seq; lia|]. unfold descrs_from. rewrite P. apply in_flat_map. exists j. split; [apply in_seq; unfold start; lia|]. apply A. auto.
Qed.
Lemma descrs_nodup : NoDup descrs.
Proof.
  assert (A : forall i j x, In x (descr_of i j) -> fst x = (i, j)). { intros i j x I. unfold descr_of, alt_of in I. destruct (pos j); [|destruct I]. destruct I as [<- |I]; [reflexivity|]. destruct (j =? n); [destruct I|]. destruct (fugen fugS fugN (concat (part i j))) as [[(a, f)|]|]; try destruct I as [<- |[]]; try destruct I. reflexivity. }
  unfold descrs. apply NoDup_flat_map; [apply seq_NoDup| |].
  - intros i _. unfold descrs_from. destruct (pos i); [|constructor]. apply NoDup_flat_map; [apply seq_NoDup| |].
    + intros j _. unfold descr_of, alt_of. destruct (pos j); [|constructor]. destruct (j =? n); [repeat constructor; intros []|]. destruct (fugen fugS fugN (concat (part i j))) as [[(a, f)|]|]; repeat constructor; cbn; intuition congruence.
    + intros j j' x _ _ I J. apply A in I. apply A in J. congruence.
  - intros i i' x _ _ I J. unfold descrs_from in *. destruct (pos i); [|destruct I]. destruct (pos i'); [|destruct J]. apply in_flat_map in I as (j & _ & I). apply in_flat_map in J as (j' & _ & J). apply A in I. apply A in J. congruence.
Qed.
Lemma all_edges_nth : forall e ts l h, nth_error all_edges e = Some (ts, l, h) <->
  (e = 0 /\ ts = [] /\ l = kWORDBREAK_RULE kHASH /\ h = 0) \/
  (exists k d, e = S k /\ nth_error descrs k = Some d /\ (ts, l, h) = edge_of e d) \/
  (e = S (length descrs) /\ ts = [S (n - 5)] /\ l = kGOAL_RULE kXCAT /\ h = S (S (n - 5))).
Proof.
  intros e ts l h. unfold all_edges. destruct e as [|e]; cbn [nth_error].
  - split; [intros [= <- <- <-]; auto|intros [(_ & -> & -> & ->)|[(k & d & K & _)|(K & _)]]; [reflexivity|discriminate|discriminate]].
  - destruct (Nat.lt_ge_cases e (length descrs)) as [L|L].
    + rewrite nth_error_app1 by (rewrite edges_of_len; exact L). rewrite edges_of_nth. destruct (nth_error descrs e) as [d|] eqn:D; [|apply nth_error_None in D; lia]. cbn [option_map plus]. split; [intros E; right; left; exists e, d; split; [reflexivity|split; [exact D|congruence]]|].
      intros [(K & _)|[(k & d' & K & D' & EQ)|(K & _)]]; [discriminate| |lia]. injection K as ->. rewrite D in D'. injection D' as ->. rewrite EQ. reflexivity.
    + rewrite nth_error_app2 by (rewrite edges_of_len; exact L). rewrite edges_of_len. split.
      * destruct (e - length descrs) as [|m] eqn:E; cbn [nth_error]; [|destruct m; discriminate]. intros [= <- <- <-]. right; right. split; [f_equal; lia|auto].
      * intros [(K & _)|[(k & d' & K & D' & E)|(K & -> & -> & ->)]]; [discriminate| |]; [injection K as ->; assert (k < length descrs) by (apply nth_error_Some; congruence); lia|]. injection K as ->. rewrite Nat.sub_diag. reflexivity.
Qed.
End G.
