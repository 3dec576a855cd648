(** Proofs about minimum Bayes risk reranking. *)
From Coq Require Import Reals List Arith Bool Permutation Lra Lia.
From Verif Require Import CutmiraSpec CutmiraProofs Mbr MbrSpec.
Import ListNotations.

(** * Reading *)
Section Read.
Variable T : Type.
Variable s0 : T.
Local Notation entry := (list nat * T)%type.
Local Notation d := (([], s0) : entry).
Local Notation read_file := (read_file T).
Local Notation read_files := (read_files T s0).

Lemma read_group : forall es i cur cid sent l rest, i <> 0 -> cur = i \/ (cur = 0 /\ es <> []) ->
  (match rest with [] => True | x :: _ => fst x <> i end) ->
  read_file (map (pair i) es ++ rest) cur cid sent l =
  match rest with
  | [] => (l ++ es, i, match es with [] => cid | _ => i end, match es with [] => sent | _ => i end, None, [])
  | (i', e) :: rest' => (l ++ es, i, i', match es with [] => sent | _ => i end, Some e, rest')
  end.
Proof.
  induction es as [|e es IH]; intros i cur cid sent l rest I C R.
  - destruct C as [-> |[_ C]]; [|congruence]. cbn [map app]. rewrite app_nil_r. destruct rest as [|[i' e'] rest]; [reflexivity|]. cbn [Mbr.read_file fst] in *.
    destruct (Nat.eqb_spec i 0); [contradiction|]. destruct (Nat.eqb_spec i i'); [congruence|reflexivity].
  - cbn [map app Mbr.read_file]. assert (E : (if cur =? 0 then i else cur) = i) by (destruct C as [-> |[-> _]]; [destruct (i =? 0); reflexivity|reflexivity]).
    rewrite E, Nat.eqb_refl. rewrite IH by (try assumption; left; reflexivity). rewrite <- app_assoc. cbn [app]. destruct rest as [|[i' e'] rest]; destruct es; reflexivity.
Qed.
Definition nextc (gs : list (nat * list entry)) : entry := match gs with (_, e :: _) :: _ => e | _ => d end.
Definition nextf (gs : list (nat * list entry)) : list (nat * entry) := match gs with (i', _ :: es) :: gs' => map (pair i') es ++ file_of gs' | _ => [] end.

Lemma read_files_ok : forall i ids ps cur cid sent l, i <> 0 -> match ids with [] => True | j :: _ => i <> j end ->
  cur = i \/ (cur = 0 /\ match ps with [] => True | p :: _ => fst p <> [] end) ->
  Forall (fun p => map fst (snd p) = ids /\ wf (snd p)) ps ->
  exists sent' cid', read_files (map (fun p => map (pair i) (fst p) ++ file_of (snd p)) ps) (map (fun _ => d) ps) cur cid sent l =
    (l ++ flat_map fst ps, State T cid' (map (fun p => nextc (snd p)) ps) (map (fun p => nextf (snd p)) ps) sent') /\
    (ids <> [] -> ps <> [] -> cid' = hd 0 ids) /\ ((exists p, In p ps /\ fst p <> []) -> sent' = i) /\ ((forall p, In p ps -> fst p = []) -> sent' = sent).
Proof.
  intros i ids. induction ps as [|[es gs] ps IH]; intros cur cid sent l I D C F.
  - exists sent, cid. cbn. rewrite app_nil_r. split; [reflexivity|]. split; [congruence|]. split; [intros [p [[] _]]|reflexivity].
  - inversion F as [|? ? [F1 F2] F']; subst. cbn [fst snd] in *. cbn [map Mbr.read_files fst snd].
    rewrite read_group; [|exact I|exact C|].
    2:{ destruct gs as [|[j es'] gs]; cbn [file_of flat_map fst snd] in *; [exact Logic.I|]. inversion F2 as [|? ? [N _] _]; subst. cbn [snd] in N. destruct es' as [|e' es']; [congruence|]. cbn. cbn [map fst] in D. congruence. }
    set (sent1 := match es with [] => sent | _ => i end).
    assert (S1 : (es <> [] -> sent1 = i) /\ (es = [] -> sent1 = sent)) by (unfold sent1; destruct es; split; congruence).
    cbn [tl hd].
    destruct gs as [|[j es'] gs].
    + cbn [file_of flat_map]. destruct (IH i (match es with [] => cid | _ => i end) sent1 (l ++ es) I D (or_introl eq_refl) F') as [sent' [cid' [R [A [B G]]]]].
      rewrite R. exists sent', cid'. cbn [flat_map fst snd nextc nextf]. rewrite <- app_assoc. split; [reflexivity|]. cbn [map] in *. split; [congruence|]. split.
      * intros [p [[<- |P] N]]; [|apply B; exists p; split; assumption]. cbn [fst] in N. destruct (list_eq_dec Nat.eq_dec (map (fun p => length (fst p)) (filter (fun p => negb (length (fst p) =? 0)) ps)) []) as [Z|Z].
        -- rewrite G; [exact (proj1 S1 N)|]. intros q Q. destruct q as [[|x q] gq]; [reflexivity|]. exfalso. apply map_eq_nil in Z. assert (X : In (x :: q, gq) []) by (rewrite <- Z; apply filter_In; split; [exact Q|reflexivity]). destruct X.
        -- apply B. destruct (filter (fun p => negb (length (fst p) =? 0)) ps) as [|q r] eqn:E; [cbn in Z; congruence|]. assert (X : In q (filter (fun p => negb (length (fst p) =? 0)) ps)) by (rewrite E; left; reflexivity). apply filter_In in X. destruct X as [X1 X2]. exists q. split; [exact X1|]. intros Y. rewrite Y in X2. discriminate.
      * intros P. rewrite G by (intros p Hp; apply P; right; exact Hp). apply (proj2 S1). exact (P _ (or_introl eq_refl)).
    + inversion F2 as [|? ? [N _] F2']; subst. cbn [snd] in N. destruct es' as [|e' es']; [congruence|]. cbn [file_of flat_map fst snd map app].
      fold (@file_of entry gs). destruct (IH i j sent1 (l ++ es) I D (or_introl eq_refl) F') as [sent' [cid' [R [A [B G]]]]].
      rewrite R. exists sent', cid'. cbn [flat_map fst snd nextc nextf]. rewrite <- app_assoc. split; [reflexivity|]. split; [|split].
      * intros _ _. destruct ps as [|p ps]; [|apply A; discriminate]. cbn in R. injection R as _ <- _. reflexivity.
      * intros [p [[<- |P] NP]]; [|apply B; exists p; split; assumption]. cbn [fst] in NP. destruct (filter (fun p => negb (length (fst p) =? 0)) ps) as [|q r] eqn:E.
        -- rewrite G; [exact (proj1 S1 NP)|]. intros q Q. destruct q as [[|x q] gq]; [reflexivity|]. exfalso. assert (X : In (x :: q, gq) []) by (rewrite <- E; apply filter_In; split; [exact Q|reflexivity]). destruct X.
        -- apply B. assert (X : In q (filter (fun p => negb (length (fst p) =? 0)) ps)) by (rewrite E; left; reflexivity). apply filter_In in X. destruct X as [X1 X2]. exists q. split; [exact X1|]. intros Y. rewrite Y in X2. discriminate.
      * intros P. rewrite G by (intros p Hp; apply P; right; exact Hp). apply (proj2 S1). exact (P _ (or_introl eq_refl)).
Qed.
(** Between two calls: the first candidate of the next group of each file is in the cache. *)
Definition mid (i : nat) (fs : list (list (nat * list entry))) (sent : nat) : state T := State T i (map nextc fs) (map nextf fs) sent.
Definition over (fs : list (list (nat * list entry))) (cid sent : nat) : state T := State T cid (map (fun _ => d) fs) (map (fun _ => []) fs) sent.
Definition first_entries (gs : list (nat * list entry)) : list entry := match gs with (_, es) :: _ => es | [] => [] end.
Definition ok (ids : list nat) (fs : list (list (nat * list entry))) : Prop := fs <> [] /\ Forall (fun gs => map fst gs = ids /\ wf gs) fs.

Lemma next_state : forall ids fs cid sent, Forall (fun gs => map fst gs = ids /\ wf gs) fs -> (ids <> [] -> cid = hd 0 ids) ->
  State T cid (map nextc fs) (map nextf fs) sent = match ids with [] => over fs cid sent | i :: _ => mid i fs sent end.
Proof.
  intros ids fs cid sent F H. destruct ids as [|i ids].
  - unfold over. f_equal; apply map_ext_in; intros gs G; rewrite Forall_forall in F; destruct (F gs G) as [E _]; destruct gs; (reflexivity || discriminate).
  - unfold mid. rewrite H by discriminate. reflexivity.
Qed.
Lemma ok_tl : forall i ids fs, ok (i :: ids) fs -> Forall (fun gs => map fst gs = ids /\ wf gs) (map (@tl _) fs).
Proof.
  intros i ids fs [_ F]. apply Forall_forall. intros gs G. apply in_map_iff in G. destruct G as [g [<- G]]. rewrite Forall_forall in F. destruct (F g G) as [E W].
  destruct g as [|x g]; [discriminate|]. cbn [map fst tl] in *. injection E as _ E. split; [exact E|]. inversion W; assumption.
Qed.
Lemma first_call : forall i ids fs cid sent, distinct_ids (i :: ids) -> ok (i :: ids) fs ->
  exists cid', ReadKBestList T s0 (State T cid (map (fun _ => d) fs) (map file_of fs) sent) =
    (flat_map first_entries fs, match ids with [] => over (map (@tl _) fs) cid' i | j :: _ => mid j (map (@tl _) fs) i end).
Proof.
  intros i ids fs cid sent [D1 [D2 D3]] O. assert (OT := ok_tl i ids fs O). destruct O as [N F].
  set (ps := map (fun gs => (first_entries gs, @tl (nat * list entry) gs)) fs).
  assert (E1 : map file_of fs = map (fun p => map (pair i) (fst p) ++ file_of (snd p)) ps).
  { unfold ps. rewrite map_map. apply map_ext_in. intros gs G. rewrite Forall_forall in F. destruct (F gs G) as [E _]. destruct gs as [|[j es] gs]; [discriminate|]. cbn [map fst] in E. injection E as -> _. reflexivity. }
  assert (E2 : map (fun _ => d) fs = map (fun _ => d) ps) by (unfold ps; rewrite map_map; reflexivity).
  assert (E3 : forall gs, In gs fs -> first_entries gs <> []).
  { intros gs G. rewrite Forall_forall in F. destruct (F gs G) as [E W]. destruct gs as [|[j es] gs]; [discriminate|]. inversion W as [|? ? [W1 _] _]; subst. exact W1. }
  destruct (read_files_ok i ids ps 0 cid sent [] D1) as [sent' [cid' [R [A [B _]]]]].
  - destruct ids; [exact Logic.I|exact D2].
  - right. split; [reflexivity|]. unfold ps. destruct fs as [|gs fs]; [congruence|]. cbn [map fst]. apply E3. left. reflexivity.
  - unfold ps. apply Forall_forall. intros p P. apply in_map_iff in P. destruct P as [gs [<- G]]. cbn [snd]. rewrite Forall_forall in OT. apply OT. apply in_map. exact G.
  - assert (S' : sent' = i). { apply B. destruct fs as [|gs fs]; [congruence|]. exists (first_entries gs, tl gs). split; [left; reflexivity|apply E3; left; reflexivity]. }
    unfold ReadKBestList. cbn [cache_pair rfs cache_id sent_id].
    replace (match map (fun _ : list (nat * list entry) => d) fs with (_ :: _, _) :: _ => read_files (map file_of fs) (map (fun _ => d) (map file_of fs)) cid cid sent (map (fun _ : list (nat * list entry) => d) fs) | _ => read_files (map file_of fs) (map (fun _ : list (nat * list entry) => d) fs) 0 cid sent [] end)
      with (read_files (map file_of fs) (map (fun _ : list (nat * list entry) => d) fs) 0 cid sent []) by (destruct fs; reflexivity).
    rewrite E1, E2, R. exists cid'. cbn [app]. f_equal.
    + unfold ps. rewrite flat_map_concat_map, map_map, <- flat_map_concat_map. reflexivity.
    + rewrite S'. unfold ps. rewrite !map_map. cbn [snd]. rewrite <- (map_map (@tl (nat * list entry)) nextc), <- (map_map (@tl (nat * list entry)) nextf). apply next_state; [exact OT|].
      intros X. apply A; [exact X|]. unfold ps. destruct fs; [congruence|discriminate].
Qed.
Lemma next_call : forall i ids fs sent, distinct_ids (i :: ids) -> ok (i :: ids) fs ->
  exists cid' sent', ReadKBestList T s0 (mid i fs sent) =
    (map nextc fs ++ flat_map (fun gs => tl (first_entries gs)) fs, match ids with [] => over (map (@tl _) fs) cid' sent' | j :: _ => mid j (map (@tl _) fs) sent' end) /\
    ((exists gs, In gs fs /\ 2 <= length (first_entries gs)) -> sent' = i) /\ ((forall gs, In gs fs -> length (first_entries gs) = 1) -> sent' = sent).
Proof.
  intros i ids fs sent [D1 [D2 D3]] O. assert (OT := ok_tl i ids fs O). destruct O as [N F].
  set (ps := map (fun gs => (tl (first_entries gs), @tl (nat * list entry) gs)) fs).
  assert (E1 : map nextf fs = map (fun p => map (pair i) (fst p) ++ file_of (snd p)) ps).
  { unfold ps. rewrite map_map. apply map_ext_in. intros gs G. rewrite Forall_forall in F. destruct (F gs G) as [E W]. destruct gs as [|[j es] gs]; [discriminate|]. cbn [map fst] in E. injection E as -> _.
    inversion W as [|? ? [W1 _] _]; subst. cbn [snd] in W1. destruct es; [congruence|]. reflexivity. }
  destruct (read_files_ok i ids ps i i sent (map nextc fs) D1) as [sent' [cid' [R [A [B G]]]]].
  - destruct ids; [exact Logic.I|exact D2].
  - left. reflexivity.
  - unfold ps. apply Forall_forall. intros p P. apply in_map_iff in P. destruct P as [gs [<- P]]. cbn [snd]. rewrite Forall_forall in OT. apply OT. apply in_map. exact P.
  - exists cid', sent'. split; [|split].
    + unfold ReadKBestList, mid. cbn [cache_pair rfs cache_id sent_id].
      assert (X : exists c cs x w, map nextc fs = ((x :: w, c) :: cs)).
      { destruct fs as [|gs fs]; [congruence|]. inversion F as [|? ? [E W] _]; subst. destruct gs as [|[j es] gs]; [discriminate|]. inversion W as [|? ? [W1 W2] _]; subst. cbn [snd] in *.
        destruct es as [|[ws c] es]; [congruence|]. inversion W2 as [|? ? W3 _]; subst. cbn [fst] in W3. destruct ws as [|x w]; [congruence|]. exists c, (map nextc fs), x, w. reflexivity. }
      destruct X as [c [cs [x [w X]]]].
      assert (Y : forall A (f g : A), match map nextc fs with (_ :: _, _) :: _ => f | _ => g end = f) by (intros A0 f g; rewrite X; reflexivity). rewrite Y.
      replace (map (fun _ => d) (map nextf fs)) with (map (fun _ : list entry * list (nat * list entry) => d) ps) by (unfold ps; rewrite !map_map; reflexivity).
      rewrite E1, R. f_equal.
      * f_equal. unfold ps. rewrite flat_map_concat_map, map_map, <- flat_map_concat_map. reflexivity.
      * unfold ps. rewrite !map_map. cbn [snd]. rewrite <- (map_map (@tl (nat * list entry)) nextc), <- (map_map (@tl (nat * list entry)) nextf). apply next_state; [exact OT|].
        intros Z. apply A; [exact Z|]. unfold ps. destruct fs; [congruence|discriminate].
    + intros [gs [I L]]. apply B. exists (tl (first_entries gs), tl gs). split; [unfold ps; apply in_map_iff; exists gs; split; [reflexivity|exact I]|]. cbn [fst]. destruct (first_entries gs) as [|e [|e' es]]; cbn in L |- *; [lia|lia|discriminate].
    + intros H. apply G. intros p P. unfold ps in P. apply in_map_iff in P. destruct P as [gs [<- P]]. cbn [fst]. specialize (H gs P). destruct (first_entries gs) as [|e [|e' es]]; cbn in H |- *; try lia; reflexivity.
Qed.
Lemma over_calls : forall n fs cid sent k r, nth_error (calls T s0 n (over fs cid sent)) k = Some r -> snd r = [].
Proof.
  assert (H : forall fs cs cid sent, length cs = length fs -> read_files (map (fun _ : list (nat * list entry) => []) fs) cs 0 cid sent [] = ([], State T cid cs (map (fun _ : list (nat * list entry) => []) fs) sent)).
  { induction fs as [|f fs IH]; intros [|c cs] cid sent L; cbn [length] in L; try lia; [reflexivity|]. cbn [map Mbr.read_files Mbr.read_file tl hd]. rewrite IH by lia. reflexivity. }
  induction n as [|n IH]; intros fs cid sent k r E; [destruct k; discriminate|]. cbn [calls] in E. unfold ReadKBestList, over in E. cbn [cache_pair rfs cache_id sent_id] in E.
  assert (X : forall A (f g : A), match map (fun _ : list (nat * list entry) => d) fs with (_ :: _, _) :: _ => f | _ => g end = g) by (intros A f g; destruct fs; reflexivity).
  rewrite X, H in E by (rewrite !map_length; reflexivity). destruct k as [|k]; [cbn [nth_error] in E; injection E as <-; reflexivity|]. cbn [nth_error] in E. exact (IH fs cid sent k r E).
Qed.
Lemma group_0 : forall fs, group fs 0 = flat_map first_entries fs.
Proof. intros fs. unfold group. rewrite !flat_map_concat_map. f_equal. apply map_ext. intros [|[i es] gs]; reflexivity. Qed.
Lemma group_S : forall (fs : list (list (nat * list entry))) k, group fs (S k) = group (map (@tl _) fs) k.
Proof. intros fs k. unfold group. rewrite !flat_map_concat_map, map_map. f_equal. apply map_ext. intros [|g gs]; cbn [nth_error tl]; [destruct k; reflexivity|reflexivity]. Qed.
Lemma heads_perm : forall fs, Forall (fun gs => first_entries gs <> []) fs -> Permutation (map nextc fs ++ flat_map (fun gs => tl (first_entries gs)) fs) (flat_map first_entries fs).
Proof.
  induction fs as [|gs fs IH]; intros F; [constructor|]. inversion F as [|? ? F1 F']; subst. cbn [map flat_map app]. destruct gs as [|[i [|e es]] gs]; cbn in F1; try congruence. cbn [nextc first_entries tl app].
  constructor. eapply Permutation_trans; [|apply Permutation_app_head; apply IH; exact F']. rewrite !app_assoc. apply Permutation_app_tail. apply Permutation_app_comm.
Qed.
Lemma two_S : forall (fs : list (list (nat * list entry))) k, two fs (S k) -> two (map (@tl _) fs) k.
Proof.
  intros fs k [gs [g [I [E L]]]]. exists (tl gs), g. split; [apply in_map; exact I|]. split; [|exact L]. destruct gs as [|x gs]; [discriminate|exact E].
Qed.
Lemma mid_calls : forall ids i fs sent n k sid l, distinct_ids (i :: ids) -> ok (i :: ids) fs -> nth_error (calls T s0 n (mid i fs sent)) k = Some (sid, l) ->
  (k < length (i :: ids) -> Permutation l (group fs k) /\ (two fs k -> sid = nth k (i :: ids) 0)) /\ (length (i :: ids) <= k -> l = []).
Proof.
  induction ids as [|j ids IH]; intros i fs sent n k sid l D O E; (destruct n as [|n]; [destruct k; discriminate|]); cbn [calls] in E;
    destruct (next_call i _ fs sent D O) as [cid' [sent' [R [B _]]]]; rewrite R in E.
  all: assert (FE : Forall (fun gs => first_entries gs <> []) fs)
    by (destruct O as [_ F]; apply Forall_forall; intros gs G; rewrite Forall_forall in F; destruct (F gs G) as [E0 W]; destruct gs as [|[i0 es] gs]; [discriminate|]; inversion W as [|? ? [W1 _] _]; subst; exact W1).
  all: assert (TW : two fs 0 -> sent' = i)
    by (intros [gs [g [I [G L]]]]; apply B; exists gs; split; [exact I|]; destruct gs as [|[i0 es] gs]; [discriminate|]; cbn [nth_error] in G; injection G as <-; exact L).
  - destruct k as [|k]; cbn [nth_error] in E.
    + injection E as <- <-. split; [|cbn; lia]. intros _. split; [rewrite group_0; apply heads_perm; exact FE|exact TW].
    + split; [cbn; lia|]. intros _. apply over_calls in E. exact E.
  - destruct k as [|k]; cbn [nth_error] in E.
    + injection E as <- <-. split; [|cbn; lia]. intros _. split; [rewrite group_0; apply heads_perm; exact FE|exact TW].
    + destruct (IH j (map (@tl _) fs) sent' n k sid l) as [A1 A2].
      * exact (proj2 (proj2 D)).
      * split; [destruct O as [N _]; destruct fs; [congruence|discriminate]|exact (ok_tl i (j :: ids) fs O)].
      * exact E.
      * split; [|cbn [length] in *; intros L; apply A2; lia]. intros L. rewrite group_S. cbn [length] in L. destruct A1 as [A1 A3]; [cbn [length]; lia|]. split; [exact A1|]. intros TT. rewrite A3; [reflexivity|]. apply two_S. exact TT.
Qed.
Theorem groups : forall ids fs n k sid l, distinct_ids ids -> fs <> [] -> Forall (fun gs => map fst gs = ids /\ wf gs) fs ->
  nth_error (calls T s0 n (start T s0 (map file_of fs))) k = Some (sid, l) ->
  (k < length ids -> Permutation l (group fs k) /\ (k = 0 \/ two fs k -> sid = nth k ids 0)) /\ (length ids <= k -> l = []).
Proof.
  intros ids fs n k sid l D N F E. unfold start in E. rewrite map_map in E. destruct ids as [|i ids].
  - split; [cbn; lia|]. intros _. assert (X : map file_of fs = map (fun _ : list (nat * list entry) => []) fs).
    { apply map_ext_in. intros gs G. rewrite Forall_forall in F. destruct (F gs G) as [E0 _]. destruct gs; [reflexivity|discriminate]. }
    rewrite X in E. apply over_calls in E. exact E.
  - destruct n as [|n]; [destruct k; discriminate|]. cbn [calls] in E. destruct (first_call i ids fs 0 0 D (conj N F)) as [cid' R]. rewrite R in E. destruct k as [|k]; cbn [nth_error] in E.
    + injection E as E1 E2. subst l. split; [|cbn; lia]. intros _. split; [rewrite group_0; apply Permutation_refl|]. intros _. subst sid. destruct ids; reflexivity.
    + assert (OT := ok_tl i ids fs (conj N F)). destruct ids as [|j ids].
      * split; [cbn; lia|]. intros _. apply over_calls in E. exact E.
      * destruct (mid_calls ids j (map (@tl _) fs) i n k sid l) as [A1 A2].
        -- exact (proj2 (proj2 D)).
        -- split; [destruct fs; [congruence|discriminate]|exact OT].
        -- exact E.
        -- split; [|cbn [length] in *; intros L; apply A2; lia]. intros L. rewrite group_S. cbn [length] in L. destruct A1 as [A1 A3]; [cbn [length]; lia|]. split; [exact A1|]. intros [X|TT]; [discriminate|]. rewrite A3; [reflexivity|]. apply two_S. exact TT.
Qed.
(** One candidate in every file: the id of the sentence before is given. *)
Theorem id_refuted : forall i j ids fs, distinct_ids (i :: j :: ids) -> fs <> [] -> Forall (fun gs => map fst gs = i :: j :: ids /\ wf gs) fs ->
  (forall gs g, In gs fs -> nth_error gs 1 = Some g -> length (snd g) = 1) ->
  exists l, nth_error (calls T s0 2 (start T s0 (map file_of fs))) 1 = Some (i, l) /\ l <> [].
Proof.
  intros i j ids fs D N F H. unfold start. rewrite map_map. cbn [calls]. destruct (first_call i (j :: ids) fs 0 0 D (conj N F)) as [cid' R]. rewrite R.
  assert (OT := ok_tl i (j :: ids) fs (conj N F)). destruct (next_call j ids (map (@tl _) fs) i (proj2 (proj2 D))) as [c2 [s2 [R2 [_ G]]]].
  { split; [destruct fs; [congruence|discriminate]|exact OT]. }
  rewrite R2. cbn [nth_error]. eexists. split.
  - replace (sent_id T (match ids with [] => over (map (@tl _) (map (@tl _) fs)) c2 s2 | j0 :: _ => mid j0 (map (@tl _) (map (@tl _) fs)) s2 end)) with s2 by (destruct ids; reflexivity).
    rewrite G; [reflexivity|]. intros gs I. apply in_map_iff in I. destruct I as [g [<- I]]. rewrite Forall_forall in F. destruct (F g I) as [E _]. destruct g as [|x [|y g]]; try discriminate. cbn [tl]. specialize (H _ y I eq_refl). destruct y. exact H.
  - destruct fs; [congruence|discriminate].
Qed.
End Read.

(** An empty translation in the cache is lost. *)
Theorem empty_refuted : forall (T : Type) (s0 s1 s2 s3 : T) x y, nth_error (calls T s0 2 (start T s0 [[(1, ([x], s1)); (2, ([], s2)); (2, ([y], s3))]])) 1 = Some (2, [([y], s3)]).
Proof. reflexivity. Qed.
(** A file which ends before the others gives an empty candidate. *)
Theorem ended_refuted : forall (T : Type) (s0 s1 s2 s3 : T) x y z, nth_error (calls T s0 2 (start T s0 [[(1, ([x], s1)); (2, ([y], s2))]; [(1, ([z], s3))]])) 1 = Some (1, [([y], s2); ([], s0)]).
Proof. reflexivity. Qed.

(** * Choosing *)
Local Open Scope R_scope.
Section Choose.
Variable score : list nat -> list nat -> R.
Variable is_loss : bool.
Local Notation cand := (list nat * R)%type.
Local Notation loss := (loss score is_loss).

Lemma fold_plus : forall l a, fold_left Rplus l a = a + fold_right Rplus 0 l.
Proof. induction l as [|x l IH]; intros a; cbn [fold_left fold_right]; [lra|]. rewrite IH. lra. Qed.
Lemma sum_list : forall (A : Type) (l : list A) (x0 : A) f, sum (length l) (fun k => f (nth k l x0)) = fold_right Rplus 0 (map f l).
Proof.
  intros A l x0 f. unfold sum. f_equal. rewrite <- (map_map (fun k => nth k l x0) f). f_equal.
  induction l as [|x l IH]; [reflexivity|]. cbn [length seq map nth]. f_equal. rewrite <- seq_shift, map_map. exact IH.
Qed.
Lemma fold_scale : forall (A : Type) (l : list A) f c, fold_right Rplus 0 (map (fun x => f x * c) l) = fold_right Rplus 0 (map f l) * c.
Proof. induction l as [|x l IH]; intros f c; cbn [map fold_right]; [lra|]. rewrite IH. lra. Qed.
Lemma fold_pos : forall (A : Type) (l : list A) f, l <> [] -> (forall x, 0 < f x) -> 0 < fold_right Rplus 0 (map f l).
Proof.
  intros A [|x l] f N H; [congruence|]. cbn [map fold_right]. assert (0 <= fold_right Rplus 0 (map f l)); [|specialize (H x); lra].
  clear N. induction l as [|y l IH]; cbn [map fold_right]; [lra|]. specialize (H y). lra.
Qed.
Lemma posterior_prob : forall l j, (j < length l)%nat -> posterior l j = prob (fun k => snd (nth k l dc)) (length l) j.
Proof.
  intros l j J. destruct l as [|[w0 m] l]; [cbn in J; lia|]. unfold posterior, marginal, prob. rewrite fold_plus.
  rewrite (sum_list _ ((w0, m) :: l) dc (fun c => exp (snd c))). cbn [joints]. set (all := (w0, m) :: l) in *.
  assert (E : forall c : cand, exp (snd c - m) = exp (snd c) * exp (- m)) by (intros c; rewrite <- exp_plus; f_equal; lra).
  rewrite (map_ext _ _ E), fold_scale. rewrite (nth_indep _ 0 ((fun c : cand => exp (snd c) * exp (- m)) dc)) by (rewrite map_length; exact J).
  rewrite (map_nth (fun c : cand => exp (snd c) * exp (- m)) all dc j).
  assert (P := fold_pos _ all (fun c => exp (snd c)) ltac:(discriminate) (fun c => exp_pos _)). assert (Q := exp_pos (- m)). rewrite Rplus_0_l. field. split; lra.
Qed.
Lemma posterior_nonneg : forall l j, 0 <= posterior l j.
Proof.
  intros l j. destruct (lt_dec j (length l)) as [J|J].
  - rewrite posterior_prob by exact J. unfold prob. rewrite (sum_list _ l dc (fun c => exp (snd c))). assert (P := fold_pos _ l (fun c => exp (snd c)) ltac:(destruct l; [cbn in J; lia|discriminate]) (fun c => exp_pos _)).
    apply Rlt_le. apply Rdiv_lt_0_compat; [apply exp_pos|exact P].
  - unfold posterior. rewrite nth_overflow; [unfold Rdiv; lra|]. destruct l as [|[w m] l]; [cbn; lia|]. cbn [joints]. rewrite map_length. lia.
Qed.
(** The whole sum from candidate j. *)
Fixpoint tail_sum (post : nat -> R) (i : nat) (ref : list nat) (j : nat) (l : list cand) : R :=
  match l with [] => 0 | c :: l' => (if (i =? j)%nat then 0 else loss ref (fst c) * post j) + tail_sum post i ref (S j) l' end.
Hypothesis nonneg : forall a b, 0 <= loss a b.
Lemma tail_nonneg : forall post i ref l j, (forall k, 0 <= post k) -> 0 <= tail_sum post i ref j l.
Proof.
  intros post i ref. induction l as [|c l IH]; intros j P; cbn [tail_sum]; [lra|]. specialize (IH (S j) P). destruct (i =? j)%nat; [lra|].
  assert (0 <= loss ref (fst c) * post j) by (apply Rmult_le_pos; [apply nonneg|apply P]). lra.
Qed.
Lemma risk_from_ok : forall out post i ref l j acc b, (forall k, 0 <= post k) ->
  let r := risk_from score is_loss out post i ref j l acc b in
  (out = true -> r = acc + tail_sum post i ref j l) /\ r <= acc + tail_sum post i ref j l /\ (r = acc + tail_sum post i ref j l \/ above r b = true).
Proof.
  intros out post i ref. induction l as [|c l IH]; intros j acc b P; cbn [risk_from tail_sum].
  - cbv zeta. split; [intros _; lra|]. split; [lra|left; lra].
  - destruct (i =? j)%nat eqn:E.
    + destruct (IH (S j) acc b P) as [A [B C]]. cbv zeta. rewrite Rplus_0_l. split; [exact A|]. split; [exact B|exact C].
    + cbv zeta. set (a := acc + loss ref (fst c) * post j). destruct (negb out && above a b) eqn:X.
      * apply andb_prop in X. destruct X as [X1 X2]. split; [intros ->; discriminate|]. split; [|right; exact X2]. pose proof (tail_nonneg post i ref l (S j) P). unfold a in *. lra.
      * destruct (IH (S j) a b P) as [A [B C]]. unfold a in *. replace (acc + (loss ref (fst c) * post j + tail_sum post i ref (S j) l)) with (acc + loss ref (fst c) * post j + tail_sum post i ref (S j) l) by lra.
        split; [exact A|]. split; [exact B|exact C].
Qed.
Variable l0 : list cand.
Let full (i : nat) : R := tail_sum (posterior l0) i (fst (nth i l0 dc)) 0 l0.
Definition best_of (i : nat) (b : option R) (idx : option nat) : Prop :=
  match i with 0%nat => b = None /\ idx = None | _ => exists m, idx = Some m /\ b = Some (full m) /\ (m < i)%nat /\ (forall k, (k < i)%nat -> full m <= full k) /\ (forall k, (k < m)%nat -> full m < full k) end.
Lemma choose_from_ok : forall out l i b idx, skipn i l0 = l -> best_of i b idx ->
  let r := choose_from score is_loss out l0 i l b idx in best_of (i + length l) (snd (fst r)) (snd r) /\ (out = true -> fst (fst r) = map full (seq i (length l))).
Proof.
  intros out. induction l as [|c l IH]; intros i b idx K B; cbv zeta.
  - cbn [choose_from length fst snd seq map]. rewrite Nat.add_0_r. split; [exact B|reflexivity].
  - cbn [choose_from length]. assert (C : nth i l0 dc = c).
    { clear - K. revert i K. induction l0 as [|x l1 IH1]; intros [|i] K; cbn [skipn nth] in *; try discriminate; [injection K as K _; exact K|]. apply IH1. exact K. }
    assert (K' : skipn (S i) l0 = l).
    { clear - K. revert i K. induction l0 as [|x l1 IH1]; intros [|i] K; cbn [skipn] in *; try discriminate; [injection K as _ K; exact K|]. apply IH1. exact K. }
    destruct (risk_from_ok out (posterior l0) i (fst c) l0 0%nat 0 b (posterior_nonneg l0)) as [R1 [R2 R3]].
    set (wl := risk_from score is_loss out (posterior l0) i (fst c) 0 l0 0 b) in *. assert (FU : 0 + tail_sum (posterior l0) i (fst c) 0 l0 = full i) by (unfold full; rewrite C; lra). rewrite FU in *.
    set (nx := if below wl b then (Some wl, Some i) else (b, idx)).
    assert (NB : best_of (S i) (fst nx) (snd nx)).
    { unfold nx. destruct (below wl b) eqn:Q; cbn [fst snd best_of].
      - assert (W : wl = full i). { destruct R3 as [R3|R3]; [exact R3|]. unfold below, above in *. destruct b as [y|]; [|discriminate]. destruct (Rlt_dec y wl); [|discriminate]. destruct (Rlt_dec wl y); [lra|discriminate]. }
        exists i. split; [reflexivity|]. split; [rewrite W; reflexivity|]. split; [lia|].
        assert (L : forall k, (k < i)%nat -> full i < full k).
        { intros k KI. destruct i as [|i']; [lia|]. destruct B as [m [_ [Hb [_ [M _]]]]]. subst b. unfold below in Q. destruct (Rlt_dec wl (full m)); [|discriminate]. specialize (M k KI). lra. }
        split; [|exact L]. intros k KI. destruct (Nat.eq_dec k i) as [-> |]; [lra|]. specialize (L k ltac:(lia)). lra.
      - destruct i as [|i']; [destruct B as [-> _]; discriminate Q|]. destruct B as [m [Hi [Hb [Lm [M1 M2]]]]]. exists m. split; [exact Hi|]. split; [exact Hb|]. split; [lia|]. split; [|exact M2].
        intros k KI. destruct (Nat.eq_dec k (S i')) as [-> |]; [|apply M1; lia]. subst b. unfold below in Q. destruct (Rlt_dec wl (full m)); [discriminate|]. lra. }
    destruct nx as [b' idx'] eqn:NX. cbn [fst snd] in NB. destruct (IH (S i) b' idx' K' NB) as [I1 I2]. destruct (choose_from score is_loss out l0 (S i) l b' idx') as [[sc b''] idx''] eqn:CF. cbn [fst snd] in *.
    split; [replace (i + S (length l))%nat with (S i + length l)%nat by lia; exact I1|]. intros O. cbn [seq map]. rewrite (I2 O), (R1 O). reflexivity.
Qed.
Lemma full_risk : forall i, full i = risk (fun a b => loss (fst (nth a l0 dc)) (fst (nth b l0 dc))) (fun k => snd (nth k l0 dc)) (length l0) i.
Proof.
  intros i. unfold full, risk.
  assert (G : forall l j, (forall k, (k < length l)%nat -> nth (j + k) l0 dc = nth k l dc) ->
    tail_sum (posterior l0) i (fst (nth i l0 dc)) j l = fold_right Rplus 0 (map (fun k => if (i =? k)%nat then 0 else loss (fst (nth i l0 dc)) (fst (nth k l0 dc)) * posterior l0 k) (seq j (length l)))).
  { induction l as [|c l IH]; intros j H; [reflexivity|]. cbn [tail_sum length seq map fold_right]. rewrite (IH (S j)).
    - assert (E := H 0%nat ltac:(cbn; lia)). rewrite Nat.add_0_r in E. cbn [nth] in E. rewrite E. reflexivity.
    - intros k K. assert (E := H (S k) ltac:(cbn [length]; lia)). rewrite <- plus_n_Sm in E. exact E. }
  rewrite (G l0 0%nat) by (intros k _; reflexivity). apply sum_ext. intros k K. destruct (i =? k)%nat; [reflexivity|]. rewrite posterior_prob by exact K. apply Rmult_comm.
Qed.
Theorem choose_best : forall out, l0 <> [] ->
  let n := length l0 in let rk := risk (fun a b => loss (fst (nth a l0 dc)) (fst (nth b l0 dc))) (fun k => snd (nth k l0 dc)) n in
  exists i, snd (choose score is_loss out l0) = Some i /\ (i < n)%nat /\ (forall k, (k < n)%nat -> rk i <= rk k) /\ (forall k, (k < i)%nat -> rk i < rk k) /\
    (out = true -> fst (fst (choose score is_loss out l0)) = map rk (seq 0 n)).
Proof.
  intros out N n rk. destruct (choose_from_ok out l0 0 None None eq_refl (conj eq_refl eq_refl)) as [B S]. fold (choose score is_loss out l0) in B, S. cbn [Nat.add] in B.
  assert (G : forall N b idx, N <> 0%nat -> best_of N b idx -> exists m, idx = Some m /\ (m < N)%nat /\ (forall k, (k < N)%nat -> full m <= full k) /\ (forall k, (k < m)%nat -> full m < full k)).
  { intros [|N'] b idx NZ X; [congruence|]. destruct X as [m [X1 [_ [X2 [X3 X4]]]]]. exists m. repeat split; assumption. }
  destruct (G _ _ _ (fun E => N (proj1 (length_zero_iff_nil l0) E)) B) as [m [B1 [B2 [B3 B4]]]].
  assert (Q : forall k, rk k = full k) by (intros k; symmetry; apply full_risk).
  exists m. split; [exact B1|]. split; [exact B2|]. split; [intros k K; rewrite !Q; apply B3; exact K|]. split; [intros k K; rewrite !Q; apply B4; exact K|].
  intros O. rewrite (S O). apply map_ext. intros k. symmetry. apply Q.
Qed.
End Choose.

(** * Findings *)
(** "a b" and "a", equally likely; the error rate (edits by words of the reference). *)
Definition ex_cands : list (list nat * R) := [([1; 2]%nat, 0); ([1]%nat, 0)].
Definition ex_rate (ref hyp : list nat) : R := match length ref, length hyp with 2%nat, 1%nat => / 2 | 1%nat, 2%nat => 1 | _, _ => 0 end.
Lemma ex_rate_range : forall a b, 0 <= ex_rate a b <= 1.
Proof. intros a b. unfold ex_rate. destruct (length a) as [|[|[|?]]]; destruct (length b) as [|[|[|?]]]; lra. Qed.
Lemma ex_prob : forall j, (j < 2)%nat -> prob (fun k => snd (nth k ex_cands dc)) 2 j = / 2.
Proof.
  intros j J. unfold prob. rewrite !sum_S. unfold sum at 1. cbn [seq map fold_right]. destruct j as [|[|j]]; [| |lia]; cbn [nth snd ex_cands]; rewrite exp_0; lra.
Qed.
Lemma ex_risk : forall L, risk L (fun k => snd (nth k ex_cands dc)) 2 0 = / 2 * L 0%nat 1%nat /\ risk L (fun k => snd (nth k ex_cands dc)) 2 1 = / 2 * L 1%nat 0%nat.
Proof.
  intros L. unfold risk. rewrite !sum_S. unfold sum. cbn [seq map fold_right Nat.eqb]. rewrite !ex_prob by lia. split; lra.
Qed.
Theorem roles_refuted : exists i k, snd (choose ex_rate (taken_for_loss TER) false ex_cands) = Some i /\ (k < 2)%nat /\
  let as_hyp a b := ex_rate (fst (nth b ex_cands dc)) (fst (nth a ex_cands dc)) in
  risk as_hyp (fun k => snd (nth k ex_cands dc)) 2 k < risk as_hyp (fun k => snd (nth k ex_cands dc)) 2 i.
Proof.
  destruct (choose_best ex_rate true) with (l0 := ex_cands) (out := false) as [i [A [B [C _]]]]; [intros a b; unfold loss; pose proof (ex_rate_range a b); lra|discriminate|].
  cbn [length ex_cands] in B, C. exists i, 1%nat. split; [exact A|]. split; [lia|]. specialize (C 0%nat ltac:(lia)).
  destruct (ex_risk (fun a b => loss ex_rate true (fst (nth a ex_cands dc)) (fst (nth b ex_cands dc)))) as [R0 R1].
  assert (X : loss ex_rate true (fst (nth 0 ex_cands dc)) (fst (nth 1 ex_cands dc)) = / 2) by (unfold loss, ex_rate; cbn; lra).
  assert (Y : loss ex_rate true (fst (nth 1 ex_cands dc)) (fst (nth 0 ex_cands dc)) = 1) by (unfold loss, ex_rate; cbn; lra).
  rewrite X in R0. rewrite Y in R1. change (length ex_cands) with 2%nat in C.
  assert (I : i = 0%nat). { destruct i as [|[|i]]; [reflexivity| |lia]. exfalso. rewrite R0, R1 in C. lra. }
  subst i. cbv zeta. destruct (ex_risk (fun a b => ex_rate (fst (nth b ex_cands dc)) (fst (nth a ex_cands dc)))) as [Q0 Q1]. rewrite Q0, Q1. unfold ex_rate. cbn. lra.
Qed.
Theorem wer_refuted : IsErrorMetric WER = true /\ exists i k, snd (choose ex_rate (taken_for_loss WER) false ex_cands) = Some i /\ (k < 2)%nat /\
  let err a b := ex_rate (fst (nth a ex_cands dc)) (fst (nth b ex_cands dc)) in
  risk err (fun k => snd (nth k ex_cands dc)) 2 k < risk err (fun k => snd (nth k ex_cands dc)) 2 i.
Proof.
  split; [reflexivity|]. destruct (choose_best ex_rate false) with (l0 := ex_cands) (out := false) as [i [A [B [C _]]]]; [intros a b; unfold loss; pose proof (ex_rate_range a b); lra|discriminate|].
  cbn [length ex_cands] in B, C. exists i, 0%nat. split; [exact A|]. split; [lia|]. specialize (C 1%nat ltac:(lia)).
  destruct (ex_risk (fun a b => loss ex_rate false (fst (nth a ex_cands dc)) (fst (nth b ex_cands dc)))) as [R0 R1].
  assert (X : loss ex_rate false (fst (nth 0 ex_cands dc)) (fst (nth 1 ex_cands dc)) = / 2) by (unfold loss, ex_rate; cbn; lra).
  assert (Y : loss ex_rate false (fst (nth 1 ex_cands dc)) (fst (nth 0 ex_cands dc)) = 0) by (unfold loss, ex_rate; cbn; lra).
  rewrite X in R0. rewrite Y in R1. change (length ex_cands) with 2%nat in C.
  assert (I : i = 1%nat). { destruct i as [|[|i]]; [|reflexivity|lia]. exfalso. rewrite R0, R1 in C. lra. }
  subst i. cbv zeta. destruct (ex_risk (fun a b => ex_rate (fst (nth a ex_cands dc)) (fst (nth b ex_cands dc)))) as [Q0 Q1]. rewrite Q0, Q1. unfold ex_rate. cbn. lra.
Qed.
Theorem ex_choice : (forall a b, 0 <= loss ex_rate true a b) /\ snd (choose ex_rate true false ex_cands) = Some 0%nat.
Proof.
  assert (N : forall a b, 0 <= loss ex_rate true a b) by (intros a b; unfold loss; pose proof (ex_rate_range a b); lra). split; [exact N|].
  destruct (choose_best ex_rate true N ex_cands false) as [i [A [B [C _]]]]; [discriminate|]. cbn [length ex_cands] in B, C. specialize (C 0%nat ltac:(lia)).
  destruct (ex_risk (fun a b => loss ex_rate true (fst (nth a ex_cands dc)) (fst (nth b ex_cands dc)))) as [R0 R1].
  assert (X : loss ex_rate true (fst (nth 0 ex_cands dc)) (fst (nth 1 ex_cands dc)) = / 2) by (unfold loss, ex_rate; cbn; lra).
  assert (Y : loss ex_rate true (fst (nth 1 ex_cands dc)) (fst (nth 0 ex_cands dc)) = 1) by (unfold loss, ex_rate; cbn; lra).
  rewrite X in R0. rewrite Y in R1. change (length ex_cands) with 2%nat in C. destruct i as [|[|i]]; [exact A| |lia]. exfalso. rewrite R0, R1 in C. lra.
Qed.
