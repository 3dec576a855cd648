(** Proofs: extracted rules are consistent with the word alignment. *)
From Coq Require Import List ZArith QArith Bool Lia Permutation.
From Verif Require Import Opt OptProofs Fix FixSpec FixProofs RuleEx RuleExSpec RuleExTargetProofs RuleExPhraseProofs RuleExSourceProofs RuleExLaidProofs.
Import ListNotations.
Open Scope Z_scope.
Open Scope opt_scope.

Definition rule (o : ropts) (p : sentence) (start : Z) (phrase matching : list Z) (e : extract) : Prop :=
  exists i, consistent p i /\ around o start phrase matching i /\ within_limits o p i e /\ reads p i e.

Section Top.
Variable o : ropts.
Variable p : sentence.
Variable sp : spans.
Let ns := Z.of_nat (length (src p)).
Let nt := Z.of_nat (length (tgt p)).
Hypothesis DS : described (fun s t => In (s, t) (links p)) ns nt (s_low sp) (s_high sp).
Hypothesis DT : described (fun t s => In (s, t) (links p)) nt ns (t_low sp) (t_high sp).
Definition aligned (s : Z) : Prop := exists t, In (s, t) (links p).
Lemma low_get i : 0 <= i < ns -> exists l, get (s_low sp) i = Some l /\ ((l =? -1) = false <-> aligned i).
Proof.
  intros H. destruct (low_at _ _ _ _ _ i DS H) as (l & E & A & B). exists l. split; [auto|]. split; [exact B|].
  intros [t L]. destruct (l =? -1) eqn:Q; [exfalso; apply (A eq_refl t); auto|auto].
Qed.
Lemma unaligned2_ok a b : 0 <= a < ns -> 0 <= b < ns -> exists u, unaligned2 (s_low sp) a b = Some u /\ (u = false <-> aligned a /\ aligned b).
Proof.
  intros Ha Hb. unfold unaligned2. destruct (low_get a Ha) as (x & -> & X). cbn [bind]. destruct (x =? -1) eqn:E.
  - exists true. split; [auto|]. split; [discriminate|]. intros [A _]. apply X in A. discriminate.
  - destruct (low_get b Hb) as (y & -> & Y). cbn [bind]. exists (y =? -1). split; [auto|]. rewrite Y. tauto.
Qed.

(** * Gaps *)
Lemma gap_fix_ok g : 0 <= fst g <= snd g -> snd g <= ns -> gap_fix o p sp g = Some None \/ exists t, gap_fix o p sp g = Some (Some t) /\ gap_ok p g t.
Proof.
  intros H1 H2. unfold gap_fix. fold ns nt. destruct (fix_top (fopts o 0 0 0 false false false) sp (links p) ns nt (fst g) (snd g) (fst g) (snd g) DS DT H1 H2) as (r & E & R & _).
  rewrite E. cbn [bind]. destruct (found r) eqn:F; [|auto]. right. eexists. split; [reflexivity|]. destruct (R eq_refl) as [(C & A1 & A2 & A3 & A4 & A5 & A6 & A7 & _) _].
  cbn [fopts allow_low_x allow_high_x] in A6, A7.
  assert (Q1 : r_bl r = fst g). { destruct (Z_lt_dec (r_bl r) (fst g)) as [Q|Q]; [destruct (A6 Q); discriminate|lia]. }
  assert (Q2 : r_bh r = snd g). { destruct (Z_lt_dec (snd g) (r_bh r)) as [Q|Q]; [destruct (A7 Q); discriminate|lia]. }
  unfold gap_ok. cbn [fst snd]. split; [rewrite Q1, Q2 in C; exact C|]. split; [lia|]. apply (fix_hull _ _ _ _ _ DS _ _ _ _ _ H1 H2 E F).
Qed.
Lemma gap_fix_complete g c d : 0 <= fst g <= snd g -> snd g <= ns -> closed (links p) (fst g) (snd g) c d ->
  (exists s t, In (s, t) (links p) /\ fst g <= s < snd g) -> d - c <= o_span o ->
  exists t, gap_fix o p sp g = Some (Some t) /\ gap_ok p g t /\ c <= fst t /\ snd t <= d.
Proof.
  intros H1 H2 C L W. unfold gap_fix. fold ns nt.
  destruct (fix_here (fopts o 0 0 0 false false false) sp (links p) ns nt DS DT (fst g) (snd g) (fst g) (snd g) c d) as (r & -> & F & B1 & B2 & HU & CL & T1 & T2); auto.
  cbn [bind]. rewrite F. exists (r_tl r, r_th r). split; [auto|]. unfold gap_ok. cbn [fst snd]. split; [split; [auto|]; split; [lia|exact HU]|lia].
Qed.
Lemma gap_fixes_ok : forall gs, Forall (fun g => 0 <= fst g <= snd g /\ snd g <= ns) gs ->
  gap_fixes o p sp gs = Some None \/ exists ts, gap_fixes o p sp gs = Some (Some ts) /\ Forall2 (gap_ok p) gs ts.
Proof.
  induction 1 as [|g gs [H1 H2] F IH]; [right; exists []; split; [auto|constructor]|]. cbn [gap_fixes].
  destruct (gap_fix_ok g H1 H2) as [->|(t & -> & G)]; cbn [bind]; [auto|]. destruct IH as [->|(ts & -> & G2)]; cbn [bind]; [auto|].
  right. eexists. split; [reflexivity|]. constructor; auto.
Qed.
Lemma gap_fixes_complete : forall gs cs, Forall (fun g => 0 <= fst g <= snd g /\ snd g <= ns) gs ->
  Forall2 (fun g c => closed (links p) (fst g) (snd g) (fst c) (snd c) /\ (exists s t, In (s, t) (links p) /\ fst g <= s < snd g) /\ snd c - fst c <= o_span o) gs cs ->
  exists ts, gap_fixes o p sp gs = Some (Some ts) /\ Forall2 (gap_ok p) gs ts /\ Forall2 (fun t c => fst c <= fst t /\ snd t <= snd c) ts cs.
Proof.
  intros gs cs F F2. induction F2 as [|g c gs cs (C & L & W) F2 IH]; [exists []; repeat split; constructor|]. inversion F as [|x y [H1 H2] F']; subst. cbn [gap_fixes].
  destruct (gap_fix_complete g (fst c) (snd c) H1 H2 C L W) as (t & -> & G & B). cbn [bind]. destruct (IH F') as (ts & -> & G2 & B2). cbn [bind].
  eexists. split; [reflexivity|]. split; constructor; auto.
Qed.

(** * The occurrence *)
Variable start : Z.
Variables (phrase matching : list Z).
Hypothesis OC : occurs (src p) start phrase matching.
Hypothesis GAP : 1 <= o_gap o.
Hypothesis SYM : size phrase <= o_symbols o.
Hypothesis NTS : size matching - 1 <= o_nonterms o.
Hypothesis WID : forall a b, covered start phrase matching a -> covered start phrase matching b -> b - a < o_span o.
Let occ := occ_of phrase matching.
Let fp := firstp start occ.
Let ep := endp start occ.
Let inner := inner_gaps start occ.
Lemma LD : laid (src p) start phrase occ.
Proof. apply occurs_laid. exact OC. Qed.
Lemma covered_occ pos : covered start phrase matching pos <-> in_occ start occ pos.
Proof.
  unfold covered, in_occ, occ, occ_of. destruct OC as (L & _). split.
  - intros (i & m & c & E1 & E2 & H). exists m, (size c). split; [|auto]. apply (nth_error_In _ i).
    assert (E : forall (A B : Type) (l : list A) (l' : list B) i a b, nth_error l i = Some a -> nth_error l' i = Some b -> nth_error (combine l l') i = Some (a, b)).
    { intros A B. induction l as [|x l IH]; intros [|y l'] [|j] a b Ea Eb; cbn in *; try discriminate; [congruence|auto]. }
    apply E; [auto|]. rewrite nth_error_map, E2. reflexivity.
  - intros (m & len & I & H). destruct (in_combine_nth _ _ _ _ _ _ I) as (i & E1 & E2). rewrite nth_error_map in E2.
    destruct (nth_error (chunks_of phrase) i) as [c|] eqn:E3; [|discriminate]. injection E2 as <-. exists i, m, c. auto.
Qed.
Lemma fp_facts : 0 <= fp /\ fp < ep /\ ep <= ns /\ ordered fp ep inner /\ size matching = Z.of_nat (length inner) + 1 /\ ep - fp <= o_span o /\
  (forall a b, In (a, b) inner -> fp < a /\ b < ep).
Proof.
  destruct (laid_facts _ _ _ _ LD) as (A1 & A2 & A3 & A4 & A5 & A6 & A7 & A8). fold fp ep inner in A1, A2, A3, A4, A5, A6, A7, A8.
  split; [auto|]. split; [auto|]. split; [exact A3|]. split; [auto|]. split; [|split].
  - destruct OC as (L & _). unfold occ, occ_of in A6. rewrite combine_length, map_length, <- L in A6. unfold size. fold inner in A6. unfold inner in *. fold occ in A6. lia.
  - pose proof (WID fp (ep - 1)) as W. rewrite !covered_occ in W. specialize (W A7 A8). lia.
  - intros a b I. destruct (ordered_in _ _ _ _ _ A4 I) as (O1 & O2 & O3). apply A5 in A7. apply A5 in A8. split.
    + destruct (Z.eq_dec a fp) as [->|]; [|lia]. exfalso. apply A7. exists fp, b. split; [auto|lia].
    + destruct (Z.eq_dec b ep) as [->|]; [|lia]. exfalso. apply A8. exists a, ep. split; [auto|lia].
Qed.

Definition extract_of (source : list Z) (n : nat) (t : list Z * list (Z * Z)) : extract :=
  {| e_source := source; e_target := fst t; e_count := / inject_Z (Z.of_nat n); e_align := snd t |}.
(** the source span with its gaps, ready for extraction *)
Record ready (fb bb : bool) (sl sh lo hi : Z) (tgs : list (Z * Z)) : Prop := {
  rd_front : if fb then sl < fp else sl = fp;
  rd_back : if bb then ep < sh else sh = ep;
  rd_sl : 0 <= sl; rd_sh : sh <= ns;
  rd_gf : fb = true -> o_gap o <= fp - sl; rd_gb : bb = true -> o_gap o <= sh - ep;
  rd_closed : closed (links p) sl sh lo hi;
  rd_target : 0 <= lo < hi /\ hi <= nt;
  rd_hull : tight_target p lo hi;
  rd_width : sh - sl <= o_span o;
  rd_gaps : Forall2 (gap_ok p) (all_gaps start occ fb bb sl sh) tgs;
  rd_count : Z.of_nat (length (all_gaps start occ fb bb sl sh)) <= o_nonterms o;
  rd_symbols : size phrase + b2z fb + b2z bb <= o_symbols o;
  rd_tight : o_tight o = true -> tight_source p sl sh /\ forall a b, In (a, b) (all_gaps start occ fb bb sl sh) -> tight_source p a b }.

Lemma add_ok fb bb sl sh lo hi tgs : ready fb bb sl sh lo hi tgs ->
  exists order choices, GetGapOrder tgs = Some order /\ good_order tgs order /\ NoDup choices /\
    (forall c, In c choices <-> loose_choice o p lo hi tgs order c /\ narrow o c = true) /\
    AddExtracts o p sp (Extend phrase fb bb) (GetSourceIndexes start occ fb) tgs lo hi =
      Some (map (fun c => extract_of (Extend phrase fb bb) (length choices) (render p sl (all_gaps start occ fb bb sl sh) order c)) choices) /\
    (forall c, In c choices -> let e := extract_of (Extend phrase fb bb) (length choices) (render p sl (all_gaps start occ fb bb sl sh) order c) in
       let i := inst_of sl sh (all_gaps start occ fb bb sl sh) order c in
       consistent p i /\ around o start phrase matching i /\ within_limits o p i e /\ reads p i e).
Proof.
  intros [RF RB Rsl Rsh RGF RGB RC RT RH RW RG RN RS RTI]. set (gs := all_gaps start occ fb bb sl sh) in *.
  pose proof (ends_ordered _ _ _ _ LD fb bb sl sh RF RB) as OR. fold gs in OR.
  destruct (phrases_ok o p sp DT sl sh lo hi gs tgs (GetSourceIndexes start occ fb) RC RT OR RG) as (order & choices & E & GOr & ND & CH & EP).
  { intros s H1 H2. apply (ends_index _ _ _ _ LD fb bb sl sh RF RB); auto. }
  exists order, choices. split; [auto|]. split; [auto|]. split; [auto|]. split; [auto|]. split.
  - unfold AddExtracts. rewrite EP. cbn [bind]. rewrite map_map, map_length. reflexivity.
  - intros c I. apply CH in I. destruct I as [LC NA]. cbv zeta.
    pose proof (choice_consistent o p sl sh lo hi gs tgs RC OR RG order c Rsl Rsh GOr LC) as CO.
    destruct c as [[a0 gaps] e]. pose proof LC as (B1 & B2 & B3 & B4 & B5 & B6 & B7). pose proof (forall2_len _ _ _ _ _ B7) as LF.
    assert (TG : map snd (target_of order gaps) = gaps) by (apply map_snd_combine; rewrite map_length; auto).
    split; [auto|]. split; [|split].
    + split; cbn [inst_of i_sl i_sh i_source].
      * intros pos. rewrite covered_occ. apply (ends_cover _ _ _ _ LD fb bb sl sh RF RB).
      * intros a b I. unfold gs, all_gaps in I. destruct fp_facts as (F1 & F2 & F3 & F4 & F5 & F6 & F7).
        assert (sl <= fp) by (destruct fb; lia). assert (ep <= sh) by (destruct bb; lia).
        apply in_app_or in I. destruct I as [I|I]; [|apply in_app_or in I; destruct I as [I|I]].
        -- unfold front in I. destruct fb; [|destruct I]. destruct I as [I|[]]. injection I as <- <-. intros _. apply RGF. auto.
        -- intros Q. apply F7 in I. lia.
        -- unfold front in I. destruct bb; [|destruct I]. destruct I as [I|[]]. injection I as <- <-. intros _. apply RGB. auto.
    + unfold within_limits. cbn [inst_of i_sl i_sh i_tl i_th i_source e_source extract_of]. unfold narrow in NA. apply Z.leb_le in NA.
      split; [auto|]. split; [auto|]. split; [auto|]. split; [change (size (Extend phrase fb bb) <= o_symbols o); rewrite extend_size; auto|].
      intros T. destruct (RTI T) as [T1 T2]. destruct (B5 T) as [-> ->]. unfold tight, target_gaps. cbn [inst_of i_sl i_sh i_tl i_th i_source i_target]. rewrite TG.
      split; [auto|]. split; [auto|]. split; [auto|]. intros a b I. destruct (forall2_in_r _ _ _ _ _ _ B7 I) as (j & _ & g & Eg & LG).
      destruct LG as (_ & _ & _ & _ & LG). specialize (LG T). subst g. destruct (forall2_in_r _ _ _ _ _ _ RG (nth_error_In _ _ Eg)) as (s & _ & _ & _ & TT). exact TT.
    + unfold reads. cbn [inst_of i_sl i_sh i_tl i_th i_source i_target extract_of e_source e_target e_align render fst snd]. unfold target_gaps. cbn [i_target]. rewrite TG.
      split; [apply (ends_side _ _ _ _ LD fb bb sl sh RF RB)|]. auto.
Qed.

(** * The checks *)
Lemma inner_range : Forall (fun g => 0 <= fst g <= snd g /\ snd g <= ns) inner /\ forall a b, In (a, b) inner -> 0 <= a < b /\ b < ns.
Proof.
  destruct fp_facts as (F1 & F2 & F3 & F4 & F5 & F6 & F7).
  assert (X : forall a b, In (a, b) inner -> 0 <= a < b /\ b < ns). { intros a b I. pose proof (ordered_in _ _ _ _ _ F4 I). apply F7 in I. lia. }
  split; [|auto]. apply Forall_forall. intros [a b] I. apply X in I. cbn. lia.
Qed.
Lemma tight_gaps_ok : forall gs, (forall a b, In (a, b) gs -> 0 <= a < b /\ b <= ns) ->
  exists b, tight_gaps (s_low sp) gs = Some b /\ (b = true <-> forall x y, In (x, y) gs -> aligned x /\ aligned (y - 1)).
Proof.
  induction gs as [|[a b] r IH]; intros H; [exists true; split; [auto|]; split; [intros _ x y []|auto]|]. cbn [tight_gaps].
  destruct (H a b (or_introl eq_refl)) as [H1 H2]. destruct (unaligned2_ok a (b - 1)) as (u & -> & U); [lia|lia|]. cbn [bind]. destruct u.
  - exists false. split; [auto|]. split; [discriminate|]. intros K. assert (X : true = false) by (apply U, K; left; auto). discriminate.
  - destruct IH as (q & -> & Q); [intros; apply H; right; auto|]. exists q. split; [auto|]. rewrite Q. split.
    + intros K x y [I|I]; [injection I as <- <-; apply U; auto|auto].
    + intros K x y I. apply K. right. auto.
Qed.
Lemma chunk_aligned_ok : forall k x, 0 <= x -> x + Z.of_nat k <= ns -> exists b, chunk_aligned (s_low sp) k x = Some b /\
  (b = true <-> exists s, x <= s < x + Z.of_nat k /\ aligned s).
Proof.
  induction k as [|k IH]; intros x H1 H2; cbn [chunk_aligned].
  - exists false. split; [auto|]. split; [discriminate|]. intros (s & H & _). lia.
  - destruct (low_get x) as (l & -> & A); [lia|]. cbn [bind]. destruct (l =? -1) eqn:E.
    + destruct (IH (x + 1)) as (b & -> & B); [lia|lia|]. exists b. split; [auto|]. rewrite B. split.
      * intros (s & H & K). exists s. split; [lia|auto].
      * intros (s & H & K). exists s. split; [|auto]. destruct (Z.eq_dec s x) as [->|]; [apply A in K; discriminate|lia].
    + exists true. split; [auto|]. split; [|auto]. intros _. exists x. split; [lia|]. apply A. auto.
Qed.
Definition chunk_has (c : Z * Z) : Prop := exists s, fst c - start <= s < fst c - start + snd c /\ aligned s.
Lemma aligned_chunks_ok : forall oc, (forall m len, In (m, len) oc -> 0 <= m - start /\ 0 <= len /\ m - start + len <= ns) ->
  exists n, aligned_chunks (s_low sp) start oc = Some n /\ 0 <= n <= Z.of_nat (length oc) /\
    (n = 0 <-> forall c, In c oc -> ~ chunk_has c) /\ (n = Z.of_nat (length oc) <-> forall c, In c oc -> chunk_has c).
Proof.
  induction oc as [|[m len] r IH]; intros H; [exists 0; split; [auto|]; split; [cbn; lia|]; split; (split; [intros _ c []|auto])|]. cbn [aligned_chunks].
  destruct (H m len (or_introl eq_refl)) as (H1 & H2 & H3). destruct (chunk_aligned_ok (Z.to_nat len) (m - start)) as (b & -> & B); [lia|lia|]. cbn [bind].
  destruct IH as (n & -> & N1 & N2 & N3); [intros; apply H; right; auto|]. cbn [bind]. exists (b2z b + n). split; [auto|].
  rewrite Z2Nat.id in B by lia. change (b = true <-> chunk_has (m, len)) in B. cbn [length]. destruct b; cbn [b2z].
  - split; [lia|]. split.
    + split; [lia|]. intros K. exfalso. apply (K (m, len)); [left; auto|apply B; auto].
    + split; [|intros K; cut (n = Z.of_nat (length r)); [lia|]; apply N3; intros; apply K; right; auto].
      intros K c [<-|I]; [apply B; auto|]. apply N3; [lia|auto].
  - assert (NB : ~ chunk_has (m, len)) by (intros K; apply B in K; discriminate). split; [lia|]. split.
    + split; [|intros K; cut (n = 0); [lia|]; apply N2; intros; apply K; right; auto]. intros K c [<-|I]; [auto|]. apply N2; [lia|auto].
    + split; [lia|]. intros K. exfalso. apply NB, K. left. auto.
Qed.
Lemma occ_range m len : In (m, len) occ -> 0 <= m - start /\ 0 <= len /\ m - start + len <= ns.
Proof.
  intros I. destruct fp_facts as (F1 & F2 & F3 & _). assert (L0 : 0 < len).
  { unfold occ, occ_of in I. destruct (in_combine_nth _ _ _ _ _ _ I) as (i & E1 & E2). rewrite nth_error_map in E2.
    destruct (nth_error (chunks_of phrase) i) as [c|] eqn:E3; [|discriminate]. injection E2 as <-. destruct OC as (_ & H & _).
    destruct (H i m c E1 E3) as (N & _). destruct c; [congruence|unfold size; cbn [length]; lia]. }
  destruct (laid_facts _ _ _ _ LD) as (_ & _ & _ & _ & CV & _). fold fp ep inner in CV.
  destruct (proj1 (CV (m - start))) as [Q1 _]; [exists m, len; split; [auto|lia]|]. destruct (proj1 (CV (m - start + len - 1))) as [Q2 _]; [exists m, len; split; [auto|lia]|]. lia.
Qed.
Definition terminals_ok : Prop := o_terminal o = true -> (exists c, In c occ /\ chunk_has c) /\ (o_chunks o = true -> forall c, In c occ -> chunk_has c).
Lemma terminals_check : exists b, CheckAlignedTerminals o (s_low sp) start occ = Some b /\ (b = true <-> terminals_ok).
Proof.
  unfold CheckAlignedTerminals, terminals_ok. destruct (o_terminal o); cbn [negb]; [|exists true; split; [auto|]; split; [discriminate|auto]].
  destruct (aligned_chunks_ok occ occ_range) as (n & -> & N1 & N2 & N3). cbn [bind]. eexists. split; [reflexivity|].
  destruct (laid_facts _ _ _ _ LD) as (_ & _ & _ & _ & _ & LO & _).
  destruct (Z.eqb_spec n 0) as [Q|Q].
  - split; [discriminate|]. intros K. destruct (K eq_refl) as [(c & I & HC) _]. exfalso. apply (proj1 N2 Q c I HC).
  - assert (EX : exists c, In c occ /\ chunk_has c).
    { assert (D : forall oc, (forall m len, In (m, len) oc -> 0 <= m - start /\ 0 <= len /\ m - start + len <= ns) -> (forall c, In c oc -> ~ chunk_has c) \/ exists c, In c oc /\ chunk_has c).
      { induction oc as [|[m len] r IH]; intros H; [left; intros c []|]. destruct (H m len (or_introl eq_refl)) as (H1 & H2 & H3).
        destruct (chunk_aligned_ok (Z.to_nat len) (m - start)) as (b & _ & B); [lia|lia|]. rewrite Z2Nat.id in B by lia.
        destruct b; [right; exists (m, len); split; [left; auto|]; apply B; auto|].
        destruct IH as [K|(c & I & K)]; [intros; apply H; right; auto| |right; exists c; split; [right; auto|auto]].
        left. intros c [<-|I]; [|auto]. intros X. apply B in X. discriminate. }
      destruct (D occ occ_range) as [K|K]; [apply N2 in K; lia|auto]. }
    destruct (o_chunks o); cbn [negb orb].
    + rewrite Z.eqb_eq, N3. split; [intros K _; auto|intros K; destruct (K eq_refl) as [_ K2]; auto].
    + split; [intros _ _; split; [auto|discriminate]|auto].
Qed.
Lemma tight_check : exists b, CheckTightPhrases o (s_low sp) start occ = Some b /\ (b = true <-> (o_tight o = true -> forall x y, In (x, y) inner -> aligned x /\ aligned (y - 1))).
Proof.
  unfold CheckTightPhrases. destruct (o_tight o); cbn [negb]; [|exists true; split; [auto|]; split; [discriminate|auto]].
  destruct (tight_gaps_ok inner) as (b & E & B). { intros a c I. apply inner_range in I. lia. } exists b. split; [exact E|]. rewrite B. split; auto.
Qed.

(** * GetGaps *)
Lemma get_gaps_ok bl bh : 0 <= bl <= fp -> ep <= bh <= ns ->
  let fb := negb (bl =? fp) in let bb := negb (bh =? ep) in
  GetGaps o p sp start occ fp ep bl bh (size phrase) = Some None \/
  exists ts met, GetGaps o p sp start occ fp ep bl bh (size phrase) = Some (Some (all_gaps start occ fb bb bl bh, ts, met)) /\
    Forall2 (gap_ok p) (all_gaps start occ fb bb bl bh) ts /\ size phrase + b2z fb + b2z bb <= o_symbols o /\
    (o_tight o = true -> (fb = true -> aligned bl /\ aligned (fp - 1)) /\ (bb = true -> aligned ep /\ aligned (bh - 1))) /\
    (met = true <-> (o_tight o = true -> (fb = false -> aligned fp) /\ (bb = false -> aligned (ep - 1)))).
Proof.
  intros H1 H2 fb bb. destruct fp_facts as (F1 & F2 & F3 & F4 & F5 & F6 & F7). unfold GetGaps.
  assert (AG : Forall (fun g => 0 <= fst g <= snd g /\ snd g <= ns) (all_gaps start occ fb bb bl bh)).
  { unfold all_gaps. apply Forall_app. split; [|apply Forall_app; split; [apply inner_range|]]; unfold front.
    - destruct fb; constructor; [cbn; fold fp; lia|constructor].
    - destruct bb; constructor; [cbn; fold ep; lia|constructor]. }
  assert (FA : exists a, (if bl <? fp then
          if o_symbols o <=? size phrase then Some None
          else if o_tight o then bind (unaligned2 (s_low sp) bl (fp - 1)) (fun u => Some (if u then None else Some ([(bl, fp)], size phrase + 1, true)))
          else Some (Some ([(bl, fp)], size phrase + 1, true))
        else if o_tight o then bind (get (s_low sp) fp) (fun l => Some (Some ([], size phrase, negb (l =? -1))))
        else Some (Some ([], size phrase, true))) = Some a /\
      (a = None \/ exists met1, a = Some (front fb bl fp, size phrase + b2z fb, met1) /\ size phrase + b2z fb <= o_symbols o /\
        (o_tight o = true -> fb = true -> aligned bl /\ aligned (fp - 1)) /\ (met1 = true <-> (o_tight o = true -> fb = false -> aligned fp)))).
  { unfold fb. destruct (Z.ltb_spec bl fp); destruct (Z.eqb_spec bl fp); try lia; cbn [negb front b2z].
    - destruct (Z.leb_spec (o_symbols o) (size phrase)); [eauto|]. destruct (o_tight o).
      + destruct (unaligned2_ok bl (fp - 1)) as (u & -> & U); [lia|lia|]. cbn [bind]. eexists. split; [reflexivity|]. destruct u; [auto|]. right. eexists. split; [reflexivity|].
        split; [lia|]. split; [intros _ _; apply U; auto|]. split; [intros _ _; discriminate|auto].
      + eexists. split; [reflexivity|]. right. eexists. split; [reflexivity|]. split; [lia|]. split; [discriminate|]. split; [discriminate|auto].
    - destruct (o_tight o).
      + destruct (low_get fp) as (l & -> & L); [lia|]. cbn [bind]. eexists. split; [reflexivity|]. right. eexists. split; [rewrite Z.add_0_r; reflexivity|].
        split; [lia|]. split; [discriminate|]. rewrite negb_true_iff, L. tauto.
      + eexists. split; [reflexivity|]. right. eexists. split; [rewrite Z.add_0_r; reflexivity|]. split; [lia|]. split; [discriminate|]. split; [discriminate|auto]. }
  destruct FA as (a & -> & [->|(met1 & -> & S1 & T1 & M1)]); cbn [bind]; [auto|].
  assert (FB : exists b, (if ep <? bh then
            if o_symbols o <=? size phrase + b2z fb then Some None
            else if o_tight o then bind (unaligned2 (s_low sp) ep (bh - 1)) (fun u => Some (if u then None else Some ([(ep, bh)], met1)))
            else Some (Some ([(ep, bh)], met1))
          else if o_tight o then bind (get (s_low sp) (ep - 1)) (fun l => Some (Some ([], andb met1 (negb (l =? -1)))))
          else Some (Some ([], met1))) = Some b /\
      (b = None \/ exists met, b = Some (front bb ep bh, met) /\ size phrase + b2z fb + b2z bb <= o_symbols o /\
        (o_tight o = true -> bb = true -> aligned ep /\ aligned (bh - 1)) /\ (met = true <-> met1 = true /\ (o_tight o = true -> bb = false -> aligned (ep - 1))))).
  { unfold bb. destruct (Z.ltb_spec ep bh); destruct (Z.eqb_spec bh ep); try lia; cbn [negb front b2z].
    - destruct (Z.leb_spec (o_symbols o) (size phrase + b2z fb)); [eauto|]. destruct (o_tight o).
      + destruct (unaligned2_ok ep (bh - 1)) as (u & -> & U); [lia|lia|]. cbn [bind]. eexists. split; [reflexivity|]. destruct u; [auto|]. right. eexists. split; [reflexivity|].
        split; [lia|]. split; [intros _ _; apply U; auto|]. split; [intros K; split; [auto|discriminate]|tauto].
      + eexists. split; [reflexivity|]. right. eexists. split; [reflexivity|]. split; [lia|]. split; [discriminate|]. split; [intros K; split; [auto|discriminate]|tauto].
    - destruct (o_tight o).
      + destruct (low_get (ep - 1)) as (l & -> & L); [lia|]. cbn [bind]. eexists. split; [reflexivity|]. right. eexists. split; [reflexivity|].
        split; [lia|]. split; [discriminate|]. rewrite andb_true_iff, negb_true_iff, L. tauto.
      + eexists. split; [reflexivity|]. right. eexists. split; [reflexivity|]. split; [lia|]. split; [discriminate|]. split; [intros K; split; [auto|discriminate]|tauto]. }
  destruct FB as (b & -> & [->|(met & -> & S2 & T2 & M2)]); cbn [bind]; [auto|].
  change (front fb bl fp ++ inner_gaps start occ ++ front bb ep bh) with (all_gaps start occ fb bb bl bh).
  destruct (gap_fixes_ok _ AG) as [->|(ts & -> & G)]; cbn [bind]; [auto|]. right. exists ts, met. split; [auto|]. split; [auto|]. split; [auto|].
  split; [auto|]. rewrite M2, M1. tauto.
Qed.
(** * What one call of AddExtracts may add *)
Definition total (es : list extract) : Q := fold_right (fun e q => (e_count e + q)%Q) 0%Q es.
Record batch (source : list Z) (es : list extract) : Prop := {
  ba_rules : Forall (rule o p start phrase matching) es;
  ba_source : Forall (fun e => e_source e = source) es;
  ba_count : Forall (fun e => e_count e = / inject_Z (Z.of_nat (length es)))%Q es;
  ba_tight : o_tight o = true -> (length es <= 1)%nat }.
Lemma batch_nil source : batch source [].
Proof. split; [constructor|constructor|constructor|intros _; cbn; lia]. Qed.
Lemma forall2_unique (A B : Type) (R : A -> B -> Prop) : (forall a b c, R a b -> R a c -> b = c) ->
  forall l m n, Forall2 R l m -> Forall2 R l n -> m = n.
Proof.
  intros U l m n F. revert n. induction F as [|a b l m H F IH]; intros n G; inversion G as [|x c l' n' H' G']; subst; [auto|]. f_equal; [eapply U; eauto|auto].
Qed.
Lemma choice_unique lo hi tgs order c c' : o_tight o = true -> loose_choice o p lo hi tgs order c -> loose_choice o p lo hi tgs order c' -> c = c'.
Proof.
  intros T. destruct c as [[a g] e], c' as [[a' g'] e']. intros (_ & _ & _ & _ & X & _ & F) (_ & _ & _ & _ & X' & _ & F').
  destruct (X T) as [-> ->]. destruct (X' T) as [-> ->]. f_equal. f_equal. refine (forall2_unique _ _ _ _ _ _ _ F F').
  intros j b d (y & E & L) (y' & E' & L'). rewrite E in E'. injection E' as <-. destruct L as (_ & _ & _ & _ & L). destruct L' as (_ & _ & _ & _ & L'). rewrite (L T), (L' T). auto.
Qed.
Lemma add_batch fb bb sl sh lo hi tgs : ready fb bb sl sh lo hi tgs ->
  exists es, AddExtracts o p sp (Extend phrase fb bb) (GetSourceIndexes start occ fb) tgs lo hi = Some es /\ batch (Extend phrase fb bb) es.
Proof.
  intros R. destruct (add_ok fb bb sl sh lo hi tgs R) as (order & choices & _ & _ & ND & CH & E & RL). eexists. split; [exact E|]. split.
  - apply Forall_map, Forall_forall. intros c I. eexists. exact (RL c I).
  - apply Forall_map, Forall_forall. auto.
  - rewrite map_length. apply Forall_map, Forall_forall. auto.
  - intros T. rewrite map_length. destruct choices as [|c [|c' r]]; cbn [length]; [lia|lia|]. exfalso. inversion ND as [|x y N _]; subst. apply N. left.
    apply (choice_unique lo hi tgs order); [auto|apply CH; right; left; auto|apply CH; left; auto].
Qed.

(** * AddNonterminalExtremities *)
Lemma left_x_ok bl fb : 0 <= bl <= ns -> left_x o sp bl fb = Some None \/ exists x, left_x o sp bl fb = Some (Some x) /\ fb = false /\ 0 <= x <= bl - o_gap o.
Proof.
  intros H. unfold left_x. destruct fb; cbn [orb]; [auto|]. destruct (Z.ltb_spec bl (o_gap o)); [auto|]. destruct (o_tight o).
  - destruct (seek_ok (fun x => if 0 <=? x then l <- get (s_low sp) x ;; Some (l =? -1) else Some false) (-1) (fun x => -1 <= x <= bl - o_gap o) (fun x => Z.to_nat (x + 1)))
      with (fuel := Datatypes.S (Datatypes.S (Z.to_nat (bl - o_gap o)))) (x := bl - o_gap o) as (z & -> & P & _).
    + intros y Py. destruct (Z.leb_spec 0 y); [|eauto]. destruct (low_get y) as (l & -> & _); [lia|]. cbn [bind]. eauto.
    + intros y Py. destruct (Z.leb_spec 0 y); [|discriminate]. intros _. lia.
    + lia.
    + lia.
    + cbn [bind]. destruct (Z.ltb_spec z 0); [auto|]. right. exists z. split; [auto|]. split; [auto|lia].
  - cbn [bind]. destruct (Z.ltb_spec (bl - o_gap o) 0); [lia|]. right. eexists. split; [reflexivity|]. split; [auto|lia].
Qed.
Lemma right_x_ok bh bb : 0 <= bh <= ns -> right_x o p sp bh bb = Some None \/ exists x, right_x o p sp bh bb = Some (Some x) /\ bb = false /\ bh + o_gap o <= x <= ns.
Proof.
  intros H. unfold right_x. fold ns. destruct bb; cbn [orb]; [auto|]. destruct (Z.ltb_spec ns (bh + o_gap o)); [auto|]. destruct (o_tight o).
  - destruct (seek_ok (fun x => if x <=? ns then l <- get (s_low sp) (x - 1) ;; Some (l =? -1) else Some false) 1 (fun x => bh + o_gap o <= x <= ns + 1) (fun x => Z.to_nat (ns + 1 - x)))
      with (fuel := Datatypes.S (Datatypes.S (Z.to_nat (ns - (bh + o_gap o))))) (x := bh + o_gap o) as (z & -> & P & _).
    + intros y Py. destruct (Z.leb_spec y ns); [|eauto]. destruct (low_get (y - 1)) as (l & -> & _); [lia|]. cbn [bind]. eauto.
    + intros y Py. destruct (Z.leb_spec y ns); [|discriminate]. intros _. lia.
    + lia.
    + lia.
    + cbn [bind]. destruct (Z.ltb_spec ns z); [auto|]. right. exists z. split; [auto|]. split; [auto|lia].
  - cbn [bind]. destruct (Z.ltb_spec ns (bh + o_gap o)); [lia|]. right. eexists. split; [reflexivity|]. split; [auto|lia].
Qed.
Lemma peek_some f i : exists v, peek (Some f) (s_low sp) i = Some v.
Proof. unfold peek. destruct (get (s_low sp) i); eauto. Qed.
Lemma peek_in f i : 0 <= i < ns -> exists v, peek (Some f) (s_low sp) i = Some v /\ get (s_low sp) i = Some v /\ ((v =? -1) = false <-> aligned i).
Proof. intros H. destruct (low_get i H) as (v & E & A). exists v. unfold peek. rewrite E. auto. Qed.
Definition beyond (bl bh : Z) (left right : bool) : Prop := (left = true /\ bl < o_gap o) \/ (right = true /\ ns < bh + o_gap o).
Lemma ext_out source bl bh tgs fb bb left right : 0 <= bl <= ns -> 0 <= bh <= ns -> beyond bl bh left right ->
  forall f, AddNonterminalExtremities o p sp (Some f) start occ source bl bh tgs fb bb left right = Some [].
Proof.
  intros H1 H2 B f. unfold AddNonterminalExtremities.
  assert (L : exists u, (if o_tight o then a <- peek (Some f) (s_low sp) (bl - b2z left) ;;
              if a =? -1 then Some true else b <- peek (Some f) (s_low sp) (bh + b2z right - 1) ;; Some (b =? -1) else Some false) = Some u).
  { destruct (o_tight o); [|eauto]. destruct (peek_some f (bl - b2z left)) as (a & ->). cbn [bind]. destruct (a =? -1); [eauto|].
    destruct (peek_some f (bh + b2z right - 1)) as (b & ->). cbn [bind]. eauto. }
  destruct L as (u & ->). cbn [bind]. destruct u; [auto|].
  assert (LX : exists x, (if left then left_x o sp bl fb else Some (Some bl)) = Some x /\ (left = true -> bl < o_gap o -> x = None)).
  { destruct left; [|exists (Some bl); split; [auto|discriminate]]. destruct (left_x_ok bl fb H1) as [->|(x & -> & _ & X)]; [eauto|]. eexists. split; [reflexivity|]. intros. lia. }
  destruct LX as (x & -> & X). cbn [bind]. destruct x as [xl|]; [|auto].
  destruct B as [[B1 B2]|[B1 B2]]; [specialize (X B1 B2); discriminate|]. rewrite B1. unfold right_x. fold ns.
  destruct (Z.ltb_spec ns (bh + o_gap o)); [|lia]. rewrite orb_true_r. cbn [bind]. auto.
Qed.
Lemma new_gap_ok edge g : 0 <= edge < ns -> 0 <= fst g <= snd g -> snd g <= ns ->
  new_gap o p sp edge g = Some None \/ exists t, new_gap o p sp edge g = Some (Some t) /\ gap_ok p g t /\ (o_tight o = true -> aligned edge).
Proof.
  intros He H1 H2. unfold new_gap.
  assert (U : exists u, (if o_tight o then l <- get (s_low sp) edge ;; Some (l =? -1) else Some false) = Some u /\ (u = false -> o_tight o = true -> aligned edge)).
  { destruct (o_tight o); [|exists false; split; [auto|discriminate]]. destruct (low_get edge He) as (l & -> & L). cbn [bind]. eexists. split; [reflexivity|]. intros Q _. apply L. auto. }
  destruct U as (u & -> & U). cbn [bind]. destruct u; [auto|]. destruct (gap_fix_ok g H1 H2) as [->|(t & -> & G)]; [auto|]. right. exists t. auto.
Qed.
(** the span found, and its gaps *)
Record based (fb bb : bool) (bl bh : Z) (tgs : list (Z * Z)) : Prop := {
  bs_low : 0 <= bl <= fp; bs_high : ep <= bh <= ns;
  bs_fb : fb = negb (bl =? fp); bs_bb : bb = negb (bh =? ep);
  bs_gf : fb = true -> o_gap o <= fp - bl; bs_gb : bb = true -> o_gap o <= bh - ep;
  bs_gaps : Forall2 (gap_ok p) (all_gaps start occ fb bb bl bh) tgs;
  bs_tight : o_tight o = true -> (fb = true -> aligned bl /\ aligned (fp - 1)) /\ (bb = true -> aligned ep /\ aligned (bh - 1)) /\
    forall x y, In (x, y) inner -> aligned x /\ aligned (y - 1) }.
Lemma ext_ok fb bb bl bh tgs left right : based fb bb bl bh tgs ->
  exists es, (forall f, AddNonterminalExtremities o p sp (Some f) start occ (Extend phrase fb bb) bl bh tgs fb bb left right = Some es) /\
    batch (Extend phrase (fb || left) (bb || right)) es.
Proof.
  intros [BL BH FB BB GF GB GS TI]. destruct fp_facts as (F1 & F2 & F3 & F4 & F5 & F6 & F7).
  assert (DC : beyond bl bh left right \/ ~ beyond bl bh left right).
  { unfold beyond. destruct left, right; destruct (Z_lt_dec bl (o_gap o)); destruct (Z_lt_dec ns (bh + o_gap o)); intuition (discriminate || lia). }
  destruct DC as [OUT|INN]; [exists []; split; [apply ext_out; auto; lia|apply batch_nil]|].
  assert (I1 : left = true -> o_gap o <= bl) by (intros L; destruct (Z_lt_dec bl (o_gap o)); [exfalso; apply INN; left; auto|lia]).
  assert (I2 : right = true -> bh + o_gap o <= ns) by (intros L; destruct (Z_lt_dec ns (bh + o_gap o)); [exfalso; apply INN; right; auto|lia]).
  assert (L : exists u, (forall f, (if o_tight o then a <- peek (Some f) (s_low sp) (bl - b2z left) ;;
              if a =? -1 then Some true else b <- peek (Some f) (s_low sp) (bh + b2z right - 1) ;; Some (b =? -1) else Some false) = Some u) /\
              (u = false -> o_tight o = true -> aligned (bl - b2z left) /\ aligned (bh + b2z right - 1))).
  { assert (R1 : 0 <= bl - b2z left < ns) by (destruct left; cbn [b2z]; [specialize (I1 eq_refl)|]; lia).
    assert (R2 : 0 <= bh + b2z right - 1 < ns) by (destruct right; cbn [b2z]; [specialize (I2 eq_refl)|]; lia).
    destruct (o_tight o); [|exists false; split; [auto|discriminate]].
    destruct (low_get _ R1) as (a & Ea & A). destruct (low_get _ R2) as (b & Eb & B). exists (if a =? -1 then true else b =? -1). split.
    - intros f. unfold peek. rewrite Ea, Eb. cbn [bind]. destruct (a =? -1); auto.
    - destruct (a =? -1); [discriminate|]. intros Q _. split; [apply A; auto|apply B; auto]. }
  destruct L as (u & EU & U).
  assert (RED : exists es, (let v := u in if v then Some [] else
    lx <- (if left then left_x o sp bl fb else Some (Some bl)) ;;
    match lx with None => Some [] | Some xl =>
    rx <- (if right then right_x o p sp bh bb else Some (Some bh)) ;;
    match rx with None => Some [] | Some xh =>
    let n := b2z left + b2z right in
    if orb (o_span o <? xh - xl) (orb (o_nonterms o <? Z.of_nat (length tgs) + n) (o_symbols o <? size (Extend phrase fb bb) + n)) then Some [] else
    r <- FindFixPoint (fopts o 1 1 n left right true) sp (Z.of_nat (length (src p))) (Z.of_nat (length (tgt p))) xl xh (-1) (-1) xl xh ;;
    if negb (found r) then Some [] else
    lg <- (if left then g <- new_gap o p sp (r_bl r) (r_bl r, bl) ;; Some (match g with None => None | Some h => Some [h] end) else Some (Some [])) ;;
    match lg with None => Some [] | Some front =>
    rg <- (if right then g <- new_gap o p sp (r_bh r - 1) (bh, r_bh r) ;; Some (match g with None => None | Some h => Some [h] end) else Some (Some [])) ;;
    match rg with None => Some [] | Some back =>
    AddExtracts o p sp (Extend (Extend phrase fb bb) left right) (GetSourceIndexes start occ (orb left fb)) (front ++ tgs ++ back) (r_tl r) (r_th r)
    end end end end) = Some es /\ batch (Extend phrase (fb || left) (bb || right)) es).
  2:{ destruct RED as (es & E & B). exists es. split; [|auto]. intros f. unfold AddNonterminalExtremities. rewrite EU. cbn [bind]. exact E. }
  cbv zeta. destruct u; [exists []; split; [auto|apply batch_nil]|]. specialize (U eq_refl).
  assert (LX : exists x, (if left then left_x o sp bl fb else Some (Some bl)) = Some x /\
     forall xl, x = Some xl -> andb fb left = false /\ 0 <= xl /\ if left then xl <= bl - o_gap o else xl = bl).
  { destruct left.
    - destruct (left_x_ok bl fb) as [->|(x & -> & X1 & X2)]; [lia| |]; (eexists; split; [reflexivity|]); [discriminate|]. intros xl Q. injection Q as <-. rewrite X1. split; [auto|]. lia.
    - eexists. split; [reflexivity|]. intros xl Q. injection Q as <-. rewrite andb_false_r. split; [auto|]. lia. }
  destruct LX as ([xl|] & -> & LX); cbn [bind]; [|exists []; split; [auto|apply batch_nil]]. destruct (LX _ eq_refl) as (L1 & L2 & L3). clear LX.
  assert (RX : exists x, (if right then right_x o p sp bh bb else Some (Some bh)) = Some x /\
     forall xh, x = Some xh -> andb bb right = false /\ xh <= ns /\ if right then bh + o_gap o <= xh else xh = bh).
  { destruct right.
    - destruct (right_x_ok bh bb) as [->|(x & -> & X1 & X2)]; [lia| |]; (eexists; split; [reflexivity|]); [discriminate|]. intros xh Q. injection Q as <-. rewrite X1. split; [auto|]. lia.
    - eexists. split; [reflexivity|]. intros xh Q. injection Q as <-. rewrite andb_false_r. split; [auto|]. lia. }
  destruct RX as ([xh|] & -> & RX); cbn [bind]; [|exists []; split; [auto|apply batch_nil]]. destruct (RX _ eq_refl) as (R1 & R2 & R3). clear RX.
  destruct (Z.ltb_spec (o_span o) (xh - xl)) as [Q1|Q1]; cbn [orb]; [exists []; split; [auto|apply batch_nil]|].
  destruct (Z.ltb_spec (o_nonterms o) (Z.of_nat (length tgs) + (b2z left + b2z right))) as [Q2|Q2]; cbn [orb]; [exists []; split; [auto|apply batch_nil]|].
  destruct (Z.ltb_spec (o_symbols o) (size (Extend phrase fb bb) + (b2z left + b2z right))) as [Q3|Q3]; cbn [orb]; [exists []; split; [auto|apply batch_nil]|].
  assert (XL : xl <= bl) by (destruct left; lia). assert (XH : bh <= xh) by (destruct right; lia).
  assert (X1 : 0 <= xl <= xh) by lia.
  destruct (fix_top (fopts o 1 1 (b2z left + b2z right) left right true) sp (links p) ns nt xl xh xl xh DS DT X1 R2) as (r & E & R & _).
  unfold ns, nt in E. rewrite E. cbn [bind]. fold ns nt in E. destruct (found r) eqn:FD; cbn [negb]; [|exists []; split; [auto|apply batch_nil]].
  destruct (R eq_refl) as [(C & A1 & A2 & A3 & A4 & A5 & A6 & A7 & A8) _]. clear R. cbn [fopts allow_low_x allow_high_x max_rule_span max_new_x min_source_gap_size] in A5, A6, A7, A8.
  pose proof (fix_hull _ _ _ _ _ DS _ _ _ _ _ X1 R2 E FD) as HU.
  assert (NL : left = false -> r_bl r = bl). { intros ->. destruct (Z_lt_dec (r_bl r) xl) as [Q|Q]; [destruct (A6 Q); discriminate|lia]. }
  assert (NR : right = false -> r_bh r = bh). { intros ->. destruct (Z_lt_dec xh (r_bh r)) as [Q|Q]; [destruct (A7 Q); discriminate|lia]. }
  assert (W : r_bh r - r_bl r <= o_span o).
  { unfold sides in A8. destruct (Z.ltb_spec (r_bl r) xl); destruct (Z.ltb_spec xh (r_bh r)); cbn [b2z] in A8; try (apply A8; lia). lia. }
  assert (LG : exists x, (if left then g <- new_gap o p sp (r_bl r) (r_bl r, bl) ;; Some (match g with None => None | Some h => Some [h] end) else Some (Some [])) = Some x /\
     forall h, x = Some h -> Forall2 (gap_ok p) (front left (r_bl r) bl) h /\ (left = true -> o_tight o = true -> aligned (r_bl r))).
  { destruct left; cbn [front]; [|eexists; split; [reflexivity|]; intros h Q; injection Q as <-; split; [constructor|discriminate]].
    destruct (new_gap_ok (r_bl r) (r_bl r, bl)) as [->|(t & -> & G & T)]; [lia|cbn;lia|cbn;lia| |]; cbn [bind]; (eexists; split; [reflexivity|]); [discriminate|].
    intros h Q. injection Q as <-. split; [constructor; [auto|constructor]|auto]. }
  destruct LG as ([h1|] & -> & LG); cbn [bind]; [|exists []; split; [auto|apply batch_nil]]. destruct (LG _ eq_refl) as (G1 & T1). clear LG.
  assert (RG : exists x, (if right then g <- new_gap o p sp (r_bh r - 1) (bh, r_bh r) ;; Some (match g with None => None | Some h => Some [h] end) else Some (Some [])) = Some x /\
     forall h, x = Some h -> Forall2 (gap_ok p) (front right bh (r_bh r)) h /\ (right = true -> o_tight o = true -> aligned (r_bh r - 1))).
  { destruct right; cbn [front]; [|eexists; split; [reflexivity|]; intros h Q; injection Q as <-; split; [constructor|discriminate]].
    destruct (new_gap_ok (r_bh r - 1) (bh, r_bh r)) as [->|(t & -> & G & T)]; [lia|cbn;lia|cbn;lia| |]; cbn [bind]; (eexists; split; [reflexivity|]); [discriminate|].
    intros h Q. injection Q as <-. split; [constructor; [auto|constructor]|auto]. }
  destruct RG as ([h2|] & -> & RG); cbn [bind]; [|exists []; split; [auto|apply batch_nil]]. destruct (RG _ eq_refl) as (G2 & T2). clear RG.
  rewrite extend_extend by auto.
  assert (AG : front left (r_bl r) bl ++ all_gaps start occ fb bb bl bh ++ front right bh (r_bh r) = all_gaps start occ (fb || left) (bb || right) (r_bl r) (r_bh r)).
  { unfold all_gaps. fold fp ep inner. rewrite <- !app_assoc. rewrite (app_assoc (front left (r_bl r) bl)). f_equal; [|f_equal].
    - destruct left; cbn [front orb app].
      + rewrite andb_true_r in L1. rewrite L1 in FB |- *. cbn [orb front app]. symmetry in FB. apply negb_false_iff, Z.eqb_eq in FB. rewrite FB. auto.
      + rewrite orb_false_r, NL; auto.
    - destruct right; cbn [front orb app].
      + rewrite andb_true_r in R1. rewrite R1 in BB |- *. cbn [orb front app]. symmetry in BB. apply negb_false_iff, Z.eqb_eq in BB. rewrite BB. auto.
      + rewrite orb_false_r, app_nil_r, NR; auto. }
  rewrite (orb_comm left fb). apply add_batch with (sl := r_bl r) (sh := r_bh r). rewrite extend_size in Q3.
  assert (FL : left = true -> fb = false /\ bl = fp).
  { intros ->. rewrite andb_true_r in L1. split; [auto|]. rewrite L1 in FB. symmetry in FB. apply negb_false_iff, Z.eqb_eq in FB. auto. }
  assert (FR : right = true -> bb = false /\ bh = ep).
  { intros ->. rewrite andb_true_r in R1. split; [auto|]. rewrite R1 in BB. symmetry in BB. apply negb_false_iff, Z.eqb_eq in BB. auto. }
  assert (EQL : fb = false -> bl = fp) by (intros Q; rewrite Q in FB; symmetry in FB; apply negb_false_iff, Z.eqb_eq in FB; auto).
  assert (EQR : bb = false -> bh = ep) by (intros Q; rewrite Q in BB; symmetry in BB; apply negb_false_iff, Z.eqb_eq in BB; auto).
  split.
  - fold fp. destruct left; [|rewrite orb_false_r, NL by auto; destruct fb; [specialize (GF eq_refl); lia|auto]]. rewrite orb_true_r. lia.
  - fold ep. destruct right; [|rewrite orb_false_r, NR by auto; destruct bb; [specialize (GB eq_refl); lia|auto]]. rewrite orb_true_r. lia.
  - lia.
  - lia.
  - fold fp. destruct left; [intros _; destruct (FL eq_refl); lia|]. rewrite orb_false_r, NL by auto. auto.
  - fold ep. destruct right; [intros _; destruct (FR eq_refl); lia|]. rewrite orb_false_r, NR by auto. auto.
  - exact C.
  - lia.
  - exact HU.
  - exact W.
  - rewrite <- AG. apply Forall2_app; [auto|]. apply Forall2_app; auto.
  - rewrite <- AG, !app_length. rewrite (forall2_len _ _ _ _ _ GS). unfold front. destruct left, right; cbn [length b2z] in *; lia.
  - destruct left; [destruct (FL eq_refl) as [-> _]|]; (destruct right; [destruct (FR eq_refl) as [-> _]|]); rewrite ?orb_false_r, ?orb_true_r; cbn [b2z] in *; lia.
  - intros T. destruct (U T) as [U1 U2]. destruct (TI T) as (TA & TB & TC).
    assert (E1 : aligned (r_bl r)). { destruct left; [auto|]. rewrite NL by auto. cbn [b2z] in U1. rewrite Z.sub_0_r in U1. auto. }
    assert (E2 : aligned (r_bh r - 1)). { destruct right; [auto|]. rewrite NR by auto. cbn [b2z] in U2. rewrite Z.add_0_r in U2. auto. }
    split; [split; [exact E1|exact E2]|]. intros a b I. rewrite <- AG in I. apply in_app_or in I. destruct I as [I|I].
    + unfold front in I. destruct left; [|destruct I]. destruct I as [I|[]]. injection I as <- <-. split; [exact E1|exact U1].
    + apply in_app_or in I. destruct I as [I|I].
      * unfold all_gaps in I. fold fp ep inner in I. apply in_app_or in I. destruct I as [I|I]; [|apply in_app_or in I; destruct I as [I|I]; [apply TC; auto|]].
        -- unfold front in I. destruct fb; [|destruct I]. destruct I as [I|[]]. injection I as <- <-. apply TA. auto.
        -- unfold front in I. destruct bb; [|destruct I]. destruct I as [I|[]]. injection I as <- <-. apply TB. auto.
      * unfold front in I. destruct right; [|destruct I]. destruct I as [I|[]]. injection I as <- <-. split; [|exact E2].
        cbn [b2z] in U2. replace (bh + 1 - 1) with bh in U2 by lia. exact U2.
Qed.

(** * ExtractAlignments *)
Lemma matching_first : exists m r, matching = m :: r /\ m - start = fp.
Proof.
  destruct fp_facts as (_ & _ & _ & _ & L & _). unfold size in L. destruct matching as [|m r] eqn:E; [cbn in L; lia|]. exists m, r. split; [auto|].
  unfold fp, firstp, occ, occ_of. destruct OC as (LL & _). destruct (chunks_of phrase) eqn:EC; [cbn in LL; lia|]. reflexivity.
Qed.
Lemma start_eq c1 c2 r : CheckAlignedTerminals o (s_low sp) start occ = Some c1 -> CheckTightPhrases o (s_low sp) start occ = Some c2 ->
  FindFixPoint (fopts o (o_gap o) 0 (o_nonterms o - size matching + 1) true true false) sp ns nt fp ep (-1) (-1) (-1) (-1) = Some r ->
  forall f, extract_alignments o p sp (Some f) start phrase matching =
    if negb c1 then Some [] else if negb c2 then Some [] else
    if negb (found r) then Some [] else
    g <- GetGaps o p sp start occ fp ep (r_bl r) (r_bh r) (size phrase) ;;
    match g with None => Some [] | Some (source_gaps, target_gaps, met) =>
    let starts_with_x := negb (r_bl r =? fp) in
    let ends_with_x := negb (r_bh r =? ep) in
    let source := Extend phrase starts_with_x ends_with_x in
    base <- (if met then AddExtracts o p sp source (GetSourceIndexes start occ starts_with_x) target_gaps (r_tl r) (r_th r) else Some []) ;;
    if orb (o_nonterms o <=? Z.of_nat (length source_gaps)) (orb (o_symbols o <=? size source) (o_span o <? r_bh r - r_bl r + o_gap o)) then Some base
    else
    let ext := AddNonterminalExtremities o p sp (Some f) start occ source (r_bl r) (r_bh r) target_gaps starts_with_x ends_with_x in
    e1 <- ext false true ;; e2 <- ext true false ;; e3 <- ext true true ;;
    Some (base ++ e1 ++ e2 ++ e3) end.
Proof.
  intros EC1 EC2 E f. destruct matching_first as (m & mr & EM & EF).
  assert (EL : chunklens phrase 0 matching = Some occ) by (apply chunklens_ok; destruct OC; auto).
  assert (GM : get matching 0 = Some m) by (rewrite EM; reflexivity).
  unfold extract_alignments. rewrite EL. cbn [bind]. rewrite EC1. cbn [bind]. destruct c1; cbn [negb]; [|auto]. rewrite EC2. cbn [bind]. destruct c2; cbn [negb]; [|auto]. rewrite GM. cbn [bind].
  rewrite EF. change (fst (last occ (0, 0)) + snd (last occ (0, 0)) - start) with ep. unfold ns, nt in E. rewrite E. reflexivity.
Qed.
(** the span found: the base extracts and the extended ones *)
Definition grown (b1 b2 : bool) (e1 e2 e3 : list extract) : Prop :=
  batch (Extend phrase b1 true) e1 /\ batch (Extend phrase true b2) e2 /\ batch (Extend phrase true true) e3 /\
  (b2 = true -> e1 = [] /\ e3 = []) /\ (b1 = true -> e2 = [] /\ e3 = []).
Lemma grown_nil b1 b2 : grown b1 b2 [] [] [].
Proof. split; [apply batch_nil|]. split; [apply batch_nil|]. split; [apply batch_nil|]. auto. Qed.
Lemma found_ok r c1 c2 : FindFixPoint (fopts o (o_gap o) 0 (o_nonterms o - size matching + 1) true true false) sp ns nt fp ep (-1) (-1) (-1) (-1) = Some r ->
  CheckAlignedTerminals o (s_low sp) start occ = Some c1 -> CheckTightPhrases o (s_low sp) start occ = Some c2 ->
  c1 = true -> c2 = true -> found r = true ->
  forall ts met, let fb := negb (r_bl r =? fp) in let bb := negb (r_bh r =? ep) in
  GetGaps o p sp start occ fp ep (r_bl r) (r_bh r) (size phrase) = Some (Some (all_gaps start occ fb bb (r_bl r) (r_bh r), ts, met)) ->
  (met = true -> ready fb bb (r_bl r) (r_bh r) (r_tl r) (r_th r) ts) /\
  exists e0 e1 e2 e3, (if met then AddExtracts o p sp (Extend phrase fb bb) (GetSourceIndexes start occ fb) ts (r_tl r) (r_th r) else Some []) = Some e0 /\
    batch (Extend phrase fb bb) e0 /\ grown fb bb e1 e2 e3 /\ forall f, extract_alignments o p sp (Some f) start phrase matching = Some (e0 ++ e1 ++ e2 ++ e3).
Proof.
  intros E EC1 EC2 K1 K2 FD ts met fb bb GG. destruct fp_facts as (F1 & F2 & F3 & F4 & F5 & F6 & F7). assert (X1 : 0 <= fp <= ep) by lia.
  destruct (fix_top (fopts o (o_gap o) 0 (o_nonterms o - size matching + 1) true true false) sp (links p) ns nt fp ep (-1) (-1) DS DT X1 F3) as (r' & E' & R & _).
  rewrite E in E'. injection E' as <-.
  destruct (R FD) as [(C & A1 & A2 & A3 & A4 & A5 & A6 & A7 & A8) _]. clear R. cbn [fopts allow_low_x allow_high_x max_rule_span max_new_x min_source_gap_size] in A5, A6, A7, A8.
  pose proof (fix_hull _ _ _ _ _ DS _ _ _ _ _ X1 F3 E FD) as HU.
  pose proof (get_gaps_ok (r_bl r) (r_bh r) A1 A2) as GS. cbv zeta in GS. fold fb bb in GS.
  destruct GS as [GS|(ts' & met' & GS & G2 & SY & TG & MT)]; rewrite GG in GS; [discriminate|]. injection GS as <- <-.
  destruct tight_check as (c2' & EC2' & TC). rewrite EC2 in EC2'. injection EC2' as <-. rewrite K2 in TC.
  assert (FB : fb = (r_bl r <? fp)) by (unfold fb; destruct (Z.eqb_spec (r_bl r) fp); destruct (Z.ltb_spec (r_bl r) fp); try lia; auto).
  assert (BB : bb = (ep <? r_bh r)) by (unfold bb; destruct (Z.eqb_spec (r_bh r) ep); destruct (Z.ltb_spec ep (r_bh r)); try lia; auto).
  assert (BS : based fb bb (r_bl r) (r_bh r) ts).
  { split; [lia|lia|auto|auto| | |auto|].
    - intros Q. rewrite Q in FB. symmetry in FB. apply Z.ltb_lt in FB. apply A6. auto.
    - intros Q. rewrite Q in BB. symmetry in BB. apply Z.ltb_lt in BB. apply A7. auto.
    - intros T. destruct (TG T). split; [auto|]. split; [auto|]. apply TC; auto. }
  assert (RD : met = true -> ready fb bb (r_bl r) (r_bh r) (r_tl r) (r_th r) ts).
  { intros ME. destruct BS. split; auto.
    - fold fp. destruct fb; [|symmetry in FB; apply Z.ltb_ge in FB; lia]. symmetry in FB. apply Z.ltb_lt in FB. lia.
    - fold ep. destruct bb; [|symmetry in BB; apply Z.ltb_ge in BB; lia]. symmetry in BB. apply Z.ltb_lt in BB. lia.
    - lia.
    - lia.
    - unfold sides in A8. destruct (Z.ltb_spec (r_bl r) fp); destruct (Z.ltb_spec ep (r_bh r)); cbn [b2z] in A8; try (apply A8; lia). lia.
    - unfold all_gaps. fold inner. rewrite !app_length. unfold sides in A8. rewrite <- FB, <- BB in A8. unfold front. destruct fb, bb; cbn [b2z length] in *; lia.
    - intros T. destruct (bs_tight0 T) as (TA & TB & TI). destruct (proj1 MT ME T) as [M1 M2]. split.
      + split; [destruct fb; [apply TA; auto|]|destruct bb; [apply TB; auto|]].
        * symmetry in FB. apply Z.ltb_ge in FB. replace (r_bl r) with fp by lia. apply M1. auto.
        * symmetry in BB. apply Z.ltb_ge in BB. replace (r_bh r) with ep by lia. apply M2. auto.
      + intros a b I. unfold all_gaps in I. fold fp ep inner in I. apply in_app_or in I. destruct I as [I|I]; [|apply in_app_or in I; destruct I as [I|I]; [apply TI; auto|]].
        * unfold front in I. destruct fb; [|destruct I]. destruct I as [I|[]]. injection I as <- <-. apply TA. auto.
        * unfold front in I. destruct bb; [|destruct I]. destruct I as [I|[]]. injection I as <- <-. apply TB. auto. }
  split; [auto|].
  assert (BASE : exists e0, (if met then AddExtracts o p sp (Extend phrase fb bb) (GetSourceIndexes start occ fb) ts (r_tl r) (r_th r) else Some []) = Some e0 /\ batch (Extend phrase fb bb) e0).
  { destruct met; [|exists []; split; [auto|apply batch_nil]]. apply add_batch with (sl := r_bl r) (sh := r_bh r). auto. }
  destruct BASE as (e0 & E0 & B0). exists e0.
  pose proof (start_eq _ _ _ EC1 EC2 E) as START. rewrite K1, K2, FD in START. cbn [negb] in START.
  destruct (orb (o_nonterms o <=? Z.of_nat (length (all_gaps start occ fb bb (r_bl r) (r_bh r)))) (orb (o_symbols o <=? size (Extend phrase fb bb)) (o_span o <? r_bh r - r_bl r + o_gap o))) eqn:QQ.
  - exists [], [], []. rewrite !app_nil_r. split; [auto|]. split; [auto|]. split; [apply grown_nil|].
    intros f. rewrite START, GG. cbn [bind]. cbv zeta. fold fb bb. rewrite E0. cbn [bind]. rewrite QQ. reflexivity.
  - destruct (ext_ok _ _ _ _ _ false true BS) as (e1 & E1 & B1). destruct (ext_ok _ _ _ _ _ true false BS) as (e2 & E2 & B2). destruct (ext_ok _ _ _ _ _ true true BS) as (e3 & E3 & B3).
    exists e1, e2, e3. rewrite orb_false_r, orb_true_r in B1, B2. rewrite !orb_true_r in B3. split; [auto|]. split; [auto|]. split.
    2:{ intros f. rewrite START, GG. cbn [bind]. cbv zeta. fold fb bb. rewrite E0. cbn [bind]. rewrite QQ. rewrite E1. cbn [bind]. rewrite E2. cbn [bind]. rewrite E3. reflexivity. }
    split; [auto|]. split; [auto|]. split; [auto|].
      assert (NX : forall left f, bb = true -> AddNonterminalExtremities o p sp (Some f) start occ (Extend phrase fb bb) (r_bl r) (r_bh r) ts fb bb left true = Some []).
      { intros left f Q. unfold AddNonterminalExtremities. match goal with |- bind ?A _ = _ => destruct A as [[|]|] eqn:LO end; cbn [bind]; [auto| |].
        - match goal with |- bind ?A _ = _ => destruct A as [[|]|] eqn:LX end; cbn [bind]; [unfold right_x; rewrite Q; reflexivity|auto|].
          exfalso. destruct left; [|discriminate]. destruct (left_x_ok (r_bl r) fb) as [K|(x & K & _)]; [lia| |]; rewrite K in LX; discriminate.
        - exfalso. destruct (o_tight o); [|discriminate]. destruct (peek_some f (r_bl r - b2z left)) as (a & Ka). rewrite Ka in LO. cbn [bind] in LO. destruct (a =? -1); [discriminate|].
          destruct (peek_some f (r_bh r + b2z true - 1)) as (b & Kb). rewrite Kb in LO. discriminate. }
      assert (NY : forall right f, fb = true -> AddNonterminalExtremities o p sp (Some f) start occ (Extend phrase fb bb) (r_bl r) (r_bh r) ts fb bb true right = Some []).
      { intros right f Q. unfold AddNonterminalExtremities. match goal with |- bind ?A _ = _ => destruct A as [[|]|] eqn:LO end; cbn [bind]; [auto| |].
        - unfold left_x. rewrite Q. reflexivity.
        - exfalso. destruct (o_tight o); [|discriminate]. destruct (peek_some f (r_bl r - b2z true)) as (a & Ka). rewrite Ka in LO. cbn [bind] in LO. destruct (a =? -1); [discriminate|].
          destruct (peek_some f (r_bh r + b2z right - 1)) as (b & Kb). rewrite Kb in LO. discriminate. }
      split; intros Q; split.
      * specialize (E1 (fun _ => 0)). rewrite NX in E1 by auto. congruence.
      * specialize (E3 (fun _ => 0)). rewrite NX in E3 by auto. congruence.
      * specialize (E2 (fun _ => 0)). rewrite NY in E2 by auto. congruence.
      * specialize (E3 (fun _ => 0)). rewrite NY in E3 by auto. congruence.
Qed.
(** all extracts, in four groups *)
Lemma extract_ok : exists b1 b2 e0 e1 e2 e3,
  (forall f, extract_alignments o p sp (Some f) start phrase matching = Some (e0 ++ e1 ++ e2 ++ e3)) /\
  batch (Extend phrase b1 b2) e0 /\ grown b1 b2 e1 e2 e3 /\ (e0 ++ e1 ++ e2 ++ e3 <> [] -> terminals_ok).
Proof.
  assert (NIL : (forall f, extract_alignments o p sp (Some f) start phrase matching = Some []) -> exists b1 b2 e0 e1 e2 e3,
    (forall f, extract_alignments o p sp (Some f) start phrase matching = Some (e0 ++ e1 ++ e2 ++ e3)) /\
    batch (Extend phrase b1 b2) e0 /\ grown b1 b2 e1 e2 e3 /\ (e0 ++ e1 ++ e2 ++ e3 <> [] -> terminals_ok)).
  { intros E. exists false, false, [], [], [], []. cbn [app]. split; [auto|]. split; [apply batch_nil|]. split; [apply grown_nil|]. congruence. }
  destruct fp_facts as (F1 & F2 & F3 & F4 & F5 & F6 & F7).
  destruct terminals_check as (c1 & EC1 & TE). destruct tight_check as (c2 & EC2 & TC).
  assert (X1 : 0 <= fp <= ep) by lia.
  destruct (fix_top (fopts o (o_gap o) 0 (o_nonterms o - size matching + 1) true true false) sp (links p) ns nt fp ep (-1) (-1) DS DT X1 F3) as (r & E & R & _).
  pose proof (start_eq _ _ _ EC1 EC2 E) as START.
  destruct c1; cbn [negb] in START; [|apply NIL; auto]. destruct c2; cbn [negb] in START; [|apply NIL; auto].
  destruct (found r) eqn:FD; cbn [negb] in START; [|apply NIL; auto].
  destruct (R eq_refl) as [(C & A1 & A2 & _) _].
  pose proof (get_gaps_ok (r_bl r) (r_bh r) A1 A2) as GG. cbv zeta in GG.
  destruct GG as [GG|(ts & met & GG & _)]; [apply NIL; intros f; rewrite START, GG; reflexivity|].
  destruct (found_ok r true true E EC1 EC2 eq_refl eq_refl FD ts met GG) as (_ & e0 & e1 & e2 & e3 & _ & B0 & B1 & EQ).
  eexists _, _, e0, e1, e2, e3. split; [exact EQ|]. split; [exact B0|]. split; [exact B1|]. intros _. apply TE. auto.
Qed.

(** * The rules whose source side is the occurrence *)
Lemma holes_from : forall chunks matching', length matching' = length chunks -> holes start chunks matching' = inner_gaps start (combine matching' (map size chunks)).
Proof.
  induction chunks as [|c cs IH]; intros [|m r] L; try discriminate; [auto|]. cbn [holes map combine]. injection L as L.
  destruct r as [|m' r']; [destruct cs; [reflexivity|discriminate]|]. rewrite IH by auto. destruct cs as [|c' cs']; [discriminate|]. reflexivity.
Qed.
Lemma holes_inner : holes start (chunks_of phrase) matching = inner.
Proof. apply holes_from. destruct OC. auto. Qed.
Lemma terminals_same : aligned_terminals o p start phrase matching <-> terminals_ok.
Proof.
  unfold aligned_terminals, terminals_ok, chunk_has, aligned. split; intros H T; destruct (H T) as [H1 H2]; clear H; split.
  - destruct H1 as (s & t & Cv & L). apply covered_occ in Cv. destruct Cv as (m & len & I & B). exists (m, len). split; [auto|]. exists s. cbn [fst snd]. eauto.
  - intros K [m len] I. unfold occ, occ_of in I. destruct (in_combine_nth _ _ _ _ _ _ I) as (i & E1 & E2). rewrite nth_error_map in E2.
    destruct (nth_error (chunks_of phrase) i) as [c|] eqn:E3; [|discriminate]. injection E2 as <-. destruct (H2 K i m c E1 E3) as (s & t & B & L). exists s. cbn [fst snd]. eauto.
  - destruct H1 as ([m len] & I & s & B & t & L). exists s, t. split; [|auto]. apply covered_occ. exists m, len. auto.
  - intros K i m c E1 E2. destruct (H2 K (m, size c)) as (s & B & t & L); [|exists s, t; auto]. unfold occ, occ_of. clear - E1 E2.
    revert matching i E1 E2. induction (chunks_of phrase) as [|x l IH]; intros [|y mt] [|i] E1 E2; try discriminate; cbn [map combine].
    + injection E1 as ->. injection E2 as ->. left. auto.
    + right. eapply IH; eauto.
Qed.
Lemma plain_span i : plain o p start phrase matching i -> i_sl i = fp /\ i_sh i = ep /\ i_source i = inner.
Proof.
  intros (C & (A & _) & S & _). rewrite holes_inner in S. destruct fp_facts as (F1 & F2 & F3 & F4 & F5 & F6 & F7).
  destruct (laid_facts _ _ _ _ LD) as (_ & _ & _ & _ & CV & _ & O1 & O2). fold fp ep inner in CV, O1, O2.
  assert (Z1 : forall pos, in_occ start occ pos <-> i_sl i <= pos < i_sh i /\ ~ in_gap inner pos) by (intros; rewrite <- covered_occ, A, S; tauto).
  pose proof (proj1 (Z1 _) O1) as [P1 N1]. pose proof (proj1 (Z1 _) O2) as [P2 N2].
  assert (G : forall pos, in_gap inner pos -> fp < pos < ep - 1 \/ fp < pos < ep) by (intros pos (a & b & I & B); apply F7 in I; lia).
  split; [|split; [|auto]].
  - destruct (Z_lt_dec (i_sl i) fp); [|lia]. exfalso. assert (~ in_gap inner (i_sl i)) by (intros Q; apply G in Q; lia). assert (in_occ start occ (i_sl i)) by (apply Z1; split; [lia|auto]). apply CV in H0. lia.
  - destruct (Z_lt_dec ep (i_sh i)); [|lia]. exfalso. assert (~ in_gap inner (i_sh i - 1)) by (intros Q; apply G in Q; lia). assert (in_occ start occ (i_sh i - 1)) by (apply Z1; split; [lia|auto]). apply CV in H0. lia.
Qed.
Lemma order_2 a b : GetGapOrder [a; b] = Some (if gap_lt a b then [0; 1] else [1; 0]).
Proof. cbv -[gap_lt]. destruct (gap_lt a b); reflexivity. Qed.
Lemma gap_loosened g t c : gap_ok p g t -> closed (links p) (fst g) (snd g) (fst c) (snd c) -> fst g <= snd g ->
  (o_tight o = true -> tight_target p (fst c) (snd c)) -> fst c < snd c -> loosened o p t c.
Proof.
  intros (C & L & (s1 & L1) & (s2 & L2)) D LG T LC. pose proof (proj2 (C _ _ L1) ltac:(lia)) as Q1. pose proof (proj2 (C _ _ L2) ltac:(lia)) as Q2.
  pose proof (proj1 (D _ _ L1) Q1) as Q3. pose proof (proj1 (D _ _ L2) Q2) as Q4. split; [lia|]. split; [lia|]. split; [|split].
  - intros s t' B K. pose proof (proj2 (D _ _ K) ltac:(lia)) as Q. pose proof (proj1 (C _ _ K) Q). lia.
  - intros s t' B K. pose proof (proj2 (D _ _ K) ltac:(lia)) as Q. pose proof (proj1 (C _ _ K) Q). lia.
  - intros TT. destruct (T TT) as [(s3 & L3) (s4 & L4)]. pose proof (proj2 (D _ _ L3) ltac:(lia)) as Q5. pose proof (proj2 (D _ _ L4) ltac:(lia)) as Q6.
    pose proof (proj1 (C _ _ L3) Q5). pose proof (proj1 (C _ _ L4) Q6). destruct c, t. cbn [fst snd] in *. f_equal; lia.
Qed.
Lemma numbers_in k n : In k (numbers n) <-> 1 <= k <= Z.of_nat n.
Proof. unfold numbers. rewrite in_map_iff. split; [intros (x & <- & I); apply in_seq in I; lia|]. intros H. exists (Z.to_nat k). split; [lia|]. apply in_seq. lia. Qed.
(** a plain rule is among the choices *)
Lemma plain_choice i ts : plain o p start phrase matching i -> (length matching <= 3)%nat -> Forall2 (gap_ok p) inner ts ->
  forall lo hi order, closed (links p) fp ep lo hi -> tight_target p lo hi -> lo < hi -> GetGapOrder ts = Some order ->
  exists c, loose_choice o p lo hi ts order c /\ narrow o c = true /\ inst_of fp ep inner order c = i.
Proof.
  intros PL LM GS lo hi order CL (HL & HH) LH GO. destruct (plain_span i PL) as (E1 & E2 & E3). destruct fp_facts as (F1 & F2 & F3 & F4 & F5 & F6 & F7).
  destruct PL as (CO & _ & _ & WI & TI & _ & _). destruct CO as (C1 & C2 & C3 & C4 & C5 & C6 & C7 & C8 & C9).
  rewrite E1, E2 in C5. rewrite E3 in C8, C9.
  assert (SP : loosened o p (lo, hi) (i_tl i, i_th i)).
  { apply (gap_loosened (fp, ep)); cbn [fst snd]; [split; [exact CL|split; [auto|split; auto]]|auto|lia|intros T; exact (proj1 (proj2 (TI T)))|].
    destruct HL as (s & L). pose proof (proj2 (CL _ _ L) ltac:(lia)) as Q. pose proof (proj1 (C5 _ _ L) Q). lia. }
  assert (EACH : forall k c, In (k, c) (i_target i) -> 0 <= k - 1 < Z.of_nat (length inner) /\ exists g, nth_error ts (Z.to_nat (k - 1)) = Some g /\ loosened o p g c).
  { intros k [c d] I. assert (K : In k (map fst (i_target i))) by (apply in_map_iff; exists (k, (c, d)); auto).
    apply (Permutation_in _ C8), numbers_in in K. split; [lia|].
    destruct (nth_error inner (Z.to_nat (k - 1))) as [[a b]|] eqn:EI; [|apply nth_error_None in EI; lia].
    destruct (forall2_nth _ _ _ _ _ GS _ _ EI) as (g & Eg & G). exists g. split; [auto|]. destruct (C9 k a b c d I EI) as [D _].
    apply (gap_loosened (a, b)); [auto|exact D| | |].
    - pose proof (nth_error_In _ _ EI) as II. pose proof (ordered_in _ _ _ _ _ F4 II). cbn. lia.
    - intros T. apply (TI T). unfold target_gaps. apply in_map_iff. exists (k, (c, d)). auto.
    - assert (II : In (c, d) (target_gaps i)) by (unfold target_gaps; apply in_map_iff; exists (k, (c, d)); auto). pose proof (ordered_in _ _ _ _ _ C7 II). cbn. lia. }
  assert (OE : map (fun k => k + 1) order = map fst (i_target i)).
  { pose proof (Permutation_length C8) as PLn. unfold numbers in PLn. rewrite !map_length, seq_length in PLn. pose proof (forall2_len _ _ _ _ _ GS) as LT.
    assert (LI : (length inner <= 2)%nat) by (unfold size in F5; lia).
    destruct ts as [|t1 [|t2 [|t3 tr]]]; cbn [length] in LT.
    - injection GO as <-. destruct (i_target i); [auto|]. cbn [length] in PLn. lia.
    - injection GO as <-. rewrite LT in C8. change (numbers 1) with [1] in C8. apply Permutation_sym, Permutation_length_1_inv in C8. rewrite C8. reflexivity.
    - rewrite order_2 in GO. rewrite LT in C8. change (numbers 2) with [1; 2] in C8. apply Permutation_sym, Permutation_length_2_inv in C8.
      destruct (i_target i) as [|[k1 [c1 d1]] [|[k2 [c2 d2]] [|? ?]]] eqn:ET; try (cbn [length] in PLn; lia).
      unfold target_gaps in C7. rewrite ET in C7. cbn [map snd ordered fst] in C7, C8 |- *.
      destruct (EACH k1 (c1, d1) (or_introl eq_refl)) as (_ & g1 & G1 & (L1 & L2 & _)). destruct (EACH k2 (c2, d2) (or_intror (or_introl eq_refl))) as (_ & g2 & G2 & (L3 & L4 & _)).
      inversion GS as [|x0 x1 x2 x3 (_ & W1 & _) GS' Q1 Q2]; subst. inversion GS' as [|y0 y1 y2 y3 (_ & W2 & _) _ Q3 Q4]; subst. cbn [fst snd] in *.
      destruct C8 as [C8|C8]; injection C8 as -> ->; cbn [Z.sub Z.opp Z.add Z.pos_sub Pos.pred_double Z.to_nat Pos.to_nat Pos.iter_op Nat.add nth_error Init.Nat.add] in G1, G2.
      + change (Some t1 = Some g1) in G1. change (Some t2 = Some g2) in G2. injection G1 as ->. injection G2 as ->. unfold gap_lt in GO. destruct (Z.ltb_spec (fst g1) (fst g2)); [|lia]. cbn [orb] in GO. injection GO as <-. reflexivity.
      + change (Some t2 = Some g1) in G1. change (Some t1 = Some g2) in G2. injection G1 as ->. injection G2 as ->. unfold gap_lt in GO. destruct (Z.ltb_spec (fst g2) (fst g1)); [lia|]. destruct (Z.eqb_spec (fst g2) (fst g1)); [lia|]. cbn [orb andb] in GO. injection GO as <-. reflexivity.
    - lia. }
  assert (FO : Forall2 (fun j c => exists g, nth_error ts (Z.to_nat j) = Some g /\ loosened o p g c) order (target_gaps i)).
  { unfold target_gaps. clear - EACH OE. revert order OE. induction (i_target i) as [|[k c] r IH]; intros [|j order] OE; try discriminate; [constructor|]. cbn [map fst snd] in *. injection OE as OE1 OE2.
    constructor; [|apply IH; auto; intros; apply EACH; right; auto]. destruct (EACH k c (or_introl eq_refl)) as (_ & g & Eg & Lg). exists g. rewrite <- OE1, Z.add_simpl_r in Eg. auto. }
  destruct SP as (S1 & S2 & S3 & S4 & S5). cbn [fst snd] in *.
  exists (i_tl i, target_gaps i, i_th i). split; [|split].
  - split; [lia|]. split; [auto|]. split; [unfold nt in *; lia|]. split; [auto|]. split; [intros T; specialize (S5 T); injection S5; auto|]. split; [auto|]. exact FO.
  - apply Z.leb_le. auto.
  - cbn [inst_of]. unfold target_of. rewrite OE. unfold target_gaps. rewrite <- E1, <- E2, <- E3.
    assert (X : forall (A B : Type) (l : list (A * B)), combine (map fst l) (map snd l) = l) by (intros A B; induction l as [|[x y] l IH]; cbn; [auto|rewrite IH; auto]).
    rewrite X. destruct i; reflexivity.
Qed.
Lemma gaps_exact : exists met, GetGaps o p sp start occ fp ep fp ep (size phrase) =
    (t <- gap_fixes o p sp inner ;; Some (match t with None => None | Some hs => Some (all_gaps start occ false false fp ep, hs, met) end)).
Proof.
  destruct fp_facts as (F1 & F2 & F3 & _). unfold GetGaps. rewrite !Z.ltb_irrefl. unfold all_gaps. fold inner. cbn [front app]. rewrite app_nil_r. destruct (o_tight o).
  - destruct (low_get fp) as (l & -> & _); [lia|]. cbn [bind]. destruct (low_get (ep - 1)) as (l' & -> & _); [lia|]. cbn [bind]. eexists. rewrite app_nil_r. reflexivity.
  - cbn [bind]. eexists. rewrite app_nil_r. reflexivity.
Qed.
Lemma batch_longer b1 b2 es : orb b1 b2 = true -> batch (Extend phrase b1 b2) es -> Forall (fun e => (length phrase < length (e_source e))%nat) es.
Proof.
  intros B [_ S _ _]. eapply Forall_impl; [|exact S]. cbv beta. intros e ->. pose proof (extend_size phrase b1 b2) as Z. unfold size in Z. destruct b1, b2; try discriminate; cbn [b2z] in Z; lia.
Qed.
Definition same_length (e : extract) : bool := Nat.eqb (length (e_source e)) (length phrase).
Lemma filter_longer es : Forall (fun e => (length phrase < length (e_source e))%nat) es -> filter same_length es = [].
Proof. induction 1 as [|e es H F IH]; [auto|]. cbn [filter]. unfold same_length at 1. destruct (Nat.eqb_spec (length (e_source e)) (length phrase)); [lia|auto]. Qed.
Lemma filter_same es : Forall (fun e => e_source e = Extend phrase false false) es -> filter same_length es = es.
Proof.
  induction 1 as [|e es H F IH]; [auto|]. cbn [filter]. unfold same_length at 1. rewrite H. pose proof (extend_size phrase false false) as Z. unfold size in Z. cbn [b2z] in Z.
  destruct (Nat.eqb_spec (length (Extend phrase false false)) (length phrase)); [rewrite IH; auto|lia].
Qed.
Lemma extract_exact : (length matching <= 3)%nat -> exists es insts,
  (forall f, extract_alignments o p sp (Some f) start phrase matching = Some es) /\ NoDup insts /\
  (forall i, In i insts <-> plain o p start phrase matching i) /\
  Forall2 (reads p) insts (filter same_length es) /\
  Forall (fun e => e_count e = / inject_Z (Z.of_nat (length insts)))%Q (filter same_length es).
Proof.
  intros LM. destruct fp_facts as (F1 & F2 & F3 & F4 & F5 & F6 & F7).
  assert (NONE : forall es, (forall f, extract_alignments o p sp (Some f) start phrase matching = Some es) -> filter same_length es = [] ->
    (forall i, ~ plain o p start phrase matching i) -> exists es insts,
    (forall f, extract_alignments o p sp (Some f) start phrase matching = Some es) /\ NoDup insts /\
    (forall i, In i insts <-> plain o p start phrase matching i) /\
    Forall2 (reads p) insts (filter same_length es) /\
    Forall (fun e => e_count e = / inject_Z (Z.of_nat (length insts)))%Q (filter same_length es)).
  { intros es E Q N. exists es, []. rewrite Q. split; [auto|]. split; [constructor|]. split; [|split; constructor]. intros i. split; [intros []|intros K; exact (N i K)]. }
  destruct terminals_check as (c1 & EC1 & TE). destruct tight_check as (c2 & EC2 & TC).
  assert (X1 : 0 <= fp <= ep) by lia.
  destruct (fix_top (fopts o (o_gap o) 0 (o_nonterms o - size matching + 1) true true false) sp (links p) ns nt fp ep (-1) (-1) DS DT X1 F3) as (r & E & R & _).
  pose proof (start_eq _ _ _ EC1 EC2 E) as START.
  assert (HERE : forall i, plain o p start phrase matching i -> found r = true /\ r_bl r = fp /\ r_bh r = ep).
  { intros i PL. destruct (plain_span i PL) as (E1 & E2 & E3). destruct PL as (CO & _ & _ & WI & _ & LK & _). destruct CO as (_ & _ & _ & _ & C5 & _). rewrite E1, E2 in *.
    destruct (fix_here (fopts o (o_gap o) 0 (o_nonterms o - size matching + 1) true true false) sp (links p) ns nt DS DT fp ep (-1) (-1) (i_tl i) (i_th i)) as (r' & E' & G & G1 & G2 & _); auto.
    rewrite E in E'. injection E' as <-. auto. }
  destruct c1; cbn [negb] in START.
  2:{ apply (NONE [] START eq_refl). intros i PL. destruct PL as (_ & _ & _ & _ & _ & _ & AT). apply terminals_same, TE in AT. discriminate. }
  destruct c2; cbn [negb] in START.
  2:{ apply (NONE [] START eq_refl). intros i PL. destruct (plain_span i PL) as (_ & _ & E3). destruct PL as (_ & _ & _ & _ & TI & _). assert (X : false = true); [|discriminate].
      apply TC. intros T x y I. rewrite <- E3 in I. destruct (TI T) as (_ & _ & TS & _). apply TS in I. exact I. }
  destruct (found r) eqn:FD; cbn [negb] in START; [|apply (NONE [] START eq_refl); intros i PL; destruct (HERE i PL); discriminate].
  destruct (R eq_refl) as [(C & A1 & A2 & A3 & A4 & _) _].
  pose proof (fix_hull _ _ _ _ _ DS _ _ _ _ _ X1 F3 E FD) as HU.
  pose proof (get_gaps_ok (r_bl r) (r_bh r) A1 A2) as GG. cbv zeta in GG.
  destruct GG as [GG|(ts & met & GG & GF & _ & _ & MT)].
  - apply (NONE []); [intros f; rewrite START, GG; reflexivity|auto|]. intros i PL. destruct (HERE i PL) as (_ & Q1 & Q2). rewrite Q1, Q2 in GG.
    destruct gaps_exact as (met & GE). rewrite GG in GE. destruct (plain_span i PL) as (E1 & E2 & E3). destruct PL as (CO & _ & _ & WI & _). destruct CO as (_ & _ & _ & _ & _ & _ & C7 & C8 & C9). rewrite E3 in C8, C9.
    assert (EXC : forall j a b, nth_error inner j = Some (a, b) -> exists c d, closed (links p) a b c d /\ (exists s t, In (s, t) (links p) /\ a <= s < b) /\ d - c <= o_span o).
    { intros j a b EJ. assert (J : (j < length inner)%nat) by (apply nth_error_Some; congruence).
      assert (K : In (Z.of_nat j + 1) (map fst (i_target i))) by (apply (Permutation_in _ (Permutation_sym C8)), numbers_in; lia).
      apply in_map_iff in K. destruct K as ([k [c d]] & Ek & I). cbn [fst] in Ek. subst k. exists c, d.
      destruct (C9 (Z.of_nat j + 1) a b c d I) as (D & s & t & L & B & _); [rewrite Z.add_simpl_r, Nat2Z.id; auto|]. split; [auto|]. split; [exists s, t; auto|].
      assert (II : In (c, d) (target_gaps i)) by (unfold target_gaps; apply in_map_iff; exists (Z.of_nat j + 1, (c, d)); auto). pose proof (ordered_in _ _ _ _ _ C7 II). lia. }
    assert (CS : exists cs, Forall2 (fun g c => closed (links p) (fst g) (snd g) (fst c) (snd c) /\ (exists s t, In (s, t) (links p) /\ fst g <= s < snd g) /\ snd c - fst c <= o_span o) inner cs).
    { clear - EXC. induction inner as [|[a b] l IH]; [exists []; constructor|]. destruct (EXC O a b eq_refl) as (c & d & D). destruct IH as (cs & F); [intros j x y EJ; apply (EXC (Datatypes.S j)); auto|].
      exists ((c, d) :: cs). constructor; auto. }
    destruct CS as (cs & CS). destruct (gap_fixes_complete inner cs (proj1 inner_range) CS) as (ts & ET & _). rewrite ET in GE. cbn [bind] in GE. discriminate.
  - destruct (found_ok r true true E EC1 EC2 eq_refl eq_refl FD ts met GG) as (RD & e0 & e1 & e2 & e3 & E0 & B0 & (B1 & B2 & B3 & _ & _) & EQ).
    pose proof (filter_longer e1 (batch_longer _ _ _ (orb_true_r _) B1)) as N1. pose proof (filter_longer e2 (batch_longer true _ _ eq_refl B2)) as N2. pose proof (filter_longer e3 (batch_longer true true _ eq_refl B3)) as N3.
    assert (FE : filter same_length (e0 ++ e1 ++ e2 ++ e3) = filter same_length e0) by (rewrite !filter_app, N1, N2, N3, !app_nil_r; auto).
    destruct (Z.eqb_spec (r_bl r) fp) as [Q1|Q1]; [|apply (NONE _ EQ); [rewrite FE; apply filter_longer; apply (batch_longer true (negb (r_bh r =? ep))); [auto|exact B0]|intros i PL; destruct (HERE i PL) as (_ & K & _); lia]].
    destruct (Z.eqb_spec (r_bh r) ep) as [Q2|Q2]; [|apply (NONE _ EQ); [rewrite FE; apply filter_longer; apply (batch_longer false true); [auto|exact B0]|intros i PL; destruct (HERE i PL) as (_ & _ & K); lia]].
    cbn [negb] in *. rewrite Q1, Q2 in *.
    assert (AI : all_gaps start occ false false fp ep = inner) by (unfold all_gaps; fold inner; cbn [front app]; rewrite app_nil_r; auto).
    rewrite AI in *.
    destruct met.
    + destruct (add_ok false false fp ep (r_tl r) (r_th r) ts (RD eq_refl)) as (order & choices & GO & GOr & ND & CH & EA & RL). rewrite AI in *. rewrite EA in E0. injection E0 as E0.
      exists (e0 ++ e1 ++ e2 ++ e3), (map (inst_of fp ep inner order) choices). split; [auto|]. rewrite FE. rewrite (filter_same e0 (ba_source _ _ B0)).
      assert (LC : forall c, In c choices -> length (map (fun k => k + 1) order) = length (snd (fst c))).
      { intros [[a0 gaps] e] I. apply CH in I. destruct I as [(_ & _ & _ & _ & _ & _ & F) _]. rewrite map_length. exact (forall2_len _ _ _ _ _ F). }
      assert (INJ : forall c c', In c choices -> In c' choices -> inst_of fp ep inner order c = inst_of fp ep inner order c' -> c = c').
      { intros c c' I I' K. pose proof (LC _ I) as L1. pose proof (LC _ I') as L2. destruct c as [[a g] e], c' as [[a' g'] e']. cbn [inst_of fst snd] in *. injection K as <- <- K.
        apply (f_equal (map snd)) in K. unfold target_of in K. rewrite !map_snd_combine in K by auto. subst. auto. }
      assert (NM : forall l, NoDup l -> (forall c, In c l -> In c choices) -> NoDup (map (inst_of fp ep inner order) l)).
      { induction 1 as [|c l N ND' IH]; intros SB; cbn [map]; constructor; [|apply IH; intros; apply SB; right; auto].
        intros K. apply in_map_iff in K. destruct K as (c' & K & I). apply N. apply INJ in K; [subst; auto|apply SB; right; auto|apply SB; left; auto]. }
      split; [apply NM; auto|]. split; [|split].
      * intros i. split.
        -- intros I. apply in_map_iff in I. destruct I as (c & <- & I). destruct (RL c I) as (X & Y & (Z & _ & _ & _ & W) & _). split; [auto|]. split; [auto|]. split; [|split; [auto|]; split; [auto|]; split].
           ++ rewrite holes_inner. destruct c as [[? ?] ?]. reflexivity.
           ++ destruct c as [[? ?] ?]. cbn [inst_of i_sl i_sh]. destruct (R eq_refl) as [_ K]. exact K.
           ++ apply terminals_same, TE. auto.
        -- intros PL. destruct (plain_choice i ts PL LM GF (r_tl r) (r_th r) order) as (c & LO & NA & <-); [rewrite <- Q1, <- Q2 at 1; rewrite Q1, Q2; auto|auto|lia|auto|].
           apply in_map. apply CH. auto.
      * rewrite <- E0. clear - RL. induction choices as [|c l IH]; [constructor|]. cbn [map]. constructor.
        -- destruct (RL c (or_introl eq_refl)) as (_ & _ & _ & RR). exact RR.
        -- assert (X : forall n, (forall c, In c l -> reads p (inst_of fp ep inner order c) (extract_of (Extend phrase false false) n (render p fp inner order c))) ->
              Forall2 (reads p) (map (inst_of fp ep inner order) l) (map (fun c => extract_of (Extend phrase false false) n (render p fp inner order c)) l)).
           { intros n. clear. induction l as [|c l IH]; intros H; [constructor|]. cbn [map]. constructor; [apply H; left; auto|apply IH; intros; apply H; right; auto]. }
           apply X. intros c' I. destruct (RL c' (or_intror I)) as (_ & _ & _ & RR). exact RR.
      * rewrite map_length. rewrite <- E0. apply Forall_map, Forall_forall. auto.
    + injection E0 as <-. apply (NONE _ EQ); [rewrite FE; auto|]. intros i PL. destruct (plain_span i PL) as (E1 & E2 & E3). destruct PL as (_ & _ & _ & _ & TI & _). assert (X : false = true); [|discriminate].
      apply MT. intros T. destruct (TI T) as ((TS1 & TS2) & _). rewrite E1, E2 in *. split; intros _; auto.
Qed.
End Top.
