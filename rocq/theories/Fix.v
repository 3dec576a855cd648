(** Model of extractor/rule_extractor_helper.cc: link spans, projections, the fix point
    of a source span under a word alignment, gap order and source indexes.  int is
    unbounded.  [None]: an access outside an array. *)
From Coq Require Import List ZArith Bool.
From Verif Require Import Opt.
Import ListNotations.
Open Scope Z_scope.
Open Scope opt_scope.

(** ** GetLinksSpans (30-52): source_low, source_high, target_low, target_high *)
Record spans := { s_low : list Z; s_high : list Z; t_low : list Z; t_high : list Z }.
(** 42-45: one side of one link *)
Definition widen (low high : list Z) (i v : Z) : option (list Z * list Z) :=
  l <- get low i ;;
  low' <- (if orb (l =? -1) (v <? l) then put low i v else Some low) ;;
  h <- get high i ;;
  high' <- put high i (Z.max h (v + 1)) ;;
  Some (low', high').
(** 42-50 *)
Definition add_link (link : Z * Z) (sp : spans) : option spans :=
  ' (sl, sh) <- widen (s_low sp) (s_high sp) (fst link) (snd link) ;;
  ' (tl, th) <- widen (t_low sp) (t_high sp) (snd link) (fst link) ;;
  Some {| s_low := sl; s_high := sh; t_low := tl; t_high := th |}.
Fixpoint add_links (links : list (Z * Z)) (sp : spans) : option spans :=
  match links with [] => Some sp | l :: r => sp' <- add_link l sp ;; add_links r sp' end.
Definition GetLinksSpans (ns nt : nat) (links : list (Z * Z)) : option spans :=
  add_links links {| s_low := repeat (-1) ns; s_high := repeat (-1) ns; t_low := repeat (-1) nt; t_high := repeat (-1) nt |}.

(** ** FindProjection (252-264); the bounds are converted to size_t (256): a negative
    lower bound above a non-negative upper bound makes the loop empty, a negative upper
    bound makes it run off the array. *)
Definition proj_step (low high : list Z) (i : Z) (p : Z * Z) : option (Z * Z) :=
  let '(tl, th) := p in
  l <- get low i ;;
  if l =? -1 then Some (tl, th)
  else h <- get high i ;; Some (if orb (tl =? -1) (l <? tl) then l else tl, Z.max th h).
Definition FindProjection (from to : Z) (low high : list Z) (tl th : Z) : option (Z * Z) :=
  if to <? 0 then (if andb (from <? 0) (to <=? from) then Some (tl, th) else None)
  else if from <? 0 then Some (tl, th)
  else for_up (Z.to_nat (to - from)) from (proj_step low high) (tl, th).

(** ** FindFixPoint (102-250) *)
Record fix_opts := {
  max_rule_span : Z; min_source_gap_size : Z; min_target_gap_size : Z; max_new_x : Z;
  allow_low_x : bool; allow_high_x : bool; allow_arbitrary_expansion : bool }.
(** The returned boolean and the four reference parameters. *)
Record fixed := { found : bool; r_tl : Z; r_th : Z; r_bl : Z; r_bh : Z }.
Definition b2z (b : bool) : Z := if b then 1 else 0.

Section FixPoint.
Variable o : fix_opts.
Variable sp : spans.
Variables ns nt : Z.   (* the sentence lengths *)
(** 158-247; [spl], [sph]: source_phrase_low/high, [tl], [th]: target_phrase_low/high,
    [bl], [bh]: source_back_low/high *)
Fixpoint fix_loop (fuel : nat) (spl sph tl th bl bh new_x : Z) (nlx nhx : bool) : option fixed :=
  match fuel with
  | O => None
  | S f =>
    let bl := Z.min bl spl in
    let bh := Z.max bh sph in
    let stop (b : bool) (bl bh tl th : Z) := Some {| found := b; r_tl := tl; r_th := th; r_bl := bl; r_bh := bh |} in
    if andb (bl =? spl) (bh =? sph) then stop true bl bh tl th
    else if andb (negb (allow_low_x o)) (bl <? spl) then stop false bl bh tl th
    else if andb (negb (allow_high_x o)) (sph <? bh) then stop false bl bh tl th
    else
    (* 178-192 *)
    let fail_low := andb (bl <? spl) (andb (negb nlx) (max_new_x o <=? new_x)) in
    if fail_low then stop false bl bh tl th
    else
    let new_x1 := if andb (bl <? spl) (negb nlx) then new_x + 1 else new_x in
    let nlx1 := orb nlx (bl <? spl) in
    let bl1 := if andb (bl <? spl) (spl - bl <? min_source_gap_size o) then spl - min_source_gap_size o else bl in
    if andb (bl <? spl) (bl1 <? 0) then stop false bl1 bh tl th
    else
    (* 195-209 *)
    let fail_high := andb (sph <? bh) (andb (negb nhx) (max_new_x o <=? new_x1)) in
    if fail_high then stop false bl1 bh tl th
    else
    let new_x2 := if andb (sph <? bh) (negb nhx) then new_x1 + 1 else new_x1 in
    let nhx1 := orb nhx (sph <? bh) in
    let bh1 := if andb (sph <? bh) (bh - sph <? min_source_gap_size o) then sph + min_source_gap_size o else bh in
    if andb (sph <? bh) (ns <? bh1) then stop false bl1 bh1 tl th
    else if max_rule_span o <? bh1 - bl1 then stop false bl1 bh1 tl th
    else
    ' (tl1, th1) <- FindProjection bl1 spl (s_low sp) (s_high sp) tl th ;;
    ' (tl2, th2) <- FindProjection sph bh1 (s_low sp) (s_high sp) tl1 th1 ;;
    if andb (tl =? tl2) (th =? th2) then stop true bl1 bh1 tl2 th2
    else if negb (allow_arbitrary_expansion o) then stop false bl1 bh1 tl2 th2
    else if max_rule_span o <? th2 - tl2 then stop false bl1 bh1 tl2 th2
    else
    ' (bl2, bh2) <- FindProjection tl2 tl (t_low sp) (t_high sp) bl1 bh1 ;;
    ' (bl3, bh3) <- FindProjection th th2 (t_low sp) (t_high sp) bl2 bh2 ;;
    fix_loop f bl1 bh1 tl2 th2 bl3 bh3 new_x2 nlx1 nhx1
  end.
(** 111-156; [ptl], [pth]: the target span passed in; [bl0], [bh0]: the reflected source span passed in *)
Definition FindFixPoint (spl sph ptl pth bl0 bh0 : Z) : option fixed :=
  let stop (b : bool) (bl bh tl th : Z) := Some {| found := b; r_tl := tl; r_th := th; r_bl := bl; r_bh := bh |} in
  ' (tl, th) <- FindProjection spl sph (s_low sp) (s_high sp) ptl pth ;;
  if tl =? -1 then stop false bl0 bh0 tl th
  else
  let short_low := andb (andb (negb (ptl =? -1)) (negb (tl =? ptl))) (ptl - tl <? min_target_gap_size o) in
  let tl1 := if short_low then ptl - min_target_gap_size o else tl in
  if andb short_low (tl1 <? 0) then stop false bl0 bh0 tl1 th
  else
  let short_high := andb (andb (negb (pth =? -1)) (negb (th =? pth))) (th - pth <? min_target_gap_size o) in
  let th1 := if short_high then pth + min_target_gap_size o else th in
  if andb short_high (nt <? th1) then stop false bl0 bh0 tl1 th1
  else if max_rule_span o <? th1 - tl1 then stop false bl0 bh0 tl1 th1
  else
  ' (bl, bh) <- FindProjection tl1 th1 (t_low sp) (t_high sp) (-1) (-1) ;;
  fix_loop (Z.to_nat ns + 2) spl sph tl1 th1 bl bh 0 false false.
End FixPoint.

(** ** GetGapOrder (332-345); pairs compare lexicographically *)
Definition gap_lt (a b : Z * Z) : bool := orb (fst a <? fst b) (andb (fst a =? fst b) (snd a <? snd b)).
Definition get_gap (gaps : list (Z * Z)) (i : Z) : option (Z * Z) := if i <? 0 then None else nth_error gaps (Z.to_nat i).
Definition go_inner (gaps : list (Z * Z)) (i : Z) (j : Z) (ord : list Z) : option (list Z) :=
  oj <- get ord j ;; gj <- get_gap gaps oj ;; gi <- get_gap gaps i ;;
  if gap_lt gj gi then oi <- get ord i ;; put ord i (oi + 1) else put ord j (oj + 1).
Definition GetGapOrder (gaps : list (Z * Z)) : option (list Z) :=
  for_up (length gaps) 0 (fun i ord => for_up (Z.to_nat i) 0 (go_inner gaps i) ord) (repeat 0 (length gaps)).
