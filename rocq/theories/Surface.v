(** Model of training/dpmert/error_surface.h 12-16, ces.cc and of
    LineOptimizer::LineOptimize, line_optimizer.cc 11-81.

    A double is a rational or an infinity, or not a number; rounding is not
    modelled.  The evaluator of a segment is the function [eval] from translations
    to statistics (Evaluate is const; C23 shows that the hidden counters of the
    BLEU evaluator do not matter).  metric->ComputeScore is [metric], None for not
    a number.  std::sort is a parameter. *)
From Coq Require Import List Arith QArith Bool.
From Verif Require Import HG Inside Mert Stats.
Import ListNotations.
Open Scope Q_scope.

(** error_surface.h 11-15 *)
Record eseg := { sx : ex; delta : stats }.

Section CES.
Context {P Y : Type}.
Variable g : hg P.
Variable traverse : edge P -> list Y -> Y.
Variable eqY : Y -> Y -> bool.
(** the empty translation, ces.cc 23 *)
Variable empty : Y.
Variable eval : Y -> stats.
(** ces.cc 28-84, minimize_segments being true (16); [prev] and [score] are
    prev_trans and prev_score *)
Fixpoint ces_loop (ienv : list pt) (prev : Y) (score : stats) : option (list eseg) :=
  match ienv with
  | [] => Some []
  | seg :: r =>
    match ConstructTranslation g traverse seg with
    | None => None
    | Some trans =>
      if eqY trans prev then ces_loop r prev score
      else
        let s := eval trans in
        let d := ss_minus s score in
        match ces_loop r trans s with
        | None => None
        | Some out => Some (if ss_zero d then out else {| sx := px seg; delta := d |} :: out)
        end
    end
  end.
(** ces.cc 18-89; the assertion (87) that there is a segment *)
Definition ComputeErrorSurface (srt : list pt -> list pt) (ve : hull) : option (list eseg) :=
  match ces_loop (segs srt ve) empty no_stats with
  | Some (s :: r) => Some (s :: r)
  | _ => None
  end.
End CES.

(** Doubles; None is not a number. *)
Definition dbl := option ex.
Definition xsub (a b : ex) : dbl :=
  match a, b with
  | Fin p, Fin q => Some (Fin (p - q))
  | Fin _, MInf => Some PInf | Fin _, PInf => Some MInf
  | MInf, MInf => None | MInf, _ => Some MInf
  | PInf, PInf => None | PInf, _ => Some PInf
  end.
Definition xadd (a b : ex) : dbl :=
  match a, b with
  | Fin p, Fin q => Some (Fin (p + q))
  | MInf, PInf => None | PInf, MInf => None
  | MInf, _ => Some MInf | _, MInf => Some MInf
  | PInf, _ => Some PInf | _, PInf => Some PInf
  end.
Definition xhalf (a : ex) : ex := match a with Fin p => Fin (p / 2) | _ => a end.
Definition dgt (a : dbl) (e : Q) : bool := match a with Some a => ltx (Fin e) a | None => false end.

Section LO.
Variable xsort : list eseg -> list eseg.
Variable metric : stats -> option Q.
(** type == MAXIMIZE_SCORE *)
Variable maximize : bool.
(** numeric_limits<float>::max() *)
Variable fmax : Q.
Variable epsilon : Q.
(** line_optimizer.cc 47-48 *)
Definition improves (sco : option Q) (best : Q) : bool :=
  match sco with Some s => if maximize then Qltb best s else Qltb s best | None => false end.
Record lo := { last : ex; acc : stats; best : Q; left_edge : bool; pos : dbl }.
(** line_optimizer.cc 44-69 *)
Definition lo_step (st : lo) (seg : eseg) : lo :=
  let st' :=
    if dgt (xsub (sx seg) (last st)) epsilon then
      let sco := metric (acc st) in
      if improves sco (best st) then
        {| last := sx seg; acc := acc st; best := match sco with Some s => s | None => best st end;
           left_edge := false;
           pos := if left_edge st then xsub (sx seg) (Fin (1 # 10))
                  else match xsub (sx seg) (last st) with Some d => xadd (last st) (xhalf d) | None => None end |}
      else {| last := sx seg; acc := acc st; best := best st; left_edge := left_edge st; pos := pos st |}
    else st in
  {| last := last st'; acc := ss_plus (acc st') (delta seg); best := best st'; left_edge := left_edge st'; pos := pos st' |}.
(** line_optimizer.cc 70-80 *)
Definition lo_end (st : lo) : dbl * Q :=
  let sco := metric (acc st) in
  if improves sco (best st) then
    ((if left_edge st then Some (Fin 0) else xadd (last st) (Fin 1000)), match sco with Some s => s | None => best st end)
  else (pos st, best st).
(** line_optimizer.cc 20-81: the position returned and *best_score; front() of an
    empty vector (35) is [None] *)
Definition LineOptimize (surfaces : list (list eseg)) : option (dbl * Q) :=
  let all_ints := xsort (concat surfaces) in
  match all_ints with
  | [] => None
  | s :: _ =>
    Some (lo_end (fold_left lo_step all_ints
      {| last := sx s; acc := no_stats; best := if maximize then - fmax else fmax; left_edge := true; pos := None |}))
  end.
End LO.

(** mr_dpmert_map.cc 98-102: the surface of one sentence, from the hull of the
    last node (inside_outside.h 54; a hypergraph without nodes has an empty hull,
    and the assertion of ces.cc 87 fails). *)
Definition sentence_surface {P Y : Type} (srt : list pt -> list pt) (dir ori : edge P -> Q) (traverse : edge P -> list Y -> Y) (eqY : Y -> Y -> bool) (empty : Y)
  (g : hg P) (eval : Y -> stats) : option (list eseg) :=
  match Inside zero (plus srt) (times srt) (edge_hull dir ori) g with
  | None => None
  | Some sc => ComputeErrorSurface g traverse eqY empty eval srt (match rev sc with h :: _ => h | [] => zero end)
  end.
