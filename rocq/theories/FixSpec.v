(** Word alignments and spans that are consistent with them. *)
From Coq Require Import List ZArith.
Import ListNotations.
Open Scope Z_scope.

(** No link leaves the pair of spans [sl, sh) and [tl, th). *)
Definition closed (links : list (Z * Z)) (sl sh tl th : Z) : Prop :=
  forall s t, In (s, t) links -> (sl <= s < sh <-> tl <= t < th).
Definition links_within (links : list (Z * Z)) (ns nt : Z) : Prop :=
  forall s t, In (s, t) links -> 0 <= s < ns /\ 0 <= t < nt.
(** How many sides of [sl, sh) the span [bl, bh) extends. *)
Definition sides (sl sh bl bh : Z) : Z := (if bl <? sl then 1 else 0) + (if sh <? bh then 1 else 0).

(** The gaps before g in the order of pairs. *)
Definition before (a b : Z * Z) : Prop := fst a < fst b \/ fst a = fst b /\ snd a < snd b.
Definition rank_of (gaps : list (Z * Z)) (i : nat) (r : nat) : Prop :=
  exists before_i : list nat, NoDup before_i /\ length before_i = r /\
    forall j, In j before_i <-> exists g h, nth_error gaps j = Some g /\ nth_error gaps i = Some h /\ before g h.
