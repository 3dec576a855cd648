(** What is to be shown of combinations of metrics. *)
From Coq Require Import Reals List.
Import ListNotations.
Local Open Scope R_scope.

(** The weighted sum of scores. *)
Fixpoint weighted (cs vs : list R) : R := match cs, vs with c :: cs', v :: vs' => c * v + weighted cs' vs' | _, _ => 0 end.
