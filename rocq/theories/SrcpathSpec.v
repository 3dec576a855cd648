(** Texts of derivations. *)
From Coq Require Import List Arith ZArith Bool.
From Verif Require Import CfgSpec Srcpath.
Import ListNotations.
Local Open Scope nat_scope.

(** the source text: the variables, negative numbers, stand for the texts of the antecedents in order *)
Inductive fills : list Z -> list (list Z) -> list Z -> Prop :=
| fills_nil : fills [] [] []
| fills_word w f ps s : (0 < w)%Z -> fills f ps s -> fills (w :: f) ps (w :: s)
| fills_var v f p ps s : (v < 0)%Z -> fills f ps s -> fills (v :: f) (p :: ps) (p ++ s).
Inductive source : deriv -> list Z -> Prop :=
| src_node f e kids ps s : f <> [] -> Forall2 source kids ps -> fills f ps s -> source (Node f e kids) s.
(** the target text: every variable once, by number *)
Inductive target : deriv -> list Z -> Prop :=
| trg_node f e kids ps s : Forall2 target kids ps -> (forall m, m < length kids -> In m (vars e)) -> NoDup (vars e) -> numbered e ps = Some s -> target (Node f e kids) s.
Fixpoint neighbours (s : list Z) : list (Z * Z) := match s with a :: ((b :: _) as r) => (a, b) :: neighbours r | _ => [] end.
Definition is_SU (x : feat) : bool := match x with SU _ => true | SB _ _ => false end.
(** Variables come first, or stand for one word: the first symbol of every source side may stand for any text, the others for one word *)
Inductive front : deriv -> Prop :=
| front_word w f e kids : (0 < w)%Z -> Forall front kids -> Forall (fun k => exists x, source k [x]) kids -> front (Node (w :: f) e kids)
| front_var v f e k kids : (v < 0)%Z -> front k -> Forall front kids -> Forall (fun k => exists x, source k [x]) kids -> front (Node (v :: f) e (k :: kids)).

(** a byte which begins a character of UTF-8 of more than one byte *)
Definition lead (b : nat) : Prop := 192 <= b < 254.
(** the first byte which is not ASCII begins a character *)
Inductive readable : list nat -> Prop :=
| r_nil : readable []
| r_ascii b r : b < 128 -> readable r -> readable (b :: r)
| r_lead b r : lead b -> readable (b :: r).
Definition not_ascii (w : list nat) : bool := existsb (fun b => 128 <=? b) w.
