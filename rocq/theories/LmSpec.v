(** What a back-off language model and the language model feature are expected to
    compute, stated without the code's states and pointers. *)
From Coq Require Import List ZArith Bool Permutation.
Import ListNotations.
From Verif Require Import Opt Lm.
Open Scope opt_scope.
Open Scope Z_scope.

Section Spec.
Variable m : search.

(** The entry of an n-gram (newest word first), whatever its order.  N-grams of the
    highest order have no back-off weight. *)
Definition entry (g : ngram) : option weights :=
  match g with
  | [] => None
  | [w] => Some (unigram m w)
  | _ => if Nat.ltb (length g) (order m) then middle m (length g - 2) g
         else if Nat.eqb (length g) (order m) then option_map (fun p => Wt p false 0 false p) (longest m g)
         else None
  end.

Definition bow (g : ngram) : Z := match entry g with Some w => backoff w | None => 0 end.

(** Katz back-off: the log probability of [w] after the history [h] (newest word first),
    looking at no more than [n] words of it. *)
Fixpoint katz (n : nat) (w : word) (h : list word) : Z :=
  match n with
  | O => prob (unigram m w)
  | S n' =>
    if Nat.ltb (length h) n then katz n' w h
    else match entry (w :: firstn n h) with
         | Some e => prob e
         | None => bow (firstn n h) + katz n' w h
         end
  end.
Definition logprob (w : word) (h : list word) : Z := katz (order m - 1) w h.

(** The words [ws], in reading order, after the history [h]. *)
Fixpoint seq_score (h : list word) (ws : list word) : Z :=
  match ws with [] => 0 | w :: ws' => logprob w h + seq_score (w :: h) ws' end.

(** A properly built model: every n-gram's lower-order n-gram (drop the oldest word) is
    there and is marked as extending to the left; every n-gram's context (drop the newest
    word) is there and is marked as having an extension; an n-gram without that mark has
    no back-off weight. *)
Record well_built : Prop := {
  wb_order : (2 <= order m <= max_order m)%nat;
  wb_left : forall g x w, g <> [] -> entry (g ++ [x]) = Some w -> exists v, entry g = Some v /\ ext_left v = true;
  wb_right : forall x g w, g <> [] -> entry (x :: g) = Some w -> exists v, entry g = Some v /\ has_ext v = true;
  wb_zero : forall g w, entry g = Some w -> has_ext w = false -> backoff w = 0 }.

(** The state that stands for a history: its longest part that some longer n-gram
    continues or that has a back-off weight, with the back-off weights of its prefixes. *)
Definition useful (g : ngram) : Prop := exists w, entry g = Some w /\ has_ext w = true.
Definition state_of (h : list word) (s : state) : Prop :=
  exists k, (k <= length h)%nat /\ words s = firstn k h /\ backoffs s = map (fun i => bow (firstn i h)) (seq 1 k)
  /\ (k = 0%nat \/ useful (firstn k h)) /\ forall i, (k < i <= length h)%nat -> ~ useful (firstn i h).

(** Scoring a sequence word by word from a state. *)
Fixpoint run (s : state) (ws : list word) : option (Z * state) :=
  match ws with
  | [] => Some (0, s)
  | w :: ws' => '(r, s1) <- FullScore m s w ;; '(p, s2) <- run s1 ws' ;; Some (r_prob r + p, s2)
  end.

(** ** Derivations *)
Variable f : feature.

(** The KenLM word for a symbol of the decoder, through its class if there are classes. *)
Definition lm_word (x : Z) : word := MapWord f (fst (ClassifyWordIfNecessary f x)).
Definition emission (x : Z) : Z := snd (ClassifyWordIfNecessary f x).

(** Every nonterminal of every rule is used exactly once. *)
Inductive linear : deriv -> Prop :=
| linear_apply e subs : Permutation (map (fun x => Z.to_nat (- x)) (filter (fun x => x <=? 0) e)) (seq 0 (length subs)) ->
    Forall linear subs -> linear (Apply e subs).

(** The words of a derivation in reading order. *)
Fixpoint yield (d : deriv) : list Z :=
  match d with
  | Apply e subs =>
    flat_map (fun x => if x <=? 0 then nth (Z.to_nat (- x)) (map yield subs) [] else [x]) e
  end.

(** No rule begins with <s>. *)
Inductive no_sos_rule : deriv -> Prop :=
| no_sos_apply e subs : hd_error e <> Some (kCDEC_SOS f) -> Forall no_sos_rule subs -> no_sos_rule (Apply e subs).

(** Every part of the derivation yields a word. *)
Inductive nonempty : deriv -> Prop :=
| nonempty_apply e subs : yield (Apply e subs) <> [] -> Forall nonempty subs -> nonempty (Apply e subs).

(** What the constructor guarantees about <s>, </s> and <unk>. *)
Record loaded (eos : Z) : Prop := {
  ld_pos : 0 < kCDEC_SOS f;
  ld_sos : lm_word (kCDEC_SOS f) = kSOS f;
  ld_eos : lm_word eos = kEOS f;
  ld_known : kSOS f <> 0%nat /\ kEOS f <> 0%nat;
  ld_emit : emission (kCDEC_SOS f) = 0 }.

Definition count_oov (ws : list Z) : Z := Z.of_nat (length (filter (fun x => Nat.eqb (lm_word x) 0) ws)).
Definition sum_emission (ws : list Z) : Z := zsum (map emission ws).

(** ** Rules that produce <s> and </s> themselves

    What the feature reads off a derivation: <s> at the front of a rule starts a new
    sentence ([TSOS]); anything else is a word, also an <s> further inside a rule. *)
Inductive tok := TSOS | TW (w : word).

Fixpoint toks (d : deriv) : list tok :=
  match d with
  | Apply e subs =>
    let item x := if x <=? 0 then nth (Z.to_nat (- x)) (map toks subs) [] else [TW (lm_word x)] in
    match e with
    | [] => []
    | x :: e' => (if x =? kCDEC_SOS f then [TSOS] else item x) ++ flat_map item e'
    end
  end.

(** The history the tokens leave behind and their score.  At [TSOS] the back-off weights
    of the history are charged: no n-gram reaches across it. *)
Definition drop_history (h : list word) : Z := zsum (map (fun i => bow (firstn i h)) (seq 1 (length h))).
Fixpoint tscore (h : list word) (ts : list tok) : Z :=
  match ts with
  | [] => 0
  | TSOS :: ts' => drop_history h + tscore [kSOS f] ts'
  | TW w :: ts' => logprob w h + tscore (w :: h) ts'
  end.
Fixpoint thist (h : list word) (ts : list tok) : list word :=
  match ts with
  | [] => h
  | TSOS :: ts' => thist [kSOS f] ts'
  | TW w :: ts' => thist (w :: h) ts'
  end.

(** <s> at the front and nowhere else, </s> at the end and nowhere else *)
Definition well_marked (ts : list tok) : Prop :=
  exists ts', ts = TSOS :: ts' ++ [TW (kEOS f)] /\ ~ In TSOS ts' /\ ~ In (TW (kEOS f)) ts'.

(** Back-off weights of the history from its (j+1)-word part on. *)
Definition pending (j : nat) (h : list word) : Z := zsum (map (fun i => bow (firstn i h)) (seq (S j) (length h - j))).

(** A model without separate rest costs. *)
Definition ordinary : Prop := forall g w, entry g = Some w -> rest w = prob w.

End Spec.

(** ** The maps: the last entry for a word counts. *)
Definition vocab_index (vocab : list (nat * word)) (x : nat) : word :=
  fold_left (fun acc p => if Nat.eqb (fst p) x then snd p else acc) vocab 0%nat.
Definition class_entry (unk : Z) (lines : list (nat * Z * Z)) (x : nat) : Z * Z :=
  fold_left (fun acc l => if Nat.eqb (fst (fst l)) x then (snd (fst l), snd l) else acc) lines (unk, 0).
