(** Model of how KenLM builds its hashed model from an ARPA file
    (klm/lm/search_hashed.cc, read_arpa.hh, value_build.hh, vocab.cc, model.cc 91-130).

    A finite float is a sign bit and a magnitude in units of 2^-149, so that -0.0 and the
    two sign-bit tricks are as in the code; sums are not rounded.  The file is given as
    its sections, line by line; splitting it into numbers and words is not modelled, nor
    are lines with the wrong number of words except as an error.  The hash of an n-gram is
    the n-gram itself (newest word first), the hash of a word is the word.  A hash table
    is the list of its entries in the order of insertion, of which the first with a key is
    the one that is found (linear probing, no deletion). *)
From Coq Require Import String List ZArith NArith Bool.
Import ListNotations.
From Verif Require Import Lm.
Open Scope Z_scope.

(** The outcome of loading: a model, an exception, or undefined behaviour. *)
Inductive res (A : Type) := Ok (a : A) | Throw | Undefined.
Arguments Ok {A} a. Arguments Throw {A}. Arguments Undefined {A}.
Definition rbind {A B : Type} (r : res A) (k : A -> res B) : res B :=
  match r with Ok a => k a | Throw => Throw | Undefined => Undefined end.
Declare Scope res_scope.
Notation "x <- e ;; k" := (rbind e (fun x => k)) (at level 61, e at next level, right associativity) : res_scope.
Notation "' p <- e ;; k" := (rbind e (fun x => match x with p => k end)) (at level 61, p pattern, e at next level, right associativity) : res_scope.
Open Scope res_scope.

(** ** Floats *)
Record fl := Fl { neg : bool; mag : N }.
Definition val (x : fl) : Z := if neg x then - Z.of_N (mag x) else Z.of_N (mag x).
Definition pzero : fl := Fl false 0.
Definition nzero : fl := Fl true 0.
(** The sum; a zero sum of zeros is -0.0 only if both are. *)
Definition fadd (x y : fl) : fl :=
  let v := val x + val y in
  if v =? 0 then Fl (andb (neg x) (neg y)) 0 else Fl (v <? 0) (Z.to_N (Z.abs v)).
(** klm/util/bit_packing.hh 123-135 *)
Definition SetSign (x : fl) : fl := Fl true (mag x).
Definition UnsetSign (x : fl) : fl := Fl false (mag x).
(** klm/lm/blank.hh 28-39; kNoExtensionBackoff is -0.0 *)
Definition SetExtension (b : fl) : fl := if val b =? 0 then pzero else b.
Definition HasExtension (b : fl) : bool := negb (andb (neg b) (N.eqb (mag b) 0)).

(** ** Tables *)

(** klm/lm/weights.hh 11-19 *)
Record fw := FW { f_prob : fl; f_backoff : fl; f_rest : fl }.
Definition set_prob (w : fw) (p : fl) : fw := FW p (f_backoff w) (f_rest w).
Definition set_backoff (w : fw) (b : fl) : fw := FW (f_prob w) b (f_rest w).
Definition set_rest (w : fw) (r : fl) : fw := FW (f_prob w) (f_backoff w) r.

(** search_hashed.hh 146-185: [t_mid i] is middle_[i] *)
Record tables := Tables { t_uni : list fw; t_mid : nat -> list (ngram * fw); t_long : list (ngram * fl) }.

Definition gdec : forall g h : ngram, {g = h} + {g <> h} := list_eq_dec Nat.eq_dec.
Arguments gdec : simpl never.
Fixpoint find {A : Type} (g : ngram) (t : list (ngram * A)) : option A :=
  match t with [] => None | (k, v) :: t' => if gdec k g then Some v else find g t' end.
Fixpoint modify {A : Type} (g : ngram) (f : A -> A) (t : list (ngram * A)) : list (ngram * A) :=
  match t with [] => [] | (k, v) :: t' => if gdec k g then (k, f v) :: t' else (k, v) :: modify g f t' end.
Fixpoint modify_nth {A : Type} (i : nat) (f : A -> A) (l : list A) : list A :=
  match l, i with [], _ => [] | x :: l', O => f x :: l' | x :: l', S i' => x :: modify_nth i' f l' end.
Definition with_mid (t : tables) (i : nat) (l : list (ngram * fw)) : tables :=
  Tables (t_uni t) (fun j => if Nat.eqb j i then l else t_mid t j) (t_long t).

(** ** The file *)

(** Lines: log probability, words in reading order, back-off weight if there is one. *)
Record line := Line { l_prob : fl; l_words : list string; l_back : option fl }.
(** Section n holds the n-grams; the first one is the section of the unigrams. *)
Record arpa := Arpa { one : list (fl * string * option fl); more : list (list line) }.

(** klm/lm/value_build.hh: NoRestBuild, MaxRestBuild, LowerRestBuild (the function stands
    for the lower order models) *)
Inductive rest_build := NoRest | MaxRest | LowerRest (r : ngram -> fl).

(** klm/lm/config.hh.  [c_max]: KENLM_MAX_ORDER.  The three booleans: the action for
    positive log probabilities, a missing <unk>, and missing <s> or </s> is THROW_UP.
    [c_scaled n]: probing_multiplier times n, rounded down.  [c_mem], [c_junk]: what the
    memory of the unigrams and an uninitialised local float hold. *)
Record config := Config { c_max : nat; c_positive : bool; c_unk : bool; c_marker : bool; c_unk_prob : fl; c_scaled : nat -> nat; c_build : rest_build; c_mem : fw; c_junk : fl }.

Section Loading.
Variable c : config.
Variable order : nat.
(** counts[n-1] *)
Variable count : nat -> nat.

(** probing_hash_table.hh 50-53 *)
Definition buckets (n : nat) : nat := Nat.max (count n + 1) (c_scaled c (count n)).

(** value_build.hh 22-23, 39-43, 73-81, for an entry that is not of the highest order *)
Definition SetRest (g : ngram) (w : fw) : fw :=
  match c_build c with
  | NoRest => w
  | MaxRest => set_rest w (SetSign (f_prob w))
  | LowerRest r => set_rest w (r g)
  end.

(** value_build.hh 25-28, 45-56, 83-86.  [to] is the rest cost of the longer n-gram, its
    probability if that is of the highest order. *)
Definition MarkExtends (w : fw) (to : fl) : fw * bool :=
  let w1 := set_prob w (UnsetSign (f_prob w)) in
  match c_build c with
  | MaxRest => if val to <=? val (f_rest w) then (w1, false) else (set_rest w1 to, true)
  | _ => (w1, false)
  end.
(** value_build.hh 31, 59, 88 *)
Definition kMarkEvenLower : bool := match c_build c with MaxRest => true | _ => false end.

(** middle[i] exists *)
Definition mid_ok (i : nat) : bool := Nat.ltb i (order - 2).

(** The entry a pointer to the weights of [p] refers to: a unigram, or the entry found in
    middle[length p - 2]. *)
Definition get (t : tables) (p : ngram) : res fw :=
  match p with
  | [] => Undefined
  | [w] => match nth_error (t_uni t) w with Some x => Ok x | None => Undefined end
  | _ => if mid_ok (length p - 2) then match find p (t_mid t (length p - 2)) with Some x => Ok x | None => Undefined end else Undefined
  end.
Definition put (t : tables) (p : ngram) (x : fw) : tables :=
  match p with
  | [w] => Tables (modify_nth w (fun _ => x) (t_uni t)) (t_mid t) (t_long t)
  | _ => with_mid t (length p - 2) (modify p (fun _ => x) (t_mid t (length p - 2)))
  end.

(** search_hashed.cc 57-79.  [g] is the whole n-gram, so that keys[i] is its first i+2
    words; [k] is lower + 1.  The pointers returned are between. *)
Fixpoint FindLower (k : nat) (g : ngram) (t : tables) : res (tables * list ngram) :=
  match k with
  | O => Ok (t, [firstn 1 g])
  | S i =>
    if mid_ok i then
      let key := firstn (i + 2) g in
      match find key (t_mid t i) with
      | Some _ => Ok (t, [key])
      | None =>
        if Nat.leb (buckets (i + 2)) (S (length (t_mid t i))) then Throw
        else
          '(t', between) <- FindLower i g (with_mid t i (t_mid t i ++ [(key, FW (c_junk c) nzero (c_junk c))])) ;;
          Ok (t', key :: between)
      end
    else Undefined
  end.

(** search_hashed.cc 115-125.  [changes] holds what change points to, now and later. *)
Fixpoint adjust_loop (changes : list ngram) (basis n : nat) (g : ngram) (p : fl) (t : tables) : res tables :=
  if Nat.ltb basis (n - 1) then
    match changes with
    | [] => Undefined
    | ch :: changes' =>
      if mid_ok (basis - 2) then
        let ctx := firstn basis (tl g) in
        let '(p', t1) := match find ctx (t_mid t (basis - 2)) with
                         | Some w => let b := SetExtension (f_backoff w) in (fadd p b, put t ctx (set_backoff w b))
                         | None => (p, t)
                         end in
        w <- get t1 ch ;;
        adjust_loop changes' (S basis) n g p' (put t1 ch (SetRest (firstn (basis + 1) g) (set_prob w p')))
      else Undefined
    end
  else Ok t.

(** search_hashed.cc 127-134 *)
Fixpoint mark_between (between : list ngram) (longer : fl) (t : tables) : res tables :=
  match between with
  | [] => Ok t
  | p :: between' => w <- get t p ;; let '(w1, _) := MarkExtends w longer in mark_between between' (f_rest w1) (put t p w1)
  end.

(** search_hashed.cc 82-135.  [added] is the rest cost (or probability) of the new entry. *)
Definition AdjustLower (added : fl) (between : list ngram) (n : nat) (g : ngram) (t : tables) : res tables :=
  match rev between with
  | [] => Undefined
  | [p] => w <- get t p ;; Ok (put t p (fst (MarkExtends w added)))
  | back :: changes =>
    bw <- get t back ;;
    let p := SetSign (f_prob bw) in
    let basis := (n - length between)%nat in
    if Nat.eqb basis 0 then Undefined
    else
      '(p, basis, changes, t1) <-
        (if Nat.eqb basis 1 then
           match changes, g with
           | ch :: changes', _ :: v1 :: _ =>
             u <- get t [v1] ;;
             let b := SetExtension (f_backoff u) in
             let t1 := put t [v1] (set_backoff u b) in
             let p' := fadd p b in
             w <- get t1 ch ;;
             Ok (p', 2%nat, changes', put t1 ch (SetRest (firstn 2 g) (set_prob w p')))
           | _, _ => Undefined
           end
         else Ok (p, basis, changes, t)) ;;
      t2 <- adjust_loop changes basis n g p t1 ;;
      mark_between between added t2
  end.

(** search_hashed.cc 138-158, from start_order [k] *)
Fixpoint MarkLower (k : nat) (g : ngram) (longer : fl) (t : tables) : res tables :=
  match k with
  | O => Ok t
  | S i =>
    w <- get t (firstn k g) ;;
    let '(w1, more_) := MarkExtends w longer in
    let t1 := put t (firstn k g) w1 in
    if Nat.eqb i 0 then Ok t1 else if more_ : bool then MarkLower i g longer t1 else Ok t1
  end.

(** search_hashed.cc 24-55 *)
Definition activate (n : nat) (g : ngram) (t : tables) : res tables :=
  if Nat.eqb n 2 then
    match g with
    | _ :: v1 :: _ => u <- get t [v1] ;; Ok (put t [v1] (set_backoff u (SetExtension (f_backoff u))))
    | _ => Undefined
    end
  else if mid_ok (n - 3) then
    match find (tl g) (t_mid t (n - 3)) with
    | Some w => Ok (put t (tl g) (set_backoff w (SetExtension (f_backoff w))))
    | None => Throw
    end
  else Undefined.

(** read_arpa.hh 44-49, 74-78 *)
Definition read_prob (p : fl) : res fl := if 0 <? val p then (if c_positive c then Throw else Ok pzero) else Ok p.
(** read_arpa.cc 108-136: float and Prob *)
Definition ReadBackoff (b : option fl) : fl := match b with None => nzero | Some x => if val x =? 0 then nzero else x end.
Definition ReadNoBackoff (b : option fl) : bool := match b with None => true | Some x => val x =? 0 end.

(** vocab.cc 202-213: id of a new word.  The table is the list of words and ids. *)
Record vocab := Vocab { v_words : list (string * word); v_bound : nat; v_saw_unk : bool }.
Definition is_unk (s : string) : bool := orb (String.eqb s "<unk>") (String.eqb s "<UNK>").
Definition VInsert (v : vocab) (s : string) : vocab * word :=
  if is_unk s then (Vocab (v_words v) (v_bound v) true, 0%nat)
  else (Vocab (v_words v ++ [(s, v_bound v)]) (S (v_bound v)) (v_saw_unk v), v_bound v).
(** vocab.hh 131-134 *)
Definition Index (v : vocab) (s : string) : word :=
  match List.find (fun p => String.eqb (fst p) s) (v_words v) with Some p => snd p | None => 0%nat end.

(** read_arpa.hh 42-67 *)
Fixpoint Read1Grams (ls : list (fl * string * option fl)) (v : vocab) (u : list fw) : res (vocab * list fw) :=
  match ls with
  | [] => Ok (v, u)
  | (p, s, b) :: ls' =>
    p' <- read_prob p ;;
    let '(v', w) := VInsert v s in
    if Nat.ltb w (length u) then Read1Grams ls' v' (modify_nth w (fun x => FW p' (ReadBackoff b) (f_rest x)) u)
    else Undefined
  end.

(** read_arpa.hh 81-87 *)
Fixpoint read_words (v : vocab) (ws : list string) : res (list word) :=
  match ws with
  | [] => Ok []
  | s :: ws' =>
    let i := Index v s in
    if andb (Nat.eqb i 0) (negb (is_unk s)) then Throw else r <- read_words v ws' ;; Ok (i :: r)
  end.

(** search_hashed.cc 160-201, one round of the loop *)
Definition ReadNGram (n : nat) (v : vocab) (l : line) (t : tables) : res tables :=
  if negb (Nat.eqb (length (l_words l)) n) then Throw
  else
    p <- read_prob (l_prob l) ;;
    ids <- read_words v (l_words l) ;;
    let g := rev ids in
    let p' := SetSign p in
    '(t1, added) <-
      (if Nat.eqb n order then
         if negb (ReadNoBackoff (l_back l)) then Throw
         else if Nat.leb (buckets n) (S (length (t_long t))) then Throw
         else Ok (Tables (t_uni t) (t_mid t) (t_long t ++ [(g, p')]), p')
       else if mid_ok (n - 2) then
         if Nat.leb (buckets n) (S (length (t_mid t (n - 2)))) then Throw
         else
           let e := SetRest g (FW p (ReadBackoff (l_back l)) (c_junk c)) in
           let e := set_prob e p' in
           Ok (with_mid t (n - 2) (t_mid t (n - 2) ++ [(g, e)]), f_rest e)
       else Undefined) ;;
    '(t2, between) <- FindLower (n - 2) g t1 ;;
    t3 <- AdjustLower added between n g t2 ;;
    t4 <- (if kMarkEvenLower then
             match rev between with
             | [] => Undefined
             | back :: _ => w <- get t3 back ;; MarkLower (n - length between - 1) g (f_rest w) t3
             end
           else Ok t3) ;;
    activate n g t4.

Fixpoint ReadNGrams (n : nat) (v : vocab) (ls : list line) (t : tables) : res tables :=
  match ls with [] => Ok t | l :: ls' => t' <- ReadNGram n v l t ;; ReadNGrams n v ls' t' end.

(** search_hashed.cc 272-289: the sections from the n-grams on *)
Fixpoint ReadSections (n : nat) (v : vocab) (ss : list (list line)) (t : tables) : res tables :=
  match ss with [] => Ok t | ls :: ss' => t' <- ReadNGrams n v ls t ;; ReadSections (S n) v ss' t' end.

(** search_hashed.cc 267-269: i = 0 .. counts[0] - 1 *)
Fixpoint SetRests (k : nat) (u : list fw) : list fw :=
  match k with O => u | S i => modify_nth i (SetRest [i]) (SetRests i u) end.
End Loading.

(** search_hashed.cc 232-243, model.cc 91-130, vocab.hh 183-187, search_hashed.hh 155-157 *)
Definition LoadARPA (c : config) (a : arpa) : res (vocab * tables) :=
  let order := S (length (more a)) in
  let count n := match n with 1%nat => length (one a) | _ => length (nth (n - 2) (more a) []) end in
  if orb (Nat.ltb (c_max c) order) (Nat.ltb order 2) then Throw
  else
    '(v, u) <- Read1Grams c (one a) (Vocab [] 1 false) (repeat (c_mem c) (length (one a) + 1)) ;;
    if orb (andb (negb (v_saw_unk v)) (c_unk c)) (andb (orb (Nat.eqb (Index v "<s>") 0) (Nat.eqb (Index v "</s>") 0)) (c_marker c)) then Throw
    else
      t <- ReadSections c order count 2 v (more a) (Tables (SetRests c (length (one a)) u) (fun _ => []) []) ;;
      Ok (v, if v_saw_unk v then t
             else Tables (modify_nth 0 (fun w => FW (c_unk_prob c) pzero (f_rest w)) (t_uni t)) (t_mid t) (t_long t)).

(** ** Reading the tables: klm/lm/value.hh 22-39, 62-65, 109-112 *)
Definition Weights (b : rest_build) (w : fw) : weights :=
  Wt (val (SetSign (f_prob w))) (negb (neg (f_prob w))) (val (f_backoff w)) (HasExtension (f_backoff w))
     (match b with NoRest => val (SetSign (f_prob w)) | _ => val (f_rest w) end).
(** An index behind the unigrams reads other memory; no word of the vocabulary has one. *)
Definition to_search (c : config) (a : arpa) (t : tables) : search :=
  Search (c_max c) (S (length (more a)))
    (fun w => Weights (c_build c) (nth w (t_uni t) (FW nzero nzero nzero)))
    (fun i g => option_map (Weights (c_build c)) (find g (t_mid t i)))
    (fun g => option_map val (find g (t_long t))).
