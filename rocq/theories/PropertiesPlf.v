(** C39: lattices in Python lattice format.  Numbers are abstract: [num_of] reads a token,
    [show] prints a cost, [trunc] makes a link length of a number. *)
From Coq Require Import List ZArith Bool Lia.
From Verif Require Import Plf PlfSpec PlfProofs.
Import ListNotations.
Open Scope Z_scope.

(** A word written between quotes is read back, whatever it contains. *)
Theorem C39_word : forall pre w post, w <> [] -> hd 0 post <> 32 ->
  getEscapedString (pre ++ [39] ++ Escape true w ++ [39] ++ post) (length pre) =
  Some (w, (length pre + length (Escape true w) + 2)%nat).
Proof. exact word_round_trip. Qed.
Print Assumptions C39_word.
(** Except for the empty word, *)
Theorem C39_empty_word_refuted : exists post, getEscapedString ([39] ++ Escape true [] ++ [39] ++ post) 0 <> Some ([], 2%nat).
Proof. exact empty_word_refuted. Qed.
Print Assumptions C39_empty_word_refuted.
(** and except when Escape is called before any lattice was written (its table is set up by
    AsPLF only). *)
Theorem C39_uninitialised_refuted : exists w, w <> [] /\
  getEscapedString ([39] ++ Escape false w ++ [39]) 0 <> Some (w, (length (Escape false w) + 2)%nat).
Proof. exact uninit_refuted. Qed.
Print Assumptions C39_uninitialised_refuted.
(** Every text of the format is read as the lattice it denotes, and it is accepted exactly when
    the links stay within the lattice and one reaches its end. *)
Theorem C39_parse : forall num num_of trunc zero lat t, plf_of num num_of trunc lat t ->
  forall l, PLFtoLattice num num_of trunc zero t = Some l <-> l = lat /\ complete num lat /\ Z.of_nat (length lat) < MAX_NODES.
Proof. exact parse_iff. Qed.
Print Assumptions C39_parse.
(** Writing and reading back keeps words and links; the costs become those printed, under the
    name LatticeCost_0. *)
Theorem C39_round_trip : forall num num_of trunc zero show, (forall v, token (show v)) ->
  forall lat, writable num num_of trunc lat -> complete num lat -> Z.of_nat (length lat) < MAX_NODES ->
  PLFtoLattice num num_of trunc zero (AsPLF num show zero lat) = Some (map (map (written num num_of zero show)) lat).
Proof. exact write_read. Qed.
Print Assumptions C39_round_trip.
(** So a second writing loses them. *)
Theorem C39_cost_refuted : exists (lat l : list (list (larc Z))), writable Z ex_of ex_trunc lat /\ complete Z lat /\
  PLFtoLattice Z ex_of ex_trunc 0 (AsPLF Z ex_show 0 lat) = Some l /\ AsPLF Z ex_show 0 l <> AsPLF Z ex_show 0 lat.
Proof. exact cost_refuted. Qed.
Print Assumptions C39_cost_refuted.
(** The empty lattice is written but cannot be read. *)
Theorem C39_empty_lattice_refuted : forall num num_of trunc zero show,
  PLFtoLattice num num_of trunc zero (AsPLF num show zero []) = None.
Proof. exact empty_lattice_refuted. Qed.
Print Assumptions C39_empty_lattice_refuted.
(** A written lattice is recognised as one when its first position has a link, otherwise it is
    taken for a sentence. *)
Theorem C39_recognised : forall num show zero a arcs lat, LooksLikePLF (AsPLF num show zero ((a :: arcs) :: lat)) = true.
Proof. exact recognised. Qed.
Print Assumptions C39_recognised.
Theorem C39_recognised_refuted : forall num show zero lat, LooksLikePLF (AsPLF num show zero ([] :: lat)) = false.
Proof. exact unrecognised. Qed.
Print Assumptions C39_recognised_refuted.

(** ((('it\'s',3,1),('a',0,2),),(('\\',0,1),),) *)
Example C39_ex :
  let lat := [[{| l_label := [105; 116; 39; 115]; l_features := [(lattice_cost, 3)]; l_dist := 1 |};
               {| l_label := [97]; l_features := []; l_dist := 2 |}];
              [{| l_label := [92]; l_features := []; l_dist := 1 |}]] in
  writable Z ex_of ex_trunc lat /\ complete Z lat /\ (forall v, token (ex_show v)) /\
  PLFtoLattice Z ex_of ex_trunc 0 (AsPLF Z ex_show 0 lat) = Some (map (map (written Z ex_of 0 ex_show)) lat) /\
  map (map (fun a => (l_label Z a, l_dist Z a))) (map (map (written Z ex_of 0 ex_show)) lat) = [[([105; 116; 39; 115], 1); ([97], 2)]; [([92], 1)]].
Proof.
  cbv zeta. split; [|split; [|split; [exact token_show|split; vm_compute; reflexivity]]].
  - intros arcs a A I. repeat (destruct A as [<-|A]; [repeat (destruct I as [<-|I]; [split; [discriminate|split; [cbn; lia|vm_compute; reflexivity]]|]); destruct I|]). destruct A.
  - split.
    + intros i arcs a N I. destruct i as [|[|[|i]]]; try discriminate; injection N as <-; repeat (destruct I as [<-|I]; [cbn; lia|]); destruct I.
    + exists 1%nat. eexists. eexists. split; [reflexivity|]. split; [left; reflexivity|]. reflexivity.
Qed.
(** ((( 'a' , {'p': 1, 'q':2,} , 1 ),),) *)
Example C39_sparse : PLFtoLattice Z ex_of ex_trunc 0
  [40; 40; 40; 32; 39; 97; 39; 32; 44; 32; 123; 39; 112; 39; 58; 32; 49; 44; 32; 39; 113; 39; 58; 50; 44; 125; 32; 44; 32; 49; 32; 41; 44; 41; 44; 41] =
  Some [[{| l_label := [97]; l_features := [([112], 1); ([113], 2)]; l_dist := 1 |}]].
Proof. vm_compute. reflexivity. Qed.
