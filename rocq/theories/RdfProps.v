From Coq Require Import Ascii List Bool Arith Permutation.
From Verif Require Import RdfModel RdfSpec RdfProofs.
Import ListNotations.

(** C203: lines and comments of files.  Case: ex_lines *)
Theorem C203_modes :
  forall (cc : ascii) (lines : list (list ascii)),
  exists rs : list (list ascii),
    Forall2 stripped lines rs /\
    read_file RComments [cc] lines = filter (starts cc) rs /\
    read_file RNocomments [cc] lines = filter (fun r : list ascii => filled r && negb (starts cc r)) rs /\ read_file RAll [cc] lines = lines.
Proof. exact modes. Qed.
Theorem C203_parts :
  forall (cc : ascii) (lines : list (list ascii)),
  exists rs : list (list ascii),
    Forall2 stripped lines rs /\ Permutation (read_file RComments [cc] lines ++ read_file RNocomments [cc] lines) (filter filled rs).
Proof. exact parts. Qed.
Theorem C203_separate :
  forall (cc : ascii) (lines : list (list ascii)) (r : list ascii),
  (In r (read_file RComments [cc] lines) -> hd_error r = Some cc) /\
  (In r (read_file RNocomments [cc] lines) -> hd_error r <> Some cc /\ r <> []).
Proof. exact separate. Qed.
Theorem C203_other :
  forall (commentchar : list ascii) (lines : list (list ascii)), read_file ROther commentchar lines = [].
Proof. exact other_mode. Qed.
Print Assumptions C203_modes.
Print Assumptions C203_parts.
Print Assumptions C203_separate.
Print Assumptions C203_other.
