From Coq Require Import Ascii String List Bool Arith.
From Verif Require Import OutModel OutSpec OutProofs.
Import ListNotations.

(** C204: text output of a calculator.  Cases: ex_out, ex_null *)
Theorem C204_any_time :
  forall (fs : string -> list ascii) (l : list oop) (f : string),
  prefix (fs f) (files (run (start fs) l) f) /\ prefix (files (run (start fs) l) f) (fs f ++ printed (ToFile f) ToStdout l).
Proof. exact any_time. Qed.
Theorem C204_complete :
  forall (fs : string -> otext) (l : list oop) (o : oop) (f : string),
  o = OFlush \/ o = OClose \/ (exists n : option string, o = OSet n) ->
  files (run (start fs) (l ++ [o])) f = fs f ++ printed (ToFile f) ToStdout l.
Proof. exact complete. Qed.
Theorem C204_stdout :
  forall (fs : string -> otext) (l : list oop), stdout (run (start fs) l) = printed ToStdout ToStdout l.
Proof. exact to_stdout. Qed.
Theorem C204_print :
  forall (fs : string -> otext) (l : list oop) (t : otext), snd (print (run (start fs) l) t) = None <-> fold_left next l ToStdout <> ToNothing.
Proof. exact print_fails. Qed.
Print Assumptions C204_any_time.
Print Assumptions C204_complete.
Print Assumptions C204_stdout.
Print Assumptions C204_print.
