From Coq Require Import Ascii List Bool Arith.
Import ListNotations.

(** characters other than spaces and ends of lines *)
Definition visible (c : ascii) : bool := negb (Ascii.eqb c " "%char || Ascii.eqb c "010"%char).
Definition blank (l : list ascii) : Prop := forall c, In c l -> c = " "%char.
Definition no_newline (l : list ascii) : Prop := ~ In "010"%char l.
(** k spaces and the rest *)
Definition indented (k : nat) (l r : list ascii) : Prop := l = repeat " "%char k ++ r.
Fixpoint join (ls : list (list ascii)) : list ascii := match ls with [] => [] | [l] => l | l :: ls => l ++ "010"%char :: join ls end.
