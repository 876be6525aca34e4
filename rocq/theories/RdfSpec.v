From Coq Require Import Ascii List Bool Arith.
Import ListNotations.

(** white characters at the start, given by their codes *)
Definition is_white (c : ascii) : Prop := In (nat_of_ascii c) [9; 10; 11; 12; 13; 28; 29; 30; 31; 32].
Definition stripped (l r : list ascii) : Prop := exists ws, l = ws ++ r /\ Forall is_white ws /\ forall c, hd_error r = Some c -> ~ is_white c.
Definition starts (cc : ascii) (r : list ascii) : bool := match r with c :: _ => Ascii.eqb c cc | [] => false end.
Definition filled (r : list ascii) : bool := match r with [] => false | _ => true end.
