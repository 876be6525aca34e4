From Coq Require Import Ascii String List Bool Arith.
From Verif Require Import OutModel.
Import ListNotations.

(** where text goes to: the file chosen last, or nowhere after it has been closed; None is standard output, '-' and 'null' are the null device *)
Inductive target := ToStdout | ToFile (f : string) | ToNothing.
Definition next (t : target) (o : oop) : target :=
  match o, t with OSet None, _ => ToStdout | OSet (Some f), _ => ToFile (if String.eqb f "-" || String.eqb f "null" then "/dev/null" else f)%string | OClose, ToFile _ => ToNothing | _, t => t end.
Definition same (t u : target) : bool := match t, u with ToStdout, ToStdout => true | ToFile f, ToFile g => String.eqb f g | _, _ => false end.
(** all text printed while u was the target *)
Fixpoint printed (u t : target) (l : list oop) : list ascii :=
  match l with
  | [] => []
  | o :: l => (match o with OPrint s => if same u t then s else [] | _ => [] end) ++ printed u (next t o) l
  end.
Definition prefix (a b : list ascii) : Prop := exists c, b = a ++ c.
