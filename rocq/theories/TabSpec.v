From Coq Require Import Reals List Bool Arith String.
From Verif Require Import Vec SkModel SplModel SplSpec TabModel.
Import ListNotations.

(** the entry of the dictionary *)
Fixpoint lookup {V} (l : list (key * V)) (k : key) : option V :=
  match l with [] => None | (q, v) :: l => if key_eqb q k then Some v else lookup l k end.
Definition chosen (dir : string) (v : option string) : string := match v with None => join dir "null.par" | Some f => f end.
(** what the user asked for: the entry for this order, else the entry for the other order *)
Definition requested (dir : string) (l : list (key * option string)) (e1 e2 : symbol) : option string :=
  match lookup l (e1, e2) with
  | Some v => Some (chosen dir v)
  | None => match lookup l (e2, e1) with Some v => Some (chosen dir v) | None => None end
  end.
Definition given (t : tables_arg) : list (key * option string) := match t with NoTables => [] | Tables l _ => l end.
Definition rest (t : tables_arg) : bool := match t with NoTables => true | Tables _ r => r end.
Fixpoint slookup (l : list (symbol * string)) (k : symbol) : option string :=
  match l with [] => None | (q, v) :: l => if String.eqb q k then Some v else slookup l k end.
Definition egiven (t : elements_arg) : list (symbol * string) := match t with NoElements => [] | Elems l _ => l end.
Definition erest (t : elements_arg) : bool := match t with NoElements => true | Elems _ r => r end.

Open Scope R_scope.
(** the tables of both orders have the same distances *)
Definition same_grid (a b : table) : Prop := rows a = rows b /\ forall i, (i < rows a)%nat -> grid a i = grid b i.
(** sign of an integral read from the table of the other order *)
Definition flip (q : nat) : R := match q with 12%nat => 1 | 10%nat | 11%nat | 13%nat => -1 | _ => 1 end.
(** column of integral q in the file where it is tabulated: dps = pds, dpp = pdp, dss = sds, pss = sps *)
Definition column (q : nat) : nat := match q with 10 => 3 | 11 => 4 | 12 => 7 | 13 => 8 | _ => q end%nat.
