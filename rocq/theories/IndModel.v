(** Indentation of multiple-line strings.  box/mix.py *)
From Coq Require Import Ascii List Bool Arith.
Import ListNotations.

Definition line := list ascii.
Definition space : ascii := " "%char.
Definition newline : ascii := "010"%char.
(** lines 374-376: spaces at the start *)
Fixpoint spaces (l : line) : nat := match l with c :: l => if Ascii.eqb c space then S (spaces l) else 0 | [] => 0 end.
(** lines 368-377; lines of at most one character are skipped *)
Definition lowest (lines : list line) : nat := fold_left (fun mn l => if length l <=? 1 then mn else Nat.min (spaces l) mn) lines 100.
(** lines 378-380 *)
Definition cut (mn : nat) (lines : list line) : line := flat_map (fun l => skipn mn l ++ [newline]) lines.
(** lines 381-386: the loop runs over the original string while new gets shorter *)
Fixpoint drop_first (s new : line) (first : bool) : line :=
  match s with
  | [] => new
  | c :: s => if Ascii.eqb c newline && negb first then drop_first s (skipn 1 new) first else drop_first s new true
  end.
(** clean_indentation 362-387; st.splitlines() is the argument *)
Definition clean_indentation (lines : list line) : line :=
  let new := cut (lowest lines) lines in
  let new := drop_first new new false in
  firstn (length new - 1) new.
