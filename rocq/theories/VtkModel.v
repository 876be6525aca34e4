(** Output for visualisation: box/vtk.py *)
From Coq Require Import Reals List Bool Arith String.
From Verif Require Import GeomModel.
Import ListNotations.
Open Scope R_scope.
Open Scope string_scope.

(** A file is a list of lines, a line a list of words separated by blanks; numbers are kept apart from other words.
    Simplified: names of scalars and vectors are one word each *)
Inductive word := Word (s : string) | Int (n : nat) | Num (x : R).
Definition line : Type := list word.
Inductive error := IndexError | ValueError | NameError.
(** what is written until the first exception, and the exception *)
Definition output : Type := (list line * option error)%type.
Definition andthen (a b : output) : output := match snd a with Some e => a | None => (fst a ++ fst b, snd b)%list end.

Section Formats.
(** the number that stands in the file when x is printed: with '%.14g' (a2s of rectilinear_vtk, box/mix.py 435-440), with print, with '%20.14f', with '%12.6f' *)
Variables g14 printed f14 f6 : R -> R.
Definition a2s (fmt : R -> R) (a : list R) : line := map (fun x => Num (fmt x)) a.

(** the loop of lines 31-34 *)
Definition loop (nx ny nz : nat) : list (nat * nat * nat) :=
  flat_map (fun k => flat_map (fun j => map (fun i => (i, j, k)) (seq 0 nx)) (seq 0 ny)) (seq 0 nz).
(** an array with its shape *)
Record array := Array { shape : nat * nat * nat; at_ : nat -> nat -> nat -> R }.
Definition in_shape (d : array) (p : nat * nat * nat) : bool :=
  let '(i, j, k) := p in let '(a, b, c) := shape d in ((i <? a) && (j <? b) && (k <? c))%nat.
Fixpoint write_points (d : array) (l : list (nat * nat * nat)) : output :=
  match l with
  | [] => ([], None)
  | (i, j, k) :: l => if in_shape d (i, j, k) then let '(o, e) := write_points d l in ([Num (printed (at_ d i j k))] :: o, e) else ([], Some IndexError)
  end.
(** rectilinear_vtk, 5-36; line 35 takes min() of the flattened data, which must not be empty.  When an exception is raised the file is not closed
    (what is still in buffers is written when the object is collected) *)
Definition rectilinear_vtk (gx gy gz : list R) (d : array) : output :=
  let nx := List.length gx in let ny := List.length gy in let nz := List.length gz in
  let header := [[Word "#"; Word "vtk"; Word "DataFile"; Word "Version"; Num 2]; [Word "...some"; Word "rectilinear"; Word "grid"; Word "data."]; [Word "ASCII"];
    [Word "DATASET"; Word "RECTILINEAR_GRID"]; [Word "DIMENSIONS"; Int nx; Int ny; Int nz];
    [Word "X_COORDINATES"; Int nx; Word "double"]; a2s g14 gx; [Word "Y_COORDINATES"; Int ny; Word "double"]; a2s g14 gy; [Word "Z_COORDINATES"; Int nz; Word "double"]; a2s g14 gz;
    [Word "POINT_DATA"; Int (nx * ny * nz)]; [Word "SCALARS"; Word "some_data"; Word "double"]; [Word "LOOKUP_TABLE"; Word "default"]] in
  andthen (header, None) (andthen (write_points d (loop nx ny nz))
    ([], let '(a, b, c) := shape d in if (a * b * c =? 0)%nat then Some ValueError else None)).

(** atoms_vtk, 40-70: the name of the atoms (words), positions, scalars and vectors by name.  Line 67 loops over 'properties', which is not defined *)
Definition scalar_lines (s : string * list R) : list line :=
  [[Word "SCALARS"; Word (fst s); Word "double"; Int 1]; [Word "LOOKUP_TABLE"; Word "default"]] ++ map (fun x => [Num (f6 (x * 1.0))]) (snd s).
Definition atoms_vtk (name : list word) (r : list v3) (scalars : list (string * list R)) (vectors : list (string * list v3)) : output :=
  let N := List.length r in
  andthen ([[Word "#"; Word "vtk"; Word "DataFile"; Word "Version"; Num 2]; Word "Atoms" :: name; [Word "ASCII"]; [Word "DATASET"; Word "UNSTRUCTURED_GRID"]; [Word "POINTS"; Int N; Word "double"]]
      ++ map (fun v => a2s f14 [vx v; vy v; vz v]) r ++ [[Word "POINT_DATA"; Int N]] ++ flat_map scalar_lines scalars, None)%list
    match vectors with [] => ([], None) | (s, _) :: _ => ([[Word "VECTORS"; Word s; Word "double"]; []], Some NameError) end.
End Formats.
