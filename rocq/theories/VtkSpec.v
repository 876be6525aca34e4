(** Reading of VTK files, version 2.0, as the format is described by its authors: the first line is an identifier, the second a title; the rest are words separated
    by blanks and ends of lines.  Values of points are in the order of their numbers, with x running fastest, then y, then z. *)
From Coq Require Import Reals List Bool Arith String.
From Verif Require Import GeomModel VtkModel.
Import ListNotations.
Open Scope R_scope.
Open Scope string_scope.

Definition words (f : list line) : list word := List.concat (skipn 2 f).
(** n numbers and what follows *)
Fixpoint numbers (n : nat) (l : list word) : option (list R * list word) :=
  match n, l with
  | O, _ => Some ([], l)
  | S n, Num x :: l => match numbers n l with Some (a, l) => Some (x :: a, l) | None => None end
  | _, _ => None
  end.
(** coordinates of one direction *)
Definition axis (s : string) (n : nat) (l : list word) : option (list R * list word) :=
  match l with
  | Word t :: Int m :: Word "double" :: l => if String.eqb t s && (m =? n)%nat then numbers n l else None
  | _ => None
  end.
(** scalars of n points: SCALARS name double (components, 1 by default) LOOKUP_TABLE name values *)
Definition scalars_of (n : nat) (l : list word) : option (string * list R * list word) :=
  match l with
  | Word "SCALARS" :: Word s :: Word "double" :: Word "LOOKUP_TABLE" :: Word _ :: l
  | Word "SCALARS" :: Word s :: Word "double" :: Int 1 :: Word "LOOKUP_TABLE" :: Word _ :: l =>
      match numbers n l with Some (a, l) => Some (s, a, l) | None => None end
  | _ => None
  end.
(** m scalars, then the end of the file *)
Fixpoint all_scalars (n m : nat) (l : list word) : option (list (string * list R)) :=
  match m with
  | O => match l with [] => Some [] | _ => None end
  | S m => match scalars_of n l with
    | Some (s, a, l) => match all_scalars n m l with Some r => Some ((s, a) :: r) | None => None end
    | None => None
    end
  end.
(** grids of the three directions and the value at point (i,j,k) *)
Record rectilinear := Rectilinear { v_x : list R; v_y : list R; v_z : list R; v_value : nat -> nat -> nat -> option R }.
Definition read_rectilinear (f : list line) : option rectilinear :=
  match words f with
  | Word "ASCII" :: Word "DATASET" :: Word "RECTILINEAR_GRID" :: Word "DIMENSIONS" :: Int nx :: Int ny :: Int nz :: l =>
      match axis "X_COORDINATES" nx l with None => None | Some (x, l) =>
      match axis "Y_COORDINATES" ny l with None => None | Some (y, l) =>
      match axis "Z_COORDINATES" nz l with None => None | Some (z, l) =>
      match l with
      | Word "POINT_DATA" :: Int n :: l =>
          if (n =? nx * ny * nz)%nat then
            match all_scalars n 1 l with
            | Some [(_, a)] => Some (Rectilinear x y z (fun i j k => if ((i <? nx) && (j <? ny) && (k <? nz))%nat then nth_error a (i + nx * (j + ny * k)) else None))
            | _ => None
            end
          else None
      | _ => None
      end end end end
  | _ => None
  end.
(** points and m scalars of an unstructured grid *)
Fixpoint triples (l : list R) : list v3 := match l with x :: y :: z :: l => V3 x y z :: triples l | _ => [] end.
Definition read_atoms (m : nat) (f : list line) : option (list v3 * list (string * list R)) :=
  match words f with
  | Word "ASCII" :: Word "DATASET" :: Word "UNSTRUCTURED_GRID" :: Word "POINTS" :: Int n :: Word "double" :: l =>
      match numbers (3 * n) l with
      | Some (a, Word "POINT_DATA" :: Int n' :: l) => if (n' =? n)%nat then match all_scalars n m l with Some s => Some (triples a, s) | None => None end else None
      | _ => None
      end
  | _ => None
  end.
(** the array has values at least at all points of the grids *)
Definition covers (d : array) (nx ny nz : nat) : Prop := let '(a, b, c) := shape d in (nx <= a /\ ny <= b /\ nz <= c)%nat.
(** a number of each point *)
Definition rounded (f : R -> R) (v : v3) : v3 := V3 (f (vx v)) (f (vy v)) (f (vz v)).
(** one value too many for two atoms *)
Definition one_more : list (string * list R) := [("q", [1; 2; 3])].
