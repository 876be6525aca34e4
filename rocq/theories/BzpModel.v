(** High-symmetry points and band-structure paths.  box/brillouin_zone.py *)
From Coq Require Import Reals String List Bool Arith.
From Verif Require Import GeomModel.
Import ListNotations.
Open Scope R_scope.

Inductive zres (A : Type) := ZOk (x : A) | ZKeyError.
Arguments ZOk {A} _. Arguments ZKeyError {A}.
(** lines 10-14, units of 2 pi over the lattice constant *)
Definition Gamma := V3 0 0 0.
Definition X := V3 1 0 0.
Definition W := V3 1 (1 / 2) 0.
Definition K := V3 (3 / 4) (3 / 4) 0.
Definition L := V3 (1 / 2) (1 / 2) (1 / 2).
(** lines 16-19 *)
Definition fcc_A := M3 (V3 0 (1 / 2) (1 / 2)) (V3 (1 / 2) 0 (1 / 2)) (V3 (1 / 2) (1 / 2) 0).
(** symmetry_points 21-29, np.dot(_fcc_A, point) *)
Definition fcc_points : list (string * v3) :=
  [("Gamma"%string, mv fcc_A Gamma); ("X"%string, mv fcc_A X); ("W"%string, mv fcc_A W); ("K"%string, mv fcc_A K); ("L"%string, mv fcc_A L)].
Fixpoint find {A} (k : string) (d : list (string * A)) : zres A :=
  match d with [] => ZKeyError | (k', x) :: d => if String.eqb k k' then ZOk x else find k d end.
Definition symmetry_points : list (string * list (string * v3)) := [("fcc"%string, fcc_points)].
(** band_structures 31-33 *)
Definition band_structures : list (string * list string) :=
  [("fcc"%string, ["Gamma"; "X"; "W"; "K"; "Gamma"; "L"; "W"]%string)].
(** the list comprehension of line 46 with the reduce of lines 44-47: the two ends of every section, one after the other.
    reduce of an empty list (a path of one point) is a TypeError that no entry of the table can raise; it gives [] here *)
Fixpoint sections (symp : list (string * v3)) (bs : list (string * string)) : zres (list v3) :=
  match bs with
  | [] => ZOk []
  | (x1, x2) :: bs =>
    match find x1 symp, find x2 symp, sections symp bs with
    | ZOk a, ZOk b, ZOk r => ZOk (a :: b :: r)
    | _, _, _ => ZKeyError
    end
  end.
(** get_bandpath 36-49.  ase.dft.kpoints.get_bandpath is the argument [ase] *)
Definition get_bandpath {Cell Out} (ase : list v3 -> Cell -> nat -> Out) (crystal : string) (cell : Cell) (npoints : nat) : zres Out :=
  match find crystal band_structures, find crystal symmetry_points with
  | ZOk bs, ZOk symp =>
    match sections symp (combine (removelast bs) (tl bs)) with
    | ZOk points => ZOk (ase points cell npoints)
    | ZKeyError => ZKeyError
    end
  | _, _ => ZKeyError
  end.
