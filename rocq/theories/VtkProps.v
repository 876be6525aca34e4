From Coq Require Import Reals String List Bool Arith.
From Verif Require Import GeomModel VtkModel VtkSpec VtkProofs.
Import ListNotations.
Open Scope R_scope.

(** C190: files for visualisation.  Case: ex_ramp *)
Theorem C190_grid :
  forall (g14 printed : R -> R) (gx gy gz : list R) (d : array),
  covers d (length gx) (length gy) (length gz) ->
  gx <> [] ->
  gy <> [] ->
  gz <> [] ->
  snd (rectilinear_vtk g14 printed gx gy gz d) = None /\
  (exists v : rectilinear,
     read_rectilinear (fst (rectilinear_vtk g14 printed gx gy gz d)) = Some v /\
     v_x v = map g14 gx /\
     v_y v = map g14 gy /\
     v_z v = map g14 gz /\
     (forall i j k : nat,
      (i < length gx)%nat ->
      (j < length gy)%nat -> (k < length gz)%nat -> v_value v i j k = Some (printed (at_ d i j k)))).
Proof. exact rectilinear_read. Qed.
Theorem C190_short :
  forall (g14 printed : R -> R) (gx gy gz : list R) (d : array),
  ~ covers d (length gx) (length gy) (length gz) ->
  gx <> [] ->
  gy <> [] ->
  gz <> [] ->
  snd (rectilinear_vtk g14 printed gx gy gz d) = Some IndexError /\ read_rectilinear (fst (rectilinear_vtk g14 printed gx gy gz d)) = None.
Proof. exact rectilinear_short. Qed.
Theorem C190_atoms :
  forall (f14 f6 : R -> R) (name : list word) (r : list v3) (scalars : list (string * list R)),
  Forall (fun s : string * list R => length (snd s) = length r) scalars ->
  snd (atoms_vtk f14 f6 name r scalars []) = None /\
  read_atoms (length scalars) (fst (atoms_vtk f14 f6 name r scalars [])) =
  Some (map (rounded f14) r, map (fun s : string * list R => (fst s, map f6 (snd s))) scalars).
Proof. exact atoms_read. Qed.
Theorem C190_vectors_refuted :
  forall (f14 f6 : R -> R) (name : list word) (r : list v3) (scalars : list (string * list R)) (vectors : list (string * list v3)),
  vectors <> [] -> snd (atoms_vtk f14 f6 name r scalars vectors) = Some NameError.
Proof. exact no_vectors. Qed.
Theorem C190_lengths_refuted :
  exists r : list v3,
    snd (atoms_vtk (fun x : R => x) (fun x : R => x) [] r one_more []) = None /\
    read_atoms 1 (fst (atoms_vtk (fun x : R => x) (fun x : R => x) [] r one_more [])) = None.
Proof. exact unchecked. Qed.
Print Assumptions C190_grid.
Print Assumptions C190_short.
Print Assumptions C190_atoms.
Print Assumptions C190_vectors_refuted.
Print Assumptions C190_lengths_refuted.
