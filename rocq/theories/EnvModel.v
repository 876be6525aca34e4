(** External electrostatic potentials: hotbit/environment.py, and how electrostatics.py and states.py use them *)
From Coq Require Import Reals List Bool Arith.
From Verif Require Import Vec.
Import ListNotations.
Open Scope R_scope.

(** a potential of position (Bohr) and time *)
Definition potential : Type := (nat -> R) -> R -> R.
Definition dot3 (a b : nat -> R) : R := rsum 3 (fun k => a k * b k).
Definition norm3 (a : nat -> R) : R := sqrt (dot3 a a).
(** line 4 *)
Definition hbar : R := 2342178 / 100000000.
(** LinearlyPolarizedLaser, lines 7-37; Hartree: energy unit of ase in eV.  A polarization of length zero gives nan (here 0) *)
Record laser := Laser { l_omega : R; l_E0 : R; l_pol : nat -> R; l_phase : R }.
Definition new_laser (Hartree energy flux : R) (polarization : nat -> R) (phase : R) : laser :=
  Laser (energy / Hartree / hbar) (sqrt flux * (533802445585 / 10 ^ 20)) (fun k => polarization k / norm3 polarization) phase.
Definition laser_phi (l : laser) : potential := fun r t => - l_E0 l * sin (l_omega l * t + l_phase l) * dot3 r (l_pol l).

(** Environment, lines 43-80 *)
Record env := Env { e_t : R; e_phis : list potential }.
Definition new_env : env := Env 0 [].
Definition propagate_time (e : env) (dt : R) : env := Env (e_t e + dt) (e_phis e).
Definition add_phi (e : env) (f : potential) : env := Env (e_t e) (e_phis e ++ [f]).
Definition phi (e : env) (r : nat -> R) : R := fold_left (fun p f => p + f r (e_t e)) (e_phis e) 0.

(** ** The calculator, reduced to what it knows of external potentials.  The environment is made at the first calculation
    (aseinterface.py 422); es.ext is set by construct_Gamma_matrix (electrostatics.py 268), which is called when the electronic
    structure is solved with SCC (states.py 210-211), that is when the atoms differ from those solved last (aseinterface.py 381-390). *)
Section Calc.
Variable atoms : Type.
Variable same : atoms -> atoms -> bool.
Variables (natoms : atoms -> nat) (pos : atoms -> nat -> nat -> R).
Variable SCC : bool.
Record calc := Calc { c_env : option env; c_solved : option atoms; c_ext : nat -> R }.
Definition new_calc : calc := Calc None None (fun _ => 0).
Inductive ecall := AddPhi (f : potential) | Propagate (dt : R) | Solve (a : atoms).
Inductive eanswer := AttributeError | Done | Ext (v : nat -> R).
(** Ext: the external potential at the atoms in the hamiltonian of the states that the calculator has after the call *)
Definition estep (c : calc) (x : ecall) : calc * eanswer :=
  match x with
  | AddPhi f => match c_env c with None => (c, AttributeError) | Some e => (Calc (Some (add_phi e f)) (c_solved c) (c_ext c), Done) end
  | Propagate dt => match c_env c with None => (c, AttributeError) | Some e => (Calc (Some (propagate_time e dt)) (c_solved c) (c_ext c), Done) end
  | Solve a =>
      let e := match c_env c with None => new_env | Some e => e end in
      let required := match c_solved c with None => true | Some b => negb (same b a) end in
      if required then
        let ext := if SCC then fun i => phi e (pos a i) else fun _ => 0 in
        (Calc (Some e) (Some a) ext, Ext ext)
      else (Calc (Some e) (c_solved c) (c_ext c), Ext (c_ext c))
  end.
Fixpoint eruns (c : calc) (xs : list ecall) : calc * list eanswer :=
  match xs with
  | [] => (c, [])
  | x :: xs => let '(c', a) := estep c x in let '(c'', l) := eruns c' xs in (c'', a :: l)
  end.
End Calc.
Arguments AddPhi {atoms} f. Arguments Propagate {atoms} dt. Arguments Solve {atoms} a.
