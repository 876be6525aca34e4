(** Container bookkeeping: the magic number in the cell, construction and copying of
    hotbit.Atoms, and the set() methods of the containers
    (hotbit/atoms.py, hotbit/containers). *)
From Coq Require Import Reals ZArith List Bool Floats.SpecFloat.
From Verif Require Import GeomModel.
Import ListNotations.
Open Scope R_scope.

(** ** container_magic; atoms.py 11-30 *)
Definition magic : R := - (123454321 / 10 ^ 10).
Definition e10 : R := / 10 ^ 10.
Definition names : list ctype :=
  [Wedge; Chiral; DoubleChiral; Sphere; Slab; ChiralWedge; WedgeYAxis; TwistAndTurn; ChiralGeneral].

(** Python list indexing, negative indices from the end; None: IndexError *)
Definition py_nth {A} (l : list A) (i : Z) : option A :=
  let n := Z.of_nat (length l) in
  if (0 <=? i)%Z then nth_error l (Z.to_nat i)
  else if (- n <=? i)%Z then nth_error l (Z.to_nat (n + i)) else None.
(** int(x) *)
Definition trunc (x : R) : Z := if Rle_dec 0 x then Int_part x else (- Int_part (- x))%Z.

(** reading, lines 19-25 *)
Definition magic_get (c00 : R) : option ctype :=
  let x := c00 / magic in
  if ltb e10 (Rabs x) && ltb (Rabs (IZR (pyround x) - x)) e10
  then py_nth names (trunc (x - 1)) else Some Bravais.

(** lst.index(container)+1 *)
Definition magic_number (c : ctype) : Z :=
  match c with
  | Bravais => 0 | Wedge => 1 | Chiral => 2 | DoubleChiral => 3 | Sphere => 4 | Slab => 5
  | ChiralWedge => 6 | WedgeYAxis => 7 | TwistAndTurn => 8 | ChiralGeneral => 9
  end.
Definition setc (f : nat -> nat -> R) (i j : nat) (v : R) : nat -> nat -> R :=
  fun a b => if (Nat.eqb a i && Nat.eqb b j)%bool then v else f a b.
Definition with_cell (a : atoms) f := {| cell := f; pbc := pbc a; pos := pos a; slabx := slabx a |}.
Definition with_pbc (a : atoms) p := {| cell := cell a; pbc := p; pos := pos a; slabx := slabx a |}.
Definition with_pos (a : atoms) p := {| cell := cell a; pbc := pbc a; pos := p; slabx := slabx a |}.
(** writing, lines 27-30 *)
Definition magic_set (c : ctype) (a : atoms) : atoms :=
  match c with
  | Bravais => a
  | _ => with_cell a (setc (cell a) 0 0 (IZR (magic_number c) * magic))
  end.

(** the constructors of the containers; bravais.py 8-16, wedge.py 27-31, chiral.py 17-22,
    doublechiral.py 41-45, sphere.py 29-38, slab.py 24-28, chiralwedge.py 19-24,
    wedgeyaxis.py 29-33, twistandturn.py 19-27, chiralgeneral.py 20-24 *)
Definition construct (c : ctype) (a : atoms) : atoms :=
  match c with
  | Bravais | Sphere => a
  | Wedge | WedgeYAxis => with_pbc a (true, false, pbc3 a)
  | Chiral | TwistAndTurn => with_pbc a (false, false, true)
  | DoubleChiral | ChiralWedge => with_pbc a (true, false, true)
  | Slab => {| cell := cell a; pbc := (true, true, true); pos := pos a; slabx := (0, 0) |}
  | ChiralGeneral => with_pbc a (true, true, false)
  end.

(** Atoms(atoms=a,container=name), then container_magic; atoms.py 65-84.  The plain ase
    object carries cell, pbc and positions; Slab.x starts from zero. *)
Definition make (c : ctype) (a : atoms) : atoms :=
  magic_set c (construct c {| cell := cell a; pbc := pbc a; pos := pos a; slabx := (0, 0) |}).
(** Atoms(atoms=a): the container type is read from the cell; lines 70-71.
    None: IndexError *)
Definition make_auto (a : atoms) : option (ctype * atoms) :=
  match magic_get (cell a 0%nat 0%nat) with Some c => Some (c, make c a) | None => None end.
(** Atoms.copy; lines 251-254 *)
Definition copy (c : ctype) (a : atoms) : atoms := make c a.

(** ** set().  An exception leaves the atoms as they are at that point. *)
Inductive res := Ok (a : atoms) | Exc (a : atoms).
Definition state (r : res) : atoms := match r with Ok a | Exc a => a end.
Definition bind (r : res) (f : atoms -> res) : res := match r with Ok a => f a | Exc a => Exc a end.

Definition setcell (a : atoms) (i j : nat) (v : R) : atoms := with_cell a (setc (cell a) i j v).
Definition opt_cell (a : atoms) (i j : nat) (v : option R) : atoms :=
  match v with None => a | Some v => setcell a i j v end.
Definition get_phi (x y : R) : R := match phival x y with Some t => t | None => 0 end.
Definition rad (x y : R) : R := sqrt (x ^ 2 + y ^ 2).

(** the twist of Chiral.set and DoubleChiral.set with scale_atoms;
    chiral.py 87-95, doublechiral.py 117-125.  old_height = 0 is a division by zero
    (numpy: inf/nan), not modelled. *)
Definition twist_scale (da oldh newh : R) (r : v3) : v3 :=
  let frac := vz r / oldh in
  let newphi := get_phi (vx r) (vy r) + frac * da in
  V3 (rad (vx r) (vy r) * cos newphi) (rad (vx r) (vy r) * sin newphi) (frac * newh).

(** Chiral.set; chiral.py 63-95, without the keyword container *)
Definition chiral_set (a : atoms) (angle height : option R) (scale : bool) : res :=
  if negb scale then Ok (opt_cell (opt_cell a 2 0 angle) 1 0 height)
  else
    let da := match angle with None => 0 | Some g => g - c_angle a end in
    let a1 := opt_cell a 2 0 angle in
    let oldh := c_height a1 in
    let a2 := opt_cell a1 1 0 height in
    Ok (with_pos a2 (map (twist_scale da oldh (c_height a2)) (pos a2))).

(** DoubleChiral.set; doublechiral.py 84-125 *)
Definition e15 : R := / 10 ^ 15.
Definition doublechiral_set (a : atoms) (angle height x : option R) (scale : bool) : res :=
  let bad := match x with None => false | Some x => negb (ltb (Rabs (IZR (pyround (2 * x)) - 2 * x)) e15) end in
  if bad then Exc a
  else if negb scale then Ok (opt_cell (opt_cell (opt_cell a 1 0 angle) 2 0 height) 0 1 x)
  else match x with
       | Some _ => Exc a
       | None =>
           let da := match angle with None => 0 | Some g => g - d_angle a end in
           let a1 := opt_cell a 1 0 angle in
           let oldh := d_height a1 in
           let a2 := opt_cell a1 2 0 height in
           Ok (with_pos a2 (map (twist_scale da oldh (d_height a2)) (pos a2)))
       end.

(** the angle arguments of Wedge.set: none, angle=..., M=..., or both *)
Inductive angle_arg := NoAngle | Angle (g : R) | Fold (M : Z) | Both.

Definition e6 : R := / 10 ^ 6.
Definition e12 : R := / 10 ^ 12.

(** scaling of the polar angle; wedge.py 126-135 *)
Definition wedge_scale (old new : R) (r : v3) : v3 :=
  let oldphi := get_phi (vx r) (vy r) in
  let oldphi := if ltb PI oldphi then oldphi - 2 * PI else oldphi in
  let newphi := oldphi * (new / old) in
  let rad2 := rad (vx r) (vy r) * old / new in
  V3 (rad2 * cos newphi) (rad2 * sin newphi) (vz r).

(** the angle part of Wedge.set; wedge.py 102-135.  angle=0 and M=0 raise before
    anything is stored. *)
Definition wedge_set_angle (a : atoms) (g : angle_arg) (physical scale : bool) : res :=
  let go (M : Z) (angle : R) :=
    let old := w_angle a in
    let a := setcell a 2 0 angle in
    let a := setcell a 1 1 (if physical then 1 else 0) in
    if ltb (w_angle a) e6 then Exc a
    else if ltb PI (w_angle a) then Exc a
    else if ltb e12 (Rabs (IZR M - 2 * PI / w_angle a)) && w_physical a then Exc a
    else if scale
         then if ltb (Rabs old) e10 then Exc a
              else Ok (with_pos a (map (wedge_scale old (w_angle a)) (pos a)))
         else Ok a in
  match g with
  | NoAngle => Ok a
  | Both => Exc a
  | Fold M => if (M =? 0)%Z then Exc a else go M (2 * PI / IZR M)
  | Angle g => if Req_EM_T g 0 then Exc a else go (pyround (2 * PI / g)) g
  end.

(** Wedge.set; wedge.py 83-145, without the keyword container *)
Definition wedge_set (a : atoms) (g : angle_arg) (height : option R) (physical : bool) (pbcz : option bool)
    (scale : bool) : res :=
  bind (wedge_set_angle a g physical scale) (fun a =>
  let a := match height with
           | None => a
           | Some h =>
               let a := if scale
                        then with_pos a (map (fun r => V3 (vx r) (vy r) (vz r * h / w_height a)) (pos a)) else a in
               setcell a 1 0 h
           end in
  Ok (match pbcz with None => a | Some b => with_pbc a (true, false, b) end)).

(** set(container=other).  In Python 3 the test [container!=None] (the first line of every
    set but Bravais' and Slab's) calls other.__eq__(None), which reads None.atoms: an
    AttributeError; wedge.py 97, 150-151, chiral.py 71, 97-98, and likewise the others.
    bravais.py 36-38 takes no keywords; slab.py 66-74: comparing an array with None in an
    [if] raises ValueError.
    In Python 2 old-style classes without __ne__ compare unequal to None and the copying
    line is reached; WedgeYAxis, Sphere, TwistAndTurn, ChiralGeneral and Slab (for which
    it is wrong or raises) are not modelled there and count as raising. *)
Definition set_container (py3 : bool) (c : ctype) (dst src : atoms) : res :=
  if py3 then Exc dst
  else match c with
       | Wedge => wedge_set dst (Angle (w_angle src)) (Some (w_height src)) (w_physical src) (Some (pbc3 src)) false
       | Chiral => chiral_set dst (Some (c_angle src)) (Some (c_height src)) false
       | DoubleChiral => doublechiral_set dst (Some (d_angle src)) (Some (d_height src)) (Some (d_x src)) false
       | _ => Exc dst
       end.

(** ** container_magic in IEEE double arithmetic *)

Definition fmul := SFmul 53 1024.
Definition fdiv := SFdiv 53 1024.
Definition fsub := SFsub 53 1024.
Definition of_Z (z : Z) : spec_float := binary_normalize 53 1024 z 0 false.
(** the doubles nearest to -0.0123454321 and 1E-10 *)
Definition fmagic : spec_float := S754_finite true 7116657075876833 (-59).
Definition fe10 : spec_float := S754_finite false 7737125245533627 (-86).
(** round() and int() of a finite double; None: an exception (inf, nan) *)
Definition fround (x : spec_float) : option Z :=
  match x with
  | S754_zero _ => Some 0%Z
  | S754_finite s m e =>
      let sg z := if s then (- z)%Z else z in
      if (0 <=? e)%Z then Some (sg (Zpos m * 2 ^ e)%Z)
      else let d := (2 ^ (- e))%Z in
           let q := (Zpos m / d)%Z in let r := (Zpos m mod d)%Z in
           Some (sg (if (2 * r <? d)%Z then q else if (d <? 2 * r)%Z then (q + 1)%Z
                     else if Z.even q then q else (q + 1)%Z))
  | _ => None
  end.
Definition ftrunc (x : spec_float) : option Z :=
  match x with
  | S754_zero _ => Some 0%Z
  | S754_finite s m e =>
      let sg z := if s then (- z)%Z else z in
      if (0 <=? e)%Z then Some (sg (Zpos m * 2 ^ e)%Z) else Some (sg (Zpos m / 2 ^ (- e))%Z)
  | _ => None
  end.
Definition fmagic_get (c00 : spec_float) : option ctype :=
  let x := fdiv c00 fmagic in
  if SFltb fe10 (SFabs x)
  then match fround x with
       | None => None
       | Some i =>
           if SFltb (SFabs (fsub (of_Z i) x)) fe10
           then match ftrunc (fsub x (of_Z 1)) with Some i => py_nth names i | None => None end
           else Some Bravais
       end
  else Some Bravais.
Definition fmagic_set (c : ctype) : spec_float := fmul (of_Z (magic_number c)) fmagic.
