(** Axis and angle of a rotation matrix (box/mix.py), the angles that containers give for their
    symmetry operations (hotbit/containers), and their use for orbitals (hotbit/interactions.py). *)
From Coq Require Import Reals ZArith List Bool.
From Verif Require Import Vec GeomModel ScaModel SkModel Cpx.
Import ListNotations.
Open Scope R_scope.

(** an eigenvalue and its eigenvector (real and imaginary parts) *)
Definition eigenpair := (cplx * (v3 * v3))%type.
Inductive outcome (A : Type) := Ok (x : A) | AssertionError | ValueError | RuntimeError.
Arguments Ok {A} x. Arguments AssertionError {A}. Arguments ValueError {A}. Arguments RuntimeError {A}.

(** argsort()[0] of abs(w.real-1): the first of the smallest; box/mix.py 240 *)
Definition off (p : eigenpair) : R := Rabs (fst (fst p) - 1).
Fixpoint closest (l : list eigenpair) : option eigenpair :=
  match l with
  | [] => None
  | p :: l => match closest l with None => Some p | Some q => if leb (off p) (off q) then Some p else Some q end
  end.
Definition cabs (z : cplx) : R := sqrt (fst z ^ 2 + snd z ^ 2).
Definition e14 : R := / 10 ^ 14.
Definition e8 : R := / 10 ^ 8.
(** norm of a complex vector *)
Definition cvnorm (W : v3 * v3) : R := sqrt (vdot (fst W) (fst W) + vdot (snd W) (snd W)).

(** ** rotation_from_matrix; box/mix.py 232-254.
    eigs: np.linalg.eig(R) as pairs w[i], W[:,i]; u: np.random.rand(3).
    b2 (line 251) is never used.  An empty list cannot occur for a 3x3 matrix. *)
Definition rotation_from_matrix (eigs : list eigenpair) (u : v3) (R0 : m3) : outcome (R * v3) :=
  if negb (ltb (Rabs (det R0 - 1)) e14) then AssertionError
  else match closest eigs with
  | None => ValueError
  | Some (w, W) =>
      if ltb e8 (cabs (csub w c1)) then ValueError
      else
        let t := vscale (/ cvnorm W) (fst W) in
        let a1 := vcross t u in
        let a1 := vscale (/ vnorm a1) a1 in
        let b1 := vcross t a1 in
        let a2 := mv R0 a1 in
        let cosa := vdot a1 a2 in
        let sina := vdot a2 b1 in
        match phival cosa sina with
        | Some angle => Ok (angle, t)
        | None => RuntimeError
        end
  end.

(** ** rotation(n,angles=True) *)
(** Matrix: the method ignores the argument and returns the 3x3 matrix; Raises: any exception *)
Inductive answer := Angles (theta phi angle : R) | Matrix (m : m3) | Raises.

(** twistandturn.py 178-186 *)
Definition axis_angles (d : v3) : option (R * R) :=
  let theta := acos (vz d) in
  if ltb (Rabs theta) eps12 || ltb (Rabs (theta - PI)) eps12 then Some (theta, 0)
  else match phival (vx d / sin theta) (vy d / sin theta) with
       | Some phi => Some (theta, phi)
       | None => None
       end.

(** sphere.py 149-187 *)
Definition sphere_angles (a : atoms) (n : op) : answer :=
  if ((o1 n =? o2 n)%Z && (o2 n =? 0)%Z)%bool then Matrix eye
  else if negb (s_mode a =? 4)%Z then Raises
  else
    let b1 := s_angle1 a * IZR (o1 n) in let b2 := s_angle2 a * IZR (o2 n) in
    let axis := vadd (vscale b1 (s_n1 a)) (vscale b2 (s_n2 a)) in
    let angle := sqrt (b1 ^ 2 + b2 ^ 2 + 2 * b1 * b2 * vdot (s_n1 a) (s_n2 a)) in
    let axis := vscale (/ vnorm axis) axis in
    Angles (PI / 2) (atan2 (vy axis) (vx axis)) angle.

(** bravais.py 82-84, chiral.py 112-116, doublechiral.py 143-147 and slab.py 113-120 return the matrix;
    wedge.py 180-187, chiralgeneral.py 111-118, wedgeyaxis.py 176-184, chiralwedge.py 155-162,
    twistandturn.py 157-188.  eig: np.linalg.eig; u: np.random.rand(3) *)
Definition rotation_angles (eig : m3 -> list eigenpair) (u : v3) (c : ctype) (a : atoms) (n : op) : answer :=
  match c with
  | Bravais | Chiral | DoubleChiral | Slab => Matrix (rotation c a n)
  | Wedge => Angles 0 0 (IZR (o1 n) * w_angle a)
  | ChiralGeneral => Angles 0 0 (IZR (o1 n) * cg_angle1 a + IZR (o2 n) * cg_angle2 a)
  | WedgeYAxis => Angles (PI / 2) (PI / 2) (IZR (o1 n) * w_angle a)
  | ChiralWedge => Raises
  | Sphere => sphere_angles a n
  | TwistAndTurn =>
      if (o3 n =? 0)%Z then Matrix eye
      else let R0 := rotation TwistAndTurn a n in
           match rotation_from_matrix (eig R0) u R0 with
           | Ok (angle, d) => match axis_angles d with Some (theta, phi) => Angles theta phi angle | None => Raises end
           | _ => Raises
           end
  end.

(** ** rotation_transformation(n) of a container; interactions.py 206-268.
    The angles are only asked for in lines 245-250.  None: an exception, also from using the rows of a
    matrix as angles *)
Definition asks_for_angles (R0 : m3) (dorb : bool) : bool :=
  negb (ltb (Rabs (m3e R0 0 0 - 1)) eps12 && ltb (Rabs (m3e R0 1 1 - 1)) eps12 && ltb (Rabs (m3e R0 2 2 - 1)) eps12)
  && (dorb && ltb eps12 (Rabs (m3e R0 2 2 - 1))) && negb (ltb (Rabs (m3e R0 2 2 + 1)) eps12).
Definition container_transformation (eig : m3 -> list eigenpair) (u : v3) (c : ctype) (a : atoms) (dorb : bool) (n : op)
  : option (nat -> nat -> R) :=
  let R0 := rotation c a n in
  if asks_for_angles R0 dorb then
    match rotation_angles eig u c a n with
    | Angles theta phi angle => Some (rotation_transformation R0 dorb theta phi angle)
    | _ => None
    end
  else Some (rotation_transformation R0 dorb 0 0 0).
