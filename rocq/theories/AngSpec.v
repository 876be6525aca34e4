(** What axis and angle of a rotation, and the angles of containers, should be. *)
From Coq Require Import Reals ZArith List Bool.
From Verif Require Import Vec GeomModel GeomSpec SkModel SkSpec Cpx AngModel.
Import ListNotations.
Open Scope R_scope.

(** ** The eigenvalue routine *)
Definition trace (m : m3) : R := vx (row1 m) + vy (row2 m) + vz (row3 m).
Definition msub (a b : m3) : m3 := M3 (vsub (row1 a) (row1 b)) (vsub (row2 a) (row2 b)) (vsub (row3 a) (row3 b)).
Definition mscale (k : R) (a : m3) : m3 := M3 (vscale k (row1 a)) (vscale k (row2 a)) (vscale k (row3 a)).
(** m (x+iy) = (a+ib)(x+iy) for a vector that is not zero *)
Definition eigenvector (m : m3) (p : eigenpair) : Prop :=
  let a := fst (fst p) in let b := snd (fst p) in let x := fst (snd p) in let y := snd (snd p) in
  (x <> vzero \/ y <> vzero) /\
  mv m x = vsub (vscale a x) (vscale b y) /\ mv m y = vadd (vscale b x) (vscale a y).
(** the contract of np.linalg.eig for a real matrix: three eigenpairs, the eigenvalues are the zeros of the
    characteristic polynomial, and vectors of real eigenvalues are real *)
Definition eigenpairs_of (m : m3) (l : list eigenpair) : Prop :=
  (forall p, In p l -> eigenvector m p /\ (snd (fst p) = 0 -> snd (snd p) = vzero)) /\
  exists p q r, l = [p; q; r] /\
    forall x, rc (det (msub m (mscale x eye))) = cmul (csub (fst p) (rc x)) (cmul (csub (fst q) (rc x)) (csub (fst r) (rc x))).

(** ** Numbers that phival does not round to zero *)
(** cosine of the angle of rotation, and the size of its sine *)
Definition cos_of (m : m3) : R := (trace m - 1) / 2.
Definition sin_of (m : m3) : R := sqrt (1 - cos_of m ^ 2).
Definition angle_resolved (m : m3) : Prop := resolved (cos_of m) /\ resolved (sin_of m).
(** a unit vector along z, or off z by at least 1e-12, with resolved components of its direction in the xy-plane *)
Definition axis_resolved (d : v3) : Prop :=
  d = V3 0 0 1 \/ d = V3 0 0 (-1) \/
  (eps12 <= acos (vz d) <= PI - eps12 /\
   resolved (vx d / sqrt (vx d ^ 2 + vy d ^ 2)) /\ resolved (vy d / sqrt (vx d ^ 2 + vy d ^ 2))).

(** ** Containers *)
(** what the angles of a container need: for Sphere mode 4 and a rotation axis; for TwistAndTurn an eigenvalue
    routine that works, a random vector off the axis of rotation, and an axis and an angle that phival resolves *)
Definition angles_defined (eig : m3 -> list eigenpair) (u : v3) (c : ctype) (a : atoms) (n : op) : Prop :=
  match c with
  | Sphere => s_mode a = 4%Z /\
      (o1 n = 0%Z /\ o2 n = 0%Z \/
       vadd (vscale (s_angle1 a * IZR (o1 n)) (s_n1 a)) (vscale (s_angle2 a * IZR (o2 n)) (s_n2 a)) <> vzero)
  | TwistAndTurn => o3 n = 0%Z \/
      let m := rotation TwistAndTurn a n in
      eigenpairs_of m (eig m) /\ mv m u <> u /\ angle_resolved m /\
      (forall d, vdot d d = 1 -> mv m d = d -> axis_resolved d)
  | _ => True
  end.
