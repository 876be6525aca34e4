(** What the Slater-Koster transformations mean: atomic orbitals as functions, their rotation, the bond frame. *)
From Coq Require Import Reals List Bool Arith.
From Verif Require Import Vec GeomModel PairModel PairSpec SkModel.
Import ListNotations.
Open Scope R_scope.

(** d orbitals as quadratic forms r.T r: sqrt3 xy, sqrt3 yz, sqrt3 zx, sqrt3/2 (x^2-y^2), z^2-(x^2+y^2)/2 *)
Definition Td (a : nat) : m3 :=
  match a with
  | 4%nat => M3 (V3 0 (s3 / 2) 0) (V3 (s3 / 2) 0 0) (V3 0 0 0)
  | 5%nat => M3 (V3 0 0 0) (V3 0 0 (s3 / 2)) (V3 0 (s3 / 2) 0)
  | 6%nat => M3 (V3 0 0 (s3 / 2)) (V3 0 0 0) (V3 (s3 / 2) 0 0)
  | 7%nat => M3 (V3 (s3 / 2) 0 0) (V3 0 (- s3 / 2) 0) (V3 0 0 0)
  | _ => M3 (V3 (- / 2) 0 0) (V3 0 (- / 2) 0) (V3 0 0 1)
  end.
(** the angular function of orbital a (times r^l) *)
Definition orbital (a : nat) (x : v3) : R :=
  match a with
  | 0%nat => 1
  | 1%nat => vx x | 2%nat => vy x | 3%nat => vz x
  | _ => vdot x (mv (Td a) x)
  end.
Definition shell (a : nat) : nat := if (a =? 0)%nat then 0 else if (a <=? 3)%nat then 1 else 2.

Definition orthogonal (Q : m3) : Prop := mm Q (tr Q) = eye.

(** sum over the products of the elements *)
Definition frob (A B : m3) : R := vdot (row1 A) (row1 B) + vdot (row2 A) (row2 B) + vdot (row3 A) (row3 B).
(** the matrix of the rotation Q in the orbitals: orbital b rotated by Q is the sum over a of orbital a times
    Drep Q a b (theorem C61_orbitals) *)
Definition Drep (Q : m3) (a b : nat) : R :=
  if (shell a =? shell b)%nat then
    match shell a with
    | 0%nat => 1
    | 1%nat => m3e Q (a - 1) (b - 1)
    | _ => 2 / 3 * frob (Td a) (mm (mm Q (Td b)) (tr Q))
    end
  else 0.

(** ** The bond frame: its third axis is the bond.  An orbital of the first atom and one of the second have
    a non-zero integral only when they have the same dependence on the angle around the bond:
    0: sigma, 1 and 2: pi (x and y), 3 and 4: delta *)
Definition around (c : nat) : nat :=
  match c with 1%nat | 6%nat => 1 | 2%nat | 5%nat => 2 | 4%nat => 3 | 7%nat => 4 | _ => 0 end.
Definition lambda (t : nat) : nat := match t with 0%nat => 0 | 1%nat | 2%nat => 1 | _ => 2 end.
(** the place of the integrals in the table: dds ddp ddd pds pdp pps ppp sds sps sss dps dpp dss pss *)
Definition integral (la lb mu : nat) : nat :=
  match la, lb with
  | 2, 2 => mu
  | 1, 2 => 3 + mu
  | 1, 1 => 5 + mu
  | 0, 2 => 7
  | 0, 1 => 8
  | 0, 0 => 9
  | 2, 1 => 10 + mu
  | 2, 0 => 12
  | _, _ => 13
  end%nat.
(** The Slater-Koster element of orbital a of the first atom and orbital b of the second: both are expanded in the
    orbitals of the bond frame with axes Q (columns), where only the tabulated integrals remain. *)
Definition bond_frame (h : nat -> R) (Q : m3) (a b : nat) : R :=
  rsum 9 (fun c => rsum 9 (fun c' =>
    if (around c =? around c')%nat
    then Drep Q a c * Drep Q b c' * h (integral (shell c) (shell c') (lambda (around c))) else 0)).
Definition ez : v3 := V3 0 0 1.

(** the table in which only the integral of orbitals l, l with symmetry m around the bond is one *)
Definition channel (l m c : nat) : R := if (c =? integral l l m)%nat then 1 else 0.

(** the two tables (si,sj) and (sj,si) contain the same integrals of orbitals with equal angular momentum *)
Definition same_integrals (tij tji : nat -> R) : Prop :=
  forall c, In c [0; 1; 2; 5; 6; 9]%nat -> tij c = tji c.

(** the unit vector with polar angle theta and azimuth phi *)
Definition direction (theta phi : R) : v3 := V3 (sin theta * cos phi) (sin theta * sin phi) (cos theta).
(** the reflection of the xy-plane *)
Definition mirror_xy : m3 := M3 (V3 1 0 0) (V3 0 1 0) (V3 0 0 (-1)).
(** the reflection of x *)
Definition mirror_x : m3 := M3 (V3 (-1) 0 0) (V3 0 1 0) (V3 0 0 1).
(** a rotation that the code takes for the identity (or for a rotation about z) within its tolerance of 1e-12 is one *)
Definition clear_cut (R0 : m3) : Prop :=
  (Rabs (m3e R0 0 0 - 1) < eps12 /\ Rabs (m3e R0 1 1 - 1) < eps12 /\ Rabs (m3e R0 2 2 - 1) < eps12 -> R0 = eye) /\
  (Rabs (m3e R0 2 2 - 1) <= eps12 -> m3e R0 2 2 = 1).
(** the block of a bond with the bond vector p, when the integrals depend on the distance as in T *)
Definition bond (T : nat -> R -> R) (p : v3) (a b : nat) : R :=
  ht (vscale (/ vnorm p) p) (fun c => T c (vnorm p)) a b.

(** ** Moving one atom *)
Definition axis (k : nat) : v3 := match k with 0%nat => V3 1 0 0 | 1%nat => V3 0 1 0 | _ => V3 0 0 1 end.
(** only atom m moves, along u *)
Definition one (m : nat) (u : v3) (j : nat) : v3 := if (j =? m)%nat then u else vzero.
(** the derivative of a complex function of one real variable *)
Definition cderivative (f : R -> cplx) (x : R) (d : cplx) : Prop :=
  derivable_pt_lim (fun s => fst (f s)) x (fst d) /\ derivable_pt_lim (fun s => snd (f s)) x (snd d).
(** no image of j is on top of i or at an end of the range of the table; dtab is the derivative of tab within the range *)
Definition smooth_pair (nimg : nat) (Rn : nat -> nat -> v3) (tab dtab : nat -> nat -> R -> nat -> R) (r1 r2 : nat -> nat -> R) (i j : nat) : Prop :=
  forall n, (n < nimg)%nat -> 0 < mdist Rn n i j /\ mdist Rn n i j <> r1 i j /\ mdist Rn n i j <> r2 i j /\
    (r1 i j < mdist Rn n i j < r2 i j -> forall c, (c < 14)%nat ->
       derivable_pt_lim (fun d => tab i j d c) (mdist Rn n i j) (dtab i j (mdist Rn n i j) c)).
