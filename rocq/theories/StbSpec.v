(** What the theorems on the construction of Slater-Koster tables say *)
From Coq Require Import Reals ZArith String Ascii List Bool Arith.
From Coquelicot Require Import Coquelicot.
From Verif Require Import Vec GeomModel TimerModel StbModel.
Import ListNotations.
Open Scope R_scope.

(** the real spherical harmonics s; pz, px; d(3z2-r2), d(xz), d(x2-y2): l and m *)
Definition Y (l m : nat) (t p : R) : R :=
  match l, m with
  | 0%nat, 0%nat => / sqrt (4 * PI)
  | 1%nat, 0%nat => sqrt (3 / (4 * PI)) * cos t
  | 1%nat, 1%nat => sqrt (3 / (4 * PI)) * sin t * cos p
  | 2%nat, 0%nat => sqrt (5 / (16 * PI)) * (3 * cos t ^ 2 - 1)
  | 2%nat, 1%nat => sqrt (15 / (4 * PI)) * sin t * cos t * cos p
  | 2%nat, 2%nat => sqrt (15 / (16 * PI)) * sin t ^ 2 * cos (2 * p)
  | _, _ => 0
  end.
(** l1, l2 and m of the integrals, in the order of the table: dds, ddp, ddd, pds, pdp, pps, ppp, sds, sps, sss *)
Definition lm_of : list (nat * nat * nat) := [(2, 2, 0); (2, 2, 1); (2, 2, 2); (1, 2, 0); (1, 2, 1); (1, 1, 0); (1, 1, 1); (0, 2, 0); (0, 1, 0); (0, 0, 0)]%nat.
(** the part of the ray at the angle t up to the radius r that is below the plane z = h *)
Definition cut (h t r : R) : R := if Rle_dec (r * cos t) h then r else h / cos t.
(** the area, in polar coordinates, of the points with radius between ra and rb, angle between ta and tb, and z <= h *)
Definition is_area (h ra rb ta tb A : R) : Prop := is_RInt (fun t => (cut h t rb ^ 2 - cut h t ra ^ 2) / 2) ta tb A.
Definition area_of (p : piece) : R := match p with Piece _ _ A => A | _ => 0 end.
(** the area that counts: that of elements whose point (r0, t0) is nearer than w to both atoms, 0 and (0, Rz) *)
Definition counted (w Rz : R) (p : piece) : R :=
  match p with Piece r0 t0 A => if Rlt_dec r0 w then if Rlt_dec (sqrt (r0 ^ 2 - 2 * r0 * Rz * cos t0 + Rz ^ 2)) w then A else 0 else 0 | _ => 0 end.
(** an overlap integral of orbitals with angular momenta (l1, m) on atom 1 and (l2, m) on atom 2, on grid points (d, z):
    the integral over the angle about the axis is exact *)
Definition angular (l1 l2 m : nat) (t1 t2 : R) : R := RInt (fun p => Y l1 m t1 p * Y l2 m t2 p) 0 (2 * PI).
Definition overlap (e1 e2 : element) (Rz : R) (grid : list gpoint) (l1 l2 m : nat) (nl1 nl2 : string) : R :=
  lsum grid (fun p => Rnl e1 nl1 (rad1 p) * Rnl e2 nl2 (rad2 Rz p) *
    angular l1 l2 m (acos (snd (fst p) / rad1 p)) (acos ((snd (fst p) - Rz) / rad2 Rz p)) * fst (fst p) * snd p).
(** the last orbital with the letter c *)
Definition is_last (val : list string) (c : option ascii) (nl : string) : Prop :=
  exists a b, val = a ++ nl :: b /\ is_letter (letter nl) c = true /\ List.Forall (fun x => is_letter (letter x) c = false) b.
Definition has_letter (val : list string) (c : option ascii) : Prop := exists nl, In nl val /\ is_letter (letter nl) c = true.
(** calls of a timer: starts (true) and stops (false) of labels, at the readings of a clock *)
Definition timed (ls : list (bool * string)) (clock : nat -> R) (k0 : nat) : list call :=
  map (fun k => let '(b, l) := nth (k - k0) ls (true, EmptyString) in if b then Start l (clock k) else Stop l (clock k)) (seq k0 (length ls)).
