(** The spherical harmonics with the Condon-Shortley phase, from Rodrigues' formula. *)
From Coq Require Import Reals ZArith List Bool.
From Coquelicot Require Import Coquelicot.
From Verif Require Import Vec GeomModel SkModel Cpx YlmModel.
Import ListNotations.
Open Scope R_scope.

(** ** Polynomials with integer coefficients, constant term first *)
Fixpoint peval (p : list Z) (x : R) : R := match p with [] => 0 | a :: p => IZR a + x * peval p x end.
Fixpoint padd (p q : list Z) : list Z :=
  match p, q with [], q => q | p, [] => p | a :: p, b :: q => (a + b)%Z :: padd p q end.
Fixpoint pmul (p q : list Z) : list Z :=
  match p with [] => [] | a :: p => padd (map (Z.mul a) q) (0%Z :: pmul p q) end.
Fixpoint ppow (p : list Z) (n : nat) : list Z := match n with O => [1%Z] | S n => pmul p (ppow p n) end.
Fixpoint pderiv_from (k : Z) (p : list Z) : list Z := match p with [] => [] | a :: p => (k * a)%Z :: pderiv_from (k + 1) p end.
Definition pderiv (p : list Z) : list Z := match p with [] => [] | _ :: p => pderiv_from 1 p end.
Fixpoint zfact (n : nat) : Z := match n with O => 1%Z | S m => (Z.of_nat n * zfact m)%Z end.

(** ** P_l^m(x) without the factor (-1)^m (1-x^2)^(m/2): the (l+m)th derivative of (x^2-1)^l over 2^l l! *)
Definition rodrigues (l k : nat) : list Z := Nat.iter (l + k) pderiv (ppow [(-1)%Z; 0%Z; 1%Z] l).
Definition legendre (l k : nat) (x : R) : R := peval (rodrigues l k) x / IZR (2 ^ Z.of_nat l * zfact l).
(** sqrt((2l+1)/(4 pi) (l-m)!/(l+m)!) *)
Definition normalisation (l k : nat) : R :=
  sqrt (IZR (2 * Z.of_nat l + 1) / (4 * PI) * (IZR (zfact (l - k)) / IZR (zfact (l + k)))).
(** exp(i m phi) *)
Definition expi (m : Z) (phi : R) : cplx := (cos (IZR m * phi), sin (IZR m * phi)).
(** m >= 0 *)
Definition harmonic_nonneg (l k : nat) (theta phi : R) : cplx :=
  cscale ((-1) ^ k * normalisation l k * sin theta ^ k * legendre l k (cos theta)) (expi (Z.of_nat k) phi).
(** Y_{l,-m} is (-1)^m times the conjugate of Y_{l,m} *)
Definition harmonic (l : nat) (m : Z) (theta phi : R) : cplx :=
  if (m <? 0)%Z then cscale ((-1) ^ Z.abs_nat m) (cconj (harmonic_nonneg l (Z.abs_nat m) theta phi))
  else harmonic_nonneg l (Z.abs_nat m) theta phi.

(** the vector with the spherical coordinates r, theta, phi *)
Definition from_spherical (r theta phi : R) : v3 := V3 (r * (sin theta * cos phi)) (r * (sin theta * sin phi)) (r * cos theta).
Definition cabs2 (z : cplx) : R := fst z ^ 2 + snd z ^ 2.
(** sum over m = -l .. l *)
Definition sum_m (l : nat) (f : Z -> R) : R := rsum (2 * l + 1) (fun i => f (Z.of_nat i - Z.of_nat l)%Z).
Definition value (l : nat) (m : Z) (theta phi : R) : cplx :=
  match Ylm l m with Some f => f theta phi | None => c0 end.

(** ** Integrals over the sphere *)
Definition is_sphere_integral (f : R -> R -> R) (I : R) : Prop :=
  (forall p, ex_RInt (fun t => f t p * sin t) 0 PI) /\ is_RInt (fun p => RInt (fun t => f t p * sin t) 0 PI) 0 (2 * PI) I.
Definition kron (b : bool) : R := if b then 1 else 0.

(** ** Analysis of angular momenta *)
(** a state that has the same value at all points of a shell *)
Definition spherical_state (npts : nat) (index : nat -> nat) (state : nat -> R) : Prop :=
  forall g h, (g < npts)%nat -> (h < npts)%nat -> index g = index h -> index g <> O -> state g = state h.
