(** What a calculation minimises. *)
From Coq Require Import Reals List Bool Arith.
From Verif Require Import Vec GeomModel SkModel Cpx RhoModel RhoSpec OccModel MixModel GamModel InvModel InvSpec.
Open Scope R_scope.

(** any other electrons for the same matrices: for every k-point as many orthonormal states as there are orbitals, each with an
    occupation between 0 and 2 *)
Definition electrons_in (X : system) (V : nat -> nat -> nat -> cplx) (f : nat -> nat -> R) : Prop :=
  orthonormal (s_norb X) (s_nk X) (s_S X) V /\ forall k a, (k < s_nk X)%nat -> (a < s_norb X)%nat -> 0 <= f k a <= 2.
(** sum of the expectation values of H0, in Hartree *)
Definition band_of (X : system) (V : nat -> nat -> nat -> cplx) (f : nat -> nat -> R) : R :=
  state_sum (s_norb X) (s_nk X) (s_wk X) f (fun k a => fst (bracket (s_norb X) (s_H0 X k) (V k a) (V k a))).
(** excess Mulliken populations of the atoms *)
Definition charges_of (X : system) (V : nat -> nat -> nat -> cplx) (f : nat -> nat -> R) : nat -> R :=
  dq_states (s_norb X) (s_nk X) (s_o1 X) (s_no X) (s_val X) (s_wk X) V f (s_S X).
(** the electrostatic potential at the atoms is that of a symmetric matrix K *)
Definition interacts_by (X : system) (K : nat -> nat -> R) : Prop :=
  (forall q I, (I < s_N X)%nat -> epsilon (s_N X) (s_G X) (s_phi X q) q I = rsum (s_N X) (fun J => K I J * q J)) /\
  forall I J, (I < s_N X)%nat -> (J < s_N X)%nat -> K I J = K J I.
Definition coulomb_of (N : nat) (K : nat -> nat -> R) (q : nat -> R) : R := / 2 * rsum N (fun I => rsum N (fun J => q I * K I J * q J)).
(** moving charge from atom to atom costs energy *)
Definition costs (N : nat) (K : nat -> nat -> R) : Prop := forall q, rsum N q = 0 -> 0 <= coulomb_of N K q.
(** and more than none, unless no charge is moved *)
Definition costs_strictly (N : nat) (K : nat -> nat -> R) : Prop :=
  forall q, rsum N q = 0 -> coulomb_of N K q <= 0 -> forall I, (I < N)%nat -> q I = 0.
(** electronic free energy in Hartree, of electrons and of a result *)
Definition free_of (X : system) (V : nat -> nat -> nat -> cplx) (f : nat -> nat -> R) (coul : R) : R :=
  band_of X V f + coul - s_width X * fermi_entropy (s_norb X) (s_nk X) (s_wk X) f.
Definition electronic_free_energy (X : system) (r : result) : R :=
  r_ebs r + r_ecoul r - s_width X * fermi_entropy (s_norb X) (s_nk X) (s_wk X) (r_f r).
(** what is lost by giving exactly no electrons to levels more than MAXE widths above the chemical potential *)
Definition emptied (MAXE : R) (X : system) (f : nat -> nat -> R) : R :=
  rsum (s_nk X) (fun k => s_wk X k * rsum (s_norb X) (fun a => if Req_EM_T (f k a) 0 then 2 * s_width X * exp (- MAXE) else 0)).
(** the last step of a self-consistent calculation: r was computed in the potential of the charges q *)
Definition computed_from z evmin w0 MAXE brentq tol_norm tol_mull tol_im Hartree Bohr (X : system) (q : vec) (r : result) : Prop :=
  exists p, pass z evmin w0 tol_norm X (Some (h1_of X q)) = Some p /\ finish MAXE brentq tol_mull tol_im Hartree Bohr true X p = Some r.
(** what is left of the potential at the end: q are the charges of the potential, q1 those that came out of it, q2 those of other electrons *)
Definition mismatch (N : nat) (K : nat -> nat -> R) (q q1 q2 : nat -> R) : R :=
  rsum N (fun I => (q2 I - q1 I) * rsum N (fun J => K I J * (q J - q1 J))).
(** no potential is applied *)
Definition no_potential (X : system) : Prop := forall I, (I < s_N X)%nat -> s_ext X I = 0.
(** the mixer accepts charges only if what comes out differs from what went in by at most eps on every atom *)
Definition accepts_within (m : mixer) (N : nat) (eps : R) : Prop :=
  forall ms q out, fst (snd (m_call m ms q out)) = true -> forall I, (I < N)%nat -> Rabs (out I - q I) <= eps.
(** an upper bound of the energy of charges d in the potential of charges of size 1 *)
Definition interaction_size (N : nat) (K : nat -> nat -> R) (d : nat -> R) : R := rsum N (fun I => Rabs (d I) * rsum N (fun J => Rabs (K I J))).
(** entropy of the electrons of a result *)
Definition entropy_of (X : system) (r : result) : R := fermi_entropy (s_norb X) (s_nk X) (s_wk X) (r_f r).
(** the electrostatic energy of any charges on the atoms, as computed by the code *)
Definition energy_of_charges (X : system) (q : nat -> R) : R := coulomb_energy (s_N X) true q (epsilon (s_N X) (s_G X) (s_phi X q) q).
(** the charge distributions of the atoms are not narrower than that with the self-energy U (the default of electrostatics.py 46-47) *)
Definition wide_enough (D : database) (g : structure) : Prop :=
  forall I, (I < g_N g)%nat -> 0 < d_U D (g_kind g I) /\ default_FWHM (d_U D (g_kind g I)) <= d_FWHM D (g_kind g I).
(** moving charge costs at least kappa/2 times the sum of the squares *)
Definition costs_at_least (N : nat) (K : nat -> nat -> R) (kappa : R) : Prop := forall q, rsum N q = 0 -> kappa * rsum N (fun I => q I * q I) <= 2 * coulomb_of N K q.
