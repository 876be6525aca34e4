From Coq Require Import Reals ZArith String List Bool Arith.
From Verif Require Import Vec GeomModel AtomModel AtomSpec KsModel.
Import ListNotations.
Open Scope R_scope.

(** the radial Schroedinger equation u'' - u' - (l(l+1) + 2 r^2 (v - eps)) u = 0 in x = log r, in differences of step dx *)
Definition schroedinger (dx : R) (r : nat -> R) (l : nat) (v : nat -> R) (eps : R) (u : nat -> R) (i : nat) : R :=
  (u (i + 1)%nat - 2 * u i + u (i - 1)%nat) / dx ^ 2 - (u (i + 1)%nat - u (i - 1)%nat) / (2 * dx)
  - (INR l * (INR l + 1) + 2 * r i ^ 2 * (v i - eps)) * u i.
(** potential changed at one point *)
Definition changed (v : nat -> R) (p : nat) (d : R) (i : nat) : R := if (i =? p)%nat then v i + d else v i.
(** neighbouring values of opposite signs among the first m + 1 *)
Definition sign_changes (u : nat -> R) (m : nat) : nat := length (filter (fun j => ltb (u j * u (j + 1)%nat) 0) (seq 0 m)).
(** u is, up to the tolerance 1e-8, a normalised eigenstate of v with energy eps and n - l - 1 nodes within the turning point p:
    it solves the equation exactly if v is changed by some d at p, and d costs less than 1e-8 *)
Definition eigenstate (N : nat) (dx : R) (r : nat -> R) (n l : nat) (v : nat -> R) (eps : R) (u : nat -> R) : Prop :=
  g_integrate N r (fun i => u i ^ 2) false = 1 /\ 0 < u 1%nat /\
  exists p d, (1 <= p <= N - 2)%nat /\ Z.of_nat (sign_changes u (p - 1)) = (Z.of_nat n - Z.of_nat l - 1)%Z /\
    (forall i, (1 <= i <= N - 2)%nat -> schroedinger dx r l (changed v p d) eps u i = 0) /\
    Rabs d * u p ^ 2 * (r p * dx) <= / 10 ^ 8 /\
    (forall j, (p < j <= N - 2)%nat -> 0 <= INR l * (INR l + 1) + 2 * r j ^ 2 * (v j - eps)).
(** sum over a list *)
Definition total {A} (f : A -> R) (l : list A) : R := fold_right (fun a s => f a + s) 0 l.
(** electrons of the states that are calculated: the orbitals 1s ... 9l *)
Definition orbital_names : list string :=
  flat_map (fun n => map (fun c => String (digit n) (String c EmptyString)) letters) (seq 1 9).
Definition calculated (occu : list (string * R)) : R :=
  total (fun p => if existsb (String.eqb (fst p)) orbital_names then snd p else 0) occu.
(** the grid is fine enough for the difference formulas: 0 < dx < 2 *)
Definition fine_grid (P : params) : Prop :=
  0 < p_Z P /\ 0 < ln (100 * p_Z P * p_rmax P) < 2 * INR (gN P - 1) /\ 0 < p_rmax P.
(** functional of the textbook: kinetic + external + Hartree + exchange-correlation energies, with eigenvalues e of potential v *)
Definition kinetic (P : params) (e : string -> R) (v n : nat -> R) : R :=
  total (fun st => occ_of P (snd st) * e (snd st)) (states P) - g_integrate (gN P) (rgrid P) (fun i => v i * n i) true.
Definition external (P : params) (n : nat -> R) : R :=
  g_integrate (gN P) (rgrid P) (fun i => (- p_Z P / rgrid P i + confine (p_conf P) (rgrid P i)) * n i) true.
(** interaction of the density n with the potential of n0, halved *)
Definition hartree_int (P : params) (n0 n : nat -> R) : R :=
  g_integrate (gN P) (rgrid P) (fun i => hartree (gN P) (rgrid P) (nel P) n0 i * n i) true / 2.
Definition xc_int (P : params) (n : nat -> R) : R := g_integrate (gN P) (rgrid P) (fun i => pw_exc (n i) false * n i) true.
(** Kohn-Sham potential of a density *)
Definition ks_potential (P : params) (n : nat -> R) (i : nat) : R :=
  - p_Z P / rgrid P i + hartree (gN P) (rgrid P) (nel P) n i + pw_vxc (n i) + confine (p_conf P) (rgrid P i).
(** the last run of a script *)
Fixpoint last_run (cs : list kcall) (d : option (option ((nat -> R) * (nat -> R)))) : option (option ((nat -> R) * (nat -> R))) :=
  match cs with [] => d | Run rs :: cs => last_run cs (Some rs) | _ :: cs => last_run cs d end.
Definition asks_result (c : kcall) : bool := match c with Rnl _ _ | Energy | Epsilon _ => true | _ => false end.
Definition last_answer (l : list (kres (option R))) : option (kres (option R)) := nth_error (rev l) 0.
(** scalar relativistic mass, and the weight of the terms with the derivative dv of the potential *)
Definition rel_mass (v eps : R) : R := 1 + (eps - v) / (2 * (137036 / 1000) ^ 2).
Definition rel_weight (r v dv eps : R) : R := r * dv / (2 * rel_mass v eps * (137036 / 1000) ^ 2).
(** u'' - u' + q (u' - u) - (l(l+1) + 2 M r^2 (v - eps)) u = 0 in x = log r, in differences of step dx *)
Definition scalar_relativistic (dx : R) (r : nat -> R) (l : nat) (v dv : nat -> R) (eps : R) (u : nat -> R) (i : nat) : R :=
  let d1 := (u (i + 1)%nat - u (i - 1)%nat) / (2 * dx) in
  (u (i + 1)%nat - 2 * u i + u (i - 1)%nat) / dx ^ 2 - d1 + rel_weight (r i) (v i) (dv i) eps * (d1 - u i)
  - (INR l * (INR l + 1) + 2 * rel_mass (v i) eps * r i ^ 2 * (v i - eps)) * u i.
(** number of electrons of an orbital that may be missing *)
Definition val (o : option R) : R := match o with Some x => x | None => 0 end.
(** no run of the script fails *)
Definition runs_succeed (P : params) (cs : list kcall) : Prop := forall rs, In (Run rs) cs -> exists s, run P rs = KOk s.
(** u is a state of the effective potential v with energy eps: eigenstate, or with scalar relativistic corrections a normalised
    solution of that equation at all points but the turning point (wherever its difference form can be solved), with the right number of nodes *)
Definition solves (P : params) (n l : nat) (v : nat -> R) (eps : R) (u : nat -> R) : Prop :=
  if p_scalarrel P then
    g_integrate (gN P) (rgrid P) (fun i => u i ^ 2) false = 1 /\ 0 < u 1%nat /\
    let q := fun i => rel_weight (rgrid P i) (v i) (p_deriv P v i) eps in
    ((forall i, (1 <= i <= gN P - 2)%nat -> 0 < rel_mass (v i) eps /\ dx P * (1 - q i) <> 2 /\ dx P * (1 - q i) <> -2) ->
     exists p, (1 <= p <= gN P - 2)%nat /\ Z.of_nat (sign_changes u (p - 1)) = (Z.of_nat n - Z.of_nat l - 1)%Z /\
       forall i, (1 <= i <= gN P - 2)%nat -> i <> p -> scalar_relativistic (dx P) (rgrid P) l v (p_deriv P v) eps u i = 0)
  else eigenstate (gN P) (dx P) (rgrid P) n l v eps u.
(** potentials v, densities n, energies e and orbitals u of the iterations 0 (the start) to m of a self-consistent calculation *)
Record trace := Trace { t_v : nat -> nat -> R; t_n : nat -> nat -> R; t_e : nat -> string -> R; t_u : nat -> string -> nat -> R }.
(** the start: restart data, or bare nucleus and confinement with exponentially decaying density of nel electrons *)
Definition starts (P : params) (restart : option ((nat -> R) * (nat -> R))) (v n : nat -> R) : Prop :=
  match restart with
  | Some (v0, n0) => v = v0 /\ n = n0
  | None => (forall i, v i = - p_Z P / rgrid P i + confine (p_conf P) (rgrid P i)) /\
      g_integrate (gN P) (rgrid P) n true = nel P /\ exists k, forall i, n i = k * exp (- rgrid P i * (50 * ln 2 / p_Z P))
  end.
(** density and energies changed less than the tolerances between the iterations k and k + 1, and k > 5 *)
Definition converged (P : params) (t : trace) (k : nat) : Prop :=
  (5 < k)%nat /\ g_integrate (gN P) (rgrid P) (fun i => Rabs (t_n t (k + 1)%nat i - t_n t k i)) true < p_tol_density P /\ 0 < p_tol_energies P /\
  forall n l nl, In (n, l, nl) (states P) -> Rabs (t_e t (k + 1)%nat nl - t_e t k nl) < p_tol_energies P.
Definition scf_trace (P : params) (restart : option ((nat -> R) * (nat -> R))) (m : nat) (t : trace) : Prop :=
  starts P restart (t_v t 0%nat) (t_n t 0%nat) /\
  forall k, (k < m)%nat ->
    (forall i, t_v t (k + 1)%nat i = p_mix P * ks_potential P (t_n t k) i + (1 - p_mix P) * t_v t k i) /\
    (forall n l nl, In (n, l, nl) (states P) -> solves P n l (t_v t (k + 1)%nat) (t_e t (k + 1)%nat nl) (t_u t (k + 1)%nat nl)) /\
    (forall i, t_n t (k + 1)%nat i = total (fun st => occ_of P (snd st) * t_u t (k + 1)%nat (snd st) i ^ 2) (states P) / (4 * PI * rgrid P i ^ 2)).
