From Coq Require Import Reals ZArith List Bool Arith.
From Verif Require Import SkModel InvModel InvSpec Vec GeomModel CoulModel OccModel PairModel PairSpec SkSpec Cpx RhoModel RhoSpec EigModel EigSpec GamModel GamSpec FrcSpec FrcProofs2 FrcProofs3 FrcProofs9 FrcProofs11.
Import ListNotations.
Open Scope R_scope.

(** C162: the direct Coulomb solver.  Cases: ex_direct, dimer_neighbours *)
Theorem C162_sum :
  forall (erfc : R -> R) (cut : option R) (N : nat) (tr0 : cell -> v3) (rot : cell -> m3) (s : ranges) (r : nat -> v3) 
    (l : list neighbour) (i j : nat),
  get_neighbours N r tr0 rot cut s = Some l ->
  (i < N)%nat ->
  (j < N)%nat ->
  exists cs : list cell,
    scan cut s = Some cs /\
    direct_gamma erfc cut l i j = lsum cs (fun c : cell => interaction erfc cut c i j (vnorm (vsub (r i) (image_at r tr0 rot c j)))).
Proof. exact direct_gamma_sum. Qed.
Theorem C162_potential :
  forall (erfc : R -> R) (cut : option R) (N : nat) (tr0 : cell -> v3) (rot : cell -> m3) (s : ranges) (r : nat -> v3) 
    (l : list neighbour) (q : vec) (i : nat),
  get_neighbours N r tr0 rot cut s = Some l -> direct_phi erfc cut l q i = rsum N (fun j : nat => direct_gamma erfc cut l i j * q j).
Proof. exact direct_phi_gamma. Qed.
Theorem C162_energy :
  forall (erfc : R -> R) (cut : option R) (N : nat) (tr0 : cell -> v3) (rot : cell -> m3) (s : ranges) (r : nat -> v3) 
    (l : list neighbour) (q : vec),
  get_neighbours N r tr0 rot cut s = Some l ->
  direct_energy erfc cut N l q = / 2 * rsum N (fun i : nat => rsum N (fun j : nat => q i * direct_gamma erfc cut l i j * q j)).
Proof. exact direct_energy_gamma. Qed.
Theorem C162_symmetric :
  forall (erfc : R -> R) (cut : option R) (N : nat) (tr0 : cell -> v3) (rot : cell -> m3) (s : ranges),
  (forall (k : option R) (cs : list cell), scan k s = Some cs -> exists inv : cell -> cell, closed_images cs tr0 rot inv) ->
  is_erfc erfc ->
  (forall c : R, cut = Some c -> c <> 0) ->
  forall (r : nat -> v3) (l : list neighbour) (i j : nat),
  get_neighbours N r tr0 rot cut s = Some l -> (i < N)%nat -> (j < N)%nat -> direct_gamma erfc cut l i j = direct_gamma erfc cut l j i.
Proof. exact direct_gamma_symmetric. Qed.
Theorem C162_forces :
  forall (erfc : R -> R) (cut : option R) (N : nat) (tr0 : cell -> v3) (rot : cell -> m3) (s : ranges),
  (forall (k : option R) (cs : list cell), scan k s = Some cs -> exists inv : cell -> cell, closed_images cs tr0 rot inv) ->
  is_erfc erfc ->
  (forall c : R, cut = Some c -> c <> 0) ->
  forall (r u : nat -> v3) (q : vec) (l : list neighbour) (L : R -> list neighbour),
  regular N r tr0 rot s cut ->
  get_neighbours N r tr0 rot cut s = Some l ->
  (forall t : R, get_neighbours N (moved r u t) tr0 rot cut s = Some (L t)) ->
  derivable_pt_lim (fun t : R => direct_energy erfc cut N (L t) q) 0
    (- rsum N (fun i : nat => rsum 3 (fun c : nat => direct_force erfc cut l q c i * comp c (u i)))).
Proof. exact direct_forces. Qed.
Theorem C162_continuous_refuted :
  forall (erfc : R -> R) (k : R),
  is_erfc erfc ->
  0 < k ->
  exists eps : R,
    0 < eps /\
    (forall (d : R) (l : list neighbour),
     0 < d ->
     get_neighbours 2 (dimer_at d) (fun _ : cell => vzero) (fun _ : cell => eye) (Some k) one_cell = Some l ->
     (d < k -> eps <= direct_phi erfc (Some k) l (fun _ : nat => 1) 0) /\ (k <= d -> direct_phi erfc (Some k) l (fun _ : nat => 1) 0 = 0)).
Proof. exact cutoff_refuted. Qed.
(** C163: forces of whole calculations.  Cases: ex_path, gd_smooth, gd_charges, ex_sound, ex_one_table *)
Theorem C163_forces :
  forall (z : InvSpec.lapack) (evmin : (nat -> nat -> cplx) -> R) (w0 : nat -> nat -> R) (MAXE : R)
    (brentq : (R -> R) -> R -> R -> R -> option R) (tol_norm tol_mull tol_im Hartree Bohr : R) (erfc : R -> R) (gaussian : bool)
    (gamma_cut : option R) (goal width sepsilon : R) (scc : bool) (D : database) (g : structure) (I c : nat) (eps : R) 
    (X : R -> system) (dq : R -> vec) (W : R -> nat -> nat -> nat -> cplx) (res : R -> result) (inv : nat -> nat),
  smooth_path z evmin w0 MAXE brentq tol_norm tol_mull tol_im Hartree Bohr erfc gaussian gamma_cut goal width sepsilon scc D g I c eps X dq W
    res ->
  0 <= tol_norm ->
  0 < Bohr ->
  0 < width ->
  sound D g inv ->
  one_table D ->
  smooth Bohr D g ->
  (I < g_N g)%nat ->
  (c < 3)%nat -> scc = false -> derivable_pt_lim (fun s : R => free_energy Hartree width (X s) (res s)) 0 (- r_force (res 0) c I).
Proof. exact free_forces_plain. Qed.
Theorem C163_forces_scc :
  forall (z : InvSpec.lapack) (evmin : (nat -> nat -> cplx) -> R) (w0 : nat -> nat -> R) (MAXE : R)
    (brentq : (R -> R) -> R -> R -> R -> option R) (tol_norm tol_mull tol_im Hartree Bohr : R) (erfc : R -> R) (gaussian : bool)
    (gamma_cut : option R) (goal width sepsilon : R) (scc : bool) (D : database) (g : structure) (I c : nat) (eps : R) 
    (X : R -> system) (dq : R -> vec) (W : R -> nat -> nat -> nat -> cplx) (res : R -> result) (inv : nat -> nat),
  smooth_path z evmin w0 MAXE brentq tol_norm tol_mull tol_im Hartree Bohr erfc gaussian gamma_cut goal width sepsilon scc D g I c eps X dq W
    res ->
  0 <= tol_norm ->
  0 < Bohr ->
  0 < width ->
  sound D g inv ->
  one_table D ->
  smooth Bohr D g ->
  (I < g_N g)%nat ->
  (c < 3)%nat ->
  is_erfc erfc ->
  smooth_charges gaussian gamma_cut goal D g ->
  scc = true -> derivable_pt_lim (fun s : R => free_energy Hartree width (X s) (res s)) 0 (- r_force (res 0) c I).
Proof. exact free_forces_scc. Qed.
Print Assumptions C162_sum.
Print Assumptions C162_potential.
Print Assumptions C162_energy.
Print Assumptions C162_symmetric.
Print Assumptions C162_forces.
Print Assumptions C162_continuous_refuted.
Print Assumptions C163_forces.
Print Assumptions C163_forces_scc.
