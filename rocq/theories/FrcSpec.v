(** Forces as derivatives of the energy. *)
From Coq Require Import Reals ZArith List Bool Arith.
From Verif Require Import Vec GeomModel CoulModel PairModel PairSpec SkModel SkSpec Cpx RhoModel RhoSpec GamModel GamSpec EigModel OccModel InvModel InvSpec.
Import ListNotations.
Open Scope R_scope.

(** the interaction of unit charge i with the image of unit charge j in cell c at distance d *)
Definition interaction (erfc : R -> R) (cutoff : option R) (c : cell) (i j : nat) (d : R) : R :=
  if zero_cell c && (i =? j)%nat then 0 else
  match cutoff with None => / d | Some k => if Rlt_dec d k then erfc (d / k) / d else 0 end.
(** two atoms at distance d *)
Definition dimer_at (d : R) (j : nat) : v3 := match j with O => vzero | _ => V3 d 0 0 end.
(** positions of the images of atoms *)
Definition image_at (r : nat -> v3) (tr0 : cell -> v3) (rot : cell -> m3) (c : cell) (j : nat) : v3 := vadd (tr0 c) (mv (rot c) (r j)).
(** the structure with atom I moved by s (in Angstrom) along axis c *)
Definition displaced (g : structure) (I c : nat) (s : R) : structure :=
  Structure (g_N g) (moved (g_r g) (one I (axis c)) s) (g_kind g) (g_nimg g) (g_O g) (g_t g) (g_DT g) (g_nk g) (g_phase g) (g_wk g)
    (g_ranges g) (g_tr0 g) (g_rot g) (g_pp g) (g_dpp g) (g_rc g) (g_ext g) (g_charge g).
(** distance of atom i and image n of atom j in Bohr *)
Definition separation (Bohr : R) (g : structure) (n i j : nat) : R :=
  vnorm (vsub (vadd (mv (g_O g n) (g_r g j)) (g_t g n)) (g_r g i)) / Bohr.
(** no distance is at an end of a table or at the range of a potential, and the tables of derivatives contain derivatives *)
Record smooth (Bohr : R) (D : database) (g : structure) : Prop := {
  v_tables : forall i j n, (i < g_N g)%nat -> (j < g_N g)%nat -> (n < g_nimg g)%nat -> ~ (i = j /\ n = 0%nat) ->
    let d := separation Bohr g n i j in let K := g_kind g i in let L := g_kind g j in
    d <> d_r1 D K L /\ d <> d_r2 D K L /\
    (d_r1 D K L < d < d_r2 D K L -> forall q, (q < 14)%nat ->
      derivable_pt_lim (fun x => d_H D K L x q) d (d_dH D K L d q) /\ derivable_pt_lim (fun x => d_S D K L x q) d (d_dS D K L d q));
  v_rep : forall i j n, (i < g_N g)%nat -> (j < g_N g)%nat -> (n < g_nimg g)%nat -> ~ (i = j /\ n = 0%nat) ->
    let d := separation Bohr g n i j in let K := g_kind g i in let L := g_kind g j in
    d <> d_rmax D /\ (d < d_rmax D -> derivable_pt_lim (d_vrep D K L) d (d_dvrep D K L d));
  v_pp : forall i j n, (i < g_N g)%nat -> (j < g_N g)%nat -> (n < g_nimg g)%nat -> ~ (i = j /\ n = 0%nat) ->
    let d := separation Bohr g n i j in d <> g_rc g /\ (d < g_rc g -> derivable_pt_lim (g_pp g i j) d (g_dpp g i j d)) }.
(** the cutoff used for the gamma matrix *)
Definition gamma_cutoff (gaussian : bool) (gamma_cut : option R) (goal : R) (D : database) (g : structure) : option R :=
  used_cutoff (g_ranges g) gamma_cut
    (if gaussian then gauss_cutoff goal (rmaxn (g_N g - 1) (fun I => d_FWHM D (g_kind g I))) else slater_cutoff goal (rmin (g_N g - 1) (fun I => d_U D (g_kind g I)))).
(** the Coulomb interaction is smooth: no pair of charges coincides or is at a cutoff, positive widths, and the cells are a set of rigid motions closed under inversion *)
Record smooth_charges (gaussian : bool) (gamma_cut : option R) (goal : R) (D : database) (g : structure) : Prop := {
  k_gamma : regular (g_N g) (g_r g) (g_tr0 g) (g_rot g) (g_ranges g) (gamma_cutoff gaussian gamma_cut goal D g);
  k_direct : regular (g_N g) (g_r g) (g_tr0 g) (g_rot g) (g_ranges g) gamma_cut;
  k_cut : gamma_cut <> Some 0;
  k_width : forall I, (I < g_N g)%nat -> if gaussian then 0 < d_FWHM D (g_kind g I) else 0 < d_U D (g_kind g I);
  k_cells : forall k cs, scan k (g_ranges g) = Some cs -> exists inv, closed_images cs (g_tr0 g) (g_rot g) inv }.
(** ** Calculations while an atom is displaced *)
Section Path.
Context (z : lapack) (evmin : (nat -> nat -> cplx) -> R) (w0 : nat -> nat -> R) (MAXE : R) (brentq : (R -> R) -> R -> R -> R -> option R) (tol_norm tol_mull tol_im Hartree Bohr : R).
Context (erfc : R -> R) (gaussian : bool) (gamma_cut : option R) (goal width sepsilon : R) (scc : bool) (D : database) (g : structure) (I c : nat).
(** for displacements s of less than eps: the structure is accepted and gives the system X s; LAPACK solves its eigenvalue problem; one pass with the charges dq s (with
    SCC) ends with the result res s; W s are eigenstates varying differentiably.  W s need not be the states returned by LAPACK, whose phases are arbitrary.
    The occupations vary differentiably, with a constant number of electrons, and no state begins to be occupied; at s = 0 the charges are self-consistent *)
Record smooth_path (eps : R) (X : R -> system) (dq : R -> vec) (W : R -> nat -> nat -> nat -> cplx) (res : R -> result) : Prop := {
  y_eps : 0 < eps;
  y_system : forall s, Rabs s < eps -> assemble erfc Bohr Hartree gaussian gamma_cut goal width sepsilon scc D (displaced g I c s) = Some (X s);
  y_lapack : forall s, Rabs s < eps -> reliable z w0 (X s);
  y_solved : forall s, Rabs s < eps -> exists p, pass z evmin w0 tol_norm (X s) (if scc then Some (h1_of (X s) (dq s)) else None) = Some p /\
    finish MAXE brentq tol_mull tol_im Hartree Bohr scc (X s) p = Some (res s);
  y_states : forall s, Rabs s < eps -> orthonormal (s_norb (X s)) (s_nk (X s)) (s_S (X s)) (W s) /\
    forall k a, (k < s_nk (X s))%nat -> (a < s_norb (X s))%nat ->
    RhoSpec.eigenstate (s_norb (X s)) (s_H0 (X s) k) (s_S (X s) k) (if scc then h1_of (X s) (dq s) else fun _ _ => 0) (W s k a) (r_e (res s) k a);
  y_W : forall k a i, (k < s_nk (X 0%R))%nat -> (a < s_norb (X 0%R))%nat -> (i < s_norb (X 0%R))%nat -> exists d, cderivative (fun s => W s k a i) 0 d;
  y_f : forall k a, (k < s_nk (X 0%R))%nat -> (a < s_norb (X 0%R))%nat -> exists d, derivable_pt_lim (fun s => r_f (res s) k a) 0 d;
  y_filling : forall s, Rabs s < eps -> filling (s_norb (X 0%R)) (s_nk (X 0%R)) (s_wk (X 0%R)) (r_f (res s)) = filling (s_norb (X 0%R)) (s_nk (X 0%R)) (s_wk (X 0%R)) (r_f (res 0));
  y_empty : forall k a, (k < s_nk (X 0%R))%nat -> (a < s_norb (X 0%R))%nat -> r_f (res 0) k a <> 0 \/ forall s, Rabs s < eps -> r_f (res s) k a = 0;
  y_scc : scc = true -> forall J, (J < g_N g)%nat -> r_dq (res 0) J = dq 0 J;
  y_ext : scc = true -> forall J, (J < g_N g)%nat -> g_ext g J = 0 }.
(** the free energy in eV *)
Definition free_energy (X : system) (r : result) : R := r_epot r - width * fermi_entropy (s_norb X) (s_nk X) (s_wk X) (r_f r) * Hartree.
End Path.
