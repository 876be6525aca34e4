(** k-points of whole calculations, and band energies at other k-points.
    hotbit/states.py 79-175, 190-212, 273-282, hotbit/interactions.py 277-419, hotbit/auxil.py 4-18, hotbit/aseinterface.py 488-513, hotbit/grids.py 135-200 *)
From Coq Require Import Reals ZArith String List Bool Arith.
From Verif Require Import Vec GeomModel UtilModel KptModel CoulModel MixModel OccModel PairModel SkModel Cpx RhoModel EigModel GamModel InvModel.
Import ListNotations.
Open Scope R_scope.

(** el.ntuples: numbers of operations; elements.py 190, 224 *)
Definition ntuple : Type := (Z * Z * Z)%type.
Definition real_tuple (n : ntuple) : v3 := let '(a, b, c) := n in V3 (IZR a) (IZR b) (IZR c).
(** np.exp(1j*np.dot(nt,k)); interactions.py 313-314 *)
Definition phase_at (nt : ntuple) (k : v3) : cplx := let x := vdot (real_tuple nt) k in (cos x, sin x).
(** the structure with the images nt at the k-points ks and their weights (get_matrices 289-295, 308-317) *)
Definition at_kpoints (g : structure) (nt : nat -> ntuple) (ks : list v3) (wk : list R) : structure :=
  Structure (g_N g) (g_r g) (g_kind g) (g_nimg g) (g_O g) (g_t g) (g_DT g)
    (List.length ks) (fun k n => phase_at (nt n) (nth k ks vzero)) (fun k => nth k wk 0)
    (g_ranges g) (g_tr0 g) (g_rot g) (g_pp g) (g_dpp g) (g_rc g) (g_ext g) (g_charge g).

(** the parameter kpts: a tuple of numbers or a list of points *)
Inductive kpts_arg := KMesh (n1 n2 n3 : Z) | KList (l : list v3).
(** setup_k_sampling, states.py 79-175: points and weights.  None: an exception *)
Definition k_sampling (M : nat -> option Z) (table : nat -> option v3) (pbc : nat -> bool) (width : R) (physical rsk : bool) (bravais : option m3) (a : kpts_arg) : option (list (v3 * R)) :=
  match a with
  | KMesh n1 n2 n3 => match setup_mesh M table pbc width physical n1 n2 n3 with Some l => Some (map (fun o => (kpt o, wgt o)) l) | None => None end
  | KList l => setup_list pbc width rsk bravais l
  end.

Section Run.
Variables (erfc : R -> R) (Bohr Hartree : R) (gaussian : bool) (gamma_cut : option R) (goal width sepsilon : R) (scc : bool).
Variables (D : database) (g : structure) (nt : nat -> ntuple).
(** the matrices and everything else at given points *)
Definition system_at (l : list (v3 * R)) : option system :=
  assemble erfc Bohr Hartree gaussian gamma_cut goal width sepsilon scc D (at_kpoints g nt (map fst l) (map snd l)).
Variables (z : nat -> (nat -> cplx) -> (nat -> cplx) -> (nat -> R) -> Z * (nat -> cplx) * (nat -> R)) (evmin : (nat -> nat -> cplx) -> R) (w0 : nat -> nat -> R).
Variables (MAXE : R) (brentq : (R -> R) -> R -> R -> R -> option R) (m : mixer) (tol_norm tol_mull tol_im : R) (maxiter : nat).
(** States.solve with the points of setup_k_sampling, states.py 190-212 *)
Definition run_at (s : mst m) (dq : vec) (l : option (list (v3 * R))) : answer :=
  match l with
  | None => Exception
  | Some l =>
      match system_at l with
      | None => Exception
      | Some X => calculate z evmin w0 MAXE brentq m tol_norm tol_mull tol_im Hartree Bohr scc maxiter X s dq
      end
  end.
End Run.

(** ** band energies *)
(** what get_band_energies finds in the calculator: st.e, the Fermi level in Hartree, es.h1 (None: the attribute was never set, without SCC), and
    the list of points for which ia.phases was computed last *)
Record solved := Solved_state { b_e : nat -> nat -> R; b_mu : R; b_h1 : option (nat -> nat -> R); b_phases : list v3 }.
Inductive banderr := Unbound | NotBravais | NoH1 | Failed.
Section Bands.
Variables (erfc : R -> R) (Bohr Hartree : R) (gaussian : bool) (gamma_cut : option R) (goal width sepsilon : R).
Variables (D : database) (g : structure) (nt : nat -> ntuple) (bravais : option m3).
Variables (z : nat -> (nat -> cplx) -> (nat -> cplx) -> (nat -> R) -> Z * (nat -> cplx) * (nat -> R)) (evmin : (nat -> nat -> cplx) -> R) (w0 : nat -> nat -> R) (tol_norm : R).
(** ia.get_matrices(kpts), interactions.py 277-419; None: an exception.  Weights and everything that is not a matrix are not used *)
Definition matrices_at (ks : list v3) : option system :=
  assemble erfc Bohr Hartree gaussian gamma_cut goal width sepsilon false D (at_kpoints g nt ks []).
(** the rest of States.get_band_energies, states.py 278-282 *)
Definition bands_of (X : system) (H1 : option (nat -> nat -> R)) : option (nat -> nat -> R) :=
  match all_k z (s_norb X) (s_nk X) tol_norm evmin w0 (s_H0 X) (s_S X) H1 with inr (e, _) => Some e | inl _ => None end.
(** k_to_kappa_points, auxil.py 4-18: rows of L are the cell vectors *)
Definition k_to_kappa (ks : list v3) : option (list v3) := match bravais with None => None | Some L => Some (map (mv L) ks) end.
(** Hotbit.get_band_energies, aseinterface.py 488-513, in eV: the energies and what ia.phases belongs to afterwards (interactions.py 317) *)
Definition get_band_energies (st : solved) (kpts : option (list v3)) (shift : bool) (rs : string) (h1 : bool) : banderr + ((nat -> nat -> R) * list v3) :=
  let out := fun (e : nat -> nat -> R) ph => inr ((fun k a => e k a * Hartree - (if shift then b_mu st * Hartree else 0)), ph) in
  match kpts with
  | None => out (b_e st) (b_phases st)
  | Some ks =>
      let klist := if (rs =? "k")%string then match k_to_kappa ks with Some l => inr l | None => inl NotBravais end
                   else if (rs =? "kappa")%string then inr ks else inl Unbound in
      match klist with
      | inl x => inl x
      | inr l =>
          match matrices_at l with
          | None => inl Failed
          | Some X =>
              match h1, b_h1 st with
              | true, None => inl NoH1
              | true, Some h => match bands_of X (Some h) with Some e => out e l | None => inl Failed end
              | false, _ => match bands_of X None with Some e => out e l | None => inl Failed end
              end
          end
      end
  end.
(** the calculator after States.solve with the points ks: the last pass p and the chemical potential.  es.h1 is assigned in construct_h1, which only
    SCC calculations call (solver.py 76; electrostatics.py 216-243) *)
Definition kept (scc : bool) (p : passed) (mu : R) (ks : list v3) : solved :=
  let '(h1, e, _) := p in Solved_state e mu (if scc then Some h1 else None) ks.
(** the phases used by get_grid_basis_orbital for k-point k, grids.py 146: ia.get_phases()[:,k]; None: IndexError *)
Definition grid_phases (phases : list v3) (k : nat) : option (nat -> cplx) :=
  match nth_error phases k with Some p => Some (fun n => phase_at (nt n) p) | None => None end.
End Bands.
