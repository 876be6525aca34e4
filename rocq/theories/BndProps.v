From Coq Require Import Reals ZArith String List Bool Arith.
From Verif Require Import InvModel InvSpec Vec GeomModel UtilModel KptModel KptSpec CoulModel MixModel OccModel PairModel PairSpec SkModel SkSpec Cpx RhoModel RhoSpec EigModel EigSpec GamModel BndModel BndSpec BndProofs2 BndProofs3 BndProofs4 BndProofs5 BndProofs6.
Import ListNotations.
Open Scope R_scope.

(** C174: k-points that stand for others.  Cases: ex_mesh, spacing, sound1, ex_chain_reliable, BndProofs5.system1 *)
Theorem C174_reduction :
  forall (c : nat -> nat) (b : nat -> bool) (X Y : system) (z z' : InvSpec.lapack) (w0 w0' : nat -> nat -> R)
    (evmin evmin' : (nat -> nat -> cplx) -> R) (MAXE : R) (brentq : (R -> R) -> R -> R -> R -> option R) (m : mixer)
    (tol_norm tol_mull tol_im Hartree Bohr : R) (scc : bool) (maxiter : nat) (ms : mst m) (u v : nat -> R),
  stands_for c b X Y ->
  well_formed X ->
  proper X ->
  proper Y ->
  reliable z w0 X ->
  reliable z' w0' Y ->
  0 <= tol_norm ->
  InvSpec.fresh (s_N X) m ms ->
  (forall I : nat, (I < s_N X)%nat -> v I = u I) ->
  same_observation c b X (calculate z evmin w0 MAXE brentq m tol_norm tol_mull tol_im Hartree Bohr scc maxiter X ms u)
    (calculate z' evmin' w0' MAXE brentq m tol_norm tol_mull tol_im Hartree Bohr scc maxiter Y ms v).
Proof. exact reduction_exact. Qed.
Theorem C174_lists :
  forall (erfc : R -> R) (Bohr Hartree : R) (gaussian : bool) (gamma_cut : option R) (goal width sepsilon : R) (scc : bool) 
    (D : database) (g : structure) (nt : nat -> ntuple) (inv : nat -> nat) (z z' : InvSpec.lapack) (w0 w0' : nat -> nat -> R)
    (evmin evmin' : (nat -> nat -> cplx) -> R) (MAXE : R) (brentq : (R -> R) -> R -> R -> R -> option R) (m : mixer)
    (tol_norm tol_mull tol_im : R) (maxiter : nat) (ms : mst m) (u v : nat -> R) (c : nat -> nat) (b : nat -> bool) 
    (l l' : list (v3 * R)),
  covers c b l l' ->
  sound_images D g nt inv ->
  0 <= tol_norm ->
  InvSpec.fresh (g_N g) m ms ->
  (forall I : nat, (I < g_N g)%nat -> v I = u I) ->
  (forall X : system, system_at erfc Bohr Hartree gaussian gamma_cut goal width sepsilon scc D g nt l = Some X -> reliable z w0 X) ->
  (forall Y : system, system_at erfc Bohr Hartree gaussian gamma_cut goal width sepsilon scc D g nt l' = Some Y -> reliable z' w0' Y) ->
  let run := run_at erfc Bohr Hartree gaussian gamma_cut goal width sepsilon scc D g nt in
  let x := run z evmin w0 MAXE brentq m tol_norm tol_mull tol_im maxiter ms u (Some l) in
  let y := run z' evmin' w0' MAXE brentq m tol_norm tol_mull tol_im maxiter ms v (Some l') in
  match system_at erfc Bohr Hartree gaussian gamma_cut goal width sepsilon scc D g nt l with
  | Some X => same_observation c b X x y
  | None => x = Exception /\ y = Exception
  end.
Proof. exact runs_alike. Qed.
Theorem C174_mesh_covers :
  forall (M : nat -> option Z) (table : nat -> option v3) (pbc : nat -> bool) (width : R) (physical : bool) (n1 n2 n3 : Z) (l : list kentry),
  e10 < 2 * PI / IZR n1 ->
  e10 < 2 * PI / IZR n2 ->
  e10 < 2 * PI / IZR n3 ->
  setup_mesh M table pbc width physical n1 n2 n3 = Some l ->
  exists (c : nat -> nat) (b : nat -> bool),
    covers c b (full_sampling M table n1 n2 n3) (map (fun o : kentry => (kpt o, wgt o)) l) /\
    (forall k : nat,
     (k < length (full_mesh M table n1 n2 n3))%nat ->
     (c k < length l)%nat /\
     nth k (full_mesh M table n1 n2 n3) vzero = (if b k then vneg (nth (c k) (map kpt l) vzero) else nth (c k) (map kpt l) vzero)).
Proof. exact mesh_covers. Qed.
Theorem C174_mesh_or_list :
  forall (erfc : R -> R) (Bohr Hartree : R) (gaussian : bool) (gamma_cut : option R) (goal width sepsilon : R) (scc : bool) 
    (D : database) (g : structure) (nt : nat -> ntuple) (inv : nat -> nat) (z z' : InvSpec.lapack) (w0 w0' : nat -> nat -> R)
    (evmin evmin' : (nat -> nat -> cplx) -> R) (MAXE : R) (brentq : (R -> R) -> R -> R -> R -> option R) (m : mixer)
    (tol_norm tol_mull tol_im : R) (maxiter : nat) (ms : mst m) (u v : nat -> R) (M : nat -> option Z) (table : nat -> option v3)
    (pbc : nat -> bool) (physical : bool) (bravais : option m3) (n1 n2 n3 : Z) (lm ll : list (v3 * R)),
  e10 < 2 * PI / IZR n1 ->
  e10 < 2 * PI / IZR n2 ->
  e10 < 2 * PI / IZR n3 ->
  k_sampling M table pbc width physical false bravais (KMesh n1 n2 n3) = Some lm ->
  k_sampling M table pbc width physical false bravais (KList (full_mesh M table n1 n2 n3)) = Some ll ->
  sound_images D g nt inv ->
  0 <= tol_norm ->
  InvSpec.fresh (g_N g) m ms ->
  (forall I : nat, (I < g_N g)%nat -> v I = u I) ->
  (forall X : system, system_at erfc Bohr Hartree gaussian gamma_cut goal width sepsilon scc D g nt ll = Some X -> reliable z w0 X) ->
  (forall Y : system, system_at erfc Bohr Hartree gaussian gamma_cut goal width sepsilon scc D g nt lm = Some Y -> reliable z' w0' Y) ->
  let run := run_at erfc Bohr Hartree gaussian gamma_cut goal width sepsilon scc D g nt in
  let x := run z evmin w0 MAXE brentq m tol_norm tol_mull tol_im maxiter ms u (Some ll) in
  let y := run z' evmin' w0' MAXE brentq m tol_norm tol_mull tol_im maxiter ms v (Some lm) in
  exists (c : nat -> nat) (b : nat -> bool),
    (forall k : nat,
     (k < length ll)%nat ->
     (c k < length lm)%nat /\
     nth k (map fst ll) vzero = (if b k then vneg (nth (c k) (map fst lm) vzero) else nth (c k) (map fst lm) vzero)) /\
    match system_at erfc Bohr Hartree gaussian gamma_cut goal width sepsilon scc D g nt ll with
    | Some X => same_observation c b X x y
    | None => x = Exception /\ y = Exception
    end.
Proof. exact mesh_or_list. Qed.
(** C175: band energies.  Cases: ex_same_point, bands_h1_refuted, phases_refuted, system1 *)
Theorem C175_same_points :
  forall (erfc : R -> R) (Bohr Hartree : R) (gaussian : bool) (gamma_cut : option R) (goal width sepsilon : R) (D : database) 
    (g : structure) (nt : nat -> ntuple) (inv : nat -> nat),
  sound_images D g nt inv ->
  forall (z z' : InvSpec.lapack) (evmin evmin' : (nat -> nat -> cplx) -> R) (w0 w0' : nat -> nat -> R) (tol_norm : R)
    (bravais bravais' : option m3) (st : solved) (ks ks' : list v3) (shift h1 : bool) (E : nat -> nat -> R) (ph : list v3)
    (E' : nat -> nat -> R) (ph' : list v3) (k j : nat),
  0 <= tol_norm ->
  (forall X : system, matrices_at erfc Bohr Hartree gaussian gamma_cut goal width sepsilon D g nt ks = Some X -> reliable z w0 X) ->
  (forall Y : system, matrices_at erfc Bohr Hartree gaussian gamma_cut goal width sepsilon D g nt ks' = Some Y -> reliable z' w0' Y) ->
  (forall h : nat -> nat -> R, b_h1 st = Some h -> forall i l : nat, h i l = h l i) ->
  get_band_energies erfc Bohr Hartree gaussian gamma_cut goal width sepsilon D g nt bravais z evmin w0 tol_norm st (Some ks) shift "kappa" h1 =
  inr (E, ph) ->
  get_band_energies erfc Bohr Hartree gaussian gamma_cut goal width sepsilon D g nt bravais' z' evmin' w0' tol_norm st 
    (Some ks') shift "kappa" h1 = inr (E', ph') ->
  (k < length ks)%nat ->
  (j < length ks')%nat ->
  same_point (nth j ks' vzero) (nth k ks vzero) -> forall a : nat, (a < first_orbital (g_no D g) (g_N g))%nat -> E k a = E' j a.
Proof. exact bands_periodic. Qed.
Theorem C175_found :
  forall (erfc : R -> R) (Bohr Hartree : R) (gaussian : bool) (gamma_cut : option R) (goal width sepsilon : R) (D : database) 
    (g : structure) (nt : nat -> ntuple) (inv : nat -> nat),
  sound_images D g nt inv ->
  forall (z : InvSpec.lapack) (evmin : (nat -> nat -> cplx) -> R) (w0 : nat -> nat -> R) (tol_norm : R) (bravais : option m3) 
    (st : solved) (ks : list v3) (shift h1 : bool) (X : system),
  0 <= tol_norm ->
  matrices_at erfc Bohr Hartree gaussian gamma_cut goal width sepsilon D g nt ks = Some X ->
  reliable z w0 X ->
  (forall h : nat -> nat -> R, b_h1 st = Some h -> forall i l : nat, h i l = h l i) ->
  (h1 = true -> b_h1 st <> None) ->
  exists E : nat -> nat -> R,
    get_band_energies erfc Bohr Hartree gaussian gamma_cut goal width sepsilon D g nt bravais z evmin w0 tol_norm st (Some ks) shift "kappa" h1 =
    inr (E, ks).
Proof. exact bands_found. Qed.
(** C176: band energies at the k-points of the calculation.  Cases: level_states, bands_h1_refuted *)
Theorem C176_after :
  forall (erfc : R -> R) (Bohr Hartree : R) (gaussian : bool) (gamma_cut : option R) (goal width sepsilon : R) (D : database) 
    (g : structure) (nt : nat -> ntuple) (inv : nat -> nat),
  sound_images D g nt inv ->
  forall (z z' : InvSpec.lapack) (evmin evmin' : (nat -> nat -> cplx) -> R) (w0 w0' : nat -> nat -> R) (tol_norm MAXE : R)
    (brentq : (R -> R) -> R -> R -> R -> option R) (tol_mull : R) (m : mixer) (scc : bool) (maxiter : nat) (ms : mst m) 
    (u : vec) (p : passed) (it : option nat) (n : nat) (mu : R) (l : list (v3 * R)) (X : system) (bravais : option m3) 
    (ks : list v3) (shift : bool) (E : nat -> nat -> R) (ph : list v3) (E0 : nat -> nat -> R) (ph0 : list v3) (k j : nat),
  0 <= tol_norm ->
  system_at erfc Bohr Hartree gaussian gamma_cut goal width sepsilon scc D g nt l = Some X ->
  reliable z w0 X ->
  (forall Y : system, matrices_at erfc Bohr Hartree gaussian gamma_cut goal width sepsilon D g nt ks = Some Y -> reliable z' w0' Y) ->
  get_states (fun dq : vec => pass z evmin w0 tol_norm X (Some (h1_of X dq))) (pass z evmin w0 tol_norm X None) (charges MAXE brentq tol_mull X)
    m scc maxiter ms u = (Returned p it, n) ->
  get_band_energies erfc Bohr Hartree gaussian gamma_cut goal width sepsilon D g nt bravais z' evmin' w0' tol_norm (kept scc p mu (map fst l))
    (Some ks) shift "kappa" scc = inr (E, ph) ->
  get_band_energies erfc Bohr Hartree gaussian gamma_cut goal width sepsilon D g nt bravais z' evmin' w0' tol_norm (kept scc p mu (map fst l))
    None shift "kappa" scc = inr (E0, ph0) ->
  (k < length ks)%nat ->
  (j < length l)%nat ->
  same_point (nth j (map fst l) vzero) (nth k ks vzero) -> forall a : nat, (a < first_orbital (g_no D g) (g_N g))%nat -> E k a = E0 j a.
Proof. exact bands_after. Qed.
Theorem C176_default_refuted :
  exists
    (D : database) (g : structure) (nt : nat -> ntuple) (inv : nat -> nat) (l : list (v3 * R)) (X : system) (z : InvSpec.lapack) 
  (evmin : (nat -> nat -> cplx) -> R) (w0 : nat -> nat -> R) (m : mixer) (ms : mst m) (p : passed) (it : option nat) 
  (n : nat) (E E0 : nat -> nat -> R) (ph ph0 : list v3),
    sound_images D g nt inv /\
    system_at (fun _ : R => 0) 1 1 true None 1 (/ 10) 0 true D g nt l = Some X /\
    (forall w1 : nat -> nat -> R, reliable z w1 X) /\
    InvSpec.fresh (g_N g) m ms /\
    get_states (fun dq : vec => pass z evmin w0 0 X (Some (h1_of X dq))) (pass z evmin w0 0 X None) (charges 100 midpoint 0 X) m true 50 ms
      (fun _ : nat => 0) = (Returned p it, n) /\
    get_band_energies (fun _ : R => 0) 1 1 true None 1 (/ 10) 0 D g nt None z evmin w0 0 (kept true p 0 (map fst l)) 
      (Some (map fst l)) false "kappa" false = inr (E, ph) /\
    get_band_energies (fun _ : R => 0) 1 1 true None 1 (/ 10) 0 D g nt None z evmin w0 0 (kept true p 0 (map fst l)) None false "kappa" false =
    inr (E0, ph0) /\ E 0%nat 0%nat <> E0 0%nat 0%nat.
Proof. exact bands_h1_refuted. Qed.
Theorem C176_no_scc :
  forall (erfc : R -> R) (Bohr Hartree : R) (gaussian : bool) (gamma_cut : option R) (goal width sepsilon : R) (D : database) 
    (g : structure) (nt : nat -> ntuple) (z : InvSpec.lapack) (evmin : (nat -> nat -> cplx) -> R) (w0 : nat -> nat -> R) 
    (tol_norm : R) (bravais : option m3) (p : passed) (mu : R) (l ks : list v3) (shift : bool) (X : system),
  matrices_at erfc Bohr Hartree gaussian gamma_cut goal width sepsilon D g nt ks = Some X ->
  get_band_energies erfc Bohr Hartree gaussian gamma_cut goal width sepsilon D g nt bravais z evmin w0 tol_norm (kept false p mu l) 
    (Some ks) shift "kappa" true = inl NoH1.
Proof. exact bands_no_h1. Qed.
(** C177: phases for wave functions on the grid *)
Theorem C177_kept :
  forall (erfc : R -> R) (Bohr Hartree : R) (gaussian : bool) (gamma_cut : option R) (goal width sepsilon : R) (D : database) 
    (g : structure) (nt : nat -> ntuple) (z : InvSpec.lapack) (evmin : (nat -> nat -> cplx) -> R) (w0 : nat -> nat -> R) 
    (tol_norm : R) (bravais : option m3) (st : solved) (shift : bool) (rs : string) (h1 : bool),
  exists E : nat -> nat -> R,
    get_band_energies erfc Bohr Hartree gaussian gamma_cut goal width sepsilon D g nt bravais z evmin w0 tol_norm st None shift rs h1 =
    inr (E, b_phases st).
Proof. exact phases_kept. Qed.
Theorem C177_replaced :
  forall (erfc : R -> R) (Bohr Hartree : R) (gaussian : bool) (gamma_cut : option R) (goal width sepsilon : R) (D : database) 
    (g : structure) (nt : nat -> ntuple) (z : InvSpec.lapack) (evmin : (nat -> nat -> cplx) -> R) (w0 : nat -> nat -> R) 
    (tol_norm : R) (bravais : option m3) (st : solved) (ks : list v3) (shift h1 : bool) (E : nat -> nat -> R) (ph : list v3) 
    (k : nat),
  get_band_energies erfc Bohr Hartree gaussian gamma_cut goal width sepsilon D g nt bravais z evmin w0 tol_norm st (Some ks) shift "kappa" h1 =
  inr (E, ph) -> grid_phases nt ph k = match nth_error ks k with
                                       | Some q => Some (fun n : nat => phase_at (nt n) q)
                                       | None => None
                                       end.
Proof. exact phases_replaced. Qed.
Theorem C177_unchanged_refuted :
  exists
    (D : database) (g : structure) (nt : nat -> ntuple) (inv : nat -> nat) (l : list (v3 * R)) (X : system) (z : InvSpec.lapack) 
  (evmin : (nat -> nat -> cplx) -> R) (w0 : nat -> nat -> R) (m : mixer) (ms : mst m) (p : passed) (it : option nat) 
  (n : nat) (ks : list v3) (E : nat -> nat -> R) (ph : list v3) (i : nat) (f f' : nat -> cplx),
    sound_images D g nt inv /\
    system_at (fun _ : R => 0) 1 1 true None 1 (/ 10) 0 false D g nt l = Some X /\
    (forall w1 : nat -> nat -> R, reliable z w1 X) /\
    InvSpec.fresh (g_N g) m ms /\
    get_states (fun dq : vec => pass z evmin w0 0 X (Some (h1_of X dq))) (pass z evmin w0 0 X None) (charges 100 midpoint 0 X) m false 50 ms
      (fun _ : nat => 0) = (Returned p it, n) /\
    get_band_energies (fun _ : R => 0) 1 1 true None 1 (/ 10) 0 D g nt None z evmin w0 0 (kept false p 0 (map fst l)) 
      (Some ks) false "kappa" false = inr (E, ph) /\
    (i < g_nimg g)%nat /\ grid_phases nt (b_phases (kept false p 0 (map fst l))) 0 = Some f /\ grid_phases nt ph 0 = Some f' /\ f i <> f' i.
Proof. exact phases_refuted. Qed.
(** C178: units of k-points.  Cases: ex_reciprocal *)
Theorem C178_bloch :
  forall (L : m3) (n : ntuple) (k : v3), phase_at n (mv L k) = bloch_factor L n k.
Proof. exact kappa_is_bloch. Qed.
Theorem C178_reciprocal :
  forall (erfc : R -> R) (Bohr Hartree : R) (gaussian : bool) (gamma_cut : option R) (goal width sepsilon : R) (D : database) 
    (g : structure) (nt : nat -> ntuple) (inv : nat -> nat) (z z' : InvSpec.lapack) (evmin evmin' : (nat -> nat -> cplx) -> R)
    (w0 w0' : nat -> nat -> R) (tol_norm : R) (L : m3) (st : solved) (ks ks' : list v3) (shift h1 : bool) (E : nat -> nat -> R) 
    (ph : list v3) (E' : nat -> nat -> R) (ph' : list v3) (k j : nat) (b : bool) (G : v3) (m : ntuple),
  sound_images D g nt inv ->
  0 <= tol_norm ->
  (forall X : system, matrices_at erfc Bohr Hartree gaussian gamma_cut goal width sepsilon D g nt (map (mv L) ks) = Some X -> reliable z w0 X) ->
  (forall Y : system, matrices_at erfc Bohr Hartree gaussian gamma_cut goal width sepsilon D g nt (map (mv L) ks') = Some Y -> reliable z' w0' Y) ->
  (forall h : nat -> nat -> R, b_h1 st = Some h -> forall i l : nat, h i l = h l i) ->
  get_band_energies erfc Bohr Hartree gaussian gamma_cut goal width sepsilon D g nt (Some L) z evmin w0 tol_norm st (Some ks) shift "k" h1 =
  inr (E, ph) ->
  get_band_energies erfc Bohr Hartree gaussian gamma_cut goal width sepsilon D g nt (Some L) z' evmin' w0' tol_norm st (Some ks') shift "k" h1 =
  inr (E', ph') ->
  (k < length ks)%nat ->
  (j < length ks')%nat ->
  mv L G = vscale (2 * PI) (real_tuple m) ->
  nth k ks vzero = vadd (if b then vneg (nth j ks' vzero) else nth j ks' vzero) G ->
  forall a : nat, (a < first_orbital (g_no D g) (g_N g))%nat -> E k a = E' j a.
Proof. exact bands_reciprocal. Qed.
Theorem C178_bravais :
  forall (erfc : R -> R) (Bohr Hartree : R) (gaussian : bool) (gamma_cut : option R) (goal width sepsilon : R) (D : database) 
    (g : structure) (nt : nat -> ntuple) (z : InvSpec.lapack) (evmin : (nat -> nat -> cplx) -> R) (w0 : nat -> nat -> R) 
    (tol_norm : R) (L : m3) (st : solved) (ks : list v3) (shift h1 : bool),
  get_band_energies erfc Bohr Hartree gaussian gamma_cut goal width sepsilon D g nt (Some L) z evmin w0 tol_norm st (Some ks) shift "k" h1 =
  get_band_energies erfc Bohr Hartree gaussian gamma_cut goal width sepsilon D g nt (Some L) z evmin w0 tol_norm st 
    (Some (map (mv L) ks)) shift "kappa" h1.
Proof. exact bands_bravais. Qed.
Theorem C178_not_bravais :
  forall (erfc : R -> R) (Bohr Hartree : R) (gaussian : bool) (gamma_cut : option R) (goal width sepsilon : R) (D : database) 
    (g : structure) (nt : nat -> ntuple) (z : InvSpec.lapack) (evmin : (nat -> nat -> cplx) -> R) (w0 : nat -> nat -> R) 
    (tol_norm : R) (st : solved) (ks : list v3) (shift h1 : bool),
  get_band_energies erfc Bohr Hartree gaussian gamma_cut goal width sepsilon D g nt None z evmin w0 tol_norm st (Some ks) shift "k" h1 =
  inl NotBravais.
Proof. exact bands_not_bravais. Qed.
Theorem C178_other :
  forall (erfc : R -> R) (Bohr Hartree : R) (gaussian : bool) (gamma_cut : option R) (goal width sepsilon : R) (D : database) 
    (g : structure) (nt : nat -> ntuple) (z : InvSpec.lapack) (evmin : (nat -> nat -> cplx) -> R) (w0 : nat -> nat -> R) 
    (tol_norm : R) (bravais : option m3) (st : solved) (ks : list v3) (shift : bool) (rs : string) (h1 : bool),
  rs <> "k"%string ->
  rs <> "kappa"%string ->
  get_band_energies erfc Bohr Hartree gaussian gamma_cut goal width sepsilon D g nt bravais z evmin w0 tol_norm st (Some ks) shift rs h1 =
  inl Unbound.
Proof. exact bands_other_rs. Qed.
Print Assumptions C174_reduction.
Print Assumptions C174_lists.
Print Assumptions C174_mesh_covers.
Print Assumptions C174_mesh_or_list.
Print Assumptions C175_same_points.
Print Assumptions C175_found.
Print Assumptions C176_after.
Print Assumptions C176_default_refuted.
Print Assumptions C176_no_scc.
Print Assumptions C177_kept.
Print Assumptions C177_replaced.
Print Assumptions C177_unchanged_refuted.
Print Assumptions C178_bloch.
Print Assumptions C178_reciprocal.
Print Assumptions C178_bravais.
Print Assumptions C178_not_bravais.
Print Assumptions C178_other.
