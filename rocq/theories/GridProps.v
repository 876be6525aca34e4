From Coq Require Import Reals ZArith List Bool Arith.
From Verif Require Import Vec GeomModel GeomSpec OccModel GridModel GridSpec GridProofs.
Import ListNotations.
Open Scope R_scope.

(** C35: with real phases the array of a basis orbital is, at every grid point, the sum over the images near the cell
    of phase times the orbital centred at the grid point next to the image; nothing is read or written outside *)
Theorem C35_basis_orbital L dr cutoff n m pwf images : positive3 dr -> nonneg3 m ->
  Forall (fun rp => snd (snd rp) = 0) images ->
  exists wf l, basis_orbital L dr cutoff n (odd3 m) pwf images = Some wf /\ placed L dr cutoff images l /\
    forall g, on_grid n g -> bloch m pwf l g = (wf g, 0).
Proof. exact (basis_orbital_real L dr cutoff n m pwf images). Qed.
Theorem C35_left_out L cutoff r p : ~ near_cell L cutoff r -> 0 <= vx p <= vx L -> 0 <= vy p <= vy L -> 0 <= vz p <= vz L ->
  0 <= cutoff -> cutoff < vnorm (vsub p r).
Proof. exact (left_out_far L cutoff r p). Qed.
Theorem C35_slices n m c a1 a2 b1 b2 : (0 <= m -> slices n (2 * m + 1) c = Some (a1, a2, b1, b2) ->
  0 <= a1 <= a2 /\ a2 < n /\ 0 <= b1 <= b2 /\ b2 < 2 * m + 1 /\ b2 - b1 = a2 - a1 /\ b1 - a1 = m - c /\
  (forall g, 0 <= g < n -> (a1 <= g <= a2 <-> Z.abs (g - c) <= m)))%Z.
Proof. exact (slices_some n m c a1 a2 b1 b2). Qed.
Theorem C35_partial_grid_odd cutoff dr : 0 <= cutoff -> 0 < dr -> exists m, (0 <= m)%Z /\ partial_points cutoff dr = (2 * m + 1)%Z /\
  cutoff - 3 / 4 * dr <= IZR m * dr <= cutoff + dr / 4.
Proof. exact (partial_odd cutoff dr). Qed.
Theorem C35_partial_grid_centred m dr c g : pgrid (2 * m + 1) dr (g - c + m) = (IZR g - IZR c) * dr.
Proof. exact (pgrid_centred m dr c g). Qed.

(** C36 *)
Theorem C36_density_single_partial l d : Forall (fun kf => filled 1 (snd kf)) l -> density 0 l d 0 = true_density 0 l d.
Proof. exact (density_one l d). Qed.
Theorem C36_density_half l d : Forall (fun kf => filled 2 (snd kf)) l -> 2 * density 0 l d 0 = true_density 0 l d.
Proof. exact (density_two l d). Qed.
Theorem C36_density_refuted : exists l d, Forall (fun kf => filled 2 (snd kf)) l /\ true_density 0 l d = 2 /\ density 0 l d 0 = 1.
Proof. exact density_half. Qed.

(** C70: the grid covers the cell, but its spacing is not the one asked for *)
Theorem C70_grid_covers L h : points L h <> 1%Z -> IZR (points L h - 1) * spacing L h = L.
Proof. exact (spacing_covers L h). Qed.
Theorem C70_spacing_refuted L h bohr : 0 < h -> 10 * h <= L -> 0 < bohr <= 53 / 100 -> 0 < spacing L h * bohr < 63 / 100 * h.
Proof. exact (spacing_wrong L h bohr). Qed.

(** C71 *)
Theorem C71_weights ff H wk e f bias window w : (forall x, 0 <= ff x <= 1) -> 0 <= wk -> 0 <= f <= 2 ->
  ldos_weight ff H wk e f bias window = Some w -> 0 <= w <= 2 * wk.
Proof. exact (ldos_range ff H wk e f bias window w). Qed.
Theorem C71_bias H wk e mu bias : 0 < H -> / 10 ^ 4 <= 2 * wk ->
  let ff x := if ltb x mu then 1 else 0 in
  let f := if ltb e mu then 2 else 0 in
  ldos_weight ff H wk e f (Some bias) None =
    Some (if (leb (mu + bias / H) e && ltb e mu) || (leb mu e && ltb e (mu + bias / H)) then 2 * wk else 0).
Proof. exact (ldos_sharp H wk e mu bias). Qed.
Theorem C71_window_partial ff H wk e f lo hi : / 10 ^ 4 <= 2 * wk ->
  ldos_weight ff H wk e f None (Some (lo, hi)) = Some (if leb (lo / H) e && leb e (hi / H) then 2 * wk else 0).
Proof. exact (ldos_window_abs ff H wk e f lo hi). Qed.
Theorem C71_window_refuted ff : exists mu lo hi e, lo <= e - mu <= hi /\
  ldos_weight ff 1 1 e 1 None (Some (lo, hi)) = Some 0.
Proof. exact (ldos_window_fermi ff). Qed.
Theorem C71_window_units_refuted ff : exists H lo hi e, 27 < H < 28 /\ lo <= e * H <= hi /\
  ldos_weight ff H 1 e 1 None (Some (lo, hi)) = Some 2 /\ ldos_weight ff H 1 e 1 (Some 1) (Some (lo, hi)) = Some 0.
Proof. exact (ldos_window_units ff). Qed.

(** C72 *)
Theorem C72_angular_partial r wf : (wf <= 8)%nat -> / 10 ^ 14 <= vnorm r -> resolved (vx r) -> resolved (vy r) ->
  angular r wf = Some (harmonic r wf).
Proof. exact (angular_harmonic r wf). Qed.
Theorem C72_nucleus_refuted : angular vzero 0 = Some 0 /\ harmonic vzero 0 <> 0.
Proof. exact angular_nucleus. Qed.

(** C73 *)
Theorem C73_real_part L dr cutoff n m pwf images : positive3 dr -> nonneg3 m ->
  exists wf l, basis_orbital L dr cutoff n (odd3 m) pwf images = Some wf /\ placed L dr cutoff images l /\
    forall g, on_grid n g -> wf g = fst (bloch m pwf l g).
Proof. exact (basis_orbital_value L dr cutoff n m pwf images). Qed.
Theorem C73_complex_phases_refuted : exists L dr cutoff n m pwf images g, positive3 dr /\ nonneg3 m /\ on_grid n g /\
  exists wf, basis_orbital L dr cutoff n (odd3 m) pwf images = Some wf /\
  forall l, placed L dr cutoff images l -> bloch m pwf l g = (0, 1) /\ bloch m pwf l g <> (wf g, 0) /\ wf g = 0.
Proof. exact complex_lost. Qed.
Print Assumptions C35_basis_orbital.
Print Assumptions C35_left_out.
Print Assumptions C35_slices.
Print Assumptions C35_partial_grid_odd.
Print Assumptions C35_partial_grid_centred.
Print Assumptions C36_density_single_partial.
Print Assumptions C36_density_half.
Print Assumptions C36_density_refuted.
Print Assumptions C70_grid_covers.
Print Assumptions C70_spacing_refuted.
Print Assumptions C71_weights.
Print Assumptions C71_bias.
Print Assumptions C71_window_partial.
Print Assumptions C71_window_refuted.
Print Assumptions C71_window_units_refuted.
Print Assumptions C72_angular_partial.
Print Assumptions C72_nucleus_refuted.
Print Assumptions C73_real_part.
Print Assumptions C73_complex_phases_refuted.
