From Coq Require Import Reals ZArith List Bool Arith.
From Verif Require Import Vec GeomModel GamSpec EwModel EwSpec EwProofs EwProofs2 EwProofs3 EwProofs4.
Import ListNotations.
Open Scope R_scope.

(** C96.  Case: pair_defined in EwProofs3 *)
Theorem C96_defined : forall erfc acc weight n cell r q,
  update erfc acc weight n cell r q <> None <->
  forall i j t, (i < n)%nat -> (j < n)%nat -> t = (0, 0, 0)%Z \/ In t (r_range acc weight n cell) -> t <> (0, 0, 0)%Z \/ i <> j -> r i <> vadd (translation cell t) (r j).
Proof. exact update_defined. Qed.
Theorem C96_linear : forall erfc acc weight n cell r q q' phi phi' c,
  update erfc acc weight n cell r q = Some phi -> update erfc acc weight n cell r q' = Some phi' ->
  exists psi, update erfc acc weight n cell r (fun i => c * q i + q' i) = Some psi /\ forall i, (i < n)%nat -> psi i = c * phi i + phi' i.
Proof. exact update_linear. Qed.
Theorem C96_reciprocal : forall erfc acc weight n cell r q q' phi phi',
  update erfc acc weight n cell r q = Some phi -> update erfc acc weight n cell r q' = Some phi' ->
  rsum n (fun i => q' i * phi i) = rsum n (fun i => q i * phi' i).
Proof. exact update_reciprocal. Qed.
Theorem C96_moved : forall erfc acc weight n cell r q d,
  match update erfc acc weight n cell r q, update erfc acc weight n cell (fun i => vadd (r i) d) q with
  | Some phi, Some psi => forall i, (i < n)%nat -> psi i = phi i
  | None, None => True
  | _, _ => False
  end.
Proof. exact update_moved. Qed.
Theorem C96_energy_moved : forall erfc acc weight n cell ha bo r q d,
  energy erfc acc weight n cell ha bo (fun i => vadd (r i) d) q = energy erfc acc weight n cell ha bo r q.
Proof. exact energy_moved. Qed.
Theorem C96_energy_charge : forall erfc acc weight n cell ha bo r q e phi k c,
  (k < n)%nat -> energy erfc acc weight n cell ha bo r q = Some e -> update erfc acc weight n cell r q = Some phi ->
  exists e' s, energy erfc acc weight n cell ha bo r (fun i => if (i =? k)%nat then q i + c else q i) = Some e' /\ e' = e + ha * bo * (c * phi k + s * c ^ 2).
Proof. exact energy_charge. Qed.
Theorem C96_own_potential : forall erfc acc weight n cell r u i j phi,
  is_erfc erfc -> (i < n)%nat -> (j < n)%nat -> i <> j -> vnorm u = 1 ->
  update erfc acc weight n cell r (fun k => if (k =? i)%nat then 1 else 0) = Some phi ->
  forall eps, 0 < eps -> exists del, 0 < del /\ forall s psi, 0 < s < del ->
  update erfc acc weight n cell (fun k => if (k =? j)%nat then vadd (r i) (vscale s u) else r k) (fun k => if (k =? j)%nat then 1 else 0) = Some psi ->
  Rabs (psi i - / s - phi i) < eps.
Proof. exact own_potential. Qed.
Theorem C96_long_range : forall acc weight n cell r q i,
  det cell <> 0 -> q i = 0 ->
  exists (F' : v3 -> R -> R) (F'' : v3 -> R),
  (forall u s, derivable_pt_lim (fun s => phi_rec acc weight n cell (placed_at r i (vadd (r i) (vscale s u))) q i) s (F' u s)) /\
  (forall u, derivable_pt_lim (F' u) 0 (F'' u)) /\
  F'' (V3 1 0 0) + F'' (V3 0 1 0) + F'' (V3 0 0 1) = - (4 * PI) * smeared acc weight n cell r q (r i).
Proof. exact poisson. Qed.
(** C97.  Case: cube_ok *)
Theorem C97_waves : forall cell t,
  det cell <> 0 -> symmetric cell -> has_periods cell (wave cell t) t.
Proof. exact wave_symmetric. Qed.
Theorem C97_periodic : forall cell t,
  det cell <> 0 -> symmetric cell -> periodic_wave cell (wave cell t).
Proof. exact wave_periodic. Qed.
Theorem C97_long_range : forall acc weight n cell r (s : nat -> Z * Z * Z) q i,
  det cell <> 0 -> symmetric cell ->
  phi_rec acc weight n cell (fun j => vadd (r j) (translation cell (s j))) q i = phi_rec acc weight n cell r q i.
Proof. exact long_range. Qed.
Theorem C97_waves_refuted : forall acc weight n,
  exists cell t, det cell = 1 /\ In t (g_range acc weight n cell) /\ ~ periodic_wave cell (wave cell t).
Proof. exact waves_wrong. Qed.
(** C98.  Case: cube_ok *)
Theorem C98_tails : forall acc weight n cell,
  0 < acc ->
  (forall r, r_cutoff acc weight n cell < r -> exp (- (sqrt (alpha weight n cell) * r) ^ 2) < Rpower 10 (- acc)) /\
  (forall g, g_cutoff acc weight n cell < vnorm g -> exp (- vdot g g / (4 * alpha weight n cell)) < Rpower 10 (- acc)).
Proof. exact tails. Qed.
Theorem C98_images : forall acc weight n cell t,
  det cell <> 0 -> orthogonal_cell cell -> vnorm (translation cell t) <= r_cutoff acc weight n cell -> In t (r_range acc weight n cell).
Proof. exact real_complete. Qed.
Theorem C98_waves : forall acc weight n cell g t,
  det cell <> 0 -> orthogonal_cell cell -> has_periods cell g t -> vnorm g <= g_cutoff acc weight n cell -> In t (g_range acc weight n cell).
Proof. exact wave_complete. Qed.
Theorem C98_images_refuted :
  exists acc weight n cell t, 0 < acc /\ 0 < weight /\ (0 < n)%nat /\ det cell = 1 /\
  vnorm (translation cell t) < r_cutoff acc weight n cell / 2 /\ ~ In t (r_range acc weight n cell).
Proof. exact images_missing. Qed.
Theorem C98_waves_refuted :
  exists acc weight n cell g t, 0 < acc /\ 0 < weight /\ (0 < n)%nat /\ det cell = 1 /\
  has_periods cell g t /\ vnorm g <= g_cutoff acc weight n cell /\ ~ In t (g_range acc weight n cell).
Proof. exact waves_missing. Qed.
Print Assumptions C96_defined.
Print Assumptions C96_linear.
Print Assumptions C96_reciprocal.
Print Assumptions C96_moved.
Print Assumptions C96_energy_moved.
Print Assumptions C96_energy_charge.
Print Assumptions C96_own_potential.
Print Assumptions C96_long_range.
Print Assumptions C97_waves.
Print Assumptions C97_periodic.
Print Assumptions C97_long_range.
Print Assumptions C97_waves_refuted.
Print Assumptions C98_tails.
Print Assumptions C98_images.
Print Assumptions C98_waves.
Print Assumptions C98_images_refuted.
Print Assumptions C98_waves_refuted.
