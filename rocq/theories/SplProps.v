(** C44 spline tables, C64 fast spline, C65 trilinear interpolation *)
From Coq Require Import Reals ZArith Bool Arith.
From Verif Require Import Vec GeomModel SplModel SplSpec SplProofs SplProofs2 SplProofs3.
Open Scope R_scope.

(** at every grid point but the first *)
Theorem C44_grid_partial : forall n x y h i, linear n x h -> (0 < i < n)%nat -> msf x y n (x i) = y i.
Proof. exact msf_grid. Qed.
Theorem C44_zero_above_partial : forall n x y v, increasing n x -> (0 < n)%nat -> x (n - 1)%nat < v -> msf x y n v = 0 /\ msf1 x y n v = 0 /\ msf2 x y n v = 0.
Proof. exact msf_above. Qed.
(** strictly inside the range, knots included *)
Theorem C44_derivative : forall n x y h v, linear n x h -> (1 < n)%nat -> x 0%nat < v < x (n - 1)%nat -> derivable_pt_lim (msf x y n) v (msf1 x y n v).
Proof. exact msf_derivative. Qed.
Theorem C44_second_derivative : forall n x y h v, linear n x h -> (1 < n)%nat -> x 0%nat < v < x (n - 1)%nat -> derivable_pt_lim (msf1 x y n) v (msf2 x y n v).
Proof. exact msf1_derivative. Qed.
Theorem C44_natural : forall n x y, (1 < n)%nat -> increasing n x -> natural_spline n x y (second x y n).
Proof. exact second_natural. Qed.
Theorem C44_natural_unique : forall n x y m m', (1 < n)%nat -> increasing n x -> natural_spline n x y m -> natural_spline n x y m' ->
  forall i, (i < n)%nat -> m i = m' i.
Proof. exact natural_unique. Qed.
(** at the first grid point and below it the last grid point is taken as the lower end of the interval *)
Theorem C44_below : forall n x y h v, linear n x h -> (1 < n)%nat -> v <= x 0%nat ->
  msf x y n v = ((x 0%nat - v) * y (n - 1)%nat - (x (n - 1)%nat - v) * y 0%nat) / h.
Proof. exact msf_below. Qed.
Theorem C44_first_point_refuted : exists n x h y, linear n x h /\ (1 < n)%nat /\ msf x y n (x 0%nat) <> y 0%nat.
Proof. exact msf_first_refuted. Qed.
Theorem C44_zero_below_refuted : exists n x h y v, linear n x h /\ (1 < n)%nat /\ v < x 0%nat /\ msf x y n v <> 0.
Proof. exact msf_below_refuted. Qed.

Theorem C64_no_assertion : forall g n x y v, described g n x -> (1 < n)%nat -> fsf g x y n v <> None /\ fsf1 g x y n v <> None /\ fsf2 g x y n v <> None.
Proof. intros g n x y v H Hn. repeat split; apply fast_total; assumption. Qed.
Theorem C64_grid_partial : forall g n x y i, described g n x -> (S i < n)%nat -> fsf g x y n (x i) = Some (y i).
Proof. exact fsf_grid. Qed.
Theorem C64_last_point_refuted : exists g n x y, described g n x /\ (1 < n)%nat /\ fsf g x y n (x (n - 1)%nat) <> Some (y (n - 1)%nat).
Proof. exact fsf_last_refuted. Qed.
Theorem C64_zero_outside : forall g n x y v, v < x 0%nat \/ x (n - 1)%nat < v -> fsf g x y n v = Some 0 /\ fsf1 g x y n v = Some 0 /\ fsf2 g x y n v = Some 0.
Proof. intros g n x y v [H|H]; repeat split; apply fast_out; [left|left|left|right|right|right]; try exact H; apply Rlt_le; exact H. Qed.
Theorem C64_derivative : forall n x y g v, described g n x -> (1 < n)%nat -> x 0%nat < v < x (n - 1)%nat ->
  exists d, fsf1 g x y n v = Some d /\ derivable_pt_lim (fun t => value (fsf g x y n t)) v d.
Proof. exact fsf_derivative. Qed.
Theorem C64_second_derivative : forall n x y g v, described g n x -> (1 < n)%nat -> x 0%nat < v < x (n - 1)%nat ->
  exists d, fsf2 g x y n v = Some d /\ derivable_pt_lim (fun t => value (fsf1 g x y n t)) v d.
Proof. exact fsf1_derivative. Qed.

(** for grids that start from the origin *)
Theorem C65_grid_partial : forall a n1 n2 n3 d i j k, (1 < n1)%nat -> (1 < n2)%nat -> (1 < n3)%nat -> 0 < vx d -> 0 < vy d -> 0 < vz d ->
  (i < n1)%nat -> (j < n2)%nat -> (k < n3)%nat ->
  trilinear a n1 n2 n3 vzero d (V3 (INR i * vx d) (INR j * vy d) (INR k * vz d)) = Some (a i j k).
Proof. exact trilinear_grid. Qed.
Theorem C65_bounds_partial : forall a n1 n2 n3 d r lo hi, (1 < n1)%nat -> (1 < n2)%nat -> (1 < n3)%nat -> 0 < vx d -> 0 < vy d -> 0 < vz d ->
  inside n1 0 (vx d) (vx r) = true -> inside n2 0 (vy d) (vy r) = true -> inside n3 0 (vz d) (vz r) = true ->
  (forall i j k, (i < n1)%nat -> (j < n2)%nat -> (k < n3)%nat -> lo <= a i j k <= hi) ->
  exists w, trilinear a n1 n2 n3 vzero d r = Some w /\ lo <= w <= hi.
Proof. exact trilinear_bounds. Qed.
Theorem C65_exact_partial : forall c n1 n2 n3 d r, (1 < n1)%nat -> (1 < n2)%nat -> (1 < n3)%nat -> 0 < vx d -> 0 < vy d -> 0 < vz d ->
  inside n1 0 (vx d) (vx r) = true -> inside n2 0 (vy d) (vy r) = true -> inside n3 0 (vz d) (vz r) = true ->
  trilinear (fun i j k => trilin c (INR i * vx d) (INR j * vy d) (INR k * vz d)) n1 n2 n3 vzero d r = Some (trilin c (vx r) (vy r) (vz r)).
Proof. exact trilinear_exact. Qed.
Theorem C65_origin_refuted : exists a n1 n2 n3 x0 d i j k, (1 < n1)%nat /\ (1 < n2)%nat /\ (1 < n3)%nat /\ 0 < vx d /\ 0 < vy d /\ 0 < vz d /\
  (i < n1)%nat /\ (j < n2)%nat /\ (k < n3)%nat /\
  trilinear a n1 n2 n3 x0 d (V3 (vx x0 + INR i * vx d) (vy x0 + INR j * vy d) (vz x0 + INR k * vz d)) <> Some (a i j k).
Proof. exact trilinear_origin_refuted. Qed.
Print Assumptions C44_grid_partial.
Print Assumptions C44_zero_above_partial.
Print Assumptions C44_derivative.
Print Assumptions C44_second_derivative.
Print Assumptions C44_natural.
Print Assumptions C44_natural_unique.
Print Assumptions C44_below.
Print Assumptions C44_first_point_refuted.
Print Assumptions C44_zero_below_refuted.
Print Assumptions C64_no_assertion.
Print Assumptions C64_grid_partial.
Print Assumptions C64_last_point_refuted.
Print Assumptions C64_zero_outside.
Print Assumptions C64_derivative.
Print Assumptions C64_second_derivative.
Print Assumptions C65_grid_partial.
Print Assumptions C65_bounds_partial.
Print Assumptions C65_exact_partial.
Print Assumptions C65_origin_refuted.
