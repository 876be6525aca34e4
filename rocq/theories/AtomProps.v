(** Parametrisation of elements: C46-C50, C80 *)
From Coq Require Import Reals List Bool Arith Lra.
From Verif Require Import Vec GeomModel GeomProofs AtomModel AtomSpec AtomProofs AtomProofs2 AtomProofs3 AtomProofs4 AtomProofs5.
Import ListNotations.
Open Scope R_scope.

(** C46: a successful smoothing leaves a tiny table alone; otherwise everything up to the point after k is kept, the last value is zero,
    and a new tail does not change sign *)
Theorem C46_kept_and_zero N x y out : increasing N x -> tail_smoothening N x y = TOk out ->
  (forall i, (i < N)%nat -> Rabs (y i) < / 10 ^ 10 /\ out i = y i) \/
  exists k, (2 <= k <= N - 3)%nat /\ (N <= 4 * k)%nat /\ crosses N x y k = true /\ (forall j, (k < j <= N - 3)%nat -> crosses N x y j = false) /\
    (forall i, (i <= k + 1)%nat -> out i = y i) /\ out (N - 1)%nat = 0 /\
    (k <> (N - 3)%nat -> forall i, (k <= i < N)%nat -> 0 <= out i * sgn (y k)).
Proof. intros _. apply tail_ok. Qed.
(** if the cubic with a double zero at the last point through the two kept points has no sign change, the tail is that cubic *)
Theorem C46_tail_is_cubic N x y out k a b : increasing N x -> tail_smoothening N x y = TOk out ->
  (exists i, (i < N)%nat /\ / 10 ^ 10 <= Rabs (y i)) ->
  find_k N x y (N - 3) = Some k -> k <> (N - 3)%nat ->
  y k = cubic a b (xmax N x) (x k) -> y (S k) = cubic a b (xmax N x) (x (S k)) ->
  (forall i, (k < i < N)%nat -> 0 <= cubic a b (xmax N x) (x i) * y k) ->
  forall i, (k <= i < N)%nat -> out i = cubic a b (xmax N x) (x i).
Proof. intros Hx. apply tail_cubic. exact Hx. Qed.
(** otherwise it need not pass through the kept points *)
Theorem C46_tail_through_refuted : exists N x y out k,
  increasing N x /\ tail_smoothening N x y = TOk out /\ (k + 3 < N)%nat /\ out k = y k /\ out (S k) = y (S k) /\ out (k + 2)%nat <> y (k + 2)%nat /\
  forall a b, ~ (forall i, (k <= i < N)%nat -> out i = cubic a b (xmax N x) (x i)).
Proof. exact tail_through_refuted. Qed.
Theorem C46_ends_in_zero_refuted : exists N x y out, increasing N x /\ (0 < N)%nat /\ tail_smoothening N x y = TOk out /\ out (N - 1)%nat <> 0.
Proof. exact tail_tiny_refuted. Qed.
(** exactly when the function fails for want of a starting point *)
Theorem C46_unbound N x y : tail_smoothening N x y = TUnbound <->
  (exists i, (i < N)%nat /\ / 10 ^ 10 <= Rabs (y i)) /\ (forall j, (2 <= j <= N - 3)%nat -> crosses N x y j = false).
Proof. apply tail_unbound. Qed.
Theorem C46_short_table N x y : (N < 5)%nat -> (exists i, (i < N)%nat /\ / 10 ^ 10 <= Rabs (y i)) -> tail_smoothening N x y = TUnbound.
Proof. apply tail_short. Qed.

(** C47 *)
Theorem C47_equation dx c2 c1 c0 N u r : dx <> 0 ->
  (forall i, (1 <= i <= N - 2)%nat -> c2 i / dx ^ 2 - / 2 * c1 i / dx <> 0) ->
  (forall i, (1 <= i <= N - 2)%nat -> c2 i / dx ^ 2 + / 2 * c1 i / dx <> 0) -> (2 <= N)%nat ->
  shoot dx c2 c1 c0 N u = Some r -> sh_u r (sh_ctp r) <> 0 -> sh_u r 1%nat <> 0 ->
  (1 <= sh_ctp r <= N - 2)%nat /\ 0 < sh_u r 1%nat /\
  forall i, (1 <= i <= N - 2)%nat -> i <> sh_ctp r -> residual dx c2 c1 c0 (sh_u r) i = 0.
Proof.
  intros Hdx Hm Hp HN H Hc H1. destruct (shoot_spec dx c2 c1 c0 N Hdx Hm Hp u r HN H Hc H1) as (A & B & _ & D & _). repeat split; try assumption; apply A.
Qed.
(** the matching point: the outermost point with positive c0, or the middle if all are negative *)
Theorem C47_matching_point dx c2 c1 c0 N u r : dx <> 0 ->
  (forall i, (1 <= i <= N - 2)%nat -> c2 i / dx ^ 2 - / 2 * c1 i / dx <> 0) ->
  (forall i, (1 <= i <= N - 2)%nat -> c2 i / dx ^ 2 + / 2 * c1 i / dx <> 0) -> (2 <= N)%nat ->
  shoot dx c2 c1 c0 N u = Some r -> sh_u r (sh_ctp r) <> 0 -> sh_u r 1%nat <> 0 ->
  (forall j, (sh_ctp r < j <= N - 2)%nat -> c0 j <= 0) /\
  (0 < c0 (sh_ctp r) \/ sh_ctp r = (N / 2)%nat /\ forall j, (j < N)%nat -> c0 j < 0).
Proof.
  intros Hdx Hm Hp HN H Hc H1. destruct (shoot_spec dx c2 c1 c0 N Hdx Hm Hp u r HN H Hc H1) as (_ & _ & _ & _ & A & B & _). split; assumption.
Qed.
(** the mismatch returned is zero exactly for solutions on all inner points *)
Theorem C47_mismatch dx c2 c1 c0 N u r : dx <> 0 -> (2 <= N)%nat ->
  (forall i, (1 <= i <= N - 2)%nat -> c2 i / dx ^ 2 - / 2 * c1 i / dx <> 0) ->
  (forall i, (1 <= i <= N - 2)%nat -> c2 i / dx ^ 2 + / 2 * c1 i / dx <> 0) ->
  (forall i, (1 <= i <= N - 2)%nat -> c2 i <> 0) ->
  shoot dx c2 c1 c0 N u = Some r -> sh_u r (sh_ctp r) <> 0 -> sh_u r 1%nat <> 0 ->
  (sh_A r = 0 <-> forall i, (1 <= i <= N - 2)%nat -> residual dx c2 c1 c0 (sh_u r) i = 0).
Proof. intros A B C D. exact (shoot_matched dx c2 c1 c0 N u r A B C D). Qed.
(** exactly when no matching point is found (UnboundLocalError) *)
Theorem C47_no_matching_point dx c2 c1 c0 N u : (2 <= N)%nat -> (shoot dx c2 c1 c0 N u = None <->
  (forall j, (1 <= j <= N - 2)%nat -> c0 j <= 0) /\ ((exists j, (j < N)%nat /\ 0 <= c0 j) \/ N = 2%nat)).
Proof. apply shoot_none. Qed.
(** a decaying solution keeps its sign at the outer end; this one always changes sign there *)
Theorem C47_outer_end_changes_sign dx c0 N u r : 0 < dx < 2 -> (2 <= N)%nat -> c0 (N - 1)%nat < 0 ->
  shoot dx (fun _ => coef2) (fun _ => coef1) c0 N u = Some r -> sh_u r (sh_ctp r) <> 0 -> sh_u r 1%nat <> 0 ->
  sh_u r (N - 2)%nat * sh_u r (N - 1)%nat < 0.
Proof. intros Hdx HN Hc. apply shoot_outer; try assumption; try apply Hdx; intros i _; apply radial_step; exact Hdx. Qed.

(** C48 *)
Theorem C48_shell_volumes N grid : (2 <= N)%nat -> increasing N grid -> 0 < grid 0%nat -> shell_volumes N grid (g_dV N grid).
Proof. apply shells. Qed.
Theorem C48_integrate N grid : (2 <= N)%nat -> increasing N grid -> 0 < grid 0%nat ->
  g_integrate N grid (fun _ => 1) true = 4 * PI * grid (N - 1)%nat ^ 3 / 3 /\
  forall a b, g_integrate N grid (fun i => a + b * grid i) false =
    a * (grid (N - 1)%nat - grid 0%nat) + b * (grid (N - 1)%nat ^ 2 - grid 0%nat ^ 2) / 2.
Proof. intros A B C. split; [apply integrate_one; assumption|apply integrate_linear; assumption]. Qed.
(** Gauss' law at every grid point *)
Theorem C48_gauss N grid nel dens i : (2 <= N)%nat -> (i < N)%nat ->
  hartree N grid nel dens i = shell_potential N grid (shell_charge N (g_dV N grid) dens nel) i.
Proof. apply hartree_shells. Qed.
Theorem C48_outermost N grid nel dens : (2 <= N)%nat -> rsum (N - 1) (shell_raw (g_dV N grid) dens) <> 0 ->
  rsum (N - 1) (shell_charge N (g_dV N grid) dens nel) = nel /\ hartree N grid nel dens (N - 1) = nel / grid (N - 1)%nat.
Proof. apply hartree_edge. Qed.
Theorem C48_bounds N grid nel dens : (2 <= N)%nat -> increasing N grid -> 0 < grid 0%nat -> 0 <= nel -> (forall i, (i < N)%nat -> 0 <= dens i) ->
  rsum (N - 1) (shell_raw (g_dV N grid) dens) <> 0 ->
  (forall i, (S i < N)%nat -> hartree N grid nel dens (S i) <= hartree N grid nel dens i) /\
  forall i, (i < N)%nat -> nel / grid (N - 1)%nat <= hartree N grid nel dens i <= nel / grid i.
Proof. apply hartree_bounds. Qed.
Theorem C48_initial_density N grid Z nel : (2 <= N)%nat -> increasing N grid -> 0 < grid 0%nat -> 0 < Z ->
  g_integrate N grid (guess_density N grid Z nel) true = nel.
Proof. intros A B C. apply guess_electrons; assumption. Qed.

(** C49 *)
Theorem C49_exchange n : 0 < n -> derivable_pt_lim (fun t => e_x t false) n (e_x n true).
Proof. apply e_x_derivative. Qed.
Theorem C49_correlation n : 0 < n -> derivable_pt_lim (fun t => e_corr t false) n (e_corr n true).
Proof. apply e_corr_derivative. Qed.
Theorem C49_potential n : n <> / 10 ^ 90 -> derivable_pt_lim (fun t => t * pw_exc t false) n (pw_vxc n).
Proof. intros H. destruct (Rtotal_order n small) as [L|[E|G]]; [apply vxc_vacuum; exact L|contradiction|apply vxc_derivative; exact G]. Qed.
Theorem C49_binding n : 0 < n -> e_x n false < 0 /\ e_corr n false < 0.
Proof. apply exc_negative. Qed.

(** C50 *)
Theorem C50_fit en e0 ep r a : 0 < r -> 0 < a -> exists IP EA c1 c2,
  IP_EA en e0 ep r a = Some (IP, EA) /\
  e0 + parabola c1 c2 a = en /\ e0 + parabola c1 c2 (- r) = ep /\
  IP = parabola c1 c2 (- 1) /\ EA = - parabola c1 c2 1.
Proof. apply IP_EA_fit. Qed.
Theorem C50_single_electrons en e0 ep : IP_EA en e0 ep 1 1 = Some (ep - e0, e0 - en).
Proof. apply IP_EA_unit. Qed.
Theorem C50_no_change en e0 ep r a : r = 0 \/ a = 0 -> IP_EA en e0 ep r a = None.
Proof. apply IP_EA_zero. Qed.

(** C80: the coefficients used on the logarithmic grid are those of the radial Schroedinger equation *)
Theorem C80_logarithmic_grid (u u1 u2 : R -> R) rmin l v eps x :
  0 < rmin -> (forall r, 0 < r -> derivable_pt_lim u r (u1 r)) -> (forall r, 0 < r -> derivable_pt_lim u1 r (u2 r)) ->
  let r := rmin * exp x in
  exists U1 U2, (forall y, derivable_pt_lim (fun y => u (rmin * exp y)) y (U1 y)) /\ derivable_pt_lim U1 x U2 /\
  (coef2 * U2 + coef1 * U1 x + coef0 l r v eps * u r = 0 <-> - / 2 * u2 r + (v + INR l * (INR l + 1) / (2 * r ^ 2)) * u r = eps * u r).
Proof. apply log_grid. Qed.
Print Assumptions C46_kept_and_zero.
Print Assumptions C46_tail_is_cubic.
Print Assumptions C46_tail_through_refuted.
Print Assumptions C46_ends_in_zero_refuted.
Print Assumptions C46_unbound.
Print Assumptions C46_short_table.
Print Assumptions C47_equation.
Print Assumptions C47_matching_point.
Print Assumptions C47_mismatch.
Print Assumptions C47_no_matching_point.
Print Assumptions C47_outer_end_changes_sign.
Print Assumptions C48_shell_volumes.
Print Assumptions C48_integrate.
Print Assumptions C48_gauss.
Print Assumptions C48_outermost.
Print Assumptions C48_bounds.
Print Assumptions C48_initial_density.
Print Assumptions C49_exchange.
Print Assumptions C49_correlation.
Print Assumptions C49_potential.
Print Assumptions C49_binding.
Print Assumptions C50_fit.
Print Assumptions C50_single_electrons.
Print Assumptions C50_no_change.
Print Assumptions C80_logarithmic_grid.
