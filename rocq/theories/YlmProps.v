From Coq Require Import Reals ZArith List Bool.
From Verif Require Import Vec GeomModel GeomSpec SkModel Cpx YlmModel YlmSpec YlmProofs YlmProofs2 YlmProofs3 YlmProofs4.
Import ListNotations.
Open Scope R_scope.

(** C192: spherical harmonics, all l and m.  Case of spherical coordinates: ex_spherical *)
Theorem C192_harmonics :
  forall (l : nat) (m : Z),
  (l <= 6)%nat -> (Z.abs m <= Z.of_nat l)%Z -> exists f : R -> R -> cplx, Ylm l m = Some f /\ (forall t p : R, f t p = harmonic l m t p).
Proof. exact formulas. Qed.
Theorem C192_unknown :
  forall (l : nat) (m : Z), (6 < l)%nat \/ (Z.of_nat l < Z.abs m)%Z -> Ylm l m = None.
Proof. exact unknown. Qed.
Theorem C192_conjugate :
  forall (l : nat) (m : Z) (t p : R),
  (l <= 6)%nat -> (Z.abs m <= Z.of_nat l)%Z -> value l (- m) t p = cscale ((-1) ^ Z.abs_nat m) (cconj (value l m t p)).
Proof. exact conjugates. Qed.
Theorem C192_addition :
  forall (l : nat) (t p : R), (l <= 6)%nat -> sum_m l (fun m : Z => cabs2 (value l m t p)) = IZR (2 * Z.of_nat l + 1) / (4 * PI).
Proof. exact addition. Qed.
Theorem C192_orthonormal :
  forall (l : nat) (m : Z) (l' : nat) (m' : Z),
  (l <= 6)%nat ->
  (Z.abs m <= Z.of_nat l)%Z ->
  (l' <= 6)%nat ->
  (Z.abs m' <= Z.of_nat l')%Z ->
  is_sphere_integral (fun t p : R => fst (cmul (cconj (value l m t p)) (value l' m' t p))) (kron ((l =? l') && (m =? m')%Z)) /\
  is_sphere_integral (fun t p : R => snd (cmul (cconj (value l m t p)) (value l' m' t p))) 0.
Proof. exact orthonormal. Qed.
Theorem C192_coordinates :
  forall v : v3,
  resolved (vx v) ->
  resolved (vy v) ->
  / 10 ^ 6 <= vnorm v ->
  exists r t p : R, to_spherical_coordinates v = Some (r, t, p) /\ r = vnorm v /\ 0 <= t <= PI /\ 0 <= p < 2 * PI /\ from_spherical r t p = v.
Proof. exact spherical. Qed.
(** C193: weights of angular momenta.  Cases: ex_spherical_state, ex_characters *)
Theorem C193_bound :
  forall (npts : nat) (index : nat -> nat) (theta phi : nat -> R) (dV : R),
  0 <= dV ->
  forall (state : nat -> R) (l : nat),
  (l <= 6)%nat -> analyse_state npts index theta phi dV state l <= IZR (2 * Z.of_nat l + 1) * weight npts index dV state.
Proof. exact analyse_bound. Qed.
Theorem C193_nonneg :
  forall (npts : nat) (index : nat -> nat) (theta phi : nat -> R) (dV : R),
  0 <= dV -> forall (state : nat -> R) (l : nat), 0 <= analyse_state npts index theta phi dV state l.
Proof. exact analyse_nonneg. Qed.
Theorem C193_spherical :
  forall (npts : nat) (index : nat -> nat) (theta phi : nat -> R) (dV : R) (state : nat -> R),
  spherical_state npts index state -> analyse_state npts index theta phi dV state 0 = weight npts index dV state.
Proof. exact analyse_s. Qed.
Theorem C193_sum :
  forall (npts : nat) (index : nat -> nat) (theta phi : nat -> R) (dV : R),
  0 <= dV ->
  forall (state : nat -> R) (ls : list nat),
  / 100 < total_of (map (fun l : nat => weight npts index dV state * analyse_state npts index theta phi dV state l) ls) ->
  total_of (characters npts index theta phi dV state ls) = 1 /\ Forall (fun x : R => 0 <= x <= 1) (characters npts index theta phi dV state ls).
Proof. exact characters_sum. Qed.
Theorem C193_scale :
  forall (npts : nat) (index : nat -> nat) (theta phi : nat -> R) (dV k : R) (state : nat -> R) (ls : list nat),
  k <> 0 ->
  / 100 < total_of (map (fun l : nat => weight npts index dV state * analyse_state npts index theta phi dV state l) ls) ->
  / 100 <
  total_of
    (map
       (fun l : nat => weight npts index dV (fun g : nat => k * state g) * analyse_state npts index theta phi dV (fun g : nat => k * state g) l)
       ls) -> characters npts index theta phi dV (fun g : nat => k * state g) ls = characters npts index theta phi dV state ls.
Proof. exact characters_scale. Qed.
Print Assumptions C192_harmonics.
Print Assumptions C192_unknown.
Print Assumptions C192_conjugate.
Print Assumptions C192_addition.
Print Assumptions C192_orthonormal.
Print Assumptions C192_coordinates.
Print Assumptions C193_bound.
Print Assumptions C193_nonneg.
Print Assumptions C193_spherical.
Print Assumptions C193_sum.
Print Assumptions C193_scale.
