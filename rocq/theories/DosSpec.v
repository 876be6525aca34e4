From Coq Require Import Reals List Bool Arith.
From Verif Require Import Vec GeomModel SkModel SkSpec Cpx RhoModel RhoSpec DosModel.
Import ListNotations.
Open Scope R_scope.

Definition tends_up (f : R -> R) (l : R) : Prop := forall eps, 0 < eps -> exists M, forall x, M < x -> Rabs (f x - l) < eps.
Definition tends_down (f : R -> R) (l : R) : Prop := forall eps, 0 < eps -> exists M, forall x, x < M -> Rabs (f x - l) < eps.
(** the integral of f over the real line is s: f has an antiderivative rising from 0 to s *)
Definition integrates_to (f : R -> R) (s : R) : Prop :=
  exists P, (forall x, derivable_pt_lim P x (f x)) /\ tends_down P 0 /\ tends_up P s.
Fixpoint total (l : list R) : R := match l with [] => 0 | x :: l => x + total l end.
(** sum over the peaks of height times shape *)
Definition superposition (s : shape) (width : R) (x y : list R) (g : R) : R :=
  total (map (fun p => snd p * peak s width (fst p) g) (combine x y)).
Definition known (s : shape) : Prop := s = Gaussian \/ s = Lorentzian.
(** the density of states at energy g: all states with their k-point weights, broadened *)
Definition dos_at (norb nk : nat) (wk : nat -> R) (e : nat -> nat -> R) (width g : R) : R :=
  rsum nk (fun k => wk k * rsum norb (fun a => peak Gaussian width (e k a) g)).
(** the same, states within the window only *)
Definition in_window (w : R * R) (x : R) : bool := if Rle_dec (fst w) x then if Rle_dec x (snd w) then true else false else false.
Definition dos_within (norb nk : nat) (wk : nat -> R) (e : nat -> nat -> R) (w : R * R) (width g : R) : R :=
  rsum nk (fun k => wk k * rsum norb (fun a => if in_window w (e k a) then peak Gaussian width (e k a) g else 0)).
(** the window, when given, holds at least one state *)
Definition occupied_window (norb nk : nat) (e : nat -> nat -> R) (win : option (R * R)) : Prop :=
  match win with None => True | Some w => exists k a, (k < nk)%nat /\ (a < norb)%nat /\ fst w <= e k a <= snd w end.
