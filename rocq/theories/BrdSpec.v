From Coq Require Import Reals List Bool Arith.
From Verif Require Import DosSpec BrdModel.
Import ListNotations.
Open Scope R_scope.

(** the normal distribution around x0 with standard deviation sigma *)
Definition normal (x0 sigma x : R) : R := / (sigma * sqrt (2 * PI)) * exp (- (x - x0) ^ 2 / (2 * sigma ^ 2)).
(** standard deviation of a normal distribution that falls to one half of its height at x0 +- FWHM/2 *)
Definition deviation (FWHM : R) : R := FWHM / (2 * sqrt (2 * ln 2)).
(** the spectrum: every value with its weight *)
Definition spectrum (FWHM : R) (values ws : list R) (g : R) : R :=
  total (map (fun p => snd p * normal (fst p) (deviation FWHM) g) (combine values ws)).
(** weights for which the comparison with None works *)
Definition comparable (old : bool) (w : weights) : Prop :=
  match w with WArray l => old = true \/ (length l <= 1)%nat | _ => True end.
(** the weights meant *)
Definition meant (values : list R) (w : weights) : list R := match w with WNone => repeat 1 (length values) | WList l => l | WArray l => l end.
(** the curve below band k: the sum of the spectra of the first k weights *)
Definition stacked (FWHM : R) (values : list R) (ws : list weights) (k : nat) (g : R) : R :=
  total (map (fun w => spectrum FWHM values (meant values w) g) (firstn k ws)).
