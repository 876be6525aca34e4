(** Gaussian broadening of weighted spectra and cumulative plots.  box/broaden.py *)
From Coq Require Import Reals List Bool Arith.
Import ListNotations.
Open Scope R_scope.

(** BValueError: truth value of an array; BTypeError: adding floats to an array of integers in place *)
Inductive berror := BValueError | BTypeError.
Inductive bres (A : Type) := BOk (x : A) | BFail (e : berror).
Arguments BOk {A} _. Arguments BFail {A} _.

(** gaussian_peak 4-9, at one point of the grid *)
Definition gaussian_peak (g x0 FWHM : R) : R :=
  let a := sqrt (4 * ln 2 / PI) / FWHM in
  let b := 4 * ln 2 / FWHM ^ 2 in
  a * exp (- b * (g - x0) ^ 2).

(** the argument weights of broaden: left out, a list, or an array *)
Inductive weights := WNone | WList (w : list R) | WArray (w : list R).
(** line 18, if weights == None.  [old]: NumPy before 1.13, where an array is compared as a whole.
    Later versions compare the elements; the truth value of the result is an error for two or more elements, and False for less *)
Definition is_none (old : bool) (w : weights) : bres bool :=
  match w with
  | WNone => BOk true
  | WList _ => BOk false
  | WArray l => if old then BOk false else if (2 <=? length l)%nat then BFail BValueError else BOk false
  end.
Definition entries (w : weights) : list R := match w with WNone => [] | WList l => l | WArray l => l end.
(** the loop of lines 21-22 at one grid point; zip stops at the shorter list *)
Definition add_peaks (FWHM : R) (pts : list (R * R)) (g : R) : R :=
  fold_left (fun acc p => acc + snd p * gaussian_peak g (fst p) FWHM) pts 0.
(** broaden 12-23.  [ints]: the grid is an array of integers, so that ret is one too (line 20) and += fails *)
Definition broaden (old ints : bool) (grid values : list R) (width : R) (w : weights) : bres (list R) :=
  match is_none old w with
  | BFail e => BFail e
  | BOk none =>
    let ws := if none then map (fun _ => 1) values else entries w in
    match ints, combine values ws with
    | true, _ :: _ => BFail BTypeError
    | _, pts => BOk (map (add_peaks width pts) grid)
    end
  end.

(** one call of pylab.fill, lines 42-43: vertices, colour, label; the curves low and up are kept for the statements *)
Record band (C L : Type) := Band { b_low : list R; b_up : list R; b_x : list R; b_y : list R; b_color : C; b_label : L }.
Arguments Band {C L} _ _ _ _ _ _. Arguments b_low {C L} _. Arguments b_up {C L} _. Arguments b_x {C L} _. Arguments b_y {C L} _.
Arguments b_color {C L} _. Arguments b_label {C L} _.
Section Plot.
Context {C L : Type}.
Variables (old ints : bool) (grid values : list R) (width : R).
(** the loop of lines 37-44: bands drawn, and the exception that ended it *)
Fixpoint bands (todo : list (weights * C * L)) (low : list R) : list (band C L) * option berror :=
  match todo with
  | [] => ([], None)
  | (w, c, l) :: rest =>
    match broaden old ints grid values width w with
    | BFail e => ([], Some e)
    | BOk v =>
      let up := map (fun p => fst p + snd p) (combine low v) in
      let (r, e) := bands rest up in
      (Band low up (grid ++ low) (up ++ low) c l :: r, e)
    end
  end.
(** make_cumulative_plot 26-44.  [nolegend] is the default label; [random] are the len(values) random colours of line 34,
    made if colors is left out *)
Variables (nolegend : L) (random : list C).
Definition make_cumulative_plot (weights_list : list weights) (labels : option (list L)) (colors : option (list C)) : list (band C L) * option berror :=
  let labels := match labels with Some l => l | None => map (fun _ => nolegend) weights_list end in
  let colors := match colors with Some c => c | None => firstn (length values) random end in
  bands (combine (combine weights_list colors) labels) (map (fun _ => 0) grid).
End Plot.
