From Coq Require Import Reals List Bool Arith.
From Verif Require Import DosSpec BrdModel BrdSpec BrdProofs.
Import ListNotations.
Open Scope R_scope.

(** C194: broadened spectra and cumulative plots.  Cases: ex_comparable, ex_stack *)
Theorem C194_values :
  forall (old : bool) (grid v : list R) (F : R) (w : weights),
  0 < F -> comparable old w -> broaden old false grid v F w = BOk (map (spectrum F v (meant v w)) grid).
Proof. exact values_ok. Qed.
Theorem C194_errors :
  forall (old ints : bool) (grid v : list R) (F : R) (w : weights),
  match broaden old ints grid v F w with
  | BOk _ => comparable old w /\ (ints = false \/ combine v (meant v w) = [])
  | BFail BValueError => ~ comparable old w
  | BFail BTypeError => comparable old w /\ ints = true /\ combine v (meant v w) <> []
  end.
Proof. exact errors. Qed.
Theorem C194_peak :
  forall g x0 F : R, 0 < F -> gaussian_peak g x0 F = normal x0 (deviation F) g.
Proof. exact peak_normal. Qed.
Theorem C194_peak_area :
  forall x0 F : R, 0 < F -> integrates_to (fun g : R => gaussian_peak g x0 F) 1.
Proof. exact peak_area. Qed.
Theorem C194_width :
  forall x0 F : R,
  0 < F -> gaussian_peak (x0 + F / 2) x0 F = gaussian_peak x0 x0 F / 2 /\ gaussian_peak (x0 - F / 2) x0 F = gaussian_peak x0 x0 F / 2.
Proof. exact peak_half. Qed.
Theorem C194_shape :
  forall x0 F g h : R, 0 < F -> 0 < gaussian_peak g x0 F /\ (Rabs (h - x0) < Rabs (g - x0) -> gaussian_peak g x0 F < gaussian_peak h x0 F).
Proof. exact peak_falls. Qed.
Theorem C194_area :
  forall (F : R) (v ws : list R), 0 < F -> length v = length ws -> integrates_to (spectrum F v ws) (total ws).
Proof. exact spectrum_area. Qed.
Theorem C194_superposition :
  forall (F : R) (v ws v' ws' : list R) (g : R),
  length v = length ws -> spectrum F (v ++ v') (ws ++ ws') g = spectrum F v ws g + spectrum F v' ws' g.
Proof. exact spectrum_app. Qed.
Theorem C194_stack :
  forall (C L : Type) (old : bool) (grid values : list R) (F : R),
  0 < F ->
  forall (nolegend : L) (random : list C) (ws : list weights) (labels : list L) (colors : list C),
  (forall w : weights, In w ws -> comparable old w) ->
  length labels = length ws ->
  length colors = length ws ->
  exists r : list (band C L),
    make_cumulative_plot old false grid values F nolegend random ws (Some labels) (Some colors) = (r, None) /\
    length r = length ws /\
    (forall (k : nat) (b : band C L),
     nth_error r k = Some b ->
     nth_error colors k = Some (b_color b) /\
     nth_error labels k = Some (b_label b) /\ b_low b = map (stacked F values ws k) grid /\ b_up b = map (stacked F values ws (S k)) grid).
Proof. intros C L. exact stack. Qed.
Theorem C194_order :
  forall (F : R) (values : list R) (ws : list weights) (k : nat) (g : R),
  0 < F -> (forall (w : weights) (x : R), In w ws -> In x (meant values w) -> 0 <= x) -> stacked F values ws k g <= stacked F values ws (S k) g.
Proof. exact stacked_grows. Qed.
Theorem C194_vertices :
  forall (C L : Type) (old : bool) (grid values : list R) (F : R),
  0 < F ->
  forall (nolegend : L) (random : list C) (ws : list weights) (labels : option (list L)) (colors : option (list C)),
  (forall w : weights, In w ws -> comparable old w) ->
  forall b : band C L,
  In b (fst (make_cumulative_plot old false grid values F nolegend random ws labels colors)) ->
  b_x b = grid ++ b_low b /\ b_y b = b_up b ++ b_low b.
Proof. intros C L. exact vertices. Qed.
Theorem C194_default_colors :
  forall (C L : Type) (old : bool) (grid values : list R) (F : R),
  0 < F ->
  forall (nolegend : L) (random : list C) (ws : list weights) (labels : list L),
  (forall w : weights, In w ws -> comparable old w) ->
  length random = length values ->
  length labels = length ws ->
  length (fst (make_cumulative_plot old false grid values F nolegend random ws (Some labels) None)) = Nat.min (length ws) (length values).
Proof. intros C L. exact default_colors. Qed.
Theorem C194_arrays_fail :
  forall (C L : Type) (grid values : list R) (F : R) (nolegend : L) (random : list C) (row : list R) (rest : list weights) (labels : list L)
    (colors : list C),
  (2 <= length row)%nat ->
  labels <> [] ->
  colors <> [] ->
  make_cumulative_plot false false grid values F nolegend random (WArray row :: rest) (Some labels) (Some colors) = ([], Some BValueError).
Proof. intros C L. exact array_fails. Qed.
Theorem C194_arrays_refuted :
  exists grid values row : list R,
    length row = length values /\
    make_cumulative_plot false false grid values 1 tt [] [WArray row] (Some [tt]) (Some [tt]) = ([], Some BValueError).
Proof. exact plot_array_refuted. Qed.
Theorem C194_polygon_refuted :
  exists (grid values : list R) (b : band unit unit) (x : R),
    In b (fst (make_cumulative_plot false false grid values 1 tt [] [WNone] (Some [tt]) (Some [tt]))) /\ In x (b_x b) /\ ~ In x grid.
Proof. exact polygon_refuted. Qed.
Theorem C194_all_bands_refuted :
  exists (values : list R) (random : list unit) (ws : list weights),
    length random = length values /\ (length (fst (make_cumulative_plot false false [0%R] values 1 tt random ws None None)) < length ws)%nat.
Proof. exact colors_refuted. Qed.
Print Assumptions C194_values.
Print Assumptions C194_errors.
Print Assumptions C194_peak.
Print Assumptions C194_peak_area.
Print Assumptions C194_width.
Print Assumptions C194_shape.
Print Assumptions C194_area.
Print Assumptions C194_superposition.
Print Assumptions C194_stack.
Print Assumptions C194_order.
Print Assumptions C194_vertices.
Print Assumptions C194_default_colors.
Print Assumptions C194_arrays_fail.
Print Assumptions C194_arrays_refuted.
Print Assumptions C194_polygon_refuted.
Print Assumptions C194_all_bands_refuted.
