From Coq Require Import Reals List Bool Arith.
From Verif Require Import GeomModel IplModel IplSpec IplProofs IplProofs2.
Import ListNotations.
Open Scope R_scope.

(** C199: paths between points.  Case: ex_long *)
Theorem C199_labels :
  forall (points : list v3) (N : nat) (path : list v3) (ds ls : list R) (k : nat),
  (2 <= N)%nat ->
  interpolate_path points N = IOk path ds ls ->
  parts_long points N -> (k < length points)%nat -> In (nth k points vzero, nth k ls 0) (combine path ds) /\ nth k ls 0 = way points k.
Proof. exact labels_on_path. Qed.
Theorem C199_distances :
  forall (points : list v3) (N : nat) (path : list v3) (ds ls : list R) (k : nat),
  interpolate_path points N = IOk path ds ls -> length ds = length path /\ ((k < length path)%nat -> nth k ds 0 = way path k).
Proof. exact distances_way. Qed.
Theorem C199_steps :
  forall (points : list v3) (N : nat) (path : list v3) (ds ls : list R) (i : nat),
  (2 <= N)%nat ->
  interpolate_path points N = IOk path ds ls ->
  parts_long points N -> (i + 1 < length path)%nat -> gap (nth i path vzero) (nth (i + 1) path vzero) <= 3 / 2 * spacing points N.
Proof. exact steps. Qed.
Theorem C199_number :
  forall (points : list v3) (N : nat) (path : list v3) (ds ls : list R),
  (2 <= N)%nat ->
  (2 <= length points)%nat -> interpolate_path points N = IOk path ds ls -> Rabs (INR (length path) - INR N) <= INR (length points - 1) / 2.
Proof. exact number_of_points. Qed.
Theorem C199_errors :
  forall (points : list v3) (N : nat),
  (2 <= N)%nat -> (exists (p : list v3) (d l : list R), interpolate_path points N = IOk p d l) <-> length points = 1%nat \/ 0 < spacing points N.
Proof. exact ipl_errors. Qed.
Theorem C199_end_missing_refuted :
  exists (points : list v3) (N : nat) (path : list v3) (ds ls : list R),
    (2 <= N)%nat /\ interpolate_path points N = IOk path ds ls /\ points <> [] /\ ~ In (last points vzero) path.
Proof. exact end_missing_refuted. Qed.
Print Assumptions C199_labels.
Print Assumptions C199_distances.
Print Assumptions C199_steps.
Print Assumptions C199_number.
Print Assumptions C199_errors.
Print Assumptions C199_end_missing_refuted.
