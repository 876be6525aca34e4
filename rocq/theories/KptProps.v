From Coq Require Import Reals ZArith List Bool.
From Verif Require Import Vec GeomModel UtilModel KptModel KptSpec KptProofs KptProofs2.
Import ListNotations.
Open Scope R_scope.

(** The theorems on meshes ask for a spacing above 1e-10, the code's tolerance
    for "k + k' = 0" (fewer than 6e10 k-points per direction). *)

(** C16: the weights of an accepted mesh are positive and sum to one. *)
Theorem C16_mesh_weights : forall M table pbc width physical n1 n2 n3 l,
  / 10 ^ 10 < 2 * PI / IZR n1 -> / 10 ^ 10 < 2 * PI / IZR n2 -> / 10 ^ 10 < 2 * PI / IZR n3 ->
  setup_mesh M table pbc width physical n1 n2 n3 = Some l ->
  (forall o, In o l -> 0 < wgt o) /\ lsum wgt l = 1.
Proof. exact mesh_weights. Qed.
Print Assumptions C16_mesh_weights.

(** C16: so are those of an explicit list. *)
Theorem C16_list_weights : forall pbc width rsk bravais kpts l, kpts <> [] ->
  setup_list pbc width rsk bravais kpts = Some l ->
  (forall x, In x l -> 0 < snd x) /\ lsum snd l = 1 /\ length l = length kpts.
Proof. exact list_weights. Qed.
Print Assumptions C16_list_weights.

(** C17: every kept point is a mesh point (the one with the reported indices). *)
Theorem C17_points_on_mesh : forall M table pbc width physical n1 n2 n3 l,
  / 10 ^ 10 < 2 * PI / IZR n1 -> / 10 ^ 10 < 2 * PI / IZR n2 -> / 10 ^ 10 < 2 * PI / IZR n3 ->
  setup_mesh M table pbc width physical n1 n2 n3 = Some l -> forall o, In o l ->
  in_mesh n1 n2 n3 (kind o) /\ kpt o = mesh_point M table n1 n2 n3 (kind o).
Proof. exact mesh_entries. Qed.
Print Assumptions C17_points_on_mesh.

(** C17: every mesh point or its inverse is kept, exactly one of them, once. *)
Theorem C17_no_point_lost : forall M table pbc width physical n1 n2 n3 l,
  / 10 ^ 10 < 2 * PI / IZR n1 -> / 10 ^ 10 < 2 * PI / IZR n2 -> / 10 ^ 10 < 2 * PI / IZR n3 ->
  setup_mesh M table pbc width physical n1 n2 n3 = Some l -> forall p, on_mesh M table n1 n2 n3 p ->
  exists o, In o l /\ (p = kpt o \/ p = vneg (kpt o)) /\
            forall o', In o' l -> (p = kpt o' \/ p = vneg (kpt o')) -> o' = o.
Proof. exact mesh_covered. Qed.
Print Assumptions C17_no_point_lost.

(** C17: its weight is the number of mesh points it stands for over the size of the mesh. *)
Theorem C17_weights_count : forall M table pbc width physical n1 n2 n3 l,
  / 10 ^ 10 < 2 * PI / IZR n1 -> / 10 ^ 10 < 2 * PI / IZR n2 -> / 10 ^ 10 < 2 * PI / IZR n3 ->
  setup_mesh M table pbc width physical n1 n2 n3 = Some l -> forall o, In o l ->
  exists L, NoDup L /\
    (forall p, In p L <-> on_mesh M table n1 n2 n3 p /\ (p = kpt o \/ p = vneg (kpt o))) /\
    wgt o = INR (length L) / IZR (n1 * n2 * n3).
Proof. exact mesh_counted. Qed.
Print Assumptions C17_weights_count.

(** C17: hence averages of anything that is the same at k and -k are those of the full mesh. *)
Theorem C17_averages : forall M table pbc width physical n1 n2 n3 l,
  / 10 ^ 10 < 2 * PI / IZR n1 -> / 10 ^ 10 < 2 * PI / IZR n2 -> / 10 ^ 10 < 2 * PI / IZR n3 ->
  setup_mesh M table pbc width physical n1 n2 n3 = Some l -> forall g, (forall k, g (vneg k) = g k) ->
  lsum (fun o => wgt o * g (kpt o)) l =
  rsum (Z.to_nat n1) (fun a => rsum (Z.to_nat n2) (fun b => rsum (Z.to_nat n3) (fun c =>
    g (mesh_point M table n1 n2 n3 (a, b, c))))) / IZR (n1 * n2 * n3).
Proof. exact mesh_average. Qed.
Print Assumptions C17_averages.

(** C17 read modulo the period 2PI is false: in a wedge with three copies k and -k+2PI are both kept. *)
Theorem C17_modulo_period_refuted : exists (M : nat -> option Z) pbc width n1 n2 n3 l o o',
  setup_mesh M (fun _ => None) pbc width true n1 n2 n3 = Some l /\ In o l /\ In o' l /\ o <> o' /\
  exists z : Z, vadd (kpt o) (kpt o') = V3 (IZR z * (2 * PI)) 0 0.
Proof. exact period_refuted. Qed.
Print Assumptions C17_modulo_period_refuted.

(** C60: an accepted mesh has positive numbers of points, a width unless it is the single Gamma
    point, and, if asked to be physical, divides the number of copies. *)
Theorem C60_mesh_rejected : forall M table pbc width physical n1 n2 n3 l,
  (forall i m, M i = Some m -> (1 <= m)%Z) ->
  setup_mesh M table pbc width physical n1 n2 n3 = Some l ->
  (1 <= n1)%Z /\ (1 <= n2)%Z /\ (1 <= n3)%Z /\
  ((n1, n2, n3) <> (1, 1, 1)%Z -> / 10 ^ 10 <= width) /\
  (physical = true -> forall m, (M 0%nat = Some m -> (n1 | m)%Z) /\
     (M 1%nat = Some m -> (n2 | m)%Z) /\ (M 2%nat = Some m -> (n3 | m)%Z)).
Proof. exact mesh_rejected. Qed.
Print Assumptions C60_mesh_rejected.

(** C60: and every such mesh with one point in each non-periodic direction is accepted
    (containers without "equivalent" operations). *)
Theorem C60_mesh_accepted : forall M pbc width physical n1 n2 n3,
  (forall i m, M i = Some m -> (1 <= m)%Z) -> / 10 ^ 10 <= width ->
  (1 <= n1)%Z -> (1 <= n2)%Z -> (1 <= n3)%Z ->
  (physical = true -> forall m, (M 0%nat = Some m -> (n1 | m)%Z) /\
     (M 1%nat = Some m -> (n2 | m)%Z) /\ (M 2%nat = Some m -> (n3 | m)%Z)) ->
  (pbc 0%nat = false -> n1 = 1%Z) -> (pbc 1%nat = false -> n2 = 1%Z) -> (pbc 2%nat = false -> n3 = 1%Z) ->
  / 10 ^ 10 < 2 * PI / IZR n1 -> / 10 ^ 10 < 2 * PI / IZR n2 -> / 10 ^ 10 < 2 * PI / IZR n3 ->
  exists l, setup_mesh M (fun _ => None) pbc width physical n1 n2 n3 = Some l.
Proof. exact mesh_accepted. Qed.
Print Assumptions C60_mesh_accepted.

(** C60: the components of an accepted list are at most 1e-10 in non-periodic directions ... *)
Theorem C60_list_nonperiodic_partial : forall pbc width rsk bravais kpts l,
  setup_list pbc width rsk bravais kpts = Some l ->
  forall k i, In k (map fst l) -> (i < 3)%nat -> pbc i = false -> comp i k <= / 10 ^ 10.
Proof. exact list_periodic. Qed.
Print Assumptions C60_list_nonperiodic_partial.

(** ... but "zero" is false: negative components pass the check. *)
Theorem C60_list_nonperiodic_refuted : exists pbc width k l, pbc 0%nat = false /\ vx k <> 0 /\
  setup_list pbc width false None [k] = Some l.
Proof. exact nonperiodic_refuted. Qed.
Print Assumptions C60_list_nonperiodic_refuted.

(** C60: "several k-points need a width" is false for lists: two points are accepted with zero
    width, while one point is not. *)
Theorem C60_list_width_refuted : exists pbc l k1 k2, k1 <> k2 /\
  setup_list pbc 0 false None [k1; k2] = Some l /\
  (forall l' : list (v3 * R), setup_list pbc 0 false None [k1] <> Some l').
Proof. exact zero_width_refuted. Qed.
Print Assumptions C60_list_width_refuted.
