From Coq Require Import Reals ZArith List Bool Floats.SpecFloat.
From Verif Require Import GeomModel GeomSpec ContModel ContSpec ContProofs ContProofs2.
Import ListNotations.
Open Scope R_scope.

(** C21: the type written into the cell is the one read back, in exact arithmetic ... *)
Theorem C21_roundtrip : forall c a, c <> Bravais -> magic_get (cell (magic_set c a) 0 0) = Some c.
Proof. exact magic_roundtrip. Qed.
Print Assumptions C21_roundtrip.

(** ... and in IEEE double arithmetic. *)
Theorem C21_roundtrip_double : forall c, c <> Bravais -> fmagic_get (fmagic_set c) = Some c.
Proof. exact magic_roundtrip_float. Qed.
Print Assumptions C21_roundtrip_double.

(** C21: through the whole life of an Atoms object its type is read back from its cell, and
    the object rebuilt from its plain data is the same system.  Missing: Slab and WedgeYAxis,
    see C57. *)
Theorem C21_rebuilt_partial : forall c a, reachable c a -> c <> Slab -> c <> WedgeYAxis -> c <> Bravais ->
  exists b, make_auto a = Some (c, b) /\ same_system c b a.
Proof. exact auto_same. Qed.
Print Assumptions C21_rebuilt_partial.

(** C21: a cell that is not within 1e-10 of a code is a plain lattice ... *)
Theorem C21_ordinary_cell : forall c00,
  (forall k, k <> 0%Z -> e10 <= Rabs (IZR k - c00 / magic)) -> magic_get c00 = Some Bravais.
Proof. exact magic_bravais. Qed.
Print Assumptions C21_ordinary_cell.

(** ... but some lengths crash, some are taken for a container, and a cell within the
    tolerance of one code can be read as another. *)
Theorem C21_crash_refuted : exists c00, 12 < c00 < 13 /\ magic_get c00 = None.
Proof. exact magic_crash. Qed.
Print Assumptions C21_crash_refuted.
Theorem C21_mistaken_refuted : exists c00, 0 < c00 /\ magic_get c00 = Some Slab.
Proof. exact magic_mistaken. Qed.
Print Assumptions C21_mistaken_refuted.
Theorem C21_tolerance_refuted : exists c00, Rabs (c00 - 2 * magic) < e10 /\ c00 / magic <> 2 /\
  Rabs (c00 / magic - 2) < e10 /\ magic_get c00 = Some Wedge.
Proof. exact magic_tolerance. Qed.
Print Assumptions C21_tolerance_refuted.

(** C22: in Python 3 set(container=...) raises for every container ... *)
Theorem C22_python3_refuted : forall c dst src, exists a, set_container true c dst src = Exc a.
Proof. exact set_container_py3. Qed.
Print Assumptions C22_python3_refuted.

(** ... in Python 2 Wedge, Chiral and DoubleChiral are copied.  Missing: the others. *)
Theorem C22_python2_partial : forall c dst src, valid_source c src ->
  exists a, set_container false c dst src = Ok a /\ pos a = pos dst /\
  (forall r n, transform c a r n = transform c src r n) /\
  (forall n, rotation c a n = rotation c src n) /\ ranges c a = ranges c src.
Proof. exact set_container_py2. Qed.
Print Assumptions C22_python2_partial.

(** C57: a copy of the atoms is the same system, whatever was done to them.
    Missing: Slab and WedgeYAxis, refuted below. *)
Theorem C57_copy_partial : forall c a, reachable c a -> c <> Slab -> c <> WedgeYAxis -> same_system c (copy c a) a.
Proof. exact copy_same. Qed.
Print Assumptions C57_copy_partial.
Theorem C57_slab_refuted : exists a r n, reachable Slab a /\ transform Slab (copy Slab a) r n <> transform Slab a r n.
Proof. exact copy_slab_differs. Qed.
Print Assumptions C57_slab_refuted.
Theorem C57_wedgeyaxis_refuted : exists a, reachable WedgeYAxis a /\ pbc2 a = true /\ pbc2 (copy WedgeYAxis a) = false.
Proof. exact copy_wedgey_differs. Qed.
Print Assumptions C57_wedgeyaxis_refuted.
Theorem C57_slab_cell_refuted : exists a, cell (make Slab a) 0%nat 0%nat <> cell a 0%nat 0%nat.
Proof. exact make_slab_cell. Qed.
Print Assumptions C57_slab_cell_refuted.

(** C58: scaling moves all images consistently: moving an image is taking the image of the
    moved atom under the new parameters. *)
Theorem C58_chiral : forall a angle height a' r n,
  c_height a <> 0 -> chiral_set a angle height true = Ok a' ->
  clear r -> clear (transform Chiral a r n) ->
  let move := twist_scale (c_angle a' - c_angle a) (c_height a) (c_height a') in
  pos a' = map move (pos a) /\ move (transform Chiral a r n) = transform Chiral a' (move r) n.
Proof. exact chiral_scaling. Qed.
Print Assumptions C58_chiral.
Theorem C58_doublechiral : forall a angle height a' r n,
  d_height a <> 0 -> doublechiral_set a angle height None true = Ok a' ->
  clear r -> clear (transform DoubleChiral a r n) ->
  let move := twist_scale (d_angle a' - d_angle a) (d_height a) (d_height a') in
  pos a' = map move (pos a) /\ move (transform DoubleChiral a r n) = transform DoubleChiral a' (move r) n.
Proof. exact doublechiral_scaling. Qed.
Print Assumptions C58_doublechiral.
Theorem C58_wedge_height : forall a h ph a' r n,
  w_height a <> 0 -> wedge_set a NoAngle (Some h) ph None true = Ok a' ->
  let move r := V3 (vx r) (vy r) (vz r * h / w_height a) in
  pos a' = map move (pos a) /\ w_height a' = h /\ move (transform Wedge a r n) = transform Wedge a' (move r) n.
Proof. exact wedge_height_scaling. Qed.
Print Assumptions C58_wedge_height.
(** The wedge angle: for images that do not cross the negative x-axis. *)
Theorem C58_wedge_angle_partial : forall a g ph a' r n t,
  g <> NoAngle -> wedge_set a g None ph None true = Ok a' ->
  clear r -> clear (transform Wedge a r n) -> azimuth r t -> - PI < t + IZR (o1 n) * w_angle a <= PI ->
  let move := wedge_scale (w_angle a) (w_angle a') in
  pos a' = map move (pos a) /\ move (transform Wedge a r n) = transform Wedge a' (move r) n.
Proof. exact wedge_scaling. Qed.
Print Assumptions C58_wedge_angle_partial.

(** C59: accepted parameters are stored, all others are left alone, and the angle is legal. *)
Theorem C59_wedge : forall a g h ph pz sc a', wedge_set a g h ph pz sc = Ok a' ->
  w_height a' = opt_or h (w_height a) /\
  pbc a' = match pz with Some b => (true, false, b) | None => pbc a end /\
  match g with
  | NoAngle => w_angle a' = w_angle a /\ w_physical a' = w_physical a
  | Angle x => w_angle a' = x /\ w_physical a' = ph /\ e6 <= x <= PI /\
      (ph = true -> Rabs (IZR (pyround (2 * PI / x)) - 2 * PI / x) <= e12)
  | Fold M => w_angle a' = 2 * PI / IZR M /\ w_physical a' = ph /\ (2 <= M)%Z
  | Both => False
  end /\ (sc = false -> pos a' = pos a).
Proof. exact wedge_set_values. Qed.
Print Assumptions C59_wedge.
Theorem C59_chiral : forall a g h sc a', chiral_set a g h sc = Ok a' ->
  c_angle a' = opt_or g (c_angle a) /\ c_height a' = opt_or h (c_height a) /\ (sc = false -> pos a' = pos a).
Proof. exact chiral_set_values. Qed.
Print Assumptions C59_chiral.
Theorem C59_doublechiral : forall a g h x sc a', doublechiral_set a g h x sc = Ok a' ->
  d_angle a' = opt_or g (d_angle a) /\ d_height a' = opt_or h (d_height a) /\ d_x a' = opt_or x (d_x a) /\
  (forall v, x = Some v -> Rabs (IZR (pyround (2 * v)) - 2 * v) < e15 /\ sc = false) /\ (sc = false -> pos a' = pos a).
Proof. exact doublechiral_set_values. Qed.
Print Assumptions C59_doublechiral.
(** C59: a rejected angle is stored all the same. *)
Theorem C59_rejected_refuted : exists a x b, wedge_set a (Angle x) None true None false = Exc b /\
  w_angle a = 2 * PI / 3 /\ w_angle b = x /\ PI < x.
Proof. exact wedge_rejected_kept. Qed.
Print Assumptions C59_rejected_refuted.
