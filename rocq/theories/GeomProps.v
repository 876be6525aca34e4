From Coq Require Import Reals ZArith List Bool.
From Verif Require Import GeomModel GeomSpec GeomProofs GeomProofs2 GeomProofs3.
Import ListNotations.
Open Scope R_scope.

(** C18: the operation (0,0,0) fixes every position, in every container. *)
Theorem C18_identity : forall c a r, transform c a r (0, 0, 0)%Z = r.
Proof. exact identity_op. Qed.
Print Assumptions C18_identity.

(** C18: applying n and then m is applying n+m. *)
Theorem C18_composition : forall c a r n m, additive c ->
  transform c a (transform c a r n) m = transform c a r (op_add n m).
Proof. exact group_action. Qed.
Print Assumptions C18_composition.

(** C18: the first operation of DoubleChiral twice is the third one 2x times. *)
Theorem C18_doublechiral : forall a r k n2 n3 x2, IZR x2 = 2 * d_x a ->
  transform DoubleChiral a r (k + 2, n2, n3)%Z = transform DoubleChiral a r (k, n2, n3 + x2)%Z.
Proof. exact doublechiral_square. Qed.
Print Assumptions C18_doublechiral.

(** C18, Slab: two reflections are 2x translations when the first two lattice vectors lie in
    the xy-plane; translations add up. *)
Theorem C18_slab : forall a r n1 n2 m1 m2 x1 x2,
  IZR x1 = 2 * fst (slabx a) -> IZR x2 = 2 * snd (slabx a) -> cell a 0 2 = 0 -> cell a 1 2 = 0 ->
  transform Slab a (transform Slab a r (n1, n2, 1)%Z) (m1, m2, 1)%Z =
  transform Slab a r (n1 + m1 + x1, n2 + m2 + x2, 0)%Z.
Proof. exact slab_square. Qed.
Print Assumptions C18_slab.

Theorem C18_slab_translations : forall a r n1 n2 m1 m2 k, (k = 0 \/ k = 1)%Z ->
  transform Slab a (transform Slab a r (n1, n2, 0)%Z) (m1, m2, k)%Z = transform Slab a r (n1 + m1, n2 + m2, k)%Z.
Proof. exact slab_translations. Qed.
Print Assumptions C18_slab_translations.

(** C18, TwistAndTurn: operations add up for atoms inside the torus, and stay inside. *)
Theorem C18_twistandturn : forall a r n m, in_torus a r ->
  transform TwistAndTurn a (transform TwistAndTurn a r n) m = transform TwistAndTurn a r (op_add n m) /\
  in_torus a (transform TwistAndTurn a r n).
Proof. exact tat_action. Qed.
Print Assumptions C18_twistandturn.

(** C18, Sphere (default mode): operations about one axis add up ... *)
Theorem C18_sphere_axis : forall a r k l, (s_mode a =? 3)%Z = false ->
  (s_n1 a <> vzero -> s_angle1 a <> 0 ->
   transform Sphere a (transform Sphere a r (k, 0, 0)%Z) (l, 0, 0)%Z = transform Sphere a r (k + l, 0, 0)%Z) /\
  (s_n2 a <> vzero -> s_angle2 a <> 0 ->
   transform Sphere a (transform Sphere a r (0, k, 0)%Z) (0, l, 0)%Z = transform Sphere a r (0, k + l, 0)%Z).
Proof. exact sphere_single_axis. Qed.
Print Assumptions C18_sphere_axis.

(** ... but operations about the two axes do not. *)
Theorem C18_sphere_refuted : exists a r n m,
  sphere_defined a n /\ sphere_defined a m /\ sphere_defined a (op_add n m) /\
  transform Sphere a (transform Sphere a r n) m <> transform Sphere a r (op_add n m).
Proof. exact sphere_not_group. Qed.
Print Assumptions C18_sphere_refuted.

(** C19: distances are preserved, and differences of images are the rotation matrix applied
    to differences of positions.  Missing: TwistAndTurn, refuted below. *)
Theorem C19_rigid_partial : forall c a n, rigid_container c a n ->
  rigid (fun r => transform c a r n) /\ is_orthogonal (rotation c a n) /\
  forall r s, vsub (transform c a r n) (transform c a s n) = mv (rotation c a n) (vsub r s).
Proof.
  exact (fun c a n H => conj (transform_rigid c a n H) (conj (rotation_orthogonal c a n H)
           (fun r s => rotation_of_transform c a n r s H))).
Qed.
Print Assumptions C19_rigid_partial.

Theorem C19_twistandturn_refuted : exists a n,
  ~ rigid (fun r => transform TwistAndTurn a r n) /\
  exists r s, in_torus a r /\ in_torus a s /\
  vsub (transform TwistAndTurn a r n) (transform TwistAndTurn a s n) <> mv (rotation TwistAndTurn a n) (vsub r s).
Proof. exact tat_not_rigid. Qed.
Print Assumptions C19_twistandturn_refuted.

(** C20: with angle 2 pi/M the finite direction has exactly M operations, 0 among them ... *)
Theorem C20_count : forall c a M, (0 < M)%Z ->
  match c with Wedge | WedgeYAxis => w_angle a = 2 * PI / IZR M
             | ChiralWedge => Rabs (cw_angle a) = 2 * PI / IZR M | _ => False end ->
  exists lo hi, fst (fst (ranges c a)) = Fin lo hi /\ (lo <= 0 <= hi)%Z /\ (hi - lo + 1)%Z = M.
Proof. exact wedge_range_size. Qed.
Print Assumptions C20_count.

(** ... and every operation whatsoever does the same as exactly one of them. *)
Theorem C20_each_once : forall c a M n1 n2 n3, (0 < M)%Z ->
  match c with Wedge | WedgeYAxis => w_angle a = 2 * PI / IZR M
             | ChiralWedge => Rabs (cw_angle a) = 2 * PI / IZR M | _ => False end ->
  let ok k := in_range (fst (fst (ranges c a))) k = true in
  exists k, ok k /\ (forall r, transform c a r (k, n2, n3) = transform c a r (n1, n2, n3)) /\
  forall k', ok k' -> (forall r, transform c a r (k', n2, n3) = transform c a r (n1, n2, n3)) -> k' = k.
Proof. exact wedge_unique. Qed.
Print Assumptions C20_each_once.

(** C41 *)
Theorem C41_rotation : forall axis t, axis <> vzero -> is_rotation (rotation_matrix axis t).
Proof. exact rotation_matrix_rotation. Qed.
Print Assumptions C41_rotation.

Theorem C41_fixes_axis : forall axis t, axis <> vzero -> mv (rotation_matrix axis t) axis = axis.
Proof. exact rotation_matrix_axis. Qed.
Print Assumptions C41_fixes_axis.

Theorem C41_angles_add : forall axis t u, axis <> vzero ->
  mm (rotation_matrix axis t) (rotation_matrix axis u) = rotation_matrix axis (t + u).
Proof. exact rotation_matrix_plus. Qed.
Print Assumptions C41_angles_add.

(** C41: a vector perpendicular to the axis turns by the angle, right-handed. *)
Theorem C41_turns : forall axis t v, axis <> vzero -> vdot axis v = 0 ->
  mv (rotation_matrix axis t) v =
  vadd (vscale (cos t) v) (vscale (sin t / vnorm axis) (vcross axis v)).
Proof. exact rotation_matrix_perp. Qed.
Print Assumptions C41_turns.

(** C42: the polar angle, when each coordinate is zero or larger than 1e-16 ... *)
Theorem C42_polar_angle : forall x y, resolved x -> resolved y ->
  exists t, phival x y = Some t /\ polar x y t.
Proof. exact phival_polar. Qed.
Print Assumptions C42_polar_angle.

(** ... and some angle of [0,2 pi) for every input: the RuntimeError is never raised. *)
Theorem C42_total : forall x y, exists t, phival x y = Some t /\ 0 <= t < 2 * PI.
Proof. exact phival_total. Qed.
Print Assumptions C42_total.

(** C42: not the polar angle for every pair. *)
Theorem C42_tiny_refuted : exists x y t, 0 < x /\ 0 < y /\ phival x y = Some t /\ ~ polar x y t.
Proof. exact phival_refuted. Qed.
Print Assumptions C42_tiny_refuted.

(** C56: asking for k1 x k2 x k3 copies applies that many different allowed operations, each
    once to every atom, the identity among them unless a single copy is asked in a finite
    direction that has negative operations. *)
Theorem C56_copies_partial : forall c a k1 k2 k3,
  allowed c a (0, 0, 0)%Z = true -> (0 < k1)%Z -> (0 < k2)%Z -> (0 < k3)%Z ->
  let '(ra, rb, rc) := ranges c a in
  range_ok ra k1 -> range_ok rb k2 -> range_ok rc k3 ->
  exists l, extended_copy c a (Count k1, Count k2, Count k3) =
              Some (flat_map (fun n => map (fun r => transform c a r n) (pos a)) l) /\
    NoDup l /\ Z.of_nat (length l) = (k1 * k2 * k3)%Z /\ (forall n, In n l -> allowed c a n = true) /\
    ((forall r k, In (r, k) [(ra, k1); (rb, k2); (rc, k3)] ->
       k = 1%Z -> match r with Full => True | Fin lo _ => lo = 0%Z end) -> In (0, 0, 0)%Z l).
Proof. exact extended_copy_counts. Qed.
Print Assumptions C56_copies_partial.

(** C56: otherwise the request is rejected. *)
Theorem C56_rejected : forall c a k1 k2 k3,
  let '(ra, rb, rc) := ranges c a in
  ~ (0 < k1 /\ 0 < k2 /\ 0 < k3 /\ range_ok ra k1 /\ range_ok rb k2 /\ range_ok rc k3)%Z ->
  extended_copy c a (Count k1, Count k2, Count k3) = None.
Proof. exact extended_copy_too_many. Qed.
Print Assumptions C56_rejected.

(** C56: explicit operation ranges. *)
Theorem C56_ranges : forall c a lo1 hi1 lo2 hi2 lo3 hi3, (lo1 <= hi1 -> lo2 <= hi2 -> lo3 <= hi3 ->
  (forall n, (lo1 <= o1 n <= hi1 -> lo2 <= o2 n <= hi2 -> lo3 <= o3 n <= hi3 -> allowed c a n = true)) ->
  exists l, extended_copy c a (Pair lo1 hi1, Pair lo2 hi2, Pair lo3 hi3) =
              Some (flat_map (fun n => map (fun r => transform c a r n) (pos a)) l) /\ NoDup l /\
  forall n, In n l <-> lo1 <= o1 n <= hi1 /\ lo2 <= o2 n <= hi2 /\ lo3 <= o3 n <= hi3)%Z.
Proof. exact extended_copy_pairs. Qed.
Print Assumptions C56_ranges.

(** C56: a single copy of a wedge is not the original atoms. *)
Theorem C56_single_copy_refuted : exists a p, allowed Wedge a (0, 0, 0)%Z = true /\
  extended_copy Wedge a (Count 1, Count 1, Count 1) = Some p /\ p <> pos a.
Proof. exact wedge_single_copy. Qed.
Print Assumptions C56_single_copy_refuted.
