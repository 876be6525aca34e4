From Coq Require Import Reals ZArith List Bool Arith.
From Coquelicot Require Import Coquelicot.
From Verif Require Import GeomModel GeomSpec SysSpec AidModel AidSpec AidProofs AidProofs2 AidProofs3 AidProofs4 AidProofs5.
Import ListNotations.
Open Scope R_scope.

(** C153: numerical forces and fields.  A case: ex_spring *)
Theorem C153_forces :
  forall (N : nat) (energy : geom -> R) (forces : geom -> geom) (dx : R) (p : geom),
  (1 <= N)%nat ->
  let
  '(p', ffd, f0, d) := check_forces N energy forces dx p in
   p' = p /\
   f0 = forces p /\
   (forall i c : nat, (i < N)%nat -> (c < 3)%nat -> ffd i c = - central (along_axis energy p i c) (p i c) dx) /\
   (forall i c : nat, (i < N)%nat -> (c < 3)%nat -> Rabs (ffd i c - f0 i c) <= d) /\
   (exists i c : nat, (i < N)%nat /\ (c < 3)%nat /\ d = Rabs (ffd i c - f0 i c)).
Proof. exact check_forces_spec. Qed.
Theorem C153_error :
  forall (N : nat) (energy : geom -> R) (forces : geom -> geom) (dx : R) (p : geom) (M : R) (i c : nat) (f1 f2 f3 : R -> R),
  (i < N)%nat ->
  (c < 3)%nat ->
  0 < dx ->
  smooth3 (along_axis energy p i c) f1 f2 f3 (p i c - dx) (p i c + dx) ->
  (forall t : R, p i c - dx <= t <= p i c + dx -> Rabs (f3 t) <= M) ->
  let
  '(_, ffd, f0, d) := check_forces N energy forces dx p in
   Rabs (ffd i c - - f1 (p i c)) <= M * dx ^ 2 / 6 /\ Rabs (f0 i c - - f1 (p i c)) <= d + M * dx ^ 2 / 6.
Proof. exact check_forces_sound. Qed.
Theorem C153_correct_forces :
  forall (N : nat) (energy : geom -> R) (forces : geom -> nat -> nat -> R) (dx : R) (p : geom) (M : R),
  (1 <= N)%nat ->
  0 < dx ->
  (forall i c : nat,
   (i < N)%nat ->
   (c < 3)%nat ->
   exists f1 f2 f3 : R -> R,
     smooth3 (along_axis energy p i c) f1 f2 f3 (p i c - dx) (p i c + dx) /\
     (forall t : R, p i c - dx <= t <= p i c + dx -> Rabs (f3 t) <= M) /\ forces p i c = - f1 (p i c)) ->
  snd (check_forces N energy forces dx p) <= M * dx ^ 2 / 6.
Proof. exact check_forces_complete. Qed.
Theorem C153_field :
  forall (N : nat) (potential : geom -> nat -> R) (field : geom -> geom) (dx : R) (p : geom),
  (1 <= N)%nat ->
  let
  '(p', ffd, f0, d) := check_field N potential field dx p in
   p' = p /\
   f0 = field p /\
   (forall i c : nat, (i < N)%nat -> (c < 3)%nat -> ffd i c = - central (along_axis (fun q : geom => potential q i) p i c) (p i c) dx) /\
   (forall i c : nat, (i < N)%nat -> (c < 3)%nat -> Rabs (ffd i c - f0 i c) <= d) /\
   (exists i c : nat, (i < N)%nat /\ (c < 3)%nat /\ d = Rabs (ffd i c - f0 i c)).
Proof. exact check_field_spec. Qed.
(** C154: numerical stress.  A case: ex_proper *)
Theorem C154_stress :
  forall (E : mat -> geom -> R) (frac : geom) (c0 : mat) (V0 de : R),
  proper E ->
  let
  '(c, s) := check_virial E frac c0 V0 de in
   let D := fun i j : nat => central (strain_energy E c0 (dot3 frac c0) i j) 0 de in
   s =
   map (fun x : R => x / V0)
     [D 0%nat 0%nat; D 1%nat 1%nat; D 2%nat 2%nat; (D 1%nat 2%nat + D 2%nat 1%nat) / 2; (D 0%nat 2%nat + D 2%nat 0%nat) / 2;
      (D 0%nat 1%nat + D 1%nat 0%nat) / 2] /\
   same33 c (fun k : nat => strained 2 2 de (c0 k)) /\ same3 (dot3 frac c) (fun k : nat => strained 2 2 de (dot3 frac c0 k)).
Proof. exact check_virial_spec. Qed.
Theorem C154_restored_refuted :
  forall (E : mat -> geom -> R) (frac : geom) (c0 : nat -> nat -> R) (V0 de : R),
  proper E -> de <> 0 -> c0 2%nat 2%nat <> 0 -> ~ same33 (fst (check_virial E frac c0 V0 de)) c0.
Proof. exact check_virial_refuted. Qed.
(** C155: bending.  A case: ex_bending *)
Theorem C155_positions :
  forall (c : mat) (pbc : bool * bool * bool) (ps : list v3) (angle radius rotation : R) (r : list v3) (an h : R) (pz : bool),
  setup_bending c pbc ps angle radius rotation = Some (r, an, h, pz) ->
  r = map (bent angle radius (c 2%nat 2%nat) 0) ps /\
  an = angle /\ h = c 1%nat 1%nat /\ pbc = (false, pz, true) /\ (forall p : v3, In p ps -> 0 <= vz p).
Proof. exact bending_spec. Qed.
Theorem C155_images :
  forall (c : mat) (pbc : bool * bool * bool) (ps : list v3) (angle radius rotation : R) (r : list v3) (an h : R) (pz : bool),
  orthorhombic c ->
  0 < c 2%nat 2%nat ->
  setup_bending c pbc ps angle radius rotation = Some (r, an, h, pz) ->
  forall (i : nat) (p : v3) (l k : Z),
  nth_error ps i = Some p ->
  pz = true \/ l = 0%Z ->
  exists q : v3,
    nth_error r i = Some q /\
    transform Wedge (wedge an h pz) q (k, 0%Z, (- l)%Z) = bent angle radius (c 2%nat 2%nat) 0 (shifted (c 1%nat 1%nat) (c 2%nat 2%nat) p l k).
Proof. exact bending_images. Qed.
Theorem C155_distance :
  forall (angle radius Lz : R) (p q : v3),
  vx p = vx q ->
  Lz <> 0 ->
  dist (bent angle radius Lz 0 p) (bent angle radius Lz 0 q) ^ 2 =
  (vy p - vy q) ^ 2 + (2 * (vx p + radius) * sin ((vz p - vz q) * angle / (2 * Lz))) ^ 2.
Proof. exact bent_distance. Qed.
Theorem C155_rotation_refuted :
  exists (c : mat) (pbc : bool * bool * bool) (ps : list v3) (angle radius rotation : R) (r : list v3) (an h : R) (pz : bool),
    orthorhombic c /\
    0 < c 2%nat 2%nat /\
    setup_bending c pbc ps angle radius rotation = Some (r, an, h, pz) /\ r <> map (bent angle radius (c 2%nat 2%nat) rotation) ps.
Proof. exact rotation_refuted. Qed.
Theorem C155_sheared_refuted :
  exists (c : nat -> nat -> R) (ps : list v3) (angle radius : R) (r : list v3) (an h : R) (pz : bool),
    c 2%nat 0%nat <> 0 /\
    0 < c 2%nat 2%nat /\
    setup_bending c (false, false, true) ps angle radius 0 = Some (r, an, h, pz) /\
    (exists p q : v3,
       nth_error ps 0 = Some p /\
       nth_error r 0 = Some q /\
       transform Wedge (wedge an h pz) q (1%Z, 0%Z, 0%Z) <>
       bent angle radius (c 2%nat 2%nat) 0 (vadd p {| vx := c 2%nat 0%nat; vy := c 2%nat 1%nat; vz := c 2%nat 2%nat |})).
Proof. exact sheared_refuted. Qed.
(** C156: scans of grid data.  Cases: ex_good, ex_contour *)
Theorem C156_scan :
  forall (g : grid) (thr bottom : R) (i j : nat),
  good g ->
  (i < g_nx g)%nat ->
  (j < g_ny g)%nat ->
  let x := g_x g i in
  let y := g_y g j in
  exists h : R, scan g thr bottom i j = Some h /\ (no_contour g thr x y /\ h = bottom \/ ~ no_contour g thr x y /\ contour g thr x y h).
Proof. exact scan_spec. Qed.
Theorem C156_linescan :
  forall (g : grid) (r1 r2 : v3) (thr : R) (points : nat) (bottom : R) (i : nat),
  good g ->
  let r := line_point r1 r2 points i in
  in_box g (vx r) (vy r) ->
  exists h : R,
    line_height g r1 r2 thr points bottom i = Some h /\
    (no_contour g thr (vx r) (vy r) /\ h = bottom \/ ~ no_contour g thr (vx r) (vy r) /\ contour g thr (vx r) (vy r) h).
Proof. exact line_height_spec. Qed.
Theorem C156_distance :
  forall (r1 r2 : v3) (points i : nat),
  (2 <= points)%nat -> vz r1 = vz r2 -> line_distance r1 r2 points i = in_plane (line_point r1 r2 points i) r1.
Proof. exact line_distance_spec. Qed.
Theorem C156_distance_refuted :
  exists (r1 r2 r1' r2' : v3) (points i : nat),
    (2 <= points)%nat /\
    vx r1 = vx r1' /\ vy r1 = vy r1' /\ vx r2 = vx r2' /\ vy r2 = vy r2' /\ line_distance r1 r2 points i <> line_distance r1' r2' points i.
Proof. exact line_distance_refuted. Qed.
Theorem C156_lines :
  forall (r1 r2 : v3) (width : R) (nwidth s points i : nat),
  (2 <= nwidth)%nat ->
  0 < in_plane r1 r2 ->
  let
  '(a, b) := broad_line r1 r2 width nwidth s in
   let off := - width / 2 + INR s * width / INR (nwidth - 1) in
   line_point a b points i = vadd (line_point r1 r2 points i) (vscale off (broad_normal r1 r2)) /\
   vnorm (broad_normal r1 r2) = 1 /\ vz (broad_normal r1 r2) = 0 /\ vdot (broad_normal r1 r2) (vsub r2 r1) = 0.
Proof. exact broad_line_spec. Qed.
Theorem C156_broadened :
  forall (g : grid) (r1 r2 : v3) (width thr : R) (points nwidth : nat) (bottom : R) (i : nat),
  good g ->
  (2 <= nwidth)%nat ->
  0 < in_plane r1 r2 ->
  (forall s : nat,
   (s < nwidth)%nat ->
   let p := vadd (line_point r1 r2 points i) (vscale (- width / 2 + INR s * width / INR (nwidth - 1)) (broad_normal r1 r2)) in
   in_box g (vx p) (vy p)) ->
  exists m : R,
    broad_height g r1 r2 width thr points nwidth bottom i = Some m /\
    (exists s : nat, (s < nwidth)%nat /\ (let '(a, b) := broad_line r1 r2 width nwidth s in line_height g a b thr points bottom i = Some m)) /\
    (forall (s : nat) (w : R),
     (s < nwidth)%nat -> (let '(a, b) := broad_line r1 r2 width nwidth s in line_height g a b thr points bottom i = Some w) -> w <= m).
Proof. exact broad_height_spec. Qed.
Theorem C156_maximum :
  forall (g : grid) (z : R),
  good g ->
  0 <= z <= vz (g_axes g) ->
  exists m : R,
    get_max_over_xy g z = Some m /\
    0 <= m /\
    (forall (i j : nat) (w : R), (i < g_nx g)%nat -> (j < g_ny g)%nat -> g_call g (g_x g i) (g_y g j) z = Some w -> w <= m) /\
    (m = 0 \/ (exists i j : nat, (i < g_nx g)%nat /\ (j < g_ny g)%nat /\ g_call g (g_x g i) (g_y g j) z = Some m)).
Proof. exact get_max_spec. Qed.
Theorem C156_maximum_refuted :
  exists (g : grid) (z m : R),
    good g /\
    0 <= z <= vz (g_axes g) /\
    get_max_over_xy g z = Some m /\
    (forall (i j : nat) (w : R), (i < g_nx g)%nat -> (j < g_ny g)%nat -> g_call g (g_x g i) (g_y g j) z = Some w -> w < m).
Proof. exact get_max_refuted. Qed.
(** C157: random numbers.  A case: ex_uniform *)
Theorem C157_nodes :
  forall (f : R -> R) (a b : R) (N : nat),
  (2 <= N)%nat ->
  a < b ->
  0 < trapezoid f (r_grid a b N) (N - 1) ->
  forall i : nat, (i < N)%nat -> r_F f a b N (r_grid a b N i) = trapezoid f (r_grid a b N) i / trapezoid f (r_grid a b N) (N - 1).
Proof. exact F_node. Qed.
Theorem C157_ends :
  forall (f : R -> R) (a b : R) (N : nat),
  (2 <= N)%nat -> a < b -> 0 < trapezoid f (r_grid a b N) (N - 1) -> r_F f a b N a = 0 /\ r_F f a b N b = 1.
Proof. exact F_ends. Qed.
Theorem C157_monotone :
  forall (f : R -> R) (a b : R) (N : nat),
  (2 <= N)%nat ->
  a < b ->
  (forall v : R, a <= v <= b -> 0 <= f v) ->
  0 < trapezoid f (r_grid a b N) (N - 1) -> forall u v : R, a <= u -> u <= v -> v <= b -> r_F f a b N u <= r_F f a b N v.
Proof. exact F_mono. Qed.
Theorem C157_sample :
  forall (f : R -> R) (a b : R) (N : nat),
  (2 <= N)%nat ->
  a < b ->
  (forall v : R, a <= v <= b -> 0 <= f v) ->
  0 < trapezoid f (r_grid a b N) (N - 1) ->
  forall (brentq : (R -> R) -> R -> R -> R) (rnd : R),
  brentq_contract brentq -> 0 <= rnd <= 1 -> a <= r_call f a b N brentq rnd <= b /\ r_F f a b N (r_call f a b N brentq rnd) = rnd.
Proof. exact sample_spec. Qed.
Theorem C157_distribution :
  forall (f : R -> R) (a b : R) (N : nat),
  (2 <= N)%nat ->
  a < b ->
  (forall v : R, a <= v <= b -> 0 <= f v) ->
  0 < trapezoid f (r_grid a b N) (N - 1) ->
  forall (brentq : (R -> R) -> R -> R -> R) (rnd t : R),
  brentq_contract brentq ->
  (forall i : nat, (i < N)%nat -> 0 < f (r_grid a b N i)) ->
  0 <= rnd <= 1 -> a <= t <= b -> r_call f a b N brentq rnd <= t <-> rnd <= r_F f a b N t.
Proof. exact sample_distribution. Qed.
Theorem C157_norm :
  forall (f : R -> R) (a b : R) (N : nat), (2 <= N)%nat -> r_norm f a b N = INR (N - 1) / INR N * trapezoid f (r_grid a b N) (N - 1).
Proof. exact norm_spec. Qed.
Theorem C157_norm_refuted :
  exists (f : R -> R) (a b : R),
    a < b /\ 0 < trapezoid f (r_grid a b r_N) (r_N - 1) /\ r_norm f a b r_N <> trapezoid f (r_grid a b r_N) (r_N - 1).
Proof. exact norm_refuted. Qed.
(** C158: saddles *)
Theorem C158_consistent :
  forall (angle1 angle2 Rs : R) (r s : v3) (n : op),
  vsub (sad_transform angle1 angle2 Rs r n) (sad_transform angle1 angle2 Rs s n) = mv (sad_rotation angle1 angle2 n) (vsub r s).
Proof. exact sad_consistent. Qed.
Theorem C158_rotation :
  forall (angle1 angle2 : R) (n : op), is_rotation (sad_rotation angle1 angle2 n).
Proof. exact sad_rotation_rotation. Qed.
Theorem C158_distance :
  forall (angle1 angle2 Rs : R) (r s : v3) (n : op), dist (sad_transform angle1 angle2 Rs r n) (sad_transform angle1 angle2 Rs s n) = dist r s.
Proof. exact sad_distance. Qed.
Theorem C158_group :
  forall (angle1 angle2 Rs : R) (r : v3) (k l : Z),
  sad_transform angle1 angle2 Rs (sad_transform angle1 angle2 Rs r (k, 0%Z, 0%Z)) (l, 0%Z, 0%Z) =
  sad_transform angle1 angle2 Rs r ((k + l)%Z, 0%Z, 0%Z) /\
  sad_transform angle1 angle2 Rs (sad_transform angle1 angle2 Rs r (0%Z, k, 0%Z)) (0%Z, l, 0%Z) =
  sad_transform angle1 angle2 Rs r (0%Z, (k + l)%Z, 0%Z).
Proof. exact sad_group. Qed.
Theorem C158_group_refuted :
  exists (angle1 angle2 Rs : R) (r : v3),
    sad_transform angle1 angle2 Rs (sad_transform angle1 angle2 Rs r (1%Z, 1%Z, 0%Z)) ((-1)%Z, (-1)%Z, 0%Z) <> r.
Proof. exact sad_refuted. Qed.
Print Assumptions C153_forces.
Print Assumptions C153_error.
Print Assumptions C153_correct_forces.
Print Assumptions C153_field.
Print Assumptions C154_stress.
Print Assumptions C154_restored_refuted.
Print Assumptions C155_positions.
Print Assumptions C155_images.
Print Assumptions C155_distance.
Print Assumptions C155_rotation_refuted.
Print Assumptions C155_sheared_refuted.
Print Assumptions C156_scan.
Print Assumptions C156_linescan.
Print Assumptions C156_distance.
Print Assumptions C156_distance_refuted.
Print Assumptions C156_lines.
Print Assumptions C156_broadened.
Print Assumptions C156_maximum.
Print Assumptions C156_maximum_refuted.
Print Assumptions C157_nodes.
Print Assumptions C157_ends.
Print Assumptions C157_monotone.
Print Assumptions C157_sample.
Print Assumptions C157_distribution.
Print Assumptions C157_norm.
Print Assumptions C157_norm_refuted.
Print Assumptions C158_consistent.
Print Assumptions C158_rotation.
Print Assumptions C158_distance.
Print Assumptions C158_group.
Print Assumptions C158_group_refuted.
