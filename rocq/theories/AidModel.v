(** Tools around the calculator: box/fd_forces.py, box/distort.py, box/grids.py, box/random.py, containers/saddle.py *)
From Coq Require Import Reals ZArith List Bool Arith.
From Verif Require Import GeomModel SplModel.
Import ListNotations.
Open Scope R_scope.

(** ** box/fd_forces.py.  Positions: atom, axis *)
Definition geom := nat -> nat -> R.
Definition put (p : geom) (i c : nat) (v : R) : geom := fun j d => if ((j =? i) && (d =? c))%nat then v else p j d.
(** three lines of check_forces for one coordinate, lines 22-26; r0 the position of the atom before *)
Definition probe (E : geom -> R) (dx : R) (r0 : nat -> R) (p : geom) (i c : nat) : geom * R :=
  let p := put p i c (r0 c - dx) in let e1 := E p in
  let p := put p i c (r0 c + dx) in let e2 := E p in
  (put p i c (r0 c), - (e2 - e1) / (2 * dx)).
Definition setrow (f : geom) (i : nat) (a b c : R) : geom := put (put (put f i 0 a) i 1 b) i 2 c.
(** the body of the loop, lines 19-42 *)
Definition probe_atom (E : nat -> geom -> R) (dx : R) (s : geom * geom) (i : nat) : geom * geom :=
  let '(p, f) := s in
  let r0 := p i in
  let '(p, fx) := probe (E i) dx r0 p i 0 in
  let '(p, fy) := probe (E i) dx r0 p i 1 in
  let '(p, fz) := probe (E i) dx r0 p i 2 in
  (p, setrow f i fx fy fz).
(** np.max of the absolute values of an N x 3 array; N > 0 (otherwise ValueError) *)
Definition maxabs (N : nat) (d : geom) : R :=
  fold_left Rmax (flat_map (fun i => map (fun c => Rabs (d i c)) (seq 0 3)) (seq 0 N)) (Rabs (d 0%nat 0%nat)).
(** check_forces, lines 10-47: positions afterwards, numerical forces, forces, greatest difference.  The result of get_forces and
    get_potential_energy depends on positions only (the property of the calculator proved as C01 and following) *)
Definition check_forces (N : nat) (energy : geom -> R) (forces : geom -> geom) (dx : R) (p : geom) : geom * geom * geom * R :=
  let f0 := forces p in
  let '(p', ffd) := fold_left (probe_atom (fun _ => energy) dx) (seq 0 N) (p, f0) in
  (p', ffd, f0, maxabs N (fun i c => ffd i c - f0 i c)).
(** check_field, lines 50-87; the potential at the atom that is moved *)
Definition check_field (N : nat) (potential : geom -> nat -> R) (field : geom -> geom) (dx : R) (p : geom) : geom * geom * geom * R :=
  let f0 := field p in
  let '(p', ffd) := fold_left (probe_atom (fun i q => potential q i) dx) (seq 0 N) (p, f0) in
  (p', ffd, f0, maxabs N (fun i c => ffd i c - f0 i c)).

(** 3x3 matrices: row, column *)
Definition mat := nat -> nat -> R.
Definition dot3 (a b : mat) : mat := fun i j => a i 0%nat * b 0%nat j + a i 1%nat * b 1%nat j + a i 2%nat * b 2%nat j.
Definition unit3 : mat := fun i j => if (i =? j)%nat then 1 else 0.
(** a structure by its fractional coordinates, the cell follows: set_cell(c,scale_atoms=True) keeps fractional coordinates (cells are
    not singular); positions = fractional coordinates times cell *)
Definition probe_strain (energy : mat -> geom -> R) (frac : geom) (c0 : mat) (de : R) (s : mat * mat) (ij : nat * nat) : mat * mat :=
  let '(_, sfd) := s in let '(i, j) := ij in
  let e1 := let c := dot3 c0 (put unit3 i j (unit3 i j - de)) in energy c (dot3 frac c) in
  let c := dot3 c0 (put unit3 i j (unit3 i j + de)) in let e2 := energy c (dot3 frac c) in
  (c, put sfd i j ((e2 - e1) / (2 * de))).
(** check_virial, lines 90-126: cell afterwards and the numerical stress (Voigt order) *)
Definition check_virial (energy : mat -> geom -> R) (frac : geom) (c0 : mat) (V0 de : R) : mat * list R :=
  let '(c, s) := fold_left (probe_strain energy frac c0 de) (flat_map (fun i => map (fun j => (i, j)) (seq 0 3)) (seq 0 3)) (c0, fun _ _ => 0) in
  (c, map (fun x => x / V0) [s 0%nat 0%nat; s 1%nat 1%nat; s 2%nat 2%nat; (s 1%nat 2%nat + s 2%nat 1%nat) / 2; (s 0%nat 2%nat + s 2%nat 0%nat) / 2; (s 0%nat 1%nat + s 1%nat 0%nat) / 2]).

(** ** box/distort.py *)
(** a.rotate('-x',pi/2) for positions (angle in radians) *)
Definition lie_down (r : v3) : v3 := V3 (vx r) (vz r) (- vy r).
(** a.rotate('y',angle) *)
Definition rotate_y (t : R) (r : v3) : v3 := mv (roty t) r.
Definition det3 (c : mat) : R :=
  c 0%nat 0%nat * (c 1%nat 1%nat * c 2%nat 2%nat - c 1%nat 2%nat * c 2%nat 1%nat) - c 0%nat 1%nat * (c 1%nat 0%nat * c 2%nat 2%nat - c 1%nat 2%nat * c 2%nat 0%nat)
  + c 0%nat 2%nat * (c 1%nat 0%nat * c 2%nat 1%nat - c 1%nat 1%nat * c 2%nat 0%nat).
(** setup_bending, lines 8-47: positions, and the arguments of the wedge: angle, height, periodicity.  None: AssertionError.
    The rotated positions (line 37) are never read: those of line 32 are used *)
Definition setup_bending (c : mat) (pbc : bool * bool * bool) (ps : list v3) (angle radius rotation : R) : option (list v3 * R * R * bool) :=
  let a := map lie_down ps in
  let '(p1, p2, p3) := pbc in
  if ltb (/ 10 ^ 10) (Rabs (c 0%nat 0%nat * c 1%nat 1%nat * c 2%nat 2%nat - Rabs (det3 c))) then None else
  if negb p3 || p1 then None else
  let r := a in
  if existsb (fun q => ltb (vy q) 0) r then None else
  let a := map (rotate_y rotation) a in
  let r := map (fun q => let Rr := vx q + radius in let phi := vy q * angle / c 2%nat 2%nat in V3 (Rr * cos phi) (Rr * sin phi) (vz q)) r in
  let a := r in
  Some (a, angle, c 1%nat 1%nat, p2).

(** ** box/grids.py *)
(** GridData: data, numbers of points, axes (orthorhombic cell); lines 10-31 *)
Record grid := Grid { g_data : nat -> nat -> nat -> R; g_nx : nat; g_ny : nat; g_nz : nat; g_axes : v3 }.
(** np.linspace(0,L,n)[i], n >= 2 *)
Definition lin0 (L : R) (n i : nat) : R := INR i * (L / INR (n - 1)).
Definition g_x (g : grid) := lin0 (vx (g_axes g)) (g_nx g).
Definition g_y (g : grid) := lin0 (vy (g_axes g)) (g_ny g).
Definition g_z (g : grid) := lin0 (vz (g_axes g)) (g_nz g).
Definition ztol : R := / 1000.
(** __call__, lines 33-37; None: AssertionError *)
Definition g_call (g : grid) (x y z : R) : option R :=
  trilinear (g_data g) (g_nx g) (g_ny g) (g_nz g) vzero (V3 (vx (g_axes g) / INR (g_nx g - 1)) (vy (g_axes g) / INR (g_ny g - 1)) (vz (g_axes g) / INR (g_nz g - 1))) (V3 x y z).
(** find_height, lines 93-107; fuel for the recursion *)
Fixpoint find_height_n (g : grid) (thr x y : R) (fuel : nat) (zmin zmax : R) : option R :=
  match fuel with
  | O => None
  | S n =>
      let zmid := / 2 * (zmax + zmin) in
      if ltb (zmax - zmin) ztol then Some zmid else
      match g_call g x y zmid with
      | None => None
      | Some w => if leb thr w then find_height_n g thr x y n zmid zmax else find_height_n g thr x y n zmin zmid
      end
  end.
Definition find_height (g : grid) (thr x y zmin zmax : R) : option R :=
  find_height_n g thr x y (S (Z.to_nat (up ((zmax - zmin) / ztol)))) zmin zmax.
(** for k in range(nz-1,-1,-1), lines 81-88 and 129-135 *)
Fixpoint crossing (vals : nat -> R) (thr : R) (k : nat) : option nat :=
  match k with
  | O => None
  | S j => if leb (vals k) thr && leb thr (vals j) then Some k else crossing vals thr j
  end.
Definition column (g : grid) (vals : nat -> R) (thr x y bottom : R) : option R :=
  match crossing vals thr (g_nz g - 1) with
  | None => Some bottom
  | Some k => find_height g thr x y (g_z g (k - 1)) (g_z g k)
  end.
(** scan, lines 69-90: heights[i,j] *)
Definition scan (g : grid) (thr bottom : R) (i j : nat) : option R := column g (g_data g i j) thr (g_x g i) (g_y g j) bottom.
(** get_max_over_xy, lines 60-66; None: AssertionError *)
Definition max_step (g : grid) (z : R) (mx : option R) (ij : nat * nat) : option R :=
  match mx, g_call g (g_x g (fst ij)) (g_y g (snd ij)) z with Some m, Some w => Some (Rmax m w) | _, _ => None end.
Definition get_max_over_xy (g : grid) (z : R) : option R :=
  fold_left (max_step g z) (flat_map (fun i => map (fun j => (i, j)) (seq 0 (g_ny g))) (seq 0 (g_nx g))) (Some 0).
(** linescan, lines 110-137: point i of the line, distance and height there; points >= 2 *)
Definition line_point (r1 r2 : v3) (points i : nat) : v3 := vadd r1 (vscale (INR i / (INR points - 1)) (vsub r2 r1)).
Definition line_distance (r1 r2 : v3) (points i : nat) : R := INR i * vnorm (vsub r2 r1) / (INR points - 1).
Definition opt (o : option R) : R := match o with Some w => w | None => 0 end.
Definition all_some (l : list (option R)) : bool := forallb (fun o => match o with Some _ => true | None => false end) l.
Definition line_height (g : grid) (r1 r2 : v3) (thr : R) (points : nat) (bottom : R) (i : nat) : option R :=
  let r := line_point r1 r2 points i in
  if all_some (map (fun k => g_call g (vx r) (vy r) (g_z g k)) (seq 0 (g_nz g)))
  then column g (fun k => opt (g_call g (vx r) (vy r) (g_z g k))) thr (vx r) (vy r) bottom else None.
(** broadened_linescan, lines 139-182: the parallel lines (nwidth >= 2) and the height at point i *)
Definition broad_normal (r1 r2 : v3) : v3 := let n := vcross (vsub r2 r1) (V3 0 0 1) in vscale (/ vnorm n) n.
Definition broad_line (r1 r2 : v3) (width : R) (nwidth s : nat) : v3 * v3 :=
  let n := broad_normal r1 r2 in
  let start0 := vsub r1 (vscale (width / 2) n) in let end0 := vsub r2 (vscale (width / 2) n) in
  (vadd start0 (vscale (lin0 width nwidth s) n), vadd end0 (vscale (lin0 width nwidth s) n)).
Fixpoint maximum (l : list (option R)) : option R :=
  match l with
  | [] => None
  | [o] => o
  | o :: l => match o, maximum l with Some a, Some b => Some (Rmax a b) | _, _ => None end
  end.
Definition broad_height (g : grid) (r1 r2 : v3) (width thr : R) (points nwidth : nat) (bottom : R) (i : nat) : option R :=
  maximum (map (fun s => let '(a, b) := broad_line r1 r2 width nwidth s in line_height g a b thr points bottom i) (seq 0 nwidth)).

(** ** box/random.py: a distribution f on [a,b]; lines 22-36, N grid points *)
Definition r_grid (a b : R) (N i : nat) : R := a + INR i * ((b - a) / INR (N - 1)).
Fixpoint r_cum (f : nat -> R) (i : nat) : R := match i with O => 0 | S j => r_cum f j + f j + f (S j) end.
Section Random.
Context (f : R -> R) (a b : R) (N : nat).
Definition r_vals (i : nat) : R := f (r_grid a b N i).
Definition r_scaled (i : nat) : R := r_cum r_vals i / 2 * (b - a) / INR N.
Definition r_norm : R := r_scaled (N - 1).
Definition r_nodes (i : nat) : R := r_scaled i / r_norm.
(** SplineFunction with k=1: piecewise linear, zero outside (interpolation.py 264-304) *)
Fixpoint piecewise (x y : nat -> R) (rest i : nat) (v : R) : R :=
  match rest with
  | O => y i
  | S k => if leb v (x (S i)) then y i + (y (S i) - y i) / (x (S i) - x i) * (v - x i) else piecewise x y k (S i) v
  end.
Definition linear_spline (x y : nat -> R) (n : nat) (v : R) : R := if ltb v (x 0%nat) || ltb (x (n - 1)%nat) v then 0 else piecewise x y (n - 1) 0 v.
Definition r_F (v : R) : R := linear_spline (r_grid a b N) r_nodes N v.
(** __call__, lines 38-41: F.solve(rnd), scipy's brentq is an argument *)
Definition r_call (brentq : (R -> R) -> R -> R -> R) (rnd : R) : R := brentq (fun x => r_F x - rnd) (r_grid a b N 0) (r_grid a b N (N - 1)).
End Random.
(** self.N *)
Definition r_N : nat := (10 * 10 * 10)%nat.

(** ** containers/saddle.py: transform and rotation, lines 71-108 *)
Definition sad_M : nat := 50.
Definition sad_rot1 (a1 : R) : m3 := rotation_matrix (V3 0 1 0) (a1 / INR sad_M).
Definition sad_rot2 (a2 : R) : m3 := rotation_matrix (V3 1 0 0) (a2 / INR sad_M).
Definition sad_step (Rs a1 a2 : R) (rp : v3) : v3 :=
  let A := V3 0 0 (2 * Rs) in
  let rp := mv (sad_rot1 a1) rp in vadd A (mv (sad_rot2 a2) (vsub rp A)).
Definition sad_transform (angle1 angle2 Rs : R) (r : v3) (n : op) : v3 :=
  if ((o1 n =? o2 n) && (o2 n =? 0))%Z then r else Nat.iter sad_M (sad_step Rs (angle1 * IZR (o1 n)) (angle2 * IZR (o2 n))) r.
Definition sad_rotation (angle1 angle2 : R) (n : op) : m3 :=
  if ((o1 n =? o2 n) && (o2 n =? 0))%Z then eye else
  let rot21 := mm (sad_rot2 (angle2 * IZR (o2 n))) (sad_rot1 (angle1 * IZR (o1 n))) in
  Nat.iter sad_M (fun rot => mm rot21 rot) eye.
