(** Orbitals, wave functions and densities on a grid.  hotbit/grids.py, hotbit/analysis/wavefunctions.py *)
From Coq Require Import Reals ZArith List Bool Arith.
From Verif Require Import Vec GeomModel OccModel.
Import ListNotations.
Open Scope R_scope.

(** ** Grids.__init__, grids.py 23-54, one direction.  L: length of the cell in Bohr, h: the spacing asked for (Angstrom);
    line 23 stores self.h = h/Bohr, but line 30 divides the length by h *)
Definition points (L h : R) : Z := pyround (L / h).
(** line 31 *)
Definition spacing (L h : R) : R := L / (IZR (points L h) - 1).
(** lines 45-48: number of points of the partial grid *)
Definition partial_points (cutoff dr : R) : Z := let N := pyround (cutoff * 2 / dr) in if Z.even N then (N + 1)%Z else N.
(** lines 49 and 54: position of point p of the partial grid *)
Definition pgrid (pN : Z) (dr : R) (p : Z) : R := IZR p * dr - IZR (pN - 1) * dr / 2.

(** ** get_grid_basis_orbital 161-171, one direction: the slices (a1,a2) of the grid and (b1,b2) of the partial grid, or
    None if they are empty.  n: grid points, pN: (odd) points of the partial grid, c: grid point of the atom.
    Simplified: (pN-1)/2 is a float in the code, exact for odd pN *)
Open Scope Z_scope.
Definition slices (n pN c : Z) : option (Z * Z * Z * Z) :=
  let lo := c - (pN - 1) / 2 in let hi := c + (pN - 1) / 2 in
  let a1 := Z.max 0 lo in let a2 := Z.min (n - 1) hi in
  let an := a2 - a1 in
  let b1 := Z.max 0 (- lo) in let b2 := b1 + an in
  if (b2 <? b1) || (a2 <? a1) then None else Some (a1, a2, b1, b2).
(** number of elements of array[i1:i2+1] for an array of length n, 0 <= i1 *)
Definition slice_length (n i1 i2 : Z) : Z := Z.max 0 (Z.min n (i2 + 1) - i1).
Definition idx3 : Type := (Z * Z * Z)%type.
Definition within (a1 a2 g : Z) : bool := (a1 <=? g) && (g <=? a2).
Close Scope Z_scope.
(** line 173: wf[a] = wf[a] + phase*pwf[b] for a complex phase (re,im): wf is a real array (line 145), the assignment
    drops the imaginary part.  None: the slices have different lengths (ValueError; length 1 would be broadcast). *)
Definition stamp (n pN c : idx3) (phase : R * R) (pwf : idx3 -> R) (wf : idx3 -> R) : option (idx3 -> R) :=
  let '(n1, n2, n3) := n in let '(p1, p2, p3) := pN in let '(c1, c2, c3) := c in
  match slices n1 p1 c1, slices n2 p2 c2, slices n3 p3 c3 with
  | Some (a1, a2, b1, b2), Some (a1', a2', b1', b2'), Some (a1'', a2'', b1'', b2'') =>
      if ((slice_length n1 a1 a2 =? slice_length p1 b1 b2) && (slice_length n2 a1' a2' =? slice_length p2 b1' b2')
          && (slice_length n3 a1'' a2'' =? slice_length p3 b1'' b2''))%Z then
        Some (fun g => let '(g1, g2, g3) := g in
          if within a1 a2 g1 && within a1' a2' g2 && within a1'' a2'' g3
          then wf g + fst phase * pwf (g1 - a1 + b1, g2 - a1' + b1', g3 - a1'' + b1'')%Z else wf g)
      else None
  | _, _, _ => Some wf
  end.
(** lines 149-153, one direction *)
Definition rough (L cutoff ri : R) : bool := negb (ltb ri (- cutoff) || ltb (L + cutoff) ri).
Definition rough3 (L : v3) (cutoff : R) (r : v3) : bool :=
  rough (vx L) cutoff (vx r) && rough (vy L) cutoff (vy r) && rough (vz L) cutoff (vz r).
(** line 157 *)
Definition grid_point (dr r : v3) : idx3 := (pyround (vx r / vx dr), pyround (vy r / vy dr), pyround (vz r / vz dr)).
(** the loop over images, lines 147-173; images: positions of the atom and the phases of line 146 *)
Fixpoint stamps (L dr : v3) (cutoff : R) (n pN : idx3) (pwf : idx3 -> R) (images : list (v3 * (R * R))) (wf : idx3 -> R) : option (idx3 -> R) :=
  match images with
  | [] => Some wf
  | (r, ph) :: images =>
      if rough3 L cutoff r then
        match stamp n pN (grid_point dr r) ph pwf wf with None => None | Some wf => stamps L dr cutoff n pN pwf images wf end
      else stamps L dr cutoff n pN pwf images wf
  end.
(** lines 145-173, before _return_array *)
Definition basis_orbital (L dr : v3) (cutoff : R) (n pN : idx3) (pwf : idx3 -> R) (images : list (v3 * (R * R))) : option (idx3 -> R) :=
  stamps L dr cutoff n pN pwf images (fun _ => 0).
(** _return_array 61-69 for a real array: clipping *)
Definition clip (a : R) : R := Rmin (Rmax a (- 100)) 100.

(** ** get_grid_density 231-235: contribution of one k-point; d a: density of state a on a grid point, f: occupations *)
Definition occ_limit : R := / 10 ^ 6.
Fixpoint density_k (a : nat) (f : list R) (wk : R) (d : nat -> R) (rho : R) : R :=
  match f with
  | [] => rho
  | fa :: f => if ltb fa occ_limit then rho else density_k (S a) f wk d (rho + wk * d a)
  end.
Fixpoint density (k : nat) (l : list (R * list R)) (d : nat -> nat -> R) (rho : R) : R :=
  match l with [] => rho | (wk, f) :: l => density (S k) l d (density_k 0 f wk (d k) rho) end.

(** ** get_grid_LDOS 250-276: weight of a state.  bias and window in eV as given; H: Hartree in eV; e: the eigenvalue;
    ff: the method occu.fermi_function, with the Fermi level inside *)
Definition ldos_weight (ff : R -> R) (H wk e f : R) (bias : option R) (window : option (R * R)) : option R :=
  let fin w := let weight := wk * w * 2 in Some (if ltb weight (/ 10 ^ 4) then 0 else weight) in
  let win := match window with
             | None => None
             | Some (lo, hi) => Some (match bias with None => (lo / H, hi / H) | Some _ => (lo, hi) end)
             end in
  match win, bias with
  | Some (lo, hi), _ => fin (if leb lo e && leb e hi then 1 else 0)
  | None, Some bias =>
      let b := bias / H in
      fin (if ltb b 0 then f / 2 * (1 - ff (e - b)) else if ltb 0 b then (1 - f / 2) * ff (e - b) else 0)
  | None, None => None (* assertion *)
  end.

(** ** angular, wavefunctions.py 196-223.  None: phival raises or the state is unknown *)
Definition angular (r : v3) (wf : nat) : option R :=
  let R0 := vnorm r in
  if ltb R0 (/ 10 ^ 14) then Some 0 else
  let theta := acos (vz r / R0) in
  match phival (vx r) (vy r) with
  | None => None
  | Some phi =>
    match wf with
    | 0%nat => Some (1 / sqrt (4 * PI))
    | 1%nat => Some (sqrt (3 / (4 * PI)) * sin theta * cos phi)
    | 2%nat => Some (sqrt (3 / (4 * PI)) * sin theta * sin phi)
    | 3%nat => Some (sqrt (3 / (4 * PI)) * cos theta)
    | 4%nat => Some (sqrt (15 / (4 * PI)) * sin theta ^ 2 * cos phi * sin phi)
    | 5%nat => Some (sqrt (15 / (4 * PI)) * sin theta * cos theta * sin phi)
    | 6%nat => Some (sqrt (15 / (4 * PI)) * sin theta * cos theta * cos phi)
    | 7%nat => Some (/ 2 * sqrt (15 / (4 * PI)) * sin theta ^ 2 * cos (2 * phi))
    | 8%nat => Some (/ 2 * sqrt (5 / (4 * PI)) * (3 * cos theta ^ 2 - 1))
    | _ => None
    end
  end.
