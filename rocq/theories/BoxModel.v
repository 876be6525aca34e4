(** The atoms object of box (box/atoms.py), reaction paths (box/barriers.py) and the check of energy conservation (box/md.py) *)
From Coq Require Import Reals ZArith List Bool Arith String.
From Verif Require Import Vec GeomModel.
Import ListNotations.
Open Scope R_scope.

(** ** box/atoms.py *)
(** numpy.mod (L <> 0) *)
Definition npmod (x L : R) : R := x - L * IZR (Int_part (x / L)).
Definition each (f : nat -> R -> R) (v : v3) : v3 := V3 (f 0%nat (vx v)) (f 1%nat (vy v)) (f 2%nat (vz v)).
Definition coord (v : v3) (a : nat) : R := match a with O => vx v | 1%nat => vy v | _ => vz v end.
Definition row (m : m3) (a : nat) : v3 := match a with O => row1 m | 1%nat => row2 m | _ => row3 m end.
(** what is read: number of atoms, positions, cell, pbc *)
Record batoms := Batoms { b_N : nat; b_pos : nat -> v3; b_cell : m3; b_pbc : nat -> bool }.
Definition with_pos (b : batoms) (r : nat -> v3) : batoms := Batoms (b_N b) r (b_cell b) (b_pbc b).
Inductive error := ValueError | NotImplementedError.
(** get_cell_axes, 122-126 *)
Definition axis_length (b : batoms) (a : nat) : R := coord (row (b_cell b) a) a.
(** _check_cell_orthogonality, 111-120; true: accepted *)
Definition orthogonal_check (b : batoms) : bool :=
  forallb (fun a => forallb (fun c => (a =? c)%nat || negb (ltb (/ 10 ^ 9) (coord (row (b_cell b) a) c))) (seq 0 3)) (seq 0 3).
(** _reduce_atoms_into_cell, 95-109 *)
Definition outside (b : batoms) (i a : nat) : bool :=
  negb (b_pbc b a) && (ltb (coord (b_pos b i) a) 0 || ltb (axis_length b a) (coord (b_pos b i) a)).
Definition reduce (b : batoms) : error + batoms :=
  if existsb (fun a => ltb (axis_length b a) 1.1) (seq 0 3) then inl ValueError else
  if existsb (fun i => existsb (outside b i) (seq 0 3)) (seq 0 (b_N b)) then inl ValueError else
  inr (with_pos b (fun i => each (fun a x => if b_pbc b a then npmod x (axis_length b a) else x) (b_pos b i))).
(** _update, 90-93 *)
Definition update (b : batoms) : error + batoms := if orthogonal_check b then reduce b else inl NotImplementedError.

(** arguments of vector and distance: the number of an atom or a position; the second may be left out.  Scalar: distance passes the Boolean mic as rj *)
Inductive point := Index (i : nat) | Position (v : v3).
Inductive second := Nothing | Point (p : point) | Scalar (x : R).
Definition coordinates (b : batoms) (p : point) : v3 := match p with Index i => b_pos b i | Position v => v end.
(** lines 156-159 *)
Definition wrap (b : batoms) (v : v3) : v3 :=
  each (fun a x => if b_pbc b a then npmod (x + 0.5 * axis_length b a) (axis_length b a) - 0.5 * axis_length b a else x) v.
(** vector, 128-160.  elementwise: comparing an array to None gives an array (NumPy 1.13 and later), the truth value of which is a ValueError (line 144 for
    positions, 151 for numbers of atoms); before, the comparison was False.  Numbers of atoms in range (otherwise IndexError) *)
Definition vector (elementwise : bool) (b : batoms) (ri : point) (rj : second) (mic : bool) : error + v3 :=
  if negb mic then inl NotImplementedError else
  let Ri := coordinates b ri in
  match rj with
  | Nothing => inr (wrap b Ri)
  | Scalar x => inr (wrap b (vsub (V3 x x x) Ri))
  | Point p => if elementwise then inl ValueError else inr (wrap b (vsub (coordinates b p) Ri))
  end.
(** distance, 162-169; line 166 compares positions to None, 167 passes mic in the place of rj *)
Definition distance (elementwise : bool) (b : batoms) (ri : point) (rj : second) (mic : bool) : error + R :=
  match (match rj with
    | Nothing => vector elementwise b ri (Scalar (if mic then 1 else 0)) true
    | Point (Position _) => if elementwise then inl ValueError else vector elementwise b ri rj mic
    | _ => vector elementwise b ri rj mic
    end) with
  | inl e => inl e
  | inr v => inr (vnorm v)
  end.
(** pair_distribution_list, 326-334: pairs and distances *)
Definition pairs (N : nat) : list (nat * nat) := flat_map (fun i => map (fun j => (i, j)) (seq (S i) (N - S i))) (seq 0 N).
(** construct_bonds, 357-375: i, j, length; rc: covalent radii *)
Definition bond : Type := (nat * nat * R)%type.
Definition construct_bonds (elementwise : bool) (b : batoms) (rc : nat -> R) : error + list bond :=
  fold_left (fun acc p => match acc with
    | inl e => inl e
    | inr l => match distance elementwise b (Index (fst p)) (Point (Index (snd p))) true with
      | inl e => inl e
      | inr d => inr (if ltb d ((rc (fst p) + rc (snd p)) * 1.4) then l ++ [(fst p, snd p, d)] else l)
      end end) (pairs (b_N b)) (inr []).
(** write_vtk, 378-401: the bonds that are written; st: the data 'bonds' (None: not made yet).  Returns them and the data afterwards *)
Definition write_vtk (elementwise : bool) (b : batoms) (rc : nat -> R) (st : option (list bond)) : error + list bond * option (list bond) :=
  match st with
  | Some l => inr (l, st)
  | None => match construct_bonds elementwise b rc with inl e => inl e | inr l => inr (l, Some l) end
  end.
(** moments_of_inertia, 240-259: the tensor; cm: centre of mass, get_center_of_mass of ASE *)
Definition centre (N : nat) (m : nat -> R) (r : nat -> v3) : v3 :=
  let M := rsum N m in V3 (rsum N (fun k => m k * vx (r k)) / M) (rsum N (fun k => m k * vy (r k)) / M) (rsum N (fun k => m k * vz (r k)) / M).
Definition inertia (N : nat) (m : nat -> R) (r : nat -> v3) (i j : nat) : R :=
  let diag := rsum N (fun k => m k * (vx (r k) ^ 2 + vy (r k) ^ 2 + vz (r k) ^ 2)) in
  (if (i =? j)%nat then diag else 0) - rsum N (fun k => m k * coord (r k) i * coord (r k) j).
(** eigh: eigenvalues and matrix of eigenvectors (columns) *)
Definition moments_of_inertia (eigh : (nat -> nat -> R) -> (nat -> R) * (nat -> nat -> R)) (N : nat) (m : nat -> R) (r : nat -> v3) (rcm : bool) : (nat -> R) * (nat -> nat -> R) :=
  eigh (inertia N m (if rcm then fun k => vsub (r k) (centre N m r) else r)).
(** displace_atoms_randomly, 171-187: xi, phi, theta: the random numbers of atom i *)
Definition random_shift (dR : nat -> R) (xi phi theta : nat -> R) (r : nat -> v3) (i : nat) : v3 :=
  vadd (r i) (vscale (Rmin (dR i / 2 * xi i) (dR i)) (V3 (sin (theta i) * cos (phi i)) (sin (theta i) * sin (phi i)) (cos (theta i)))).
(** get_name, 63-81 and set_name, 86-88.  A name is a list of symbols with their numbers; its text has the numbers above 1.  data: the stored name *)
Fixpoint count (s : string) (l : list string) : nat := match l with [] => O | t :: l => ((if String.eqb s t then 1 else 0) + count s l)%nat end.
Fixpoint dict_update (d : list (string * nat)) (s : string) (n : nat) : list (string * nat) :=
  match d with [] => [(s, n)] | (t, k) :: d => if String.eqb s t then (t, n) :: d else (t, k) :: dict_update d s n end.
Definition composition (symbols : list string) : list (string * nat) := fold_left (fun d s => dict_update d s (count s symbols)) symbols [].
Record named := Named { n_symbols : list string; n_data : option (list (string * nat)); n_name : option string }.
Definition get_name (s : named) : list (string * nat) * named :=
  match n_data s with
  | Some d => (d, s)
  | None => let d := composition (n_symbols s) in (d, Named (n_symbols s) (Some d) (n_name s))
  end.
Definition set_name (s : named) (x : string) : named := Named (n_symbols s) (n_data s) (Some x).
(** append of ASE *)
Definition append_symbol (s : named) (x : string) : named := Named (n_symbols s ++ [x]) (n_data s) (n_name s).

(** *** Objects.  copy (195-198) is copy.copy: a new object with the same arrays, cell and pbc (which ASE changes in place) and its own calculator.
    w_data: the shared parts by address, w_objs: address and whether a calculator is set *)
Record world := World { w_data : nat -> batoms; w_objs : list (nat * bool) }.
Inductive op := SetPositions (o : nat) (r : nat -> v3) | SetCalculator (o : nat) (c : bool) | SetCell (o : nat) (m : m3) | SetPbc (o : nat) (p : nat -> bool)
  | ScalePositions (o : nat) (x : R) | Copy (o : nat).
Definition obj (w : world) (o : nat) : nat * bool := nth o (w_objs w) (O, false).
Definition store (w : world) (a : nat) (b : batoms) : world := World (fun x => if (x =? a)%nat then b else w_data w x) (w_objs w).
Definition data_of (w : world) (o : nat) : batoms := w_data w (fst (obj w o)).
Definition updated (w : world) (o : nat) (up : batoms -> error + batoms) : world * option error :=
  match up (data_of w o) with inl e => (w, Some e) | inr b => (store w (fst (obj w o)) b, None) end.
Fixpoint set_nth {A} (l : list A) (n : nat) (x : A) : list A := match l, n with [], _ => [] | _ :: l, O => x :: l | y :: l, S n => y :: set_nth l n x end.
(** set_positions 44-48, set_calculator 39-42, set_cell 233-235 (the definition of 50-54 is replaced by it), scale_positions 189-192 (invertible cell), copy 195-198;
    set_pbc of ASE *)
Definition step (w : world) (x : op) : world * option error :=
  match x with
  | SetPositions o r =>
      let w := store w (fst (obj w o)) (with_pos (data_of w o) r) in
      if snd (obj w o) then updated w o update else (w, None)
  | SetCalculator o c =>
      let w := World (w_data w) (set_nth (w_objs w) o (fst (obj w o), c)) in
      if c then updated w o update else (w, None)
  | SetCell o m => let b := data_of w o in (store w (fst (obj w o)) (Batoms (b_N b) (b_pos b) m (b_pbc b)), None)
  | SetPbc o p => let b := data_of w o in (store w (fst (obj w o)) (Batoms (b_N b) (b_pos b) (b_cell b) p), None)
  | ScalePositions o x =>
      let b := data_of w o in
      let m := b_cell b in
      let w := store w (fst (obj w o)) (Batoms (b_N b) (fun i => vscale x (b_pos b i)) (M3 (vscale x (row1 m)) (vscale x (row2 m)) (vscale x (row3 m))) (b_pbc b)) in
      updated w o reduce
  | Copy o => (World (w_data w) (w_objs w ++ [obj w o]), None)
  end.
Definition run (w : world) (l : list op) : world := fold_left (fun w x => fst (step w x)) l w.

(** ** MEP, box/barriers.py.  Positions of an image: its 3N coordinates.  h_pos: arrays by address, h_addr: the array of an image (images made by copy share it) *)
Record path := Path { h_M : nat; h_addr : nat -> nat; h_pos : nat -> vec; h_lock : bool; h_pos2 : option (nat -> vec); h_lambdas : option vec }.
Definition write (p : path) (i : nat) (v : vec) : path :=
  Path (h_M p) (h_addr p) (fun a => if (a =? h_addr p i)%nat then v else h_pos p a) (h_lock p) (h_pos2 p) (h_lambdas p).
(** get_positions 239-247 *)
Definition positions (p : path) (i : nat) : vec := h_pos p (h_addr p i).
(** interpolate 157-162; first and last are copies.  The images have no calculator of their own (set_positions of box.Atoms would reduce into the cell) *)
Definition interpolate (p : path) : path :=
  let first := positions p 0 in let last := positions p (h_M p - 1) in
  fold_left (fun p i => write p i (fun c => first c + INR i * 1.0 / (INR (h_M p) - 1.0) * (last c - first c))) (seq 1 (h_M p - 2)) p.
(** set_positions 173-189, lock_positions, release_positions 165-170 *)
Definition set_path (p : path) (r : nat -> vec) : path :=
  if h_lock p then Path (h_M p) (h_addr p) (h_pos p) (h_lock p) (Some r) (h_lambdas p)
  else fold_left (fun p i => write p i (r i)) (seq 0 (h_M p)) p.
Definition lock_path (b : bool) (p : path) : path := Path (h_M p) (h_addr p) (h_pos p) b (h_pos2 p) (h_lambdas p).
Definition set_lambdas (p : path) (l : vec) : path := Path (h_M p) (h_addr p) (h_pos p) (h_lock p) (h_pos2 p) (Some l).
(** norms of the differences of images; n coordinates *)
Definition segment (n : nat) (R0 : nat -> vec) (i : nat) : R := sqrt (rsum n (fun c => (R0 (S i) c - R0 i c) ^ 2)).
(** get_constraint_deviations 223-236 *)
Definition deviations (n : nat) (p : path) : vec :=
  let r := match h_pos2 p with Some r => r | None => positions p end in
  fun i => segment n r i - rsum (h_M p - 1) (segment n r) / INR (h_M p - 1).
(** get_max_constraint_deviation 210-220 *)
Definition relative_deviation (n : nat) (p : path) (i : nat) : R :=
  let L1 := rsum (h_M p - 1) (segment n (positions p)) / INR (h_M p - 1) in Rabs (segment n (positions p) i - L1) / L1.
(** _get_constraint_forces 266-287 *)
Definition constraint_force (n : nat) (p : path) (l : vec) (k : nat) : vec := fun c =>
  let d := fun i => (positions p (S i) c - positions p i c) / segment n (positions p) i in
  let l0 := rsum (h_M p - 1) l / INR (h_M p - 1) in
  if ((k =? 0) || (k =? h_M p - 1))%nat then 0 else d (k - 1)%nat * (l (k - 1)%nat - l0) - d k * (l k - l0).
(** get_potential_energy 250-252, _get_potential_forces 255-263, get_forces 292-297 (lambdas must have been set) *)
Definition path_energy (E : vec -> R) (p : path) : R := rsum (h_M p) (fun i => E (positions p i)).
Definition path_force (F : vec -> vec) (n : nat) (p : path) (k : nat) : option vec :=
  match h_lambdas p with
  | None => None
  | Some l => Some (fun c => (if ((k =? 0) || (k =? h_M p - 1))%nat then 0 else F (positions p k) c) + constraint_force n p l k c)
  end.
(** *** LEPS_Calculator, 35-91 *)
Definition leps_Q (r alpha r0 d : R) : R := d / 2 * (3 / 2 * exp (- 2 * alpha * (r - r0)) - exp (- alpha * (r - r0))).
Definition leps_J (r alpha r0 d : R) : R := d / 4 * (exp (- 2 * alpha * (r - r0)) - 6 * exp (- alpha * (r - r0))).
Definition leps_root (rab rbc : R) : R :=
  let ai := 1 / (1 + 0.05) in let bi := 1 / (1 + 0.3) in let ci := 1 / (1 + 0.05) in
  let Jab := leps_J rab 1.942 0.742 4.746 in let Jbc := leps_J rbc 1.942 0.742 4.746 in let Jac := leps_J (rab + rbc) 1.942 0.742 3.445 in
  Jab ^ 2 * ai ^ 2 + Jbc ^ 2 * bi ^ 2 + Jac ^ 2 * ci ^ 2 - Jab * Jbc * ai * bi - Jbc * Jac * bi * ci - Jab * Jac * ai * ci.
Definition leps_V (rab rbc : R) : R :=
  let ai := 1 / (1 + 0.05) in let bi := 1 / (1 + 0.3) in let ci := 1 / (1 + 0.05) in
  leps_Q rab 1.942 0.742 4.746 * ai + leps_Q rbc 1.942 0.742 4.746 * bi + leps_Q (rab + rbc) 1.942 0.742 3.445 * ci - sqrt (leps_root rab rbc).
Definition leps (rab xx : R) : R := leps_V rab (3.742 - rab) + 2 * 0.2025 * (rab - (3.742 / 2 - xx / 1.154)) ^ 2.
Definition leps_energy (r : v3) : R := leps (vx r) (vy r).
Definition leps_force (r : v3) : v3 :=
  let d := / 10 ^ 6 in
  V3 (- ((leps (vx r + d) (vy r) - leps (vx r) (vy r)) / d)) (- ((leps (vx r) (vy r + d) - leps (vx r) (vy r)) / d)) 0.

(** ** check_energy_conservation, box/md.py 131-166: the energies recorded in n steps *)
Definition variance (n : nat) (x : vec) : R := rsum n (fun i => (x i - rsum n x / INR n) ^ 2) / INR n.
Definition check_energy_conservation (n : nat) (tol : R) (epot ekin : vec) : bool :=
  ltb (sqrt (variance n (fun i => epot i + ekin i))) (tol * sqrt (variance n epot)).
