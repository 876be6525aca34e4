(** Neighbour lists (hotbit/neighbors.py) and the charge-density part of the Coulomb interaction (hotbit/electrostatics.py 41-137). *)
From Coq Require Import Reals ZArith List Bool Arith.
From Verif Require Import Vec GeomModel CoulModel.
Import ListNotations.
Open Scope R_scope.

(** ** get_neighbors, neighbors.py 56-135.  nat atoms at r; transform(0,n) and rotation(n) of the container are tr0 and rot *)
Section Neighbours.
Variables (N : nat) (r : nat -> v3) (tr0 : cell -> v3) (rot : cell -> m3).
(** lines 109-114: (r1+rT)[j] *)
Definition image (c : cell) (j : nat) : v3 := vadd (tr0 c) (mv (rot c) (r j)).
(** line 114 *)
Definition drv (c : cell) (i j : nat) : v3 := vsub (r i) (image c j).
Definition zero_cell (c : cell) : bool := (t1 c =? 0)%Z && (t2 c =? 0)%Z && (t3 c =? 0)%Z.
(** lines 115-123 *)
Definition mask (cutoff : option R) (c : cell) (i j : nat) : bool :=
  (match cutoff with None => true | Some k => ltb (vnorm (drv c i j)) k end) && negb (zero_cell c && (i =? j)%nat).
(** neighbour: primary atom, neighbouring atom, distance, normal vector *)
Record neighbour := Nb { nb_i : nat; nb_j : nat; nb_d : R; nb_n : v3 }.
(** lines 125-133; boolean indexing is row by row *)
Definition cell_neighbours (cutoff : option R) (c : cell) : list neighbour :=
  flat_map (fun i => map (fun j => let d := vnorm (drv c i j) in Nb i j d (vscale (/ d) (drv c i j)))
                         (filter (mask cutoff c i) (seq 0 N))) (seq 0 N).
(** lines 80-88, 105-107: the cells visited; None: RuntimeError.  Without a cutoff the ranges are finite and the 0 below is not used *)
Definition ranges := ((option Z * option Z) * (option Z * option Z) * (option Z * option Z))%type.
Definition infinite (s : option Z * option Z) : bool := match s with (Some _, Some _) => false | _ => true end.
Definition is_cluster (s : ranges) : bool := let '(s1, s2, s3) := s in negb (infinite s1 || infinite s2 || infinite s3).
Definition scan (cutoff : option R) (s : ranges) : option (list cell) :=
  let '(s1, s2, s3) := s in
  match cutoff with
  | None => if is_cluster s then
      let f := fun s => let '(a, b) := n_from_range 0 0 s in zrange a b in Some (triples (f s1) (f s2) (f s3)) else None
  | Some _ => let f := fun s => let '(a, b) := n_from_range (-5) 5 s in zrange a b in Some (triples (f s1) (f s2) (f s3))
  end.
Definition get_neighbours (cutoff : option R) (s : ranges) : option (list neighbour) :=
  match scan cutoff s with None => None | Some cs => Some (flat_map (cell_neighbours cutoff) cs) end.
End Neighbours.

(** ** Pair terms.  d: distance in Bohr; the second value is the factor of n in dG *)
(** electrostatics.py 105-117 *)
Definition slater_equal (ti tj d : R) : R * R :=
  let src := 1 / (ti + tj) in
  let fac := ti * tj * src in
  let avg := 16 / 10 * (fac + fac * fac * src) in
  let fac := avg * d in
  let fac2 := fac * fac in
  let efac := exp (- fac) / (48 * d) in
  let h := - (48 + 33 * fac + fac2 * (9 + fac)) * efac in
  (h, h / d + avg * h + (33 * avg + 18 * fac * avg + 3 * fac2 * avg) * efac).
(** electrostatics.py 119-135 *)
Definition slater_unequal (ti tj d : R) : R * R :=
  let fi1 := 1 / (2 * (ti ^ 2 - tj ^ 2) ^ 2) in
  let fj1 := - ti ^ 4 * tj * fi1 in
  let fi1 := fi1 * (- tj ^ 4 * ti) in
  let fi2 := 1 / ((ti ^ 2 - tj ^ 2) ^ 3) in
  let fj2 := - (ti ^ 6 - 3 * ti ^ 4 * tj ^ 2) * fi2 in
  let fi2 := fi2 * (tj ^ 6 - 3 * tj ^ 4 * ti ^ 2) in
  let expi := exp (- ti * d) in
  let expj := exp (- tj * d) in
  (expi * (fi1 + fi2 / d) + expj * (fj1 + fj2 / d),
   expi * (ti * (fi1 + fi2 / d) + fi2 / d ^ 2) + expj * (tj * (fj1 + fj2 / d) + fj2 / d ^ 2)).
(** line 104 *)
Definition slater_term (ti tj d : R) : R * R :=
  if ltb (Rabs (ti - tj)) (/ 10 ^ 6) then slater_equal ti tj d else slater_unequal ti tj d.
(** line 93 *)
Definition tau (U : R) : R := 16 * U / 5.
(** electrostatics.py 68-72; erfc is scipy's *)
Definition gauss_const (fi fj : R) : R := 2 * sqrt (ln 2 / (fi ^ 2 + fj ^ 2)).
Definition gauss_term (erfc : R -> R) (fi fj d : R) : R * R :=
  let const := gauss_const fi fj in
  let ecr := - erfc (const * d) in
  let decr := 2 / sqrt PI * exp (- (const * d) ^ 2) * const in
  (ecr / d, (ecr / d - decr) / d).
(** line 47 *)
Definition default_FWHM (U : R) : R := sqrt (8 * ln 2 / PI) / U.

(** ** Sums over the neighbours, electrostatics.py 61-72 and 97-135 *)
Section Gamma.
Variables (Bohr : R) (U : nat -> R) (term : nat -> nat -> R -> R * R).
Definition add_G (G : nat -> nat -> R) (b : neighbour) : nat -> nat -> R :=
  fun i j => if ((i =? nb_i b) && (j =? nb_j b))%nat then G i j + fst (term (nb_i b) (nb_j b) (nb_d b / Bohr)) else G i j.
Definition add_dG (dG : nat -> nat -> v3) (b : neighbour) : nat -> nat -> v3 :=
  fun i j => if ((i =? nb_i b) && (j =? nb_j b))%nat then vadd (dG i j) (vscale (snd (term (nb_i b) (nb_j b) (nb_d b / Bohr))) (nb_n b)) else dG i j.
Definition gamma_G (l : list neighbour) : nat -> nat -> R := fold_left add_G l (fun i j => if (i =? j)%nat then U i else 0).
Definition gamma_dG (l : list neighbour) : nat -> nat -> v3 := fold_left add_dG l (fun _ _ => vzero).
End Gamma.

(** minimum and maximum of N >= 1 values *)
Fixpoint rmin (n : nat) (f : nat -> R) : R := match n with O => f 0%nat | S n' => Rmin (rmin n' f) (f n) end.
Fixpoint rmaxn (n : nat) (f : nat -> R) : R := match n with O => f 0%nat | S n' => Rmax (rmaxn n' f) (f n) end.
Inductive gresult := GOk (G : nat -> nat -> R) (dG : nat -> nat -> v3) | GValueError | GRuntimeError | GZeroDivisionError.
(** get_Slater_gamma_correction 77-137 for N >= 1 atoms *)
Definition slater_cutoff (goal min_U : R) : R := sqrt (ln 10 * goal / (sqrt (PI / 2) * min_U)).
Definition slater_gamma (Bohr : R) (N : nat) (r : nat -> v3) (tr0 : cell -> v3) (rot : cell -> m3) (s : ranges)
    (U : nat -> R) (cutoff : option R) (goal : R) : gresult :=
  let min_U := rmin (N - 1) U in
  if leb min_U 0 then GValueError else
  let cutoff := match cutoff with Some c => Some c | None => if is_cluster s then None else Some (slater_cutoff goal min_U) end in
  match get_neighbours N r tr0 rot cutoff s with
  | None => GRuntimeError
  | Some l => let t := fun i j => slater_term (tau (U i)) (tau (U j)) in GOk (gamma_G Bohr U t l) (gamma_dG Bohr t l)
  end.
(** get_Gaussian_gamma_correction 41-74; widths given as a list of floats, as construct_Gamma_matrix (256-264) does, so that line 68 raises when both widths of a pair are zero *)
Definition gauss_cutoff (goal max_F : R) : R := sqrt (ln 10 * goal * max_F / sqrt (4 * ln 2)).
Definition gauss_gamma (erfc : R -> R) (Bohr : R) (N : nat) (r : nat -> v3) (tr0 : cell -> v3) (rot : cell -> m3) (s : ranges)
    (U FWHM : nat -> R) (cutoff : option R) (goal : R) : gresult :=
  let max_F := rmaxn (N - 1) FWHM in
  if leb max_F 0 then GValueError else
  let cutoff := match cutoff with Some c => Some c | None => if is_cluster s then None else Some (gauss_cutoff goal max_F) end in
  match get_neighbours N r tr0 rot cutoff s with
  | None => GRuntimeError
  | Some l => let t := fun i j => gauss_term erfc (FWHM i) (FWHM j) in
    if existsb (fun b => if Req_EM_T (FWHM (nb_i b) ^ 2 + FWHM (nb_j b) ^ 2) 0 then true else false) l then GZeroDivisionError else GOk (gamma_G Bohr U t l) (gamma_dG Bohr t l)
  end.
