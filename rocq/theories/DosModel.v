(** Broadening of spectra and densities of states.  box/mix.py, hotbit/analysis/mulliken.py *)
From Coq Require Import Reals List Bool Arith.
From Verif Require Import Vec GeomModel SkModel SkSpec Cpx RhoModel.
Import ListNotations.
Open Scope R_scope.

Inductive derror := DValueError | DUnboundLocal | DAssertion | DIndexError.
Inductive dres (A : Type) := DOk (x : A) | DFail (e : derror).
Arguments DOk {A} _. Arguments DFail {A} _.

(** ** box/mix.py: lorentzian 459-461, gauss_fct 451-456 *)
Definition lorentzian (x mean width : R) : R := width / PI / ((x - mean) ^ 2 + width ^ 2).
Definition gauss_fct (x mean sigma : R) : R := 1 / sqrt (2 * PI * sigma ^ 2) * exp (- (x - mean) ^ 2 / (2 * sigma ^ 2)).
(** broaden 464-506.  The broadening function; other strings than the two leave w unassigned *)
Inductive shape := Gaussian | Lorentzian | OtherShape.
(** lines 500-503 at one grid point *)
Definition peak (s : shape) (width xi g : R) : R :=
  match s with
  | Lorentzian => width / PI / ((g - xi) ^ 2 + width ^ 2)
  | _ => exp (- (g - xi) ^ 2 / (2 * width ^ 2)) / (sqrt (2 * PI) * width)
  end.
(** the loop of lines 499-504 at one grid point; zip stops at the shorter list *)
Definition curve (s : shape) (width : R) (pts : list (R * R)) (g : R) : R :=
  fold_left (fun acc p => acc + snd p * peak s width (fst p) g) pts 0.
(** numpy's linspace *)
Definition linspace (mn mx : R) (N : nat) : list R := map (fun i => mn + INR i * ((mx - mn) / INR (N - 1))) (seq 0 N).
(** min and max of a list; None: ValueError for an empty one *)
Definition list_min (l : list R) : option R := match l with [] => None | x :: l => Some (fold_left Rmin l x) end.
Definition list_max (l : list R) : option R := match l with [] => None | x :: l => Some (fold_left Rmax l x) end.
Definition limit (given : option R) (default : option R) : option R := match given with Some a => Some a | None => default end.
Definition broaden (x : list R) (y : option (list R)) (width : R) (s : shape) (extend : bool) (N : nat) (a b : option R) (xgrid : option (list R))
  : dres (list R * list R) :=
  let y := match y with Some y => y | None => map (fun _ => 1) x end in
  let dx := if extend then 4 * width else 0 in
  match limit a (option_map (fun m => m - dx) (list_min x)), limit b (option_map (fun m => m + dx) (list_max x)) with
  | Some mn, Some mx =>
    let g := match xgrid with Some g => g | None => linspace mn mx N end in
    let pts := combine x y in
    match s, pts with
    | OtherShape, _ :: _ => DFail DUnboundLocal
    | _, _ => DOk (g, map (curve s width pts) g)
    end
  | _, _ => DFail DValueError
  end.

(** ** DensityOfStates, mulliken.py 189-308 *)
Section Dos.
Variables (norb N nk : nat) (o1 no : nat -> nat) (wk : nat -> R).
(** energies relative to the Fermi level in eV, occupations, wave functions, overlap matrices *)
Variables (e f : nat -> nat -> R) (wf : nat -> nat -> nat -> cplx) (S : kmatrix).
(** emin and emax, line 204, of the flattened energies *)
Definition eflat : list R := flat_map (fun k => map (fun a => e k a) (seq 0 norb)) (seq 0 nk).
Definition erange (window : option (R * R)) : option (R * R) :=
  match list_min eflat, list_max eflat with
  | Some mn, Some mx => Some (match window with Some w => w | None => (mn, mx) end)
  | _, _ => None
  end.
(** lines 248-254: x, y and f one band after the other *)
Definition by_band (v : nat -> nat -> R) : list R := flat_map (fun a => map (fun k => v k a) (seq 0 nk)) (seq 0 norb).
(** get_local_density_of_states 266-308.  States in the window, lines 286-293 *)
Definition inside (w : R * R) : list (nat * nat) :=
  filter (fun x => leb (fst w) (e (fst x) (snd x)) && leb (e (fst x) (snd x)) (snd w)) (flat_map (fun k => map (fun a => (k, a)) (seq 0 norb)) (seq 0 nk)).
(** lines 299-301: grid and values for atom I *)
Definition ldos_row (width : R) (w : R * R) (npts I : nat) : dres (list R * list R) :=
  let l := inside w in
  broaden (map (fun x => e (fst x) (snd x)) l) (Some (map (fun x => atom_wf_mulliken norb o1 no wk wf S I (fst x) (snd x) true) l))
    width Gaussian false npts (Some (fst w)) (Some (snd w)) None.
(** lines 302-305 for angular momentum m.  IndexError: all[0] of an atom without orbitals, or q[:,l] of an empty q *)
Fixpoint all_some (l : list (option R)) : option (list R) :=
  match l with [] => Some [] | None :: _ => None | Some x :: l => option_map (cons x) (all_some l) end.
Definition pldos_row (width : R) (w : R * R) (npts I m : nat) : dres (list R * list R) :=
  let l := inside w in
  match l, all_some (map (fun x => atom_wf_all_angmom norb o1 no wk wf S I (fst x) (snd x) m true) l) with
  | [], _ => DFail DIndexError
  | _, None => DFail DIndexError
  | _, Some q => broaden (map (fun x => e (fst x) (snd x)) l) (Some q) width Gaussian false npts (Some (fst w)) (Some (snd w)) None
  end.
Definition values (r : dres (list R * list R)) : list R := match r with DOk (_, v) => v | DFail _ => [] end.
(** the first failing atom and angular momentum decides; all rows share the grid *)
Fixpoint first_error {A} (l : list (dres A)) : option derror :=
  match l with [] => None | DOk _ :: l => first_error l | DFail x :: _ => Some x end.
Definition local_dos (width : R) (window : option (R * R)) (npts : nat) : dres (list R * (nat -> list R)) :=
  match erange window with
  | None => DFail DValueError
  | Some w =>
    if (N =? 0)%nat then DFail DUnboundLocal else
    match first_error (map (fun I => ldos_row width w npts I) (seq 0 N)) with
    | Some x => DFail x
    | None => DOk (linspace (fst w) (snd w) npts, fun I => values (ldos_row width w npts I))
    end
  end.
(** projected: with the assertion of line 306 *)
Definition local_pdos (width : R) (window : option (R * R)) (npts : nat) : dres (list R * (nat -> list R) * (nat -> nat -> list R)) :=
  match erange window with
  | None => DFail DValueError
  | Some w =>
    if (N =? 0)%nat then DFail DUnboundLocal else
    match first_error (flat_map (fun I => [ldos_row width w npts I; pldos_row width w npts I 0; pldos_row width w npts I 1; pldos_row width w npts I 2]) (seq 0 N)) with
    | Some x => DFail x
    | None =>
      let ld I := values (ldos_row width w npts I) in let pd I m := values (pldos_row width w npts I m) in
      if forallb (fun I => forallb (fun i => ltb (Rabs (nth i (ld I) 0 - rsum 3 (fun m => nth i (pd I m) 0))) (/ 10 ^ 6)) (seq 0 npts)) (seq 0 N)
      then DOk (linspace (fst w) (snd w) npts, ld, pd) else DFail DAssertion
    end
  end.
(** get_density_of_states 208-263 *)
Inductive dos_out := Pair (e dos : list R) | Triple (e dos occu : list R) | Projected (e dos : list R) (pdos : nat -> list R).
Definition axis_sum (npts : nat) (v : nat -> list R) : list R := map (fun i => rsum N (fun I => nth i (v I) 0)) (seq 0 npts).
Definition get_dos (broad projected occu : bool) (width : R) (window : option (R * R)) (npts : nat) : dres dos_out :=
  if (broad && occu) || (projected && occu) then DFail DAssertion else
  if projected then
    match local_pdos width window npts with
    | DFail x => DFail x
    | DOk (g, d, p) => DOk (Projected g (axis_sum npts d) (fun m => axis_sum npts (fun I => p I m)))
    end
  else
    match erange window with
    | None => DFail DValueError
    | Some w =>
      let x := by_band e in let y := by_band (fun k _ => wk k) in
      match (if broad then broaden x (Some y) width Gaussian false npts (Some (fst w)) (Some (snd w)) None else DOk (x, y)) with
      | DFail x => DFail x
      | DOk (g, d) => DOk (if occu then Triple g d (by_band f) else Pair g d)
      end
    end.
End Dos.
