(** Pair interactions: repulsion (hotbit/repulsion.py), pair potentials
    (hotbit/pairpotential.py) and van der Waals correction (hotbit/vdw.py). *)
From Coq Require Import Reals ZArith List Bool Arith String Ascii.
From Verif Require Import Vec GeomModel.
Import ListNotations.
Open Scope R_scope.

(** ** Energy and force loops over atom pairs and images *)
Section Loops.
(** number of atoms; number of selected symmetry operations, the first being the identity *)
Variables (N nimg : nat).
(** Rn[n][j], the position of image n of atom j (elements.py 176-243) *)
Variable Rn : nat -> nat -> v3.
(** pair function of atoms i and j, and its der=1 value *)
Variables V dV : nat -> nat -> R -> R.
Variable rmax : R.

(** el.rijn[n,i,j], elements.py 240 *)
Definition rijn (n i j : nat) : v3 := vsub (Rn n j) (Rn 0 i).
Definition dist (n i j : nat) : R := vnorm (rijn n i j).
Definition self_pair (n i j : nat) : bool := (i =? j)%nat && (n =? 0)%nat.

(** one atom pair: repulsion.py 109-131 and pairpotential.py 122-142 *)
Definition pair_energy (i j : nat) : R :=
  rsum nimg (fun n =>
    if self_pair n i j then 0
    else if ltb rmax (dist n i j) then 0
    else if (i =? j)%nat then / 2 * V i j (dist n i j)
    else V i j (dist n i j)).

(** the double loop (j in lst[i:]), repulsion.py 90-104 and pairpotential.py 103-119; in Hartree *)
Definition total_energy : R :=
  rsum N (fun i => rsum (N - i) (fun j' => pair_energy i (i + j'))).

(** the assertion d>1E-10 of repulsion.py 99 *)
Definition distances_ok : bool :=
  forallb (fun i => forallb (fun j => (j <? i)%nat || forallb (fun n =>
    self_pair n i j || ltb rmax (dist n i j) || ltb (/ 10 ^ 10) (dist n i j)) (seq 0 nimg)) (seq 0 N)) (seq 0 N).

(** forces; repulsion.py 134-155 and pairpotential.py 145-166 *)
Definition pair_force (i j n : nat) : v3 :=
  if self_pair n i j then vzero
  else if ltb (dist n i j) rmax
  then vscale (dV i j (dist n i j) / dist n i j) (rijn n i j)
  else vzero.
Definition vsum (m : nat) (f : nat -> v3) : v3 :=
  V3 (rsum m (fun i => vx (f i))) (rsum m (fun i => vy (f i))) (rsum m (fun i => vz (f i))).
Definition force (i : nat) : v3 := vsum N (fun j => vsum nimg (fun n => pair_force i j n)).
End Loops.

(** Repulsion.get_repulsive_energy in eV (None: AssertionError) with the
    dictionary vrep[si+sj] and symbols of atoms; forces in atomic units *)
Section Repulsion.
Variables (N nimg : nat) (Rn : nat -> nat -> v3) (sym : nat -> string).
Variables vrep dvrep : string -> R -> R.
Variables rmax Hartree : R.
Definition vrep_ij (i j : nat) : R -> R := vrep (sym i ++ sym j)%string.
Definition dvrep_ij (i j : nat) : R -> R := dvrep (sym i ++ sym j)%string.
Definition repulsive_energy : option R :=
  if distances_ok N nimg Rn rmax then Some (total_energy N nimg Rn vrep_ij rmax * Hartree) else None.
Definition pair_repulsive_energy (i j : nat) : R := pair_energy nimg Rn vrep_ij rmax i j.
Definition repulsive_force (i : nat) : v3 := force N nimg Rn dvrep_ij rmax i.
End Repulsion.

(** ** Keys of pair potentials; pairpotential.py 10-11.  '%04i' as a list of decimal digits,
    for non-negative numbers; the fuel suffices for every number (PairProofs2). *)
Fixpoint digits_aux (fuel : nat) (n : Z) : list Z :=
  match fuel with
  | O => []
  | S f => if (n <? 10)%Z then [n] else digits_aux f (n / 10) ++ [n mod 10]%Z
  end.
Definition digits (n : Z) : list Z := digits_aux (S (Z.to_nat (Z.log2 n))) n.
Definition fmt04 (n : Z) : list Z := let d := digits n in repeat 0%Z (4 - List.length d) ++ d.
Definition ij2s (i j : Z) : list Z := fmt04 i ++ fmt04 j.

(** ** PairPotential: a potential is its value, its der=1 value and its range *)
Record potential := { pv : R -> R; pd : R -> R; prange : R }.

(** the function v2 in atomic units; pairpotential.py 53-63 *)
Definition to_atomic (Bohr Hartree : R) (eVA : bool) (p : potential) : potential :=
  if eVA then {| pv := fun r => pv p (r / Bohr) / Hartree;
                 pd := fun r => pd p (r / Bohr) * Bohr / Hartree;
                 prange := prange p / Bohr |}
  else p.

Record ppstate := { atomv : list Z -> option potential; elemv : string -> option potential; rcut : R; ex : bool }.
(** __init__, lines 16-24 *)
Definition pp0 : ppstate := {| atomv := fun _ => None; elemv := fun _ => None; rcut := 0; ex := false |}.

Definition keyeq := list_eq_dec Z.eq_dec.
Definition updk (f : list Z -> option potential) k p : list Z -> option potential :=
  fun x => if keyeq x k then Some p else f x.
Definition upds (f : string -> option potential) k p : string -> option potential :=
  fun x => if string_dec x k then Some p else f x.

Inductive pairid := Atoms (i j : Z) | Elements (si sj : string).
(** add_pair_potential, lines 38-74 *)
Definition add_pair_potential (Bohr Hartree : R) (s : ppstate) (c : pairid * potential * bool) : ppstate :=
  let '(id, v, eVA) := c in
  let v2 := to_atomic Bohr Hartree eVA v in
  let rc := Rmax (rcut s) (prange v2) in
  match id with
  | Atoms i j => {| atomv := updk (updk (atomv s) (ij2s i j) v2) (ij2s j i) v2; elemv := elemv s; rcut := rc; ex := true |}
  | Elements si sj => {| atomv := atomv s; elemv := upds (upds (elemv s) (si ++ sj)%string v2) (sj ++ si)%string v2; rcut := rc; ex := true |}
  end.

(** _get_full_v, lines 77-94 (the value and the der=1 value) *)
Definition full_v (s : ppstate) (sym : nat -> string) (proj : potential -> R -> R) (i j : nat) (r : R) : R :=
  let a := atomv s (ij2s (Z.of_nat i) (Z.of_nat j)) in
  let e := elemv s (sym i ++ sym j)%string in
  match a, e with
  | Some a, Some e => proj a r + proj e r
  | Some a, None => proj a r
  | None, Some e => proj e r
  | None, None => 0
  end.

(** get_energy in Hartree (returned times Hartree), lines 97-119.  [ex] False gives 0.
    get_forces, lines 145-166: "if not self.exists" tests a bound method and is never true *)
Definition pp_energy (s : ppstate) (N nimg : nat) (Rn : nat -> nat -> v3) (sym : nat -> string) : R :=
  if ex s then total_energy N nimg Rn (full_v s sym pv) (rcut s) else 0.
Definition pp_force (s : ppstate) (N nimg : nat) (Rn : nat -> nat -> v3) (sym : nat -> string) (i : nat) : v3 :=
  force N nimg Rn (full_v s sym pd) (rcut s) i.

(** ** van der Waals; vdw.py *)
(** lines 11-13 and 16-18; p >= 0 (math.sqrt raises otherwise) *)
Definition Neff (nvel : R) : R := 117 / 100 + 33 / 100 * nvel.
Definition C6_from_p (p nvel : R) : R := 75 / 100 * sqrt (Neff nvel * p).
Definition p_from_C6 (C6 nvel : R) : R := (C6 / (75 / 100)) ^ 2 / Neff nvel.

(** completion of one atom's coefficients, lines 44-51; None: TypeError if both are missing *)
Definition complete (C6 p : option R) (nvel : R) : option (R * R) :=
  match C6, p with
  | None, None => None
  | None, Some p => Some (C6_from_p p nvel, p)
  | Some c, None => Some (c, p_from_C6 c nvel)
  | Some c, Some p => Some (c, p)
  end.
(** cross terms, lines 54-55 *)
Definition C6_cross (C6a pa C6b pb : R) : R := 2 * C6a * C6b * pa * pb / (pa ^ 2 * C6a + pb ^ 2 * C6b).
Definition R0_cross (R0a R0b : R) : R := (R0a ^ 3 + R0b ^ 3) / (R0a ^ 2 + R0b ^ 2).

(** vdWPairCorrection.__init__, lines 23-55; for atom b, None stands for all of C6b,pb,nvelb missing *)
Definition vdw_coefficients (C6a pa : option R) (nvela R0a : R)
    (b : option (option R * option R * R)) (R0b : option R) : option (R * R) :=
  let '(C6b, pb, nvelb) := match b with None => (C6a, pa, nvela) | Some x => x end in
  let R0b := match R0b with None => R0a | Some x => x end in
  match complete C6a pa nvela, complete C6b pb nvelb with
  | Some (ca, pa), Some (cb, pb) => Some (C6_cross ca pa cb pb, R0_cross R0a R0b)
  | _, _ => None
  end.

(** __call__, lines 58-73, with damping parameters d, N, M (3, 7, 4 by default) *)
Definition vdw_h2 (R0 d : R) (N : nat) : R := d / R0 ^ N.
Definition vdw_h1 (R0 d : R) (N : nat) (r : R) : R := exp (- vdw_h2 R0 d N * r ^ N).
Definition vdw (C6 R0 d : R) (N M : nat) (r : R) : R :=
  - (1 - vdw_h1 R0 d N r) ^ M * (C6 / r ^ 6).
Definition dvdw (C6 R0 d : R) (N M : nat) (r : R) : R :=
  let h1 := vdw_h1 R0 d N r in let h2 := vdw_h2 R0 d N in
  let f := (1 - h1) ^ M in
  let df := INR M * (1 - h1) ^ (M - 1) * h2 * INR N * r ^ (N - 1) * h1 in
  (6 * f / r - df) * (C6 / r ^ 6).

(** ** auxil.separate_symbols, auxil.py 21-26; None: IndexError.  [lower]: str.islower on one character *)
Definition is_lower (c : ascii) : bool := let n := nat_of_ascii c in (97 <=? n)%nat && (n <=? 122)%nat.
Definition is_upper (c : ascii) : bool := let n := nat_of_ascii c in (65 <=? n)%nat && (n <=? 90)%nat.
Definition separate_symbols (s : string) : option (string * string) :=
  match s with
  | String a (String b r) =>
      if is_lower b then Some (String a (String b EmptyString), r)
      else Some (String a EmptyString, String b r)
  | _ => None
  end.
