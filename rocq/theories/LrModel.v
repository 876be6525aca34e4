(** Linear optical response.  hotbit/analysis/lr.py *)
From Coq Require Import Reals ZArith List Bool Arith.
From Verif Require Import Vec GeomModel.
Import ListNotations.
Open Scope R_scope.

(** RuntimeError of line 123, AssertionError of lines 96 and 111, ValueError of line 48 and the AssertionError of line 54 *)
Inductive lr_error := LrRuntime | LrAssertion | LrComplex | LrPeriodic.
Inductive result (A : Type) := Ok (x : A) | Fail (e : lr_error).
Arguments Ok {A} _. Arguments Fail {A} _.

Section Response.
(** number of orbitals and atoms; first orbital and number of orbitals of the atoms *)
Variables (norb N : nat) (o1 no : nat -> nat).
(** energies and occupations of the Gamma point; wave functions (state, orbital), overlap matrix; real parts, lines 45-50 *)
Variables (e f : nat -> R) (wf S : nat -> nat -> R).
(** __init__, lines 47-54: what is checked.  imag: imaginary parts of the wave functions *)
Definition lr_init (imag : list R) (pbc : bool * bool * bool) : result unit :=
  let '(a, b, c) := pbc in
  if existsb (fun x => ltb (/ 10 ^ 10) (Rabs x)) imag then Fail LrComplex
  else if a || b || c then Fail LrPeriodic else Ok tt.
(** _initialize, line 74: Swf[a, l] *)
Definition Swf (a l : nat) : R := rsum norb (fun b => S a b * wf l b).
(** mulliken_transfer, lines 83-91, the charge on atom i *)
Definition mulliken_transfer (k l i : nat) : R :=
  rsum (no i) (fun m => let a := (o1 i + m)%nat in wf k a * Swf a l + wf l a * Swf a k) / 2.

(** ** run, lines 93-181.  The selection of pairs, lines 105-114: (i, j), energy, occupation difference *)
Definition energy (i j : nat) : R := e j - e i.
Definition occup (i j : nat) : R := (f i - f j) / 2.
Definition selected (cut : R) (i j : nat) : bool := ltb (energy i j) cut && ltb (/ 10 ^ 6) (occup i j).
(** the two loops with the assertion of line 111 *)
Fixpoint select (cut : R) (l : list (nat * nat)) : result (list (nat * nat)) :=
  match l with
  | [] => Ok []
  | (i, j) :: l =>
    if selected cut i j then
      if ltb 0 (energy i j) && ltb 0 (occup i j) then
        match select cut l with Ok r => Ok ((i, j) :: r) | Fail x => Fail x end
      else Fail LrAssertion
    else select cut l
  end.
Definition all_pairs : list (nat * nat) := flat_map (fun i => map (fun j => (i, j)) (seq (i + 1) (norb - (i + 1)))) (seq 0 norb).
Definition particle_holes (cut : R) : result (list (nat * nat)) := select cut all_pairs.

(** the matrix, lines 124-145, for the pairs ph; r: positions, gamma: get_gamma *)
Variables (SCC : bool) (gamma : nat -> nat -> R) (r : nat -> nat -> R) (ph : list (nat * nat)).
Definition pair (k : nat) : nat * nat := nth k ph (0%nat, 0%nat).
Definition de (k : nat) : R := energy (fst (pair k)) (snd (pair k)).
Definition df (k : nat) : R := occup (fst (pair k)) (snd (pair k)).
Definition transfer_q (k i : nat) : R := mulliken_transfer (fst (pair k)) (snd (pair k)) i.
Definition rv (k x : nat) : R := rsum N (fun i => transfer_q k i * r i x).
Definition gamma_tq (k i : nat) : R := rsum N (fun j => gamma i j * transfer_q k j).
Definition coupling (k1 k2 : nat) : R := rsum N (fun i => transfer_q k1 i * gamma_tq k2 i).
Definition matrix (k1 k2 : nat) : R :=
  (if (k1 =? k2)%nat then de k1 ^ 2 else 0) + (if SCC then 2 * sqrt (df k1 * de k1 * de k2 * df k2) * coupling k1 k2 else 0).
(** lines 155-169: omega2 and eigv (component, excitation) are the results of numpy's eigh *)
Variables (omega2 : nat -> R) (eigv : nat -> nat -> R).
Definition omega (ex : nat) : R := sqrt (omega2 ex).
Definition moment (ex x : nat) : R := rsum (length ph) (fun k => rv k x * sqrt (df k * de k) * eigv k ex) / sqrt (omega ex) * 2.
Definition strength (ex : nat) : R := omega ex * rsum 3 (fun x => moment ex x * moment ex x) * 2 / 3.
Definition collectivity (ex : nat) : R := 1 / rsum (length ph) (fun k => eigv k ex ^ 4).
End Response.

(** run up to the spectrum: pairs or error; done: run was completed before, lines 95-96; the dimension check, lines 121-123 *)
Definition lr_setup (norb : nat) (e f : nat -> R) (cut : R) (done : bool) : result (list (nat * nat)) :=
  if done then Fail LrAssertion else
  match particle_holes norb e f cut with
  | Fail x => Fail x
  | Ok ph => if (0 <? length ph)%nat && (Z.of_nat (length ph) <? 100000)%Z then Ok ph else Fail LrRuntime
  end.

(** get_excitation, lines 197-211, with the documented indices i >= 0; None: nothing is returned.
    allowed=False returns index i itself; an index beyond the spectrum is an IndexError (None here) *)
Fixpoint nth_allowed (F : nat -> R) (l : list nat) (p : Z) (i : Z) : option nat :=
  match l with
  | [] => None
  | k :: l => let p := if leb (/ 100) (F k) then (p + 1)%Z else p in if (p =? i)%Z then Some k else nth_allowed F l p i
  end.
Definition get_excitation (dim : nat) (F : nat -> R) (i : nat) (allowed : bool) : option nat :=
  if negb allowed then (if (i <? dim)%nat then Some i else None)
  else nth_allowed F (seq 0 dim) (-1) (Z.of_nat i).
