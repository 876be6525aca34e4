(** Fermi occupations (hotbit/occupations.py). *)
From Coq Require Import Reals List Bool.
From Verif Require Import Vec.
Import ListNotations.
Open Scope R_scope.

Definition rlt (a b : R) : bool := if Rlt_dec a b then true else false.

Section Occ.
(** MAX_EXP_ARGUMENT, the largest argument of exp; lines 4-7 *)
Variable MAXE : R.
(** number of k-points and orbitals, weights, width, number of electrons, energies e[k,a] *)
Variables (nk n : nat) (wk : nat -> R) (width nel : R) (e : nat -> nat -> R).
(** scipy.optimize.brentq(f,a,b,xtol); None: ValueError *)
Variable brentq : (R -> R) -> R -> R -> R -> option R.

(** one element of Occupations.fermi; lines 30-40.  Arguments at or above MAXE become inf,
    giving the occupation 2/(inf+1) = 0. *)
Definition fermi (en mu : R) : R :=
  let arg := (en - mu) / width in
  if rlt arg MAXE then 2 / (exp arg + 1) else 0.

(** Occupations.fermi_function, lines 43-48 (np.exp overflows to inf above MAXE) *)
Definition fermi_function (en mu : R) : R :=
  let arg := (en - mu) / width in
  if rlt arg MAXE then 1 / (exp arg + 1) else 0.

(** Occupations.root_function; lines 51-56 *)
Definition electrons (mu : R) : R := rsum nk (fun k => rsum n (fun a => wk k * fermi (e k a) mu)).
Definition root_function (mu : R) : R := electrons mu - nel.

(** e_sorted[0] and e_sorted[-1]; lines 67-69.  None: IndexError for an empty spectrum *)
Definition eflat : list R := flat_map (fun k => map (e k) (seq 0 n)) (seq 0 nk).
Definition emin : option R := match eflat with [] => None | x :: l => Some (fold_left Rmin l x) end.
Definition emax : option R := match eflat with [] => None | x :: l => Some (fold_left Rmax l x) end.

Definition xtol : R := / 10 ^ 13.
Definition tol : R := / 10 ^ 10.

(** Occupations.occupy; lines 59-94: the chemical potential and the occupations, or an
    exception (None).  The first attempt (lines 76-82) always fails: e_sorted(ifermi) calls
    an array, a TypeError caught by the bare except. *)
Definition occupy : option (R * (nat -> nat -> R)) :=
  match emin, emax with
  | Some lo, Some hi =>
      match brentq root_function (lo - width) (hi + width) xtol with
      | None => None
      | Some mu =>
          if rlt tol (Rabs (root_function mu)) then None
          else Some (mu, fun k a => fermi (e k a) mu)
      end
  | _, _ => None
  end.
End Occ.
