From Coq Require Import Reals ZArith List Bool Arith String Ascii.
From Verif Require Import Vec GeomModel PairModel.
Import ListNotations.
Open Scope R_scope.

(** Symmetry operations p |-> O p + t, n = 0 the identity, each with its inverse among them. *)
Record images (nimg : nat) (O : nat -> m3) (t : nat -> v3) (inv : nat -> nat) : Prop := {
  im_some : (0 < nimg)%nat;
  im_id : O 0%nat = eye /\ t 0%nat = vzero;
  im_rigid : forall n p q, (n < nimg)%nat -> vdot (mv (O n) p) (mv (O n) q) = vdot p q;
  im_inv0 : inv 0%nat = 0%nat;
  im_inv : forall n, (n < nimg)%nat -> (inv n < nimg)%nat /\ inv (inv n) = n;
  im_inverse : forall n p, (n < nimg)%nat -> vadd (mv (O (inv n)) (vadd (mv (O n) p) (t n))) (t (inv n)) = p }.

Definition place (O : nat -> m3) (t : nat -> v3) (r : nat -> v3) (n j : nat) : v3 := vadd (mv (O n) (r j)) (t n).
(** all atoms moved by s*u *)
Definition moved (r u : nat -> v3) (s : R) (j : nat) : v3 := vadd (r j) (vscale s (u j)).

(** an element symbol: one capital and lower-case letters *)
Fixpoint all_lower (s : string) : bool :=
  match s with EmptyString => true | String a r => is_lower a && all_lower r end.
Definition symbol (s : string) : Prop :=
  match s with EmptyString => False | String a r => is_upper a = true /\ all_lower r = true end.

(** ** Calls of add_pair_potential *)
(** the state after a list of calls on a fresh object *)
Definition run (Bohr Hartree : R) (cs : list (pairid * potential * bool)) : ppstate :=
  fold_left (add_pair_potential Bohr Hartree) cs pp0.
(** atom indices below 10000, well-formed element symbols *)
Definition valid_id (id : pairid) : Prop :=
  match id with
  | Atoms i j => (0 <= i < 10000)%Z /\ (0 <= j < 10000)%Z
  | Elements si sj => symbol si /\ symbol sj
  end.
(** a potential whose der=1 value is its derivative at positive distances *)
Definition consistent (p : potential) : Prop := forall d, 0 < d -> derivable_pt_lim (pv p) d (pd p d).
(** a potential in eV and Angstrom, expressed in Hartree and Bohr *)
Definition proper_atomic (Bohr Hartree : R) (p : potential) : potential :=
  {| pv := fun r => pv p (r * Bohr) / Hartree; pd := fun r => pd p (r * Bohr) * Bohr / Hartree; prange := prange p / Bohr |}.

(** the potential given last for an atom pair or an element pair, in either order *)
Definition hits_atoms (i j : Z) (id : pairid) : bool :=
  match id with Atoms a b => (Z.eqb a i && Z.eqb b j) || (Z.eqb a j && Z.eqb b i) | Elements _ _ => false end.
Definition hits_elements (si sj : string) (id : pairid) : bool :=
  match id with Atoms _ _ => false | Elements a b => (String.eqb a si && String.eqb b sj) || (String.eqb a sj && String.eqb b si) end.
Fixpoint given_last (hit : pairid -> bool) (cs : list (pairid * potential * bool)) : option (potential * bool) :=
  match cs with
  | [] => None
  | (id, v, e) :: cs => match given_last hit cs with Some x => Some x | None => if hit id then Some (v, e) else None end
  end.
Definition value_of (Bohr Hartree : R) (proj : potential -> R -> R) (o : option (potential * bool)) (r : R) : R :=
  match o with Some (v, e) => proj (to_atomic Bohr Hartree e v) r | None => 0 end.
