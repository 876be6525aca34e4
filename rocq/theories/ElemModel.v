(** Orbital bookkeeping, free-atom populations and images.  hotbit/elements.py, hotbit/element.py *)
From Coq Require Import Reals ZArith List Bool Arith.
From Verif Require Import Vec GeomModel.
Import ListNotations.
Open Scope R_scope.

(** ** Elements._elements_initialization 378-431 *)
Inductive shell : Type := Sh_s | Sh_p | Sh_d.
(** element.py 10: orbital_list, by the first letter of the name *)
Definition orbital_list : list shell := [Sh_s; Sh_p; Sh_p; Sh_p; Sh_d; Sh_d; Sh_d; Sh_d; Sh_d].
(** the data of an element file that is used here *)
Record edata : Type := { e_no : nat; e_onsite : list R; e_val : R; e_socc : R }.
(** element.py 122-125 *)
Definition get_orbital_types (e : edata) : list shell := firstn (e_no e) orbital_list.
(** the dictionary of lines 400-406; the symbol is that of the atom *)
Record orbital : Type := { o_atom : nat; o_type : shell; o_index : nat; o_energy : R; o_atomindex : nat }.
Record ostate : Type := { norb : nat; orb : list orbital; atomorb : list (list orbital); nr_orbitals : list nat;
  first_orbitals : list nat; orbital_atoms : list nat }.
(** the inner loop, lines 392-412: k counts the orbitals of the atom *)
Fixpoint add_orbitals (i k : nat) (l : list (shell * R)) (norb : nat) (oa : list nat) (acc : list orbital) : nat * list nat * list orbital :=
  match l with
  | [] => (norb, oa, acc)
  | (ao, e) :: l => let norb := S norb in
      add_orbitals i (S k) l norb (oa ++ [i]) (acc ++ [{| o_atom := i; o_type := ao; o_index := norb - 1; o_energy := e; o_atomindex := k |}])
  end.
(** one turn of the loop, lines 388-416 *)
Definition add_atom (s : ostate) (i : nat) (e : edata) : ostate :=
  let '(n, oa, ao) := add_orbitals i 0 (combine (get_orbital_types e) (e_onsite e)) (norb s) (orbital_atoms s) [] in
  {| norb := n; orb := orb s ++ ao; atomorb := atomorb s ++ [ao]; nr_orbitals := nr_orbitals s ++ [length ao];
     first_orbitals := first_orbitals s ++ [norb s]; orbital_atoms := oa |}.
Definition start : ostate := {| norb := 0; orb := []; atomorb := []; nr_orbitals := []; first_orbitals := []; orbital_atoms := [] |}.
Fixpoint add_atoms (s : ostate) (i : nat) (els : list edata) : ostate :=
  match els with [] => s | e :: els => add_atoms (add_atom s i e) (S i) els end.
(** els: the element of every atom *)
Definition initialize (els : list edata) : ostate := add_atoms start 0 els.
(** line 429 *)
Definition atom_orb_indices (s : ostate) : list (list nat) := map (map o_index) (atomorb s).
(** lines 431-433: rows of nine, padded with -1; None: an atom with more than nine orbitals cannot be stored *)
Definition atom_orb_indices2 (s : ostate) : list (list Z) :=
  map (fun l => map (fun o => Z.of_nat (o_index o)) l ++ repeat (-1)%Z (9 - length l)) (atomorb s).
(** lines 419-420 *)
Fixpoint lsumR (l : list R) : R := match l with [] => 0 | a :: l => a + lsumR l end.
Definition electrons (els : list edata) (charge : R) : R := lsumR (map e_val els) - charge.

(** ** get_free_population 562-581.  None: index out of range *)
Definition is_d (o : orbital) : bool := match o_type o with Sh_d => true | _ => false end.
Definition free_population (els : list edata) (m : nat) : option R :=
  let s := initialize els in
  match nth_error (orb s) m with
  | None => None
  | Some o =>
    match nth_error els (o_atom o) with
    | None => None
    | Some e =>
      let n_s := e_socc e in
      match o_type o with
      | Sh_s => Some n_s
      | t =>
        let n_el := e_val e + (2 - n_s) in
        let ai := IZR (Z.of_nat (o_atomindex o)) in
        let ai := if existsb (fun q => is_d q && (o_atom q =? o_atom o)%nat) (orb s)
                  then match t with Sh_p => ai + 5 | _ => ai - 3 end else ai in
        Some (Rmax 0 (Rmin 2 (n_el - 2 * ai)))
      end
    end
  end.

(** ** update_geometry 176-243: the symmetry operations kept.  pos nt i is nvector(r=i,ntuple=nt). *)
Definition ntuple : Type := (Z * Z * Z)%type.
Definition n000 : ntuple := (0, 0, 0)%Z.
Definition nt_eqb (a b : ntuple) : bool :=
  let '(a1, a2, a3) := a in let '(b1, b2, b3) := b in ((a1 =? b1) && (a2 =? b2) && (a3 =? b3))%Z.
Definition triples (r1 r2 r3 : list Z) : list ntuple :=
  flat_map (fun n1 => flat_map (fun n2 => map (fun n3 => (n1, n2, n3)) r3) r2) r1.
(** lines 214-221 and np.any: dR[a,b] compares image a with atom b against hscut[a,b] *)
Definition d2 (p q : v3) : R := vdot (vsub p q) (vsub p q).
Definition addn (N : nat) (pos : ntuple -> nat -> v3) (hscut : nat -> nat -> R) (nt : ntuple) : bool :=
  existsb (fun a => existsb (fun b => leb (d2 (pos n000 b) (pos nt a)) (hscut a b * hscut a b)) (seq 0 N)) (seq 0 N).
Definition ntuples (N : nat) (pos : ntuple -> nat -> v3) (hscut : nat -> nat -> R) (r1 r2 r3 : list Z) : list ntuple :=
  n000 :: filter (fun nt => negb (nt_eqb nt n000) && addn N pos hscut nt) (triples r1 r2 r3).

(** ** set_atoms 109-131: the ranges scanned.  The bounds are integers or infinite (None); the rounding of line 127
    is the identity.  None: one of the assertions fails *)
Definition set_range (pbc : bool) (lo hi : option Z) (Mlarge : Z) : option (list Z) :=
  let zr a b := map (fun k => (a + Z.of_nat k)%Z) (seq 0 (Z.to_nat (b - a + 1))) in
  match lo, hi with
  | None, None => if pbc then Some (zr (- Mlarge) Mlarge)%Z else None
  | None, Some _ => None
  | Some a, None => if (pbc && (a <? - Mlarge))%Z then Some (zr (- Mlarge) Mlarge)%Z else None
  | Some a, Some b => (if negb (a <=? b) then None else if negb pbc && negb ((a =? b) && (b =? 0)) then None
      else if a <? - Mlarge then if Mlarge <=? b then Some (zr (- Mlarge) Mlarge) else None
      else Some (zr a b))%Z
  end.
