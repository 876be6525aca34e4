(** C23 orbital indices, C66 free populations, C67 images *)
From Coq Require Import Reals ZArith List Bool Arith.
From Verif Require Import Vec GeomModel ElemModel ElemSpec ElemProofs.
Import ListNotations.
Open Scope R_scope.

Theorem C23_partition : forall els, Forall well_formed els -> let s := initialize els in
  norb s = list_sum (map e_no els) /\ nr_orbitals s = map e_no els /\ first_orbitals s = map (offset els) (seq 0 (length els)) /\
  length (atom_orb_indices s) = length els /\
  (forall i e, nth_error els i = Some e -> nth_error (atom_orb_indices s) i = Some (seq (offset els i) (e_no e))) /\
  concat (atom_orb_indices s) = seq 0 (norb s).
Proof. exact partition_indices. Qed.
Theorem C23_inverse : forall els m i, Forall well_formed els ->
  nth_error (orbital_atoms (initialize els)) m = Some i <-> exists e, nth_error els i = Some e /\ (offset els i <= m < offset els i + e_no e)%nat.
Proof. exact owner_inverse. Qed.
Theorem C23_orbital : forall els i e k, Forall well_formed els -> nth_error els i = Some e -> (k < e_no e)%nat ->
  nth_error (orb (initialize els)) (offset els i + k) =
  Some {| o_atom := i; o_type := nth k orbital_list Sh_s; o_index := offset els i + k; o_energy := nth k (e_onsite e) 0; o_atomindex := k |}.
Proof. exact orbital_data. Qed.
Theorem C23_padded : forall els i e k, Forall well_formed els -> nth_error els i = Some e -> (k < 9)%nat ->
  exists row, nth_error (atom_orb_indices2 (initialize els)) i = Some row /\ length row = 9%nat /\
    nth_error row k = Some (if (k <? e_no e)%nat then Z.of_nat (offset els i + k) else (-1)%Z).
Proof. exact indices2_row. Qed.

Theorem C66_atom : forall els i e, Forall well_formed els -> nth_error els i = Some e -> fillable e ->
  population_sum els (seq (offset els i) (e_no e)) = Some (e_val e).
Proof. exact populations_atom. Qed.
Theorem C66_total : forall els charge, Forall well_formed els -> Forall fillable els ->
  population_sum els (seq 0 (norb (initialize els))) = Some (electrons els charge + charge).
Proof. exact populations_total. Qed.
Theorem C66_range : forall els m, Forall well_formed els -> Forall fillable els -> (m < norb (initialize els))%nat ->
  exists p, free_population els m = Some p /\ 0 <= p <= 2.
Proof. exact population_range. Qed.

(** both orders of a pair with the same range *)
Theorem C67_complete_partial : forall N pos hscut r1 r2 r3 i j n, (i < N)%nat -> (j < N)%nat -> (forall a b, hscut a b = hscut b a) ->
  In n (triples r1 r2 r3) -> interacting pos hscut i j n -> In n (ntuples N pos hscut r1 r2 r3).
Proof. exact images_complete. Qed.
Theorem C67_sound_partial : forall N pos hscut r1 r2 r3 n, (forall a b, 0 <= hscut a b) -> (forall a b, hscut a b = hscut b a) -> n <> n000 ->
  In n (ntuples N pos hscut r1 r2 r3) -> In n (triples r1 r2 r3) /\ exists i j, (i < N)%nat /\ (j < N)%nat /\ interacting pos hscut i j n.
Proof. exact images_sound. Qed.
Theorem C67_once : forall N pos hscut r1 r2 r3, NoDup r1 -> NoDup r2 -> NoDup r3 -> NoDup (ntuples N pos hscut r1 r2 r3) /\ hd_error (ntuples N pos hscut r1 r2 r3) = Some n000.
Proof. intros. split; [apply images_once; assumption|reflexivity]. Qed.
Theorem C67_ranges : forall pbc lo hi M r, (0 <= M)%Z -> set_range pbc lo hi M = Some r ->
  forall k, In k r <-> (match lo with Some a => (a <= k)%Z | None => True end /\ match hi with Some b => (k <= b)%Z | None => True end /\
    match lo with Some a => (a < - M)%Z -> (- M <= k <= M)%Z | None => (- M <= k <= M)%Z end).
Proof. exact range_scanned. Qed.
Theorem C67_asymmetric_refuted : exists N pos hscut r1 r2 r3 i j n, (i < N)%nat /\ (j < N)%nat /\ (forall a b, 0 <= hscut a b) /\
  In n (triples r1 r2 r3) /\ interacting pos hscut i j n /\ ~ In n (ntuples N pos hscut r1 r2 r3).
Proof. exact images_asymmetric_refuted. Qed.
(** for every symop_range M there is a chain with an interacting image that is left out *)
Theorem C67_truncated_refuted : forall M, (0 <= M)%Z -> exists pos hscut r j n, set_range true None None M = Some r /\
  (forall nt, pos nt j = V3 (IZR (fst (fst nt))) 0 0) /\ interacting pos hscut 0 j n /\ ~ In n (ntuples 1 pos hscut r [0%Z] [0%Z]).
Proof. exact images_truncated_refuted. Qed.
Print Assumptions C23_partition.
Print Assumptions C23_inverse.
Print Assumptions C23_orbital.
Print Assumptions C23_padded.
Print Assumptions C66_atom.
Print Assumptions C66_total.
Print Assumptions C66_range.
Print Assumptions C67_complete_partial.
Print Assumptions C67_sound_partial.
Print Assumptions C67_once.
Print Assumptions C67_ranges.
Print Assumptions C67_asymmetric_refuted.
Print Assumptions C67_truncated_refuted.
