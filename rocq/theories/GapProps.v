From Coq Require Import Reals List Bool Arith.
From Verif Require Import Vec GeomModel GapModel GapSpec GapProofs GapProofs2.
Import ListNotations.
Open Scope R_scope.

(** C86.  Cases: x_sized, x_gap in GapProofs2 *)
Theorem C86_gap_value : forall nk norb e f mu g p,
  sized nk norb e mu -> get_energy_gap nk norb e f mu = Some (g, p) ->
  exists k a k' a', highest_below nk norb e mu k a /\ lowest_above nk norb e mu k' a' /\ g = e k' a' - e k a /\ p = (f k a - f k' a') / 2.
Proof. exact gap_value. Qed.
Theorem C86_gap_error : forall nk norb e f mu,
  sized nk norb e mu -> (get_energy_gap nk norb e f mu = None <-> ~ (has_below nk norb e mu /\ has_above nk norb e mu)).
Proof. exact gap_error. Qed.
Theorem C86_gap_probability : forall nk norb e f mu g p,
  sized nk norb e mu -> filling nk norb e f -> get_energy_gap nk norb e f mu = Some (g, p) -> 0 < g /\ 0 <= p <= 1.
Proof. exact gap_probability. Qed.
(** a gap is promised for every calculation; with no state on one side of the Fermi level the call fails *)
Theorem C86_gap_filled_refuted :
  exists nk norb e f mu, (0 < nk * norb)%nat /\ sized nk norb e mu /\ filling nk norb e f /\ get_energy_gap nk norb e f mu = None.
Proof. exact gap_filled_refuted. Qed.
(** C87.  Case: x_frontier *)
Theorem C87_homo_index : forall nk norb e mu,
  has_below nk norb e mu -> let '(k, a) := get_state_indices nk norb e mu HOMO in highest_below nk norb e mu k a.
Proof. exact homo_index. Qed.
Theorem C87_lumo_index : forall nk norb e mu,
  (exists k a, state nk norb k a /\ mu <= e k a) -> let '(k, a) := get_state_indices nk norb e mu LUMO in lowest_not_below nk norb e mu k a.
Proof. exact lumo_index. Qed.
Theorem C87_gap_indices : forall nk norb e f mu g p,
  sized nk norb e mu -> (forall k a, state nk norb k a -> e k a <> mu) -> get_energy_gap nk norb e f mu = Some (g, p) ->
  let '(k, a) := get_state_indices nk norb e mu HOMO in let '(k', a') := get_state_indices nk norb e mu LUMO in g = e k' a' - e k a.
Proof. exact gap_indices. Qed.
(** a state exactly at the Fermi level is returned as the lowest unoccupied one *)
Theorem C87_lumo_refuted :
  exists nk norb e mu, has_above nk norb e mu /\ (let '(k, a) := get_state_indices nk norb e mu LUMO in ~ lowest_above nk norb e mu k a).
Proof. exact lumo_refuted. Qed.
(** without a state below the Fermi level, the first state is returned as the highest occupied one *)
Theorem C87_homo_refuted :
  exists nk norb e mu, (0 < nk * norb)%nat /\ (let '(k, a) := get_state_indices nk norb e mu HOMO in state nk norb k a /\ mu < e k a).
Proof. exact homo_refuted. Qed.
Theorem C87_get_homo : forall nk norb f occu i,
  get_homo nk norb f occu = Some i <->
  (i < norb)%nat /\ (exists k, (k < nk)%nat /\ occu < f k i) /\ forall j k, (i < j < norb)%nat -> (k < nk)%nat -> f k j <= occu.
Proof. exact homo_spec. Qed.
Theorem C87_get_lumo : forall nk norb f occu i,
  get_lumo nk norb f occu = Some i <->
  (i < norb)%nat /\ (exists k, (k < nk)%nat /\ f k i < occu) /\ forall j k, (j < i)%nat -> (k < nk)%nat -> occu <= f k j.
Proof. exact lumo_spec. Qed.
Theorem C87_homo_lumo : forall norb f h l,
  (forall i j, (i <= j < norb)%nat -> f 0%nat j <= f 0%nat i) -> get_homo 1 norb f 0.99 = Some h -> get_lumo 1 norb f 1.01 = Some l ->
  (l <= h + 1)%nat /\ (l = (h + 1)%nat <-> forall i, (i < norb)%nat -> ~ 0.99 < f 0%nat i < 1.01).
Proof. exact homo_lumo. Qed.
(** C88.  Cases: x_sorted, x_transitions *)
Theorem C88_transitions : forall nk norb e f c l,
  (forall k, (k < nk)%nat -> sorted_bands norb (e k) (f k)) -> dielectric_transitions nk norb e f (Some c) = Some l ->
  NoDup l /\
  (forall k a b, In (k, (a, b)) l -> (k < nk)%nat /\ (a < b < norb)%nat /\ otol <= f k a - f k b /\ (forall b', (b' < b)%nat -> e k b' <= e k a + c)) /\
  (forall k a b, (k < nk)%nat -> (a < b < norb)%nat -> otol <= f k a - f k b -> f k b < 2 - otol -> e k b < e k a + c -> In (k, (a, b)) l).
Proof. exact dielectric_list. Qed.
(** the level after the cutoff is included *)
Theorem C88_cutoff_refuted :
  exists nk norb e f c l k a b, (forall k, (k < nk)%nat -> sorted_bands norb (e k) (f k)) /\
  dielectric_transitions nk norb e f (Some c) = Some l /\ In (k, (a, b)) l /\ c < e k b - e k a.
Proof. exact cutoff_refuted. Qed.
(** the documented default, no cutoff, always ends in ValueError *)
Theorem C88_default_refuted : forall nk norb e f,
  (0 < nk)%nat -> (0 < norb)%nat -> (forall k i j, (k < nk)%nat -> (i < norb)%nat -> (j < norb)%nat -> Rabs (e k i - e k j) < big) ->
  dielectric_transitions nk norb e f None = None.
Proof. exact default_fails. Qed.
Print Assumptions C86_gap_value.
Print Assumptions C86_gap_error.
Print Assumptions C86_gap_probability.
Print Assumptions C86_gap_filled_refuted.
Print Assumptions C87_homo_index.
Print Assumptions C87_lumo_index.
Print Assumptions C87_gap_indices.
Print Assumptions C87_lumo_refuted.
Print Assumptions C87_homo_refuted.
Print Assumptions C87_get_homo.
Print Assumptions C87_get_lumo.
Print Assumptions C87_homo_lumo.
Print Assumptions C88_transitions.
Print Assumptions C88_cutoff_refuted.
Print Assumptions C88_default_refuted.
