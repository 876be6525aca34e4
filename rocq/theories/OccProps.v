From Coq Require Import Reals List.
From Verif Require Import Vec OccModel OccSpec OccProofs.
Open Scope R_scope.

(** C13: occupations lie in [0,2), fall with the energy and rise with the chemical potential;
    they are positive, and change strictly, unless the exponential would overflow. *)
Theorem C13_occupations_physical : forall MAXE width e1 e2 m1 m2, 0 < width ->
  (0 <= fermi MAXE width e1 m1 < 2) /\
  ((e1 - m1) / width < MAXE -> 0 < fermi MAXE width e1 m1) /\
  (e1 <= e2 -> fermi MAXE width e2 m1 <= fermi MAXE width e1 m1) /\
  (m1 <= m2 -> fermi MAXE width e1 m1 <= fermi MAXE width e1 m2) /\
  (e1 < e2 -> (e1 - m1) / width < MAXE -> fermi MAXE width e2 m1 < fermi MAXE width e1 m1) /\
  (m1 < m2 -> (e1 - m2) / width < MAXE -> fermi MAXE width e1 m1 < fermi MAXE width e1 m2).
Proof. exact occupations_physical. Qed.
Print Assumptions C13_occupations_physical.

(** C13: half filling at the chemical potential, and electrons above it mirror holes below it. *)
Theorem C13_particle_hole : forall MAXE width d mu, 1 < MAXE -> 0 < width -> - MAXE < d / width < MAXE ->
  fermi MAXE width mu mu = 1 /\ fermi MAXE width (mu + d) mu + fermi MAXE width (mu - d) mu = 2.
Proof. exact particle_hole. Qed.
Print Assumptions C13_particle_hole.

(** C13: "strictly positive" fails at the overflow limit. *)
Theorem C13_positive_refuted : forall MAXE, exists width e mu, 0 < width /\ fermi MAXE width e mu = 0.
Proof. exact positive_refuted. Qed.
Print Assumptions C13_positive_refuted.

(** C13: the Fermi function (0..1) is half the occupation. *)
Theorem C13_fermi_function : forall MAXE width e mu,
  fermi_function MAXE width e mu = fermi MAXE width e mu / 2.
Proof. exact fermi_function_half'. Qed.
Print Assumptions C13_fermi_function.

(** C14: when occupy returns (mu,f), f are the occupations of mu and sum to nel within 1e-10;
    for any root finder. *)
Theorem C14_electron_number : forall MAXE nk n wk width nel e brentq mu f,
  occupy MAXE nk n wk width nel e brentq = Some (mu, f) ->
  (forall k a, f k a = fermi MAXE width (e k a) mu) /\
  Rabs (rsum nk (fun k => rsum n (fun a => wk k * f k a)) - nel) <= / 10 ^ 10.
Proof. exact electron_number. Qed.
Print Assumptions C14_electron_number.

(** C14: the chemical potential of a given number of electrons is unique. *)
Theorem C14_mu_unique : forall MAXE nk n wk width e m1 m2, 0 < width -> weights nk wk ->
  let N mu := rsum nk (fun k => rsum n (fun a => wk k * fermi MAXE width (e k a) mu)) in
  N m1 = N m2 -> 0 < N m1 -> m1 = m2.
Proof. exact mu_unique'. Qed.
Print Assumptions C14_mu_unique.

(** C15 is false: 1.9 electrons in one orbital is a legal filling, and occupy raises. *)
Theorem C15_always_found_refuted : forall MAXE, 1 < MAXE -> exists width nel (e : nat -> nat -> R),
  0 < width /\ 0 < nel < 2 * INR 1 /\
  forall brentq, brentq_contract brentq -> occupy MAXE 1 1 (fun _ => 1) width nel e brentq = None.
Proof. exact always_found_refuted. Qed.
Print Assumptions C15_always_found_refuted.

(** C15: for fillings between 2/(1+e) = 0.54 and 2e/(1+e) = 1.46 electrons per orbital the root
    search succeeds, with a value inside the search interval; occupy then returns it provided it
    is accurate. *)
Theorem C15_found_partial : forall MAXE nk n wk width nel e brentq,
  1 < MAXE -> 0 < width -> brentq_contract brentq -> weights nk wk -> (0 < nk)%nat -> (0 < n)%nat ->
  2 / (1 + exp 1) * INR n <= nel <= 2 * exp 1 / (1 + exp 1) * INR n ->
  exists mu k1 a1 k2 a2, (k1 < nk)%nat /\ (a1 < n)%nat /\ (k2 < nk)%nat /\ (a2 < n)%nat /\
    e k1 a1 - width <= mu <= e k2 a2 + width /\
    (Rabs (rsum nk (fun k => rsum n (fun a => wk k * fermi MAXE width (e k a) mu)) - nel) <= / 10 ^ 10 ->
     exists f, occupy MAXE nk n wk width nel e brentq = Some (mu, f)).
Proof. exact found. Qed.
Print Assumptions C15_found_partial.

(** C15: whatever the spectrum, more than 2*norb or a negative number of electrons is refused. *)
Theorem C15_impossible_fillings_refused : forall MAXE nk n wk width nel e brentq,
  0 < width -> weights nk wk -> nel < - / 10 ^ 10 \/ 2 * INR n + / 10 ^ 10 < nel ->
  occupy MAXE nk n wk width nel e brentq = None.
Proof. exact impossible_refused. Qed.
Print Assumptions C15_impossible_fillings_refused.
