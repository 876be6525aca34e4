From Coq Require Import Reals List Bool Arith.
From Verif Require Import GeomModel DosModel MblModel MblSpec MblProofs.
Import ListNotations.
Open Scope R_scope.

(** C198: mean bond length and number of bonds.  Case: ex_bonds *)
Theorem C198_mean :
  forall (N : nat) (dist : nat -> nat -> R) (m r : R),
  N <> 2%nat ->
  shortest N dist m ->
  m <= 10 * (197 / 199) ->
  mean_bond_length N dist = MValue r ->
  exists k : nat,
    let rc := point k in
    first_minimum (rdf N dist) 197 k /\
    m <= r <= rc /\
    (let l := filter (fun x : R => leb x rc) (map (fun p : nat * nat => dist (fst p) (snd p)) (pairs N)) in
     r * INR (length l) = fold_left Rplus l 0).
Proof. exact mean_value. Qed.
Theorem C198_mean_defined :
  forall (N : nat) (dist : nat -> nat -> R) (m : R), shortest N dist m -> m <= 10 * (197 / 199) -> mean_bond_length N dist <> MNan.
Proof. exact mean_not_nan. Qed.
Theorem C198_mean_equal :
  forall (N : nat) (a : R), (3 <= N)%nat -> a <= 10 * (197 / 199) -> mean_bond_length N (fun _ _ : nat => a) = MValue a.
Proof. exact mean_equal. Qed.
Theorem C198_mean_two :
  forall dist : nat -> nat -> R, mean_bond_length 2 dist = MValue (dist 0%nat 1%nat).
Proof. exact mean_two. Qed.
Theorem C198_number :
  forall (N : nat) (dist : nat -> nat -> R) (m : R),
  shortest N dist m ->
  m <= 10 * (198 / 199) ->
  exists k : nat,
    let rc := point k in
    m <= rc < 10 /\
    (first_minimum (rdf N dist) 198 k \/ k = 198%nat /\ (forall j : nat, (j <= 198)%nat -> rdf N dist j <= rdf N dist (j + 1))) /\
    number_of_bonds N dist = length (filter (fun p : nat * nat => leb (dist (fst p) (snd p)) rc) (pairs N)) /\ (1 <= number_of_bonds N dist)%nat.
Proof. exact number. Qed.
Theorem C198_mean_nan_refuted :
  exists (N : nat) (dist : nat -> nat -> R), (forall i j : nat, dist i j = 991 / 100) /\ N = 3%nat /\ mean_bond_length N dist = MNan.
Proof. exact nan_refuted. Qed.
Theorem C198_mean_none_refuted :
  exists (N : nat) (dist : nat -> nat -> R), (forall i j : nat, dist i j = 11) /\ N = 3%nat /\ mean_bond_length N dist = MNone.
Proof. exact none_refuted. Qed.
Print Assumptions C198_mean.
Print Assumptions C198_mean_defined.
Print Assumptions C198_mean_equal.
Print Assumptions C198_mean_two.
Print Assumptions C198_number.
Print Assumptions C198_mean_nan_refuted.
Print Assumptions C198_mean_none_refuted.
