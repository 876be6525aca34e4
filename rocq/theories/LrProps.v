From Coq Require Import Reals ZArith List Bool Arith.
From Verif Require Import Vec GeomModel RhoModel RhoSpec LrModel LrSpec LrProofs LrProofs2 LrProofs3.
Import ListNotations.
Open Scope R_scope.

(** C89.  Cases: y_ordered, y_pairs in LrProofs3 *)
Theorem C89_pairs : forall norb e f cut ph,
  particle_holes norb e f cut = Ok ph ->
  NoDup ph /\ forall i j, In (i, j) ph <-> (i < j < norb)%nat /\ 0 < e j - e i < cut /\ / 10 ^ 6 < (f i - f j) / 2.
Proof. exact pairs_exact. Qed.
Theorem C89_no_assertion : forall norb e f cut,
  ordered norb e f -> exists ph, particle_holes norb e f cut = Ok ph.
Proof. exact pairs_returned. Qed.
Theorem C89_setup : forall norb e f cut done ph,
  lr_setup norb e f cut done = Ok ph <->
  done = false /\ particle_holes norb e f cut = Ok ph /\ (0 < Z.of_nat (length ph) < 100000)%Z.
Proof. exact setup_result. Qed.
Theorem C89_errors : forall norb e f cut,
  ordered norb e f -> lr_setup norb e f cut false = Fail LrRuntime \/ exists ph, lr_setup norb e f cut false = Ok ph.
Proof. exact setup_fail. Qed.
Theorem C89_too_few : forall norb e f cut,
  ordered norb e f -> (Z.of_nat norb < 447)%Z ->
  (lr_setup norb e f cut false = Fail LrRuntime <-> forall i j, (i < j < norb)%nat -> e j - e i < cut -> (f i - f j) / 2 <= / 10 ^ 6).
Proof. exact setup_empty. Qed.
Theorem C89_refused : forall imag pbc,
  (lr_init imag pbc = Ok tt <-> (forall x, In x imag -> Rabs x <= / 10 ^ 10) /\ pbc = (false, false, false)).
Proof. exact init_errors. Qed.
(** C90.  Cases: y_layout, y_orthonormal *)
Theorem C90_transfer_symmetric : forall norb o1 no wf S k l i,
  mulliken_transfer norb o1 no wf S k l i = mulliken_transfer norb o1 no wf S l k i.
Proof. exact q_sym. Qed.
Theorem C90_transfer_total : forall norb N o1 no wf S k l,
  layout norb N o1 no -> symmetric norb S ->
  rsum N (mulliken_transfer norb o1 no wf S k l) = overlap norb S (wf k) (wf l).
Proof. exact q_total. Qed.
Theorem C90_transfer_neutral : forall norb N o1 no wf S k l,
  layout norb N o1 no -> symmetric norb S -> orthonormal_states norb S wf -> (k < norb)%nat -> (l < norb)%nat ->
  rsum N (mulliken_transfer norb o1 no wf S k l) = delta k l.
Proof. exact q_neutral. Qed.
Theorem C90_origin : forall norb N o1 no wf S e f cut ph r t k x,
  layout norb N o1 no -> symmetric norb S -> orthonormal_states norb S wf ->
  particle_holes norb e f cut = Ok ph -> (k < length ph)%nat ->
  rv norb N o1 no wf S (fun i y => r i y + t y) ph k x = rv norb N o1 no wf S r ph k x.
Proof. exact q_origin. Qed.
Theorem C90_frame : forall norb N o1 no e f wf S r cut ph omega2 eigv Q t ex,
  layout norb N o1 no -> symmetric norb S -> orthonormal_states norb S wf ->
  particle_holes norb e f cut = Ok ph -> orthogonal3 Q ->
  strength norb N o1 no e f wf S (moved Q t r) ph omega2 eigv ex = strength norb N o1 no e f wf S r ph omega2 eigv ex.
Proof. exact strength_frame. Qed.
(** C91.  Cases: y_psd, y_diagonalised *)
Theorem C91_matrix_symmetric : forall norb N o1 no e f wf S gamma cut ph SCC,
  particle_holes norb e f cut = Ok ph -> symmetric N gamma ->
  symmetric (length ph) (matrix norb N o1 no e f wf S SCC gamma ph).
Proof. exact matrix_sym. Qed.
Theorem C91_interaction : forall norb N o1 no e f wf S gamma cut ph v,
  particle_holes norb e f cut = Ok ph ->
  let q a := rsum (length ph) (fun k => let '(i, j) := nth k ph (0, 0)%nat in v k * sqrt ((f i - f j) / 2 * (e j - e i)) * mulliken_transfer norb o1 no wf S i j a) in
  rsum (length ph) (fun k => v k * rsum (length ph) (fun l => matrix norb N o1 no e f wf S true gamma ph k l * v l)) =
  rsum (length ph) (fun k => let '(i, j) := nth k ph (0, 0)%nat in (e j - e i) ^ 2 * v k ^ 2) + 2 * rsum N (fun a => rsum N (fun b => q a * gamma a b * q b)).
Proof. exact interaction_form. Qed.
Theorem C91_plain : forall norb N o1 no e f wf S gamma cut ph w,
  particle_holes norb e f cut = Ok ph ->
  ((exists v, eigenvector (length ph) (matrix norb N o1 no e f wf S false gamma ph) w v) <-> exists i j, In (i, j) ph /\ w = (e j - e i) ^ 2).
Proof. exact spectrum_plain. Qed.
Theorem C91_raised : forall norb N o1 no e f wf S gamma cut ph w v,
  particle_holes norb e f cut = Ok ph -> positive_semidefinite N gamma ->
  eigenvector (length ph) (matrix norb N o1 no e f wf S true gamma ph) w v -> exists i j, In (i, j) ph /\ 0 < e j - e i <= sqrt w.
Proof. exact spectrum_raised. Qed.
Theorem C91_sum_rule : forall norb N o1 no e f wf S SCC gamma r cut ph omega2 eigv,
  particle_holes norb e f cut = Ok ph -> positive_semidefinite N gamma ->
  diagonalised (length ph) (matrix norb N o1 no e f wf S SCC gamma ph) omega2 eigv ->
  (forall ex, (ex < length ph)%nat -> 0 <= strength norb N o1 no e f wf S r ph omega2 eigv ex) /\
  rsum (length ph) (strength norb N o1 no e f wf S r ph omega2 eigv) =
  8 / 3 * rsum (length ph) (fun k => let '(i, j) := nth k ph (0, 0)%nat in
    (f i - f j) / 2 * (e j - e i) * rsum 3 (fun x => rsum N (fun a => mulliken_transfer norb o1 no wf S i j a * r a x) ^ 2)).
Proof. exact strengths_sum. Qed.
(** C92 *)
Theorem C92_collectivity : forall A omega2 eigv (ph : list (nat * nat)) ex,
  diagonalised (length ph) A omega2 eigv -> (ex < length ph)%nat -> 1 <= collectivity ph eigv ex <= INR (length ph).
Proof. exact collectivity_range. Qed.
Theorem C92_collectivity_equal : forall eigv (ph : list (nat * nat)) ex p,
  (0 < length (filter p (seq 0 (length ph))))%nat ->
  (forall k, (k < length ph)%nat -> eigv k ex ^ 2 = if p k then / INR (length (filter p (seq 0 (length ph)))) else 0) ->
  collectivity ph eigv ex = INR (length (filter p (seq 0 (length ph)))).
Proof. exact collectivity_equal. Qed.
Theorem C92_excitation : forall dim F i k,
  get_excitation dim F i true = Some k <-> (k < dim)%nat /\ / 100 <= F k /\ count_allowed F k = i.
Proof. exact excitation_spec. Qed.
Theorem C92_excitation_none : forall dim F i,
  get_excitation dim F i true = None <-> (count_allowed F dim <= i)%nat.
Proof. exact excitation_none. Qed.
Print Assumptions C89_pairs.
Print Assumptions C89_no_assertion.
Print Assumptions C89_setup.
Print Assumptions C89_errors.
Print Assumptions C89_too_few.
Print Assumptions C89_refused.
Print Assumptions C90_transfer_symmetric.
Print Assumptions C90_transfer_total.
Print Assumptions C90_transfer_neutral.
Print Assumptions C90_origin.
Print Assumptions C90_frame.
Print Assumptions C91_matrix_symmetric.
Print Assumptions C91_interaction.
Print Assumptions C91_plain.
Print Assumptions C91_raised.
Print Assumptions C91_sum_rule.
Print Assumptions C92_collectivity.
Print Assumptions C92_collectivity_equal.
Print Assumptions C92_excitation.
Print Assumptions C92_excitation_none.
