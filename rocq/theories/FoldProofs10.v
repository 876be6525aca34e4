From Coq Require Import Reals ZArith List Bool Arith Lia Lra FunctionalExtensionality.
From Verif Require Import Vec GeomModel GeomSpec GeomProofs CoulModel MixModel PairModel PairSpec PairProofs SkModel SkSpec SkProofs SkProofs2 SkProofs3 SkProofs4 SkProofs5 SkProofs6 SkProofs7 Cpx RhoModel RhoSpec RhoProofs EigModel EigSpec InvModel InvSpec InvLin InvProofs InvProofs5 InvProofs6 InvProofs7 InvProofs8 GamModel InvProofs9 InvProofs10 InvProofs11 InvProofs12 InvProofs13 FoldSpec FoldProofs FoldProofs4 FoldProofs5 FoldProofs6 FoldProofs7 FoldProofs8 FoldProofs9.
Import ListNotations.
Open Scope R_scope.

Lemma turned_real (W : m3) D g I a (F : nat -> R) : (I < g_N g)%nat -> (a < g_no D g I)%nat ->
  rsum (first_orbital (g_no D g) (g_N g)) (fun x => turned_orbitals D g W (first_orbital (g_no D g) I + a)%nat x * F x) = rsum (g_no D g I) (fun a' => Drep W a a' * F (first_orbital (g_no D g) I + a')%nat).
Proof.
  intros HI Ha. pose proof (turned_sum (fun _ => W) D g 0 I a (fun x => rc (F x)) HI Ha) as E. cbv beta in E. apply (f_equal fst) in E. rewrite !csum_fst in E. unfold cscale, rc in E. cbn [fst] in E. exact E.
Qed.
Lemma D_real (k : nat) P a b : orthogonal P -> In k [1; 4; 9]%nat -> (a < k)%nat -> (b < k)%nat -> rsum k (fun c => Drep P a c * Drep P b c) = if (a =? b)%nat then 1 else 0.
Proof.
  intros HP Hk Ha Hb. pose proof (at_most_nine k Hk). rewrite <- (rsum_whole k P (fun c => Drep P b c) a Hk Ha), Drep_orth by (assumption || lia). reflexivity.
Qed.
Lemma turned_tr W D g i j : (forall I, (I < g_N g)%nat -> In (g_no D g I) [1; 4; 9]%nat) -> (i < first_orbital (g_no D g) (g_N g))%nat -> (j < first_orbital (g_no D g) (g_N g))%nat ->
  turned_orbitals D g W i j = turned_orbitals D g (tr W) j i.
Proof.
  intros H9 Hi Hj. destruct (orbitals_X D g g eq_refl i Hi) as (I & a & HI & Ha & ->). destruct (orbitals_X D g g eq_refl j Hj) as (J & b & HJ & Hb & ->).
  pose proof (turned_at (fun _ => W) D g 0 I a J b HI HJ Ha Hb) as E. pose proof (turned_at (fun _ => tr W) D g 0 J b I a HJ HI Hb Ha) as E'. cbv beta in E, E'. etransitivity; [exact E|]. symmetry. etransitivity; [exact E'|].
  rewrite Nat.eqb_sym. destruct (I =? J)%nat; [|reflexivity]. pose proof (at_most_nine _ (H9 I HI)). pose proof (at_most_nine _ (H9 J HJ)). apply Drep_tr; lia.
Qed.
Lemma turned_rows W D g i j : orthogonal W -> (forall I, (I < g_N g)%nat -> In (g_no D g I) [1; 4; 9]%nat) -> (i < first_orbital (g_no D g) (g_N g))%nat -> (j < first_orbital (g_no D g) (g_N g))%nat ->
  rsum (first_orbital (g_no D g) (g_N g)) (fun x => turned_orbitals D g W i x * turned_orbitals D g W j x) = if (i =? j)%nat then 1 else 0.
Proof.
  intros HW H9 Hi Hj. destruct (orbitals_X D g g eq_refl i Hi) as (I & a & HI & Ha & ->). destruct (orbitals_X D g g eq_refl j Hj) as (J & b & HJ & Hb & ->).
  etransitivity; [exact (turned_real W D g I a (fun x => turned_orbitals D g W (first_orbital (g_no D g) J + b)%nat x) HI Ha)|].
  destruct (Nat.eq_dec I J) as [<-|Ne].
  - rewrite (rsum_ext _ _ (fun c => Drep W a c * Drep W b c)).
    + rewrite (D_real _ W a b HW (H9 I HI) Ha Hb). destruct (Nat.eqb_spec a b) as [->|N1]; [rewrite Nat.eqb_refl; reflexivity|]. replace (first_orbital (g_no D g) I + a =? first_orbital (g_no D g) I + b)%nat with false by (symmetry; apply Nat.eqb_neq; lia). reflexivity.
    + intros c Hc. f_equal. pose proof (turned_at (fun _ => W) D g 0 I b I c HI HI Hb Hc) as E. cbv beta in E. rewrite Nat.eqb_refl in E. exact E.
  - rewrite rsum_eq0.
    + destruct (Nat.eqb_spec (first_orbital (g_no D g) I + a) (first_orbital (g_no D g) J + b)) as [E|_]; [|reflexivity]. exfalso. apply Ne. apply (o1_inj D g g eq_refl I a J b HI HJ Ha Hb E).
    + intros c Hc. pose proof (turned_at (fun _ => W) D g 0 J b I c HJ HI Hb Hc) as E. cbv beta in E. replace (J =? I)%nat with false in E by (symmetry; apply Nat.eqb_neq; auto). etransitivity; [exact (f_equal (Rmult _) E)|]. ring.
Qed.
Lemma unfolded_ext m n p D A B c a c' b : (forall j x y, (j < m)%nat -> (x < n)%nat -> (y < n)%nat -> A j x y = B j x y) -> unfolded m n p D A c a c' b = unfolded m n p D B c a c' b.
Proof. intros H. unfold unfolded. apply csum_ext'. intros j Hj. apply csum_ext'. intros x Hx. apply csum_ext'. intros y Hy. rewrite H by assumption. reflexivity. Qed.
Section Assembled.
Context (m : nat) (p : nat -> nat -> nat -> cplx) (W : nat -> m3) (v : nat -> v3) (w : nat -> nat -> nat -> option nat) (D : database) (Bohr : R) (g h : structure).
Context (C : copies m p W v w D Bohr g h) (inv inv' : nat -> nat) (Sg : sound D g inv) (Sh : sound D h inv') (OT : one_table D).
Let N := g_N g.
Let n := first_orbital (g_no D g) N.
Lemma Hno9 I : (I < N)%nat -> In (g_no D g I) [1; 4; 9]%nat.
Proof. intros _. apply (u_no _ _ _ Sg). Qed.
Lemma norb_copy : first_orbital (g_no D h) (g_N h) = (m * n)%nat.
Proof. rewrite (q_N _ _ _ _ _ _ _ _ _ C). apply (o1_copy m p W v w D Bohr g h C m (le_n m)). Qed.
(** matrices in one numbering *)
Lemma flat_copy k (M' : nat -> nat -> nat -> nat -> cplx) (M : nat -> nat -> nat -> nat -> nat -> cplx) c a c' b :
  (forall c I a c' J b, (c < m)%nat -> (c' < m)%nat -> (I < N)%nat -> (J < N)%nat -> (a < g_no D g I)%nat -> (b < g_no D g J)%nat -> M' (c * N + I)%nat a (c' * N + J)%nat b =
    csum m (fun j => cmul (cmul (p k j c) (cconj (p k j c'))) (cscale (/ INR m) (csum (g_no D g I) (fun a' => csum (g_no D g J) (fun b' => cscale (Drep (W c) a a' * Drep (W c') b b') (M j I a' J b'))))))) ->
  (c < m)%nat -> (c' < m)%nat -> (a < n)%nat -> (b < n)%nat ->
  flat D h M' (c * n + a)%nat (c' * n + b)%nat = unfolded m n (p k) (fun c => turned_orbitals D g (W c)) (fun j => flat D g (M j)) c a c' b.
Proof.
  intros H Hc Hc' Ha Hb. destruct (orbitals_X D g g eq_refl a Ha) as (I & x & HI & Hx & ->). destruct (orbitals_X D g g eq_refl b Hb) as (J & y & HJ & Hy & ->).
  etransitivity; [|symmetry; exact (unfolded_at m W D g (p k) (fun j => flat D g (M j)) c I x c' J y HI HJ Hx Hy)].
  destruct (o1_copy m p W v w D Bohr g h C c (Nat.lt_le_incl _ _ Hc)) as [_ O1]. destruct (o1_copy m p W v w D Bohr g h C c' (Nat.lt_le_incl _ _ Hc')) as [_ O2]. specialize (O1 I Hc (Nat.lt_le_incl _ _ HI)). specialize (O2 J Hc' (Nat.lt_le_incl _ _ HJ)).
  replace (c * n + (first_orbital (g_no D g) I + x))%nat with (first_orbital (g_no D h) (c * N + I) + x)%nat by (unfold n, N; lia). replace (c' * n + (first_orbital (g_no D g) J + y))%nat with (first_orbital (g_no D h) (c' * N + J) + y)%nat by (unfold n, N; lia).
  rewrite flat_at by (try (rewrite (q_N _ _ _ _ _ _ _ _ _ C); apply pair_lt; assumption); unfold N; rewrite (no_copy m p W v w D Bohr g h C) by assumption; assumption).
  rewrite H by assumption. apply csum_ext'. intros j Hj. do 2 f_equal. apply csum_ext'. intros a' Ha'. apply csum_ext'. intros b' Hb'. rewrite flat_at by assumption. reflexivity.
Qed.
Lemma kind_repeated (f : nat -> R) : repeated m N (fun I => f (g_kind g I)) (fun I => f (g_kind h I)).
Proof. intros c I Hc HI. unfold N. rewrite (q_kind _ _ _ _ _ _ _ _ _ C c I Hc HI). reflexivity. Qed.
Lemma repeated_sum (u u' : vec) : repeated m N u u' -> rsum (g_N h) u' = INR m * rsum N u.
Proof.
  intros H. rewrite (q_N _ _ _ _ _ _ _ _ _ C), rsum_pairs. fold N. rewrite (rsum_ext m _ (fun _ => rsum N u)); [apply rsum_const|]. intros c Hc. apply rsum_ext. intros i Hi. apply H; assumption.
Qed.
Context (erfc : R -> R) (Hartree : R) (gaussian : bool) (gamma_cut : option R) (goal width sepsilon : R).
Let mk (g0 : structure) G dG phi E : system := System (first_orbital (g_no D g0) (g_N g0)) (g_N g0) (g_nk g0) (first_orbital (g_no D g0)) (g_no D g0) (fun I => d_val D (g_kind g0 I)) (fun I => d_Z D (g_kind g0 I)) (g_wk g0)
      (rsum (g_N g0) (fun I => d_val D (g_kind g0 I)) - g_charge g0) width (g_charge g0)
      (fun k => flat D g0 (g_matrix Bohr D g0 (fun I => d_onsite D (g_kind g0 I)) (d_H D) k)) (fun k => flat D g0 (g_matrix Bohr D g0 (fun _ _ => 1 + sepsilon) (d_S D) k))
      (fun c k => flat D g0 (g_dmatrix Bohr D g0 (d_H D) (d_dH D) c k)) (fun c k => flat D g0 (g_dmatrix Bohr D g0 (d_S D) (d_dS D) c k))
      G dG phi E (g_ext g0)
      (if distances_ok (g_N g0) (g_nimg g0) (g_Rn Bohr g0) (d_rmax D)
       then Some (total_energy (g_N g0) (g_nimg g0) (g_Rn Bohr g0) (pairwise g0 (d_vrep D)) (d_rmax D) * Hartree) else None)
      (total_energy (g_N g0) (g_nimg g0) (g_Rn Bohr g0) (g_pp g0) (g_rc g0) * Hartree)
      (rsum (g_N g0) (fun I => d_efree D (g_kind g0 I)))
      (fun c I => comp c (force (g_N g0) (g_nimg g0) (g_Rn Bohr g0) (pairwise g0 (d_dvrep D)) (d_rmax D) I))
      (fun c I => comp c (force (g_N g0) (g_nimg g0) (g_Rn Bohr g0) (g_dpp g0) (g_rc g0) I)).
Lemma unfolds_mk G dG phi E G' dG' phi' E' : too_close (g_N g) (g_nimg g) (g_Rn Bohr g) = false ->
  (forall u v, repeated m N u v -> repeated m N (epsilon N G (phi u) u) (epsilon (g_N h) G' (phi' v) v)) ->
  (forall u v, repeated m N u v -> repeated_turned m N (fun c => m3e (W c)) (fun d I => rsum N (fun J => u J * dG d I J) + E u d I) (fun d I => rsum (g_N h) (fun J => v J * dG' d I J) + E' v d I)) ->
  unfolds m p (fun c => turned_orbitals D g (W c)) (fun c => m3e (W c)) (mk g G dG phi E) (mk h G' dG' phi' E').
Proof.
  intros HC Heps Hgam.
  constructor; unfold mk; cbn [s_norb s_N s_nk s_o1 s_no s_val s_Z s_wk s_nel s_width s_charge s_H0 s_S s_dH0 s_dS s_G s_dG s_phi s_field s_ext s_erep s_epp s_efree s_frep s_fpp]; try fold N; try fold n.
  - apply (q_m _ _ _ _ _ _ _ _ _ C).
  - apply (q_N _ _ _ _ _ _ _ _ _ C).
  - exact norb_copy.
  - apply (q_nk _ _ _ _ _ _ _ _ _ C).
  - apply (q_p _ _ _ _ _ _ _ _ _ C).
  - intros c Hc. pose proof (q_W _ _ _ _ _ _ _ _ _ C c Hc) as HW. constructor; cbn [s_norb s_N s_o1 s_no].
    + intros a b Ha Hb. apply turned_rows; try assumption. exact Hno9.
    + intros a b Ha Hb. etransitivity; [|exact (turned_rows (tr (W c)) D g a b (orthogonal_tr _ HW) Hno9 Ha Hb)]. apply rsum_ext. intros i Hi. rewrite (turned_tr (W c) D g i a), (turned_tr (W c) D g i b) by (assumption || exact Hno9). reflexivity.
    + intros i j I J HI HJ Bi Bj Ne. unfold turned_orbitals. rewrite (atom_of_spec D g (g_N g) I i HI Bi), (atom_of_spec D g (g_N g) J j HJ Bj). cbv zeta. destruct (Nat.eqb_spec I J); [contradiction|reflexivity].
  - intros c I Hc HI. apply (o1_copy m p W v w D Bohr g h C c (Nat.lt_le_incl _ _ Hc)); [exact Hc|]. apply Nat.lt_le_incl. exact HI.
  - intros c I Hc HI. apply (no_copy m p W v w D Bohr g h C); assumption.
  - apply orbital_layout.
  - apply (kind_repeated (d_val D)).
  - apply (kind_repeated (d_Z D)).
  - apply (q_ext _ _ _ _ _ _ _ _ _ C).
  - apply (q_wk _ _ _ _ _ _ _ _ _ C).
  - rewrite (repeated_sum _ _ (kind_repeated (d_val D))), (q_charge _ _ _ _ _ _ _ _ _ C). ring.
  - reflexivity.
  - apply (q_charge _ _ _ _ _ _ _ _ _ C).
  - intros k c a c' b Hk Hc Hc' Ha Hb. apply (flat_copy k (g_matrix Bohr D h (fun I => d_onsite D (g_kind h I)) (d_H D) k) (fun j => g_matrix Bohr D g (fun I => d_onsite D (g_kind g I)) (d_H D) (k * m + j)%nat)); try assumption.
    intros. apply (matrix_copy m p W v w D Bohr g h C inv inv' Sg Sh OT HC); try assumption.
    + intros K L d. apply (o_H _ OT).
    + intros c1 I1 x1 Hc1 HI1. rewrite (q_kind _ _ _ _ _ _ _ _ _ C c1 I1 Hc1 HI1). reflexivity.
    + intros i a1 b1 _. apply (u_onsite _ _ _ Sg).
  - intros k c a c' b Hk Hc Hc' Ha Hb. apply (flat_copy k (g_matrix Bohr D h (fun _ _ => 1 + sepsilon) (d_S D) k) (fun j => g_matrix Bohr D g (fun _ _ => 1 + sepsilon) (d_S D) (k * m + j)%nat)); try assumption.
    intros. apply (matrix_copy m p W v w D Bohr g h C inv inv' Sg Sh OT HC); try assumption; try reflexivity. intros K L d. apply (o_S _ OT).
  - intros d k c a c' b Hd Hk Hc Hc' Ha Hb. destruct (orbitals_X D g g eq_refl a Ha) as (I & x & HI & Hx & ->). destruct (orbitals_X D g g eq_refl b Hb) as (J & y & HJ & Hy & ->).
    destruct (o1_copy m p W v w D Bohr g h C c (Nat.lt_le_incl _ _ Hc)) as [_ O1]. destruct (o1_copy m p W v w D Bohr g h C c' (Nat.lt_le_incl _ _ Hc')) as [_ O2]. specialize (O1 I Hc (Nat.lt_le_incl _ _ HI)). specialize (O2 J Hc' (Nat.lt_le_incl _ _ HJ)).
    replace (c * n + (first_orbital (g_no D g) I + x))%nat with (first_orbital (g_no D h) (c * N + I) + x)%nat by (unfold n, N; lia). replace (c' * n + (first_orbital (g_no D g) J + y))%nat with (first_orbital (g_no D h) (c' * N + J) + y)%nat by (unfold n, N; lia).
    rewrite flat_at by (try (rewrite (q_N _ _ _ _ _ _ _ _ _ C); apply pair_lt; assumption); unfold N; rewrite (no_copy m p W v w D Bohr g h C) by assumption; assumption).
    etransitivity; [apply (dmatrix_copy m p W v w D Bohr g h C inv inv' Sg Sh OT HC); try assumption; intros K L d0; [apply (o_H _ OT)|apply (o_dH _ OT)]|].
    apply csum_ext'. intros e He. f_equal. etransitivity; [|symmetry; exact (unfolded_at m W D g (p k) (fun j => flat D g (g_dmatrix Bohr D g (d_H D) (d_dH D) e (k * m + j)%nat)) c I x c' J y HI HJ Hx Hy)].
    apply csum_ext'. intros j Hj. do 2 f_equal. apply csum_ext'. intros a' Ha'. apply csum_ext'. intros b' Hb'. rewrite flat_at by assumption. reflexivity.
  - intros d k c a c' b Hd Hk Hc Hc' Ha Hb. destruct (orbitals_X D g g eq_refl a Ha) as (I & x & HI & Hx & ->). destruct (orbitals_X D g g eq_refl b Hb) as (J & y & HJ & Hy & ->).
    destruct (o1_copy m p W v w D Bohr g h C c (Nat.lt_le_incl _ _ Hc)) as [_ O1]. destruct (o1_copy m p W v w D Bohr g h C c' (Nat.lt_le_incl _ _ Hc')) as [_ O2]. specialize (O1 I Hc (Nat.lt_le_incl _ _ HI)). specialize (O2 J Hc' (Nat.lt_le_incl _ _ HJ)).
    replace (c * n + (first_orbital (g_no D g) I + x))%nat with (first_orbital (g_no D h) (c * N + I) + x)%nat by (unfold n, N; lia). replace (c' * n + (first_orbital (g_no D g) J + y))%nat with (first_orbital (g_no D h) (c' * N + J) + y)%nat by (unfold n, N; lia).
    rewrite flat_at by (try (rewrite (q_N _ _ _ _ _ _ _ _ _ C); apply pair_lt; assumption); unfold N; rewrite (no_copy m p W v w D Bohr g h C) by assumption; assumption).
    etransitivity; [apply (dmatrix_copy m p W v w D Bohr g h C inv inv' Sg Sh OT HC); try assumption; intros K L d0; [apply (o_S _ OT)|apply (o_dS _ OT)]|].
    apply csum_ext'. intros e He. f_equal. etransitivity; [|symmetry; exact (unfolded_at m W D g (p k) (fun j => flat D g (g_dmatrix Bohr D g (d_S D) (d_dS D) e (k * m + j)%nat)) c I x c' J y HI HJ Hx Hy)].
    apply csum_ext'. intros j Hj. do 2 f_equal. apply csum_ext'. intros a' Ha'. apply csum_ext'. intros b' Hb'. rewrite flat_at by assumption. reflexivity.
  - exact Heps.
  - exact Hgam.
  - rewrite (ok_copy m p W v w D Bohr g h C inv inv' Sg Sh). destruct (distances_ok _ _ _ _); [|reflexivity]. cbn [option_map]. f_equal.
    rewrite (energy_copy m p W v w D Bohr g h C inv inv' Sg Sh (pairwise g (d_vrep D)) (pairwise h (d_vrep D)) (d_rmax D)); [unfold N; ring|left; reflexivity| |].
    + intros. apply (f_equal (fun q => q d)). apply (pair_copy m p W v w D Bohr g h C (d_vrep D)); assumption.
    + intros. unfold pairwise. apply (o_vrep _ OT).
  - rewrite (q_rc _ _ _ _ _ _ _ _ _ C). rewrite (energy_copy m p W v w D Bohr g h C inv inv' Sg Sh (g_pp g) (g_pp h) (g_rc g)); [unfold N; ring|right; reflexivity| |].
    + intros. apply (q_pp _ _ _ _ _ _ _ _ _ C); assumption.
    + intros. apply (u_pp _ _ _ Sg); assumption.
  - apply (repeated_sum _ _ (kind_repeated (d_efree D))).
  - intros d c I Hd Hc HI. apply (force_copy m p W v w D Bohr g h C inv' Sh (pairwise g (d_dvrep D)) (pairwise h (d_dvrep D)) (d_rmax D) d c I); try assumption; [left; reflexivity|].
    intros. apply (f_equal (fun q => q d0)). apply (pair_copy m p W v w D Bohr g h C (d_dvrep D)); assumption.
  - intros d c I Hd Hc HI. rewrite (q_rc _ _ _ _ _ _ _ _ _ C). apply (force_copy m p W v w D Bohr g h C inv' Sh (g_dpp g) (g_dpp h) (g_rc g) d c I); try assumption; [right; reflexivity|].
    intros. apply (q_dpp _ _ _ _ _ _ _ _ _ C); assumption.
Qed.
End Assembled.
