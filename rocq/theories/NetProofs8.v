From Coq Require Import Reals ZArith List Bool Arith Lia Lra FunctionalExtensionality.
From Verif Require Import Vec GeomModel GeomSpec GeomProofs CoulModel CoulProofs MixModel OccModel PairModel PairSpec SkModel SkSpec SkProofs Cpx RhoModel RhoSpec EigModel EigSpec InvModel InvSpec InvLin InvProofs3 InvProofs5 InvProofs9 InvProofs10 InvProofs14 GamModel GamSpec FrcSpec FrcProofs10 BndProofs2 BndProofs5 FoldSpec FoldProofs6 FoldProofs12 FoldProofs14 NetSpec NetProofs NetProofs6 NetProofs7.
Import ListNotations.
Open Scope R_scope.

(** ** one atom without hopping *)
Definition D0 : database := {| d_no := fun _ => 1%nat; d_onsite := fun _ _ => -1; d_val := fun _ => 1; d_Z := fun _ => 1; d_U := fun _ => 1; d_FWHM := fun _ => 1; d_efree := fun _ => -1;
  d_H := fun _ _ _ _ => 0; d_dH := fun _ _ _ _ => 0; d_S := fun _ _ _ _ => 0; d_dS := fun _ _ _ _ => 0;
  d_r1 := fun _ _ => 0; d_r2 := fun _ _ => 0; d_vrep := fun _ _ d => exp (- d); d_dvrep := fun _ _ d => - exp (- d); d_rmax := 5 |}.
Lemma D0_read (c : nat) : (c < 14)%nat -> 0 = read_integral (fun _ => 0) (fun _ => 0) c.
Proof. intros Hc. exact (D2_0 c Hc). Qed.
Lemma D0_sound g inv : sound D2 g inv -> sound D0 g inv.
Proof.
  intros [A1 A2 A3 A4 A5 A6 A7 A8 A9]. constructor; [exact A1|exact A2|exact A3|exact A4| |exact A6|reflexivity|exact A8|exact A9].
  intros K d. exists (fun _ => 0). intros c Hc. change (d_H D0 K K d c) with 0. exact (D0_read c Hc).
Qed.
Lemma D0_one_table : one_table D0.
Proof.
  assert (S : same_integrals (fun _ => 0) (fun _ => 0)) by (unfold same_integrals; repeat split; reflexivity).
  constructor; try reflexivity; intros K L d; exists (fun _ => 0), (fun _ => 0); (split; [exact S|split; exact D0_read]).
Qed.
Section Flat.
Context (g : structure) (HN : g_N g = 1%nat) (Hch : g_charge g = 0).
Context (Far : forall n, (n < g_nimg g)%nat -> n <> 0%nat -> / 10 < dist (g_Rn 1 g) n 0 0).
Context (erfc : R -> R) (gaussian : bool) (gamma_cut : option R) (goal : R).
Lemma flat_close : too_close 1 (g_nimg g) (g_Rn 1 g) = false.
Proof.
  apply too_close_tested. intros i j n Hi Hj Hn L. assert (i = 0%nat) by lia. assert (j = 0%nat) by lia. subst i j. destruct n as [|n]; [reflexivity|].
  apply orb_true_iff. right. apply ltb_true. apply Far; lia.
Qed.
Lemma flat_distances : distances_ok 1 (g_nimg g) (g_Rn 1 g) 5 = true.
Proof.
  apply distances_tested. intros i j n Hi Hj Hn L. assert (i = 0%nat) by lia. assert (j = 0%nat) by lia. subst i j. destruct n as [|n]; [reflexivity|].
  apply orb_true_iff. right. apply ltb_true. apply (Rlt_trans _ (/ 10)); [|apply Far; lia]. apply Rinv_lt_contravar; [apply Rmult_lt_0_compat; [lra|apply pow_lt; lra]|]. rewrite <- (pow_1 10) at 1. apply Rlt_pow; [lra|lia].
Qed.
Lemma flat_skipped n : (n < g_nimg g)%nat -> skipped (g_Rn 1 g) (pairwise g (d_r1 D0)) (pairwise g (d_r2 D0)) n 0 0 = true.
Proof.
  intros Hn. unfold skipped. destruct n as [|n]; [reflexivity|]. apply orb_true_iff. right. apply negb_true_iff. apply andb_false_iff. right. apply leb_false. unfold pairwise. cbn [d_r2 D0].
  change (mdist (g_Rn 1 g) (S n) 0 0) with (dist (g_Rn 1 g) (S n) 0 0). pose proof (Far (S n) Hn ltac:(lia)). lra.
Qed.
Lemma flat_block tab phase DT no a b : SkModel.block (g_nimg g) no (g_Rn 1 g) DT phase tab (pairwise g (d_r1 D0)) (pairwise g (d_r2 D0)) 0 0 a b = c0.
Proof. unfold SkModel.block. apply csum_zero. intros n Hn. rewrite flat_skipped by exact Hn. reflexivity. Qed.
Lemma flat_dblock tab dtab phase DT no a b k : dblock (g_nimg g) no (g_Rn 1 g) DT phase tab dtab (pairwise g (d_r1 D0)) (pairwise g (d_r2 D0)) 0 0 a b k = c0.
Proof. unfold dblock. apply csum_zero. intros n Hn. rewrite flat_skipped by exact Hn. reflexivity. Qed.
Lemma atom_0 : atom_of D0 g 1 0 = 0%nat. Proof. reflexivity. Qed.
Definition XF : system := match assemble erfc 1 1 gaussian gamma_cut goal (/ 10) 0 false D0 g with Some X => X | None => System 0 0 0 (fun _ => 0%nat) (fun _ => 0%nat) (fun _ => 0) (fun _ => 0) (fun _ => 0) 0 0 0 (fun _ _ _ => c0) (fun _ _ _ => c0) (fun _ _ _ _ => c0) (fun _ _ _ _ => c0) (fun _ _ => 0) (fun _ _ _ => 0) (fun _ _ => 0) (fun _ _ _ => 0) (fun _ => 0) None 0 0 (fun _ _ => 0) (fun _ _ => 0) end.
Lemma flat_assembled : assemble erfc 1 1 gaussian gamma_cut goal (/ 10) 0 false D0 g = Some XF.
Proof. unfold XF. unfold assemble. rewrite HN, flat_close. reflexivity. Qed.
Lemma flat_fields : s_norb XF = 1%nat /\ s_N XF = 1%nat /\ s_nk XF = g_nk g /\ s_o1 XF 0%nat = 0%nat /\ s_no XF 0%nat = 1%nat /\ s_val XF 0%nat = 1 /\ s_Z XF 0%nat = 1 /\ s_wk XF = g_wk g /\ s_nel XF = 1 /\ s_charge XF = 0 /\
  (forall k, s_S XF k 0%nat 0%nat = c1) /\ (forall k, s_H0 XF k 0%nat 0%nat = rc (-1)) /\ (forall c k, s_dH0 XF c k 0%nat 0%nat = c0) /\ (forall c k, s_dS XF c k 0%nat 0%nat = c0) /\ (exists x, s_erep XF = Some x) /\
  s_frep XF = fun c I => comp c (force 1 (g_nimg g) (g_Rn 1 g) (pairwise g (d_dvrep D0)) 5 I).
Proof.
  unfold XF, assemble. rewrite HN, flat_close. cbn [s_norb s_N s_nk s_o1 s_no s_val s_Z s_wk s_nel s_charge s_S s_H0 s_dH0 s_dS s_erep s_frep]. rewrite Hch.
  assert (F : forall M, flat D0 g M 0 0 = M 0%nat 0%nat 0%nat 0%nat) by (intros M; unfold flat; rewrite HN; reflexivity).
  split; [reflexivity|]. split; [reflexivity|]. split; [reflexivity|]. split; [reflexivity|]. split; [reflexivity|]. split; [reflexivity|]. split; [reflexivity|]. split; [reflexivity|]. split; [unfold rsum; cbn [d_val D0]; ring|]. split; [reflexivity|].
  split. { intros k. rewrite F. unfold g_matrix, SkModel.matrix. cbn [Nat.ltb Nat.leb Nat.eqb]. rewrite flat_block. apply cplx_eq; cbn; ring. }
  split. { intros k. rewrite F. unfold g_matrix, SkModel.matrix. cbn [Nat.ltb Nat.leb Nat.eqb]. rewrite flat_block. apply cplx_eq; cbn; ring. }
  split. { intros c k. rewrite F. unfold g_dmatrix. cbn [Nat.ltb Nat.leb]. apply flat_dblock. }
  split. { intros c k. rewrite F. unfold g_dmatrix. cbn [Nat.ltb Nat.leb]. apply flat_dblock. }
  change (d_rmax D0) with 5. rewrite flat_distances. split; [eexists; reflexivity|reflexivity].
Qed.
End Flat.
