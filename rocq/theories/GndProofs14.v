From Coq Require Import Reals ZArith List Bool Arith Lia Lra.
From Verif Require Import Vec GeomModel GeomSpec GeomProofs CoulModel MixModel OccModel PairModel PairSpec SkModel SkSpec Cpx RhoModel RhoSpec EigModel EigSpec InvModel InvSpec InvLin InvProofs14 GamModel GamSpec GamProofs6 FrcSpec FrcProofs8 FrcProofs10 FoldSpec GndSpec GndProofs6 GndProofs12.
Import ListNotations.
Open Scope R_scope.

(** the dimer with another U *)
Definition D2U (u : R) : database := {| d_no := d_no D2; d_onsite := d_onsite D2; d_val := d_val D2; d_Z := d_Z D2; d_U := fun _ => u; d_FWHM := d_FWHM D2; d_efree := d_efree D2;
  d_H := d_H D2; d_dH := d_dH D2; d_S := d_S D2; d_dS := d_dS D2; d_r1 := d_r1 D2; d_r2 := d_r2 D2; d_vrep := d_vrep D2; d_dvrep := d_dvrep D2; d_rmax := d_rmax D2 |}.
Lemma soft_assembled erfc u : exists X, assemble erfc 1 1 true None 1 (/ 10) 0 true (D2U u) (gd 2) = Some X.
Proof.
  unfold assemble. change (g_N (gd 2)) with 2%nat. change (g_nimg (gd 2)) with 1%nat. rewrite (gd_close 2) by lra. change (d_rmax (D2U u)) with 5. rewrite (gd_distances 2) by lra.
  unfold g_gamma, gauss_gamma, get_neighbours. cbn [gd g2 g_N g_kind g_ranges scan is_cluster infinite negb orb].
  assert (L : leb (rmaxn (2 - 1) (fun _ => d_FWHM (D2U u) 0)) 0 = false) by (apply leb_false; unfold D2U, D2; cbn; rewrite Rmax_left by lra; lra).
  rewrite L. cbn [negb orb andb].
  match goal with |- context [existsb ?p ?l] => assert (Z : existsb p l = false) end.
  { apply not_true_iff_false. intros E. apply existsb_exists in E. destruct E as (b & _ & E). unfold D2U, D2 in E. cbn [d_FWHM] in E. destruct (Req_EM_T (2 ^ 2 + 2 ^ 2) 0); [lra|discriminate]. }
  rewrite Z. eexists. reflexivity.
Qed.
Lemma soft_distance (i j : nat) : (i = 0 /\ j = 1 \/ i = 1 /\ j = 0)%nat -> vnorm (vsub (vscale (/ 1) (g_r (gd 2) i)) (vscale (/ 1) (g_r (gd 2) j))) = 2.
Proof.
  intros C. unfold vnorm. transitivity (sqrt (2 * 2)); [f_equal|apply sqrt_square; lra]. destruct C as [[-> ->]|[-> ->]]; cbn [gd g2 g_r Nat.eqb]; vunf; field.
Qed.
Lemma narrow erfc : is_erfc erfc -> exists D g X q, molecule g /\ (forall I, (I < g_N g)%nat -> 0 < d_U D (g_kind g I) /\ 0 < d_FWHM D (g_kind g I)) /\
  assemble erfc 1 1 true None 1 (/ 10) 0 true D g = Some X /\ rsum (s_N X) q = 0 /\ energy_of_charges X q < 0.
Proof.
  intros He. set (k := (1 - erfc (gauss_const 2 2 * 2)) / 2).
  assert (Hk : 0 < k).
  { destruct (gauss_bounds erfc 2 2 2 He ltac:(lra) ltac:(lra)) as [A _]. unfold gauss_term in A. cbn [fst] in A. unfold k. lra. }
  destruct (soft_assembled erfc (k / 2)) as [X EX]. exists (D2U (k / 2)), (gd 2), X, (fun i => if (i =? 0)%nat then 1 else -1).
  assert (M : molecule (gd 2)) by (constructor; reflexivity).
  split; [exact M|]. split; [intros I _; cbn; lra|]. split; [exact EX|].
  pose proof (energy_K erfc 1 1 1 (/ 10) 0 ltac:(lra) (D2U (k / 2)) (gd 2) M X EX (fun i => if (i =? 0)%nat then 1 else -1)) as E.
  pose proof (m_N _ _ _ _ _ _ _ _ _ _ _ _ (assembled_fields _ _ _ _ _ _ _ _ _ _ _ _ EX)) as EN. rewrite EN. change (g_N (gd 2)) with 2%nat in *. split; [cbn; lra|].
  cbn [rsum Nat.eqb] in E. rewrite (soft_distance 0 1), (soft_distance 1 0) in E by lia. change (d_FWHM (D2U (k / 2)) (g_kind (gd 2) 0)) with 2 in E. change (d_FWHM (D2U (k / 2)) (g_kind (gd 2) 1)) with 2 in E. fold k in E.
  change (d_U (D2U (k / 2)) (g_kind (gd 2) 0)) with (k / 2) in E. change (d_U (D2U (k / 2)) (g_kind (gd 2) 1)) with (k / 2) in E. lra.
Qed.
