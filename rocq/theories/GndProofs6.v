From Coq Require Import Reals ZArith List Bool Arith Lia Lra FunctionalExtensionality.
From Verif Require Import Vec GeomModel GeomSpec GeomProofs CoulModel CoulProofs MixModel OccModel PairModel PairSpec SkModel SkSpec SkProofs Cpx RhoModel RhoSpec EigModel EigSpec InvModel InvSpec InvLin InvProofs3 InvProofs5 InvProofs9 InvProofs10 InvProofs13 InvProofs14 GamModel GamSpec GamProofs FrcSpec FrcProofs FrcProofs2 FrcProofs8 FrcProofs10 BndProofs2 BndProofs5 FoldProofs9 FoldProofs11 NetSpec NetProofs NetProofs6 NetProofs10 GndSpec GndProofs GndProofs2 GndProofs3 GndProofs4 GndProofs5.
Import ListNotations.
Open Scope R_scope.

(** ** two atoms at distance 2 *)
Definition K2 (erfc : R -> R) (I J : nat) : R := if (I =? J)%nat then 1 else (1 - erfc (gauss_const 2 2 * 2)) / 2.
Lemma gd_neighbour I J : (I < 2)%nat -> (J < 2)%nat -> I <> J -> vnorm (drv (g_r (gd 2)) (g_tr0 (gd 2)) (g_rot (gd 2)) origin_cell I J) = 2.
Proof.
  intros HI HJ Ne. unfold vnorm. transitivity (sqrt (2 * 2)); [f_equal|apply sqrt_square; lra]. assert (E : (I = 0 /\ J = 1 \/ I = 1 /\ J = 0)%nat) by lia. destruct E as [[-> ->]|[-> ->]]; unfold drv, image; cbn [gd g2 g_r g_tr0 g_rot Nat.eqb]; vunf; ring.
Qed.
Lemma gd_sum Bohr U term I J : (I < 2)%nat -> (J < 2)%nat ->
  gamma_G Bohr U term (flat_map (cell_neighbours 2 (g_r (gd 2)) (g_tr0 (gd 2)) (g_rot (gd 2)) None) [origin_cell]) I J = if (I =? J)%nat then U I else fst (term I J (2 / Bohr)).
Proof.
  intros HI HJ. rewrite G_value by assumption. cbn [GamSpec.lsum].
  destruct (Nat.eqb_spec I J) as [->|Ne].
  - assert (E : mask (g_r (gd 2)) (g_tr0 (gd 2)) (g_rot (gd 2)) None origin_cell J J = false). { apply not_true_is_false. intros E. apply mask_iff in E. tauto. } rewrite E. ring.
  - assert (E : mask (g_r (gd 2)) (g_tr0 (gd 2)) (g_rot (gd 2)) None origin_cell I J = true). { apply mask_iff. tauto. } rewrite E, gd_neighbour by assumption. ring.
Qed.
Lemma gd_interacts erfc X : assemble erfc 1 1 true None 1 (/ 10) 0 true D2 (gd 2) = Some X -> interacts_by X (K2 erfc).
Proof.
  intros EX. pose proof (gd_F erfc true 2 X EX) as F. pose proof (gd_N erfc true 2 X EX) as EN.
  destruct (m_scc _ _ _ _ _ _ _ _ _ _ _ _ F eq_refl) as (G & dG & l & EG & El & EGs & _ & EP & _).
  assert (Es : scan None (g_ranges (gd 2)) = Some [origin_cell]) by reflexivity.
  assert (Ell : l = flat_map (cell_neighbours 2 (g_r (gd 2)) (g_tr0 (gd 2)) (g_rot (gd 2)) None) [origin_cell]).
  { destruct (neighbours_of _ _ _ _ _ _ _ El) as (cs & Es' & ->). rewrite Es in Es'. injection Es' as <-. reflexivity. }
  assert (EGG : G = gamma_G 1 (fun I => d_U D2 (g_kind (gd 2) I)) (terms erfc true D2 (gd 2)) (flat_map (cell_neighbours 2 (g_r (gd 2)) (g_tr0 (gd 2)) (g_rot (gd 2)) None) [origin_cell])).
  { pose proof EG as EG'. rewrite (g_gamma_at _ _ _ _ _ _ _ [origin_cell] Es) in EG'. unfold nbs in EG'. cbn [andb] in EG'. destruct (leb _ _); [discriminate|]. destruct (existsb _ _); [discriminate|]. injection EG' as E1 _. symmetry. exact E1. }
  split; rewrite EN.
  - intros q I HI. unfold epsilon. rewrite EP, (direct_phi_gamma erfc None _ _ _ _ _ l q I El), <- rsum_scal_r, <- rsum_plus. apply rsum_ext. intros J HJ.
    rewrite EGs, EGG, gamma_is, Ell, !gd_sum by assumption. unfold K2, terms, dterm, gauss_term, direct_f. cbv zeta. cbn [d_U d_FWHM D2 gd g2 g_kind fst].
    destruct (I =? J)%nat; [change (INR 1) with 1; ring|]. replace (2 / 1) with 2 by field. field.
  - intros I J _ _. unfold K2. rewrite Nat.eqb_sym. reflexivity.
Qed.
Lemma K2_costs erfc : (forall x, 0 <= erfc x) -> costs_strictly 2 (K2 erfc) /\ costs 2 (K2 erfc).
Proof.
  intros He. set (e := erfc (gauss_const 2 2 * 2)). assert (E0 : 0 <= e) by apply He.
  assert (E : forall q, rsum 2 q = 0 -> coulomb_of 2 (K2 erfc) q = (1 + e) / 2 * q 0%nat ^ 2).
  { intros q Hq. cbn [rsum] in Hq. unfold coulomb_of, K2. cbn [rsum Nat.eqb]. fold e. replace (q 1%nat) with (- q 0%nat) by lra. field. }
  split; intros q Hq; rewrite (E q Hq).
  - intros L I HI. assert (q 0%nat ^ 2 <= 0) by nra. assert (q 0%nat = 0) by nra. cbn [rsum] in Hq. assert (C : (I = 0 \/ I = 1)%nat) by lia. destruct C as [-> | ->]; lra.
  - nra.
Qed.
(** one electron on each atom *)
Definition alone (k a i : nat) : cplx := if (a =? i)%nat then c1 else c0.
Lemma gd_electrons erfc scc X : assemble erfc 1 1 true None 1 (/ 10) 0 scc D2 (gd 2) = Some X -> electrons_in X alone (fun _ _ => 1) /\ filling (s_norb X) (s_nk X) (s_wk X) (fun _ _ => 1) = 2.
Proof.
  intros EX. unfold electrons_in, filling. rewrite (gd_norb erfc scc 2 X EX), (gd_nk erfc scc 2 X EX), (gd_wk erfc scc 2 X EX). split; [split|].
  - intros k a b Hk Ha Hb. unfold bracket, csum. cbn [rsum]. rewrite !(gd_S erfc scc 2 X EX) by lia.
    assert (C : (a = 0 \/ a = 1)%nat) by lia. assert (C' : (b = 0 \/ b = 1)%nat) by lia. destruct C as [-> | ->], C' as [-> | ->]; unfold alone; cbn [Nat.eqb]; apply cplx_eq; cbn; ring.
  - intros; lra.
  - cbn [rsum]. ring.
Qed.
Lemma occ2_pos x k a : x < 10 -> 0 < x -> (a < 2)%nat -> occ2 x k a <> 0.
Proof.
  intros H0 H Ha. unfold occ2, fermi, rlt. cbv zeta. destruct (Rlt_dec ((levels x k a - -1) / / 10) 200) as [_|N].
  - pose proof (exp_pos ((levels x k a - -1) / / 10)). assert (0 < 2 / (exp ((levels x k a - -1) / / 10) + 1)) by (apply Rdiv_lt_0_compat; lra). lra.
  - exfalso. apply N. unfold levels. destruct (a =? 0)%nat; [replace ((-1 + - x - -1) / / 10) with (-10 * x) by field|replace ((-1 + x - -1) / / 10) with (10 * x) by field]; lra.
Qed.
(** everything that the theorems ask for *)
Example ex_ground scc mi erfc : (forall x, 0 <= erfc x) -> exists X r it n,
  assemble erfc 1 1 true None 1 (/ 10) 0 scc D2 (gd 2) = Some X /\ sound D2 (gd 2) (fun i => i) /\ closed_cells (gd 2) /\ reliable z2 (fun _ _ => 0) X /\
  calculate z2 (fun _ => 0) (fun _ _ => 0) 200 middle (anderson_mixer no_solver usual 2) 0 0 1 1 1 scc (S mi) X anderson_new (fun _ => 0) = Solved r it n /\
  (scc = true -> interacts_by X (K2 erfc) /\ computed_from z2 (fun _ => 0) (fun _ _ => 0) 200 middle 0 0 1 1 1 X (fun _ => 0) r) /\ costs_strictly 2 (K2 erfc) /\ costs 2 (K2 erfc) /\ s_N X = 2%nat /\
  (forall I, (I < 2)%nat -> r_dq r I = 0) /\ (forall k a, (k < s_nk X)%nat -> (a < s_norb X)%nat -> r_f r k a <> 0) /\
  electrons_in X alone (fun _ _ => 1) /\ filling (s_norb X) (s_nk X) (s_wk X) (fun _ _ => 1) = filling (s_norb X) (s_nk X) (s_wk X) (r_f r).
Proof.
  intros He. assert (Hd : / 10 < 2 < 10) by lra. destruct (gd_assembled erfc scc 2 ltac:(lra)) as (X & EX & _). exists X.
  pose proof (gd_reliable erfc scc 2 X EX (fun _ _ => 0)) as RX.
  destruct (gd_calc erfc scc 2 X Hd EX z2 (fun _ _ => 0) (fun _ => 0) 0 0 1 RX ltac:(lra) ltac:(lra) ltac:(lra)) as (p & r & P & F & EF & Q). exists r.
  pose proof (finish_charges _ _ _ _ _ _ _ _ _ _ F) as C.
  assert (EC : exists it n, calculate z2 (fun _ => 0) (fun _ _ => 0) 200 middle (anderson_mixer no_solver usual 2) 0 0 1 1 1 scc (S mi) X anderson_new (fun _ => 0) = Solved r it n).
  { unfold calculate, get_states. destruct scc.
    - cbn [scc_loop]. rewrite P. cbv beta iota. rewrite C. unfold anderson_mixer. cbn [m_call m_reset]. unfold anderson. cbv zeta. match goal with |- context [Rlt_dec ?a ?b] => destruct (Rlt_dec a b) as [_|K] end.
      + cbv beta iota. rewrite F. eexists _, _. reflexivity.
      + exfalso. apply K. unfold usual. cbn. rewrite !Q by lia. replace (0 - 0) with 0 by ring. rewrite Rabs_R0. rewrite ?(Rmax_left 0 0) by lra. lra.
    - rewrite P. cbv beta iota. rewrite C. cbv beta iota. rewrite F. eexists _, _. reflexivity. }
  destruct EC as (it & n & EC). exists it, n. pose proof (gd_nk erfc scc 2 X EX) as Ek. pose proof (gd_norb erfc scc 2 X EX) as En. pose proof (x_range 2 Hd) as Hx.
  destruct (gd_electrons erfc scc X EX) as [EE EFl]. destruct (K2_costs erfc He) as [Cs1 Cs2].
  split; [exact EX|]. split; [apply ex_sound|]. split; [|split; [exact RX|split; [exact EC|split; [|split; [exact Cs1|split; [exact Cs2|split; [exact (gd_N erfc scc 2 X EX)|split; [exact Q|split; [|split; [exact EE|]]]]]]]]]].
  - intros k cs Es. exists (fun _ => vzero), (fun _ => eye), (fun c => c). 
    assert (Ec : cs = [origin_cell]) by (destruct k; cbn in Es; injection Es as <-; reflexivity). subst cs. split; [intros c _; split; reflexivity|]. constructor.
    + apply Permutation.Permutation_refl.
    + repeat split.
    + reflexivity.
    + intros c a b. rewrite !mv_eye. reflexivity.
    + intros c a. rewrite !mv_eye. reflexivity.
    + intros c. rewrite mv_eye. apply v3_eq; vunf; ring.
  - intros ->. split; [apply gd_interacts; exact EX|]. exists p. split; assumption.
  - intros k a Hk Ha. rewrite Ek in Hk. rewrite En in Ha. rewrite (proj2 (EF k a Hk Ha)). apply occ2_pos; lra || lia.
  - rewrite EFl. unfold filling. rewrite Ek, En, (gd_wk erfc scc 2 X EX). cbn [rsum]. rewrite (proj2 (EF 0 0 ltac:(lia) ltac:(lia))%nat), (proj2 (EF 0 1 ltac:(lia) ltac:(lia))%nat). pose proof (occ2_sum _ Hx). lra.
Qed.
