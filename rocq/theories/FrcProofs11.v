(** The molecule while an atom is displaced. *)
From Coq Require Import Reals ZArith List Bool Arith Lia Lra Psatz FunctionalExtensionality.
From Verif Require Import SkModel SkProofs SkProofs2 InvModel InvSpec InvLin InvProofs InvProofs13 InvProofs14 Vec GeomModel GeomProofs PairModel PairSpec PairProofs CoulModel CoulProofs SkSpec SkProofs6 Cpx OccModel RhoModel RhoSpec RhoProofs RhoProofs6 EigModel EigSpec GamModel GamSpec GamProofs GamProofs5 GamProofs6 FrcSpec FrcProofs FrcProofs2 FrcProofs5 FrcProofs7 FrcProofs8 FrcProofs10.
Import ListNotations.
Open Scope R_scope.

Lemma D_rew (f : R -> R) x a b : derivable_pt_lim f x a -> a = b -> derivable_pt_lim f x b.
Proof. intros H <-. exact H. Qed.
Lemma separation_gd n i j : (n < 1)%nat -> (i < 2)%nat -> (j < 2)%nat -> i <> j -> separation 1 (gd 1) n i j = 1.
Proof.
  intros Hn Hi Hj Ne. unfold separation, gd, g2. cbn [g_O g_t g_r]. rewrite mv_eye. unfold Rdiv. rewrite Rinv_1, Rmult_1_r. unfold vnorm. transitivity (sqrt 1); [f_equal|apply sqrt_1].
  two i; two j; try (exfalso; lia); cbn [Nat.eqb]; vunf; ring.
Qed.
Example gd_smooth : smooth 1 D2 (gd 1).
Proof.
  assert (NE : forall i j n : nat, (n < 1)%nat -> ~ (i = j /\ n = 0%nat) -> i <> j) by (intros i j n Hn H E; apply H; split; [exact E|lia]).
  assert (EX : derivable_pt_lim (fun d => exp (- d)) 1 (- exp (Ropp 1))).
  { eapply D_rew; [apply (derivable_pt_lim_comp (fun d => - d) exp 1 (Ropp 1)); [|apply derivable_pt_lim_exp]|cbv beta; set (y := exp (Ropp 1)); ring]. eapply D_rew; [apply (derivable_pt_lim_opp (fun d => d) 1 1); apply derivable_pt_lim_id|lra]. }
  constructor; intros i j n Hi Hj Hn Ne; cbn zeta; cbn [gd g2 g_N g_nimg] in Hi, Hj, Hn; rewrite (separation_gd n i j Hn Hi Hj (NE i j n Hn Ne)); cbn [gd g2 g_kind D2 d_r1 d_r2 d_H d_dH d_S d_dS d_rmax d_vrep d_dvrep g_rc g_pp g_dpp].
  - split; [lra|]. split; [lra|]. intros _ q Hq. split.
    + destruct (q =? 9)%nat; [|apply derivable_pt_lim_const]. eapply D_rew; [apply (derivable_pt_lim_opp (fun d => exp (- d)) 1); exact EX|ring].
    + apply derivable_pt_lim_const.
  - split; [lra|]. intros _. exact EX.
  - split; [lra|]. intros H. exfalso. lra.
Qed.
Lemma one_cell_regular : regular 2 (g_r (gd 1)) (fun _ => vzero) (fun _ => eye) one_cell None.
Proof.
  intros c i j S Hi Hj Ne. split; [|exact I]. unfold scanned, one_cell, in_scan in S. cbn [fst snd] in S. destruct c as [[a b] e]. unfold t1, t2, t3 in S. cbn [fst snd] in S.
  assert (a = 0 /\ b = 0 /\ e = 0)%Z as (-> & -> & ->) by lia. assert (i <> j) by (intros ->; apply Ne; split; reflexivity).
  rewrite mv_eye. unfold vnorm. apply sqrt_lt_R0. unfold gd, g2. cbn [g_r]. two i; two j; try (exfalso; lia); cbn [Nat.eqb]; vunf; lra.
Qed.
Example gd_charges : smooth_charges true None 1 D2 (gd 1).
Proof.
  constructor.
  - exact one_cell_regular.
  - exact one_cell_regular.
  - discriminate.
  - intros J _. cbn. lra.
  - intros k cs E. exists (fun c => c).
    assert (Ec : cs = [origin_cell]) by (assert (O : scan k (g_ranges (gd 1)) = Some [origin_cell]) by (destruct k; reflexivity); rewrite O in E; congruence). subst cs.
    constructor.
    + apply Permutation.Permutation_refl.
    + repeat split.
    + reflexivity.
    + intros c p q. cbn [gd g2 g_rot]. rewrite !mv_eye. reflexivity.
    + intros c p. cbn [gd g2 g_rot]. rewrite !mv_eye. reflexivity.
    + intros c. cbn [gd g2 g_rot g_tr0]. rewrite mv_eye. apply v3_eq; vunf; ring.
Qed.
Lemma occ2_D a : exists l, derivable_pt_lim (fun s => occ2 (exp (- (1 + s))) 0 a) 0 l.
Proof.
  assert (K : forall sg : R, exists l, derivable_pt_lim (fun s => 2 / (exp (10 * (sg * exp (- (1 + s)))) + 1)) 0 l).
  { intros sg. assert (P : derivable_pt (fun s => 2 / (exp (10 * (sg * exp (- (1 + s)))) + 1)) 0); [|destruct P as [l P]; exists l; exact P].
    apply (derivable_pt_div (fun _ => 2) (fun s => exp (10 * (sg * exp (- (1 + s)))) + 1)).
    - apply derivable_pt_const.
    - reg.
    - pose proof (exp_pos (10 * (sg * exp (- (1 + 0))))). lra. }
  destruct (K (if (a =? 0)%nat then -1 else 1)) as [l Hl]. exists l.
  apply (derivable_local _ (fun s => 2 / (exp (10 * ((if (a =? 0)%nat then -1 else 1) * exp (- (1 + s)))) + 1)) 0 l 1); [lra| |exact Hl].
  intros s Hs. unfold occ2, fermi, levels, rlt. rewrite Rminus_0_r in Hs. apply Rabs_def2 in Hs. pose proof (exp_increasing (- (1 + s)) 0 ltac:(lra)) as X. rewrite exp_0 in X. pose proof (exp_pos (- (1 + s))) as Y. set (x := exp (- (1 + s))) in *.
  destruct (a =? 0)%nat.
  - replace ((-1 + - x - -1) / / 10) with (10 * (-1 * x)) by field. destruct (Rlt_dec _ _) as [_|N]; [reflexivity|]. exfalso. apply N. lra.
  - replace ((-1 + x - -1) / / 10) with (10 * (1 * x)) by field. destruct (Rlt_dec _ _) as [_|N]; [reflexivity|]. exfalso. apply N. lra.
Qed.
(** the calculations of the molecule are a smooth path *)
Example ex_path erfc scc tn tm ti ev w0 : 0 <= tn -> 0 <= tm -> 0 < ti -> exists X res,
  smooth_path z2 ev w0 200 middle tn tm ti 1 1 erfc true None 1 (/ 10) 0 scc D2 (gd 1) 1 0 (/ 2) X (fun _ _ => 0) (fun _ => bonding) res.
Proof.
  intros Htn Htm Hti.
  assert (RG : forall s, Rabs s < / 2 -> / 10 < 1 + s < 10) by (intros s Hs; apply Rabs_def2 in Hs; lra).
  destruct (gd_assembled erfc scc 1 ltac:(lra)) as (X1 & E1 & _). destruct (gd_calc erfc scc 1 X1 ltac:(lra) E1 z2 w0 ev tn tm ti (gd_reliable erfc scc 1 X1 E1 w0) Htn Htm Hti) as (p1 & r1 & _).
  set (X := fun s => match assemble erfc 1 1 true None 1 (/ 10) 0 scc D2 (gd (1 + s)) with Some Y => Y | None => X1 end).
  set (pp := fun s => pass z2 ev w0 tn (X s) (if scc then Some (h1_of (X s) (fun _ => 0)) else None)).
  set (res := fun s => match pp s with Some p => match finish 200 middle tm ti 1 1 scc (X s) p with Some r => r | None => r1 end | None => r1 end).
  assert (EX : forall s, Rabs s < / 2 -> assemble erfc 1 1 true None 1 (/ 10) 0 scc D2 (gd (1 + s)) = Some (X s)).
  { intros s Hs. pose proof (RG s Hs) as G. destruct (gd_assembled erfc scc (1 + s) ltac:(lra)) as (Y & EY & _). unfold X. rewrite EY. reflexivity. }
  assert (RX : forall s, Rabs s < / 2 -> exists p, pp s = Some p /\ finish 200 middle tm ti 1 1 scc (X s) p = Some (res s) /\
    (forall k a, (k < 1)%nat -> (a < 2)%nat -> r_e (res s) k a = levels (exp (- (1 + s))) k a /\ r_f (res s) k a = occ2 (exp (- (1 + s))) k a) /\ forall J, (J < 2)%nat -> r_dq (res s) J = 0).
  { intros s Hs. destruct (gd_calc erfc scc (1 + s) (X s) (RG s Hs) (EX s Hs) z2 w0 ev tn tm ti (gd_reliable erfc scc (1 + s) (X s) (EX s Hs) w0) Htn Htm Hti) as (p & r & Ep & Er & Q).
    fold (pp s) in Ep. exists p. unfold res. rewrite Ep, Er. split; [reflexivity|]. split; [reflexivity|exact Q]. }
  assert (Z0 : Rabs 0 < / 2) by (rewrite Rabs_R0; lra).
  exists X, res. constructor.
  - lra.
  - intros s Hs. rewrite displaced_gd. apply EX. exact Hs.
  - intros s Hs. exact (gd_reliable erfc scc (1 + s) (X s) (EX s Hs) w0).
  - intros s Hs. destruct (RX s Hs) as (p & Ep & Er & _). exists p. split; assumption.
  - intros s Hs. split; [exact (bonding_ortho erfc scc (1 + s) (X s) (EX s Hs))|]. intros k a Hk Ha. rewrite (gd_nk erfc scc (1 + s) (X s) (EX s Hs)) in Hk. rewrite (gd_norb erfc scc (1 + s) (X s) (EX s Hs)) in Ha. destruct (RX s Hs) as (p & _ & _ & Q & _). rewrite (proj1 (Q k a Hk Ha)).
    replace (if scc then h1_of (X s) (fun _ => 0) else fun _ _ => 0) with (fun _ _ : nat => 0); [apply (bonding_states erfc scc (1 + s) (X s) (RG s Hs) (EX s Hs) k a Ha)|].
    pose proof (gd_h1 erfc scc (1 + s) (X s) (RG s Hs) (EX s Hs)) as H. destruct scc; [symmetry; exact H|reflexivity].
  - intros k a i _ _ _. exists c0. split; apply derivable_pt_lim_const.
  - intros k a Hk Ha. rewrite (gd_nk erfc scc (1 + 0) (X 0) (EX 0 Z0)) in Hk. rewrite (gd_norb erfc scc (1 + 0) (X 0) (EX 0 Z0)) in Ha. assert (k = 0%nat) by lia. subst k. destruct (occ2_D a) as [l Hl]. exists l.
    apply (derivable_local _ (fun s => occ2 (exp (- (1 + s))) 0 a) 0 l (/ 2)); [lra| |exact Hl]. intros s Hs. rewrite Rminus_0_r in Hs. destruct (RX s Hs) as (p & _ & _ & Q & _). apply (Q 0%nat a); [lia|exact Ha].
  - intros s Hs. rewrite (gd_nk erfc scc (1 + 0) (X 0) (EX 0 Z0)), (gd_norb erfc scc (1 + 0) (X 0) (EX 0 Z0)), (gd_wk erfc scc (1 + 0) (X 0) (EX 0 Z0)).
    assert (F : forall t, Rabs t < / 2 -> filling 2 1 (fun _ => 1) (r_f (res t)) = 2).
    { intros t Htt. destruct (RX t Htt) as (p & _ & _ & Q & _). unfold filling. cbn [rsum]. rewrite (proj2 (Q 0%nat 0%nat ltac:(lia) ltac:(lia))), (proj2 (Q 0%nat 1%nat ltac:(lia) ltac:(lia))).
      pose proof (occ2_sum (exp (- (1 + t))) (x_range (1 + t) (RG t Htt))). lra. }
    rewrite !F by assumption. reflexivity.
  - intros k a Hk Ha. rewrite (gd_nk erfc scc (1 + 0) (X 0) (EX 0 Z0)) in Hk. rewrite (gd_norb erfc scc (1 + 0) (X 0) (EX 0 Z0)) in Ha. left. destruct (RX 0 Z0) as (p & _ & _ & Q & _). rewrite (proj2 (Q k a Hk Ha)).
    pose proof (x_range (1 + 0) (RG 0 Z0)) as [P1 P2]. set (x := exp (- (1 + 0))) in *. unfold occ2, fermi, rlt. destruct (Rlt_dec _ _) as [_|N].
    + apply Rgt_not_eq. apply Rdiv_lt_0_compat; [lra|]. pose proof (exp_pos ((levels x k a - -1) / / 10)). lra.
    + exfalso. apply N. unfold levels. replace ((-1 + (if (a =? 0)%nat then - x else x) - -1) / / 10) with (10 * (if (a =? 0)%nat then - x else x)) by field. destruct (a =? 0)%nat; lra.
  - intros _ J HJ. destruct (RX 0 Z0) as (p & _ & _ & _ & Q). apply Q. exact HJ.
  - intros _ J HJ. reflexivity.
Qed.

(** a chain of dimers with cutoff 7 *)
Example ex_direct erfc u q : is_erfc erfc -> exists l L, get_neighbours 2 dimer (lattice (V3 5 0 0) e2 e3) (fun _ => eye) (Some 7) along_x = Some l /\
  (forall t, get_neighbours 2 (moved dimer u t) (lattice (V3 5 0 0) e2 e3) (fun _ => eye) (Some 7) along_x = Some (L t)) /\
  regular 2 dimer (lattice (V3 5 0 0) e2 e3) (fun _ => eye) along_x (Some 7) /\
  (forall k cs, scan k along_x = Some cs -> exists inv, closed_images cs (lattice (V3 5 0 0) e2 e3) (fun _ => eye) inv) /\
  derivable_pt_lim (fun t => direct_energy erfc (Some 7) 2 (L t) q) 0 (- rsum 2 (fun i => rsum 3 (fun c => direct_force erfc (Some 7) l q c i * comp c (u i)))).
Proof.
  intros He. eexists. eexists (fun t => _). split; [reflexivity|]. split; [intros t; reflexivity|]. split; [exact dimer_chain_regular|]. split; [apply bravais_inv; exact chain_bravais|].
  refine (direct_forces erfc (Some 7) 2 (lattice (V3 5 0 0) e2 e3) (fun _ => eye) along_x _ He _ dimer u q _ _ dimer_chain_regular eq_refl (fun t => eq_refl)).
  - apply bravais_inv. exact chain_bravais.
  - intros c E. assert (c = 7) by congruence. lra.
Qed.
