(** The cutoff of the direct Coulomb sum. *)
From Coq Require Import Reals ZArith List Bool Arith Permutation Lra Lia.
From Verif Require Import SkModel InvModel InvProofs9 Vec GeomModel GeomProofs PairModel PairSpec PairProofs CoulModel CoulProofs GamModel GamSpec GamProofs GamProofs2 GamProofs3 GamProofs4 SkProofs6 FrcSpec FrcProofs FrcProofs2.
Import ListNotations.
Open Scope R_scope.

Lemma exp_neg_le y : 0 <= y -> exp (- y) <= 1 - y + y ^ 2 / 2.
Proof.
  intros Hy. assert (E : 1 - 0 + 0 ^ 2 / 2 - exp (- 0) <= 1 - y + y ^ 2 / 2 - exp (- y)).
  { apply (grow (fun t => 1 - t + t ^ 2 / 2 - exp (- t)) (fun t => - 1 + t + exp (- t)) 0 y Hy).
    - intros c _. apply (D_eq _ _ (0 - 1 + (2 * c) / 2 - exp (- c) * - 1)); [|field].
      apply (D_minus (fun t => 1 - t + t ^ 2 / 2) (fun t => exp (- t))).
      + apply (D_plus (fun t => 1 - t) (fun t => t ^ 2 / 2)).
        * apply (D_minus (fun _ => 1) (fun t => t)); [apply D_const|apply derivable_pt_lim_id].
        * apply (D_ext (fun t => / 2 * t ^ 2)); [intros; field|]. apply (D_eq _ _ (/ 2 * (INR 2 * c ^ pred 2))); [|cbn [INR pred]; field]. apply (derivable_pt_lim_scal (fun t => t ^ 2)). apply derivable_pt_lim_pow.
      + apply (D_exp (fun t => - t)). apply (D_ext (fun t => -1 * t)); [intros; ring|]. apply D_line.
    - intros c Hc. pose proof (exp_ineq1_le (- c)). lra. }
  rewrite Ropp_0, exp_0 in E. lra.
Qed.
Lemma sqrt_pi : 17 / 10 < sqrt PI.
Proof.
  apply Rsqr_incrst_0; [|lra|apply sqrt_pos]. rewrite Rsqr_sqrt by (left; apply PI_RGT_0). unfold Rsqr. pose proof PI2_3_2. lra.
Qed.
Lemma erfc_decreasing erfc x y : is_erfc erfc -> x <= y -> erfc y <= erfc x.
Proof.
  intros He H. assert (E : - erfc x <= - erfc y); [|lra]. apply (grow (fun t => - erfc t) (fun t => 2 / sqrt PI * exp (- t ^ 2)) x y H).
  - intros c _. apply (D_eq _ _ (- (- (2 / sqrt PI) * exp (- c ^ 2)))); [apply D_opp; apply (proj2 He)|ring].
  - intros c _. apply Rmult_le_pos; [|left; apply exp_pos]. left. apply Rdiv_lt_0_compat; [lra|]. pose proof sqrt_pi. lra.
Qed.
Lemma erfc_one erfc : is_erfc erfc -> 0 < erfc 1.
Proof.
  intros He. pose proof sqrt_pi as SP. set (k := 2 / sqrt PI).
  assert (Hk : 0 < k < 2 / (17 / 10)). { unfold k. split; [apply Rdiv_lt_0_compat; lra|]. unfold Rdiv. apply Rmult_lt_compat_l; [lra|]. apply Rinv_lt_contravar; [|exact SP]. nra. }
  assert (E : erfc 0 + k * (0 - 0 ^ 3 / 3 + 0 ^ 5 / 10) <= erfc 1 + k * (1 - 1 ^ 3 / 3 + 1 ^ 5 / 10)).
  { apply (grow (fun t => erfc t + k * (t - t ^ 3 / 3 + t ^ 5 / 10)) (fun t => - k * exp (- t ^ 2) + k * (1 - t ^ 2 + t ^ 4 / 2)) 0 1 ltac:(lra)).
    - intros c _. apply (D_plus erfc (fun t => k * (t - t ^ 3 / 3 + t ^ 5 / 10))); [apply (proj2 He)|]. apply (derivable_pt_lim_scal (fun t => t - t ^ 3 / 3 + t ^ 5 / 10) k).
      apply (D_eq _ _ (1 - / 3 * (INR 3 * c ^ pred 3) + / 10 * (INR 5 * c ^ pred 5))); [|cbn [INR pred]; field].
      apply (D_plus (fun t => t - t ^ 3 / 3) (fun t => t ^ 5 / 10)).
      + apply (D_minus (fun t => t) (fun t => t ^ 3 / 3)); [apply derivable_pt_lim_id|]. apply (D_ext (fun t => / 3 * t ^ 3)); [intros; field|]. apply (derivable_pt_lim_scal (fun t => t ^ 3)). apply derivable_pt_lim_pow.
      + apply (D_ext (fun t => / 10 * t ^ 5)); [intros; field|]. apply (derivable_pt_lim_scal (fun t => t ^ 5)). apply derivable_pt_lim_pow.
    - intros c _. pose proof (exp_neg_le (c ^ 2) (pow2_ge_0 c)) as X. replace (c ^ 4) with ((c ^ 2) ^ 2) by ring. nra. }
  rewrite (proj1 He) in E. nra.
Qed.
(** two unit charges at distance d *)
Lemma dimer_neighbours k d : exists l, get_neighbours 2 (dimer_at d) (fun _ => vzero) (fun _ => eye) (Some k) one_cell = Some l.
Proof. eexists. reflexivity. Qed.
Lemma dimer_phi erfc k d l : 0 < d -> get_neighbours 2 (dimer_at d) (fun _ => vzero) (fun _ => eye) (Some k) one_cell = Some l ->
  direct_phi erfc (Some k) l (fun _ => 1) 0 = if Rlt_dec d k then erfc (d / k) / d else 0.
Proof.
  intros Hd E. rewrite (direct_phi_gamma erfc (Some k) 2 (fun _ => vzero) (fun _ => eye) one_cell (dimer_at d) l _ _ E). cbn [rsum].
  destruct (direct_gamma_sum erfc (Some k) 2 (fun _ => vzero) (fun _ => eye) one_cell (dimer_at d) l 0 0 E) as (cs & Es & ->); [lia|lia|].
  destruct (direct_gamma_sum erfc (Some k) 2 (fun _ => vzero) (fun _ => eye) one_cell (dimer_at d) l 0 1 E) as (cs' & Es' & ->); [lia|lia|].
  assert (O : scan (Some k) one_cell = Some [origin_cell]) by reflexivity. rewrite O in Es, Es'. assert (cs = [origin_cell]) by congruence. assert (cs' = [origin_cell]) by congruence. subst cs cs'.
  cbn [GamSpec.lsum]. unfold interaction. cbn [zero_cell origin_cell t1 t2 t3 fst snd Z.eqb andb Nat.eqb].
  assert (V : vnorm (vsub (dimer_at d 0) (image_at (dimer_at d) (fun _ => vzero) (fun _ => eye) origin_cell 1)) = d).
  { unfold image_at, dimer_at, vnorm. match goal with |- sqrt ?x = _ => replace x with (d * d) by (vunf; cbn; ring) end. apply sqrt_square. lra. }
  rewrite V. destruct (Rlt_dec d k); ring.
Qed.
Lemma cutoff_refuted erfc k : is_erfc erfc -> 0 < k -> exists eps, 0 < eps /\
  forall d l, 0 < d -> get_neighbours 2 (dimer_at d) (fun _ => vzero) (fun _ => eye) (Some k) one_cell = Some l ->
  (d < k -> eps <= direct_phi erfc (Some k) l (fun _ => 1) 0) /\ (k <= d -> direct_phi erfc (Some k) l (fun _ => 1) 0 = 0).
Proof.
  intros He Hk. exists (erfc 1 / k). pose proof (erfc_one erfc He) as P. split; [apply Rdiv_lt_0_compat; assumption|]. intros d l Hd E. rewrite (dimer_phi erfc k d l Hd E). split; intros H.
  - destruct (Rlt_dec d k); [|lra]. assert (E1 : erfc 1 <= erfc (d / k)). { apply erfc_decreasing; [exact He|]. apply (Rmult_le_reg_r k); [exact Hk|]. unfold Rdiv. rewrite Rmult_assoc, Rinv_l by lra. lra. }
    unfold Rdiv. apply Rmult_le_compat; [lra|left; apply Rinv_0_lt_compat; exact Hk|exact E1|]. apply Rinv_le_contravar; lra.
  - destruct (Rlt_dec d k); [lra|reflexivity].
Qed.
