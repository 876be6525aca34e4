From Coq Require Import Reals List Bool Arith Lia Lra FunctionalExtensionality.
From Coquelicot Require Import Coquelicot.
From Verif Require Import Vec GeomModel GeomSpec GeomProofs GamSpec NetProofs GndProofs10.
Open Scope R_scope.

Lemma psd_one n : psd n (fun _ _ => 1).
Proof.
  intros q. replace (rsum n (fun i => rsum n (fun j => q i * 1 * q j))) with (rsum n q * rsum n q); [nra|].
  rewrite <- rsum_scal_r. apply rsum_ext. intros i _. rewrite <- rsum_scal. apply rsum_ext. intros; ring.
Qed.
Lemma psd_scaled n k c : psd n k -> psd n (fun i j => c i * k i j * c j).
Proof. intros H q. specialize (H (fun i => q i * c i)). erewrite rsum_ext; [exact H|]. intros i _. apply rsum_ext. intros; cbv beta; ring. Qed.
Lemma psd_ext n k k' : (forall i j, (i < n)%nat -> (j < n)%nat -> k' i j = k i j) -> psd n k -> psd n k'.
Proof. intros E H q. erewrite rsum_ext; [exact (H q)|]. intros i Hi. apply rsum_ext. intros j Hj. rewrite E by assumption. reflexivity. Qed.
Section Kernel.
Context (erfc : R -> R) (He : is_erfc erfc) (n : nat) (a : nat -> R) (r : nat -> v3) (Ha : forall i, (i < n)%nat -> 0 < a i).
Let dd i j := vnorm (vsub (r i) (r j)).
Let D i j t := 1 + t ^ 2 * (a i + a j).
Lemma D_pos i j t : (i < n)%nat -> (j < n)%nat -> 0 < D i j t.
Proof. intros Hi Hj. unfold D. pose proof (Ha i Hi). pose proof (Ha j Hj). pose proof (pow2_ge_0 t). nra. Qed.
Lemma cube b c d : 0 < b -> 0 < c -> 0 < d -> d = b + c -> / sqrt b ^ 3 * (/ sqrt (/ b + / c)) ^ 3 * / sqrt c ^ 3 = / sqrt d ^ 3.
Proof.
  intros Hb Hc Hd E. assert (S : sqrt (/ b + / c) = sqrt d / (sqrt b * sqrt c)).
  { replace (/ b + / c) with (d / (b * c)) by (rewrite E; field; lra). rewrite sqrt_div_alt by nra. rewrite sqrt_mult by lra. reflexivity. }
  rewrite S. pose proof (sqrt_lt_R0 b Hb). pose proof (sqrt_lt_R0 c Hc). pose proof (sqrt_lt_R0 d Hd). field. lra.
Qed.
Lemma spread t : psd n (fun i j => / sqrt (D i j t) ^ 3 * exp (- (t ^ 2 * dd i j ^ 2) / D i j t)).
Proof.
  set (b := fun i => / 2 + a i * t ^ 2).
  assert (Hb : forall i, (i < n)%nat -> 0 < b i) by (intros i Hi; unfold b; pose proof (Ha i Hi); pose proof (pow2_ge_0 t); nra).
  pose proof (psd_gauss erfc He n _ b (fun i => t * vx (r i)) Hb (psd_gauss erfc He n _ b (fun i => t * vy (r i)) Hb (psd_gauss erfc He n _ b (fun i => t * vz (r i)) Hb (psd_one n)))) as P.
  apply (psd_scaled n _ (fun i => / sqrt (b i) ^ 3)) in P. refine (psd_ext n _ _ _ P). intros i j Hi Hj. cbv beta.
  pose proof (Hb i Hi) as Hi'. pose proof (Hb j Hj) as Hj'. assert (ED : D i j t = b i + b j) by (unfold D, b; field). pose proof (D_pos i j t Hi Hj) as HD.
  rewrite <- (cube (b i) (b j) (D i j t) Hi' Hj' HD ED). rewrite ED.
  assert (EX : - (t ^ 2 * dd i j ^ 2) / (b i + b j) = - (t * vz (r i) - t * vz (r j)) ^ 2 / (b i + b j) + (- (t * vy (r i) - t * vy (r j)) ^ 2 / (b i + b j) + - (t * vx (r i) - t * vx (r j)) ^ 2 / (b i + b j))).
  { unfold dd. replace (vnorm (vsub (r i) (r j)) ^ 2) with (vdot (vsub (r i) (r j)) (vsub (r i) (r j))).
    - vunf. field. lra.
    - rewrite <- vnorm_sq. ring. }
  rewrite EX, !exp_plus. ring.
Qed.
(** the potential of two Gaussians *)
Definition reach (s t : R) : R := t / sqrt (1 + t ^ 2 * s).
Lemma reach_D s t : 0 < s -> derivable_pt_lim (reach s) t (/ sqrt (1 + t ^ 2 * s) ^ 3).
Proof.
  intros Hs. assert (P : 0 < 1 + t ^ 2 * s) by (pose proof (pow2_ge_0 t); nra). pose proof (sqrt_lt_R0 _ P) as Q. apply is_derive_Reals. unfold reach.
  auto_derive; replace (t * (t * 1)) with (t ^ 2) by ring; [split; [exact P|split; [lra|exact I]]|].
  assert (E : sqrt (1 + t ^ 2 * s) * sqrt (1 + t ^ 2 * s) = 1 + t ^ 2 * s) by (apply sqrt_sqrt; lra). set (y := sqrt (1 + t ^ 2 * s)) in *.
  apply (Rmult_eq_reg_r (y ^ 3)); [|apply pow_nonzero; lra]. field_simplify; [|lra|lra]. nra.
Qed.
Lemma reach_limit s : 0 < s -> tends (reach s) (/ sqrt s).
Proof.
  intros Hs. pose proof (sqrt_lt_R0 s Hs) as Q. intros e Hpos. exists (1 + / (e * s * sqrt s)). assert (P0 : 0 < / (e * s * sqrt s)) by (apply Rinv_0_lt_compat; repeat apply Rmult_lt_0_compat; lra). split; [lra|].
  intros u Hu. unfold reach. assert (P : 0 < 1 + u ^ 2 * s) by (pose proof (pow2_ge_0 u); nra). pose proof (sqrt_lt_R0 _ P) as Qu.
  assert (E : sqrt (1 + u ^ 2 * s) * sqrt (1 + u ^ 2 * s) = 1 + u ^ 2 * s) by (apply sqrt_sqrt; lra). assert (Es : sqrt s * sqrt s = s) by (apply sqrt_sqrt; lra).
  set (y := sqrt (1 + u ^ 2 * s)) in *. set (w := sqrt s) in *. assert (Uw : 0 < u * w) by (apply Rmult_lt_0_compat; lra).
  assert (u * w < y). { apply Rnot_le_lt. intros C. assert (C2 : y * y <= (u * w) * (u * w)) by (apply Rmult_le_compat; lra). replace (u * w * (u * w)) with (u ^ 2 * (w * w)) in C2 by ring. rewrite E, Es in C2. lra. }
  rewrite Rabs_left1; [|apply Rmult_le_reg_r with (r := y * w); [nra|]; replace ((u / y - / w) * (y * w)) with (u * w - y) by (field; lra); lra].
  assert (K : - (u / y - / w) = / (w * y * (u * w + y))). { replace (- (u / y - / w)) with ((y - u * w) / (w * y)) by (field; lra). assert (WY : 0 < w * y * (u * w + y)) by (repeat apply Rmult_lt_0_compat; lra). apply (Rmult_eq_reg_r (w * y * (u * w + y))); [|lra]. rewrite Rinv_l by lra. replace ((y - u * w) / (w * y) * (w * y * (u * w + y))) with (y * y - u * u * (w * w)) by (field; lra). rewrite Es, E. ring. }
  rewrite K. apply Rlt_le_trans with (/ (/ (e * s * w)  * (s * w))).
  - apply Rinv_lt_contravar; [|].
    + apply Rmult_lt_0_compat; [apply Rmult_lt_0_compat; [exact P0|nra]|]. repeat apply Rmult_lt_0_compat; lra.
    + assert (Hu1 : 1 <= u) by lra. assert (A1 : / (e * s * w) < u) by lra. apply Rlt_le_trans with (u * (s * w)); [apply Rmult_lt_compat_r; [nra|exact A1]|].
      replace (u * (s * w)) with (w * (u * w) * w) by (rewrite <- Es; ring). assert (w * (u * w) * w <= w * y * (u * w)). { replace (w * y * (u * w)) with (w * (u * w) * y) by ring. apply Rmult_le_compat_l; [nra|]. nra. } nra.
  - right. field. lra.
Qed.
Let phi i j t := if Req_EM_T (dd i j) 0 then reach (a i + a j) t else (prim erfc (dd i j * reach (a i + a j) t) - prim erfc 0) / dd i j.
Lemma phi_D i j t : (i < n)%nat -> (j < n)%nat -> derivable_pt_lim (phi i j) t (/ sqrt (D i j t) ^ 3 * exp (- (t ^ 2 * dd i j ^ 2) / D i j t)).
Proof.
  intros Hi Hj. pose proof (Ha i Hi). pose proof (Ha j Hj). assert (Hs : 0 < a i + a j) by lra. pose proof (D_pos i j t Hi Hj) as HD. unfold phi. destruct (Req_EM_T (dd i j) 0) as [E|E].
  - rewrite E. replace (- (t ^ 2 * 0 ^ 2) / D i j t) with 0 by (field; lra). rewrite exp_0, Rmult_1_r. apply reach_D. exact Hs.
  - assert (EX : - (t ^ 2 * dd i j ^ 2) / D i j t = - (dd i j * reach (a i + a j) t) ^ 2).
    { unfold reach. fold (D i j t). pose proof (sqrt_lt_R0 _ HD). assert (EE : sqrt (D i j t) * sqrt (D i j t) = D i j t) by (apply sqrt_sqrt; lra). rewrite <- EE at 1. field. lra. }
    rewrite EX. set (p := fun t => dd i j * reach (a i + a j) t).
    assert (DP : derivable_pt_lim p t (dd i j * / sqrt (D i j t) ^ 3)) by (apply (derivable_pt_lim_scal (reach (a i + a j))); apply reach_D; exact Hs).
    pose proof (derivable_pt_lim_comp p (prim erfc) t _ _ DP (prim_D erfc He (p t))) as DC.
    pose proof (derivable_pt_lim_minus _ (fun _ => prim erfc 0) t _ 0 DC (derivable_pt_lim_const _ t)) as DM. pose proof (derivable_pt_lim_scal _ (/ dd i j) t _ DM) as DS.
    replace (/ sqrt (D i j t) ^ 3 * exp (- (dd i j * reach (a i + a j) t) ^ 2)) with (/ dd i j * (exp (- p t ^ 2) * (dd i j * / sqrt (D i j t) ^ 3) - 0)) by (unfold p; field; split; [pose proof (sqrt_lt_R0 _ HD); lra|exact E]).
    replace (fun t0 => (prim erfc (dd i j * reach (a i + a j) t0) - prim erfc 0) / dd i j) with (mult_real_fct (/ dd i j) (comp (prim erfc) p - (fun _ => prim erfc 0))%F); [exact DS|].
    apply functional_extensionality. intros x. unfold mult_real_fct, minus_fct, comp, p. unfold Rdiv. ring.
Qed.
(** erf(d/sqrt s)/d, with its limit for d = 0 *)
Definition gauss_potential (s d : R) : R := if Req_EM_T d 0 then / sqrt s else (prim erfc (d * / sqrt s) - prim erfc 0) / d.
Lemma positive_kernel : psd n (fun i j => gauss_potential (a i + a j) (dd i j)).
Proof.
  intros q. set (P := fun t => rsum n (fun i => rsum n (fun j => q i * q j * phi i j t))).
  assert (P0 : P 0 = 0).
  { unfold P. rewrite (rsum_ext n _ (fun _ => 0)); [apply rsum_zero|]. intros i Hi. rewrite (rsum_ext n _ (fun _ => 0)); [apply rsum_zero|]. intros j Hj. unfold phi, reach. replace (0 / _) with 0 by (unfold Rdiv; ring).
    rewrite Rmult_0_r. destruct (Req_EM_T _ 0); [ring|]. unfold Rdiv. ring. }
  assert (PN : forall t, 0 <= t -> 0 <= P t).
  { intros t Ht. rewrite <- P0. apply (grows P (fun t => rsum n (fun i => rsum n (fun j => q i * (/ sqrt (D i j t) ^ 3 * exp (- (t ^ 2 * dd i j ^ 2) / D i j t)) * q j)))); [exact Ht| |intros x; apply spread].
    intros x _. unfold P. apply (lim_rsum n (fun i t => rsum n (fun j => q i * q j * phi i j t))). intros i Hi. apply (lim_rsum n (fun j t => q i * q j * phi i j t)). intros j Hj.
    replace (q i * (/ sqrt (D i j x) ^ 3 * exp (- (x ^ 2 * dd i j ^ 2) / D i j x)) * q j) with (q i * q j * (/ sqrt (D i j x) ^ 3 * exp (- (x ^ 2 * dd i j ^ 2) / D i j x))) by ring.
    apply (derivable_pt_lim_scal (phi i j)). apply phi_D; assumption. }
  apply (tends_nonneg P); [exact PN|]. unfold P. apply (tends_rsum n (fun i t => rsum n (fun j => q i * q j * phi i j t))). intros i Hi. apply (tends_rsum n (fun j t => q i * q j * phi i j t)). intros j Hj.
  replace (q i * gauss_potential (a i + a j) (dd i j) * q j) with (q i * q j * gauss_potential (a i + a j) (dd i j)) by ring. apply tends_scal.
  pose proof (Ha i Hi). pose proof (Ha j Hj). assert (Hs : 0 < a i + a j) by lra. pose proof (reach_limit _ Hs) as RL. unfold phi, gauss_potential. destruct (Req_EM_T (dd i j) 0) as [E|E]; [exact RL|].
  apply (tends_ext (fun t => / dd i j * (prim erfc (dd i j * reach (a i + a j) t) + - prim erfc 0))); [intros; unfold Rdiv; ring|].
  replace ((prim erfc (dd i j * / sqrt (a i + a j)) - prim erfc 0) / dd i j) with (/ dd i j * (prim erfc (dd i j * / sqrt (a i + a j)) + - prim erfc 0)) by (unfold Rdiv; ring).
  apply tends_scal. apply (tends_plus (fun t => prim erfc (dd i j * reach (a i + a j) t)) (fun _ => - prim erfc 0)); [|apply tends_const].
  apply (tends_comp (prim erfc) (fun t => dd i j * reach (a i + a j) t)); [apply tends_scal; exact RL|]. apply derivable_continuous_pt. exists (exp (- (dd i j * / sqrt (a i + a j)) ^ 2)). apply prim_D. exact He.
Qed.
End Kernel.
