(** The Gaussian integral *)
From Coq Require Import Reals Lra Lia Psatz.
From Coquelicot Require Import Coquelicot.
Open Scope R_scope.

Definition gs (t : R) : R := exp (- t ^ 2).
Definition F (x : R) : R := RInt gs 0 x.
Definition k2 (x t : R) : R := exp (- (x ^ 2 * (1 + t ^ 2))) / (1 + t ^ 2).
Definition G (x : R) : R := RInt (k2 x) 0 1.
Lemma one_sq t : 0 < 1 + t ^ 2. Proof. pose proof (pow2_ge_0 t). lra. Qed.
Lemma gs_cont x : continuous gs x.
Proof. apply (ex_derive_continuous gs). unfold gs. auto_derive. trivial. Qed.
Lemma gs_int a b : ex_RInt gs a b.
Proof. apply (@ex_RInt_continuous R_CompleteNormedModule). intros z _. apply gs_cont. Qed.
Lemma F_D (x : R) : is_derive F x (gs x).
Proof.
  apply (is_derive_RInt gs F 0 x); [|apply gs_cont].
  exists (mkposreal 1 Rlt_0_1). intros y _. apply (@RInt_correct R_CompleteNormedModule gs 0 y). apply gs_int.
Qed.
Lemma k2_cont x t : continuous (k2 x) t.
Proof. apply (ex_derive_continuous (k2 x)). unfold k2. auto_derive. pose proof (one_sq t). lra. Qed.
Lemma k2_int x a b : ex_RInt (k2 x) a b.
Proof. apply (@ex_RInt_continuous R_CompleteNormedModule). intros z _. apply k2_cont. Qed.
Definition k2' (x t : R) : R := - (2 * x) * exp (- (x ^ 2 * (1 + t ^ 2))).
Lemma k2_D (x t : R) : is_derive (fun u => k2 u t) x (k2' x t).
Proof. unfold k2, k2'. pose proof (one_sq t). auto_derive; [lra|].
  replace (x * (x * 1) * (1 + t * (t * 1))) with (x ^ 2 * (1 + t ^ 2)) by ring. replace (1 + t * (t * 1)) with (1 + t ^ 2) by ring. generalize (exp (- (x ^ 2 * (1 + t ^ 2)))). intros y. field. lra. Qed.
Lemma k2'_cont2 x t : continuity_2d_pt k2' x t.
Proof.
  unfold k2'. apply continuity_2d_pt_mult.
  - apply (continuity_1d_2d_pt_comp (fun u => - (2 * u)) (fun u v => u)); [|apply continuity_2d_pt_id1].
    apply derivable_continuous_pt. exists (- (2 * 1)). apply is_derive_Reals. auto_derive; [trivial|ring].
  - apply (continuity_1d_2d_pt_comp (fun w => exp (- w)) (fun u v => u ^ 2 * (1 + v ^ 2))).
    + apply derivable_continuous_pt. exists (- exp (- (x ^ 2 * (1 + t ^ 2)))). apply is_derive_Reals. auto_derive; [trivial|ring].
    + apply continuity_2d_pt_mult.
      * apply (continuity_1d_2d_pt_comp (fun u => u ^ 2) (fun u v => u)); [|apply continuity_2d_pt_id1].
        apply derivable_continuous_pt. exists (2 * x). apply is_derive_Reals. auto_derive; [trivial|ring].
      * apply (continuity_1d_2d_pt_comp (fun u => 1 + u ^ 2) (fun u v => v)); [|apply continuity_2d_pt_id2].
        apply derivable_continuous_pt. exists (2 * t). apply is_derive_Reals. auto_derive; [trivial|ring].
Qed.
Lemma k2_Derive x t : Derive (fun u => k2 u t) x = k2' x t.
Proof. apply is_derive_unique, k2_D. Qed.
Lemma G_D0 (x : R) : is_derive G x (RInt (fun t => k2' x t) 0 1).
Proof.
  assert (E : RInt (fun t => k2' x t) 0 1 = RInt (fun t => Derive (fun u => k2 u t) x) 0 1).
  { apply RInt_ext. intros t _. symmetry. apply k2_Derive. }
  rewrite E. apply (is_derive_RInt_param k2 0 1 x).
  - exists (mkposreal 1 Rlt_0_1). intros y _ t _. exists (k2' y t). apply k2_D.
  - intros t _. apply (continuity_2d_pt_ext k2'); [intros u v; symmetry; apply k2_Derive|apply k2'_cont2].
  - exists (mkposreal 1 Rlt_0_1). intros y _. apply k2_int.
Qed.
Lemma G_D (x : R) : is_derive G x (- (2 * gs x * F x)).
Proof.
  assert (E : RInt (fun t => k2' x t) 0 1 = - (2 * gs x * F x)).
  { apply is_RInt_unique.
    assert (I1 : is_RInt gs (x * 0 + 0) (x * 1 + 0) (F x)).
    { rewrite Rmult_0_r, Rplus_0_r, Rmult_1_r, Rplus_0_r. apply (@RInt_correct R_CompleteNormedModule gs 0 x), gs_int. }
    pose proof (@is_RInt_scal R_NormedModule _ 0 1 (- 2 * gs x) _ (@is_RInt_comp_lin R_NormedModule gs x 0 0 1 _ I1)) as I2.
    replace (- (2 * gs x * F x)) with (@scal R_AbsRing R_NormedModule (- 2 * gs x) (F x)) by (unfold scal; cbn; unfold mult; cbn; ring).
    refine (@is_RInt_ext R_NormedModule _ _ 0 1 _ _ I2). intros t _. cbv beta. unfold k2', gs, scal. cbn. unfold mult. cbn.
    replace (exp (- (x * (x * 1) * (1 + t * (t * 1))))) with (exp (- (x * (x * 1))) * exp (- ((x * t + 0) * ((x * t + 0) * 1)))); [ring|].
    rewrite <- exp_plus. f_equal. ring. }
  rewrite <- E. apply G_D0.
Qed.
Lemma FG_const x : F x ^ 2 + G x = PI / 4.
Proof.
  assert (D : forall t, is_derive (fun t => F t ^ 2 + G t) t 0).
  { intros t. replace 0 with (plus (INR 2 * gs t * F t ^ 1) (- (2 * gs t * F t))) by (unfold plus; cbn; ring).
    apply (is_derive_plus (fun t => F t ^ 2) G); [|apply G_D]. apply (is_derive_pow F 2). apply F_D. }
  assert (E : forall t, F t ^ 2 + G t = F 0 ^ 2 + G 0).
  { intros t. destruct (Req_dec t 0) as [->|ht]; [reflexivity|].
    destruct (MVT_gen (fun t => F t ^ 2 + G t) 0 t (fun _ => 0)) as [c [_ hc]].
    - intros y _. apply D.
    - intros y _. apply derivable_continuous_pt. exists 0. apply is_derive_Reals, D.
    - cbv beta in hc. lra. }
  rewrite E. unfold F. rewrite RInt_point. change zero with 0.
  assert (A : G 0 = PI / 4).
  { unfold G. rewrite <- atan_1. replace (atan 1) with (minus (atan 1) (atan 0)) by (rewrite atan_0; unfold minus, plus, opp; cbn; ring).
    apply is_RInt_unique. apply (@is_RInt_ext R_NormedModule (fun t => / (1 + t ^ 2))).
    - intros t _. unfold k2. replace (- (0 ^ 2 * (1 + t ^ 2))) with 0 by ring. rewrite exp_0. match goal with |- ?a = ?b => change (@eq R a b) end. unfold Rdiv. rewrite Rmult_1_l. reflexivity.
    - apply (is_RInt_derive atan).
      + intros t _. apply is_derive_Reals. apply derivable_pt_lim_atan.
      + intros t _. apply (ex_derive_continuous (fun t => / (1 + t ^ 2))). auto_derive. pose proof (one_sq t). lra. }
  rewrite A. ring.
Qed.
Lemma G_bounds x : 0 <= G x <= exp (- x ^ 2).
Proof.
  split.
  - apply RInt_ge_0; [lra|apply k2_int|]. intros t _. unfold k2. apply Rlt_le, Rmult_lt_0_compat; [apply exp_pos|apply Rinv_0_lt_compat, one_sq].
  - replace (exp (- x ^ 2)) with (RInt (fun _ => exp (- x ^ 2)) 0 1) by (rewrite RInt_const; unfold scal; cbn; unfold mult; cbn; ring).
    apply RInt_le; [lra|apply k2_int|apply (@ex_RInt_const R_CompleteNormedModule)|]. intros t _. unfold k2. pose proof (one_sq t). pose proof (pow2_ge_0 t). pose proof (pow2_ge_0 x).
    apply Rle_trans with (exp (- (x ^ 2 * (1 + t ^ 2))) * 1).
    + apply Rmult_le_compat_l; [apply Rlt_le, exp_pos|]. rewrite <- Rinv_1. apply Rinv_le_contravar; lra.
    + rewrite Rmult_1_r. destruct (Rle_lt_or_eq_dec (- (x ^ 2 * (1 + t ^ 2))) (- x ^ 2)) as [h|h]; [nra| |rewrite h; lra]. apply Rlt_le, exp_increasing, h.
Qed.
Lemma F_nonneg x : 0 <= x -> 0 <= F x.
Proof. intros h. apply RInt_ge_0; [exact h|apply gs_int|]. intros t _. apply Rlt_le, exp_pos. Qed.
Lemma F_odd (x : R) : F (- x) = - F x.
Proof.
  apply is_RInt_unique.
  assert (I1 : is_RInt gs (-1 * 0 + 0) (-1 * - x + 0) (F x)).
  { replace (-1 * 0 + 0) with 0 by ring. replace (-1 * - x + 0) with x by ring. apply (@RInt_correct R_CompleteNormedModule gs 0 x), gs_int. }
  pose proof (@is_RInt_scal R_NormedModule _ 0 (- x) (-1) _ (@is_RInt_comp_lin R_NormedModule gs (-1) 0 0 (- x) _ I1)) as I2.
  replace (- F x) with (@scal R_AbsRing R_NormedModule (-1) (F x)) by (unfold scal; cbn; unfold mult; cbn; ring).
  refine (@is_RInt_ext R_NormedModule _ _ 0 (- x) _ _ I2). intros t _. cbv beta. unfold gs, scal. cbn. unfold mult. cbn.
  replace (- ((-1 * t + 0) * ((-1 * t + 0) * 1))) with (- (t * (t * 1))) by ring. ring.
Qed.
(** F tends to sqrt PI / 2 *)
Lemma F_limit eps : 0 < eps -> exists M, forall x, M < x -> Rabs (F x - sqrt PI / 2) < eps.
Proof.
  intros he. set (c := sqrt PI / 2). assert (hp : 0 < PI) by apply PI_RGT_0. assert (hc : 0 < c) by (unfold c; pose proof (sqrt_lt_R0 PI hp); lra).
  assert (hc2 : c ^ 2 = PI / 4). { unfold c. replace ((sqrt PI / 2) ^ 2) with (sqrt PI * sqrt PI / 4) by field. rewrite sqrt_sqrt by lra. reflexivity. }
  exists (1 + / (eps * c)). intros x hx.
  assert (h0 : 0 < / (eps * c)) by (apply Rinv_0_lt_compat, Rmult_lt_0_compat; assumption).
  pose proof (FG_const x) as E. pose proof (G_bounds x) as [g1 g2]. pose proof (F_nonneg x ltac:(lra)) as hF.
  assert (hexp : exp (- x ^ 2) < eps * c).
  { rewrite exp_Ropp. rewrite <- (Rinv_inv (eps * c)). apply Rinv_lt_contravar.
    - apply Rmult_lt_0_compat; [exact h0|apply exp_pos].
    - apply Rlt_trans with x; [lra|]. apply Rlt_trans with (1 + x ^ 2); [nra|]. apply exp_ineq1. nra. }
  assert (hd : (c - F x) * (c + F x) = G x) by nra.
  assert (hle : F x <= c). { destruct (Rle_lt_dec (F x) c) as [h|h]; [exact h|]. nra. }
  rewrite Rabs_left1 by lra. nra.
Qed.
