From Coq Require Import Reals List Bool Arith Lra Lia.
From Verif Require Import Vec GeomModel GeomProofs AtomModel AtomSpec AtomProofs AtomProofs2 AtomProofs3 SkProofs6 PairProofs.
Import ListNotations.
Open Scope R_scope.

Lemma Rpower_minus_1 y a : 0 < y -> Rpower y (a - 1) = Rpower y a / y.
Proof.
  intros Hy. unfold Rminus. rewrite Rpower_plus, Rpower_Ropp, Rpower_1 by exact Hy. reflexivity.
Qed.
Lemma D_Rpower f x f' a : 0 < f x -> derivable_pt_lim f x f' ->
  derivable_pt_lim (fun t => Rpower (f t) a) x (a * Rpower (f x) a / f x * f').
Proof.
  intros Hp D. replace (a * Rpower (f x) a / f x * f') with (a * Rpower (f x) (a - 1) * f').
  - apply (derivable_pt_lim_comp f (fun y => Rpower y a) x f'); [exact D|]. apply derivable_pt_lim_power. exact Hp.
  - rewrite Rpower_minus_1 by exact Hp. field. lra.
Qed.
Lemma D_ln f x f' : 0 < f x -> derivable_pt_lim f x f' -> derivable_pt_lim (fun t => ln (f t)) x (/ f x * f').
Proof. intros Hp D. apply (derivable_pt_lim_comp f ln x f'); [exact D|]. apply derivable_pt_lim_ln. exact Hp. Qed.
Lemma D_quot f g x f' g' : g x <> 0 -> derivable_pt_lim f x f' -> derivable_pt_lim g x g' ->
  derivable_pt_lim (fun t => f t / g t) x ((f' * g x - f x * g') / g x ^ 2).
Proof.
  intros Hg Df Dg. pose proof (derivable_pt_lim_div f g x f' g' Df Dg Hg) as D. eapply D_eq; [exact D|]. unfold Rsqr. field. exact Hg.
Qed.
Lemma D_id x : derivable_pt_lim (fun t => t) x 1.
Proof. apply derivable_pt_lim_id. Qed.
Lemma e_x_derivative n : 0 < n -> derivable_pt_lim (fun t => e_x t false) n (e_x n true).
Proof.
  intros Hn. unfold e_x. cbn [negb]. pose proof PI_RGT_0 as HP. assert (P : 0 < 3 * n / PI) by (apply Rdiv_lt_0_compat; lra).
  apply (D_eq _ _ (0 * Rpower (3 * n / PI) (1 / 3) + -3 / 4 * (1 / 3 * Rpower (3 * n / PI) (1 / 3) / (3 * n / PI) * (3 / PI)))).
  - apply (D_mult (fun _ => -3 / 4) (fun t => Rpower (3 * t / PI) (1 / 3))); [apply D_const|].
    apply (D_Rpower (fun t => 3 * t / PI) n (3 / PI) (1 / 3)); [exact P|].
    apply (D_eq _ _ (((0 * n + 3 * 1) * PI - 3 * n * 0) / PI ^ 2)); [|field; lra].
    apply (D_quot (fun t => 3 * t) (fun _ => PI)); [lra| |apply D_const]. apply (D_mult (fun _ => 3) (fun t => t)); [apply D_const|apply D_id].
  - replace (-2 / 3) with (1 / 3 - 1) by lra. rewrite Rpower_minus_1 by exact P. field. lra.
Qed.
Definition pw_s (n : R) : R := Rpower (3 / (4 * PI * n)) (1 / 6).
Lemma pw_s_pos n : 0 < pw_s n.
Proof. apply exp_pos. Qed.
Lemma pw_s_6 n : 0 < n -> pw_s n ^ 6 = 3 / (4 * PI * n).
Proof.
  intros Hn. pose proof PI_RGT_0. assert (P : 0 < 3 / (4 * PI * n)) by (apply Rdiv_lt_0_compat; [lra|nra]). unfold pw_s.
  rewrite <- (Rpower_pow 6) by apply exp_pos. rewrite Rpower_mult. replace (1 / 6 * INR 6) with 1 by (cbn [INR]; lra). apply Rpower_1. exact P.
Qed.
Lemma pw_s_derivative n : 0 < n -> derivable_pt_lim pw_s n (- pw_s n / (6 * n)).
Proof.
  intros Hn. pose proof PI_RGT_0. assert (P : 0 < 3 / (4 * PI * n)) by (apply Rdiv_lt_0_compat; [lra|nra]). unfold pw_s.
  apply (D_eq _ _ (1 / 6 * Rpower (3 / (4 * PI * n)) (1 / 6) / (3 / (4 * PI * n)) * (- 3 / (4 * PI * n ^ 2)))).
  2:{ field. lra. }
  apply (D_Rpower (fun t => 3 / (4 * PI * t)) n (- 3 / (4 * PI * n ^ 2)) (1 / 6)); [exact P|].
  apply (D_eq _ _ ((0 * (4 * PI * n) - 3 * (0 * n + 4 * PI * 1)) / (4 * PI * n) ^ 2)); [|field; lra].
  apply (D_quot (fun _ => 3) (fun t => 4 * PI * t)); [nra|apply D_const|].
  apply (D_mult (fun _ => 4 * PI) (fun t => t)); [apply D_const|apply D_id].
Qed.
Lemma pw_cube s : 0 < s -> Rpower (s * s) (3 / 2) = s ^ 3.
Proof.
  intros Hs. rewrite <- (Rpower_pow 3 s Hs). replace (s * s) with (s ^ 2) by ring. rewrite <- (Rpower_pow 2 s Hs), Rpower_mult.
  f_equal. cbn [INR]. lra.
Qed.
Definition pw_aux (s : R) : R := 2 * pw_c0 * (pw_b1 * s + pw_b2 * s ^ 2 + pw_b3 * s ^ 3 + pw_b4 * s ^ 4).
Definition pw_es (s : R) : R := - 2 * pw_c0 * (1 + pw_a1 * s ^ 2) * ln (1 + / pw_aux s).
Lemma pw_b1_pos : 0 < pw_b1.
Proof. unfold pw_b1, pw_c0. apply Rmult_lt_0_compat; [lra|apply exp_pos]. Qed.
Lemma pw_aux_pos s : 0 < s -> 0 < pw_aux s.
Proof.
  intros Hs. unfold pw_aux, pw_b2, pw_b3, pw_b4, pw_c0. pose proof pw_b1_pos as B. set (b := pw_b1) in *.
  assert (0 < s ^ 2) by nra. assert (0 < s ^ 3) by (replace (s ^ 3) with (s ^ 2 * s) by ring; nra). assert (0 < s ^ 4) by (replace (s ^ 4) with (s ^ 2 * s ^ 2) by ring; nra).
  assert (0 < b * s) by nra. assert (0 < b ^ 2) by nra. assert (0 < b ^ 2 * s ^ 2) by nra. lra.
Qed.
Lemma e_corr_es n : 0 < n -> e_corr n false = pw_es (pw_s n).
Proof.
  intros Hn. unfold e_corr, pw_es, pw_aux. cbn [negb]. fold (pw_s n). pose proof (pw_s_pos n) as P. rewrite pw_cube by exact P.
  set (s := pw_s n) in *. f_equal; [ring|]. f_equal. f_equal. unfold Rdiv. rewrite Rmult_1_l. f_equal. ring.
Qed.
Definition pw_des (s : R) : R :=
  - 2 * pw_c0 * (pw_a1 * (2 * s)) * ln (1 + / pw_aux s)
  + - 2 * pw_c0 * (1 + pw_a1 * s ^ 2) * (/ (1 + / pw_aux s) * (- (2 * pw_c0 * (pw_b1 + pw_b2 * (2 * s) + pw_b3 * (3 * s ^ 2) + pw_b4 * (4 * s ^ 3))) / pw_aux s ^ 2)).
Lemma D_pow n x : derivable_pt_lim (fun t => t ^ S n) x (INR (S n) * x ^ n).
Proof. apply (derivable_pt_lim_pow x (S n)). Qed.
Lemma D_scal c f x f' : derivable_pt_lim f x f' -> derivable_pt_lim (fun t => c * f t) x (c * f').
Proof. intros D. apply (derivable_pt_lim_scal f c x f' D). Qed.
Lemma pw_aux_derivative s : derivable_pt_lim pw_aux s (2 * pw_c0 * (pw_b1 + pw_b2 * (2 * s) + pw_b3 * (3 * s ^ 2) + pw_b4 * (4 * s ^ 3))).
Proof.
  unfold pw_aux. apply D_scal. apply (D_plus (fun s => pw_b1 * s + pw_b2 * s ^ 2 + pw_b3 * s ^ 3) (fun s => pw_b4 * s ^ 4)).
  2:{ apply D_scal. apply (D_eq _ _ (INR 4 * s ^ 3)); [apply (D_pow 3)|cbn [INR]; ring]. }
  apply (D_plus (fun s => pw_b1 * s + pw_b2 * s ^ 2) (fun s => pw_b3 * s ^ 3)).
  2:{ apply D_scal. apply (D_eq _ _ (INR 3 * s ^ 2)); [apply (D_pow 2)|cbn [INR]; ring]. }
  apply (D_plus (fun s => pw_b1 * s) (fun s => pw_b2 * s ^ 2)).
  2:{ apply D_scal. apply (D_eq _ _ (INR 2 * s ^ 1)); [apply (D_pow 1)|cbn [INR]; ring]. }
  apply (D_eq _ _ (pw_b1 * 1)); [apply D_scal, D_id|ring].
Qed.
Lemma pw_es_derivative s : 0 < s -> derivable_pt_lim pw_es s (pw_des s).
Proof.
  intros Hs. pose proof (pw_aux_pos s Hs) as A. pose proof (pw_aux_derivative s) as DA. set (a' := 2 * pw_c0 * _) in DA.
  assert (Q : 0 < 1 + / pw_aux s) by (pose proof (Rinv_0_lt_compat _ A); lra).
  unfold pw_es, pw_des. fold a'.
  apply (D_mult (fun s => - 2 * pw_c0 * (1 + pw_a1 * s ^ 2)) (fun s => ln (1 + / pw_aux s))).
  - apply D_scal. apply (D_eq _ _ (0 + pw_a1 * (INR 2 * s ^ 1))); [|cbn [INR]; ring].
    apply (D_plus (fun _ => 1) (fun s => pw_a1 * s ^ 2)); [apply D_const|]. apply D_scal. apply (D_pow 1).
  - apply (D_ln (fun s => 1 + / pw_aux s)); [exact Q|]. apply (D_eq _ _ (0 + - a' / pw_aux s ^ 2)); [|ring].
    apply (D_plus (fun _ => 1) (fun s => / pw_aux s)); [apply D_const|].
    apply (derivable_local _ (fun s => 1 / pw_aux s) s _ 1); [lra| |].
    + intros; unfold Rdiv; ring.
    + apply (D_eq _ _ ((0 * pw_aux s - 1 * a') / pw_aux s ^ 2)); [|field; lra]. apply (D_quot (fun _ => 1) pw_aux); [lra|apply D_const|exact DA].
Qed.
Lemma e_corr_derivative n : 0 < n -> derivable_pt_lim (fun t => e_corr t false) n (e_corr n true).
Proof.
  intros Hn. pose proof (pw_s_pos n) as Hs. pose proof (pw_s_6 n Hn) as S6. pose proof PI_RGT_0 as HP.
  apply (D_eq _ _ (pw_des (pw_s n) * (- pw_s n / (6 * n)))).
  - apply (derivable_local _ (fun t => pw_es (pw_s t)) n _ n); [exact Hn| |].
    + intros t Ht. apply e_corr_es. apply Rabs_def2 in Ht. lra.
    + apply (derivable_pt_lim_comp pw_s pw_es n); [apply pw_s_derivative; exact Hn|apply pw_es_derivative; exact Hs].
  - unfold e_corr. cbn [negb]. fold (pw_s n). rewrite pw_cube by exact Hs. set (s := pw_s n) in *.
    replace (2 * pw_c0 * (pw_b1 * s + pw_b2 * (s * s) + pw_b3 * s ^ 3 + pw_b4 * (s * s) ^ 2)) with (pw_aux s) by (unfold pw_aux; ring).
    assert (E : -1 / (2 * sqrt PI * n * (s * s) * (2 * sqrt PI * n * (s * s))) = - s ^ 2 / (3 * n)).
    { assert (Q : sqrt PI * sqrt PI = PI) by (apply sqrt_sqrt; lra).
      replace (2 * sqrt PI * n * (s * s) * (2 * sqrt PI * n * (s * s))) with (4 * (sqrt PI * sqrt PI) * n ^ 2 * s ^ 4) by ring. rewrite Q.
      assert (s <> 0) by lra.
      apply (Rmult_eq_reg_r (4 * PI * n ^ 2 * s ^ 4)). 
      2:{ assert (0 < s ^ 4) by (apply pow_lt; exact Hs). assert (0 < n ^ 2) by (apply pow_lt; exact Hn). assert (0 < 4 * PI * n ^ 2 * s ^ 4) by (apply Rmult_lt_0_compat; [apply Rmult_lt_0_compat; lra|assumption]). lra. }
      transitivity (- (1)); [field; repeat split; lra|]. transitivity (- (s ^ 6 * (4 * PI * n) / 3)); [rewrite S6; field; lra|]. field. lra. }
    cbv zeta. rewrite E. unfold pw_des. pose proof (pw_aux_pos s Hs) as A. set (a := pw_aux s) in *. 
    replace (1 / a) with (/ a) by (unfold Rdiv; ring). set (L := ln (1 + / a)).
    assert (Q : 0 < 1 + / a) by (pose proof (Rinv_0_lt_compat _ A); lra). field. split; [|split]; [|lra|lra]. 
    intro Z. assert (1 + / a = (a + 1) / a) by (field; lra). lra.
Qed.
