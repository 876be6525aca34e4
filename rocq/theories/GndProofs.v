From Coq Require Import Reals ZArith String List Bool Arith Lia Lra.
From Verif Require Import Vec GeomModel GeomProofs UtilModel CoulModel MixModel OccModel PairModel PairSpec SkModel SkSpec Cpx RhoModel RhoSpec RhoProofs RhoProofs2 EigModel EigSpec InvModel InvSpec InvLin GndSpec.
Import ListNotations.
Open Scope R_scope.

(** ** one level: the occupation minimises the energy less the entropy *)
Definition hh (y : R) : R := y * ln y + (1 - y) * ln (1 - y).
Lemma ln_below t : 0 < t -> ln t <= t - 1.
Proof. intros H. pose proof (exp_ineq1_le (ln t)) as E. rewrite exp_ln in E by exact H. lra. Qed.
Lemma gibbs y p : 0 <= y -> 0 < p -> y * ln p - y * ln y <= p - y.
Proof.
  intros Hy Hp. destruct (Req_EM_T y 0) as [->|N]; [lra|]. assert (0 < y) by lra.
  pose proof (ln_below (p / y) (Rdiv_lt_0_compat _ _ Hp H)) as E. unfold Rdiv in E. rewrite ln_mult, ln_Rinv in E by (try apply Rinv_0_lt_compat; assumption).
  assert (F : y * (ln p + - ln y) <= y * (p * / y - 1)) by (apply Rmult_le_compat_l; lra). replace (y * (p * / y - 1)) with (p - y) in F by (field; lra). lra.
Qed.
Lemma cross y p : 0 <= y <= 1 -> 0 < p < 1 -> y * ln p + (1 - y) * ln (1 - p) <= hh y.
Proof. intros Hy Hp. unfold hh. pose proof (gibbs y p ltac:(lra) ltac:(lra)). pose proof (gibbs (1 - y) (1 - p) ltac:(lra) ltac:(lra)). lra. Qed.
Lemma level_min x y : 0 <= y <= 1 -> let p := / (exp x + 1) in x * p + hh p <= x * y + hh y.
Proof.
  intros Hy p. pose proof (exp_pos x) as Ex. assert (Hp : 0 < p < 1). { unfold p. split; [apply Rinv_0_lt_compat; lra|]. rewrite <- Rinv_1. apply Rinv_lt_contravar; lra. }
  assert (E1 : ln p = - ln (exp x + 1)) by (unfold p; apply ln_Rinv; lra).
  assert (E2 : ln (1 - p) = x - ln (exp x + 1)). { replace (1 - p) with (exp x * / (exp x + 1)) by (unfold p; field; lra). rewrite ln_mult, ln_exp, ln_Rinv by (try apply Rinv_0_lt_compat; lra). ring. }
  pose proof (cross y p Hy Hp) as C. unfold hh at 1. rewrite E1, E2 in *. nra.
Qed.
Lemma hh_below x y : 0 <= y <= 1 -> - exp (- x) <= x * y + hh y.
Proof.
  intros Hy. pose proof (level_min x y Hy) as L. cbv zeta in L. set (p := / (exp x + 1)) in *. pose proof (exp_pos x) as Ex.
  assert (E1 : ln p = - ln (exp x + 1)) by (unfold p; apply ln_Rinv; lra).
  assert (E2 : ln (1 - p) = x - ln (exp x + 1)). { replace (1 - p) with (exp x * / (exp x + 1)) by (unfold p; field; lra). rewrite ln_mult, ln_exp, ln_Rinv by (try apply Rinv_0_lt_compat; lra). ring. }
  unfold hh at 1 in L. rewrite E1, E2 in L.
  assert (B : ln (exp x + 1) - x <= exp (- x)).
  { replace (ln (exp x + 1) - x) with (ln (1 + exp (- x))). { pose proof (exp_pos (- x)). pose proof (ln_below (1 + exp (- x)) ltac:(lra)). lra. }
    replace (1 + exp (- x)) with ((exp x + 1) * / exp x) by (rewrite exp_Ropp; field; lra). rewrite ln_mult, ln_Rinv, ln_exp by (try apply Rinv_0_lt_compat; lra). ring. }
  lra.
Qed.
Lemma hh_zero : hh 0 = 0.
Proof. unfold hh. rewrite Rminus_0_r, ln_1. ring. Qed.
Definition lost (MAXE T f : R) : R := if Req_EM_T f 0 then 2 * T * exp (- MAXE) else 0.
Lemma one_level MAXE T e mu g : 0 < T -> 0 <= g <= 2 -> let f := fermi MAXE T e mu in
  f * e + 2 * T * hh (f / 2) + mu * (g - f) - lost MAXE T f <= g * e + 2 * T * hh (g / 2).
Proof.
  intros HT Hg. cbv zeta. unfold fermi. cbv zeta. set (x := (e - mu) / T). assert (Ee : e = mu + T * x) by (unfold x; field; lra). unfold rlt. destruct (Rlt_dec x MAXE) as [L|L].
  - pose proof (exp_pos x) as Ex. unfold lost. destruct (Req_EM_T (2 / (exp x + 1)) 0) as [Z|_]. { exfalso. assert (0 < 2 / (exp x + 1)) by (apply Rdiv_lt_0_compat; lra). lra. }
    pose proof (level_min x (g / 2) ltac:(lra)) as M. cbv zeta in M. replace (2 / (exp x + 1) / 2) with (/ (exp x + 1)) by (field; lra). set (p := / (exp x + 1)) in *.
    replace (2 / (exp x + 1)) with (2 * p) by (unfold p; field; lra). apply (Rmult_le_compat_l (2 * T)) in M; [|lra]. rewrite Ee. lra.
  - unfold lost. destruct (Req_EM_T 0 0) as [_|Z]; [|contradiction]. replace (0 / 2) with 0 by field. rewrite hh_zero.
    pose proof (hh_below x (g / 2) ltac:(lra)) as M. assert (exp (- x) <= exp (- MAXE)). { destruct (Req_EM_T x MAXE) as [->|]; [lra|]. left. apply exp_increasing. lra. }
    apply (Rmult_le_compat_l (2 * T)) in M; [|lra]. apply (Rmult_le_compat_l (2 * T) _ _ ) in H; [|lra]. rewrite Ee. lra.
Qed.

