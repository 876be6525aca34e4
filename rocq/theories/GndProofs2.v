From Coq Require Import Reals ZArith String List Bool Arith Lia Lra.
From Verif Require Import Vec GeomModel GeomProofs UtilModel CoulModel MixModel OccModel PairModel PairSpec SkModel SkSpec Cpx RhoModel RhoSpec RhoProofs RhoProofs2 EigModel EigSpec InvModel InvSpec InvLin BndProofs2 GndSpec GndProofs.
Import ListNotations.
Open Scope R_scope.

(** ** states of one k-point *)
Definition share (n : nat) (S : nat -> nat -> cplx) (w v : nat -> nat -> cplx) (b a : nat) : R :=
  fst (bracket n S (w b) (v a)) ^ 2 + snd (bracket n S (w b) (v a)) ^ 2.
Lemma share_pos n S w v b a : 0 <= share n S w v b a.
Proof. unfold share. nra. Qed.
Lemma share_total_r n S w v b : hermitian n S -> orthoset n S w -> orthoset n S v -> (b < n)%nat -> rsum n (share n S w v b) = 1.
Proof.
  intros hS o o' Hb. pose proof (ovl_unit_r n S w v hS o o' b b Hb Hb) as E. rewrite Nat.eqb_refl in E. apply (f_equal fst) in E. rewrite csum_fst in E. cbn [c1 fst] in E. rewrite <- E.
  apply rsum_ext. intros a _. unfold share, ovl. cbn [cmul cconj fst snd]. ring.
Qed.
Lemma share_total_l n S w v a : hermitian n S -> orthoset n S w -> orthoset n S v -> (a < n)%nat -> rsum n (fun b => share n S w v b a) = 1.
Proof.
  intros hS o o' Ha. pose proof (ovl_unit_l n S w v hS o o' a a Ha Ha) as E. rewrite Nat.eqb_refl in E. apply (f_equal fst) in E. rewrite csum_fst in E. cbn [c1 fst] in E. rewrite <- E.
  apply rsum_ext. intros b _. unfold share, ovl. cbn [cmul cconj fst snd]. ring.
Qed.
Lemma expectation n H S w v e a : hermitian n S -> orthoset n S w -> solves n H S w e -> (a < n)%nat ->
  fst (bracket n H (v a) (v a)) = rsum n (fun b => share n S w v b a * e b).
Proof.
  intros hS o s Ha. rewrite (bracket_ext n H (v a) (v a) (v a) (fun i => csum n (fun b => cmul (bracket n S (w b) (v a)) (w b i)))); [|reflexivity|intros i Hi; apply expand; assumption].
  rewrite bracket_sum_r, csum_fst. apply rsum_ext. intros b Hb. rewrite (bracket_solves n H S w e (v a) b s Hb), (InvLin.bracket_conj n S (v a) (w b) hS). unfold share. cbn [cmul cscale cconj fst snd]. ring.
Qed.
Lemma kpoint_min MAXE T mu n H S w v e g : 0 < T -> hermitian n S -> orthoset n S w -> orthoset n S v -> solves n H S w e -> (forall a, (a < n)%nat -> 0 <= g a <= 2) ->
  let f := fun b => fermi MAXE T (e b) mu in
  rsum n (fun b => f b * e b + 2 * T * hh (f b / 2) - lost MAXE T (f b)) + mu * (rsum n g - rsum n f) <= rsum n (fun a => g a * fst (bracket n H (v a) (v a)) + 2 * T * hh (g a / 2)).
Proof.
  intros HT hS o o' s Hg f.
  rewrite (rsum_ext n (fun a => g a * fst (bracket n H (v a) (v a)) + 2 * T * hh (g a / 2)) (fun a => rsum n (fun b => share n S w v b a * (g a * e b + 2 * T * hh (g a / 2))))).
  2:{ intros a Ha. rewrite (expectation n H S w v e a hS o s Ha). rewrite (rsum_ext n (fun b => share n S w v b a * (g a * e b + 2 * T * hh (g a / 2))) (fun b => g a * (share n S w v b a * e b) + share n S w v b a * (2 * T * hh (g a / 2)))) by (intros; ring).
      rewrite rsum_plus, rsum_scal, rsum_scal_r, share_total_l by assumption. ring. }
  rewrite (rsum_ext n (fun b => f b * e b + 2 * T * hh (f b / 2) - lost MAXE T (f b)) (fun b => rsum n (fun a => share n S w v b a * (f b * e b + 2 * T * hh (f b / 2) - lost MAXE T (f b))))).
  2:{ intros b Hb. rewrite rsum_scal_r, share_total_r by assumption. ring. }
  replace (mu * (rsum n g - rsum n f)) with (rsum n (fun b => rsum n (fun a => share n S w v b a * (mu * (g a - f b))))).
  2:{ rewrite (rsum_ext n (fun b => rsum n (fun a => share n S w v b a * (mu * (g a - f b)))) (fun b => rsum n (fun a => share n S w v b a * (mu * g a)) - mu * f b)).
      2:{ intros b Hb. rewrite (rsum_ext n (fun a => share n S w v b a * (mu * (g a - f b))) (fun a => share n S w v b a * (mu * g a) - share n S w v b a * (mu * f b))) by (intros; ring). rewrite rsum_minus, rsum_scal_r, share_total_r by assumption. ring. }
      rewrite rsum_minus, (rsum_scal n mu f), rsum_swap. rewrite (rsum_ext n (fun a => rsum n (fun b => share n S w v b a * (mu * g a))) (fun a => mu * g a)).
      2:{ intros a Ha. rewrite rsum_scal_r, share_total_l by assumption. ring. } rewrite rsum_scal. ring. }
  rewrite <- rsum_plus. rewrite (rsum_swap n n (fun a b => share n S w v b a * (g a * e b + 2 * T * hh (g a / 2)))).
  apply rsum_le. intros b Hb. rewrite <- rsum_plus. apply rsum_le. intros a Ha. rewrite <- Rmult_plus_distr_l. apply Rmult_le_compat_l; [apply share_pos|].
  pose proof (one_level MAXE T (e b) mu (g a) HT (Hg a Ha)) as L. cbv zeta in L. fold (f b) in L. lra.
Qed.

(** ** all k-points *)
Definition total_h (X : system) (h : nat -> nat -> R) (k i j : nat) : cplx := cadd (s_H0 X k i j) (cscale (h i j) (s_S X k i j)).
Lemma entropy_hh norb nk wk f : fermi_entropy norb nk wk f = - (2 * rsum nk (fun k => wk k * rsum norb (fun a => hh (f k a / 2)))).
Proof. reflexivity. Qed.
Lemma states_min MAXE brentq tol_norm z evmin w0 X H1 p f : 0 <= tol_norm -> 0 < s_width X -> proper X -> reliable z w0 X -> (forall h, H1 = Some h -> forall i j, h i j = h j i) ->
  (forall k, (k < s_nk X)%nat -> 0 <= s_wk X k) ->
  pass z evmin w0 tol_norm X H1 = Some p -> occupations MAXE brentq X p = Some f ->
  let h := fst (fst p) in let wf := snd p in
  orthonormal (s_norb X) (s_nk X) (s_S X) wf /\ h = match H1 with Some h => h | None => fun _ _ => 0 end /\
  (forall k a, (k < s_nk X)%nat -> (a < s_norb X)%nat -> 0 <= f k a <= 2) /\
  exists mu, forall V g, electrons_in X V g ->
  state_sum (s_norb X) (s_nk X) (s_wk X) f (fun k a => fst (bracket (s_norb X) (total_h X h k) (wf k a) (wf k a))) - s_width X * fermi_entropy (s_norb X) (s_nk X) (s_wk X) f
  <= state_sum (s_norb X) (s_nk X) (s_wk X) g (fun k a => fst (bracket (s_norb X) (total_h X h k) (V k a) (V k a))) - s_width X * fermi_entropy (s_norb X) (s_nk X) (s_wk X) g
     + mu * (filling (s_norb X) (s_nk X) (s_wk X) f - filling (s_norb X) (s_nk X) (s_wk X) g) + emptied MAXE X f.
Proof.
  intros Ht HT PX RX Sy Hw EP EO. destruct (solve_system X z w0 evmin tol_norm H1 Ht PX RX Sy) as (e & wf & EA & O & W & _).
  unfold pass in EP. rewrite EA in EP. injection EP as <-. cbn [fst snd]. split; [exact O|]. split; [reflexivity|].
  set (h := match H1 with Some h => h | None => fun _ _ => 0 end) in *.
  unfold occupations in EO. destruct (occupy _ _ _ _ _ _ _ _) as [[mu f']|] eqn:OC; [|discriminate]. injection EO as ->.
  assert (Ef : f = fun k a => fermi MAXE (s_width X) (e k a) mu). { unfold occupy in OC. destruct (emin _ _ _); [|discriminate]. destruct (emax _ _ _); [|discriminate]. destruct (brentq _ _ _ _); [|discriminate]. destruct (rlt _ _); [discriminate|]. injection OC as E1 E2. rewrite <- E2, E1. reflexivity. }
  split. { intros k a _ _. rewrite Ef. unfold fermi. cbv zeta. destruct (rlt _ _); [|lra]. pose proof (exp_pos ((e k a - mu) / s_width X)). split; [left; apply Rdiv_lt_0_compat; lra|]. apply (Rmult_le_reg_r (exp ((e k a - mu) / s_width X) + 1)); [lra|]. unfold Rdiv. rewrite Rmult_assoc, Rinv_l by lra. lra. }
  exists mu. intros V g [OV Hg]. rewrite !entropy_hh. unfold state_sum, emptied, filling in *. 
  assert (Q : 0 <= rsum (s_nk X) (fun k => s_wk X k * (rsum (s_norb X) (fun a => g k a * fst (bracket (s_norb X) (total_h X h k) (V k a) (V k a)) + 2 * s_width X * hh (g k a / 2))
     - (rsum (s_norb X) (fun b => f k b * fst (bracket (s_norb X) (total_h X h k) (wf k b) (wf k b)) + 2 * s_width X * hh (f k b / 2) - lost MAXE (s_width X) (f k b)) + mu * (rsum (s_norb X) (g k) - rsum (s_norb X) (f k)))))).
  { rewrite <- (rsum_zero (s_nk X)). apply rsum_le. intros k Hk. apply Rmult_le_pos; [apply Hw; exact Hk|].
    pose proof (kpoint_min MAXE (s_width X) mu (s_norb X) (total_h X h k) (s_S X k) (wf k) (V k) (e k) (g k) HT (proj2 PX k Hk) (fun a b Ha Hb => O k a b Hk Ha Hb) (fun a b Ha Hb => OV k a b Hk Ha Hb) (W k Hk) (fun a Ha => Hg k a Hk Ha)) as M. cbv zeta in M.
    assert (Efk : forall b, fermi MAXE (s_width X) (e k b) mu = f k b) by (rewrite Ef; reflexivity).
    rewrite (rsum_ext _ _ (fun b => f k b * fst (bracket (s_norb X) (total_h X h k) (wf k b) (wf k b)) + 2 * s_width X * hh (f k b / 2) - lost MAXE (s_width X) (f k b))) in M.
    2:{ intros b Hb. rewrite !Efk. rewrite (bracket_solves (s_norb X) (total_h X h k) (s_S X k) (wf k) (e k) (wf k b) b (W k Hk) Hb). rewrite (O k b b Hk Hb Hb), Nat.eqb_refl. cbn [cscale c1 fst]. ring. }
    rewrite (rsum_ext (s_norb X) (fun b => fermi MAXE (s_width X) (e k b) mu) (f k)) in M by (intros; apply Efk). lra. }
  rewrite (rsum_ext (s_nk X) _ (fun k => (s_wk X k * rsum (s_norb X) (fun a => g k a * fst (bracket (s_norb X) (total_h X h k) (V k a) (V k a))) + 2 * s_width X * (s_wk X k * rsum (s_norb X) (fun a => hh (g k a / 2))))
     - ((s_wk X k * rsum (s_norb X) (fun a => f k a * fst (bracket (s_norb X) (total_h X h k) (wf k a) (wf k a))) + 2 * s_width X * (s_wk X k * rsum (s_norb X) (fun a => hh (f k a / 2))))
        - s_wk X k * rsum (s_norb X) (fun a => lost MAXE (s_width X) (f k a))) - mu * (s_wk X k * rsum (s_norb X) (g k) - s_wk X k * rsum (s_norb X) (f k)))) in Q.
  2:{ intros k _. rewrite rsum_minus, !rsum_plus, !rsum_scal. ring. }
  rewrite !rsum_minus, !rsum_plus, !rsum_scal, !rsum_minus in Q.
  change (fun k => s_wk X k * rsum (s_norb X) (fun a => if Req_EM_T (f k a) 0 then 2 * s_width X * exp (- MAXE) else 0)) with (fun k => s_wk X k * rsum (s_norb X) (fun a => lost MAXE (s_width X) (f k a))).
  lra.
Qed.
