From Coq Require Import Reals Lra Lia List Bool.
From Verif Require Import Vec OccModel OccSpec.
Import ListNotations.
Open Scope R_scope.

Lemma rlt_true a b : rlt a b = true <-> a < b.
Proof. unfold rlt. destruct (Rlt_dec a b); split; intros; auto; try discriminate; contradiction. Qed.
Lemma rlt_false a b : rlt a b = false <-> b <= a.
Proof. unfold rlt. destruct (Rlt_dec a b); split; intros; auto; try discriminate; lra. Qed.

Section P.
Variable MAXE : R.
Hypothesis MAXE_pos : 1 < MAXE.
Variables (nk n : nat) (wk : nat -> R) (width nel : R) (e : nat -> nat -> R).
Hypothesis Hw : 0 < width.
Local Notation F := (fermi MAXE width).
Local Notation N := (electrons MAXE nk n wk width e).

Lemma fermi_exp_bounds x : 0 < 2 / (exp x + 1) < 2.
Proof.
  pose proof (exp_pos x) as Hx. split.
  - apply Rdiv_lt_0_compat; lra.
  - apply Rmult_lt_reg_r with (exp x + 1); [lra|]. unfold Rdiv. rewrite Rmult_assoc, Rinv_l by lra. lra.
Qed.
Lemma fermi_exp_decr x y : x < y -> 2 / (exp y + 1) < 2 / (exp x + 1).
Proof.
  intros H. pose proof (exp_increasing _ _ H). pose proof (exp_pos x). 
  unfold Rdiv. apply Rmult_lt_compat_l; [lra|]. apply Rinv_lt_contravar; [|lra]. apply Rmult_lt_0_compat; lra.
Qed.

Lemma fermi_bounds en mu : 0 <= F en mu < 2 /\ ((en - mu) / width < MAXE -> 0 < F en mu).
Proof.
  unfold fermi. destruct (rlt _ _) eqn:L.
  - pose proof (fermi_exp_bounds ((en - mu) / width)). split; [lra|]. intros. lra.
  - apply rlt_false in L. split; [lra|]. intros. lra.
Qed.

Lemma div_lt a b : a < b -> a / width < b / width.
Proof. intros. unfold Rdiv. apply Rmult_lt_compat_r; [apply Rinv_0_lt_compat|]; assumption. Qed.
Lemma div_le a b : a <= b -> a / width <= b / width.
Proof. intros. unfold Rdiv. apply Rmult_le_compat_r; [apply Rlt_le, Rinv_0_lt_compat|]; assumption. Qed.

(** by the argument only *)
Lemma fermi_arg_decr e1 m1 e2 m2 : e1 - m1 < e2 - m2 ->
  F e2 m2 <= F e1 m1 /\ (0 < F e1 m1 -> F e2 m2 < F e1 m1).
Proof.
  intros H. apply div_lt in H. unfold fermi.
  destruct (rlt ((e1 - m1) / width) MAXE) eqn:L1, (rlt ((e2 - m2) / width) MAXE) eqn:L2;
   rewrite ?rlt_true, ?rlt_false in *.
  - pose proof (fermi_exp_decr _ _ H). lra.
  - pose proof (fermi_exp_bounds ((e1 - m1) / width)). lra.
  - lra.
  - lra.
Qed.
Lemma fermi_decr_energy e1 e2 mu : e1 < e2 -> F e2 mu <= F e1 mu /\ (0 < F e1 mu -> F e2 mu < F e1 mu).
Proof. intros. apply fermi_arg_decr. lra. Qed.
Lemma fermi_incr_mu en m1 m2 : m1 < m2 -> F en m1 <= F en m2 /\ (0 < F en m2 -> F en m1 < F en m2).
Proof. intros. apply fermi_arg_decr. lra. Qed.
Lemma fermi_half en : F en en = 1.
Proof.
  unfold fermi. replace ((en - en) / width) with 0 by (field; lra).
  rewrite (proj2 (rlt_true 0 MAXE)) by lra. rewrite exp_0. lra.
Qed.
(** particle-hole symmetry, away from the cut *)
Lemma fermi_symmetric d mu : - MAXE < d / width < MAXE -> F (mu + d) mu + F (mu - d) mu = 2.
Proof.
  intros H. unfold fermi. replace (mu + d - mu) with d by ring. replace (mu - d - mu) with (- d) by ring.
  replace (- d / width) with (- (d / width)) by (field; lra).
  rewrite (proj2 (rlt_true (d / width) MAXE)) by lra. rewrite (proj2 (rlt_true (- (d / width)) MAXE)) by lra.
  rewrite exp_Ropp. pose proof (exp_pos (d / width)). field. lra.
Qed.
Lemma fermi_function_half en mu : fermi_function MAXE width en mu = F en mu / 2.
Proof. unfold fermi_function, fermi. destruct (rlt _ _); [|lra]. field. pose proof (exp_pos ((en - mu) / width)). lra. Qed.

Hypothesis Hwk : forall k, (k < nk)%nat -> 0 < wk k.

Lemma electrons_incr m1 m2 : m1 <= m2 -> N m1 <= N m2.
Proof.
  intros [H| ->]; [|lra]. unfold electrons. apply rsum_le. intros k Hk. apply rsum_le. intros a Ha.
  apply Rmult_le_compat_l; [apply Rlt_le, Hwk, Hk|]. apply fermi_incr_mu, H.
Qed.

(** two chemical potentials with the same, positive number of electrons are equal *)
Lemma rsum_lt_one m f g k : (k < m)%nat -> (forall i, (i < m)%nat -> f i <= g i) -> f k < g k -> rsum m f < rsum m g.
Proof.
  revert k. induction m as [|m IH]; intros k Hk Hle Hlt; [lia|]. cbn [rsum].
  destruct (Nat.eq_dec k m) as [->|Hne].
  - assert (rsum m f <= rsum m g) by (apply rsum_le; intros; apply Hle; lia). lra.
  - assert (rsum m f < rsum m g) by (apply (IH k); [lia| |exact Hlt]; intros; apply Hle; lia).
    specialize (Hle m ltac:(lia)). lra.
Qed.
Lemma rsum_pos_term m f : (forall i, (i < m)%nat -> 0 <= f i) -> 0 < rsum m f -> exists i, (i < m)%nat /\ 0 < f i.
Proof.
  induction m as [|m IH]; cbn [rsum]; intros Hf H; [lra|].
  destruct (Rlt_dec 0 (f m)) as [P|P]; [exists m; split; [lia|exact P]|].
  destruct IH as (i & Hi & Hp); [intros; apply Hf; lia|lra|]. exists i. split; [lia|exact Hp].
Qed.

Lemma mu_unique m1 m2 : N m1 = N m2 -> 0 < N m1 -> m1 = m2.
Proof.
  assert (G : forall m1 m2, N m1 = N m2 -> 0 < N m2 -> ~ m1 < m2).
  { intros x y E P L. unfold electrons in *.
    assert (Hpos : forall k a, (k < nk)%nat -> 0 <= wk k * F (e k a) y).
    { intros k a Hk. apply Rmult_le_pos; [apply Rlt_le, Hwk, Hk|apply fermi_bounds]. }
    apply rsum_pos_term in P; [|intros k Hk; apply rsum_nonneg; intros; apply Hpos, Hk].
    destruct P as (k & Hk & P). apply rsum_pos_term in P; [|intros; apply Hpos, Hk].
    destruct P as (a & Ha & P).
    assert (PF : 0 < F (e k a) y).
    { specialize (Hwk k Hk). destruct (Rle_lt_or_eq_dec 0 (F (e k a) y)) as [Q|Q]; [apply fermi_bounds|exact Q|]. rewrite <- Q in P. lra. }
    assert (S : rsum nk (fun k => rsum n (fun a => wk k * F (e k a) x)) < rsum nk (fun k => rsum n (fun a => wk k * F (e k a) y))).
    { apply rsum_lt_one with k; [exact Hk| |].
      - intros i Hi. apply rsum_le. intros b Hb. apply Rmult_le_compat_l; [apply Rlt_le, Hwk, Hi|apply fermi_incr_mu, L].
      - apply rsum_lt_one with a; [exact Ha| |].
        + intros b Hb. apply Rmult_le_compat_l; [apply Rlt_le, Hwk, Hk|apply fermi_incr_mu, L].
        + apply Rmult_lt_compat_l; [apply Hwk, Hk|apply fermi_incr_mu; [exact L|exact PF]]. }
    lra. }
  intros E P. destruct (Rtotal_order m1 m2) as [L|[Q|L]]; [|exact Q|]; exfalso.
  - apply (G m1 m2); auto. rewrite <- E. exact P.
  - apply (G m2 m1); auto.
Qed.

Lemma electrons_bounds mu : rsum nk wk = 1 -> 0 <= N mu <= 2 * INR n.
Proof.
  intros H1. unfold electrons. split.
  - apply rsum_nonneg. intros k Hk. apply rsum_nonneg. intros a _. apply Rmult_le_pos; [apply Rlt_le, Hwk, Hk|apply fermi_bounds].
  - apply Rle_trans with (rsum nk (fun k => wk k * (2 * INR n))).
    + apply rsum_le. intros k Hk. replace (wk k * (2 * INR n)) with (rsum n (fun _ => wk k * 2)) by (rewrite rsum_const; ring).
      apply rsum_le. intros a _. apply Rmult_le_compat_l; [apply Rlt_le, Hwk, Hk|]. apply Rlt_le, fermi_bounds.
    + rewrite rsum_scal_r, H1. lra.
Qed.

(** ** occupy *)
Variable brentq : (R -> R) -> R -> R -> R -> option R.
Local Notation occ := (occupy MAXE nk n wk width nel e brentq).

Lemma occupy_electrons mu f : occ = Some (mu, f) ->
  f = (fun k a => F (e k a) mu) /\ Rabs (rsum nk (fun k => rsum n (fun a => wk k * f k a)) - nel) <= tol.
Proof.
  unfold occupy. destruct (emin nk n e), (emax nk n e); try discriminate.
  destruct (brentq _ _ _ _) as [m|]; [|discriminate].
  destruct (rlt tol _) eqn:L; [discriminate|]. apply rlt_false in L. intros E. 
  assert (E1 : m = mu) by congruence. assert (E2 : f = fun k a => F (e k a) m) by congruence. subst.
  split; [reflexivity|]. exact L.
Qed.

Lemma fold_min l x : fold_left Rmin l x <= x /\ forall y, In y l -> fold_left Rmin l x <= y.
Proof.
  revert x. induction l as [|z l IH]; intros x; cbn; [split; [lra|contradiction]|].
  destruct (IH (Rmin x z)) as [H1 H2]. pose proof (Rmin_l x z). pose proof (Rmin_r x z). split; [lra|].
  intros y [<-|Hy]; [lra|apply H2, Hy].
Qed.
Lemma fold_max l x : x <= fold_left Rmax l x /\ forall y, In y l -> y <= fold_left Rmax l x.
Proof.
  revert x. induction l as [|z l IH]; intros x; cbn; [split; [lra|contradiction]|].
  destruct (IH (Rmax x z)) as [H1 H2]. pose proof (Rmax_l x z). pose proof (Rmax_r x z). split; [lra|].
  intros y [<-|Hy]; [lra|apply H2, Hy].
Qed.
Lemma in_eflat k a : (k < nk)%nat -> (a < n)%nat -> In (e k a) (eflat nk n e).
Proof.
  intros Hk Ha. unfold eflat. apply in_flat_map. exists k. split; [apply in_seq; lia|]. apply in_map, in_seq. lia.
Qed.
Lemma extremes : (0 < nk)%nat -> (0 < n)%nat -> exists lo hi, emin nk n e = Some lo /\ emax nk n e = Some hi /\ lo <= hi /\
  forall k a, (k < nk)%nat -> (a < n)%nat -> lo <= e k a <= hi.
Proof.
  intros Hk Hn. unfold emin, emax. pose proof (in_eflat 0 0 Hk Hn) as H0.
  pose proof in_eflat as Hin. destruct (eflat nk n e) as [|x l]; [contradiction|].
  exists (fold_left Rmin l x), (fold_left Rmax l x). split; [reflexivity|]. split; [reflexivity|].
  destruct (fold_min l x) as [A1 A2], (fold_max l x) as [B1 B2]. split; [lra|].
  intros k a P Q. specialize (Hin k a P Q). destruct Hin as [<-|Hin]; [lra|]. specialize (A2 _ Hin). specialize (B2 _ Hin). lra.
Qed.

(** filling between 2/(1+e) and 2e/(1+e) electrons per orbital: the interval brackets *)
Lemma bracketed lo hi : weights nk wk ->
  (forall k a, (k < nk)%nat -> (a < n)%nat -> lo <= e k a <= hi) ->
  N (lo - width) <= 2 / (1 + exp 1) * INR n /\ 2 * exp 1 / (1 + exp 1) * INR n <= N (hi + width).
Proof.
  intros [_ H1] He. pose proof (exp_pos 1) as E1. unfold electrons. split.
  - apply Rle_trans with (rsum nk (fun k => wk k * (2 / (1 + exp 1) * INR n))); [|rewrite rsum_scal_r, H1; lra].
    apply rsum_le. intros k Hk. replace (wk k * (2 / (1 + exp 1) * INR n)) with (rsum n (fun _ => wk k * (2 / (1 + exp 1)))) by (rewrite rsum_const; ring).
    apply rsum_le. intros a Ha. apply Rmult_le_compat_l; [apply Rlt_le, Hwk, Hk|].
    unfold fermi. destruct (rlt _ _) eqn:L; [|apply Rlt_le, Rdiv_lt_0_compat; lra].
    assert (A : 1 <= (e k a - (lo - width)) / width).
    { specialize (He k a Hk Ha). apply Rmult_le_reg_r with width; [lra|]. unfold Rdiv. rewrite Rmult_assoc, Rinv_l by lra. lra. }
    assert (B : exp 1 <= exp ((e k a - (lo - width)) / width)).
    { destruct A as [A|A]; [apply Rlt_le, exp_increasing, A|rewrite A; lra]. }
    unfold Rdiv. apply Rmult_le_compat_l; [lra|]. apply Rinv_le_contravar; lra.
  - apply Rle_trans with (rsum nk (fun k => wk k * (2 * exp 1 / (1 + exp 1) * INR n))); [rewrite rsum_scal_r, H1; lra|].
    apply rsum_le. intros k Hk. replace (wk k * (2 * exp 1 / (1 + exp 1) * INR n)) with (rsum n (fun _ => wk k * (2 * exp 1 / (1 + exp 1)))) by (rewrite rsum_const; ring).
    apply rsum_le. intros a Ha. apply Rmult_le_compat_l; [apply Rlt_le, Hwk, Hk|].
    assert (A : (e k a - (hi + width)) / width <= - (1)).
    { specialize (He k a Hk Ha). apply Rmult_le_reg_r with width; [lra|]. unfold Rdiv. rewrite Rmult_assoc, Rinv_l by lra. lra. }
    unfold fermi. rewrite (proj2 (rlt_true _ MAXE)) by lra.
    assert (B : exp ((e k a - (hi + width)) / width) <= / exp 1).
    { rewrite <- exp_Ropp. destruct A as [A|A]; [apply Rlt_le, exp_increasing, A|rewrite A; lra]. }
    replace (2 * exp 1 / (1 + exp 1)) with (2 / (/ exp 1 + 1)) by (field; lra).
    pose proof (exp_pos ((e k a - (hi + width)) / width)).
    unfold Rdiv at 1 2. apply Rmult_le_compat_l; [lra|]. apply Rinv_le_contravar; lra.
Qed.

Lemma occupy_found : brentq_contract brentq -> weights nk wk -> (0 < nk)%nat -> (0 < n)%nat ->
  2 / (1 + exp 1) * INR n <= nel <= 2 * exp 1 / (1 + exp 1) * INR n ->
  exists lo hi mu, emin nk n e = Some lo /\ emax nk n e = Some hi /\ lo - width <= mu <= hi + width /\
    (Rabs (N mu - nel) <= tol -> exists f, occ = Some (mu, f)).
Proof.
  intros Hc Hwt Hk Hn Hnel. destruct (extremes Hk Hn) as (lo & hi & E1 & E2 & Hle & He).
  destruct (bracketed lo hi Hwt He) as [B1 B2]. exists lo, hi.
  destruct (Hc (root_function MAXE nk n wk width nel e) (lo - width) (hi + width) xtol ltac:(lra)) as [_ H].
  destruct H as (mu & Em & Hmu).
  { unfold root_function. set (A := N (lo - width)) in *. set (B := N (hi + width)) in *. nra. }
  exists mu. split; [exact E1|]. split; [exact E2|]. split; [exact Hmu|]. intros Ht.
  unfold occupy. rewrite E1, E2, Em. rewrite (proj2 (rlt_false _ _)) by exact Ht. eauto.
Qed.

(** outside the bracket the search fails *)
Lemma occupy_unbracketed lo hi : brentq_contract brentq -> emin nk n e = Some lo -> emax nk n e = Some hi ->
  lo <= hi -> (nel < N (lo - width) \/ N (hi + width) < nel) -> occ = None.
Proof.
  intros Hc E1 E2 Hle H. unfold occupy. rewrite E1, E2.
  destruct (Hc (root_function MAXE nk n wk width nel e) (lo - width) (hi + width) xtol ltac:(lra)) as [H0 _].
  pose proof (electrons_incr (lo - width) (hi + width) ltac:(lra)) as M.
  rewrite H0; [reflexivity|]. unfold root_function.
  set (A := N (lo - width)) in *. set (B := N (hi + width)) in *. destruct H; nra.
Qed.
End P.

(** a closed shell: 1.9 electrons in one orbital *)
Lemma occupy_fails MAXE (HM : 1 < MAXE) brentq : brentq_contract brentq ->
  0 < 19 / 10 < 2 * INR 1 /\ occupy MAXE 1 1 (fun _ => 1) 1 (19 / 10) (fun _ _ => 0) brentq = None.
Proof.
  intros Hc. split; [cbn; lra|].
  apply (occupy_unbracketed MAXE 1 1 (fun _ => 1) 1 (19 / 10) (fun _ _ => 0) ltac:(lra) ltac:(intros; lra)) with (lo := 0) (hi := 0);
   [exact Hc|reflexivity|reflexivity|lra|].
  right. unfold electrons. cbn [rsum]. unfold fermi.
  replace ((0 - (0 + 1)) / 1) with (- (1)) by field. rewrite (proj2 (rlt_true _ MAXE)) by lra.
  rewrite exp_Ropp. assert (H : exp 1 <= 3) by apply exp_le_3. pose proof (exp_pos 1).
  assert (/ 3 <= / exp 1) by (apply Rinv_le_contravar; lra).
  assert (2 / (/ exp 1 + 1) <= 2 / (/ 3 + 1)).
  { unfold Rdiv. apply Rmult_le_compat_l; [lra|]. apply Rinv_le_contravar; lra. }
  lra.
Qed.

(** the cut: an occupation that is exactly zero *)
Lemma fermi_cut MAXE : fermi MAXE 1 MAXE 0 = 0.
Proof. unfold fermi. replace ((MAXE - 0) / 1) with MAXE by field. rewrite (proj2 (rlt_false MAXE MAXE)) by lra. reflexivity. Qed.

(** ** Examples *)
Definition bisect_like (f : R -> R) (a b t : R) : option R :=
  if Rle_dec (f a * f b) 0 then Some a else None.
Example ex_contract : brentq_contract bisect_like.
Proof.
  intros f a b t H. unfold bisect_like. destruct (Rle_dec (f a * f b) 0); split; intros; try lra; [|reflexivity].
  exists a. split; [reflexivity|lra].
Qed.
Example ex_weights : weights 2 (fun _ => / 2).
Proof. split; [intros; lra|cbn; lra]. Qed.
Example ex_half : 2 / (1 + exp 1) * INR 2 <= 2 <= 2 * exp 1 / (1 + exp 1) * INR 2.
Proof.
  pose proof (exp_pos 1). assert (1 < exp 1) by (rewrite <- exp_0 at 1; apply exp_increasing; lra).
  cbn [INR]. split; apply Rmult_le_reg_r with (1 + exp 1); try lra.
  - replace (2 / (1 + exp 1) * (1 + 1) * (1 + exp 1)) with 4 by (field; lra). lra.
  - replace (2 * exp 1 / (1 + exp 1) * (1 + 1) * (1 + exp 1)) with (4 * exp 1) by (field; lra). lra.
Qed.

(** ** The statements of OccProps *)
Lemma occupations_physical : forall MAXE width e1 e2 m1 m2, 0 < width ->
  (0 <= fermi MAXE width e1 m1 < 2) /\
  ((e1 - m1) / width < MAXE -> 0 < fermi MAXE width e1 m1) /\
  (e1 <= e2 -> fermi MAXE width e2 m1 <= fermi MAXE width e1 m1) /\
  (m1 <= m2 -> fermi MAXE width e1 m1 <= fermi MAXE width e1 m2) /\
  (e1 < e2 -> (e1 - m1) / width < MAXE -> fermi MAXE width e2 m1 < fermi MAXE width e1 m1) /\
  (m1 < m2 -> (e1 - m2) / width < MAXE -> fermi MAXE width e1 m1 < fermi MAXE width e1 m2).
Proof.
  intros MAXE width e1 e2 m1 m2 Hw. split; [apply fermi_bounds|]. split; [apply fermi_bounds|].
  split; [intros [H| ->]; [apply fermi_decr_energy; assumption|lra]|].
  split; [intros [H| ->]; [apply fermi_incr_mu; assumption|lra]|].
  split; intros H C.
  - apply fermi_decr_energy; try assumption. apply fermi_bounds; assumption.
  - apply fermi_incr_mu; try assumption. apply fermi_bounds; assumption.
Qed.
Lemma particle_hole : forall MAXE width d mu, 1 < MAXE -> 0 < width -> - MAXE < d / width < MAXE ->
  fermi MAXE width mu mu = 1 /\ fermi MAXE width (mu + d) mu + fermi MAXE width (mu - d) mu = 2.
Proof. intros. split; [apply fermi_half|apply fermi_symmetric]; assumption. Qed.
Lemma positive_refuted : forall MAXE, exists width e mu, 0 < width /\ fermi MAXE width e mu = 0.
Proof. intros. exists 1, MAXE, 0. split; [lra|apply fermi_cut]. Qed.
Lemma fermi_function_half' : forall MAXE width e mu,
  fermi_function MAXE width e mu = fermi MAXE width e mu / 2.
Proof. intros. apply fermi_function_half. Qed.
Lemma electron_number : forall MAXE nk n wk width nel e brentq mu f,
  occupy MAXE nk n wk width nel e brentq = Some (mu, f) ->
  (forall k a, f k a = fermi MAXE width (e k a) mu) /\
  Rabs (rsum nk (fun k => rsum n (fun a => wk k * f k a)) - nel) <= / 10 ^ 10.
Proof. intros * H. destruct (occupy_electrons _ _ _ _ _ _ _ _ _ _ H) as [-> H2]. split; [reflexivity|exact H2]. Qed.
Lemma mu_unique' : forall MAXE nk n wk width e m1 m2, 0 < width -> weights nk wk ->
  let N mu := rsum nk (fun k => rsum n (fun a => wk k * fermi MAXE width (e k a) mu)) in
  N m1 = N m2 -> 0 < N m1 -> m1 = m2.
Proof. intros * Hw [Hk _] N. apply mu_unique; assumption. Qed.
Lemma always_found_refuted : forall MAXE, 1 < MAXE -> exists width nel (e : nat -> nat -> R),
  0 < width /\ 0 < nel < 2 * INR 1 /\
  forall brentq, brentq_contract brentq -> occupy MAXE 1 1 (fun _ => 1) width nel e brentq = None.
Proof.
  intros MAXE HM. exists 1, (19 / 10), (fun _ _ => 0). split; [lra|]. split; [cbn; lra|].
  intros b Hb. apply (occupy_fails MAXE HM b Hb).
Qed.
Lemma fold_min_in l x : In (fold_left Rmin l x) (x :: l).
Proof.
  revert x. induction l as [|z l IH]; intros x; [left; reflexivity|]. cbn [fold_left].
  destruct (IH (Rmin x z)) as [H|H]; [|right; right; exact H].
  rewrite <- H. unfold Rmin. destruct (Rle_dec x z); [left|right; left]; reflexivity.
Qed.
Lemma fold_max_in l x : In (fold_left Rmax l x) (x :: l).
Proof.
  revert x. induction l as [|z l IH]; intros x; [left; reflexivity|]. cbn [fold_left].
  destruct (IH (Rmax x z)) as [H|H]; [|right; right; exact H].
  rewrite <- H. unfold Rmax. destruct (Rle_dec x z); [right; left|left]; reflexivity.
Qed.
Lemma eflat_in nk n e x : In x (eflat nk n e) -> exists k a, (k < nk)%nat /\ (a < n)%nat /\ x = e k a.
Proof.
  unfold eflat. intros H. apply in_flat_map in H. destruct H as (k & Hk & H). apply in_map_iff in H.
  destruct H as (a & <- & Ha). apply in_seq in Hk. apply in_seq in Ha. exists k, a. split; [lia|]. split; [lia|reflexivity].
Qed.
Lemma emin_in nk n e lo : emin nk n e = Some lo -> In lo (eflat nk n e).
Proof. unfold emin. destruct (eflat nk n e) as [|x l]; [discriminate|]. intros E. assert (Q : lo = fold_left Rmin l x) by congruence. rewrite Q. apply fold_min_in. Qed.
Lemma emax_in nk n e lo : emax nk n e = Some lo -> In lo (eflat nk n e).
Proof. unfold emax. destruct (eflat nk n e) as [|x l]; [discriminate|]. intros E. assert (Q : lo = fold_left Rmax l x) by congruence. rewrite Q. apply fold_max_in. Qed.
Lemma found : forall MAXE nk n wk width nel e brentq,
  1 < MAXE -> 0 < width -> brentq_contract brentq -> weights nk wk -> (0 < nk)%nat -> (0 < n)%nat ->
  2 / (1 + exp 1) * INR n <= nel <= 2 * exp 1 / (1 + exp 1) * INR n ->
  exists mu k1 a1 k2 a2, (k1 < nk)%nat /\ (a1 < n)%nat /\ (k2 < nk)%nat /\ (a2 < n)%nat /\
    e k1 a1 - width <= mu <= e k2 a2 + width /\
    (Rabs (rsum nk (fun k => rsum n (fun a => wk k * fermi MAXE width (e k a) mu)) - nel) <= / 10 ^ 10 ->
     exists f, occupy MAXE nk n wk width nel e brentq = Some (mu, f)).
Proof.
  intros * HM Hw Hc Hwt Hk Hn Hnel.
  destruct (occupy_found MAXE HM nk n wk width nel e Hw (proj1 Hwt) brentq Hc Hwt Hk Hn Hnel) as (lo & hi & mu & E1 & E2 & Hmu & H).
  apply emin_in, eflat_in in E1. apply emax_in, eflat_in in E2.
  destruct E1 as (k1 & a1 & L1 & L2 & ->), E2 as (k2 & a2 & L3 & L4 & ->).
  exists mu, k1, a1, k2, a2. auto 10.
Qed.
Lemma impossible_refused : forall MAXE nk n wk width nel e brentq,
  0 < width -> weights nk wk -> nel < - / 10 ^ 10 \/ 2 * INR n + / 10 ^ 10 < nel ->
  occupy MAXE nk n wk width nel e brentq = None.
Proof.
  intros * Hw [Hk H1] H. destruct (occupy _ _ _ _ _ _ _ _) as [[mu f]|] eqn:E; [exfalso|reflexivity].
  apply occupy_electrons in E. destruct E as [-> E].
  destruct (electrons_bounds MAXE nk n wk width e Hk mu H1) as [B1 B2]. unfold electrons in *. unfold tol in E.
  unfold Rabs in E. destruct (Rcase_abs _); destruct H; lra.
Qed.
