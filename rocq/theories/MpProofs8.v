(** The series of 1/|b - a| and its truncation *)
From Coq Require Import Reals ZArith List Bool Arith Lia Lra Psatz.
From Coquelicot Require Import Coquelicot.
From Verif Require Import Vec GeomModel GeomSpec GeomProofs ScaModel MpModel MpSpec MpProofs MpProofs2 MpProofs3 MpProofs4 MpProofs5 MpProofs7.
Import ListNotations.
Open Scope R_scope.

Section Gen.
Variables p s sg : R.
Hypothesis Hs0 : 0 <= sg.
Hypothesis Hs1 : sg < 1.
Hypothesis Hb : forall l, Rabs (leg p s l) <= sg ^ l.
Hypothesis Hq : forall t, 0 <= t <= 1 -> 0 < 1 - 2 * p * t + s * (t * t).
Notation c := (leg p s).
Lemma gen_radius : Rbar_lt (Finite 1) (CV_radius c).
Proof.
  set (r := 2 / (1 + sg)). assert (hr : 1 < r). { unfold r. apply Rmult_lt_reg_r with (1 + sg); [lra|]. replace (2 / (1 + sg) * (1 + sg)) with 2 by (field; lra). lra. }
  apply Rbar_lt_le_trans with (Finite r); [exact hr|]. apply (proj1 (CV_radius_bounded c)). exists 1. intros n. rewrite Rabs_mult. rewrite (Rabs_right (r ^ n)) by (apply Rle_ge, pow_le; lra).
  apply Rle_trans with (sg ^ n * r ^ n); [apply Rmult_le_compat_r; [apply pow_le; lra|apply Hb]|]. rewrite <- Rpow_mult_distr. rewrite <- (pow1 n). apply pow_incr. split; [apply Rmult_le_pos; lra|]. unfold r. apply Rmult_le_reg_r with (1 + sg); [lra|]. replace (sg * (2 / (1 + sg)) * (1 + sg)) with (2 * sg) by (field; lra). lra.
Qed.
Lemma gen_in t : 0 <= t <= 1 -> Rbar_lt (Finite (Rabs t)) (CV_radius c).
Proof. intros ht. apply Rbar_le_lt_trans with (Finite 1); [cbn; rewrite Rabs_right; lra|apply gen_radius]. Qed.
Lemma gen_ode t : 0 <= t <= 1 -> (1 - 2 * p * t + s * (t * t)) * PSeries (PS_derive c) t = (p - s * t) * PSeries c t.
Proof.
  intros ht. set (D := PS_derive c).
  assert (eD : ex_pseries D t). { apply CV_radius_inside. unfold D. rewrite CV_radius_derive. apply gen_in, ht. }
  assert (ec : ex_pseries c t). { apply CV_radius_inside, gen_in, ht. }
  assert (hs : forall (a : R) (u : nat -> R), ex_pseries u t -> ex_pseries (PS_scal a u) t). { intros a u hu. apply ex_pseries_scal; [apply Rmult_comm|exact hu]. }
  assert (hi : forall (u : nat -> R), ex_pseries u t -> ex_pseries (PS_incr_1 u) t). { intros u hu. apply ex_pseries_incr_1, hu. }
  transitivity (PSeries (PS_plus D (PS_plus (PS_scal (- (2 * p)) (PS_incr_1 D)) (PS_scal s (PS_incr_1 (PS_incr_1 D))))) t).
  - rewrite !PSeries_plus by (try apply ex_pseries_plus; auto). rewrite !PSeries_scal, !PSeries_incr_1. ring.
  - transitivity (PSeries (PS_plus (PS_scal p c) (PS_scal (- s) (PS_incr_1 c))) t).
    + apply PSeries_ext. intros n. unfold PS_plus, PS_scal, PS_incr_1, D, PS_derive, scal, plus. cbn -[leg INR]. unfold mult. cbn -[leg INR]. destruct n as [|[|n]].
      * unfold leg. cbn. ring.
      * pose proof (leg_rec p s 0) as e. change zero with 0. rewrite e. unfold leg at 2 3 4 5. cbn. ring.
      * pose proof (leg_rec p s (S n)) as e. rewrite e. rewrite !S_INR. ring.
    + rewrite PSeries_plus by auto. rewrite !PSeries_scal, PSeries_incr_1. ring.
Qed.
Lemma gen_value : PSeries c 1 = / sqrt (1 - 2 * p + s).
Proof.
  set (q := fun t => 1 - 2 * p * t + s * (t * t)). set (G := fun t => PSeries c t * sqrt (q t)).
  assert (d : forall t, 0 <= t <= 1 -> is_derive G t 0).
  { intros t ht. pose proof (Hq t ht) as hq. fold (q t) in hq. assert (hs : 0 < sqrt (q t)) by (apply sqrt_lt_R0, hq).
    replace 0 with (PSeries (PS_derive c) t * sqrt (q t) + PSeries c t * ((- 2 * p + 2 * s * t) / (2 * sqrt (q t)))).
    - apply (is_derive_mult (PSeries c) (fun t => sqrt (q t))); [apply is_derive_PSeries, gen_in, ht| |intros; apply Rmult_comm]. 
      apply (is_derive_sqrt q t _); [|exact hq]. unfold q. auto_derive; [exact I|ring].
    - apply (Rmult_eq_reg_r (sqrt (q t))); [|lra]. rewrite Rmult_0_l. transitivity (PSeries (PS_derive c) t * (sqrt (q t) * sqrt (q t)) - (p - s * t) * PSeries c t); [field; lra|]. rewrite sqrt_def by lra. pose proof (gen_ode t ht) as e. fold (q t) in e. lra. }
  destruct (MVT_gen G 0 1 (fun _ => 0)) as [x [_ e]].
  - intros t ht. rewrite Rmin_left, Rmax_right in ht by lra. apply d. lra.
  - intros t ht. rewrite Rmin_left, Rmax_right in ht by lra. apply continuity_pt_filterlim. apply (ex_derive_continuous G t). exists 0. apply d, ht.
  - assert (G0 : G 0 = 1). { unfold G, q. rewrite PSeries_0. replace (1 - 2 * p * 0 + s * (0 * 0)) with 1 by ring. rewrite sqrt_1. unfold leg. cbn. ring. }
    assert (G1 : G 1 = PSeries c 1 * sqrt (1 - 2 * p + s)). { unfold G, q. f_equal. f_equal. ring. }
    pose proof (Hq 1 ltac:(lra)) as hq. replace (1 - 2 * p * 1 + s * (1 * 1)) with (1 - 2 * p + s) in hq by ring. assert (hs : 0 < sqrt (1 - 2 * p + s)) by (apply sqrt_lt_R0, hq).
    apply (Rmult_eq_reg_r (sqrt (1 - 2 * p + s))); [|lra]. rewrite <- G1. rewrite Rinv_l by lra. lra.
Qed.
Lemma gen_tail n : Rabs (/ sqrt (1 - 2 * p + s) - rsum (S n) c) <= sg ^ S n / (1 - sg).
Proof.
  assert (ex : ex_series (fun k => Rabs (c k))).
  { apply (@ex_series_le R_AbsRing R_CompleteNormedModule _ (fun k => sg ^ k)); [intros k; change (Rabs (Rabs (c k)) <= sg ^ k); rewrite Rabs_Rabsolu; apply Hb|]. exists (/ (1 - sg)). apply is_series_geom. rewrite Rabs_right; lra. }
  assert (e1 : / sqrt (1 - 2 * p + s) = Series c). { rewrite <- gen_value. unfold PSeries. apply Series_ext. intros k. rewrite pow1. ring. }
  assert (e2 : Series c = rsum (S n) c + Series (fun k => c (S n + k)%nat)).
  { rewrite (Series_incr_n c (S n)) by (lia || (apply ex_series_Rabs; exact ex)). f_equal. cbn [pred]. clear. induction n as [|n IH]; [cbn; ring|]. change (rsum (S (S n)) c) with (rsum (S n) c + c (S n))%R. cbn [sum_f_R0]. rewrite IH. reflexivity. }
  rewrite e1, e2. replace (rsum (S n) c + Series (fun k => c (S n + k)%nat) - rsum (S n) c) with (Series (fun k => c (S n + k)%nat)) by ring.
  assert (ex' : ex_series (fun k => Rabs (c (S n + k)%nat))) by (apply (ex_series_incr_n (fun k => Rabs (c k))); exact ex).
  eapply Rle_trans; [apply Series_Rabs, ex'|]. assert (hg : is_series (fun k => sg ^ (S n + k)) (sg ^ S n / (1 - sg))).
  { apply is_series_ext with (fun k => scal (sg ^ S n) (sg ^ k)). { intros k. rewrite pow_add. reflexivity. } apply (is_series_scal (sg ^ S n) (fun k => sg ^ k) (/ (1 - sg))). apply is_series_geom. rewrite Rabs_right; lra. }
  rewrite <- (is_series_unique _ _ hg). apply Series_le; [|exists (sg ^ S n / (1 - sg)); exact hg]. intros k. split; [apply Rabs_pos|apply Hb].
Qed.
End Gen.
Lemma leg_scale k p s n : leg (k * p) (k * k * s) n = k ^ n * leg p s n.
Proof.
  assert (h : leg (k * p) (k * k * s) n = k ^ n * leg p s n /\ leg (k * p) (k * k * s) (S n) = k ^ S n * leg p s (S n)); [|apply h].
  induction n as [|n [IH0 IH1]]; [split; unfold leg; cbn; ring|]. split; [exact IH1|]. apply (Rmult_eq_reg_l (INR (S (S n)))); [|apply not_0_INR; lia].
  rewrite leg_rec, IH0, IH1. transitivity (k ^ S (S n) * (INR (S (S n)) * leg p s (S (S n)))); [|ring]. rewrite leg_rec. cbn [pow]. ring.
Qed.
Lemma dot_norm v : vdot v v = vnorm v * vnorm v. Proof. rewrite norm_sq. reflexivity. Qed.
Lemma norm_nonneg v : 0 <= vnorm v. Proof. apply sqrt_pos. Qed.
Lemma cauchy a b : Rabs (vdot a b) <= vnorm a * vnorm b.
Proof. pose proof (leg_bound a b 1) as h. unfold leg in h. cbn in h. lra. Qed.
(** the potential of a unit charge at a, seen from b *)
Theorem coulomb_series a b n : vnorm a < vnorm b ->
  Rabs (/ vnorm (vsub b a) - rsum (S n) (fun l => leg (vdot a b) (vdot a a * vdot b b) l / vnorm b ^ (2 * l + 1))) <= (vnorm a / vnorm b) ^ S n / (vnorm b - vnorm a).
Proof.
  intros hab. pose proof (norm_nonneg a) as ha. set (A := vnorm a) in *. set (B := vnorm b) in *. assert (hB : 0 < B) by lra.
  set (k := / (B * B)). set (p := k * vdot a b). set (s := k * k * (vdot a a * vdot b b)).
  assert (es : s = A * A / (B * B)). { unfold s, k. rewrite !dot_norm. fold A B. field. lra. }
  assert (hsg : 0 <= A / B < 1). { split; [apply Rmult_le_pos; [lra|apply Rlt_le, Rinv_0_lt_compat, hB]|]. apply Rmult_lt_reg_r with B; [exact hB|]. replace (A / B * B) with A by (field; lra). lra. }
  assert (hb : forall l, Rabs (leg p s l) <= (A / B) ^ l).
  { intros l. unfold p, s. rewrite leg_scale, Rabs_mult. unfold k. rewrite (Rabs_right _ (Rle_ge _ _ (pow_le _ l (Rlt_le _ _ (Rinv_0_lt_compat _ (Rmult_lt_0_compat _ _ hB hB)))))).
    apply Rle_trans with ((/ (B * B)) ^ l * (A ^ l * B ^ l)); [apply Rmult_le_compat_l; [apply pow_le, Rlt_le, Rinv_0_lt_compat, Rmult_lt_0_compat; exact hB|apply leg_bound]|]. rewrite <- !Rpow_mult_distr. apply Req_le. f_equal. field. lra. }
  assert (hp : Rabs p <= A / B). { pose proof (hb 1%nat) as h. unfold leg in h. cbn in h. lra. }
  assert (hq : forall t, 0 <= t <= 1 -> 0 < 1 - 2 * p * t + s * (t * t)).
  { intros t ht. apply Rabs_le_between in hp. apply Rlt_le_trans with ((1 - A / B * t) * (1 - A / B * t)).
    - apply Rmult_lt_0_compat; nra.
    - rewrite es. replace (A * A / (B * B)) with (A / B * (A / B)) by (field; lra). nra. }
  pose proof (gen_tail p s (A / B) (proj1 hsg) (proj2 hsg) hb hq n) as h.
  assert (e1 : / vnorm (vsub b a) = / B * / sqrt (1 - 2 * p + s)).
  { assert (hq1 := hq 1 ltac:(lra)). replace (1 - 2 * p * 1 + s * (1 * 1)) with (1 - 2 * p + s) in hq1 by ring. rewrite <- Rinv_mult. f_equal. rewrite <- (sqrt_square B) by lra. rewrite <- sqrt_mult by nra. unfold vnorm. f_equal.
    assert (hB2 : B * B = vdot b b) by (symmetry; apply dot_norm). transitivity (vdot b b - 2 * vdot a b + vdot a a); [unfold vsub, vdot; cbn; ring|]. rewrite <- hB2. rewrite es. unfold p, k. rewrite (dot_norm a). fold A. field. lra. }
  assert (e2 : rsum (S n) (fun l => leg (vdot a b) (vdot a a * vdot b b) l / B ^ (2 * l + 1)) = / B * rsum (S n) (leg p s)).
  { rewrite <- rsum_scal. apply rsum_ext. intros l _. unfold p, s. rewrite leg_scale. unfold k. rewrite pow_add, pow_mult, pow_1. replace (B ^ 2) with (B * B) by ring. rewrite pow_inv. field. split; try (apply pow_nonzero); nra. }
  rewrite e1, e2. replace (/ B * / sqrt (1 - 2 * p + s) - / B * rsum (S n) (leg p s)) with (/ B * (/ sqrt (1 - 2 * p + s) - rsum (S n) (leg p s))) by ring. rewrite Rabs_mult. rewrite (Rabs_right (/ B)) by (apply Rle_ge, Rlt_le, Rinv_0_lt_compat, hB).
  apply Rle_trans with (/ B * ((A / B) ^ S n / (1 - A / B))); [apply Rmult_le_compat_l; [apply Rlt_le, Rinv_0_lt_compat, hB|exact h]|]. apply Req_le. field. repeat split; lra.
Qed.
