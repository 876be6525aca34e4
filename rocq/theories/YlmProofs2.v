(** Proofs about spherical harmonics: conjugation, sum of squares, spherical coordinates. *)
From Coq Require Import Reals ZArith List Bool Lia Lra.
From Verif Require Import Vec GeomModel GeomSpec GeomProofs SkModel Cpx YlmModel YlmSpec YlmProofs.
Import ListNotations.
Open Scope R_scope.

Lemma value_harmonic l m t p : (l <= 6)%nat -> (Z.abs m <= Z.of_nat l)%Z -> value l m t p = harmonic l m t p.
Proof. intros Hl Hm. destruct (formulas l m Hl Hm) as [f [E H]]. unfold value. rewrite E. apply H. Qed.
Lemma conjugates l m t p : (l <= 6)%nat -> (Z.abs m <= Z.of_nat l)%Z ->
  value l (- m) t p = cscale ((-1) ^ Z.abs_nat m) (cconj (value l m t p)).
Proof.
  intros Hl Hm. rewrite !value_harmonic by lia. rewrite !harmonic_amplitude. unfold amplitude. replace (Z.abs_nat (- m)) with (Z.abs_nat m) by lia.
  set (k := Z.abs_nat m). set (a := normalisation l k * sin t ^ k * legendre l k (cos t)).
  pose proof (sign_sq k) as S. unfold phase. rewrite opp_IZR. replace (- IZR m * p) with (- (IZR m * p)) by ring. rewrite cos_neg, sin_neg.
  destruct (Z.ltb_spec (- m) 0) as [A|A], (Z.ltb_spec m 0) as [B|B]; try lia.
  - set (e := (-1) ^ k) in *. clearbody e. apply cplx_eq; unfold cscale, cconj; cbn [fst snd]; fold a.
    + transitivity ((e * e) * (a * cos (IZR m * p))); [rewrite S; unfold a; ring|unfold a; ring].
    + transitivity ((e * e) * (a * - sin (IZR m * p))); [rewrite S; unfold a; ring|unfold a; ring].
  - apply cplx_eq; unfold cscale, cconj; cbn [fst snd]; ring.
  - assert (Z0 : k = 0%nat) by (unfold k; lia). rewrite Z0. apply cplx_eq; unfold cscale, cconj; cbn [fst snd]; simpl pow; ring.
Qed.
Lemma cabs2_phase a m p : cabs2 (cscale a (phase m p)) = a ^ 2.
Proof.
  unfold cabs2, cscale, phase. cbn [fst snd]. pose proof (sincos (IZR m * p)) as S.
  transitivity (a ^ 2 * (sin (IZR m * p) * sin (IZR m * p) + cos (IZR m * p) * cos (IZR m * p))); [ring|rewrite S; ring].
Qed.
Lemma amplitude_sq l m t : amplitude l m t ^ 2 = normalisation l (Z.abs_nat m) ^ 2 * (1 - cos t ^ 2) ^ Z.abs_nat m * legendre l (Z.abs_nat m) (cos t) ^ 2.
Proof.
  unfold amplitude. set (k := Z.abs_nat m).
  replace (1 - cos t ^ 2) with (sin t * sin t) by (pose proof (sincos t); lra). rewrite (Rpow_mult_distr (sin t) (sin t) k).
  destruct (m <? 0)%Z; [ring|]. pose proof (sign_sq k) as S. set (e := (-1) ^ k) in *. clearbody e.
  transitivity ((e * e) * (normalisation l k ^ 2 * (sin t ^ k * sin t ^ k) * legendre l k (cos t) ^ 2)); [ring|rewrite S; ring].
Qed.
Lemma sq_ratio r q : 0 <= q -> (r * sqrt q) ^ 2 = r ^ 2 * q.
Proof. intros H. rewrite Rpow_mult_distr, pow2_sqrt by exact H. reflexivity. Qed.
Lemma nsq_0_0 : normalisation 0 0 ^ 2 = 1 / 4 / PI.
Proof. rewrite norm_0_0, sq_ratio by (apply qpi; lra). pose proof PI_RGT_0. field. lra. Qed.
Lemma nsq_1_0 : normalisation 1 0 ^ 2 = 3 / 4 / PI.
Proof. rewrite norm_1_0, sq_ratio by (apply qpi; lra). pose proof PI_RGT_0. field. lra. Qed.
Lemma nsq_1_1 : normalisation 1 1 ^ 2 = 3 / 8 / PI.
Proof. rewrite norm_1_1, sq_ratio by (apply qpi2; lra). pose proof PI_RGT_0. field. lra. Qed.
Lemma nsq_2_0 : normalisation 2 0 ^ 2 = 5 / 4 / PI.
Proof. rewrite norm_2_0, sq_ratio by (apply qpi; lra). pose proof PI_RGT_0. field. lra. Qed.
Lemma nsq_2_1 : normalisation 2 1 ^ 2 = 5 / 24 / PI.
Proof. rewrite norm_2_1, sq_ratio by (apply qpi2; lra). pose proof PI_RGT_0. field. lra. Qed.
Lemma nsq_2_2 : normalisation 2 2 ^ 2 = 5 / 96 / PI.
Proof. rewrite norm_2_2, sq_ratio by (apply qpi2; lra). pose proof PI_RGT_0. field. lra. Qed.
Lemma nsq_3_0 : normalisation 3 0 ^ 2 = 7 / 4 / PI.
Proof. rewrite norm_3_0, sq_ratio by (apply qpi; lra). pose proof PI_RGT_0. field. lra. Qed.
Lemma nsq_3_1 : normalisation 3 1 ^ 2 = 7 / 48 / PI.
Proof. rewrite norm_3_1, sq_ratio by (apply qpi; lra). pose proof PI_RGT_0. field. lra. Qed.
Lemma nsq_3_2 : normalisation 3 2 ^ 2 = 7 / 480 / PI.
Proof. rewrite norm_3_2, sq_ratio by (apply qpi2; lra). pose proof PI_RGT_0. field. lra. Qed.
Lemma nsq_3_3 : normalisation 3 3 ^ 2 = 7 / 2880 / PI.
Proof. rewrite norm_3_3, sq_ratio by (apply qpi; lra). pose proof PI_RGT_0. field. lra. Qed.
Lemma nsq_4_0 : normalisation 4 0 ^ 2 = 9 / 4 / PI.
Proof. rewrite norm_4_0, sq_ratio by (apply qpi; lra). pose proof PI_RGT_0. field. lra. Qed.
Lemma nsq_4_1 : normalisation 4 1 ^ 2 = 9 / 80 / PI.
Proof. rewrite norm_4_1, sq_ratio by (apply qpi; lra). pose proof PI_RGT_0. field. lra. Qed.
Lemma nsq_4_2 : normalisation 4 2 ^ 2 = 1 / 160 / PI.
Proof. rewrite norm_4_2, sq_ratio by (apply qpi2; lra). pose proof PI_RGT_0. field. lra. Qed.
Lemma nsq_4_3 : normalisation 4 3 ^ 2 = 1 / 2240 / PI.
Proof. rewrite norm_4_3, sq_ratio by (apply qpi; lra). pose proof PI_RGT_0. field. lra. Qed.
Lemma nsq_4_4 : normalisation 4 4 ^ 2 = 1 / 17920 / PI.
Proof. rewrite norm_4_4, sq_ratio by (apply qpi2; lra). pose proof PI_RGT_0. field. lra. Qed.
Lemma nsq_5_0 : normalisation 5 0 ^ 2 = 11 / 4 / PI.
Proof. rewrite norm_5_0, sq_ratio by (apply qpi; lra). pose proof PI_RGT_0. field. lra. Qed.
Lemma nsq_5_1 : normalisation 5 1 ^ 2 = 11 / 120 / PI.
Proof. rewrite norm_5_1, sq_ratio by (apply qpi2; lra). pose proof PI_RGT_0. field. lra. Qed.
Lemma nsq_5_2 : normalisation 5 2 ^ 2 = 11 / 3360 / PI.
Proof. rewrite norm_5_2, sq_ratio by (apply qpi2; lra). pose proof PI_RGT_0. field. lra. Qed.
Lemma nsq_5_3 : normalisation 5 3 ^ 2 = 11 / 80640 / PI.
Proof. rewrite norm_5_3, sq_ratio by (apply qpi; lra). pose proof PI_RGT_0. field. lra. Qed.
Lemma nsq_5_4 : normalisation 5 4 ^ 2 = 11 / 1451520 / PI.
Proof. rewrite norm_5_4, sq_ratio by (apply qpi2; lra). pose proof PI_RGT_0. field. lra. Qed.
Lemma nsq_5_5 : normalisation 5 5 ^ 2 = 11 / 14515200 / PI.
Proof. rewrite norm_5_5, sq_ratio by (apply qpi; lra). pose proof PI_RGT_0. field. lra. Qed.
Lemma nsq_6_0 : normalisation 6 0 ^ 2 = 13 / 4 / PI.
Proof. rewrite norm_6_0, sq_ratio by (apply qpi; lra). pose proof PI_RGT_0. field. lra. Qed.
Lemma nsq_6_1 : normalisation 6 1 ^ 2 = 13 / 168 / PI.
Proof. rewrite norm_6_1, sq_ratio by (apply qpi2; lra). pose proof PI_RGT_0. field. lra. Qed.
Lemma nsq_6_2 : normalisation 6 2 ^ 2 = 13 / 6720 / PI.
Proof. rewrite norm_6_2, sq_ratio by (apply qpi; lra). pose proof PI_RGT_0. field. lra. Qed.
Lemma nsq_6_3 : normalisation 6 3 ^ 2 = 13 / 241920 / PI.
Proof. rewrite norm_6_3, sq_ratio by (apply qpi; lra). pose proof PI_RGT_0. field. lra. Qed.
Lemma nsq_6_4 : normalisation 6 4 ^ 2 = 13 / 7257600 / PI.
Proof. rewrite norm_6_4, sq_ratio by (apply qpi2; lra). pose proof PI_RGT_0. field. lra. Qed.
Lemma nsq_6_5 : normalisation 6 5 ^ 2 = 13 / 159667200 / PI.
Proof. rewrite norm_6_5, sq_ratio by (apply qpi; lra). pose proof PI_RGT_0. field. lra. Qed.
Lemma nsq_6_6 : normalisation 6 6 ^ 2 = 13 / 1916006400 / PI.
Proof. rewrite norm_6_6, sq_ratio by (apply qpi; lra). pose proof PI_RGT_0. field. lra. Qed.
Lemma addition_0 t p : sum_m 0 (fun m => cabs2 (value 0 m t p)) = 1 / (4 * PI).
Proof.
  unfold sum_m. rewrite (rsum_ext _ _ (fun i => amplitude 0 (Z.of_nat i - Z.of_nat 0) t ^ 2)).
  2:{ intros i Hi. rewrite value_harmonic by lia. rewrite harmonic_amplitude. apply cabs2_phase. }
  rewrite (rsum_ext _ _ (fun i => let k := Z.abs_nat (Z.of_nat i - Z.of_nat 0) in normalisation 0 k ^ 2 * (1 - cos t ^ 2) ^ k * legendre 0 k (cos t) ^ 2)) by (intros i Hi; apply amplitude_sq).
  cbn [Nat.mul Nat.add rsum].
  change (Z.abs_nat (Z.of_nat 0 - Z.of_nat 0)) with 0%nat.
  cbv zeta. rewrite ?nsq_0_0, ?leg_0_0.
  generalize (cos t). intros c. pose proof PI_RGT_0. field. lra.
Qed.
Lemma addition_1 t p : sum_m 1 (fun m => cabs2 (value 1 m t p)) = 3 / (4 * PI).
Proof.
  unfold sum_m. rewrite (rsum_ext _ _ (fun i => amplitude 1 (Z.of_nat i - Z.of_nat 1) t ^ 2)).
  2:{ intros i Hi. rewrite value_harmonic by lia. rewrite harmonic_amplitude. apply cabs2_phase. }
  rewrite (rsum_ext _ _ (fun i => let k := Z.abs_nat (Z.of_nat i - Z.of_nat 1) in normalisation 1 k ^ 2 * (1 - cos t ^ 2) ^ k * legendre 1 k (cos t) ^ 2)) by (intros i Hi; apply amplitude_sq).
  cbn [Nat.mul Nat.add rsum].
  change (Z.abs_nat (Z.of_nat 0 - Z.of_nat 1)) with 1%nat.
  change (Z.abs_nat (Z.of_nat 1 - Z.of_nat 1)) with 0%nat.
  change (Z.abs_nat (Z.of_nat 2 - Z.of_nat 1)) with 1%nat.
  cbv zeta. rewrite ?nsq_1_0, ?leg_1_0, ?nsq_1_1, ?leg_1_1.
  generalize (cos t). intros c. pose proof PI_RGT_0. field. lra.
Qed.
Lemma addition_2 t p : sum_m 2 (fun m => cabs2 (value 2 m t p)) = 5 / (4 * PI).
Proof.
  unfold sum_m. rewrite (rsum_ext _ _ (fun i => amplitude 2 (Z.of_nat i - Z.of_nat 2) t ^ 2)).
  2:{ intros i Hi. rewrite value_harmonic by lia. rewrite harmonic_amplitude. apply cabs2_phase. }
  rewrite (rsum_ext _ _ (fun i => let k := Z.abs_nat (Z.of_nat i - Z.of_nat 2) in normalisation 2 k ^ 2 * (1 - cos t ^ 2) ^ k * legendre 2 k (cos t) ^ 2)) by (intros i Hi; apply amplitude_sq).
  cbn [Nat.mul Nat.add rsum].
  change (Z.abs_nat (Z.of_nat 0 - Z.of_nat 2)) with 2%nat.
  change (Z.abs_nat (Z.of_nat 1 - Z.of_nat 2)) with 1%nat.
  change (Z.abs_nat (Z.of_nat 2 - Z.of_nat 2)) with 0%nat.
  change (Z.abs_nat (Z.of_nat 3 - Z.of_nat 2)) with 1%nat.
  change (Z.abs_nat (Z.of_nat 4 - Z.of_nat 2)) with 2%nat.
  cbv zeta. rewrite ?nsq_2_0, ?leg_2_0, ?nsq_2_1, ?leg_2_1, ?nsq_2_2, ?leg_2_2.
  generalize (cos t). intros c. pose proof PI_RGT_0. field. lra.
Qed.
Lemma addition_3 t p : sum_m 3 (fun m => cabs2 (value 3 m t p)) = 7 / (4 * PI).
Proof.
  unfold sum_m. rewrite (rsum_ext _ _ (fun i => amplitude 3 (Z.of_nat i - Z.of_nat 3) t ^ 2)).
  2:{ intros i Hi. rewrite value_harmonic by lia. rewrite harmonic_amplitude. apply cabs2_phase. }
  rewrite (rsum_ext _ _ (fun i => let k := Z.abs_nat (Z.of_nat i - Z.of_nat 3) in normalisation 3 k ^ 2 * (1 - cos t ^ 2) ^ k * legendre 3 k (cos t) ^ 2)) by (intros i Hi; apply amplitude_sq).
  cbn [Nat.mul Nat.add rsum].
  change (Z.abs_nat (Z.of_nat 0 - Z.of_nat 3)) with 3%nat.
  change (Z.abs_nat (Z.of_nat 1 - Z.of_nat 3)) with 2%nat.
  change (Z.abs_nat (Z.of_nat 2 - Z.of_nat 3)) with 1%nat.
  change (Z.abs_nat (Z.of_nat 3 - Z.of_nat 3)) with 0%nat.
  change (Z.abs_nat (Z.of_nat 4 - Z.of_nat 3)) with 1%nat.
  change (Z.abs_nat (Z.of_nat 5 - Z.of_nat 3)) with 2%nat.
  change (Z.abs_nat (Z.of_nat 6 - Z.of_nat 3)) with 3%nat.
  cbv zeta. rewrite ?nsq_3_0, ?leg_3_0, ?nsq_3_1, ?leg_3_1, ?nsq_3_2, ?leg_3_2, ?nsq_3_3, ?leg_3_3.
  generalize (cos t). intros c. pose proof PI_RGT_0. field. lra.
Qed.
Lemma addition_4 t p : sum_m 4 (fun m => cabs2 (value 4 m t p)) = 9 / (4 * PI).
Proof.
  unfold sum_m. rewrite (rsum_ext _ _ (fun i => amplitude 4 (Z.of_nat i - Z.of_nat 4) t ^ 2)).
  2:{ intros i Hi. rewrite value_harmonic by lia. rewrite harmonic_amplitude. apply cabs2_phase. }
  rewrite (rsum_ext _ _ (fun i => let k := Z.abs_nat (Z.of_nat i - Z.of_nat 4) in normalisation 4 k ^ 2 * (1 - cos t ^ 2) ^ k * legendre 4 k (cos t) ^ 2)) by (intros i Hi; apply amplitude_sq).
  cbn [Nat.mul Nat.add rsum].
  change (Z.abs_nat (Z.of_nat 0 - Z.of_nat 4)) with 4%nat.
  change (Z.abs_nat (Z.of_nat 1 - Z.of_nat 4)) with 3%nat.
  change (Z.abs_nat (Z.of_nat 2 - Z.of_nat 4)) with 2%nat.
  change (Z.abs_nat (Z.of_nat 3 - Z.of_nat 4)) with 1%nat.
  change (Z.abs_nat (Z.of_nat 4 - Z.of_nat 4)) with 0%nat.
  change (Z.abs_nat (Z.of_nat 5 - Z.of_nat 4)) with 1%nat.
  change (Z.abs_nat (Z.of_nat 6 - Z.of_nat 4)) with 2%nat.
  change (Z.abs_nat (Z.of_nat 7 - Z.of_nat 4)) with 3%nat.
  change (Z.abs_nat (Z.of_nat 8 - Z.of_nat 4)) with 4%nat.
  cbv zeta. rewrite ?nsq_4_0, ?leg_4_0, ?nsq_4_1, ?leg_4_1, ?nsq_4_2, ?leg_4_2, ?nsq_4_3, ?leg_4_3, ?nsq_4_4, ?leg_4_4.
  generalize (cos t). intros c. pose proof PI_RGT_0. field. lra.
Qed.
Lemma addition_5 t p : sum_m 5 (fun m => cabs2 (value 5 m t p)) = 11 / (4 * PI).
Proof.
  unfold sum_m. rewrite (rsum_ext _ _ (fun i => amplitude 5 (Z.of_nat i - Z.of_nat 5) t ^ 2)).
  2:{ intros i Hi. rewrite value_harmonic by lia. rewrite harmonic_amplitude. apply cabs2_phase. }
  rewrite (rsum_ext _ _ (fun i => let k := Z.abs_nat (Z.of_nat i - Z.of_nat 5) in normalisation 5 k ^ 2 * (1 - cos t ^ 2) ^ k * legendre 5 k (cos t) ^ 2)) by (intros i Hi; apply amplitude_sq).
  cbn [Nat.mul Nat.add rsum].
  change (Z.abs_nat (Z.of_nat 0 - Z.of_nat 5)) with 5%nat.
  change (Z.abs_nat (Z.of_nat 1 - Z.of_nat 5)) with 4%nat.
  change (Z.abs_nat (Z.of_nat 2 - Z.of_nat 5)) with 3%nat.
  change (Z.abs_nat (Z.of_nat 3 - Z.of_nat 5)) with 2%nat.
  change (Z.abs_nat (Z.of_nat 4 - Z.of_nat 5)) with 1%nat.
  change (Z.abs_nat (Z.of_nat 5 - Z.of_nat 5)) with 0%nat.
  change (Z.abs_nat (Z.of_nat 6 - Z.of_nat 5)) with 1%nat.
  change (Z.abs_nat (Z.of_nat 7 - Z.of_nat 5)) with 2%nat.
  change (Z.abs_nat (Z.of_nat 8 - Z.of_nat 5)) with 3%nat.
  change (Z.abs_nat (Z.of_nat 9 - Z.of_nat 5)) with 4%nat.
  change (Z.abs_nat (Z.of_nat 10 - Z.of_nat 5)) with 5%nat.
  cbv zeta. rewrite ?nsq_5_0, ?leg_5_0, ?nsq_5_1, ?leg_5_1, ?nsq_5_2, ?leg_5_2, ?nsq_5_3, ?leg_5_3, ?nsq_5_4, ?leg_5_4, ?nsq_5_5, ?leg_5_5.
  generalize (cos t). intros c. pose proof PI_RGT_0. field. lra.
Qed.
Lemma addition_6 t p : sum_m 6 (fun m => cabs2 (value 6 m t p)) = 13 / (4 * PI).
Proof.
  unfold sum_m. rewrite (rsum_ext _ _ (fun i => amplitude 6 (Z.of_nat i - Z.of_nat 6) t ^ 2)).
  2:{ intros i Hi. rewrite value_harmonic by lia. rewrite harmonic_amplitude. apply cabs2_phase. }
  rewrite (rsum_ext _ _ (fun i => let k := Z.abs_nat (Z.of_nat i - Z.of_nat 6) in normalisation 6 k ^ 2 * (1 - cos t ^ 2) ^ k * legendre 6 k (cos t) ^ 2)) by (intros i Hi; apply amplitude_sq).
  cbn [Nat.mul Nat.add rsum].
  change (Z.abs_nat (Z.of_nat 0 - Z.of_nat 6)) with 6%nat.
  change (Z.abs_nat (Z.of_nat 1 - Z.of_nat 6)) with 5%nat.
  change (Z.abs_nat (Z.of_nat 2 - Z.of_nat 6)) with 4%nat.
  change (Z.abs_nat (Z.of_nat 3 - Z.of_nat 6)) with 3%nat.
  change (Z.abs_nat (Z.of_nat 4 - Z.of_nat 6)) with 2%nat.
  change (Z.abs_nat (Z.of_nat 5 - Z.of_nat 6)) with 1%nat.
  change (Z.abs_nat (Z.of_nat 6 - Z.of_nat 6)) with 0%nat.
  change (Z.abs_nat (Z.of_nat 7 - Z.of_nat 6)) with 1%nat.
  change (Z.abs_nat (Z.of_nat 8 - Z.of_nat 6)) with 2%nat.
  change (Z.abs_nat (Z.of_nat 9 - Z.of_nat 6)) with 3%nat.
  change (Z.abs_nat (Z.of_nat 10 - Z.of_nat 6)) with 4%nat.
  change (Z.abs_nat (Z.of_nat 11 - Z.of_nat 6)) with 5%nat.
  change (Z.abs_nat (Z.of_nat 12 - Z.of_nat 6)) with 6%nat.
  cbv zeta. rewrite ?nsq_6_0, ?leg_6_0, ?nsq_6_1, ?leg_6_1, ?nsq_6_2, ?leg_6_2, ?nsq_6_3, ?leg_6_3, ?nsq_6_4, ?leg_6_4, ?nsq_6_5, ?leg_6_5, ?nsq_6_6, ?leg_6_6.
  generalize (cos t). intros c. pose proof PI_RGT_0. field. lra.
Qed.
Lemma addition l t p : (l <= 6)%nat -> sum_m l (fun m => cabs2 (value l m t p)) = IZR (2 * Z.of_nat l + 1) / (4 * PI).
Proof.
  intros H. destruct l as [|[|[|[|[|[|[|l]]]]]]]; [| | | | | | |lia].
  - exact (addition_0 t p).
  - exact (addition_1 t p).
  - exact (addition_2 t p).
  - exact (addition_3 t p).
  - exact (addition_4 t p).
  - exact (addition_5 t p).
  - exact (addition_6 t p).
Qed.
(** ** Spherical coordinates *)
Lemma spherical v : resolved (vx v) -> resolved (vy v) -> / 10 ^ 6 <= vnorm v ->
  exists r t p, to_spherical_coordinates v = Some (r, t, p) /\ r = vnorm v /\ 0 <= t <= PI /\ 0 <= p < 2 * PI /\ from_spherical r t p = v.
Proof.
  intros H1 H2 Hn. destruct (phival_polar _ _ H1 H2) as [p [E [B [C S]]]].
  assert (P : 0 < / 10 ^ 6) by (apply Rinv_0_lt_compat, pow_lt; lra).
  unfold to_spherical_coordinates. unfold ltb. destruct (Rlt_dec (vnorm v) (/ 10 ^ 6)) as [N|_]; [lra|]. rewrite E.
  pose proof (vnorm_sq v) as Q. set (r := vnorm v) in *. destruct v as [x y z]. unfold vdot in Q. cbn [vx vy vz] in *.
  assert (Z : -1 <= z / r <= 1).
  { split; apply Rmult_le_reg_r with r; try lra; unfold Rdiv; rewrite Rmult_assoc, Rinv_l by lra; nra. }
  pose proof (acos_bound (z / r)) as Ab.
  unfold leb. destruct (Rle_dec 0 (acos (z / r))); [|lra]. destruct (Rle_dec (acos (z / r)) PI); [|lra].
  destruct (Rle_dec 0 p); [|lra]. destruct (Rle_dec p (2 * PI)); [|lra]. cbn [andb].
  exists r, (acos (z / r)), p. split; [reflexivity|]. split; [reflexivity|]. split; [lra|]. split; [lra|].
  unfold from_spherical. rewrite cos_acos, sin_acos by exact Z.
  replace (sqrt (1 - (z / r)²)) with (sqrt (x ^ 2 + y ^ 2) / r).
  - apply v3_eq; cbn [vx vy vz].
    + rewrite C at 2. field. lra.
    + rewrite S at 2. field. lra.
    + field. lra.
  - replace (1 - (z / r)²) with ((x ^ 2 + y ^ 2) * Rsqr (/ r)).
    + rewrite sqrt_mult by (try apply Rle_0_sqr; nra). rewrite sqrt_Rsqr by (apply Rlt_le, Rinv_0_lt_compat; lra). reflexivity.
    + unfold Rsqr. replace (x ^ 2 + y ^ 2) with (r * r - z * z) by lra. field. lra.
Qed.
Example ex_spherical : exists r t p, to_spherical_coordinates (V3 0 2 1) = Some (r, t, p) /\ from_spherical r t p = V3 0 2 1.
Proof.
  destruct (spherical (V3 0 2 1)) as [r [t [p [E [_ [_ [_ F]]]]]]].
  - left. reflexivity.
  - right. cbn [vy]. rewrite Rabs_right by lra. unfold e16. apply Rlt_trans with (/ 1); [apply Rinv_lt_contravar; [simpl; lra|simpl; lra]|lra].
  - unfold vnorm, vdot. cbn [vx vy vz]. apply Rle_trans with (sqrt 1); [rewrite sqrt_1; simpl; lra|apply sqrt_le_1; lra].
  - exists r, t, p. split; assumption.
Qed.
