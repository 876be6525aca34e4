(** Proofs about spherical harmonics: the formulas are the harmonics of the definition. *)
From Coq Require Import Reals ZArith List Bool Lia Lra.
From Verif Require Import Vec GeomModel SkModel Cpx YlmModel YlmSpec.
Import ListNotations.
Open Scope R_scope.

(** the real factor *)
Definition amplitude (l : nat) (m : Z) (theta : R) : R :=
  (if (m <? 0)%Z then 1 else (-1) ^ Z.abs_nat m) * normalisation l (Z.abs_nat m) * sin theta ^ Z.abs_nat m * legendre l (Z.abs_nat m) (cos theta).
Lemma sign_sq k : (-1) ^ k * (-1) ^ k = 1.
Proof. rewrite <- Rpow_mult_distr. replace (-1 * -1) with 1 by ring. apply pow1. Qed.
Lemma harmonic_amplitude l m theta phi : harmonic l m theta phi = cscale (amplitude l m theta) (phase m phi).
Proof.
  unfold harmonic, amplitude, harmonic_nonneg. change (expi (Z.of_nat (Z.abs_nat m)) phi) with (phase (Z.of_nat (Z.abs_nat m)) phi). destruct (Z.ltb_spec m 0) as [H|H].
  - set (k := Z.abs_nat m). replace m with (- Z.of_nat k)%Z by (unfold k; lia). unfold phase, cconj, cscale. cbn [fst snd].
    rewrite opp_IZR. replace (- IZR (Z.of_nat k) * phi) with (- (IZR (Z.of_nat k) * phi)) by ring. rewrite cos_neg, sin_neg.
    pose proof (sign_sq k) as S. generalize dependent ((-1) ^ k). intros e S. apply cplx_eq; cbn [fst snd].
    + transitivity (e * e * (normalisation l k * sin theta ^ k * legendre l k (cos theta) * cos (IZR (Z.of_nat k) * phi))); [ring|rewrite S; ring].
    + transitivity (e * e * (normalisation l k * sin theta ^ k * legendre l k (cos theta) * - sin (IZR (Z.of_nat k) * phi))); [ring|rewrite S; ring].
  - replace (Z.of_nat (Z.abs_nat m)) with m by lia. reflexivity.
Qed.
Lemma sqrt_ratio A r q : 0 <= r -> 0 <= q -> A = r ^ 2 * q -> sqrt A = r * sqrt q.
Proof. intros Hr Hq ->. rewrite sqrt_mult by (try assumption; nra). rewrite sqrt_pow2 by exact Hr. reflexivity. Qed.
Lemma qpi x : 0 < x -> 0 <= x / PI.
Proof. intros H. apply Rlt_le, Rdiv_lt_0_compat; [exact H|apply PI_RGT_0]. Qed.
Lemma qpi2 x : 0 < x -> 0 <= x / (2 * PI).
Proof. intros H. apply Rlt_le, Rdiv_lt_0_compat; [exact H|pose proof PI_RGT_0; lra]. Qed.
(** the tables *)
Lemma norm_0_0 : normalisation 0 0 = (1 / 2) * sqrt (1 / PI).
Proof.
  unfold normalisation. apply sqrt_ratio; [lra|apply qpi; lra|].
  change (2 * Z.of_nat 0 + 1)%Z with 1%Z. change (zfact (0 - 0)) with 1%Z. change (zfact (0 + 0)) with 1%Z.
  pose proof PI_RGT_0. field. lra.
Qed.
Lemma leg_0_0 x : legendre 0 0 x = (1) * x ^ 0.
Proof.
  unfold legendre. change (rodrigues 0 0) with [1%Z]. change (2 ^ Z.of_nat 0 * zfact 0)%Z with 1%Z. cbn [peval]. field.
Qed.
Lemma norm_1_0 : normalisation 1 0 = (1 / 2) * sqrt (3 / PI).
Proof.
  unfold normalisation. apply sqrt_ratio; [lra|apply qpi; lra|].
  change (2 * Z.of_nat 1 + 1)%Z with 3%Z. change (zfact (1 - 0)) with 1%Z. change (zfact (1 + 0)) with 1%Z.
  pose proof PI_RGT_0. field. lra.
Qed.
Lemma leg_1_0 x : legendre 1 0 x = (1) * x ^ 1.
Proof.
  unfold legendre. change (rodrigues 1 0) with [0%Z; 2%Z]. change (2 ^ Z.of_nat 1 * zfact 1)%Z with 2%Z. cbn [peval]. field.
Qed.
Lemma norm_1_1 : normalisation 1 1 = (1 / 2) * sqrt (3 / (2 * PI)).
Proof.
  unfold normalisation. apply sqrt_ratio; [lra|apply qpi2; lra|].
  change (2 * Z.of_nat 1 + 1)%Z with 3%Z. change (zfact (1 - 1)) with 1%Z. change (zfact (1 + 1)) with 2%Z.
  pose proof PI_RGT_0. field. lra.
Qed.
Lemma leg_1_1 x : legendre 1 1 x = (1) * x ^ 0.
Proof.
  unfold legendre. change (rodrigues 1 1) with [2%Z]. change (2 ^ Z.of_nat 1 * zfact 1)%Z with 2%Z. cbn [peval]. field.
Qed.
Lemma norm_2_0 : normalisation 2 0 = (1 / 2) * sqrt (5 / PI).
Proof.
  unfold normalisation. apply sqrt_ratio; [lra|apply qpi; lra|].
  change (2 * Z.of_nat 2 + 1)%Z with 5%Z. change (zfact (2 - 0)) with 2%Z. change (zfact (2 + 0)) with 2%Z.
  pose proof PI_RGT_0. field. lra.
Qed.
Lemma leg_2_0 x : legendre 2 0 x = (-1 / 2) * x ^ 0 + (3 / 2) * x ^ 2.
Proof.
  unfold legendre. change (rodrigues 2 0) with [(-4)%Z; 0%Z; 12%Z]. change (2 ^ Z.of_nat 2 * zfact 2)%Z with 8%Z. cbn [peval]. field.
Qed.
Lemma norm_2_1 : normalisation 2 1 = (1 / 6) * sqrt (15 / (2 * PI)).
Proof.
  unfold normalisation. apply sqrt_ratio; [lra|apply qpi2; lra|].
  change (2 * Z.of_nat 2 + 1)%Z with 5%Z. change (zfact (2 - 1)) with 1%Z. change (zfact (2 + 1)) with 6%Z.
  pose proof PI_RGT_0. field. lra.
Qed.
Lemma leg_2_1 x : legendre 2 1 x = (3) * x ^ 1.
Proof.
  unfold legendre. change (rodrigues 2 1) with [0%Z; 24%Z]. change (2 ^ Z.of_nat 2 * zfact 2)%Z with 8%Z. cbn [peval]. field.
Qed.
Lemma norm_2_2 : normalisation 2 2 = (1 / 12) * sqrt (15 / (2 * PI)).
Proof.
  unfold normalisation. apply sqrt_ratio; [lra|apply qpi2; lra|].
  change (2 * Z.of_nat 2 + 1)%Z with 5%Z. change (zfact (2 - 2)) with 1%Z. change (zfact (2 + 2)) with 24%Z.
  pose proof PI_RGT_0. field. lra.
Qed.
Lemma leg_2_2 x : legendre 2 2 x = (3) * x ^ 0.
Proof.
  unfold legendre. change (rodrigues 2 2) with [24%Z]. change (2 ^ Z.of_nat 2 * zfact 2)%Z with 8%Z. cbn [peval]. field.
Qed.
Lemma norm_3_0 : normalisation 3 0 = (1 / 2) * sqrt (7 / PI).
Proof.
  unfold normalisation. apply sqrt_ratio; [lra|apply qpi; lra|].
  change (2 * Z.of_nat 3 + 1)%Z with 7%Z. change (zfact (3 - 0)) with 6%Z. change (zfact (3 + 0)) with 6%Z.
  pose proof PI_RGT_0. field. lra.
Qed.
Lemma leg_3_0 x : legendre 3 0 x = (-3 / 2) * x ^ 1 + (5 / 2) * x ^ 3.
Proof.
  unfold legendre. change (rodrigues 3 0) with [0%Z; (-72)%Z; 0%Z; 120%Z]. change (2 ^ Z.of_nat 3 * zfact 3)%Z with 48%Z. cbn [peval]. field.
Qed.
Lemma norm_3_1 : normalisation 3 1 = (1 / 12) * sqrt (21 / PI).
Proof.
  unfold normalisation. apply sqrt_ratio; [lra|apply qpi; lra|].
  change (2 * Z.of_nat 3 + 1)%Z with 7%Z. change (zfact (3 - 1)) with 2%Z. change (zfact (3 + 1)) with 24%Z.
  pose proof PI_RGT_0. field. lra.
Qed.
Lemma leg_3_1 x : legendre 3 1 x = (-3 / 2) * x ^ 0 + (15 / 2) * x ^ 2.
Proof.
  unfold legendre. change (rodrigues 3 1) with [(-72)%Z; 0%Z; 360%Z]. change (2 ^ Z.of_nat 3 * zfact 3)%Z with 48%Z. cbn [peval]. field.
Qed.
Lemma norm_3_2 : normalisation 3 2 = (1 / 60) * sqrt (105 / (2 * PI)).
Proof.
  unfold normalisation. apply sqrt_ratio; [lra|apply qpi2; lra|].
  change (2 * Z.of_nat 3 + 1)%Z with 7%Z. change (zfact (3 - 2)) with 1%Z. change (zfact (3 + 2)) with 120%Z.
  pose proof PI_RGT_0. field. lra.
Qed.
Lemma leg_3_2 x : legendre 3 2 x = (15) * x ^ 1.
Proof.
  unfold legendre. change (rodrigues 3 2) with [0%Z; 720%Z]. change (2 ^ Z.of_nat 3 * zfact 3)%Z with 48%Z. cbn [peval]. field.
Qed.
Lemma norm_3_3 : normalisation 3 3 = (1 / 120) * sqrt (35 / PI).
Proof.
  unfold normalisation. apply sqrt_ratio; [lra|apply qpi; lra|].
  change (2 * Z.of_nat 3 + 1)%Z with 7%Z. change (zfact (3 - 3)) with 1%Z. change (zfact (3 + 3)) with 720%Z.
  pose proof PI_RGT_0. field. lra.
Qed.
Lemma leg_3_3 x : legendre 3 3 x = (15) * x ^ 0.
Proof.
  unfold legendre. change (rodrigues 3 3) with [720%Z]. change (2 ^ Z.of_nat 3 * zfact 3)%Z with 48%Z. cbn [peval]. field.
Qed.
Lemma norm_4_0 : normalisation 4 0 = (3 / 2) * sqrt (1 / PI).
Proof.
  unfold normalisation. apply sqrt_ratio; [lra|apply qpi; lra|].
  change (2 * Z.of_nat 4 + 1)%Z with 9%Z. change (zfact (4 - 0)) with 24%Z. change (zfact (4 + 0)) with 24%Z.
  pose proof PI_RGT_0. field. lra.
Qed.
Lemma leg_4_0 x : legendre 4 0 x = (3 / 8) * x ^ 0 + (-15 / 4) * x ^ 2 + (35 / 8) * x ^ 4.
Proof.
  unfold legendre. change (rodrigues 4 0) with [144%Z; 0%Z; (-1440)%Z; 0%Z; 1680%Z]. change (2 ^ Z.of_nat 4 * zfact 4)%Z with 384%Z. cbn [peval]. field.
Qed.
Lemma norm_4_1 : normalisation 4 1 = (3 / 20) * sqrt (5 / PI).
Proof.
  unfold normalisation. apply sqrt_ratio; [lra|apply qpi; lra|].
  change (2 * Z.of_nat 4 + 1)%Z with 9%Z. change (zfact (4 - 1)) with 6%Z. change (zfact (4 + 1)) with 120%Z.
  pose proof PI_RGT_0. field. lra.
Qed.
Lemma leg_4_1 x : legendre 4 1 x = (-15 / 2) * x ^ 1 + (35 / 2) * x ^ 3.
Proof.
  unfold legendre. change (rodrigues 4 1) with [0%Z; (-2880)%Z; 0%Z; 6720%Z]. change (2 ^ Z.of_nat 4 * zfact 4)%Z with 384%Z. cbn [peval]. field.
Qed.
Lemma norm_4_2 : normalisation 4 2 = (1 / 20) * sqrt (5 / (2 * PI)).
Proof.
  unfold normalisation. apply sqrt_ratio; [lra|apply qpi2; lra|].
  change (2 * Z.of_nat 4 + 1)%Z with 9%Z. change (zfact (4 - 2)) with 2%Z. change (zfact (4 + 2)) with 720%Z.
  pose proof PI_RGT_0. field. lra.
Qed.
Lemma leg_4_2 x : legendre 4 2 x = (-15 / 2) * x ^ 0 + (105 / 2) * x ^ 2.
Proof.
  unfold legendre. change (rodrigues 4 2) with [(-2880)%Z; 0%Z; 20160%Z]. change (2 ^ Z.of_nat 4 * zfact 4)%Z with 384%Z. cbn [peval]. field.
Qed.
Lemma norm_4_3 : normalisation 4 3 = (1 / 280) * sqrt (35 / PI).
Proof.
  unfold normalisation. apply sqrt_ratio; [lra|apply qpi; lra|].
  change (2 * Z.of_nat 4 + 1)%Z with 9%Z. change (zfact (4 - 3)) with 1%Z. change (zfact (4 + 3)) with 5040%Z.
  pose proof PI_RGT_0. field. lra.
Qed.
Lemma leg_4_3 x : legendre 4 3 x = (105) * x ^ 1.
Proof.
  unfold legendre. change (rodrigues 4 3) with [0%Z; 40320%Z]. change (2 ^ Z.of_nat 4 * zfact 4)%Z with 384%Z. cbn [peval]. field.
Qed.
Lemma norm_4_4 : normalisation 4 4 = (1 / 560) * sqrt (35 / (2 * PI)).
Proof.
  unfold normalisation. apply sqrt_ratio; [lra|apply qpi2; lra|].
  change (2 * Z.of_nat 4 + 1)%Z with 9%Z. change (zfact (4 - 4)) with 1%Z. change (zfact (4 + 4)) with 40320%Z.
  pose proof PI_RGT_0. field. lra.
Qed.
Lemma leg_4_4 x : legendre 4 4 x = (105) * x ^ 0.
Proof.
  unfold legendre. change (rodrigues 4 4) with [40320%Z]. change (2 ^ Z.of_nat 4 * zfact 4)%Z with 384%Z. cbn [peval]. field.
Qed.
Lemma norm_5_0 : normalisation 5 0 = (1 / 2) * sqrt (11 / PI).
Proof.
  unfold normalisation. apply sqrt_ratio; [lra|apply qpi; lra|].
  change (2 * Z.of_nat 5 + 1)%Z with 11%Z. change (zfact (5 - 0)) with 120%Z. change (zfact (5 + 0)) with 120%Z.
  pose proof PI_RGT_0. field. lra.
Qed.
Lemma leg_5_0 x : legendre 5 0 x = (15 / 8) * x ^ 1 + (-35 / 4) * x ^ 3 + (63 / 8) * x ^ 5.
Proof.
  unfold legendre. change (rodrigues 5 0) with [0%Z; 7200%Z; 0%Z; (-33600)%Z; 0%Z; 30240%Z]. change (2 ^ Z.of_nat 5 * zfact 5)%Z with 3840%Z. cbn [peval]. field.
Qed.
Lemma norm_5_1 : normalisation 5 1 = (1 / 30) * sqrt (165 / (2 * PI)).
Proof.
  unfold normalisation. apply sqrt_ratio; [lra|apply qpi2; lra|].
  change (2 * Z.of_nat 5 + 1)%Z with 11%Z. change (zfact (5 - 1)) with 24%Z. change (zfact (5 + 1)) with 720%Z.
  pose proof PI_RGT_0. field. lra.
Qed.
Lemma leg_5_1 x : legendre 5 1 x = (15 / 8) * x ^ 0 + (-105 / 4) * x ^ 2 + (315 / 8) * x ^ 4.
Proof.
  unfold legendre. change (rodrigues 5 1) with [7200%Z; 0%Z; (-100800)%Z; 0%Z; 151200%Z]. change (2 ^ Z.of_nat 5 * zfact 5)%Z with 3840%Z. cbn [peval]. field.
Qed.
Lemma norm_5_2 : normalisation 5 2 = (1 / 420) * sqrt (1155 / (2 * PI)).
Proof.
  unfold normalisation. apply sqrt_ratio; [lra|apply qpi2; lra|].
  change (2 * Z.of_nat 5 + 1)%Z with 11%Z. change (zfact (5 - 2)) with 6%Z. change (zfact (5 + 2)) with 5040%Z.
  pose proof PI_RGT_0. field. lra.
Qed.
Lemma leg_5_2 x : legendre 5 2 x = (-105 / 2) * x ^ 1 + (315 / 2) * x ^ 3.
Proof.
  unfold legendre. change (rodrigues 5 2) with [0%Z; (-201600)%Z; 0%Z; 604800%Z]. change (2 ^ Z.of_nat 5 * zfact 5)%Z with 3840%Z. cbn [peval]. field.
Qed.
Lemma norm_5_3 : normalisation 5 3 = (1 / 1680) * sqrt (385 / PI).
Proof.
  unfold normalisation. apply sqrt_ratio; [lra|apply qpi; lra|].
  change (2 * Z.of_nat 5 + 1)%Z with 11%Z. change (zfact (5 - 3)) with 2%Z. change (zfact (5 + 3)) with 40320%Z.
  pose proof PI_RGT_0. field. lra.
Qed.
Lemma leg_5_3 x : legendre 5 3 x = (-105 / 2) * x ^ 0 + (945 / 2) * x ^ 2.
Proof.
  unfold legendre. change (rodrigues 5 3) with [(-201600)%Z; 0%Z; 1814400%Z]. change (2 ^ Z.of_nat 5 * zfact 5)%Z with 3840%Z. cbn [peval]. field.
Qed.
Lemma norm_5_4 : normalisation 5 4 = (1 / 5040) * sqrt (385 / (2 * PI)).
Proof.
  unfold normalisation. apply sqrt_ratio; [lra|apply qpi2; lra|].
  change (2 * Z.of_nat 5 + 1)%Z with 11%Z. change (zfact (5 - 4)) with 1%Z. change (zfact (5 + 4)) with 362880%Z.
  pose proof PI_RGT_0. field. lra.
Qed.
Lemma leg_5_4 x : legendre 5 4 x = (945) * x ^ 1.
Proof.
  unfold legendre. change (rodrigues 5 4) with [0%Z; 3628800%Z]. change (2 ^ Z.of_nat 5 * zfact 5)%Z with 3840%Z. cbn [peval]. field.
Qed.
Lemma norm_5_5 : normalisation 5 5 = (1 / 10080) * sqrt (77 / PI).
Proof.
  unfold normalisation. apply sqrt_ratio; [lra|apply qpi; lra|].
  change (2 * Z.of_nat 5 + 1)%Z with 11%Z. change (zfact (5 - 5)) with 1%Z. change (zfact (5 + 5)) with 3628800%Z.
  pose proof PI_RGT_0. field. lra.
Qed.
Lemma leg_5_5 x : legendre 5 5 x = (945) * x ^ 0.
Proof.
  unfold legendre. change (rodrigues 5 5) with [3628800%Z]. change (2 ^ Z.of_nat 5 * zfact 5)%Z with 3840%Z. cbn [peval]. field.
Qed.
Lemma norm_6_0 : normalisation 6 0 = (1 / 2) * sqrt (13 / PI).
Proof.
  unfold normalisation. apply sqrt_ratio; [lra|apply qpi; lra|].
  change (2 * Z.of_nat 6 + 1)%Z with 13%Z. change (zfact (6 - 0)) with 720%Z. change (zfact (6 + 0)) with 720%Z.
  pose proof PI_RGT_0. field. lra.
Qed.
Lemma leg_6_0 x : legendre 6 0 x = (-5 / 16) * x ^ 0 + (105 / 16) * x ^ 2 + (-315 / 16) * x ^ 4 + (231 / 16) * x ^ 6.
Proof.
  unfold legendre. change (rodrigues 6 0) with [(-14400)%Z; 0%Z; 302400%Z; 0%Z; (-907200)%Z; 0%Z; 665280%Z]. change (2 ^ Z.of_nat 6 * zfact 6)%Z with 46080%Z. cbn [peval]. field.
Qed.
Lemma norm_6_1 : normalisation 6 1 = (1 / 42) * sqrt (273 / (2 * PI)).
Proof.
  unfold normalisation. apply sqrt_ratio; [lra|apply qpi2; lra|].
  change (2 * Z.of_nat 6 + 1)%Z with 13%Z. change (zfact (6 - 1)) with 120%Z. change (zfact (6 + 1)) with 5040%Z.
  pose proof PI_RGT_0. field. lra.
Qed.
Lemma leg_6_1 x : legendre 6 1 x = (105 / 8) * x ^ 1 + (-315 / 4) * x ^ 3 + (693 / 8) * x ^ 5.
Proof.
  unfold legendre. change (rodrigues 6 1) with [0%Z; 604800%Z; 0%Z; (-3628800)%Z; 0%Z; 3991680%Z]. change (2 ^ Z.of_nat 6 * zfact 6)%Z with 46080%Z. cbn [peval]. field.
Qed.
Lemma norm_6_2 : normalisation 6 2 = (1 / 840) * sqrt (1365 / PI).
Proof.
  unfold normalisation. apply sqrt_ratio; [lra|apply qpi; lra|].
  change (2 * Z.of_nat 6 + 1)%Z with 13%Z. change (zfact (6 - 2)) with 24%Z. change (zfact (6 + 2)) with 40320%Z.
  pose proof PI_RGT_0. field. lra.
Qed.
Lemma leg_6_2 x : legendre 6 2 x = (105 / 8) * x ^ 0 + (-945 / 4) * x ^ 2 + (3465 / 8) * x ^ 4.
Proof.
  unfold legendre. change (rodrigues 6 2) with [604800%Z; 0%Z; (-10886400)%Z; 0%Z; 19958400%Z]. change (2 ^ Z.of_nat 6 * zfact 6)%Z with 46080%Z. cbn [peval]. field.
Qed.
Lemma norm_6_3 : normalisation 6 3 = (1 / 5040) * sqrt (1365 / PI).
Proof.
  unfold normalisation. apply sqrt_ratio; [lra|apply qpi; lra|].
  change (2 * Z.of_nat 6 + 1)%Z with 13%Z. change (zfact (6 - 3)) with 6%Z. change (zfact (6 + 3)) with 362880%Z.
  pose proof PI_RGT_0. field. lra.
Qed.
Lemma leg_6_3 x : legendre 6 3 x = (-945 / 2) * x ^ 1 + (3465 / 2) * x ^ 3.
Proof.
  unfold legendre. change (rodrigues 6 3) with [0%Z; (-21772800)%Z; 0%Z; 79833600%Z]. change (2 ^ Z.of_nat 6 * zfact 6)%Z with 46080%Z. cbn [peval]. field.
Qed.
Lemma norm_6_4 : normalisation 6 4 = (1 / 5040) * sqrt (91 / (2 * PI)).
Proof.
  unfold normalisation. apply sqrt_ratio; [lra|apply qpi2; lra|].
  change (2 * Z.of_nat 6 + 1)%Z with 13%Z. change (zfact (6 - 4)) with 2%Z. change (zfact (6 + 4)) with 3628800%Z.
  pose proof PI_RGT_0. field. lra.
Qed.
Lemma leg_6_4 x : legendre 6 4 x = (-945 / 2) * x ^ 0 + (10395 / 2) * x ^ 2.
Proof.
  unfold legendre. change (rodrigues 6 4) with [(-21772800)%Z; 0%Z; 239500800%Z]. change (2 ^ Z.of_nat 6 * zfact 6)%Z with 46080%Z. cbn [peval]. field.
Qed.
Lemma norm_6_5 : normalisation 6 5 = (1 / 110880) * sqrt (1001 / PI).
Proof.
  unfold normalisation. apply sqrt_ratio; [lra|apply qpi; lra|].
  change (2 * Z.of_nat 6 + 1)%Z with 13%Z. change (zfact (6 - 5)) with 1%Z. change (zfact (6 + 5)) with 39916800%Z.
  pose proof PI_RGT_0. field. lra.
Qed.
Lemma leg_6_5 x : legendre 6 5 x = (10395) * x ^ 1.
Proof.
  unfold legendre. change (rodrigues 6 5) with [0%Z; 479001600%Z]. change (2 ^ Z.of_nat 6 * zfact 6)%Z with 46080%Z. cbn [peval]. field.
Qed.
Lemma norm_6_6 : normalisation 6 6 = (1 / 665280) * sqrt (3003 / PI).
Proof.
  unfold normalisation. apply sqrt_ratio; [lra|apply qpi; lra|].
  change (2 * Z.of_nat 6 + 1)%Z with 13%Z. change (zfact (6 - 6)) with 1%Z. change (zfact (6 + 6)) with 479001600%Z.
  pose proof PI_RGT_0. field. lra.
Qed.
Lemma leg_6_6 x : legendre 6 6 x = (10395) * x ^ 0.
Proof.
  unfold legendre. change (rodrigues 6 6) with [479001600%Z]. change (2 ^ Z.of_nat 6 * zfact 6)%Z with 46080%Z. cbn [peval]. field.
Qed.

Lemma value_rc x : rc x = cscale x (phase 0 0).
Proof. unfold phase. rewrite Rmult_0_l, cos_0, sin_0. apply cplx_eq; cbn; ring. Qed.
Lemma phase0 x p : rc x = cscale x (phase 0 p).
Proof. unfold phase. rewrite Rmult_0_l, cos_0, sin_0. apply cplx_eq; cbn; ring. Qed.
Ltac formula N L := eexists; split; [reflexivity|]; intros t p; rewrite harmonic_amplitude; unfold times; try rewrite (phase0 _ p); f_equal;
  unfold amplitude, nsign; cbn [Z.ltb Z.compare Pos.compare Pos.compare_cont Z.abs_nat]; unfold Pos.to_nat; cbn [Pos.iter_op Nat.add]; rewrite N, L; field.
Lemma formula_0_0 : exists f, Ylm 0 (0) = Some f /\ forall t p, f t p = harmonic 0 (0) t p.
Proof. formula norm_0_0 leg_0_0. Qed.
Lemma formula_1_n1 : exists f, Ylm 1 (-1) = Some f /\ forall t p, f t p = harmonic 1 (-1) t p.
Proof. formula norm_1_1 leg_1_1. Qed.
Lemma formula_1_0 : exists f, Ylm 1 (0) = Some f /\ forall t p, f t p = harmonic 1 (0) t p.
Proof. formula norm_1_0 leg_1_0. Qed.
Lemma formula_1_1 : exists f, Ylm 1 (1) = Some f /\ forall t p, f t p = harmonic 1 (1) t p.
Proof. formula norm_1_1 leg_1_1. Qed.
Lemma formula_2_n2 : exists f, Ylm 2 (-2) = Some f /\ forall t p, f t p = harmonic 2 (-2) t p.
Proof. formula norm_2_2 leg_2_2. Qed.
Lemma formula_2_n1 : exists f, Ylm 2 (-1) = Some f /\ forall t p, f t p = harmonic 2 (-1) t p.
Proof. formula norm_2_1 leg_2_1. Qed.
Lemma formula_2_0 : exists f, Ylm 2 (0) = Some f /\ forall t p, f t p = harmonic 2 (0) t p.
Proof. formula norm_2_0 leg_2_0. Qed.
Lemma formula_2_1 : exists f, Ylm 2 (1) = Some f /\ forall t p, f t p = harmonic 2 (1) t p.
Proof. formula norm_2_1 leg_2_1. Qed.
Lemma formula_2_2 : exists f, Ylm 2 (2) = Some f /\ forall t p, f t p = harmonic 2 (2) t p.
Proof. formula norm_2_2 leg_2_2. Qed.
Lemma formula_3_n3 : exists f, Ylm 3 (-3) = Some f /\ forall t p, f t p = harmonic 3 (-3) t p.
Proof. formula norm_3_3 leg_3_3. Qed.
Lemma formula_3_n2 : exists f, Ylm 3 (-2) = Some f /\ forall t p, f t p = harmonic 3 (-2) t p.
Proof. formula norm_3_2 leg_3_2. Qed.
Lemma formula_3_n1 : exists f, Ylm 3 (-1) = Some f /\ forall t p, f t p = harmonic 3 (-1) t p.
Proof. formula norm_3_1 leg_3_1. Qed.
Lemma formula_3_0 : exists f, Ylm 3 (0) = Some f /\ forall t p, f t p = harmonic 3 (0) t p.
Proof. formula norm_3_0 leg_3_0. Qed.
Lemma formula_3_1 : exists f, Ylm 3 (1) = Some f /\ forall t p, f t p = harmonic 3 (1) t p.
Proof. formula norm_3_1 leg_3_1. Qed.
Lemma formula_3_2 : exists f, Ylm 3 (2) = Some f /\ forall t p, f t p = harmonic 3 (2) t p.
Proof. formula norm_3_2 leg_3_2. Qed.
Lemma formula_3_3 : exists f, Ylm 3 (3) = Some f /\ forall t p, f t p = harmonic 3 (3) t p.
Proof. formula norm_3_3 leg_3_3. Qed.
Lemma formula_4_n4 : exists f, Ylm 4 (-4) = Some f /\ forall t p, f t p = harmonic 4 (-4) t p.
Proof. formula norm_4_4 leg_4_4. Qed.
Lemma formula_4_n3 : exists f, Ylm 4 (-3) = Some f /\ forall t p, f t p = harmonic 4 (-3) t p.
Proof. formula norm_4_3 leg_4_3. Qed.
Lemma formula_4_n2 : exists f, Ylm 4 (-2) = Some f /\ forall t p, f t p = harmonic 4 (-2) t p.
Proof. formula norm_4_2 leg_4_2. Qed.
Lemma formula_4_n1 : exists f, Ylm 4 (-1) = Some f /\ forall t p, f t p = harmonic 4 (-1) t p.
Proof. formula norm_4_1 leg_4_1. Qed.
Lemma formula_4_0 : exists f, Ylm 4 (0) = Some f /\ forall t p, f t p = harmonic 4 (0) t p.
Proof. formula norm_4_0 leg_4_0. Qed.
Lemma formula_4_1 : exists f, Ylm 4 (1) = Some f /\ forall t p, f t p = harmonic 4 (1) t p.
Proof. formula norm_4_1 leg_4_1. Qed.
Lemma formula_4_2 : exists f, Ylm 4 (2) = Some f /\ forall t p, f t p = harmonic 4 (2) t p.
Proof. formula norm_4_2 leg_4_2. Qed.
Lemma formula_4_3 : exists f, Ylm 4 (3) = Some f /\ forall t p, f t p = harmonic 4 (3) t p.
Proof. formula norm_4_3 leg_4_3. Qed.
Lemma formula_4_4 : exists f, Ylm 4 (4) = Some f /\ forall t p, f t p = harmonic 4 (4) t p.
Proof. formula norm_4_4 leg_4_4. Qed.
Lemma formula_5_n5 : exists f, Ylm 5 (-5) = Some f /\ forall t p, f t p = harmonic 5 (-5) t p.
Proof. formula norm_5_5 leg_5_5. Qed.
Lemma formula_5_n4 : exists f, Ylm 5 (-4) = Some f /\ forall t p, f t p = harmonic 5 (-4) t p.
Proof. formula norm_5_4 leg_5_4. Qed.
Lemma formula_5_n3 : exists f, Ylm 5 (-3) = Some f /\ forall t p, f t p = harmonic 5 (-3) t p.
Proof. formula norm_5_3 leg_5_3. Qed.
Lemma formula_5_n2 : exists f, Ylm 5 (-2) = Some f /\ forall t p, f t p = harmonic 5 (-2) t p.
Proof. formula norm_5_2 leg_5_2. Qed.
Lemma formula_5_n1 : exists f, Ylm 5 (-1) = Some f /\ forall t p, f t p = harmonic 5 (-1) t p.
Proof. formula norm_5_1 leg_5_1. Qed.
Lemma formula_5_0 : exists f, Ylm 5 (0) = Some f /\ forall t p, f t p = harmonic 5 (0) t p.
Proof. formula norm_5_0 leg_5_0. Qed.
Lemma formula_5_1 : exists f, Ylm 5 (1) = Some f /\ forall t p, f t p = harmonic 5 (1) t p.
Proof. formula norm_5_1 leg_5_1. Qed.
Lemma formula_5_2 : exists f, Ylm 5 (2) = Some f /\ forall t p, f t p = harmonic 5 (2) t p.
Proof. formula norm_5_2 leg_5_2. Qed.
Lemma formula_5_3 : exists f, Ylm 5 (3) = Some f /\ forall t p, f t p = harmonic 5 (3) t p.
Proof. formula norm_5_3 leg_5_3. Qed.
Lemma formula_5_4 : exists f, Ylm 5 (4) = Some f /\ forall t p, f t p = harmonic 5 (4) t p.
Proof. formula norm_5_4 leg_5_4. Qed.
Lemma formula_5_5 : exists f, Ylm 5 (5) = Some f /\ forall t p, f t p = harmonic 5 (5) t p.
Proof. formula norm_5_5 leg_5_5. Qed.
Lemma formula_6_n6 : exists f, Ylm 6 (-6) = Some f /\ forall t p, f t p = harmonic 6 (-6) t p.
Proof. formula norm_6_6 leg_6_6. Qed.
Lemma formula_6_n5 : exists f, Ylm 6 (-5) = Some f /\ forall t p, f t p = harmonic 6 (-5) t p.
Proof. formula norm_6_5 leg_6_5. Qed.
Lemma formula_6_n4 : exists f, Ylm 6 (-4) = Some f /\ forall t p, f t p = harmonic 6 (-4) t p.
Proof. formula norm_6_4 leg_6_4. Qed.
Lemma formula_6_n3 : exists f, Ylm 6 (-3) = Some f /\ forall t p, f t p = harmonic 6 (-3) t p.
Proof. formula norm_6_3 leg_6_3. Qed.
Lemma formula_6_n2 : exists f, Ylm 6 (-2) = Some f /\ forall t p, f t p = harmonic 6 (-2) t p.
Proof. formula norm_6_2 leg_6_2. Qed.
Lemma formula_6_n1 : exists f, Ylm 6 (-1) = Some f /\ forall t p, f t p = harmonic 6 (-1) t p.
Proof. formula norm_6_1 leg_6_1. Qed.
Lemma formula_6_0 : exists f, Ylm 6 (0) = Some f /\ forall t p, f t p = harmonic 6 (0) t p.
Proof. formula norm_6_0 leg_6_0. Qed.
Lemma formula_6_1 : exists f, Ylm 6 (1) = Some f /\ forall t p, f t p = harmonic 6 (1) t p.
Proof. formula norm_6_1 leg_6_1. Qed.
Lemma formula_6_2 : exists f, Ylm 6 (2) = Some f /\ forall t p, f t p = harmonic 6 (2) t p.
Proof. formula norm_6_2 leg_6_2. Qed.
Lemma formula_6_3 : exists f, Ylm 6 (3) = Some f /\ forall t p, f t p = harmonic 6 (3) t p.
Proof. formula norm_6_3 leg_6_3. Qed.
Lemma formula_6_4 : exists f, Ylm 6 (4) = Some f /\ forall t p, f t p = harmonic 6 (4) t p.
Proof. formula norm_6_4 leg_6_4. Qed.
Lemma formula_6_5 : exists f, Ylm 6 (5) = Some f /\ forall t p, f t p = harmonic 6 (5) t p.
Proof. formula norm_6_5 leg_6_5. Qed.
Lemma formula_6_6 : exists f, Ylm 6 (6) = Some f /\ forall t p, f t p = harmonic 6 (6) t p.
Proof. formula norm_6_6 leg_6_6. Qed.
Lemma formulas l m : (l <= 6)%nat -> (Z.abs m <= Z.of_nat l)%Z -> exists f, Ylm l m = Some f /\ forall t p, f t p = harmonic l m t p.
Proof.
  intros Hl Hm. destruct l as [|[|[|[|[|[|[|l]]]]]]]; [| | | | | | |lia].
  - assert (E : m = 0%Z) by lia.
    subst m. exact formula_0_0.
  - assert (E : m = (-1)%Z \/ m = 0%Z \/ m = 1%Z) by lia.
    destruct E as [E|[E|E]]; subst m.
    + exact formula_1_n1.
    + exact formula_1_0.
    + exact formula_1_1.
  - assert (E : m = (-2)%Z \/ m = (-1)%Z \/ m = 0%Z \/ m = 1%Z \/ m = 2%Z) by lia.
    destruct E as [E|[E|[E|[E|E]]]]; subst m.
    + exact formula_2_n2.
    + exact formula_2_n1.
    + exact formula_2_0.
    + exact formula_2_1.
    + exact formula_2_2.
  - assert (E : m = (-3)%Z \/ m = (-2)%Z \/ m = (-1)%Z \/ m = 0%Z \/ m = 1%Z \/ m = 2%Z \/ m = 3%Z) by lia.
    destruct E as [E|[E|[E|[E|[E|[E|E]]]]]]; subst m.
    + exact formula_3_n3.
    + exact formula_3_n2.
    + exact formula_3_n1.
    + exact formula_3_0.
    + exact formula_3_1.
    + exact formula_3_2.
    + exact formula_3_3.
  - assert (E : m = (-4)%Z \/ m = (-3)%Z \/ m = (-2)%Z \/ m = (-1)%Z \/ m = 0%Z \/ m = 1%Z \/ m = 2%Z \/ m = 3%Z \/ m = 4%Z) by lia.
    destruct E as [E|[E|[E|[E|[E|[E|[E|[E|E]]]]]]]]; subst m.
    + exact formula_4_n4.
    + exact formula_4_n3.
    + exact formula_4_n2.
    + exact formula_4_n1.
    + exact formula_4_0.
    + exact formula_4_1.
    + exact formula_4_2.
    + exact formula_4_3.
    + exact formula_4_4.
  - assert (E : m = (-5)%Z \/ m = (-4)%Z \/ m = (-3)%Z \/ m = (-2)%Z \/ m = (-1)%Z \/ m = 0%Z \/ m = 1%Z \/ m = 2%Z \/ m = 3%Z \/ m = 4%Z \/ m = 5%Z) by lia.
    destruct E as [E|[E|[E|[E|[E|[E|[E|[E|[E|[E|E]]]]]]]]]]; subst m.
    + exact formula_5_n5.
    + exact formula_5_n4.
    + exact formula_5_n3.
    + exact formula_5_n2.
    + exact formula_5_n1.
    + exact formula_5_0.
    + exact formula_5_1.
    + exact formula_5_2.
    + exact formula_5_3.
    + exact formula_5_4.
    + exact formula_5_5.
  - assert (E : m = (-6)%Z \/ m = (-5)%Z \/ m = (-4)%Z \/ m = (-3)%Z \/ m = (-2)%Z \/ m = (-1)%Z \/ m = 0%Z \/ m = 1%Z \/ m = 2%Z \/ m = 3%Z \/ m = 4%Z \/ m = 5%Z \/ m = 6%Z) by lia.
    destruct E as [E|[E|[E|[E|[E|[E|[E|[E|[E|[E|[E|[E|E]]]]]]]]]]]]; subst m.
    + exact formula_6_n6.
    + exact formula_6_n5.
    + exact formula_6_n4.
    + exact formula_6_n3.
    + exact formula_6_n2.
    + exact formula_6_n1.
    + exact formula_6_0.
    + exact formula_6_1.
    + exact formula_6_2.
    + exact formula_6_3.
    + exact formula_6_4.
    + exact formula_6_5.
    + exact formula_6_6.
Qed.
Lemma unknown l m : (6 < l)%nat \/ (Z.of_nat l < Z.abs m)%Z -> Ylm l m = None.
Proof.
  intros H. destruct l as [|[|[|[|[|[|[|l]]]]]]]; try reflexivity; cbn [Ylm];
    repeat (match goal with |- (if (?a =? ?b)%Z then _ else _) = None => destruct (Z.eqb_spec a b) as [E|_]; [exfalso; lia|] end); reflexivity.
Qed.
