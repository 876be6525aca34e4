From Coq Require Import Reals ZArith List Bool Arith Lra Lia Psatz.
From Verif Require Import Vec GeomModel GeomProofs GeomProofs3 PairProofs PairProofs2 GamProofs4 EwModel EwSpec EwProofs EwProofs2.
Import ListNotations.
Open Scope R_scope.

Lemma sin_period x (k : Z) : sin (x + 2 * PI * IZR k) = sin x.
Proof. rewrite <- !cos_shift. replace (PI / 2 - (x + 2 * PI * IZR k)) with (PI / 2 - x + 2 * PI * IZR (- k)) by (rewrite opp_IZR; ring). apply cos_period. Qed.
Lemma wave_translation cell t s : det cell <> 0 -> symmetric cell -> exists k : Z, vdot (wave cell t) (translation cell s) = 2 * PI * IZR k.
Proof.
  intros hd hs. destruct (wave_symmetric cell t hd hs) as (h1 & h2 & h3).
  exists (fst (fst s) * fst (fst t) + (snd (fst s) * snd (fst t) + snd s * snd t))%Z.
  assert (E : vdot (wave cell t) (translation cell s) = IZR (fst (fst s)) * vdot (wave cell t) (row1 cell) + (IZR (snd (fst s)) * vdot (wave cell t) (row2 cell) + IZR (snd s) * vdot (wave cell t) (row3 cell)))
    by (generalize (wave cell t); intros w; unfold translation, vdot, vadd, vscale; cbn [vx vy vz]; ring).
  rewrite E, h1, h2, h3, !plus_IZR, !mult_IZR. ring.
Qed.
(** atoms may be moved by lattice vectors one by one *)
Lemma long_range acc weight n cell r (s : nat -> Z * Z * Z) q i : det cell <> 0 -> symmetric cell ->
  phi_rec acc weight n cell (fun j => vadd (r j) (translation cell (s j))) q i = phi_rec acc weight n cell r q i.
Proof.
  intros hd hs. unfold phi_rec. f_equal. apply lsum_ext. intros t _.
  assert (D : forall j, exists k : Z, vdot (wave cell t) (vadd (r j) (translation cell (s j))) = vdot (wave cell t) (r j) + 2 * PI * IZR k).
  { intros j. destruct (wave_translation cell t (s j) hd hs) as [k hk]. exists k. rewrite <- hk. unfold vdot, vadd. cbn [vx vy vz]. ring. }
  assert (Ds : forall j, sin (vdot (wave cell t) (vadd (r j) (translation cell (s j)))) = sin (vdot (wave cell t) (r j))) by (intros j; destruct (D j) as [k ->]; apply sin_period).
  assert (Dc : forall j, cos (vdot (wave cell t) (vadd (r j) (translation cell (s j)))) = cos (vdot (wave cell t) (r j))) by (intros j; destruct (D j) as [k ->]; apply cos_period).
  rewrite Ds, Dc. f_equal. f_equal; f_equal; apply rsum_ext; intros j _; rewrite ?Ds, ?Dc; reflexivity.
Qed.

(** a skewed cell of volume one *)
Definition skew : m3 := M3 (V3 1 0 0) (V3 10 1 0) (V3 0 0 1).
Lemma skew_det : det skew = 1.
Proof. unfold det, skew, vdot, vcross. cbn [vx vy vz row1 row2 row3]. ring. Qed.
Lemma skew_alpha : alpha (/ PI ^ 3) 1 skew = 1.
Proof.
  unfold alpha, volume. rewrite skew_det, Rabs_R1. cbn [INR]. replace (/ PI ^ 3 * PI ^ 3 * 1 / 1) with 1 by (field; apply PI_neq0). unfold Rpower. rewrite ln_1, Rmult_0_r. apply exp_0.
Qed.
Lemma sqrt16 : sqrt 16 = 4.
Proof. replace 16 with (4 ^ 2) by ring. apply sqrt_pow2. lra. Qed.
Lemma skew_r : r_cutoff (16 / ln 10) (/ PI ^ 3) 1 skew = 4.
Proof. unfold r_cutoff. rewrite skew_alpha. pose proof ln10. replace (ln 10 * (16 / ln 10) / 1) with 16 by (field; lra). apply sqrt16. Qed.
Lemma skew_g : g_cutoff (16 / ln 10) (/ PI ^ 3) 1 skew = 8.
Proof. unfold g_cutoff. rewrite skew_alpha. pose proof ln10. replace (ln 10 * (16 / ln 10) * 1) with 16 by (field; lra). rewrite sqrt16. ring. Qed.
Lemma int_below x (k : Z) : x < IZR k -> (Int_part x < k)%Z.
Proof. intros h. destruct (base_Int_part x) as [h1 _]. apply lt_IZR. lra. Qed.
Lemma images_missing : exists acc weight n cell t, 0 < acc /\ 0 < weight /\ (0 < n)%nat /\ det cell = 1 /\
  vnorm (translation cell t) < r_cutoff acc weight n cell / 2 /\ ~ In t (r_range acc weight n cell).
Proof.
  exists (16 / ln 10), (/ PI ^ 3), 1%nat, skew, (-10, 1, 0)%Z. pose proof ln10 as hl. pose proof PI_RGT_0 as hp.
  split; [apply Rdiv_lt_0_compat; lra|]. split; [apply Rinv_0_lt_compat, pow_lt, hp|]. split; [lia|]. split; [exact skew_det|]. split.
  - rewrite skew_r. replace (translation skew (-10, 1, 0)%Z) with (V3 0 1 0) by (unfold translation, skew, vadd, vscale; cbn [fst snd vx vy vz row1 row2 row3]; f_equal; ring).
    unfold vnorm, vdot. cbn [vx vy vz]. replace (0 * 0 + 1 * 1 + 0 * 0) with 1 by ring. rewrite sqrt_1. lra.
  - unfold r_range. cbv zeta. rewrite skew_r. intros h. apply in_triples in h. destruct h as [h _]. cbn [fst snd row1 skew] in h. rewrite norm_x, Rabs_R1 in h.
    assert (Int_part (4 / 1) < 5)%Z by (apply int_below; lra). lia.
Qed.
Lemma waves_missing : exists acc weight n cell g t, 0 < acc /\ 0 < weight /\ (0 < n)%nat /\ det cell = 1 /\
  has_periods cell g t /\ vnorm g <= g_cutoff acc weight n cell /\ ~ In t (g_range acc weight n cell).
Proof.
  exists (16 / ln 10), (/ PI ^ 3), 1%nat, skew, (V3 (2 * PI) 0 0), (1, 10, 0)%Z. pose proof ln10 as hl. pose proof PI_RGT_0 as hp.
  split; [apply Rdiv_lt_0_compat; lra|]. split; [apply Rinv_0_lt_compat, pow_lt, hp|]. split; [lia|]. split; [exact skew_det|]. split; [|split].
  - unfold has_periods, skew, vdot. cbn [fst snd vx vy vz row1 row2 row3]. repeat split; ring.
  - rewrite skew_g, norm_x, Rabs_right by lra. pose proof PI_4. lra.
  - unfold g_range. cbv zeta. rewrite skew_g. intros h. apply in_triples in h. destruct h as [_ [h _]]. cbn [fst snd] in h.
    assert (En : vnorm (row2 (tr (inverse skew))) = 1).
    { unfold inverse. rewrite tr_tr. cbn [row2]. rewrite skew_det. unfold vnorm, vscale, vcross, vdot, skew. cbn [vx vy vz row1 row3]. rewrite Rinv_1.
      match goal with |- sqrt ?x = _ => replace x with 1 by ring end. apply sqrt_1. }
    rewrite En in h. assert (Int_part (8 / (2 * PI * 1)) < 4)%Z; [|lia]. apply int_below. apply Rmult_lt_reg_r with (2 * PI * 1); [lra|].
    unfold Rdiv. rewrite Rmult_assoc, Rinv_l by lra. pose proof PI2_3_2. lra.
Qed.

(** ** cases: two opposite charges in a cubic cell *)
Definition cube : m3 := M3 (V3 1 0 0) (V3 0 1 0) (V3 0 0 1).
Example cube_ok : det cube = 1 /\ symmetric cube /\ orthogonal_cell cube.
Proof. repeat split; unfold det, symmetric, orthogonal_cell, tr, cube, vdot, vcross; cbn [vx vy vz row1 row2 row3]; try reflexivity; ring. Qed.
Example pair_defined erfc acc weight q : update erfc acc weight 2 cube (fun i => V3 (INR i / 2) 0 0) q <> None.
Proof.
  apply update_defined. intros i j t hi hj _ hne h. unfold translation, cube, vadd, vscale in h. cbn [vx vy vz row1 row2 row3] in h. injection h as h1 h2 h3. destruct t as [[x y] z]. cbn [fst snd] in *.
  assert (hy : y = 0%Z) by (apply eq_IZR; lra). assert (hz : z = 0%Z) by (apply eq_IZR; lra). subst y z.
  assert (K : IZR (2 * x) = IZR (Z.of_nat i - Z.of_nat j)) by (rewrite mult_IZR, minus_IZR, <- !INR_IZR_INZ; lra). apply eq_IZR in K.
  assert (x = 0%Z) by lia. subst x. destruct hne as [hne|hne]; [apply hne; reflexivity|lia].
Qed.
