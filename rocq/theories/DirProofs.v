From Coq Require Import Reals Lra Psatz.
From Coquelicot Require Import Coquelicot.
From Verif Require Import GeomModel DirModel DirSpec.
Open Scope R_scope.

Lemma cos_theta v : 0 <= v <= 1 -> cos (random_theta v) = 1 - 2 * v. Proof. intros h. unfold random_theta. apply cos_acos. lra. Qed.
Lemma theta_range v : 0 <= random_theta v <= PI. Proof. apply acos_bound. Qed.
Lemma ranges u v : draw u -> draw v -> 0 <= fst (random_direction u v) < 2 * PI /\ 0 <= snd (random_direction u v) < PI.
Proof.
  intros [hu1 hu2] [hv1 hv2]. pose proof PI_RGT_0. unfold random_direction. cbn [fst snd]. split; [unfold random_phi; split; nra|].
  destruct (theta_range v) as [t1 t2]. split; [exact t1|]. destruct t2 as [t2|t2]; [exact t2|]. exfalso. pose proof (cos_theta v ltac:(lra)) as e. rewrite t2, cos_PI in e. lra.
Qed.
Lemma on_sphere theta phi r : vx (spherical_to_cartesian theta phi r) ^ 2 + vy (spherical_to_cartesian theta phi r) ^ 2 + vz (spherical_to_cartesian theta phi r) ^ 2 = r ^ 2.
Proof.
  unfold spherical_to_cartesian. cbn [vx vy vz]. pose proof (sin2_cos2 theta) as a. pose proof (sin2_cos2 phi) as b. unfold Rsqr in *.
  replace ((r * sin theta * cos phi) ^ 2 + (r * sin theta * sin phi) ^ 2 + (r * cos theta) ^ 2) with (r ^ 2 * (sin theta * sin theta * (sin phi * sin phi + cos phi * cos phi) + cos theta * cos theta)) by ring. rewrite b, Rmult_1_r, a. ring.
Qed.
Lemma same_direction u v : random_vector u v = spherical_to_cartesian (snd (random_direction u v)) (fst (random_direction u v)) 1.
Proof. unfold random_vector, spherical_to_cartesian, random_direction. cbn [fst snd]. f_equal; ring. Qed.
Lemma unit_length u v : unit_vector (random_vector u v).
Proof. unfold unit_vector. rewrite same_direction, on_sphere. ring. Qed.
Lemma cap t : cap_area t (2 * PI * (1 - cos t)).
Proof.
  unfold cap_area. replace (2 * PI * (1 - cos t)) with (minus (- (2 * PI) * cos t) (- (2 * PI) * cos 0)) by (rewrite cos_0; unfold minus, plus, opp; cbn; ring).
  apply (is_RInt_derive (fun s => - (2 * PI) * cos s) (fun s => 2 * PI * sin s)).
  - intros x _. auto_derive; [trivial|]. ring.
  - intros x _. apply (ex_derive_continuous (fun s => 2 * PI * sin s)). auto_derive. trivial.
Qed.
(** the fraction of draws within any angle of the axis is the fraction of the area, and all azimuths are equally likely *)
Lemma uniform_polar u v t A : draw v -> 0 <= t <= PI -> cap_area t A -> (snd (random_direction u v) <= t <-> v <= A / (4 * PI)).
Proof.
  intros [h1 h2] ht hA. assert (E : A = 2 * PI * (1 - cos t)) by (transitivity (RInt (fun s => 2 * PI * sin s) 0 t); [symmetry; apply is_RInt_unique, hA|apply is_RInt_unique, cap]).
  pose proof PI_RGT_0. replace (A / (4 * PI)) with ((1 - cos t) / 2) by (rewrite E; field; lra). cbn [random_direction snd]. pose proof (cos_theta v ltac:(lra)) as c. destruct (theta_range v) as [r1 r2]. split.
  - intros [q|q]; [pose proof (cos_decreasing_1 (random_theta v) t r1 r2 (proj1 ht) (proj2 ht) q); lra|rewrite q in c; lra].
  - intros q. apply Rnot_lt_le. intros w. pose proof (cos_decreasing_1 t (random_theta v) (proj1 ht) (proj2 ht) r1 r2 w). lra.
Qed.
Lemma uniform_azimuth u v p : fst (random_direction u v) <= p <-> u <= p / (2 * PI).
Proof.
  pose proof PI_RGT_0. cbn [random_direction fst]. unfold random_phi. split; intros h.
  - apply (Rmult_le_reg_r (2 * PI)); [lra|]. unfold Rdiv. rewrite Rmult_assoc, Rinv_l by lra. lra.
  - apply (Rmult_le_compat_r (2 * PI)) in h; [|lra]. unfold Rdiv in h. rewrite Rmult_assoc, Rinv_l in h by lra. lra.
Qed.
(** the height is uniform *)
Lemma height u v : draw v -> vz (random_vector u v) = 1 - 2 * v. Proof. intros [h1 h2]. apply cos_theta. lra. Qed.
(** angles on the circle *)
Lemma circle x y : x ^ 2 + y ^ 2 = 1 -> exists p, 0 <= p < 2 * PI /\ cos p = x /\ sin p = y.
Proof.
  intros h. pose proof PI_RGT_0. assert (hx : -1 <= x <= 1) by nra. destruct (acos_bound x) as [b1 b2]. assert (S : sin (acos x) = sqrt (1 - x²)) by (apply sin_acos, hx). assert (Y : sqrt (1 - x²) = Rabs y).
  { replace (1 - x²) with (Rsqr y) by (unfold Rsqr; nra). apply sqrt_Rsqr_abs. }
  destruct (Rle_lt_dec 0 y) as [q|q].
  - exists (acos x). split; [lra|]. split; [apply cos_acos, hx|]. rewrite S, Y. apply Rabs_pos_eq, q.
  - exists (2 * PI - acos x). assert (hp : 0 < acos x). { destruct b1 as [b1|b1]; [exact b1|]. exfalso. rewrite <- b1, sin_0, Y in S. unfold Rabs in S. destruct (Rcase_abs y); lra. }
    split; [lra|]. replace (2 * PI - acos x) with (- acos x + 2 * PI) by ring. rewrite cos_plus, sin_plus, cos_2PI, sin_2PI, cos_neg, sin_neg, S, Y, cos_acos by exact hx. unfold Rabs. destruct (Rcase_abs y); split; lra.
Qed.
(** every direction but the one of the negative z axis is drawn *)
Lemma all_directions a : unit_vector a -> -1 < vz a -> exists u v, draw u /\ draw v /\ random_vector u v = a.
Proof.
  destruct a as [x y z]. unfold unit_vector. cbn [vx vy vz]. intros h hz. pose proof PI_RGT_0. set (v := (1 - z) / 2). assert (hv : draw v) by (unfold draw, v; nra).
  assert (C : cos (random_theta v) = z) by (rewrite cos_theta by (unfold draw in hv; lra); unfold v; field).
  assert (SS : sin (random_theta v) ^ 2 = x ^ 2 + y ^ 2) by (pose proof (sin2_cos2 (random_theta v)) as e; rewrite C in e; unfold Rsqr in e; nra).
  assert (S0 : 0 <= sin (random_theta v)) by (destruct (theta_range v); apply sin_ge_0; lra). set (s := sin (random_theta v)) in *. clearbody s.
  destruct S0 as [S0|S0].
  - destruct (circle (x / s) (y / s)) as [p [hp [c1 c2]]]. { replace ((x / s) ^ 2 + (y / s) ^ 2) with ((x ^ 2 + y ^ 2) / s ^ 2) by (field; lra). rewrite <- SS. field. lra. }
    exists (p / (2 * PI)), v. split; [split; [apply Rmult_le_pos; [lra|apply Rlt_le, Rinv_0_lt_compat; lra]|apply (Rmult_lt_reg_r (2 * PI)); [lra|unfold Rdiv; rewrite Rmult_assoc, Rinv_l by lra; lra]]|]. split; [exact hv|].
    assert (SV : sin (random_theta v) = s). { apply Rsqr_inj; [destruct (theta_range v); apply sin_ge_0; lra|lra|]. pose proof (sin2_cos2 (random_theta v)) as e. rewrite C in e. unfold Rsqr in *. nra. }
    unfold random_vector, random_phi. replace (p / (2 * PI) * 2 * PI) with p by (field; lra). rewrite C, SV, c1, c2. f_equal; field; lra.
  - exists 0, v. split; [unfold draw; lra|]. split; [exact hv|]. rewrite <- S0 in SS. assert (x = 0 /\ y = 0) by (split; nra). destruct H0 as [-> ->].
    assert (SV : sin (random_theta v) = 0). { apply Rsqr_inj; [destruct (theta_range v); apply sin_ge_0; lra|lra|]. pose proof (sin2_cos2 (random_theta v)) as e. rewrite C in e. unfold Rsqr in *. nra. }
    unfold random_vector. rewrite C, SV. f_equal; ring.
Qed.
Example ex_draw : draw (/ 2) /\ unit_vector (V3 (3 / 5) 0 (4 / 5)). Proof. unfold draw, unit_vector. cbn [vx vy vz]. split; [lra|field]. Qed.
