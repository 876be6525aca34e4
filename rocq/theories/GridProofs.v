From Coq Require Import Reals ZArith List Bool Arith Lia Lra Psatz.
From Verif Require Import Vec GeomModel GeomSpec GeomProofs OccModel GridModel GridSpec.
Import ListNotations.
Open Scope R_scope.

(** ** slices *)
Ltac Zify.zify_post_hook ::= Z.div_mod_to_equations.
Lemma slices_some n m c a1 a2 b1 b2 : (0 <= m -> slices n (2 * m + 1) c = Some (a1, a2, b1, b2) ->
  0 <= a1 <= a2 /\ a2 < n /\ 0 <= b1 <= b2 /\ b2 < 2 * m + 1 /\ b2 - b1 = a2 - a1 /\ b1 - a1 = m - c /\
  (forall g, 0 <= g < n -> (a1 <= g <= a2 <-> Z.abs (g - c) <= m)))%Z.
Proof.
  intros Hm. unfold slices. replace ((2 * m + 1 - 1) / 2)%Z with m by lia.
  destruct ((_ <? _) || _)%Z eqn:E; [discriminate|]. intros H; inversion H; subst; clear H.
  apply orb_false_iff in E. destruct E as [E1 E2]. apply Z.ltb_ge in E1, E2. repeat split; lia.
Qed.
Lemma slices_none n m c : (0 <= m -> slices n (2 * m + 1) c = None -> forall g, 0 <= g < n -> ~ Z.abs (g - c) <= m)%Z.
Proof.
  intros Hm. unfold slices. replace ((2 * m + 1 - 1) / 2)%Z with m by lia.
  destruct ((_ <? _) || _)%Z eqn:E; [|discriminate]. intros _ g Hg.
  apply orb_true_iff in E. destruct E as [E|E]; apply Z.ltb_lt in E; lia.
Qed.
Lemma slice_eq n m c a1 a2 b1 b2 : (0 <= m -> slices n (2 * m + 1) c = Some (a1, a2, b1, b2) ->
  slice_length n a1 a2 =? slice_length (2 * m + 1) b1 b2 = true)%Z.
Proof. intros Hm H. apply slices_some in H; [|exact Hm]. apply Z.eqb_eq. unfold slice_length. lia. Qed.
Lemma within_iff a1 a2 g : within a1 a2 g = true <-> (a1 <= g <= a2)%Z.
Proof. unfold within. rewrite andb_true_iff, !Z.leb_le. tauto. Qed.
Lemma within_bool n m c a1 a2 b1 b2 g : (0 <= m -> slices n (2 * m + 1) c = Some (a1, a2, b1, b2) -> 0 <= g < n ->
  within a1 a2 g = (Z.abs (g - c) <=? m))%Z.
Proof.
  intros Hm H Hg. apply slices_some in H; [|exact Hm]. destruct H as (_ & _ & _ & _ & _ & _ & H). specialize (H g Hg).
  rewrite <- within_iff in H. rewrite <- Z.leb_le in H. destruct (within a1 a2 g), (Z.abs (g - c) <=? m)%Z; intuition.
Qed.
Lemma centred_none1 (c1 c2 c3 g1 g2 g3 m1 m2 m3 : Z) pwf :
  (~ Z.abs (g1 - c1) <= m1 \/ ~ Z.abs (g2 - c2) <= m2 \/ ~ Z.abs (g3 - c3) <= m3)%Z -> centred (m1, m2, m3) (c1, c2, c3) pwf (g1, g2, g3) = 0.
Proof.
  intros H. unfold centred. destruct (_ && _)%bool eqn:E; [|reflexivity].
  apply andb_true_iff in E. destruct E as [E E3]. apply andb_true_iff in E. destruct E as [E1 E2].
  apply Z.leb_le in E1, E2, E3. intuition.
Qed.
Lemma stamp_value n m c ph pwf wf : nonneg3 m ->
  exists wf', stamp n (odd3 m) c ph pwf wf = Some wf' /\ forall g, on_grid n g -> wf' g = wf g + fst ph * centred m c pwf g.
Proof.
  destruct n as [[n1 n2] n3], m as [[m1 m2] m3], c as [[c1 c2] c3]. intros (M1 & M2 & M3).
  cbv beta delta [stamp odd3] iota.
  destruct (slices n1 _ c1) as [[[[a1 a2] b1] b2]|] eqn:E1.
  2:{ eexists; split; [reflexivity|]. intros [[g1 g2] g3] (G1 & G2 & G3).
      rewrite centred_none1; [ring|]. left. exact (slices_none n1 m1 c1 M1 E1 g1 G1). }
  destruct (slices n2 _ c2) as [[[[a1' a2'] b1'] b2']|] eqn:E2.
  2:{ eexists; split; [reflexivity|]. intros [[g1 g2] g3] (G1 & G2 & G3).
      rewrite centred_none1; [ring|]. right; left. exact (slices_none n2 m2 c2 M2 E2 g2 G2). }
  destruct (slices n3 _ c3) as [[[[a1'' a2''] b1''] b2'']|] eqn:E3.
  2:{ eexists; split; [reflexivity|]. intros [[g1 g2] g3] (G1 & G2 & G3).
      rewrite centred_none1; [ring|]. right; right. exact (slices_none n3 m3 c3 M3 E3 g3 G3). }
  rewrite (slice_eq n1 m1 c1 a1 a2 b1 b2 M1 E1), (slice_eq n2 m2 c2 _ _ _ _ M2 E2), (slice_eq n3 m3 c3 _ _ _ _ M3 E3).
  cbn [andb]. eexists; split; [reflexivity|]. intros [[g1 g2] g3] (G1 & G2 & G3). cbv beta iota delta [centred].
  rewrite (within_bool _ _ _ _ _ _ _ g1 M1 E1 G1), (within_bool _ _ _ _ _ _ _ g2 M2 E2 G2), (within_bool _ _ _ _ _ _ _ g3 M3 E3 G3).
  apply slices_some in E1, E2, E3; try assumption.
  destruct ((Z.abs (g1 - c1) <=? m1) && (Z.abs (g2 - c2) <=? m2) && (Z.abs (g3 - c3) <=? m3))%Z; [|ring].
  do 2 f_equal. f_equal. f_equal; [f_equal|]; lia.
Qed.
Lemma rough_iff L cutoff r : rough L cutoff r = true <-> - cutoff <= r <= L + cutoff.
Proof.
  unfold rough. rewrite negb_true_iff, orb_false_iff, !ltb_false. lra.
Qed.
Lemma rough3_iff L cutoff r : rough3 L cutoff r = true <-> near_cell L cutoff r.
Proof. unfold rough3, near_cell. rewrite !andb_true_iff, !rough_iff. tauto. Qed.

(** ** rounding *)
Lemma Rabs_le_inv a b : Rabs a <= b -> - b <= a <= b.
Proof. unfold Rabs. destruct (Rcase_abs a); lra. Qed.
Lemma pyround_err x : Rabs (IZR (pyround x) - x) <= / 2.
Proof.
  unfold pyround. cbv zeta. pose proof (base_Int_part x) as [H1 H2].
  destruct (ltb _ _) eqn:E1; [apply ltb_true in E1|apply ltb_false in E1].
  - apply Rabs_le. lra.
  - destruct (ltb (/ 2) _) eqn:E2; [apply ltb_true in E2|apply ltb_false in E2].
    + rewrite plus_IZR. apply Rabs_le. lra.
    + destruct (Z.even _); [|rewrite plus_IZR]; apply Rabs_le; lra.
Qed.
Lemma next_grid dr r : 0 < dr -> next_to dr r (pyround (r / dr)).
Proof.
  intros H. unfold next_to. pose proof (pyround_err (r / dr)) as E.
  replace (IZR (pyround (r / dr)) * dr - r) with ((IZR (pyround (r / dr)) - r / dr) * dr) by (field; lra).
  rewrite Rabs_mult, (Rabs_right dr) by lra. nra.
Qed.
Lemma stamps_value L dr cutoff n m pwf images : positive3 dr -> nonneg3 m -> forall wf,
  exists wf' l, stamps L dr cutoff n (odd3 m) pwf images wf = Some wf' /\ placed L dr cutoff images l /\
    forall g, on_grid n g -> wf' g = wf g + fst (bloch m pwf l g).
Proof.
  intros (D1 & D2 & D3) Hm. induction images as [|[r ph] images IH]; intros wf.
  - exists wf, []. split; [reflexivity|]. split; [constructor|]. intros g _. cbn [bloch fst]. ring.
  - cbn [stamps]. destruct (rough3 L cutoff r) eqn:E.
    + destruct (stamp_value n m (grid_point dr r) ph pwf wf Hm) as (w1 & E1 & V1). rewrite E1.
      destruct (IH w1) as (w2 & l & E2 & P & V2). exists w2, ((grid_point dr r, ph) :: l).
      split; [exact E2|]. split.
      * apply P_near; [apply rough3_iff; exact E| |exact P]. unfold grid_point, next_to3. auto using next_grid.
      * intros g G. rewrite (V2 g G), (V1 g G). cbn [bloch fst]. ring.
    + destruct (IH wf) as (w2 & l & E2 & P & V2). exists w2, l. split; [exact E2|]. split; [|exact V2].
      apply P_far; [|exact P]. intros N. apply rough3_iff in N. congruence.
Qed.
Lemma basis_orbital_value L dr cutoff n m pwf images : positive3 dr -> nonneg3 m ->
  exists wf l, basis_orbital L dr cutoff n (odd3 m) pwf images = Some wf /\ placed L dr cutoff images l /\
    forall g, on_grid n g -> wf g = fst (bloch m pwf l g).
Proof.
  intros D M. destruct (stamps_value L dr cutoff n m pwf images D M (fun _ => 0)) as (w & l & E & P & V).
  exists w, l. split; [exact E|]. split; [exact P|]. intros g G. rewrite (V g G). ring.
Qed.
(** an image left out is further than the cutoff from every point of the cell *)
Lemma left_out_far L cutoff r p : ~ near_cell L cutoff r -> 0 <= vx p <= vx L -> 0 <= vy p <= vy L -> 0 <= vz p <= vz L ->
  0 <= cutoff -> cutoff < vnorm (vsub p r).
Proof.
  intros N P1 P2 P3 C. unfold vnorm. rewrite <- (sqrt_Rsqr cutoff C).
  assert (A : forall l u q, 0 <= q <= l -> ~ (- cutoff <= u <= l + cutoff) -> Rsqr cutoff < (q - u) * (q - u)).
  { intros l u q Q U. unfold Rsqr. destruct (Rlt_dec u (- cutoff)) as [X|X]; [nra|].
    assert (l + cutoff < u) by (apply Rnot_le_lt; intros Y; apply U; lra). nra. }
  apply sqrt_lt_1_alt. split; [apply Rle_0_sqr|].
  destruct p as [p1 p2 p3], r as [r1 r2 r3], L as [l1 l2 l3].
  unfold near_cell in N. cbn [vx vy vz] in N, P1, P2, P3. unfold vdot, vsub. cbn [vx vy vz].
  pose proof (Rle_0_sqr (p1 - r1)) as S1. pose proof (Rle_0_sqr (p2 - r2)) as S2. pose proof (Rle_0_sqr (p3 - r3)) as S3.
  unfold Rsqr in S1, S2, S3.
  destruct (Rle_dec (- cutoff) r1), (Rle_dec r1 (l1 + cutoff)), (Rle_dec (- cutoff) r2), (Rle_dec r2 (l2 + cutoff)),
    (Rle_dec (- cutoff) r3), (Rle_dec r3 (l3 + cutoff));
    first [ exfalso; apply N; lra
          | assert (B := A l1 r1 p1 P1 ltac:(lra)); lra
          | assert (B := A l2 r2 p2 P2 ltac:(lra)); lra
          | assert (B := A l3 r3 p3 P3 ltac:(lra)); lra ].
Qed.
(** ** the partial grid *)
Lemma pyround_nonneg x : 0 <= x -> (0 <= pyround x)%Z.
Proof.
  intros H. pose proof (pyround_err x) as E. apply Rabs_le_inv in E.
  assert (A : -1 < IZR (pyround x)) by lra. apply (lt_IZR (-1)) in A. lia.
Qed.
Lemma partial_odd cutoff dr : 0 <= cutoff -> 0 < dr -> exists m, (0 <= m)%Z /\ partial_points cutoff dr = (2 * m + 1)%Z /\
  cutoff - 3 / 4 * dr <= IZR m * dr <= cutoff + dr / 4.
Proof.
  intros C D. set (x := cutoff * 2 / dr). assert (X : 0 <= x) by (unfold x; apply Rle_mult_inv_pos; lra).
  pose proof (pyround_nonneg x X) as P. pose proof (pyround_err x) as E. apply Rabs_le_inv in E.
  assert (K : cutoff = x / 2 * dr) by (unfold x; field; lra).
  unfold partial_points. fold x. destruct (Z.even (pyround x)) eqn:Ev.
  - apply Z.even_spec in Ev. destruct Ev as [k Ek]. exists k. split; [lia|]. split; [lia|].
    rewrite Ek, mult_IZR in E. rewrite K. nra.
  - assert (O : Z.odd (pyround x) = true) by (rewrite <- Z.negb_even, Ev; reflexivity).
    apply Z.odd_spec in O. destruct O as [k Ek]. exists k. split; [lia|]. split; [lia|].
    rewrite Ek, plus_IZR, mult_IZR in E. rewrite K. nra.
Qed.
Lemma pgrid_centred m dr c g : pgrid (2 * m + 1) dr (g - c + m) = (IZR g - IZR c) * dr.
Proof.
  unfold pgrid. replace (2 * m + 1 - 1)%Z with (2 * m)%Z by lia. rewrite plus_IZR, minus_IZR, mult_IZR. field.
Qed.
(** ** the spacing *)
Lemma spacing_wrong L h bohr : 0 < h -> 10 * h <= L -> 0 < bohr <= 53 / 100 -> 0 < spacing L h * bohr < 63 / 100 * h.
Proof.
  intros H HL B. unfold spacing, points. pose proof (pyround_err (L / h)) as E. apply Rabs_le_inv in E.
  set (N := IZR (pyround (L / h))) in *. set (q := L / h) in *.
  assert (Q : 10 <= q). { unfold q. apply (Rmult_le_reg_r h); [exact H|]. replace (L / h * h) with L by (field; lra). exact HL. }
  assert (LL : L = q * h) by (unfold q; field; lra).
  assert (A : 0 < L / (N - 1)). { apply Rdiv_lt_0_compat; nra. }
  split; [nra|].
  assert (L / (N - 1) < 118 / 100 * h).
  { apply (Rmult_lt_reg_r (N - 1)); [lra|]. replace (L / (N - 1) * (N - 1)) with L by (field; lra). rewrite LL. nra. }
  nra.
Qed.
Lemma spacing_covers L h : points L h <> 1%Z -> IZR (points L h - 1) * spacing L h = L.
Proof.
  intros H. unfold spacing. rewrite minus_IZR. field. intros E. apply H. apply eq_IZR. lra.
Qed.

(** ** the density *)
Lemma density_k_filled F p q wk d : occ_limit <= F -> forall a rho,
  F * density_k a (repeat F p ++ repeat 0 q) wk d rho = F * rho + ksum a (repeat F p ++ repeat 0 q) wk d.
Proof.
  intros HF. induction p as [|p IH]; intros a rho.
  - cbn [repeat app]. assert (Z : ksum a (repeat 0 q) wk d = 0).
    { clear rho. revert a. induction q as [|q IH]; intros a; cbn [repeat ksum]; [reflexivity|]. rewrite IH. ring. }
    rewrite Z. destruct q as [|q]; cbn [repeat density_k]; [ring|].
    assert (E : ltb 0 occ_limit = true) by (apply ltb_true; unfold occ_limit; apply Rinv_0_lt_compat; lra).
    rewrite E. ring.
  - cbn [repeat app density_k ksum]. assert (E : ltb F occ_limit = false) by (apply ltb_false; exact HF).
    rewrite E, IH. ring.
Qed.
Lemma density_filled F l d : occ_limit <= F -> Forall (fun kf => filled F (snd kf)) l -> forall k rho,
  F * density k l d rho = F * rho + true_density k l d.
Proof.
  intros HF HA. induction HA as [|[wk f] l (p & q & Hf) HA IH]; intros k rho; cbn [density true_density]; [ring|].
  rewrite IH. cbn [snd] in Hf. rewrite Hf, density_k_filled by exact HF. ring.
Qed.
(** ** LDOS *)
Lemma ldos_range ff H wk e f bias window w : (forall x, 0 <= ff x <= 1) -> 0 <= wk -> 0 <= f <= 2 ->
  ldos_weight ff H wk e f bias window = Some w -> 0 <= w <= 2 * wk.
Proof.
  intros FF K F. unfold ldos_weight.
  assert (A : forall z, 0 <= z <= 1 -> Some (if ltb (wk * z * 2) (/ 10 ^ 4) then 0 else wk * z * 2) = Some w -> 0 <= w <= 2 * wk).
  { intros z Z E. destruct (ltb _ _); inversion E; nra. }
  assert (B : forall x, 0 <= f / 2 * (1 - ff x) <= 1) by (intros x; specialize (FF x); nra).
  assert (C : forall x, 0 <= (1 - f / 2) * ff x <= 1) by (intros x; specialize (FF x); nra).
  destruct window as [[lo hi]|].
  - destruct bias as [b|]; apply A; destruct (_ && _)%bool; lra.
  - destruct bias as [b|]; [|discriminate]. apply A. destruct (ltb (b / H) 0); [apply B|]. destruct (ltb 0 (b / H)); [apply C|lra].
Qed.
(** zero temperature: states below the Fermi level mu are full, the others are empty *)
Lemma ldos_sharp H wk e mu bias : 0 < H -> / 10 ^ 4 <= 2 * wk ->
  let ff x := if ltb x mu then 1 else 0 in
  let f := if ltb e mu then 2 else 0 in
  ldos_weight ff H wk e f (Some bias) None =
    Some (if (leb (mu + bias / H) e && ltb e mu) || (leb mu e && ltb e (mu + bias / H)) then 2 * wk else 0).
Proof.
  intros HH K. cbv zeta. unfold ldos_weight. assert (T : 0 < / 10 ^ 4) by (apply Rinv_0_lt_compat; lra).
  set (b := bias / H).
  assert (Z0 : ltb 0 (/ 10 ^ 4) = true) by (apply ltb_true; exact T).
  assert (Z1 : ltb (2 * wk) (/ 10 ^ 4) = false) by (apply ltb_false; exact K).
  assert (A : forall z (c : bool), (if c then z = 1 else z = 0) ->
    Some (if ltb (wk * z * 2) (/ 10 ^ 4) then 0 else wk * z * 2) = Some (if c then 2 * wk else 0)).
  { intros z c Hz. destruct c; rewrite Hz; [replace (wk * 1 * 2) with (2 * wk) by ring; rewrite Z1|replace (wk * 0 * 2) with 0 by ring; rewrite Z0]; reflexivity. }
  apply A.
  destruct (ltb b 0) eqn:E1; [apply ltb_true in E1|apply ltb_false in E1; destruct (ltb 0 b) eqn:E2; [apply ltb_true in E2|apply ltb_false in E2]];
  destruct (ltb e mu) eqn:E3; [apply ltb_true in E3|apply ltb_false in E3|apply ltb_true in E3|apply ltb_false in E3|apply ltb_true in E3|apply ltb_false in E3];
  destruct (leb (mu + b) e) eqn:E4; try (apply leb_true in E4); try (apply leb_false in E4);
  destruct (leb mu e) eqn:E5; try (apply leb_true in E5); try (apply leb_false in E5);
  destruct (ltb e (mu + b)) eqn:E6; try (apply ltb_true in E6); try (apply ltb_false in E6); try (exfalso; lra);
  cbn [andb orb];
  try (destruct (ltb (e - b) mu) eqn:E7; [apply ltb_true in E7|apply ltb_false in E7]; try (exfalso; lra)); try lra.
Qed.
Lemma ldos_window_abs ff H wk e f lo hi : / 10 ^ 4 <= 2 * wk ->
  ldos_weight ff H wk e f None (Some (lo, hi)) = Some (if leb (lo / H) e && leb e (hi / H) then 2 * wk else 0).
Proof.
  intros K. unfold ldos_weight. assert (T : 0 < / 10 ^ 4) by (apply Rinv_0_lt_compat; lra).
  destruct (_ && _)%bool.
  - replace (wk * 1 * 2) with (2 * wk) by ring. rewrite (proj2 (ltb_false _ _) K). reflexivity.
  - replace (wk * 0 * 2) with 0 by ring. rewrite (proj2 (ltb_true _ _) T). reflexivity.
Qed.

(** ** angular functions *)
Lemma acos_args z r : 0 < r -> Rabs z <= r -> -1 <= z / r <= 1.
Proof.
  intros R Z. apply Rabs_le_inv in Z. split; apply (Rmult_le_reg_r r); try exact R; unfold Rdiv; rewrite Rmult_assoc, Rinv_l by lra; lra.
Qed.
Lemma angular_harmonic r wf : (wf <= 8)%nat -> / 10 ^ 14 <= vnorm r -> resolved (vx r) -> resolved (vy r) ->
  angular r wf = Some (harmonic r wf).
Proof.
  intros W N X Y. unfold angular. rewrite (proj2 (ltb_false _ _) N).
  destruct (phival_polar _ _ X Y) as (t & Et & _ & Px & Py). rewrite Et.
  set (R0 := vnorm r) in *. assert (RP : 0 < R0) by (assert (0 < / 10 ^ 14) by (apply Rinv_0_lt_compat; lra); lra).
  destruct r as [x y z]. cbn [vx vy vz] in *. set (p := sqrt (x ^ 2 + y ^ 2)) in *.
  assert (R2 : R0 * R0 = x ^ 2 + y ^ 2 + z ^ 2).
  { unfold R0, vnorm. rewrite sqrt_sqrt; unfold vdot; cbn [vx vy vz]; nra. }
  assert (P0 : 0 <= p) by apply sqrt_pos.
  assert (P2 : p * p = x ^ 2 + y ^ 2) by (unfold p; apply sqrt_sqrt; nra).
  assert (ZR : Rabs z <= R0) by (apply Rabs_le; nra).
  pose proof (acos_args z R0 RP ZR) as AR.
  assert (C : cos (acos (z / R0)) = z / R0) by (apply cos_acos; exact AR).
  assert (SN : sin (acos (z / R0)) = p / R0).
  { rewrite sin_acos by exact AR. replace (1 - (z / R0)²) with ((p / R0)²).
    - apply sqrt_Rsqr. apply Rle_mult_inv_pos; lra.
    - unfold Rsqr. apply (Rmult_eq_reg_r (R0 * R0)); [|nra]. replace (p / R0 * (p / R0) * (R0 * R0)) with (p * p) by (field; lra).
      replace ((1 - z / R0 * (z / R0)) * (R0 * R0)) with (R0 * R0 - z * z) by (field; lra). nra. }
  set (th := acos (z / R0)) in *.
  assert (SX : sin th * cos t = x / R0) by (rewrite SN, Px; fold p; field; lra).
  assert (SY : sin th * sin t = y / R0) by (rewrite SN, Py; fold p; field; lra).
  unfold harmonic. cbn [vx vy vz]. fold R0.
  assert (PI4 : 0 < 4 * PI) by (pose proof PI_RGT_0; lra).
  destruct wf as [|[|[|[|[|[|[|[|[|wf]]]]]]]]]; [f_equal..|lia].
  - rewrite sqrt_div_alt, sqrt_1 by exact PI4. reflexivity.
  - rewrite Rmult_assoc, SX. reflexivity.
  - rewrite Rmult_assoc, SY. reflexivity.
  - rewrite C. reflexivity.
  - replace (sqrt (15 / (4 * PI)) * sin th ^ 2 * cos t * sin t) with (sqrt (15 / (4 * PI)) * ((sin th * cos t) * (sin th * sin t))) by ring.
    rewrite SX, SY. reflexivity.
  - replace (sqrt (15 / (4 * PI)) * sin th * cos th * sin t) with (sqrt (15 / (4 * PI)) * ((sin th * sin t) * cos th)) by ring.
    rewrite C, SY. reflexivity.
  - replace (sqrt (15 / (4 * PI)) * sin th * cos th * cos t) with (sqrt (15 / (4 * PI)) * (cos th * (sin th * cos t))) by ring.
    rewrite C, SX. reflexivity.
  - rewrite cos_2a.
    replace (/ 2 * sqrt (15 / (4 * PI)) * sin th ^ 2 * (cos t * cos t - sin t * sin t))
      with (/ 2 * sqrt (15 / (4 * PI)) * ((sin th * cos t) ^ 2 - (sin th * sin t) ^ 2)) by ring.
    rewrite SX, SY. reflexivity.
  - rewrite C. reflexivity.
Qed.
Lemma angular_nucleus : angular vzero 0 = Some 0 /\ harmonic vzero 0 <> 0.
Proof.
  split.
  - unfold angular. assert (E : vnorm vzero = 0) by (unfold vnorm, vdot, vzero; cbn [vx vy vz]; replace (0 * 0 + 0 * 0 + 0 * 0) with 0 by ring; apply sqrt_0).
    rewrite E. rewrite (proj2 (ltb_true _ _)); [reflexivity|]. apply Rinv_0_lt_compat; lra.
  - unfold harmonic. intros E. apply sqrt_eq_0 in E.
    + assert (0 < 1 / (4 * PI)) by (apply Rdiv_lt_0_compat; pose proof PI_RGT_0; lra). lra.
    + left. apply Rdiv_lt_0_compat; pose proof PI_RGT_0; lra.
Qed.

(** ** with real phases the array is the sum; complex phases *)
Lemma bloch_real m pwf l g : Forall (fun cp => snd (snd cp) = 0) l -> snd (bloch m pwf l g) = 0.
Proof.
  intros H. induction H as [|[c ph] l Hp H IH]; cbn [bloch snd]; [reflexivity|].
  cbn [snd] in Hp. rewrite IH, Hp. ring.
Qed.
Lemma placed_real L dr cutoff images l : placed L dr cutoff images l -> Forall (fun rp => snd (snd rp) = 0) images ->
  Forall (fun cp => snd (snd cp) = 0) l.
Proof.
  intros P. induction P; intros F; [constructor| |]; inversion F; subst; auto.
Qed.
Lemma basis_orbital_real L dr cutoff n m pwf images : positive3 dr -> nonneg3 m ->
  Forall (fun rp => snd (snd rp) = 0) images ->
  exists wf l, basis_orbital L dr cutoff n (odd3 m) pwf images = Some wf /\ placed L dr cutoff images l /\
    forall g, on_grid n g -> bloch m pwf l g = (wf g, 0).
Proof.
  intros D M F. destruct (basis_orbital_value L dr cutoff n m pwf images D M) as (wf & l & E & P & V).
  exists wf, l. split; [exact E|]. split; [exact P|]. intros g G. rewrite (V g G).
  pose proof (bloch_real m pwf l g (placed_real _ _ _ _ _ P F)) as Q.
  destruct (bloch m pwf l g) as [re im]. cbn [fst snd] in *. rewrite Q. reflexivity.
Qed.
Definition unit3 : v3 := V3 1 1 1.
Lemma next_to_1 (r : R) c : next_to 1 r c -> r = 0 -> c = 0%Z.
Proof.
  unfold next_to. intros H ->. apply Rabs_le_inv in H. 
  assert (A : -1 < IZR c < 1) by lra. destruct A as [A B]. apply (lt_IZR (-1)) in A. apply (lt_IZR _ 1) in B. lia.
Qed.
(** an image with phase i contributes nothing *)
Lemma complex_lost : exists L dr cutoff n m pwf images g, positive3 dr /\ nonneg3 m /\ on_grid n g /\
  exists wf, basis_orbital L dr cutoff n (odd3 m) pwf images = Some wf /\
  forall l, placed L dr cutoff images l -> bloch m pwf l g = (0, 1) /\ bloch m pwf l g <> (wf g, 0) /\ wf g = 0.
Proof.
  exists unit3, unit3, 1, (2, 2, 2)%Z, (1, 1, 1)%Z, (fun _ => 1), [(vzero, (0, 1))], (0, 0, 0)%Z.
  split; [unfold positive3, unit3; cbn [vx vy vz]; lra|]. split; [cbv; intuition discriminate|].
  split; [cbv; intuition congruence|].
  destruct (basis_orbital_value unit3 unit3 1 (2, 2, 2)%Z (1, 1, 1)%Z (fun _ => 1) [(vzero, (0, 1))]) as (wf & l0 & E & P0 & V).
  { unfold positive3, unit3; cbn [vx vy vz]; lra. } { cbv; intuition discriminate. }
  assert (K : forall l, placed unit3 unit3 1 [(vzero, (0, 1))] l -> bloch (1, 1, 1)%Z (fun _ => 1) l (0, 0, 0)%Z = (0, 1)).
  { intros l P. inversion P as [|r ph l1 l2 N Q|r ph l1 l2 c N Q T]; subst.
    - exfalso. apply N. unfold near_cell, unit3, vzero. cbn [vx vy vz]. lra.
    - inversion T; subst. destruct c as [[c1 c2] c3]. unfold next_to3, unit3, vzero in Q. cbn [vx vy vz] in Q.
      destruct Q as (Q1 & Q2 & Q3). apply next_to_1 in Q1, Q2, Q3; try reflexivity. subst.
      cbn [bloch fst snd centred]. cbn. f_equal; ring. }
  exists wf. split; [exact E|]. intros l P. rewrite (K l P).
  assert (W : wf (0, 0, 0)%Z = 0). { rewrite V by (cbv; intuition congruence). rewrite (K l0 P0). reflexivity. }
  split; [reflexivity|]. split; [|exact W]. rewrite W. intros Q. inversion Q. lra.
Qed.
(** ** the density is half of what it should be *)
Lemma density_half : exists l d, Forall (fun kf => filled 2 (snd kf)) l /\ true_density 0 l d = 2 /\ density 0 l d 0 = 1.
Proof.
  exists [(1, [2; 0])], (fun _ _ => 1). assert (F : Forall (fun kf : R * list R => filled 2 (snd kf)) [(1, [2; 0])]).
  { constructor; [|constructor]. exists 1%nat, 1%nat. reflexivity. }
  split; [exact F|]. assert (T : true_density 0 [(1, [2; 0])] (fun _ _ => 1) = 2) by (cbn [true_density ksum]; ring).
  split; [exact T|].
  assert (K := density_filled 2 [(1, [2; 0])] (fun _ _ => 1)). specialize (K ltac:(unfold occ_limit; lra) F 0%nat 0). lra.
Qed.
Lemma density_one l d : Forall (fun kf => filled 1 (snd kf)) l -> density 0 l d 0 = true_density 0 l d.
Proof.
  intros H. assert (K := density_filled 1 l d). specialize (K ltac:(unfold occ_limit; lra) H 0%nat 0). lra.
Qed.
Lemma density_two l d : Forall (fun kf => filled 2 (snd kf)) l -> 2 * density 0 l d 0 = true_density 0 l d.
Proof.
  intros H. assert (K := density_filled 2 l d). specialize (K ltac:(unfold occ_limit; lra) H 0%nat 0). lra.
Qed.
(** ** LDOS window and Fermi level *)
Lemma ldos_window_fermi ff : exists mu lo hi e, lo <= e - mu <= hi /\
  ldos_weight ff 1 1 e 1 None (Some (lo, hi)) = Some 0.
Proof.
  exists (-1), (-1/10), (1/10), (-1). split; [lra|]. rewrite ldos_window_abs by lra.
  rewrite (proj2 (leb_false _ _)) by lra. reflexivity.
Qed.
(** a window given together with a bias is not converted from eV *)
Lemma ldos_window_units ff : exists H lo hi e, 27 < H < 28 /\ lo <= e * H <= hi /\
  ldos_weight ff H 1 e 1 None (Some (lo, hi)) = Some 2 /\ ldos_weight ff H 1 e 1 (Some 1) (Some (lo, hi)) = Some 0.
Proof.
  exists (55/2), (-11), (-11/2), (-3/10). split; [lra|]. split; [lra|]. split.
  - rewrite ldos_window_abs by lra. rewrite !(proj2 (leb_true _ _)) by lra. cbn [andb]. f_equal; lra.
  - unfold ldos_weight. rewrite (proj2 (leb_true _ _)) by lra. rewrite (proj2 (leb_false (-3/10) _)) by lra.
    cbn [andb]. rewrite (proj2 (ltb_true _ _)) by lra. reflexivity.
Qed.
Example ldos_sharp_case : / 10 ^ 4 <= 2 * 1 /\ 0 < 27. Proof. lra. Qed.
Example angular_case : / 10 ^ 14 <= vnorm (V3 3 0 4) /\ resolved 3 /\ resolved 0.
Proof.
  split; [|split; [right|left; reflexivity]].
  - unfold vnorm, vdot. cbn [vx vy vz]. replace (3 * 3 + 0 * 0 + 4 * 4) with (5 * 5) by ring. rewrite sqrt_square by lra. lra.
  - unfold e16. rewrite Rabs_right by lra. lra.
Qed.
Example filled_case : filled 2 [2; 2; 0]. Proof. exists 2%nat, 1%nat. reflexivity. Qed.
Example orbital_case : positive3 unit3 /\ nonneg3 (2, 2, 2)%Z /\ on_grid (10, 10, 10)%Z (9, 0, 3)%Z.
Proof. split; [unfold positive3, unit3; cbn [vx vy vz]; lra|]. split; cbv; intuition congruence. Qed.
