From Coq Require Import Reals Lra Lia ZArith List Bool.
From Verif Require Import GeomModel GeomSpec GeomProofs GeomProofs2 GeomProofs3 ContModel ContSpec ContProofs ContProofs2 ScaModel.
Import ListNotations.
Open Scope R_scope.

(** ** the wedge angle across the negative x-axis *)
Definition half : atoms :=
  {| cell := fun i j => match i, j with 2%nat, 0%nat => PI | 1%nat, 1%nat => 1 | _, _ => 0 end;
     pbc := (true, false, false); pos := [V3 0 1 0]; slabx := (0, 0) |}.
Lemma sqrt2_sin : sin (PI / 4) > 0 /\ cos (PI / 4) > 0.
Proof. pose proof PI_RGT_0. split; [apply sin_gt_0; lra|apply cos_gt_0; lra]. Qed.
Lemma half_set : wedge_set half (Fold 4) None true None true =
  Ok (with_pos (setcell (setcell half 2 0 (2 * PI / 4)) 1 1 1) (map (wedge_scale PI (2 * PI / 4)) [V3 0 1 0])).
Proof.
  pose proof PI_RGT_0 as HP. assert (HP1 : 1 < PI) by (pose proof PI2_1; lra).
  unfold wedge_set, wedge_set_angle. change (4 =? 0)%Z with false. cbv iota.
  change (w_angle (setcell (setcell half 2 0 (2 * PI / 4)) 1 1 1)) with (2 * PI / 4). change (w_angle half) with PI.
  rewrite (proj2 (ltb_false _ e6)) by (unfold e6; lra). rewrite (proj2 (ltb_false PI _)) by lra.
  replace (4 - 2 * PI / (2 * PI / 4)) with 0 by (field; lra). rewrite Rabs_R0.
  rewrite (proj2 (ltb_false e12 0)) by (unfold e12; lra). cbn [andb].
  rewrite (proj2 (ltb_false _ e10)) by (rewrite Rabs_right; unfold e10; lra). cbn [bind]. reflexivity.
Qed.
Lemma clear_unit x y z : (x = 0 \/ Rabs x = 1) -> (y = 0 \/ Rabs y = 1) -> clear (V3 x y z).
Proof.
  assert (H1 : e16 < 1) by (unfold e16; lra).
  intros [Hx|Hx] [Hy|Hy]; split; cbn [vx vy]; (left; assumption) || (right; rewrite ?Hx, ?Hy; exact H1).
Qed.
Lemma wedge_crossing : exists a a' r n,
  wedge_set a (Fold 4) None true None true = Ok a' /\ allowed Wedge a n = true /\ In r (pos a) /\
  clear r /\ clear (transform Wedge a r n) /\
  wedge_scale (w_angle a) (w_angle a') (transform Wedge a r n) <>
  transform Wedge a' (wedge_scale (w_angle a) (w_angle a') r) n.
Proof.
  pose proof PI_RGT_0 as HP. destruct sqrt2_sin as [S4 C4].
  exists half. eexists. exists (V3 0 1 0), (1, 0, 0)%Z. split; [apply half_set|].
  assert (T : transform Wedge half (V3 0 1 0) (1, 0, 0)%Z = V3 0 (-1) 0).
  { cbn [transform rotation]. unfold o1, pbc3. cbn [fst snd half pbc w_angle cell]. rewrite Rmult_1_l.
    unfold rotz. rewrite cos_PI, sin_PI. vunf. apply v3_eq; cbn; ring. }
  assert (A1 : Rabs (-1) = 1) by (rewrite Rabs_left; lra).
  assert (CL0 : clear (V3 0 1 0)) by (apply clear_unit; [left; reflexivity|right; apply Rabs_R1]).
  assert (CL1 : clear (V3 0 (-1) 0)) by (apply clear_unit; [left; reflexivity|right; exact A1]).
  rewrite T. split; [|split; [left; reflexivity|split; [exact CL0|split; [exact CL1|]]]].
  { unfold allowed, ranges. change (w_angle half) with PI. replace (2 * PI / PI) with (IZR 2) by (field; lra).
    rewrite pyround_IZR. reflexivity. }
  match goal with |- wedge_scale ?o ?w _ <> _ => change o with PI; change w with (2 * PI / 4) end.
  assert (AZ0 : azimuth (V3 0 1 0) (PI / 2)).
  { unfold azimuth. cbn [vx vy]. replace (0 ^ 2 + 1 ^ 2) with 1 by ring. rewrite sqrt_1, cos_PI2, sin_PI2. lra. }
  assert (AZ1 : azimuth (V3 0 (-1) 0) (- (PI / 2))).
  { unfold azimuth. cbn [vx vy]. replace (0 ^ 2 + (-1) ^ 2) with 1 by ring. rewrite sqrt_1, cos_neg, sin_neg, cos_PI2, sin_PI2. lra. }
  rewrite (wedge_scale_cyl _ _ _ _ CL0 AZ0), (wedge_scale_cyl _ _ _ _ CL1 AZ1).
  unfold rad. cbn [vx vy vz]. replace (0 ^ 2 + 1 ^ 2) with 1 by ring. replace (0 ^ 2 + (-1) ^ 2) with 1 by ring. rewrite sqrt_1.
  set (b := with_pos _ _). cbn [transform rotation]. change (w_angle b) with (2 * PI / 4). change (pbc3 b) with false. cbv iota.
  rewrite rotated_cyl. unfold o1. cbn [fst].
  replace (PI / 2 * (2 * PI / 4 / PI) + 1 * (2 * PI / 4)) with (PI - PI / 4) by (field; lra).
  replace (- (PI / 2) * (2 * PI / 4 / PI)) with (- (PI / 4)) by (field; lra).
  replace (1 * PI / (2 * PI / 4)) with 2 by (field; lra).
  intros E. apply (f_equal vy) in E. unfold cyl in E. revert E. vunf. cbn [vy]. rewrite sin_neg.
  assert (SS : sin (PI - PI / 4) = sin (PI / 4)) by (rewrite sin_minus, sin_PI, cos_PI; ring). rewrite SS. lra.
Qed.

(** ** turning about z, radii kept *)
Lemma turn_scale_cyl old new r t : clear r -> polar (vx r) (vy r) t ->
  turn_scale old new r = cyl (rad (vx r) (vy r)) (t * (new / old)) (vz r).
Proof.
  intros [Hx Hy] (Ht & Ex & Ey). unfold turn_scale, cyl.
  destruct (phival_polar _ _ Hx Hy) as (p & Ep & [Hp0 Hp1] & Hpx & Hpy).
  unfold get_phi. rewrite Ep. cbv zeta. fold (rad (vx r) (vy r)) in *.
  destruct (Req_dec (rad (vx r) (vy r)) 0) as [Z|Z].
  - rewrite Z. f_equal; ring.
  - replace p with t; [reflexivity|].
    assert (C : cos (t - PI) = cos (p - PI) /\ sin (t - PI) = sin (p - PI)).
    { rewrite !cos_minus, !sin_minus, cos_PI, sin_PI. split.
      - assert (cos t = cos p) by (apply Rmult_eq_reg_l with (rad (vx r) (vy r)); [congruence|exact Z]). lra.
      - assert (sin t = sin p) by (apply Rmult_eq_reg_l with (rad (vx r) (vy r)); [congruence|exact Z]). lra. }
    destruct C as [C1 C2].
    assert (K : forall x y, 0 <= x < 2 * PI -> 0 <= y < 2 * PI -> cos (x - PI) = cos (y - PI) -> sin (x - PI) = sin (y - PI) -> x = y).
    { intros x y Hx' Hy' D1 D2. assert (Q : PI - x = PI - y); [|lra]. apply angle_unique; try lra.
      - replace (PI - x) with (- (x - PI)) by ring. replace (PI - y) with (- (y - PI)) by ring. rewrite !cos_neg. exact D1.
      - replace (PI - x) with (- (x - PI)) by ring. replace (PI - y) with (- (y - PI)) by ring. rewrite !sin_neg. lra. }
    apply K; auto.
Qed.
Lemma polar_cyl r t : polar (vx r) (vy r) t -> r = cyl (rad (vx r) (vy r)) t (vz r).
Proof. intros (_ & E1 & E2). unfold cyl. destruct r; cbn in *. unfold rad. f_equal; assumption. Qed.
Lemma cyl_polar q t z : 0 <= q -> 0 <= t < 2 * PI -> polar (vx (cyl q t z)) (vy (cyl q t z)) t.
Proof.
  intros Hq Ht. split; [exact Ht|]. pose proof (rad_cyl q t z Hq) as E. unfold rad in E. rewrite E. split; reflexivity.
Qed.

(** what an accepted angle of ChiralWedge leaves behind *)
Lemma cw_set_angle_ok a g ph sc a' : cw_set_angle a g ph sc = Ok a' -> g <> NoAngle ->
  exists M, a' = with_pos (setcell (setcell a 2 0 (cw_angle a')) 1 1 (if ph then 1 else 0))
               (if sc then map (turn_scale (cw_angle a) (cw_angle a')) (pos a) else pos a) /\
  match g with Angle x => cw_angle a' = x /\ M = Z.abs (pyround (2 * PI / x))
             | Fold k => cw_angle a' = 2 * PI / IZR k /\ M = k | _ => False end /\
  e6 <= Rabs (cw_angle a') /\ cw_angle a' <= PI /\ (ph = true -> Rabs (IZR M - 2 * PI / Rabs (cw_angle a')) <= e12) /\
  (sc = true -> e10 <= Rabs (cw_angle a)) /\ w_physical a' = ph.
Proof.
  assert (G : forall M x, 
    (if ltb (Rabs x) e6 then Exc (setcell (setcell a 2 0 x) 1 1 (if ph then 1 else 0))
     else if ltb PI x then Exc (setcell (setcell a 2 0 x) 1 1 (if ph then 1 else 0))
     else if (ltb e12 (Rabs (IZR M - 2 * PI / Rabs x)) && w_physical (setcell (setcell a 2 0 x) 1 1 (if ph then 1 else 0)))%bool
          then Exc (setcell (setcell a 2 0 x) 1 1 (if ph then 1 else 0))
     else if sc then if ltb (Rabs (cw_angle a)) e10 then Exc (setcell (setcell a 2 0 x) 1 1 (if ph then 1 else 0))
                     else Ok (with_pos (setcell (setcell a 2 0 x) 1 1 (if ph then 1 else 0))
                                 (map (turn_scale (cw_angle a) x) (pos a)))
          else Ok (setcell (setcell a 2 0 x) 1 1 (if ph then 1 else 0))) = Ok a' ->
    a' = with_pos (setcell (setcell a 2 0 x) 1 1 (if ph then 1 else 0))
           (if sc then map (turn_scale (cw_angle a) x) (pos a) else pos a) /\
    cw_angle a' = x /\ e6 <= Rabs x /\ x <= PI /\ (ph = true -> Rabs (IZR M - 2 * PI / Rabs x) <= e12) /\
    (sc = true -> e10 <= Rabs (cw_angle a)) /\ w_physical a' = ph).
  { intros M x. set (b := setcell (setcell a 2 0 x) 1 1 (if ph then 1 else 0)).
    assert (Hb : w_physical b = ph) by (unfold w_physical, b; cbn; apply physical_stored). rewrite Hb.
    destruct (ltb (Rabs x) e6) eqn:L1; [discriminate|]. apply ltb_false in L1.
    destruct (ltb PI x) eqn:L2; [discriminate|]. apply ltb_false in L2.
    assert (L3 : (ltb e12 (Rabs (IZR M - 2 * PI / Rabs x)) && ph)%bool = false -> ph = true -> Rabs (IZR M - 2 * PI / Rabs x) <= e12).
    { intros L ->. rewrite andb_true_r in L. apply ltb_false in L. exact L. }
    destruct (ltb e12 _ && ph)%bool; [discriminate|]. specialize (L3 eq_refl).
    destruct sc.
    - destruct (ltb _ e10) eqn:L4; [discriminate|]. apply ltb_false in L4. intros E. assert (E' : a' = with_pos b (map (turn_scale (cw_angle a) x) (pos a))) by congruence.
      rewrite E'. repeat split; try lra; try exact L3; try discriminate. exact Hb.
    - intros E. assert (E' : a' = b) by congruence. rewrite E'. repeat split; try lra; try exact L3; try discriminate. exact Hb. }
  intros H Hg. destruct g as [|x|k|]; try contradiction; try discriminate; unfold cw_set_angle in H.
  - destruct (Req_EM_T x 0); [discriminate|]. exists (Z.abs (pyround (2 * PI / x))).
    destruct (G _ _ H) as (E & Ea & E3 & E4 & E5 & E6). rewrite Ea. auto 10.
  - destruct (k =? 0)%Z; [discriminate|]. exists k.
    destruct (G _ _ H) as (E & Ea & E3 & E4 & E5 & E6). rewrite Ea. auto 10.
Qed.

Lemma cw_transform a q t z n :
  transform ChiralWedge a (cyl q t z) n = cyl q (t + (IZR (o1 n) * cw_angle a + IZR (o3 n) * cw_twist a)) (z + IZR (o3 n) * cw_height a).
Proof. cbn [transform rotation]. rewrite rotated_cyl. unfold cyl. vunf. apply v3_eq; cbn [vx vy vz]; ring. Qed.

Lemma chiralwedge_scaling a g ph a' r n t : g <> NoAngle -> chiralwedge_set a g None ph None true = Ok a' ->
  clear r -> clear (transform ChiralWedge a r n) -> polar (vx r) (vy r) t ->
  0 <= t + IZR (o1 n) * cw_angle a < 2 * PI -> (o3 n = 0%Z \/ cw_twist a = 0) ->
  let move := turn_scale (cw_angle a) (cw_angle a') in
  pos a' = map move (pos a) /\ move (transform ChiralWedge a r n) = transform ChiralWedge a' (move r) n.
Proof.
  intros Hg Hset Hr Hs Ht Hu Htw. cbv zeta. unfold chiralwedge_set in Hset.
  destruct (cw_set_angle a g ph true) as [b|b] eqn:E; cbn [bind] in Hset; [|discriminate].
  assert (Eb : a' = b) by congruence. subst b. clear Hset.
  destruct (cw_set_angle_ok _ _ _ _ _ E Hg) as (M & Ea & _ & _ & _ & _ & Ho & _). specialize (Ho eq_refl).
  assert (P10 : e10 > 0) by (unfold e10; lra).
  assert (H0 : cw_angle a <> 0) by (intros Z; rewrite Z, Rabs_R0 in Ho; lra).
  assert (TW : IZR (o3 n) * cw_twist a = 0) by (destruct Htw as [-> | ->]; ring).
  split; [rewrite Ea; reflexivity|].
  assert (C2 : cw_twist a' = cw_twist a) by (rewrite Ea; reflexivity).
  assert (C3 : cw_height a' = cw_height a) by (rewrite Ea; reflexivity).
  rewrite (turn_scale_cyl _ _ r t Hr Ht), cw_transform, C2, C3, TW.
  set (q := rad (vx r) (vy r)). assert (Hq : 0 <= q) by apply rad_pos.
  assert (T : transform ChiralWedge a r n = cyl q (t + IZR (o1 n) * cw_angle a) (vz r + IZR (o3 n) * cw_height a)).
  { rewrite (polar_cyl r t Ht) at 1. rewrite cw_transform, TW. fold q. f_equal. ring. }
  assert (Hp : polar (vx (transform ChiralWedge a r n)) (vy (transform ChiralWedge a r n)) (t + IZR (o1 n) * cw_angle a)).
  { rewrite T. apply cyl_polar; [exact Hq|exact Hu]. }
  rewrite (turn_scale_cyl _ _ _ _ Hs Hp). rewrite T at 1 2 3. rewrite rad_cyl by exact Hq. cbn [vz cyl]. f_equal. field. exact H0.
Qed.

Lemma chiralwedge_height_scaling a h ph a' r n : cw_height a <> 0 -> chiralwedge_set a NoAngle (Some h) ph None true = Ok a' ->
  let move r := V3 (vx r) (vy r) (vz r * h / cw_height a) in
  pos a' = map move (pos a) /\ cw_height a' = h /\ move (transform ChiralWedge a r n) = transform ChiralWedge a' (move r) n.
Proof.
  intros H0 Hset. cbv zeta. unfold chiralwedge_set in Hset. cbn [cw_set_angle bind] in Hset.
  set (p := map _ (pos a)) in Hset.
  assert (E : a' = setcell (with_pos a p) 1 0 h) by congruence. clear Hset. rewrite E.
  split; [reflexivity|]. split; [reflexivity|]. unfold transform. cbn [rotation].
  change (cw_angle (setcell (with_pos a p) 1 0 h)) with (cw_angle a).
  change (cw_twist (setcell (with_pos a p) 1 0 h)) with (cw_twist a).
  change (cw_height (setcell (with_pos a p) 1 0 h)) with h.
  unfold rotz. vunf; apply v3_eq; cbn [vx vy vz]; field; exact H0.
Qed.

(** the twist is not scaled with the angle *)
Definition screw : atoms :=
  {| cell := fun i j => match i, j with 2%nat, 0%nat => PI | 1%nat, 1%nat => 1 | 1%nat, 0%nat => 1 | 0%nat, 1%nat => PI / 2 | _, _ => 0 end;
     pbc := (true, false, true); pos := [V3 1 0 0]; slabx := (0, 0) |}.
Lemma screw_set : chiralwedge_set screw (Fold 4) None true None true =
  Ok (with_pos (setcell (setcell screw 2 0 (2 * PI / 4)) 1 1 1) (map (turn_scale PI (2 * PI / 4)) [V3 1 0 0])).
Proof.
  pose proof PI_RGT_0 as HP. assert (HP1 : 1 < PI) by (pose proof PI2_1; lra).
  unfold chiralwedge_set, cw_set_angle. change (4 =? 0)%Z with false. cbv iota.
  change (cw_angle (setcell (setcell screw 2 0 (2 * PI / 4)) 1 1 1)) with (2 * PI / 4). change (cw_angle screw) with PI.
  rewrite (Rabs_right (2 * PI / 4)) by lra.
  rewrite (proj2 (ltb_false _ e6)) by (unfold e6; lra). rewrite (proj2 (ltb_false PI _)) by lra.
  replace (4 - 2 * PI / (2 * PI / 4)) with 0 by (field; lra). rewrite Rabs_R0.
  rewrite (proj2 (ltb_false e12 0)) by (unfold e12; lra). cbn [andb].
  rewrite (proj2 (ltb_false _ e10)) by (rewrite Rabs_right; unfold e10; lra). cbn [bind]. reflexivity.
Qed.
Lemma chiralwedge_twist : exists a a' r n,
  chiralwedge_set a (Fold 4) None true None true = Ok a' /\ allowed ChiralWedge a n = true /\ In r (pos a) /\
  clear r /\ clear (transform ChiralWedge a r n) /\
  turn_scale (cw_angle a) (cw_angle a') (transform ChiralWedge a r n) <>
  transform ChiralWedge a' (turn_scale (cw_angle a) (cw_angle a') r) n.
Proof.
  pose proof PI_RGT_0 as HP. destruct sqrt2_sin as [S4 C4].
  exists screw. eexists. exists (V3 1 0 0), (0, 0, 1)%Z. split; [apply screw_set|].
  assert (R0 : V3 1 0 0 = cyl 1 0 0) by (unfold cyl; rewrite cos_0, sin_0; f_equal; ring).
  assert (T : transform ChiralWedge screw (V3 1 0 0) (0, 0, 1)%Z = V3 0 1 1).
  { rewrite R0, cw_transform. unfold o1, o3. cbn [fst snd]. change (cw_twist screw) with (PI / 2). change (cw_height screw) with 1.
    replace (0 + (0 * cw_angle screw + 1 * (PI / 2))) with (PI / 2) by ring. unfold cyl. rewrite cos_PI2, sin_PI2. f_equal; ring. }
  rewrite T.
  assert (CL0 : clear (V3 1 0 0)) by (apply clear_unit; [right; apply Rabs_R1|left; reflexivity]).
  assert (CL1 : clear (V3 0 1 1)) by (apply clear_unit; [left; reflexivity|right; apply Rabs_R1]).
  split; [|split; [left; reflexivity|split; [exact CL0|split; [exact CL1|]]]].
  { unfold allowed, ranges. change (cw_angle screw) with PI. rewrite (Rabs_right PI) by lra. replace (2 * PI / PI) with (IZR 2) by (field; lra).
    rewrite pyround_IZR. reflexivity. }
  match goal with |- turn_scale ?o ?w _ <> _ => change o with PI; change w with (2 * PI / 4) end.
  assert (AZ0 : polar 1 0 0).
  { unfold polar. replace (1 ^ 2 + 0 ^ 2) with 1 by ring. rewrite sqrt_1, cos_0, sin_0. lra. }
  assert (AZ1 : polar 0 1 (PI / 2)).
  { unfold polar. replace (0 ^ 2 + 1 ^ 2) with 1 by ring. rewrite sqrt_1, cos_PI2, sin_PI2. lra. }
  rewrite (turn_scale_cyl _ _ _ _ CL0 AZ0), (turn_scale_cyl _ _ _ _ CL1 AZ1).
  unfold rad. cbn [vx vy vz]. replace (0 ^ 2 + 1 ^ 2) with 1 by ring. replace (1 ^ 2 + 0 ^ 2) with 1 by ring. rewrite sqrt_1.
  rewrite cw_transform. set (b := with_pos _ _). change (cw_twist b) with (PI / 2). unfold o1, o3. cbn [fst snd].
  replace (PI / 2 * (2 * PI / 4 / PI)) with (PI / 4) by (field; lra).
  replace (0 * (2 * PI / 4 / PI) + (0 * cw_angle b + 1 * (PI / 2))) with (PI / 2) by (field; lra).
  intros E. apply (f_equal vx) in E. unfold cyl in E. cbn [vx] in E. rewrite cos_PI2 in E. lra.
Qed.
