From Coq Require Import Reals Lra Lia ZArith List Bool.
From Verif Require Import GeomModel GeomSpec GeomProofs GeomProofs2 GeomProofs3 ContModel ContSpec ContProofs ContProofs2 ScaModel ScaSpec ScaProofs.
Import ListNotations.
Open Scope R_scope.

(** ** WedgeYAxis: the same, with z, x, y in the places of x, y, z *)
Definition uncycle (r : v3) : v3 := V3 (vy r) (vz r) (vx r).
Lemma uncycle_cycle r : uncycle (cycle r) = r. Proof. destruct r; reflexivity. Qed.
Lemma turny_turn old new r : turny_scale old new r = uncycle (turn_scale old new (cycle r)).
Proof. reflexivity. Qed.
Lemma wy_set_angle_ok a g ph sc a' : wy_set_angle a g ph sc = Ok a' -> g <> NoAngle ->
  exists M, a' = with_pos (setcell (setcell a 2 0 (w_angle a')) 1 1 (if ph then 1 else 0))
               (if sc then map (turny_scale (w_angle a) (w_angle a')) (pos a) else pos a) /\
  match g with Angle x => w_angle a' = x /\ M = pyround (2 * PI / x)
             | Fold k => w_angle a' = 2 * PI / IZR k /\ M = k | _ => False end /\
  e6 <= w_angle a' <= PI /\ (ph = true -> Rabs (IZR M - 2 * PI / w_angle a') <= e12) /\
  (sc = true -> e10 <= Rabs (w_angle a)) /\ w_physical a' = ph.
Proof.
  assert (G : forall M x, 
    (if ltb x e6 then Exc (setcell (setcell a 2 0 x) 1 1 (if ph then 1 else 0))
     else if ltb PI x then Exc (setcell (setcell a 2 0 x) 1 1 (if ph then 1 else 0))
     else if (ltb e12 (Rabs (IZR M - 2 * PI / x)) && w_physical (setcell (setcell a 2 0 x) 1 1 (if ph then 1 else 0)))%bool
          then Exc (setcell (setcell a 2 0 x) 1 1 (if ph then 1 else 0))
     else if sc then if ltb (Rabs (w_angle a)) e10 then Exc (setcell (setcell a 2 0 x) 1 1 (if ph then 1 else 0))
                     else Ok (with_pos (setcell (setcell a 2 0 x) 1 1 (if ph then 1 else 0))
                                 (map (turny_scale (w_angle a) x) (pos a)))
          else Ok (setcell (setcell a 2 0 x) 1 1 (if ph then 1 else 0))) = Ok a' ->
    a' = with_pos (setcell (setcell a 2 0 x) 1 1 (if ph then 1 else 0))
           (if sc then map (turny_scale (w_angle a) x) (pos a) else pos a) /\
    w_angle a' = x /\ e6 <= x <= PI /\ (ph = true -> Rabs (IZR M - 2 * PI / x) <= e12) /\
    (sc = true -> e10 <= Rabs (w_angle a)) /\ w_physical a' = ph).
  { intros M x. set (b := setcell (setcell a 2 0 x) 1 1 (if ph then 1 else 0)).
    assert (Hb : w_physical b = ph) by (unfold w_physical, b; cbn; apply physical_stored). rewrite Hb.
    destruct (ltb x e6) eqn:L1; [discriminate|]. apply ltb_false in L1.
    destruct (ltb PI x) eqn:L2; [discriminate|]. apply ltb_false in L2.
    assert (L3 : (ltb e12 (Rabs (IZR M - 2 * PI / x)) && ph)%bool = false -> ph = true -> Rabs (IZR M - 2 * PI / x) <= e12).
    { intros L ->. rewrite andb_true_r in L. apply ltb_false in L. exact L. }
    destruct (ltb e12 _ && ph)%bool; [discriminate|]. specialize (L3 eq_refl).
    destruct sc.
    - destruct (ltb _ e10) eqn:L4; [discriminate|]. apply ltb_false in L4. intros E. assert (E' : a' = with_pos b (map (turny_scale (w_angle a) x) (pos a))) by congruence.
      rewrite E'. repeat split; try lra; try exact L3; try discriminate. exact Hb.
    - intros E. assert (E' : a' = b) by congruence. rewrite E'. repeat split; try lra; try exact L3; try discriminate. exact Hb. }
  intros H Hg. destruct g as [|x|k|]; try contradiction; try discriminate; unfold wy_set_angle in H.
  - destruct (Req_EM_T x 0); [discriminate|]. exists (pyround (2 * PI / x)).
    destruct (G _ _ H) as (E & Ea & E3 & E4 & E5 & E6). rewrite Ea. auto 10.
  - destruct (k =? 0)%Z; [discriminate|]. exists k.
    destruct (G _ _ H) as (E & Ea & E3 & E4 & E5 & E6). rewrite Ea. auto 10.
Qed.
Lemma wy_transform a q t z n :
  transform WedgeYAxis a (uncycle (cyl q t z)) n =
  uncycle (cyl q (t + IZR (o1 n) * w_angle a) (z + (if pbc2 a then IZR (o2 n) * w_height a else 0))).
Proof.
  cbn [transform rotation]. unfold uncycle, cyl, roty. rewrite cos_plus, sin_plus.
  destruct (pbc2 a); vunf; apply v3_eq; cbn [vx vy vz]; ring.
Qed.
Lemma wedgey_scaling a g ph a' r n t : g <> NoAngle -> wedgey_set a g None ph None true = Ok a' ->
  clear (cycle r) -> clear (cycle (transform WedgeYAxis a r n)) -> polar (vz r) (vx r) t ->
  0 <= t + IZR (o1 n) * w_angle a < 2 * PI ->
  let move := turny_scale (w_angle a) (w_angle a') in
  pos a' = map move (pos a) /\ move (transform WedgeYAxis a r n) = transform WedgeYAxis a' (move r) n.
Proof.
  intros Hg Hset Hr Hs Ht Hu. cbv zeta. unfold wedgey_set in Hset.
  destruct (wy_set_angle a g ph true) as [b|b] eqn:E; cbn [bind] in Hset; [|discriminate].
  assert (Eb : a' = b) by congruence. subst b. clear Hset.
  destruct (wy_set_angle_ok _ _ _ _ _ E Hg) as (M & Ea & _ & _ & _ & Ho & _). specialize (Ho eq_refl).
  assert (P10 : e10 > 0) by (unfold e10; lra).
  assert (H0 : w_angle a <> 0) by (intros Z; rewrite Z, Rabs_R0 in Ho; lra).
  split; [rewrite Ea; reflexivity|].
  assert (C2 : pbc2 a' = pbc2 a) by (rewrite Ea; reflexivity).
  assert (C3 : w_height a' = w_height a) by (rewrite Ea; reflexivity).
  assert (Ht' : polar (vx (cycle r)) (vy (cycle r)) t) by exact Ht.
  rewrite !turny_turn. rewrite (turn_scale_cyl _ _ (cycle r) t Hr Ht'), wy_transform, C2, C3.
  set (q := rad (vx (cycle r)) (vy (cycle r))). assert (Hq : 0 <= q) by apply rad_pos.
  set (dz := if pbc2 a then IZR (o2 n) * w_height a else 0).
  assert (T : transform WedgeYAxis a r n = uncycle (cyl q (t + IZR (o1 n) * w_angle a) (vy r + dz))).
  { rewrite <- (uncycle_cycle r) at 1. rewrite (polar_cyl (cycle r) t Ht'). rewrite wy_transform. reflexivity. }
  assert (CT : cycle (transform WedgeYAxis a r n) = cyl q (t + IZR (o1 n) * w_angle a) (vy r + dz)) by (rewrite T; reflexivity).
  assert (Hp : polar (vx (cycle (transform WedgeYAxis a r n))) (vy (cycle (transform WedgeYAxis a r n))) (t + IZR (o1 n) * w_angle a)).
  { rewrite CT. apply cyl_polar; [exact Hq|exact Hu]. }
  rewrite (turn_scale_cyl _ _ _ _ Hs Hp). rewrite CT. rewrite rad_cyl by exact Hq. cbn [vz cyl]. f_equal. f_equal. field. exact H0.
Qed.
Lemma wedgey_height_scaling a h ph a' r n : w_height a <> 0 -> wedgey_set a NoAngle (Some h) ph None true = Ok a' ->
  let move r := V3 (vx r) (vy r * h / w_height a) (vz r) in
  pos a' = map move (pos a) /\ w_height a' = h /\ move (transform WedgeYAxis a r n) = transform WedgeYAxis a' (move r) n.
Proof.
  intros H0 Hset. cbv zeta. unfold wedgey_set in Hset. cbn [wy_set_angle bind] in Hset.
  set (p := map _ (pos a)) in Hset.
  assert (E : a' = setcell (with_pos a p) 1 0 h) by congruence. clear Hset. rewrite E.
  split; [reflexivity|]. split; [reflexivity|]. unfold transform. cbn [rotation].
  change (w_angle (setcell (with_pos a p) 1 0 h)) with (w_angle a).
  change (pbc2 (setcell (with_pos a p) 1 0 h)) with (pbc2 a).
  change (w_height (setcell (with_pos a p) 1 0 h)) with h.
  unfold roty. destruct (pbc2 a); vunf; apply v3_eq; cbn [vx vy vz]; field; exact H0.
Qed.
(** across the positive z-axis *)
Definition halfy : atoms :=
  {| cell := fun i j => match i, j with 2%nat, 0%nat => PI | 1%nat, 1%nat => 1 | _, _ => 0 end;
     pbc := (true, false, false); pos := [V3 (-1) 0 0]; slabx := (0, 0) |}.
Lemma halfy_set : wedgey_set halfy (Fold 4) None true None true =
  Ok (with_pos (setcell (setcell halfy 2 0 (2 * PI / 4)) 1 1 1) (map (turny_scale PI (2 * PI / 4)) [V3 (-1) 0 0])).
Proof.
  pose proof PI_RGT_0 as HP. assert (HP1 : 1 < PI) by (pose proof PI2_1; lra).
  unfold wedgey_set, wy_set_angle. change (4 =? 0)%Z with false. cbv iota.
  change (w_angle (setcell (setcell halfy 2 0 (2 * PI / 4)) 1 1 1)) with (2 * PI / 4). change (w_angle halfy) with PI.
  rewrite (proj2 (ltb_false _ e6)) by (unfold e6; lra). rewrite (proj2 (ltb_false PI _)) by lra.
  replace (4 - 2 * PI / (2 * PI / 4)) with 0 by (field; lra). rewrite Rabs_R0.
  rewrite (proj2 (ltb_false e12 0)) by (unfold e12; lra). cbn [andb].
  rewrite (proj2 (ltb_false _ e10)) by (rewrite Rabs_right; unfold e10; lra). cbn [bind]. reflexivity.
Qed.
Lemma wedgey_crossing : exists a a' r n,
  wedgey_set a (Fold 4) None true None true = Ok a' /\ allowed WedgeYAxis a n = true /\ In r (pos a) /\
  clear (cycle r) /\ clear (cycle (transform WedgeYAxis a r n)) /\
  turny_scale (w_angle a) (w_angle a') (transform WedgeYAxis a r n) <>
  transform WedgeYAxis a' (turny_scale (w_angle a) (w_angle a') r) n.
Proof.
  pose proof PI_RGT_0 as HP. destruct sqrt2_sin as [S4 C4].
  exists halfy. eexists. exists (V3 (-1) 0 0), (1, 0, 0)%Z. split; [apply halfy_set|].
  assert (T : transform WedgeYAxis halfy (V3 (-1) 0 0) (1, 0, 0)%Z = V3 1 0 0).
  { cbn [transform rotation]. unfold o1, pbc2. cbn [fst snd halfy pbc w_angle cell]. rewrite Rmult_1_l.
    unfold roty. rewrite cos_PI, sin_PI. vunf. apply v3_eq; cbn; ring. }
  assert (A1 : Rabs (-1) = 1) by (rewrite Rabs_left; lra).
  rewrite T.
  assert (CL0 : clear (cycle (V3 (-1) 0 0))) by (apply clear_unit; [left; reflexivity|right; exact A1]).
  assert (CL1 : clear (cycle (V3 1 0 0))) by (apply clear_unit; [left; reflexivity|right; apply Rabs_R1]).
  split; [|split; [left; reflexivity|split; [exact CL0|split; [exact CL1|]]]].
  { unfold allowed, ranges. change (w_angle halfy) with PI. replace (2 * PI / PI) with (IZR 2) by (field; lra).
    rewrite pyround_IZR. reflexivity. }
  match goal with |- turny_scale ?o ?w _ <> _ => change o with PI; change w with (2 * PI / 4) end.
  assert (AZ0 : polar (vx (cycle (V3 (-1) 0 0))) (vy (cycle (V3 (-1) 0 0))) (PI / 2 + PI)).
  { unfold polar, cycle. cbn [vx vy vz]. replace (0 ^ 2 + (-1) ^ 2) with 1 by ring. rewrite sqrt_1, neg_cos, neg_sin, cos_PI2, sin_PI2. lra. }
  assert (AZ1 : polar (vx (cycle (V3 1 0 0))) (vy (cycle (V3 1 0 0))) (PI / 2)).
  { unfold polar, cycle. cbn [vx vy vz]. replace (0 ^ 2 + 1 ^ 2) with 1 by ring. rewrite sqrt_1, cos_PI2, sin_PI2. lra. }
  rewrite !turny_turn, (turn_scale_cyl _ _ _ _ CL0 AZ0), (turn_scale_cyl _ _ _ _ CL1 AZ1).
  rewrite wy_transform. set (b := with_pos _ _). change (w_angle b) with (2 * PI / 4). unfold o1. cbn [fst].
  unfold rad, cycle. cbn [vx vy vz]. replace (0 ^ 2 + 1 ^ 2) with 1 by ring. replace (0 ^ 2 + (-1) ^ 2) with 1 by ring. rewrite sqrt_1.
  replace (PI / 2 * (2 * PI / 4 / PI)) with (PI / 4) by (field; lra).
  replace ((PI / 2 + PI) * (2 * PI / 4 / PI) + 1 * (2 * PI / 4)) with (PI / 4 + PI) by (field; lra).
  intros E. apply (f_equal vx) in E. unfold cyl, uncycle in E. cbn [vx vy vz] in E. rewrite neg_sin in E. lra.
Qed.

(** ** TwistAndTurn *)
Lemma atan2_cyl rho phi z : 0 < rho -> - PI < phi <= PI -> atan2 (vy (cyl rho phi z)) (vx (cyl rho phi z)) = phi.
Proof.
  intros Hr Hp. pose proof PI_RGT_0 as HP. unfold cyl. cbn [vx vy].
  assert (Q : forall p, - (PI / 2) < p < PI / 2 -> atan (rho * sin p / (rho * cos p)) = p).
  { intros p Hq. assert (0 < cos p) by (apply cos_gt_0; lra). replace (rho * sin p / (rho * cos p)) with (tan p) by (unfold tan; field; lra). apply atan_tan. lra. }
  unfold atan2.
  destruct (Rlt_dec (- (PI / 2)) phi) as [A|A]; [destruct (Rlt_dec phi (PI / 2)) as [B|B]|].
  - assert (0 < cos phi) by (apply cos_gt_0; lra). rewrite (proj2 (ltb_true 0 _)) by nra. apply Q. lra.
  - destruct (Req_dec phi (PI / 2)) as [-> |N].
    + rewrite cos_PI2, sin_PI2, Rmult_0_r, Rmult_1_r. rewrite (proj2 (ltb_false 0 0)) by lra. rewrite (proj2 (ltb_true 0 rho)) by lra. reflexivity.
    + assert (Cs : cos phi < 0). { assert (0 < cos (PI - phi)) by (apply cos_gt_0; lra). rewrite cos_minus, cos_PI, sin_PI in H. lra. }
      rewrite (proj2 (ltb_false 0 _)) by nra. rewrite (proj2 (ltb_true _ 0)) by nra.
      assert (Sn : 0 <= sin phi) by (apply sin_ge_0; lra).
      assert (L : leb 0 (rho * sin phi) = true) by (unfold leb; destruct (Rle_dec 0 (rho * sin phi)) as [|X]; [reflexivity|nra]).
      rewrite L. assert (E : rho * sin phi / (rho * cos phi) = rho * sin (phi - PI) / (rho * cos (phi - PI))).
      { rewrite sin_minus, cos_minus, cos_PI, sin_PI. field. split; lra. }
      rewrite E, Q by lra. ring.
  - destruct (Req_dec phi (- (PI / 2))) as [-> |N].
    + rewrite cos_neg, sin_neg, cos_PI2, sin_PI2, Rmult_0_r. rewrite (proj2 (ltb_false 0 0)) by lra. rewrite (proj2 (ltb_false 0 (rho * - (1)))) by lra.
      rewrite (proj2 (ltb_true (rho * - (1)) 0)) by lra. reflexivity.
    + assert (Cs : cos phi < 0). { assert (0 < cos (phi + PI)) by (apply cos_gt_0; lra). rewrite neg_cos in H. lra. }
      assert (Sn : sin phi < 0). { assert (0 < sin (phi + PI)) by (apply sin_gt_0; lra). rewrite neg_sin in H. lra. }
      rewrite (proj2 (ltb_false 0 _)) by nra. rewrite (proj2 (ltb_true _ 0)) by nra.
      assert (L : leb 0 (rho * sin phi) = false) by (unfold leb; destruct (Rle_dec 0 (rho * sin phi)) as [X|]; [nra|reflexivity]).
      rewrite L. assert (E : rho * sin phi / (rho * cos phi) = rho * sin (phi + PI) / (rho * cos (phi + PI))).
      { rewrite neg_sin, neg_cos. field. split; lra. }
      rewrite E, Q by lra. ring.
Qed.
Lemma tat_transform a rho phi z n : 0 < rho -> transform TwistAndTurn a (cyl rho phi z) n =
  cyl (t_R a + (rho - t_R a) * cos (IZR (o3 n) * t_twist a) + z * sin (IZR (o3 n) * t_twist a)) (phi + IZR (o3 n) * t_bend a)
      (z * cos (IZR (o3 n) * t_twist a) - (rho - t_R a) * sin (IZR (o3 n) * t_twist a)).
Proof.
  intros H0. cbn [transform]. destruct (Z.eqb_spec (o3 n) 0) as [-> |Hk]; [|apply tat_polar, H0].
  rewrite !Rmult_0_l, cos_0, sin_0. unfold cyl. apply v3_eq; cbn [vx vy vz]; rewrite ?Rplus_0_r; ring.
Qed.
Lemma bend_scale_cyl old new rho phi z : 0 < rho -> - PI < phi <= PI -> bend_scale old new (cyl rho phi z) = cyl rho (new / old * phi) z.
Proof. intros Hr Hp. unfold bend_scale. rewrite (atan2_cyl rho phi z Hr Hp), rad_cyl by lra. reflexivity. Qed.
Lemma twist_scale_cyl a new rho phi z : 0 < rho -> - PI < phi <= PI -> twistturn_scale a new (cyl rho phi z) =
  let t := (new - t_twist a) * (phi / t_bend a) in
  cyl (t_R a + (rho - t_R a) * cos t + z * sin t) phi (z * cos t - (rho - t_R a) * sin t).
Proof. intros Hr Hp. unfold twistturn_scale. rewrite (atan2_cyl rho phi z Hr Hp), tat_polar by exact Hr. cbv zeta. rewrite Rplus_0_r. reflexivity. Qed.
Lemma radius_scale_cyl old new rho phi z : 0 < rho -> - PI < phi <= PI -> radius_scale old new (cyl rho phi z) = cyl (rho + (new - old)) phi z.
Proof. intros Hr Hp. unfold radius_scale. rewrite (atan2_cyl rho phi z Hr Hp), rad_cyl by lra. reflexivity. Qed.
(** bending keeps the distances from the axis *)
Lemma bend_rad old new r : rad (vx (bend_scale old new r)) (vy (bend_scale old new r)) = rad (vx r) (vy r).
Proof.
  unfold bend_scale. cbn [vx vy]. set (q := rad (vx r) (vy r)). set (t := new / old * _).
  exact (rad_cyl q t 0 (rad_pos _ _)).
Qed.
Lemma t_R_bend a g : t_R (setcell (with_pos a (map (bend_scale (t_bend a) g) (pos a))) 0 1 g) = t_R a.
Proof.
  unfold t_R. change (cell (setcell (with_pos a (map (bend_scale (t_bend a) g) (pos a))) 0 1 g) 1%nat 2%nat) with (cell a 1%nat 2%nat).
  destruct (ltb (Rabs (cell a 1%nat 2%nat)) e16); [|reflexivity]. cbn [pos setcell with_cell with_pos]. rewrite map_map. f_equal.
  apply map_ext. intros r. apply (bend_rad (t_bend a) g r).
Qed.
