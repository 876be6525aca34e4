From Coq Require Import Reals Lra Lia ZArith List Bool.
From Verif Require Import GeomModel GeomSpec GeomProofs GeomProofs2 GeomProofs3 ContModel ContSpec ContProofs.
Import ListNotations.
Require Import ZifyBool.
Open Scope R_scope.

(** ** Wedge: scaling the angle *)
Lemma angle_unique t u : - PI < t <= PI -> - PI < u <= PI -> cos t = cos u -> sin t = sin u -> t = u.
Proof.
  intros Ht Hu Hc Hs.
  assert (C : cos (t - u) = 1).
  { rewrite cos_minus, Hc, Hs. pose proof (sincos u). lra. }
  assert (S : sin ((t - u) / 2) = 0).
  { replace (t - u) with (2 * ((t - u) / 2)) in C by field. rewrite cos_2a_sin in C. nra. }
  destruct (Rtotal_order t u) as [L|[E|L]]; [|exact E|].
  - assert (0 < sin (- ((t - u) / 2))) by (apply sin_gt_0; lra). rewrite sin_neg in H. lra.
  - assert (0 < sin ((t - u) / 2)) by (apply sin_gt_0; lra). lra.
Qed.

Lemma wedge_scale_cyl old new r t : clear r -> azimuth r t ->
  wedge_scale old new r = cyl (rad (vx r) (vy r) * old / new) (t * (new / old)) (vz r).
Proof.
  intros [Hx Hy] (Ht & Ex & Ey). unfold wedge_scale, cyl.
  destruct (phival_polar _ _ Hx Hy) as (p & Ep & [Hp0 Hp1] & Hpx & Hpy).
  unfold get_phi. rewrite Ep. cbv zeta.
  set (q := if ltb PI p then p - 2 * PI else p).
  fold (rad (vx r) (vy r)) in *.
  assert (Q : - PI < q <= PI /\ cos q = cos p /\ sin q = sin p).
  { unfold q. destruct (ltb PI p) eqn:L.
    - apply ltb_true in L. split; [lra|]. destruct (sin_cos_period (p - 2 * PI) 1) as [A B].
      replace (p - 2 * PI + 2 * 1 * PI) with p in * by ring. auto.
    - apply ltb_false in L. pose proof PI_RGT_0. split; [lra|auto]. }
  destruct Q as (Q1 & Q2 & Q3).
  destruct (Req_dec (rad (vx r) (vy r)) 0) as [Z|Z].
  - rewrite Z. f_equal; unfold Rdiv; ring.
  - replace q with t; [reflexivity|]. symmetry. apply angle_unique; auto.
    + rewrite Q2. apply Rmult_eq_reg_l with (rad (vx r) (vy r)); [congruence|exact Z].
    + rewrite Q3. apply Rmult_eq_reg_l with (rad (vx r) (vy r)); [congruence|exact Z].
Qed.

Lemma wedge_set_angle_ok a g ph sc a' : wedge_set_angle a g ph sc = Ok a' -> g <> NoAngle ->
  exists M, a' = with_pos (setcell (setcell a 2 0 (w_angle a')) 1 1 (if ph then 1 else 0))
               (if sc then map (wedge_scale (w_angle a) (w_angle a')) (pos a) else pos a) /\
  match g with Angle x => w_angle a' = x /\ M = pyround (2 * PI / x)
             | Fold k => w_angle a' = 2 * PI / IZR k /\ M = k | _ => False end /\
  e6 <= w_angle a' <= PI /\ (ph = true -> Rabs (IZR M - 2 * PI / w_angle a') <= e12) /\
  (sc = true -> e10 <= Rabs (w_angle a)) /\ w_physical a' = ph.
Proof.
  assert (G : forall M x, 
    (if ltb x e6 then Exc (setcell (setcell a 2 0 x) 1 1 (if ph then 1 else 0))
     else if ltb PI x then Exc (setcell (setcell a 2 0 x) 1 1 (if ph then 1 else 0))
     else if (ltb e12 (Rabs (IZR M - 2 * PI / x)) && w_physical (setcell (setcell a 2 0 x) 1 1 (if ph then 1 else 0)))%bool
          then Exc (setcell (setcell a 2 0 x) 1 1 (if ph then 1 else 0))
     else if sc then if ltb (Rabs (w_angle a)) e10 then Exc (setcell (setcell a 2 0 x) 1 1 (if ph then 1 else 0))
                     else Ok (with_pos (setcell (setcell a 2 0 x) 1 1 (if ph then 1 else 0))
                                 (map (wedge_scale (w_angle a) x) (pos a)))
          else Ok (setcell (setcell a 2 0 x) 1 1 (if ph then 1 else 0))) = Ok a' ->
    a' = with_pos (setcell (setcell a 2 0 x) 1 1 (if ph then 1 else 0))
           (if sc then map (wedge_scale (w_angle a) x) (pos a) else pos a) /\
    w_angle a' = x /\ e6 <= x <= PI /\ (ph = true -> Rabs (IZR M - 2 * PI / x) <= e12) /\
    (sc = true -> e10 <= Rabs (w_angle a)) /\ w_physical a' = ph).
  { intros M x. set (b := setcell (setcell a 2 0 x) 1 1 (if ph then 1 else 0)).
    assert (Hb : w_physical b = ph) by (unfold w_physical, b; cbn; apply physical_stored). rewrite Hb.
    destruct (ltb x e6) eqn:L1; [discriminate|]. apply ltb_false in L1.
    destruct (ltb PI x) eqn:L2; [discriminate|]. apply ltb_false in L2.
    destruct (ltb e12 _) eqn:L3.
    - destruct ph; [discriminate|]. cbn [andb].
      destruct sc.
      + destruct (ltb _ e10) eqn:L4; [discriminate|]. apply ltb_false in L4. intros E. assert (E' : a' = with_pos b (map (wedge_scale (w_angle a) x) (pos a))) by congruence.
        rewrite E'. repeat split; try lra; try discriminate. exact Hb.
      + intros E. assert (E' : a' = b) by congruence. rewrite E'. repeat split; try lra; try discriminate. exact Hb.
    - apply ltb_false in L3. cbn [andb].
      destruct sc.
      + destruct (ltb _ e10) eqn:L4; [discriminate|]. apply ltb_false in L4. intros E. assert (E' : a' = with_pos b (map (wedge_scale (w_angle a) x) (pos a))) by congruence.
        rewrite E'. repeat split; try lra; try discriminate. exact Hb.
      + intros E. assert (E' : a' = b) by congruence. rewrite E'. repeat split; try lra; try discriminate. exact Hb. }
  intros H Hg. destruct g as [|x|k|]; try contradiction; try discriminate; unfold wedge_set_angle in H.
  - destruct (Req_EM_T x 0); [discriminate|]. exists (pyround (2 * PI / x)).
    destruct (G _ _ H) as (E & Ea & E3 & E4 & E5 & E6). rewrite Ea. auto 10.
  - destruct (k =? 0)%Z; [discriminate|]. exists k.
    destruct (G _ _ H) as (E & Ea & E3 & E4 & E5 & E6). rewrite Ea. auto 10.
Qed.

Lemma rotated_cyl q t z u : mv (rotz u) (cyl q t z) = cyl q (t + u) z.
Proof. unfold rotz, cyl. rewrite cos_plus, sin_plus. vunf. apply v3_eq; cbn; ring. Qed.
Lemma azimuth_cyl r t : azimuth r t -> r = cyl (rad (vx r) (vy r)) t (vz r).
Proof. intros (_ & E1 & E2). unfold cyl. destruct r; cbn in *. unfold rad. f_equal; assumption. Qed.
Lemma rad_cyl q t z : 0 <= q -> rad (vx (cyl q t z)) (vy (cyl q t z)) = q.
Proof.
  intros Hq. unfold rad, cyl. cbn [vx vy].
  replace ((q * cos t) ^ 2 + (q * sin t) ^ 2) with (q * q * (sin t * sin t + cos t * cos t)) by ring.
  rewrite sincos, Rmult_1_r. apply sqrt_square, Hq.
Qed.
Lemma rad_pos x y : 0 <= rad x y. Proof. apply sqrt_pos. Qed.

Lemma wedge_scaling a g ph a' r n t : g <> NoAngle -> wedge_set a g None ph None true = Ok a' ->
  clear r -> clear (transform Wedge a r n) -> azimuth r t -> - PI < t + IZR (o1 n) * w_angle a <= PI ->
  let move := wedge_scale (w_angle a) (w_angle a') in
  pos a' = map move (pos a) /\ move (transform Wedge a r n) = transform Wedge a' (move r) n.
Proof.
  intros Hg Hset Hr Hs Ht Hu. cbv zeta. unfold wedge_set in Hset.
  destruct (wedge_set_angle a g ph true) as [b|b] eqn:E; cbn [bind] in Hset; [|discriminate].
  assert (Eb : a' = b) by congruence. subst b. clear Hset.
  destruct (wedge_set_angle_ok _ _ _ _ _ E Hg) as (M & Ea & _ & Hb & _ & Ho & _). specialize (Ho eq_refl).
  assert (P6 : e6 > 0) by (unfold e6; lra). assert (P10 : e10 > 0) by (unfold e10; lra).
  assert (H0 : w_angle a <> 0) by (intros Z; rewrite Z, Rabs_R0 in Ho; lra).
  assert (H1 : w_angle a' <> 0) by lra.
  set (old := w_angle a) in *. set (new := w_angle a') in *.
  split; [rewrite Ea; reflexivity|].
  rewrite (wedge_scale_cyl old new r t Hr Ht).
  set (q := rad (vx r) (vy r)). pose proof (azimuth_cyl r t Ht) as Er. fold q in Er.
  assert (P3 : pbc3 a' = pbc3 a) by (rewrite Ea; reflexivity).
  assert (Hh : w_height a' = w_height a) by (rewrite Ea; reflexivity).
  set (dz := if pbc3 a then IZR (o3 n) * w_height a else 0).
  assert (T : transform Wedge a r n = cyl q (t + IZR (o1 n) * old) (vz r + dz)).
  { unfold transform. cbn [rotation]. rewrite Er at 1. rewrite rotated_cyl. fold old. unfold dz, cyl.
    destruct (pbc3 a); vunf; apply v3_eq; cbn [vx vy vz]; ring. }
  assert (T' : forall q' t' z', transform Wedge a' (cyl q' t' z') n = cyl q' (t' + IZR (o1 n) * new) (z' + dz)).
  { intros. unfold transform. cbn [rotation]. rewrite rotated_cyl, P3, Hh. fold new. unfold dz, cyl.
    destruct (pbc3 a); vunf; apply v3_eq; cbn [vx vy vz]; ring. }
  assert (Rq : rad (vx (transform Wedge a r n)) (vy (transform Wedge a r n)) = q).
  { rewrite T. apply rad_cyl, rad_pos. }
  rewrite (wedge_scale_cyl old new (transform Wedge a r n) (t + IZR (o1 n) * old) Hs).
  - rewrite Rq, T'. rewrite T at 1. cbn [vz cyl]. f_equal. field. exact H0.
  - split; [exact Hu|]. fold (rad (vx (transform Wedge a r n)) (vy (transform Wedge a r n))). rewrite Rq.
    rewrite T. split; reflexivity.
Qed.

Lemma wedge_height_scaling a h ph a' r n : w_height a <> 0 -> wedge_set a NoAngle (Some h) ph None true = Ok a' ->
  let move r := V3 (vx r) (vy r) (vz r * h / w_height a) in
  pos a' = map move (pos a) /\ w_height a' = h /\ move (transform Wedge a r n) = transform Wedge a' (move r) n.
Proof.
  intros H0 Hset. cbv zeta. unfold wedge_set in Hset. cbn [wedge_set_angle bind] in Hset.
  set (p := map _ (pos a)) in Hset.
  assert (E : a' = setcell (with_pos a p) 1 0 h) by congruence. clear Hset. rewrite E.
  split; [reflexivity|]. split; [reflexivity|]. unfold transform. cbn [rotation].
  change (w_angle (setcell (with_pos a p) 1 0 h)) with (w_angle a).
  change (pbc3 (setcell (with_pos a p) 1 0 h)) with (pbc3 a).
  change (w_height (setcell (with_pos a p) 1 0 h)) with h.
  unfold rotz. destruct (pbc3 a); vunf; apply v3_eq; cbn [vx vy vz]; field; exact H0.
Qed.

(** ** what an accepted or rejected set leaves behind *)
Lemma wedge_set_values a g h ph pz sc a' : wedge_set a g h ph pz sc = Ok a' ->
  w_height a' = opt_or h (w_height a) /\
  pbc a' = match pz with Some b => (true, false, b) | None => pbc a end /\
  match g with
  | NoAngle => w_angle a' = w_angle a /\ w_physical a' = w_physical a
  | Angle x => w_angle a' = x /\ w_physical a' = ph /\ e6 <= x <= PI /\
      (ph = true -> Rabs (IZR (pyround (2 * PI / x)) - 2 * PI / x) <= e12)
  | Fold M => w_angle a' = 2 * PI / IZR M /\ w_physical a' = ph /\ (2 <= M)%Z
  | Both => False
  end /\ (sc = false -> pos a' = pos a).
Proof.
  unfold wedge_set. intros H. destruct (wedge_set_angle a g ph sc) as [b|b] eqn:E; cbn [bind] in H; [|discriminate].
  pose proof (wedge_angle_frame a g ph sc) as (F1 & F2 & F3 & _). rewrite E in F1, F2, F3. cbn [state] in F1, F2, F3.
  set (c1 := match h with None => b | Some h0 => _ end) in H.
  assert (Hc : w_height c1 = opt_or h (w_height a) /\ w_angle c1 = w_angle b /\ w_physical c1 = w_physical b /\ pbc c1 = pbc a /\
     (sc = false -> pos c1 = pos b)).
  { unfold c1, w_height in *. destruct h, sc; cbn; unfold setc; cbn; auto 10; repeat split; auto; discriminate. }
  destruct Hc as (C1 & C2 & C3 & C4 & C5).
  assert (E1 : a' = match pz with Some b0 => with_pbc c1 (true, false, b0) | None => c1 end) by congruence.
  assert (D1 : w_height a' = w_height c1) by (rewrite E1; destruct pz; reflexivity).
  assert (D2 : w_angle a' = w_angle c1) by (rewrite E1; destruct pz; reflexivity).
  assert (D3 : w_physical a' = w_physical c1) by (rewrite E1; destruct pz; reflexivity).
  assert (D4 : pos a' = pos c1) by (rewrite E1; destruct pz; reflexivity).
  split; [congruence|]. split; [rewrite E1; destruct pz; cbn; congruence|].
  rewrite D2, D3, D4, C2, C3.
  destruct (match g with NoAngle => true | _ => false end) eqn:G.
  - destruct g; try discriminate. cbn in E. assert (b = a) by congruence. subst b. split; [auto|]. intros S. rewrite C5 by exact S. reflexivity.
  - assert (G' : g <> NoAngle) by (destruct g; congruence).
    destruct (wedge_set_angle_ok _ _ _ _ _ E G') as (M & Ea & Hg & Hb & Hp & _ & Hph).
    split; [|intros S; rewrite C5 by exact S; rewrite Ea, S; reflexivity].
    destruct g; try contradiction.
    + destruct Hg as [Hg ->]. rewrite Hg in *. auto.
    + destruct Hg as [Hg ->]. rewrite Hg in *. split; [reflexivity|]. split; [exact Hph|].
      assert (HP := PI_RGT_0).
      assert (K : (M0 <> 0)%Z) by (intros ->; cbn in E; discriminate).
      assert (K2 : 0 < 2 * PI / IZR M0) by (unfold e6 in Hb; lra).
      destruct (Z_lt_le_dec M0 0) as [L|L].
      { apply IZR_lt in L. assert (/ IZR M0 < 0) by (apply Rinv_lt_0_compat; exact L). unfold Rdiv in K2. nra. }
      assert (K3 : 0 < IZR M0) by (apply IZR_lt; lia).
      assert (2 * PI <= PI * IZR M0).
      { destruct Hb as [_ Hb]. apply Rmult_le_compat_r with (r := IZR M0) in Hb; [|lra].
        unfold Rdiv in Hb. rewrite Rmult_assoc, Rinv_l, Rmult_1_r in Hb by lra. exact Hb. }
      apply le_IZR. apply Rmult_le_reg_l with PI; lra.
Qed.

(** a rejected angle stays in the atoms *)
Lemma wedge_rejected_kept : exists a x b, wedge_set a (Angle x) None true None false = Exc b /\
  w_angle a = 2 * PI / 3 /\ w_angle b = x /\ PI < x.
Proof.
  exists wedge3, 4, (setcell (setcell wedge3 2 0 4) 1 1 1). pose proof PI_4 as P. pose proof PI_RGT_0.
  assert (Q : PI < 4). { pose proof PI2_3_2. pose proof PI_4. 
    destruct (Rle_lt_or_eq_dec _ _ PI_4) as [L|E]; [exact L|]. exfalso.
    (* sin 4 would be sin PI = 0, but cos (PI/3) bounds rule it out: use PI_ineq *)
    pose proof (Alt_PI_ineq 1) as [_ A]. unfold PI_tg in A. cbn in A. rewrite <- Alt_PI_eq in E.
    unfold tg_alt in A. cbn in A. lra. }
  split; [|split; [reflexivity|split; [reflexivity|exact Q]]].
  unfold wedge_set, wedge_set_angle. destruct (Req_EM_T 4 0); [lra|].
  change (w_angle (setcell (setcell wedge3 2 0 4) 1 1 1)) with 4.
  rewrite (proj2 (ltb_false 4 e6)) by (unfold e6; lra). rewrite (proj2 (ltb_true PI 4)) by exact Q. reflexivity.
Qed.

Lemma chiral_set_values a g h sc a' : chiral_set a g h sc = Ok a' ->
  c_angle a' = opt_or g (c_angle a) /\ c_height a' = opt_or h (c_height a) /\ (sc = false -> pos a' = pos a).
Proof.
  unfold chiral_set. destruct sc; cbn [negb]; intros E.
  - set (p := map _ _) in E. assert (Ea : a' = with_pos (opt_cell (opt_cell a 2 0 g) 1 0 h) p) by congruence.
    rewrite Ea. destruct g, h; repeat split; discriminate.
  - assert (Ea : a' = opt_cell (opt_cell a 2 0 g) 1 0 h) by congruence. rewrite Ea. destruct g, h; repeat split.
Qed.
Lemma doublechiral_set_values a g h x sc a' : doublechiral_set a g h x sc = Ok a' ->
  d_angle a' = opt_or g (d_angle a) /\ d_height a' = opt_or h (d_height a) /\ d_x a' = opt_or x (d_x a) /\
  (forall v, x = Some v -> Rabs (IZR (pyround (2 * v)) - 2 * v) < e15 /\ sc = false) /\ (sc = false -> pos a' = pos a).
Proof.
  unfold doublechiral_set. destruct x as [x|].
  - destruct (ltb _ e15) eqn:L; cbn [negb]; [|discriminate]. destruct sc; cbn [negb]; [discriminate|]. intros E.
    assert (Ea : a' = opt_cell (opt_cell (opt_cell a 1 0 g) 2 0 h) 0 1 (Some x)) by congruence. rewrite Ea.
    apply ltb_true in L. destruct g, h; (split; [reflexivity|split; [reflexivity|split; [reflexivity|split; [intros v Ev; injection Ev as <-; auto|auto]]]]).
  - cbv zeta iota. destruct sc; cbn [negb]; intros E.
    + set (p := map _ _) in E. assert (Ea : a' = with_pos (opt_cell (opt_cell a 1 0 g) 2 0 h) p) by congruence.
      rewrite Ea. destruct g, h; (split; [reflexivity|split; [reflexivity|split; [reflexivity|split; discriminate]]]).
    + assert (Ea : a' = opt_cell (opt_cell (opt_cell a 1 0 g) 2 0 h) 0 1 None) by congruence. rewrite Ea. destruct g, h; (split; [reflexivity|split; [reflexivity|split; [reflexivity|split; [discriminate|reflexivity]]]]).
Qed.

(** ** Examples *)
Definition nanotube : atoms :=
  {| cell := fun i j => match i, j with 1%nat, 0%nat => 2 | 2%nat, 0%nat => 1 | _, _ => 0 end;
     pbc := (false, false, true); pos := [V3 1 1 1]; slabx := (0, 0) |}.
Example ex_chiral : c_height nanotube <> 0 /\ (exists a', chiral_set nanotube (Some 3) (Some 4) true = Ok a') /\
  clear (V3 1 1 1) /\ reachable Chiral (make Chiral nanotube) /\ valid_source Chiral nanotube.
Proof.
  split; [cbn; unfold c_height; cbn; lra|]. split; [eexists; reflexivity|]. split.
  - assert (e16 < Rabs 1) by (rewrite Rabs_R1; unfold e16; lra). split; right; exact H.
  - split; [apply r_make|exact Logic.I].
Qed.
Example ex_wedge_azimuth : azimuth (V3 0 1 0) (PI / 2) /\ clear (V3 0 1 0).
Proof.
  pose proof PI_RGT_0. unfold azimuth. cbn [vx vy]. replace (0 ^ 2 + 1 ^ 2) with 1 by ring. rewrite sqrt_1, cos_PI2, sin_PI2.
  split; [lra|]. split; [left; reflexivity|]. right. cbn. rewrite Rabs_R1. unfold e16. lra.
Qed.
Example ex_wedge_set : exists a', wedge_set wedge3 (Fold 4) None true None true = Ok a'.
Proof.
  pose proof PI_RGT_0 as HP. unfold wedge_set, wedge_set_angle. change (4 =? 0)%Z with false. cbv iota.
  change (w_angle (setcell (setcell wedge3 2 0 (2 * PI / 4)) 1 1 1)) with (2 * PI / 4).
  change (w_angle wedge3) with (2 * PI / 3).
  assert (HP1 : 1 < PI) by (pose proof PI2_1; lra).
  rewrite (proj2 (ltb_false _ e6)) by (unfold e6; lra). rewrite (proj2 (ltb_false PI _)) by lra.
  replace (4 - 2 * PI / (2 * PI / 4)) with 0 by (field; lra). rewrite Rabs_R0.
  rewrite (proj2 (ltb_false e12 0)) by (unfold e12; lra). cbn [andb].
  rewrite (proj2 (ltb_false _ e10)) by (rewrite Rabs_right; unfold e10; lra). eexists. reflexivity.
Qed.
