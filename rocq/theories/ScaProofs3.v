From Coq Require Import Reals Lra Lia ZArith List Bool.
From Verif Require Import GeomModel GeomSpec GeomProofs GeomProofs2 GeomProofs3 ContModel ContSpec ContProofs ContProofs2 ScaModel ScaSpec ScaProofs ScaProofs2.
Import ListNotations.
Open Scope R_scope.

Lemma torus_after a rho z t : 0 < t_R a -> (rho - t_R a) ^ 2 + z ^ 2 < t_R a ^ 2 -> 0 < t_R a + (rho - t_R a) * cos t + z * sin t.
Proof. apply torus_radius. Qed.

Lemma tat_bend_scaling a g a' r n rho phi : t_bend a <> 0 -> tat_set a (Some g) None None false true = Ok a' ->
  at_torus a r rho phi -> - PI < phi + IZR (o3 n) * t_bend a <= PI ->
  let move := bend_scale (t_bend a) g in
  pos a' = map move (pos a) /\ t_bend a' = g /\ t_R a' = t_R a /\
  move (transform TwistAndTurn a r n) = transform TwistAndTurn a' (move r) n.
Proof.
  intros Hb Hset (Er & Hrho & HR & Hin & Hphi) Hc. cbv zeta. unfold tat_set in Hset.
  set (b := setcell (with_pos a (map (bend_scale (t_bend a) g) (pos a))) 0 1 g) in Hset.
  assert (E : a' = with_pbc b (false, false, true)) by congruence. clear Hset. rewrite E.
  assert (ER : t_R (with_pbc b (false, false, true)) = t_R a) by (change (t_R b = t_R a); apply t_R_bend).
  split; [reflexivity|]. split; [reflexivity|]. split; [exact ER|].
  set (z := vz r) in *. rewrite Er, tat_transform by exact Hrho.
  rewrite bend_scale_cyl by (try exact Hc; apply torus_after; assumption).
  rewrite bend_scale_cyl by assumption. rewrite tat_transform by exact Hrho. rewrite ER.
  change (t_twist (with_pbc b (false, false, true))) with (t_twist a). change (t_bend (with_pbc b (false, false, true))) with g.
  f_equal. field. exact Hb.
Qed.

Lemma tat_twist_scaling a g a' r n rho phi : t_bend a <> 0 -> e16 <= Rabs (cell a 1%nat 2%nat) ->
  tat_set a None (Some g) None false true = Ok a' ->
  at_torus a r rho phi -> - PI < phi + IZR (o3 n) * t_bend a <= PI ->
  let move := twistturn_scale a g in
  pos a' = map move (pos a) /\ t_twist a' = g /\ t_R a' = t_R a /\
  move (transform TwistAndTurn a r n) = transform TwistAndTurn a' (move r) n.
Proof.
  intros Hb HS Hset (Er & Hrho & HR & Hin & Hphi) Hc. cbv zeta. unfold tat_set in Hset.
  set (b := setcell (with_pos a (map (twistturn_scale a g) (pos a))) 0 2 g) in Hset.
  assert (E : a' = with_pbc b (false, false, true)) by congruence. clear Hset. rewrite E.
  assert (ER : t_R (with_pbc b (false, false, true)) = t_R a).
  { unfold t_R. change (cell (with_pbc b (false, false, true)) 1%nat 2%nat) with (cell a 1%nat 2%nat).
    rewrite (proj2 (ltb_false _ e16)) by exact HS. reflexivity. }
  split; [reflexivity|]. split; [reflexivity|]. split; [exact ER|].
  set (z := vz r) in *. rewrite Er, tat_transform by exact Hrho.
  rewrite twist_scale_cyl by (try exact Hc; apply torus_after; assumption).
  rewrite twist_scale_cyl by assumption. cbv zeta. rewrite tat_transform by (apply torus_after; assumption). rewrite ER.
  change (t_twist (with_pbc b (false, false, true))) with g. change (t_bend (with_pbc b (false, false, true))) with (t_bend a).
  set (Q := t_R a) in *.
  replace ((g - t_twist a) * ((phi + IZR (o3 n) * t_bend a) / t_bend a))
    with ((g - t_twist a) * (phi / t_bend a) + IZR (o3 n) * (g - t_twist a)) by (field; exact Hb).
  set (u := (g - t_twist a) * (phi / t_bend a)).
  set (k := IZR (o3 n)). replace (k * g) with (k * t_twist a + k * (g - t_twist a)) by ring.
  rewrite !cos_plus, !sin_plus. f_equal; ring.
Qed.

Lemma tat_radius_scaling a g a' r n rho phi : e16 <= g -> tat_set a None None (Some g) false true = Ok a' ->
  at_torus a r rho phi -> (rho - t_R a) ^ 2 + vz r ^ 2 < g ^ 2 -> - PI < phi + IZR (o3 n) * t_bend a <= PI ->
  let move := radius_scale (t_R a) g in
  pos a' = map move (pos a) /\ t_R a' = g /\
  move (transform TwistAndTurn a r n) = transform TwistAndTurn a' (move r) n.
Proof.
  intros Hg Hset (Er & Hrho & HR & Hin & Hphi) Hin' Hc. cbv zeta. unfold tat_set in Hset.
  set (b := setcell (with_pos a (map (radius_scale (t_R a) g) (pos a))) 1 2 g) in Hset.
  assert (E : a' = with_pbc b (false, false, true)) by congruence. clear Hset. rewrite E.
  pose proof e16_pos as P16.
  assert (ER : t_R (with_pbc b (false, false, true)) = g).
  { unfold t_R. change (cell (with_pbc b (false, false, true)) 1%nat 2%nat) with g.
    rewrite (proj2 (ltb_false _ e16)) by (rewrite Rabs_right; lra). reflexivity. }
  split; [reflexivity|]. split; [exact ER|].
  set (z := vz r) in *. rewrite Er, tat_transform by exact Hrho.
  rewrite radius_scale_cyl by (try exact Hc; apply torus_after; assumption).
  rewrite radius_scale_cyl by assumption.
  assert (Hp : 0 < rho + (g - t_R a)).
  { destruct (Rlt_dec 0 (rho + (g - t_R a))) as [|N]; [assumption|exfalso]. assert (rho - t_R a <= - g) by lra. nra. }
  rewrite tat_transform by exact Hp. rewrite ER.
  change (t_twist (with_pbc b (false, false, true))) with (t_twist a). change (t_bend (with_pbc b (false, false, true))) with (t_bend a).
  f_equal; ring.
Qed.

(** with the radius left to the program, twisting changes it *)
Definition ring1 : atoms :=
  {| cell := fun i j => match i, j with 0%nat, 1%nat => PI / 2 | _, _ => 0 end;
     pbc := (false, false, true); pos := [V3 0 1 (/ 2)]; slabx := (0, 0) |}.
Lemma ring1_cyl : V3 0 1 (/ 2) = cyl 1 (PI / 2) (/ 2).
Proof. unfold cyl. rewrite cos_PI2, sin_PI2. f_equal; ring. Qed.
Lemma mean1 x : mean [x] = x.
Proof. unfold mean. cbn [fold_right length INR]. field. Qed.
Lemma ring1_R : t_R ring1 = 1.
Proof.
  unfold t_R. change (cell ring1 1%nat 2%nat) with 0. rewrite Rabs_R0, (proj2 (ltb_true 0 e16)) by apply e16_pos.
  cbn [map pos ring1 vx vy]. rewrite mean1. replace (0 ^ 2 + 1 ^ 2) with 1 by ring. apply sqrt_1.
Qed.
Lemma ring1_at : at_torus ring1 (V3 0 1 (/ 2)) 1 (PI / 2).
Proof. pose proof PI_RGT_0. unfold at_torus. rewrite ring1_R. cbn [vz]. split; [apply ring1_cyl|]. lra. Qed.
Lemma tat_twist_auto : exists a a' r n rho phi, t_bend a <> 0 /\ at_torus a r rho phi /\ In r (pos a) /\
  - PI < phi + IZR (o3 n) * t_bend a <= PI /\
  tat_set a None (Some (PI / 2)) None false true = Ok a' /\ t_R a' <> t_R a /\
  twistturn_scale a (PI / 2) (transform TwistAndTurn a r n) <> transform TwistAndTurn a' (twistturn_scale a (PI / 2) r) n.
Proof.
  pose proof PI_RGT_0 as HP.
  exists ring1. eexists. exists (V3 0 1 (/ 2)), (0, 0, 1)%Z, 1, (PI / 2).
  split; [cbn; unfold t_bend; cbn; lra|]. split; [apply ring1_at|]. split; [left; reflexivity|].
  split; [unfold o3, t_bend; cbn [snd ring1 cell]; lra|]. split; [reflexivity|].
  set (b := with_pbc _ _).
  assert (W : twistturn_scale ring1 (PI / 2) (V3 0 1 (/ 2)) = cyl (3 / 2) (PI / 2) 0).
  { rewrite ring1_cyl, twist_scale_cyl by lra. cbv zeta. rewrite ring1_R. change (t_twist ring1) with 0. change (t_bend ring1) with (PI / 2).
    replace ((PI / 2 - 0) * (PI / 2 / (PI / 2))) with (PI / 2) by (field; lra). rewrite cos_PI2, sin_PI2. f_equal; lra. }
  assert (ER : t_R b = 3 / 2).
  { unfold t_R. change (cell b 1%nat 2%nat) with 0. rewrite Rabs_R0, (proj2 (ltb_true 0 e16)) by apply e16_pos.
    unfold b. cbn [pos with_pbc setcell with_cell with_pos map ring1]. rewrite W, mean1. apply (rad_cyl (3 / 2) (PI / 2) 0). lra. }
  split; [rewrite ER, ring1_R; lra|].
  rewrite W. rewrite tat_transform by lra. rewrite ER. rewrite ring1_cyl, tat_transform by lra. rewrite ring1_R.
  unfold o3. cbn [snd]. change (t_twist ring1) with 0. change (t_bend ring1) with (PI / 2). rewrite !Rmult_1_l, cos_0, sin_0.
  rewrite twist_scale_cyl by lra. cbv zeta. rewrite ring1_R. change (t_twist ring1) with 0. change (t_bend ring1) with (PI / 2).
  change (t_twist b) with (PI / 2). change (t_bend b) with (PI / 2).
  replace ((PI / 2 - 0) * ((PI / 2 + PI / 2) / (PI / 2))) with PI by (field; lra). rewrite cos_PI, sin_PI, cos_PI2, sin_PI2.
  intros E. apply (f_equal vz) in E. unfold cyl in E. cbn [vz] in E. lra.
Qed.
(** bending across the negative x-axis *)
Definition ring2 : atoms :=
  {| cell := fun i j => match i, j with 0%nat, 1%nat => PI | 1%nat, 2%nat => 1 | _, _ => 0 end;
     pbc := (false, false, true); pos := [V3 0 1 0]; slabx := (0, 0) |}.
Lemma ring2_R : t_R ring2 = 1.
Proof.
  unfold t_R. change (cell ring2 1%nat 2%nat) with 1. rewrite Rabs_R1, (proj2 (ltb_false 1 e16)) by (unfold e16; lra). reflexivity.
Qed.
Lemma ring2_cyl : V3 0 1 0 = cyl 1 (PI / 2) 0.
Proof. unfold cyl. rewrite cos_PI2, sin_PI2. f_equal; ring. Qed.
Lemma ring2_at : at_torus ring2 (V3 0 1 0) 1 (PI / 2).
Proof. pose proof PI_RGT_0. unfold at_torus. rewrite ring2_R. cbn [vz]. split; [apply ring2_cyl|]. lra. Qed.
Lemma tat_bend_crossing : exists a a' r n rho phi, t_bend a <> 0 /\ at_torus a r rho phi /\ In r (pos a) /\
  tat_set a (Some (PI / 2)) None None false true = Ok a' /\
  bend_scale (t_bend a) (PI / 2) (transform TwistAndTurn a r n) <> transform TwistAndTurn a' (bend_scale (t_bend a) (PI / 2) r) n.
Proof.
  pose proof PI_RGT_0 as HP. destruct sqrt2_sin as [S4 C4].
  exists ring2. eexists. exists (V3 0 1 0), (0, 0, 1)%Z, 1, (PI / 2).
  split; [unfold t_bend; cbn; lra|]. split; [apply ring2_at|]. split; [left; reflexivity|]. split; [reflexivity|].
  set (b := with_pbc _ _).
  assert (ER : t_R b = 1).
  { unfold t_R. change (cell b 1%nat 2%nat) with 1. rewrite Rabs_R1, (proj2 (ltb_false 1 e16)) by (unfold e16; lra). reflexivity. }
  change (t_bend ring2) with PI.
  rewrite ring2_cyl, bend_scale_cyl by lra. rewrite tat_transform by lra. rewrite tat_transform by lra. rewrite ER, ring2_R.
  unfold o3. cbn [snd]. change (t_twist ring2) with 0. change (t_bend ring2) with PI. change (t_twist b) with 0. change (t_bend b) with (PI / 2).
  rewrite Rmult_0_r, cos_0, sin_0.
  replace (cyl (1 + (1 - 1) * 1 + 0 * 0) (PI / 2 + 1 * PI) (0 * 1 - (1 - 1) * 0)) with (cyl 1 (- (PI / 2)) 0).
  2:{ unfold cyl. replace (PI / 2 + 1 * PI) with (PI / 2 + PI) by ring. rewrite neg_cos, neg_sin, cos_neg, sin_neg, cos_PI2, sin_PI2. f_equal; ring. }
  rewrite bend_scale_cyl by lra.
  replace (PI / 2 / PI * - (PI / 2)) with (- (PI / 4)) by (field; lra).
  replace (PI / 2 / PI * (PI / 2) + 1 * (PI / 2)) with (PI - PI / 4) by (field; lra).
  intros E. apply (f_equal vy) in E. unfold cyl in E. cbn [vy] in E. rewrite sin_neg, sin_minus, sin_PI, cos_PI in E. lra.
Qed.
(** R=0 (the radius is left to the program) with scaling moves an atom onto the axis *)
Lemma tat_radius_zero : exists a a' r, at_torus a r 1 (PI / 2) /\ pos a = [r] /\
  tat_set a None None (Some 0) false true = Ok a' /\ exists s, pos a' = [s] /\ vx s = 0 /\ vy s = 0.
Proof.
  pose proof PI_RGT_0 as HP.
  exists ring2. eexists. exists (V3 0 1 0). split; [apply ring2_at|]. split; [reflexivity|]. split; [reflexivity|].
  exists (radius_scale (t_R ring2) 0 (V3 0 1 0)). split; [reflexivity|]. rewrite ring2_R, ring2_cyl, radius_scale_cyl by lra.
  unfold cyl. cbn [vx vy]. split; ring.
Qed.
Lemma tat_set_values a b t q sc a' : tat_set a b t q false sc = Ok a' ->
  stored b (t_bend a) (t_bend a') /\ stored t (t_twist a) (t_twist a') /\
  (forall v, q = Some v -> e16 <= Rabs v -> t_R a' = v) /\ (q = None -> cell a' 1%nat 2%nat = cell a 1%nat 2%nat) /\
  pbc a' = (false, false, true) /\ (sc = false -> pos a' = pos a).
Proof.
  unfold tat_set, stored. intros E.
  assert (K : forall v, e16 <= Rabs v -> ltb (Rabs v) e16 = false) by (intros v hv; apply ltb_false; exact hv).
  destruct b as [b|], t as [t|], q as [q|], sc; cbv beta iota zeta in E;
  match type of E with Ok ?x = Ok _ => assert (E' : a' = x) by congruence end; rewrite E'; clear E E';
  (split; [reflexivity|split; [reflexivity|split; [|split; [|split; [reflexivity|]]]]]);
  try (intros; discriminate); try reflexivity;
  try (intros v Ev Hv; injection Ev as <-; unfold t_R; 
       match goal with |- (if ltb (Rabs ?c) e16 then _ else _) = _ => change c with q end; rewrite (K q Hv); reflexivity).
Qed.
(** an unknown mode is refused, but everything else has been changed *)
Lemma tat_mode a b t q sc : exists a', tat_set a b t q true sc = Exc a'.
Proof. unfold tat_set. cbv zeta. eexists. reflexivity. Qed.

(** ** ChiralGeneral *)
Lemma cg_set_values a t1 g1 t2 g2 a' : cg_set a t1 g1 t2 g2 false false = Ok a' ->
  stored t1 (cg_trans1 a) (cg_trans1 a') /\ stored g1 (cg_angle1 a) (cg_angle1 a') /\
  stored t2 (cg_trans2 a) (cg_trans2 a') /\ stored g2 (cg_angle2 a) (cg_angle2 a') /\ pos a' = pos a /\ pbc a' = pbc a.
Proof.
  unfold cg_set, stored. intros E.
  assert (E' : a' = setcell (opt_cell (opt_cell (opt_cell (opt_cell a 1 0 t1) 2 0 g1) 0 1 t2) 1 1 g2) 2 1 0) by congruence.
  rewrite E'. destruct t1, g1, t2, g2; repeat split.
Qed.
Lemma cg_rejected_kept a t1 g1 t2 g2 ph : exists a', cg_set a t1 g1 t2 g2 ph true = Exc a' /\
  stored t1 (cg_trans1 a) (cg_trans1 a') /\ stored g1 (cg_angle1 a) (cg_angle1 a') /\
  stored t2 (cg_trans2 a) (cg_trans2 a') /\ stored g2 (cg_angle2 a) (cg_angle2 a').
Proof.
  unfold cg_set. destruct ph; cbv zeta; eexists; (split; [reflexivity|]); unfold stored; destruct t1, g1, t2, g2; repeat split.
Qed.
Lemma cw_set_values a g h ph t sc a' : chiralwedge_set a g h ph t sc = Ok a' ->
  stored h (cw_height a) (cw_height a') /\ stored t (cw_twist a) (cw_twist a') /\
  match g with
  | NoAngle => cw_angle a' = cw_angle a
  | Angle x => cw_angle a' = x /\ e6 <= Rabs x /\ x <= PI
  | Fold M => cw_angle a' = 2 * PI / IZR M
  | Both => False
  end /\ (t <> None -> sc = false) /\ (sc = false -> pos a' = pos a).
Proof.
  unfold chiralwedge_set. intros H. destruct (cw_set_angle a g ph sc) as [b|b] eqn:E; cbn [bind] in H; [|discriminate].
  assert (B : cw_height b = cw_height a /\ cw_twist b = cw_twist a /\
    match g with NoAngle => cw_angle b = cw_angle a | Angle x => cw_angle b = x /\ e6 <= Rabs x /\ x <= PI
     | Fold M => cw_angle b = 2 * PI / IZR M | Both => False end /\ (sc = false -> pos b = pos a)).
  { destruct (match g with NoAngle => true | _ => false end) eqn:G.
    - destruct g; try discriminate. cbn in E. assert (b = a) by congruence. subst b. auto.
    - assert (G' : g <> NoAngle) by (destruct g; congruence).
      destruct (cw_set_angle_ok _ _ _ _ _ E G') as (M & Ea & Hg & Hb & Hp & _).
      split; [rewrite Ea; reflexivity|]. split; [rewrite Ea; reflexivity|]. split; [|intros ->; rewrite Ea; reflexivity].
      destruct g; try contradiction; destruct Hg as [Hg _]; [rewrite <- Hg; auto|exact Hg]. }
  destruct B as (B1 & B2 & B3 & B4).
  set (c := match h with None => b | Some h0 => _ end) in H.
  assert (C : stored h (cw_height a) (cw_height c) /\ cw_twist c = cw_twist a /\ cw_angle c = cw_angle b /\ (sc = false -> pos c = pos a)).
  { unfold c, stored. destruct h as [h|]; [|repeat split; assumption]. destruct sc; repeat split; try assumption; try discriminate. }
  destruct C as (C1 & C2 & C3 & C4).
  destruct t as [t|].
  - destruct sc; [discriminate|]. assert (E' : a' = setcell c 0 1 t) by congruence. rewrite E'.
    split; [exact C1|]. split; [reflexivity|]. split; [|split; [reflexivity|exact C4]].
    change (cw_angle (setcell c 0 1 t)) with (cw_angle c). rewrite C3. exact B3.
  - assert (E' : a' = c) by congruence. rewrite E'. split; [exact C1|]. split; [exact C2|]. split; [rewrite C3; exact B3|]. split; [congruence|exact C4].
Qed.
(** a turn of more than half a circle is accepted if it is backwards *)
Lemma cw_backwards : exists a a', chiralwedge_set a (Angle (- (2 * PI))) None true None false = Ok a' /\ PI < Rabs (cw_angle a').
Proof.
  pose proof PI_RGT_0 as HP. assert (HP1 : 1 < PI) by (pose proof PI2_1; lra).
  exists screw. unfold chiralwedge_set, cw_set_angle. destruct (Req_EM_T (- (2 * PI)) 0) as [Z|Z]; [lra|].
  set (b := setcell _ 1 1 _). change (cw_angle b) with (- (2 * PI)). rewrite (Rabs_left (- (2 * PI))) by lra.
  rewrite (proj2 (ltb_false _ e6)) by (unfold e6; lra). rewrite (proj2 (ltb_false PI _)) by lra.
  replace (2 * PI / - (2 * PI)) with (IZR (-1)) by (cbn; field; lra). rewrite pyround_IZR. cbn [Z.abs Z.opp].
  replace (1 - 2 * PI / - - (2 * PI)) with 0 by (field; lra). rewrite Rabs_R0, (proj2 (ltb_false e12 0)) by (unfold e12; lra).
  cbn [andb bind]. eexists. split; [reflexivity|]. change (cw_angle b) with (- (2 * PI)). rewrite Rabs_left by lra. lra.
Qed.
Lemma wy_set_values a g h ph pb sc a' : wedgey_set a g h ph pb sc = Ok a' ->
  stored h (w_height a) (w_height a') /\
  pbc a' = match pb with Some b => (true, b, false) | None => pbc a end /\
  match g with
  | NoAngle => w_angle a' = w_angle a
  | Angle x => w_angle a' = x /\ e6 <= x <= PI
  | Fold M => w_angle a' = 2 * PI / IZR M /\ e6 <= w_angle a' <= PI
  | Both => False
  end /\ (sc = false -> pos a' = pos a).
Proof.
  unfold wedgey_set. intros H. destruct (wy_set_angle a g ph sc) as [b|b] eqn:E; cbn [bind] in H; [|discriminate].
  assert (B : w_height b = w_height a /\ pbc b = pbc a /\
    match g with NoAngle => w_angle b = w_angle a | Angle x => w_angle b = x /\ e6 <= x <= PI
     | Fold M => w_angle b = 2 * PI / IZR M /\ e6 <= w_angle b <= PI | Both => False end /\ (sc = false -> pos b = pos a)).
  { destruct (match g with NoAngle => true | _ => false end) eqn:G.
    - destruct g; try discriminate. cbn in E. assert (b = a) by congruence. subst b. auto.
    - assert (G' : g <> NoAngle) by (destruct g; congruence).
      destruct (wy_set_angle_ok _ _ _ _ _ E G') as (M & Ea & Hg & Hb & Hp & _).
      split; [rewrite Ea; reflexivity|]. split; [rewrite Ea; reflexivity|]. split; [|intros ->; rewrite Ea; reflexivity].
      destruct g; try contradiction; destruct Hg as [Hg _]; [rewrite <- Hg; auto|auto]. }
  destruct B as (B1 & B2 & B3 & B4).
  set (c := match h with None => b | Some h0 => _ end) in H.
  assert (C : stored h (w_height a) (w_height c) /\ pbc c = pbc a /\ w_angle c = w_angle b /\ (sc = false -> pos c = pos a)).
  { unfold c, stored. destruct h as [h|]; [|repeat split; assumption]. destruct sc; repeat split; try assumption; try discriminate. }
  destruct C as (C1 & C2 & C3 & C4).
  assert (E' : a' = match pb with Some b0 => with_pbc c (true, b0, false) | None => c end) by congruence. rewrite E'.
  destruct pb as [pb|].
  - split; [exact C1|]. split; [reflexivity|]. split; [|exact C4]. change (w_angle (with_pbc c (true, pb, false))) with (w_angle c). rewrite C3. exact B3.
  - split; [exact C1|]. split; [exact C2|]. split; [|exact C4]. rewrite C3. exact B3.
Qed.

(** ** copying parameters in Python 2 *)
Lemma cw_copy dst src : e6 <= Rabs (cw_angle src) -> cw_angle src <= PI ->
  (w_physical src = true -> Rabs (IZR (Z.abs (pyround (2 * PI / cw_angle src))) - 2 * PI / Rabs (cw_angle src)) <= e12) ->
  exists a, set_container2 ChiralWedge dst src = Ok a /\ pos a = pos dst /\
  (forall r n, transform ChiralWedge a r n = transform ChiralWedge src r n) /\ ranges ChiralWedge a = ranges ChiralWedge src.
Proof.
  intros H6 HP Hp. assert (P6 : e6 > 0) by (unfold e6; lra). cbn [set_container2]. unfold chiralwedge_set, cw_set_angle.
  destruct (Req_EM_T (cw_angle src) 0) as [Z|Z]; [rewrite Z, Rabs_R0 in H6; lra|].
  set (a1 := setcell (setcell dst 2 0 (cw_angle src)) 1 1 (if w_physical src then 1 else 0)).
  assert (A2 : w_physical a1 = w_physical src) by (unfold w_physical at 1; cbn; apply physical_stored).
  change (cw_angle a1) with (cw_angle src). rewrite A2. rewrite (proj2 (ltb_false _ e6)) by lra. rewrite (proj2 (ltb_false PI _)) by lra.
  assert (C : (ltb e12 (Rabs (IZR (Z.abs (pyround (2 * PI / cw_angle src))) - 2 * PI / Rabs (cw_angle src))) && w_physical src)%bool = false).
  { destruct (w_physical src); [|apply andb_false_r]. rewrite (proj2 (ltb_false _ _)); [reflexivity|]. apply Hp. reflexivity. }
  rewrite C. cbn [bind]. eexists. split; [reflexivity|]. split; [reflexivity|]. split; reflexivity.
Qed.
(** the periodicity along y is taken from the z-direction, where it is never kept *)
Lemma wy_copy_pbc : exists dst src a, pbc src = (true, true, false) /\ set_container2 WedgeYAxis dst src = Ok a /\ pbc2 a = false.
Proof.
  pose proof PI_RGT_0 as HP. assert (HP1 : 1 < PI) by (pose proof PI2_1; lra).
  exists halfy, (with_pbc halfy (true, true, false)). cbn [set_container2]. unfold wedgey_set, wy_set_angle.
  change (w_angle (with_pbc halfy (true, true, false))) with PI. destruct (Req_EM_T PI 0) as [Z|Z]; [lra|].
  assert (PH : w_physical (with_pbc halfy (true, true, false)) = true).
  { unfold w_physical. cbn [cell with_pbc halfy]. rewrite pyround_1. reflexivity. }
  rewrite PH. set (b := setcell _ 1 1 1). change (w_angle b) with PI.
  rewrite (proj2 (ltb_false _ e6)) by (unfold e6; lra). rewrite (proj2 (ltb_false PI PI)) by lra.
  replace (2 * PI / PI) with (IZR 2) by (field; lra). rewrite pyround_IZR.
  replace (2 - 2) with 0 by ring. rewrite Rabs_R0, (proj2 (ltb_false e12 0)) by (unfold e12; lra). cbn [andb bind].
  eexists. split; [reflexivity|]. split; reflexivity.
Qed.
(** nothing but the mode is copied to a sphere *)
Lemma sphere_copy dst src : exists a, set_container2 Sphere dst src = Ok a /\ s_angle1 a = s_angle1 dst /\ s_angle2 a = s_angle2 dst /\
  s_n1 a = s_n1 dst /\ s_n2 a = s_n2 dst.
Proof. eexists. split; [reflexivity|]. repeat split. Qed.
Lemma copy_refused c dst src : c = TwistAndTurn \/ c = ChiralGeneral -> set_container2 c dst src = Exc dst.
Proof. intros [-> | ->]; reflexivity. Qed.

(** ** Sphere *)
Lemma sphere_set_values a g1 g2 n1 n2 m a' : sphere_set a g1 g2 n1 n2 m = Ok a' ->
  stored g1 (s_angle1 a) (s_angle1 a') /\ stored g2 (s_angle2 a) (s_angle2 a') /\
  s_n1 a' = match n1 with Some v => V3 (vx v) (vy v) 0 | None => s_n1 a end /\
  s_n2 a' = match n2 with Some v => V3 (vx v) (vy v) 0 | None => s_n2 a end /\
  (forall v, n1 = Some v \/ n2 = Some v -> Rabs (vz v) < e10) /\ pos a' = pos a /\ pbc a' = (true, true, false).
Proof.
  unfold sphere_set, opt_axis, stored. intros E.
  destruct n1 as [u|], n2 as [v|];
  try (destruct (ltb (Rabs (vz u)) e10) eqn:L1; cbn [bind] in E; [apply ltb_true in L1|discriminate]);
  try (destruct (ltb (Rabs (vz v)) e10) eqn:L2; cbn [bind] in E; [apply ltb_true in L2|discriminate]);
  cbn [bind] in E; match type of E with Ok ?x = Ok _ => assert (E' : a' = x) by congruence end; rewrite E'; clear E E';
  destruct g1, g2, m; (split; [reflexivity|split; [reflexivity|split; [reflexivity|split; [reflexivity|split; [|split; reflexivity]]]]]);
  intros w [W|W]; try discriminate; injection W as <-; assumption.
Qed.
(** the axes are not normalised, and the rotations depend on their lengths *)
Definition ball : atoms := {| cell := fun _ _ => 0; pbc := (true, true, false); pos := []; slabx := (0, 0) |}.
Lemma sphere_axis_length : exists a a' b' n, sphere_set a (Some 1) (Some 1) (Some (V3 1 0 0)) (Some (V3 0 1 0)) (Some 4) = Ok a' /\
  sphere_set a (Some 1) (Some 1) (Some (V3 2 0 0)) (Some (V3 0 1 0)) (Some 4) = Ok b' /\
  rotation Sphere b' n <> rotation Sphere a' n.
Proof.
  assert (L : ltb (Rabs 0) e10 = true) by (apply ltb_true; rewrite Rabs_R0; unfold e10; lra).
  exists ball. eexists. eexists. exists (1, 1, 0)%Z. unfold sphere_set, opt_axis. cbn [vz]. rewrite L. cbn [bind].
  split; [reflexivity|]. split; [reflexivity|].
  set (a1 := with_pbc (opt_cell (setcell (setcell (setcell (setcell _ 1 0 (vx (V3 1 0 0))) _ _ _) _ _ _) _ _ _) _ _ _) _).
  set (b1 := with_pbc _ _).
  cbn [rotation]. unfold sphere_rotation. cbn [o1 o2 o3 fst snd Z.eqb Pos.eqb andb].
  assert (M : forall c, cell c 1%nat 2%nat = 4 -> (s_mode c =? 3)%Z = false).
  { intros c Hc. unfold s_mode. rewrite Hc. destruct (Rle_dec 0 4) as [_|X]; [|lra].
    replace (Int_part 4) with 4%Z; [reflexivity|]. unfold Int_part. rewrite <- (up_tech 4 4); [reflexivity|lra|change (4 + 1)%Z with 5%Z; lra]. }
  rewrite (M a1), (M b1) by reflexivity.
  change (s_angle1 a1) with 1. change (s_angle2 a1) with 1. change (s_angle1 b1) with 1. change (s_angle2 b1) with 1.
  change (s_n1 a1) with (V3 1 0 0). change (s_n2 a1) with (V3 0 1 0). change (s_n1 b1) with (V3 2 0 0). change (s_n2 b1) with (V3 0 1 0).
  replace (vdot (V3 2 0 0) (V3 0 1 0)) with 0 by (unfold vdot; cbn; ring).
  replace (vdot (V3 1 0 0) (V3 0 1 0)) with 0 by (unfold vdot; cbn; ring).
  set (g := sqrt _).
  replace (vadd (vscale (1 * 1) (V3 2 0 0)) (vscale (1 * 1) (V3 0 1 0))) with (V3 2 1 0) by (vunf; apply v3_eq; cbn; ring).
  replace (vadd (vscale (1 * 1) (V3 1 0 0)) (vscale (1 * 1) (V3 0 1 0))) with (V3 1 1 0) by (vunf; apply v3_eq; cbn; ring).
  assert (N1 : / vnorm (V3 1 1 0) * / vnorm (V3 1 1 0) = / 2).
  { rewrite <- Rinv_mult. f_equal. unfold vnorm, vdot. cbn [vx vy vz]. rewrite sqrt_sqrt by lra. lra. }
  assert (N2 : / vnorm (V3 2 1 0) * / vnorm (V3 2 1 0) = / 5).
  { rewrite <- Rinv_mult. f_equal. unfold vnorm, vdot. cbn [vx vy vz]. rewrite sqrt_sqrt by lra. lra. }
  assert (CG : cos g < 1).
  { assert (Hg : 1 < g < 2).
    { unfold g. replace ((1 * 1) ^ 2 + (1 * 1) ^ 2 + 2 * (1 * 1) * (1 * 1) * 0) with 2 by ring. split.
      - rewrite <- sqrt_1 at 1. apply sqrt_lt_1; lra.
      - replace 2 with (sqrt (2 * 2)) at 2 by (apply sqrt_square; lra). apply sqrt_lt_1; lra. }
    pose proof PI2_1 as P1. rewrite <- cos_0. apply cos_decreasing_1; lra. }
  intros E. apply (f_equal (fun m => vx (row1 m))) in E. unfold rotation_matrix in E. cbn [row1 vx vy vz vscale] in E.
  assert (F1 : forall i, (i * 2) ^ 2 = 4 * (i * i)) by (intros; ring). assert (F2 : forall i, (i * 1) ^ 2 = i * i) by (intros; ring).
  rewrite F1, F2, N1, N2 in E. nra.
Qed.

(** ** Atoms.set_container *)
Lemma set_container_type c t set a : exists a', set_container_call c (Some t) set a = Exc a'.
Proof. unfold set_container_call. destruct (ctype_eqb t c); eexists; reflexivity. Qed.
Lemma set_container_plain c set a : set_container_call c None set a = set a.
Proof. reflexivity. Qed.

(** ** Examples *)
Example ex_bend : t_bend ring2 <> 0 /\ at_torus ring2 (V3 0 1 0) 1 (PI / 2) /\ e16 <= Rabs (cell ring2 1%nat 2%nat) /\
  - PI < PI / 2 + IZR (o3 (0, 0, -1)%Z) * t_bend ring2 <= PI /\ (exists a', tat_set ring2 (Some 1) None None false true = Ok a') /\
  (exists a', tat_set ring2 None (Some 1) None false true = Ok a') /\ (exists a', tat_set ring2 None None (Some 2) false true = Ok a').
Proof.
  pose proof PI_RGT_0. unfold t_bend, o3. cbn [cell ring2 snd]. split; [lra|]. split; [apply ring2_at|]. split; [rewrite Rabs_R1; unfold e16; lra|].
  split; [lra|]. split; [|split]; eexists; reflexivity.
Qed.
Example ex_turn : polar 1 0 0 /\ clear (V3 1 0 0) /\ (exists a', chiralwedge_set screw (Fold 4) None true None true = Ok a') /\
  (exists a', wedgey_set halfy (Fold 4) None true None true = Ok a') /\ clear (cycle (V3 (-1) 0 0)).
Proof.
  pose proof PI_RGT_0. assert (A1 : Rabs (-1) = 1) by (rewrite Rabs_left; lra).
  split; [unfold polar; replace (1 ^ 2 + 0 ^ 2) with 1 by ring; rewrite sqrt_1, cos_0, sin_0; lra|].
  split; [apply clear_unit; [right; apply Rabs_R1|left; reflexivity]|]. split; [eexists; apply screw_set|]. split; [eexists; apply halfy_set|].
  apply clear_unit; [left; reflexivity|right; exact A1].
Qed.
