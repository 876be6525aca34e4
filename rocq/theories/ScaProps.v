From Coq Require Import Reals ZArith List Bool.
From Verif Require Import GeomModel GeomSpec ContModel ContSpec ScaModel ScaSpec ScaProofs ScaProofs2 ScaProofs3.
Import ListNotations.
Open Scope R_scope.

(** C58: an image that crosses the negative x-axis is moved elsewhere than the image of the moved atom. *)
Theorem C58_wedge_angle_refuted :
  exists a a' r n,
  wedge_set a (Fold 4) None true None true = Ok a' /\ allowed Wedge a n = true /\ In r (pos a) /\
  clear r /\ clear (transform Wedge a r n) /\
  wedge_scale (w_angle a) (w_angle a') (transform Wedge a r n) <>
  transform Wedge a' (wedge_scale (w_angle a) (w_angle a') r) n.
Proof. exact wedge_crossing. Qed.
(** ChiralWedge: for images that do not cross the positive x-axis and are not twisted.  Cases: ex_turn, ex_bend in ScaProofs3 *)
Theorem C58_chiralwedge_angle_partial : forall a g ph a' r n t,
  g <> NoAngle -> chiralwedge_set a g None ph None true = Ok a' ->
  clear r -> clear (transform ChiralWedge a r n) -> polar (vx r) (vy r) t ->
  0 <= t + IZR (o1 n) * cw_angle a < 2 * PI -> (o3 n = 0%Z \/ cw_twist a = 0) ->
  let move := turn_scale (cw_angle a) (cw_angle a') in
  pos a' = map move (pos a) /\ move (transform ChiralWedge a r n) = transform ChiralWedge a' (move r) n.
Proof. exact chiralwedge_scaling. Qed.
Theorem C58_chiralwedge_height : forall a h ph a' r n,
  cw_height a <> 0 -> chiralwedge_set a NoAngle (Some h) ph None true = Ok a' ->
  let move r := V3 (vx r) (vy r) (vz r * h / cw_height a) in
  pos a' = map move (pos a) /\ cw_height a' = h /\ move (transform ChiralWedge a r n) = transform ChiralWedge a' (move r) n.
Proof. exact chiralwedge_height_scaling. Qed.
Theorem C58_chiralwedge_twist_refuted :
  exists a a' r n,
  chiralwedge_set a (Fold 4) None true None true = Ok a' /\ allowed ChiralWedge a n = true /\ In r (pos a) /\
  clear r /\ clear (transform ChiralWedge a r n) /\
  turn_scale (cw_angle a) (cw_angle a') (transform ChiralWedge a r n) <>
  transform ChiralWedge a' (turn_scale (cw_angle a) (cw_angle a') r) n.
Proof. exact chiralwedge_twist. Qed.
(** WedgeYAxis: for images that do not cross the positive z-axis. *)
Theorem C58_wedgeyaxis_angle_partial : forall a g ph a' r n t,
  g <> NoAngle -> wedgey_set a g None ph None true = Ok a' ->
  clear (cycle r) -> clear (cycle (transform WedgeYAxis a r n)) -> polar (vz r) (vx r) t ->
  0 <= t + IZR (o1 n) * w_angle a < 2 * PI ->
  let move := turny_scale (w_angle a) (w_angle a') in
  pos a' = map move (pos a) /\ move (transform WedgeYAxis a r n) = transform WedgeYAxis a' (move r) n.
Proof. exact wedgey_scaling. Qed.
Theorem C58_wedgeyaxis_height : forall a h ph a' r n,
  w_height a <> 0 -> wedgey_set a NoAngle (Some h) ph None true = Ok a' ->
  let move r := V3 (vx r) (vy r * h / w_height a) (vz r) in
  pos a' = map move (pos a) /\ w_height a' = h /\ move (transform WedgeYAxis a r n) = transform WedgeYAxis a' (move r) n.
Proof. exact wedgey_height_scaling. Qed.
Theorem C58_wedgeyaxis_angle_refuted :
  exists a a' r n,
  wedgey_set a (Fold 4) None true None true = Ok a' /\ allowed WedgeYAxis a n = true /\ In r (pos a) /\
  clear (cycle r) /\ clear (cycle (transform WedgeYAxis a r n)) /\
  turny_scale (w_angle a) (w_angle a') (transform WedgeYAxis a r n) <>
  transform WedgeYAxis a' (turny_scale (w_angle a) (w_angle a') r) n.
Proof. exact wedgey_crossing. Qed.
(** TwistAndTurn: inside the torus, for images that do not cross the negative x-axis. *)
Theorem C58_bend_partial : forall a g a' r n rho phi,
  t_bend a <> 0 -> tat_set a (Some g) None None false true = Ok a' ->
  at_torus a r rho phi -> - PI < phi + IZR (o3 n) * t_bend a <= PI ->
  let move := bend_scale (t_bend a) g in
  pos a' = map move (pos a) /\ t_bend a' = g /\ t_R a' = t_R a /\
  move (transform TwistAndTurn a r n) = transform TwistAndTurn a' (move r) n.
Proof. exact tat_bend_scaling. Qed.
Theorem C58_twist_partial : forall a g a' r n rho phi,
  t_bend a <> 0 -> e16 <= Rabs (cell a 1%nat 2%nat) ->
  tat_set a None (Some g) None false true = Ok a' ->
  at_torus a r rho phi -> - PI < phi + IZR (o3 n) * t_bend a <= PI ->
  let move := twistturn_scale a g in
  pos a' = map move (pos a) /\ t_twist a' = g /\ t_R a' = t_R a /\
  move (transform TwistAndTurn a r n) = transform TwistAndTurn a' (move r) n.
Proof. exact tat_twist_scaling. Qed.
Theorem C58_radius_partial : forall a g a' r n rho phi,
  e16 <= g -> tat_set a None None (Some g) false true = Ok a' ->
  at_torus a r rho phi -> (rho - t_R a) ^ 2 + vz r ^ 2 < g ^ 2 -> - PI < phi + IZR (o3 n) * t_bend a <= PI ->
  let move := radius_scale (t_R a) g in
  pos a' = map move (pos a) /\ t_R a' = g /\
  move (transform TwistAndTurn a r n) = transform TwistAndTurn a' (move r) n.
Proof. exact tat_radius_scaling. Qed.
Theorem C58_bend_refuted :
  exists a a' r n rho phi, t_bend a <> 0 /\ at_torus a r rho phi /\ In r (pos a) /\
  tat_set a (Some (PI / 2)) None None false true = Ok a' /\
  bend_scale (t_bend a) (PI / 2) (transform TwistAndTurn a r n) <> transform TwistAndTurn a' (bend_scale (t_bend a) (PI / 2) r) n.
Proof. exact tat_bend_crossing. Qed.
Theorem C58_twist_refuted :
  exists a a' r n rho phi, t_bend a <> 0 /\ at_torus a r rho phi /\ In r (pos a) /\
  - PI < phi + IZR (o3 n) * t_bend a <= PI /\
  tat_set a None (Some (PI / 2)) None false true = Ok a' /\ t_R a' <> t_R a /\
  twistturn_scale a (PI / 2) (transform TwistAndTurn a r n) <> transform TwistAndTurn a' (twistturn_scale a (PI / 2) r) n.
Proof. exact tat_twist_auto. Qed.
Theorem C58_radius_refuted :
  exists a a' r, at_torus a r 1 (PI / 2) /\ pos a = [r] /\
  tat_set a None None (Some 0) false true = Ok a' /\ exists s, pos a' = [s] /\ vx s = 0 /\ vy s = 0.
Proof. exact tat_radius_zero. Qed.
(** C59: what is stored by the other containers. *)
Theorem C59_chiralwedge : forall a g h ph t sc a',
  chiralwedge_set a g h ph t sc = Ok a' ->
  stored h (cw_height a) (cw_height a') /\ stored t (cw_twist a) (cw_twist a') /\
  match g with
  | NoAngle => cw_angle a' = cw_angle a
  | Angle x => cw_angle a' = x /\ e6 <= Rabs x /\ x <= PI
  | Fold M => cw_angle a' = 2 * PI / IZR M
  | Both => False
  end /\ (t <> None -> sc = false) /\ (sc = false -> pos a' = pos a).
Proof. exact cw_set_values. Qed.
Theorem C59_wedgeyaxis : forall a g h ph pb sc a',
  wedgey_set a g h ph pb sc = Ok a' ->
  stored h (w_height a) (w_height a') /\
  pbc a' = match pb with Some b => (true, b, false) | None => pbc a end /\
  match g with
  | NoAngle => w_angle a' = w_angle a
  | Angle x => w_angle a' = x /\ e6 <= x <= PI
  | Fold M => w_angle a' = 2 * PI / IZR M /\ e6 <= w_angle a' <= PI
  | Both => False
  end /\ (sc = false -> pos a' = pos a).
Proof. exact wy_set_values. Qed.
Theorem C59_twistandturn : forall a b t q sc a',
  tat_set a b t q false sc = Ok a' ->
  stored b (t_bend a) (t_bend a') /\ stored t (t_twist a) (t_twist a') /\
  (forall v, q = Some v -> e16 <= Rabs v -> t_R a' = v) /\ (q = None -> cell a' 1%nat 2%nat = cell a 1%nat 2%nat) /\
  pbc a' = (false, false, true) /\ (sc = false -> pos a' = pos a).
Proof. exact tat_set_values. Qed.
Theorem C59_chiralgeneral : forall a t1 g1 t2 g2 a',
  cg_set a t1 g1 t2 g2 false false = Ok a' ->
  stored t1 (cg_trans1 a) (cg_trans1 a') /\ stored g1 (cg_angle1 a) (cg_angle1 a') /\
  stored t2 (cg_trans2 a) (cg_trans2 a') /\ stored g2 (cg_angle2 a) (cg_angle2 a') /\ pos a' = pos a /\ pbc a' = pbc a.
Proof. exact cg_set_values. Qed.
Theorem C59_sphere : forall a g1 g2 n1 n2 m a',
  sphere_set a g1 g2 n1 n2 m = Ok a' ->
  stored g1 (s_angle1 a) (s_angle1 a') /\ stored g2 (s_angle2 a) (s_angle2 a') /\
  s_n1 a' = match n1 with Some v => V3 (vx v) (vy v) 0 | None => s_n1 a end /\
  s_n2 a' = match n2 with Some v => V3 (vx v) (vy v) 0 | None => s_n2 a end /\
  (forall v, n1 = Some v \/ n2 = Some v -> Rabs (vz v) < e10) /\ pos a' = pos a /\ pbc a' = (true, true, false).
Proof. exact sphere_set_values. Qed.
Theorem C59_chiralwedge_refuted :
  exists a a', chiralwedge_set a (Angle (- (2 * PI))) None true None false = Ok a' /\ PI < Rabs (cw_angle a').
Proof. exact cw_backwards. Qed.
Theorem C59_chiralgeneral_refuted : forall a t1 g1 t2 g2 ph,
  exists a', cg_set a t1 g1 t2 g2 ph true = Exc a' /\
  stored t1 (cg_trans1 a) (cg_trans1 a') /\ stored g1 (cg_angle1 a) (cg_angle1 a') /\
  stored t2 (cg_trans2 a) (cg_trans2 a') /\ stored g2 (cg_angle2 a) (cg_angle2 a').
Proof. exact cg_rejected_kept. Qed.
Theorem C59_type_refuted : forall c t set a,
  exists a', set_container_call c (Some t) set a = Exc a'.
Proof. exact set_container_type. Qed.
(** C22: the other containers in Python 2. *)
Theorem C22_chiralwedge : forall dst src,
  e6 <= Rabs (cw_angle src) -> cw_angle src <= PI ->
  (w_physical src = true -> Rabs (IZR (Z.abs (pyround (2 * PI / cw_angle src))) - 2 * PI / Rabs (cw_angle src)) <= e12) ->
  exists a, set_container2 ChiralWedge dst src = Ok a /\ pos a = pos dst /\
  (forall r n, transform ChiralWedge a r n = transform ChiralWedge src r n) /\ ranges ChiralWedge a = ranges ChiralWedge src.
Proof. exact cw_copy. Qed.
Theorem C22_wedgeyaxis_refuted :
  exists dst src a, pbc src = (true, true, false) /\ set_container2 WedgeYAxis dst src = Ok a /\ pbc2 a = false.
Proof. exact wy_copy_pbc. Qed.
Theorem C22_sphere_refuted : forall dst src,
  exists a, set_container2 Sphere dst src = Ok a /\ s_angle1 a = s_angle1 dst /\ s_angle2 a = s_angle2 dst /\
  s_n1 a = s_n1 dst /\ s_n2 a = s_n2 dst.
Proof. exact sphere_copy. Qed.
Theorem C22_others_refuted : forall c dst src,
  c = TwistAndTurn \/ c = ChiralGeneral -> set_container2 c dst src = Exc dst.
Proof. exact copy_refused. Qed.
(** C109 *)
Theorem C109_axes_refuted :
  exists a a' b' n, sphere_set a (Some 1) (Some 1) (Some (V3 1 0 0)) (Some (V3 0 1 0)) (Some 4) = Ok a' /\
  sphere_set a (Some 1) (Some 1) (Some (V3 2 0 0)) (Some (V3 0 1 0)) (Some 4) = Ok b' /\
  rotation Sphere b' n <> rotation Sphere a' n.
Proof. exact sphere_axis_length. Qed.
Print Assumptions C58_wedge_angle_refuted.
Print Assumptions C58_chiralwedge_angle_partial.
Print Assumptions C58_chiralwedge_height.
Print Assumptions C58_chiralwedge_twist_refuted.
Print Assumptions C58_wedgeyaxis_angle_partial.
Print Assumptions C58_wedgeyaxis_height.
Print Assumptions C58_wedgeyaxis_angle_refuted.
Print Assumptions C58_bend_partial.
Print Assumptions C58_twist_partial.
Print Assumptions C58_radius_partial.
Print Assumptions C58_bend_refuted.
Print Assumptions C58_twist_refuted.
Print Assumptions C58_radius_refuted.
Print Assumptions C59_chiralwedge.
Print Assumptions C59_wedgeyaxis.
Print Assumptions C59_twistandturn.
Print Assumptions C59_chiralgeneral.
Print Assumptions C59_sphere.
Print Assumptions C59_chiralwedge_refuted.
Print Assumptions C59_chiralgeneral_refuted.
Print Assumptions C59_type_refuted.
Print Assumptions C22_chiralwedge.
Print Assumptions C22_wedgeyaxis_refuted.
Print Assumptions C22_sphere_refuted.
Print Assumptions C22_others_refuted.
Print Assumptions C109_axes_refuted.
