From Coq Require Import Reals ZArith String List Bool Arith.
From Verif Require Import GeomModel UtilModel SysModel SysSpec SysProofs SysProofs2 SysProofs3 SysProofs4 SysProofs5 SysProofs6 SysProofs7 SysProofs8.
Import ListNotations.
Open Scope R_scope.

(** C147: sheets and ribbons.  Cases: ex_graphene, ex_ribbon, ex_armchair *)
Theorem C147_graphene :
  forall (n1 n2 : nat) (Rb : R),
  (1 <= n1)%nat ->
  (1 <= n2)%nat ->
  0 < Rb ->
  let
  '(ps, c1, c2) := graphene n1 n2 Rb in
   length ps = (2 * n1 * n2)%nat /\
   distinct2 c1 c2 ps /\ apart (crystal2 c1 c2 ps) Rb /\ (forall p0 : v3, crystal2 c1 c2 ps p0 -> neighbours (crystal2 c1 c2 ps) Rb p0 3).
Proof. exact graphene_ok. Qed.
Theorem C147_ZGNR :
  forall (n units : nat) (d : dir) (Rb : R),
  (1 <= units)%nat ->
  0 < Rb ->
  let
  '(ps, per) := ZGNR n units d Rb in
   length ps = (2 * n * units)%nat /\ distinct1 per ps /\ apart (crystal1 per ps) Rb /\ zigzag_bonds d Rb n (crystal1 per ps).
Proof. exact ZGNR_ok. Qed.
Theorem C147_AGNR :
  forall (n units : nat) (d : dir) (Rb : R),
  (1 <= units)%nat ->
  0 < Rb ->
  let
  '(ps, per) := AGNR n units d Rb in
   length ps = (2 * n * units)%nat /\ distinct1 per ps /\ apart (crystal1 per ps) Rb /\ armchair_bonds d Rb n (crystal1 per ps).
Proof. exact AGNR_ok. Qed.
Theorem C147_armchair_ribbon :
  forall (n1 n2 : nat) (d : dir) (Rb : R),
  (1 <= n1)%nat ->
  0 < Rb ->
  let
  '(ps, per) := armchair_ribbon n1 n2 Rb d in
   length ps = (4 * n1 * n2)%nat /\ distinct1 per ps /\ apart (crystal1 per ps) Rb /\ armchair_bonds d Rb (2 * n2) (crystal1 per ps).
Proof. exact armchair_ok. Qed.
(** C148: zigzag_ribbon *)
Theorem C148_one_unit :
  forall (n2 : nat) (Rb : R),
  0 < Rb ->
  let
  '(ps, per) := zigzag_ribbon 1 n2 Rb DirX in
   length ps = (4 * n2)%nat /\ distinct1 per ps /\ apart (crystal1 per ps) Rb /\ zigzag_bonds DirX Rb (2 * n2) (crystal1 per ps).
Proof. exact zigzag_one. Qed.
Theorem C148_atoms :
  forall (n1 n2 : nat) (d : dir) (Rb : R),
  (1 <= n1)%nat ->
  0 < Rb ->
  let ps := fst (zigzag_ribbon n1 n2 Rb d) in
  let per := along d (INR n1 * (Rb * sqrt 3)) in
  length ps = (4 * n1 * n2)%nat /\ distinct1 per ps /\ apart (crystal1 per ps) Rb /\ zigzag_bonds d Rb (2 * n2) (crystal1 per ps).
Proof. exact zigzag_atoms. Qed.
Theorem C148_x_refuted :
  forall (n1 n2 : nat) (Rb : R), (2 <= n1)%nat -> (1 <= n2)%nat -> 0 < Rb -> let '(ps, per) := zigzag_ribbon n1 n2 Rb DirX in ~ distinct1 per ps.
Proof. exact zigzag_x_refuted. Qed.
Theorem C148_z_refuted :
  forall (n1 n2 : nat) (Rb : R),
  (1 <= n1)%nat -> (1 <= n2)%nat -> 0 < Rb -> let '(ps, per) := zigzag_ribbon n1 n2 Rb DirZ in ~ zigzag_bonds DirZ Rb (2 * n2) (crystal1 per ps).
Proof. exact zigzag_z_refuted. Qed.
(** C149: data of nanotubes.  A case: ex_tube *)
Theorem C149_data :
  forall (n m : Z) (Rb : R),
  (0 <= n)%Z ->
  (0 <= m)%Z ->
  ~ (n = 0%Z /\ m = 0%Z) ->
  0 < Rb ->
  exists t : tube,
    nanotube_data n m Rb = Some t /\
    t_a t = vnorm (lat_a1 Rb) /\
    t_C t = vnorm (lat Rb n m) /\
    t_diameter t * PI = t_C t /\
    t_radius t * 2 = t_diameter t /\
    (exists p q : Z, vdot (lat Rb p q) (lat Rb n m) = 0 /\ vnorm (lat Rb p q) = t_T t /\ 0 < t_T t) /\
    (forall p q : Z, vdot (lat Rb p q) (lat Rb n m) = 0 -> ~ (p = 0%Z /\ q = 0%Z) -> t_T t <= vnorm (lat Rb p q)) /\
    IZR (t_hexagons t) * hexagon_area Rb = t_C t * t_T t /\
    (t_metallic t = true <-> (exists k : Z, vdot (dirac Rb) (lat Rb n m) = 2 * PI * IZR k)) /\
    t_semiconducting t = negb (t_metallic t) /\
    0 <= t_angle t <= PI / 3 /\
    lat Rb n m = {| vx := t_C t * cos (t_angle t); vy := t_C t * sin (t_angle t); vz := 0 |} /\
    (t_type t = "armchair"%string <-> t_angle t = PI / 6) /\ (t_type t = "zigzag"%string <-> t_angle t = 0 \/ t_angle t = PI / 3).
Proof. exact nanotube_data_spec. Qed.
Theorem C149_zero :
  forall Rb : R, nanotube_data 0 0 Rb = None.
Proof. exact nanotube_data_zero. Qed.
Theorem C149_length :
  forall (n m : nat) (Rb : R) (len : nat) (ps : list v3) (Lz : R) (t : tube),
  0 < Rb ->
  (1 <= n + m)%nat ->
  nanotube n m Rb len = Some (ps, Lz) ->
  nanotube_data (Z.of_nat n) (Z.of_nat m) Rb = Some t ->
  Lz = INR len * t_T t /\ (forall q : v3, In q ps -> vx q ^ 2 + vy q ^ 2 = t_radius t ^ 2).
Proof. exact nanotube_length. Qed.
Theorem C149_attached_refuted :
  forall (n m : nat) (Rb : R) (len : nat),
  0 < Rb ->
  (1 <= n + m)%nat ->
  (1 <= len)%nat ->
  Rb <> 142 / 100 ->
  exists (ps : list v3) (Lz : R) (t : tube), nanotube n m Rb len = Some (ps, Lz) /\ nanotube_attached n m Rb = Some t /\ Lz <> INR len * t_T t.
Proof. exact attached_refuted. Qed.
(** C150: chiral_nanotube.  A case: ex_basis *)
Theorem C150_chiral :
  forall (n m : nat) (Rb : R),
  0 < Rb ->
  (1 <= n + m)%nat ->
  let
  '(ps, h, ang) := chiral_nanotube n m Rb in
   length ps = (2 * (n + m))%nat /\
   0 < h /\
   is_tube Rb n m (helical h ang ps) /\
   NoDup ps /\
   (forall (q q' : v3) (k k' : Z),
    In q ps -> In q' ps -> transform Chiral (helix h ang) q (0%Z, 0%Z, k) = transform Chiral (helix h ang) q' (0%Z, 0%Z, k') -> q = q' /\ k = k').
Proof. exact chiral_ok. Qed.
Theorem C150_bonds :
  forall (Rb : R) (e1 e2 o : v3) (n m : nat) (P Q P' Q' : Z),
  0 < Rb ->
  hex_basis Rb e1 e2 ->
  vz o = 0 ->
  (1 <= n + m)%nat ->
  P' = P /\ Q' = Q \/ P' = (P + 1)%Z /\ Q' = Q \/ P' = P /\ Q' = (Q + 1)%Z ->
  let C := chiral_vector e1 e2 n m in
  dist (hex_site e1 e2 o P Q true) (hex_site e1 e2 o P' Q' false) = Rb /\
  Rb ^ 2 * (1 - PI ^ 2 * Rb ^ 2 / (3 * vnorm C ^ 2)) <= dist (wrap C (hex_site e1 e2 o P Q true)) (wrap C (hex_site e1 e2 o P' Q' false)) ^ 2 <=
  Rb ^ 2.
Proof. exact tube_bonds. Qed.
(** C151: nanotube.  A case: ex_small *)
Theorem C151_nanotube_partial :
  forall (n m : nat) (Rb : R) (len : nat),
  0 < Rb ->
  (1 <= n + m)%nat ->
  (1 <= len)%nat ->
  (n * n + n * m + m * m <= 166)%nat ->
  exists (ps : list v3) (Lz : R),
    nanotube n m Rb len = Some (ps, Lz) /\
    0 < Lz /\ distinct1 {| vx := 0; vy := 0; vz := Lz |} ps /\ is_tube Rb n m (crystal1 {| vx := 0; vy := 0; vz := Lz |} ps).
Proof. exact nanotube_spec. Qed.
Theorem C151_sites :
  forall (n m : nat) (Rb : R) (len : nat),
  0 < Rb ->
  (1 <= n + m)%nat ->
  (1 <= len)%nat ->
  exists (ps : list v3) (Lz : R),
    nanotube n m Rb len = Some (ps, Lz) /\
    distinct1 {| vx := 0; vy := 0; vz := Lz |} ps /\
    (exists e1 e2 o : v3,
       hex_basis Rb e1 e2 /\ vz o = 0 /\ (forall p : v3, crystal1 {| vx := 0; vy := 0; vz := Lz |} ps p -> tube_site e1 e2 o n m p)).
Proof. exact nanotube_sound. Qed.
Theorem C151_margin_refuted :
  forall (Rb : R) (len : nat),
  0 < Rb ->
  (1 <= len)%nat ->
  exists (ps : list v3) (Lz : R),
    nanotube 34 33 Rb len = Some (ps, Lz) /\ tube_with_holes Rb 34 33 (crystal1 {| vx := 0; vy := 0; vz := Lz |} ps).
Proof. exact nanotube_margin_refuted. Qed.
Theorem C151_range_refuted :
  forall (Rb : R) (len : nat),
  0 < Rb ->
  (1 <= len)%nat ->
  exists (ps : list v3) (Lz : R),
    nanotube 60 59 Rb len = Some (ps, Lz) /\ tube_with_holes Rb 60 59 (crystal1 {| vx := 0; vy := 0; vz := Lz |} ps).
Proof. exact nanotube_range_refuted. Qed.
(** C152: CNT_list *)
Theorem C152_list :
  forall n m : Z, In (n, m) cnt_tubes <-> (3 <= n <= 19)%Z /\ (0 <= m <= n)%Z.
Proof. exact cnt_list_spec. Qed.
Theorem C152_complete_refuted :
  ~
  (forall (n m : Z) (t : tube),
   (1 <= n <= 19)%Z -> (0 <= m <= n)%Z -> nanotube_data n m (142 / 100) = Some t -> 2 <= t_diameter t -> In (n, m) cnt_tubes).
Proof. exact cnt_list_refuted. Qed.
Print Assumptions C147_graphene.
Print Assumptions C147_ZGNR.
Print Assumptions C147_AGNR.
Print Assumptions C147_armchair_ribbon.
Print Assumptions C148_one_unit.
Print Assumptions C148_atoms.
Print Assumptions C148_x_refuted.
Print Assumptions C148_z_refuted.
Print Assumptions C149_data.
Print Assumptions C149_zero.
Print Assumptions C149_length.
Print Assumptions C149_attached_refuted.
Print Assumptions C150_chiral.
Print Assumptions C150_bonds.
Print Assumptions C151_nanotube_partial.
Print Assumptions C151_sites.
Print Assumptions C151_margin_refuted.
Print Assumptions C151_range_refuted.
Print Assumptions C152_list.
Print Assumptions C152_complete_refuted.
