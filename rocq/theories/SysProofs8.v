From Coq Require Import FinFun Reals ZArith Znumtheory String List Bool Arith Lia Lra Psatz.
From Verif Require Import GeomModel GeomProofs GeomProofs2 UtilModel UtilProofs SysModel SysSpec SysProofs SysProofs2 SysProofs3 SysProofs4 SysProofs5 SysProofs6 SysProofs7.
Import ListNotations.
Open Scope R_scope.

(** ** final statements *)
Lemma graphene_ok n1 n2 Rb : (1 <= n1)%nat -> (1 <= n2)%nat -> 0 < Rb -> let '(ps, c1, c2) := graphene n1 n2 Rb in
  length ps = (2 * n1 * n2)%nat /\ distinct2 c1 c2 ps /\ apart (crystal2 c1 c2 ps) Rb /\ forall p, crystal2 c1 c2 ps p -> neighbours (crystal2 c1 c2 ps) Rb p 3.
Proof. intros. apply graphene_spec; assumption. Qed.
Lemma ZGNR_ok n units d Rb : (1 <= units)%nat -> 0 < Rb -> let '(ps, per) := ZGNR n units d Rb in
  length ps = (2 * n * units)%nat /\ distinct1 per ps /\ apart (crystal1 per ps) Rb /\ zigzag_bonds d Rb n (crystal1 per ps).
Proof. apply ZGNR_spec. Qed.
Lemma AGNR_ok n units d Rb : (1 <= units)%nat -> 0 < Rb -> let '(ps, per) := AGNR n units d Rb in
  length ps = (2 * n * units)%nat /\ distinct1 per ps /\ apart (crystal1 per ps) Rb /\ armchair_bonds d Rb n (crystal1 per ps).
Proof. apply AGNR_spec. Qed.
Lemma armchair_ok n1 n2 d Rb : (1 <= n1)%nat -> 0 < Rb -> let '(ps, per) := armchair_ribbon n1 n2 Rb d in
  length ps = (4 * n1 * n2)%nat /\ distinct1 per ps /\ apart (crystal1 per ps) Rb /\ armchair_bonds d Rb (2 * n2) (crystal1 per ps).
Proof. apply armchair_spec. Qed.
Lemma chiral_ok n m Rb : 0 < Rb -> (1 <= n + m)%nat -> let '(ps, h, ang) := chiral_nanotube n m Rb in
  length ps = (2 * (n + m))%nat /\ 0 < h /\ is_tube Rb n m (helical h ang ps) /\ NoDup ps /\
  (forall q q' k k', In q ps -> In q' ps -> transform Chiral (helix h ang) q (0, 0, k)%Z = transform Chiral (helix h ang) q' (0, 0, k')%Z -> q = q' /\ k = k').
Proof. intros HR H. pose proof (chiral_spec n m Rb HR H) as S. destruct (chiral_nanotube n m Rb) as [[ps h] ang]. exact S. Qed.
(** bonds of wrapped honeycombs *)
Lemma tube_bonds Rb e1 e2 o n m P Q P' Q' : 0 < Rb -> hex_basis Rb e1 e2 -> vz o = 0 -> (1 <= n + m)%nat ->
  (P' = P /\ Q' = Q \/ P' = P + 1 /\ Q' = Q \/ P' = P /\ Q' = Q + 1)%Z ->
  let C := chiral_vector e1 e2 n m in
  dist (hex_site e1 e2 o P Q true) (hex_site e1 e2 o P' Q' false) = Rb /\
  Rb ^ 2 * (1 - PI ^ 2 * Rb ^ 2 / (3 * vnorm C ^ 2)) <= dist (wrap C (hex_site e1 e2 o P Q true)) (wrap C (hex_site e1 e2 o P' Q' false)) ^ 2 <= Rb ^ 2.
Proof.
  intros HR HB Ho Hnm HN C. destruct HB as (Z1 & Z2 & B1 & B2 & B3).
  assert (E : dist (hex_site e1 e2 o P Q true) (hex_site e1 e2 o P' Q' false) = Rb).
  { unfold dist, vnorm. assert (V : vdot (vsub (hex_site e1 e2 o P Q true) (hex_site e1 e2 o P' Q' false)) (vsub (hex_site e1 e2 o P Q true) (hex_site e1 e2 o P' Q' false)) = Rb * Rb).
    { assert (G : forall a b, vsub (hex_site e1 e2 o P Q true) (hex_site e1 e2 o P' Q' false) = vadd (vscale a e1) (vscale b e2) -> vdot (vsub (hex_site e1 e2 o P Q true) (hex_site e1 e2 o P' Q' false)) (vsub (hex_site e1 e2 o P Q true) (hex_site e1 e2 o P' Q' false)) = 3 * Rb ^ 2 * (a ^ 2 + a * b + b ^ 2)).
      { intros a b ->. replace (vdot (vadd (vscale a e1) (vscale b e2)) (vadd (vscale a e1) (vscale b e2))) with (a ^ 2 * vdot e1 e1 + 2 * a * b * vdot e1 e2 + b ^ 2 * vdot e2 e2) by (unfold vdot, vadd, vscale; cbn [vx vy vz]; ring). rewrite B1, B2, B3. field. }
      destruct HN as [[-> ->]|[[-> ->]|[-> ->]]]; [rewrite (G (1 / 3) (1 / 3))|rewrite (G (1 / 3 - 1) (1 / 3))|rewrite (G (1 / 3) (1 / 3 - 1))]; try field; apply v3_eq; unfold hex_site, vsub, vadd, vscale, vzero; cbn [vx vy vz]; rewrite ?plus_IZR; ring. }
    rewrite V. apply sqrt_square. lra. }
  split; [exact E|]. rewrite <- E at 1 2 3. apply wrap_chord.
  - unfold C, chiral_vector, vadd, vscale. cbn [vz]. rewrite Z1, Z2. ring.
  - unfold hex_site, vadd, vscale. cbn [vz]. rewrite Z1, Z2, Ho. ring.
  - unfold hex_site, vadd, vscale, vzero. cbn [vz]. rewrite Z1, Z2, Ho. ring.
  - apply (C_nonzero Rb); try assumption. repeat split; assumption.
Qed.
(** ** cases *)
Example ex_graphene : (1 <= 2)%nat /\ (1 <= 3)%nat /\ 0 < 142 / 100. Proof. split; [lia|split; [lia|lra]]. Qed.
Example ex_ribbon : length (fst (ZGNR 3 2 DirZ 1)) = 12%nat. Proof. apply (ZGNR_ok 3 2 DirZ 1); [lia|lra]. Qed.
Example ex_armchair : length (fst (AGNR 3 2 DirZ 1)) = 12%nat. Proof. apply (AGNR_ok 3 2 DirZ 1); [lia|lra]. Qed.
(** (4,1): dR = 3; 42/3 = 14 hexagons *)
Example ex_tube : exists t, nanotube_data 4 1 1 = Some t /\ t_hexagons t = 14%Z /\ t_metallic t = true /\ t_type t = "chiral"%string.
Proof.
  eexists. split; [unfold nanotube_data; rewrite tube_dR_spec by lia; reflexivity|]. cbn [t_hexagons t_metallic t_type]. split; [|split; reflexivity].
  replace (2 * IZR (4 ^ 2 + 1 ^ 2 + 4 * 1) / IZR (Z.gcd (2 * 4 + 1) (2 * 1 + 4))) with (IZR 14) by (cbn; lra). apply pyround_IZR.
Qed.
Example ex_small : (5 * 5 + 5 * 5 + 5 * 5 <= 166)%nat /\ (12 * 12 + 12 * 1 + 1 * 1 <= 166)%nat. Proof. lia. Qed.
Example ex_basis : hex_basis 1 (nt_a1 1) (nt_a2 1). Proof. apply nt_basis. Qed.
