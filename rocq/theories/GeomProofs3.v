(** Sphere operations and extended copies. *)
From Coq Require Import Reals Lra Lia ZArith List Bool FinFun.
From Verif Require Import GeomModel GeomSpec GeomProofs GeomProofs2.
Import ListNotations.
Require Import ZifyBool.
Ltac Zify.zify_post_hook ::= Z.div_mod_to_equations.
Open Scope R_scope.

(** ** Sphere *)
Lemma vnorm_vscale c v : vnorm (vscale c v) = Rabs c * vnorm v.
Proof.
  unfold vnorm. replace (vdot (vscale c v) (vscale c v)) with (Rsqr c * vdot v v) by (vunf; unfold Rsqr; ring).
  rewrite sqrt_mult_alt by apply Rle_0_sqr. rewrite sqrt_Rsqr_abs. reflexivity.
Qed.

Lemma rotation_matrix_scale c v t : c <> 0 -> v <> vzero ->
  rotation_matrix (vscale c v) t = rotation_matrix v (if Rle_dec 0 c then t else - t).
Proof.
  intros Hc Hv. rewrite !rotation_matrix_rotm, vnorm_vscale. pose proof (vnorm_pos _ Hv) as Hp.
  destruct (Rle_dec 0 c) as [L|L].
  - rewrite Rabs_right by lra. f_equal. vunf. apply v3_eq; cbn; field; lra.
  - rewrite Rabs_left by lra.
    replace (vscale (/ (- c * vnorm v)) (vscale c v)) with (vscale (-1) (vscale (/ vnorm v) v))
      by (vunf; apply v3_eq; cbn; field; lra).
    set (u := vscale (/ vnorm v) v). unfold rotm. rewrite cos_neg, sin_neg. vunf.
    apply m3_eq; apply v3_eq; cbn; ring.
Qed.

Lemma sphere_axis1 a k : (s_mode a =? 3)%Z = false -> s_n1 a <> vzero -> s_angle1 a <> 0 ->
  rotation Sphere a (k, 0, 0)%Z = rotation_matrix (s_n1 a) (IZR k * s_angle1 a).
Proof.
  intros Hm Hn Ha. cbn [rotation]. unfold sphere_rotation, o1, o2. cbn [fst snd].
  destruct (Z.eqb_spec k 0) as [->|Hk].
  - cbn [andb Z.eqb]. rewrite rotation_matrix_rotm, Rmult_0_l. unfold rotm. rewrite cos_0, sin_0. vunf.
    apply m3_eq; apply v3_eq; cbn; ring.
  - cbn [andb]. cbv zeta. rewrite Hm.
    replace (vadd (vscale (s_angle1 a * IZR k) (s_n1 a)) (vscale (s_angle2 a * 0) (s_n2 a)))
      with (vscale (s_angle1 a * IZR k) (s_n1 a)) by (vunf; apply v3_eq; cbn; ring).
    replace ((s_angle1 a * IZR k) ^ 2 + (s_angle2 a * 0) ^ 2 +
        2 * (s_angle1 a * IZR k) * (s_angle2 a * 0) * vdot (s_n1 a) (s_n2 a)) with (Rsqr (s_angle1 a * IZR k))
      by (unfold Rsqr; ring).
    rewrite sqrt_Rsqr_abs.
    assert (Hk0 : IZR k <> 0) by (apply not_0_IZR; exact Hk).
    rewrite rotation_matrix_scale; [|apply Rmult_integral_contrapositive; auto|exact Hn].
    f_equal. destruct (Rle_dec 0 (s_angle1 a * IZR k)).
    + rewrite Rabs_right by lra. ring.
    + rewrite Rabs_left by lra. ring.
Qed.
Lemma sphere_axis2 a k : (s_mode a =? 3)%Z = false -> s_n2 a <> vzero -> s_angle2 a <> 0 ->
  rotation Sphere a (0, k, 0)%Z = rotation_matrix (s_n2 a) (IZR k * s_angle2 a).
Proof.
  intros Hm Hn Ha. cbn [rotation]. unfold sphere_rotation, o1, o2. cbn [fst snd].
  destruct (Z.eqb_spec 0 k) as [<-|Hk].
  - cbn [andb Z.eqb]. rewrite rotation_matrix_rotm, Rmult_0_l. unfold rotm. rewrite cos_0, sin_0. vunf.
    apply m3_eq; apply v3_eq; cbn; ring.
  - cbn [andb]. cbv zeta. rewrite Hm.
    replace (vadd (vscale (s_angle1 a * 0) (s_n1 a)) (vscale (s_angle2 a * IZR k) (s_n2 a)))
      with (vscale (s_angle2 a * IZR k) (s_n2 a)) by (vunf; apply v3_eq; cbn; ring).
    replace ((s_angle1 a * 0) ^ 2 + (s_angle2 a * IZR k) ^ 2 +
        2 * (s_angle1 a * 0) * (s_angle2 a * IZR k) * vdot (s_n1 a) (s_n2 a)) with (Rsqr (s_angle2 a * IZR k))
      by (unfold Rsqr; ring).
    rewrite sqrt_Rsqr_abs.
    assert (Hk0 : IZR k <> 0) by (apply not_0_IZR; lia).
    rewrite rotation_matrix_scale; [|apply Rmult_integral_contrapositive; auto|exact Hn].
    f_equal. destruct (Rle_dec 0 (s_angle2 a * IZR k)).
    + rewrite Rabs_right by lra. ring.
    + rewrite Rabs_left by lra. ring.
Qed.

Lemma sphere_single_axis a r k l : (s_mode a =? 3)%Z = false ->
  (s_n1 a <> vzero -> s_angle1 a <> 0 ->
   transform Sphere a (transform Sphere a r (k, 0, 0)%Z) (l, 0, 0)%Z = transform Sphere a r (k + l, 0, 0)%Z) /\
  (s_n2 a <> vzero -> s_angle2 a <> 0 ->
   transform Sphere a (transform Sphere a r (0, k, 0)%Z) (0, l, 0)%Z = transform Sphere a r (0, k + l, 0)%Z).
Proof.
  intros Hm. split; intros Hn Ha; unfold transform; rewrite <- mv_mm.
  - rewrite !(sphere_axis1 a _ Hm Hn Ha), rotation_matrix_plus by exact Hn. do 2 f_equal. rewrite plus_IZR. ring.
  - rewrite !(sphere_axis2 a _ Hm Hn Ha), rotation_matrix_plus by exact Hn. do 2 f_equal. rewrite plus_IZR. ring.
Qed.

(** two perpendicular axes, half turns, the default mode *)
Definition sphere_ex : atoms :=
  {| cell := fun i j => match i, j with 0%nat, 1%nat => PI | 0%nat, 2%nat => PI
                      | 1%nat, 0%nat => 1 | 2%nat, 1%nat => 1 | _, _ => 0 end;
     pbc := (true, true, false); pos := []; slabx := (0, 0) |}.

Lemma sphere_ex_mode : (s_mode sphere_ex =? 3)%Z = false.
Proof.
  unfold s_mode, sphere_ex. cbn. destruct (Rle_dec 0 0); [|lra].
  destruct (base_Int_part 0) as [H1 H2]. apply le_IZR in H1. apply Z.eqb_neq. lia.
Qed.
Lemma vnorm1 v : vdot v v = 1 -> vnorm v = 1.
Proof. intros H. unfold vnorm. rewrite H. apply sqrt_1. Qed.

Lemma sphere_not_group : exists a r n m,
  sphere_defined a n /\ sphere_defined a m /\ sphere_defined a (op_add n m) /\
  transform Sphere a (transform Sphere a r n) m <> transform Sphere a r (op_add n m).
Proof.
  exists sphere_ex, (V3 0 0 1), (1, 0, 0)%Z, (0, 1, 0)%Z.
  pose proof PI_RGT_0 as HP.
  assert (Hd : forall n, (o1 n <> 0 \/ o2 n <> 0)%Z -> sphere_defined sphere_ex n).
  { intros n Hn. unfold sphere_defined. rewrite sphere_ex_mode. unfold s_angle1, s_angle2, s_n1, s_n2, sphere_ex. cbn [cell].
    vunf. intros E. injection E as E1 E2.
    assert (Q1 : IZR (o1 n) = 0) by nra. assert (Q2 : IZR (o2 n) = 0) by nra. apply eq_IZR in Q1, Q2. lia. }
  split; [apply Hd; cbn; lia|]. split; [apply Hd; cbn; lia|]. split; [apply Hd; cbn; lia|].
  assert (N1 : s_n1 sphere_ex = V3 1 0 0) by reflexivity.
  assert (N2 : s_n2 sphere_ex = V3 0 1 0) by reflexivity.
  assert (A1 : s_angle1 sphere_ex = PI) by reflexivity.
  assert (A2 : s_angle2 sphere_ex = PI) by reflexivity.
  assert (Z1 : V3 1 0 0 <> vzero) by (intros E; injection E; lra).
  assert (Z2 : V3 0 1 0 <> vzero) by (intros E; injection E; lra).
  intros E. apply (f_equal vz) in E. revert E. unfold transform. rewrite <- mv_mm.
  rewrite (sphere_axis1 _ _ sphere_ex_mode) by (rewrite ?N1, ?A1; try assumption; lra).
  rewrite (sphere_axis2 _ _ sphere_ex_mode) by (rewrite ?N2, ?A2; try assumption; lra).
  rewrite N1, N2, A1, A2, !rotation_matrix_rotm.
  rewrite (vnorm1 (V3 1 0 0)) by (vunf; ring). rewrite (vnorm1 (V3 0 1 0)) by (vunf; ring).
  rewrite Rinv_1, Rmult_1_l.
  replace (vz (mv (mm (rotm (vscale 1 (V3 0 1 0)) PI) (rotm (vscale 1 (V3 1 0 0)) PI)) (V3 0 0 1))) with 1
    by (unfold rotm; rewrite cos_PI, sin_PI; vunf; ring).
  cbn [rotation]. unfold sphere_rotation, op_add, o1, o2, o3. cbn [fst snd Z.add Z.eqb Pos.eqb andb]. cbv zeta.
  rewrite sphere_ex_mode, N1, N2, A1, A2, rotation_matrix_rotm.
  set (th := sqrt _).
  set (ax := vscale _ (vadd _ _)).
  assert (Hz : vz ax = 0) by (unfold ax; vunf; ring).
  replace (vz (mv (rotm ax th) (V3 0 0 1))) with (cos th) by (unfold rotm; rewrite Hz; vunf; ring).
  intros C.
  assert (Hth : th ^ 2 = 2 * PI ^ 2).
  { unfold th. replace (_ + _) with (2 * PI ^ 2) by (vunf; ring). rewrite <- Rsqr_pow2, Rsqr_sqrt; nra. }
  assert (H0 : 0 <= th) by apply sqrt_pos.
  assert (H1 : 0 < th < 2 * PI) by (split; nra).
  assert (S0 : 0 < sin (th / 2)) by (apply sin_gt_0; lra).
  replace th with (2 * (th / 2)) in C by field. rewrite cos_2a_sin in C. nra.
Qed.

(** ** extended copies *)
Lemma all_ops_in l1 l2 l3 n : In n (all_ops l1 l2 l3) <-> In (o1 n) l1 /\ In (o2 n) l2 /\ In (o3 n) l3.
Proof.
  unfold all_ops. rewrite in_flat_map. split.
  - intros (x & H1 & H). apply in_flat_map in H. destruct H as (y & H2 & H). apply in_map_iff in H.
    destruct H as (z & <- & H3). auto.
  - intros (H1 & H2 & H3). exists (o1 n). split; [exact H1|]. apply in_flat_map. exists (o2 n). split; [exact H2|].
    apply in_map_iff. exists (o3 n). split; [|exact H3]. destruct n as [[? ?] ?]. reflexivity.
Qed.
Lemma nodup_app {A} (l m : list A) : NoDup l -> NoDup m -> (forall x, In x l -> ~ In x m) -> NoDup (l ++ m).
Proof.
  induction l as [|x l IH]; cbn; intros Hl Hm H; [exact Hm|]. inversion Hl; subst. constructor.
  - rewrite in_app_iff. intros [|]; [contradiction|]. apply (H x); auto.
  - apply IH; auto.
Qed.
Lemma nodup_flat_map {A B} (f : A -> list B) (g : B -> A) l : NoDup l ->
  (forall x y, In y (f x) -> g y = x) -> (forall x, NoDup (f x)) -> NoDup (flat_map f l).
Proof.
  intros Hl Hg Hf. induction Hl as [|x l Hx Hl IH]; cbn; [constructor|].
  apply nodup_app; [apply Hf|exact IH|]. intros y Hy Hy2. apply in_flat_map in Hy2. destruct Hy2 as (x' & Hx' & Hy').
  apply Hg in Hy, Hy'. subst. contradiction.
Qed.
Lemma all_ops_nodup l1 l2 l3 : NoDup l1 -> NoDup l2 -> NoDup l3 -> NoDup (all_ops l1 l2 l3).
Proof.
  intros H1 H2 H3. unfold all_ops. apply nodup_flat_map with (g := o1); [exact H1| |].
  - intros x y Hy. apply in_flat_map in Hy. destruct Hy as (y2 & _ & Hy). apply in_map_iff in Hy.
    destruct Hy as (z & <- & _). reflexivity.
  - intros x. apply nodup_flat_map with (g := o2); [exact H2| |].
    + intros x2 y Hy. apply in_map_iff in Hy. destruct Hy as (z & <- & _). reflexivity.
    + intros x2. apply FinFun.Injective_map_NoDup; [|exact H3]. intros u v E. congruence.
Qed.
Lemma flat_map_const_length {A B} (f : A -> list B) k l : (forall x, length (f x) = k) -> length (flat_map f l) = (length l * k)%nat.
Proof. intros H. induction l; cbn; [reflexivity|]. rewrite app_length, H, IHl. lia. Qed.
Lemma all_ops_length l1 l2 l3 : length (all_ops l1 l2 l3) = (length l1 * length l2 * length l3)%nat.
Proof.
  unfold all_ops. rewrite flat_map_const_length with (k := (length l2 * length l3)%nat); [apply Nat.mul_assoc|].
  intros x. rewrite flat_map_const_length with (k := length l3); [reflexivity|]. intros y. apply map_length.
Qed.

(** the ranges of a container that has the identity *)
Definition good_range (r : range) : Prop :=
  match r with Fin lo hi => (lo <= 0 <= hi)%Z /\ (- hi <= lo + 1)%Z /\ (hi <= 1 - lo)%Z | Full => True end.
Lemma wedge_range_good M : in_range (wedge_range M) 0 = true -> good_range (wedge_range M).
Proof. unfold wedge_range, in_range. destruct (Z.eqb_spec (M mod 2) 1); cbn [good_range]; lia. Qed.
Lemma ranges_good c a : allowed c a (0, 0, 0)%Z = true ->
  let '(ra, rb, rc) := ranges c a in good_range ra /\ good_range rb /\ good_range rc.
Proof.
  unfold allowed. destruct (ranges c a) as [[ra rb] rc] eqn:E. unfold o1, o2, o3. cbn [fst snd].
  rewrite !andb_true_iff. intros [[H1 H2] H3].
  destruct c; cbn [ranges] in E; injection E as <- <- <-;
   try (destruct (pbc1 a)); try (destruct (pbc2 a)); try (destruct (pbc3 a)); cbn [good_range] in *;
   repeat split; try lia; try (apply wedge_range_good; assumption); exact Logic.I.
Qed.

(** when a number of copies per direction is asked *)
Lemma extended_copy_counts c a k1 k2 k3 :
  allowed c a (0, 0, 0)%Z = true -> (0 < k1)%Z -> (0 < k2)%Z -> (0 < k3)%Z ->
  let '(ra, rb, rc) := ranges c a in
  range_ok ra k1 -> range_ok rb k2 -> range_ok rc k3 ->
  exists l, extended_copy c a (Count k1, Count k2, Count k3) =
              Some (flat_map (fun n => map (fun r => transform c a r n) (pos a)) l) /\
    NoDup l /\ Z.of_nat (length l) = (k1 * k2 * k3)%Z /\ (forall n, In n l -> allowed c a n = true) /\
    ((forall r k, In (r, k) [(ra, k1); (rb, k2); (rc, k3)] -> 
       k = 1%Z -> match r with Full => True | Fin lo _ => lo = 0%Z end) -> In (0, 0, 0)%Z l).
Proof.
  intros Hid H1 H2 H3. pose proof (ranges_good c a Hid) as Hg. unfold extended_copy.
  assert (Hal : allowed c a = fun n => let '(ra, rb, rc) := ranges c a in
     in_range ra (o1 n) && in_range rb (o2 n) && in_range rc (o3 n)) by reflexivity.
  unfold copies. rewrite Hal. clear Hal Hid.
  destruct (ranges c a) as [[ra rb] rc]. destruct Hg as (G1 & G2 & G3). intros K1 K2 K3.
  destruct (ops_of_count ra k1 H1 K1 G1) as (l1 & E1 & L1 & N1 & I1 & Z1).
  destruct (ops_of_count rb k2 H2 K2 G2) as (l2 & E2 & L2 & N2 & I2 & Z2).
  destruct (ops_of_count rc k3 H3 K3 G3) as (l3 & E3 & L3 & N3 & I3 & Z3).
  rewrite E1, E2, E3. exists (all_ops l1 l2 l3).
  assert (Hall : forall n, In n (all_ops l1 l2 l3) -> in_range ra (o1 n) && in_range rb (o2 n) && in_range rc (o3 n) = true).
  { intros n Hn. apply all_ops_in in Hn. destruct Hn as (A & B & C). rewrite (I1 _ A), (I2 _ B), (I3 _ C). reflexivity. }
  assert (Hlen : Z.of_nat (length (all_ops l1 l2 l3)) = (k1 * k2 * k3)%Z).
  { rewrite all_ops_length, L1, L2, L3, !Nat2Z.inj_mul, !Z2Nat.id by lia. reflexivity. }
  split; [|split; [apply all_ops_nodup; assumption|split; [exact Hlen|split; [exact Hall|]]]].
  - destruct (all_ops l1 l2 l3) as [|n0 l'] eqn:El; [cbn in Hlen; nia|].
    rewrite <- El in *. rewrite (proj2 (forallb_forall _ _)) by exact Hall. reflexivity.
  - intros Hone. apply all_ops_in. unfold o1, o2, o3. cbn [fst snd].
    split; [|split].
    + apply Z1. specialize (Hone ra k1 (or_introl eq_refl)). destruct ra; [auto|]. right. destruct (Z_lt_dec 1 k1); [lia|]. right. apply Hone. lia.
    + apply Z2. specialize (Hone rb k2 (or_intror (or_introl eq_refl))). destruct rb; [auto|]. right. destruct (Z_lt_dec 1 k2); [lia|]. right. apply Hone. lia.
    + apply Z3. specialize (Hone rc k3 (or_intror (or_intror (or_introl eq_refl)))). destruct rc; [auto|]. right. destruct (Z_lt_dec 1 k3); [lia|]. right. apply Hone. lia.
Qed.

(** too many copies in a finite direction, or a count below 1: an exception *)
Lemma extended_copy_too_many c a k1 k2 k3 : 
  let '(ra, rb, rc) := ranges c a in
  ~ (0 < k1 /\ 0 < k2 /\ 0 < k3 /\ range_ok ra k1 /\ range_ok rb k2 /\ range_ok rc k3)%Z ->
  extended_copy c a (Count k1, Count k2, Count k3) = None.
Proof.
  unfold extended_copy, copies.
  assert (Hal : allowed c a = fun n => let '(ra, rb, rc) := ranges c a in
     in_range ra (o1 n) && in_range rb (o2 n) && in_range rc (o3 n)) by reflexivity.
  rewrite Hal. clear Hal. destruct (ranges c a) as [[ra rb] rc]. intros H.
  destruct (Z_lt_dec 0 k1) as [P1|P1]; [|cbn [ops_of]; replace (0 <? k1)%Z with false by lia; reflexivity].
  destruct (Z_lt_dec 0 k2) as [P2|P2]; [|cbn [ops_of]; replace (0 <? k2)%Z with false by lia; replace (0 <? k1)%Z with true by lia; destruct ra; reflexivity].
  destruct (Z_lt_dec 0 k3) as [P3|P3]; [|cbn [ops_of]; replace (0 <? k3)%Z with false by lia; replace (0 <? k1)%Z with true by lia;
     replace (0 <? k2)%Z with true by lia; destruct ra, rb; reflexivity].
  assert (Hops : forall r k, (0 < k)%Z -> exists s, ops_of r (Count k) = Some (zrange s (Z.to_nat k))).
  { intros r k Hk. cbn [ops_of]. rewrite (proj2 (Z.ltb_lt 0 k) Hk). destruct r; eexists; reflexivity. }
  destruct (Hops ra k1 P1) as [s1 E1], (Hops rb k2 P2) as [s2 E2], (Hops rc k3 P3) as [s3 E3].
  rewrite E1, E2, E3.
  set (l := all_ops _ _ _).
  destruct l as [|n0 l'] eqn:El; [reflexivity|]. rewrite <- El.
  destruct (forallb _ l) eqn:F; [|reflexivity]. exfalso. apply H.
  assert (In1 : forall x y z, (s1 <= x < s1 + k1 -> s2 <= y < s2 + k2 -> s3 <= z < s3 + k3 -> In (x, y, z) l)%Z).
  { intros x y z Hx Hy Hz. apply all_ops_in. unfold o1, o2, o3. cbn [fst snd]. rewrite !zrange_in. lia. }
  rewrite forallb_forall in F.
  assert (F1 := F _ (In1 s1 s2 s3 ltac:(lia) ltac:(lia) ltac:(lia))).
  assert (F2 := F _ (In1 (s1 + k1 - 1) (s2 + k2 - 1) (s3 + k3 - 1) ltac:(lia) ltac:(lia) ltac:(lia))%Z).
  unfold o1, o2, o3 in F1, F2. cbn [fst snd] in F1, F2. rewrite !andb_true_iff in F1, F2.
  destruct F1 as [[A1 A2] A3], F2 as [[B1 B2] B3].
  repeat split; try assumption; destruct ra, rb, rc; cbn [range_ok in_range] in *; try exact Logic.I; lia.
Qed.

(** explicit operation ranges *)
Lemma extended_copy_pairs c a lo1 hi1 lo2 hi2 lo3 hi3 : (lo1 <= hi1 -> lo2 <= hi2 -> lo3 <= hi3 ->
  (forall n, (lo1 <= o1 n <= hi1 -> lo2 <= o2 n <= hi2 -> lo3 <= o3 n <= hi3 -> allowed c a n = true)) ->
  exists l, extended_copy c a (Pair lo1 hi1, Pair lo2 hi2, Pair lo3 hi3) =
              Some (flat_map (fun n => map (fun r => transform c a r n) (pos a)) l) /\ NoDup l /\
  forall n, In n l <-> lo1 <= o1 n <= hi1 /\ lo2 <= o2 n <= hi2 /\ lo3 <= o3 n <= hi3)%Z.
Proof.
  intros H1 H2 H3 Hal. unfold extended_copy, copies. destruct (ranges c a) as [[ra rb] rc]. cbn [ops_of].
  set (l := all_ops _ _ _). exists l.
  assert (Hin : forall n, In n l <-> (lo1 <= o1 n <= hi1 /\ lo2 <= o2 n <= hi2 /\ lo3 <= o3 n <= hi3)%Z).
  { intros n. unfold l. rewrite all_ops_in, !zrange_in. lia. }
  split; [|split; [apply all_ops_nodup; apply zrange_nodup|exact Hin]].
  assert (In (lo1, lo2, lo3) l) by (apply Hin; unfold o1, o2, o3; cbn [fst snd]; lia).
  destruct l as [|n0 l'] eqn:El; [contradiction|]. rewrite <- El in *.
  rewrite (proj2 (forallb_forall _ _)); [reflexivity|]. intros n Hn. apply Hin in Hn. apply Hal; lia.
Qed.

(** ** one copy of a wedge: not the original atoms *)
Definition wedge3 : atoms :=
  {| cell := fun i j => match i, j with 2%nat, 0%nat => 2 * PI / 3 | 1%nat, 0%nat => 1 | _, _ => 0 end;
     pbc := (true, false, false); pos := [V3 1 0 0]; slabx := (0, 0) |}.
Lemma wedge3_range : fst (fst (ranges Wedge wedge3)) = Fin (-1) 1.
Proof.
  cbn [ranges fst]. rewrite (angle_inv _ 3); [|lia|reflexivity]. rewrite pyround_IZR. reflexivity.
Qed.
Lemma wedge_single_copy : exists a p, allowed Wedge a (0, 0, 0)%Z = true /\
  extended_copy Wedge a (Count 1, Count 1, Count 1) = Some p /\ p <> pos a.
Proof.
  exists wedge3, [transform Wedge wedge3 (V3 1 0 0) (-1, 0, 0)%Z].
  assert (R3 : ranges Wedge wedge3 = (Fin (-1) 1, Fin 0 0, Fin 0 0)).
  { rewrite (surjective_pairing (ranges _ _)), (surjective_pairing (fst (ranges _ _))), wedge3_range. reflexivity. }
  split; [unfold allowed; rewrite R3; reflexivity|]. split.
  - unfold extended_copy, copies. rewrite R3.
    cbn [ops_of Z.ltb Z.compare]. change (- (1) / 2)%Z with (-1)%Z. cbn [Z.max Z.compare zrange Z.to_nat Pos.to_nat Pos.iter_op all_ops flat_map map app].
    cbn [forallb]. unfold allowed at 1. rewrite R3. reflexivity.
  - cbn [pos wedge3]. intros E. apply (f_equal (fun l => vx (hd vzero l))) in E. revert E. cbn [hd vx].
    unfold transform. cbn [pbc3 pbc wedge3 snd]. rewrite vadd_zero_r. unfold rotation, rotz, o1, w_angle. cbn [fst snd cell wedge3].
    vunf. replace (-1 * (2 * PI / 3)) with (- (2 * (PI / 3))) by field. rewrite cos_neg, cos_2PI3. lra.
Qed.

(** ** Examples *)
Example ex_wedge : allowed Wedge wedge3 (0, 0, 0)%Z = true /\ w_angle wedge3 = 2 * PI / IZR 3 /\
  extended_copy Wedge wedge3 (Count 3, Count 1, Count 1) =
    Some [transform Wedge wedge3 (V3 1 0 0) (-1, 0, 0)%Z; transform Wedge wedge3 (V3 1 0 0) (0, 0, 0)%Z; transform Wedge wedge3 (V3 1 0 0) (1, 0, 0)%Z] /\
  extended_copy Wedge wedge3 (Count 4, Count 1, Count 1) = None.
Proof.
  assert (R3 : ranges Wedge wedge3 = (Fin (-1) 1, Fin 0 0, Fin 0 0)).
  { rewrite (surjective_pairing (ranges _ _)), (surjective_pairing (fst (ranges _ _))), wedge3_range. reflexivity. }
  split; [unfold allowed; rewrite R3; reflexivity|]. split; [reflexivity|]. 
  assert (Hal : allowed Wedge wedge3 = fun n => in_range (Fin (-1) 1) (o1 n) && in_range (Fin 0 0) (o2 n) && in_range (Fin 0 0) (o3 n)).
  { unfold allowed. rewrite R3. reflexivity. }
  unfold extended_copy, copies. rewrite R3, Hal. split; reflexivity.
Qed.
Example ex_torus : in_torus tat_witness (V3 (/2) 0 0).
Proof.
  exists (/2), 0. rewrite tat_witness_R. unfold cyl. cbn [vz]. rewrite cos_0, sin_0. repeat split; try lra.
  apply v3_eq; cbn; ring.
Qed.
Example ex_sphere : (s_mode sphere_ex =? 3)%Z = false /\ s_n1 sphere_ex <> vzero /\ s_angle1 sphere_ex <> 0.
Proof.
  split; [apply sphere_ex_mode|]. split; [intros E; injection E; lra|]. cbn. pose proof PI_RGT_0. unfold s_angle1, sphere_ex. cbn. lra.
Qed.
Example ex_double : exists a, IZR 1 = 2 * d_x a /\ transform DoubleChiral a (V3 0 0 0) (2, 0, 0)%Z = transform DoubleChiral a (V3 0 0 0) (0, 0, 1)%Z.
Proof.
  exists {| cell := fun i j => match i, j with 0%nat, 1%nat => /2 | 1%nat, 0%nat => 1 | 2%nat, 0%nat => 3 | _, _ => 0 end;
     pbc := (true, false, true); pos := []; slabx := (0, 0) |}.
  split; [cbn; unfold d_x; cbn; lra|].
  change (2, 0, 0)%Z with (0 + 2, 0, 0)%Z. rewrite (doublechiral_square _ _ _ _ _ 1); [reflexivity|]. unfold d_x. cbn. lra.
Qed.

Lemma wedge_range_size c a M : (0 < M)%Z ->
  match c with Wedge | WedgeYAxis => w_angle a = 2 * PI / IZR M
             | ChiralWedge => Rabs (cw_angle a) = 2 * PI / IZR M | _ => False end ->
  exists lo hi, fst (fst (ranges c a)) = Fin lo hi /\ (lo <= 0 <= hi)%Z /\ (hi - lo + 1)%Z = M.
Proof.
  intros HM Hc.
  assert (Rg : fst (fst (ranges c a)) = wedge_range M).
  { destruct c; try contradiction; cbn [ranges fst];
    rewrite (angle_inv _ M HM Hc), pyround_IZR; reflexivity. }
  rewrite Rg. unfold wedge_range. destruct (Z.eqb_spec (M mod 2) 1); eexists; eexists; (split; [reflexivity|]); lia.
Qed.
