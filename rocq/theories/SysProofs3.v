From Coq Require Import FinFun Reals ZArith Znumtheory String List Bool Arith Lia Lra Psatz.
From Verif Require Import GeomModel GeomProofs GeomProofs2 UtilModel UtilProofs SysModel SysSpec SysProofs SysProofs2.
Import ListNotations.
Open Scope R_scope.

(** ** zigzag_ribbon *)
Definition zrpoints (n1 n2 : nat) : list (Z * Z) := flat_map (fun i1 => flat_map (fun i2 =>
  [(2 * Z.of_nat i1 + 1, 6 * Z.of_nat i2 + 1); (2 * Z.of_nat i1, 6 * Z.of_nat i2 + 2); (2 * Z.of_nat i1, 6 * Z.of_nat i2 + 4); (2 * Z.of_nat i1 + 1, 6 * Z.of_nat i2 + 5)]%Z) (seq 0 n2)) (seq 0 n1).
Lemma zr_positions n1 n2 d Rb : fst (zigzag_ribbon n1 n2 Rb d) = map (fun c => ZE d Rb (fst c) (snd c)) (zrpoints n1 n2).
Proof.
  unfold zigzag_ribbon, zrpoints. cbn [fst]. rewrite orient_map. unfold ZE. rewrite <- (map_map (fun c => GE Rb (fst c) (snd c)) (turn d)). f_equal.
  rewrite map_flat_map. apply flat_map_ext'. intros i1 _. rewrite map_flat_map. apply flat_map_ext'. intros i2 _. cbv zeta. rewrite cos_PI6. cbn [map fst snd].
  repeat (apply (f_equal2 (@cons v3)); [apply v3_eq; unfold vadd, GE; cbn [vx vy vz]; rewrite ?plus_IZR, ?mult_IZR, <- ?INR_IZR_INZ; field|]). reflexivity.
Qed.
Lemma in_zrpoints n1 n2 X Y : In (X, Y) (zrpoints n1 n2) <-> (0 <= X < 2 * Z.of_nat n1)%Z /\ ZH 1 (2 * n2) X Y.
Proof.
  unfold zrpoints. rewrite in_flat_map. split.
  - intros (i1 & H1 & K). apply in_flat_map in K. destruct K as (i2 & H2 & K). apply in_seq in H1, H2. cbn [In] in K. rewrite !pair_equal_spec in K. split; [lia|].
    assert (E : (Y <= 6 * Z.of_nat i2 + 2 \/ 6 * Z.of_nat i2 + 2 < Y)%Z) by lia.
    destruct E as [E|E]; [exists (2 * Z.of_nat i2)%Z, (Z.of_nat i1 + Z.of_nat i2 + (if (Y =? 6 * Z.of_nat i2 + 1)%Z then 1 else 0))%Z|exists (2 * Z.of_nat i2 + 1)%Z, (Z.of_nat i1 + Z.of_nat i2 + 1)%Z].
    + destruct (Z.eqb_spec Y (6 * Z.of_nat i2 + 1)); lia.
    + lia.
  - intros [HX (i & w & Hi & K)]. exists (Z.to_nat (X / 2)). pose proof (Z.div_mod X 2 ltac:(lia)). pose proof (Z.mod_pos_bound X 2 ltac:(lia)). split; [apply in_seq; lia|].
    apply in_flat_map. exists (Z.to_nat (i / 2)). pose proof (Z.div_mod i 2 ltac:(lia)). pose proof (Z.mod_pos_bound i 2 ltac:(lia)). split; [apply in_seq; lia|]. rewrite !Z2Nat.id by lia. cbn [In]. rewrite !pair_equal_spec. lia.
Qed.
Lemma zrpoints_nodup n1 n2 : NoDup (zrpoints n1 n2).
Proof.
  unfold zrpoints. apply NoDup_flat_map; [apply seq_NoDup| |].
  - intros i1 _. apply NoDup_flat_map; [apply seq_NoDup| |].
    + intros i2 _. repeat constructor; cbn [In]; intros L; repeat destruct L as [L|L]; try (apply pair_equal_spec in L; lia); try exact L.
    + intros a b [x y] _ _ K L. cbn [In] in K, L. rewrite !pair_equal_spec in K, L. lia.
  - intros a b [x y] _ _ K L. apply in_flat_map in K, L. destruct K as (i & _ & K), L as (j & _ & L). cbn [In] in K, L. rewrite !pair_equal_spec in K, L. lia.
Qed.
Lemma zrpoints_length n1 n2 : length (zrpoints n1 n2) = (4 * n1 * n2)%nat.
Proof. unfold zrpoints. rewrite (length_flat_map _ (4 * n2)) by (intros; rewrite (length_flat_map _ 4) by reflexivity; rewrite seq_length; reflexivity). rewrite seq_length. lia. Qed.
(** with the period of its atoms, n1 times the width of a unit, it is a ribbon *)
Lemma zigzag_atoms n1 n2 d Rb : (1 <= n1)%nat -> 0 < Rb ->
  let ps := fst (zigzag_ribbon n1 n2 Rb d) in let per := along d (INR n1 * (Rb * sqrt 3)) in
  length ps = (4 * n1 * n2)%nat /\ distinct1 per ps /\ apart (crystal1 per ps) Rb /\ zigzag_bonds d Rb (2 * n2) (crystal1 per ps).
Proof.
  intros Hu HR ps per. assert (P : ps = map (fun c => ZE d Rb (fst c) (snd c)) (zrpoints n1 n2)) by apply zr_positions.
  assert (C : forall p, crystal1 per ps p <-> exists X Y, ZH 1 (2 * n2) X Y /\ p = ZE d Rb X Y).
  { intros p. unfold crystal1. rewrite P. unfold per. split.
    - intros (q & k & Hq & ->). apply in_map_iff in Hq. destruct Hq as ([X Y] & <- & Hq). cbn [fst snd]. rewrite z_period, ZE_move. apply in_zrpoints in Hq. destruct Hq as [_ (i & w & Hi & K)].
      do 2 eexists. split; [|reflexivity]. exists i, (w + k * Z.of_nat n1)%Z. lia.
    - intros (X & Y & (i & w & Hi & K) & ->). destruct (split_index (X / 2)%Z n1 Hu) as (u & k & Hk & E). pose proof (Z.div_mod X 2 ltac:(lia)). pose proof (Z.mod_pos_bound X 2 ltac:(lia)).
      exists (ZE d Rb (X - 2 * (k * Z.of_nat n1)) Y), k. split.
      + apply in_map_iff. exists (X - 2 * (k * Z.of_nat n1), Y)%Z. split; [reflexivity|]. apply in_zrpoints. split; [lia|]. exists i, (w - k * Z.of_nat n1)%Z. lia.
      + rewrite z_period, ZE_move. f_equal. ring. }
  split; [|split; [|split]].
  - rewrite P, map_length. apply zrpoints_length.
  - split; [rewrite P; apply (E_nodup Rb (ZE d Rb) HR (ZE_law d Rb)); apply zrpoints_nodup|]. intros q1 q2 k I1 I2 E. rewrite P in I1, I2. apply in_map_iff in I1, I2. destruct I1 as ([X Y] & <- & I1), I2 as ([X' Y'] & <- & I2). cbn [fst snd] in *.
    unfold per in E. rewrite z_period, ZE_move in E. apply (E_inj Rb (ZE d Rb) HR (ZE_law d Rb)) in E. apply in_zrpoints in I1, I2. destruct E as [EX EY]. assert (k = 0)%Z by nia. subst k. f_equal; lia.
  - apply (z_apart (2 * n2) d Rb 1 per ps HR C).
  - intros p. apply (z_neighbours (2 * n2) d Rb 1 per ps HR C).
Qed.
Lemma zigzag_one n2 Rb : 0 < Rb -> let '(ps, per) := zigzag_ribbon 1 n2 Rb DirX in
  length ps = (4 * n2)%nat /\ distinct1 per ps /\ apart (crystal1 per ps) Rb /\ zigzag_bonds DirX Rb (2 * n2) (crystal1 per ps).
Proof.
  intros HR. pose proof (zigzag_atoms 1 n2 DirX Rb (le_n 1) HR) as A. cbv zeta in A.
  assert (S : snd (zigzag_ribbon 1 n2 Rb DirX) = along DirX (INR 1 * (Rb * sqrt 3))). { unfold zigzag_ribbon. cbn [snd]. f_equal. rewrite cos_PI6. cbn [INR]. field. }
  destruct (zigzag_ribbon 1 n2 Rb DirX) as [ps per]. cbn [fst snd] in A, S. rewrite <- S in A. replace (4 * 1 * n2)%nat with (4 * n2)%nat in A by lia. exact A.
Qed.
Lemma zigzag_x_refuted n1 n2 Rb : (2 <= n1)%nat -> (1 <= n2)%nat -> 0 < Rb ->
  let '(ps, per) := zigzag_ribbon n1 n2 Rb DirX in ~ distinct1 per ps.
Proof.
  intros H1 H2 HR. pose proof (zr_positions n1 n2 DirX Rb) as P. assert (S : snd (zigzag_ribbon n1 n2 Rb DirX) = along DirX (INR 1 * (Rb * sqrt 3))). { unfold zigzag_ribbon. cbn [snd]. f_equal. rewrite cos_PI6. cbn [INR]. field. }
  destruct (zigzag_ribbon n1 n2 Rb DirX) as [ps per]. cbn [fst snd] in P, S. intros [_ D].
  assert (I : forall X, (X = 0 \/ X = 2)%Z -> In (ZE DirX Rb X 2) ps).
  { intros X HX. rewrite P. apply in_map_iff. exists (X, 2%Z). split; [reflexivity|]. apply in_zrpoints. split; [lia|]. exists 0%Z, (X / 2)%Z. destruct HX as [->| ->]; cbv [Z.div Z.div_eucl Z.pos_div_eucl]; cbn; lia. }
  specialize (D (ZE DirX Rb 2 2) (ZE DirX Rb 0 2) 1%Z (I 2%Z ltac:(lia)) (I 0%Z ltac:(lia))). rewrite S, z_period, ZE_move in D. specialize (D eq_refl). apply (E_inj Rb (ZE DirX Rb) HR (ZE_law DirX Rb)) in D. lia.
Qed.
Lemma sqrt3_lt2 : 0 < sqrt 3 < 2.
Proof. split; [apply sqrt_lt_R0; lra|]. apply Rsqr_incrst_0; [rewrite Rsqr_sqrt by lra; unfold Rsqr; lra|apply sqrt_pos|lra]. Qed.
Lemma zigzag_z_refuted n1 n2 Rb : (1 <= n1)%nat -> (1 <= n2)%nat -> 0 < Rb ->
  let '(ps, per) := zigzag_ribbon n1 n2 Rb DirZ in ~ zigzag_bonds DirZ Rb (2 * n2) (crystal1 per ps).
Proof.
  intros H1 H2 HR. pose proof (zr_positions n1 n2 DirZ Rb) as P. assert (S : snd (zigzag_ribbon n1 n2 Rb DirZ) = V3 0 0 (INR n1 * 3 * Rb)) by reflexivity.
  destruct (zigzag_ribbon n1 n2 Rb DirZ) as [ps per]. cbn [fst snd] in P, S. intros B.
  assert (I : forall X Y, In (X, Y) (zrpoints n1 n2) -> crystal1 per ps (ZE DirZ Rb X Y)).
  { intros X Y H. exists (ZE DirZ Rb X Y), 0%Z. split; [rewrite P; apply in_map_iff; exists (X, Y); split; [reflexivity|exact H]|]. apply v3_eq; unfold vadd, vscale; cbn [vx vy vz]; ring. }
  assert (I0 : In (0, 2)%Z (zrpoints n1 n2)) by (apply in_zrpoints; split; [lia|exists 0%Z, 0%Z; lia]).
  assert (I1 : In (1, 1)%Z (zrpoints n1 n2)) by (apply in_zrpoints; split; [lia|exists 0%Z, 1%Z; lia]).
  assert (I2 : In (0, 4)%Z (zrpoints n1 n2)) by (apply in_zrpoints; split; [lia|exists 1%Z, 1%Z; lia]).
  specialize (B _ (I _ _ I0)).
  assert (Ac : across DirZ (ZE DirZ Rb 0 2) = Rb). { unfold ZE. rewrite across_turn. unfold GE. cbn [vy]. field. }
  rewrite Ac in B. destruct (Req_EM_T Rb (Rb / 2)) as [F|_]; [lra|]. destruct (Req_EM_T Rb _) as [F|_].
  { rewrite mult_INR in F. pose proof (le_INR 1 n2 H2) as L. cbn [INR] in L, F. nra. }
  assert (N : neighbours (crystal1 per ps) Rb (ZE DirZ Rb 0 2) 2).
  { exists [ZE DirZ Rb 1 1; ZE DirZ Rb 0 4]. split; [|split; [reflexivity|]].
    - constructor; [|constructor; [intros []|constructor]]. intros [E|[]]. apply (E_inj Rb (ZE DirZ Rb) HR (ZE_law DirZ Rb)) in E. lia.
    - intros q. split.
      + intros [<-|[<-|[]]]; (split; [apply I; assumption|]); apply (E_bond Rb (ZE DirZ Rb) HR (ZE_law DirZ Rb)); reflexivity.
      + intros [(q0 & k & Hq & ->) Hd]. rewrite P in Hq. apply in_map_iff in Hq. destruct Hq as ([X Y] & <- & Hq). cbn [fst snd] in *. pose proof Hq as Hq'. apply in_zrpoints in Hq'. destruct Hq' as [HX (i & w & Hi & K)].
        destruct (Z.eq_dec k 0) as [->|Hk].
        * assert (Z0 : vadd (ZE DirZ Rb X Y) (vscale 0 per) = ZE DirZ Rb X Y) by (apply v3_eq; unfold vadd, vscale; cbn [vx vy vz]; ring). rewrite Z0 in *.
          apply (E_bond Rb (ZE DirZ Rb) HR (ZE_law DirZ Rb)) in Hd. rewrite form_4 in Hd.
          assert (L : (X = 1 /\ Y = 1 \/ X = 0 /\ Y = 4)%Z) by lia. cbn [In]. destruct L as [[-> ->]|[-> ->]]; auto.
        * exfalso. unfold dist, vnorm in Hd. assert (Hd2 : vdot (vsub (ZE DirZ Rb 0 2) (vadd (ZE DirZ Rb X Y) (vscale (IZR k) per))) (vsub (ZE DirZ Rb 0 2) (vadd (ZE DirZ Rb X Y) (vscale (IZR k) per))) = Rb * Rb).
          { match type of Hd with sqrt ?v = _ => assert (V0 : 0 <= v) by (unfold vdot; nra); rewrite <- (sqrt_sqrt v V0), Hd; reflexivity end. }
          rewrite S in Hd2. unfold ZE, turn, stand_up, GE, vdot, vsub, vadd, vscale in Hd2. cbn [vx vy vz] in Hd2.
          set (z := sqrt 3 / 2 * IZR X + IZR k * (INR n1 * 3)) in *.
          assert (Z1 : z * z <= 1).
          { apply (Rmult_le_reg_l (Rb * Rb)); [nra|]. match type of Hd2 with ?a * ?a + ?b * ?b + ?c * ?c = _ => assert (Ez : c = - (Rb * z)) by (unfold z; field); pose proof (Rle_0_sqr a) as U1; pose proof (Rle_0_sqr b) as U2; rewrite Ez in Hd2 end. unfold Rsqr in U1, U2. clearbody z. lra. }
          pose proof sqrt3_lt2 as Q. assert (X0 : 0 <= IZR X <= 2 * INR n1 - 1). { rewrite INR_IZR_INZ. change 2 with (IZR 2). change 1 with (IZR 1). rewrite <- mult_IZR, <- minus_IZR. split; apply IZR_le; lia. }
          pose proof (le_INR 1 n1 H1) as L. cbn [INR] in L. assert (Kc : (1 <= k \/ k <= -1)%Z) by lia. destruct Kc as [Kc|Kc]; apply IZR_le in Kc.
          -- assert (3 <= z); [|nra]. unfold z. assert (0 <= sqrt 3 / 2 * IZR X) by (apply Rmult_le_pos; lra). nra.
          -- assert (z <= -2); [|nra]. unfold z. assert (sqrt 3 / 2 * IZR X <= 1 * IZR X) by (apply Rmult_le_compat_r; lra). nra. }
  pose proof (neighbours_unique _ _ _ _ _ N B). discriminate.
Qed.

(** ** nanotube_data *)
Lemma gcd3 n m : (0 <= n -> 0 <= m -> ~ (n = 0 /\ m = 0) -> (if (n - m) mod (3 * Z.gcd n m) =? 0 then 3 * Z.gcd n m else Z.gcd n m) = Z.gcd (2 * n + m) (2 * m + n))%Z.
Proof.
  intros Hn Hm H0. set (d := Z.gcd n m).
  assert (Hd : (0 < d)%Z). { pose proof (Z.gcd_nonneg n m). assert (Z.gcd n m <> 0)%Z; [|lia]. intros E. apply Z.gcd_eq_0 in E. lia. }
  destruct (Z.gcd_divide_l n m) as [n' En], (Z.gcd_divide_r n m) as [m' Em]. fold d in En, Em.
  assert (Cop : Z.gcd n' m' = 1%Z). { pose proof (Z.gcd_mul_mono_l_nonneg n' m' d ltac:(lia)) as G. replace (d * n')%Z with n in G by lia. replace (d * m')%Z with m in G by lia. fold d in G. nia. }
  assert (E : Z.gcd (2 * n + m) (2 * m + n) = (d * Z.gcd (2 * n' + m') (2 * m' + n'))%Z). { rewrite <- Z.gcd_mul_mono_l_nonneg by lia. f_equal; lia. }
  rewrite E. set (g := Z.gcd (2 * n' + m') (2 * m' + n')).
  assert (Gn : (0 <= g)%Z) by apply Z.gcd_nonneg.
  assert (G3 : (g | 3)%Z).
  { assert (D1 : (g | 3 * n')%Z). { replace (3 * n')%Z with (2 * (2 * n' + m') - (2 * m' + n'))%Z by ring. apply Z.divide_sub_r; [apply Z.divide_mul_r|]; [apply Z.gcd_divide_l|apply Z.gcd_divide_r]. }
    assert (D2 : (g | 3 * m')%Z). { replace (3 * m')%Z with (2 * (2 * m' + n') - (2 * n' + m'))%Z by ring. apply Z.divide_sub_r; [apply Z.divide_mul_r|]; [apply Z.gcd_divide_r|apply Z.gcd_divide_l]. }
    replace 3%Z with (Z.gcd (3 * n') (3 * m')) by (rewrite Z.gcd_mul_mono_l_nonneg, Cop by lia; reflexivity). apply Z.gcd_greatest; assumption. }
  assert (Q : ((n - m) mod (3 * d) = 0 <-> (3 | n' - m'))%Z).
  { rewrite Z.mod_divide by lia. split; intros [k K]; exists k; [apply (Z.mul_reg_r _ _ d); [lia|]; rewrite Z.mul_sub_distr_r, <- En, <- Em, K; ring|rewrite En, Em, <- Z.mul_sub_distr_r, K; ring]. }
  assert (G13 : (g = 1 \/ g = 3)%Z). { clearbody g. pose proof (Z.divide_pos_le g 3 ltac:(lia) G3) as G3'. destruct G3 as [k K]. assert (g <> 0)%Z by (intros Z0; rewrite Z0 in K; lia). assert (g = 1 \/ g = 2 \/ g = 3)%Z as [?|[?|?]] by lia; [auto|nia|auto]. }
  destruct (Z.eqb_spec ((n - m) mod (3 * d)) 0) as [M|M].
  - apply Q in M. assert (T : (3 | g)%Z). { destruct M as [k K]. unfold g. apply Z.gcd_greatest; [exists (n' - k)%Z; lia|exists (m' + k)%Z; lia]. }
    destruct T as [k T]. lia.
  - assert (g <> 3%Z); [|lia]. intros G. apply M, Q. assert (T : (g | 2 * n' + m')%Z) by apply Z.gcd_divide_l. rewrite G in T. destruct T as [k K]. exists (n' - k)%Z. lia.
Qed.
Lemma tube_dR_spec n m : (0 <= n)%Z -> (0 <= m)%Z -> ~ (n = 0 /\ m = 0)%Z -> tube_dR n m = Some (Z.gcd (2 * n + m) (2 * m + n)).
Proof.
  intros Hn Hm H0. unfold tube_dR. destruct (Z.eqb_spec n m) as [->|Hne].
  - f_equal. rewrite Z.gcd_diag_nonneg by lia. ring.
  - destruct (gcd_spec n m) as (g & E & _ & G). rewrite E, (G Hn Hm). rewrite <- (gcd3 n m Hn Hm H0). destruct (_ =? _)%Z; reflexivity.
Qed.
Lemma nt_step_spec n m : (0 <= n)%Z -> (0 <= m)%Z -> ~ (n = 0 /\ m = 0)%Z -> nt_step n m = Some (Z.gcd (2 * n + m) (2 * m + n)).
Proof.
  intros Hn Hm H0. unfold nt_step. destruct (gcd_spec n m) as (g & E & _ & G). rewrite E, (G Hn Hm).
  destruct (Z.eqb_spec (Z.gcd n m) 0) as [F|F]; [apply Z.gcd_eq_0 in F; lia|]. f_equal. rewrite <- (gcd3 n m Hn Hm H0). destruct (_ =? 0)%Z; ring.
Qed.
Lemma dot_lat Rb p q n m : vdot (lat Rb p q) (lat Rb n m) = 3 / 2 * Rb ^ 2 * IZR (p * (2 * n + m) + q * (2 * m + n)).
Proof.
  unfold vdot, lat, lat_a1, lat_a2, vadd, vscale. cbn [vx vy vz]. rewrite !plus_IZR, !mult_IZR, !plus_IZR, !mult_IZR. pose proof sqrt3_sq as Q.
  replace (_ * _ + _ * _ + _ * _) with (Rb ^ 2 * ((sqrt 3 * sqrt 3) * (IZR p + IZR q / 2) * (IZR n + IZR m / 2) + 9 / 4 * IZR q * IZR m)) by field. rewrite Q. field.
Qed.
Lemma norm_lat Rb p q : 0 <= Rb -> vnorm (lat Rb p q) = sqrt 3 * Rb * sqrt (IZR (p ^ 2 + q ^ 2 + p * q)).
Proof.
  intros HR. unfold vnorm. rewrite dot_lat. replace (3 / 2 * Rb ^ 2 * IZR (p * (2 * p + q) + q * (2 * q + p))) with (3 * (Rb * Rb) * IZR (p ^ 2 + q ^ 2 + p * q)).
  - assert (0 <= IZR (p ^ 2 + q ^ 2 + p * q)) by (apply IZR_le; nia). rewrite sqrt_mult by nra. rewrite sqrt_mult by nra. rewrite sqrt_square by exact HR. reflexivity.
  - replace (p * (2 * p + q) + q * (2 * q + p))%Z with (2 * (p ^ 2 + q ^ 2 + p * q))%Z by ring. rewrite (mult_IZR 2). field.
Qed.
Section Data.
Variables (n m : Z) (Rb : R).
Hypothesis Hn : (0 <= n)%Z.
Hypothesis Hm : (0 <= m)%Z.
Hypothesis H0 : ~ (n = 0 /\ m = 0)%Z.
Hypothesis HR : 0 < Rb.
Let N := (n ^ 2 + m ^ 2 + n * m)%Z.
Let g := Z.gcd (2 * n + m) (2 * m + n).
Lemma N_pos : (0 < N)%Z.
Proof. unfold N. assert (0 < n \/ 0 < m)%Z by lia. nia. Qed.
Lemma g_pos : (0 < g)%Z.
Proof. unfold g. pose proof (Z.gcd_nonneg (2 * n + m) (2 * m + n)). assert (Z.gcd (2 * n + m) (2 * m + n) <> 0)%Z; [|lia]. intros E. apply Z.gcd_eq_0 in E. lia. Qed.
Lemma perp p q : vdot (lat Rb p q) (lat Rb n m) = 0 <-> (p * (2 * n + m) + q * (2 * m + n) = 0)%Z.
Proof. rewrite dot_lat. split; [intros E; apply eq_IZR; apply Rmult_integral in E; destruct E as [E|E]; [exfalso; nra|exact E]|intros ->; ring]. Qed.
Lemma perp_multiple : exists A B : Z, (2 * n + m = g * A /\ 2 * m + n = g * B)%Z /\ (forall p q, (p * (2 * n + m) + q * (2 * m + n) = 0)%Z -> exists k, (p = - k * B /\ q = k * A)%Z).
Proof.
  pose proof g_pos as Gp. destruct (Z.gcd_divide_l (2 * n + m) (2 * m + n)) as [A EA], (Z.gcd_divide_r (2 * n + m) (2 * m + n)) as [B EB]. fold g in EA, EB.
  exists A, B. split; [lia|]. intros p q E.
  assert (Cop : Z.gcd A B = 1%Z). { pose proof (Z.gcd_mul_mono_l_nonneg A B g ltac:(lia)) as G. replace (g * A)%Z with (2 * n + m)%Z in G by lia. replace (g * B)%Z with (2 * m + n)%Z in G by lia. fold g in G. nia. }
  assert (E' : (p * A + q * B = 0)%Z). { rewrite EA, EB in E. apply (Z.mul_reg_r _ _ g); [lia|]. lia. }
  assert (D : (A | q)%Z). { apply (Gauss A B q); [exists (- p)%Z; lia|]. apply Zgcd_1_rel_prime. exact Cop. }
  destruct D as [k ->]. destruct (Z.eq_dec A 0) as [A0|A0]; [exfalso; rewrite A0 in EA; lia|]. exists k. split; [|ring]. apply (Z.mul_reg_r _ _ A); [exact A0|]. lia.
Qed.
Lemma tube_T (p q k A B : Z) : (2 * n + m = g * A)%Z -> (2 * m + n = g * B)%Z -> p = (- k * B)%Z -> q = (k * A)%Z ->
  vnorm (lat Rb p q) = 3 * Rb * sqrt (IZR N) / IZR g * Rabs (IZR k).
Proof.
  intros EA EB -> ->. rewrite norm_lat by lra. pose proof (IZR_lt _ _ g_pos) as Gp. pose proof (IZR_lt _ _ N_pos) as Np.
  assert (Q : IZR ((- k * B) ^ 2 + (k * A) ^ 2 + - k * B * (k * A)) = 3 * IZR N * (IZR k / IZR g)²).
  { unfold Rsqr. apply (Rmult_eq_reg_r (IZR g * IZR g)); [|nra]. replace (3 * IZR N * (IZR k / IZR g * (IZR k / IZR g)) * (IZR g * IZR g)) with (3 * IZR N * (IZR k * IZR k)) by (field; lra).
    rewrite <- !mult_IZR. apply f_equal. replace (3 * N * (k * k))%Z with (k * k * ((2 * m + n) ^ 2 + (2 * n + m) ^ 2 - (2 * m + n) * (2 * n + m)))%Z by (unfold N; ring). rewrite EA, EB. ring. }
  rewrite Q, sqrt_mult by (try apply Rle_0_sqr; nra). rewrite sqrt_Rsqr_abs. rewrite sqrt_mult by lra. unfold Rdiv at 1. rewrite Rabs_mult, (Rabs_pos_eq (/ IZR g)) by (left; apply Rinv_0_lt_compat; lra).
  replace (sqrt 3 * Rb * (sqrt 3 * sqrt (IZR N) * (Rabs (IZR k) * / IZR g))) with (sqrt 3 * sqrt 3 * Rb * sqrt (IZR N) / IZR g * Rabs (IZR k)) by (field; lra). rewrite sqrt3_sq. reflexivity.
Qed.
Lemma norm_C : vnorm (lat Rb n m) = sqrt 3 * Rb * sqrt (IZR N).
Proof. apply norm_lat. lra. Qed.
Lemma hexagons : exists h : Z, (2 * N = h * g)%Z.
Proof. destruct perp_multiple as (A & B & [EA EB] & _). exists (n * A + m * B)%Z. unfold N. nia. Qed.
Lemma tan_inj x y : atan x = atan y -> x = y.
Proof. intros E. rewrite <- (tan_atan x), <- (tan_atan y), E. reflexivity. Qed.
Lemma nanotube_data_spec : exists t, nanotube_data n m Rb = Some t /\
  t_a t = vnorm (lat_a1 Rb) /\ t_C t = vnorm (lat Rb n m) /\ t_diameter t * PI = t_C t /\ t_radius t * 2 = t_diameter t /\
  (exists p q, vdot (lat Rb p q) (lat Rb n m) = 0 /\ vnorm (lat Rb p q) = t_T t /\ 0 < t_T t) /\
  (forall p q, vdot (lat Rb p q) (lat Rb n m) = 0 -> ~ (p = 0 /\ q = 0)%Z -> t_T t <= vnorm (lat Rb p q)) /\
  IZR (t_hexagons t) * hexagon_area Rb = t_C t * t_T t /\
  (t_metallic t = true <-> exists k, vdot (dirac Rb) (lat Rb n m) = 2 * PI * IZR k) /\ t_semiconducting t = negb (t_metallic t) /\
  0 <= t_angle t <= PI / 3 /\ lat Rb n m = V3 (t_C t * cos (t_angle t)) (t_C t * sin (t_angle t)) 0 /\
  (t_type t = "armchair"%string <-> t_angle t = PI / 6) /\ (t_type t = "zigzag"%string <-> t_angle t = 0 \/ t_angle t = PI / 3).
Proof.
  pose proof g_pos as Gz. pose proof N_pos as Nz. pose proof (IZR_lt _ _ Gz) as Gp. pose proof (IZR_lt _ _ Nz) as Np. pose proof PI_RGT_0 as Pp. pose proof sqrt3_lt2 as Q. pose proof (sqrt_lt_R0 _ Np) as Sp. pose proof sqrt3_sq as S3.
  unfold nanotube_data. rewrite (tube_dR_spec n m Hn Hm H0). fold g. destruct (Z.eqb_spec g 0) as [F|_]; [lia|]. destruct (Z.eqb_spec (m + 2 * n) 0) as [F|_]; [exfalso; apply H0; lia|]. cbn [orb]. cbv zeta. fold N.
  eexists. split; [reflexivity|]. cbn [t_a t_C t_diameter t_radius t_T t_hexagons t_metallic t_semiconducting t_angle t_type].
  assert (Ca : vnorm (lat_a1 Rb) = sqrt 3 * Rb). { unfold vnorm, vdot, lat_a1. cbn [vx vy vz]. replace (_ + 0 * 0 + 0 * 0) with ((sqrt 3 * Rb) * (sqrt 3 * Rb)) by ring. apply sqrt_square. nra. }
  assert (EC : sqrt 3 * Rb / PI * sqrt (IZR N) * PI = sqrt 3 * Rb * sqrt (IZR N)) by (field; lra).
  assert (ND : 0 < IZR (m + 2 * n)) by (apply IZR_lt; lia).
  set (x := sqrt 3 * IZR m / IZR (m + 2 * n)).
  assert (Mp : 0 <= IZR m) by (apply IZR_le; lia). assert (Np' : 0 <= IZR n) by (apply IZR_le; lia).
  assert (x0 : 0 <= x). { unfold x. apply Rmult_le_pos; [nra|]. left. apply Rinv_0_lt_compat. exact ND. }
  assert (xd : x * IZR (m + 2 * n) = sqrt 3 * IZR m) by (unfold x; field; lra).
  assert (xle : x <= sqrt 3). { apply (Rmult_le_reg_r (IZR (m + 2 * n))); [exact ND|]. rewrite xd. apply Rmult_le_compat_l; [lra|]. apply IZR_le. lia. }
  assert (A3 : atan (sqrt 3) = PI / 3). { rewrite <- tan_PI3. apply atan_tan. lra. }
  assert (A6 : atan (/ sqrt 3) = PI / 6). { replace (/ sqrt 3) with (tan (PI / 6)) by (rewrite tan_PI6; field; lra). apply atan_tan. lra. }
  assert (A0 : atan 0 = 0) by apply atan_0.
  assert (sq : sqrt (1 + x²) = 2 * sqrt (IZR N) / IZR (m + 2 * n)).
  { replace (1 + x²) with ((2 * sqrt (IZR N) / IZR (m + 2 * n))²). { rewrite sqrt_Rsqr; [reflexivity|]. apply Rmult_le_pos; [lra|]. left. apply Rinv_0_lt_compat. exact ND. }
    unfold Rsqr, x. apply (Rmult_eq_reg_r (IZR (m + 2 * n) * IZR (m + 2 * n))); [|nra].
    replace (2 * sqrt (IZR N) / IZR (m + 2 * n) * (2 * sqrt (IZR N) / IZR (m + 2 * n)) * (IZR (m + 2 * n) * IZR (m + 2 * n))) with (4 * (sqrt (IZR N) * sqrt (IZR N))) by (field; lra).
    rewrite sqrt_sqrt by lra.
    replace ((1 + sqrt 3 * IZR m / IZR (m + 2 * n) * (sqrt 3 * IZR m / IZR (m + 2 * n))) * (IZR (m + 2 * n) * IZR (m + 2 * n))) with (IZR (m + 2 * n) * IZR (m + 2 * n) + (sqrt 3 * sqrt 3) * (IZR m * IZR m)) by (field; lra).
    rewrite S3. rewrite <- !mult_IZR, <- plus_IZR. apply f_equal. unfold N. ring. }
  split; [symmetry; exact Ca|]. split; [rewrite norm_C; exact EC|]. split; [reflexivity|]. split; [field; lra|].
  destruct perp_multiple as (A & B & [EA EB] & M).
  split.
  { exists (- (1) * B)%Z, (1 * A)%Z. split; [|split].
    - apply perp. rewrite EA, EB. ring.
    - rewrite (tube_T _ _ 1 A B EA EB eq_refl eq_refl), Rabs_R1. ring.
    - apply Rmult_lt_0_compat; [nra|]. apply Rinv_0_lt_compat. exact Gp. }
  split.
  { intros p q E Hpq. apply perp in E. destruct (M p q E) as (k & Ep & Eq). rewrite (tube_T p q k A B EA EB Ep Eq).
    assert (k <> 0)%Z by (intros ->; apply Hpq; lia). assert (1 <= Rabs (IZR k)) by (rewrite <- abs_IZR; apply IZR_le; lia).
    assert (0 < 3 * Rb * sqrt (IZR N) / IZR g). { apply Rmult_lt_0_compat; [nra|]. apply Rinv_0_lt_compat. exact Gp. } nra. }
  split.
  { destruct hexagons as [h Eh]. assert (Hh : 2 * IZR N / IZR g = IZR h). { rewrite <- mult_IZR, Eh, mult_IZR. field. lra. }
    rewrite Hh, pyround_IZR, <- Hh, EC. unfold hexagon_area. replace (sqrt 3 * Rb * sqrt (IZR N) * (3 * Rb * sqrt (IZR N) / IZR g)) with (3 * sqrt 3 * Rb ^ 2 * (sqrt (IZR N) * sqrt (IZR N)) / IZR g) by (field; lra). rewrite sqrt_sqrt by lra. field. lra. }
  split.
  { rewrite Z.eqb_eq. assert (D : vdot (dirac Rb) (lat Rb n m) = 2 * PI * (IZR (2 * n + m) / 3)).
    { unfold vdot, dirac, lat, lat_a1, lat_a2, vadd, vscale. cbn [vx vy vz]. rewrite plus_IZR, mult_IZR. field. lra. }
    rewrite D. split.
    - intros E. apply Z.mod_divide in E; [|lia]. destruct E as [k E]. exists (n - k)%Z. f_equal. replace (2 * n + m)%Z with (3 * (n - k))%Z by lia. rewrite mult_IZR. field.
    - intros [k E]. apply Rmult_eq_reg_l in E; [|lra]. assert (E' : IZR (2 * n + m) = IZR (3 * k)) by (rewrite mult_IZR; lra). apply eq_IZR in E'. apply Z.mod_divide; [lia|]. exists (n - k)%Z. lia. }
  split; [reflexivity|].
  split.
  { split; [rewrite <- A0|rewrite <- A3].
    - destruct (Req_dec 0 x) as [E|E]; [rewrite <- E; lra|]. left. apply atan_increasing. lra.
    - destruct (Req_dec x (sqrt 3)) as [E|E]; [rewrite <- E; lra|]. left. apply atan_increasing. lra. }
  split.
  { rewrite EC, cos_atan, sin_atan, sq. apply v3_eq; unfold lat, lat_a1, lat_a2, vadd, vscale; cbn [vx vy vz].
    - rewrite plus_IZR, mult_IZR. rewrite plus_IZR, mult_IZR in ND. field. split; lra.
    - unfold x. replace (sqrt 3 * Rb * sqrt (IZR N) * (sqrt 3 * IZR m / IZR (m + 2 * n) / (2 * sqrt (IZR N) / IZR (m + 2 * n)))) with ((sqrt 3 * sqrt 3) * Rb * IZR m / 2) by (field; lra). rewrite S3. field.
    - ring. }
  assert (X6 : x = / sqrt 3 <-> n = m).
  { split.
    - intros E. assert (K : IZR (m + 2 * n) = 3 * IZR m). { apply (Rmult_eq_reg_l (/ sqrt 3)); [|apply Rgt_not_eq, Rinv_0_lt_compat; lra]. rewrite <- E at 1. rewrite xd. replace (/ sqrt 3 * (3 * IZR m)) with (/ sqrt 3 * (sqrt 3 * sqrt 3) * IZR m) by (rewrite S3; ring). field. lra. }
      rewrite <- mult_IZR in K. apply eq_IZR in K. lia.
    - intros ->. unfold x. assert (0 < IZR m) by (apply IZR_lt; lia). replace (IZR (m + 2 * m)) with (sqrt 3 * sqrt 3 * IZR m) by (rewrite S3, <- mult_IZR; apply f_equal; ring). field. lra. }
  assert (X0 : x = 0 <-> m = 0%Z).
  { split; [intros E; rewrite E, Rmult_0_l in xd; apply eq_IZR; symmetry in xd; apply Rmult_integral in xd; destruct xd; [lra|assumption]|intros E; unfold x; rewrite E; unfold Rdiv; ring]. }
  assert (X3 : x = sqrt 3 <-> n = 0%Z).
  { split.
    - intros E. rewrite E in xd. apply Rmult_eq_reg_l in xd; [|lra]. apply eq_IZR in xd. lia.
    - intros E. unfold x. replace (m + 2 * n)%Z with m by lia. assert (0 < IZR m) by (apply IZR_lt; lia). field. lra. }
  assert (T6 : atan x = PI / 6 <-> n = m). { rewrite <- A6, <- X6. split; [apply tan_inj|intros ->; reflexivity]. }
  assert (T0 : atan x = 0 <-> m = 0%Z). { rewrite <- X0, <- A0 at 1. split; [apply tan_inj|intros ->; reflexivity]. }
  assert (T3 : atan x = PI / 3 <-> n = 0%Z). { rewrite <- A3, <- X3. split; [apply tan_inj|intros ->; reflexivity]. }
  rewrite T6, T0, T3. destruct (Z.eqb_spec n m) as [E|E].
  - split; [tauto|]. split; [discriminate|]. intros [K|K]; exfalso; apply H0; lia.
  - destruct (Z.eqb_spec n 0) as [E0|E0], (Z.eqb_spec m 0) as [E1|E1]; cbn [orb]; (split; split; [discriminate|intros; exfalso; lia|try discriminate; try tauto|try tauto; try lia]).
Qed.
End Data.
Lemma nanotube_data_zero Rb : nanotube_data 0 0 Rb = None.
Proof. reflexivity. Qed.
