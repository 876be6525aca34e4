From Coq Require Import FinFun Reals ZArith Znumtheory String List Bool Arith Lia Lra Psatz.
From Verif Require Import GeomModel GeomProofs GeomProofs2 UtilModel UtilProofs SysModel SysSpec SysProofs SysProofs2 SysProofs3 SysProofs4.
Import ListNotations.
Open Scope R_scope.

Lemma third_int (P Q : Z) (b b' : bool) : IZR P + (if b then 1 / 3 else 0) = IZR Q + (if b' then 1 / 3 else 0) -> P = Q /\ b = b'.
Proof.
  intros E. assert (E' : IZR (3 * P + (if b then 1 else 0)) = IZR (3 * Q + (if b' then 1 else 0))) by (rewrite !plus_IZR, !mult_IZR; destruct b, b'; lra).
  apply eq_IZR in E'. destruct b, b'; split; try reflexivity; lia.
Qed.
Lemma NoDup_map_in {A B} (f : A -> B) l : (forall a b, In a l -> In b l -> f a = f b -> a = b) -> NoDup l -> NoDup (map f l).
Proof.
  intros Hf Hn. induction Hn as [|a l Ha Hl IH]; [constructor|]. cbn [map]. constructor.
  - intros K. apply in_map_iff in K. destruct K as (b & E & Hb). apply Hf in E; [|right; exact Hb|left; reflexivity]. subst b. exact (Ha Hb).
  - apply IH. intros x y Hx Hy. apply Hf; right; assumption.
Qed.
(** ** chiral_nanotube *)
Section Chiral.
Variables (n m : nat) (Rb : R).
Hypothesis HR : 0 < Rb.
Hypothesis Hnm : (1 <= n + m)%nat.
Lemma ch_basis : hex_basis Rb (ch_a1 Rb) (ch_a2 Rb).
Proof. pose proof sqrt3_sq as S. unfold hex_basis, ch_a1, ch_a2, vdot. cbn [vx vy vz]. repeat split; try reflexivity; [replace (sqrt 3 * Rb * (sqrt 3 * Rb)) with (sqrt 3 * sqrt 3 * Rb ^ 2) by ring|replace (/ 2 * (sqrt 3 * Rb) * (/ 2 * (sqrt 3 * Rb))) with (/ 4 * (sqrt 3 * sqrt 3) * Rb ^ 2) by field|replace (sqrt 3 * Rb * (/ 2 * (sqrt 3 * Rb))) with (/ 2 * (sqrt 3 * sqrt 3) * Rb ^ 2) by field]; rewrite S; field. Qed.
Let e1 := ch_a1 Rb.
Let e2 := ch_a2 Rb.
Let C := chiral_vector e1 e2 n m.
Let beta (b : bool) := if b then 1 / 3 else 0.
Definition ch_index : list (nat * bool) := flat_map (fun i => [(i, false); (i, true)]) (seq 0 (n + m)).
Lemma ch_positions : fst (fst (chiral_nanotube n m Rb)) = map (fun c => wrap C (pt e1 e2 (INR (fst c) + beta (snd c)) (beta (snd c)))) ch_index.
Proof.
  unfold chiral_nanotube. cbv zeta. cbn [fst]. fold e1 e2. change (vadd (vscale (INR n) e1) (vscale (INR m) e2)) with C.
  assert (Np : 0 < vnorm C) by (apply (norm_C_pos Rb e1 e2 n m HR ch_basis Hnm)). pose proof PI_RGT_0 as Pp.
  assert (NT : vnorm (V3 (vy C) (- vx C) 0) = vnorm C). { unfold vnorm. f_equal. assert (Z : vz C = 0) by (unfold C, chiral_vector, vadd, vscale, e1, e2, ch_a1, ch_a2; cbn [vz]; ring). unfold vdot. cbn [vx vy vz]. rewrite Z. ring. }
  assert (NS : vnorm C ^ 2 = vdot C C) by (rewrite <- Rsqr_pow2; apply Rsqr_sqrt; left; apply (C_sq_pos Rb e1 e2 n m HR ch_basis Hnm)).
  assert (F : forall r, (let phi := vdot r C / vnorm C ^ 2 * 2 * PI in V3 (vnorm C / (2 * PI) * cos phi) (vnorm C / (2 * PI) * sin phi) (vdot r (vscale (/ vnorm (V3 (vy C) (- vx C) 0)) (V3 (vy C) (- vx C) 0)))) = wrap C r).
  { intros r. unfold wrap. cbv zeta. rewrite NS, NT. replace (vdot r C / vdot C C * 2 * PI) with (2 * PI * (vdot r C / vdot C C)) by ring. apply v3_eq; cbn [vx vy vz]; [reflexivity|reflexivity|]. unfold vdot, vscale. cbn [vx vy vz]. unfold Rdiv. ring. }
  rewrite (map_ext _ (wrap C) F).
  rewrite <- (map_map (fun c => pt e1 e2 (INR (fst c) + beta (snd c)) (beta (snd c))) (wrap C)). f_equal. unfold ch_index. rewrite seq_app, flat_map_app, map_app. cbn [Nat.add].
  assert (Sh : forall i, [vscale (INR i) e1; vadd (vscale (INR i) e1) (ch_shift Rb)] = map (fun c => pt e1 e2 (INR (fst c) + beta (snd c)) (beta (snd c))) [(i, false); (i, true)]).
  { intros i. cbn [map fst snd beta]. repeat (apply (f_equal2 (@cons v3)); [unfold e1, e2, ch_a1, ch_a2, ch_shift, pt, vadd, vscale; apply v3_eq; cbn [vx vy vz]; field|]). reflexivity. }
  f_equal.
  - rewrite map_flat_map. apply flat_map_ext'. intros i _. cbv zeta. apply Sh.
  - rewrite map_flat_map. rewrite !flat_map_concat_map. f_equal. replace (seq n m) with (map (fun j => (n + j)%nat) (seq 0 m)). 2:{ clear. revert n. induction m as [|k IH]; intros a; [reflexivity|]. cbn [seq map]. f_equal; [lia|]. rewrite <- seq_shift, map_map. rewrite <- (IH (S a)). apply map_ext. intros; lia. }
    rewrite map_map. apply map_ext. intros j. cbv zeta. rewrite <- (Sh (n + j)%nat). rewrite plus_INR.
    assert (O : vadd (vscale (INR n - 1) e1) (vscale (INR j + 1) e1) = vscale (INR n + INR j) e1) by (apply v3_eq; unfold vadd, vscale; cbn [vx vy vz]; ring). rewrite O. reflexivity.
Qed.
Let h := snd (fst (chiral_nanotube n m Rb)).
Let ang := snd (chiral_nanotube n m Rb).
Lemma ch_step x y (k : Z) : transform Chiral (helix h ang) (wrap C (pt e1 e2 x y)) (0, 0, k)%Z = wrap C (pt e1 e2 (x - IZR k) (y + IZR k)).
Proof.
  assert (Np : 0 < vnorm C) by (apply (norm_C_pos Rb e1 e2 n m HR ch_basis Hnm)). pose proof (nr_pos n m Hnm) as Nz. pose proof PI_RGT_0 as Pp. pose proof sqrt3_lt2 as Q3.
  assert (NT : vnorm (V3 (vy C) (- vx C) 0) = vnorm C). { unfold vnorm. f_equal. assert (Z : vz C = 0) by (unfold C, chiral_vector, vadd, vscale, e1, e2, ch_a1, ch_a2; cbn [vz]; ring). unfold vdot. cbn [vx vy vz]. rewrite Z. ring. }
  assert (NS : vnorm C ^ 2 = vdot C C) by (rewrite <- Rsqr_pow2; apply Rsqr_sqrt; left; apply (C_sq_pos Rb e1 e2 n m HR ch_basis Hnm)).
  assert (S12 : vsub e1 e2 = pt e1 e2 1 (-1)) by (apply v3_eq; unfold vsub, pt, vadd, vscale; cbn [vx vy vz]; ring).
  assert (Ea : ang = 2 * PI * ((-1 * (2 * INR n + INR m) + 1 * (2 * INR m + INR n)) / (2 * (INR n ^ 2 + INR n * INR m + INR m ^ 2)))).
  { unfold ang, chiral_nanotube. cbv zeta. cbn [snd]. fold e1 e2. change (vadd (vscale (INR n) e1) (vscale (INR m) e2)) with C. rewrite NS, S12.
    replace (- vdot (pt e1 e2 1 (-1)) C / vdot C C * 2 * PI) with (2 * PI * - (vdot (pt e1 e2 1 (-1)) C / vdot C C)) by (unfold Rdiv; ring). unfold C. rewrite (pt_turn Rb e1 e2 n m HR ch_basis Hnm). f_equal. field. lra. }
  assert (D0 : vx e1 * vy e2 - vy e1 * vx e2 = - (3 / 2 * sqrt 3 * Rb ^ 2)) by (unfold e1, e2, ch_a1, ch_a2; cbn [vx vy]; field).
  assert (Eh : h = (-1 * INR m - 1 * INR n) * (vx e1 * vy e2 - vy e1 * vx e2) / vnorm C).
  { unfold h, chiral_nanotube. cbv zeta. cbn [fst snd]. fold e1 e2. change (vadd (vscale (INR n) e1) (vscale (INR m) e2)) with C. rewrite NT, S12.
    assert (Ed : vdot (pt e1 e2 1 (-1)) (vscale (/ vnorm C) (V3 (vy C) (- vx C) 0)) = (1 * INR m - -1 * INR n) * (vx e1 * vy e2 - vy e1 * vx e2) / vnorm C).
    { rewrite <- (pt_height e1 e2 n m 1 (-1)). fold C. unfold vdot, vscale. cbn [vx vy vz]. unfold Rdiv. ring. }
    rewrite Ed, D0. rewrite Rabs_left1; [unfold Rdiv; ring|]. pose proof (pos_INR n). pose proof (pos_INR m).
    assert (0 <= (1 * INR m - -1 * INR n) * (3 / 2 * sqrt 3 * Rb ^ 2) / vnorm C); [|unfold Rdiv in *; lra]. apply Rmult_le_pos; [|left; apply Rinv_0_lt_compat; exact Np]. apply Rmult_le_pos; [lra|]. apply Rmult_le_pos; [lra|]. nra. }
  unfold transform, rotation. cbn [o3 snd]. unfold c_angle, c_height, helix. cbn [cell].
  replace (x - IZR k) with (x + - IZR k) by ring. unfold C. rewrite (wrap_add Rb e1 e2 n m HR ch_basis Hnm x y (- IZR k) (IZR k)). f_equal.
  - do 2 f_equal. rewrite Ea. field. lra.
  - f_equal. rewrite Eh. fold C. field. lra.
Qed.
Lemma ch_site P Q b : hex_site e1 e2 vzero P Q b = pt e1 e2 (IZR P + beta b) (IZR Q + beta b).
Proof. pose proof (site_pt e1 e2 0 0 P Q b) as S. replace (pt e1 e2 0 0) with vzero in S. 2:{ apply v3_eq; unfold pt, vadd, vscale, vzero; cbn [vx vy vz]; ring. } rewrite S. unfold beta. f_equal; ring. Qed.
Lemma in_ch_index i b : In (i, b) ch_index <-> (i < n + m)%nat.
Proof.
  unfold ch_index. rewrite in_flat_map. split.
  - intros (j & Hj & K). apply in_seq in Hj. cbn [In] in K. rewrite !pair_equal_spec in K. destruct K as [[<- _]|[[<- _]|[]]]; lia.
  - intros Hi. exists i. split; [apply in_seq; lia|]. cbn [In]. rewrite !pair_equal_spec. destruct b; tauto.
Qed.
Lemma chiral_spec :
  length (fst (fst (chiral_nanotube n m Rb))) = (2 * (n + m))%nat /\ 0 < h /\ is_tube Rb n m (helical h ang (fst (fst (chiral_nanotube n m Rb)))) /\
  NoDup (fst (fst (chiral_nanotube n m Rb))) /\
  (forall q q' k k', In q (fst (fst (chiral_nanotube n m Rb))) -> In q' (fst (fst (chiral_nanotube n m Rb))) ->
     transform Chiral (helix h ang) q (0, 0, k)%Z = transform Chiral (helix h ang) q' (0, 0, k')%Z -> q = q' /\ k = k').
Proof.
  assert (INJ : forall i b i' b' k k', (i < n + m)%nat -> (i' < n + m)%nat ->
    wrap C (pt e1 e2 (INR i + beta b - IZR k) (beta b + IZR k)) = wrap C (pt e1 e2 (INR i' + beta b' - IZR k') (beta b' + IZR k')) -> i = i' /\ b = b' /\ k = k').
  { intros i b i' b' k k' Hi Hi' E. apply (wrap_eq Rb e1 e2 n m HR ch_basis Hnm) in E. destruct E as (j & E1 & E2). rewrite (INR_IZR_INZ i), (INR_IZR_INZ i'), (INR_IZR_INZ n) in E1. rewrite (INR_IZR_INZ m) in E2.
    assert (E2' : IZR k + beta b = IZR (k' + j * Z.of_nat m) + beta b') by (rewrite plus_IZR, mult_IZR; lra). apply third_int in E2'. destruct E2' as [K1 <-].
    assert (E1' : IZR (Z.of_nat i - k) = IZR (Z.of_nat i' - k' + j * Z.of_nat n)) by (rewrite plus_IZR, mult_IZR, !minus_IZR; clear K1 E2; clearbody beta; lra). apply eq_IZR in E1'.
    assert (j = 0)%Z by (clear - E1' K1 Hi Hi'; nia). subst j. repeat split; lia. }
  rewrite ch_positions. split; [|split; [|split; [|split]]].
  - rewrite map_length. unfold ch_index. rewrite (length_flat_map _ 2) by reflexivity. rewrite seq_length. reflexivity.
  - pose proof (ch_step 0 0 1) as S1. pose proof (f_equal vz S1) as S2.
    assert (Np : 0 < vnorm C) by (apply (norm_C_pos Rb e1 e2 n m HR ch_basis Hnm)). unfold transform, rotation in S2. cbn [o3 snd] in S2. unfold c_angle, c_height, helix in S2. cbn [cell] in S2. unfold vadd at 1, mv in S2. cbn [vz] in S2.
    unfold C in S2. rewrite !(wrap_pt Rb e1 e2 n m HR ch_basis Hnm) in S2. unfold vdot, rotz in S2. cbn [row3 vx vy vz] in S2. fold C in S2.
    assert (D0 : vx e1 * vy e2 - vy e1 * vx e2 = - (3 / 2 * sqrt 3 * Rb ^ 2)) by (unfold e1, e2, ch_a1, ch_a2; cbn [vx vy]; field). rewrite D0 in S2.
    assert (Eh : h = (INR n + INR m) * (3 / 2 * sqrt 3 * Rb ^ 2) / vnorm C) by (unfold Rdiv in *; lra). rewrite Eh. pose proof (le_INR _ _ Hnm) as L. rewrite plus_INR in L. cbn [INR] in L. pose proof sqrt3_lt2.
    apply Rmult_lt_0_compat; [|apply Rinv_0_lt_compat; exact Np]. apply Rmult_lt_0_compat; [lra|]. apply Rmult_lt_0_compat; [lra|]. nra.
  - exists e1, e2, vzero. split; [apply ch_basis|]. split; [reflexivity|]. intros p. unfold helical, tube_site. split.
    + intros (q & k & Hq & ->). apply in_map_iff in Hq. destruct Hq as ([i b] & <- & Hq). cbn [fst snd]. rewrite ch_step. exists (Z.of_nat i - k)%Z, k, b. rewrite ch_site. fold C. do 2 f_equal; rewrite ?minus_IZR, ?INR_IZR_INZ; ring.
    + intros (P & Q & b & ->). fold C. rewrite ch_site. destruct (split_index (P + Q) (n + m) Hnm) as (i & j & Hi & E).
      exists (wrap C (pt e1 e2 (INR i + beta b) (beta b))), (Q - j * Z.of_nat m)%Z. split; [apply in_map_iff; exists (i, b); split; [reflexivity|apply in_ch_index; exact Hi]|].
      rewrite ch_step. apply (wrap_eq Rb e1 e2 n m HR ch_basis Hnm). exists j. rewrite (INR_IZR_INZ i), (INR_IZR_INZ n), (INR_IZR_INZ m), minus_IZR, mult_IZR. split; [|ring].
      assert (EP : IZR P = IZR (Z.of_nat i + Z.of_nat (n + m) * j - Q)) by (apply f_equal; lia). rewrite EP, minus_IZR, plus_IZR, mult_IZR, Nat2Z.inj_add, plus_IZR. ring.
  - apply NoDup_map_in. 
    + intros [i b] [i' b'] I I' E. apply in_ch_index in I, I'. cbn [fst snd] in E. destruct (INJ i b i' b' 0%Z 0%Z I I') as (-> & -> & _); [|reflexivity]. rewrite !Rminus_0_r, !Rplus_0_r. exact E.
    + unfold ch_index. apply NoDup_flat_map; [apply seq_NoDup| |].
      * intros i _. constructor; [|constructor; [intros []|constructor]]. intros [K|[]]. discriminate.
      * intros a b [i c] _ _ K L. cbn [In] in K, L. rewrite !pair_equal_spec in K, L. lia.
  - intros q q' k k' Hq Hq' E. apply in_map_iff in Hq, Hq'. destruct Hq as ([i b] & <- & Hq), Hq' as ([i' b'] & <- & Hq'). apply in_ch_index in Hq, Hq'. cbn [fst snd] in *. rewrite !ch_step in E. destruct (INJ i b i' b' k k' Hq Hq' E) as (-> & -> & ->). split; reflexivity.
Qed.
End Chiral.
