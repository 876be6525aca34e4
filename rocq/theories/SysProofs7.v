From Coq Require Import FinFun Reals ZArith Znumtheory String List Bool Arith Lia Lra Psatz.
From Verif Require Import GeomModel GeomProofs GeomProofs2 UtilModel UtilProofs SysModel SysSpec SysProofs SysProofs2 SysProofs3 SysProofs4 SysProofs5 SysProofs6.
Import ListNotations.
Open Scope R_scope.

Section Crystal.
Variables (n m : nat) (Rb : R) (len : nat).
Hypothesis HR : 0 < Rb.
Hypothesis Hnm : (1 <= n + m)%nat.
Hypothesis Hlen : (1 <= len)%nat.
Let L := LT n m Rb.
Definition nt_atoms : list v3 := AT n m Rb ++ flat_map (fun i => translate (V3 0 0 ((INR i + 1) * LT n m Rb)) (AT n m Rb)) (seq 0 (len - 1)).
Definition nt_per : v3 := V3 0 0 (INR len * LT n m Rb).
Definition nt_o : v3 := pt (nt_a1 Rb) (nt_a2 Rb) (97 / 300) (97 / 300).
Lemma in_atoms q : In q nt_atoms <-> exists q0 (k : Z), In q0 (AT n m Rb) /\ (0 <= k < Z.of_nat len)%Z /\ q = vadd q0 (V3 0 0 (IZR k * L)).
Proof.
  unfold nt_atoms. rewrite in_app_iff, in_flat_map. split.
  - intros [H|(i & Hi & H)].
    + exists q, 0%Z. split; [exact H|]. split; [lia|]. apply v3_eq; unfold vadd; cbn [vx vy vz]; ring.
    + apply in_seq in Hi. unfold translate in H. apply in_map_iff in H. destruct H as (q0 & <- & H). exists q0, (Z.of_nat i + 1)%Z. split; [exact H|]. split; [lia|]. rewrite plus_IZR, <- INR_IZR_INZ. reflexivity.
  - intros (q0 & k & H & Hk & ->). destruct (Z.eq_dec k 0) as [->|K0].
    + left. replace (vadd q0 (V3 0 0 (0 * L))) with q0 by (apply v3_eq; unfold vadd; cbn [vx vy vz]; ring). exact H.
    + right. exists (Z.to_nat (k - 1)). split; [apply in_seq; lia|]. unfold translate. apply in_map_iff. exists q0. split; [|exact H]. do 2 f_equal. unfold L. f_equal. rewrite INR_IZR_INZ, Z2Nat.id by lia. rewrite minus_IZR. ring.
Qed.
Lemma up_up q (a b : R) : vadd (vadd q (V3 0 0 a)) (V3 0 0 b) = vadd q (V3 0 0 (a + b)).
Proof. apply v3_eq; unfold vadd; cbn [vx vy vz]; ring. Qed.
Lemma nt_crystal p : crystal1 nt_per nt_atoms p <-> exists q0 (k : Z), In q0 (AT n m Rb) /\ p = vadd q0 (V3 0 0 (IZR k * L)).
Proof.
  unfold crystal1. split.
  - intros (q & j & Hq & ->). apply in_atoms in Hq. destruct Hq as (q0 & k & H & _ & ->). exists q0, (k + j * Z.of_nat len)%Z. split; [exact H|].
    unfold nt_per. fold L. replace (vscale (IZR j) (V3 0 0 (INR len * L))) with (V3 0 0 (IZR j * (INR len * L))) by (apply v3_eq; unfold vscale; cbn [vx vy vz]; ring). rewrite up_up. do 2 f_equal. rewrite plus_IZR, mult_IZR, <- INR_IZR_INZ. ring.
  - intros (q0 & k & H & ->). destruct (split_index k len Hlen) as (i & j & Hi & E). exists (vadd q0 (V3 0 0 (IZR (Z.of_nat i) * L))), j. split; [apply in_atoms; exists q0, (Z.of_nat i); split; [exact H|]; split; [lia|reflexivity]|].
    unfold nt_per. fold L. replace (vscale (IZR j) (V3 0 0 (INR len * L))) with (V3 0 0 (IZR j * (INR len * L))) by (apply v3_eq; unfold vscale; cbn [vx vy vz]; ring). rewrite up_up. do 2 f_equal. rewrite E, plus_IZR, mult_IZR, <- !INR_IZR_INZ. ring.
Qed.
Lemma nt_site P Q b : wrap (chiral_vector (nt_a1 Rb) (nt_a2 Rb) n m) (hex_site (nt_a1 Rb) (nt_a2 Rb) nt_o P Q b) = elem n m Rb (IZR P + bt b) (IZR Q + bt b).
Proof. unfold elem, nt_o. rewrite site_pt. do 2 f_equal; rewrite bt_third; ring. Qed.
Lemma nt_distinct : distinct1 nt_per nt_atoms.
Proof.
  destruct (nt_AB n m Hnm) as (A & B & EA & EB). pose proof (place n m Rb HR Hnm A B EA EB) as PL.
  assert (U : forall q0 q1 k k', In q0 (AT n m Rb) -> In q1 (AT n m Rb) -> vadd q0 (V3 0 0 (IZR k * L)) = vadd q1 (V3 0 0 (IZR k' * L)) -> q0 = q1 /\ k = k').
  { intros q0 q1 k k' H0 H1 E. apply (in_AT _ _ _ Hnm) in H0, H1. destruct H0 as (P & Q & b & _ & _ & F & ->), H1 as (P' & Q' & b' & _ & _ & F' & ->). destruct (PL _ _ _ _ _ _ _ _ F F' E) as (-> & -> & -> & ->). auto. }
  split.
  - unfold nt_atoms. assert (G : AT n m Rb ++ flat_map (fun i => translate (V3 0 0 ((INR i + 1) * LT n m Rb)) (AT n m Rb)) (seq 0 (len - 1)) = flat_map (fun i => map (fun q => vadd q (V3 0 0 (IZR (Z.of_nat i) * L))) (AT n m Rb)) (seq 0 len)).
    { replace len with (S (len - 1)) at 2 by lia. cbn [seq flat_map]. f_equal.
      - rewrite <- (map_id (AT n m Rb)) at 1. apply map_ext. intros q. apply v3_eq; unfold vadd; cbn [vx vy vz Z.of_nat]; ring.
      - rewrite <- seq_shift, (flat_map_concat_map _ (map S _)), map_map, <- flat_map_concat_map. apply flat_map_ext'. intros i _. unfold translate. apply map_ext. intros q. do 2 f_equal. unfold L. rewrite <- INR_IZR_INZ, S_INR. reflexivity. }
    rewrite G. apply NoDup_flat_map; [apply seq_NoDup| |].
    + intros i _. apply NoDup_map_in; [|apply AT_nodup; assumption]. intros a b Ha Hb E. apply (U a b _ _ Ha Hb E).
    + intros a b x _ _ K K'. apply in_map_iff in K, K'. destruct K as (q & <- & K), K' as (q' & E & K'). destruct (U _ _ _ _ K' K E) as [_ E']. lia.
  - intros q1 q2 j I1 I2 E. apply in_atoms in I1, I2. destruct I1 as (a & k & Ha & Hk & ->), I2 as (b & k' & Hb & Hk' & ->).
    unfold nt_per in E. fold L in E. replace (vscale (IZR j) (V3 0 0 (INR len * L))) with (V3 0 0 (IZR (j * Z.of_nat len) * L)) in E by (apply v3_eq; unfold vscale; cbn [vx vy vz]; rewrite ?mult_IZR, <- ?INR_IZR_INZ; ring).
    rewrite up_up in E. replace (IZR k' * L + IZR (j * Z.of_nat len) * L) with (IZR (k' + j * Z.of_nat len) * L) in E by (rewrite plus_IZR; ring). destruct (U _ _ _ _ Ha Hb E) as [-> E']. assert (j = 0)%Z by nia. subst j. replace (k' + 0 * Z.of_nat len)%Z with k' in E' by lia. rewrite E'. reflexivity.
Qed.
(** atoms are at sites *)
Lemma nt_sound p : crystal1 nt_per nt_atoms p -> tube_site (nt_a1 Rb) (nt_a2 Rb) nt_o n m p.
Proof.
  intros Hp. destruct (nt_AB n m Hnm) as (A & B & EA & EB). apply nt_crystal in Hp. destruct Hp as (q0 & k & H & ->). apply (in_AT _ _ _ Hnm) in H. destruct H as (P & Q & b & _ & _ & F & ->).
  unfold L. rewrite (elem_up n m Rb HR Hnm A B EA EB). exists (P - k * B)%Z, (Q + k * A)%Z, b. rewrite nt_site. f_equal; rewrite ?minus_IZR, ?plus_IZR, mult_IZR; ring.
Qed.
Lemma nt_o_z : vz nt_o = 0.
Proof. apply (pt_z Rb _ _ (nt_basis Rb)). Qed.
(** in small tubes all sites have an atom *)
Hypothesis Hsmall : (n * n + n * m + m * m <= 166)%nat.
Lemma steps_below (J : Z) N : (0 < N <= 166)%Z -> IZR J / IZR (600 * N) < 1 -> IZR J / IZR (600 * N) < 1 - / 100000.
Proof.
  intros HN H. assert (P : 0 < IZR (600 * N)) by (apply IZR_lt; lia). assert (J <= 600 * N - 1)%Z.
  { assert (IZR J < IZR (600 * N)) by (apply (Rmult_lt_reg_r (/ IZR (600 * N))); [apply Rinv_0_lt_compat; exact P|]; unfold Rdiv in H; rewrite Rinv_r by lra; exact H). apply lt_IZR in H0. lia. }
  apply (Rmult_lt_reg_r (IZR (600 * N))); [exact P|]. replace (IZR J / IZR (600 * N) * IZR (600 * N)) with (IZR J) by (field; lra).
  apply IZR_le in H0. rewrite minus_IZR in H0. assert (IZR (600 * N) <= 99600). { change 99600 with (IZR 99600). apply IZR_le. lia. } lra.
Qed.
Lemma nt_complete p : tube_site (nt_a1 Rb) (nt_a2 Rb) nt_o n m p -> crystal1 nt_per nt_atoms p.
Proof.
  intros (P & Q & b & ->). rewrite nt_site. apply nt_crystal. destruct (nt_AB n m Hnm) as (A & B & EA & EB). pose proof (nr_pos n m Hnm) as Np. pose proof (IZR_lt _ _ (ng_pos n m Hnm)) as gp.
  set (x := IZR P + bt b). set (y := IZR Q + bt b). set (ka := Int_part (sA n m x y)). set (kc := Int_part (sC n m x y)).
  destruct (base_Int_part (sA n m x y)) as [Fa1 Fa2]. destruct (base_Int_part (sC n m x y)) as [Fc1 Fc2]. fold ka in Fa1, Fa2. fold kc in Fc1, Fc2.
  set (P' := (P - kc * Z.of_nat n + ka * B)%Z). set (Q' := (Q - kc * Z.of_nat m - ka * A)%Z).
  set (x' := IZR P' + bt b). set (y' := IZR Q' + bt b).
  assert (Ex : x' = (x + - IZR kc * INR n) - - IZR ka * IZR B) by (unfold x', x, P'; rewrite plus_IZR, minus_IZR, !mult_IZR, <- INR_IZR_INZ; ring).
  assert (Ey : y' = (y + - IZR kc * INR m) + - IZR ka * IZR A) by (unfold y', y, Q'; rewrite !minus_IZR, !mult_IZR, <- INR_IZR_INZ; ring).
  assert (Ea : sA n m x' y' = sA n m x y - IZR ka) by (rewrite Ex, Ey, (sA_up n m Hnm A B EA EB), sA_round; ring).
  assert (Ec : sC n m x' y' = sC n m x y - IZR kc) by (rewrite Ex, Ey, (sC_up n m A B EA EB), (sC_round n m Hnm); ring).
  set (N := (Z.of_nat n * Z.of_nat n + Z.of_nat n * Z.of_nat m + Z.of_nat m * Z.of_nat m)%Z). assert (EN : IZR N = INR n ^ 2 + INR n * INR m + INR m ^ 2) by (unfold N; rewrite !plus_IZR, !mult_IZR, <- !INR_IZR_INZ; ring).
  assert (HN : (0 < N <= 166)%Z) by (split; [apply lt_IZR; rewrite EN; exact Np|unfold N; lia]).
  assert (Bt : exists c : Z, bt b = IZR c / 300) by (destruct b; [exists 197%Z|exists 97%Z]; unfold bt; lra). destruct Bt as [c Bt].
  assert (Ja : sA n m x' y' = IZR (((300 * Q' + c) * Z.of_nat n - (300 * P' + c) * Z.of_nat m) * ng n m) / IZR (600 * N)).
  { unfold sA, x', y'. rewrite <- EN, Bt. assert (IZR N <> 0) by lra. rewrite (mult_IZR 600), (mult_IZR (_ - _)), minus_IZR, !mult_IZR, !plus_IZR, !mult_IZR, <- !INR_IZR_INZ. field. exact H. }
  assert (Jc : sC n m x' y' = IZR ((300 * P' + c) * (2 * Z.of_nat n + Z.of_nat m) + (300 * Q' + c) * (2 * Z.of_nat m + Z.of_nat n)) / IZR (600 * N)).
  { unfold sC, x', y'. rewrite <- EN, Bt. assert (IZR N <> 0) by lra. rewrite (mult_IZR 600), plus_IZR, !mult_IZR, !plus_IZR, !mult_IZR, <- !INR_IZR_INZ. field. exact H. }
  assert (Sa : 0 <= sA n m x' y' < 1 - / 100000). { split; [lra|]. rewrite Ja. apply steps_below; [exact HN|]. rewrite <- Ja. lra. }
  assert (Sc : 0 <= sC n m x' y' < 1 - / 100000). { split; [lra|]. rewrite Jc. apply steps_below; [exact HN|]. rewrite <- Jc. lra. }
  assert (F : filt n m x' y' = true) by (apply filt_true; split; assumption).
  assert (nb : (n <= 12 /\ m <= 12)%nat) by nia.
  assert (nr : 0 <= INR n <= 12 /\ 0 <= INR m <= 12). { split; (split; [apply pos_INR|]); change 12 with (IZR 12); rewrite INR_IZR_INZ; apply IZR_le; lia. }
  assert (g1 : 1 <= IZR (ng n m)) by (apply IZR_le; pose proof (ng_pos n m Hnm); lia).
  (** coordinates from the fractions *)
  set (sa := sA n m x' y') in *. set (sc := sC n m x' y') in *.
  assert (Xs : x' = INR n * sc - (2 * INR m + INR n) * (sa / IZR (ng n m))) by (unfold sa, sc, sA, sC; field; split; lra).
  assert (Ys : y' = INR m * sc + (2 * INR n + INR m) * (sa / IZR (ng n m))) by (unfold sa, sc, sA, sC; field; split; lra).
  assert (T : 0 <= sa / IZR (ng n m) <= 1). { split; [apply Rmult_le_pos; [lra|left; apply Rinv_0_lt_compat; lra]|]. apply (Rmult_le_reg_r (IZR (ng n m))); [lra|]. replace (sa / IZR (ng n m) * IZR (ng n m)) with sa by (field; lra). lra. }
  set (tt := sa / IZR (ng n m)) in *.
  assert (Bx : -36 <= x' <= 12). { rewrite Xs. assert (0 <= INR n * sc <= 12) by (split; [apply Rmult_le_pos; lra|nra]). assert (0 <= (2 * INR m + INR n) * tt <= 36) by (split; [apply Rmult_le_pos; lra|nra]). lra. }
  assert (By : 0 <= y' <= 48). { rewrite Ys. assert (0 <= INR m * sc <= 12) by (split; [apply Rmult_le_pos; lra|nra]). assert (0 <= (2 * INR n + INR m) * tt <= 36) by (split; [apply Rmult_le_pos; lra|nra]). lra. }
  assert (btb : 0 < bt b < 1) by (destruct b; unfold bt; lra).
  assert (PB : (- 100 <= P' < 100)%Z). { split; [apply le_IZR|apply lt_IZR]; unfold x' in Bx; lra. }
  assert (QB : (- 100 <= Q' < 100)%Z). { split; [apply le_IZR|apply lt_IZR]; unfold y' in By; lra. }
  exists (elem n m Rb x' y'), ka. split.
  - apply (in_AT _ _ _ Hnm). exists P', Q', b. unfold nxy. repeat split; try lia. exact F.
  - unfold L. rewrite (elem_up n m Rb HR Hnm A B EA EB). symmetry. apply (wrap_eq Rb _ _ n m HR (nt_basis Rb) Hnm). exists (- kc)%Z. rewrite opp_IZR, Ex, Ey. split; ring.
Qed.
End Crystal.
Lemma nanotube_spec n m Rb len : 0 < Rb -> (1 <= n + m)%nat -> (1 <= len)%nat -> (n * n + n * m + m * m <= 166)%nat ->
  exists ps Lz, nanotube n m Rb len = Some (ps, Lz) /\ 0 < Lz /\ distinct1 (V3 0 0 Lz) ps /\ is_tube Rb n m (crystal1 (V3 0 0 Lz) ps).
Proof.
  intros HR Hnm Hlen Hs. exists (nt_atoms n m Rb len), (INR len * LT n m Rb). split; [apply nt_unfold; assumption|]. split.
  - apply Rmult_lt_0_compat; [apply lt_0_INR; lia|apply LT_pos; assumption].
  - split; [apply nt_distinct; assumption|]. exists (nt_a1 Rb), (nt_a2 Rb), (nt_o Rb). split; [apply nt_basis|]. split; [apply nt_o_z|]. intros p. split; [apply nt_sound; assumption|apply nt_complete; assumption].
Qed.
(** all sites are distinct and occupied at most once, whatever the size *)
Lemma nanotube_sound n m Rb len : 0 < Rb -> (1 <= n + m)%nat -> (1 <= len)%nat ->
  exists ps Lz, nanotube n m Rb len = Some (ps, Lz) /\ distinct1 (V3 0 0 Lz) ps /\
  exists e1 e2 o, hex_basis Rb e1 e2 /\ vz o = 0 /\ forall p, crystal1 (V3 0 0 Lz) ps p -> tube_site e1 e2 o n m p.
Proof.
  intros HR Hnm Hlen. exists (nt_atoms n m Rb len), (INR len * LT n m Rb). split; [apply nt_unfold; assumption|].
  split; [apply nt_distinct; assumption|]. exists (nt_a1 Rb), (nt_a2 Rb), (nt_o Rb). split; [apply nt_basis|]. split; [apply nt_o_z|]. intros p. apply nt_sound; assumption.
Qed.
Lemma INR_lit (z : Z) (k : nat) : Z.of_nat k = z -> INR k = IZR z.
Proof. intros <-. apply INR_IZR_INZ. Qed.
(** sites just below a full turn are lost *)
Lemma nanotube_margin_refuted Rb len : 0 < Rb -> (1 <= len)%nat ->
  exists ps Lz, nanotube 34 33 Rb len = Some (ps, Lz) /\ tube_with_holes Rb 34 33 (crystal1 (V3 0 0 Lz) ps).
Proof.
  intros HR Hlen. assert (Hnm : (1 <= 34 + 33)%nat) by lia. exists (nt_atoms 34 33 Rb len), (INR len * LT 34 33 Rb). split; [apply nt_unfold; assumption|].
  exists (nt_a1 Rb), (nt_a2 Rb), (nt_o Rb). split; [apply nt_basis|]. split; [apply nt_o_z|]. split; [intros p; apply nt_sound; assumption|].
  exists (elem 34 33 Rb (IZR (-65) + bt false) (IZR 65 + bt false)). split; [exists (-65)%Z, 65%Z, false; symmetry; apply nt_site|].
  intros H. apply (nt_crystal 34 33 Rb len Hnm Hlen) in H. destruct H as (q0 & k & H & E). apply (in_AT _ _ _ Hnm) in H. destruct H as (P & Q & b & _ & _ & F & ->). apply filt_true in F.
  destruct (nt_AB 34 33 Hnm) as (A & B & EA & EB). rewrite (elem_up 34 33 Rb HR Hnm A B EA EB) in E. apply (wrap_eq Rb _ _ 34 33 HR (nt_basis Rb) Hnm) in E. destruct E as (j & E1 & E2).
  assert (S : sC 34 33 (IZR (-65) + bt false) (IZR 65 + bt false) = sC 34 33 (IZR P + bt b) (IZR Q + bt b) + IZR j) by (rewrite E1, E2, (sC_round 34 33 Hnm), (sC_up 34 33 A B EA EB); reflexivity).
  assert (V : sC 34 33 (IZR (-65) + bt false) (IZR 65 + bt false) = - (1 / 100) / 6734). { unfold sC, bt. rewrite (INR_lit 34 34 eq_refl), (INR_lit 33 33 eq_refl). field. }
  rewrite V in S. destruct F as [_ [F1 F2]]. assert (C1 : (-1 < j < 0)%Z). { split; apply lt_IZR; lra. } lia.
Qed.
(** sites outside the range of indices are lost *)
Lemma nanotube_range_refuted Rb len : 0 < Rb -> (1 <= len)%nat ->
  exists ps Lz, nanotube 60 59 Rb len = Some (ps, Lz) /\ tube_with_holes Rb 60 59 (crystal1 (V3 0 0 Lz) ps).
Proof.
  intros HR Hlen. assert (Hnm : (1 <= 60 + 59)%nat) by lia. exists (nt_atoms 60 59 Rb len), (INR len * LT 60 59 Rb). split; [apply nt_unfold; assumption|].
  exists (nt_a1 Rb), (nt_a2 Rb), (nt_o Rb). split; [apply nt_basis|]. split; [apply nt_o_z|]. split; [intros p; apply nt_sound; assumption|].
  exists (elem 60 59 Rb (IZR (-165) + bt false) (IZR 166 + bt false)). split; [exists (-165)%Z, 166%Z, false; symmetry; apply nt_site|].
  intros H. apply (nt_crystal 60 59 Rb len Hnm Hlen) in H. destruct H as (q0 & k & H & E). apply (in_AT _ _ _ Hnm) in H. destruct H as (P & Q & b & HP & _ & F & ->).
  assert (G1 : ng 60 59 = 1%Z) by reflexivity.
  assert (F0 : filt 60 59 (IZR (-165) + bt false) (IZR 166 + bt false) = true).
  { apply filt_true. unfold sA, sC, bt. rewrite G1, (INR_lit 60 60 eq_refl), (INR_lit 59 59 eq_refl). lra. }
  destruct (nt_AB 60 59 Hnm) as (A & B & EA & EB). rewrite (elem_0 60 59 Rb (IZR (-165) + bt false)) in E.
  destruct (place 60 59 Rb HR Hnm A B EA EB _ _ _ _ _ _ _ _ F0 F E) as (EP & _). subst P. unfold nxy in HP. lia.
Qed.
(** ** lengths and data *)
Lemma sqrt_N n m : sqrt (IZR (Z.of_nat n ^ 2 + Z.of_nat m ^ 2 + Z.of_nat n * Z.of_nat m)) = sqrt (INR n ^ 2 + INR n * INR m + INR m ^ 2).
Proof. f_equal. rewrite !plus_IZR, !Z.pow_2_r, !mult_IZR, <- !INR_IZR_INZ. ring. Qed.
Lemma nanotube_length n m Rb len ps Lz t : 0 < Rb -> (1 <= n + m)%nat -> nanotube n m Rb len = Some (ps, Lz) -> nanotube_data (Z.of_nat n) (Z.of_nat m) Rb = Some t ->
  Lz = INR len * t_T t /\ (forall q, In q ps -> (vx q) ^ 2 + (vy q) ^ 2 = t_radius t ^ 2).
Proof.
  intros HR Hnm H1 H2. rewrite (nt_unfold n m Rb HR Hnm len) in H1. assert (E1 : Lz = INR len * LT n m Rb) by congruence. assert (E2 : ps = nt_atoms n m Rb len) by (unfold nt_atoms; congruence).
  unfold nanotube_data in H2. rewrite tube_dR_spec in H2 by lia. destruct (_ || _); [discriminate|]. cbv zeta in H2.
  assert (ET : t_T t = LT n m Rb). { unfold LT. rewrite <- sqrt_N. unfold ng. assert (K := f_equal (fun o => match o with Some u => t_T u | None => 0 end) H2). cbn [t_T] in K. symmetry. exact K. }
  assert (ER : t_radius t = sqrt 3 * Rb / PI * sqrt (INR n ^ 2 + INR n * INR m + INR m ^ 2) / 2). { rewrite <- sqrt_N. assert (K := f_equal (fun o => match o with Some u => t_radius u | None => 0 end) H2). cbn [t_radius] in K. symmetry. exact K. }
  split; [rewrite ET; exact E1|]. intros q Hq. rewrite E2 in Hq. pose proof PI_RGT_0 as Pp.
  assert (G : forall q0, In q0 (AT n m Rb) -> (vx q0) ^ 2 + (vy q0) ^ 2 = t_radius t ^ 2).
  { intros q0 H. apply (in_AT _ _ _ Hnm) in H. destruct H as (P & Q & b & _ & _ & _ & ->). unfold elem. rewrite (wrap_pt Rb _ _ n m HR (nt_basis Rb) Hnm). cbn [vx vy]. rewrite (norm_c n m Rb HR Hnm). rewrite ER.
    match goal with |- (?r * cos ?a) ^ 2 + (?r * sin ?a) ^ 2 = _ => pose proof (sin2_cos2 a) as S; unfold Rsqr in S; replace ((r * cos a) ^ 2 + (r * sin a) ^ 2) with (r ^ 2 * (sin a * sin a + cos a * cos a)) by ring; rewrite S end. field. lra. }
  unfold nt_atoms in Hq. apply in_app_iff in Hq. destruct Hq as [Hq|Hq]; [apply G; exact Hq|]. apply in_flat_map in Hq. destruct Hq as (i & _ & Hq). unfold translate in Hq. apply in_map_iff in Hq. destruct Hq as (q0 & <- & Hq).
  unfold vadd. cbn [vx vy]. rewrite !Rplus_0_r. apply G. exact Hq.
Qed.
Lemma attached_refuted n m Rb len : 0 < Rb -> (1 <= n + m)%nat -> (1 <= len)%nat -> Rb <> 142 / 100 ->
  exists ps Lz t, nanotube n m Rb len = Some (ps, Lz) /\ nanotube_attached n m Rb = Some t /\ Lz <> INR len * t_T t.
Proof.
  intros HR Hnm Hlen Hne. unfold nanotube_attached. destruct (nanotube_data_spec (Z.of_nat n) (Z.of_nat m) (142 / 100)) as (t & E & _); try lia; try lra.
  exists (nt_atoms n m Rb len), (INR len * LT n m Rb), t. split; [apply nt_unfold; assumption|]. split; [exact E|]. assert (R0 : 0 < 142 / 100) by lra.
  destruct (nanotube_length n m (142 / 100) len _ _ t R0 Hnm (nt_unfold n m (142 / 100) R0 Hnm len) E) as [K _]. rewrite <- K. unfold LT. intros F.
  pose proof (IZR_lt _ _ (ng_pos n m Hnm)) as gp. pose proof (sqrt_lt_R0 _ (nr_pos n m Hnm)) as sp. assert (lp : 0 < INR len) by (apply lt_0_INR; lia).
  apply Hne. apply (Rmult_eq_reg_l (INR len * (3 * sqrt (INR n ^ 2 + INR n * INR m + INR m ^ 2) / IZR (ng n m)))); [unfold Rdiv in *; lra|]. apply Rgt_not_eq. apply Rmult_lt_0_compat; [exact lp|]. apply Rmult_lt_0_compat; [lra|apply Rinv_0_lt_compat; exact gp].
Qed.
(** ** CNT_list *)
Definition cnt_d (n m : Z) : R := match nanotube_data n m (142 / 100) with Some t => t_diameter t | None => 0 end.
Fixpoint cnt_row (n : Z) (k : nat) (m : Z) : list (Z * Z) :=
  match k with O => [] | S k => if ltb (cnt_d n m) 2 then [] else (n, m) :: cnt_row n k (m + 1)%Z end.
Lemma cnt_tubes_eq : cnt_tubes = flat_map (fun n => cnt_row (Z.of_nat n) (Z.to_nat (Z.of_nat n + 1)) 0) (seq 1 19).
Proof. reflexivity. Qed.
Lemma cnt_d_eq n m : (1 <= n)%Z -> (0 <= m)%Z -> cnt_d n m = sqrt 3 * (142 / 100) / PI * sqrt (IZR (n ^ 2 + m ^ 2 + n * m)).
Proof.
  intros Hn Hm. unfold cnt_d, nanotube_data. rewrite tube_dR_spec by lia. pose proof (g_pos n m ltac:(lia) ltac:(lia) ltac:(lia)) as G.
  destruct (Z.eqb_spec (Z.gcd (2 * n + m) (2 * m + n)) 0); [lia|]. destruct (Z.eqb_spec (m + 2 * n) 0); [lia|]. reflexivity.
Qed.
Lemma sqrt_sq_le a b : 0 <= a -> 0 <= b -> a <= b * b -> sqrt a <= b.
Proof. intros Ha Hb H. rewrite <- (sqrt_square b Hb). apply sqrt_le_1; nra. Qed.
Lemma sq_sqrt_le a b : 0 <= a -> 0 <= b -> b * b <= a -> b <= sqrt a.
Proof. intros Ha Hb H. rewrite <- (sqrt_square b Hb). apply sqrt_le_1; nra. Qed.
Lemma PI_bounds : 3 < PI < 3468 / 1000.
Proof.
  pose proof PI2_3_2. split; [lra|]. pose proof (Alt_PI_ineq 1) as [_ A]. rewrite Alt_PI_eq in A. unfold tg_alt, PI_tg in A. cbn in A. lra.
Qed.
Lemma sqrt3_bounds : 173 / 100 < sqrt 3 < 174 / 100.
Proof. split; [apply Rsqr_incrst_0|apply Rsqr_incrst_0]; rewrite ?Rsqr_sqrt by lra; unfold Rsqr; try lra; apply sqrt_pos. Qed.
Lemma cnt_thin n m k : (1 <= n)%Z -> (0 <= m)%Z -> (n ^ 2 + m ^ 2 + n * m <= k * k)%Z -> (0 <= k <= 2)%Z -> cnt_d n m < 2.
Proof.
  intros Hn Hm HN Hk. rewrite cnt_d_eq by lia. pose proof PI_bounds as [P1 P2]. pose proof sqrt3_bounds as [S1 S2].
  assert (Sq : sqrt (IZR (n ^ 2 + m ^ 2 + n * m)) <= 2). { apply (Rle_trans _ (IZR k)); [|apply IZR_le; lia]. apply sqrt_sq_le; [apply IZR_le; nia|apply IZR_le; lia|]. rewrite <- mult_IZR. apply IZR_le. exact HN. }
  pose proof (sqrt_pos (IZR (n ^ 2 + m ^ 2 + n * m))). apply (Rmult_lt_reg_r PI); [lra|]. replace (sqrt 3 * (142 / 100) / PI * sqrt (IZR (n ^ 2 + m ^ 2 + n * m)) * PI) with (sqrt 3 * (142 / 100) * sqrt (IZR (n ^ 2 + m ^ 2 + n * m))) by (field; lra).
  apply (Rle_lt_trans _ (174 / 100 * (142 / 100) * 2)); [|lra]. apply Rmult_le_compat; try lra.
Qed.
Lemma cnt_wide n m : (1 <= n)%Z -> (0 <= m)%Z -> (9 <= n ^ 2 + m ^ 2 + n * m)%Z -> 2 <= cnt_d n m.
Proof.
  intros Hn Hm HN. rewrite cnt_d_eq by lia. pose proof PI_bounds as [P1 P2]. pose proof sqrt3_bounds as [S1 S2].
  assert (Sq : 3 <= sqrt (IZR (n ^ 2 + m ^ 2 + n * m))). { apply sq_sqrt_le; [apply IZR_le; lia|lra|]. apply IZR_le in HN. lra. }
  apply (Rmult_le_reg_r PI); [lra|]. replace (sqrt 3 * (142 / 100) / PI * sqrt (IZR (n ^ 2 + m ^ 2 + n * m)) * PI) with (sqrt 3 * (142 / 100) * sqrt (IZR (n ^ 2 + m ^ 2 + n * m))) by (field; lra).
  apply (Rle_trans _ (173 / 100 * (142 / 100) * 3)); [lra|]. apply Rmult_le_compat; try lra.
Qed.
Lemma cnt_row_all n k : forall m, (3 <= n)%Z -> (0 <= m)%Z -> forall x y, In (x, y) (cnt_row n k m) <-> x = n /\ (m <= y < m + Z.of_nat k)%Z.
Proof.
  induction k as [|k IH]; intros m Hn Hm x y; cbn [cnt_row].
  - split; [intros []|lia].
  - assert (E : ltb (cnt_d n m) 2 = false) by (apply ltb_false; apply cnt_wide; nia). rewrite E. cbn [In]. rewrite pair_equal_spec, IH by lia. split; [intros [[<- <-]|[-> ?]]; lia|]. intros [-> ?]. destruct (Z.eq_dec y m); [left; lia|right; lia].
Qed.
(** what the list holds: all tubes with 3 <= n <= 19 *)
Lemma cnt_list_spec n m : In (n, m) cnt_tubes <-> (3 <= n <= 19 /\ 0 <= m <= n)%Z.
Proof.
  rewrite cnt_tubes_eq, in_flat_map. split.
  - intros (i & Hi & K). apply in_seq in Hi. destruct (Z_le_dec 3 (Z.of_nat i)) as [L|L].
    + apply cnt_row_all in K; [|exact L|lia]. lia.
    + exfalso. assert (T : ltb (cnt_d (Z.of_nat i) 0) 2 = true) by (apply ltb_true; apply (cnt_thin _ _ 2); nia).
      replace (Z.to_nat (Z.of_nat i + 1)) with (S i) in K by lia. cbn [cnt_row] in K. rewrite T in K. destruct K.
  - intros [Hn Hm]. exists (Z.to_nat n). split; [apply in_seq; lia|]. rewrite Z2Nat.id by lia. apply cnt_row_all; lia.
Qed.
Lemma cnt_list_refuted : ~ (forall n m t, (1 <= n <= 19)%Z -> (0 <= m <= n)%Z -> nanotube_data n m (142 / 100) = Some t -> 2 <= t_diameter t -> In (n, m) cnt_tubes).
Proof.
  intros H. destruct (nanotube_data_spec 2 2 (142 / 100)) as (t & E & _); try lia; try lra.
  assert (W : 2 <= cnt_d 2 2) by (apply cnt_wide; lia). unfold cnt_d in W. rewrite E in W.
  specialize (H 2%Z 2%Z t ltac:(lia) ltac:(lia) E W). apply cnt_list_spec in H. lia.
Qed.
