From Coq Require Import Reals ZArith Bool Arith Lia Lra.
From Verif Require Import Vec GeomModel GeomProofs PairProofs SkProofs6 SplModel SplSpec SplProofs.
Open Scope R_scope.

(** ** ppow *)
Lemma ppow_0 q : ppow 0 q = 0.
Proof. unfold ppow. destruct Req_EM_T; [reflexivity|lra]. Qed.
Lemma ppow_pos t q : 0 < t -> ppow t q = Rpower t q.
Proof. intros H. unfold ppow. destruct Req_EM_T; [lra|reflexivity]. Qed.
Lemma ppow_gt0 t q : 0 < t -> 0 < ppow t q.
Proof. intros H. rewrite ppow_pos by exact H. apply exp_pos. Qed.
Lemma ppow_lt a b q : 0 < q -> 0 <= a -> a < b -> ppow a q < ppow b q.
Proof.
  intros Hq Ha Hab. destruct (Req_dec a 0) as [->|N].
  - rewrite ppow_0. apply ppow_gt0. lra.
  - rewrite !ppow_pos by lra. unfold Rpower. apply exp_increasing. apply Rmult_lt_compat_l; [exact Hq|]. apply ln_increasing; lra.
Qed.
Lemma ppow_le a b q : 0 < q -> 0 <= a -> a <= b -> ppow a q <= ppow b q.
Proof. intros Hq Ha [L| ->]; [apply Rlt_le, ppow_lt; assumption|lra]. Qed.
Lemma ppow_ge0 t q : 0 <= t -> 0 <= ppow t q.
Proof. intros [L|<-]; [apply Rlt_le, ppow_gt0; exact L|rewrite ppow_0; lra]. Qed.
Lemma ppow_inv t p : 0 < p -> 0 <= t -> ppow (ppow t (1 / p)) p = t.
Proof.
  intros Hp [L|<-]; [|rewrite !ppow_0; reflexivity].
  rewrite (ppow_pos t) by exact L. rewrite ppow_pos by apply exp_pos. rewrite Rpower_mult.
  replace (1 / p * p) with 1 by (field; lra). apply Rpower_1. exact L.
Qed.
Lemma ppow_1 q : ppow 1 q = 1.
Proof. rewrite ppow_pos by lra. unfold Rpower. rewrite ln_1, Rmult_0_r. apply exp_0. Qed.

(** ** The index functions find the interval *)
Lemma floor_nat s n : 0 <= s -> s < INR n -> let k := Z.to_nat (Int_part s) in (k < n)%nat /\ INR k <= s < INR k + 1.
Proof.
  intros H1 H2. cbv zeta. destruct (base_Int_part s) as [A B].
  assert (P : (0 <= Int_part s)%Z).
  { apply Znot_gt_le. intros G. assert (Int_part s <= -1)%Z as L by lia. apply IZR_le in L. lra. }
  assert (E : INR (Z.to_nat (Int_part s)) = IZR (Int_part s)) by (rewrite INR_IZR_INZ, Z2Nat.id by exact P; reflexivity).
  rewrite E. split; [|lra]. apply INR_lt. rewrite E. lra.
Qed.
Lemma lower_index_ok g n x v : described g n x -> (1 < n)%nat -> x 0%nat <= v < x (n - 1)%nat ->
  let k := lower_index g x n v in (S k < n)%nat /\ x k <= v < x (S k).
Proof.
  intros [Hd H] Hn Hv. cbv zeta.
  set (D := x (n - 1)%nat - x 0%nat) in *. set (t := (v - x 0%nat) / D). assert (PD : 0 < D) by (unfold D; lra).
  assert (T : 0 <= t < 1).
  { unfold t. split; [apply Rmult_le_pos; [lra|apply Rlt_le, Rinv_0_lt_compat; exact PD]|]. apply (Rmult_lt_reg_r D); [exact PD|]. unfold Rdiv. rewrite Rmult_assoc, Rinv_l by lra. unfold D. lra. }
  assert (Ev : v = x 0%nat + t * D) by (unfold t; field; lra).
  assert (N : 0 < INR (n - 1)) by (apply lt_0_INR; lia).
  destruct g as [|p].
  - cbn [lower_index]. fold D. fold t.
    destruct (floor_nat (t * INR (n - 1)) (n - 1)) as [K1 K2]; [nra|nra|]. set (k := Z.to_nat (Int_part (t * INR (n - 1)))) in *.
    split; [lia|]. rewrite (H k), (H (S k)) by lia. fold D. rewrite S_INR.
    assert (E1 : INR k / INR (n - 1) * D <= t * D).
    { apply Rmult_le_compat_r; [lra|]. apply (Rmult_le_reg_r (INR (n - 1))); [exact N|]. unfold Rdiv. rewrite Rmult_assoc, Rinv_l by lra. lra. }
    assert (E2 : t * D < (INR k + 1) / INR (n - 1) * D).
    { apply Rmult_lt_compat_r; [lra|]. apply (Rmult_lt_reg_r (INR (n - 1))); [exact N|]. unfold Rdiv. rewrite Rmult_assoc, Rinv_l by lra. lra. }
    lra.
  - destruct H as [Hp H]. cbn [lower_index]. fold D. fold t. set (s := ppow t (1 / p)).
    assert (Q : 0 < 1 / p) by (apply Rdiv_lt_0_compat; lra).
    assert (Hs : 0 <= s < 1).
    { unfold s. split; [apply ppow_ge0; lra|]. pose proof (ppow_lt t 1 (1 / p) Q ltac:(lra) ltac:(lra)) as L. rewrite ppow_1 in L. exact L. }
    destruct (floor_nat (s * INR (n - 1)) (n - 1)) as [K1 K2]; [nra|nra|]. set (k := Z.to_nat (Int_part (s * INR (n - 1)))) in *.
    split; [lia|]. rewrite (H k), (H (S k)) by lia. fold D. rewrite S_INR. pose proof (pos_INR k).
    assert (Et : t = ppow s p) by (unfold s; symmetry; apply ppow_inv; lra).
    assert (E1 : ppow (INR k / INR (n - 1)) p * D <= t * D).
    { apply Rmult_le_compat_r; [lra|]. rewrite Et. apply ppow_le; [exact Hp|apply Rmult_le_pos; [lra|apply Rlt_le, Rinv_0_lt_compat; exact N]|].
      apply (Rmult_le_reg_r (INR (n - 1))); [exact N|]. unfold Rdiv. rewrite Rmult_assoc, Rinv_l by lra. lra. }
    assert (E2 : t * D < ppow ((INR k + 1) / INR (n - 1)) p * D).
    { apply Rmult_lt_compat_r; [lra|]. rewrite Et. apply ppow_lt; [exact Hp|lra|].
      apply (Rmult_lt_reg_r (INR (n - 1))); [exact N|]. unfold Rdiv. rewrite Rmult_assoc, Rinv_l by lra. lra. }
    lra.
Qed.
Lemma described_increasing g n x : described g n x -> increasing n x.
Proof.
  intros [Hd H] i Hi. assert (N : 0 < INR (n - 1)) by (apply lt_0_INR; lia). pose proof (pos_INR i) as Pi.
  set (D := x (n - 1)%nat - x 0%nat) in *.
  assert (L : INR i / INR (n - 1) < INR (S i) / INR (n - 1)).
  { apply Rmult_lt_compat_r; [apply Rinv_0_lt_compat; exact N|]. rewrite S_INR. lra. }
  assert (Z : 0 <= INR i / INR (n - 1)) by (apply Rmult_le_pos; [exact Pi|apply Rlt_le, Rinv_0_lt_compat; exact N]).
  assert (PD : 0 < D) by (unfold D; lra).
  destruct g as [|p].
  - rewrite (H i), (H (S i)) by lia. fold D. nra.
  - destruct H as [Hp H]. rewrite (H i), (H (S i)) by lia. fold D. pose proof (ppow_lt _ _ p Hp Z L). nra.
Qed.
Lemma unique_interval n x v i j : increasing n x -> (S i < n)%nat -> (S j < n)%nat -> x i <= v < x (S i) -> x j <= v < x (S j) -> i = j.
Proof.
  intros Hx Hi Hj A B. destruct (lt_eq_lt_dec i j) as [[L|E]|L]; [exfalso|exact E|exfalso].
  - destruct (Nat.eq_dec (S i) j) as [<-|N]; [lra|]. pose proof (increasing_lt n x (S i) j Hx ltac:(lia)). lra.
  - destruct (Nat.eq_dec (S j) i) as [<-|N]; [lra|]. pose proof (increasing_lt n x (S j) i Hx ltac:(lia)). lra.
Qed.
Lemma fast_in body g n x v i : described g n x -> (S i < n)%nat -> x i <= v < x (S i) ->
  fast body g x n v = Some (body i (S i) (x (S i) - x i) v).
Proof.
  intros H Hi Hv. pose proof (described_increasing g n x H) as Hx.
  assert (V : x 0%nat <= v < x (n - 1)%nat).
  { split.
    - destruct i as [|k]; [lra|]. pose proof (increasing_lt n x 0 (S k) Hx ltac:(lia)). lra.
    - destruct (Nat.eq_dec (S i) (n - 1)) as [<-|N]; [lra|]. pose proof (increasing_lt n x (S i) (n - 1) Hx ltac:(lia)). lra. }
  pose proof (lower_index_ok g n x v H ltac:(lia) V) as [K1 K2].
  assert (E : lower_index g x n v = i) by (apply (unique_interval n x v _ _ Hx K1 Hi K2 Hv)).
  unfold fast. replace (ltb v (x 0%nat)) with false by (symmetry; apply ltb_false; lra).
  replace (leb (x (n - 1)%nat) v) with false by (symmetry; apply leb_false; lra). cbn [orb]. cbv zeta. rewrite E.
  replace (S i <? n)%nat with true by (symmetry; apply Nat.ltb_lt; exact Hi).
  replace (leb (x i) v) with true by (symmetry; apply leb_true; lra).
  replace (ltb v (x (S i))) with true by (symmetry; apply ltb_true; lra). reflexivity.
Qed.
Lemma fast_out body g n x v : v < x 0%nat \/ x (n - 1)%nat <= v -> fast body g x n v = Some 0.
Proof.
  intros [H|H]; unfold fast.
  - replace (ltb v (x 0%nat)) with true by (symmetry; apply ltb_true; exact H). reflexivity.
  - replace (leb (x (n - 1)%nat) v) with true by (symmetry; apply leb_true; exact H). rewrite orb_true_r. reflexivity.
Qed.
Lemma fast_total body g n x v : described g n x -> (1 < n)%nat -> fast body g x n v <> None.
Proof.
  intros H Hn. destruct (Rlt_dec v (x 0%nat)) as [L|L]; [rewrite fast_out by (left; exact L); discriminate|].
  destruct (Rle_dec (x (n - 1)%nat) v) as [M|M]; [rewrite fast_out by (right; exact M); discriminate|].
  destruct (lower_index_ok g n x v H Hn) as [K1 K2]; [lra|]. rewrite (fast_in body g n x v _ H K1 K2). discriminate.
Qed.
Lemma fsf_grid g n x y i : described g n x -> (S i < n)%nat -> fsf g x y n (x i) = Some (y i).
Proof.
  intros H Hi. pose proof (described_increasing g n x H i Hi) as L. unfold fsf. rewrite (fast_in (piece x y n) g n x (x i) i H Hi) by lra. f_equal. apply piece_left; lra.
Qed.
Lemma knot_slope' n x y i : increasing n x -> (S (S i) < n)%nat ->
  dpiece x y n i (S i) (x (S i) - x i) (x (S i)) = dpiece x y n (S i) (S (S i)) (x (S (S i)) - x (S i)) (x (S i)).
Proof.
  intros Hx Hi. pose proof (second_equation n x y (S i) Hx ltac:(lia) Hi) as E. replace (S i - 1)%nat with i in E by lia.
  pose proof (Hx i ltac:(lia)). pose proof (Hx (S i) Hi).
  apply Rminus_diag_eq in E. apply Rminus_diag_uniq. eapply eq_trans; [|exact E]. unfold dpiece. field. lra.
Qed.
Lemma knot_curv' n x y i : increasing n x -> (S (S i) < n)%nat ->
  ddpiece x y n i (S i) (x (S i) - x i) (x (S i)) = ddpiece x y n (S i) (S (S i)) (x (S (S i)) - x (S i)) (x (S i)).
Proof.
  intros Hx Hi. pose proof (Hx i ltac:(lia)). pose proof (Hx (S i) Hi). unfold ddpiece. field. lra.
Qed.
Section Pieces.
Variables (n : nat) (x : nat -> R) (g : gridkind).
Hypothesis H : described g n x.
Hypothesis Hn : (1 < n)%nat.
Variables (P : nat -> nat -> R -> R -> R) (Q : nat -> nat -> R -> R -> R).
Hypothesis DP : forall lo hi k v, k <> 0 -> derivable_pt_lim (P lo hi k) v (Q lo hi k v).
Hypothesis Knot : forall i, (S (S i) < n)%nat ->
  P i (S i) (x (S i) - x i) (x (S i)) = P (S i) (S (S i)) (x (S (S i)) - x (S i)) (x (S i)) /\
  Q i (S i) (x (S i) - x i) (x (S i)) = Q (S i) (S (S i)) (x (S (S i)) - x (S i)) (x (S i)).
Lemma fast_derivative v : x 0%nat < v < x (n - 1)%nat ->
  exists d, fast Q g x n v = Some d /\ derivable_pt_lim (fun t => value (fast P g x n t)) v d.
Proof.
  intros Hv. pose proof (described_increasing g n x H) as Hx.
  destruct (find_interval n x v Hx Hn Hv) as (i & Hi & [B|[-> B]]).
  - exists (Q i (S i) (x (S i) - x i) v). split; [apply fast_in; [exact H|exact Hi|lra]|].
    apply derivable_local with (g := P i (S i) (x (S i) - x i)) (e := Rmin (v - x i) (x (S i) - v)).
    + apply Rmin_pos; lra.
    + intros t Ht. pose proof (Rmin_l (v - x i) (x (S i) - v)). pose proof (Rmin_r (v - x i) (x (S i) - v)).
      rewrite (fast_in P g n x t i H Hi) by (unfold Rabs in Ht; destruct Rcase_abs in Ht; lra). reflexivity.
    + apply DP. lra.
  - pose proof (Hx i Hi) as L1. pose proof (Hx (S i) B) as L2. destruct (Knot i B) as [K1 K2].
    exists (Q (S i) (S (S i)) (x (S (S i)) - x (S i)) (x (S i))). split; [apply fast_in; [exact H|exact B|lra]|].
    apply glue with (g := P i (S i) (x (S i) - x i)) (k := P (S i) (S (S i)) (x (S (S i)) - x (S i))) (e := Rmin (x (S i) - x i) (x (S (S i)) - x (S i))).
    + apply Rmin_pos; lra.
    + intros t Ht. pose proof (Rmin_l (x (S i) - x i) (x (S (S i)) - x (S i))). destruct (Req_dec t (x (S i))) as [->|N].
      * rewrite (fast_in P g n x _ (S i) H B) by lra. cbn [value]. symmetry. exact K1.
      * rewrite (fast_in P g n x t i H Hi) by lra. reflexivity.
    + intros t Ht. pose proof (Rmin_r (x (S i) - x i) (x (S (S i)) - x (S i))). rewrite (fast_in P g n x t (S i) H B) by lra. reflexivity.
    + exact K1.
    + rewrite <- K2. apply DP. lra.
    + apply DP. lra.
Qed.
End Pieces.
Lemma fsf_derivative n x y g v : described g n x -> (1 < n)%nat -> x 0%nat < v < x (n - 1)%nat ->
  exists d, fsf1 g x y n v = Some d /\ derivable_pt_lim (fun t => value (fsf g x y n t)) v d.
Proof.
  intros H Hn Hv. apply (fast_derivative n x g H Hn); [|intros i Hi|exact Hv].
  - intros lo hi k w Hk. apply piece_derivative. exact Hk.
  - pose proof (described_increasing g n x H) as Hx. pose proof (Hx i ltac:(lia)). pose proof (Hx (S i) Hi).
    split; [|apply knot_slope'; assumption]. rewrite piece_right by (lra || reflexivity). rewrite piece_left by (lra || reflexivity). reflexivity.
Qed.
Lemma fsf1_derivative n x y g v : described g n x -> (1 < n)%nat -> x 0%nat < v < x (n - 1)%nat ->
  exists d, fsf2 g x y n v = Some d /\ derivable_pt_lim (fun t => value (fsf1 g x y n t)) v d.
Proof.
  intros H Hn Hv. apply (fast_derivative n x g H Hn); [|intros i Hi|exact Hv].
  - intros lo hi k w Hk. apply dpiece_derivative. exact Hk.
  - pose proof (described_increasing g n x H) as Hx. split; [apply knot_slope'; assumption|apply knot_curv'; assumption].
Qed.

(** ** Trilinear *)
Lemma pyindex_ok n i : (0 <= i < Z.of_nat n)%Z -> pyindex n i = Some (Z.to_nat i).
Proof.
  intros H. unfold pyindex. replace (0 <=? i)%Z with true by (symmetry; apply Z.leb_le; lia).
  replace (i <? Z.of_nat n)%Z with true by (symmetry; apply Z.ltb_lt; lia). reflexivity.
Qed.
Lemma cell_ok n d r : (1 < n)%nat -> 0 < d -> inside n 0 d r = true ->
  (0 <= cell n d r)%Z /\ (cell n d r + 1 < Z.of_nat n)%Z /\ IZR (cell n d r) <= r / d <= IZR (cell n d r) + 1.
Proof.
  intros Hn Hd H. unfold inside in H. apply andb_prop in H as [A B]. apply leb_true in A. apply leb_true in B.
  unfold cell. destruct (base_Int_part (r / d)) as [C D].
  assert (P : 0 <= r / d) by (apply Rmult_le_pos; [lra|apply Rlt_le, Rinv_0_lt_compat; exact Hd]).
  assert (Q : r / d <= INR (n - 1)).
  { apply (Rmult_le_reg_r d); [exact Hd|]. unfold Rdiv. rewrite Rmult_assoc, Rinv_l by lra. lra. }
  rewrite INR_IZR_INZ in Q. rewrite Nat2Z.inj_sub in Q by lia. change (Z.of_nat 1) with 1%Z in Q. rewrite minus_IZR in Q.
  assert (P0 : (0 <= Int_part (r / d))%Z).
  { apply Znot_gt_le. intros G. assert (Int_part (r / d) <= -1)%Z as L by lia. apply IZR_le in L. lra. }
  destruct (Z.min_spec (Int_part (r / d)) (Z.of_nat n - 2)) as [[L ->]|[L ->]].
  - split; [exact P0|]. split; [lia|]. lra.
  - split; [lia|]. split; [lia|]. rewrite minus_IZR. apply IZR_le in L. rewrite minus_IZR in L. lra.
Qed.
Definition lin1 (a0 a1 t : R) : R := a0 * (1 - t) + a1 * t.
Lemma trilinear_cell a n1 n2 n3 d r : (1 < n1)%nat -> (1 < n2)%nat -> (1 < n3)%nat -> 0 < vx d -> 0 < vy d -> 0 < vz d ->
  inside n1 0 (vx d) (vx r) = true -> inside n2 0 (vy d) (vy r) = true -> inside n3 0 (vz d) (vz r) = true ->
  exists i j k, (S i < n1)%nat /\ (S j < n2)%nat /\ (S k < n3)%nat /\
    INR i * vx d <= vx r <= (INR i + 1) * vx d /\ INR j * vy d <= vy r <= (INR j + 1) * vy d /\ INR k * vz d <= vz r <= (INR k + 1) * vz d /\
    let tx := vx r / vx d - INR i in let ty := vy r / vy d - INR j in let tz := vz r / vz d - INR k in
    trilinear a n1 n2 n3 vzero d r =
    Some (lin1 (lin1 (lin1 (a i j k) (a i j (S k)) tz) (lin1 (a i (S j) k) (a i (S j) (S k)) tz) ty)
               (lin1 (lin1 (a (S i) j k) (a (S i) j (S k)) tz) (lin1 (a (S i) (S j) k) (a (S i) (S j) (S k)) tz) ty) tx).
Proof.
  intros H1 H2 H3 D1 D2 D3 I1 I2 I3.
  destruct (cell_ok _ _ _ H1 D1 I1) as (A1 & B1 & C1). destruct (cell_ok _ _ _ H2 D2 I2) as (A2 & B2 & C2). destruct (cell_ok _ _ _ H3 D3 I3) as (A3 & B3 & C3).
  unfold trilinear. replace (vx vzero) with 0 by reflexivity. replace (vy vzero) with 0 by reflexivity. replace (vz vzero) with 0 by reflexivity.
  rewrite I1, I2, I3. cbn [andb]. cbv zeta.
  set (ci := cell n1 (vx d) (vx r)) in *. set (cj := cell n2 (vy d) (vy r)) in *. set (ck := cell n3 (vz d) (vz r)) in *.
  exists (Z.to_nat ci), (Z.to_nat cj), (Z.to_nat ck).
  assert (E1 : INR (Z.to_nat ci) = IZR ci) by (rewrite INR_IZR_INZ, Z2Nat.id by exact A1; reflexivity).
  assert (E2 : INR (Z.to_nat cj) = IZR cj) by (rewrite INR_IZR_INZ, Z2Nat.id by exact A2; reflexivity).
  assert (E3 : INR (Z.to_nat ck) = IZR ck) by (rewrite INR_IZR_INZ, Z2Nat.id by exact A3; reflexivity).
  assert (F : forall c r d, 0 < d -> c <= r / d <= c + 1 -> c * d <= r <= (c + 1) * d).
  { intros c r0 d0 P [L1 L2]. apply (Rmult_le_compat_r d0) in L1; [|lra]. apply (Rmult_le_compat_r d0) in L2; [|lra].
    replace (r0 / d0 * d0) with r0 in * by (field; lra). lra. }
  split; [lia|]. split; [lia|]. split; [lia|]. split; [rewrite E1; apply F; assumption|]. split; [rewrite E2; apply F; assumption|]. split; [rewrite E3; apply F; assumption|].
  unfold gridpoint, get3. rewrite !pyindex_ok by lia.
  replace (Z.to_nat (ci + 1)) with (S (Z.to_nat ci)) by lia. replace (Z.to_nat (cj + 1)) with (S (Z.to_nat cj)) by lia. replace (Z.to_nat (ck + 1)) with (S (Z.to_nat ck)) by lia.
  unfold lin1.
  replace ((vx r - (0 + INR (Z.to_nat ci) * vx d)) / vx d) with (vx r / vx d - INR (Z.to_nat ci)) by (field; lra).
  replace ((vy r - (0 + INR (Z.to_nat cj) * vy d)) / vy d) with (vy r / vy d - INR (Z.to_nat cj)) by (field; lra).
  replace ((vz r - (0 + INR (Z.to_nat ck) * vz d)) / vz d) with (vz r / vz d - INR (Z.to_nat ck)) by (field; lra).
  reflexivity.
Qed.
Lemma lin1_bounds a0 a1 t lo hi : 0 <= t <= 1 -> lo <= a0 <= hi -> lo <= a1 <= hi -> lo <= lin1 a0 a1 t <= hi.
Proof. intros H A B. unfold lin1. nra. Qed.
Lemma lin1_choose a0 a1 t (c : bool) : t = (if c then 1 else 0) -> lin1 a0 a1 t = if c then a1 else a0.
Proof. intros ->. unfold lin1. destruct c; ring. Qed.
Lemma frac_ok r d i : 0 < d -> INR i * d <= r <= (INR i + 1) * d -> 0 <= r / d - INR i <= 1.
Proof.
  intros Hd [A B]. split; apply (Rmult_le_reg_r d); try exact Hd; replace ((r / d - INR i) * d) with (r - INR i * d) by (field; lra); lra.
Qed.
Lemma trilinear_bounds a n1 n2 n3 d r lo hi : (1 < n1)%nat -> (1 < n2)%nat -> (1 < n3)%nat -> 0 < vx d -> 0 < vy d -> 0 < vz d ->
  inside n1 0 (vx d) (vx r) = true -> inside n2 0 (vy d) (vy r) = true -> inside n3 0 (vz d) (vz r) = true ->
  (forall i j k, (i < n1)%nat -> (j < n2)%nat -> (k < n3)%nat -> lo <= a i j k <= hi) ->
  exists w, trilinear a n1 n2 n3 vzero d r = Some w /\ lo <= w <= hi.
Proof.
  intros H1 H2 H3 D1 D2 D3 I1 I2 I3 Ha.
  destruct (trilinear_cell a n1 n2 n3 d r H1 H2 H3 D1 D2 D3 I1 I2 I3) as (i & j & k & Hi & Hj & Hk & B1 & B2 & B3 & E). cbv zeta in E.
  eexists. split; [exact E|]. pose proof (frac_ok _ _ _ D1 B1). pose proof (frac_ok _ _ _ D2 B2). pose proof (frac_ok _ _ _ D3 B3).
  repeat apply lin1_bounds; try assumption; apply Ha; lia.
Qed.
Lemma trilinear_exact c n1 n2 n3 d r : (1 < n1)%nat -> (1 < n2)%nat -> (1 < n3)%nat -> 0 < vx d -> 0 < vy d -> 0 < vz d ->
  inside n1 0 (vx d) (vx r) = true -> inside n2 0 (vy d) (vy r) = true -> inside n3 0 (vz d) (vz r) = true ->
  trilinear (fun i j k => trilin c (INR i * vx d) (INR j * vy d) (INR k * vz d)) n1 n2 n3 vzero d r = Some (trilin c (vx r) (vy r) (vz r)).
Proof.
  intros H1 H2 H3 D1 D2 D3 I1 I2 I3.
  destruct (trilinear_cell (fun i j k => trilin c (INR i * vx d) (INR j * vy d) (INR k * vz d)) n1 n2 n3 d r H1 H2 H3 D1 D2 D3 I1 I2 I3) as (i & j & k & Hi & Hj & Hk & B1 & B2 & B3 & E). cbv zeta in E.
  rewrite E. f_equal. rewrite !S_INR. unfold lin1, trilin. field. lra.
Qed.
Lemma trilinear_grid a n1 n2 n3 d i j k : (1 < n1)%nat -> (1 < n2)%nat -> (1 < n3)%nat -> 0 < vx d -> 0 < vy d -> 0 < vz d ->
  (i < n1)%nat -> (j < n2)%nat -> (k < n3)%nat ->
  trilinear a n1 n2 n3 vzero d (V3 (INR i * vx d) (INR j * vy d) (INR k * vz d)) = Some (a i j k).
Proof.
  intros H1 H2 H3 D1 D2 D3 Hi Hj Hk.
  assert (In : forall n i d, (i < n)%nat -> 0 < d -> inside n 0 d (INR i * d) = true).
  { intros n0 i0 d0 L P. unfold inside. apply andb_true_intro. pose proof (pos_INR i0). split; apply leb_true; [nra|].
    rewrite Rplus_0_l. apply Rmult_le_compat_r; [lra|]. apply le_INR. lia. }
  destruct (trilinear_cell a n1 n2 n3 d (V3 (INR i * vx d) (INR j * vy d) (INR k * vz d)) H1 H2 H3 D1 D2 D3) as (i' & j' & k' & Hi' & Hj' & Hk' & B1 & B2 & B3 & E); try (cbn [vx vy vz]; apply In; assumption).
  cbv zeta in E. cbn [vx vy vz] in *. rewrite E. f_equal.
  assert (Ch : forall m m' dd, 0 < dd -> INR m' * dd <= INR m * dd <= (INR m' + 1) * dd -> exists c : bool, INR m * dd / dd - INR m' = (if c then 1 else 0) /\ m = if c then S m' else m').
  { intros m m' dd P [L1 L2]. apply Rmult_le_reg_r in L1; [|exact P]. apply Rmult_le_reg_r in L2; [|exact P]. rewrite <- S_INR in L2. apply INR_le in L1. apply INR_le in L2.
    assert (m = m' \/ m = S m') as [->| ->] by lia; [exists false|exists true]; (split; [|reflexivity]); [|rewrite S_INR]; field; lra. }
  destruct (Ch _ _ _ D1 B1) as (c1 & T1 & ->). destruct (Ch _ _ _ D2 B2) as (c2 & T2 & ->). destruct (Ch _ _ _ D3 B3) as (c3 & T3 & ->).
  rewrite !(lin1_choose _ _ _ _ T3), !(lin1_choose _ _ _ _ T2), (lin1_choose _ _ _ _ T1). destruct c1, c2, c3; reflexivity.
Qed.
