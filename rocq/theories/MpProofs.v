(** Finite sums of complex numbers; solid harmonics as coefficients of exp(xi a^2 + eta b^2 + z a b) *)
From Coq Require Import Reals ZArith List Bool Arith Lia Lra Psatz FunctionalExtensionality.
From Coquelicot Require Import Coquelicot.
From Verif Require Import Vec GeomModel ScaModel MpModel MpSpec.
Import ListNotations.
Open Scope C_scope.

(** ** Complex numbers *)
Lemma c_eq (a b : C) : fst a = fst b -> snd a = snd b -> a = b.
Proof. destruct a, b. cbn. intros -> ->. reflexivity. Qed.
Lemma conj_plus a b : Cconj (a + b) = Cconj a + Cconj b.
Proof. apply c_eq; cbn; ring. Qed.
Lemma conj_mult a b : Cconj (a * b) = Cconj a * Cconj b.
Proof. apply c_eq; cbn; ring. Qed.
Lemma conj_R x : Cconj (RtoC x) = RtoC x.
Proof. apply c_eq; cbn; ring. Qed.
Lemma conj_conj a : Cconj (Cconj a) = a.
Proof. apply c_eq; cbn; ring. Qed.
Lemma conj_opp a : Cconj (- a) = - Cconj a.
Proof. apply c_eq; cbn; ring. Qed.
Lemma RtoC_neq x : (x <> 0)%R -> RtoC x <> 0.
Proof. intros h e. apply h. apply (f_equal fst) in e. exact e. Qed.
Definition zc (u : Z) : C := RtoC (IZR u).
Lemma zc_plus a b : zc (a + b) = zc a + zc b. Proof. unfold zc. rewrite plus_IZR, RtoC_plus. reflexivity. Qed.
Lemma zc_minus a b : zc (a - b) = zc a - zc b. Proof. unfold zc. rewrite minus_IZR, RtoC_minus. reflexivity. Qed.
Lemma zc_mult a b : zc (a * b) = zc a * zc b. Proof. unfold zc. rewrite mult_IZR, RtoC_mult. reflexivity. Qed.
Lemma zc_neq a : (a <> 0)%Z -> zc a <> 0.
Proof. intros h. apply RtoC_neq. intros e. apply h. apply eq_IZR. exact e. Qed.
Lemma two_c : RtoC 2 = 1 + 1. Proof. rewrite <- RtoC_plus. reflexivity. Qed.
Lemma zc_1 : zc 1 = 1. Proof. reflexivity. Qed.
Lemma zc_2 : zc 2 = 2. Proof. reflexivity. Qed.
Lemma zc_nat n : zc (Z.of_nat n) = RtoC (INR n). Proof. unfold zc. rewrite <- INR_IZR_INZ. reflexivity. Qed.
Lemma cmult_cancel (c a b : C) : c <> 0 -> c * a = c * b -> a = b.
Proof. intros h e. replace a with (/ c * (c * a)) by (field; exact h). rewrite e. field. exact h. Qed.

(** ** Sums *)
Lemma csum_ext n (f g : nat -> C) : (forall i, (i < n)%nat -> f i = g i) -> csum n f = csum n g.
Proof. induction n as [|n IH]; intros h; [reflexivity|]. cbn [csum]. rewrite IH, h; [reflexivity|lia|intros i hi; apply h; lia]. Qed.
Lemma csum_zero n (f : nat -> C) : (forall i, (i < n)%nat -> f i = 0) -> csum n f = 0.
Proof. induction n as [|n IH]; intros h; [reflexivity|]. cbn [csum]. rewrite IH, h; [ring|lia|intros i hi; apply h; lia]. Qed.
Lemma csum_plus n f g : csum n (fun i => f i + g i) = csum n f + csum n g.
Proof. induction n as [|n IH]; cbn [csum]; [ring|]. rewrite IH. ring. Qed.
Lemma csum_scal n c f : csum n (fun i => c * f i) = c * csum n f.
Proof. induction n as [|n IH]; cbn [csum]; [ring|]. rewrite IH. ring. Qed.
Lemma csum_scal_r n c f : csum n (fun i => f i * c) = csum n f * c.
Proof. induction n as [|n IH]; cbn [csum]; [ring|]. rewrite IH. ring. Qed.
Lemma csum_conj n f : Cconj (csum n f) = csum n (fun i => Cconj (f i)).
Proof. induction n as [|n IH]; cbn [csum]; [apply conj_R|]. rewrite conj_plus, IH. reflexivity. Qed.
Lemma csum_swap n m f : csum n (fun i => csum m (fun j => f i j)) = csum m (fun j => csum n (fun i => f i j)).
Proof.
  induction n as [|n IH]; cbn [csum]; [symmetry; apply csum_zero; reflexivity|]. rewrite IH, csum_plus. reflexivity.
Qed.
Lemma csum_first n (f : nat -> C) : csum (S n) f = f 0%nat + csum n (fun i => f (S i)).
Proof. induction n as [|n IH]; [cbn; ring|]. cbn [csum] in *. rewrite IH. ring. Qed.
Lemma csum_app n m (f : nat -> C) : csum (n + m) f = csum n f + csum m (fun i => f (n + i)%nat).
Proof.
  induction m as [|m IH]; cbn [csum]; [rewrite Nat.add_0_r; ring|]. rewrite <- plus_n_Sm. cbn [csum]. rewrite IH. ring.
Qed.
Lemma csum_single n k (f : nat -> C) : (k < n)%nat -> (forall i, (i < n)%nat -> i <> k -> f i = 0) -> csum n f = f k.
Proof.
  induction n as [|n IH]; intros hk h; [lia|]. cbn [csum]. destruct (Nat.eq_dec k n) as [->|hne].
  - rewrite csum_zero; [ring|]. intros i hi. apply h; lia.
  - rewrite (h n), IH; [ring|lia| |lia|lia]. intros i hi hik. apply h; lia.
Qed.
Lemma csum_longer n m (f : nat -> C) : (n <= m)%nat -> (forall i, (n <= i < m)%nat -> f i = 0) -> csum m f = csum n f.
Proof.
  intros hnm h. replace m with (n + (m - n))%nat by lia. rewrite csum_app, (csum_zero (m - n)); [ring|]. intros i hi. apply h. lia.
Qed.
Lemma csum_re n f : Re (csum n f) = rsum n (fun i => Re (f i)).
Proof. induction n as [|n IH]; cbn [csum rsum]; [reflexivity|]. rewrite <- IH. reflexivity. Qed.
Lemma csum_R n f : RtoC (rsum n f) = csum n (fun i => RtoC (f i)).
Proof. induction n as [|n IH]; cbn [csum rsum]; [reflexivity|]. rewrite RtoC_plus, IH. reflexivity. Qed.
(** sums over integers *)
Definition S_ (N : nat) (f : Z -> C) : C := csum N (fun i => f (Z.of_nat i)).
Lemma S_ext N (f g : Z -> C) : (forall i, (0 <= i < Z.of_nat N)%Z -> f i = g i) -> S_ N f = S_ N g.
Proof. intros h. apply csum_ext. intros i hi. apply h. lia. Qed.
Lemma S_shift N (f : Z -> C) : f (-1)%Z = 0 -> f (Z.of_nat N - 1)%Z = 0 -> S_ N (fun i => f (i - 1)%Z) = S_ N f.
Proof.
  intros h1 h2. unfold S_. destruct N as [|N]; [reflexivity|]. rewrite csum_first. cbn [csum]. replace (Z.of_nat (S N) - 1)%Z with (Z.of_nat N) in h2 by lia.
  rewrite h2. change (Z.of_nat 0 - 1)%Z with (-1)%Z. rewrite h1.
  rewrite (csum_ext N (fun i => f (Z.of_nat (S i) - 1)%Z) (fun i => f (Z.of_nat i))); [ring|]. intros i _. replace (Z.of_nat (S i) - 1)%Z with (Z.of_nat i) by lia. reflexivity.
Qed.
Lemma S_shift2 N (f : Z -> C) : (forall i, (i < 0)%Z -> f i = 0) -> (forall i, (Z.of_nat N - 2 <= i)%Z -> f i = 0) -> S_ N (fun i => f (i - 2)%Z) = S_ N f.
Proof.
  intros h1 h2. rewrite <- (S_shift N f); [|apply h1; lia|apply h2; lia]. rewrite <- (S_shift N (fun i => f (i - 1)%Z)); [|apply h1; lia|apply h2; lia].
  apply S_ext. intros i _. replace (i - 1 - 1)%Z with (i - 2)%Z by ring. reflexivity.
Qed.
Lemma S_plus N f g : S_ N (fun i => f i + g i) = S_ N f + S_ N g. Proof. apply csum_plus. Qed.
Lemma S_scal N c f : S_ N (fun i => c * f i) = c * S_ N f. Proof. apply csum_scal. Qed.
Lemma S_zero N (f : Z -> C) : (forall i, (0 <= i < Z.of_nat N)%Z -> f i = 0) -> S_ N f = 0.
Proof. intros h. apply csum_zero. intros i hi. apply h. lia. Qed.
Lemma S_longer N M (f : Z -> C) : (N <= M)%nat -> (forall i, (Z.of_nat N <= i)%Z -> f i = 0) -> S_ M f = S_ N f.
Proof. intros h1 h2. apply csum_longer; [exact h1|]. intros i hi. apply h2. lia. Qed.

(** ** Divided powers *)
Lemma fact_neq n : RtoC (INR (fact n)) <> 0.
Proof. apply RtoC_neq, INR_fact_neq_0. Qed.
Lemma ediv_S x n : RtoC (INR (S n)) * ediv x (S n) = x * ediv x n.
Proof.
  unfold ediv. cbn [cpow]. rewrite fact_simpl, mult_INR, RtoC_mult. field. split; [apply fact_neq|apply RtoC_neq, not_0_INR; lia].
Qed.
Lemma ediv_0 x : ediv x 0 = 1.
Proof. unfold ediv. cbn [cpow fact]. change (INR 1) with 1%R. field. apply RtoC_neq. lra. Qed.
(** ediv x n, zero for negative n *)
Definition ez (x : C) (n : Z) : C := if (n <? 0)%Z then 0 else ediv x (Z.to_nat n).
Lemma ez_neg x n : (n < 0)%Z -> ez x n = 0.
Proof. intros h. unfold ez. apply Z.ltb_lt in h. rewrite h. reflexivity. Qed.
Lemma ez_rec x n : zc n * ez x n = x * ez x (n - 1).
Proof.
  destruct (Z.lt_trichotomy n 0) as [h|[->|h]].
  - rewrite !ez_neg by lia. ring.
  - rewrite (ez_neg x (0 - 1)) by lia. unfold zc. ring.
  - unfold ez. replace (n <? 0)%Z with false by (symmetry; apply Z.ltb_ge; lia). replace (n - 1 <? 0)%Z with false by (symmetry; apply Z.ltb_ge; lia).
    replace (Z.to_nat n) with (S (Z.to_nat (n - 1))) by lia. rewrite <- ediv_S. f_equal. rewrite <- zc_nat. f_equal. lia.
Qed.
(** the same for x a^2: zero for odd n *)
Definition e2 (x : C) (n : Z) : C := if Z.even n then ez x (n / 2) else 0.
Lemma e2_neg x n : (n < 0)%Z -> e2 x n = 0.
Proof. intros h. unfold e2. destruct (Z.even n); [|reflexivity]. apply ez_neg. apply Z.div_lt_upper_bound; lia. Qed.
Lemma e2_rec x n : zc n * e2 x n = 2 * x * e2 x (n - 2).
Proof.
  unfold e2. replace (Z.even (n - 2)) with (Z.even n) by (rewrite Z.even_sub; cbn; destruct (Z.even n); reflexivity).
  destruct (Z.even n) eqn:E; [|ring]. apply Z.even_spec in E. destruct E as [k ->]. rewrite (Z.mul_comm 2 k) at 2. rewrite Z.div_mul by lia.
  replace (2 * k - 2)%Z with ((k - 1) * 2)%Z by ring. rewrite Z.div_mul by lia. rewrite zc_mult, zc_2. rewrite <- !Cmult_assoc, <- ez_rec. ring.
Qed.

(** ** The coefficients *)
Section H.
Variables x e z : C.
Definition hc (u v : Z) : C := S_ (Z.to_nat (Z.max u v + 1)) (fun s => e2 x (u - s) * e2 e (v - s) * ez z s).
Lemma h_neg u v : (u < 0 \/ v < 0)%Z -> hc u v = 0.
Proof.
  intros hh. unfold hc. apply S_zero. intros i hi. destruct hh as [hu|hv]; [rewrite (e2_neg x) by lia|rewrite (e2_neg e) by lia]; ring.
Qed.
Lemma h_long N u v : (u < Z.of_nat N \/ v < Z.of_nat N)%Z -> hc u v = S_ N (fun s => e2 x (u - s) * e2 e (v - s) * ez z s).
Proof.
  intros hN. assert (hz : forall s, (u < s \/ v < s)%Z -> e2 x (u - s) * e2 e (v - s) * ez z s = 0).
  { intros s [hs|hs]; [rewrite (e2_neg x) by lia|rewrite (e2_neg e) by lia]; ring. }
  unfold hc. destruct (le_lt_dec (Z.to_nat (Z.max u v + 1)) N) as [hle|hlt].
  - symmetry. apply S_longer; [exact hle|]. intros i hi. apply hz. lia.
  - apply S_longer; [lia|]. intros i hi. apply hz. lia.
Qed.
Lemma h_rec1 u v : zc u * hc u v = 2 * x * hc (u - 2) v + z * hc (u - 1) (v - 1).
Proof.
  set (N := Z.to_nat (Z.max u v + 3)). rewrite !(h_long N) by (unfold N; lia).
  rewrite <- !S_scal. rewrite <- (S_shift N (fun s => z * (e2 x (u - 1 - s) * e2 e (v - 1 - s) * ez z s))).
  2: { rewrite (ez_neg z (-1)) by lia. ring. }
  2: { unfold N. destruct (Z_lt_le_dec u v); [rewrite (e2_neg x) by lia|rewrite (e2_neg e) by lia]; ring. }
  rewrite <- S_plus. apply S_ext. intros s _. cbv beta.
  replace (u - 1 - (s - 1))%Z with (u - s)%Z by ring. replace (v - 1 - (s - 1))%Z with (v - s)%Z by ring.
  replace (zc u) with (zc (u - s) + zc s) by (rewrite <- zc_plus; f_equal; ring).
  transitivity (zc (u - s) * e2 x (u - s) * (e2 e (v - s) * ez z s) + e2 x (u - s) * e2 e (v - s) * (zc s * ez z s)); [ring|].
  rewrite e2_rec, ez_rec. replace (u - s - 2)%Z with (u - 2 - s)%Z by ring. ring.
Qed.
Lemma h_rec2 u v : zc v * hc u v = 2 * e * hc u (v - 2) + z * hc (u - 1) (v - 1).
Proof.
  set (N := Z.to_nat (Z.max u v + 3)). rewrite !(h_long N) by (unfold N; lia).
  rewrite <- !S_scal. rewrite <- (S_shift N (fun s => z * (e2 x (u - 1 - s) * e2 e (v - 1 - s) * ez z s))).
  2: { rewrite (ez_neg z (-1)) by lia. ring. }
  2: { unfold N. destruct (Z_lt_le_dec u v); [rewrite (e2_neg x) by lia|rewrite (e2_neg e) by lia]; ring. }
  rewrite <- S_plus. apply S_ext. intros s _. cbv beta.
  replace (u - 1 - (s - 1))%Z with (u - s)%Z by ring. replace (v - 1 - (s - 1))%Z with (v - s)%Z by ring.
  replace (zc v) with (zc (v - s) + zc s) by (rewrite <- zc_plus; f_equal; ring).
  transitivity (zc (v - s) * e2 e (v - s) * (e2 x (u - s) * ez z s) + e2 x (u - s) * e2 e (v - s) * (zc s * ez z s)); [ring|].
  rewrite e2_rec, ez_rec. replace (v - s - 2)%Z with (v - 2 - s)%Z by ring. ring.
Qed.
Lemma h_00 : hc 0 0 = 1.
Proof.
  rewrite (h_long 1) by lia. unfold S_. cbn [csum]. change (e2 x (0 - Z.of_nat 0)) with (ediv x 0). change (e2 e (0 - Z.of_nat 0)) with (ediv e 0).
  change (ez z (Z.of_nat 0)) with (ediv z 0). rewrite !ediv_0. ring.
Qed.
(** three-term relations *)
Notation rho := (z * z - 2 * 2 * x * e).
Lemma h_three u v : zc u * zc v * hc u v = zc (u + v - 1) * z * hc (u - 1) (v - 1) - rho * hc (u - 2) (v - 2).
Proof.
  pose proof (h_rec1 u v) as E1. pose proof (h_rec2 (u - 2) v) as E2. pose proof (h_rec1 (u - 1) (v - 1)) as E3.
  replace (u - 2 - 1)%Z with (u - 1 - 2)%Z in E2 by ring. replace (u - 1 - 1)%Z with (u - 2)%Z in E3 by ring. replace (v - 1 - 1)%Z with (v - 2)%Z in E3 by ring.
  rewrite !zc_minus, zc_plus, zc_1. rewrite zc_minus, zc_1 in E3.
  transitivity (zc v * (zc u * hc u v)); [ring|]. rewrite E1. transitivity (2 * x * (zc v * hc (u - 2) v) + zc v * z * hc (u - 1) (v - 1)); [ring|]. rewrite E2.
  transitivity (2 * 2 * x * e * hc (u - 2) (v - 2) + z * (2 * x * hc (u - 1 - 2) (v - 1)) + zc v * z * hc (u - 1) (v - 1)); [ring|].
  replace (2 * x * hc (u - 1 - 2) (v - 1)) with ((zc u - 1) * hc (u - 1) (v - 1) - z * hc (u - 2) (v - 2)) by (rewrite E3; ring). ring.
Qed.
Lemma h_up1 u v : zc u * zc (u - 1) * hc u v = zc (u + v - 1) * (2 * x) * hc (u - 2) v + rho * hc (u - 2) (v - 2).
Proof.
  pose proof (h_rec1 u v) as E1. pose proof (h_rec2 (u - 2) v) as E2. pose proof (h_rec1 (u - 1) (v - 1)) as E3.
  replace (u - 2 - 1)%Z with (u - 1 - 2)%Z in E2 by ring. replace (u - 1 - 1)%Z with (u - 2)%Z in E3 by ring. replace (v - 1 - 1)%Z with (v - 2)%Z in E3 by ring.
  rewrite !zc_minus, zc_plus, zc_1. rewrite zc_minus, zc_1 in E3.
  transitivity ((zc u - 1) * (zc u * hc u v)); [ring|]. rewrite E1. transitivity ((zc u - 1) * (2 * x) * hc (u - 2) v + z * ((zc u - 1) * hc (u - 1) (v - 1))); [ring|]. rewrite E3.
  transitivity ((zc u - 1) * (2 * x) * hc (u - 2) v + 2 * x * (z * hc (u - 1 - 2) (v - 1)) + z * z * hc (u - 2) (v - 2)); [ring|].
  replace (z * hc (u - 1 - 2) (v - 1)) with (zc v * hc (u - 2) v - 2 * e * hc (u - 2) (v - 2)) by (rewrite E2; ring). ring.
Qed.
Lemma h_up2 u v : zc v * zc (v - 1) * hc u v = zc (u + v - 1) * (2 * e) * hc u (v - 2) + rho * hc (u - 2) (v - 2).
Proof.
  pose proof (h_rec2 u v) as E1. pose proof (h_rec1 u (v - 2)) as E2. pose proof (h_rec2 (u - 1) (v - 1)) as E3.
  replace (v - 2 - 1)%Z with (v - 1 - 2)%Z in E2 by ring. replace (u - 1 - 1)%Z with (u - 2)%Z in E3 by ring. replace (v - 1 - 1)%Z with (v - 2)%Z in E3 by ring.
  rewrite !zc_minus, zc_plus, zc_1. rewrite zc_minus, zc_1 in E3.
  transitivity ((zc v - 1) * (zc v * hc u v)); [ring|]. rewrite E1. transitivity ((zc v - 1) * (2 * e) * hc u (v - 2) + z * ((zc v - 1) * hc (u - 1) (v - 1))); [ring|]. rewrite E3.
  transitivity ((zc v - 1) * (2 * e) * hc u (v - 2) + 2 * e * (z * hc (u - 1) (v - 1 - 2)) + z * z * hc (u - 2) (v - 2)); [ring|].
  replace (z * hc (u - 1) (v - 1 - 2)) with (zc u * hc u (v - 2) - 2 * x * hc (u - 2) (v - 2)) by (rewrite E2; ring). ring.
Qed.
(** Euler's relation *)
Lemma h_euler u v : zc (u + v) * hc u v = 2 * (z * hc (u - 1) (v - 1) + x * hc (u - 2) v + e * hc u (v - 2)).
Proof. rewrite zc_plus. transitivity (zc u * hc u v + zc v * hc u v); [ring|]. rewrite h_rec1, h_rec2, two_c. ring. Qed.
(** the relations determine the coefficients *)
Lemma h_unique (f : Z -> Z -> C) : (forall u v, (u < 0 \/ v < 0)%Z -> f u v = 0) -> f 0%Z 0%Z = 1 ->
  (forall u v, (0 <= u)%Z -> (0 <= v)%Z -> zc u * f u v = 2 * x * f (u - 2)%Z v + z * f (u - 1)%Z (v - 1)%Z) ->
  (forall u v, (0 <= u)%Z -> (0 <= v)%Z -> zc v * f u v = 2 * e * f u (v - 2)%Z + z * f (u - 1)%Z (v - 1)%Z) -> forall u v, f u v = hc u v.
Proof.
  intros hn h0 h1 h2. assert (hk : forall k u v, (u + v < Z.of_nat k)%Z -> f u v = hc u v).
  { induction k as [|k IH]; intros u v huv.
    - rewrite hn, h_neg by lia. reflexivity.
    - destruct (Z_lt_le_dec u 0) as [hu|hu]; [rewrite hn, h_neg by lia; reflexivity|].
      destruct (Z_lt_le_dec v 0) as [hv|hv]; [rewrite hn, h_neg by lia; reflexivity|].
      destruct (Z.eq_dec u 0) as [->|hu0].
      + destruct (Z.eq_dec v 0) as [->|hv0]; [rewrite h_00; exact h0|].
        apply (cmult_cancel (zc v)); [apply zc_neq, hv0|]. rewrite h2, h_rec2 by lia. rewrite !IH by lia. reflexivity.
      + apply (cmult_cancel (zc u)); [apply zc_neq, hu0|]. rewrite h1, h_rec1 by lia. rewrite !IH by lia. reflexivity. }
  intros u v. apply (hk (S (Z.to_nat (u + v)))). lia.
Qed.
End H.
(** ** The sum of two vectors *)
Definition conv (N : nat) (f g : Z -> Z -> C) (u v : Z) : C := S_ N (fun i => S_ N (fun j => f i j * g (u - i)%Z (v - j)%Z)).
Lemma S_S_plus N (f g : Z -> Z -> C) : S_ N (fun i => S_ N (fun j => f i j + g i j)) = S_ N (fun i => S_ N (f i)) + S_ N (fun i => S_ N (g i)).
Proof. rewrite <- S_plus. apply S_ext. intros i _. apply S_plus. Qed.
Lemma S_S_scal N c (f : Z -> Z -> C) : S_ N (fun i => S_ N (fun j => c * f i j)) = c * S_ N (fun i => S_ N (f i)).
Proof. rewrite <- S_scal. apply S_ext. intros i _. apply S_scal. Qed.
Lemma conv_longer N M (f g : Z -> Z -> C) u v : (N <= M)%nat -> (u < Z.of_nat N)%Z -> (v < Z.of_nat N)%Z -> (forall u v, (u < 0 \/ v < 0)%Z -> g u v = 0) -> conv M f g u v = conv N f g u v.
Proof.
  intros hNM hu hv hg. unfold conv. rewrite (S_longer N M); [|exact hNM|].
  - apply S_ext. intros i _. apply S_longer; [exact hNM|]. intros j hj. rewrite hg by lia. ring.
  - intros i hi. apply S_zero. intros j _. rewrite hg by lia. ring.
Qed.
Lemma addition (xa ea za xb eb zb : C) N u v : (u < Z.of_nat N)%Z -> (v < Z.of_nat N)%Z -> 
  hc (xa + xb) (ea + eb) (za + zb) u v = conv N (hc xa ea za) (hc xb eb zb) u v.
Proof.
  intros hu hv. set (f := fun u v => conv (Z.to_nat (Z.max u v + 1)) (hc xa ea za) (hc xb eb zb) u v).
  assert (hf : forall N u v, (u < Z.of_nat N)%Z -> (v < Z.of_nat N)%Z -> f u v = conv N (hc xa ea za) (hc xb eb zb) u v).
  { clear N u v hu hv. intros N u v hu hv. unfold f. destruct (Z_lt_le_dec (Z.max u v) 0) as [hm|hm].
    - transitivity (RtoC 0); [|symmetry].
      + replace (Z.to_nat (Z.max u v + 1)) with 0%nat by lia. reflexivity.
      + apply S_zero. intros i hi. apply S_zero. intros j hj. rewrite (h_neg xb) by lia. ring.
    - symmetry. apply conv_longer; [lia|lia|lia|apply h_neg]. }
  symmetry. rewrite <- hf by assumption. apply h_unique.
  - clear. intros u v huv. apply S_zero. intros i hi. apply S_zero. intros j hj. rewrite (h_neg xb) by lia. ring.
  - unfold f. change (Z.to_nat (Z.max 0 0 + 1)) with 1%nat. unfold conv, S_. cbn [csum]. change (Z.of_nat 0) with 0%Z. change (0 - 0)%Z with 0%Z. rewrite !h_00. ring.
  - clear N u v hu hv. intros u v hu hv. set (N := Z.to_nat (Z.max u v + 3)). rewrite !(hf N) by (unfold N; lia). unfold conv.
    rewrite <- !S_S_scal.
    transitivity (2 * xa * conv N (hc xa ea za) (hc xb eb zb) (u - 2) v + za * conv N (hc xa ea za) (hc xb eb zb) (u - 1) (v - 1) +
                  (2 * xb * conv N (hc xa ea za) (hc xb eb zb) (u - 2) v + zb * conv N (hc xa ea za) (hc xb eb zb) (u - 1) (v - 1))).
    2: { unfold conv. rewrite !S_S_scal. ring. }
    unfold conv at 3 4. rewrite <- !S_S_scal, <- S_S_plus.
    assert (hA : conv N (hc xa ea za) (hc xb eb zb) (u - 2) v = S_ N (fun i => S_ N (fun j => hc xa ea za (i - 2) j * hc xb eb zb (u - i) (v - j)))).
    { unfold conv. rewrite <- (S_shift2 N (fun i => S_ N (fun j => hc xa ea za i j * hc xb eb zb (u - 2 - i) (v - j)))).
      - apply S_ext. intros i _. apply S_ext. intros j _. do 2 f_equal. ring.
      - intros i hi. apply S_zero. intros j _. rewrite (h_neg xa) by lia. ring.
      - intros i hi. apply S_zero. intros j _. rewrite (h_neg xb) by (unfold N in hi; lia). ring. }
    assert (hB : conv N (hc xa ea za) (hc xb eb zb) (u - 1) (v - 1) = S_ N (fun i => S_ N (fun j => hc xa ea za (i - 1) (j - 1) * hc xb eb zb (u - i) (v - j)))).
    { unfold conv. rewrite <- (S_shift N (fun i => S_ N (fun j => hc xa ea za i j * hc xb eb zb (u - 1 - i) (v - 1 - j)))).
      - apply S_ext. intros i _. rewrite <- (S_shift N (fun j => hc xa ea za (i - 1) j * hc xb eb zb (u - 1 - (i - 1)) (v - 1 - j))).
        + apply S_ext. intros j _. f_equal. f_equal; ring.
        + rewrite (h_neg xa) by lia. ring.
        + rewrite (h_neg xb) by (unfold N; lia). ring.
      - apply S_zero. intros j _. rewrite (h_neg xa) by lia. ring.
      - apply S_zero. intros j _. rewrite (h_neg xb) by (unfold N; lia). ring. }
    rewrite hA, hB, <- !S_S_scal, <- !S_S_plus. apply S_ext. intros i _. apply S_ext. intros j _.
    replace (zc u) with (zc i + zc (u - i)) by (rewrite <- zc_plus; f_equal; ring).
    transitivity (zc i * hc xa ea za i j * hc xb eb zb (u - i) (v - j) + hc xa ea za i j * (zc (u - i) * hc xb eb zb (u - i) (v - j))); [ring|].
    rewrite !h_rec1. replace (u - i - 2)%Z with (u - 2 - i)%Z by ring. replace (u - i - 1)%Z with (u - 1 - i)%Z by ring. replace (v - j - 1)%Z with (v - 1 - j)%Z by ring. ring.
  - clear N u v hu hv. intros u v hu hv. set (N := Z.to_nat (Z.max u v + 3)). rewrite !(hf N) by (unfold N; lia). unfold conv.
    rewrite <- !S_S_scal.
    transitivity (2 * ea * conv N (hc xa ea za) (hc xb eb zb) u (v - 2) + za * conv N (hc xa ea za) (hc xb eb zb) (u - 1) (v - 1) +
                  (2 * eb * conv N (hc xa ea za) (hc xb eb zb) u (v - 2) + zb * conv N (hc xa ea za) (hc xb eb zb) (u - 1) (v - 1))).
    2: { unfold conv. rewrite !S_S_scal. ring. }
    unfold conv at 3 4. rewrite <- !S_S_scal, <- S_S_plus.
    assert (hA : conv N (hc xa ea za) (hc xb eb zb) u (v - 2) = S_ N (fun i => S_ N (fun j => hc xa ea za i (j - 2) * hc xb eb zb (u - i) (v - j)))).
    { unfold conv. apply S_ext. intros i _. rewrite <- (S_shift2 N (fun j => hc xa ea za i j * hc xb eb zb (u - i) (v - 2 - j))).
      - apply S_ext. intros j _. do 2 f_equal. ring.
      - intros j hj. rewrite (h_neg xa) by lia. ring.
      - intros j hj. rewrite (h_neg xb) by (unfold N in hj; lia). ring. }
    assert (hB : conv N (hc xa ea za) (hc xb eb zb) (u - 1) (v - 1) = S_ N (fun i => S_ N (fun j => hc xa ea za (i - 1) (j - 1) * hc xb eb zb (u - i) (v - j)))).
    { unfold conv. rewrite <- (S_shift N (fun i => S_ N (fun j => hc xa ea za i j * hc xb eb zb (u - 1 - i) (v - 1 - j)))).
      - apply S_ext. intros i _. rewrite <- (S_shift N (fun j => hc xa ea za (i - 1) j * hc xb eb zb (u - 1 - (i - 1)) (v - 1 - j))).
        + apply S_ext. intros j _. f_equal. f_equal; ring.
        + rewrite (h_neg xa) by lia. ring.
        + rewrite (h_neg xb) by (unfold N; lia). ring.
      - apply S_zero. intros j _. rewrite (h_neg xa) by lia. ring.
      - apply S_zero. intros j _. rewrite (h_neg xb) by (unfold N; lia). ring. }
    rewrite hA, hB, <- !S_S_scal, <- !S_S_plus. apply S_ext. intros i _. apply S_ext. intros j _.
    replace (zc v) with (zc j + zc (v - j)) by (rewrite <- zc_plus; f_equal; ring).
    transitivity (zc j * hc xa ea za i j * hc xb eb zb (u - i) (v - j) + hc xa ea za i j * (zc (v - j) * hc xb eb zb (u - i) (v - j))); [ring|].
    rewrite !h_rec2. replace (v - j - 2)%Z with (v - 2 - j)%Z by ring. replace (u - i - 1)%Z with (u - 1 - i)%Z by ring. replace (v - j - 1)%Z with (v - 1 - j)%Z by ring. ring.
Qed.
