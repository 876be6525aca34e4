(** The kernel: sums over m of harmonics of two vectors *)
From Coq Require Import Reals ZArith List Bool Arith Lia Lra Psatz.
From Coquelicot Require Import Coquelicot.
From Verif Require Import Vec GeomModel GeomSpec GeomProofs ScaModel MpModel MpSpec MpProofs MpProofs2 MpProofs3 MpProofs4 MpProofs5.
Import ListNotations.
Open Scope C_scope.

Definition fz (u : Z) : C := RtoC (INR (fact (Z.to_nat u))).
Lemma fz_S u : (0 <= u)%Z -> fz (u + 1) = zc (u + 1) * fz u.
Proof.
  intros h. unfold fz, zc. replace (Z.to_nat (u + 1)) with (S (Z.to_nat u)) by lia. rewrite fact_simpl, mult_INR, RtoC_mult. f_equal. rewrite INR_IZR_INZ. f_equal. f_equal. lia.
Qed.
Section Kernel.
Variables al be ze xx ee zz : C.
Notation g := (hc al be ze).
Notation h := (hc xx ee zz).
Definition ker (N : nat) (n : Z) : C := S_ N (fun u => fz u * fz (n - u) * g u (n - u)%Z * h u (n - u)%Z).
Lemma ker_long N M n : (n < Z.of_nat N)%Z -> (N <= M)%nat -> ker M n = ker N n.
Proof. intros hn hM. apply S_longer; [exact hM|]. intros i hi. rewrite (h_neg al) by lia. ring. Qed.
Notation rA := (ze * ze - 2 * 2 * al * be).
Notation rB := (zz * zz - 2 * 2 * xx * ee).
(** the three sums with a shifted second factor *)
Lemma sh11 N n (f k : Z -> Z -> C) : (n + 2 < Z.of_nat N)%Z -> (forall u v, (u < 0 \/ v < 0)%Z -> k u v = 0) ->
  S_ N (fun u => f u (n + 2 - u)%Z * k (u - 1)%Z (n + 2 - u - 1)%Z) = S_ N (fun i => f (i + 1)%Z (n - i + 1)%Z * k i (n - i)%Z).
Proof.
  intros hN hk. rewrite <- (S_shift N (fun i => f (i + 1)%Z (n - i + 1)%Z * k i (n - i)%Z)).
  - apply S_ext. intros i _. replace (i - 1 + 1)%Z with i by ring. replace (n - (i - 1) + 1)%Z with (n + 2 - i)%Z by ring. replace (n - (i - 1))%Z with (n + 2 - i - 1)%Z by ring. reflexivity.
  - rewrite hk by lia. ring.
  - rewrite hk by lia. ring.
Qed.
Lemma sh20 N n (f k : Z -> Z -> C) : (n + 2 < Z.of_nat N)%Z -> (forall u v, (u < 0 \/ v < 0)%Z -> k u v = 0) ->
  S_ N (fun u => f u (n + 2 - u)%Z * k (u - 2)%Z (n + 2 - u)%Z) = S_ N (fun i => f (i + 2)%Z (n - i)%Z * k i (n - i)%Z).
Proof.
  intros hN hk. rewrite <- (S_shift2 N (fun i => f (i + 2)%Z (n - i)%Z * k i (n - i)%Z)).
  - apply S_ext. intros i _. replace (i - 2 + 2)%Z with i by ring. replace (n - (i - 2))%Z with (n + 2 - i)%Z by ring. reflexivity.
  - intros i hi. rewrite hk by lia. ring.
  - intros i hi. rewrite hk by lia. ring.
Qed.
Lemma sh02 N n (f k : Z -> Z -> C) : S_ N (fun u => f u (n + 2 - u)%Z * k u (n + 2 - u - 2)%Z) = S_ N (fun i => f i (n - i + 2)%Z * k i (n - i)%Z).
Proof. apply S_ext. intros i _. replace (n + 2 - i - 2)%Z with (n - i)%Z by ring. replace (n - i + 2)%Z with (n + 2 - i)%Z by ring. reflexivity. Qed.
Lemma fz11 i j (x : C) : (0 <= i)%Z -> ((j < 0)%Z -> x = 0) -> fz (i + 1) * fz (j + 1) * x = fz i * fz j * (zc (i + 1) * zc (j + 1) * x).
Proof. intros hi hj. destruct (Z_lt_le_dec j 0) as [h'|h']; [rewrite (hj h'); ring|]. rewrite !fz_S by assumption. ring. Qed.
Lemma fz2 i : (0 <= i)%Z -> fz (i + 2) = zc (i + 2) * zc (i + 2 - 1) * fz i.
Proof. intros hi. replace (i + 2)%Z with (i + 1 + 1)%Z by ring. rewrite !fz_S by lia. replace (i + 1 + 1 - 1)%Z with (i + 1)%Z by ring. ring. Qed.
Lemma ker_rec N n : (n + 4 < Z.of_nat N)%Z -> (0 <= n)%Z ->
  zc (n + 2) * ker N (n + 2) = 2 * zc (n + 1) * (zz * ze + 2 * al * xx + 2 * be * ee) * ker N n - zc n * rA * rB * ker N (n - 2).
Proof.
  intros hN hn.
  set (X := S_ N (fun i => fz i * fz (n - i) * h i (n - i)%Z * (- zz * g (i - 1)%Z (n - i - 1)%Z + ee * g (i - 2)%Z (n - i)%Z + xx * g i (n - i - 2)%Z))).
  assert (A1 : S_ N (fun u => fz u * fz (n + 2 - u) * g u (n + 2 - u)%Z * h (u - 1)%Z (n + 2 - u - 1)%Z) =
     S_ N (fun i => fz i * fz (n - i) * h i (n - i)%Z * (zc (n + 1) * ze * g i (n - i)%Z - rA * g (i - 1)%Z (n - i - 1)%Z))).
  { rewrite (sh11 N n (fun u v => fz u * fz v * g u v) h) by (lia || apply h_neg). apply S_ext. intros i hi. 
    transitivity (fz (i + 1) * fz (n - i + 1) * (g (i + 1)%Z (n - i + 1)%Z * h i (n - i)%Z)); [ring|]. rewrite fz11; [|lia|intros hj; rewrite (h_neg xx) by lia; ring].
    pose proof (h_three al be ze (i + 1) (n - i + 1)) as E. replace (i + 1 + (n - i + 1) - 1)%Z with (n + 1)%Z in E by ring. replace (i + 1 - 1)%Z with i in E by ring. replace (n - i + 1 - 1)%Z with (n - i)%Z in E by ring. replace (i + 1 - 2)%Z with (i - 1)%Z in E by ring. replace (n - i + 1 - 2)%Z with (n - i - 1)%Z in E by ring.
    transitivity (fz i * fz (n - i) * h i (n - i)%Z * (zc (i + 1) * zc (n - i + 1) * g (i + 1)%Z (n - i + 1)%Z)); [ring|]. rewrite E. ring. }
  assert (A2 : S_ N (fun u => fz u * fz (n + 2 - u) * g u (n + 2 - u)%Z * h (u - 2)%Z (n + 2 - u)%Z) =
     S_ N (fun i => fz i * fz (n - i) * h i (n - i)%Z * (zc (n + 1) * (2 * al) * g i (n - i)%Z + rA * g i (n - i - 2)%Z))).
  { rewrite (sh20 N n (fun u v => fz u * fz v * g u v) h) by (lia || apply h_neg). apply S_ext. intros i hi. rewrite fz2 by lia.
    pose proof (h_up1 al be ze (i + 2) (n - i)) as E. replace (i + 2 + (n - i) - 1)%Z with (n + 1)%Z in E by ring. replace (i + 2 - 2)%Z with i in E by ring.
    transitivity (fz i * fz (n - i) * h i (n - i)%Z * (zc (i + 2) * zc (i + 2 - 1) * g (i + 2)%Z (n - i)%Z)); [ring|]. rewrite E. ring. }
  assert (A3 : S_ N (fun u => fz u * fz (n + 2 - u) * g u (n + 2 - u)%Z * h u (n + 2 - u - 2)%Z) =
     S_ N (fun i => fz i * fz (n - i) * h i (n - i)%Z * (zc (n + 1) * (2 * be) * g i (n - i)%Z + rA * g (i - 2)%Z (n - i)%Z))).
  { rewrite (sh02 N n (fun u v => fz u * fz v * g u v) h). apply S_ext. intros i hi. destruct (Z_lt_le_dec (n - i) 0) as [h'|h']; [rewrite (h_neg xx) by lia; ring|]. rewrite fz2 by lia.
    pose proof (h_up2 al be ze i (n - i + 2)) as E. replace (i + (n - i + 2) - 1)%Z with (n + 1)%Z in E by ring. replace (n - i + 2 - 2)%Z with (n - i)%Z in E by ring.
    transitivity (fz i * fz (n - i) * h i (n - i)%Z * (zc (n - i + 2) * zc (n - i + 2 - 1) * g i (n - i + 2)%Z)); [ring|]. rewrite E. ring. }
  assert (E1 : zc (n + 2) * ker N (n + 2) = 2 * zc (n + 1) * (zz * ze + 2 * al * xx + 2 * be * ee) * ker N n + 2 * rA * X).
  { transitivity (2 * zz * S_ N (fun u => fz u * fz (n + 2 - u) * g u (n + 2 - u)%Z * h (u - 1)%Z (n + 2 - u - 1)%Z) +
                  2 * xx * S_ N (fun u => fz u * fz (n + 2 - u) * g u (n + 2 - u)%Z * h (u - 2)%Z (n + 2 - u)%Z) +
                  2 * ee * S_ N (fun u => fz u * fz (n + 2 - u) * g u (n + 2 - u)%Z * h u (n + 2 - u - 2)%Z)).
    - unfold ker. rewrite <- !S_scal, <- !S_plus. apply S_ext. intros u _. pose proof (h_euler xx ee zz u (n + 2 - u)) as E. replace (u + (n + 2 - u))%Z with (n + 2)%Z in E by ring.
      transitivity (fz u * fz (n + 2 - u) * g u (n + 2 - u)%Z * (zc (n + 2) * h u (n + 2 - u)%Z)); [ring|]. rewrite E. ring.
    - rewrite A1, A2, A3. unfold X, ker. rewrite <- !S_scal, <- !S_plus. apply S_ext. intros i _. ring. }
  assert (B1 : S_ N (fun i => fz i * fz (n - i) * h i (n - i)%Z * g (i - 1)%Z (n - i - 1)%Z) = S_ N (fun p => fz p * fz (n - 2 - p) * g p (n - 2 - p)%Z * (zc (n - 1) * zz * h p (n - 2 - p)%Z - rB * h (p - 1)%Z (n - 2 - p - 1)%Z))).
  { pose proof (sh11 N (n - 2) (fun u v => fz u * fz v * h u v) g ltac:(lia) (h_neg al be ze)) as e. replace (n - 2 + 2)%Z with n in e by ring. rewrite e. apply S_ext. intros i hi.
    transitivity (fz (i + 1) * fz (n - 2 - i + 1) * (h (i + 1)%Z (n - 2 - i + 1)%Z * g i (n - 2 - i)%Z)); [ring|]. rewrite fz11; [|lia|intros hj; rewrite (h_neg al) by lia; ring].
    pose proof (h_three xx ee zz (i + 1) (n - 2 - i + 1)) as E. replace (i + 1 + (n - 2 - i + 1) - 1)%Z with (n - 1)%Z in E by ring. replace (i + 1 - 1)%Z with i in E by ring. replace (n - 2 - i + 1 - 1)%Z with (n - 2 - i)%Z in E by ring. replace (i + 1 - 2)%Z with (i - 1)%Z in E by ring. replace (n - 2 - i + 1 - 2)%Z with (n - 2 - i - 1)%Z in E by ring.
    transitivity (fz i * fz (n - 2 - i) * g i (n - 2 - i)%Z * (zc (i + 1) * zc (n - 2 - i + 1) * h (i + 1)%Z (n - 2 - i + 1)%Z)); [ring|]. rewrite E. ring. }
  assert (B2 : S_ N (fun i => fz i * fz (n - i) * h i (n - i)%Z * g (i - 2)%Z (n - i)%Z) = S_ N (fun p => fz p * fz (n - 2 - p) * g p (n - 2 - p)%Z * (zc (n - 1) * (2 * xx) * h p (n - 2 - p)%Z + rB * h p (n - 2 - p - 2)%Z))).
  { pose proof (sh20 N (n - 2) (fun u v => fz u * fz v * h u v) g ltac:(lia) (h_neg al be ze)) as e. replace (n - 2 + 2)%Z with n in e by ring. rewrite e. apply S_ext. intros i hi. rewrite fz2 by lia.
    pose proof (h_up1 xx ee zz (i + 2) (n - 2 - i)) as E. replace (i + 2 + (n - 2 - i) - 1)%Z with (n - 1)%Z in E by ring. replace (i + 2 - 2)%Z with i in E by ring.
    transitivity (fz i * fz (n - 2 - i) * g i (n - 2 - i)%Z * (zc (i + 2) * zc (i + 2 - 1) * h (i + 2)%Z (n - 2 - i)%Z)); [ring|]. rewrite E. ring. }
  assert (B3 : S_ N (fun i => fz i * fz (n - i) * h i (n - i)%Z * g i (n - i - 2)%Z) = S_ N (fun p => fz p * fz (n - 2 - p) * g p (n - 2 - p)%Z * (zc (n - 1) * (2 * ee) * h p (n - 2 - p)%Z + rB * h (p - 2)%Z (n - 2 - p)%Z))).
  { pose proof (sh02 N (n - 2) (fun u v => fz u * fz v * h u v) g) as e. replace (n - 2 + 2)%Z with n in e by ring. rewrite e. apply S_ext. intros i hi. destruct (Z_lt_le_dec (n - 2 - i) 0) as [h'|h']; [rewrite (h_neg al) by lia; ring|]. rewrite fz2 by lia.
    pose proof (h_up2 xx ee zz i (n - 2 - i + 2)) as E. replace (i + (n - 2 - i + 2) - 1)%Z with (n - 1)%Z in E by ring. replace (n - 2 - i + 2 - 2)%Z with (n - 2 - i)%Z in E by ring.
    transitivity (fz i * fz (n - 2 - i) * g i (n - 2 - i)%Z * (zc (n - 2 - i + 2) * zc (n - 2 - i + 2 - 1) * h i (n - 2 - i + 2)%Z)); [ring|]. rewrite E. ring. }
  assert (E2 : 2 * X = - (zc n * rB * ker N (n - 2))).
  { transitivity (2 * (- zz * S_ N (fun i => fz i * fz (n - i) * h i (n - i)%Z * g (i - 1)%Z (n - i - 1)%Z) + ee * S_ N (fun i => fz i * fz (n - i) * h i (n - i)%Z * g (i - 2)%Z (n - i)%Z) + xx * S_ N (fun i => fz i * fz (n - i) * h i (n - i)%Z * g i (n - i - 2)%Z))).
    - f_equal. unfold X. rewrite <- !S_scal, <- !S_plus. apply S_ext. intros i _. ring.
    - rewrite B1, B2, B3. transitivity (S_ N (fun p => rB * (fz p * fz (n - 2 - p) * g p (n - 2 - p)%Z) * (- (2 * zc (n - 1)) * h p (n - 2 - p)%Z + 2 * (zz * h (p - 1)%Z (n - 2 - p - 1)%Z + xx * h (p - 2)%Z (n - 2 - p)%Z + ee * h p (n - 2 - p - 2)%Z)))).
      + rewrite <- !S_scal, <- !S_plus, <- S_scal. apply S_ext. intros i _. rewrite two_c. ring.
      + unfold ker. transitivity (- (zc n * rB) * S_ N (fun u => fz u * fz (n - 2 - u) * g u (n - 2 - u)%Z * h u (n - 2 - u)%Z)); [|ring]. rewrite <- S_scal. apply S_ext. intros p _. rewrite <- h_euler. replace (p + (n - 2 - p))%Z with (n - 2)%Z by ring. 
        rewrite !zc_minus, zc_1, zc_2, two_c. ring. }
  rewrite E1. transitivity (2 * zc (n + 1) * (zz * ze + 2 * al * xx + 2 * be * ee) * ker N n + rA * (2 * X)); [ring|]. rewrite E2. ring.
Qed.
Lemma ker_0 N : (0 < N)%nat -> ker N 0 = 1.
Proof.
  intros hN. unfold ker, S_. rewrite (csum_single N 0 _ hN).
  - change (0 - Z.of_nat 0)%Z with 0%Z. change (Z.of_nat 0) with 0%Z. rewrite !h_00. change (fz 0) with (RtoC 1). ring.
  - intros i hi hne. rewrite (h_neg al) by lia. ring.
Qed.
Lemma ker_neg N n : (n < 0)%Z -> ker N n = 0.
Proof. intros hn. apply S_zero. intros i hi. rewrite (h_neg al) by lia. ring. Qed.
End Kernel.
(** ** Real vectors *)
(** l k_l = (2l-1) p k_(l-1) - (l-1) s k_(l-2) *)
Fixpoint leg2 (p s : R) (n : nat) : R * R :=
  match n with
  | O => (1, p)%R
  | S n => let (a, b) := leg2 p s n in (b, ((2 * INR (S (S n)) - 1) * p * b - INR (S n) * s * a) / INR (S (S n)))%R
  end.
Definition leg (p s : R) (n : nat) : R := fst (leg2 p s n).
Lemma leg2_S p s n : leg2 p s n = (leg p s n, leg p s (S n)).
Proof. unfold leg. cbn [leg2]. destruct (leg2 p s n) as [a b]. reflexivity. Qed.
Lemma leg_rec p s n : (INR (S (S n)) * leg p s (S (S n)) = (2 * INR (S (S n)) - 1) * p * leg p s (S n) - INR (S n) * s * leg p s n)%R.
Proof. unfold leg at 1. cbn [leg2]. rewrite leg2_S. cbn [fst]. field. apply not_0_INR. lia. Qed.
Definition kern (a b : v3) (l : nat) : C := zsum (- Z.of_nat l) (Z.of_nat l) (fun m => RtoC (INR (fact (Z.to_nat (Z.of_nat l + m))) * INR (fact (Z.to_nat (Z.of_nat l - m)))) * Cconj (solid a l m) * solid b l m).
Lemma hr_conj a u v : Cconj (hr a u v) = hc (Cconj (xi a)) (Cconj (eta a)) (RtoC (vz a)) u v.
Proof.
  unfold hr, hc, S_. rewrite csum_conj. apply csum_ext. intros s _. rewrite !conj_mult. 
  assert (he : forall x n, Cconj (ez x n) = ez (Cconj x) n). { intros x n. unfold ez. destruct (n <? 0)%Z; [apply conj_R|apply ediv_conj]. }
  assert (he2 : forall x n, Cconj (e2 x n) = e2 (Cconj x) n). { intros x n. unfold e2. destruct (Z.even n); [apply he|apply conj_R]. }
  rewrite !he2, he, conj_R. reflexivity.
Qed.
Lemma kern_ker a b l N : (2 * l < N)%nat -> kern a b l = ker (Cconj (xi a)) (Cconj (eta a)) (RtoC (vz a)) (xi b) (eta b) (RtoC (vz b)) N (2 * Z.of_nat l).
Proof.
  intros hN. unfold kern, ker.
  transitivity (zsum 0 (2 * Z.of_nat l) (fun u => fz u * fz (2 * Z.of_nat l - u) * hc (Cconj (xi a)) (Cconj (eta a)) (RtoC (vz a)) u (2 * Z.of_nat l - u) * hc (xi b) (eta b) (RtoC (vz b)) u (2 * Z.of_nat l - u))).
  - rewrite (zsum_shift 0 (2 * Z.of_nat l) (Z.of_nat l)). replace (0 - Z.of_nat l)%Z with (- Z.of_nat l)%Z by ring. replace (2 * Z.of_nat l - Z.of_nat l)%Z with (Z.of_nat l) by ring. apply zsum_ext. intros m hm.
    rewrite !solid_hc. rewrite hr_conj. unfold hr, fz. rewrite RtoC_mult. replace (2 * Z.of_nat l - (m + Z.of_nat l))%Z with (Z.of_nat l - m)%Z by ring. rewrite (Z.add_comm m). reflexivity.
  - unfold zsum, S_. replace (Z.to_nat (2 * Z.of_nat l - 0 + 1)) with (2 * l + 1)%nat by lia. symmetry. rewrite (csum_longer (2 * l + 1) N); [|lia|].
    + apply csum_ext. intros i _. rewrite Z.add_0_l. reflexivity.
    + intros i hi. rewrite (h_neg (xi b)) by lia. ring.
Qed.
Lemma kern_rec a b l : RtoC (INR (S (S l))) * kern a b (S (S l)) = RtoC ((2 * INR (S (S l)) - 1) * vdot a b) * kern a b (S l) - RtoC (INR (S l) * (vdot a a * vdot b b)) * kern a b l.
Proof.
  set (N := (2 * S (S (S l)) + 2)%nat). rewrite !(kern_ker a b _ N) by (unfold N; lia).
  pose proof (ker_rec (Cconj (xi a)) (Cconj (eta a)) (RtoC (vz a)) (xi b) (eta b) (RtoC (vz b)) N (2 * Z.of_nat (S l)) ltac:(unfold N; lia) ltac:(lia)) as E.
  replace (2 * Z.of_nat (S l) + 2)%Z with (2 * Z.of_nat (S (S l)))%Z in E by lia. replace (2 * Z.of_nat (S l) - 2)%Z with (2 * Z.of_nat l)%Z in E by lia. set (k2 := ker _ _ _ _ _ _ N (2 * Z.of_nat (S (S l)))) in *. set (k1 := ker _ _ _ _ _ _ N (2 * Z.of_nat (S l))) in *. set (k0 := ker _ _ _ _ _ _ N (2 * Z.of_nat l)) in *. clearbody k0 k1 k2.
  apply (cmult_cancel (RtoC 2)); [exact half_c|]. rewrite !zc_mult, zc_2, !zc_nat in E. rewrite Cmult_assoc, E.
  replace (zc (2 * Z.of_nat (S l) + 1)) with (RtoC (2 * INR (S (S l)) - 1)). 2: { unfold zc. f_equal. rewrite plus_IZR, mult_IZR, <- INR_IZR_INZ, (S_INR (S l)). ring. }
  replace (RtoC (vz b) * RtoC (vz a) + 2 * Cconj (xi a) * xi b + 2 * Cconj (eta a) * eta b) with (RtoC (vdot a b)) by (unfold vdot; apply c_eq; cbn; field).
  replace (RtoC (vz a) * RtoC (vz a) - 2 * 2 * Cconj (xi a) * Cconj (eta a)) with (RtoC (vdot a a)) by (unfold vdot; apply c_eq; cbn; field).
  replace (RtoC (vz b) * RtoC (vz b) - 2 * 2 * xi b * eta b) with (RtoC (vdot b b)) by (unfold vdot; apply c_eq; cbn; field).
  rewrite !RtoC_mult. ring.
Qed.
Lemma kern_0 a b : kern a b 0 = 1.
Proof. rewrite (kern_ker a b 0 1) by lia. apply ker_0. lia. Qed.
Lemma kern_1 a b : kern a b 1 = RtoC (vdot a b).
Proof.
  unfold kern. change (- Z.of_nat 1)%Z with (-1)%Z. change (Z.of_nat 1) with 1%Z. rewrite zsum3. destruct (solid_1 a) as [-> [-> ->]]. destruct (solid_1 b) as [-> [-> ->]].
  change (Z.to_nat (1 + -1)) with 0%nat. change (Z.to_nat (1 - -1)) with 2%nat. change (Z.to_nat (1 + 0)) with 1%nat. change (Z.to_nat (1 - 0)) with 1%nat. change (Z.to_nat (1 + 1)) with 2%nat. change (Z.to_nat (1 - 1)) with 0%nat. unfold vdot. apply c_eq; cbn; field.
Qed.
Theorem kern_leg a b l : kern a b l = RtoC (leg (vdot a b) (vdot a a * vdot b b) l).
Proof.
  assert (h : kern a b l = RtoC (leg (vdot a b) (vdot a a * vdot b b) l) /\ kern a b (S l) = RtoC (leg (vdot a b) (vdot a a * vdot b b) (S l))); [|apply h].
  induction l as [|l [IH0 IH1]]; [split; [apply kern_0|apply kern_1]|]. split; [exact IH1|]. apply (cmult_cancel (RtoC (INR (S (S l))))); [apply RtoC_neq, not_0_INR; lia|].
  rewrite kern_rec, IH0, IH1, <- !RtoC_mult, <- RtoC_minus. f_equal. rewrite leg_rec. ring.
Qed.
(** ** Bounds *)
Lemma leg_square s n : leg s (s * s) n = (s ^ n)%R.
Proof.
  assert (h : leg s (s * s) n = (s ^ n)%R /\ leg s (s * s) (S n) = (s ^ S n)%R); [|apply h]. induction n as [|n [IH0 IH1]]; [split; [reflexivity|unfold leg; cbn; ring]|]. split; [exact IH1|].
  apply (Rmult_eq_reg_l (INR (S (S n)))); [|apply not_0_INR; lia]. rewrite leg_rec, IH0, IH1, (S_INR (S n)). cbn [pow]. ring.
Qed.
Lemma zsum_re lo hi f : Re (zsum lo hi f) = rsum (Z.to_nat (hi - lo + 1)) (fun i => Re (f (lo + Z.of_nat i)%Z)). Proof. apply csum_re. Qed.
Lemma kern_bound a b l (t : R) : (0 < t)%R -> (Rabs (leg (vdot a b) (vdot a a * vdot b b) l) <= (t * vdot a a ^ l + / t * vdot b b ^ l) / 2)%R.
Proof.
  intros ht.
  assert (hk : forall a b, leg (vdot a b) (vdot a a * vdot b b) l = rsum (Z.to_nat (Z.of_nat l - - Z.of_nat l + 1)) (fun i => let m := (- Z.of_nat l + Z.of_nat i)%Z in
     INR (fact (Z.to_nat (Z.of_nat l + m))) * INR (fact (Z.to_nat (Z.of_nat l - m))) * (Re (solid a l m) * Re (solid b l m) + Im (solid a l m) * Im (solid b l m)))%R).
  { clear. intros a b. pose proof (kern_leg a b l) as e. apply (f_equal Re) in e. unfold kern in e. rewrite zsum_re in e. cbn [Re fst RtoC] in e. rewrite <- e. apply rsum_ext. intros i _. cbn zeta. set (m := (- Z.of_nat l + Z.of_nat i)%Z).
    destruct (solid a l m) as [ax ay], (solid b l m) as [bx by_]. unfold Re, Im, Cmult, Cconj, RtoC. cbn [fst snd]. ring. }
  pose proof (hk a a) as ha. pose proof (hk b b) as hb. rewrite leg_square in ha, hb. rewrite ha, hb, (hk a b). clear ha hb hk. cbn zeta.
  rewrite <- !rsum_scal, <- rsum_plus. rewrite Rabs_le_between. set (n := Z.to_nat _).
  assert (key : forall w ax ay bx by_ : R, (0 <= w -> - ((t * (w * (ax * ax + ay * ay)) + / t * (w * (bx * bx + by_ * by_))) / 2) <= w * (ax * bx + ay * by_) <= (t * (w * (ax * ax + ay * ay)) + / t * (w * (bx * bx + by_ * by_))) / 2)%R).
  { intros w ax ay bx by_ hw. assert (hq : forall x y : R, (- ((t * (x * x) + / t * (y * y)) / 2) <= x * y <= (t * (x * x) + / t * (y * y)) / 2)%R).
    { intros x y. assert (e1 : (t * (x * x) + / t * (y * y) - 2 * (x * y) = / t * ((t * x - y) * (t * x - y)))%R) by (field; lra). assert (e2 : (t * (x * x) + / t * (y * y) + 2 * (x * y) = / t * ((t * x + y) * (t * x + y)))%R) by (field; lra).
      assert (hi : (0 < / t)%R) by (apply Rinv_0_lt_compat; exact ht). assert (p1 := Rle_0_sqr (t * x - y)). assert (p2 := Rle_0_sqr (t * x + y)). unfold Rsqr in *. split; nra. }
    pose proof (hq ax bx) as [q1 q2]. pose proof (hq ay by_) as [q3 q4]. set (T := (/ t)%R) in *. clearbody T. split.
    - apply Rle_trans with (w * (- ((t * (ax * ax) + T * (bx * bx)) / 2) + - ((t * (ay * ay) + T * (by_ * by_)) / 2)))%R; [apply Req_le; field|]. apply Rmult_le_compat_l; lra.
    - apply Rle_trans with (w * ((t * (ax * ax) + T * (bx * bx)) / 2 + (t * (ay * ay) + T * (by_ * by_)) / 2))%R; [apply Rmult_le_compat_l; lra|apply Req_le; field]. }
  assert (hw : forall i : nat, (0 <= INR (fact (Z.to_nat (Z.of_nat l + (- Z.of_nat l + Z.of_nat i)))) * INR (fact (Z.to_nat (Z.of_nat l - (- Z.of_nat l + Z.of_nat i)))))%R) by (intros; apply Rmult_le_pos; apply pos_INR).
  unfold Rdiv. rewrite (Rmult_comm _ (/ 2)), <- rsum_scal. split.
  - rewrite <- rsum_opp. apply rsum_le. intros i _. rewrite (Rmult_comm (/ 2)). apply (key _ _ _ _ _ (hw i)).
  - apply rsum_le. intros i _. rewrite (Rmult_comm (/ 2)). apply (key _ _ _ _ _ (hw i)).
Qed.
Theorem leg_bound a b l : (Rabs (leg (vdot a b) (vdot a a * vdot b b) l) <= vnorm a ^ l * vnorm b ^ l)%R.
Proof.
  assert (hn : forall v, vdot v v = (vnorm v * vnorm v)%R). { intros v. rewrite norm_sq. unfold vdot. reflexivity. }
  assert (hz : forall v, (0 <= vnorm v)%R) by (intros v; apply sqrt_pos).
  destruct (Req_dec (vnorm a) 0) as [e|e].
  - (* a = 0 *) assert (ha : vdot a a = 0%R) by (rewrite hn, e; ring). assert (hx : a = vzero). { unfold vdot in ha. apply v3_eq; cbn; nra. } subst a. replace (vdot vzero b) with 0%R by (unfold vdot; cbn; ring). replace (vdot vzero vzero * vdot b b)%R with (0 * 0)%R by (unfold vdot; cbn; ring).
    rewrite leg_square, e. destruct l as [|l]; [cbn; rewrite Rabs_R1; lra|]. rewrite !pow_i by lia. rewrite Rabs_R0. lra.
  - destruct (Req_dec (vnorm b) 0) as [e'|e'].
    + assert (hb : vdot b b = 0%R) by (rewrite hn, e'; ring). assert (hx : b = vzero). { unfold vdot in hb. apply v3_eq; cbn; nra. } subst b. replace (vdot a vzero) with 0%R by (unfold vdot; cbn; ring). replace (vdot a a * vdot vzero vzero)%R with (0 * 0)%R by (unfold vdot; cbn; ring).
      rewrite leg_square, e'. destruct l as [|l]; [cbn; rewrite Rabs_R1; lra|]. rewrite !pow_i by lia. rewrite Rabs_R0. lra.
    + assert (pa : (0 < vnorm a ^ l)%R) by (apply pow_lt; specialize (hz a); lra). assert (pb : (0 < vnorm b ^ l)%R) by (apply pow_lt; specialize (hz b); lra).
      eapply Rle_trans; [apply (kern_bound a b l (vnorm b ^ l / vnorm a ^ l)); apply Rdiv_lt_0_compat; assumption|]. rewrite !hn, !Rpow_mult_distr. apply Req_le. field. lra.
Qed.
