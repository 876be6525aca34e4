(** The harmonics computed by the code are the solid harmonics *)
From Coq Require Import Reals ZArith List Bool Arith Lia Lra Psatz.
From Coquelicot Require Import Coquelicot.
From Verif Require Import Vec GeomModel GeomProofs ScaModel MpModel MpSpec MpProofs.
Import ListNotations.
Open Scope C_scope.

(** ** The closed formula and the coefficients *)
Lemma e2_sum x n l : (n < 2 * Z.of_nat l)%Z -> e2 x n = csum l (fun p => if (n =? 2 * Z.of_nat p)%Z then ediv x p else 0).
Proof.
  intros hn. unfold e2. destruct (Z.even n) eqn:E.
  - apply Z.even_spec in E. destruct E as [k ->]. rewrite (Z.mul_comm 2 k) at 1. rewrite Z.div_mul by lia. unfold ez. destruct (k <? 0)%Z eqn:E1.
    + symmetry. apply csum_zero. intros p hp. apply Z.ltb_lt in E1. replace (2 * k =? 2 * Z.of_nat p)%Z with false by (symmetry; apply Z.eqb_neq; lia). reflexivity.
    + apply Z.ltb_ge in E1. rewrite (csum_single l (Z.to_nat k)); [|lia|].
      * replace (2 * k =? 2 * Z.of_nat (Z.to_nat k))%Z with true by (symmetry; apply Z.eqb_eq; lia). reflexivity.
      * intros i hi hne. replace (2 * k =? 2 * Z.of_nat i)%Z with false by (symmetry; apply Z.eqb_neq; lia). reflexivity.
  - symmetry. apply csum_zero. intros p hp. destruct (Z.eqb_spec n (2 * Z.of_nat p)) as [e|_]; [|reflexivity]. subst n. rewrite Z.even_mul in E. discriminate E.
Qed.
Lemma solid_out r l m : (m < - Z.of_nat l \/ Z.of_nat l < m)%Z -> solid r l m = 0.
Proof.
  intros hm. apply csum_zero. intros p hp. apply csum_zero. intros q hq. destruct (Z.eqb_spec (Z.of_nat p - Z.of_nat q) m) as [e|_]; [|reflexivity]. lia.
Qed.
Definition hr (r : v3) : Z -> Z -> C := hc (xi r) (eta r) (RtoC (vz r)).
Lemma solid_hc r l m : solid r l m = hr r (Z.of_nat l + m) (Z.of_nat l - m).
Proof.
  destruct (Z_lt_le_dec m (- Z.of_nat l)) as [h1|h1]; [unfold hr; rewrite solid_out, h_neg by lia; reflexivity|].
  destruct (Z_lt_le_dec (Z.of_nat l) m) as [h2|h2]; [unfold hr; rewrite solid_out, h_neg by lia; reflexivity|].
  unfold hr, hc. set (N := Z.to_nat _). set (u := (Z.of_nat l + m)%Z). set (v := (Z.of_nat l - m)%Z). assert (hN : (Z.of_nat N = Z.max u v + 1)%Z) by (unfold N, u, v; lia).
  transitivity (S_ N (fun s => csum (S l) (fun p => csum (S l) (fun q =>
     (if (u - s =? 2 * Z.of_nat p)%Z then ediv (xi r) p else 0) * (if (v - s =? 2 * Z.of_nat q)%Z then ediv (eta r) q else 0) * ez (RtoC (vz r)) s)))).
  - unfold S_. rewrite csum_swap. unfold solid. apply csum_ext. intros p hp. rewrite csum_swap. apply csum_ext. intros q hq.
    destruct (Z.eqb_spec (Z.of_nat p - Z.of_nat q) m) as [e|e].
    + destruct (Nat.leb_spec (p + q) l) as [hl|hl]; cbn [andb].
      * rewrite (csum_single N (Z.to_nat (u - 2 * Z.of_nat p))).
        -- replace (u - Z.of_nat (Z.to_nat (u - 2 * Z.of_nat p)) =? 2 * Z.of_nat p)%Z with true by (symmetry; apply Z.eqb_eq; unfold u; lia).
           replace (v - Z.of_nat (Z.to_nat (u - 2 * Z.of_nat p)) =? 2 * Z.of_nat q)%Z with true by (symmetry; apply Z.eqb_eq; unfold u, v; lia).
           f_equal. unfold ez. replace (Z.of_nat (Z.to_nat (u - 2 * Z.of_nat p)) <? 0)%Z with false by (symmetry; apply Z.ltb_ge; lia).
           rewrite Nat2Z.id. replace (Z.to_nat (u - 2 * Z.of_nat p)) with (l - p - q)%nat by (unfold u; lia). reflexivity.
        -- unfold u in *. lia.
        -- intros i hi hne. replace (u - Z.of_nat i =? 2 * Z.of_nat p)%Z with false by (symmetry; apply Z.eqb_neq; unfold u in *; lia). ring.
      * symmetry. apply csum_zero. intros i hi. replace (u - Z.of_nat i =? 2 * Z.of_nat p)%Z with false by (symmetry; apply Z.eqb_neq; unfold u in *; lia). ring.
    + cbn [andb]. symmetry. apply csum_zero. intros i hi. destruct (Z.eqb_spec (u - Z.of_nat i) (2 * Z.of_nat p)) as [e1|_]; [|ring].
      destruct (Z.eqb_spec (v - Z.of_nat i) (2 * Z.of_nat q)) as [e3|_]; [|ring]. unfold u, v in *. lia.
  - apply S_ext. intros s hs. rewrite (e2_sum _ (u - s) (S l)) by (unfold u; lia). rewrite (e2_sum _ (v - s) (S l)) by (unfold v; lia).
    rewrite <- csum_scal_r, <- csum_scal_r. apply csum_ext. intros p hp. rewrite <- csum_scal, <- csum_scal_r. reflexivity.
Qed.
(** ** Conjugation *)
Definition sg (m : Z) : C := RtoC (sgn (Z.abs_nat m)).
Lemma ediv_conj x n : Cconj (ediv x n) = ediv (Cconj x) n.
Proof.
  unfold ediv, Cdiv. rewrite conj_mult. f_equal.
  - induction n as [|n IH]; cbn [cpow]; [apply conj_R|]. rewrite conj_mult, IH. reflexivity.
  - rewrite <- RtoC_inv by apply INR_fact_neq_0. apply conj_R.
Qed.
Lemma ediv_opp x n : ediv (- x) n = RtoC (sgn n) * ediv x n.
Proof.
  unfold ediv, sgn. replace (cpow (- x) n) with (RtoC ((-1) ^ n) * cpow x n); [field; apply fact_neq|].
  induction n as [|n IH]; cbn [cpow pow]; [ring|]. rewrite <- IH, RtoC_mult. replace (RtoC (-1)) with (- RtoC 1) by (rewrite <- RtoC_opp; reflexivity). ring.
Qed.
Lemma conj_xi r : Cconj (xi r) = - eta r.
Proof. apply c_eq; cbn; field. Qed.
Lemma conj_eta r : Cconj (eta r) = - xi r.
Proof. apply c_eq; cbn; field. Qed.
Lemma sgn_mul a b : (sgn a * sgn b = sgn (a + b))%R.
Proof. unfold sgn. rewrite pow_add. reflexivity. Qed.
Lemma sgn_sq a : (sgn a * sgn a = 1)%R.
Proof. unfold sgn. rewrite <- Rpow_mult_distr. replace (-1 * -1)%R with 1%R by ring. apply pow1. Qed.
Lemma sgn_even a : sgn (a + a) = 1%R.
Proof. rewrite <- sgn_mul. apply sgn_sq. Qed.
Lemma solid_conj r l m : Cconj (solid r l m) = sg m * solid r l (- m).
Proof.
  unfold solid. rewrite csum_conj, <- csum_scal.
  transitivity (csum (S l) (fun p => csum (S l) (fun q =>
    sg m * if ((Z.of_nat q - Z.of_nat p =? - m)%Z && (q + p <=? l)%nat)%bool then ediv (xi r) q * ediv (eta r) p * ediv (RtoC (vz r)) (l - q - p) else 0))).
  - apply csum_ext. intros p hp. rewrite csum_conj. apply csum_ext. intros q hq.
    replace (Z.of_nat q - Z.of_nat p =? - m)%Z with (Z.of_nat p - Z.of_nat q =? m)%Z by (destruct (Z.eqb_spec (Z.of_nat p - Z.of_nat q) m), (Z.eqb_spec (Z.of_nat q - Z.of_nat p) (- m)); lia || reflexivity).
    rewrite (Nat.add_comm q p). destruct (Z.eqb_spec (Z.of_nat p - Z.of_nat q) m) as [e|e]; cbn [andb]; [|rewrite conj_R; ring].
    destruct (p + q <=? l)%nat; [|rewrite conj_R; ring]. rewrite !conj_mult, !ediv_conj, conj_R, conj_xi, conj_eta, !ediv_opp.
    replace (l - p - q)%nat with (l - q - p)%nat by lia.
    replace (sg m) with (RtoC (sgn p) * RtoC (sgn q)); [ring|]. unfold sg. rewrite <- RtoC_mult. f_equal.
    destruct (le_lt_dec q p) as [hqp|hqp].
    + replace p with (Z.abs_nat m + q)%nat by lia. rewrite <- sgn_mul. rewrite Rmult_assoc, sgn_sq. ring.
    + replace q with (Z.abs_nat m + p)%nat by lia. rewrite <- sgn_mul. rewrite <- Rmult_assoc, (Rmult_comm _ (sgn p)), <- Rmult_assoc, sgn_sq. ring.
  - rewrite csum_swap. apply csum_ext. intros p hp. rewrite <- csum_scal. reflexivity.
Qed.
(** ** Polar coordinates *)
Lemma atan2_polar y x : (sqrt (x * x + y * y) * cos (atan2 y x) = x /\ sqrt (x * x + y * y) * sin (atan2 y x) = y)%R.
Proof.
  unfold atan2.
  assert (hat : forall x y, (x <> 0 -> sqrt (x * x + y * y) * cos (atan (y / x)) = Rabs x /\ sqrt (x * x + y * y) * sin (atan (y / x)) = y * (Rabs x / x))%R).
  { clear. intros x y hx. assert (hs : (sqrt (x * x + y * y) = Rabs x * sqrt (1 + (y / x) ^ 2))%R).
    { rewrite <- (sqrt_Rsqr_abs x), <- sqrt_mult_alt by apply Rle_0_sqr. f_equal. unfold Rsqr. field. exact hx. }
    assert (hp : (0 < sqrt (1 + (y / x) ^ 2))%R) by (apply sqrt_lt_R0; pose proof (pow2_ge_0 (y / x)); lra).
    rewrite hs, cos_atan, sin_atan. replace (1 + (y / x)²)%R with (1 + (y / x) ^ 2)%R by (unfold Rsqr; ring). split; field; lra. }
  destruct (ltb 0 x) eqn:E1; [apply ltb_true in E1|apply ltb_false in E1].
  - destruct (hat x y) as [h1 h2]; [lra|]. rewrite h1, h2, Rabs_pos_eq by lra. split; [reflexivity|field; lra].
  - destruct (ltb x 0) eqn:E2; [apply ltb_true in E2|apply ltb_false in E2].
    + destruct (hat x y) as [h1 h2]; [lra|]. rewrite Rabs_left in h1, h2 by lra. replace (y * (- x / x))%R with (- y)%R in h2 by (field; lra).
      destruct (leb 0 y).
      * rewrite neg_cos, neg_sin. rewrite !Ropp_mult_distr_r_reverse, h1, h2. split; ring.
      * replace (atan (y / x) - PI)%R with (- (PI - atan (y / x)))%R by ring. rewrite cos_neg, sin_antisym. rewrite cos_minus, sin_minus, cos_PI, sin_PI. 
        split; [transitivity (- (sqrt (x * x + y * y) * cos (atan (y / x))))%R; [ring|rewrite h1; ring]|transitivity (- (sqrt (x * x + y * y) * sin (atan (y / x))))%R; [ring|rewrite h2; ring]].
    + assert (hx : x = 0%R) by lra. subst x. replace (0 * 0 + y * y)%R with (Rsqr y) by (unfold Rsqr; ring). rewrite sqrt_Rsqr_abs.
      destruct (ltb 0 y) eqn:E3; [apply ltb_true in E3|apply ltb_false in E3].
      * rewrite cos_PI2, sin_PI2, Rabs_pos_eq by lra. split; ring.
      * destruct (ltb y 0) eqn:E4; [apply ltb_true in E4|apply ltb_false in E4].
        -- rewrite cos_neg, sin_neg, cos_PI2, sin_PI2, Rabs_left by lra. split; ring.
        -- assert (hy : y = 0%R) by lra. subst y. rewrite Rabs_R0. split; ring.
Qed.
Lemma norm_pos r : is_zero r = false -> (0 < vnorm r)%R.
Proof.
  intros h. apply sqrt_lt_R0. unfold is_zero in h. unfold vdot. destruct (Req_EM_T (vx r) 0) as [e1|e1], (Req_EM_T (vy r) 0) as [e3|e3], (Req_EM_T (vz r) 0) as [e4|e4]; cbn in h; try discriminate h;
    nra.
Qed.
Lemma norm_sq r : (vnorm r * vnorm r = vx r * vx r + vy r * vy r + vz r * vz r)%R.
Proof. unfold vnorm, vdot. apply sqrt_sqrt. nra. Qed.
Lemma is_zero_true r : is_zero r = true -> r = vzero.
Proof.
  unfold is_zero. destruct (Req_EM_T (vx r) 0), (Req_EM_T (vy r) 0), (Req_EM_T (vz r) 0); cbn; try discriminate. intros _. destruct r; cbn in *; subst; reflexivity.
Qed.
(** r sin(theta) e^(i phi) = x + iy *)
Lemma polar_xi r : is_zero r = false -> let '(x, c, p) := to_spherical r in
  RtoC (x * sqrt (1 - c * c)) * cis p = - (RtoC 2 * xi r) /\ (x * c = vz r)%R /\ (0 < x)%R.
Proof.
  intros h. pose proof (norm_pos r h) as hx. pose proof (norm_sq r) as hn. unfold to_spherical. split; [|split; [field; lra|exact hx]].
  assert (hs : (vnorm r * sqrt (1 - vz r / vnorm r * (vz r / vnorm r)) = sqrt (vx r * vx r + vy r * vy r))%R).
  { rewrite <- (sqrt_Rsqr (vnorm r)) at 1 by lra. rewrite <- sqrt_mult_alt by apply Rle_0_sqr. f_equal. unfold Rsqr.
    transitivity (vnorm r * vnorm r - vz r * vz r)%R; [field; lra|rewrite hn; ring]. }
  rewrite hs. destruct (atan2_polar (vy r) (vx r)) as [h1 h2]. apply c_eq; cbn; nra.
Qed.
Lemma cis_add a b : cis (a + b) = cis a * cis b.
Proof. unfold cis. rewrite cos_plus, sin_plus. apply c_eq; cbn; ring. Qed.
(** ** Tables filled row by row *)
Section Table.
Variables (x c s : R) (ph : R) (r : v3).
Hypothesis Hxi : RtoC (x * s) * cis ph = - (RtoC 2 * xi r).
Hypothesis Hz : (x * c)%R = vz r.
Hypothesis Hrho : RtoC (x * x) = RtoC (vz r) * RtoC (vz r) - RtoC 2 * RtoC 2 * xi r * eta r.
Definition tabR (l m : nat) : C := RtoC (x ^ l * legendre_R c s l m) * cis (INR m * ph).
Lemma rrows_S n : rrows c s (S n) = (snd (rrows c s n), rrow c s (S (S n)) (fst (rrows c s n)) (snd (rrows c s n))).
Proof. cbn [rrows]. destruct (rrows c s n). reflexivity. Qed.
Lemma legR_SS n : legendre_R c s (S (S n)) = rrow c s (S (S n)) (legendre_R c s n) (legendre_R c s (S n)).
Proof. unfold legendre_R. rewrite rrows_S. cbn [fst]. rewrite rrows_S. reflexivity. Qed.
Lemma tabR_ok_pair l : (forall m, (m <= l)%nat -> tabR l m = hr r (Z.of_nat l + Z.of_nat m) (Z.of_nat l - Z.of_nat m)) /\
                       (forall m, (m <= S l)%nat -> tabR (S l) m = hr r (Z.of_nat (S l) + Z.of_nat m) (Z.of_nat (S l) - Z.of_nat m)).
Proof.
  induction l as [|l [IH0 IH1]].
  - split.
    + intros m hm. replace m with 0%nat by lia. unfold tabR, hr. change (Z.of_nat 0 + Z.of_nat 0)%Z with 0%Z. change (Z.of_nat 0 - Z.of_nat 0)%Z with 0%Z.
      rewrite h_00. apply c_eq; cbn; rewrite Rmult_0_l, ?cos_0, ?sin_0; ring.
    + intros m hm. unfold tabR, hr. destruct m as [|m].
      * change (Z.of_nat 1 + Z.of_nat 0)%Z with 1%Z. change (Z.of_nat 1 - Z.of_nat 0)%Z with 1%Z.
        pose proof (h_rec1 (xi r) (eta r) (RtoC (vz r)) 1 1) as E. rewrite (h_neg _ _ _ (1 - 2)) in E by lia. change (1 - 1)%Z with 0%Z in E. rewrite h_00, zc_1 in E.
        transitivity (RtoC (vz r)); [|transitivity (1 * hc (xi r) (eta r) (RtoC (vz r)) 1 1); [rewrite E; ring|ring]].
        rewrite <- Hz. apply c_eq; cbn; rewrite Rmult_0_l, ?cos_0, ?sin_0; ring.
      * replace m with 0%nat by lia. change (Z.of_nat 1 + Z.of_nat 1)%Z with 2%Z. change (Z.of_nat 1 - Z.of_nat 1)%Z with 0%Z.
        pose proof (h_rec1 (xi r) (eta r) (RtoC (vz r)) 2 0) as E. rewrite (h_neg _ _ _ (2 - 1) (0 - 1)) in E by lia. change (2 - 2)%Z with 0%Z in E. rewrite h_00, zc_2 in E.
        apply (cmult_cancel 2); [apply RtoC_neq; lra|]. rewrite E. transitivity (- (RtoC (x * s) * cis ph)); [|rewrite Hxi; ring].
        change (INR 1) with 1%R. rewrite Rmult_1_l. change (legendre_R c s 1 1) with (- s / 2)%R. apply c_eq; cbn; field.
  - split; [exact IH1|]. intros m hm. unfold tabR. rewrite legR_SS. unfold rrow.
    destruct (Nat.eqb_spec m (S (S l))) as [->|hne].
    + replace (S (S l) - 1)%nat with (S l) by lia. replace (Z.of_nat (S (S l)) - Z.of_nat (S (S l)))%Z with 0%Z by lia.
      pose proof (h_rec1 (xi r) (eta r) (RtoC (vz r)) (Z.of_nat (S (S l)) + Z.of_nat (S (S l))) 0) as E. rewrite (h_neg _ _ _ _ (0 - 1)) in E by lia.
      replace (Z.of_nat (S (S l)) + Z.of_nat (S (S l)) - 2)%Z with (Z.of_nat (S l) + Z.of_nat (S l))%Z in E by lia.
      specialize (IH1 (S l) (Nat.le_refl _)). replace (Z.of_nat (S l) - Z.of_nat (S l))%Z with 0%Z in IH1 by lia. unfold hr in *. rewrite <- IH1 in E.
      apply (cmult_cancel (zc (Z.of_nat (S (S l)) + Z.of_nat (S (S l))))); [apply zc_neq; lia|]. rewrite E. unfold tabR.
      replace (INR (S (S l)) * ph)%R with (INR (S l) * ph + ph)%R by (rewrite (S_INR (S l)); ring). rewrite cis_add. cbn [pow].
      rewrite zc_plus, zc_nat. transitivity (RtoC (x * x ^ l * legendre_R c s (S l) (S l)) * cis (INR (S l) * ph) * (- (RtoC (x * s) * cis ph))).
      * rewrite <- RtoC_plus. transitivity (RtoC (INR (S (S l)) + INR (S (S l))) * RtoC (x * (x * x ^ l) * (- (s / (2 * INR (S (S l)))) * legendre_R c s (S l) (S l))) * (cis (INR (S l) * ph) * cis ph)); [ring|].
        rewrite <- RtoC_mult. replace ((INR (S (S l)) + INR (S (S l))) * (x * (x * x ^ l) * (- (s / (2 * INR (S (S l)))) * legendre_R c s (S l) (S l))))%R
          with (- ((x * s) * (x * x ^ l * legendre_R c s (S l) (S l))))%R by (field; apply not_0_INR; lia).
        rewrite RtoC_opp, !RtoC_mult. ring.
      * rewrite Hxi. ring.
    + assert (hthree : (m <= l)%nat ->
        RtoC (x ^ S (S l) * (((2 * INR (S (S l)) - 1) * c * legendre_R c s (S l) m - legendre_R c s l m) / ((INR (S (S l)) + INR m) * (INR (S (S l)) - INR m)))) * cis (INR m * ph)
        = hr r (Z.of_nat (S (S l)) + Z.of_nat m) (Z.of_nat (S (S l)) - Z.of_nat m)).
      { intros hml. specialize (IH0 m hml). specialize (IH1 m ltac:(lia)).
        pose proof (h_three (xi r) (eta r) (RtoC (vz r)) (Z.of_nat (S (S l)) + Z.of_nat m) (Z.of_nat (S (S l)) - Z.of_nat m)) as E.
        replace (Z.of_nat (S (S l)) + Z.of_nat m - 2)%Z with (Z.of_nat l + Z.of_nat m)%Z in E by lia.
        replace (Z.of_nat (S (S l)) - Z.of_nat m - 2)%Z with (Z.of_nat l - Z.of_nat m)%Z in E by lia.
        replace (Z.of_nat (S (S l)) + Z.of_nat m - 1)%Z with (Z.of_nat (S l) + Z.of_nat m)%Z in E by lia.
        replace (Z.of_nat (S (S l)) - Z.of_nat m - 1)%Z with (Z.of_nat (S l) - Z.of_nat m)%Z in E by lia.
        unfold hr in *. rewrite <- IH0, <- IH1 in E. unfold tabR in E.
        apply (cmult_cancel (zc (Z.of_nat (S (S l)) + Z.of_nat m) * zc (Z.of_nat (S (S l)) - Z.of_nat m))).
        { apply Cmult_neq_0; apply zc_neq; lia. }
        rewrite E. replace (Z.of_nat (S (S l)) + Z.of_nat m + (Z.of_nat (S (S l)) - Z.of_nat m) - 1)%Z with (Z.of_nat (S (S l)) + Z.of_nat (S (S l)) - 1)%Z by ring.
        rewrite !zc_minus, !zc_plus, zc_1, !zc_nat, <- Hrho, <- Hz.
        transitivity (RtoC ((INR (S (S l)) + INR m) * (INR (S (S l)) - INR m) * (x ^ S (S l) * (((2 * INR (S (S l)) - 1) * c * legendre_R c s (S l) m - legendre_R c s l m) / ((INR (S (S l)) + INR m) * (INR (S (S l)) - INR m))))) * cis (INR m * ph));
          [rewrite <- RtoC_plus, <- RtoC_minus, <- RtoC_mult, Cmult_assoc, <- RtoC_mult; reflexivity|].
        replace ((INR (S (S l)) + INR m) * (INR (S (S l)) - INR m) * (x ^ S (S l) * (((2 * INR (S (S l)) - 1) * c * legendre_R c s (S l) m - legendre_R c s l m) / ((INR (S (S l)) + INR m) * (INR (S (S l)) - INR m)))))%R
          with ((INR (S (S l)) + INR (S (S l)) - 1) * (x * c) * (x ^ S l * legendre_R c s (S l) m) - x * x * (x ^ l * legendre_R c s l m))%R.
        2: { cbn [pow]. field. assert (hm1 : (INR m < INR (S (S l)))%R) by (apply lt_INR; lia). pose proof (pos_INR m). split; lra. }
        rewrite RtoC_minus, !(RtoC_mult _ (x ^ _ * _)), RtoC_mult, RtoC_minus, RtoC_plus. ring. }
      destruct (Nat.eqb_spec m 0) as [->|hm0].
      * rewrite <- hthree by lia. cbn [INR]. rewrite Rplus_0_r, Rminus_0_r. reflexivity.
      * destruct (Nat.eqb_spec m (S (S l) - 1)) as [->|hm1].
        -- replace (S (S l) - 1)%nat with (S l) by lia. specialize (IH1 (S l) (Nat.le_refl _)).
           pose proof (h_rec2 (xi r) (eta r) (RtoC (vz r)) (Z.of_nat (S (S l)) + Z.of_nat (S l)) 1) as E. rewrite (h_neg _ _ _ _ (1 - 2)) in E by lia.
           replace (Z.of_nat (S (S l)) - Z.of_nat (S l))%Z with 1%Z by lia. replace (Z.of_nat (S (S l)) + Z.of_nat (S l) - 1)%Z with (Z.of_nat (S l) + Z.of_nat (S l))%Z in E by lia.
           replace (Z.of_nat (S l) - Z.of_nat (S l))%Z with 0%Z in IH1 by lia. change (1 - 1)%Z with 0%Z in E. unfold hr in *. rewrite <- IH1, zc_1 in E.
           transitivity (1 * hc (xi r) (eta r) (RtoC (vz r)) (Z.of_nat (S (S l)) + Z.of_nat (S l)) 1); [|ring]. rewrite E. unfold tabR. rewrite <- Hz.
           transitivity (RtoC ((x * c) * (x ^ S l * legendre_R c s (S l) (S l))) * cis (INR (S l) * ph)); [do 2 f_equal; cbn [pow]; ring|]. rewrite (RtoC_mult (x * c)). ring.
        -- apply hthree. lia.
Qed.
Lemma tabR_ok l m : (m <= l)%nat -> tabR l m = solid r l (Z.of_nat m).
Proof. intros h. rewrite solid_hc. apply (proj1 (tabR_ok_pair l)). exact h. Qed.

(** the irregular harmonics *)
Hypothesis Hx : x <> 0%R.
Definition tabI (l m : nat) : C := RtoC ((if (m =? 0)%nat then 1 else s) * legendre_I c s l m * (1 / x) ^ (l + 1)) * cis (INR m * ph).
Definition gI (l m : nat) : C := RtoC (INR (fact (l + m)) * INR (fact (l - m)) / x ^ (2 * l + 1)) * hr r (Z.of_nat l + Z.of_nat m) (Z.of_nat l - Z.of_nat m).
Lemma irows_S n : irows c s (S n) = (snd (irows c s n), irow c s (S (S n)) (fst (irows c s n)) (snd (irows c s n))).
Proof. cbn [irows]. destruct (irows c s n). reflexivity. Qed.
Lemma legI_SS n : legendre_I c s (S (S n)) = irow c s (S (S n)) (legendre_I c s n) (legendre_I c s (S n)).
Proof. unfold legendre_I. rewrite irows_S. cbn [fst]. rewrite irows_S. reflexivity. Qed.
Lemma xc_neq n : RtoC (x ^ n) <> 0. Proof. apply RtoC_neq, pow_nonzero, Hx. Qed.
Lemma gI_diag l : gI (S l) (S l) = RtoC ((2 * INR (S l) - 1) / (x * x)) * (2 * xi r) * gI l l.
Proof.
  unfold gI. replace (Z.of_nat (S l) - Z.of_nat (S l))%Z with 0%Z by lia. replace (Z.of_nat l - Z.of_nat l)%Z with 0%Z by lia.
  pose proof (h_rec1 (xi r) (eta r) (RtoC (vz r)) (Z.of_nat (S l) + Z.of_nat (S l)) 0) as E. rewrite (h_neg _ _ _ _ (0 - 1)) in E by lia.
  replace (Z.of_nat (S l) + Z.of_nat (S l) - 2)%Z with (Z.of_nat l + Z.of_nat l)%Z in E by lia.
  replace (S l + S l)%nat with (S (S (l + l))) by lia. rewrite !fact_simpl, !mult_INR, !Nat.sub_diag. cbn [fact].
  rewrite zc_plus, zc_nat, <- RtoC_plus in E. unfold hr.
  transitivity (RtoC (INR (S (l + l)) * INR (fact (l + l)) * INR 1 / x ^ (2 * S l + 1)) * (RtoC (INR (S l) + INR (S l)) * hc (xi r) (eta r) (RtoC (vz r)) (Z.of_nat (S l) + Z.of_nat (S l)) 0)).
  { rewrite Cmult_assoc, <- RtoC_mult. f_equal. f_equal. rewrite (S_INR (S (l + l))), !S_INR, plus_INR. field. apply pow_nonzero, Hx. }
  rewrite E. transitivity (RtoC (INR (S (l + l)) * INR (fact (l + l)) * INR 1 / x ^ (2 * S l + 1)) * (2 * xi r) * hc (xi r) (eta r) (RtoC (vz r)) (Z.of_nat l + Z.of_nat l) 0); [ring|].
  assert (hA : RtoC (INR (S (l + l)) * INR (fact (l + l)) * INR 1 / x ^ (2 * S l + 1)) = RtoC ((2 * INR (S l) - 1) / (x * x)) * RtoC (INR (fact (l + l)) * INR 1 / x ^ (2 * l + 1))).
  { rewrite <- RtoC_mult. f_equal. rewrite (S_INR (l + l)), plus_INR, (S_INR l).
    replace (2 * S l + 1)%nat with (S (S (2 * l + 1))) by lia. cbn [pow]. change (INR 1) with 1%R. field. split; [apply pow_nonzero|]; exact Hx. }
  rewrite hA. ring.
Qed.
Lemma gI_sub l : gI (S l) l = RtoC ((2 * INR (S l) - 1) * c / x) * gI l l.
Proof.
  unfold gI. replace (Z.of_nat (S l) - Z.of_nat l)%Z with 1%Z by lia. replace (Z.of_nat l - Z.of_nat l)%Z with 0%Z by lia.
  pose proof (h_rec2 (xi r) (eta r) (RtoC (vz r)) (Z.of_nat (S l) + Z.of_nat l) 1) as E. rewrite (h_neg _ _ _ _ (1 - 2)) in E by lia.
  replace (Z.of_nat (S l) + Z.of_nat l - 1)%Z with (Z.of_nat l + Z.of_nat l)%Z in E by lia. change (1 - 1)%Z with 0%Z in E. rewrite zc_1 in E.
  unfold hr. replace (hc (xi r) (eta r) (RtoC (vz r)) (Z.of_nat (S l) + Z.of_nat l) 1) with (RtoC (vz r) * hc (xi r) (eta r) (RtoC (vz r)) (Z.of_nat l + Z.of_nat l) 0).
  2: { transitivity (1 * hc (xi r) (eta r) (RtoC (vz r)) (Z.of_nat (S l) + Z.of_nat l) 1); [rewrite E; ring|ring]. }
  replace (S l + l)%nat with (S (l + l)) by lia. replace (S l - l)%nat with 1%nat by lia. rewrite fact_simpl, mult_INR, Nat.sub_diag. cbn [fact]. rewrite !Cmult_assoc. f_equal.
  rewrite <- !RtoC_mult. f_equal. rewrite <- Hz, (S_INR (l + l)), plus_INR, (S_INR l). replace (2 * S l + 1)%nat with (S (S (2 * l + 1))) by lia. cbn [pow]. change (INR (1 * 1)) with 1%R. change (INR 1) with 1%R.
  field. split; [apply pow_nonzero|]; exact Hx.
Qed.
Lemma gI_three l m : (m <= l)%nat ->
  gI (S (S l)) m = RtoC ((2 * INR (S (S l)) - 1) * c / x) * gI (S l) m - RtoC ((INR (S (S l)) - INR m - 1) * (INR (S (S l)) + INR m - 1) / (x * x)) * gI l m.
Proof.
  intros hml. pose proof (h_three (xi r) (eta r) (RtoC (vz r)) (Z.of_nat (S (S l)) + Z.of_nat m) (Z.of_nat (S (S l)) - Z.of_nat m)) as E.
  replace (Z.of_nat (S (S l)) + Z.of_nat m - 2)%Z with (Z.of_nat l + Z.of_nat m)%Z in E by lia.
  replace (Z.of_nat (S (S l)) - Z.of_nat m - 2)%Z with (Z.of_nat l - Z.of_nat m)%Z in E by lia.
  replace (Z.of_nat (S (S l)) + Z.of_nat m - 1)%Z with (Z.of_nat (S l) + Z.of_nat m)%Z in E by lia.
  replace (Z.of_nat (S (S l)) - Z.of_nat m - 1)%Z with (Z.of_nat (S l) - Z.of_nat m)%Z in E by lia.
  replace (Z.of_nat (S (S l)) + Z.of_nat m + (Z.of_nat (S (S l)) - Z.of_nat m) - 1)%Z with (Z.of_nat (S (S l)) + Z.of_nat (S (S l)) - 1)%Z in E by ring.
  rewrite !zc_minus, !zc_plus, zc_1, !zc_nat, <- Hrho in E. unfold gI, hr.
  set (h2 := hc (xi r) (eta r) _ (Z.of_nat (S (S l)) + _) _) in *. set (h1 := hc (xi r) (eta r) _ (Z.of_nat (S l) + _) _) in *. set (h0 := hc (xi r) (eta r) _ (Z.of_nat l + _) _) in *.
  rewrite <- Hz, <- !RtoC_plus, <- !RtoC_minus, <- !RtoC_mult in E.
  set (d := (l - m)%nat). replace (S (S l) - m)%nat with (S (S d)) by (unfold d; lia). replace (S l - m)%nat with (S d) by (unfold d; lia).
  replace (S (S l) + m)%nat with (S (S (l + m))) by lia. replace (S l + m)%nat with (S (l + m)) by lia.
  assert (hd : INR d = (INR l - INR m)%R) by (unfold d; apply minus_INR; exact hml).
  rewrite !fact_simpl, !mult_INR. set (fa := INR (fact (l + m))). set (fd := INR (fact d)).
  assert (hd2 : INR (S (S d)) = (INR (S (S l)) - INR m)%R) by (rewrite !S_INR, hd; ring). assert (hl2 : INR (S (S (l + m))) = (INR (S (S l)) + INR m)%R) by (rewrite !S_INR, plus_INR; ring).
  assert (hd1 : INR (S d) = (INR (S (S l)) - INR m - 1)%R) by (rewrite !S_INR, hd; ring). assert (hl1 : INR (S (l + m)) = (INR (S (S l)) + INR m - 1)%R) by (rewrite !S_INR, plus_INR; ring).
  rewrite hd2, hl2, hd1, hl1. set (u1 := (INR (S (S l)) + INR m - 1)%R). set (v1 := (INR (S (S l)) - INR m - 1)%R).
  transitivity (RtoC (u1 * fa * (v1 * fd) / x ^ (2 * S (S l) + 1)) * (RtoC ((INR (S (S l)) + INR m) * (INR (S (S l)) - INR m)) * h2)).
  { rewrite Cmult_assoc, <- RtoC_mult. f_equal. f_equal. field. apply pow_nonzero, Hx. }
  rewrite E. replace (2 * S (S l) + 1)%nat with (S (S (S (S (2 * l + 1))))) by lia. replace (2 * S l + 1)%nat with (S (S (2 * l + 1))) by lia. cbn [pow]. set (xl := (x ^ (2 * l + 1))%R).
  assert (hxl : xl <> 0%R) by (apply pow_nonzero, Hx).
  transitivity (RtoC (u1 * fa * (v1 * fd) / (x * (x * (x * (x * xl)))) * ((INR (S (S l)) + INR (S (S l)) - 1) * (x * c))) * h1 - RtoC (u1 * fa * (v1 * fd) / (x * (x * (x * (x * xl)))) * (x * x)) * h0);
    [rewrite !(RtoC_mult (u1 * fa * (v1 * fd) / (x * (x * (x * (x * xl)))))); ring|].
  rewrite !Cmult_assoc, <- !RtoC_mult. f_equal; [f_equal; f_equal; field; split; assumption|]. f_equal. f_equal. field. split; assumption.
Qed.
Lemma tabI_ok_pair l : (forall m, (m <= l)%nat -> tabI l m = gI l m) /\ (forall m, (m <= S l)%nat -> tabI (S l) m = gI (S l) m).
Proof.
  assert (g00 : gI 0 0 = RtoC (1 / x)).
  { unfold gI, hr. change (Z.of_nat 0 + Z.of_nat 0)%Z with 0%Z. change (Z.of_nat 0 - Z.of_nat 0)%Z with 0%Z. rewrite h_00. cbn [Nat.add Nat.sub Nat.mul fact pow INR]. rewrite Cmult_1_r. f_equal. field. exact Hx. }
  induction l as [|l [IH0 IH1]].
  - split.
    + intros m hm. replace m with 0%nat by lia. rewrite g00. unfold tabI. cbn [INR]. rewrite Rmult_0_l. apply c_eq; cbn; rewrite ?cos_0, ?sin_0; field; exact Hx.
    + intros m hm. destruct m as [|m].
      * rewrite gI_sub, g00. unfold tabI. cbn [INR]. rewrite Rmult_0_l. apply c_eq; cbn; rewrite ?cos_0, ?sin_0; field; exact Hx.
      * replace m with 0%nat by lia. rewrite gI_diag, g00. replace (2 * xi r) with (- (RtoC (x * s) * cis ph)) by (rewrite Hxi; ring).
        unfold tabI. change (INR 1) with 1%R. rewrite Rmult_1_l. change (legendre_I c s 1 1) with (- 1)%R. apply c_eq; cbn; field; exact Hx.
  - split; [exact IH1|]. intros m hm. unfold tabI. rewrite legI_SS. unfold irow.
    destruct (Nat.eqb_spec m (S (S l))) as [->|hne].
    + replace (S (S l) =? 0)%nat with false by reflexivity. rewrite gI_diag, <- (IH1 (S l) (Nat.le_refl _)). replace (2 * xi r) with (- (RtoC (x * s) * cis ph)) by (rewrite Hxi; ring). unfold tabI.
      replace (S l =? 0)%nat with false by reflexivity. replace (S (S l) - 1)%nat with (S l) by lia. replace (INR (S (S l)) * ph)%R with (INR (S l) * ph + ph)%R by (rewrite (S_INR (S l)); ring). rewrite cis_add.
      transitivity (RtoC (- ((2 * INR (S (S l)) - 1) / (x * x) * (x * s) * (s * legendre_I c s (S l) (S l) * (1 / x) ^ (S l + 1)))) * (cis (INR (S l) * ph) * cis ph)).
      * f_equal. f_equal. replace (S (S l) + 1)%nat with (S (S l + 1)) by lia. cbn [pow]. field. exact Hx.
      * rewrite RtoC_opp, !RtoC_mult. ring.
    + assert (hthree : (m <= l)%nat -> RtoC ((if (m =? 0)%nat then 1 else s) * ((2 * INR (S (S l)) - 1) * c * legendre_I c s (S l) m - (INR (S (S l)) - INR m - 1) * (INR (S (S l)) + INR m - 1) * legendre_I c s l m) * (1 / x) ^ (S (S l) + 1)) * cis (INR m * ph) = gI (S (S l)) m).
      { intros hml. rewrite (gI_three l m hml), <- (IH0 m hml), <- (IH1 m ltac:(lia)). unfold tabI. set (k := if (m =? 0)%nat then 1%R else s).
        transitivity (RtoC ((2 * INR (S (S l)) - 1) * c / x * (k * legendre_I c s (S l) m * (1 / x) ^ (S l + 1)) - (INR (S (S l)) - INR m - 1) * (INR (S (S l)) + INR m - 1) / (x * x) * (k * legendre_I c s l m * (1 / x) ^ (l + 1))) * cis (INR m * ph)).
        - f_equal. f_equal. replace (S (S l) + 1)%nat with (S (S (l + 1))) by lia. replace (S l + 1)%nat with (S (l + 1)) by lia. cbn [pow]. field. exact Hx.
        - rewrite RtoC_minus, (RtoC_mult ((2 * INR (S (S l)) - 1) * c / x)), (RtoC_mult ((INR (S (S l)) - INR m - 1) * (INR (S (S l)) + INR m - 1) / (x * x))). ring. }
      destruct (Nat.eqb_spec m 0) as [->|hm0].
      * rewrite <- hthree by lia. cbn [Nat.eqb INR]. rewrite Rplus_0_r, Rminus_0_r. reflexivity.
      * destruct (Nat.eqb_spec m (S (S l) - 1)) as [->|hm1].
        -- replace (S (S l) - 1)%nat with (S l) by lia. rewrite gI_sub, <- (IH1 (S l) (Nat.le_refl _)). unfold tabI. replace (S l =? 0)%nat with false by reflexivity.
           rewrite Cmult_assoc, <- RtoC_mult. f_equal. f_equal. replace (S (S l) + 1)%nat with (S (S l + 1)) by lia. cbn [pow]. field. exact Hx.
        -- apply hthree. lia.
Qed.
End Table.
Lemma rho_r r : RtoC (vnorm r * vnorm r) = RtoC (vz r) * RtoC (vz r) - RtoC 2 * RtoC 2 * xi r * eta r.
Proof. rewrite norm_sq. apply c_eq; cbn; field. Qed.
(** ** solid_harmonic_R and solid_harmonic_I *)
Theorem harm_R_holds r : is_zero r = false -> holds (harm_R r) (solid r).
Proof.
  intros h. pose proof (polar_xi r h) as H. pose proof (rho_r r) as Hr. unfold harm_R. unfold to_spherical in *. destruct H as [H1 [H2 H3]].
  split; intros l; [|intros m hm]; unfold solid_R; cbn [ml0 mlm].
  - change 0%Z with (Z.of_nat 0). rewrite <- (tabR_ok _ _ _ _ r H1 H2 Hr l 0) by lia. unfold tabR. cbn [INR]. rewrite Rmult_0_l. apply c_eq; cbn; rewrite ?cos_0, ?sin_0; ring.
  - rewrite <- (tabR_ok _ _ _ _ r H1 H2 Hr l m) by lia. reflexivity.
Qed.
Theorem harm_I_holds r : is_zero r = false ->
  holds (harm_I r) (fun l m => Cmult (RtoC (INR (fact (Z.to_nat (Z.of_nat l + m))) * INR (fact (Z.to_nat (Z.of_nat l - m))) / vnorm r ^ (2 * l + 1))) (solid r l m)).
Proof.
  intros h. pose proof (polar_xi r h) as H. pose proof (rho_r r) as Hr. unfold harm_I. unfold to_spherical in *. destruct H as [H1 [H2 H3]].
  split; intros l; [|intros m hm]; unfold solid_I; cbn [ml0 mlm]; rewrite solid_hc.
  - pose proof (proj1 (tabI_ok_pair _ _ _ _ r H1 H2 Hr ltac:(lra) l) 0%nat ltac:(lia)) as E. unfold gI in E.
    replace (Z.to_nat (Z.of_nat l + 0)) with (l + 0)%nat by lia. replace (Z.to_nat (Z.of_nat l - 0)) with (l - 0)%nat by lia. change (Z.of_nat 0) with 0%Z in E. rewrite <- E.
    unfold tabI. cbn [INR Nat.eqb]. rewrite Rmult_0_l. apply c_eq; cbn -[pow legendre_I]; rewrite ?cos_0, ?sin_0; ring.
  - pose proof (proj1 (tabI_ok_pair _ _ _ _ r H1 H2 Hr ltac:(lra) l) m ltac:(lia)) as E. unfold gI in E.
    replace (Z.to_nat (Z.of_nat l + Z.of_nat m)) with (l + m)%nat by lia. replace (Z.to_nat (Z.of_nat l - Z.of_nat m)) with (l - m)%nat by lia. rewrite <- E.
    unfold tabI. replace (m =? 0)%nat with false by (symmetry; apply Nat.eqb_neq; lia). reflexivity.
Qed.
Lemma solid_zero l m : solid vzero l m = match l with O => if (m =? 0)%Z then RtoC 1 else RtoC 0 | S _ => RtoC 0 end.
Proof.
  assert (x0 : xi vzero = 0) by (apply c_eq; cbn; field). assert (e0 : eta vzero = 0) by (apply c_eq; cbn; field).
  assert (hz : forall n, ediv 0 (S n) = 0). { intros n. unfold ediv. cbn [cpow]. field. apply fact_neq. }
  destruct l as [|l].
  - unfold solid. cbn [csum]. change (Z.of_nat 0 - Z.of_nat 0)%Z with 0%Z. rewrite (Z.eqb_sym 0 m). destruct (m =? 0)%Z; cbn [andb Nat.add Nat.leb Nat.sub]; [rewrite !ediv_0|]; ring.
  - apply csum_zero. intros p hp. apply csum_zero. intros q hq. destruct ((_ && _)%bool) eqn:E; [|reflexivity]. apply andb_prop in E. destruct E as [_ E]. apply Nat.leb_le in E.
    rewrite x0, e0. change (vz vzero) with 0%R. destruct p as [|p]; [|rewrite hz; ring]. destruct q as [|q]; [|rewrite hz; ring]. replace (S l - 0 - 0)%nat with (S l) by lia. rewrite hz. ring.
Qed.
Theorem py_solid_R_holds r : holds (py_solid_R r) (solid r).
Proof.
  unfold py_solid_R. destruct (is_zero r) eqn:E; [|apply harm_R_holds; exact E]. apply is_zero_true in E. subst r. split; cbn [ml0 mlm].
  - intros l. rewrite solid_zero. destruct l; reflexivity.
  - intros l m hm. rewrite solid_zero. destruct l as [|l]; [lia|reflexivity].
Qed.
