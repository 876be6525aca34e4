From Coq Require Import Reals ZArith List Bool Arith Lia Lra Psatz.
From Verif Require Import Vec GeomModel GeomSpec GeomProofs CoulModel CoulProofs MixModel PairModel PairSpec SkModel SkSpec Cpx RhoModel RhoSpec EigModel EigSpec InvModel InvSpec InvProofs InvProofs9 InvProofs10 GamModel FoldSpec FoldProofs FoldProofs5 FoldProofs6 FoldProofs9.
Import ListNotations.
Open Scope R_scope.

Lemma cis_plus x y : cmul (cis x) (cis y) = cis (x + y).
Proof. unfold cis, cmul. cbn [fst snd]. rewrite cos_plus, sin_plus. apply cplx_eq; cbn [fst snd]; ring. Qed.
Lemma cis_conj x : cconj (cis x) = cis (- x).
Proof. unfold cis, cconj. cbn [fst snd]. rewrite cos_neg, sin_neg. reflexivity. Qed.
Lemma cis_0 : cis 0 = c1. Proof. unfold cis, c1. rewrite cos_0, sin_0. reflexivity. Qed.
Lemma cos_whole x l : cos (x + 2 * PI * IZR l) = cos x.
Proof.
  destruct (Z_le_gt_dec 0 l) as [H|H].
  - rewrite <- (Z2Nat.id l H), <- INR_IZR_INZ. rewrite <- (cos_period x (Z.to_nat l)). f_equal. ring.
  - rewrite <- (cos_period (x + 2 * PI * IZR l) (Z.to_nat (- l))). f_equal. rewrite INR_IZR_INZ, Z2Nat.id by lia. rewrite opp_IZR. ring.
Qed.
Lemma sin_whole x l : sin (x + 2 * PI * IZR l) = sin x.
Proof.
  destruct (Z_le_gt_dec 0 l) as [H|H].
  - rewrite <- (Z2Nat.id l H), <- INR_IZR_INZ. rewrite <- (sin_period x (Z.to_nat l)). f_equal. ring.
  - rewrite <- (sin_period (x + 2 * PI * IZR l) (Z.to_nat (- l))). f_equal. rewrite INR_IZR_INZ, Z2Nat.id by lia. rewrite opp_IZR. ring.
Qed.
Lemma cis_whole x y l : x = y + 2 * PI * IZR l -> cis x = cis y.
Proof. intros ->. unfold cis. rewrite cos_whole, sin_whole. reflexivity. Qed.
Lemma rotz_whole x y l : x = y + 2 * PI * IZR l -> rotz x = rotz y.
Proof. intros ->. unfold rotz. rewrite cos_whole, sin_whole. reflexivity. Qed.
Lemma rotz_orthogonal t : orthogonal (rotz t).
Proof. apply (rotz_rotation t). Qed.
(** ** sums of roots of unity *)
Lemma roots_sum M d : (0 < M)%nat -> (Z.abs d < Z.of_nat M)%Z -> csum M (fun j => cis (2 * PI * INR j / INR M * IZR d)) = if (d =? 0)%Z then rc (INR M) else c0.
Proof.
  intros HM Hd. assert (HI : INR M <> 0) by (apply not_0_INR; lia). destruct (Z.eqb_spec d 0) as [->|Ne].
  - unfold csum, cis, rc. f_equal.
    + rewrite (rsum_ext M _ (fun _ => 1)); [rewrite rsum_const; ring|]. intros j _. cbn [fst]. rewrite Rmult_0_r. apply cos_0.
    + rewrite (rsum_ext M _ (fun _ => 0)); [apply rsum_zero|]. intros j _. cbn [snd]. rewrite Rmult_0_r. apply sin_0.
  - set (x := 2 * PI * IZR d / INR M). set (S := csum M (fun j => cis (2 * PI * INR j / INR M * IZR d))).
    assert (ES : cmul S (cis x) = S).
    { unfold S. rewrite <- csum_mul_r. rewrite (csum_ext' M _ (fun j => cis (2 * PI * INR (j + 1) / INR M * IZR d))).
      - destruct M as [|M']; [lia|]. set (f := fun j => cis (2 * PI * INR j / INR (Datatypes.S M') * IZR d)). change (csum (Datatypes.S M') (fun j => f (j + 1)%nat) = csum (Datatypes.S M') f).
        assert (Ef : f (Datatypes.S M') = f 0%nat). { unfold f. apply (cis_whole _ _ d). change (INR 0) with 0. field. exact HI. }
        assert (E : forall (F : nat -> R), F (Datatypes.S M') = F 0%nat -> rsum (Datatypes.S M') (fun j => F (j + 1)%nat) = rsum (Datatypes.S M') F).
        { intros F EF. cbn [rsum]. replace (M' + 1)%nat with (Datatypes.S M') by lia. rewrite EF. assert (T : forall k, F 0%nat + rsum k (fun j => F (j + 1)%nat) = rsum k F + F k). { induction k as [|k IH]; cbn [rsum]; [ring|]. replace (k + 1)%nat with (Datatypes.S k) by lia. lra. } specialize (T M'). lra. }
        unfold csum. f_equal; [apply (E (fun j => fst (f j)))|apply (E (fun j => snd (f j)))]; rewrite Ef; reflexivity.
      - intros j _. rewrite cis_plus. f_equal. unfold x. rewrite plus_INR. cbn [INR]. field. exact HI. }
    assert (Hx : sin (x / 2) <> 0).
    { intros Z0. apply sin_eq_0_0 in Z0. destruct Z0 as (k & Ek). assert (E : IZR d = IZR k * INR M). { pose proof PI_RGT_0. apply (Rmult_eq_reg_l (PI / INR M)); [|apply Rmult_integral_contrapositive_currified; [lra|apply Rinv_neq_0_compat; exact HI]]. replace (PI / INR M * IZR d) with (x / 2) by (unfold x; field; exact HI). rewrite Ek. field. exact HI. }
      rewrite INR_IZR_INZ, <- mult_IZR in E. apply eq_IZR in E. subst d. destruct (Z.eq_dec k 0) as [->|]; [lia|]. nia. }
    unfold cis, cmul in ES. destruct S as [s t]. cbn [fst snd] in ES. injection ES as E1 E2.
    assert (HC : cos x = 1 - 2 * (sin (x / 2) * sin (x / 2))) by (replace x with (2 * (x / 2)) at 1 by field; rewrite cos_2a_sin; ring).
    assert (HP : 0 < sin (x / 2) * sin (x / 2)) by (destruct (Rtotal_order (sin (x / 2)) 0) as [?|[?|?]]; [nra|contradiction|nra]).
    set (q := sin (x / 2) * sin (x / 2)) in *. set (u := cos x) in *. set (w := sin x) in *. assert (U : 0 < (u - 1) * (u - 1) + w * w) by nra.
    assert (Es : s * ((u - 1) * (u - 1) + w * w) = 0) by (replace (s * ((u - 1) * (u - 1) + w * w)) with ((u - 1) * (s * u - t * w - s) + w * (s * w + t * u - t)) by ring; rewrite E1, E2; ring).
    assert (Et : t * ((u - 1) * (u - 1) + w * w) = 0) by (replace (t * ((u - 1) * (u - 1) + w * w)) with ((u - 1) * (s * w + t * u - t) - w * (s * u - t * w - s)) by ring; rewrite E1, E2; ring).
    apply Rmult_integral in Es, Et. unfold c0. f_equal; [destruct Es; lra|destruct Et; lra].
Qed.
(** phases with a common shift x *)
Lemma shifted_characters M x : (0 < M)%nat -> characters M (fun j c => cis ((x + 2 * PI * INR j / INR M) * INR c)).
Proof.
  intros HM. assert (HI : INR M <> 0) by (apply not_0_INR; lia). constructor.
  - intros j c _ _. rewrite cis_conj, cis_plus. replace (_ + _) with 0 by ring. apply cis_0.
  - intros c c' Hc Hc'. rewrite (csum_ext' M _ (fun j => cmul (cis (x * (INR c - INR c'))) (cis (2 * PI * INR j / INR M * IZR (Z.of_nat c - Z.of_nat c'))))).
    + rewrite csum_mul, roots_sum by lia. destruct (Nat.eqb_spec c c') as [->|Ne].
      * rewrite Z.sub_diag, Z.eqb_refl. rewrite Rminus_diag_eq, Rmult_0_r, cis_0 by reflexivity. ring.
      * destruct (Z.eqb_spec (Z.of_nat c - Z.of_nat c') 0); [lia|]. ring.
    + intros j _. rewrite cis_conj, !cis_plus. f_equal. rewrite minus_IZR, <- !INR_IZR_INZ. ring.
  - intros j j' Hj Hj'. rewrite (csum_ext' M _ (fun c => cis (2 * PI * INR c / INR M * IZR (Z.of_nat j' - Z.of_nat j)))).
    + rewrite roots_sum by lia. destruct (Nat.eqb_spec j j') as [->|Ne]; [rewrite Z.sub_diag, Z.eqb_refl; reflexivity|]. destruct (Z.eqb_spec (Z.of_nat j' - Z.of_nat j) 0); [lia|reflexivity].
    + intros c _. rewrite cis_conj, !cis_plus. f_equal. rewrite minus_IZR, <- !INR_IZR_INZ. field. exact HI.
Qed.
Lemma csum_characters m p q : (forall j c, (j < m)%nat -> (c < m)%nat -> p j c = q j c) -> characters m p -> characters m q.
Proof.
  intros E [H1 H2 H3]. constructor.
  - intros j c Hj Hc. rewrite <- E by assumption. apply H1; assumption.
  - intros c c' Hc Hc'. rewrite <- H2 by assumption. apply csum_ext'. intros j Hj. rewrite !E by assumption. reflexivity.
  - intros j j' Hj Hj'. rewrite <- H3 by assumption. apply csum_ext'. intros c Hc. rewrite !E by assumption. reflexivity.
Qed.
(** ** wedges *)
Definition wedge_image (M : nat) (z : nat -> Z) (c c' P : nat) : option nat :=
  if ((P =? 0) && (c' <? M))%nat then find (fun n => ((z n - (Z.of_nat c' - Z.of_nat c)) mod Z.of_nat M =? 0)%Z) (seq 0 M) else None.
Definition wedge_cell (M c c' : nat) (P : cell) : option cell :=
  if zero_cell P && (c' <? M)%nat then let lo := (- (Z.of_nat (M - 1) / 2))%Z in Some ((Z.of_nat c' - Z.of_nat c - lo) mod Z.of_nat M + lo, 0, 0)%Z else None.
Section Wedge.
Context (M : nat) (z : nat -> Z) (D : database) (Bohr : R) (g h : structure).
Context (Wg : wedge M z g) (Bh : molecule h) (PL : placed M (wedge_turn M) (fun _ => vzero) g h).
Let th := 2 * PI / INR M.
Lemma M_pos : (0 < M)%nat. Proof. exact (e_M _ _ _ Wg). Qed.
Lemma M_real : INR M <> 0. Proof. pose proof M_pos. apply not_0_INR. lia. Qed.
Lemma M_th : INR M * th = 2 * PI. Proof. unfold th. field. exact M_real. Qed.
Lemma mod_eq x y q : (0 < q)%Z -> ((x - y) mod q = 0)%Z <-> (x mod q = y mod q)%Z.
Proof.
  intros Hq. split; intros H.
  - apply Z.mod_divide in H; [|lia]. destruct H as (k & H). replace x with (y + k * q)%Z by lia. apply Z.mod_add. lia.
  - rewrite Zminus_mod, H, Z.sub_diag. apply Z.mod_0_l. lia.
Qed.
Lemma every_residue d : exists n, (n < M)%nat /\ ((z n - d) mod Z.of_nat M = 0)%Z.
Proof.
  pose proof M_pos as HM. assert (Q : (0 < Z.of_nat M)%Z) by lia.
  assert (P : permutes M (fun n => Z.to_nat (z n mod Z.of_nat M))).
  { split; [intros i _; pose proof (Z.mod_pos_bound (z i) _ Q); lia|]. intros i j Hi Hj E. apply (e_all _ _ _ Wg); try assumption. pose proof (Z.mod_pos_bound (z i) _ Q). pose proof (Z.mod_pos_bound (z j) _ Q). lia. }
  pose proof (Z.mod_pos_bound d _ Q). destruct (permutes_onto M _ (Z.to_nat (d mod Z.of_nat M)) P ltac:(lia)) as (n & Hn & E). exists n. split; [exact Hn|]. apply mod_eq; [exact Q|]. pose proof (Z.mod_pos_bound (z n) _ Q). lia.
Qed.
Lemma image_some c c' P n : wedge_image M z c c' P = Some n -> P = 0%nat /\ (c' < M)%nat /\ (n < M)%nat /\ exists q, (z n = Z.of_nat c' - Z.of_nat c + q * Z.of_nat M)%Z.
Proof.
  unfold wedge_image. destruct ((P =? 0) && (c' <? M))%nat eqn:E; [|discriminate]. apply andb_prop in E. destruct E as [E1 E2]. apply Nat.eqb_eq in E1. apply Nat.ltb_lt in E2. intros F. apply find_some in F. destruct F as [I F]. apply in_seq in I. apply Z.eqb_eq in F.
  apply Z.mod_divide in F; [|pose proof M_pos; lia]. destruct F as (q & F). split; [exact E1|]. split; [exact E2|]. split; [lia|]. exists q. lia.
Qed.
Lemma image_all c c' : (c' < M)%nat -> exists n, wedge_image M z c c' 0 = Some n.
Proof.
  intros Hc. unfold wedge_image. rewrite Nat.eqb_refl, (proj2 (Nat.ltb_lt _ _) Hc). cbn [andb]. destruct (find _ _) as [n|] eqn:F; [exists n; reflexivity|]. exfalso. destruct (every_residue (Z.of_nat c' - Z.of_nat c)) as (n & Hn & E).
  apply (find_none _ _ F n) in E || (pose proof (find_none _ _ F n ltac:(apply in_seq; lia)) as K; cbv beta in K; rewrite E in K; discriminate K).
Qed.
Lemma same_copy c c1 c2 q1 q2 : (c1 < M)%nat -> (c2 < M)%nat -> (Z.of_nat c1 - Z.of_nat c + q1 * Z.of_nat M = Z.of_nat c2 - Z.of_nat c + q2 * Z.of_nat M)%Z -> c1 = c2.
Proof. intros H1 H2 E. assert (q1 = q2) by nia. subst. lia. Qed.
Lemma wedge_copies : copies M (wedge_phase M) (wedge_turn M) (fun _ => vzero) (wedge_image M z) D Bohr g h.
Proof.
  pose proof M_pos as HM. pose proof M_real as HR.
  constructor; try (first [exact HM|apply (a_some _ _ _ _ _ PL)|apply (a_N _ _ _ _ _ PL)|apply (a_kind _ _ _ _ _ PL)|apply (a_r _ _ _ _ _ PL)|apply (a_pp _ _ _ _ _ PL)|apply (a_dpp _ _ _ _ _ PL)|apply (a_rc _ _ _ _ _ PL)|apply (a_ext _ _ _ _ _ PL)|apply (a_charge _ _ _ _ _ PL)]).
  - intros c _. apply rotz_orthogonal.
  - rewrite (e_nk _ _ _ Wg), (b_nk _ Bh). lia.
  - intros k _. apply (csum_characters M (fun j c => cis ((0 + 2 * PI * INR j / INR M) * INR c))); [|apply shifted_characters; exact HM]. intros j c _ _. unfold wedge_phase. f_equal. ring.
  - intros k j Hk Hj. rewrite (b_nk _ Bh) in Hk. assert (k = 0%nat) by lia. subst k. rewrite (b_wk _ Bh). apply (e_wk _ _ _ Wg). lia.
  - intros c c' P n Hc Hc' HP E. destruct (image_some _ _ _ _ E) as (-> & _ & Hn & q & Eq). rewrite (e_nimg _ _ _ Wg). split; [exact Hn|]. split; [|split].
    + rewrite (b_O _ Bh), (e_O _ _ _ Wg n Hn). unfold wedge_turn. rewrite rotz_plus. rewrite mm_eye_l. apply (rotz_whole _ _ (- q)). rewrite Eq, opp_IZR, plus_IZR, minus_IZR, mult_IZR, <- !INR_IZR_INZ. field. exact HR.
    + rewrite (b_t _ Bh), (e_t _ _ _ Wg n Hn), !mv_vzero. reflexivity.
    + intros k j Hk Hj. rewrite (b_nk _ Bh) in Hk. assert (k = 0%nat) by lia. subst k. rewrite (b_phase _ Bh). replace (0 * M + j)%nat with j by lia. rewrite (e_phase _ _ _ Wg j n Hj Hn). unfold wedge_phase. rewrite cis_conj, cis_plus.
      transitivity (cis (2 * PI * INR j / INR M * INR c' + - (2 * PI * INR j / INR M * INR c))); [|ring]. apply (cis_whole _ _ (Z.of_nat j * q)). rewrite Eq, mult_IZR, plus_IZR, minus_IZR, mult_IZR, <- !INR_IZR_INZ. field. exact HR.
  - intros c c1 P1 c2 P2 n Hc E1 E2. destruct (image_some _ _ _ _ E1) as (-> & H1 & _ & q1 & Q1). destruct (image_some _ _ _ _ E2) as (-> & H2 & _ & q2 & Q2). split; [|reflexivity]. apply (same_copy c c1 c2 q1 q2 H1 H2). lia.
  - intros c Hc. destruct (image_all c c Hc) as (n & E). rewrite E. f_equal. destruct (image_some _ _ _ _ E) as (_ & _ & Hn & q & Q). apply (e_all _ _ _ Wg); try assumption. rewrite (e_first _ _ _ Wg). replace (z n) with (0 + q * Z.of_nat M)%Z by lia. apply Z.mod_add. lia.
  - intros c c' P I J Hc Hc' HP E. exfalso. rewrite (b_nimg _ Bh) in HP. assert (P = 0%nat) by lia. subst P. destruct (image_all c c' Hc') as (n & F). congruence.
  - intros c n I J Hc Hn H. exfalso. rewrite (e_nimg _ _ _ Wg) in Hn. assert (Q : (0 < Z.of_nat M)%Z) by lia. set (d := ((Z.of_nat c + z n) mod Z.of_nat M)%Z). pose proof (Z.mod_pos_bound (Z.of_nat c + z n) _ Q) as B. fold d in B.
    destruct (image_all c (Z.to_nat d) ltac:(lia)) as (n' & E). destruct (image_some _ _ _ _ E) as (_ & H1 & Hn' & q & Eq). apply (H (Z.to_nat d) 0%nat ltac:(lia)); [rewrite (b_nimg _ Bh); lia|]. rewrite E. f_equal.
    apply (e_all _ _ _ Wg); try assumption. rewrite Eq, Z.mod_add by lia. rewrite Z2Nat.id by lia. unfold d. rewrite Zminus_mod_idemp_l. f_equal. lia.
Qed.
Lemma zero_range : zrange 0 (0 + 1) = [0%Z]. Proof. reflexivity. Qed.
Lemma wedge_cells cut : copied_cells M (wedge_turn M) (fun _ => vzero) (wedge_cell M) cut g h (triples (zrange (- (Z.of_nat (M - 1) / 2)) (Z.of_nat M / 2 + 1)) [0%Z] [0%Z]) [(0, 0, 0)%Z].
Proof.
  pose proof M_pos as HM. pose proof M_real as HR. assert (Q : (0 < Z.of_nat M)%Z) by lia. set (lo := (- (Z.of_nat (M - 1) / 2))%Z).
  assert (LO : (lo + Z.of_nat M = Z.of_nat M / 2 + 1)%Z). { unfold lo. pose proof (Z.div_mod (Z.of_nat (M - 1)) 2 ltac:(lia)). pose proof (Z.mod_pos_bound (Z.of_nat (M - 1)) 2 ltac:(lia)). pose proof (Z.div_mod (Z.of_nat M) 2 ltac:(lia)). pose proof (Z.mod_pos_bound (Z.of_nat M) 2 ltac:(lia)). lia. }
  assert (L0 : (lo <= 0 < lo + Z.of_nat M)%Z). { unfold lo in *. assert (0 <= Z.of_nat (M - 1) / 2)%Z by (apply Z.div_pos; lia). assert (0 <= Z.of_nat M / 2)%Z by (apply Z.div_pos; lia). lia. }
  assert (S : forall c c' P n, wedge_cell M c c' P = Some n -> P = (0, 0, 0)%Z /\ (c' < M)%nat /\ exists q l, n = (l, 0, 0)%Z /\ (lo <= l < lo + Z.of_nat M)%Z /\ (l = Z.of_nat c' - Z.of_nat c + q * Z.of_nat M)%Z).
  { intros c c' P n. unfold wedge_cell. destruct (zero_cell P && (c' <? M)%nat) eqn:E; [|discriminate]. apply andb_prop in E. destruct E as [E1 E2]. apply (zero_is) in E1. apply Nat.ltb_lt in E2. fold lo. intros F. injection F as <-. split; [exact E1|]. split; [exact E2|].
    set (x := (Z.of_nat c' - Z.of_nat c - lo)%Z). exists (- (x / Z.of_nat M))%Z, (x mod Z.of_nat M + lo)%Z. split; [reflexivity|]. pose proof (Z.mod_pos_bound x _ Q). pose proof (Z.div_mod x (Z.of_nat M) ltac:(lia)). split; [lia|]. unfold x in *. nia. }
  assert (A : forall c c', (c' < M)%nat -> wedge_cell M c c' (0, 0, 0)%Z = Some ((Z.of_nat c' - Z.of_nat c - lo) mod Z.of_nat M + lo, 0, 0)%Z).
  { intros c c' Hc. unfold wedge_cell. rewrite (proj2 (Nat.ltb_lt _ _) Hc). reflexivity. }
  constructor.
  - unfold scan. rewrite (e_ranges _ _ _ Wg). unfold is_cluster, infinite, n_from_range. cbn [fst snd orb negb]. fold lo. destruct cut; reflexivity.
  - unfold scan. rewrite (b_ranges _ Bh). unfold is_cluster, infinite, n_from_range. cbn [fst snd orb negb]. destruct cut; reflexivity.
  - intros c c' P n Hc Hc' HP E. destruct (S _ _ _ _ E) as (-> & _ & q & l & -> & Hl & El). split; [|split].
    + apply in_triples. unfold t1, t2, t3. cbn [fst snd]. split; [apply in_zrange; lia|]. split; left; reflexivity.
    + rewrite (b_rot _ Bh), (e_rot _ _ _ Wg). unfold wedge_turn, t1. cbn [fst]. rewrite rotz_plus, mm_eye_l. apply (rotz_whole _ _ (- q)). rewrite El, opp_IZR, plus_IZR, minus_IZR, mult_IZR, <- !INR_IZR_INZ. field. exact HR.
    + rewrite (b_tr0 _ Bh), (e_tr0 _ _ _ Wg), !mv_vzero. reflexivity.
  - intros c c1 P1 c2 P2 n Hc E1 E2. destruct (S _ _ _ _ E1) as (-> & H1 & q1 & l1 & -> & _ & Q1). destruct (S _ _ _ _ E2) as (-> & H2 & q2 & l2 & E & _ & Q2). injection E as ->. split; [|reflexivity]. apply (same_copy c c1 c2 q1 q2 H1 H2). lia.
  - intros c Hc. rewrite (A c c Hc). f_equal. f_equal. f_equal. replace (Z.of_nat c - Z.of_nat c - lo)%Z with (- lo)%Z by lia. rewrite Z.mod_small by lia. lia.
  - intros c c' P I J Hc Hc' HP E. exfalso. destruct HP as [<-|[]]. rewrite (A c c' Hc') in E. discriminate E.
  - intros c n I J Hc Hn H. exfalso. apply in_triples in Hn. destruct n as [[l a] b]. unfold t1, t2, t3 in Hn. cbn [fst snd] in Hn. destruct Hn as (Hl & [<-|[]] & [<-|[]]). apply in_zrange in Hl.
    set (d := ((Z.of_nat c + l) mod Z.of_nat M)%Z). pose proof (Z.mod_pos_bound (Z.of_nat c + l) _ Q) as B. fold d in B. apply (H (Z.to_nat d) (0, 0, 0)%Z ltac:(lia) ltac:(left; reflexivity)). rewrite A by lia. f_equal. f_equal. f_equal.
    rewrite Z2Nat.id by lia. unfold d. replace ((Z.of_nat c + l) mod Z.of_nat M - Z.of_nat c - lo)%Z with ((Z.of_nat c + l) mod Z.of_nat M - (Z.of_nat c + lo))%Z by lia. rewrite Zminus_mod_idemp_l. replace (Z.of_nat c + l - (Z.of_nat c + lo))%Z with (l - lo)%Z by lia. rewrite Z.mod_small by lia. lia.
Qed.
End Wedge.
