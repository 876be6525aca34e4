From Coq Require Import Reals ZArith List Bool Arith Permutation Lra Lia.
From Coquelicot Require Import Coquelicot.
From Verif Require Import Vec GeomModel GeomProofs PairModel PairSpec PairProofs CoulModel CoulProofs GamModel GamSpec GamProofs GamProofs2 GamProofs3 GamProofs4 SkProofs6 AtomProofs4.
Import ListNotations.
Open Scope R_scope.

(** ** a function with the properties of erfc exists *)
Definition gaussf (t : R) : R := exp (- t ^ 2).
Lemma gaussf_cont x : continuous gaussf x.
Proof.
  apply continuity_pt_filterlim. unfold gaussf. apply derivable_continuous_pt. exists (exp (- x ^ 2) * - (INR 2 * x ^ 1)).
  apply (D_exp (fun t => - t ^ 2)). apply (D_opp (fun t => t ^ 2)). apply (D_pow 1).
Qed.
Definition erfc0 (x : R) : R := 1 - 2 / sqrt PI * RInt gaussf 0 x.
Example erfc_exists : is_erfc erfc0.
Proof.
  split.
  - unfold erfc0. rewrite RInt_point. unfold zero. cbn. lra.
  - intros x. assert (D : derivable_pt_lim (fun x => RInt gaussf 0 x) x (gaussf x)).
    { apply is_derive_Reals. apply (is_derive_RInt gaussf (fun x => RInt gaussf 0 x) 0 x); [|apply gaussf_cont].
      exists (mkposreal 1 Rlt_0_1). intros y _. apply (@RInt_correct R_CompleteNormedModule gaussf 0 y). apply (@ex_RInt_continuous R_CompleteNormedModule gaussf). intros z _. apply gaussf_cont. }
    unfold erfc0. apply (D_eq _ _ (0 - 2 / sqrt PI * gaussf x)); [|unfold gaussf; ring].
    apply (D_minus (fun _ => 1) (fun x => 2 / sqrt PI * RInt gaussf 0 x)); [apply D_const|apply D_scal; exact D].
Qed.
(** ** refutations for the neighbour list *)
Lemma forall2_in {A B} (P : A -> B -> Prop) L l b : Forall2 P L l -> In b l -> exists x, In x L /\ P x b.
Proof. intros H. induction H as [|x y L l Hxy _ IH]; intros [].
  - subst. exists x. split; [left; reflexivity|exact Hxy].
  - destruct IH as (z & Hz & Hp); [assumption|]. exists z. split; [right; exact Hz|exact Hp].
Qed.
Lemma forall2_in_l {A B} (P : A -> B -> Prop) L l x : Forall2 P L l -> In x L -> exists b, In b l /\ P x b.
Proof. intros H. induction H as [|z y L l Hxy _ IH]; intros [].
  - subst. exists y. split; [left; reflexivity|exact Hxy].
  - destruct IH as (w & Hz & Hp); [assumption|]. exists w. split; [right; exact Hz|exact Hp].
Qed.
Definition dimer (i : nat) : v3 := match i with O => vzero | _ => e1 end.
Lemma nb_direction_refuted : exists (N : nat) (r : nat -> v3) (l : list neighbour) (b : neighbour),
  get_neighbours N r (fun _ => vzero) (fun _ => eye) None one_cell = Some l /\ In b l /\ 0 < nb_d b /\
  vadd (r (nb_i b)) (vscale (nb_d b) (nb_n b)) <> r (nb_j b).
Proof.
  exists 2%nat, dimer. destruct (get_neighbours 2 dimer (fun _ => vzero) (fun _ => eye) None one_cell) as [l|] eqn:E.
  2:{ apply nbs_none in E. destruct E as [_ E]. discriminate. }
  destruct (nbs_list _ _ _ _ _ _ _ E) as (L & _ & HL & HF).
  assert (Hin : In (origin_cell, 0%nat, 1%nat) L).
  { apply HL. unfold close_pair, scanned, one_cell, in_scan, origin_cell, t1, t2, t3. cbn [fst snd]. repeat split; try lia. }
  destruct (forall2_in_l _ _ _ _ HF Hin) as (b & Hb & Ei & Ej & Ed & En). exists l, b. split; [reflexivity|]. split; [exact Hb|].
  assert (D : vnorm (vsub (dimer 0) (vadd vzero (mv eye (dimer 1)))) = 1).
  { unfold dimer, e1, vnorm. replace (vdot _ _) with 1 by (vunf; ring). apply sqrt_1. }
  rewrite D in *. split; [lra|]. rewrite Ei, Ej. destruct (En ltac:(lra)) as [En1 _]. rewrite En1. intros X. apply (f_equal vx) in X.
  unfold dimer, e1 in X. revert X. vunf. lra.
Qed.
Lemma nb_scan_refuted : exists (N : nat) (r : nat -> v3) (k : R) (l : list neighbour) (x : cell * nat * nat),
  get_neighbours N r (lattice e1 e2 e3) (fun _ => eye) (Some k) along_x = Some l /\ is_image along_x (fst (fst x)) /\
  close_pair N r (lattice e1 e2 e3) (fun _ => eye) (Some k) x /\ forall b, In b l -> ~ entry_of r (lattice e1 e2 e3) (fun _ => eye) x b.
Proof.
  exists 1%nat, (fun _ => vzero), 7. destruct (get_neighbours 1 (fun _ => vzero) (lattice e1 e2 e3) (fun _ => eye) (Some 7) along_x) as [l|] eqn:E.
  2:{ apply nbs_none in E. destruct E as [E _]. discriminate. }
  destruct (nbs_list _ _ _ _ _ _ _ E) as (L & _ & HL & HF). exists l, ((6, 0, 0)%Z, 0%nat, 0%nat). split; [reflexivity|].
  assert (Q : forall n : Z, vnorm (vsub vzero (vadd (lattice e1 e2 e3 (n, 0, 0)%Z) (mv eye vzero))) = Rabs (IZR n)).
  { intros n. unfold vnorm, lattice, t1, t2, t3, e1, e2, e3. cbn [fst snd]. replace (vdot _ _) with (Rsqr (IZR n)) by (unfold Rsqr; vunf; ring). apply sqrt_Rsqr_abs. }
  split; [unfold is_image, along_x, in_bounds, t1, t2, t3; cbn [fst snd]; repeat split; lia|]. split.
  - unfold close_pair. repeat split; try lia; [intros [X _]; discriminate|]. rewrite Q, Rabs_right; lra.
  - intros b Hb (_ & _ & Ed & _). destruct (forall2_in _ _ _ _ HF Hb) as ([[[[n m] p] i] j] & Hx & _ & _ & Ed' & _).
    apply HL in Hx. destruct Hx as [(S1 & S2 & S3) _]. unfold in_scan, t1, t2, t3 in *. cbn [fst snd] in *. assert (m = 0)%Z by lia. assert (p = 0)%Z by lia. subst.
    rewrite Q in Ed, Ed'. rewrite Ed' in Ed. rewrite <- !abs_IZR in Ed. apply eq_IZR in Ed. lia.
Qed.
(** ** the estimated cutoffs do not reach the accuracy goal *)
Lemma ln_small a b : 0 < a -> a <= exp b -> ln a <= b.
Proof. intros Ha H. rewrite <- (ln_exp b). destruct H as [H| ->]; [left; apply ln_increasing; assumption|right; reflexivity]. Qed.
Lemma ln10 : 0 < ln 10 <= 3.
Proof. split; [rewrite <- ln_1; apply ln_increasing; lra|]. apply ln_small; [lra|]. pose proof (exp_lower3 3 ltac:(lra)). lra. Qed.
Lemma exp1_le : exp 1 <= 3. Proof. exact exp_le_3. Qed.
Lemma ln2_low : / 4 <= ln 2 <= 1.
Proof.
  split; [|apply ln_small; [lra|pose proof (exp_lower1 1 ltac:(lra)); lra]].
  rewrite <- (ln_exp (/ 4)). assert (E : exp (/ 4) < 2).
  { assert (P : exp (/ 4) * exp (/ 4) * (exp (/ 4) * exp (/ 4)) = exp 1) by (rewrite <- !exp_plus; f_equal; lra). pose proof exp1_le. pose proof (exp_pos (/ 4)). 
    destruct (Rlt_or_le (exp (/ 4)) 2) as [X|X]; [exact X|]. assert (4 <= exp (/ 4) * exp (/ 4)) by nra. nra. }
  left. apply ln_increasing; [apply exp_pos|exact E].
Qed.
Lemma sqrt_le_of a b : 0 <= b -> a <= b * b -> sqrt a <= b.
Proof. intros Hb H. rewrite <- (sqrt_square b Hb). apply sqrt_le_1_alt. exact H. Qed.
Lemma le_sqrt_of a b : 0 <= b -> b * b <= a -> b <= sqrt a.
Proof. intros Hb H. rewrite <- (sqrt_square b Hb). apply sqrt_le_1_alt. exact H. Qed.
Lemma slater_goal_refuted Bohr : 0.52 < Bohr < 0.54 -> exists U d, 0 < U /\ 0 < d /\ slater_cutoff 12 U < d * Bohr /\ / 10 ^ 12 < Rabs (fst (slater_term (tau U) (tau U) d)).
Proof.
  intros HB. exists (/ 100), (110 / Bohr). assert (Hd : 0 < 110 / Bohr < 212).
  { split; [apply Rdiv_lt_0_compat; lra|]. apply (Rmult_lt_reg_r Bohr); [lra|]. unfold Rdiv. rewrite Rmult_assoc, Rinv_l by lra. lra. }
  split; [lra|]. split; [lra|]. split.
  - unfold Rdiv at 1. rewrite Rmult_assoc, Rinv_l, Rmult_1_r by lra. unfold slater_cutoff. pose proof PI2_3_2 as P. pose proof ln10 as L.
    assert (Q : 1 <= sqrt (PI / 2)) by (apply le_sqrt_of; lra). apply (Rle_lt_trans _ 100); [|lra]. apply sqrt_le_of; [lra|].
    apply (Rmult_le_reg_r (sqrt (PI / 2) * / 100)); [nra|]. unfold Rdiv at 1. rewrite Rmult_assoc, Rinv_l by nra. nra.
  - unfold slater_term. rewrite (proj2 (ltb_true _ _)). 2:{ rewrite Rminus_diag_eq, Rabs_R0 by reflexivity. apply Rinv_0_lt_compat, pow_lt. lra. }
    rewrite equal_h. replace (avg (tau (/ 100)) (tau (/ 100))) with (32 / 1000) by (unfold avg, tau; field). set (d := 110 / Bohr) in *. unfold heq, poly.
    set (x := 32 / 1000 * d). assert (Hx : 0 < x < 7) by (unfold x; lra).
    assert (E : / 2187 <= exp (- x)).
    { apply (Rle_trans _ (exp (Ropp 7))); [|left; apply exp_increasing; lra]. rewrite exp_Ropp. apply Rinv_le_contravar; [apply exp_pos|].
      replace 7 with (1 + (1 + 1 + (1 + 1) + (1 + 1))) by lra. rewrite !exp_plus. pose proof exp1_le. pose proof (exp_pos 1). set (a := exp 1) in *.
      assert (a * a <= 9) by nra. assert (0 < a * a) by nra. assert (a * a * (a * a) <= 81) by nra. assert (a * a * (a * a) * (a * a) <= 729) by nra. nra. }
    assert (P : 48 <= 48 + 33 * x + 9 * x ^ 2 + x ^ 3) by (assert (0 <= x ^ 2) by nra; assert (0 <= x ^ 3) by (apply pow_le; lra); lra). set (p := 48 + 33 * x + 9 * x ^ 2 + x ^ 3) in *.
    replace (- p * exp (- x) / (48 * d)) with (- (p * exp (- x) / (48 * d))) by (field; lra). rewrite Rabs_Ropp.
    assert (K : / 1000000 <= p * exp (- x) / (48 * d)).
    { apply (Rmult_le_reg_r (48 * d)); [lra|]. unfold Rdiv. rewrite Rmult_assoc, Rinv_l, Rmult_1_r by lra. nra. }
    rewrite Rabs_right by lra. apply (Rlt_le_trans _ (/ 1000000)); [|exact K]. lra.
Qed.
Lemma erfc_low erfc x : is_erfc erfc -> 0 <= x -> 1 - 2 * x <= erfc x.
Proof.
  intros [E0 E] Hx. pose proof (grow (fun t => erfc t + 2 * t) (fun t => - (2 / sqrt PI) * exp (- t ^ 2) + 2) 0 x Hx) as G. cbv beta in G. rewrite E0 in G.
  cut (1 + 2 * 0 <= erfc x + 2 * x); [lra|]. apply G.
  - intros c _. apply D_plus; [apply E|apply D_line].
  - intros c Hc. pose proof PI2_3_2. assert (S1 : 1 <= sqrt PI) by (apply le_sqrt_of; lra).
    assert (S2 : 0 < / sqrt PI <= 1) by (split; [apply Rinv_0_lt_compat; lra|rewrite <- Rinv_1; apply Rinv_le_contravar; lra]).
    assert (S3 : 0 < exp (- c ^ 2) <= 1). { split; [apply exp_pos|]. rewrite <- exp_0. assert (H0 : - c ^ 2 < 0) by nra. left. apply exp_increasing. exact H0. }
    unfold Rdiv. assert (/ sqrt PI * exp (- c ^ 2) <= 1) by nra. nra.
Qed.
Lemma gauss_goal_refuted erfc Bohr : is_erfc erfc -> 0.52 < Bohr < 0.54 -> exists F d, 0 < F /\ 0 < d /\ gauss_cutoff 12 F < d * Bohr /\ / 10 ^ 12 < Rabs (fst (gauss_term erfc F F d)).
Proof.
  intros He HB. exists 100000000, (70000 / Bohr). assert (Hd : 0 < 70000 / Bohr < 140000).
  { split; [apply Rdiv_lt_0_compat; lra|]. apply (Rmult_lt_reg_r Bohr); [lra|]. unfold Rdiv. rewrite Rmult_assoc, Rinv_l by lra. lra. }
  pose proof ln2_low as L2. pose proof ln10 as L.
  split; [lra|]. split; [lra|]. split.
  - unfold Rdiv at 1. rewrite Rmult_assoc, Rinv_l, Rmult_1_r by lra. unfold gauss_cutoff.
    assert (Q : 1 <= sqrt (4 * ln 2)) by (apply le_sqrt_of; lra). apply (Rle_lt_trans _ 60000); [|lra]. apply sqrt_le_of; [lra|].
    apply (Rmult_le_reg_r (sqrt (4 * ln 2))); [nra|]. unfold Rdiv at 1. rewrite Rmult_assoc, Rinv_l by nra. nra.
  - unfold gauss_term, gauss_const. cbn [fst]. set (d := 70000 / Bohr) in *.
    assert (C : 0 <= 2 * sqrt (ln 2 / (100000000 ^ 2 + 100000000 ^ 2)) <= 2 * / 100000000).
    { split; [pose proof (sqrt_pos (ln 2 / (100000000 ^ 2 + 100000000 ^ 2))); lra|]. apply Rmult_le_compat_l; [lra|]. apply sqrt_le_of; lra. }
    set (c := 2 * sqrt (ln 2 / (100000000 ^ 2 + 100000000 ^ 2))) in *.
    assert (X : 0 <= c * d <= / 100) by nra. pose proof (erfc_low erfc (c * d) He ltac:(lra)) as E.
    replace (- erfc (c * d) / d) with (- (erfc (c * d) / d)) by (field; lra). rewrite Rabs_Ropp.
    assert (K : / 1000000 <= erfc (c * d) / d) by (apply (Rmult_le_reg_r d); [lra|]; unfold Rdiv; rewrite Rmult_assoc, Rinv_l, Rmult_1_r by lra; lra).
    rewrite Rabs_right by lra. apply (Rlt_le_trans _ (/ 1000000)); [lra|exact K].
Qed.
