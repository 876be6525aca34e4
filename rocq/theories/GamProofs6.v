From Coq Require Import Reals ZArith List Bool Arith Permutation Lra Lia.
From Verif Require Import Vec GeomModel GeomProofs PairModel PairSpec PairProofs CoulModel CoulProofs GamModel GamSpec GamProofs GamProofs2 GamProofs3 GamProofs4 GamProofs5 SkProofs6 AtomProofs4.
Import ListNotations.
Open Scope R_scope.

Lemma gauss_bounds erfc fi fj d : is_erfc erfc -> fi <> 0 -> 0 < d ->
  0 < 1 / d + fst (gauss_term erfc fi fj d) <= 2 / sqrt PI * gauss_const fi fj.
Proof.
  intros [E0 E] Hf Hd. unfold gauss_term. cbn [fst]. set (c := gauss_const fi fj). pose proof ln2_low as L2.
  assert (Hc : 0 < c). { unfold c, gauss_const. assert (0 < fi ^ 2 + fj ^ 2) by (assert (0 < fi ^ 2) by (rewrite <- Rsqr_pow2; apply Rlt_0_sqr; exact Hf); pose proof (pow2_ge_0 fj); lra). assert (0 < sqrt (ln 2 / (fi ^ 2 + fj ^ 2))) by (apply sqrt_lt_R0, Rdiv_lt_0_compat; lra). lra. }
  assert (SP : 0 < sqrt PI) by (apply sqrt_lt_R0, PI_RGT_0). assert (K : 0 < 2 / sqrt PI) by (apply Rdiv_lt_0_compat; lra). set (k := 2 / sqrt PI) in *.
  assert (Hx : 0 < c * d) by nra. set (x := c * d) in *. replace (1 / d + - erfc x / d) with ((1 - erfc x) * / d) by (field; lra).
  assert (I : 0 < / d) by (apply Rinv_0_lt_compat; lra). split.
  - destruct (MVT_cor2 erfc (fun t => - k * exp (- t ^ 2)) 0 x Hx) as (z & Ez & _); [intros; apply E|]. rewrite E0 in Ez.
    assert (0 < exp (- z ^ 2)) by apply exp_pos. assert (0 < k * exp (- z ^ 2)) by nra. assert (erfc x < 1) by nra. nra.
  - pose proof (grow (fun t => erfc t + k * t) (fun t => - k * exp (- t ^ 2) + k) 0 x ltac:(lra)) as G. cbv beta in G. rewrite E0 in G.
    assert (Q : 1 + k * 0 <= erfc x + k * x).
    { apply G.
      - intros t _. apply D_plus; [apply E|apply D_line].
      - intros t Ht. assert (exp (- t ^ 2) < 1) by (rewrite <- exp_0; apply exp_increasing; nra). nra. }
    replace (k * c) with (k * x * / d) by (unfold x; field; lra). nra.
Qed.
(** ** forces and symmetry, general and Bravais *)
Lemma slater_symmetric_closed Bohr N r tr0 rot s U cutoff goal i j : (0 < N)%nat -> 
  (forall k cs, scan k s = Some cs -> exists inv, closed_images cs tr0 rot inv) -> (forall i, (i < N)%nat -> 0 < U i) -> (i < N)%nat -> (j < N)%nat ->
  G_of (slater_gamma Bohr N r tr0 rot s U cutoff goal) i j = G_of (slater_gamma Bohr N r tr0 rot s U cutoff goal) j i.
Proof. intros HN HI HU Hi Hj. eapply slater_symmetric; eauto. Qed.
Lemma gauss_symmetric_closed erfc Bohr N r tr0 rot s U F cutoff goal i j : (0 < N)%nat -> 
  (forall k cs, scan k s = Some cs -> exists inv, closed_images cs tr0 rot inv) -> is_erfc erfc -> (forall i, (i < N)%nat -> 0 < F i) -> (i < N)%nat -> (j < N)%nat ->
  G_of (gauss_gamma erfc Bohr N r tr0 rot s U F cutoff goal) i j = G_of (gauss_gamma erfc Bohr N r tr0 rot s U F cutoff goal) j i.
Proof. intros HN HI HE HU Hi Hj. eapply gauss_symmetric; eauto. Qed.
Lemma slater_forces_closed Bohr N r u tr0 rot s U q cutoff goal : (0 < N)%nat -> 0 < Bohr ->
  (forall k cs, scan k s = Some cs -> exists inv, closed_images cs tr0 rot inv) -> (forall i, (i < N)%nat -> 0 < U i) ->
  regular N r tr0 rot s (used_cutoff s cutoff (slater_cutoff goal (rmin (N - 1) U))) ->
  derivable_pt_lim (fun t => correction_energy N q (G_of (slater_gamma Bohr N (moved r u t) tr0 rot s U cutoff goal))) 0
    (- rsum N (fun i => vdot (correction_force N q (dG_of (slater_gamma Bohr N r tr0 rot s U cutoff goal)) i) (u i)) / Bohr).
Proof. intros HN HB HI HU Hr. eapply slater_forces; eauto. Qed.
Lemma gauss_forces_closed erfc Bohr N r u tr0 rot s U F q cutoff goal : (0 < N)%nat -> 0 < Bohr ->
  (forall k cs, scan k s = Some cs -> exists inv, closed_images cs tr0 rot inv) -> is_erfc erfc -> (forall i, (i < N)%nat -> 0 < F i) ->
  regular N r tr0 rot s (used_cutoff s cutoff (gauss_cutoff goal (rmaxn (N - 1) F))) ->
  derivable_pt_lim (fun t => correction_energy N q (G_of (gauss_gamma erfc Bohr N (moved r u t) tr0 rot s U F cutoff goal))) 0
    (- rsum N (fun i => vdot (correction_force N q (dG_of (gauss_gamma erfc Bohr N r tr0 rot s U F cutoff goal)) i) (u i)) / Bohr).
Proof. intros HN HB HI HE HU Hr. eapply gauss_forces; eauto. Qed.
Lemma bravais_inv s a1 a2 a3 : bravais_ranges s -> forall k cs, scan k s = Some cs -> exists inv, closed_images cs (lattice a1 a2 a3) (fun _ => eye) inv.
Proof. intros B k cs E. exists neg_cell. eapply bravais_closed; eauto. Qed.
Lemma slater_symmetric_bravais Bohr N r a1 a2 a3 s U cutoff goal i j : (0 < N)%nat -> bravais_ranges s -> (forall i, (i < N)%nat -> 0 < U i) -> (i < N)%nat -> (j < N)%nat ->
  G_of (slater_gamma Bohr N r (lattice a1 a2 a3) (fun _ => eye) s U cutoff goal) i j = G_of (slater_gamma Bohr N r (lattice a1 a2 a3) (fun _ => eye) s U cutoff goal) j i.
Proof. intros HN HB HU Hi Hj. apply slater_symmetric_closed; auto. apply bravais_inv, HB. Qed.
Lemma gauss_symmetric_bravais erfc Bohr N r a1 a2 a3 s U F cutoff goal i j : (0 < N)%nat -> bravais_ranges s -> is_erfc erfc -> (forall i, (i < N)%nat -> 0 < F i) -> (i < N)%nat -> (j < N)%nat ->
  G_of (gauss_gamma erfc Bohr N r (lattice a1 a2 a3) (fun _ => eye) s U F cutoff goal) i j = G_of (gauss_gamma erfc Bohr N r (lattice a1 a2 a3) (fun _ => eye) s U F cutoff goal) j i.
Proof. intros HN HB HE HU Hi Hj. apply gauss_symmetric_closed; auto. apply bravais_inv, HB. Qed.
Lemma slater_forces_bravais Bohr N r u a1 a2 a3 s U q cutoff goal : (0 < N)%nat -> 0 < Bohr -> bravais_ranges s -> (forall i, (i < N)%nat -> 0 < U i) ->
  regular N r (lattice a1 a2 a3) (fun _ => eye) s (used_cutoff s cutoff (slater_cutoff goal (rmin (N - 1) U))) ->
  derivable_pt_lim (fun t => correction_energy N q (G_of (slater_gamma Bohr N (moved r u t) (lattice a1 a2 a3) (fun _ => eye) s U cutoff goal))) 0
    (- rsum N (fun i => vdot (correction_force N q (dG_of (slater_gamma Bohr N r (lattice a1 a2 a3) (fun _ => eye) s U cutoff goal)) i) (u i)) / Bohr).
Proof. intros HN HB Hs HU Hr. apply slater_forces_closed; auto. apply bravais_inv, Hs. Qed.
Lemma gauss_forces_bravais erfc Bohr N r u a1 a2 a3 s U F q cutoff goal : (0 < N)%nat -> 0 < Bohr -> bravais_ranges s -> is_erfc erfc -> (forall i, (i < N)%nat -> 0 < F i) ->
  regular N r (lattice a1 a2 a3) (fun _ => eye) s (used_cutoff s cutoff (gauss_cutoff goal (rmaxn (N - 1) F))) ->
  derivable_pt_lim (fun t => correction_energy N q (G_of (gauss_gamma erfc Bohr N (moved r u t) (lattice a1 a2 a3) (fun _ => eye) s U F cutoff goal))) 0
    (- rsum N (fun i => vdot (correction_force N q (dG_of (gauss_gamma erfc Bohr N r (lattice a1 a2 a3) (fun _ => eye) s U F cutoff goal)) i) (u i)) / Bohr).
Proof. intros HN HB Hs HE HU Hr. apply gauss_forces_closed; auto. apply bravais_inv, Hs. Qed.
(** ** concrete cases *)
Example dimer_chain_regular : regular 2 dimer (lattice (V3 5 0 0) e2 e3) (fun _ => eye) along_x (Some 7).
Proof.
  intros [[n m] p] i j (S1 & S2 & S3) Hi Hj Hne. unfold in_scan, t1, t2, t3 in S1, S2, S3. cbn [fst snd] in *. assert (m = 0)%Z by lia. assert (p = 0)%Z by lia. subst m p.
  assert (Q : forall z, exists k : Z, (z = k \/ z = -k)%Z) by (intros z; exists z; auto).
  assert (E : exists e : Z, (e = -1 \/ e = 0 \/ e = 1)%Z /\ (e = 0%Z -> i = j) /\ vnorm (vsub (dimer i) (vadd (lattice (V3 5 0 0) e2 e3 (n, 0, 0)%Z) (mv eye (dimer j)))) = Rabs (IZR (e - 5 * n))).
  { assert (G : forall a b : v3, forall x : R, vy a = 0 -> vz a = 0 -> vy b = 0 -> vz b = 0 -> vx a - vx b = x -> vnorm (vsub a (vadd (lattice (V3 5 0 0) e2 e3 (n, 0, 0)%Z) (mv eye b))) = Rabs (x - 5 * IZR n)).
    { intros a b x A1 A2 B1 B2 X. unfold vnorm, lattice, t1, t2, t3, e2, e3. cbn [fst snd]. rewrite <- sqrt_Rsqr_abs. f_equal. unfold Rsqr. rewrite <- X. vunf. rewrite A1, A2, B1, B2. ring. }
    assert (W : forall e : Z, IZR (e - 5 * n) = IZR e - 5 * IZR n) by (intros e; rewrite minus_IZR, mult_IZR; reflexivity).
    destruct i as [|[|i]]; destruct j as [|[|j]]; try lia.
    - exists 0%Z. split; [lia|]. split; [auto|]. rewrite W. apply G; auto; cbn; lra.
    - exists (-1)%Z. split; [lia|]. split; [lia|]. rewrite W. apply G; auto; cbn; lra.
    - exists 1%Z. split; [lia|]. split; [lia|]. rewrite W. apply G; auto; cbn; lra.
    - exists 0%Z. split; [lia|]. split; [auto|]. rewrite W. apply G; auto; cbn; lra. }
  destruct E as (e & He & Hij & ->). rewrite <- abs_IZR. split.
  - apply IZR_lt. assert (e - 5 * n <> 0)%Z; [|lia]. intros X. assert (e = 0 /\ n = 0)%Z as [E0 N0] by lia. subst. apply Hne. split; [reflexivity|apply Hij; reflexivity].
  - intros X. apply eq_IZR in X. lia.
Qed.
Example chain_bravais : bravais_ranges along_x.
Proof. unfold bravais_ranges, along_x, bravais_range. auto. Qed.
(** two silicon-like atoms (U = 0.25) of a chain with cutoff 7: everything above applies *)
Example dimer_chain_forces q u : derivable_pt_lim
  (fun t => correction_energy 2 q (G_of (slater_gamma 0.53 2 (moved dimer u t) (lattice (V3 5 0 0) e2 e3) (fun _ => eye) along_x (fun _ => / 4) (Some 7) 12))) 0
  (- rsum 2 (fun i => vdot (correction_force 2 q (dG_of (slater_gamma 0.53 2 dimer (lattice (V3 5 0 0) e2 e3) (fun _ => eye) along_x (fun _ => / 4) (Some 7) 12)) i) (u i)) / 0.53).
Proof.
  apply slater_forces_bravais; [lia|lra|apply chain_bravais|intros; lra|]. unfold used_cutoff. apply dimer_chain_regular.
Qed.
Example chain_complete c i j : is_image along_x c -> close_pair 2 dimer (lattice (V3 5 0 0) e2 e3) (fun _ => eye) (Some 7) (c, i, j) -> scanned along_x c.
Proof.
  apply (nbs_complete 2 dimer (V3 5 0 0) e2 e3 (V3 (/ 5) 0 0) e2 e3 7).
  - unfold dual, e2, e3. vunf. repeat split; field.
  - intros _. replace (vnorm (V3 (/ 5) 0 0)) with (/ 5); [lra|]. unfold vnorm. replace (vdot _ _) with (Rsqr (/ 5)) by (unfold Rsqr; vunf; ring). rewrite sqrt_Rsqr; lra.
  - discriminate.
  - discriminate.
  - intros k Hk. split; [intros _|split; discriminate]. destruct k as [|[|k]]; [| |lia]; unfold dimer, e1, vzero; vunf; lra.
Qed.
Example contact_C_O : contact (tau 0.36) (tau 0.5) > 0.
Proof. unfold contact, tau. lra. Qed.
