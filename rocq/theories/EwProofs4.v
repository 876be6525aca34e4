From Coq Require Import Reals ZArith List Bool Arith Lra Lia Psatz.
From Verif Require Import Vec GeomModel GeomProofs GeomProofs3 PairProofs SkProofs6 AtomProofs4 GamSpec GamProofs3 EwModel EwSpec EwProofs EwProofs2 EwProofs3.
Import ListNotations.
Open Scope R_scope.
Notation lsum := EwModel.lsum.

Lemma D_esum {A} (l : list A) (f : A -> R -> R) (f' : A -> R) x : (forall a, In a l -> derivable_pt_lim (f a) x (f' a)) -> derivable_pt_lim (fun t => lsum l (fun a => f a t)) x (lsum l f').
Proof.
  unfold EwModel.lsum. induction l as [|a l IH]; intros h; cbn [fold_right]; [apply D_const|]. apply D_plus; [apply h; left; reflexivity|apply IH]. intros b hb. apply h. right. exact hb.
Qed.
Definition smooth (f : R -> R) (x : R) : Prop := exists l, derivable_pt_lim f x l.
Lemma smooth_sum {A} (l : list A) (f : A -> R -> R) x : (forall a, In a l -> smooth (f a) x) -> smooth (fun t => lsum l (fun a => f a t)) x.
Proof.
  unfold EwModel.lsum. induction l as [|a l IH]; intros h; cbn [fold_right]; [exists 0; apply D_const|]. destruct (h a (or_introl eq_refl)) as [p hp]. destruct IH as [p' hp']; [intros b hb; apply h; right; exact hb|].
  exists (p + p'). apply (D_plus (f a)); assumption.
Qed.
Lemma smooth_limit f : smooth f 0 -> tends_at_0 f (f 0).
Proof.
  intros [l h] eps he. assert (hc : continuity_pt f 0) by (apply derivable_continuous_pt; exists l; exact h). destruct (hc eps he) as [del [hd H]]. exists del. split; [exact hd|]. intros d hdd.
  apply (H d). split; [split; [exact I|lra]|]. cbn. unfold R_dist. rewrite Rminus_0_r, Rabs_right; lra.
Qed.
Lemma limit_plus f g a b : tends_at_0 f a -> tends_at_0 g b -> tends_at_0 (fun d => f d + g d) (a + b).
Proof.
  intros hf hg eps he. destruct (hf (eps / 2) ltac:(lra)) as [d1 [h1 H1]]. destruct (hg (eps / 2) ltac:(lra)) as [d2 [h2 H2]]. exists (Rmin d1 d2). split; [apply Rmin_pos; assumption|]. intros d hd.
  specialize (H1 d ltac:(pose proof (Rmin_l d1 d2); lra)). specialize (H2 d ltac:(pose proof (Rmin_r d1 d2); lra)). replace (f d + g d - (a + b)) with ((f d - a) + (g d - b)) by ring.
  eapply Rle_lt_trans; [apply Rabs_triang|]. lra.
Qed.
Lemma limit_ext f g a : (forall d, 0 < d -> f d = g d) -> tends_at_0 f a -> tends_at_0 g a.
Proof. intros E h eps he. destruct (h eps he) as [del [hd H]]. exists del. split; [exact hd|]. intros d hdd. rewrite <- E by lra. apply H, hdd. Qed.

Section Self.
Variables (erfc : R -> R) (acc weight : R) (n : nat) (cell : m3) (r : nat -> v3) (u : v3) (i j : nat).
Hypothesis herf : is_erfc erfc.
Hypothesis hi : (i < n)%nat.
Hypothesis hj : (j < n)%nat.
Hypothesis hij : i <> j.
Hypothesis hu : vnorm u = 1.
Notation al := (alpha weight n cell).
Definition placed (s : R) (k : nat) : v3 := if (k =? j)%nat then vadd (r i) (vscale s u) else r k.
Lemma placed_i s : placed s i = r i.
Proof. unfold placed. replace (i =? j)%nat with false by (symmetry; apply Nat.eqb_neq, hij). reflexivity. Qed.
Lemma placed_j s : placed s j = vadd (r i) (vscale s u).
Proof. unfold placed. rewrite Nat.eqb_refl. reflexivity. Qed.
Definition images (s : R) : R :=
  lsum (g_range acc weight n cell) (fun t => rec_weight weight n cell t * cos (s * vdot (wave cell t) u)) * (4 * PI / volume cell) +
  lsum (r_range acc weight n cell) (fun t => if is_zero t then 0 else erfc (sqrt al * vnorm (vadd (vscale (-1) (shift cell t)) (vscale s (vscale (-1) u)))) / vnorm (vadd (vscale (-1) (shift cell t)) (vscale s (vscale (-1) u)))).
Lemma kernel_near s : 0 < s -> kernel erfc acc weight n cell (placed s) i j = images s + erfc (sqrt al * s) / s.
Proof.
  intros hs. unfold kernel, images. replace (i =? j)%nat with false by (symmetry; apply Nat.eqb_neq, hij). rewrite placed_i, placed_j.
  assert (En : vnorm (vsub (r i) (vadd (r i) (vscale s u))) = s).
  { replace (vsub (r i) (vadd (r i) (vscale s u))) with (vscale (- s) u) by (unfold vsub, vadd, vscale; cbn [vx vy vz]; f_equal; ring). rewrite vnorm_vscale, hu, Rabs_Ropp, Rabs_right; lra. }
  rewrite En.
  assert (E1 : lsum (g_range acc weight n cell) (fun t => rec_weight weight n cell t * cos (vdot (wave cell t) (vsub (r i) (vadd (r i) (vscale s u))))) = lsum (g_range acc weight n cell) (fun t => rec_weight weight n cell t * cos (s * vdot (wave cell t) u))).
  { apply lsum_ext. intros t _. f_equal. rewrite <- cos_neg. f_equal. unfold vdot, vsub, vadd, vscale. cbn [vx vy vz]. ring. }
  rewrite E1.
  assert (E2 : forall t, dist cell (placed s) t i j = vnorm (vadd (vscale (-1) (shift cell t)) (vscale s (vscale (-1) u)))).
  { intros t. unfold dist. rewrite placed_i, placed_j. f_equal. unfold vsub, vadd, vscale. cbn [vx vy vz]. f_equal; ring. }
  assert (E3 : lsum (r_range acc weight n cell) (fun t => if is_zero t then 0 else erfc (sqrt al * dist cell (placed s) t i j) / dist cell (placed s) t i j) =
    lsum (r_range acc weight n cell) (fun t => if is_zero t then 0 else erfc (sqrt al * vnorm (vadd (vscale (-1) (shift cell t)) (vscale s (vscale (-1) u)))) / vnorm (vadd (vscale (-1) (shift cell t)) (vscale s (vscale (-1) u))))).
  { apply lsum_ext. intros t _. rewrite E2. reflexivity. }
  rewrite E3. ring.
Qed.
Lemma kernel_own : kernel erfc acc weight n cell r i i = images 0 - 2 * sqrt (al / PI).
Proof.
  unfold kernel, images. rewrite Nat.eqb_refl.
  assert (E1 : lsum (g_range acc weight n cell) (fun t => rec_weight weight n cell t * cos (vdot (wave cell t) (vsub (r i) (r i)))) = lsum (g_range acc weight n cell) (fun t => rec_weight weight n cell t * cos (0 * vdot (wave cell t) u))).
  { apply lsum_ext. intros t _. f_equal. f_equal. unfold vdot, vsub. cbn [vx vy vz]. ring. }
  rewrite E1.
  assert (E3 : lsum (r_range acc weight n cell) (fun t => if is_zero t then 0 else erfc (sqrt al * dist cell r t i i) / dist cell r t i i) =
    lsum (r_range acc weight n cell) (fun t => if is_zero t then 0 else erfc (sqrt al * vnorm (vadd (vscale (-1) (shift cell t)) (vscale 0 (vscale (-1) u)))) / vnorm (vadd (vscale (-1) (shift cell t)) (vscale 0 (vscale (-1) u))))).
  { apply lsum_ext. intros t _. replace (dist cell r t i i) with (vnorm (vadd (vscale (-1) (shift cell t)) (vscale 0 (vscale (-1) u)))); [reflexivity|].
    unfold dist. f_equal. unfold vsub, vadd, vscale. cbn [vx vy vz]. f_equal; ring. }
  rewrite E3. ring.
Qed.
Lemma images_smooth : separated acc weight n cell r = true -> smooth images 0.
Proof.
  intros hsep. unfold images.
  assert (S1 : smooth (fun s => lsum (g_range acc weight n cell) (fun t => rec_weight weight n cell t * cos (s * vdot (wave cell t) u))) 0).
  { apply smooth_sum. intros t _. eexists. apply D_scal. apply (derivable_pt_lim_comp (fun s => s * vdot (wave cell t) u) cos); [|apply derivable_pt_lim_cos].
    apply D_mult; [apply D_id|apply D_const]. }
  assert (S2 : smooth (fun s => lsum (r_range acc weight n cell) (fun t => if is_zero t then 0 else erfc (sqrt al * vnorm (vadd (vscale (-1) (shift cell t)) (vscale s (vscale (-1) u)))) / vnorm (vadd (vscale (-1) (shift cell t)) (vscale s (vscale (-1) u))))) 0).
  { apply smooth_sum. intros t ht. destruct (is_zero t) eqn:Ez; [exists 0; apply D_const|].
    assert (hp : 0 < vnorm (vscale (-1) (shift cell t))).
    { rewrite vnorm_vscale. replace (Rabs (-1)) with 1 by (rewrite Rabs_left; lra). rewrite Rmult_1_l. rewrite separated_spec in hsep.
      specialize (hsep i i t hi hi (or_intror ht)). rewrite shift_translation. apply vnorm_pos. intros E. apply hsep; [left; intros ->; discriminate Ez|]. rewrite E. unfold vadd, vzero. destruct (r i) as [a b c]. cbn [vx vy vz]. f_equal; ring. }
    pose proof (norm_derivative (vscale (-1) (shift cell t)) (vscale (-1) u) hp) as hl.
    assert (Hv : vnorm (vadd (vscale (-1) (shift cell t)) (vscale 0 (vscale (-1) u))) <> 0).
    { replace (vadd (vscale (-1) (shift cell t)) (vscale 0 (vscale (-1) u))) with (vscale (-1) (shift cell t)); [lra|]. unfold vadd, vscale. cbn [vx vy vz]. f_equal; ring. }
    eexists. apply D_quot; [exact Hv| |exact hl]. apply (derivable_pt_lim_comp (fun s => sqrt al * vnorm (vadd (vscale (-1) (shift cell t)) (vscale s (vscale (-1) u)))) erfc); [|apply herf].
    apply D_scal. exact hl. }
  destruct S1 as [l1 h1], S2 as [l2 h2]. eexists. apply D_plus; [|exact h2]. apply D_mult; [exact h1|apply D_const].
Qed.
Lemma self_limit : separated acc weight n cell r = true -> tends_at_0 (fun s => kernel erfc acc weight n cell (placed s) i j - / s) (kernel erfc acc weight n cell r i i).
Proof.
  intros hsep. rewrite kernel_own. apply (limit_ext (fun s => images s + (erfc (sqrt al * s) - 1) / s)).
  - intros s hs. rewrite kernel_near by exact hs. field. lra.
  - replace (images 0 - 2 * sqrt (al / PI)) with (images 0 + - (2 * sqrt (al / PI))) by ring. apply limit_plus; [apply smooth_limit, images_smooth, hsep|].
    pose proof PI_RGT_0 as hpi. pose proof (alpha_pos weight n cell) as ha.
    apply (quotient_limit (fun s => erfc (sqrt al * s) - 1)).
    + apply (D_eq _ _ (- (2 / sqrt PI) * exp (- (sqrt al * 0) ^ 2) * sqrt al - 0)).
      * apply (D_minus (fun s => erfc (sqrt al * s))); [|apply D_const]. apply (derivable_pt_lim_comp (fun s => sqrt al * s) erfc); [apply D_line|apply herf].
      * rewrite Rmult_0_r. replace (- 0 ^ 2) with 0 by ring. rewrite exp_0, sqrt_div_alt by exact hpi. field. apply Rgt_not_eq, sqrt_lt_R0, hpi.
    + rewrite Rmult_0_r. destruct herf as [h _]. rewrite h. ring.
    + intros d hd. reflexivity.
Qed.
End Self.

(** the own potential of a charge is the limit of that of a neighbour at a small distance, less the bare interaction *)
Lemma own_potential erfc acc weight n cell r u i j phi : is_erfc erfc -> (i < n)%nat -> (j < n)%nat -> i <> j -> vnorm u = 1 ->
  update erfc acc weight n cell r (fun k => if (k =? i)%nat then 1 else 0) = Some phi ->
  forall eps, 0 < eps -> exists del, 0 < del /\ forall s psi, 0 < s < del ->
  update erfc acc weight n cell (fun k => if (k =? j)%nat then vadd (r i) (vscale s u) else r k) (fun k => if (k =? j)%nat then 1 else 0) = Some psi ->
  Rabs (psi i - / s - phi i) < eps.
Proof.
  intros herf hi hj hij hu hphi eps he.
  assert (hsep : separated acc weight n cell r = true) by (unfold update in hphi; destruct (separated acc weight n cell r); [reflexivity|discriminate]).
  destruct (self_limit erfc acc weight n cell r u i j herf hi hij hu hsep eps he) as [del [hd H]]. exists del. split; [exact hd|]. intros s psi hs hpsi.
  assert (P : forall g k, (k < n)%nat -> rsum n (fun m => g m * (if (m =? k)%nat then 1 else 0)) = g k).
  { intros g k hk. rewrite (rsum_single n k) by (try exact hk; intros m hm hne; replace (m =? k)%nat with false by (symmetry; apply Nat.eqb_neq; lia); ring). rewrite Nat.eqb_refl. ring. }
  rewrite (update_values _ _ _ _ _ _ _ _ hphi i hi), (update_values _ _ _ _ _ _ _ _ hpsi i hi). rewrite (P (kernel erfc acc weight n cell r i) i hi).
  rewrite (P (kernel erfc acc weight n cell (fun k => if (k =? j)%nat then vadd (r i) (vscale s u) else r k) i) j hj). apply H. exact hs.
Qed.

(** ** Poisson's equation for the long-range potential *)
Lemma wave_nonzero cell t : det cell <> 0 -> is_zero t = false -> 0 < vdot (wave cell t) (wave cell t).
Proof.
  intros hd hz. rewrite <- vnorm_sq. assert (hw : wave cell t <> vzero).
  { intros E. assert (K : vm (wave cell t) cell = vscale (2 * PI) (vec_of t)).
    { destruct t as [[x y] z]. destruct cell as [[a b c] [a' b' c'] [a'' b'' c'']]. remember (det _) as d eqn:Ed in hd. rewrite (wave_form _ _ _ _ _ _ _ _ _ x y z d (eq_sym Ed)). clear E. unfold det, vdot, vcross in Ed. cbn [vx vy vz row1 row2 row3] in Ed.
      cbv [vm mv tr vec_of vscale vdot fst snd vx vy vz row1 row2 row3]. f_equal; rewrite Ed; field; rewrite <- Ed; exact hd. }
    rewrite E in K. unfold vm, mv, vzero, vec_of, vscale, vdot, tr in K. cbn [vx vy vz row1 row2 row3] in K. injection K as k1 k2 k3. pose proof PI_RGT_0 as hp.
    assert (Z0 : forall (x y : R) (k : Z), y * 0 = y * 0 -> 0 = 2 * PI * IZR k -> k = 0%Z) by (intros _ _ k _ h; apply eq_IZR; apply Rmult_eq_reg_l with (2 * PI); lra).
    destruct t as [[x y] z]. cbn [fst snd] in *. apply Bool.not_true_iff_false in hz. apply hz. apply is_zero_eq.
    assert (hx : x = 0%Z) by (apply (Z0 0 0); [reflexivity|rewrite <- k1; ring]). assert (hy : y = 0%Z) by (apply (Z0 0 0); [reflexivity|rewrite <- k2; ring]). assert (hzz : z = 0%Z) by (apply (Z0 0 0); [reflexivity|rewrite <- k3; ring]). subst. reflexivity. }
  pose proof (vnorm_pos _ hw). nra.
Qed.
Lemma probe_value acc weight n cell r q i x : q i = 0 ->
  phi_rec acc weight n cell (placed_at r i x) q i = lsum (g_range acc weight n cell) (fun t => rec_weight weight n cell t * (4 * PI / volume cell) * rsum n (fun j => q j * cos (vdot (wave cell t) (vsub x (r j))))).
Proof.
  intros hq. unfold phi_rec. rewrite lsum_scal_r. apply lsum_ext. intros t _.
  assert (Ei : placed_at r i x i = x) by (unfold placed_at; rewrite Nat.eqb_refl; reflexivity). rewrite Ei.
  assert (E1 : forall h : R -> R, rsum n (fun j => h (vdot (wave cell t) (placed_at r i x j)) * q j) = rsum n (fun j => h (vdot (wave cell t) (r j)) * q j)).
  { intros h. apply rsum_ext. intros j _. unfold placed_at. destruct (j =? i)%nat eqn:E; [|reflexivity]. apply Nat.eqb_eq in E. subst. rewrite hq. ring. }
  rewrite (E1 sin), (E1 cos), <- !rsum_scal_r, <- rsum_plus, <- !rsum_scal, <- rsum_scal_r. apply rsum_ext. intros j _. rewrite dot_sub, cos_minus. ring.
Qed.
Lemma D_cos f x f' : derivable_pt_lim f x f' -> derivable_pt_lim (fun t => cos (f t)) x (- sin (f x) * f').
Proof. intros h. apply (derivable_pt_lim_comp f cos); [exact h|apply derivable_pt_lim_cos]. Qed.
Lemma D_sin f x f' : derivable_pt_lim f x f' -> derivable_pt_lim (fun t => sin (f t)) x (cos (f x) * f').
Proof. intros h. apply (derivable_pt_lim_comp f sin); [exact h|apply derivable_pt_lim_sin]. Qed.
Lemma D_ext f g x l : (forall t, f t = g t) -> derivable_pt_lim f x l -> derivable_pt_lim g x l.
Proof. intros E h eps he. destruct (h eps he) as [del H]. exists del. intros d h1 h2. rewrite <- !E. apply H; assumption. Qed.
Lemma along w x u (y : v3) s : vdot w (vsub (vadd x (vscale s u)) y) = vdot w (vsub x y) + s * vdot w u.
Proof. unfold vdot, vsub, vadd, vscale. cbn [vx vy vz]. ring. Qed.
Lemma poisson acc weight n cell r q i : det cell <> 0 -> q i = 0 ->
  exists (F' : v3 -> R -> R) (F'' : v3 -> R),
  (forall u s, derivable_pt_lim (fun s => phi_rec acc weight n cell (placed_at r i (vadd (r i) (vscale s u))) q i) s (F' u s)) /\
  (forall u, derivable_pt_lim (F' u) 0 (F'' u)) /\
  F'' (V3 1 0 0) + F'' (V3 0 1 0) + F'' (V3 0 0 1) = - (4 * PI) * smeared acc weight n cell r q (r i).
Proof.
  intros hd hq. set (W := fun t => rec_weight weight n cell t * (4 * PI / volume cell)).
  exists (fun u s => lsum (g_range acc weight n cell) (fun t => W t * rsum n (fun j => q j * (- sin (vdot (wave cell t) (vsub (r i) (r j)) + s * vdot (wave cell t) u) * vdot (wave cell t) u)))).
  exists (fun u => lsum (g_range acc weight n cell) (fun t => W t * rsum n (fun j => q j * (- (cos (vdot (wave cell t) (vsub (r i) (r j))) * vdot (wave cell t) u) * vdot (wave cell t) u)))).
  assert (DL : forall a b s, derivable_pt_lim (fun s => a + s * b) s b) by (intros a b s; apply D_lin).
  split; [|split].
  - intros u s. apply (D_ext (fun s => lsum (g_range acc weight n cell) (fun t => W t * rsum n (fun j => q j * cos (vdot (wave cell t) (vsub (r i) (r j)) + s * vdot (wave cell t) u))))).
    + intros v. rewrite probe_value by exact hq. apply lsum_ext. intros t _. unfold W. f_equal. apply rsum_ext. intros j _. rewrite along. reflexivity.
    + apply (D_esum _ (fun t s => W t * rsum n (fun j => q j * cos (vdot (wave cell t) (vsub (r i) (r j)) + s * vdot (wave cell t) u)))). intros t _. apply D_scal.
      apply (derivable_rsum n (fun j s => q j * cos (vdot (wave cell t) (vsub (r i) (r j)) + s * vdot (wave cell t) u))). intros j _. apply D_scal. apply (D_cos (fun s => vdot (wave cell t) (vsub (r i) (r j)) + s * vdot (wave cell t) u)). apply DL.
  - intros u. apply (D_esum _ (fun t s => W t * rsum n (fun j => q j * (- sin (vdot (wave cell t) (vsub (r i) (r j)) + s * vdot (wave cell t) u) * vdot (wave cell t) u)))). intros t _. apply D_scal.
    apply (derivable_rsum n (fun j s => q j * (- sin (vdot (wave cell t) (vsub (r i) (r j)) + s * vdot (wave cell t) u) * vdot (wave cell t) u))). intros j _. apply D_scal.
    eapply D_eq; [apply D_mult; [apply D_opp; apply (D_sin (fun s => vdot (wave cell t) (vsub (r i) (r j)) + s * vdot (wave cell t) u)), DL|apply D_const]|]. cbv beta. rewrite Rmult_0_l, Rplus_0_r. ring.
  - unfold smeared.
    assert (LP : forall l (f g : Z * Z * Z -> R), lsum l f + lsum l g = lsum l (fun t => f t + g t)) by (unfold EwModel.lsum; induction l as [|a l IH]; intros f g; cbn [fold_right]; [ring|rewrite <- IH; ring]).
    rewrite !LP, Rmult_comm, lsum_scal_r. apply lsum_ext. intros t _. rewrite <- !Rmult_plus_distr_l, <- !rsum_plus.
    transitivity (W t * rsum n (fun j => - vdot (wave cell t) (wave cell t) * (q j * cos (vdot (wave cell t) (vsub (r i) (r j)))))).
    + f_equal. apply rsum_ext. intros j _. generalize (cos (vdot (wave cell t) (vsub (r i) (r j)))). intros c. generalize (wave cell t). intros w. unfold vdot. cbn [vx vy vz]. ring.
    + rewrite rsum_scal. unfold W, rec_weight. destruct (is_zero t) eqn:Ez; [ring|]. pose proof (wave_nonzero cell t hd Ez) as hw. rewrite (proj2 (ltb_true _ _) hw).
      assert (volume cell <> 0) by (unfold volume; apply Rabs_no_R0, hd). field. split; lra.
Qed.
