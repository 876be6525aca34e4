From Coq Require Import Reals ZArith List Bool Arith Permutation Lra Lia.
From Verif Require Import Vec GeomModel GeomProofs PairModel PairSpec PairProofs CoulModel CoulProofs GamModel GamSpec GamProofs SkProofs6.
Import ListNotations.
Open Scope R_scope.

Section Inv.
Variables (cs : list cell) (tr0 : cell -> v3) (rot : cell -> m3) (inv : cell -> cell).
Hypothesis Hc : closed_images cs tr0 rot inv.
Lemma mv_add m a b : mv m (vadd a b) = vadd (mv m a) (mv m b). Proof. apply v3_eq; vunf; ring. Qed.
Lemma mv_scale m k a : mv m (vscale k a) = vscale k (mv m a). Proof. apply v3_eq; vunf; ring. Qed.
Lemma drv_back r c i j : mv (rot (inv c)) (drv r tr0 rot c i j) = vscale (-1) (drv r tr0 rot (inv c) j i).
Proof.
  unfold drv, image. rewrite mv_sub, mv_add, (ci_back _ _ _ _ Hc), (ci_shift _ _ _ _ Hc). apply v3_eq; vunf; ring.
Qed.
Lemma rot_norm c p : vnorm (mv (rot c) p) = vnorm p.
Proof. unfold vnorm. rewrite (ci_rigid _ _ _ _ Hc). reflexivity. Qed.
Lemma dist_back r c i j : vnorm (drv r tr0 rot (inv c) j i) = vnorm (drv r tr0 rot c i j).
Proof. rewrite <- (rot_norm (inv c) (drv r tr0 rot c i j)), drv_back, vscale_norm. rewrite (Rabs_left (-1)) by lra. ring. Qed.
Lemma origin_back c : inv c = origin_cell <-> c = origin_cell.
Proof. destruct (ci_origin _ _ _ _ Hc) as (_ & _ & E). split; intros H; [rewrite <- (ci_inv _ _ _ _ Hc c), H; exact E|rewrite H; exact E]. Qed.
Lemma mask_back r cutoff c i j : mask r tr0 rot cutoff (inv c) j i = mask r tr0 rot cutoff c i j.
Proof.
  apply eq_true_iff_eq. rewrite !mask_iff, origin_back, dist_back.
  assert (E : (c = origin_cell /\ j = i) <-> (c = origin_cell /\ i = j)) by (split; intros [X Y]; split; congruence). rewrite E. reflexivity.
Qed.
Lemma lsum_inv (f : cell -> R) : lsum cs f = lsum cs (fun c => f (inv c)).
Proof. rewrite <- (lsum_map cs inv f). symmetry. apply lsum_perm. exact (ci_perm _ _ _ _ Hc). Qed.

Section Grad.
Variables (N : nat) (cutoff : option R) (Bohr : R) (U q : nat -> R) (term : nat -> nat -> R -> R * R) (r u : nat -> v3).
Hypothesis HB : 0 < Bohr.
Hypothesis Ht : consistent_term N term.
Notation nbs p := (flat_map (cell_neighbours N p tr0 rot cutoff) cs).
Lemma G_symmetric i j : (i < N)%nat -> (j < N)%nat -> gamma_G Bohr U term (nbs r) i j = gamma_G Bohr U term (nbs r) j i.
Proof.
  intros Hi Hj. rewrite !G_value by assumption. f_equal.
  - destruct (Nat.eqb_spec i j) as [->|]; [rewrite Nat.eqb_refl; reflexivity|]. rewrite (proj2 (Nat.eqb_neq j i)) by lia. reflexivity.
  - rewrite lsum_inv. apply lsum_ext. intros c _. rewrite mask_back, dist_back. rewrite (proj1 Ht i j) by assumption. reflexivity.
Qed.
Hypothesis Hd : forall c i j, In c cs -> (i < N)%nat -> (j < N)%nat -> ~ (c = origin_cell /\ i = j) -> 
  0 < vnorm (drv r tr0 rot c i j) /\ match cutoff with None => True | Some k => vnorm (drv r tr0 rot c i j) <> k end.
Definition A c i j := drv r tr0 rot c i j.
Definition B c i j := vsub (u i) (mv (rot c) (u j)).
Lemma classic_origin (c : cell) (i j : nat) : (c = origin_cell /\ i = j) \/ ~ (c = origin_cell /\ i = j).
Proof.
  destruct (zero_cell c) eqn:E; [|right; intros [-> _]; discriminate]. apply zero_cell_iff in E. destruct (Nat.eq_dec i j); [left; auto|right; tauto].
Qed.
Lemma drv_moved s c i j : drv (moved r u s) tr0 rot c i j = vadd (A c i j) (vscale s (B c i j)).
Proof. unfold A, B, drv, image, moved. apply v3_eq; vunf; ring. Qed.
Definition Tm c i j (s : R) : R := if mask (moved r u s) tr0 rot cutoff c i j then q i * fst (term i j (vnorm (drv (moved r u s) tr0 rot c i j) / Bohr)) * q j else 0.
Definition K c i j : R := if mask r tr0 rot cutoff c i j then q i * q j * snd (term i j (vnorm (A c i j) / Bohr)) / Bohr / vnorm (A c i j) else 0.
Lemma term_D c i j : In c cs -> (i < N)%nat -> (j < N)%nat -> derivable_pt_lim (Tm c i j) 0 (- (K c i j * vdot (A c i j) (B c i j))).
Proof.
  intros Hin Hi Hj. unfold K. destruct (mask r tr0 rot cutoff c i j) eqn:M.
  - apply mask_iff in M. destruct M as [M1 M2]. destruct (Hd c i j Hin Hi Hj M1) as [P _]. fold (A c i j) in *.
    assert (E : exists e, 0 < e /\ forall s, Rabs s < e -> match cutoff with None => True | Some k => vnorm (vadd (A c i j) (vscale s (B c i j))) < k end).
    { destruct cutoff as [k|]; [|exists 1; split; [lra|auto]].
      destruct (norm_continuous (A c i j) (B c i j) (k - vnorm (A c i j)) ltac:(lra)) as [e [He H]]. exists e. split; [exact He|]. intros s Hs. specialize (H s Hs). apply Rabs_def2 in H. lra. }
    destruct E as [e [He E]].
    apply (derivable_local _ (fun s => q i * fst (term i j (vnorm (vadd (A c i j) (vscale s (B c i j))) / Bohr)) * q j) 0 _ e He).
    { intros s Hs. rewrite Rminus_0_r in Hs. unfold Tm. rewrite (proj2 (mask_iff _ _ _ _ _ _ _)).
      - rewrite drv_moved. reflexivity.
      - split; [exact M1|]. specialize (E s Hs). rewrite drv_moved. exact E. }
    assert (V0 : vnorm (vadd (A c i j) (vscale 0 (B c i j))) = vnorm (A c i j)) by (f_equal; apply v3_eq; vunf; ring).
    apply (D_eq _ _ (q i * (- snd (term i j (vnorm (A c i j) / Bohr)) * (/ Bohr * (vdot (A c i j) (B c i j) / vnorm (A c i j)))) * q j)).
    2:{ field. split; lra. }
    assert (D1 : derivable_pt_lim (fun s => fst (term i j (vnorm (vadd (A c i j) (vscale s (B c i j))) / Bohr))) 0
       (- snd (term i j (vnorm (A c i j) / Bohr)) * (/ Bohr * (vdot (A c i j) (B c i j) / vnorm (A c i j))))).
    { apply (derivable_pt_lim_comp (fun s => vnorm (vadd (A c i j) (vscale s (B c i j))) / Bohr) (fun t => fst (term i j t)) 0).
      - apply (derivable_local _ (fun s => / Bohr * vnorm (vadd (A c i j) (vscale s (B c i j)))) 0 _ 1); [lra|intros; unfold Rdiv; ring|].
        apply (derivable_pt_lim_scal (fun s => vnorm (vadd (A c i j) (vscale s (B c i j)))) (/ Bohr)). apply norm_derivative. exact P.
      - rewrite V0. apply (proj2 Ht); try assumption. apply Rdiv_lt_0_compat; assumption. }
    apply (D_eq _ _ ((0 * fst (term i j (vnorm (vadd (A c i j) (vscale 0 (B c i j))) / Bohr)) + q i * (- snd (term i j (vnorm (A c i j) / Bohr)) * (/ Bohr * (vdot (A c i j) (B c i j) / vnorm (A c i j))))) * q j
        + q i * fst (term i j (vnorm (vadd (A c i j) (vscale 0 (B c i j))) / Bohr)) * 0)); [|ring].
    apply (D_mult (fun s => q i * fst (term i j (vnorm (vadd (A c i j) (vscale s (B c i j))) / Bohr))) (fun _ => q j)); [|apply D_const].
    apply (D_mult (fun _ => q i)); [apply D_const|exact D1].
  - replace (- (0 * vdot (A c i j) (B c i j))) with 0 by ring.
    assert (E : exists e, 0 < e /\ forall s, Rabs s < e -> mask (moved r u s) tr0 rot cutoff c i j = false).
    { destruct (classic_origin c i j) as [O|O].
      - exists 1. split; [lra|]. intros s _. apply not_true_iff_false. rewrite mask_iff. tauto.
      - destruct (Hd c i j Hin Hi Hj O) as [P Q]. apply not_true_iff_false in M. rewrite mask_iff in M.
        destruct cutoff as [k|]; [|exfalso; apply M; split; [exact O|exact I]]. fold (A c i j) in *.
        assert (L : k < vnorm (A c i j)) by (destruct (Rtotal_order k (vnorm (A c i j))) as [X|[X|X]]; [exact X|exfalso; apply Q; symmetry; exact X|exfalso; apply M; split; [exact O|lra]]).
        destruct (norm_continuous (A c i j) (B c i j) (vnorm (A c i j) - k) ltac:(lra)) as [e [He H]]. exists e. split; [exact He|]. intros s Hs. specialize (H s Hs). apply Rabs_def2 in H.
        apply not_true_iff_false. rewrite mask_iff, drv_moved. lra. }
    destruct E as [e [He E]]. apply (derivable_local _ (fun _ => 0) 0 _ e He); [|apply D_const].
    intros s Hs. rewrite Rminus_0_r in Hs. unfold Tm. rewrite E by exact Hs. reflexivity.
Qed.
Lemma energy_terms s : correction_energy N q (gamma_G Bohr U term (nbs (moved r u s))) =
  / 2 * rsum N (fun i => q i * U i * q i) + / 2 * rsum N (fun i => rsum N (fun j => lsum cs (fun c => Tm c i j s))).
Proof.
  unfold correction_energy. rewrite <- Rmult_plus_distr_l. f_equal. rewrite <- rsum_plus. apply rsum_ext. intros i Hi.
  transitivity (rsum N (fun j => (if (i =? j)%nat then q i * U i * q j else 0) + lsum cs (fun c => Tm c i j s))).
  - apply rsum_ext. intros j Hj. rewrite G_value by assumption. rewrite Rmult_plus_distr_l, Rmult_plus_distr_r. f_equal; [destruct (i =? j)%nat; ring|].
    rewrite Rmult_comm, <- Rmult_assoc, <- lsum_scal. apply lsum_ext. intros c _. unfold Tm. destruct (mask _ _ _ _ _ _ _); ring.
  - rewrite rsum_plus. f_equal. rewrite (lsum_rsum_pick N i (fun j => q i * U i * q j)) by exact Hi. reflexivity.
Qed.
Lemma K_back c i j : (i < N)%nat -> (j < N)%nat -> K (inv c) j i = K c i j.
Proof. intros Hi Hj. unfold K, A. rewrite mask_back, dist_back, (proj1 Ht j i) by assumption. destruct (mask _ _ _ _ _ _ _); [|reflexivity]. unfold Rdiv. ring. Qed.
Lemma AB_split c i j : vdot (A c i j) (B c i j) = vdot (A c i j) (u i) + vdot (A (inv c) j i) (u j).
Proof.
  unfold B. replace (vdot (A c i j) (vsub (u i) (mv (rot c) (u j)))) with (vdot (A c i j) (u i) - vdot (A c i j) (mv (rot c) (u j))) by (vunf; ring).
  rewrite <- (ci_rigid _ _ _ _ Hc (inv c) (A c i j) (mv (rot c) (u j))), (ci_back _ _ _ _ Hc). unfold A at 2. rewrite drv_back.
  fold (A (inv c) j i). vunf. ring.
Qed.
Lemma force_terms i : (i < N)%nat -> vdot (correction_force N q (gamma_dG Bohr term (nbs r)) i) (u i) = Bohr * rsum N (fun j => lsum cs (fun c => K c i j * vdot (A c i j) (u i))).
Proof.
  intros Hi. unfold correction_force.
  transitivity (q i * rsum N (fun j => q j * vdot (gamma_dG Bohr term (nbs r) i j) (u i))).
  - unfold vsum. rewrite <- !rsum_scal. vunf. rewrite <- !rsum_scal. rewrite <- !rsum_scal_r. rewrite <- !rsum_plus. apply rsum_ext. intros; ring.
  - rewrite <- !rsum_scal. apply rsum_ext. intros j Hj.
    rewrite (dG_value N r tr0 rot cutoff Bohr U term (fun v => vdot v (u i))); [|intros; vunf; ring|vunf; ring|exact Hi|exact Hj].
    rewrite <- !lsum_scal. apply lsum_ext. intros c Hin. unfold K. destruct (mask r tr0 rot cutoff c i j) eqn:M; [|ring].
    apply mask_iff in M. destruct (Hd c i j Hin Hi Hj (proj1 M)) as [P _]. unfold A.
    set (v := drv r tr0 rot c i j) in *. replace (vdot (vscale (snd (term i j (vnorm v / Bohr))) (vscale (/ vnorm v) v)) (u i))
      with (snd (term i j (vnorm v / Bohr)) / vnorm v * vdot v (u i)) by (vunf; field; lra). field. split; lra.
Qed.
Lemma gradient : derivable_pt_lim (fun s => correction_energy N q (gamma_G Bohr U term (nbs (moved r u s)))) 0
  (- rsum N (fun i => vdot (correction_force N q (gamma_dG Bohr term (nbs r)) i) (u i)) / Bohr).
Proof.
  apply (derivable_local _ (fun s => / 2 * rsum N (fun i => q i * U i * q i) + / 2 * rsum N (fun i => rsum N (fun j => lsum cs (fun c => Tm c i j s)))) 0 _ 1); [lra|intros s _; apply energy_terms|].
  apply (D_eq _ _ (0 + / 2 * rsum N (fun i => rsum N (fun j => lsum cs (fun c => - (K c i j * vdot (A c i j) (B c i j))))))).
  - apply (D_plus (fun _ => / 2 * rsum N (fun i => q i * U i * q i))); [apply D_const|].
    apply (derivable_pt_lim_scal (fun s => rsum N (fun i => rsum N (fun j => lsum cs (fun c => Tm c i j s)))) (/ 2)).
    apply (derivable_rsum N (fun i s => rsum N (fun j => lsum cs (fun c => Tm c i j s)))). intros i Hi.
    apply (derivable_rsum N (fun j s => lsum cs (fun c => Tm c i j s))). intros j Hj. apply (D_lsum cs (fun c => Tm c i j)). intros c Hin. apply term_D; assumption.
  - set (W := fun i j => lsum cs (fun c => K c i j * vdot (A c i j) (u i))).
    assert (E1 : rsum N (fun i => vdot (correction_force N q (gamma_dG Bohr term (nbs r)) i) (u i)) = Bohr * rsum N (fun i => rsum N (fun j => W i j))).
    { rewrite <- rsum_scal. apply rsum_ext. intros i Hi. apply force_terms. exact Hi. }
    assert (E2 : rsum N (fun i => rsum N (fun j => lsum cs (fun c => - (K c i j * vdot (A c i j) (B c i j))))) = -1 * (rsum N (fun i => rsum N (fun j => W i j)) + rsum N (fun i => rsum N (fun j => W j i)))).
    { rewrite <- rsum_plus, <- rsum_scal. apply rsum_ext. intros i Hi. rewrite <- rsum_plus, <- rsum_scal. apply rsum_ext. intros j Hj.
      unfold W. rewrite (lsum_inv (fun c => K c j i * vdot (A c j i) (u j))). rewrite <- lsum_plus, <- lsum_scal. apply lsum_ext. intros c _.
      rewrite AB_split, K_back by assumption. ring. }
    rewrite E1, E2. rewrite (rsum_swap N N (fun i j => W j i)). field. lra.
Qed.
End Grad.
End Inv.
