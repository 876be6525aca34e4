(** The direct Coulomb sum: potential, energy, forces. *)
From Coq Require Import Reals ZArith List Bool Arith Permutation Lra Lia.
From Verif Require Import SkModel InvModel InvProofs9 Vec GeomModel GeomProofs PairModel PairSpec PairProofs CoulModel CoulProofs GamModel GamSpec GamProofs GamProofs2 GamProofs3 GamProofs4 SkProofs6 FrcSpec FrcProofs.
Import ListNotations.
Open Scope R_scope.

Section Sum.
Context (erfc : R -> R) (cut : option R) (N : nat) (tr0 : cell -> v3) (rot : cell -> m3) (s : ranges).
Lemma neighbours_of r l : get_neighbours N r tr0 rot cut s = Some l -> exists cs, scan cut s = Some cs /\ l = flat_map (cell_neighbours N r tr0 rot cut) cs.
Proof. unfold get_neighbours. destruct (scan cut s) as [cs|]; [|discriminate]. intros E. exists cs. split; [reflexivity|congruence]. Qed.
Lemma neighbours_again r l r' : get_neighbours N r tr0 rot cut s = Some l -> exists l', get_neighbours N r' tr0 rot cut s = Some l'.
Proof. unfold get_neighbours. destruct (scan cut s) as [cs|]; [|discriminate]. intros _. eexists. reflexivity. Qed.
Lemma direct_gamma_sum r l i j : get_neighbours N r tr0 rot cut s = Some l -> (i < N)%nat -> (j < N)%nat ->
  exists cs, scan cut s = Some cs /\ direct_gamma erfc cut l i j = gsum cs (fun c => interaction erfc cut c i j (vnorm (vsub (r i) (image_at r tr0 rot c j)))).
Proof.
  intros E Hi Hj. destruct (neighbours_of r l E) as (cs & Es & ->). exists cs. split; [exact Es|]. rewrite gamma_is, (G_value N r tr0 rot cut) by assumption.
  replace (if (i =? j)%nat then 0 else 0) with 0 by (destruct (i =? j)%nat; reflexivity). rewrite Rplus_0_l. apply lsum_ext. intros c _. unfold mask, interaction, dterm. cbn [fst]. rewrite div1.
  change (image_at r tr0 rot c j) with (image r tr0 rot c j). change (vsub (r i) (image r tr0 rot c j)) with (drv r tr0 rot c i j).
  destruct (zero_cell c && (i =? j)%nat); [rewrite andb_false_r; reflexivity|]. rewrite andb_true_r. unfold direct_f. destruct cut as [k|]; [|reflexivity].
  unfold ltb. destruct (Rlt_dec (vnorm (drv r tr0 rot c i j)) k); reflexivity.
Qed.
Lemma direct_phi_gamma r l q i : get_neighbours N r tr0 rot cut s = Some l -> direct_phi erfc cut l q i = rsum N (fun j => direct_gamma erfc cut l i j * q j).
Proof. intros E. destruct (neighbours_of r l E) as (cs & _ & ->). apply phi_is. intros b Hb. apply (nb_range cut N r tr0 rot cs b Hb). Qed.
Lemma direct_energy_gamma r l q : get_neighbours N r tr0 rot cut s = Some l -> direct_energy erfc cut N l q = / 2 * rsum N (fun i => rsum N (fun j => q i * direct_gamma erfc cut l i j * q j)).
Proof.
  intros E. unfold direct_energy, Rdiv. rewrite Rmult_comm. f_equal. apply rsum_ext. intros i _. rewrite (direct_phi_gamma r l q i E), <- rsum_scal. apply rsum_ext. intros; ring.
Qed.
Context (Hinv : forall k cs, scan k s = Some cs -> exists inv, closed_images cs tr0 rot inv) (He : is_erfc erfc) (Hcut : forall c, cut = Some c -> c <> 0).
Lemma direct_gamma_symmetric r l i j : get_neighbours N r tr0 rot cut s = Some l -> (i < N)%nat -> (j < N)%nat -> direct_gamma erfc cut l i j = direct_gamma erfc cut l j i.
Proof.
  intros E Hi Hj. destruct (neighbours_of r l E) as (cs & Es & ->). destruct (Hinv _ _ Es) as [inv Hc]. rewrite !gamma_is. apply (G_symmetric cs tr0 rot inv Hc N cut 1 (fun _ => 0) (fun _ => 0) (dterm erfc cut) r r (dterm_consistent erfc cut N He Hcut) i j Hi Hj).
Qed.
Lemma direct_forces r u q l (L : R -> list neighbour) : regular N r tr0 rot s cut -> get_neighbours N r tr0 rot cut s = Some l -> (forall t, get_neighbours N (moved r u t) tr0 rot cut s = Some (L t)) ->
  derivable_pt_lim (fun t => direct_energy erfc cut N (L t) q) 0
    (- rsum N (fun i => rsum 3 (fun c => direct_force erfc cut l q c i * comp c (u i)))).
Proof.
  intros Hr E EL. destruct (neighbours_of r l E) as (cs & Es & ->). destruct (Hinv _ _ Es) as [inv Hc].
  pose proof (gradient cs tr0 rot inv Hc N cut 1 (fun _ => 0) q (dterm erfc cut) r u ltac:(lra) (dterm_consistent erfc cut N He Hcut) (regular_drv N tr0 rot s r cut cs Es Hr)) as P.
  apply (D_eq _ _ (- rsum N (fun i => vdot (correction_force N q (gamma_dG 1 (dterm erfc cut) (flat_map (cell_neighbours N r tr0 rot cut) cs)) i) (u i)) / 1)).
  - eapply D_ext; [|exact P]. intros t. cbv beta. rewrite (direct_energy_gamma (moved r u t) (L t) q (EL t)). unfold correction_energy. f_equal.
    assert (EL' : L t = flat_map (cell_neighbours N (moved r u t) tr0 rot cut) cs) by (specialize (EL t); unfold get_neighbours in EL; rewrite Es in EL; congruence).
    apply rsum_ext. intros i _. apply rsum_ext. intros j _. rewrite gamma_is, EL'. reflexivity.
  - rewrite div1. f_equal. apply rsum_ext. intros i Hi. unfold direct_force.
    assert (nb : forall b, In b (flat_map (cell_neighbours N r tr0 rot cut) cs) -> (nb_j b < N)%nat) by (intros b Hb; apply (nb_range cut N r tr0 rot cs b Hb)).
    set (W := gamma_dG 1 (dterm erfc cut) (flat_map (cell_neighbours N r tr0 rot cut) cs)).
    assert (C : forall c, direct_E erfc cut (flat_map (cell_neighbours N r tr0 rot cut) cs) q c i = rsum N (fun j => comp c (vscale (q j) (W i j)))).
    { intros c. rewrite (E_is erfc cut N _ q c i nb). apply rsum_ext. intros j _. rewrite comp_vscale. reflexivity. }
    cbn [rsum]. rewrite !C. unfold correction_force, vsum. change (comp 0) with vx. change (comp 1) with vy. change (comp 2) with vz.
    set (a := rsum N (fun j => vx (vscale (q j) (W i j)))). set (b := rsum N (fun j => vy (vscale (q j) (W i j)))). set (c := rsum N (fun j => vz (vscale (q j) (W i j)))).
    vunf. ring.
Qed.
(** the field at an atom is minus the gradient of the potential there, when a test charge is moved *)
End Sum.
