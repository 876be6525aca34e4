(** Derivatives of the gamma matrix, of the direct Coulomb sum and of the pair energies of a structure. *)
From Coq Require Import Reals ZArith List Bool Arith Lia Lra FunctionalExtensionality.
From Verif Require Import SkModel InvModel InvSpec InvProofs7 InvProofs9 InvProofs10 InvProofs11 Vec GeomModel GeomProofs PairModel PairSpec PairProofs CoulModel CoulProofs SkSpec SkProofs6 SkProofs7 Cpx RhoModel RhoSpec GamModel GamSpec GamProofs GamProofs2 GamProofs3 GamProofs4 FrcSpec FrcProofs FrcProofs2 FrcProofs5.
Import ListNotations.
Open Scope R_scope.

Section Chg.
Context (erfc : R -> R) (gaussian : bool) (gamma_cut : option R) (goal : R) (D : database) (g : structure) (Bohr : R) (I c : nat).
Context (He : is_erfc erfc) (HB : 0 < Bohr) (HI : (I < g_N g)%nat) (Hc : (c < 3)%nat) (SC : smooth_charges gaussian gamma_cut goal D g).
Notation g' t := (displaced g I c (Bohr * t)).
Let u := one I (vscale Bohr (axis c)).
Lemma positions t : g_r (g' t) = moved (g_r g) u t.
Proof.
  apply functional_extensionality. intros j. unfold displaced, moved, u, one. cbn [g_r]. destruct (j =? I)%nat; generalize (g_r g j) (axis c); intros p w; apply v3_eq; vunf; ring.
Qed.
Lemma dot_u v j : vdot v (u j) = if (j =? I)%nat then Bohr * comp c v else 0.
Proof.
  unfold u, one. destruct (j =? I)%nat; [|destruct v; vunf; ring]. destruct v as [x y z]. destruct c as [|[|[|c']]]; try lia; unfold axis; vunf; cbn; ring.
Qed.
Let U i := d_U D (g_kind g i).
Let F i := d_FWHM D (g_kind g i).
Let term := if gaussian then (fun i j => gauss_term erfc (F i) (F j)) else (fun i j => slater_term (tau (U i)) (tau (U j))).
Let cut := gamma_cutoff gaussian gamma_cut goal D g.
Lemma term_ok : consistent_term (g_N g) term.
Proof.
  pose proof (k_width _ _ _ _ _ SC) as W. unfold term. destruct gaussian; [apply gauss_consistent; exact He|apply slater_consistent; exact W].
Qed.
Lemma gamma_scan G dG : g_gamma erfc Bohr gaussian gamma_cut goal D g = GOk G dG -> exists cs, scan cut (g_ranges g) = Some cs /\
  forall r, let g1 := Structure (g_N g) r (g_kind g) (g_nimg g) (g_O g) (g_t g) (g_DT g) (g_nk g) (g_phase g) (g_wk g)
    (g_ranges g) (g_tr0 g) (g_rot g) (g_pp g) (g_dpp g) (g_rc g) (g_ext g) (g_charge g) in
   g_gamma erfc Bohr gaussian gamma_cut goal D g1 = GOk (gamma_G Bohr U term (flat_map (cell_neighbours (g_N g) r (g_tr0 g) (g_rot g) cut) cs)) (gamma_dG Bohr term (flat_map (cell_neighbours (g_N g) r (g_tr0 g) (g_rot g) cut) cs)).
Proof.
  unfold g_gamma, cut, gamma_cutoff, used_cutoff, term. pose proof (k_width _ _ _ _ _ SC) as W. destruct gaussian.
  - unfold gauss_gamma, get_neighbours. cbn [g_N g_kind g_ranges g_tr0 g_rot g_r].
    set (k := match gamma_cut with Some c0 => Some c0 | None => if is_cluster (g_ranges g) then None else Some (gauss_cutoff goal (rmaxn (g_N g - 1) (fun I0 => d_FWHM D (g_kind g I0)))) end).
    destruct (leb (rmaxn (g_N g - 1) (fun I0 => d_FWHM D (g_kind g I0))) 0) eqn:E; [discriminate|]. destruct (scan k (g_ranges g)) as [cs|]; [|discriminate]. intros _. exists cs. split; [reflexivity|]. intros r.
    match goal with |- context [existsb ?p ?l] => assert (Z : existsb p l = false) end; [|rewrite Z; reflexivity].
    apply not_true_iff_false. intros X. apply existsb_exists in X. destruct X as (b & Hb & X). apply (nb_range k) in Hb. destruct Hb as [H1 H2]. pose proof (W _ H1). pose proof (W _ H2).
    match type of X with (if ?q then _ else _) = _ => destruct q as [Z|Z]; [|discriminate] end. nra.
  - unfold slater_gamma, get_neighbours. cbn [g_N g_kind g_ranges g_tr0 g_rot g_r].
    set (k := match gamma_cut with Some c0 => Some c0 | None => if is_cluster (g_ranges g) then None else Some (slater_cutoff goal (rmin (g_N g - 1) (fun I0 => d_U D (g_kind g I0)))) end).
    destruct (leb (rmin (g_N g - 1) (fun I0 => d_U D (g_kind g I0))) 0) eqn:E; [discriminate|]. destruct (scan k (g_ranges g)) as [cs|]; [|discriminate]. intros _. exists cs. split; [reflexivity|]. intros r. reflexivity.
Qed.
Lemma gamma_elem G dG : g_gamma erfc Bohr gaussian gamma_cut goal D g = GOk G dG ->
  (forall J K, (J < g_N g)%nat -> (K < g_N g)%nat -> G J K = G K J) /\
  forall J K, (J < g_N g)%nat -> (K < g_N g)%nat -> derivable_pt_lim (fun t => G_of (g_gamma erfc Bohr gaussian gamma_cut goal D (g' t)) J K) 0 (moved_gamma I (fun J K => comp c (dG J K)) J K).
Proof.
  intros E. destruct (gamma_scan G dG E) as (cs & Es & A). destruct (k_cells _ _ _ _ _ SC _ _ Es) as [inv Hcl].
  assert (E0 : g_gamma erfc Bohr gaussian gamma_cut goal D g = GOk (gamma_G Bohr U term (flat_map (cell_neighbours (g_N g) (g_r g) (g_tr0 g) (g_rot g) cut) cs)) (gamma_dG Bohr term (flat_map (cell_neighbours (g_N g) (g_r g) (g_tr0 g) (g_rot g) cut) cs))).
  { rewrite <- (A (g_r g)). destruct g. reflexivity. }
  rewrite E in E0. assert (EG : G = gamma_G Bohr U term (flat_map (cell_neighbours (g_N g) (g_r g) (g_tr0 g) (g_rot g) cut) cs)) by congruence. assert (EdG : dG = gamma_dG Bohr term (flat_map (cell_neighbours (g_N g) (g_r g) (g_tr0 g) (g_rot g) cut) cs)) by congruence. subst G dG. clear E0.
  split.
  - intros J K HJ HK. apply (G_symmetric cs (g_tr0 g) (g_rot g) inv Hcl (g_N g) cut Bohr U (fun _ => 0) term (g_r g) (g_r g) term_ok J K HJ HK).
  - intros J K HJ HK.
    pose proof (G_elem cs (g_tr0 g) (g_rot g) inv Hcl (g_N g) cut Bohr U term (g_r g) u HB term_ok (regular_drv (g_N g) (g_tr0 g) (g_rot g) (g_ranges g) (g_r g) cut cs Es (k_gamma _ _ _ _ _ SC)) J K HJ HK) as P.
    eapply D_eq.
    + eapply D_ext; [|exact P]. intros t. cbv beta. rewrite <- positions. unfold displaced at 2. rewrite A. cbn [G_of]. reflexivity.
    + rewrite !dot_u. unfold moved_gamma. destruct (Nat.eqb_spec J I) as [->|Ne], (Nat.eqb_spec K I) as [->|Ne']; field; lra.
Qed.
Lemma direct_elem l : get_neighbours (g_N g) (g_r g) (g_tr0 g) (g_rot g) gamma_cut (g_ranges g) = Some l -> exists L : R -> list neighbour,
  (forall t, get_neighbours (g_N g) (g_r (g' t)) (g_tr0 g) (g_rot g) gamma_cut (g_ranges g) = Some (L t)) /\
  (forall J K, (J < g_N g)%nat -> (K < g_N g)%nat -> direct_gamma erfc gamma_cut l J K = direct_gamma erfc gamma_cut l K J) /\
  (forall J K, (J < g_N g)%nat -> (K < g_N g)%nat -> derivable_pt_lim (fun t => direct_gamma erfc gamma_cut (L t) J K * Bohr) 0 (moved_gamma I (fun J K => comp c (gamma_dG 1 (dterm erfc gamma_cut) l J K) * Bohr ^ 2) J K)) /\
  (forall q J, direct_E erfc gamma_cut l q c J * Bohr ^ 2 = rsum (g_N g) (fun K => q K * (comp c (gamma_dG 1 (dterm erfc gamma_cut) l J K) * Bohr ^ 2))).
Proof.
  intros E. destruct (neighbours_of gamma_cut (g_N g) (g_tr0 g) (g_rot g) (g_ranges g) (g_r g) l E) as (cs & Es & ->). destruct (k_cells _ _ _ _ _ SC _ _ Es) as [inv Hcl].
  assert (Hcut : forall k, gamma_cut = Some k -> k <> 0) by (intros k -> ->; apply (k_cut _ _ _ _ _ SC); reflexivity).
  exists (fun t => flat_map (cell_neighbours (g_N g) (moved (g_r g) u t) (g_tr0 g) (g_rot g) gamma_cut) cs). split; [|split; [|split]].
  - intros t. unfold get_neighbours. rewrite Es, positions. reflexivity.
  - intros J K HJ HK. eapply (direct_gamma_symmetric erfc gamma_cut (g_N g) (g_tr0 g) (g_rot g) (g_ranges g) (k_cells _ _ _ _ _ SC) He Hcut); [exact E|exact HJ|exact HK].
  - intros J K HJ HK.
    pose proof (G_elem cs (g_tr0 g) (g_rot g) inv Hcl (g_N g) gamma_cut 1 (fun _ => 0) (dterm erfc gamma_cut) (g_r g) u ltac:(lra) (dterm_consistent erfc gamma_cut (g_N g) He Hcut) (regular_drv (g_N g) (g_tr0 g) (g_rot g) (g_ranges g) (g_r g) gamma_cut cs Es (k_direct _ _ _ _ _ SC)) J K HJ HK) as P.
    eapply D_eq.
    + eapply D_ext; [|apply (derivable_pt_lim_scal _ Bohr _ _ P)]. intros t. unfold mult_real_fct. rewrite gamma_is. ring.
    + rewrite !dot_u. unfold moved_gamma. destruct (Nat.eqb_spec J I) as [->|Ne], (Nat.eqb_spec K I) as [->|Ne']; field.
  - intros q J. rewrite (E_is erfc gamma_cut (g_N g)); [|intros b Hb; apply (nb_range gamma_cut (g_N g) (g_r g) (g_tr0 g) (g_rot g) cs b Hb)]. rewrite <- rsum_scal_r. apply rsum_ext. intros; ring.
Qed.
End Chg.
Section Pairs.
Context (D : database) (g : structure) (inv : nat -> nat) (Bohr : R) (I c : nat) (HB : 0 < Bohr) (S : sound D g inv) (HC : too_close (g_N g) (g_nimg g) (g_Rn Bohr g) = false).
Context (HI : (I < g_N g)%nat) (Hc : (c < 3)%nat).
Notation g' t := (displaced g I c (Bohr * t)).
Lemma pairs_D (V dV : nat -> nat -> R -> R) rmax :
  (forall i j d, (i < g_N g)%nat -> (j < g_N g)%nat -> dV i j d = dV j i d) ->
  (forall i j n, (i < g_N g)%nat -> (j < g_N g)%nat -> (n < g_nimg g)%nat -> ~ (i = j /\ n = 0%nat) ->
    let d := separation Bohr g n i j in d <> rmax /\ (d < rmax -> derivable_pt_lim (V i j) d (dV i j d))) ->
  derivable_pt_lim (fun t => total_energy (g_N g) (g_nimg g) (g_Rn Bohr (g' t)) V rmax) 0 (- comp c (force (g_N g) (g_nimg g) (g_Rn Bohr g) dV rmax I)).
Proof.
  intros Hs Hd. pose proof (energy_derivative (g_N g) (g_nimg g) (g_O g) (t_of Bohr g) inv (images_scaled _ _ _ _ (/ Bohr) (u_images _ _ _ S)) V dV rmax (r_of Bohr g) (one I (axis c)) Hs) as P.
  eapply D_eq.
  - eapply D_ext; [|apply P].
    + intros t. cbv beta. unfold Rnm. rewrite (Rn_displaced g Bohr I c HB). reflexivity.
    + intros i j n Hi Hj Hn Sp. assert (Ne : ~ (i = j /\ n = 0%nat)) by (intros [-> ->]; unfold self_pair in Sp; rewrite !Nat.eqb_refl in Sp; discriminate).
      rewrite <- g_Rn_is. change (dist (g_Rn Bohr g) n i j) with (mdist (g_Rn Bohr g) n i j). rewrite (separation_is D g inv Bohr HB S). split; [apply (separation_pos D g inv Bohr HB S HC); assumption|]. exact (Hd i j n Hi Hj Hn Ne).
  - f_equal. rewrite <- g_Rn_is. rewrite (rsum_single (g_N g) I); [|exact HI|].
    + unfold one. rewrite Nat.eqb_refl. set (v := force (g_N g) (g_nimg g) (g_Rn Bohr g) dV rmax I). destruct v as [x y z]. destruct c as [|[|[|c']]]; try lia; unfold axis; vunf; cbn; ring.
    + intros j _ Ne. unfold one. rewrite (proj2 (Nat.eqb_neq j I) Ne). set (v := force (g_N g) (g_nimg g) (g_Rn Bohr g) dV rmax j). destruct v as [x y z]. vunf. ring.
Qed.
End Pairs.
