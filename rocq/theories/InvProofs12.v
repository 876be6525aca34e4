From Coq Require Import Reals ZArith List Bool Arith Lia Lra.
From Verif Require Import Vec GeomModel GeomSpec GeomProofs CoulModel MixModel PairModel PairSpec PairProofs SkModel SkSpec SkProofs SkProofs2 SkProofs6 SkProofs7 Cpx RhoModel RhoSpec RhoProofs EigModel EigSpec GamModel InvModel InvSpec InvLin InvProofs InvProofs2 InvProofs3 InvProofs4 InvProofs5 InvProofs6 InvProofs7 InvProofs8 InvProofs9 InvProofs10 InvProofs11.
Import ListNotations.
Open Scope R_scope.

Section Final.
Context (erfc : R -> R) (Bohr Hartree : R) (gaussian : bool) (gamma_cut : option R) (goal width sepsilon : R) (scc : bool).
Context (D : database) (g h : structure) (s : nat -> nat) (P : m3) (v : v3) (inv : nat -> nat).
Context (M : rigid_motion s P v g h) (Sg : sound D g inv) (Sh : sound D h inv) (Hor : (forall I, (I < g_N g)%nat -> s I = I) \/ one_table D).
Lemma assembled_alike :
  match assemble erfc Bohr Hartree gaussian gamma_cut goal width sepsilon scc D g, assemble erfc Bohr Hartree gaussian gamma_cut goal width sepsilon scc D h with
  | Some X, Some Y => equivalent s (orbital_map D g h s P) (m3e P) X Y /\ proper X
  | None, None => True
  | _, _ => False
  end.
Proof.
  unfold assemble. rewrite (close_moved s P v g h M Bohr inv (u_images _ _ _ Sg)). destruct (too_close (g_N g) (g_nimg g) (g_Rn Bohr g)) eqn:HC; [exact I|].
  pose proof (j_perm _ _ _ _ _ M) as Hs.
  assert (core : forall G dG phi E G' dG' phi' E',
    (forall I J, (I < g_N g)%nat -> (J < g_N g)%nat -> G' (s I) (s J) = G I J) ->
    (forall c I J, (c < 3)%nat -> (I < g_N g)%nat -> (J < g_N g)%nat -> dG' c (s I) (s J) = rsum 3 (fun d => m3e P c d * dG d I J)) ->
    (forall u w, carried (g_N g) s u w -> carried (g_N g) s (phi u) (phi' w)) ->
    (forall u w, carried (g_N g) s u w -> turned (g_N g) s (m3e P) (E u) (E' w)) ->
    let mk := fun g G dG phi E => System (first_orbital (g_no D g) (g_N g)) (g_N g) (g_nk g) (first_orbital (g_no D g)) (g_no D g) (fun I => d_val D (g_kind g I)) (fun I => d_Z D (g_kind g I)) (g_wk g)
      (rsum (g_N g) (fun I => d_val D (g_kind g I)) - g_charge g) width (g_charge g)
      (fun k => flat D g (g_matrix Bohr D g (fun I => d_onsite D (g_kind g I)) (d_H D) k)) (fun k => flat D g (g_matrix Bohr D g (fun _ _ => 1 + sepsilon) (d_S D) k))
      (fun c k => flat D g (g_dmatrix Bohr D g (d_H D) (d_dH D) c k)) (fun c k => flat D g (g_dmatrix Bohr D g (d_S D) (d_dS D) c k))
      G dG phi E (g_ext g)
      (if distances_ok (g_N g) (g_nimg g) (g_Rn Bohr g) (d_rmax D)
       then Some (total_energy (g_N g) (g_nimg g) (g_Rn Bohr g) (pairwise g (d_vrep D)) (d_rmax D) * Hartree) else None)
      (total_energy (g_N g) (g_nimg g) (g_Rn Bohr g) (g_pp g) (g_rc g) * Hartree)
      (rsum (g_N g) (fun I => d_efree D (g_kind g I)))
      (fun c I => comp c (force (g_N g) (g_nimg g) (g_Rn Bohr g) (pairwise g (d_dvrep D)) (d_rmax D) I))
      (fun c I => comp c (force (g_N g) (g_nimg g) (g_Rn Bohr g) (g_dpp g) (g_rc g) I)) in
    equivalent s (orbital_map D g h s P) (m3e P) (mk g G dG phi E) (mk h G' dG' phi' E') /\ proper (mk g G dG phi E)).
  { intros G dG phi E G' dG' phi' E' HG HdG Hphi HE mk.
    assert (En : first_orbital (g_no D h) (g_N h) = first_orbital (g_no D g) (g_N g)) by (apply (same_norb D g h s); [apply (j_N _ _ _ _ _ M)|exact Hs|apply (j_kind _ _ _ _ _ M)]).
    assert (kinds : forall f : nat -> R, rsum (g_N h) (fun I => f (g_kind h I)) = rsum (g_N g) (fun I => f (g_kind g I))).
    { intros f. rewrite (j_N _ _ _ _ _ M), <- (rsum_perm (g_N g) s (fun I => f (g_kind h I)) Hs). apply rsum_ext. intros I HI. rewrite (j_kind _ _ _ _ _ M I HI). reflexivity. }
    assert (kind : forall f : nat -> R, carried (g_N g) s (fun I => f (g_kind g I)) (fun I => f (g_kind h I))) by (intros f I HI; rewrite (j_kind _ _ _ _ _ M I HI); reflexivity).
    split; [|split].
    - constructor; unfold mk; cbn [s_norb s_N s_nk s_o1 s_no s_val s_Z s_wk s_nel s_width s_charge s_H0 s_S s_dH0 s_dS s_G s_dG s_phi s_field s_ext s_erep s_epp s_efree s_frep s_fpp].
      + exact En.
      + apply (j_N _ _ _ _ _ M).
      + apply (j_nk _ _ _ _ _ M).
      + exact Hs.
      + apply orbital_layout.
      + apply orbital_layout.
      + intros k _. apply (map_unitary D g h s P (j_N _ _ _ _ _ M) Hs (j_P _ _ _ _ _ M) (j_kind _ _ _ _ _ M) (u_no _ _ _ Sg)).
      + intros k i j I J _ HI HJ. apply (map_atoms D g h s P (j_N _ _ _ _ _ M)); assumption.
      + intros k i l Hk. apply (H_moved D g h s P v inv Bohr M Sg Sh Hor HC); try assumption.
        * intros OT. apply (o_H _ OT).
        * intros i0 a Hi0. rewrite (j_kind _ _ _ _ _ M i0 Hi0). reflexivity.
        * intros i0 a b _. apply (u_onsite _ _ _ Sg).
      + intros k i l Hk. apply (H_moved D g h s P v inv Bohr M Sg Sh Hor HC); try assumption; try reflexivity. intros OT. apply (o_S _ OT).
      + intros c k i l Hc Hk. apply (dH_moved D g h s P v inv Bohr M Sg Sh Hor HC); try assumption; intros OT; [apply (o_H _ OT)|apply (o_dH _ OT)].
      + intros c k i l Hc Hk. apply (dH_moved D g h s P v inv Bohr M Sg Sh Hor HC); try assumption; intros OT; [apply (o_S _ OT)|apply (o_dS _ OT)].
      + apply (kind (d_val D)).
      + apply (kind (d_Z D)).
      + apply (j_ext _ _ _ _ _ M).
      + apply (j_wk _ _ _ _ _ M).
      + rewrite (kinds (d_val D)), (j_charge _ _ _ _ _ M). reflexivity.
      + reflexivity.
      + apply (j_charge _ _ _ _ _ M).
      + exact HG.
      + exact HdG.
      + exact Hphi.
      + exact HE.
      + rewrite (ok_moved s P v g h M Bohr inv (u_images _ _ _ Sg)). destruct (distances_ok (g_N g) (g_nimg g) (g_Rn Bohr g) (d_rmax D)); [|reflexivity]. f_equal. f_equal.
        apply (energy_moved s P v g h M Bohr inv (u_images _ _ _ Sg)); [intros i j d Hi Hj; rewrite (pair_moved g h s P v M) by assumption; reflexivity|].
        destruct Hor as [Hid|OT]; [left; exact Hid|right]. intros; apply (o_vrep _ OT).
      + rewrite (j_rc _ _ _ _ _ M). f_equal. apply (energy_moved s P v g h M Bohr inv (u_images _ _ _ Sg)); [apply (j_pp _ _ _ _ _ M)|right; apply (u_pp _ _ _ Sg)].
      + apply (kinds (d_efree D)).
      + intros c I Hc HI. apply (force_moved s P v g h M Bohr inv (u_images _ _ _ Sg)); try assumption. intros i j d Hi Hj. rewrite (pair_moved g h s P v M) by assumption. reflexivity.
      + intros c I Hc HI. rewrite (j_rc _ _ _ _ _ M). apply (force_moved s P v g h M Bohr inv (u_images _ _ _ Sg)); try assumption. apply (j_dpp _ _ _ _ _ M).
    - intros k Hk. apply (H_hermitian D g inv Bohr Sg HC); [exact Hk|apply (u_H _ _ _ Sg)].
    - intros k Hk. apply (H_hermitian D g inv Bohr Sg HC); [exact Hk|apply (u_S _ _ _ Sg)]. }
  destruct scc.
  - pose proof (gamma_moved erfc Bohr gaussian gamma_cut goal D s P v g h M) as GM. rewrite (j_ranges _ _ _ _ _ M). unfold get_neighbours.
    destruct (g_gamma erfc Bohr gaussian gamma_cut goal D g) as [G dG| | |], (g_gamma erfc Bohr gaussian gamma_cut goal D h) as [G' dG'| | |]; cbn [gamma_alike] in GM; try contradiction; try exact I.
    destruct (scan gamma_cut (g_ranges g)) as [cs|]; [|exact I]. apply core.
    + apply GM.
    + apply GM.
    + intros u w C i Hi. rewrite (direct_phi_moved s P v g h M erfc gamma_cut gamma_cut cs u w i C Hi). reflexivity.
    + intros u w C c i Hc Hi. rewrite (direct_E_moved s P v g h M erfc gamma_cut gamma_cut cs u w c i C Hc Hi). rewrite <- rsum_scal_r. apply rsum_ext. intros; ring.
  - assert (Z : forall c, 0 = rsum 3 (fun d => m3e P c d * 0)) by (intros c; rewrite (rsum_ext 3 _ (fun _ => 0)) by (intros; ring); symmetry; apply rsum_zero).
    apply core; try (intros; reflexivity).
    + intros; apply Z.
    + intros u w _ i _. reflexivity.
    + intros u w _ c i _ _. apply Z.
Qed.
Lemma moved_alike z z' w0 w0' evmin evmin' MAXE brentq m tol_norm tol_mull tol_im maxiter ms u w :
  match assemble erfc Bohr Hartree gaussian gamma_cut goal width sepsilon scc D g, assemble erfc Bohr Hartree gaussian gamma_cut goal width sepsilon scc D h with
  | Some X, Some Y => reliable z w0 X -> reliable z' w0' Y -> 0 <= tol_norm -> fresh (g_N g) m ms -> carried (g_N g) s u w ->
      same_answer s (orbital_map D g h s P) (m3e P) X (calculate z evmin w0 MAXE brentq m tol_norm tol_mull tol_im Hartree Bohr scc maxiter X ms u)
                                                      (calculate z' evmin' w0' MAXE brentq m tol_norm tol_mull tol_im Hartree Bohr scc maxiter Y ms w)
  | None, None => True
  | _, _ => False
  end.
Proof.
  pose proof assembled_alike as A. assert (EN : forall X, assemble erfc Bohr Hartree gaussian gamma_cut goal width sepsilon scc D g = Some X -> s_N X = g_N g).
  { unfold assemble. intros X. destruct (too_close _ _ _); [discriminate|]. destruct scc; [destruct (g_gamma _ _ _ _ _ _ _); try discriminate; destruct (get_neighbours _ _ _ _ _ _); try discriminate|]; intros E; injection E as <-; reflexivity. }
  destruct (assemble erfc Bohr Hartree gaussian gamma_cut goal width sepsilon scc D g) as [X|], (assemble erfc Bohr Hartree gaussian gamma_cut goal width sepsilon scc D h) as [Y|]; try exact A.
  destruct A as [EQ PX]. intros RX RY Ht F C. rewrite <- (EN X eq_refl) in F, C. apply same_physics; assumption.
Qed.
End Final.
