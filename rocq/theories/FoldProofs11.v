From Coq Require Import Reals ZArith List Bool Arith Lia Lra FunctionalExtensionality.
From Verif Require Import Vec GeomModel GeomSpec GeomProofs CoulModel MixModel PairModel PairSpec SkModel SkSpec Cpx RhoModel RhoSpec EigModel EigSpec InvModel InvSpec InvProofs9 InvProofs10 InvProofs13 GamModel FoldSpec FoldProofs FoldProofs4 FoldProofs5 FoldProofs6 FoldProofs8 FoldProofs9 FoldProofs10.
Import ListNotations.
Open Scope R_scope.

Lemma scan_cutoff cut s cs (q : R) : scan cut s = Some cs -> match cut with Some c => Some c | None => if is_cluster s then None else Some q end = cut.
Proof. intros E. destruct cut as [k|]; [reflexivity|]. unfold scan in E. destruct s as [[s1 s2] s3]. destruct (is_cluster _); [reflexivity|discriminate]. Qed.
(** the gamma matrix, when the cells are those of gamma_cut *)
Definition terms (erfc : R -> R) (gaussian : bool) (D : database) (g : structure) (i j : nat) : R -> R * R :=
  if gaussian then gauss_term erfc (d_FWHM D (g_kind g i)) (d_FWHM D (g_kind g j)) else slater_term (tau (d_U D (g_kind g i))) (tau (d_U D (g_kind g j))).
Lemma g_gamma_at erfc Bohr gaussian gamma_cut goal D g cs : scan gamma_cut (g_ranges g) = Some cs ->
  g_gamma erfc Bohr gaussian gamma_cut goal D g =
  if (if gaussian then leb (rmaxn (g_N g - 1) (fun I => d_FWHM D (g_kind g I))) 0 else leb (rmin (g_N g - 1) (fun I => d_U D (g_kind g I))) 0) then GValueError
  else if gaussian && existsb (fun b => if Req_EM_T (d_FWHM D (g_kind g (nb_i b)) ^ 2 + d_FWHM D (g_kind g (nb_j b)) ^ 2) 0 then true else false) (nbs g gamma_cut cs) then GZeroDivisionError
  else GOk (gamma_G Bohr (fun I => d_U D (g_kind g I)) (terms erfc gaussian D g) (nbs g gamma_cut cs)) (gamma_dG Bohr (terms erfc gaussian D g) (nbs g gamma_cut cs)).
Proof.
  intros E. unfold g_gamma. destruct gaussian; unfold gauss_gamma, slater_gamma, terms; cbn [andb].
  - destruct (leb _ _); [reflexivity|]. rewrite (scan_cutoff _ _ cs _ E). unfold get_neighbours. rewrite E. fold (nbs g gamma_cut cs). destruct (existsb _ _); reflexivity.
  - destruct (leb _ _); [reflexivity|]. rewrite (scan_cutoff _ _ cs _ E). unfold get_neighbours. rewrite E. fold (nbs g gamma_cut cs). reflexivity.
Qed.
Section Final.
Context (m : nat) (p : nat -> nat -> nat -> cplx) (W : nat -> m3) (v : nat -> v3) (w : nat -> nat -> nat -> option nat) (D : database) (Bohr : R) (g h : structure).
Context (C : copies m p W v w D Bohr g h) (inv inv' : nat -> nat) (Sg : sound D g inv) (Sh : sound D h inv') (OT : one_table D).
Context (erfc : R -> R) (Hartree : R) (gaussian : bool) (gamma_cut : option R) (goal width sepsilon : R) (scc : bool).
Let N := g_N g.
Lemma assembled_copies : (scc = true -> exists wc cs cs', copied_cells m W v wc gamma_cut g h cs cs') ->
  match assemble erfc Bohr Hartree gaussian gamma_cut goal width sepsilon scc D g, assemble erfc Bohr Hartree gaussian gamma_cut goal width sepsilon scc D h with
  | Some X, Some Y => unfolds m p (fun c => turned_orbitals D g (W c)) (fun c => m3e (W c)) X Y
  | None, None => True
  | _, _ => False
  end.
Proof.
  intros Hcells. unfold assemble. rewrite (close_copy m p W v w D Bohr g h C inv inv' Sg Sh). destruct (too_close (g_N g) (g_nimg g) (g_Rn Bohr g)) eqn:HC; [exact I|].
  pose proof (q_m _ _ _ _ _ _ _ _ _ C) as Hm. pose proof (q_some _ _ _ _ _ _ _ _ _ C) as HN. pose proof (q_N _ _ _ _ _ _ _ _ _ C) as HNh. pose proof (q_W _ _ _ _ _ _ _ _ _ C) as HW. pose proof (q_r _ _ _ _ _ _ _ _ _ C) as Hr.
  destruct scc.
  - destruct (Hcells eq_refl) as (wc & cs & cs' & T). rewrite (g_gamma_at _ _ _ _ _ _ g cs (t_scan _ _ _ _ _ _ _ _ _ T)), (g_gamma_at _ _ _ _ _ _ h cs' (t_scan' _ _ _ _ _ _ _ _ _ T)).
    unfold get_neighbours. rewrite (t_scan _ _ _ _ _ _ _ _ _ T), (t_scan' _ _ _ _ _ _ _ _ _ T). fold (nbs g gamma_cut cs) (nbs h gamma_cut cs').
    rewrite HNh. rewrite (rmax_repeated m (g_N g) (fun I => d_FWHM D (g_kind g I)) (fun I => d_FWHM D (g_kind h I)) Hm HN (kind_repeated m p W v w D Bohr g h C (d_FWHM D))), (rmin_repeated m (g_N g) (fun I => d_U D (g_kind g I)) (fun I => d_U D (g_kind h I)) Hm HN (kind_repeated m p W v w D Bohr g h C (d_U D))).
    rewrite (exists_copy m W v wc gamma_cut g h cs cs' T Hm HN HNh HW Hr (fun b => if Req_EM_T (d_FWHM D (g_kind g (nb_i b)) ^ 2 + d_FWHM D (g_kind g (nb_j b)) ^ 2) 0 then true else false)).
    2: { intros c c' I J d x y Hc Hc' HI HJ. cbn [nb_i nb_j]. rewrite (q_kind _ _ _ _ _ _ _ _ _ C c I Hc HI), (q_kind _ _ _ _ _ _ _ _ _ C c' J Hc' HJ). reflexivity. }
    rewrite <- HNh. destruct (if gaussian then _ else _); [exact I|]. destruct (gaussian && _); [exact I|].
    assert (Ht : forall c I c' J d, (c < m)%nat -> (I < g_N g)%nat -> (c' < m)%nat -> (J < g_N g)%nat -> terms erfc gaussian D h (c * g_N g + I)%nat (c' * g_N g + J)%nat d = terms erfc gaussian D g I J d).
    { intros c I c' J d Hc HI Hc' HJ. unfold terms. rewrite (q_kind _ _ _ _ _ _ _ _ _ C c I Hc HI), (q_kind _ _ _ _ _ _ _ _ _ C c' J Hc' HJ). reflexivity. }
    apply (unfolds_mk m p W v w D Bohr g h C inv inv' Sg Sh OT Hartree width sepsilon); [exact HC| |].
    + intros u u' Hu c I Hc HI. unfold epsilon. rewrite (G_copy m W v wc gamma_cut g h cs cs' T Hm HN HNh HW Hr Bohr (fun I => d_U D (g_kind g I)) (fun I => d_U D (g_kind h I)) (kind_repeated m p W v w D Bohr g h C (d_U D)) (terms erfc gaussian D g) (terms erfc gaussian D h) Ht u u' Hu c I Hc HI).
      rewrite (phi_copy m W v wc gamma_cut g h cs cs' T Hm HN HNh HW Hr u u' Hu erfc gamma_cut c I Hc HI). reflexivity.
    + intros u u' Hu d c I Hd Hc HI. rewrite (dG_copy m W v wc gamma_cut g h cs cs' T Hm HN HNh HW Hr Bohr (terms erfc gaussian D g) (terms erfc gaussian D h) Ht u u' Hu c I d Hd Hc HI).
      rewrite (E_copy m W v wc gamma_cut g h cs cs' T Hm HN HNh HW Hr u u' Hu erfc gamma_cut d c I Hd Hc HI). rewrite <- rsum_scal_r, <- rsum_plus. apply rsum_ext. intros. ring.
  - apply (unfolds_mk m p W v w D Bohr g h C inv inv' Sg Sh OT Hartree width sepsilon); [exact HC| |].
    + intros u u' Hu c I Hc HI. unfold epsilon. rewrite !rsum_eq0 by (intros; ring). reflexivity.
    + intros u u' Hu d c I Hd Hc HI. rewrite !rsum_eq0 by (intros; try rewrite rsum_eq0 by (intros; ring); ring). ring.
Qed.
End Final.
(** the whole calculation *)
Lemma structure_multiplies m p W v w D Bohr g h inv inv' erfc Hartree gaussian gamma_cut goal width sepsilon scc X Y z z' w0 w0' evmin evmin' MAXE brentq mx my tol_norm tol_mull tol_im maxiter sx sy u u' :
  copies m p W v w D Bohr g h -> (scc = true -> exists wc cs cs', copied_cells m W v wc gamma_cut g h cs cs') -> sound D g inv -> sound D h inv' -> one_table D ->
  assemble erfc Bohr Hartree gaussian gamma_cut goal width sepsilon scc D g = Some X -> assemble erfc Bohr Hartree gaussian gamma_cut goal width sepsilon scc D h = Some Y ->
  reliable z w0 X -> reliable z' w0' Y -> 0 <= tol_norm -> scale_free brentq -> fresh_pair (s_N X) (s_N Y) mx my sx sy -> repeated m (s_N X) u u' ->
  answer_fold m p (fun c => turned_orbitals D g (W c)) (fun c => m3e (W c)) X Y brentq tol_mull (calculate z evmin w0 MAXE brentq mx tol_norm tol_mull tol_im Hartree Bohr scc maxiter X sx u)
    (calculate z' evmin' w0' MAXE brentq my tol_norm tol_mull tol_im Hartree Bohr scc maxiter Y sy u').
Proof.
  intros C HT Sg Sh OT EX EY RX RY Ht SF F R. pose proof (assembled_copies m p W v w D Bohr g h C inv inv' Sg Sh OT erfc Hartree gaussian gamma_cut goal width sepsilon scc HT) as U. rewrite EX, EY in U.
  apply copies_multiply; try assumption; [apply (f_layout _ (assembled_well _ _ _ _ _ _ _ _ _ _ _ _ EX))|exact (assembled_proper _ _ _ _ _ _ _ _ _ _ _ _ _ Sg EX)].
Qed.
Lemma assembled_nel erfc Bohr Hartree gaussian gamma_cut goal width sepsilon scc D g X : assemble erfc Bohr Hartree gaussian gamma_cut goal width sepsilon scc D g = Some X -> s_nel X = rsum (s_N X) (s_val X) - s_charge X.
Proof.
  unfold assemble. destruct (too_close _ _ _); [discriminate|]. destruct scc; [destruct (g_gamma _ _ _ _ _ _ _); try discriminate; destruct (get_neighbours _ _ _ _ _ _); try discriminate|]; intros E; injection E as <-; reflexivity.
Qed.
