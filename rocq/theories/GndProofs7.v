From Coq Require Import Reals ZArith String List Bool Arith Permutation Lia Lra.
From Verif Require Import Vec GeomModel GeomSpec GeomProofs UtilModel CoulModel MixModel OccModel PairModel PairSpec SkModel SkSpec Cpx RhoModel RhoSpec RhoProofs RhoProofs2 RhoProofs3 EigModel EigSpec InvModel InvSpec InvLin InvProofs2 InvProofs8 InvProofs11 InvProofs13 GamModel GamSpec FrcSpec FrcProofs FrcProofs2 BndProofs2 BndProofs4 NetSpec GndSpec GndProofs GndProofs2 GndProofs3 GndProofs4 GndProofs5.
Import ListNotations.
Open Scope R_scope.

(** ** two widths *)
Definition rewidth (w : R) (X : system) : system := System (s_norb X) (s_N X) (s_nk X) (s_o1 X) (s_no X) (s_val X) (s_Z X) (s_wk X) (s_nel X) w (s_charge X) (s_H0 X) (s_S X) (s_dH0 X) (s_dS X) (s_G X) (s_dG X) (s_phi X) (s_field X) (s_ext X) (s_erep X) (s_epp X) (s_efree X) (s_frep X) (s_fpp X).
Lemma assemble_width erfc Bohr Hartree gaussian gamma_cut goal width width' sepsilon scc D g X X' : assemble erfc Bohr Hartree gaussian gamma_cut goal width sepsilon scc D g = Some X ->
  assemble erfc Bohr Hartree gaussian gamma_cut goal width' sepsilon scc D g = Some X' -> X' = rewidth width' X.
Proof.
  unfold assemble. destruct (too_close _ _ _); [discriminate|]. destruct scc.
  - destruct (g_gamma _ _ _ _ _ _ _); try discriminate. destruct (get_neighbours _ _ _ _ _ _); try discriminate. intros E E'. injection E as <-. injection E' as <-. reflexivity.
  - intros E E'. injection E as <-. injection E' as <-. reflexivity.
Qed.
Section Width.
Context (erfc : R -> R) (Bohr Hartree : R) (gaussian : bool) (gamma_cut : option R) (goal width width' sepsilon : R) (D : database) (g : structure) (inv : nat -> nat).
Context (Sg : sound D g inv) (HT : 0 < width) (HT' : width < width') (Hw : forall k, (k < g_nk g)%nat -> 0 <= g_wk g k).
Context (z z' : lapack) (evmin evmin' : (nat -> nat -> cplx) -> R) (w0 w0' : nat -> nat -> R) (MAXE MAXE' : R) (brentq brentq' : (R -> R) -> R -> R -> R -> option R).
Context (tol_norm tol_mull tol_im tol_norm' tol_mull' tol_im' : R) (maxiter maxiter' : nat) (Ht : 0 <= tol_norm) (Ht' : 0 <= tol_norm').
Lemma no_empty ME X f : (forall k a, (k < s_nk X)%nat -> (a < s_norb X)%nat -> f k a <> 0) -> emptied ME X f = 0.
Proof. intros H. unfold emptied. apply rsum_eq0. intros k Hk. rewrite rsum_eq0; [ring|]. intros a Ha. destruct (Req_EM_T (f k a) 0) as [E|_]; [|reflexivity]. exfalso. exact (H k a Hk Ha E). Qed.
Lemma warmer (m m' : mixer) X X' (s : mst m) (s' : mst m') u u' r r' it it' n n' :
  assemble erfc Bohr Hartree gaussian gamma_cut goal width sepsilon false D g = Some X -> assemble erfc Bohr Hartree gaussian gamma_cut goal width' sepsilon false D g = Some X' ->
  reliable z w0 X -> reliable z' w0' X' ->
  calculate z evmin w0 MAXE brentq m tol_norm tol_mull tol_im Hartree Bohr false maxiter X s u = Solved r it n ->
  calculate z' evmin' w0' MAXE' brentq' m' tol_norm' tol_mull' tol_im' Hartree Bohr false maxiter' X' s' u' = Solved r' it' n' ->
  filling (s_norb X) (s_nk X) (s_wk X) (r_f r') = filling (s_norb X) (s_nk X) (s_wk X) (r_f r) ->
  electronic_free_energy X' r' <= electronic_free_energy X r + emptied MAXE' X' (r_f r') /\
  ((forall k a, (k < s_nk X)%nat -> (a < s_norb X)%nat -> r_f r k a <> 0 /\ r_f r' k a <> 0) -> entropy_of X r <= entropy_of X' r' /\ r_ebs r <= r_ebs r').
Proof.
  intros EX EX' RX RX' EC EC' EF.
  destruct (ground_band erfc Bohr Hartree gaussian gamma_cut goal width sepsilon D g inv Sg HT Hw z evmin w0 MAXE brentq tol_norm tol_mull tol_im maxiter Ht m X s u r it n EX RX EC) as ((W & EW & E1) & mu & M).
  destruct (ground_band erfc Bohr Hartree gaussian gamma_cut goal width' sepsilon D g inv Sg ltac:(lra) Hw z' evmin' w0' MAXE' brentq' tol_norm' tol_mull' tol_im' maxiter' Ht' m' X' s' u' r' it' n' EX' RX' EC') as ((W' & EW' & E1') & mu' & M').
  assert (Hwd : s_width X = width) by (apply (assembled_band _ _ _ _ _ _ _ _ _ _ _ _ EX)).
  pose proof (assemble_width _ _ _ _ _ _ _ _ _ _ _ _ _ _ EX EX') as EXX.
  assert (S0 : 0 <= entropy_of X r). { apply (entropy_bounds X (r_f r)); [|exact (proj2 EW)]. exact (proj1 (wk_pos erfc Bohr Hartree gaussian gamma_cut goal width sepsilon D g HT Hw false X EX)). }
  subst X'. specialize (M W' (r_f r') EW'). specialize (M' W (r_f r) EW).
  assert (EB : r_ebs r = band_of X W (r_f r)). { apply calculate_pass in EC. destruct EC as (p & _ & F). destruct (finish_parts _ _ _ _ _ _ _ _ _ _ F) as (_ & _ & _ & Q). unfold coulomb_energy in Q. unfold electronic_free_energy, free_of in E1. lra. }
  assert (EB' : r_ebs r' = band_of X W' (r_f r')). { apply calculate_pass in EC'. destruct EC' as (p & _ & F). destruct (finish_parts _ _ _ _ _ _ _ _ _ _ F) as (_ & _ & _ & Q). unfold coulomb_energy in Q. unfold electronic_free_energy, free_of in E1'. change (band_of (rewidth width' X) W' (r_f r')) with (band_of X W' (r_f r')) in E1'. lra. }
  rewrite E1 in M. rewrite E1' in M'. rewrite E1, E1'. unfold free_of in *. 
  change (band_of (rewidth width' X)) with (band_of X) in *. cbn [rewidth s_width s_norb s_nk s_wk] in *. rewrite EF in M, M'. rewrite Hwd in *. unfold entropy_of in *. cbn [rewidth s_norb s_nk s_wk] in *.
  set (S := fermi_entropy (s_norb X) (s_nk X) (s_wk X) (r_f r)) in *. set (S' := fermi_entropy (s_norb X) (s_nk X) (s_wk X) (r_f r')) in *.
  assert (P : 0 <= (width' - width) * S) by (apply Rmult_le_pos; lra).
  split; [lra|]. intros NZ.
  assert (Z1 : emptied MAXE X (r_f r) = 0) by (apply no_empty; intros k a Hk Ha; exact (proj1 (NZ k a Hk Ha))).
  assert (Z2 : emptied MAXE' (rewidth width' X) (r_f r') = 0) by (apply no_empty; intros k a Hk Ha; exact (proj2 (NZ k a Hk Ha))).
  rewrite Z1 in M. rewrite Z2 in M'. assert (S <= S') by (apply (Rmult_le_reg_l (width' - width)); lra). split; [assumption|]. assert (width * S <= width * S') by (apply Rmult_le_compat_l; lra). lra.
Qed.
Lemma warmer_scc X X' K q q' r r' :
  assemble erfc Bohr Hartree gaussian gamma_cut goal width sepsilon true D g = Some X -> assemble erfc Bohr Hartree gaussian gamma_cut goal width' sepsilon true D g = Some X' ->
  reliable z w0 X -> reliable z' w0' X' -> (forall I, (I < g_N g)%nat -> g_ext g I = 0) -> interacts_by X K -> costs (s_N X) K ->
  computed_from z evmin w0 MAXE brentq tol_norm tol_mull tol_im Hartree Bohr X q r ->
  computed_from z' evmin' w0' MAXE' brentq' tol_norm' tol_mull' tol_im' Hartree Bohr X' q' r' ->
  (forall I, (I < s_N X)%nat -> r_dq r I = q I) -> (forall I, (I < s_N X)%nat -> r_dq r' I = q' I) ->
  filling (s_norb X) (s_nk X) (s_wk X) (r_f r') = filling (s_norb X) (s_nk X) (s_wk X) (r_f r) ->
  electronic_free_energy X' r' <= electronic_free_energy X r + emptied MAXE' X' (r_f r') /\
  ((forall k a, (k < s_nk X)%nat -> (a < s_norb X)%nat -> r_f r k a <> 0 /\ r_f r' k a <> 0) -> entropy_of X r <= entropy_of X' r' /\ r_ebs r + r_ecoul r <= r_ebs r' + r_ecoul r').
Proof.
  intros EX EX' RX RX' NE IK Cs CF CF' Q Q' EF.
  pose proof (assemble_width _ _ _ _ _ _ _ _ _ _ _ _ _ _ EX EX') as EXX.
  assert (IK' : interacts_by X' K) by (subst X'; exact IK).
  assert (Hwd : s_width X = width) by (apply (assembled_band _ _ _ _ _ _ _ _ _ _ _ _ EX)).
  assert (HT2 : 0 < width') by lra.
  destruct (ground_scc erfc Bohr Hartree gaussian gamma_cut goal width sepsilon D g inv Sg HT Hw z evmin w0 MAXE brentq tol_norm tol_mull tol_im Ht X K EX RX NE IK q r CF) as ((W & EW & Eq & Ef) & mu & M).
  destruct (ground_scc erfc Bohr Hartree gaussian gamma_cut goal width' sepsilon D g inv Sg HT2 Hw z' evmin' w0' MAXE' brentq' tol_norm' tol_mull' tol_im' Ht' X' K EX' RX' NE IK' q' r' CF') as ((W' & EW' & Eq' & Ef') & mu' & M').
  assert (S0 : 0 <= entropy_of X r). { apply (entropy_bounds X (r_f r)); [|exact (proj2 EW)]. exact (proj1 (wk_pos erfc Bohr Hartree gaussian gamma_cut goal width sepsilon D g HT Hw true X EX)). }
  subst X'. specialize (M W' (r_f r') EW'). specialize (M' W (r_f r) EW).
  pose proof (sum_difference erfc Bohr Hartree gaussian gamma_cut goal width sepsilon D g inv Sg HT Hw z evmin w0 MAXE brentq tol_norm tol_mull tol_im Ht X K EX RX NE IK q r W' (r_f r') CF EW' EF) as Z.
  pose proof (sum_difference erfc Bohr Hartree gaussian gamma_cut goal width' sepsilon D g inv Sg HT2 Hw z' evmin' w0' MAXE' brentq' tol_norm' tol_mull' tol_im' Ht' _ K EX' RX' NE IK' q' r' W (r_f r) CF' EW (eq_sym EF)) as Z'.
  change (charges_of (rewidth width' X)) with (charges_of X) in *. change (band_of (rewidth width' X)) with (band_of X) in *. cbn [rewidth s_width s_norb s_nk s_wk s_N] in *. rewrite <- Eq in M', Z'. rewrite <- Eq' in M, Z.
  apply Cs in Z, Z'. rewrite mismatch_zero in M by (intros I HI; symmetry; apply Q; exact HI). rewrite mismatch_zero in M' by (intros I HI; symmetry; apply Q'; exact HI). rewrite EF in M, M'.
  unfold electronic_free_energy, free_of in *. change (band_of (rewidth width' X)) with (band_of X) in *. unfold entropy_of in *. cbn [rewidth s_width s_norb s_nk s_wk s_N] in *. rewrite Hwd in *.
  set (S := fermi_entropy (s_norb X) (s_nk X) (s_wk X) (r_f r)) in *. set (S' := fermi_entropy (s_norb X) (s_nk X) (s_wk X) (r_f r')) in *.
  assert (P : 0 <= (width' - width) * S) by (apply Rmult_le_pos; lra).
  split; [lra|]. intros NZ.
  assert (Z1 : emptied MAXE X (r_f r) = 0) by (apply no_empty; intros k a Hk Ha; exact (proj1 (NZ k a Hk Ha))).
  assert (Z2 : emptied MAXE' (rewidth width' X) (r_f r') = 0) by (apply no_empty; intros k a Hk Ha; exact (proj2 (NZ k a Hk Ha))).
  rewrite Z1 in M. rewrite Z2 in M'. assert (S <= S') by (apply (Rmult_le_reg_l (width' - width)); lra). split; [assumption|]. assert (width * S <= width * S') by (apply Rmult_le_compat_l; lra). lra.
Qed.
End Width.
