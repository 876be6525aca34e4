From Coq Require Import Reals ZArith List Bool Arith Lia Lra FunctionalExtensionality.
From Verif Require Import Vec GeomModel GeomProofs MixModel OccModel OccProofs SkModel SkSpec Cpx RhoModel RhoSpec RhoProofs EigModel EigSpec EigProofs2 InvModel InvSpec InvLin InvProofs InvProofs2 InvProofs3 InvProofs4 InvProofs6 BndModel BndSpec BndProofs BndProofs2 FoldSpec FoldProofs FoldProofs2 FoldProofs3.
Import ListNotations.
Open Scope R_scope.

Lemma atr_rows Z I A A' B : (forall i l, (i < s_norb Z)%nat -> (l < s_norb Z)%nat -> owns (s_o1 Z) (s_no Z) I i = true -> A i l = A' i l) -> atr Z I A B = atr Z I A' B.
Proof. intros H. unfold atr. apply csum_ext'. intros i Hi. destruct (owns (s_o1 Z) (s_no Z) I i) eqn:O; [|reflexivity]. apply csum_ext'. intros l Hl. rewrite (H i l Hi Hl O). reflexivity. Qed.
Section Fold.
Context (m : nat) (p : nat -> nat -> nat -> cplx) (D : nat -> nat -> nat -> R) (Q : nat -> nat -> nat -> R) (X Y : system).
Context (U : unfolds m p D Q X Y) (LX : layout (s_norb X) (s_N X) (s_o1 X) (s_no X)) (PX : proper X).
Let n := s_norb X.
Let N := s_N X.
Let Hm : (0 < m)%nat := y_m _ _ _ _ _ _ U.
Context (z z' : lapack) (w0 w0' : nat -> nat -> R) (evmin evmin' : (nat -> nat -> cplx) -> R).
Context (RX : reliable z w0 X) (RY : reliable z' w0' Y).
Context (MAXE : R) (brentq : (R -> R) -> R -> R -> R -> option R) (tol_norm tol_mull tol_im Hartree Bohr : R) (Ht : 0 <= tol_norm) (scc : bool).
Context (SFB : scale_free brentq).
Let EXX : Prop := EX X brentq tol_mull.
Let fd := folded m p D X Y.
Lemma sane_fold u v : repeated m N u v -> sane (s_N Y) v (s_Z Y) = sane (s_N X) u (s_Z X).
Proof.
  intros C. unfold sane. rewrite (y_N _ _ _ _ _ _ U). fold N. apply eq_true_iff_eq. rewrite !forallb_forall. split.
  - intros H I HI. apply in_seq in HI. assert (HI' : (I < N)%nat) by lia. specialize (H (0 * N + I)%nat). pose proof (y_Z _ _ _ _ _ _ U 0%nat I Hm HI') as EZ. fold N in EZ. rewrite (C 0%nat I Hm HI'), EZ in H. apply H. apply in_seq. pose proof (pair_lt m N 0 I Hm HI'). lia.
  - intros H J HJ. apply in_seq in HJ. destruct (pair_inv m N J ltac:(lia)) as (c & I & Hc & HI & ->). pose proof (y_Z _ _ _ _ _ _ U c I Hc HI) as EZ. fold N in EZ. rewrite (C c I Hc HI), EZ. apply H. apply in_seq. lia.
Qed.
Lemma ebs_fold q q' phi : fd q q' ->
  band_structure_energy (s_norb Y) (s_nk Y) (s_wk Y) tol_im (density Y (snd q') (fun k a => phi (snd (fst q') k a))) (s_H0 Y) =
  option_map (Rmult (INR m)) (band_structure_energy (s_norb X) (s_nk X) (s_wk X) tol_im (density X (snd q) (fun k a => phi (snd (fst q) k a))) (s_H0 X)).
Proof.
  intros A. unfold band_structure_energy. rewrite (ebs_real X _ _ PX), (ebs_real Y _ _ (proper_fold m p D Q X Y U PX)). pose proof (m_pos m p D Q X Y U) as Mp.
  assert (E : fst (ebs_c (s_norb Y) (s_nk Y) (s_wk Y) (density Y (snd q') (fun k a => phi (snd (fst q') k a))) (s_H0 Y)) = INR m * fst (ebs_c (s_norb X) (s_nk X) (s_wk X) (density X (snd q) (fun k a => phi (snd (fst q) k a))) (s_H0 X))).
  2: { rewrite E. destruct (ltb 0 tol_im); reflexivity. }
  unfold ebs_c. rewrite (csum_fst (s_nk Y)), (csum_fst (s_nk X)). unfold cscale. cbn [fst].
  rewrite (points_sum m p D Q X Y U (fun k => fst (csum (s_norb X) (fun i => csum (s_norb X) (fun j => cmul (density X (snd q) (fun k a => phi (snd (fst q) k a)) k i j) (s_H0 X k j i)))))
    (fun k => fst (csum (s_norb Y) (fun i => csum (s_norb Y) (fun j => cmul (density Y (snd q') (fun k a => phi (snd (fst q') k a)) k i j) (s_H0 Y k j i)))))); [field; lra|].
  intros k Hk. rewrite <- csum_fst. f_equal. rewrite (y_norb _ _ _ _ _ _ U). fold n.
  set (A' := bd n (fun j => density X (snd q) (fun k a => phi (snd (fst q) k a)) (k * m + j)%nat)). set (B' := bd n (fun j => s_H0 X (k * m + j)%nat)).
  transitivity (csum (m * n) (fun i => mmul (m * n) (transported (m * n) (TT m p D X k) A') (transported (m * n) (TT m p D X k) B') i i)).
  { apply csum_ext'. intros i Hi. apply csum_ext'. intros l Hl. rewrite (rho_fold m p D Q X Y U q q' phi k A Hk i l Hi Hl), (H0_meq m p D Q X Y U k Hk l i Hl Hi). reflexivity. }
  rewrite (full_trace (m * n) _ (TT_unitary m p D Q X Y U k Hk)). rewrite (csum_ext' (m * n) _ (fun i => bd n (fun j => mmul n (density X (snd q) (fun k a => phi (snd (fst q) k a)) (k * m + j)%nat) (s_H0 X (k * m + j)%nat)) i i)) by (intros i Hi; apply bd_mmul; exact Hi).
  rewrite csum_pairs. apply csum_ext'. intros j Hj. apply csum_ext'. intros i Hi. rewrite bd_at, Nat.eqb_refl by assumption. reflexivity.
Qed.
Lemma coulomb_fold u v : repeated m N u v ->
  coulomb_energy (s_N Y) scc v (epsilon (s_N Y) (s_G Y) (s_phi Y v) v) = INR m * coulomb_energy (s_N X) scc u (epsilon (s_N X) (s_G X) (s_phi X u) u).
Proof.
  intros C. unfold coulomb_energy. destruct scc; [|ring]. pose proof (y_eps _ _ _ _ _ _ U u v C) as E.
  replace (rsum (s_N Y) (fun I => v I * epsilon (s_N Y) (s_G Y) (s_phi Y v) v I)) with (INR m * rsum (s_N X) (fun I => u I * epsilon (s_N X) (s_G X) (s_phi X u) u I)); [ring|].
  symmetry. rewrite (y_N _ _ _ _ _ _ U) at 1. apply (repeated_sum m (s_N X) (fun I => u I * epsilon (s_N X) (s_G X) (s_phi X u) u I)). apply (repeated_op2 m (s_N X) Rmult); assumption.
Qed.
Lemma gamma_fold u v d c I : repeated m N u v -> (d < 3)%nat -> (c < m)%nat -> (I < N)%nat ->
  gamma_force (s_N Y) scc v (s_dG Y d) (s_field Y v d) (c * N + I) = rsum 3 (fun e => Q c d e * gamma_force (s_N X) scc u (s_dG X e) (s_field X u e) I).
Proof.
  intros C Hd Hc HI. unfold gamma_force. destruct scc; [|rewrite (rsum_ext _ _ (fun _ => 0)) by (intros; ring); rewrite rsum_zero; reflexivity].
  pose proof (y_gamma _ _ _ _ _ _ U u v C d c I Hd Hc HI) as G. cbv beta in G. fold N in G |- *. rewrite (C c I Hc HI), G, <- rsum_scal. apply rsum_ext. intros e _. ring.
Qed.
Lemma force_fold q q' phi d c I : fd q q' -> (d < 3)%nat -> (c < m)%nat -> (I < N)%nat ->
  band_structure_force (s_norb Y) (s_nk Y) (s_o1 Y) (s_no Y) (s_wk Y) (dH_scc scc (fst (fst q')) (s_dH0 Y d) (s_dS Y d)) (s_dS Y d) (density Y (snd q') (fun k a => phi (snd (fst q') k a))) (density_e Y (snd q') (fun k a => phi (snd (fst q') k a)) (snd (fst q'))) (c * N + I) =
  rsum 3 (fun e => Q c d e * band_structure_force (s_norb X) (s_nk X) (s_o1 X) (s_no X) (s_wk X) (dH_scc scc (fst (fst q)) (s_dH0 X e) (s_dS X e)) (s_dS X e) (density X (snd q) (fun k a => phi (snd (fst q) k a))) (density_e X (snd q) (fun k a => phi (snd (fst q) k a)) (snd (fst q))) I).
Proof.
  intros A Hd Hc HI. rewrite (force_atr Y) by (try apply (y_lay _ _ _ _ _ _ U); apply (atom_lt m p D Q X Y U); assumption).
  rewrite (rsum_ext 3 _ (fun e => 2 * (rsum (s_nk X) (fun k => Q c d e * (- s_wk X k * (fst (atr X I (dH_scc scc (fst (fst q)) (s_dH0 X e) (s_dS X e) k) (density X (snd q) (fun k a => phi (snd (fst q) k a)) k)) - fst (atr X I (s_dS X e k) (density_e X (snd q) (fun k a => phi (snd (fst q) k a)) (snd (fst q)) k)))))))).
  2: { intros e _. rewrite (force_atr X) by assumption. rewrite rsum_scal. ring. }
  rewrite rsum_scal. f_equal. rewrite rsum_swap.
  rewrite (rsum_ext (s_nk Y) _ (fun k => s_wk Y k * - (fst (atr Y (c * N + I) (dH_scc scc (fst (fst q')) (s_dH0 Y d) (s_dS Y d) k) (density Y (snd q') (fun k a => phi (snd (fst q') k a)) k)) - fst (atr Y (c * N + I) (s_dS Y d k) (density_e Y (snd q') (fun k a => phi (snd (fst q') k a)) (snd (fst q')) k))))) by (intros; ring).
  rewrite (rsum_ext (s_nk X) _ (fun k => s_wk X k * rsum 3 (fun e => Q c d e * - (fst (atr X I (dH_scc scc (fst (fst q)) (s_dH0 X e) (s_dS X e) k) (density X (snd q) (fun k a => phi (snd (fst q) k a)) k)) - fst (atr X I (s_dS X e k) (density_e X (snd q) (fun k a => phi (snd (fst q) k a)) (snd (fst q)) k)))))) by (intros; rewrite <- rsum_scal; apply rsum_ext; intros; ring).
  apply (points_sum' m p D Q X Y U). intros k Hk.
  assert (K : forall (F : nat -> kmatrix) G (R1 R2 : kmatrix), (forall a l, (a < n)%nat -> (l < m * n)%nat -> G k (c * n + a)%nat l = csum 3 (fun e => cscale (Q c d e) (transported (m * n) (TT m p D X k) (bd n (fun j => F e (k * m + j)%nat)) (c * n + a) l))) ->
     meq (m * n) (R2 k) (transported (m * n) (TT m p D X k) (bd n (fun j => R1 (k * m + j)%nat))) ->
     fst (atr Y (c * N + I) (G k) (R2 k)) = / INR m * rsum m (fun j => rsum 3 (fun e => Q c d e * fst (atr X I (F e (k * m + j)%nat) (R1 (k * m + j)%nat))))).
  { intros F G R1 R2 EG ER.
    rewrite (atr_rows Y (c * N + I) (G k) (fun i l => csum 3 (fun e => cscale (Q c d e) (transported (m * n) (TT m p D X k) (bd n (fun j => F e (k * m + j)%nat)) i l)))).
    2: { rewrite (y_norb _ _ _ _ _ _ U). fold n. intros i l Hi Hl O. destruct (pair_inv m n i Hi) as (c' & a & Hc' & Ha & ->). pose proof (owns_fold m p D Q X Y U LX c c' I a Hc Hc' HI Ha) as OF. fold n N in OF. rewrite OF in O. apply andb_true_iff in O. destruct O as [O _]. apply Nat.eqb_eq in O. subst c'. apply EG; assumption. }
    rewrite (atr_lin Y (c * N + I) (Q c d) (fun e => transported (m * n) (TT m p D X k) (bd n (fun j => F e (k * m + j)%nat)))).
    rewrite rsum_swap, <- rsum_scal. apply rsum_ext. intros e _. pose proof (atr_fold m p D Q X Y U LX k c I (fun j => F e (k * m + j)%nat) (fun j => R1 (k * m + j)%nat) _ (R2 k) Hk Hc HI (fun a l _ _ => eq_refl) ER) as AF. fold n N in AF. rewrite AF.
    unfold cscale. cbn [fst]. rewrite csum_fst, rsum_scal. fold n. ring. }
  rewrite (K (fun e => dH_scc scc (fst (fst q)) (s_dH0 X e) (s_dS X e)) (dH_scc scc (fst (fst q')) (s_dH0 Y d) (s_dS Y d)) (density X (snd q) (fun k a => phi (snd (fst q) k a))) (density Y (snd q') (fun k a => phi (snd (fst q') k a)))).
  - rewrite (K (s_dS X) (s_dS Y d) (density_e X (snd q) (fun k a => phi (snd (fst q) k a)) (snd (fst q))) (density_e Y (snd q') (fun k a => phi (snd (fst q') k a)) (snd (fst q')))).
    + rewrite <- Rmult_minus_distr_l, <- rsum_minus, Ropp_mult_distr_r, <- rsum_opp. f_equal. apply rsum_ext. intros j _. rewrite <- rsum_minus, <- rsum_opp. apply rsum_ext. intros; ring.
    + apply (d_rows_meq m p D Q X Y U k d c (s_dS X) (s_dS Y d) Hc). intros a c' b Hc' Ha Hb. apply (y_dS _ _ _ _ _ _ U); assumption.
    + apply (rhoe_fold m p D Q X Y U q q' phi k A Hk).
  - intros a l Ha Hl. pose proof (d_rows_meq m p D Q X Y U k d c (s_dH0 X) (s_dH0 Y d) Hc (fun a c' b Hc' Ha Hb => y_dH0 _ _ _ _ _ _ U d k c a c' b Hd Hk Hc Hc' Ha Hb) a l Ha Hl) as E1.
    pose proof (d_rows_meq m p D Q X Y U k d c (s_dS X) (s_dS Y d) Hc (fun a c' b Hc' Ha Hb => y_dS _ _ _ _ _ _ U d k c a c' b Hd Hk Hc Hc' Ha Hb) a l Ha Hl) as E2. fold n in E1, E2.
    unfold dH_scc. destruct scc; [|exact E1]. rewrite E1, E2, cscale_rc, <- csum_mul, <- csum_add. apply csum_ext'. intros e _.
    pose proof (weighted_fold m p D X k (fst (fst q)) (fst (fst q')) (fun j => s_dS X e (k * m + j)%nat) (c * n + a) l (pair_lt m n c a Hc Ha) Hl (o_h _ _ _ _ _ _ _ A)) as W. fold n in W.
    transitivity (cscale (Q c d e) (cadd (transported (m * n) (TT m p D X k) (bd n (fun j => s_dH0 X e (k * m + j)%nat)) (c * n + a) l) (transported (m * n) (TT m p D X k) (bd n (fun j a b => cscale (fst (fst q) a b) (s_dS X e (k * m + j)%nat a b))) (c * n + a) l))).
    + rewrite W, !cscale_rc. ring.
    + f_equal. unfold transported. rewrite <- csum_add. apply csum_ext'. intros x _. rewrite <- csum_add. apply csum_ext'. intros y _. unfold bd. destruct (_ =? _)%nat; ring.
  - apply (rho_fold m p D Q X Y U q q' phi k A Hk).
Qed.
Lemma finish_fold q q' : fd q q' ->
  match finish MAXE brentq tol_mull tol_im Hartree Bohr scc X q, finish MAXE brentq tol_mull tol_im Hartree Bohr scc Y q' with
  | Some x, Some y => multiplied m p D Q X Y x y
  | None, None => True
  | _, None => EXX -> False
  | _, _ => False
  end.
Proof.
  intros A. pose proof (charges_fold m p D Q X Y U LX MAXE brentq tol_mull SFB q q' A) as CH. pose proof (occupations_fold m p D Q X Y U MAXE brentq tol_mull SFB q q' A) as OC.
  pose proof (fun phi => ebs_fold q q' phi A) as EB. pose proof (fun phi d c I => force_fold q q' phi d c I A) as FO. pose proof (o_e _ _ _ _ _ _ _ A) as LE. pose proof (fun phi k => rho_fold m p D Q X Y U q q' phi k A) as R1.
  pose proof (m_pos m p D Q X Y U) as Mp.
  destruct q as [[h e] wf], q' as [[h' e'] wf']. unfold finish. cbn [fst snd] in *.
  destruct OC as [[-> ->]|[(phi & -> & -> & _)|[-> F]]]; [exact I| |].
  2: { destruct (occupations _ _ X _); [|exact I]. destruct (charges _ _ _ X _); [|exact I]. destruct (negb _); [exact I|]. cbv zeta. destruct (band_structure_energy _ _ _ _ _ _); [|exact I]. destruct (s_erep X); [exact F|exact I]. }
  destruct CH as [[-> ->]|[(u & v & -> & -> & C)|[-> F]]]; [exact I| |].
  2: { destruct (charges _ _ _ X _); [|exact I]. destruct (negb _); [exact I|]. cbv zeta. destruct (band_structure_energy _ _ _ _ _ _); [|exact I]. destruct (s_erep X); [exact F|exact I]. }
  rewrite (sane_fold u v C). destruct (negb _); [exact I|]. cbv zeta.
  rewrite (EB phi), (y_erep _ _ _ _ _ _ U). destruct (band_structure_energy _ _ _ _ _ _) as [ebs|]; [|exact I]. destruct (s_erep X) as [erep|]; [|exact I]. cbn [option_map].
  rewrite (coulomb_fold u v C), (y_epp _ _ _ _ _ _ U), (y_efree _ _ _ _ _ _ U).
  split; cbn [r_e r_f r_dq r_rho r_rhoe r_ebs r_ecoul r_epot r_force]; try reflexivity; try assumption.
  - intros f k Hk. rewrite (y_norb _ _ _ _ _ _ U). apply (LE f k Hk).
  - intros k a k' a' _ _ _ _ E. rewrite E. reflexivity.
  - intros k c a c' b Hk Hc Hc' Ha Hb. pose proof (R1 phi k Hk (c * s_norb X + a)%nat (c' * s_norb X + b)%nat (pair_lt m _ c a Hc Ha) (pair_lt m _ c' b Hc' Hb)) as E. rewrite E. unfold TT. rewrite transported_unfolded by assumption. reflexivity.
  - ring.
  - intros d c I Hd Hc HI. pose proof (y_frep _ _ _ _ _ _ U d c I Hd Hc HI) as E1. pose proof (y_fpp _ _ _ _ _ _ U d c I Hd Hc HI) as E2. fold N in E1, E2 |- *. rewrite (FO phi d c I Hd Hc HI), (gamma_fold u v d c I C Hd Hc HI), E1, E2. cbn [rsum]. unfold N. ring.
Qed.
(** ** the iteration *)
Definition outcome_fold (o o' : outcome passed * nat) : Prop :=
  match fst o, fst o' with
  | Returned q i, Returned q' i' => fd q q' /\ i = i' /\ snd o = snd o'
  | OutOfIterations, OutOfIterations => snd o = snd o' | NeverSolved, NeverSolved => True
  | Raised, Raised => True
  | _, Raised => EXX -> False
  | _, _ => False
  end.
Context (mx my : mixer) (rel : mst mx -> mst my -> Prop) (SIM : simulates2 m N mx my rel).
Lemma pass_h1_fold u v : repeated m N u v -> exists q q', pass z evmin w0 tol_norm X (Some (h1_of X u)) = Some q /\ pass z' evmin' w0' tol_norm Y (Some (h1_of Y v)) = Some q' /\ fd q q'.
Proof.
  intros C. apply (pass_fold m p D Q X Y U PX z z' w0 w0' evmin evmin' RX RY tol_norm Ht).
  - intros h E. replace h with (h1_of X u) by congruence. apply h1_sym.
  - intros h E. replace h with (h1_of Y v) by congruence. apply h1_sym.
  - exact (h1_fold m p D Q X Y U LX u v C).
Qed.
Lemma loop_fold todo : forall i ms ms' u v, rel ms ms' -> repeated m N u v ->
  outcome_fold (scc_loop (fun dq => pass z evmin w0 tol_norm X (Some (h1_of X dq))) (charges MAXE brentq tol_mull X) mx todo i ms u)
               (scc_loop (fun dq => pass z' evmin' w0' tol_norm Y (Some (h1_of Y dq))) (charges MAXE brentq tol_mull Y) my todo i ms' v).
Proof.
  induction todo as [|todo IH]; intros i ms ms' u v R C; [exact I|]. cbn [scc_loop].
  destruct (pass_h1_fold u v C) as (q & q' & -> & -> & A). destruct (charges_fold m p D Q X Y U LX MAXE brentq tol_mull SFB q q' A) as [[-> ->]|[(o & o' & -> & -> & Co)|[-> F]]]; [exact I| |].
  2: { unfold outcome_fold. cbn [fst]. destruct (match charges _ _ _ X q with Some _ => _ | None => _ end) as [[? ?| | |] ?]; cbn [fst]; first [exact I|exact F]. }
  destruct (sim2_call _ _ _ _ _ SIM ms ms' u v o o' R C Co) as (R' & D' & C').
  destruct (m_call mx ms u o) as [ms1 [d1 q1]], (m_call my ms' v o') as [ms2 [d2 q2]]. cbn [fst snd] in *. rewrite <- D'. destruct d1; [split; [exact A|split; reflexivity]|].
  destruct todo as [|todo]; [reflexivity|]. specialize (IH (S i) ms1 ms2 q1 q2 R' C').
  destruct (scc_loop _ _ mx (S todo) (S i) ms1 q1) as [r1 k1], (scc_loop _ _ my (S todo) (S i) ms2 q2) as [r2 k2]. unfold outcome_fold in *. cbn [fst snd] in *.
  destruct r1 as [? ?| | |], r2 as [? ?| | |]; try exact IH.
  - destruct IH as (K1 & K2 & K3). split; [exact K1|]. split; [exact K2|]. rewrite K3. reflexivity.
  - rewrite IH. reflexivity.
Qed.
Definition answer_fold (x y : answer) : Prop :=
  match x, y with
  | Solved rx ix nx, Solved ry iy ny => multiplied m p D Q X Y rx ry /\ ix = iy /\ nx = ny
  | NotConverged nx, NotConverged ny => nx = ny
  | Exception, Exception => True
  | _, Exception => EXX -> False
  | _, _ => False
  end.
Lemma calculate_fold maxiter ms ms' u v : rel ms ms' -> repeated m N u v ->
  answer_fold (calculate z evmin w0 MAXE brentq mx tol_norm tol_mull tol_im Hartree Bohr scc maxiter X ms u)
              (calculate z' evmin' w0' MAXE brentq my tol_norm tol_mull tol_im Hartree Bohr scc maxiter Y ms' v).
Proof.
  intros R C. unfold calculate.
  assert (O : outcome_fold (get_states (fun dq => pass z evmin w0 tol_norm X (Some (h1_of X dq))) (pass z evmin w0 tol_norm X None) (charges MAXE brentq tol_mull X) mx scc maxiter ms u)
     (get_states (fun dq => pass z' evmin' w0' tol_norm Y (Some (h1_of Y dq))) (pass z' evmin' w0' tol_norm Y None) (charges MAXE brentq tol_mull Y) my scc maxiter ms' v)).
  { unfold get_states. pose proof (sim2_reset _ _ _ _ _ SIM ms ms' R) as R'. destruct scc; [apply loop_fold; assumption|].
    destruct maxiter as [|maxiter]; [exact I|].
    destruct (pass_fold m p D Q X Y U PX z z' w0 w0' evmin evmin' RX RY tol_norm Ht None None) as (q & q' & -> & -> & A); [intros h E; discriminate|intros h E; discriminate|intros c i a c' l b _ _ _ _ _ _ _ _; reflexivity|].
    destruct (charges_fold m p D Q X Y U LX MAXE brentq tol_mull SFB q q' A) as [[-> ->]|[(o & o' & -> & -> & Co)|[-> F]]]; [exact I|split; [exact A|split; reflexivity]|].
    unfold outcome_fold. destruct (charges _ _ _ X q); cbn [fst]; [exact F|exact I]. }
  destruct (get_states _ (pass z evmin w0 tol_norm X None) _ mx scc maxiter ms u) as [o k], (get_states _ (pass z' evmin' w0' tol_norm Y None) _ my scc maxiter ms' v) as [o' k'].
  unfold outcome_fold in O. cbn [fst snd] in *. destruct o as [q i| | |], o' as [q' i'| | |]; try contradiction; try exact I.
  - destruct O as (A & <- & <-). pose proof (finish_fold q q' A) as F. destruct (finish _ _ _ _ _ _ _ X q) as [x|], (finish _ _ _ _ _ _ _ Y q') as [y|]; try contradiction; [split; [exact F|split; reflexivity]|exact F|exact I].
  - destruct (finish _ _ _ _ _ _ _ X q); [exact O|exact I].
  - exact O.
  - exact O.
Qed.
End Fold.
Lemma copies_multiply m p D Q X Y z z' w0 w0' evmin evmin' MAXE brentq mx my tol_norm tol_mull tol_im Hartree Bohr scc maxiter sx sy u v :
  unfolds m p D Q X Y -> layout (s_norb X) (s_N X) (s_o1 X) (s_no X) -> proper X -> reliable z w0 X -> reliable z' w0' Y -> 0 <= tol_norm -> scale_free brentq ->
  fresh_pair (s_N X) (s_N Y) mx my sx sy -> repeated m (s_N X) u v ->
  answer_fold m p D Q X Y brentq tol_mull (calculate z evmin w0 MAXE brentq mx tol_norm tol_mull tol_im Hartree Bohr scc maxiter X sx u)
              (calculate z' evmin' w0' MAXE brentq my tol_norm tol_mull tol_im Hartree Bohr scc maxiter Y sy v).
Proof.
  intros U LX PX RX RY Ht SF F C. rewrite (y_N _ _ _ _ _ _ U) in F. destruct (fresh_simulates2 m (s_N X) (y_m _ _ _ _ _ _ U) mx my sx sy F) as (rel & SIM & R).
  exact (calculate_fold m p D Q X Y U LX PX z z' w0 w0' evmin evmin' RX RY MAXE brentq tol_norm tol_mull tol_im Hartree Bohr Ht scc SF mx my rel SIM maxiter sx sy u v R C).
Qed.
Lemma fold_multiple m p D Q X Y brentq tol_mull x y : answer_fold m p D Q X Y brentq tol_mull x y -> multiple_answer m p D Q X Y x y.
Proof. unfold answer_fold, multiple_answer. destruct x, y; auto. Qed.
Lemma fold_exact m p D Q X Y brentq tol_mull x y : EX X brentq tol_mull -> answer_fold m p D Q X Y brentq tol_mull x y -> exact_multiple m p D Q X Y x y.
Proof. unfold answer_fold, exact_multiple. intros E. destruct x, y; auto. Qed.
