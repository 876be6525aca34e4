From Coq Require Import Reals ZArith List Bool Arith Lia Lra FunctionalExtensionality.
From Verif Require Import Vec GeomModel MixModel OccModel SkModel SkSpec Cpx RhoModel RhoSpec RhoProofs EigModel EigSpec EigProofs2 InvModel InvSpec InvLin InvProofs InvProofs2 InvProofs3.
Import ListNotations.
Open Scope R_scope.

Lemma mmul_lin n q (A : nat -> nat -> nat -> cplx) B i l : mmul n (fun i j => csum 3 (fun d => cscale (q d) (A d i j))) B i l = csum 3 (fun d => cscale (q d) (mmul n (A d) B i l)).
Proof.
  unfold mmul. rewrite (csum_ext' n _ (fun j => csum 3 (fun d => cmul (rc (q d)) (cmul (A d i j) (B j l))))).
  - rewrite csum_swap. apply csum_ext'. intros d _. rewrite csum_mul, cscale_rc. reflexivity.
  - intros j _. rewrite <- csum_mul_r. apply csum_ext'. intros d _. rewrite cscale_rc. ring.
Qed.
Lemma atr_lin Z I q A B : fst (atr Z I (fun i j => csum 3 (fun d => cscale (q d) (A d i j))) B) = rsum 3 (fun d => q d * fst (atr Z I (A d) B)).
Proof.
  unfold atr. rewrite csum_fst. rewrite (rsum_ext _ _ (fun i => rsum 3 (fun d => q d * fst (if owns (s_o1 Z) (s_no Z) I i then mmul (s_norb Z) (A d) B i i else c0)))).
  - rewrite rsum_swap. apply rsum_ext. intros d _. rewrite rsum_scal, csum_fst. reflexivity.
  - intros i _. destruct (owns _ _ _ _).
    + rewrite mmul_lin, csum_fst. apply rsum_ext. intros d _. reflexivity.
    + cbn [c0 fst]. rewrite (rsum_ext _ _ (fun _ => 0)) by (intros; ring). rewrite rsum_zero. reflexivity.
Qed.
Section Alike.
Context (s : nat -> nat) (T : nat -> nat -> nat -> cplx) (Q : nat -> nat -> R) (X Y : system).
Context (EQ : equivalent s T Q X Y) (PX : proper X).
Context (z z' : lapack) (w0 w0' : nat -> nat -> R) (evmin evmin' : (nat -> nat -> cplx) -> R).
Context (RX : reliable z w0 X) (RY : reliable z' w0' Y).
Context (MAXE : R) (brentq : (R -> R) -> R -> R -> R -> option R) (tol_norm tol_mull tol_im Hartree Bohr : R) (Ht : 0 <= tol_norm) (scc : bool).
Let n := s_norb X.
Let N := s_N X.
Let nk := s_nk X.
Lemma sane_alike u v : carried N s u v -> sane (s_N Y) v (s_Z Y) = sane (s_N X) u (s_Z X).
Proof.
  intros C. unfold sane. rewrite (q_N _ _ _ _ _ EQ). fold N. pose proof (q_perm _ _ _ _ _ EQ) as P. fold N in P. apply eq_true_iff_eq. rewrite !forallb_forall. split.
  - intros H I HI. apply in_seq in HI. assert (HN : (I < N)%nat) by lia. specialize (H (s I)). rewrite (C I HN), (q_Z _ _ _ _ _ EQ I HN) in H. apply H. apply in_seq. pose proof (proj1 P I HN). lia.
  - intros H J HJ. apply in_seq in HJ. destruct (permutes_onto N s J P ltac:(lia)) as (I & HI & <-). rewrite (C I HI), (q_Z _ _ _ _ _ EQ I HI). apply H. apply in_seq. lia.
Qed.
Lemma ebs_alike rho rho' : (forall k, (k < nk)%nat -> meq n (rho' k) (transported n (T k) (rho k))) ->
  band_structure_energy (s_norb Y) (s_nk Y) (s_wk Y) tol_im rho' (s_H0 Y) = band_structure_energy (s_norb X) (s_nk X) (s_wk X) tol_im rho (s_H0 X).
Proof.
  intros R. unfold band_structure_energy. assert (E : ebs_c (s_norb Y) (s_nk Y) (s_wk Y) rho' (s_H0 Y) = ebs_c (s_norb X) (s_nk X) (s_wk X) rho (s_H0 X)); [|rewrite E; reflexivity].
  unfold ebs_c. rewrite (q_nk _ _ _ _ _ EQ). apply csum_ext'. intros k Hk. rewrite (q_wk _ _ _ _ _ EQ k Hk), (q_norb _ _ _ _ _ EQ). f_equal. fold n.
  change (csum n (fun i => mmul n (rho' k) (s_H0 Y k) i i) = csum n (fun i => mmul n (rho k) (s_H0 X k) i i)).
  rewrite <- (full_trace n (T k) (q_T _ _ _ _ _ EQ k Hk) (rho k) (s_H0 X k)). apply csum_ext'. intros i Hi. apply mmul_ext; try assumption; [apply R; exact Hk|]. intros a b Ha Hb. apply (q_H0 _ _ _ _ _ EQ); assumption.
Qed.
Lemma coulomb_alike u v : carried N s u v ->
  coulomb_energy (s_N Y) scc v (epsilon (s_N Y) (s_G Y) (s_phi Y v) v) = coulomb_energy (s_N X) scc u (epsilon (s_N X) (s_G X) (s_phi X u) u).
Proof.
  intros C. unfold coulomb_energy. destruct scc; [|reflexivity]. f_equal. pose proof (eps_alike s T Q X Y EQ u v C) as E. rewrite (q_N _ _ _ _ _ EQ) in E. fold N in E. rewrite (q_N _ _ _ _ _ EQ). fold N.
  apply (carried_sum N s); [apply (q_perm _ _ _ _ _ EQ)|]. intros I HI. cbv beta. rewrite (C I HI), (E I HI). reflexivity.
Qed.
Lemma gamma_alike u v c I : carried N s u v -> (c < 3)%nat -> (I < N)%nat ->
  gamma_force (s_N Y) scc v (s_dG Y c) (s_field Y v c) (s I) = rsum 3 (fun d => Q c d * gamma_force (s_N X) scc u (s_dG X d) (s_field X u d) I).
Proof.
  intros C Hc HI. unfold gamma_force. destruct scc; [|rewrite (rsum_ext _ _ (fun _ => 0)) by (intros; ring); rewrite rsum_zero; reflexivity].
  rewrite (C I HI), (q_field _ _ _ _ _ EQ u v C c I Hc HI), (q_N _ _ _ _ _ EQ). fold N.
  rewrite <- (rsum_perm N s _ (q_perm _ _ _ _ _ EQ)).
  rewrite (rsum_ext N _ (fun J => rsum 3 (fun d => Q c d * (u J * s_dG X d I J)))).
  - rewrite rsum_swap, <- rsum_plus, <- rsum_scal. apply rsum_ext. intros d _. rewrite rsum_scal. ring.
  - intros J HJ. rewrite (C J HJ), (q_dG _ _ _ _ _ EQ c I J Hc HI HJ), <- rsum_scal. apply rsum_ext. intros; ring.
Qed.
Lemma dH_alike h h' c k : matched T X h h' -> (c < 3)%nat -> (k < nk)%nat ->
  meq n (dH_scc scc h' (s_dH0 Y c) (s_dS Y c) k) (fun i l => csum 3 (fun d => cscale (Q c d) (transported n (T k) (dH_scc scc h (s_dH0 X d) (s_dS X d) k) i l))).
Proof.
  intros M Hc Hk i l Hi Hl. unfold dH_scc. destruct scc; [|exact (q_dH0 _ _ _ _ _ EQ c k i l Hc Hk Hi Hl)].
  rewrite (q_dH0 _ _ _ _ _ EQ c k i l Hc Hk Hi Hl), (q_dS _ _ _ _ _ EQ c k i l Hc Hk Hi Hl). fold n. rewrite cscale_rc, <- csum_mul, <- csum_add. apply csum_ext'. intros d _.
  assert (E : transported n (T k) (fun i0 j => cadd (s_dH0 X d k i0 j) (cscale (h i0 j) (s_dS X d k i0 j))) i l = cadd (transported n (T k) (s_dH0 X d k) i l) (cscale (h' i l) (transported n (T k) (s_dS X d k) i l))).
  { rewrite <- (weighted_carried n (T k) h h' (s_dS X d k) i l Hi Hl) by (intros i0 j0 l0 m0 ? ? ? ?; apply (M k); assumption).
    unfold transported. rewrite <- csum_add. apply csum_ext'. intros j _. rewrite <- csum_add. apply csum_ext'. intros; ring. }
  rewrite E. rewrite !cscale_rc. ring.
Qed.
Lemma force_alike h h' rho rho' rhoe rhoe' c I : matched T X h h' -> (c < 3)%nat -> (I < N)%nat ->
  (forall k, (k < nk)%nat -> meq n (rho' k) (transported n (T k) (rho k))) -> (forall k, (k < nk)%nat -> meq n (rhoe' k) (transported n (T k) (rhoe k))) ->
  band_structure_force (s_norb Y) (s_nk Y) (s_o1 Y) (s_no Y) (s_wk Y) (dH_scc scc h' (s_dH0 Y c) (s_dS Y c)) (s_dS Y c) rho' rhoe' (s I) =
  rsum 3 (fun d => Q c d * band_structure_force (s_norb X) (s_nk X) (s_o1 X) (s_no X) (s_wk X) (dH_scc scc h (s_dH0 X d) (s_dS X d)) (s_dS X d) rho rhoe I).
Proof.
  intros M Hc HI R Re. rewrite (force_atr Y) by (try apply (q_layY _ _ _ _ _ EQ); apply (sI_lt s T Q X Y EQ); exact HI).
  rewrite (rsum_ext 3 _ (fun d => 2 * (rsum nk (fun k => Q c d * (- s_wk X k * (fst (atr X I (dH_scc scc h (s_dH0 X d) (s_dS X d) k) (rho k)) - fst (atr X I (s_dS X d k) (rhoe k)))))))).
  2: { intros d _. rewrite (force_atr X) by (try apply (q_layX _ _ _ _ _ EQ); exact HI). rewrite rsum_scal. fold nk. ring. }
  rewrite rsum_scal. f_equal. rewrite rsum_swap, (q_nk _ _ _ _ _ EQ). apply rsum_ext. intros k Hk. fold nk in Hk.
  assert (A : forall (D : nat -> nat -> nat -> cplx) D' B B', meq n D' (fun i l => csum 3 (fun d => cscale (Q c d) (transported n (T k) (D d) i l))) -> meq n B' (transported n (T k) B) ->
     fst (atr Y (s I) D' B') = rsum 3 (fun d => Q c d * fst (atr X I (D d) B))).
  { intros D D' B B' ED EB. rewrite (atr_ext Y (s I) D' (fun i l => csum 3 (fun d => cscale (Q c d) (transported n (T k) (D d) i l))) B' (transported n (T k) B)) by (rewrite (q_norb _ _ _ _ _ EQ); assumption).
    rewrite (atr_lin Y (s I) (Q c) (fun d => transported n (T k) (D d))). apply rsum_ext. intros d _. f_equal. f_equal. apply (atr_alike s T Q X Y EQ k); try assumption; intros i l Hi Hl; reflexivity. }
  rewrite (A (fun d => dH_scc scc h (s_dH0 X d) (s_dS X d) k) _ (rho k) _ (dH_alike h h' c k M Hc Hk) (R k Hk)).
  rewrite (A (fun d => s_dS X d k) _ (rhoe k) _ (fun i l Hi Hl => q_dS _ _ _ _ _ EQ c k i l Hc Hk Hi Hl) (Re k Hk)).
  rewrite <- rsum_minus, (q_wk _ _ _ _ _ EQ k Hk), <- rsum_scal. apply rsum_ext. intros; ring.
Qed.
Lemma finish_alike p p' : alike T X p p' ->
  match finish MAXE brentq tol_mull tol_im Hartree Bohr scc X p, finish MAXE brentq tol_mull tol_im Hartree Bohr scc Y p' with
  | Some x, Some y => same_result s T Q X x y
  | None, None => True
  | _, _ => False
  end.
Proof.
  intros A. pose proof (charges_alike s T Q X Y EQ MAXE brentq tol_mull p p' A) as CH. pose proof (occupations_alike s T Q X Y EQ MAXE brentq p p' A) as OC.
  destruct p as [[h e] wf], p' as [[h' e'] wf']. unfold finish. cbn [fst snd] in *.
  destruct OC as [[-> ->]|(phi & -> & ->)]; [exact I|]. destruct CH as [[-> ->]|(u & v & -> & -> & C)]; [exact I|].
  rewrite (sane_alike u v C). destruct (negb _); [exact I|]. cbv zeta.
  assert (R1 : forall k, (k < nk)%nat -> meq n (density Y wf' (fun k a => phi (e' k a)) k) (transported n (T k) (density X wf (fun k a => phi (e k a)) k))).
  { intros k Hk i l Hi Hl. unfold density. rewrite (q_norb _ _ _ _ _ EQ). apply (l_rho _ _ _ _ A); assumption. }
  assert (R2 : forall k, (k < nk)%nat -> meq n (density_e Y wf' (fun k a => phi (e' k a)) e' k) (transported n (T k) (density_e X wf (fun k a => phi (e k a)) e k))).
  { intros k Hk i l Hi Hl. unfold density_e, compute_rhoe. rewrite (q_norb _ _ _ _ _ EQ). apply (l_rho _ _ _ _ A (fun x => x * phi x)); assumption. }
  rewrite (ebs_alike (density X wf (fun k a => phi (e k a))) _ R1), (q_erep _ _ _ _ _ EQ). destruct (band_structure_energy _ _ _ _ _ _) as [ebs|]; [|exact I]. destruct (s_erep X) as [erep|]; [|exact I].
  rewrite (coulomb_alike u v C), (q_epp _ _ _ _ _ EQ), (q_efree _ _ _ _ _ EQ).
  pose proof (l_e _ _ _ _ A) as LE. pose proof (l_h _ _ _ _ A) as LH. cbn [fst snd] in LE, LH.
  split; cbn [r_e r_f r_dq r_rho r_rhoe r_ebs r_ecoul r_epot r_force]; try reflexivity; try assumption.
  - intros k a Hk Ha. rewrite (LE k a Hk Ha). reflexivity.
  - intros k i l Hk Hi Hl. apply R1; assumption.
  - intros k i l Hk Hi Hl. apply R2; assumption.
  - intros c I Hc HI. rewrite (force_alike h h' _ _ _ _ c I LH Hc HI R1 R2), (gamma_alike u v c I C Hc HI), (q_frep _ _ _ _ _ EQ c I Hc HI), (q_fpp _ _ _ _ _ EQ c I Hc HI).
    cbn [rsum]. ring.
Qed.
(** ** the iteration *)
Definition outcome_alike (o o' : outcome passed * nat) : Prop :=
  snd o = snd o' /\
  match fst o, fst o' with
  | Returned p i, Returned p' i' => alike T X p p' /\ i = i'
  | OutOfIterations, OutOfIterations => True | Raised, Raised => True | NeverSolved, NeverSolved => True
  | _, _ => False
  end.
Context (m : mixer) (rel : mst m -> mst m -> Prop) (SIM : simulates N s m rel).
Lemma pass_h1 u v : carried N s u v -> exists p p', pass z evmin w0 tol_norm X (Some (h1_of X u)) = Some p /\ pass z' evmin' w0' tol_norm Y (Some (h1_of Y v)) = Some p' /\ alike T X p p'.
Proof.
  intros C. apply (pass_alike s T Q X Y EQ PX z z' w0 w0' evmin evmin' RX RY tol_norm Ht).
  - intros h E. replace h with (h1_of X u) by congruence. apply h1_sym.
  - intros h E. replace h with (h1_of Y v) by congruence. apply h1_sym.
  - exact (h1_alike s T Q X Y EQ u v C).
Qed.
Lemma loop_alike todo : forall i ms ms' u v, rel ms ms' -> carried N s u v ->
  outcome_alike (scc_loop (fun dq => pass z evmin w0 tol_norm X (Some (h1_of X dq))) (charges MAXE brentq tol_mull X) m todo i ms u)
                (scc_loop (fun dq => pass z' evmin' w0' tol_norm Y (Some (h1_of Y dq))) (charges MAXE brentq tol_mull Y) m todo i ms' v).
Proof.
  induction todo as [|todo IH]; intros i ms ms' u v R C; [split; [reflexivity|exact I]|]. cbn [scc_loop].
  destruct (pass_h1 u v C) as (p & p' & -> & -> & A). destruct (charges_alike s T Q X Y EQ MAXE brentq tol_mull p p' A) as [[-> ->]|(o & o' & -> & -> & Co)]; [split; [reflexivity|exact I]|].
  destruct (sim_call _ _ _ _ SIM ms ms' u v o o' R C Co) as (R' & D' & C').
  destruct (m_call m ms u o) as [ms1 [d1 q1]], (m_call m ms' v o') as [ms2 [d2 q2]]. cbn [fst snd] in *. rewrite <- D'. destruct d1; [split; [reflexivity|split; [exact A|reflexivity]]|].
  destruct todo as [|todo]; [split; [reflexivity|exact I]|]. specialize (IH (S i) ms1 ms2 q1 q2 R' C').
  destruct (scc_loop _ _ m (S todo) (S i) ms1 q1) as [r1 k1], (scc_loop _ _ m (S todo) (S i) ms2 q2) as [r2 k2]. destruct IH as [K1 K2]. cbn [fst snd] in *. split; [cbn [snd]; rewrite K1; reflexivity|exact K2].
Qed.
Lemma calculate_alike maxiter ms ms' u v : rel ms ms' -> carried N s u v ->
  same_answer s T Q X (calculate z evmin w0 MAXE brentq m tol_norm tol_mull tol_im Hartree Bohr scc maxiter X ms u)
                      (calculate z' evmin' w0' MAXE brentq m tol_norm tol_mull tol_im Hartree Bohr scc maxiter Y ms' v).
Proof.
  intros R C. unfold calculate.
  assert (O : outcome_alike (get_states (fun dq => pass z evmin w0 tol_norm X (Some (h1_of X dq))) (pass z evmin w0 tol_norm X None) (charges MAXE brentq tol_mull X) m scc maxiter ms u)
     (get_states (fun dq => pass z' evmin' w0' tol_norm Y (Some (h1_of Y dq))) (pass z' evmin' w0' tol_norm Y None) (charges MAXE brentq tol_mull Y) m scc maxiter ms' v)).
  { unfold get_states. pose proof (sim_reset _ _ _ _ SIM ms ms' R) as R'. destruct scc; [apply loop_alike; assumption|].
    destruct maxiter as [|maxiter]; [split; [reflexivity|exact I]|].
    destruct (pass_alike s T Q X Y EQ PX z z' w0 w0' evmin evmin' RX RY tol_norm Ht None None) as (p & p' & -> & -> & A); [intros h E; discriminate|intros h E; discriminate|intros k i j l mm _ _ _ _ _ _ _; reflexivity|].
    destruct (charges_alike s T Q X Y EQ MAXE brentq tol_mull p p' A) as [[-> ->]|(o & o' & -> & -> & Co)]; [split; [reflexivity|exact I]|]. split; [reflexivity|split; [exact A|reflexivity]]. }
  destruct (get_states _ (pass z evmin w0 tol_norm X None) _ m scc maxiter ms u) as [o k], (get_states _ (pass z' evmin' w0' tol_norm Y None) _ m scc maxiter ms' v) as [o' k'].
  destruct O as [Ok O]. cbn [fst snd] in *. subst k'. destruct o as [p i| | |], o' as [p' i'| | |]; try contradiction; try exact I; [|reflexivity].
  destruct O as [A <-]. pose proof (finish_alike p p' A) as F. destruct (finish _ _ _ _ _ _ _ X p) as [x|], (finish _ _ _ _ _ _ _ Y p') as [y|]; try contradiction; [split; [exact F|split; reflexivity]|exact I].
Qed.
End Alike.

Lemma same_physics s T Q X Y z z' w0 w0' evmin evmin' MAXE brentq m tol_norm tol_mull tol_im Hartree Bohr scc maxiter ms u v :
  equivalent s T Q X Y -> proper X -> reliable z w0 X -> reliable z' w0' Y -> 0 <= tol_norm -> fresh (s_N X) m ms -> carried (s_N X) s u v ->
  same_answer s T Q X (calculate z evmin w0 MAXE brentq m tol_norm tol_mull tol_im Hartree Bohr scc maxiter X ms u)
                      (calculate z' evmin' w0' MAXE brentq m tol_norm tol_mull tol_im Hartree Bohr scc maxiter Y ms v).
Proof.
  intros EQ P RX RY Ht F C. destruct (fresh_simulates (s_N X) s m ms (q_perm _ _ _ _ _ EQ) F) as (rel & SIM & R).
  exact (calculate_alike s T Q X Y EQ P z z' w0 w0' evmin evmin' RX RY MAXE brentq tol_norm tol_mull tol_im Hartree Bohr Ht scc m rel SIM maxiter ms ms u v R C).
Qed.
