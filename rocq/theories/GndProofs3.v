From Coq Require Import Reals ZArith String List Bool Arith Lia Lra.
From Verif Require Import Vec GeomModel GeomProofs UtilModel CoulModel MixModel OccModel PairModel PairSpec SkModel SkSpec Cpx RhoModel RhoSpec RhoProofs RhoProofs2 RhoProofs3 EigModel EigSpec InvModel InvSpec InvLin InvProofs2 BndProofs2 BndProofs4 GndSpec GndProofs GndProofs2.
Import ListNotations.
Open Scope R_scope.

Lemma finish_parts MAXE brentq tol_mull tol_im Hartree Bohr scc X p r : finish MAXE brentq tol_mull tol_im Hartree Bohr scc X p = Some r ->
  occupations MAXE brentq X p = Some (r_f r) /\ r_dq r = charges_of X (snd p) (r_f r) /\ r_ebs r = band_of X (snd p) (r_f r) /\
  r_ecoul r = coulomb_energy (s_N X) scc (r_dq r) (epsilon (s_N X) (s_G X) (s_phi X (r_dq r)) (r_dq r)).
Proof.
  destruct p as [[h e] wf]. cbn [snd]. unfold finish. destruct (occupations MAXE brentq X (h, e, wf)) as [f|] eqn:EO; [|discriminate].
  destruct (charges MAXE brentq tol_mull X (h, e, wf)) as [dq|] eqn:EC; [|discriminate]. destruct (negb _); [discriminate|].
  destruct (band_structure_energy _ _ _ _ _ _) as [ebs|] eqn:EB; [|discriminate]. destruct (s_erep X); [|discriminate]. intros E. injection E as <-. cbn [r_f r_dq r_ebs r_ecoul].
  split; [reflexivity|]. split; [|split; [|reflexivity]].
  - unfold charges in EC. rewrite EO in EC. cbn [snd] in EC. unfold mulliken in EC. destruct (ltb _ _); [discriminate|]. injection EC as <-. reflexivity.
  - unfold band_structure_energy in EB. destruct (ltb _ _); [|discriminate]. injection EB as <-. transitivity (fst (ebs_c (s_norb X) (s_nk X) (s_wk X) (krho (s_norb X) wf f) (s_H0 X))); [reflexivity|]. rewrite ebs_states. reflexivity.
Qed.
(** ** without self-consistent charges *)
Lemma calculate_pass z evmin w0 MAXE brentq m tol_norm tol_mull tol_im Hartree Bohr maxiter X s u r it n :
  calculate z evmin w0 MAXE brentq m tol_norm tol_mull tol_im Hartree Bohr false maxiter X s u = Solved r it n ->
  exists p, pass z evmin w0 tol_norm X None = Some p /\ finish MAXE brentq tol_mull tol_im Hartree Bohr false X p = Some r.
Proof.
  unfold calculate. destruct (get_states _ _ _ m false maxiter s u) as [[p it0| | |] cnt] eqn:GS; try discriminate.
  destruct (finish MAXE brentq tol_mull tol_im Hartree Bohr false X p) as [r'|] eqn:EF; [|discriminate]. intros E. injection E as -> _ _.
  exists p. split; [|exact EF]. unfold get_states in GS. destruct maxiter; [discriminate|]. destruct (pass z evmin w0 tol_norm X None) as [q|]; [|discriminate]. destruct (charges _ _ _ _ q); [|discriminate]. congruence.
Qed.
Lemma total_none X k v n : bracket n (total_h X (fun _ _ => 0) k) v v = bracket n (s_H0 X k) v v.
Proof. unfold bracket, total_h. apply csum_ext'. intros i _. apply csum_ext'. intros j _. f_equal. f_equal. apply cplx_eq; cbn [cadd cscale fst snd]; ring. Qed.
Lemma band_min z evmin w0 MAXE brentq m tol_norm tol_mull tol_im Hartree Bohr maxiter X s u r it n : 0 <= tol_norm -> 0 < s_width X -> proper X -> reliable z w0 X ->
  (forall k, (k < s_nk X)%nat -> 0 <= s_wk X k) ->
  calculate z evmin w0 MAXE brentq m tol_norm tol_mull tol_im Hartree Bohr false maxiter X s u = Solved r it n ->
  exists mu, forall V g, electrons_in X V g ->
  electronic_free_energy X r <= free_of X V g 0 + mu * (filling (s_norb X) (s_nk X) (s_wk X) (r_f r) - filling (s_norb X) (s_nk X) (s_wk X) g) + emptied MAXE X (r_f r).
Proof.
  intros Ht HT PX RX Hw EC. apply calculate_pass in EC. destruct EC as (p & EP & EF').
  destruct (finish_parts _ _ _ _ _ _ _ _ _ _ EF') as (EO & _ & EB & ECo).
  destruct (states_min MAXE brentq tol_norm z evmin w0 X None p (r_f r) Ht HT PX RX ltac:(discriminate) Hw EP EO) as (_ & Eh & _ & mu & M). exists mu. intros V g EV. specialize (M V g EV). cbv zeta in M. rewrite Eh in M.
  unfold electronic_free_energy, free_of. rewrite EB, ECo. unfold coulomb_energy, band_of.
  rewrite (state_sum_ext _ _ _ g _ (fun k a => fst (bracket (s_norb X) (s_H0 X k) (V k a) (V k a)))) in M by (intros; rewrite total_none; reflexivity).
  rewrite (state_sum_ext _ _ _ (r_f r) _ (fun k a => fst (bracket (s_norb X) (s_H0 X k) (snd p k a) (snd p k a)))) in M by (intros; rewrite total_none; reflexivity). lra.
Qed.
(** the result is itself one of the competitors *)
Lemma band_attained z evmin w0 MAXE brentq m tol_norm tol_mull tol_im Hartree Bohr maxiter X s u r it n : 0 <= tol_norm -> 0 < s_width X -> proper X -> reliable z w0 X ->
  (forall k, (k < s_nk X)%nat -> 0 <= s_wk X k) ->
  calculate z evmin w0 MAXE brentq m tol_norm tol_mull tol_im Hartree Bohr false maxiter X s u = Solved r it n ->
  exists V, electrons_in X V (r_f r) /\ electronic_free_energy X r = free_of X V (r_f r) 0.
Proof.
  intros Ht HT PX RX Hw EC. apply calculate_pass in EC. destruct EC as (p & EP & EF').
  destruct (finish_parts _ _ _ _ _ _ _ _ _ _ EF') as (EO & _ & EB & ECo). exists (snd p).
  destruct (states_min MAXE brentq tol_norm z evmin w0 X None p (r_f r) Ht HT PX RX ltac:(discriminate) Hw EP EO) as (O & _ & B & _).
  split; [split; [exact O|exact B]|]. unfold electronic_free_energy, free_of. rewrite EB, ECo. unfold coulomb_energy. reflexivity.
Qed.

(** ** with self-consistent charges *)
Lemma shifted X q V f : layout (s_norb X) (s_N X) (s_o1 X) (s_no X) -> khermitian (s_norb X) (s_nk X) (s_S X) -> no_potential X ->
  state_sum (s_norb X) (s_nk X) (s_wk X) f (fun k a => fst (bracket (s_norb X) (total_h X (h1_of X q) k) (V k a) (V k a)))
  = band_of X V f + rsum (s_N X) (fun I => epsilon (s_N X) (s_G X) (s_phi X q) q I * (charges_of X V f I + s_val X I)).
Proof.
  intros L HS NE. set (eps := epsilon (s_N X) (s_G X) (s_phi X q) q).
  rewrite (rsum_ext (s_N X) _ (fun I => eps I * atom_mulliken (s_norb X) (s_nk X) (s_o1 X) (s_no X) (s_wk X) (krho (s_norb X) V f) (s_S X) I)).
  2:{ intros I _. unfold charges_of, dq_states, dq_of, atom_mulliken. ring. }
  rewrite <- (shift_energy (s_norb X) (s_N X) (s_nk X) (s_o1 X) (s_no X) (s_wk X) V f (s_S X) eps L HS). unfold band_of. rewrite <- state_sum_plus.
  apply state_sum_ext. intros k a Hk Ha. unfold total_h. rewrite bracket_add, fst_add. f_equal. f_equal. unfold bracket. apply csum_ext'. intros i Hi. apply csum_ext'. intros j Hj.
  unfold h1_of. rewrite (no_ext (s_N X) (s_o1 X) (s_no X) _ (s_ext X) i j NE). reflexivity.
Qed.
Lemma coulomb_shift N K q q' : (forall I J, (I < N)%nat -> (J < N)%nat -> K I J = K J I) ->
  coulomb_of N K q' = coulomb_of N K q + rsum N (fun I => (q' I - q I) * rsum N (fun J => K I J * q J)) + coulomb_of N K (fun I => q' I - q I).
Proof.
  intros Sy. unfold coulomb_of.
  assert (E : rsum N (fun I => (q' I - q I) * rsum N (fun J => K I J * q J)) = rsum N (fun I => q I * rsum N (fun J => K I J * (q' J - q J)))).
  { rewrite (rsum_ext N (fun I => (q' I - q I) * rsum N (fun J => K I J * q J)) (fun I => rsum N (fun J => (q' I - q I) * (K I J * q J)))) by (intros; rewrite rsum_scal; reflexivity).
    rewrite (rsum_ext N (fun I => q I * rsum N (fun J => K I J * (q' J - q J))) (fun I => rsum N (fun J => q I * (K I J * (q' J - q J))))) by (intros; rewrite rsum_scal; reflexivity).
    rewrite rsum_swap. apply rsum_ext. intros I HI. apply rsum_ext. intros J HJ. rewrite (Sy J I HJ HI). ring. }
  assert (H : rsum N (fun I => rsum N (fun J => q' I * K I J * q' J)) = rsum N (fun I => rsum N (fun J => q I * K I J * q J)) + rsum N (fun I => (q' I - q I) * rsum N (fun J => K I J * q J)) + rsum N (fun I => q I * rsum N (fun J => K I J * (q' J - q J))) + rsum N (fun I => rsum N (fun J => (q' I - q I) * K I J * (q' J - q J)))).
  { rewrite <- !rsum_plus. apply rsum_ext. intros I _. rewrite <- !rsum_scal, <- !rsum_plus. apply rsum_ext. intros J _. ring. }
  rewrite H, <- E. lra.
Qed.
Lemma coulomb_is X K q : interacts_by X K -> coulomb_energy (s_N X) true q (epsilon (s_N X) (s_G X) (s_phi X q) q) = coulomb_of (s_N X) K q.
Proof. intros [EK _]. unfold coulomb_energy, coulomb_of. f_equal. apply rsum_ext. intros I HI. rewrite (EK q I HI), <- rsum_scal. apply rsum_ext. intros J _. ring. Qed.
Lemma charge_sum X V f : layout (s_norb X) (s_N X) (s_o1 X) (s_no X) -> orthonormal (s_norb X) (s_nk X) (s_S X) V ->
  rsum (s_N X) (charges_of X V f) = filling (s_norb X) (s_nk X) (s_wk X) f - rsum (s_N X) (s_val X).
Proof.
  intros L O. rewrite (rsum_ext (s_N X) _ (fun I => atom_mulliken (s_norb X) (s_nk X) (s_o1 X) (s_no X) (s_wk X) (krho (s_norb X) V f) (s_S X) I - s_val X I)) by reflexivity.
  rewrite rsum_minus. f_equal. apply (atoms_total (s_norb X) (s_N X) (s_nk X) (s_o1 X) (s_no X) (s_wk X) V f (s_S X) L). intros k a Hk Ha. rewrite (O k a a Hk Ha Ha), Nat.eqb_refl. reflexivity.
Qed.
Lemma scc_min z evmin w0 MAXE brentq tol_norm tol_mull tol_im Hartree Bohr X K q r : 0 <= tol_norm -> 0 < s_width X -> proper X -> layout (s_norb X) (s_N X) (s_o1 X) (s_no X) -> reliable z w0 X ->
  (forall k, (k < s_nk X)%nat -> 0 <= s_wk X k) -> no_potential X -> interacts_by X K ->
  computed_from z evmin w0 MAXE brentq tol_norm tol_mull tol_im Hartree Bohr X q r ->
  (exists W, electrons_in X W (r_f r) /\ r_dq r = charges_of X W (r_f r) /\ electronic_free_energy X r = free_of X W (r_f r) (coulomb_of (s_N X) K (r_dq r))) /\
  exists mu, forall V g, electrons_in X V g ->
  electronic_free_energy X r + coulomb_of (s_N X) K (fun I => charges_of X V g I - r_dq r I)
  <= free_of X V g (coulomb_of (s_N X) K (charges_of X V g)) + mu * (filling (s_norb X) (s_nk X) (s_wk X) (r_f r) - filling (s_norb X) (s_nk X) (s_wk X) g)
     + mismatch (s_N X) K q (r_dq r) (charges_of X V g) + emptied MAXE X (r_f r).
Proof.
  intros Ht HT PX L RX Hw NE IK (p & EP & EF'). pose proof IK as [EK SK].
  destruct (finish_parts _ _ _ _ _ _ _ _ _ _ EF') as (EO & Edq & EB & ECo).
  destruct (states_min MAXE brentq tol_norm z evmin w0 X (Some (h1_of X q)) p (r_f r) Ht HT PX RX) as (Ow & Eh & Bf & mu & M); try assumption.
  { intros h E. replace h with (h1_of X q) by congruence. apply h1_sym. }
  rewrite (coulomb_is X K (r_dq r) IK) in ECo. split.
  { exists (snd p). split; [split; assumption|]. split; [exact Edq|]. unfold electronic_free_energy, free_of. rewrite EB, ECo. reflexivity. }
  exists mu. intros V g EV. specialize (M V g EV). cbv zeta in M. rewrite Eh in M. rewrite !shifted in M by (try assumption; exact (proj2 PX)). rewrite <- Edq in M.
  unfold electronic_free_energy, free_of. rewrite EB, ECo.
  rewrite (coulomb_shift (s_N X) K (r_dq r) (charges_of X V g) SK).
  assert (MM : mismatch (s_N X) K q (r_dq r) (charges_of X V g) = rsum (s_N X) (fun I => epsilon (s_N X) (s_G X) (s_phi X q) q I * (charges_of X V g I + s_val X I)) - rsum (s_N X) (fun I => epsilon (s_N X) (s_G X) (s_phi X q) q I * (r_dq r I + s_val X I))
     - rsum (s_N X) (fun I => (charges_of X V g I - r_dq r I) * rsum (s_N X) (fun J => K I J * r_dq r J))).
  { unfold mismatch. rewrite <- !rsum_minus. apply rsum_ext. intros I HI. rewrite (EK q I HI).
    rewrite (rsum_ext (s_N X) (fun J => K I J * (q J - r_dq r J)) (fun J => K I J * q J - K I J * r_dq r J)) by (intros; ring). rewrite rsum_minus. ring. }
  rewrite MM. lra.
Qed.
