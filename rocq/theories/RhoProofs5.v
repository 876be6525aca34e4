From Coq Require Import Reals List Bool Arith Lra Lia Permutation.
From Verif Require Import Vec GeomModel GeomProofs SkModel SkSpec Cpx RhoModel RhoSpec RhoProofs RhoProofs2 RhoProofs3 RhoProofs4.
Import ListNotations.
Open Scope R_scope.

Lemma wf_atoms_total norb N nk o1 no wk S wf k a w : layout norb N o1 no -> normalised norb nk S wf -> (k < nk)%nat -> (a < norb)%nat ->
  rsum N (fun I => atom_wf_mulliken norb o1 no wk wf S I k a w) = if w then wk k else 1.
Proof.
  intros L Hn Hk Ha. unfold atom_wf_mulliken. rewrite rsum_scal.
  transitivity ((if w then wk k else 1) * rsum norb (waux norb wf S k a)); [f_equal; apply (atoms_sum norb N o1 no _ L)|].
  rewrite (waux_total norb nk S wf k a Hn Hk Ha). ring.
Qed.
Lemma atom_angmom norb nk o1 no wk rho S I : (0 < no I)%nat -> exists s p d,
  atom_all_angmom norb nk o1 no wk rho S I 0 = Some s /\ atom_all_angmom norb nk o1 no wk rho S I 1 = Some p /\
  atom_all_angmom norb nk o1 no wk rho S I 2 = Some d /\ s + p + d = atom_mulliken norb nk o1 no wk rho S I.
Proof. intros H. apply (angmom_sum (no I) (fun m => diag norb nk wk rho S (o1 I + m)%nat) H). Qed.
Lemma atom_wf_angmom norb o1 no wk wf S I k a w : (0 < no I)%nat -> exists s p d,
  atom_wf_all_angmom norb o1 no wk wf S I k a 0 w = Some s /\ atom_wf_all_angmom norb o1 no wk wf S I k a 1 w = Some p /\
  atom_wf_all_angmom norb o1 no wk wf S I k a 2 w = Some d /\ s + p + d = atom_wf_mulliken norb o1 no wk wf S I k a w.
Proof.
  intros H. destruct (angmom_sum (no I) (fun m => (if w then wk k else 1) * waux norb wf S k a (o1 I + m)%nat) H) as (s & p & d & A & B & C & D).
  exists s, p, d. repeat split; try assumption. rewrite D. unfold atom_wf_mulliken, atom_sum. rewrite rsum_scal. reflexivity.
Qed.
Lemma atom_from_states norb N nk o1 no wk wf f S I : layout norb N o1 no -> (I < N)%nat -> khermitian norb nk S ->
  atom_mulliken norb nk o1 no wk (krho norb wf f) S I = rsum nk (fun k => rsum norb (fun a => f k a * atom_wf_mulliken norb o1 no wk wf S I k a true)).
Proof.
  intros L HI H. unfold atom_mulliken, atom_wf_mulliken, atom_sum.
  transitivity (rsum (no I) (fun m => rsum nk (fun k => rsum norb (fun a => f k a * basis_wf_mulliken norb wk wf S (o1 I + m) k a true)))).
  - apply rsum_ext. intros m Hm. apply basis_from_states; [exact H|apply (owned_in norb N o1 no I m L HI Hm)].
  - rewrite rsum_swap. apply rsum_ext. intros k _. rewrite rsum_swap. apply rsum_ext. intros a _. rewrite <- !rsum_scal. apply rsum_ext. intros m _.
    unfold basis_wf_mulliken. reflexivity.
Qed.
Lemma sane_spec N dQ Z : sane N dQ Z = true <-> forall I, (I < N)%nat -> - Z I <= dQ I <= Z I.
Proof.
  unfold sane. rewrite forallb_forall. split.
  - intros H I HI. specialize (H I ltac:(apply in_seq; lia)). apply negb_true_iff, orb_false_iff in H. destruct H as [A B].
    apply ltb_false in A. apply ltb_false in B. lra.
  - intros H I HI. apply in_seq in HI. specialize (H I ltac:(lia)). apply negb_true_iff, orb_false_iff. split; apply ltb_false; lra.
Qed.
Lemma ebs_lost_sign : exists rho H0 tol, 0 < tol /\ snd (ebs_c 1 1 (fun _ => 1) rho H0) = -1 /\
  band_structure_energy 1 1 (fun _ => 1) tol rho H0 = Some (fst (ebs_c 1 1 (fun _ => 1) rho H0)).
Proof.
  exists (fun _ _ _ => (1, 0)), (fun _ _ _ => (0, -1)), (1/10). split; [lra|].
  assert (E : snd (ebs_c 1 1 (fun _ => 1) (fun _ _ _ => (1, 0)) (fun _ _ _ => (0, -1))) = -1) by (cbn; ring).
  split; [exact E|]. unfold band_structure_energy. rewrite E. rewrite (proj2 (ltb_true _ _)) by lra. reflexivity.
Qed.

(** ** two atoms with one orbital each, H2-like: overlap 7/25 *)
Definition x_o1 (I : nat) : nat := I.
Definition x_no (I : nat) : nat := 1%nat.
Definition x_S : kmatrix := fun _ i j => if (i =? j)%nat then c1 else rc (7/25).
Definition x_wf : nat -> nat -> nat -> cplx := fun _ a i => if (a =? 0)%nat then rc (5/8) else if (i =? 0)%nat then rc (5/6) else rc (- (5/6)).
Definition x_f : nat -> nat -> R := fun _ a => if (a =? 0)%nat then 2 else 0.
Definition x_H (s : R) : kmatrix := fun _ i j => if (i =? j)%nat then c0 else rc (- (1 + s)).
Definition x_wk (k : nat) : R := 1.

Lemma x_layout : layout 2 2 x_o1 x_no.
Proof. split; [|reflexivity]. intros [|[|I]] H; [reflexivity|reflexivity|lia]. Qed.
Ltac two i H := destruct i as [|[|i]]; [| |exfalso; lia].
Lemma x_S_herm : khermitian 2 1 x_S.
Proof. intros k Hk i j Hi Hj. two i Hi; two j Hj; apply cplx_eq; cbn; ring. Qed.
Lemma x_H_herm s : khermitian 2 1 (x_H s).
Proof. intros k Hk i j Hi Hj. two i Hi; two j Hj; apply cplx_eq; cbn; ring. Qed.
Lemma x_orth : orthonormal 2 1 x_S x_wf.
Proof. intros k a b Hk Ha Hb. two a Ha; two b Hb; apply cplx_eq; unfold bracket, csum; cbn; field. Qed.
Lemma x_norm : normalised 2 1 x_S x_wf.
Proof. intros k a Hk Ha. rewrite (x_orth k a a Hk Ha Ha), Nat.eqb_refl. reflexivity. Qed.
Lemma x_filling : filling 2 1 x_wk x_f = 2. Proof. unfold filling, x_wk, x_f; cbn. ring. Qed.
Lemma x_pop I : (I < 2)%nat -> atom_mulliken 2 1 x_o1 x_no x_wk (krho 2 x_wf x_f) x_S I = 1.
Proof. intros H. two I H; unfold atom_mulliken, atom_sum, diag, diag_k, krho, compute_rho, csum; cbn; unfold x_f, x_wk; cbn; field. Qed.
(** moving atom 0 changes the hopping and the interactions *)
Definition x_dH : kmatrix := fun _ i j => if (i =? j)%nat then c0 else if (i =? 0)%nat then rc (-1) else rc 1.
Definition x_dS : kmatrix := fun _ _ _ => c0.
Definition x_G (s : R) (J K : nat) : R := if (J =? K)%nat then 1 else /2 - s.
Definition x_P (s : R) (J K : nat) : R := if (J =? K)%nat then 0 else 1 - 2 * s.
Definition x_dG (J K : nat) : R := if (J =? K)%nat then 0 else if (J =? 0)%nat then 1 else -1.
Definition x_dP (J K : nat) : R := if (J =? K)%nat then 0 else if (J =? 0)%nat then 2 else -2.
Definition x_val (I : nat) : R := 0.
Definition x_e : nat -> nat -> R := fun _ a => if (a =? 0)%nat then 5/2 - 25/32 else 5/2 + 25/18.
Lemma x_dq I : (I < 2)%nat -> dq_states 2 1 x_o1 x_no x_val x_wk x_wf x_f x_S I = 1.
Proof. intros H. unfold dq_states, dq_of, x_val. rewrite <- (x_pop I H). unfold atom_mulliken. ring. Qed.
Lemma x_eps I : (I < 2)%nat -> eps_states 2 2 1 x_o1 x_no x_val x_wk x_wf x_f x_S (x_G 0) (x_P 0) I = 5/2.
Proof.
  intros H. unfold eps_states, epsilon. cbv zeta. cbn [rsum]. rewrite !x_dq by lia. two I H; unfold x_G, x_P; cbn; field.
Qed.
Lemma x_h1 mu nu : (mu < 2)%nat -> (nu < 2)%nat ->
  construct_h1 2 x_o1 x_no (eps_states 2 2 1 x_o1 x_no x_val x_wk x_wf x_f x_S (x_G 0) (x_P 0)) (fun _ => 0) mu nu = 5/2.
Proof.
  intros Hm Hn.
  rewrite (h1_average 2 2 x_o1 x_no _ _ mu nu mu nu x_layout Hm Hn); [|unfold belongs, x_o1, x_no; lia|unfold belongs, x_o1, x_no; lia|left; reflexivity].
  rewrite !x_eps by assumption. field.
Qed.
Lemma x_eigen k a : (k < 1)%nat -> (a < 2)%nat -> eigenstate 2 (x_H 0 k) (x_S k)
  (construct_h1 2 x_o1 x_no (eps_states 2 2 1 x_o1 x_no x_val x_wk x_wf x_f x_S (x_G 0) (x_P 0)) (fun _ => 0)) (x_wf k a) (x_e k a).
Proof.
  intros Hk Ha i Hi. unfold csum. cbn [rsum]. rewrite !(x_h1 i) by lia.
  two a Ha; two i Hi; apply cplx_eq; cbn; field.
Qed.
Lemma CD_ext (f g : R -> cplx) t x : (forall s, f s = g s) -> cderivative f t x -> cderivative g t x.
Proof. intros H [A B]. split; [apply (D_ext (fun s => fst (f s)))|apply (D_ext (fun s => snd (f s)))]; try assumption; intros s; rewrite H; reflexivity. Qed.
Lemma x_DH k : (k < 1)%nat -> matrix_derivative 2 (fun s => x_H s k) 0 (moved_matrix x_o1 x_no 0 (x_dH k)).
Proof.
  intros Hk i j Hi Hj. 
  assert (D : derivable_pt_lim (fun s => - (1 + s)) 0 (-1)).
  { eapply D_rew; [apply (derivable_pt_lim_opp (fun s => 1 + s)), (derivable_pt_lim_plus (fun _ => 1) (fun s => s)); [apply derivable_pt_lim_const|apply derivable_pt_lim_id]|ring]. }
  two i Hi; two j Hj; (split; cbn; [eapply D_rew; [first [exact D|apply derivable_pt_lim_const]|ring]|eapply D_rew; [apply derivable_pt_lim_const|ring]]).
Qed.
Lemma x_DS k : (k < 1)%nat -> matrix_derivative 2 (fun s => x_S k) 0 (moved_matrix x_o1 x_no 0 (x_dS k)).
Proof. intros Hk i j Hi Hj. eapply CD_eq; [apply CD_const|]. unfold moved_matrix, x_dS. apply cplx_eq; destruct (owns _ _ 0 i), (owns _ _ 0 j); cbn; ring. Qed.
Lemma D_lin c a : derivable_pt_lim (fun s => c - a * s) 0 (- a).
Proof. eapply D_rew; [apply (derivable_pt_lim_minus (fun _ => c) (fun s => a * s)); [apply derivable_pt_lim_const|apply D_scal; apply derivable_pt_lim_id]|ring]. Qed.
Lemma x_DG J K : (J < 2)%nat -> (K < 2)%nat -> derivable_pt_lim (fun s => x_G s J K) 0 (moved_gamma 0 x_dG J K).
Proof.
  intros HJ HK. assert (D : derivable_pt_lim (fun s => / 2 - s) 0 (-1)).
  { eapply D_ext; [|eapply D_rew; [apply (D_lin (/2) 1)|ring]]. intros; cbv beta; ring. }
  two J HJ; two K HK; unfold x_G, moved_gamma, x_dG; cbn; (eapply D_rew; [first [exact D|apply derivable_pt_lim_const]|ring]).
Qed.
Lemma x_DP J K : (J < 2)%nat -> (K < 2)%nat -> derivable_pt_lim (fun s => x_P s J K) 0 (moved_gamma 0 x_dP J K).
Proof.
  intros HJ HK. two J HJ; two K HK; unfold x_P, moved_gamma, x_dP; cbn; (eapply D_rew; [first [exact (D_lin 1 2)|apply derivable_pt_lim_const]|ring]).
Qed.
(** the hypotheses of the force theorem are met; the force is not zero *)
Example force_case :
  derivable_pt_lim (fun s => scc_energy 2 2 1 x_o1 x_no x_val x_wk x_wf x_f (x_H s) x_S (x_G s) (x_P s)) 0
    (- (band_structure_force 2 1 x_o1 x_no x_wk (dH_scc true (construct_h1 2 x_o1 x_no (eps_states 2 2 1 x_o1 x_no x_val x_wk x_wf x_f x_S (x_G 0) (x_P 0)) (fun _ => 0)) x_dH x_dS) x_dS (krho 2 x_wf x_f) (krhoe 2 x_wf x_f x_e) 0
        + gamma_force 2 true (dq_states 2 1 x_o1 x_no x_val x_wk x_wf x_f x_S) x_dG (fun J => rsum 2 (fun K => dq_states 2 1 x_o1 x_no x_val x_wk x_wf x_f x_S K * x_dP J K)) 0)).
Proof.
  apply (scc_force 2 2 1 x_o1 x_no x_val x_wk (fun _ => x_wf) x_f x_e x_H (fun _ => x_S) x_G x_P (fun _ _ _ => c0) x_dH x_dS x_dG x_dP 0).
  - exact x_layout.
  - lia.
  - intros s. apply x_H_herm.
  - intros _. exact x_S_herm.
  - intros _. exact x_norm.
  - intros J K HJ HK. unfold x_G, x_P. rewrite (Nat.eqb_sym K J). split; reflexivity.
  - intros k a _ _ i _. apply CD_const.
  - exact x_DH.
  - exact x_DS.
  - exact x_DG.
  - exact x_DP.
  - intros k a Hk Ha. apply x_eigen; assumption.
Qed.
Example force_value : gamma_force 2 true (dq_states 2 1 x_o1 x_no x_val x_wk x_wf x_f x_S) x_dG (fun J => rsum 2 (fun K => dq_states 2 1 x_o1 x_no x_val x_wk x_wf x_f x_S K * x_dP J K)) 0 = 3.
Proof. unfold gamma_force. cbn [rsum]. rewrite !x_dq by lia. cbn. ring. Qed.
Example bs_force_value : band_structure_force 2 1 x_o1 x_no x_wk (dH_scc false (fun _ _ => 0) x_dH x_dS) x_dS (krho 2 x_wf x_f) (krhoe 2 x_wf x_f x_e) 0 = 25/16.
Proof. unfold band_structure_force, fdiag, krho, krhoe, compute_rho, compute_rhoe, csum. cbn. unfold x_f, x_wk; cbn. field. Qed.

(** ** Mayer bond order of a complex state *)
Definition y_S : kmatrix := fun _ i j => if (i =? j)%nat then c1 else if (i =? 0)%nat then (0, 3/5) else (0, -3/5).
Definition y_wf : nat -> nat -> nat -> cplx := fun _ a i =>
  if (a =? 0)%nat then (if (i =? 0)%nat then rc (3/5) else rc (4/5)) else (if (i =? 0)%nat then (1, 9/20) else (-3/4, 3/5)).
Lemma y_S_herm : khermitian 2 1 y_S.
Proof. intros k Hk i j Hi Hj. two i Hi; two j Hj; apply cplx_eq; cbn; field. Qed.
Lemma y_orth : orthonormal 2 1 y_S y_wf.
Proof. intros k a b Hk Ha Hb. two a Ha; two b Hb; apply cplx_eq; unfold bracket, csum; cbn; field. Qed.
Lemma mayer_fails : exists wf f S, khermitian 2 1 S /\ orthonormal 2 1 S wf /\ (forall k a, f k a = 0 \/ f k a = 2) /\
  mayer 2 1 x_o1 x_no x_wk (krho 2 wf f) S 0 1 = None.
Proof.
  exists y_wf, x_f, y_S. split; [exact y_S_herm|]. split; [exact y_orth|]. split.
  { intros k a. unfold x_f. destruct (a =? 0)%nat; [right|left]; reflexivity. }
  unfold mayer. cbv zeta.
  assert (E : snd (mayer_c 2 1 x_o1 x_no x_wk (krho 2 y_wf x_f) y_S 0 1) = -1008/3125).
  { unfold mayer_c, atom_csum2, rhoS, krho, compute_rho, csum. cbn. unfold x_f, x_wk; cbn. field. }
  rewrite E. rewrite (proj2 (ltb_false _ _)); [reflexivity|]. 
  replace (-1008/3125) with (- (1008/3125)) by field. rewrite Rabs_Ropp, Rabs_right by lra. 
  apply Rle_trans with (/ 10); [|lra]. apply Rinv_le_contravar; lra.
Qed.
Example mayer_case : mayer 2 1 x_o1 x_no x_wk (krho 2 x_wf x_f) x_S 0 1 = Some 1.
Proof.
  unfold mayer. cbv zeta.
  assert (E : mayer_c 2 1 x_o1 x_no x_wk (krho 2 x_wf x_f) x_S 0 1 = (1, 0)).
  { unfold mayer_c, atom_csum2, rhoS, krho, compute_rho, csum. cbn. unfold x_f, x_wk; cbn. apply cplx_eq; cbn; field. }
  rewrite E. cbn [fst snd]. rewrite Rabs_R0. rewrite (proj2 (ltb_true _ _)); [reflexivity|]. apply Rinv_0_lt_compat. lra.
Qed.
Lemma atoms_mulliken_differs : exists wf f S val, khermitian 2 1 S /\ orthonormal 2 1 S wf /\ rsum 2 val = filling 2 1 x_wk f /\
  dq_of 2 1 x_o1 x_no val x_wk (krho 2 wf f) S 0 <> atom_mulliken 2 1 x_o1 x_no x_wk (krho 2 wf f) S 0.
Proof.
  exists x_wf, x_f, x_S, (fun _ => 1). split; [exact x_S_herm|]. split; [exact x_orth|]. split; [rewrite x_filling; cbn; ring|].
  unfold dq_of. fold (atom_mulliken 2 1 x_o1 x_no x_wk (krho 2 x_wf x_f) x_S 0). lra.
Qed.
(** ** cases *)
Example guess_case : rsum 2 (guess_dq 2 true 2 1 (fun I => if (I =? 0)%nat then -1/4 else -3/4) (fun I => if (I =? 0)%nat then 0 else -1)) = - 1 /\
  guess_dq 2 true 2 1 (fun I => if (I =? 0)%nat then -1/4 else -3/4) (fun I => if (I =? 0)%nat then 0 else -1) 0 = - 1 / 2.
Proof. unfold guess_dq; cbn. split; field. Qed.
Example angmom_case : exists lorbs, Permutation (lorbs 0%nat ++ lorbs 1%nat ++ lorbs 2%nat) (seq 0 3) /\ lorbs 0%nat <> [] /\ lorbs 1%nat <> [] /\ lorbs 2%nat <> [].
Proof.
  exists (fun l => match l with 0%nat => [2%nat] | 1%nat => [0%nat] | _ => [1%nat] end). cbn. repeat split; try discriminate.
  apply perm_trans with [0; 2; 1]%nat; [apply perm_swap|apply perm_skip, perm_swap].
Qed.
Example antisymmetric_case I J : (I < 2)%nat -> (J < 2)%nat -> x_dG I J + x_dP I J = - (x_dG J I + x_dP J I).
Proof. intros HI HJ. two I HI; two J HJ; unfold x_dG, x_dP; cbn; ring. Qed.
Example decomposition_case : rsum 2 (atom_and_bond 2 2 1 x_o1 x_no x_wk true (krho 2 x_wf x_f) (x_H 0) x_S (fun _ => -1/4) (fun _ => 1) (x_G 0) (fun I => 1) (fun _ => 1) (fun I J => if (I =? J)%nat then 0 else 3)) = 
  (- 25/16) + 3 + 5/2 + 1/2.
Proof.
  rewrite (decomposition 2 2 1 x_o1 x_no x_wk true _ (x_H 0) x_S _ _ (x_G 0) _ _ _ x_layout (fun k _ => rho_hermitian 2 (x_wf k) (x_f k)) x_S_herm).
  2:{ intros I J _ _. rewrite (Nat.eqb_sym J I). reflexivity. }
  unfold ebs_c, krho, compute_rho, csum, coulomb_energy, epsilon, x_G, pair_sum, x_wk, x_f. cbn. field.
Qed.
