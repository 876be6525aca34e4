(** Forces when the occupations change with the geometry. *)
From Coq Require Import Reals List Bool Arith Lia Lra.
From Verif Require Import Vec GeomModel GeomProofs PairProofs SkModel SkSpec Cpx OccModel RhoModel RhoSpec RhoProofs RhoProofs2 RhoProofs3.
Import ListNotations.
Open Scope R_scope.

Lemma D_state_sum_occ norb nk wk (f : R -> nat -> nat -> R) (x : R -> nat -> nat -> R) t f' x' :
  (forall k a, (k < nk)%nat -> (a < norb)%nat -> derivable_pt_lim (fun s => f s k a) t (f' k a)) ->
  (forall k a, (k < nk)%nat -> (a < norb)%nat -> derivable_pt_lim (fun s => x s k a) t (x' k a)) ->
  derivable_pt_lim (fun s => state_sum norb nk wk (f s) (x s)) t (state_sum norb nk wk (f t) x' + state_sum norb nk wk f' (x t)).
Proof.
  intros Hf H. unfold state_sum. eapply D_rew.
  - apply (D_rsum nk (fun k s => wk k * rsum norb (fun a => f s k a * x s k a))). intros k Hk.
    apply D_scal. apply (D_rsum norb (fun a s => f s k a * x s k a)). intros a Ha. apply (derivable_pt_lim_mult (fun s => f s k a) (fun s => x s k a)); [apply Hf|apply H]; assumption.
  - rewrite <- rsum_plus. apply rsum_ext. intros k _. cbv beta. rewrite rsum_plus. ring.
Qed.
Lemma bracket_energy norb H S h1 v e : eigenstate norb H S h1 v e -> bracket norb S v v = c1 ->
  fst (bracket norb (fun i j => cadd (H i j) (cscale (h1 i j) (S i j))) v v) = e.
Proof. intros E N. rewrite (bracket_eigen norb H S h1 v v e E), N. cbn [cscale c1 fst]. ring. Qed.
Lemma D_frozen_occ norb nk wk (wf : R -> nat -> nat -> nat -> cplx) (f : R -> nat -> nat -> R) f' e (H0 S : R -> kmatrix) h1 H' S' wf' t :
  (forall i j, h1 i j = h1 j i) -> khermitian norb nk (H0 t) -> khermitian norb nk (S t) -> (forall s, normalised norb nk (S s) (wf s)) ->
  (forall k a, (k < nk)%nat -> (a < norb)%nat -> vector_derivative norb (fun s => wf s k a) t (wf' k a)) ->
  (forall k a, (k < nk)%nat -> (a < norb)%nat -> derivable_pt_lim (fun s => f s k a) t (f' k a)) ->
  (forall k, (k < nk)%nat -> matrix_derivative norb (fun s => H0 s k) t (H' k)) ->
  (forall k, (k < nk)%nat -> matrix_derivative norb (fun s => S s k) t (S' k)) ->
  (forall k a, (k < nk)%nat -> (a < norb)%nat -> eigenstate norb (H0 t k) (S t k) h1 (wf t k a) (e k a)) ->
  derivable_pt_lim (fun s => state_sum norb nk wk (f s) (fun k a => fst (bracket norb (fun i j => cadd (H0 s k i j) (cscale (h1 i j) (S s k i j))) (wf s k a) (wf s k a)))) t
    (state_sum norb nk wk (f t) (fun k a => fst (bracket norb (fun i j => cadd (H' k i j) (cscale (h1 i j) (S' k i j))) (wf t k a) (wf t k a))
       - e k a * fst (bracket norb (S' k) (wf t k a) (wf t k a))) + state_sum norb nk wk f' e).
Proof.
  intros Hh HH HS Hn Dw Df DH DS HE. eapply D_rew.
  - apply (D_state_sum_occ norb nk wk f (fun s k a => fst (bracket norb (fun i j => cadd (H0 s k i j) (cscale (h1 i j) (S s k i j))) (wf s k a) (wf s k a))) t f'
      (fun k a => fst (bracket norb (fun i j => cadd (H' k i j) (cscale (h1 i j) (S' k i j))) (wf t k a) (wf t k a)) - e k a * fst (bracket norb (S' k) (wf t k a) (wf t k a))) Df).
    intros k a Hk Ha.
    assert (K := hellmann_feynman norb (fun s => H0 s k) (fun s => S s k) h1 (fun s => wf s k a) t (H' k) (S' k) (wf' k a) (e k a)
       (HH k Hk) (HS k Hk) Hh (DH k Hk) (DS k Hk) (Dw k a Hk Ha) (fun s => Hn s k a Hk Ha) (HE k a Hk Ha)).
    apply CD_fst in K. eapply D_rew; [exact K|]. cbn [csub cadd copp cscale fst]. ring.
  - f_equal. apply state_sum_ext. intros k a Hk Ha. apply bracket_energy; [apply HE; assumption|apply Hn; assumption].
Qed.
Lemma CD_rscal (g : R -> R) f t g' x : derivable_pt_lim g t g' -> cderivative f t x -> cderivative (fun s => cscale (g s) (f s)) t (cadd (cscale g' (f t)) (cscale (g t) x)).
Proof. intros Hg [A B]. split; cbn [cscale cadd fst snd]; [apply (derivable_pt_lim_mult g (fun s => fst (f s)))|apply (derivable_pt_lim_mult g (fun s => snd (f s)))]; assumption. Qed.
Lemma D_population_occ norb nk o1 no wk (wf : R -> nat -> nat -> nat -> cplx) (f : R -> nat -> nat -> R) (S : R -> kmatrix) t wf' f' S' I :
  (forall m, (m < no I)%nat -> (o1 I + m < norb)%nat) ->
  (forall k a, (k < nk)%nat -> (a < norb)%nat -> vector_derivative norb (fun s => wf s k a) t (wf' k a)) ->
  (forall k a, (k < nk)%nat -> (a < norb)%nat -> derivable_pt_lim (fun s => f s k a) t (f' k a)) ->
  (forall k, (k < nk)%nat -> matrix_derivative norb (fun s => S s k) t (S' k)) ->
  exists d, derivable_pt_lim (fun s => atom_mulliken norb nk o1 no wk (krho norb (wf s) (f s)) (S s) I) t d.
Proof.
  intros HI Dw Df DS. eexists. unfold atom_mulliken, atom_sum, diag.
  apply (D_rsum (no I) (fun m s => rsum nk (fun k => wk k * diag_k norb (krho norb (wf s) (f s) k) (S s k) (o1 I + m)%nat))). intros m Hm.
  apply (D_rsum nk (fun k s => wk k * diag_k norb (krho norb (wf s) (f s) k) (S s k) (o1 I + m)%nat)). intros k Hk. apply D_scal.
  unfold diag_k. refine (CD_fst (fun s => csum norb (fun j => cmul (krho norb (wf s) (f s) k (o1 I + m)%nat j) (S s k j (o1 I + m)%nat))) t _ _).
  apply (CD_sum norb (fun j s => cmul (krho norb (wf s) (f s) k (o1 I + m)%nat j) (S s k j (o1 I + m)%nat))). intros j Hj.
  apply (CD_mul (fun s => krho norb (wf s) (f s) k (o1 I + m)%nat j) (fun s => S s k j (o1 I + m)%nat)).
  2:{ apply (DS k Hk); [exact Hj|apply HI; exact Hm]. }
  unfold krho, compute_rho. apply (CD_sum norb (fun a s => cmul (wf s k a (o1 I + m)%nat) (cscale (f s k a) (cconj (wf s k a j))))). intros a Ha.
  apply (CD_mul (fun s => wf s k a (o1 I + m)%nat) (fun s => cscale (f s k a) (cconj (wf s k a j)))).
  - apply (Dw k a Hk Ha). apply HI. exact Hm.
  - eapply (CD_rscal (fun s => f s k a) (fun s => cconj (wf s k a j)) t); [exact (Df k a Hk Ha)|]. apply (CD_conj (fun s => wf s k a j)). apply (Dw k a Hk Ha). exact Hj.
Qed.
Lemma scc_force_occ norb N nk o1 no val wk (wf : R -> nat -> nat -> nat -> cplx) (f : R -> nat -> nat -> R) f' e (H0 S : R -> kmatrix) (G P : R -> nat -> nat -> R) ext wf' dH0 dS dG dP I :
  layout norb N o1 no -> (I < N)%nat ->
  (forall s, khermitian norb nk (H0 s)) -> (forall s, khermitian norb nk (S s)) -> (forall s, normalised norb nk (S s) (wf s)) ->
  (forall J K, (J < N)%nat -> (K < N)%nat -> G 0 J K = G 0 K J /\ P 0 J K = P 0 K J) -> ((forall J, (J < N)%nat -> ext J = 0) \/ exists J, (J < N)%nat /\ / 10 ^ 12 < Rabs (ext J)) ->
  (forall k a, (k < nk)%nat -> (a < norb)%nat -> vector_derivative norb (fun s => wf s k a) 0 (wf' k a)) ->
  (forall k a, (k < nk)%nat -> (a < norb)%nat -> derivable_pt_lim (fun s => f s k a) 0 (f' k a)) ->
  (forall k, (k < nk)%nat -> matrix_derivative norb (fun s => H0 s k) 0 (moved_matrix o1 no I (dH0 k))) ->
  (forall k, (k < nk)%nat -> matrix_derivative norb (fun s => S s k) 0 (moved_matrix o1 no I (dS k))) ->
  (forall J K, (J < N)%nat -> (K < N)%nat -> derivable_pt_lim (fun s => G s J K) 0 (moved_gamma I dG J K)) ->
  (forall J K, (J < N)%nat -> (K < N)%nat -> derivable_pt_lim (fun s => P s J K) 0 (moved_gamma I dP J K)) ->
  let dq := dq_states norb nk o1 no val wk (wf 0) (f 0) (S 0) in
  let h1 := construct_h1 N o1 no (eps_states norb N nk o1 no val wk (wf 0) (f 0) (S 0) (G 0) (P 0)) ext in
  (forall k a, (k < nk)%nat -> (a < norb)%nat -> eigenstate norb (H0 0 k) (S 0 k) h1 (wf 0 k a) (e k a)) ->
  derivable_pt_lim (fun s => scc_energy norb N nk o1 no val wk (wf s) (f s) (H0 s) (S s) (G s) (P s)
      - rsum N (fun J => ext J * atom_mulliken norb nk o1 no wk (krho norb (wf s) (f s)) (S s) J)) 0
    (- (band_structure_force norb nk o1 no wk (dH_scc true h1 dH0 dS) dS (krho norb (wf 0) (f 0)) (krhoe norb (wf 0) (f 0) e) I
        + gamma_force N true dq dG (fun J => rsum N (fun K => dq K * dP J K)) I) + state_sum norb nk wk f' e).
Proof.
  intros L HI HH HS Hn Hsym Hext Dw Df DH DS DG DP dq h1 HE.
  set (eps := eps_states norb N nk o1 no val wk (wf 0) (f 0) (S 0) (G 0) (P 0)) in *.
  (* populations *)
  set (q := fun s J => dq_states norb nk o1 no val wk (wf s) (f s) (S s) J).
  assert (DQ : forall n, (n <= N)%nat -> exists q', forall J, (J < n)%nat -> derivable_pt_lim (fun s => atom_mulliken norb nk o1 no wk (krho norb (wf s) (f s)) (S s) J) 0 (q' J)).
  { induction n as [|n IH]; intros Hle; [exists (fun _ => 0); intros; lia|].
    destruct (IH ltac:(lia)) as [q' Hq]. 
    destruct (D_population_occ norb nk o1 no wk wf f S 0 wf' f' (fun k => moved_matrix o1 no I (dS k)) n) as [d Hd]; try assumption.
    { intros m Hm. apply (owned_in norb N o1 no n m L); [lia|exact Hm]. }
    exists (fun J => if (J =? n)%nat then d else q' J). intros J HJ. destruct (Nat.eqb_spec J n) as [->|Hne]; [exact Hd|apply Hq; lia]. }
  destruct (DQ N ltac:(lia)) as [q' Hq'].
  assert (Hq : forall J, (J < N)%nat -> derivable_pt_lim (fun s => q s J) 0 (q' J)).
  { intros J HJ. unfold q, dq_states, dq_of. eapply D_rew.
    - apply (derivable_pt_lim_minus (fun s => atom_sum o1 no (diag norb nk wk (krho norb (wf s) (f s)) (S s)) J) (fun _ => val J)); [apply Hq'; exact HJ|apply derivable_pt_lim_const].
    - ring. }
  (* frozen potential *)
  assert (F := D_frozen_occ norb nk wk wf f f' e H0 S h1 (fun k => moved_matrix o1 no I (dH0 k)) (fun k => moved_matrix o1 no I (dS k)) wf' 0
     (fun i j => h1_sym N o1 no eps ext i j) (HH 0) (HS 0) Hn Dw Df DH DS HE).
  assert (FE : forall s, state_sum norb nk wk (f s) (fun k a => fst (bracket norb (fun i j => cadd (H0 s k i j) (cscale (h1 i j) (S s k i j))) (wf s k a) (wf s k a)))
     = fst (ebs_c norb nk wk (krho norb (wf s) (f s)) (H0 s)) + rsum N (fun J => (eps J - ext J) * atom_mulliken norb nk o1 no wk (krho norb (wf s) (f s)) (S s) J)).
  { intros s. rewrite <- (shift_energy norb N nk o1 no wk (wf s) (f s) (S s) (fun J => eps J - ext J) L (HS s)).
    rewrite ebs_states. change (fst (csum nk (fun k => cscale (wk k) (csum norb (fun a => cscale (f s k a) (bracket norb (H0 s k) (wf s k a) (wf s k a)))))))
      with (state_sum norb nk wk (f s) (fun k a => fst (bracket norb (H0 s k) (wf s k a) (wf s k a)))).
    rewrite <- state_sum_plus. apply state_sum_ext. intros k a Hk Ha. rewrite bracket_add, fst_add. f_equal. f_equal.
    unfold bracket. apply csum_ext'; intros i _. apply csum_ext'; intros j _. unfold h1. rewrite (with_ext N o1 no eps ext i j Hext). reflexivity. }
  assert (D1 : derivable_pt_lim (fun s => fst (ebs_c norb nk wk (krho norb (wf s) (f s)) (H0 s))) 0
     (state_sum norb nk wk (f 0) (fun k a => fst (bracket norb (moved_matrix o1 no I (dH_scc true h1 dH0 dS k)) (wf 0 k a) (wf 0 k a))
       - e k a * fst (bracket norb (moved_matrix o1 no I (dS k)) (wf 0 k a) (wf 0 k a))) + state_sum norb nk wk f' e - rsum N (fun J => (eps J - ext J) * q' J))).
  { eapply D_ext; [|eapply D_rew].
    2:{ apply (derivable_pt_lim_minus _ (fun s => rsum N (fun J => (eps J - ext J) * atom_mulliken norb nk o1 no wk (krho norb (wf s) (f s)) (S s) J)) _ _ (rsum N (fun J => (eps J - ext J) * q' J)) F).
        apply (D_rsum N (fun J s => (eps J - ext J) * atom_mulliken norb nk o1 no wk (krho norb (wf s) (f s)) (S s) J)). intros J HJ. apply D_scal. apply Hq'. exact HJ. }
    - intros s. unfold minus_fct. rewrite FE. ring.
    - f_equal. f_equal. apply state_sum_ext. intros k a _ _. unfold h1. rewrite moved_scc. reflexivity. }
  (* Coulomb energy *)
  assert (D2 := D_quadratic N q (fun s J K => G s J K + P s J K) 0 q' (fun J K => moved_gamma I dG J K + moved_gamma I dP J K) Hq).
  specialize (D2 (fun J K HJ HK => derivable_pt_lim_plus (fun s => G s J K) (fun s => P s J K) _ _ _ (DG J K HJ HK) (DP J K HJ HK))).
  cbv beta in D2. specialize (D2 (fun J K HJ HK => f_equal2 Rplus (proj1 (Hsym J K HJ HK)) (proj2 (Hsym J K HJ HK)))).
  assert (Q2 : forall s, / 2 * rsum N (fun J => q s J * rsum N (fun K => (G s J K + P s J K) * q s K)) =
     coulomb_energy N true (dq_states norb nk o1 no val wk (wf s) (f s) (S s)) (eps_states norb N nk o1 no val wk (wf s) (f s) (S s) (G s) (P s))).
  { intros s. unfold coulomb_energy, eps_states, epsilon. cbv zeta. f_equal. apply rsum_ext. intros J _. unfold q. f_equal.
    rewrite <- rsum_plus. apply rsum_ext. intros; ring. }
  assert (D3 : derivable_pt_lim (fun s => rsum N (fun J => ext J * atom_mulliken norb nk o1 no wk (krho norb (wf s) (f s)) (S s) J)) 0 (rsum N (fun J => ext J * q' J))).
  { apply (D_rsum N (fun J s => ext J * atom_mulliken norb nk o1 no wk (krho norb (wf s) (f s)) (S s) J)). intros J HJ. apply D_scal. apply Hq'. exact HJ. }
  unfold scc_energy. eapply D_rew.
  - refine (derivable_pt_lim_minus _ (fun s => rsum N (fun J => ext J * atom_mulliken norb nk o1 no wk (krho norb (wf s) (f s)) (S s) J)) 0 _ _ _ D3).
    apply (derivable_pt_lim_plus (fun s => fst (ebs_c norb nk wk (krho norb (wf s) (f s)) (H0 s)))
      (fun s => coulomb_energy N true (dq_states norb nk o1 no val wk (wf s) (f s) (S s)) (eps_states norb N nk o1 no val wk (wf s) (f s) (S s) (G s) (P s))) 0 _ _ D1 (D_ext _ _ _ _ Q2 D2)).
  - rewrite (force_states norb N nk o1 no wk (wf 0) (f 0) e I _ _ L HI).
    assert (E1 : rsum N (fun J => rsum N (fun K => (G 0 J K + P 0 J K) * q 0 K) * q' J) = rsum N (fun J => eps J * q' J)).
    { apply rsum_ext. intros J _. f_equal. unfold eps, eps_states, epsilon. cbv zeta. rewrite <- rsum_plus. apply rsum_ext. intros K _. unfold q. ring. }
    rewrite E1.
    assert (E2 : / 2 * rsum N (fun J => q 0 J * rsum N (fun K => (moved_gamma I dG J K + moved_gamma I dP J K) * q 0 K)) =
       - gamma_force N true dq dG (fun J => rsum N (fun K => dq K * dP J K)) I).
    { unfold gamma_force. transitivity (/ 2 * rsum N (fun J => q 0 J * rsum N (fun K => moved_gamma I dG J K * q 0 K)) + / 2 * rsum N (fun J => q 0 J * rsum N (fun K => moved_gamma I dP J K * q 0 K))).
      - rewrite <- Rmult_plus_distr_l, <- rsum_plus. f_equal. apply rsum_ext. intros J _. rewrite <- Rmult_plus_distr_l, <- rsum_plus. f_equal. apply rsum_ext. intros; ring.
      - rewrite !(gamma_moved N (q 0) _ I HI). unfold dq, q. ring. }
    assert (E3 : rsum N (fun J => (eps J - ext J) * q' J) = rsum N (fun J => eps J * q' J) - rsum N (fun J => ext J * q' J)).
    { rewrite <- rsum_minus. apply rsum_ext. intros; ring. }
    rewrite E2, E3. ring.
Qed.
Lemma scc_force_occ0 norb N nk o1 no val wk (wf : R -> nat -> nat -> nat -> cplx) (f : R -> nat -> nat -> R) f' e (H0 S : R -> kmatrix) (G P : R -> nat -> nat -> R) wf' dH0 dS dG dP I :
  layout norb N o1 no -> (I < N)%nat ->
  (forall s, khermitian norb nk (H0 s)) -> (forall s, khermitian norb nk (S s)) -> (forall s, normalised norb nk (S s) (wf s)) ->
  (forall J K, (J < N)%nat -> (K < N)%nat -> G 0 J K = G 0 K J /\ P 0 J K = P 0 K J) ->
  (forall k a, (k < nk)%nat -> (a < norb)%nat -> vector_derivative norb (fun s => wf s k a) 0 (wf' k a)) ->
  (forall k a, (k < nk)%nat -> (a < norb)%nat -> derivable_pt_lim (fun s => f s k a) 0 (f' k a)) ->
  (forall k, (k < nk)%nat -> matrix_derivative norb (fun s => H0 s k) 0 (moved_matrix o1 no I (dH0 k))) ->
  (forall k, (k < nk)%nat -> matrix_derivative norb (fun s => S s k) 0 (moved_matrix o1 no I (dS k))) ->
  (forall J K, (J < N)%nat -> (K < N)%nat -> derivable_pt_lim (fun s => G s J K) 0 (moved_gamma I dG J K)) ->
  (forall J K, (J < N)%nat -> (K < N)%nat -> derivable_pt_lim (fun s => P s J K) 0 (moved_gamma I dP J K)) ->
  let dq := dq_states norb nk o1 no val wk (wf 0) (f 0) (S 0) in
  let h1 := construct_h1 N o1 no (eps_states norb N nk o1 no val wk (wf 0) (f 0) (S 0) (G 0) (P 0)) (fun _ => 0) in
  (forall k a, (k < nk)%nat -> (a < norb)%nat -> eigenstate norb (H0 0 k) (S 0 k) h1 (wf 0 k a) (e k a)) ->
  derivable_pt_lim (fun s => scc_energy norb N nk o1 no val wk (wf s) (f s) (H0 s) (S s) (G s) (P s)) 0
    (- (band_structure_force norb nk o1 no wk (dH_scc true h1 dH0 dS) dS (krho norb (wf 0) (f 0)) (krhoe norb (wf 0) (f 0) e) I
        + gamma_force N true dq dG (fun J => rsum N (fun K => dq K * dP J K)) I) + state_sum norb nk wk f' e).
Proof.
  intros L HI HH HS Hn Hsym Dw Df DH DS DG DP dq h1 HE.
  eapply D_ext; [|apply (scc_force_occ norb N nk o1 no val wk wf f f' e H0 S G P (fun _ => 0) wf' dH0 dS dG dP I L HI HH HS Hn Hsym (or_introl (fun _ _ => eq_refl)) Dw Df DH DS DG DP HE)].
  intros s. cbv beta. rewrite (rsum_eq0 N); [ring|]. intros; ring.
Qed.
Lemma nonscc_force_occ norb N nk o1 no wk (wf : R -> nat -> nat -> nat -> cplx) (f : R -> nat -> nat -> R) f' e (H0 S : R -> kmatrix) wf' dH0 dS I :
  layout norb N o1 no -> (I < N)%nat ->
  khermitian norb nk (H0 0) -> khermitian norb nk (S 0) -> (forall s, normalised norb nk (S s) (wf s)) ->
  (forall k a, (k < nk)%nat -> (a < norb)%nat -> vector_derivative norb (fun s => wf s k a) 0 (wf' k a)) ->
  (forall k a, (k < nk)%nat -> (a < norb)%nat -> derivable_pt_lim (fun s => f s k a) 0 (f' k a)) ->
  (forall k, (k < nk)%nat -> matrix_derivative norb (fun s => H0 s k) 0 (moved_matrix o1 no I (dH0 k))) ->
  (forall k, (k < nk)%nat -> matrix_derivative norb (fun s => S s k) 0 (moved_matrix o1 no I (dS k))) ->
  (forall k a, (k < nk)%nat -> (a < norb)%nat -> eigenstate norb (H0 0 k) (S 0 k) (fun _ _ => 0) (wf 0 k a) (e k a)) ->
  derivable_pt_lim (fun s => fst (ebs_c norb nk wk (krho norb (wf s) (f s)) (H0 s))) 0
    (- band_structure_force norb nk o1 no wk (dH_scc false (fun _ _ => 0) dH0 dS) dS (krho norb (wf 0) (f 0)) (krhoe norb (wf 0) (f 0) e) I + state_sum norb nk wk f' e).
Proof.
  intros L HI HH HS Hn Dw Df DH DS HE.
  assert (F := D_frozen_occ norb nk wk wf f f' e H0 S (fun _ _ => 0) (fun k => moved_matrix o1 no I (dH0 k)) (fun k => moved_matrix o1 no I (dS k)) wf' 0
     (fun i j => eq_refl) HH HS Hn Dw Df DH DS HE).
  assert (Z : forall A B v, bracket norb (fun i j => cadd (A i j) (cscale 0 (B i j))) v v = bracket norb A v v).
  { intros A B v. unfold bracket. apply csum_ext'; intros i _. apply csum_ext'; intros j _. f_equal. f_equal. apply cplx_eq; cbn [cadd cscale fst snd]; ring. }
  eapply D_ext; [|eapply D_rew; [exact F|]].
  - intros s. cbv beta. rewrite ebs_states. 
    transitivity (state_sum norb nk wk (f s) (fun k a => fst (bracket norb (H0 s k) (wf s k a) (wf s k a)))); [|reflexivity].
    apply state_sum_ext. intros k a _ _. rewrite Z. reflexivity.
  - cbv beta. rewrite (force_states norb N nk o1 no wk (wf 0) (f 0) e I _ _ L HI). rewrite Ropp_involutive. f_equal.
    apply state_sum_ext. intros k a _ _. rewrite Z. reflexivity.
Qed.

(** ** Fermi occupations *)
Lemma D_xlnx (g : R -> R) t g' : derivable_pt_lim g t g' -> 0 < g t -> derivable_pt_lim (fun s => g s * ln (g s)) t (g' * (ln (g t) + 1)).
Proof.
  intros D P. eapply D_rew.
  - apply (derivable_pt_lim_mult g (fun s => ln (g s)) t _ (/ g t * g') D). apply (derivable_pt_lim_comp g ln); [exact D|apply derivable_pt_lim_ln; exact P].
  - field. lra.
Qed.
Lemma fermi_ln MAXE width en mu : 0 < width -> (en - mu) / width < MAXE -> let f := fermi MAXE width en mu in
  0 < f / 2 /\ 0 < 1 - f / 2 /\ width * (ln (f / 2) - ln (1 - f / 2)) = mu - en.
Proof.
  intros W A f. unfold f, fermi. cbv zeta. unfold rlt. destruct (Rlt_dec _ _) as [_|N]; [|contradiction]. set (x := (en - mu) / width). pose proof (exp_pos x) as P.
  assert (E1 : 2 / (exp x + 1) / 2 = / (exp x + 1)) by (field; lra). assert (E2 : 1 - 2 / (exp x + 1) / 2 = exp x * / (exp x + 1)) by (field; lra).
  rewrite E2, E1. assert (I : 0 < / (exp x + 1)) by (apply Rinv_0_lt_compat; lra). split; [exact I|]. split; [apply Rmult_lt_0_compat; assumption|].
  rewrite ln_mult by assumption. rewrite ln_exp. unfold x. field. lra.
Qed.
Lemma D_entropy MAXE norb nk wk width (f : R -> nat -> nat -> R) f' (e : nat -> nat -> R) mu c : 0 < width ->
  (forall k a, (k < nk)%nat -> (a < norb)%nat -> (e k a - mu) / width < MAXE /\ f 0 k a = fermi MAXE width (e k a) mu) ->
  (forall k a, (k < nk)%nat -> (a < norb)%nat -> derivable_pt_lim (fun s => f s k a) 0 (f' k a)) ->
  (forall s, filling norb nk wk (f s) = c) ->
  derivable_pt_lim (fun s => width * fermi_entropy norb nk wk (f s)) 0 (state_sum norb nk wk f' e).
Proof.
  intros W F D C.
  assert (K : rsum nk (fun k => wk k * rsum norb (f' k)) = 0).
  { apply (uniqueness_limite (fun s => filling norb nk wk (f s)) 0).
    - unfold filling. apply (D_rsum nk (fun k s => wk k * rsum norb (f s k))). intros k Hk. apply D_scal. apply (D_rsum norb (fun a s => f s k a)). intros a Ha. apply D; assumption.
    - apply (D_ext (fun _ => c)); [intros; symmetry; apply C|apply derivable_pt_lim_const]. }
  eapply D_rew.
  - apply D_scal. unfold fermi_entropy. apply (derivable_pt_lim_opp (fun s => 2 * rsum nk (fun k => wk k * rsum norb (fun a => f s k a / 2 * ln (f s k a / 2) + (1 - f s k a / 2) * ln (1 - f s k a / 2))))).
    apply D_scal. apply (D_rsum nk (fun k s => wk k * rsum norb (fun a => f s k a / 2 * ln (f s k a / 2) + (1 - f s k a / 2) * ln (1 - f s k a / 2)))). intros k Hk. apply D_scal.
    apply (D_rsum norb (fun a s => f s k a / 2 * ln (f s k a / 2) + (1 - f s k a / 2) * ln (1 - f s k a / 2)) 0
      (fun a => f' k a / 2 * (ln (f 0 k a / 2) + 1) + (- (f' k a / 2)) * (ln (1 - f 0 k a / 2) + 1))). intros a Ha.
    destruct (F k a Hk Ha) as [A1 A2]. destruct (fermi_ln MAXE width (e k a) mu W A1) as [P1 [P2 _]]. rewrite <- A2 in P1, P2.
    assert (D2 : derivable_pt_lim (fun s => f s k a / 2) 0 (f' k a / 2)).
    { apply (D_ext (fun s => / 2 * f s k a)); [intros; field|]. eapply D_rew; [apply D_scal; apply D; assumption|field]. }
    apply (derivable_pt_lim_plus (fun s => f s k a / 2 * ln (f s k a / 2)) (fun s => (1 - f s k a / 2) * ln (1 - f s k a / 2))).
    + apply (D_xlnx (fun s => f s k a / 2)); assumption.
    + apply (D_xlnx (fun s => 1 - f s k a / 2)); [|exact P2]. eapply D_rew; [apply (derivable_pt_lim_minus (fun _ => 1) (fun s => f s k a / 2)); [apply derivable_pt_lim_const|exact D2]|ring].
  - unfold state_sum. transitivity (rsum nk (fun k => wk k * rsum norb (fun a => f' k a * e k a)) - mu * rsum nk (fun k => wk k * rsum norb (f' k))); [|rewrite K; ring].
    transitivity (rsum nk (fun k => wk k * rsum norb (fun a => f' k a * e k a) - mu * (wk k * rsum norb (f' k)))); [|rewrite rsum_minus, rsum_scal; reflexivity].
    transitivity (- 2 * width * rsum nk (fun k => wk k * rsum norb (fun a => f' k a / 2 * (ln (f 0 k a / 2) + 1) + - (f' k a / 2) * (ln (1 - f 0 k a / 2) + 1)))); [ring|].
    rewrite <- rsum_scal. apply rsum_ext. intros k Hk.
    assert (E0 : - 2 * width * rsum norb (fun a => f' k a / 2 * (ln (f 0 k a / 2) + 1) + - (f' k a / 2) * (ln (1 - f 0 k a / 2) + 1)) = rsum norb (fun a => f' k a * e k a) - mu * rsum norb (f' k)).
    2:{ transitivity (wk k * (- 2 * width * rsum norb (fun a => f' k a / 2 * (ln (f 0 k a / 2) + 1) + - (f' k a / 2) * (ln (1 - f 0 k a / 2) + 1)))); [ring|]. rewrite E0. ring. }
    transitivity (rsum norb (fun a => f' k a * e k a - mu * f' k a)); [|rewrite rsum_minus, rsum_scal; reflexivity].
    rewrite <- rsum_scal. apply rsum_ext. intros a Ha. destruct (F k a Hk Ha) as [A1 A2]. destruct (fermi_ln MAXE width (e k a) mu W A1) as [_ [_ E]]. rewrite <- A2 in E.
    transitivity (- f' k a * (width * (ln (f 0 k a / 2) - ln (1 - f 0 k a / 2)))); [field|]. rewrite E. ring.
Qed.

(** the forces are minus the gradient of the free energy *)
Lemma scc_free_energy MAXE norb N nk o1 no val wk width mu (wf : R -> nat -> nat -> nat -> cplx) (f : R -> nat -> nat -> R) f' e (H0 S : R -> kmatrix) (G P : R -> nat -> nat -> R) wf' dH0 dS dG dP I c :
  layout norb N o1 no -> (I < N)%nat -> 0 < width ->
  (forall s, khermitian norb nk (H0 s)) -> (forall s, khermitian norb nk (S s)) -> (forall s, normalised norb nk (S s) (wf s)) ->
  (forall J K, (J < N)%nat -> (K < N)%nat -> G 0 J K = G 0 K J /\ P 0 J K = P 0 K J) ->
  (forall k a, (k < nk)%nat -> (a < norb)%nat -> vector_derivative norb (fun s => wf s k a) 0 (wf' k a)) ->
  (forall k a, (k < nk)%nat -> (a < norb)%nat -> derivable_pt_lim (fun s => f s k a) 0 (f' k a)) ->
  (forall k, (k < nk)%nat -> matrix_derivative norb (fun s => H0 s k) 0 (moved_matrix o1 no I (dH0 k))) ->
  (forall k, (k < nk)%nat -> matrix_derivative norb (fun s => S s k) 0 (moved_matrix o1 no I (dS k))) ->
  (forall J K, (J < N)%nat -> (K < N)%nat -> derivable_pt_lim (fun s => G s J K) 0 (moved_gamma I dG J K)) ->
  (forall J K, (J < N)%nat -> (K < N)%nat -> derivable_pt_lim (fun s => P s J K) 0 (moved_gamma I dP J K)) ->
  (forall s, filling norb nk wk (f s) = c) ->
  (forall k a, (k < nk)%nat -> (a < norb)%nat -> (e k a - mu) / width < MAXE /\ f 0 k a = fermi MAXE width (e k a) mu) ->
  let dq := dq_states norb nk o1 no val wk (wf 0) (f 0) (S 0) in
  let h1 := construct_h1 N o1 no (eps_states norb N nk o1 no val wk (wf 0) (f 0) (S 0) (G 0) (P 0)) (fun _ => 0) in
  (forall k a, (k < nk)%nat -> (a < norb)%nat -> eigenstate norb (H0 0 k) (S 0 k) h1 (wf 0 k a) (e k a)) ->
  derivable_pt_lim (fun s => scc_energy norb N nk o1 no val wk (wf s) (f s) (H0 s) (S s) (G s) (P s) - width * fermi_entropy norb nk wk (f s)) 0
    (- (band_structure_force norb nk o1 no wk (dH_scc true h1 dH0 dS) dS (krho norb (wf 0) (f 0)) (krhoe norb (wf 0) (f 0) e) I
        + gamma_force N true dq dG (fun J => rsum N (fun K => dq K * dP J K)) I)).
Proof.
  intros L HI W HH HS Hn Hsym Dw Df DH DS DG DP C F dq h1 HE.
  assert (A := scc_force_occ0 norb N nk o1 no val wk wf f f' e H0 S G P wf' dH0 dS dG dP I L HI HH HS Hn Hsym Dw Df DH DS DG DP HE).
  assert (B := D_entropy MAXE norb nk wk width f f' e mu c W F Df C).
  eapply D_rew; [exact (derivable_pt_lim_minus _ (fun s => width * fermi_entropy norb nk wk (f s)) _ _ _ A B)|]. unfold dq, h1. ring.
Qed.
Lemma nonscc_free_energy MAXE norb N nk o1 no wk width mu (wf : R -> nat -> nat -> nat -> cplx) (f : R -> nat -> nat -> R) f' e (H0 S : R -> kmatrix) wf' dH0 dS I c :
  layout norb N o1 no -> (I < N)%nat -> 0 < width ->
  khermitian norb nk (H0 0) -> khermitian norb nk (S 0) -> (forall s, normalised norb nk (S s) (wf s)) ->
  (forall k a, (k < nk)%nat -> (a < norb)%nat -> vector_derivative norb (fun s => wf s k a) 0 (wf' k a)) ->
  (forall k a, (k < nk)%nat -> (a < norb)%nat -> derivable_pt_lim (fun s => f s k a) 0 (f' k a)) ->
  (forall k, (k < nk)%nat -> matrix_derivative norb (fun s => H0 s k) 0 (moved_matrix o1 no I (dH0 k))) ->
  (forall k, (k < nk)%nat -> matrix_derivative norb (fun s => S s k) 0 (moved_matrix o1 no I (dS k))) ->
  (forall s, filling norb nk wk (f s) = c) ->
  (forall k a, (k < nk)%nat -> (a < norb)%nat -> (e k a - mu) / width < MAXE /\ f 0 k a = fermi MAXE width (e k a) mu) ->
  (forall k a, (k < nk)%nat -> (a < norb)%nat -> eigenstate norb (H0 0 k) (S 0 k) (fun _ _ => 0) (wf 0 k a) (e k a)) ->
  derivable_pt_lim (fun s => fst (ebs_c norb nk wk (krho norb (wf s) (f s)) (H0 s)) - width * fermi_entropy norb nk wk (f s)) 0
    (- band_structure_force norb nk o1 no wk (dH_scc false (fun _ _ => 0) dH0 dS) dS (krho norb (wf 0) (f 0)) (krhoe norb (wf 0) (f 0) e) I).
Proof.
  intros L HI W HH HS Hn Dw Df DH DS C F HE.
  assert (A := nonscc_force_occ norb N nk o1 no wk wf f f' e H0 S wf' dH0 dS I L HI HH HS Hn Dw Df DH DS HE).
  assert (B := D_entropy MAXE norb nk wk width f f' e mu c W F Df C).
  eapply D_rew; [exact (derivable_pt_lim_minus _ (fun s => width * fermi_entropy norb nk wk (f s)) _ _ _ A B)|]. ring.
Qed.
