From Coq Require Import Reals List Bool Arith Lra Lia Permutation.
From Verif Require Import Vec GeomModel GeomProofs SkModel SkSpec Cpx RhoModel RhoSpec RhoProofs RhoProofs2 RhoProofs3.
Import ListNotations.
Open Scope R_scope.

Lemma csum_atoms2 norb N o1 no (F : nat -> nat -> cplx) : layout norb N o1 no ->
  csum N (fun I => csum N (fun J => atom_csum2 o1 no F I J)) = csum norb (fun i => csum norb (fun j => F i j)).
Proof.
  intros L. rewrite <- (csum_atoms norb N o1 no (fun i => csum norb (fun j => F i j)) L).
  apply csum_ext'. intros I _. unfold atom_csum2. rewrite csum_swap. apply csum_ext'. intros m _.
  rewrite <- (csum_atoms norb N o1 no (fun j => F (o1 I + m)%nat j) L). reflexivity.
Qed.
Lemma pair_half N (v : nat -> nat -> R) : (forall I J, (I < N)%nat -> (J < N)%nat -> v I J = v J I) ->
  rsum N (fun I => v I I + rsum N (fun J => if (J =? I)%nat then 0 else / 2 * v I J)) = pair_sum N v.
Proof.
  intros Hs. unfold pair_sum.
  assert (A : rsum N (fun I => rsum N (fun J => if (I <=? J)%nat then v I J else 0)) = rsum N (fun I => rsum N (fun J => if (J <=? I)%nat then v I J else 0))).
  { rewrite rsum_swap. apply rsum_ext; intros J HJ. apply rsum_ext; intros I HI. destruct (I <=? J)%nat; [apply Hs; assumption|reflexivity]. }
  assert (B : rsum N (fun I => rsum N (fun J => if (I <=? J)%nat then v I J else 0)) + rsum N (fun I => rsum N (fun J => if (J <=? I)%nat then v I J else 0)) 
     = 2 * rsum N (fun I => v I I + rsum N (fun J => if (J =? I)%nat then 0 else / 2 * v I J))).
  { rewrite <- rsum_plus, <- rsum_scal. apply rsum_ext. intros I HI. rewrite <- rsum_plus.
    replace (v I I) with (rsum N (fun J => if (J =? I)%nat then v I I else 0)).
    2:{ rewrite (rsum_single N I); [rewrite Nat.eqb_refl; reflexivity|exact HI|]. intros J _ HJ. apply Nat.eqb_neq in HJ. rewrite HJ. reflexivity. }
    rewrite <- rsum_plus, <- rsum_scal. apply rsum_ext. intros J _.
    destruct (Nat.eqb_spec J I) as [->|Hne].
    - rewrite Nat.leb_refl. ring.
    - destruct (Nat.leb_spec I J), (Nat.leb_spec J I); try lia; lra. }
  rewrite <- A in B. lra.
Qed.
(** all of the matrix from its atom blocks *)
Lemma blocks_real norb N nk o1 no wk (F : nat -> nat -> nat -> cplx) : layout norb N o1 no ->
  rsum N (fun I => rsum nk (fun k => wk k * fst (atom_csum2 o1 no (F k) I I)) + rsum N (fun J => if (J =? I)%nat then 0 else / 2 * rsum nk (fun k => 2 * wk k * fst (atom_csum2 o1 no (F k) I J))))
  = rsum nk (fun k => wk k * fst (csum norb (fun i => csum norb (fun j => F k i j)))).
Proof.
  intros L.
  transitivity (rsum N (fun I => rsum N (fun J => rsum nk (fun k => wk k * fst (atom_csum2 o1 no (F k) I J))))).
  { apply rsum_ext. intros I HI.
    replace (rsum nk (fun k => wk k * fst (atom_csum2 o1 no (F k) I I))) with (rsum N (fun J => if (J =? I)%nat then rsum nk (fun k => wk k * fst (atom_csum2 o1 no (F k) I I)) else 0)).
    2:{ rewrite (rsum_single N I); [rewrite Nat.eqb_refl; reflexivity|exact HI|]. intros J _ HJ. apply Nat.eqb_neq in HJ. rewrite HJ. reflexivity. }
    rewrite <- rsum_plus. apply rsum_ext. intros J _. destruct (Nat.eqb_spec J I) as [->|Hne]; [ring|].
    rewrite Rplus_0_l, <- rsum_scal. apply rsum_ext. intros k _. field. }
  transitivity (rsum nk (fun k => rsum N (fun I => rsum N (fun J => wk k * fst (atom_csum2 o1 no (F k) I J))))).
  { symmetry. rewrite rsum_swap. apply rsum_ext. intros I _. rewrite rsum_swap. reflexivity. }
  apply rsum_ext. intros k _. rewrite <- (csum_atoms2 norb N o1 no (F k) L), csum_fst, <- rsum_scal.
  apply rsum_ext. intros I _. rewrite csum_fst, <- rsum_scal. reflexivity.
Qed.
Lemma rhoM_total norb nk wk rho H0 S epsm : khermitian norb nk rho -> khermitian norb nk S ->
  rsum nk (fun k => wk k * fst (csum norb (fun i => csum norb (fun j => rhoM rho H0 S epsm k i j))))
  = fst (ebs_c norb nk wk rho H0) - rsum norb (fun mu => epsm mu * basis_mulliken norb nk wk rho S mu).
Proof.
  intros Hr HS. unfold ebs_c. rewrite csum_fst.
  assert (B : rsum norb (fun mu => epsm mu * basis_mulliken norb nk wk rho S mu) =
     rsum nk (fun k => wk k * rsum norb (fun i => epsm i * diag_k norb (rho k) (S k) i))).
  { unfold basis_mulliken, diag. transitivity (rsum norb (fun i => rsum nk (fun k => wk k * (epsm i * diag_k norb (rho k) (S k) i)))).
    - apply rsum_ext; intros i _. rewrite <- rsum_scal. apply rsum_ext; intros; ring.
    - rewrite rsum_swap. apply rsum_ext; intros k _. rewrite rsum_scal. reflexivity. }
  rewrite B, <- rsum_minus. apply rsum_ext. intros k Hk.
  transitivity (wk k * (fst (csum norb (fun i => csum norb (fun j => cmul (rho k i j) (H0 k j i)))) - rsum norb (fun i => epsm i * diag_k norb (rho k) (S k) i))).
  2:{ cbn [cscale fst]. ring. }
  f_equal. rewrite !csum_fst.
  assert (Sy := sym_avg norb (fun i j => fst (cmul (rho k i j) (S k j i))) epsm).
  assert (E : forall i j, (i < norb)%nat -> (j < norb)%nat -> fst (cmul (rho k i j) (S k j i)) = fst (cmul (rho k j i) (S k i j))).
  { intros i j Hi Hj. rewrite (Hr k Hk i j Hi Hj), (HS k Hk j i Hj Hi), <- cconj_mul, fst_conj. reflexivity. }
  specialize (Sy E).
  transitivity (rsum norb (fun i => rsum norb (fun j => fst (cmul (rho k i j) (H0 k j i)))) -
     rsum norb (fun i => rsum norb (fun j => / 2 * (epsm i + epsm j) * fst (cmul (rho k i j) (S k j i))))).
  - rewrite <- rsum_minus. apply rsum_ext; intros i _. rewrite csum_fst, <- rsum_minus. apply rsum_ext; intros j _.
    unfold rhoM, RhoModel.HS, epsbar. cbn [cmul csub cadd copp cscale fst snd]. field.
  - f_equal.
    etransitivity; [|etransitivity; [exact Sy|]].
    + apply rsum_ext; intros i _; apply rsum_ext; intros j _; ring.
    + apply rsum_ext; intros i _. unfold diag_k. rewrite csum_fst. reflexivity.
Qed.
Lemma promotion_total norb N nk o1 no wk rho S epsm q0 : layout norb N o1 no ->
  rsum N (promotion norb nk o1 no wk rho S epsm q0) =
  rsum norb (fun mu => epsm mu * basis_mulliken norb nk wk rho S mu) - rsum norb (fun mu => q0 mu * epsm mu).
Proof.
  intros L. rewrite <- rsum_minus. rewrite <- (atoms_sum norb N o1 no _ L). apply rsum_ext. intros I _. unfold promotion, atom_sum.
  apply rsum_ext. intros m _. ring.
Qed.
Lemma decomposition norb N nk o1 no wk SCC rho H0 S epsm q0 G phi dq repp : layout norb N o1 no ->
  khermitian norb nk rho -> khermitian norb nk S ->
  (forall I J, (I < N)%nat -> (J < N)%nat -> repp I J = repp J I) ->
  rsum N (atom_and_bond norb N nk o1 no wk SCC rho H0 S epsm q0 G phi dq repp) =
  fst (ebs_c norb nk wk rho H0) + pair_sum N repp + coulomb_energy N SCC dq (epsilon N G phi dq) - rsum norb (fun mu => q0 mu * epsm mu).
Proof.
  intros L Hr HS Hp.
  rewrite <- (pair_half N repp Hp).
  assert (P := promotion_total norb N nk o1 no wk rho S epsm q0 L).
  assert (M := rhoM_total norb nk wk rho H0 S epsm Hr HS).
  rewrite <- (blocks_real norb N nk o1 no wk (rhoM rho H0 S epsm) L) in M.
  assert (C : rsum N (fun I => (if SCC then / 2 * G I I * dq I ^ 2 + / 2 * dq I * phi I else 0) + rsum N (fun J => if (J =? I)%nat then 0 else / 2 * (if SCC then G I J * dq I * dq J else 0)))
     = coulomb_energy N SCC dq (epsilon N G phi dq)).
  { unfold coulomb_energy. destruct SCC.
    - rewrite <- rsum_scal. apply rsum_ext. intros I HI. unfold epsilon.
      assert (E : rsum N (fun J => G I J * dq J) = G I I * dq I + rsum N (fun J => if (J =? I)%nat then 0 else G I J * dq J)).
      { replace (G I I * dq I) with (rsum N (fun J => if (J =? I)%nat then G I I * dq I else 0)).
        2:{ rewrite (rsum_single N I); [rewrite Nat.eqb_refl; reflexivity|exact HI|]. intros J _ HJ. apply Nat.eqb_neq in HJ. rewrite HJ. reflexivity. }
        rewrite <- rsum_plus. apply rsum_ext. intros J _. destruct (Nat.eqb_spec J I) as [->|]; ring. }
      rewrite E.
      replace (rsum N (fun J => if (J =? I)%nat then 0 else / 2 * (G I J * dq I * dq J))) with (/ 2 * dq I * rsum N (fun J => if (J =? I)%nat then 0 else G I J * dq J)); [ring|].
      rewrite <- rsum_scal. apply rsum_ext. intros J _. destruct (J =? I)%nat; ring.
    - rewrite (rsum_eq0 N); [reflexivity|]. intros I _. rewrite (rsum_eq0 N); [ring|]. intros J _. destruct (J =? I)%nat; ring. }
  transitivity (rsum N (fun I => (if SCC then / 2 * G I I * dq I ^ 2 + / 2 * dq I * phi I else 0) + rsum N (fun J => if (J =? I)%nat then 0 else / 2 * (if SCC then G I J * dq I * dq J else 0)))
     + rsum N (fun I => repp I I + rsum N (fun J => if (J =? I)%nat then 0 else / 2 * repp I J))
     + rsum N (fun I => rsum nk (fun k => wk k * fst (atom_csum2 o1 no (rhoM rho H0 S epsm k) I I)) + rsum N (fun J => if (J =? I)%nat then 0 else / 2 * rsum nk (fun k => 2 * wk k * fst (atom_csum2 o1 no (rhoM rho H0 S epsm k) I J))))
     + rsum N (promotion norb nk o1 no wk rho S epsm q0)).
  - rewrite <- !rsum_plus. apply rsum_ext. intros I _. unfold atom_and_bond, atom_energy, bond_energy.
    assert (E : rsum N (fun J => if (J =? I)%nat then 0 else / 2 * (repp I J + (if SCC then G I J * dq I * dq J else 0) + rsum nk (fun k => 2 * wk k * fst (atom_csum2 o1 no (rhoM rho H0 S epsm k) I J))))
       = rsum N (fun J => if (J =? I)%nat then 0 else / 2 * (if SCC then G I J * dq I * dq J else 0)) + rsum N (fun J => if (J =? I)%nat then 0 else / 2 * repp I J)
         + rsum N (fun J => if (J =? I)%nat then 0 else / 2 * rsum nk (fun k => 2 * wk k * fst (atom_csum2 o1 no (rhoM rho H0 S epsm k) I J)))).
    { rewrite <- !rsum_plus. apply rsum_ext. intros J _. destruct (J =? I)%nat; ring. }
    rewrite E. ring.
  - rewrite C, M, P. ring.
Qed.
(** ** Mayer bond orders *)
Lemma mayer_sym norb nk o1 no wk rho S I J : mayer norb nk o1 no wk rho S I J = mayer norb nk o1 no wk rho S J I.
Proof.
  assert (E : mayer_c norb nk o1 no wk rho S I J = mayer_c norb nk o1 no wk rho S J I).
  { unfold mayer_c, atom_csum2. apply csum_ext'; intros k _. rewrite csum_swap. apply csum_ext'; intros m _. apply csum_ext'; intros n _. f_equal. ring. }
  unfold mayer. rewrite E. reflexivity.
Qed.
(** (rho S)^2 = 2 rho S *)
Lemma rhoS_states norb wf f S k i j : rhoS norb (krho norb wf f) S k i j =
  csum norb (fun a => cmul (rc (f k a)) (cmul (wf k a i) (csum norb (fun m => cmul (cconj (wf k a m)) (S k m j))))).
Proof.
  unfold rhoS, krho, compute_rho.
  transitivity (csum norb (fun m => csum norb (fun a => cmul (rc (f k a)) (cmul (wf k a i) (cmul (cconj (wf k a m)) (S k m j)))))).
  - apply csum_ext'; intros m _. rewrite <- csum_mul_r. apply csum_ext'; intros a _. rewrite cscale_rc. ring.
  - rewrite csum_swap. apply csum_ext'; intros a _. rewrite csum_mul. f_equal. rewrite csum_mul. reflexivity.
Qed.
Lemma idempotent norb nk wf f S k i j : orthonormal norb nk S wf -> (k < nk)%nat ->
  (forall a, (a < norb)%nat -> f k a = 0 \/ f k a = 2) ->
  csum norb (fun m => cmul (rhoS norb (krho norb wf f) S k i m) (rhoS norb (krho norb wf f) S k m j)) = cmul (rc 2) (rhoS norb (krho norb wf f) S k i j).
Proof.
  intros Ho Hk Hf.
  set (L := fun a j => csum norb (fun m => cmul (cconj (wf k a m)) (S k m j))).
  transitivity (csum norb (fun m => csum norb (fun a => csum norb (fun b => cmul (cmul (rc (f k a)) (cmul (wf k a i) (L a m))) (cmul (rc (f k b)) (cmul (wf k b m) (L b j))))))).
  { apply csum_ext'; intros m _. rewrite !rhoS_states, <- csum_mul_r. apply csum_ext'; intros a _. rewrite <- csum_mul. reflexivity. }
  rewrite csum_swap, rhoS_states, <- csum_mul. apply csum_ext'; intros a Ha. rewrite csum_swap. fold (L a j).
  transitivity (csum norb (fun b => cmul (cmul (cmul (rc (f k a)) (wf k a i)) (cmul (rc (f k b)) (L b j))) (if (a =? b)%nat then c1 else c0))).
  { apply csum_ext'; intros b Hb. rewrite <- (Ho k a b Hk Ha Hb). unfold bracket. rewrite csum_swap, <- csum_mul. apply csum_ext'; intros m _.
    rewrite csum_mul_r. fold (L a m). ring. }
  rewrite (csum_single norb a); [|exact Ha|].
  2:{ intros b _ Hb. replace (a =? b)%nat with false by (symmetry; apply Nat.eqb_neq; congruence). ring. }
  rewrite Nat.eqb_refl. destruct (Hf a Ha) as [E|E]; rewrite E; [|ring].
  replace (rc 0) with c0 by reflexivity. ring.
Qed.
Lemma mayer_valence norb N nk o1 no wk wf f S I (b : nat -> R) : layout norb N o1 no -> orthonormal norb nk S wf ->
  (forall k a, (k < nk)%nat -> (a < norb)%nat -> f k a = 0 \/ f k a = 2) -> (I < N)%nat ->
  (forall J, (J < N)%nat -> mayer norb nk o1 no wk (krho norb wf f) S I J = Some (b J)) ->
  rsum N b = 2 * atom_mulliken norb nk o1 no wk (krho norb wf f) S I.
Proof.
  intros L Ho Hf HI Hb.
  transitivity (rsum N (fun J => fst (mayer_c norb nk o1 no wk (krho norb wf f) S I J))).
  { apply rsum_ext. intros J HJ. specialize (Hb J HJ). unfold mayer in Hb. destruct (ltb _ _); [congruence|discriminate]. }
  transitivity (fst (csum N (fun J => mayer_c norb nk o1 no wk (krho norb wf f) S I J))); [reflexivity|].
  assert (E : csum N (fun J => mayer_c norb nk o1 no wk (krho norb wf f) S I J) =
    csum nk (fun k => csum (no I) (fun m => cmul (rc (wk k)) (cmul (rc 2) (rhoS norb (krho norb wf f) S k (o1 I + m)%nat (o1 I + m)%nat))))).
  { unfold mayer_c. rewrite csum_swap. apply csum_ext'; intros k Hk. unfold atom_csum2. rewrite csum_swap. apply csum_ext'; intros m _.
    rewrite (csum_atoms norb N o1 no (fun nu => cscale (wk k) (cmul (rhoS norb (krho norb wf f) S k (o1 I + m)%nat nu) (rhoS norb (krho norb wf f) S k nu (o1 I + m)%nat))) L).
    rewrite <- (idempotent norb nk wf f S k (o1 I + m)%nat (o1 I + m)%nat Ho Hk (fun a Ha => Hf k a Hk Ha)), <- csum_mul.
    apply csum_ext'; intros nu _. rewrite cscale_rc. reflexivity. }
  rewrite E, csum_fst. unfold atom_mulliken, atom_sum, diag.
  transitivity (2 * rsum nk (fun k => rsum (no I) (fun m => wk k * diag_k norb (krho norb wf f k) (S k) (o1 I + m)%nat))).
  2:{ f_equal. rewrite rsum_swap. reflexivity. }
  rewrite <- rsum_scal. apply rsum_ext. intros k _. rewrite csum_fst, <- rsum_scal. apply rsum_ext. intros m _.
  rewrite !fst_rc_mul. unfold diag_k, rhoS. ring.
Qed.
(** ** covalent energies *)
Lemma cpair_half N (v u : nat -> nat -> cplx) : (forall I, (I < N)%nat -> u I I = v I I) ->
  (forall I J, (I < J)%nat -> (J < N)%nat -> u I J = cadd (v I J) (v J I)) ->
  cpair_sum N u = csum N (fun I => csum N (fun J => v I J)).
Proof.
  intros Hd Ho. unfold cpair_sum.
  transitivity (cadd (csum N (fun I => csum N (fun J => if (I <=? J)%nat then v I J else c0))) (csum N (fun I => csum N (fun J => if (I <? J)%nat then v J I else c0)))).
  { rewrite <- csum_add. apply csum_ext'; intros I HI. rewrite <- csum_add. apply csum_ext'; intros J HJ.
    destruct (Nat.leb_spec I J), (Nat.ltb_spec I J); try lia.
    - apply Ho; assumption.
    - replace J with I by lia. rewrite Hd by exact HI. ring.
    - ring. }
  rewrite (csum_swap N N (fun I J => if (I <? J)%nat then v J I else c0)), <- csum_add. apply csum_ext'; intros I HI. rewrite <- csum_add. apply csum_ext'; intros J HJ.
  destruct (Nat.leb_spec I J), (Nat.ltb_spec J I); try lia; ring.
Qed.
Lemma cov_conj HSk v m n : HSk n m = cconj (HSk m n) -> cov_term HSk v n m = cconj (cov_term HSk v m n).
Proof. intros E. unfold cov_term. rewrite !cconj_mul, cconj_conj, E, cconj_conj. ring. Qed.
Lemma double_real w z : rc (w * 2 * fst z) = cadd (cscale w z) (cscale w (cconj z)).
Proof. apply cplx_eq; cbn [rc cadd cscale cconj fst snd]; ring. Qed.
Lemma cov_default_all norb HSk w v : cov_default norb HSk w v = csum norb (fun i => csum norb (fun j => cscale w (cov_term HSk v i j))).
Proof. unfold cov_default. apply csum_ext'; intros i _. rewrite cscale_rc, <- csum_mul. apply csum_ext'; intros j _. rewrite cscale_rc. reflexivity. Qed.
Lemma cov_orbitals_total norb HSk w v : hermitian norb HSk -> cpair_sum norb (cov_orbitals HSk w v) = cov_default norb HSk w v.
Proof.
  intros H. rewrite cov_default_all. apply cpair_half.
  - intros i _. unfold cov_orbitals. rewrite Nat.eqb_refl. reflexivity.
  - intros i j Hij Hj. unfold cov_orbitals. replace (i =? j)%nat with false by (symmetry; apply Nat.eqb_neq; lia). cbn [negb].
    rewrite double_real, (cov_conj HSk v i j); [reflexivity|apply H; lia].
Qed.
Lemma cov_atoms_total norb N o1 no HSk w v : layout norb N o1 no -> hermitian norb HSk ->
  cpair_sum N (cov_atoms o1 no HSk w v) = cov_default norb HSk w v.
Proof.
  intros L H. rewrite cov_default_all, <- (csum_atoms2 norb N o1 no _ L). apply cpair_half.
  - intros I _. unfold cov_atoms. rewrite Nat.eqb_refl. reflexivity.
  - intros I J HIJ HJ. unfold cov_atoms. replace (I =? J)%nat with false by (symmetry; apply Nat.eqb_neq; lia). cbn [negb].
    unfold atom_csum2. rewrite (csum_swap (no J) (no I)), <- csum_add. apply csum_ext'; intros m Hm. rewrite <- csum_add. apply csum_ext'; intros n Hn.
    rewrite double_real. f_equal. f_equal. symmetry. apply cov_conj. 
    apply H; [apply (owned_in norb N o1 no J n L); [lia|exact Hn]|apply (owned_in norb N o1 no I m L); [lia|exact Hm]].
Qed.
Lemma clsum_ext l f g : (forall m, In m l -> f m = g m) -> clsum l f = clsum l g.
Proof. induction l as [|m l IH]; intros H; [reflexivity|]. cbn [clsum]. rewrite H by (left; reflexivity). f_equal. apply IH. intros x Hx. apply H. right. exact Hx. Qed.
Lemma clsum_add l f g : clsum l (fun m => cadd (f m) (g m)) = cadd (clsum l f) (clsum l g).
Proof. induction l as [|m l IH]; cbn [clsum]; [ring|]. rewrite IH. ring. Qed.
Lemma clsum_mul l c f : clsum l (fun m => cmul c (f m)) = cmul c (clsum l f).
Proof. induction l as [|m l IH]; cbn [clsum]; [ring|]. rewrite IH. ring. Qed.
Lemma clsum_conj l f : cconj (clsum l f) = clsum l (fun m => cconj (f m)).
Proof. induction l as [|m l IH]; cbn [clsum]; [cpx|]. rewrite cconj_add, IH. reflexivity. Qed.
Lemma clsum_zero l : clsum l (fun _ => c0) = c0.
Proof. induction l as [|m l IH]; cbn [clsum]; [reflexivity|]. rewrite IH. ring. Qed.
Lemma clsum_swap l l' (f : nat -> nat -> cplx) : clsum l (fun m => clsum l' (f m)) = clsum l' (fun n => clsum l (fun m => f m n)).
Proof. induction l as [|m l IH]; cbn [clsum]; [rewrite clsum_zero; reflexivity|]. rewrite IH, <- clsum_add. reflexivity. Qed.
Lemma clsum_app l l' f : clsum (l ++ l') f = cadd (clsum l f) (clsum l' f).
Proof. induction l as [|m l IH]; cbn [clsum app]; [ring|]. rewrite IH. ring. Qed.
Lemma clsum_seq n f : clsum (seq 0 n) f = csum n f.
Proof. induction n as [|n IH]; [reflexivity|]. rewrite seq_S, clsum_app, IH, csum_S. cbn [clsum Nat.add]. ring. Qed.
Lemma clsum_perm l l' f : Permutation l l' -> clsum l f = clsum l' f.
Proof. induction 1; cbn [clsum]; [reflexivity|congruence|ring|congruence]. Qed.
Lemma csum_0 f : csum 0 f = c0. Proof. reflexivity. Qed.
Lemma cov_angmom_total norb HSk w v lorbs : hermitian norb HSk ->
  Permutation (lorbs 0%nat ++ lorbs 1%nat ++ lorbs 2%nat) (seq 0 norb) ->
  lorbs 0%nat <> [] -> lorbs 1%nat <> [] -> lorbs 2%nat <> [] ->
  exists e, (forall i j, (i < 3)%nat -> (j < 3)%nat -> cov_angmom HSk w v lorbs i j = Some (e i j)) /\
  cpair_sum 3 e = cov_default norb HSk w v.
Proof.
  intros H Hp N0 N1 N2.
  set (B := fun i j => clsum (lorbs i) (fun m => cscale w (clsum (lorbs j) (fun n => cov_term HSk v m n)))).
  exists (fun i j => if negb (i =? j)%nat then cadd (B i j) (cconj (B i j)) else B i j). split.
  - assert (NE : forall i, (i < 3)%nat -> exists x l, lorbs i = x :: l).
    { intros i Hi. assert (D : lorbs i <> []) by (destruct i as [|[|[|?]]]; [assumption|assumption|assumption|lia]).
      destruct (lorbs i) as [|x l]; [congruence|]. exists x, l. reflexivity. }
    intros i j Hi Hj. destruct (NE i Hi) as (x & l & E), (NE j Hj) as (y & l' & E'). unfold cov_angmom, B. rewrite E, E'. reflexivity.
  - assert (Hin : forall i m, (i < 3)%nat -> In m (lorbs i) -> (m < norb)%nat).
    { intros i m Hi Hm. assert (Q : In m (seq 0 norb)).
      { apply (Permutation_in m Hp). rewrite !in_app_iff. destruct i as [|[|[|?]]]; [left|right; left|right; right|lia]; exact Hm. }
      apply in_seq in Q. lia. }
    assert (C : forall i j, (i < 3)%nat -> (j < 3)%nat -> cconj (B i j) = B j i).
    { intros i j Hi Hj. unfold B. rewrite clsum_conj.
      transitivity (clsum (lorbs i) (fun m => clsum (lorbs j) (fun n => cmul (rc w) (cov_term HSk v n m)))).
      - apply clsum_ext. intros m Hm. rewrite cscale_rc, cconj_mul, cconj_rc, clsum_conj, <- clsum_mul. apply clsum_ext. intros n Hn.
        f_equal. symmetry. apply cov_conj. apply H; [apply (Hin j n Hj Hn)|apply (Hin i m Hi Hm)].
      - rewrite clsum_swap. apply clsum_ext. intros n _. rewrite clsum_mul, cscale_rc. reflexivity. }
    transitivity (csum 3 (fun i => csum 3 (fun j => B i j))).
    { apply cpair_half.
      - intros i _. rewrite Nat.eqb_refl. reflexivity.
      - intros i j Hij Hj. replace (i =? j)%nat with false by (symmetry; apply Nat.eqb_neq; lia). cbn [negb]. rewrite (C i j) by lia. reflexivity. }
    rewrite cov_default_all.
    transitivity (clsum (seq 0 norb) (fun m => clsum (seq 0 norb) (fun n => cmul (rc w) (cov_term HSk v m n)))).
    2:{ rewrite clsum_seq. apply csum_ext'; intros m _. rewrite clsum_seq. apply csum_ext'; intros n _. rewrite cscale_rc. reflexivity. }
    rewrite <- (clsum_perm _ _ _ Hp).
    transitivity (clsum (lorbs 0%nat ++ lorbs 1%nat ++ lorbs 2%nat) (fun m => cadd (cscale w (clsum (lorbs 0%nat) (fun n => cov_term HSk v m n)))
       (cadd (cscale w (clsum (lorbs 1%nat) (fun n => cov_term HSk v m n))) (cscale w (clsum (lorbs 2%nat) (fun n => cov_term HSk v m n)))))).
    2:{ apply clsum_ext. intros m _. rewrite <- (clsum_perm _ _ _ Hp), !clsum_app, !cscale_rc, <- !clsum_mul. reflexivity. }
    rewrite !clsum_app, !clsum_add. rewrite !csum_S, !csum_0. unfold B. ring.
Qed.
Lemma cov_angmom_empty HSk w v lorbs i j : i <> j -> lorbs i = [] \/ lorbs j = [] -> cov_angmom HSk w v lorbs i j = None.
Proof.
  intros Hne H. apply Nat.eqb_neq in Hne. unfold cov_angmom. rewrite Hne. cbn [negb].
  destruct H as [->|H]; [destruct (lorbs j); reflexivity|]. rewrite H. destruct (lorbs i); reflexivity.
Qed.
(** occupied states: the covalent part of the band structure energy *)
Lemma cov_occupied norb nk wk wf f H0 S epsm : khermitian norb nk S ->
  rsum nk (fun k => rsum norb (fun a => f k a * fst (cov_default norb (HS H0 S epsm k) (wk k) (wf k a)))) =
  fst (ebs_c norb nk wk (krho norb wf f) H0) - rsum norb (fun mu => epsm mu * basis_mulliken norb nk wk (krho norb wf f) S mu).
Proof.
  intros HS0. rewrite <- rhoM_total; [|intros k _; apply rho_hermitian|exact HS0].
  apply rsum_ext. intros k _.
  assert (E : csum norb (fun i => csum norb (fun j => rhoM (krho norb wf f) H0 S epsm k i j)) =
    csum norb (fun a => cmul (rc (f k a)) (csum norb (fun i => csum norb (fun j => cov_term (HS H0 S epsm k) (wf k a) i j))))).
  { transitivity (csum norb (fun i => csum norb (fun a => csum norb (fun j => cmul (rc (f k a)) (cov_term (HS H0 S epsm k) (wf k a) i j))))).
    - apply csum_ext'; intros i _. rewrite csum_swap. apply csum_ext'; intros j _. unfold rhoM, krho, compute_rho. rewrite <- csum_mul_r. apply csum_ext'; intros a _.
      unfold cov_term. rewrite cscale_rc. ring.
    - rewrite csum_swap. apply csum_ext'; intros a _. rewrite <- csum_mul. apply csum_ext'; intros i _. rewrite csum_mul. reflexivity. }
  rewrite E, csum_fst, <- rsum_scal. apply rsum_ext. intros a _. rewrite fst_rc_mul, cov_default_all.
  transitivity (f k a * fst (cmul (rc (wk k)) (csum norb (fun i => csum norb (fun j => cov_term (HS H0 S epsm k) (wf k a) i j))))).
  - f_equal. f_equal. rewrite <- csum_mul. apply csum_ext'; intros i _. rewrite <- csum_mul. apply csum_ext'; intros j _. apply cscale_rc.
  - rewrite fst_rc_mul. ring.
Qed.
(** ** electrostatics *)
Lemma h1_average norb N o1 no eps ext mu nu I J : layout norb N o1 no -> (I < N)%nat -> (J < N)%nat ->
  belongs o1 no mu I -> belongs o1 no nu J ->
  ((forall J, (J < N)%nat -> ext J = 0) \/ exists J, (J < N)%nat /\ / 10 ^ 12 < Rabs (ext J)) ->
  construct_h1 N o1 no eps ext mu nu = ((eps I - ext I) + (eps J - ext J)) / 2.
Proof.
  intros L HI HJ Bm Bn He. rewrite (with_ext N o1 no eps ext mu nu He), (aux_rows_value norb N o1 no _ mu I L HI Bm), (aux_rows_value norb N o1 no _ nu J L HJ Bn). field.
Qed.
Lemma coulomb_gradient N G P dq K : (forall I J, (I < N)%nat -> (J < N)%nat -> G I J + P I J = G J I + P J I) -> (K < N)%nat ->
  let energy q := coulomb_energy N true q (epsilon N G (fun I => rsum N (fun J => P I J * q J)) q) in
  derivable_pt_lim (fun s => energy (fun I => if (I =? K)%nat then dq I + s else dq I)) 0 (epsilon N G (fun I => rsum N (fun J => P I J * dq J)) dq K).
Proof.
  intros Hs HK energy.
  assert (D := D_quadratic N (fun s I => if (I =? K)%nat then dq I + s else dq I) (fun _ I J => G I J + P I J) 0 (fun I => if (I =? K)%nat then 1 else 0) (fun _ _ => 0)).
  cbv beta in D. eapply D_ext; [|eapply D_rew; [apply D|]].
  - intros s. cbv beta. unfold energy, coulomb_energy, epsilon. f_equal. apply rsum_ext. intros I _. f_equal. rewrite <- rsum_plus. apply rsum_ext. intros; ring.
  - intros I _. destruct (I =? K)%nat.
    + eapply D_rew; [apply (derivable_pt_lim_plus (fun _ => dq I) (fun s => s)); [apply derivable_pt_lim_const|apply derivable_pt_lim_id]|ring].
    + apply derivable_pt_lim_const.
  - intros. apply derivable_pt_lim_const.
  - intros; apply Hs; assumption.
  - rewrite (rsum_single N K); [|exact HK|].
    2:{ intros I _ HI. apply Nat.eqb_neq in HI. rewrite HI. ring. }
    rewrite Nat.eqb_refl, (rsum_eq0 N (fun I => _ * rsum N (fun J => 0 * _))).
    2:{ intros I _. rewrite (rsum_eq0 N); [ring|]. intros; ring. }
    unfold epsilon. rewrite <- rsum_plus, Rmult_0_r, Rplus_0_r, Rmult_1_r. apply rsum_ext. intros J _. destruct (J =? K)%nat; ring.
Qed.
Lemma gamma_force_total N SCC dq dG dP : (forall I J, (I < N)%nat -> (J < N)%nat -> dG I J + dP I J = - (dG J I + dP J I)) ->
  rsum N (gamma_force N SCC dq dG (fun I => rsum N (fun J => dq J * dP I J))) = 0.
Proof.
  intros Ha. unfold gamma_force. destruct SCC; [|apply rsum_eq0; reflexivity].
  set (t := fun I J => dq I * dq J * (dG I J + dP I J)).
  assert (E : rsum N (fun I => dq I * (rsum N (fun J => dq J * dG I J) + rsum N (fun J => dq J * dP I J))) = rsum N (fun I => rsum N (fun J => t I J))).
  { apply rsum_ext. intros I _. rewrite <- rsum_plus, <- rsum_scal. apply rsum_ext. intros J _. unfold t. ring. }
  rewrite E. assert (A : rsum N (fun I => rsum N (fun J => t I J)) = - rsum N (fun I => rsum N (fun J => t I J))).
  { rewrite rsum_swap at 1. rewrite <- rsum_opp. apply rsum_ext. intros J HJ. rewrite <- rsum_opp. apply rsum_ext. intros I HI. unfold t. rewrite (Ha I J HI HJ). ring. }
  lra.
Qed.
