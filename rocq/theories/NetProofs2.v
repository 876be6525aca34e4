From Coq Require Import Reals ZArith List Bool Arith Lia Lra.
From Verif Require Import Vec GeomModel SkModel SkSpec Cpx RhoModel RhoSpec RhoProofs.
Import ListNotations.
Open Scope R_scope.

(** (G H)_ij + (H G^T)_ij *)
Definition two_sided (n : nat) (G : nat -> nat -> R) (H : nat -> nat -> cplx) (i j : nat) : cplx :=
  cadd (csum n (fun l => cmul (rc (G i l)) (H l j))) (csum n (fun l => cmul (rc (G j l)) (H i l))).
Definition applied (n : nat) (H : nat -> nat -> cplx) (v : nat -> cplx) (i : nat) : cplx := csum n (fun j => cmul (H i j) (v j)).
Lemma bracket_two n G H v : hermitian n H -> bracket n (two_sided n G H) v v =
  csum n (fun i => csum n (fun l => cmul (rc (G i l)) (cadd (cmul (cconj (v i)) (applied n H v l)) (cmul (cconj (applied n H v l)) (v i))))).
Proof.
  intros Hh.
  transitivity (cadd (csum n (fun i => csum n (fun j => csum n (fun l => cmul (cmul (rc (G i l)) (cconj (v i))) (cmul (H l j) (v j))))))
                     (csum n (fun i => csum n (fun j => csum n (fun l => cmul (cmul (rc (G j l)) (v j)) (cmul (cconj (v i)) (H i l))))))).
  { unfold bracket, two_sided. rewrite <- csum_add. apply csum_ext'. intros i _. rewrite <- csum_add. apply csum_ext'. intros j _.
    rewrite <- !csum_add. transitivity (cmul (cmul (cconj (v i)) (v j)) (csum n (fun l => cadd (cmul (rc (G i l)) (H l j)) (cmul (rc (G j l)) (H i l))))); [ring|].
    rewrite <- csum_mul. apply csum_ext'. intros l _. ring. }
  transitivity (cadd (csum n (fun i => csum n (fun l => cmul (rc (G i l)) (cmul (cconj (v i)) (applied n H v l)))))
                     (csum n (fun i => csum n (fun l => cmul (rc (G i l)) (cmul (cconj (applied n H v l)) (v i)))))).
  - f_equal.
    + apply csum_ext'. intros i _. rewrite csum_swap. apply csum_ext'. intros l _. unfold applied. rewrite csum_mul. ring.
    + rewrite csum_swap. apply csum_ext'. intros j _. rewrite csum_swap. apply csum_ext'. intros l Hl. rewrite csum_mul. unfold applied. rewrite csum_conj.
      transitivity (cmul (cmul (rc (G j l)) (v j)) (csum n (fun i => cconj (cmul (H l i) (v i))))); [|ring]. f_equal. apply csum_ext'. intros i Hi. rewrite (Hh i l Hi Hl), cconj_mul. ring.
  - rewrite <- csum_add. apply csum_ext'. intros i _. rewrite <- csum_add. apply csum_ext'. intros l _. ring.
Qed.
Lemma bracket_re n A v : cadd (bracket n A v v) (cconj (bracket n A v v)) = bracket n (fun i j => cadd (A i j) (cconj (A j i))) v v.
Proof.
  unfold bracket. rewrite csum_conj.
  rewrite (csum_ext' n (fun i => cconj _) (fun i => csum n (fun j => cconj (cmul (cmul (cconj (v i)) (A i j)) (v j))))) by (intros; apply csum_conj).
  rewrite (csum_swap n n (fun i j => cconj _)). rewrite <- csum_add. apply csum_ext'. intros i _. rewrite <- csum_add. apply csum_ext'. intros j _.
  rewrite !cconj_mul, cconj_conj. ring.
Qed.
Lemma state_zero n H S v e G A B : hermitian n H -> hermitian n S ->
  (forall i, (i < n)%nat -> csum n (fun j => cmul (H i j) (v j)) = cscale e (csum n (fun j => cmul (S i j) (v j)))) ->
  (forall i j, (i < n)%nat -> (j < n)%nat -> cadd (A i j) (cconj (A j i)) = two_sided n G H i j) ->
  (forall i j, (i < n)%nat -> (j < n)%nat -> cadd (B i j) (cconj (B j i)) = two_sided n G S i j) ->
  fst (bracket n A v v) = e * fst (bracket n B v v).
Proof.
  intros HH HS Ev HA HB.
  assert (E2 : forall K M, (forall i j, (i < n)%nat -> (j < n)%nat -> cadd (K i j) (cconj (K j i)) = two_sided n G M i j) -> 2 * fst (bracket n K v v) = fst (bracket n (two_sided n G M) v v)).
  { intros K M HK. transitivity (fst (cadd (bracket n K v v) (cconj (bracket n K v v)))).
    - rewrite fst_add, fst_conj. ring.
    - rewrite bracket_re. f_equal. unfold bracket. apply csum_ext'. intros i Hi. apply csum_ext'. intros j Hj. rewrite HK by assumption. reflexivity. }
  cut (2 * fst (bracket n A v v) = e * (2 * fst (bracket n B v v))); [lra|].
  rewrite (E2 A H HA), (E2 B S HB), !bracket_two by assumption. rewrite <- fst_rc_mul. f_equal. rewrite <- csum_mul. apply csum_ext'. intros i _. rewrite <- csum_mul. apply csum_ext'. intros l Hl.
  unfold applied. rewrite (Ev l Hl), cscale_rc, cconj_mul, cconj_rc. ring.
Qed.
Lemma trace_state n wf (f : nat -> R) A : csum n (fun i => csum n (fun j => cmul (A i j) (compute_rho n wf f j i))) = csum n (fun a => cscale (f a) (bracket n A (wf a) (wf a))).
Proof. rewrite <- trace_krho. rewrite csum_swap. apply csum_ext'. intros i _. apply csum_ext'. intros j _. ring. Qed.
Lemma rhoe_rho n wf f e i j : compute_rhoe n wf f e i j = compute_rho n wf (fun a => e a * f a) i j.
Proof. unfold compute_rho, compute_rhoe. reflexivity. Qed.
Section Band.
Variables (norb N nk : nat) (o1 no : nat -> nat) (wk : nat -> R) (dH dS : nat -> kmatrix) (H S : kmatrix).
Variables (wf : nat -> nat -> nat -> cplx) (f e : nat -> nat -> R) (G : nat -> nat -> R) (u U : nat -> nat -> R).
Hypothesis L : layout norb N o1 no.
Hypothesis HH : khermitian norb nk H.
Hypothesis HS : khermitian norb nk S.
Hypothesis Ev : forall k a i, (k < nk)%nat -> (a < norb)%nat -> (i < norb)%nat ->
  csum norb (fun j => cmul (H k i j) (wf k a j)) = cscale (e k a) (csum norb (fun j => cmul (S k i j) (wf k a j))).
Hypothesis HU : forall c I m, (I < N)%nat -> (m < no I)%nat -> u c (o1 I + m)%nat = U c I.
Definition along (d : nat -> kmatrix) (k i j : nat) : cplx := csum 3 (fun c => cscale (u c i) (d c k i j)).
Hypothesis HA : forall k i j, (k < nk)%nat -> (i < norb)%nat -> (j < norb)%nat -> cadd (along dH k i j) (cconj (along dH k j i)) = two_sided norb G (H k) i j.
Hypothesis HB : forall k i j, (k < nk)%nat -> (i < norb)%nat -> (j < norb)%nat -> cadd (along dS k i j) (cconj (along dS k j i)) = two_sided norb G (S k) i j.
Lemma band_net : rsum N (fun I => rsum 3 (fun c => U c I * band_structure_force norb nk o1 no wk (dH c) (dS c) (krho norb wf f) (krhoe norb wf f e) I)) = 0.
Proof.
  set (D := fun k i => csum norb (fun j => csub (cmul (along dH k i j) (krho norb wf f k j i)) (cmul (along dS k i j) (krhoe norb wf f e k j i)))).
  transitivity (rsum N (fun I => rsum (no I) (fun m => -2 * fst (csum nk (fun k => cmul (rc (wk k)) (D k (o1 I + m)%nat)))))).
  - apply rsum_ext. intros I HI. unfold band_structure_force.
    rewrite (rsum_ext 3 _ (fun c => rsum (no I) (fun m => 2 * (U c I * fst (fdiag norb nk wk (dH c) (dS c) (krho norb wf f) (krhoe norb wf f e) (o1 I + m)%nat)))))
      by (intros c _; rewrite rsum_scal, rsum_scal; ring).
    rewrite rsum_swap. apply rsum_ext. intros m Hm. rewrite rsum_scal.
    replace (-2 * fst (csum nk (fun k => cmul (rc (wk k)) (D k (o1 I + m)%nat)))) with (2 * (-1 * fst (csum nk (fun k => cmul (rc (wk k)) (D k (o1 I + m)%nat))))) by ring. f_equal.
    rewrite <- fst_rc_mul. unfold fdiag.
    transitivity (fst (csum 3 (fun c => cmul (rc (u c (o1 I + m)%nat)) (csum nk (fun k => cscale (- wk k) (csum norb (fun j => csub (cmul (dH c k (o1 I + m)%nat j) (krho norb wf f k j (o1 I + m)%nat)) (cmul (dS c k (o1 I + m)%nat j) (krhoe norb wf f e k j (o1 I + m)%nat))))))))).
    { rewrite csum_fst. apply rsum_ext. intros c _. rewrite fst_rc_mul, HU by assumption. reflexivity. }
    f_equal. rewrite (csum_ext' 3 _ (fun c => csum nk (fun k => cmul (rc (u c (o1 I + m)%nat)) (cscale (- wk k) (csum norb (fun j => csub (cmul (dH c k (o1 I + m)%nat j) (krho norb wf f k j (o1 I + m)%nat)) (cmul (dS c k (o1 I + m)%nat j) (krhoe norb wf f e k j (o1 I + m)%nat))))))))
      by (intros c _; rewrite csum_mul; reflexivity).
    rewrite csum_swap, <- csum_mul. apply csum_ext'. intros k _. unfold D.
    rewrite (csum_ext' 3 _ (fun c => csum norb (fun j => cmul (rc (- wk k)) (csub (cmul (cscale (u c (o1 I + m)%nat) (dH c k (o1 I + m)%nat j)) (krho norb wf f k j (o1 I + m)%nat)) (cmul (cscale (u c (o1 I + m)%nat) (dS c k (o1 I + m)%nat j)) (krhoe norb wf f e k j (o1 I + m)%nat)))))).
    2:{ intros c _. rewrite cscale_rc, <- !csum_mul. apply csum_ext'. intros j _. rewrite !cscale_rc. ring. }
    rewrite csum_swap, <- !csum_mul. apply csum_ext'. intros j _. rewrite csum_mul. unfold along.
    replace (rc (- wk k)) with (cmul (rc (-1)) (rc (wk k))) by (rewrite <- rc_mul; f_equal; ring).
    rewrite <- !csum_mul_r. unfold csub. rewrite csum_add.
    replace (csum 3 (fun i => copp (cmul (cscale (u i (o1 I + m)%nat) (dS i k (o1 I + m)%nat j)) (krhoe norb wf f e k j (o1 I + m)%nat))))
      with (copp (csum 3 (fun i => cmul (cscale (u i (o1 I + m)%nat) (dS i k (o1 I + m)%nat j)) (krhoe norb wf f e k j (o1 I + m)%nat)))); [ring|].
    apply cplx_eq; unfold copp; cbn [csum rsum fst snd]; ring.
  - pose proof (atoms_sum norb N o1 no (fun i => -2 * fst (csum nk (fun k => cmul (rc (wk k)) (D k i)))) L) as E. unfold atom_sum in E. rewrite E. clear E.
    rewrite rsum_scal, <- csum_fst, csum_swap.
    rewrite csum_fst, (rsum_ext nk _ (fun _ => 0)); [rewrite rsum_zero; ring|]. intros k Hk. rewrite csum_mul, fst_rc_mul.
    replace (fst (csum norb (D k))) with 0; [ring|]. unfold D.
    rewrite (csum_ext' norb _ (fun i => cadd (csum norb (fun j => cmul (along dH k i j) (compute_rho norb (wf k) (f k) j i))) (cmul (rc (-1)) (csum norb (fun j => cmul (along dS k i j) (compute_rho norb (wf k) (fun a => e k a * f k a) j i)))))).
    2:{ intros i _. rewrite <- csum_mul, <- csum_add. apply csum_ext'. intros j _. unfold krho, krhoe. rewrite rhoe_rho. apply cplx_eq; cbn [csub cadd cmul copp rc fst snd]; ring. }
    rewrite csum_add, csum_mul, !trace_state, fst_add, fst_rc_mul, !csum_fst, <- rsum_scal, <- rsum_plus, (rsum_ext norb _ (fun _ => 0)); [rewrite rsum_zero; reflexivity|].
    intros a Ha. rewrite !cscale_rc, !fst_rc_mul.
    rewrite (state_zero norb (H k) (S k) (wf k a) (e k a) G (along dH k) (along dS k) (HH k Hk) (HS k Hk)); [ring|intros i Hi; apply Ev; assumption| |]; intros i j Hi Hj; [apply HA|apply HB]; assumption.
Qed.
End Band.
