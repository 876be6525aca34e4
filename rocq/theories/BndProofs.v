From Coq Require Import Reals ZArith List Bool Arith Lia Lra FunctionalExtensionality.
From Verif Require Import Vec GeomModel MixModel OccModel OccProofs SkModel SkSpec Cpx RhoModel RhoSpec RhoProofs EigModel EigSpec EigProofs2 GamModel InvModel InvSpec InvLin InvProofs InvProofs2 InvProofs3 BndModel BndSpec.
Import ListNotations.
Open Scope R_scope.

(** ** conjugation of everything *)
Lemma mir_add b x y : mirrored b (cadd x y) = cadd (mirrored b x) (mirrored b y). Proof. destruct b; [apply cconj_add|reflexivity]. Qed.
Lemma mir_mul b x y : mirrored b (cmul x y) = cmul (mirrored b x) (mirrored b y). Proof. destruct b; [apply cconj_mul|reflexivity]. Qed.
Lemma mir_conj b x : mirrored b (cconj x) = cconj (mirrored b x). Proof. destruct b; reflexivity. Qed.
Lemma mir_scale b k x : mirrored b (cscale k x) = cscale k (mirrored b x). Proof. destruct b; [rewrite !cscale_rc; cbn [mirrored]; rewrite cconj_mul, cconj_rc|]; reflexivity. Qed.
Lemma mir_sum b n f : mirrored b (csum n f) = csum n (fun i => mirrored b (f i)). Proof. destruct b; [apply csum_conj|reflexivity]. Qed.
Lemma mir_mir b x : mirrored b (mirrored b x) = x. Proof. destruct b; [apply cconj_conj|reflexivity]. Qed.
Lemma mir_fst b x : fst (mirrored b x) = fst x. Proof. destruct b; reflexivity. Qed.
Lemma mir_real b (t : bool) : mirrored b (if t then c1 else c0) = if t then c1 else c0.
Proof. destruct b, t; try reflexivity; apply cplx_eq; cbn; ring. Qed.
Definition mirm (b : bool) (A : nat -> nat -> cplx) (i j : nat) : cplx := mirrored b (A i j).
Lemma mirm_hermitian n b A : hermitian n A -> hermitian n (mirm b A).
Proof. intros H i j Hi Hj. unfold mirm. rewrite (H i j Hi Hj). apply mir_conj. Qed.
Lemma mirm_mmul n b A B i j : mmul n (mirm b A) (mirm b B) i j = mirrored b (mmul n A B i j).
Proof. unfold mmul. rewrite mir_sum. apply csum_ext'. intros k _. unfold mirm. rewrite mir_mul. reflexivity. Qed.
Lemma mirm_bracket n b S v u : bracket n (mirm b S) (fun i => mirrored b (v i)) (fun i => mirrored b (u i)) = mirrored b (bracket n S v u).
Proof.
  rewrite !bracket_rows, mir_sum. apply csum_ext'. intros i _. rewrite mir_mul, mir_conj, mir_sum. f_equal. apply csum_ext'. intros j _. unfold mirm. rewrite mir_mul. reflexivity.
Qed.
Lemma mirm_solves n b H S w e : solves n H S w e -> solves n (mirm b H) (mirm b S) (fun a i => mirrored b (w a i)) e.
Proof.
  intros E a i Ha Hi. rewrite (csum_ext' n _ (fun j => mirrored b (cmul (H i j) (w a j)))) by (intros j _; unfold mirm; rewrite mir_mul; reflexivity).
  rewrite <- mir_sum, (E a i Ha Hi), mir_scale, mir_sum. f_equal. apply csum_ext'. intros j _. unfold mirm. rewrite mir_mul. reflexivity.
Qed.
Lemma mirm_rho n b w f i l : compute_rho n (fun a i => mirrored b (w a i)) f i l = mirrored b (compute_rho n w f i l).
Proof. unfold compute_rho. rewrite mir_sum. apply csum_ext'. intros a _. rewrite mir_mul, mir_scale, mir_conj. reflexivity. Qed.
(** two eigenvalue problems related by conjugation *)
Lemma solved_mirrored n b H S H' S' w e w' e' : hermitian n H -> hermitian n S -> meq n H (mirm b H') -> meq n S (mirm b S') ->
  orthoset n S w -> orthoset n S' w' -> solves n H S w e -> solves n H' S' w' e' -> sorted n e -> sorted n e' ->
  (forall a, (a < n)%nat -> e a = e' a) /\
  forall (phi : R -> R) i l, (i < n)%nat -> (l < n)%nat -> compute_rho n w (fun a => phi (e a)) i l = mirrored b (compute_rho n w' (fun a => phi (e' a)) i l).
Proof.
  intros hH hS EH ES o o' s s' d d'. set (u := fun a i => mirrored b (w' a i)).
  assert (ou : orthoset n S u).
  { intros p q Hp Hq. rewrite <- (mir_real b). rewrite <- (o' p q Hp Hq). unfold u. rewrite <- mirm_bracket. apply InvLin.bracket_mat. exact ES. }
  assert (su : solves n H S u e').
  { apply (solves_ext n (mirm b H') _ (mirm b S')); [intros i j Hi Hj; symmetry; apply EH; assumption|intros i j Hi Hj; symmetry; apply ES; assumption|]. apply mirm_solves. exact s'. }
  split.
  - intros a Ha. apply (energies_unique n H S w u e e'); assumption.
  - intros phi i l Hi Hl. rewrite <- mirm_rho. symmetry. exact (density_unique n H S w u e e' hH hS o ou s su phi i l Hi Hl).
Qed.
(** ** traces of products of Hermitian matrices are real *)
Lemma rho_hermitian n w f : hermitian n (compute_rho n w f).
Proof.
  intros i j _ _. unfold compute_rho. rewrite csum_conj. apply csum_ext'. intros a _. rewrite !cscale_rc, !cconj_mul, cconj_rc, cconj_conj. ring.
Qed.
Lemma trace_real n A B : hermitian n A -> hermitian n B -> snd (csum n (fun i => csum n (fun j => cmul (A i j) (B j i)))) = 0.
Proof.
  intros hA hB. set (t := csum n _). assert (E : cconj t = t).
  { unfold t at 1. rewrite csum_conj. rewrite (csum_ext' n _ (fun i => csum n (fun j => cmul (A j i) (B i j)))).
    - rewrite csum_swap. reflexivity.
    - intros i Hi. rewrite csum_conj. apply csum_ext'. intros j Hj. rewrite cconj_mul, <- (hA j i Hj Hi), <- (hB i j Hi Hj). reflexivity. }
  apply (f_equal snd) in E. cbn [cconj snd] in E. lra.
Qed.
