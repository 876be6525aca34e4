From Coq Require Import Reals ZArith List Bool Arith Lia Lra FunctionalExtensionality.
From Verif Require Import Vec GeomModel MixModel SkModel SkSpec Cpx RhoModel RhoSpec RhoProofs EigModel EigSpec EigProofs2 InvModel InvSpec InvLin InvProofs.
Import ListNotations.
Open Scope R_scope.

(** ** matrix products *)
Definition mmul (n : nat) (A B : nat -> nat -> cplx) (i j : nat) : cplx := csum n (fun k => cmul (A i k) (B k j)).
Definition dag (A : nat -> nat -> cplx) (i j : nat) : cplx := cconj (A j i).
Definition idm (i j : nat) : cplx := if (i =? j)%nat then c1 else c0.
Definition meq (n : nat) (A B : nat -> nat -> cplx) : Prop := forall i j, (i < n)%nat -> (j < n)%nat -> A i j = B i j.
Lemma mmul_assoc n A B C i j : mmul n (mmul n A B) C i j = mmul n A (mmul n B C) i j.
Proof.
  unfold mmul. rewrite (csum_ext' n _ (fun k => csum n (fun m => cmul (cmul (A i m) (B m k)) (C k j)))) by (intros; rewrite csum_mul_r; reflexivity).
  rewrite csum_swap. apply csum_ext'. intros m _. rewrite <- csum_mul. apply csum_ext'. intros; ring.
Qed.
Lemma mmul_ext n A A' B B' : meq n A A' -> meq n B B' -> meq n (mmul n A B) (mmul n A' B').
Proof. intros H K i j Hi Hj. apply csum_ext'. intros k Hk. rewrite (H i k Hi Hk), (K k j Hk Hj). reflexivity. Qed.
Lemma mmul_id_l n A : meq n (mmul n idm A) A.
Proof. intros i j Hi _. unfold mmul, idm. rewrite (csum_single n i) by (try exact Hi; intros k _ H; rewrite (proj2 (Nat.eqb_neq i k)) by lia; ring). rewrite Nat.eqb_refl. ring. Qed.
Lemma mmul_id_r n A : meq n (mmul n A idm) A.
Proof. intros i j _ Hj. unfold mmul, idm. rewrite (csum_single n j) by (try exact Hj; intros k _ H; rewrite (proj2 (Nat.eqb_neq k j)) by lia; ring). rewrite Nat.eqb_refl. ring. Qed.
Lemma transported_mmul n T A i l : transported n T A i l = mmul n T (mmul n A (dag T)) i l.
Proof. unfold transported, mmul, dag. apply csum_ext'. intros j _. rewrite <- csum_mul. apply csum_ext'. intros; ring. Qed.
Lemma transported_ext n T A B i l : meq n A B -> transported n T A i l = transported n T B i l.
Proof. intros H. unfold transported. apply csum_ext'. intros j Hj. apply csum_ext'. intros m Hm. rewrite (H j m Hj Hm). reflexivity. Qed.
Section Carry.
Context (n : nat) (T : nat -> nat -> cplx) (UT : unitary n T).
Lemma dagT_T : meq n (mmul n (dag T) T) idm. Proof. intros i j Hi Hj. unfold mmul, dag, idm. apply UT; assumption. Qed.
Lemma T_dagT : meq n (mmul n T (dag T)) idm. Proof. intros i j Hi Hj. unfold mmul, dag, idm. apply UT; assumption. Qed.
Lemma meq_refl A : meq n A A. Proof. intros i j _ _. reflexivity. Qed.
Lemma transported_mul A B i l : (i < n)%nat -> (l < n)%nat -> mmul n (transported n T A) (transported n T B) i l = transported n T (mmul n A B) i l.
Proof.
  intros Hi Hl. rewrite transported_mmul.
  transitivity (mmul n (mmul n T (mmul n A (dag T))) (mmul n T (mmul n B (dag T))) i l).
  { apply mmul_ext; try assumption; intros a b _ _; apply transported_mmul. }
  rewrite mmul_assoc. apply mmul_ext; try assumption; [apply meq_refl|]. clear i l Hi Hl. intros i l Hi Hl. rewrite mmul_assoc.
  rewrite (mmul_assoc n A B (dag T)). apply mmul_ext; try assumption; [apply meq_refl|]. clear i l Hi Hl. intros i l Hi Hl.
  rewrite <- mmul_assoc. rewrite (mmul_ext n _ idm _ (mmul n B (dag T)) dagT_T (meq_refl _) i l Hi Hl). apply mmul_id_l; assumption.
Qed.
(** states of the second system in the orbitals of the first *)
Definition back (v : nat -> cplx) (j : nat) : cplx := csum n (fun i => cmul (cconj (T i j)) (v i)).
Lemma forth v i : (i < n)%nat -> csum n (fun j => cmul (T i j) (back v j)) = v i.
Proof.
  intros Hi. unfold back. rewrite (csum_ext' n _ (fun j => csum n (fun l => cmul (cmul (T i j) (cconj (T l j))) (v l)))) by (intros j _; rewrite <- csum_mul; apply csum_ext'; intros; ring).
  rewrite csum_swap. rewrite (csum_ext' n _ (fun l => cmul (v l) (if (i =? l)%nat then c1 else c0))).
  - apply csum_delta. exact Hi.
  - intros l Hl. rewrite csum_mul_r. rewrite (proj1 UT i l Hi Hl). ring.
Qed.
Lemma transported_apply A v i : csum n (fun l => cmul (transported n T A i l) (v l)) = csum n (fun j => cmul (T i j) (csum n (fun m => cmul (A j m) (back v m)))).
Proof.
  transitivity (csum n (fun l => csum n (fun j => csum n (fun m => cmul (cmul (T i j) (A j m)) (cmul (cconj (T l m)) (v l)))))).
  { apply csum_ext'. intros l _. unfold transported. rewrite <- csum_mul_r. apply csum_ext'. intros j _. rewrite <- csum_mul_r. apply csum_ext'. intros; ring. }
  rewrite csum_swap. apply csum_ext'. intros j _. rewrite csum_swap, <- csum_mul. apply csum_ext'. intros m _. rewrite csum_mul. unfold back. ring.
Qed.
Lemma back_apply A v j : (j < n)%nat -> csum n (fun i => cmul (cconj (T i j)) (csum n (fun l => cmul (transported n T A i l) (v l)))) = csum n (fun m => cmul (A j m) (back v m)).
Proof.
  intros Hj. rewrite (csum_ext' n _ (fun i => cmul (cconj (T i j)) (csum n (fun j => cmul (T i j) (csum n (fun m => cmul (A j m) (back v m))))))) by (intros i _; rewrite transported_apply; reflexivity).
  set (x := fun j => csum n (fun m => cmul (A j m) (back v m))). change (csum n (fun m => cmul (A j m) (back v m))) with (x j).
  rewrite (csum_ext' n _ (fun i => csum n (fun l => cmul (cmul (cconj (T i j)) (T i l)) (x l)))) by (intros i _; rewrite <- csum_mul; apply csum_ext'; intros l _; fold (x l); ring).
  rewrite csum_swap. rewrite (csum_ext' n _ (fun l => cmul (x l) (if (j =? l)%nat then c1 else c0))).
  - apply csum_delta. exact Hj.
  - intros l Hl. rewrite csum_mul_r. rewrite (proj2 UT j l Hj Hl). ring.
Qed.
Lemma back_solves H S w e : solves n (transported n T H) (transported n T S) w e -> solves n H S (fun a => back (w a)) e.
Proof.
  intros E a j Ha Hj. rewrite <- !back_apply by exact Hj. rewrite !cscale_rc, <- csum_mul. apply csum_ext'. intros i Hi. rewrite (E a i Ha Hi), cscale_rc. ring.
Qed.
Lemma back_bracket S v u : bracket n S (back v) (back u) = bracket n (transported n T S) v u.
Proof.
  rewrite !bracket_rows. rewrite (csum_ext' n (fun i => cmul (cconj (v i)) _) (fun i => csum n (fun j => cmul (cmul (cconj (v i)) (T i j)) (csum n (fun m => cmul (S j m) (back u m)))))).
  - rewrite csum_swap. apply csum_ext'. intros j _. rewrite csum_mul_r. f_equal. unfold back. rewrite csum_conj. apply csum_ext'. intros i _. rewrite cconj_mul, cconj_conj. ring.
  - intros i _. rewrite transported_apply, <- csum_mul. apply csum_ext'. intros; ring.
Qed.
Lemma density_carried w (f : nat -> R) i l : (i < n)%nat -> (l < n)%nat -> compute_rho n w f i l = transported n T (compute_rho n (fun a => back (w a)) f) i l.
Proof.
  intros Hi Hl. unfold compute_rho, transported.
  transitivity (csum n (fun a => csum n (fun j => csum n (fun m => cmul (cmul (T i j) (cmul (back (w a) j) (cscale (f a) (cconj (back (w a) m))))) (cconj (T l m)))))).
  - apply csum_ext'. intros a Ha. rewrite <- (forth (w a) i Hi) at 1. rewrite <- (forth (w a) l Hl) at 1. rewrite csum_conj, <- csum_mul_r. apply csum_ext'. intros j _.
    rewrite cscale_rc, <- !csum_mul. apply csum_ext'. intros m _. rewrite cconj_mul, cscale_rc. ring.
  - rewrite csum_swap. apply csum_ext'. intros j _. rewrite csum_swap. apply csum_ext'. intros m _. rewrite <- csum_mul, <- csum_mul_r. reflexivity.
Qed.
(** factors that agree on corresponding orbitals *)
Lemma weighted_carried (h h' : nat -> nat -> R) A i l : (i < n)%nat -> (l < n)%nat ->
  (forall i j l m, (i < n)%nat -> (j < n)%nat -> (l < n)%nat -> (m < n)%nat -> T i j <> c0 -> T l m <> c0 -> h' i l = h j m) ->
  transported n T (fun j m => cscale (h j m) (A j m)) i l = cscale (h' i l) (transported n T A i l).
Proof.
  intros Hi Hl M. unfold transported. rewrite cscale_rc, <- csum_mul. apply csum_ext'. intros j Hj. rewrite <- csum_mul. apply csum_ext'. intros m Hm. rewrite cscale_rc.
  destruct (cplx_dec (T i j)) as [->|N1]; [ring|]. destruct (cplx_dec (T l m)) as [E|N2]; [rewrite E; replace (cconj c0) with c0 by (apply cplx_eq; cbn; ring); ring|].
  rewrite (M i j l m Hi Hj Hl Hm N1 N2). ring.
Qed.
Lemma hermitian_carried A : hermitian n A -> hermitian n (transported n T A).
Proof.
  intros H i l Hi Hl. unfold transported. rewrite csum_conj. rewrite csum_swap. apply csum_ext'. intros m Hm. rewrite csum_conj. apply csum_ext'. intros j Hj.
  rewrite !cconj_mul, cconj_conj, <- (H j m Hj Hm). ring.
Qed.
(** sums over the orbitals of one atom *)
Lemma block_trace (o o' : nat -> bool) A B : (forall i j, (i < n)%nat -> (j < n)%nat -> T i j <> c0 -> o' i = o j) ->
  csum n (fun i => if o' i then mmul n (transported n T A) (transported n T B) i i else c0) = csum n (fun j => if o j then mmul n A B j j else c0).
Proof.
  intros M. set (P := mmul n A B).
  transitivity (csum n (fun i => csum n (fun j => csum n (fun m => cmul (if o j then P j m else c0) (cmul (cconj (T i m)) (T i j)))))).
  - apply csum_ext'. intros i Hi. assert (E : mmul n (transported n T A) (transported n T B) i i = transported n T P i i) by (apply transported_mul; assumption). rewrite E.
    unfold transported. destruct (o' i) eqn:Oi.
    + apply csum_ext'. intros j Hj. apply csum_ext'. intros m Hm. destruct (cplx_dec (T i j)) as [->|N]; [ring|]. rewrite <- (M i j Hi Hj N), Oi. ring.
    + symmetry. apply csum_zero. intros j Hj. apply csum_zero. intros m Hm. destruct (cplx_dec (T i j)) as [->|N]; [ring|]. rewrite <- (M i j Hi Hj N), Oi. ring.
  - rewrite csum_swap. apply csum_ext'. intros j Hj. rewrite csum_swap. rewrite (csum_ext' n _ (fun m => cmul (if o j then P j m else c0) (if (m =? j)%nat then c1 else c0))).
    + rewrite (csum_ext' n _ (fun m => cmul (if o j then P j m else c0) (if (j =? m)%nat then c1 else c0))) by (intros m _; rewrite Nat.eqb_sym; reflexivity).
      rewrite (csum_delta n j (fun m => if o j then P j m else c0)) by exact Hj. reflexivity.
    + intros m Hm. rewrite csum_mul. rewrite (proj2 UT m j Hm Hj). reflexivity.
Qed.
Lemma full_trace A B : csum n (fun i => mmul n (transported n T A) (transported n T B) i i) = csum n (fun j => mmul n A B j j).
Proof. exact (block_trace (fun _ => true) (fun _ => true) A B (fun _ _ _ _ _ => eq_refl)). Qed.
End Carry.

(** ** two eigenvalue problems related by T *)
Lemma states_of_eigenstate n H S h w e : (forall a, (a < n)%nat -> RhoSpec.eigenstate n H S h (w a) (e a)) -> solves n (fun i j => cadd (H i j) (cscale (h i j) (S i j))) S w e.
Proof. intros E a i Ha Hi. exact (E a Ha i Hi). Qed.
Lemma solves_ext n H H' S S' w e : meq n H H' -> meq n S S' -> solves n H S w e -> solves n H' S' w e.
Proof.
  intros A B E a i Ha Hi. rewrite (csum_ext' n _ (fun j => cmul (H i j) (w a j))) by (intros j Hj; rewrite (A i j Hi Hj); reflexivity). rewrite (E a i Ha Hi).
  f_equal. apply csum_ext'. intros j Hj. rewrite (B i j Hi Hj). reflexivity.
Qed.
Lemma solved_alike n T H S H' S' w e w' e' : unitary n T -> hermitian n H -> hermitian n S -> meq n H' (transported n T H) -> meq n S' (transported n T S) ->
  orthoset n S w -> orthoset n S' w' -> solves n H S w e -> solves n H' S' w' e' -> sorted n e -> sorted n e' ->
  (forall a, (a < n)%nat -> e' a = e a) /\
  forall (phi : R -> R) i l, (i < n)%nat -> (l < n)%nat -> compute_rho n w' (fun a => phi (e' a)) i l = transported n T (compute_rho n w (fun a => phi (e a))) i l.
Proof.
  intros U hH hS EH ES o o' s s' d d'. set (u := fun a => back n T (w' a)).
  assert (ou : orthoset n S u).
  { intros a b Ha Hb. unfold u. rewrite (back_bracket n T). rewrite <- (o' a b Ha Hb). apply InvLin.bracket_mat. intros i j Hi Hj. symmetry. apply ES; assumption. }
  assert (su : solves n H S u e'). { apply (back_solves n T U). apply (solves_ext n H' _ S' _ w' e'); assumption. }
  split.
  - intros a Ha. symmetry. apply (energies_unique n H S w u e e'); assumption.
  - intros phi i l Hi Hl. rewrite (density_carried n T U w' _ i l Hi Hl). apply transported_ext. intros j m Hj Hm.
    exact (density_unique n H S w u e e' hH hS o ou s su phi j m Hj Hm).
Qed.
