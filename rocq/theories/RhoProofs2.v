From Coq Require Import Reals List Bool Arith Lia Lra.
From Verif Require Import Vec GeomModel GeomProofs SkModel SkSpec Cpx RhoModel RhoSpec RhoProofs.
Import ListNotations.
Open Scope R_scope.

(** ** band structure energy *)
Lemma ebs_states norb nk wk wf f H0 : ebs_c norb nk wk (krho norb wf f) H0 =
  csum nk (fun k => cscale (wk k) (csum norb (fun a => cscale (f k a) (bracket norb (H0 k) (wf k a) (wf k a))))).
Proof. unfold ebs_c. apply csum_ext'. intros k _. f_equal. unfold krho. apply trace_krho. Qed.
Lemma ebs_real norb nk wk wf f H0 : khermitian norb nk H0 -> snd (ebs_c norb nk wk (krho norb wf f) H0) = 0.
Proof.
  intros H. rewrite ebs_states. cbn [csum snd]. apply rsum_eq0. intros k Hk. cbn [cscale snd csum].
  rewrite rsum_eq0; [ring|]. intros a _. rewrite bracket_real by (apply H; exact Hk). ring.
Qed.
Lemma ebs_value norb nk wk wf f H0 tol : khermitian norb nk H0 -> 0 < tol ->
  band_structure_energy norb nk wk tol (krho norb wf f) H0 =
  Some (state_sum norb nk wk f (fun k a => fst (bracket norb (H0 k) (wf k a) (wf k a)))).
Proof.
  intros H T. unfold band_structure_energy. rewrite (ebs_real norb nk wk wf f H0 H).
  rewrite (proj2 (ltb_true _ _)) by lra. f_equal. rewrite ebs_states. reflexivity.
Qed.
Lemma state_sum_ext norb nk wk f x y : (forall k a, (k < nk)%nat -> (a < norb)%nat -> x k a = y k a) ->
  state_sum norb nk wk f x = state_sum norb nk wk f y.
Proof.
  intros H. unfold state_sum. apply rsum_ext. intros k Hk. f_equal. apply rsum_ext. intros a Ha. rewrite (H k a Hk Ha). reflexivity.
Qed.
Lemma state_sum_plus norb nk wk f x y : state_sum norb nk wk f (fun k a => x k a + y k a) = state_sum norb nk wk f x + state_sum norb nk wk f y.
Proof.
  unfold state_sum. rewrite <- rsum_plus. apply rsum_ext. intros k _. rewrite <- Rmult_plus_distr_l. f_equal.
  rewrite <- rsum_plus. apply rsum_ext. intros; ring.
Qed.
Lemma bracket_eigen n H S h1 u v e : eigenstate n H S h1 v e ->
  bracket n (fun i j => cadd (H i j) (cscale (h1 i j) (S i j))) u v = cscale e (bracket n S u v).
Proof.
  intros E. unfold bracket. rewrite cscale_rc, <- csum_mul. apply csum_ext'; intros i Hi.
  specialize (E i Hi).
  transitivity (cmul (cconj (u i)) (csum n (fun j => cmul (cadd (H i j) (cscale (h1 i j) (S i j))) (v j)))).
  { rewrite <- csum_mul. apply csum_ext'; intros; ring. }
  rewrite E, cscale_rc. rewrite <- !csum_mul. apply csum_ext'; intros; ring.
Qed.
Lemma bracket_add n A B v u : bracket n (fun i j => cadd (A i j) (B i j)) v u = cadd (bracket n A v u) (bracket n B v u).
Proof.
  unfold bracket. rewrite <- csum_add. apply csum_ext'; intros i _. rewrite <- csum_add. apply csum_ext'; intros j _. ring.
Qed.
(** averaging over the two indices of a symmetric sum *)
Lemma sym_avg n (t : nat -> nat -> R) (p : nat -> R) : (forall i j, (i < n)%nat -> (j < n)%nat -> t i j = t j i) ->
  rsum n (fun i => rsum n (fun j => / 2 * (p i + p j) * t i j)) = rsum n (fun i => p i * rsum n (t i)).
Proof.
  intros H. set (A := rsum n (fun i => p i * rsum n (t i))).
  assert (E1 : rsum n (fun i => rsum n (fun j => p i * t i j)) = A).
  { apply rsum_ext; intros i _. apply rsum_scal. }
  assert (E2 : rsum n (fun i => rsum n (fun j => p j * t i j)) = A).
  { rewrite rsum_swap. rewrite <- E1. apply rsum_ext; intros i Hi. apply rsum_ext; intros j Hj. rewrite (H j i Hj Hi). reflexivity. }
  transitivity (/ 2 * (A + A)); [|lra]. rewrite <- E1 at 1. rewrite <- E2.
  rewrite <- rsum_plus, <- rsum_scal. apply rsum_ext; intros i _. rewrite <- rsum_plus, <- rsum_scal. apply rsum_ext; intros j _. ring.
Qed.
Lemma fst_scale_mul3 h x y z : fst (cmul (cmul x (cscale h y)) z) = h * fst (cmul (cmul x y) z).
Proof. unfold cmul, cscale. cbn [fst snd]. ring. Qed.
Lemma bracket_avg n S p v : hermitian n S ->
  fst (bracket n (fun i j => cscale (/ 2 * (p i + p j)) (S i j)) v v) =
  rsum n (fun i => p i * fst (cmul (cconj (v i)) (csum n (fun j => cmul (v j) (S i j))))).
Proof.
  intros H. unfold bracket. rewrite csum_fst.
  transitivity (rsum n (fun i => rsum n (fun j => / 2 * (p i + p j) * fst (cmul (cmul (cconj (v i)) (S i j)) (v j))))).
  { apply rsum_ext; intros i _. rewrite csum_fst. apply rsum_ext; intros j _. apply fst_scale_mul3. }
  rewrite sym_avg.
  - apply rsum_ext; intros i _. f_equal. rewrite <- csum_mul, csum_fst. apply rsum_ext; intros j _. f_equal. ring.
  - intros i j Hi Hj. transitivity (fst (cconj (cmul (cmul (cconj (v i)) (S i j)) (v j)))); [symmetry; apply fst_conj|].
    f_equal. rewrite !cconj_mul, cconj_conj, <- (H j i Hj Hi). ring.
Qed.
(** the shift of the levels, without external potential *)
Lemma no_ext N (o1 no : nat -> nat) eps ext mu nu : (forall I, (I < N)%nat -> ext I = 0) ->
  construct_h1 N o1 no eps ext mu nu = / 2 * (aux_rows o1 no N eps mu + aux_rows o1 no N eps nu).
Proof.
  intros H. unfold construct_h1. cbv zeta.
  assert (E : existsb (fun I => ltb (/ 10 ^ 12) (Rabs (ext I))) (seq 0 N) = false).
  { apply not_true_is_false. intros E. apply existsb_exists in E. destruct E as (I & HI & E). apply in_seq in HI.
    rewrite (H I) in E by lia. rewrite Rabs_R0 in E. apply ltb_true in E. assert (0 < / 10 ^ 12) by (apply Rinv_0_lt_compat; lra). lra. }
  rewrite E. reflexivity.
Qed.
Lemma weighted_atoms norb N (o1 no : nat -> nat) eps d : layout norb N o1 no ->
  rsum norb (fun i => aux_rows o1 no N eps i * d i) = rsum N (fun I => eps I * atom_sum o1 no d I).
Proof.
  intros L. rewrite <- (atoms_sum norb N o1 no (fun i => aux_rows o1 no N eps i * d i) L).
  apply rsum_ext. intros I HI. unfold atom_sum. rewrite <- rsum_scal. apply rsum_ext. intros m Hm. f_equal.
  apply (aux_rows_value norb N o1 no eps _ I L HI). split; lia.
Qed.
(** sum f <a| h1 S |a> = sum eps_I q_I *)
Lemma shift_energy norb N nk (o1 no : nat -> nat) wk wf f S eps : layout norb N o1 no -> khermitian norb nk S ->
  state_sum norb nk wk f (fun k a => fst (bracket norb (fun i j => cscale (/ 2 * (aux_rows o1 no N eps i + aux_rows o1 no N eps j)) (S k i j)) (wf k a) (wf k a)))
  = rsum N (fun I => eps I * atom_mulliken norb nk o1 no wk (krho norb wf f) S I).
Proof.
  intros L H. unfold atom_mulliken. rewrite <- (weighted_atoms norb N o1 no eps _ L). set (p := aux_rows o1 no N eps).
  transitivity (state_sum norb nk wk f (fun k a => rsum norb (fun i => p i * waux norb wf S k a i))).
  { apply state_sum_ext. intros k a Hk Ha. rewrite bracket_avg by (apply H; exact Hk). reflexivity. }
  unfold state_sum. 
  transitivity (rsum norb (fun i => p i * rsum nk (fun k => rsum norb (fun a => f k a * (wk k * waux norb wf S k a i))))).
  2:{ apply rsum_ext. intros i Hi. f_equal. rewrite (basis_from_states norb nk wk wf f S i H Hi). reflexivity. }
  transitivity (rsum nk (fun k => rsum norb (fun i => p i * rsum norb (fun a => f k a * (wk k * waux norb wf S k a i))))).
  2:{ rewrite rsum_swap. apply rsum_ext. intros i _. rewrite rsum_scal. reflexivity. }
  apply rsum_ext. intros k _. rewrite <- rsum_scal.
  transitivity (rsum norb (fun a => rsum norb (fun i => p i * (f k a * (wk k * waux norb wf S k a i))))).
  { apply rsum_ext. intros a _. rewrite <- !rsum_scal. apply rsum_ext. intros i _. ring. }
  rewrite rsum_swap. apply rsum_ext. intros i _. rewrite rsum_scal. reflexivity.
Qed.
(** the sum of the levels *)
Lemma levels_sum norb N nk (o1 no : nat -> nat) wk wf f e H0 S eps ext tol : layout norb N o1 no ->
  khermitian norb nk H0 -> khermitian norb nk S -> normalised norb nk S wf -> 0 < tol ->
  (forall I, (I < N)%nat -> ext I = 0) ->
  (forall k a, (k < nk)%nat -> (a < norb)%nat -> eigenstate norb (H0 k) (S k) (construct_h1 N o1 no eps ext) (wf k a) (e k a)) ->
  exists ebs, band_structure_energy norb nk wk tol (krho norb wf f) H0 = Some ebs /\
  state_sum norb nk wk f e = ebs + rsum N (fun I => eps I * atom_mulliken norb nk o1 no wk (krho norb wf f) S I).
Proof.
  intros L HH HS Hn Ht He HE. eexists. split; [apply ebs_value; assumption|].
  rewrite <- (shift_energy norb N nk o1 no wk wf f S eps L HS), <- state_sum_plus.
  apply state_sum_ext. intros k a Hk Ha.
  pose proof (bracket_eigen norb (H0 k) (S k) _ (wf k a) (wf k a) (e k a) (HE k a Hk Ha)) as E.
  rewrite (Hn k a Hk Ha) in E. apply (f_equal fst) in E. rewrite bracket_add in E. rewrite fst_add in E.
  cbn [cscale fst c1] in E. rewrite Rmult_1_r in E. rewrite <- E. f_equal. f_equal. unfold bracket.
  apply csum_ext'; intros i Hi. apply csum_ext'; intros j Hj. rewrite (no_ext N o1 no eps ext i j He). reflexivity.
Qed.
(** guess *)
Lemma guess_sum N SCC count charge p0 p1 : (0 < N)%nat -> (SCC = false -> charge = 0) ->
  ((1 <= count)%nat -> rsum N p0 = - charge) -> ((2 <= count)%nat -> rsum N p1 = - charge) ->
  rsum N (guess_dq N SCC count charge p0 p1) = - charge.
Proof.
  intros HN HS H0 H1. unfold guess_dq. destruct SCC; cbn [negb].
  - destruct count as [|[|c]].
    + rewrite rsum_const. field. apply not_0_INR. lia.
    + apply H0. lia.
    + rewrite rsum_plus, rsum_minus. rewrite H0, H1 by lia. ring.
  - rewrite HS by reflexivity. rewrite rsum_zero. ring.
Qed.

(** ** moving one atom *)
Lemma cderiv_unique f t x y : cderivative f t x -> cderivative f t y -> x = y.
Proof. intros [A B] [C D]. apply cplx_eq; [apply (uniqueness_limite _ _ _ _ A C)|apply (uniqueness_limite _ _ _ _ B D)]. Qed.
Definition Dmat := matrix_derivative.
Definition Dvec := vector_derivative.
Lemma D_bracket n A v t A' v' : Dmat n A t A' -> Dvec n v t v' ->
  cderivative (fun s => bracket n (A s) (v s) (v s)) t
    (cadd (cadd (bracket n (A t) v' (v t)) (bracket n A' (v t) (v t))) (bracket n (A t) (v t) v')).
Proof.
  intros DA Dv. unfold bracket.
  eapply CD_eq.
  - apply (CD_sum n (fun i s => csum n (fun j => cmul (cmul (cconj (v s i)) (A s i j)) (v s j)))). intros i Hi.
    apply (CD_sum n (fun j s => cmul (cmul (cconj (v s i)) (A s i j)) (v s j))). intros j Hj.
    apply (CD_mul (fun s => cmul (cconj (v s i)) (A s i j)) (fun s => v s j)); [|apply Dv; exact Hj].
    apply (CD_mul (fun s => cconj (v s i)) (fun s => A s i j)); [|apply DA; assumption].
    apply (CD_conj (fun s => v s i)). apply Dv. exact Hi.
  - cbv beta. rewrite <- !csum_add. apply csum_ext'; intros i _. rewrite <- !csum_add. apply csum_ext'; intros j _. ring.
Qed.
Lemma hellmann_feynman n H S h1 v t H' S' v' e :
  hermitian n (H t) -> hermitian n (S t) -> (forall i j, h1 i j = h1 j i) ->
  Dmat n H t H' -> Dmat n S t S' -> Dvec n v t v' -> (forall s, bracket n (S s) (v s) (v s) = c1) ->
  eigenstate n (H t) (S t) h1 (v t) e ->
  cderivative (fun s => bracket n (fun i j => cadd (H s i j) (cscale (h1 i j) (S s i j))) (v s) (v s)) t
    (csub (bracket n (fun i j => cadd (H' i j) (cscale (h1 i j) (S' i j))) (v t) (v t)) (cscale e (bracket n S' (v t) (v t)))).
Proof.
  intros HH HS Hh DH DS Dv Hn HE.
  set (A := fun s i j => cadd (H s i j) (cscale (h1 i j) (S s i j))).
  set (A' := fun i j => cadd (H' i j) (cscale (h1 i j) (S' i j))).
  assert (HA : hermitian n (A t)).
  { intros i j Hi Hj. unfold A. rewrite cconj_add, !cscale_rc, cconj_mul, cconj_rc, <- (HH i j Hi Hj), <- (HS i j Hi Hj), (Hh i j). reflexivity. }
  assert (DA : Dmat n A t A').
  { intros i j Hi Hj. unfold A, A'. apply (CD_add (fun s => H s i j) (fun s => cscale (h1 i j) (S s i j))); [apply DH; assumption|].
    eapply CD_eq; [|rewrite cscale_rc; reflexivity].
    assert (K := CD_mul (fun _ => rc (h1 i j)) (fun s => S s i j) t _ _ (CD_const (rc (h1 i j)) t) (DS i j Hi Hj)).
    cbv beta in K. eapply CD_eq; [|instantiate (1 := cadd (cmul c0 (S t i j)) (cmul (rc (h1 i j)) (S' i j))); ring].
    destruct K as [K1 K2]. split; [eapply derivable_pt_lim_ext; [|exact K1]|eapply derivable_pt_lim_ext; [|exact K2]];
    intros z; rewrite cscale_rc; reflexivity. }
  assert (E1 := D_bracket n A v t A' v' DA Dv).
  assert (E2 := D_bracket n S v t S' v' DS Dv).
  assert (E3 : cderivative (fun s => bracket n (S s) (v s) (v s)) t c0).
  { destruct (CD_const c1 t) as [K1 K2]. split; [eapply derivable_pt_lim_ext; [|exact K1]|eapply derivable_pt_lim_ext; [|exact K2]];
    intros z; rewrite Hn; reflexivity. }
  pose proof (cderiv_unique _ _ _ _ E2 E3) as E4.
  assert (B1 : bracket n (A t) v' (v t) = cscale e (bracket n (S t) v' (v t))) by (apply bracket_eigen; exact HE).
  assert (B2 : bracket n (A t) (v t) v' = cscale e (bracket n (S t) (v t) v')).
  { rewrite <- (bracket_conj n (A t) v' (v t) HA), <- (bracket_conj n (S t) v' (v t) HS), B1.
    rewrite !cscale_rc, cconj_mul, cconj_rc. reflexivity. }
  eapply CD_eq; [exact E1|]. rewrite B1, B2, !cscale_rc.
  set (x := bracket n (S t) v' (v t)) in *. set (y := bracket n S' (v t) (v t)) in *. set (z := bracket n (S t) (v t) v') in *.
  assert (Y : y = copp (cadd x z)).
  { transitivity (cadd (cadd (cadd x y) z) (copp (cadd x z))); [ring|]. rewrite E4. ring. }
  rewrite Y. ring.
Qed.
