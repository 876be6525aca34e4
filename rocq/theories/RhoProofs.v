From Coq Require Import Reals List Bool Arith Lia Lra.
From Verif Require Import Vec GeomModel GeomProofs SkModel SkSpec Cpx RhoModel RhoSpec.
Import ListNotations.
Open Scope R_scope.

(** ** sums over the orbitals of the atoms *)
Lemma rsum_nsum N no f : rsum (nsum N no) f = rsum N (fun I => rsum (no I) (fun m => f (nsum I no + m)%nat)).
Proof. induction N as [|N IH]; [reflexivity|]. cbn [nsum rsum]. rewrite rsum_split, IH. reflexivity. Qed.
Lemma atoms_sum norb N o1 no f : layout norb N o1 no -> rsum N (atom_sum o1 no f) = rsum norb f.
Proof.
  intros [H ->]. rewrite rsum_nsum. apply rsum_ext. intros I HI. unfold atom_sum. rewrite (H I HI). reflexivity.
Qed.
Lemma csum_atoms norb N o1 no f : layout norb N o1 no -> csum N (fun I => csum (no I) (fun m => f (o1 I + m)%nat)) = csum norb f.
Proof.
  intros L. apply cplx_eq; cbn [csum fst snd].
  - apply (atoms_sum norb N o1 no (fun i => fst (f i)) L).
  - apply (atoms_sum norb N o1 no (fun i => snd (f i)) L).
Qed.
Lemma nsum_le I J no : (I <= J -> nsum I no <= nsum J no)%nat.
Proof. intros H. induction H; [lia|]. cbn [nsum]. lia. Qed.
Lemma belongs_lt norb N o1 no mu I : layout norb N o1 no -> (I < N)%nat -> belongs o1 no mu I -> (mu < norb)%nat.
Proof.
  intros [H ->] HI [_ B]. rewrite (H I HI) in B. pose proof (nsum_le (S I) N no). cbn [nsum] in H0. lia.
Qed.
Lemma belongs_unique norb N o1 no mu I J : layout norb N o1 no -> (I < N)%nat -> (J < N)%nat ->
  belongs o1 no mu I -> belongs o1 no mu J -> I = J.
Proof.
  intros [H _] HI HJ [A B] [C D]. rewrite (H I HI) in A, B. rewrite (H J HJ) in C, D.
  destruct (lt_eq_lt_dec I J) as [[L|E]|L]; [|exact E|].
  - pose proof (nsum_le (S I) J no L). cbn [nsum] in H0. lia.
  - pose proof (nsum_le (S J) I no L). cbn [nsum] in H0. lia.
Qed.
Lemma belongs_exists norb N o1 no mu : layout norb N o1 no -> (mu < norb)%nat -> exists I, (I < N)%nat /\ belongs o1 no mu I.
Proof.
  intros [H E] Hm. subst norb. assert (K : forall n, (n <= N)%nat -> (mu < nsum n no)%nat -> exists I, (I < n)%nat /\ belongs o1 no mu I).
  { induction n as [|n IH]; intros Hn L; cbn [nsum] in L; [lia|].
    destruct (le_lt_dec (nsum n no) mu) as [G|G].
    - exists n. split; [lia|]. unfold belongs. rewrite (H n) by lia. lia.
    - destruct (IH ltac:(lia) G) as (I & HI & B). exists I. split; [lia|exact B]. }
  destruct (K N ltac:(lia) Hm) as (I & HI & B). exists I. split; assumption.
Qed.
(** aux_rows is the value of the atom of the orbital *)
Lemma aux_rows_value norb N o1 no v mu I : layout norb N o1 no -> (I < N)%nat -> belongs o1 no mu I -> aux_rows o1 no N v mu = v I.
Proof.
  intros L HI B. assert (K : forall n, (n <= N)%nat -> (I < n)%nat -> aux_rows o1 no n v mu = v I).
  { induction n as [|n IH]; intros Hn HIn; [lia|]. cbn [aux_rows].
    destruct ((o1 n <=? mu) && (mu <? o1 n + no n))%nat eqn:E.
    - apply andb_true_iff in E. destruct E as [E1 E2]. apply Nat.leb_le in E1. apply Nat.ltb_lt in E2.
      f_equal. apply (belongs_unique norb N o1 no mu n I L); [lia|exact HI|split; assumption|exact B].
    - apply IH; [lia|]. assert (I <> n).
      { intros ->. destruct B as [B1 B2]. apply andb_false_iff in E. destruct E as [E|E]; [apply Nat.leb_gt in E|apply Nat.ltb_ge in E]; lia. }
      lia. }
  apply K; [lia|exact HI].
Qed.

(** ** the density matrix *)
Lemma rho_hermitian n wf f : hermitian n (compute_rho n wf f).
Proof.
  intros i j _ _. unfold compute_rho. rewrite csum_conj. apply csum_ext'. intros a _.
  rewrite cscale_rc, cscale_rc, !cconj_mul, cconj_rc, cconj_conj. ring.
Qed.
(** Tr (rho A) = sum f <a|A|a> *)
Lemma trace_rho n m wf (f : nat -> R) A : csum n (fun i => csum n (fun j => cmul (csum m (fun a => cmul (wf a i) (cscale (f a) (cconj (wf a j))))) (A j i)))
  = csum m (fun a => cscale (f a) (bracket n A (wf a) (wf a))).
Proof.
  transitivity (csum n (fun i => csum n (fun j => csum m (fun a => cmul (rc (f a)) (cmul (cmul (cconj (wf a j)) (A j i)) (wf a i)))))).
  { apply csum_ext'; intros i _. apply csum_ext'; intros j _. rewrite <- csum_mul_r. apply csum_ext'; intros a _. rewrite cscale_rc. ring. }
  transitivity (csum n (fun i => csum m (fun a => csum n (fun j => cmul (rc (f a)) (cmul (cmul (cconj (wf a j)) (A j i)) (wf a i)))))).
  { apply csum_ext'; intros i _. apply csum_swap. }
  rewrite csum_swap. apply csum_ext'; intros a _. rewrite cscale_rc. unfold bracket.
  rewrite (csum_swap n n (fun i j => cmul (cmul (cconj (wf a i)) (A i j)) (wf a j))).
  rewrite <- csum_mul. apply csum_ext'; intros i _. rewrite <- csum_mul. reflexivity.
Qed.
Lemma trace_krho n wf f (A : nat -> nat -> cplx) :
  csum n (fun i => csum n (fun j => cmul (compute_rho n wf f i j) (A j i))) = csum n (fun a => cscale (f a) (bracket n A (wf a) (wf a))).
Proof. apply trace_rho. Qed.
Lemma trace_krhoe n wf f e (A : nat -> nat -> cplx) :
  csum n (fun i => csum n (fun j => cmul (compute_rhoe n wf f e i j) (A j i))) = csum n (fun a => cscale (e a * f a) (bracket n A (wf a) (wf a))).
Proof. apply (trace_rho n n wf (fun a => e a * f a)). Qed.
Lemma bracket_conj n A v u : hermitian n A -> cconj (bracket n A v u) = bracket n A u v.
Proof.
  intros H. unfold bracket. rewrite csum_conj. 
  transitivity (csum n (fun i => csum n (fun j => cmul (cmul (cconj (u j)) (A j i)) (v i)))).
  { apply csum_ext'; intros i Hi. rewrite csum_conj. apply csum_ext'; intros j Hj.
    rewrite !cconj_mul, cconj_conj, (H j i Hj Hi). ring. }
  apply csum_swap.
Qed.
Lemma bracket_real n A v : hermitian n A -> snd (bracket n A v v) = 0.
Proof.
  intros H. pose proof (bracket_conj n A v v H) as E. apply (f_equal snd) in E. cbn [cconj snd] in E. lra.
Qed.

(** ** Mulliken populations *)
Lemma csum_rfst n f : fst (csum n f) = rsum n (fun i => fst (f i)). Proof. reflexivity. Qed.
Lemma total_population norb nk wk wf f S : normalised norb nk S wf ->
  rsum norb (diag norb nk wk (krho norb wf f) S) = filling norb nk wk f.
Proof.
  intros Hn. unfold diag, filling. rewrite rsum_swap. apply rsum_ext. intros k Hk. rewrite rsum_scal. f_equal.
  unfold diag_k. 
  transitivity (fst (csum norb (fun i => csum norb (fun j => cmul (krho norb wf f k i j) (S k j i))))); [reflexivity|].
  unfold krho. rewrite trace_krho. rewrite csum_fst. apply rsum_ext. intros a Ha. rewrite (Hn k a Hk Ha).
  cbn [cscale fst c1]. ring.
Qed.
Lemma atoms_total norb N nk o1 no wk wf f S : layout norb N o1 no -> normalised norb nk S wf ->
  rsum N (atom_mulliken norb nk o1 no wk (krho norb wf f) S) = filling norb nk wk f.
Proof.
  intros L Hn. rewrite <- (total_population norb nk wk wf f S Hn), <- (atoms_sum norb N o1 no _ L). reflexivity.
Qed.
Lemma mulliken_ok norb N nk o1 no val wk wf f S charge tol : layout norb N o1 no -> normalised norb nk S wf ->
  filling norb nk wk f = rsum N val - charge -> 0 <= tol ->
  exists dq, mulliken norb N nk o1 no val wk charge tol (krho norb wf f) S = Some dq /\ rsum N dq = - charge /\
  forall I, dq I = atom_mulliken norb nk o1 no wk (krho norb wf f) S I - val I.
Proof.
  intros L Hn Hf Ht. set (rho := krho norb wf f).
  assert (E : rsum N (dq_of norb nk o1 no val wk rho S) = - charge).
  { transitivity (rsum N (atom_mulliken norb nk o1 no wk rho S) - rsum N val); [apply rsum_minus|].
    unfold rho. rewrite (atoms_total norb N nk o1 no wk wf f S L Hn), Hf. ring. }
  exists (dq_of norb nk o1 no val wk rho S). split; [|split; [exact E|reflexivity]].
  unfold mulliken. assert (E' : rsum N (fun I => - dq_of norb nk o1 no val wk rho S I) = - - charge).
  { etransitivity; [apply rsum_opp|]. f_equal. exact E. }
  rewrite E'. replace (- - charge - charge) with 0 by ring. rewrite Rabs_R0. rewrite (proj2 (ltb_false _ _)) by lra. reflexivity.
Qed.
Lemma mulliken_error norb N nk o1 no val wk charge tol rho S : 
  mulliken norb N nk o1 no val wk charge tol rho S = None <-> tol < Rabs (rsum N (fun I => val I - atom_mulliken norb nk o1 no wk rho S I) - charge).
Proof.
  unfold mulliken. cbv zeta. replace (rsum N (fun I => - dq_of norb nk o1 no val wk rho S I)) with (rsum N (fun I => val I - atom_mulliken norb nk o1 no wk rho S I)).
  - destruct (ltb _ _) eqn:E; [apply ltb_true in E|apply ltb_false in E]; split; intros H; try reflexivity; try assumption; try discriminate. lra.
  - apply rsum_ext. intros I _. unfold dq_of, atom_mulliken. ring.
Qed.
Lemma angmom_sum n all : (0 < n)%nat -> exists s p d, angmom n all 0 = Some s /\ angmom n all 1 = Some p /\ angmom n all 2 = Some d /\
  s + p + d = rsum n all.
Proof.
  intros H. unfold angmom. replace (n =? 0)%nat with false by (symmetry; apply Nat.eqb_neq; lia).
  do 3 eexists. split; [reflexivity|]. split; [reflexivity|]. split; [reflexivity|].
  destruct (1 <? n)%nat eqn:E1; [apply Nat.ltb_lt in E1|apply Nat.ltb_ge in E1].
  - destruct (4 <? n)%nat eqn:E4; [apply Nat.ltb_lt in E4|apply Nat.ltb_ge in E4].
    + replace (Nat.min n 4 - 1)%nat with 3%nat by lia.
      replace n with (1 + (3 + (n - 4)))%nat at 2 by lia. rewrite !rsum_split. cbn [rsum Nat.add]. ring.
    + replace (Nat.min n 4 - 1)%nat with (n - 1)%nat by lia.
      replace n with (1 + (n - 1))%nat at 2 by lia. rewrite rsum_split. cbn [rsum Nat.add]. ring.
  - replace n with 1%nat by lia. cbn. ring.
Qed.
(** populations from the states *)
Lemma waux_total norb nk S wf k a : normalised norb nk S wf -> (k < nk)%nat -> (a < norb)%nat -> rsum norb (waux norb wf S k a) = 1.
Proof.
  intros H Hk Ha. pose proof (f_equal fst (H k a Hk Ha)) as E. unfold bracket in E. rewrite csum_fst in E. cbn [c1 fst] in E.
  rewrite <- E. apply rsum_ext. intros mu _. unfold waux. f_equal. rewrite <- csum_mul. apply csum_ext'. intros nu _. ring.
Qed.
Lemma basis_from_states norb nk wk wf f S mu : khermitian norb nk S -> (mu < norb)%nat ->
  diag norb nk wk (krho norb wf f) S mu = rsum nk (fun k => rsum norb (fun a => f k a * basis_wf_mulliken norb wk wf S mu k a true)).
Proof.
  intros H Hm. unfold diag. apply rsum_ext. intros k Hk. unfold diag_k, basis_wf_mulliken.
  transitivity (wk k * rsum norb (fun a => f k a * waux norb wf S k a mu)).
  2:{ rewrite <- rsum_scal. apply rsum_ext. intros; ring. }
  f_equal. unfold krho, compute_rho.
  transitivity (fst (csum norb (fun a => cmul (rc (f k a)) (cconj (cmul (cconj (wf k a mu)) (csum norb (fun nu => cmul (wf k a nu) (S k mu nu)))))))).
  - f_equal. transitivity (csum norb (fun j => csum norb (fun a => cmul (rc (f k a)) (cmul (wf k a mu) (cmul (cconj (wf k a j)) (S k j mu)))))).
    { apply csum_ext'; intros j _. rewrite <- csum_mul_r. apply csum_ext'; intros a _. rewrite cscale_rc. ring. }
    rewrite csum_swap. apply csum_ext'; intros a _. rewrite cconj_mul, cconj_conj, csum_conj, <- !csum_mul.
    apply csum_ext'; intros j Hj. rewrite cconj_mul, <- (H k Hk j mu Hj Hm). reflexivity.
  - rewrite csum_fst. apply rsum_ext. intros a _. rewrite fst_rc_mul, fst_conj. reflexivity.
Qed.
