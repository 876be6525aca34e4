From Coq Require Import Reals ZArith String List Bool Arith Lia Lra.
From Verif Require Import Vec GeomModel GeomProofs SkModel SkSpec Cpx RhoModel RhoSpec KsModel EigModel EigSpec.
Import ListNotations.
Open Scope R_scope.

(** ** eigenstates *)
Lemma fmem_at N A i j : (i < N)%nat -> fmem N A (i + N * j) = A i j.
Proof.
  intros Hi. unfold fmem. rewrite (Nat.mul_comm N j), Nat.mod_add, Nat.div_add by lia. rewrite Nat.mod_small, Nat.div_small by exact Hi. reflexivity.
Qed.
Lemma lower_hermitian N A i j : hermitian N A -> (i < N)%nat -> (j < N)%nat -> lower_matrix N (fmem N A) i j = A i j.
Proof.
  intros H Hi Hj. unfold lower_matrix. destruct (Nat.ltb_spec j i); [apply fmem_at; exact Hi|]. destruct (Nat.ltb_spec i j).
  - rewrite fmem_at by exact Hj. symmetry. apply H; assumption.
  - assert (j = i) by lia. subst j. rewrite fmem_at by exact Hi. apply cplx_eq; [reflexivity|]. cbn [rc snd].
    pose proof (f_equal snd (H i i Hi Hi)) as E. unfold cconj in E. cbn [snd] in E. lra.
Qed.
Lemma norms_bracket N S wf a : norms N S wf a = bracket N S (wf a) (wf a).
Proof.
  unfold norms, bracket. rewrite (csum_swap N N (fun i j => cmul (cmul (cconj (wf a i)) (S i j)) (wf a j))).
  apply csum_ext'. intros j _. rewrite csum_mul_r. reflexivity.
Qed.
Lemma bracket_ext N A B v v' u u' : (forall i j, (i < N)%nat -> (j < N)%nat -> A i j = B i j) -> (forall i, (i < N)%nat -> v i = v' i) -> (forall i, (i < N)%nat -> u i = u' i) ->
  bracket N A v u = bracket N B v' u'.
Proof. intros H1 H2 H3. unfold bracket. apply csum_ext'. intros i Hi. apply csum_ext'. intros j Hj. rewrite H1, H2, H3 by assumption. reflexivity. Qed.
Lemma cabs_0 z : z = c1 -> cabs (csub z c1) = 0.
Proof. intros ->. unfold cabs, csub, copp, cadd, c1. cbn [fst snd]. match goal with |- sqrt ?x = 0 => replace x with 0 by ring end. apply sqrt_0. Qed.
Lemma diag_success z N tol evmin w0 H S : lapack_contract z -> hermitian N H -> hermitian N S -> 0 <= tol -> succeeds z N H S w0 ->
  exists e wf, diagonalize z N tol evmin w0 H S = inr (e, wf) /\
    (forall a, (a < N)%nat -> RhoSpec.eigenstate N H S (fun _ _ => 0) (wf a) (e a)) /\
    (forall a b, (a < N)%nat -> (b < N)%nat -> bracket N S (wf a) (wf b) = if (a =? b)%nat then c1 else c0) /\
    (forall a b, (a <= b)%nat -> (b < N)%nat -> e a <= e b).
Proof.
  intros Hz HH HS Ht Hok. unfold succeeds in Hok. unfold diagonalize, geig. destruct (z N (fmem N H) (fmem N S) w0) as [[info m] w] eqn:E. cbn [fst] in Hok.
  destruct (Hz _ _ _ _ _ _ _ E) as [K _]. destruct (K Hok) as (K1 & K2 & K3).
  assert (O : forall a b, (a < N)%nat -> (b < N)%nat -> bracket N S (fun i => farray N m i a) (fun i => farray N m i b) = if (a =? b)%nat then c1 else c0).
  { intros a b Ha Hb. rewrite <- (K2 a b Ha Hb). apply bracket_ext; try reflexivity. intros i j Hi Hj. symmetry. apply lower_hermitian; assumption. }
  destruct (existsb _ _) eqn:X.
  - exfalso. apply existsb_exists in X. destruct X as (a & Ia & La). apply in_seq in Ia. apply ltb_true in La. rewrite norms_bracket in La.
    rewrite cabs_0 in La; [lra|]. rewrite (O a a) by lia. rewrite Nat.eqb_refl. reflexivity.
  - exists w, (fun a i => farray N m i a). split; [reflexivity|]. split; [|split; [exact O|exact K3]].
    intros a Ha i Hi. rewrite (csum_ext' N _ (fun j => cmul (lower_matrix N (fmem N H) i j) (m (j + N * a)%nat))).
    + rewrite (K1 a i Ha Hi). f_equal. apply csum_ext'. intros j Hj. rewrite lower_hermitian by assumption. reflexivity.
    + intros j Hj. rewrite lower_hermitian by assumption. unfold farray. f_equal. apply cplx_eq; unfold cadd, cscale; cbn [fst snd]; ring.
Qed.
Lemma diag_norm z N tol evmin w0 H S e wf : diagonalize z N tol evmin w0 H S = inr (e, wf) ->
  forall a, (a < N)%nat -> cabs (csub (bracket N S (wf a) (wf a)) c1) <= tol.
Proof.
  unfold diagonalize. destruct (geig z N H S w0) as [e' v]. destruct (existsb _ _) eqn:X; [discriminate|]. intros K a Ha. injection K as <- <-.
  rewrite <- (norms_bracket N S (fun a i => v i a)). apply Rnot_lt_le. intros L. rewrite <- Bool.not_true_iff_false in X. apply X. apply existsb_exists. exists a. split; [apply in_seq; lia|]. apply ltb_true. exact L.
Qed.
Lemma bracket_lower N S v u : hermitian N S -> bracket N (lower_matrix N (fmem N S)) v u = bracket N S v u.
Proof. intros HS. apply bracket_ext; try reflexivity. intros. apply lower_hermitian; assumption. Qed.
(** if S is not positive definite nothing is solved: the columns of H are checked *)
Lemma diag_indefinite z N tol evmin w0 H S : lapack_contract z -> hermitian N S -> ~ positive_definite N S ->
  ((exists a, (a < N)%nat /\ tol < cabs (csub (bracket N S (fun i => H i a) (fun i => H i a)) c1)) /\
     diagonalize z N tol evmin w0 H S = inl (if ltb (evmin S) 0 then NotPositive else WrongNorm)) \/
  ((forall a, (a < N)%nat -> cabs (csub (bracket N S (fun i => H i a) (fun i => H i a)) c1) <= tol) /\
     exists wf, diagonalize z N tol evmin w0 H S = inr (w0, wf) /\ forall a i, (i < N)%nat -> wf a i = H i a).
Proof.
  intros Hz HS Hp. unfold diagonalize, geig. destruct (z N (fmem N H) (fmem N S) w0) as [[info m] w] eqn:E.
  destruct (Hz _ _ _ _ _ _ _ E) as [_ K]. destruct K as (_ & -> & ->).
  { intros Q. apply Hp. intros v Hv. rewrite <- (bracket_lower N S v v HS). apply Q. exact Hv. }
  assert (B : forall a, bracket N S (fun i => farray N (fmem N H) i a) (fun i => farray N (fmem N H) i a) = bracket N S (fun i => H i a) (fun i => H i a)).
  { intros a. apply bracket_ext; try reflexivity; intros i Hi; apply fmem_at; exact Hi. }
  destruct (existsb _ _) eqn:X.
  - left. split; [|reflexivity]. apply existsb_exists in X. destruct X as (a & Ia & La). apply in_seq in Ia. apply ltb_true in La. rewrite norms_bracket in La. exists a. split; [lia|]. rewrite <- B. exact La.
  - right. split.
    + intros a Ha. rewrite <- B, <- (norms_bracket N S (fun a i => farray N (fmem N H) i a)). apply Rnot_lt_le. intros L. rewrite <- Bool.not_true_iff_false in X. apply X. apply existsb_exists. exists a. split; [apply in_seq; lia|]. apply ltb_true. exact L.
    + eexists. split; [reflexivity|]. intros a i Hi. apply fmem_at. exact Hi.
Qed.
(** all k-points *)
Lemma all_k_spec z N nk tol evmin w0 H0 S H1 : lapack_contract z -> khermitian N nk H0 -> khermitian N nk S -> 0 <= tol ->
  (forall h, H1 = Some h -> forall i j, (i < N)%nat -> (j < N)%nat -> h i j = h j i) ->
  (forall k, (k < nk)%nat -> succeeds z N (hamiltonian (H0 k) (S k) H1) (S k) (w0 k)) ->
  exists e wf, all_k z N nk tol evmin w0 H0 S H1 = inr (e, wf) /\ orthonormal N nk S wf /\
    (forall k a, (k < nk)%nat -> (a < N)%nat -> RhoSpec.eigenstate N (H0 k) (S k) (match H1 with Some h => h | None => fun _ _ => 0 end) (wf k a) (e k a)) /\
    (forall k a b, (k < nk)%nat -> (a <= b)%nat -> (b < N)%nat -> e k a <= e k b).
Proof.
  intros Hz HH HS Ht H1s. induction nk as [|k IH]; intros Hok.
  - eexists _, _. split; [reflexivity|]. split; [intros ? ? ? ?; lia|]. split; intros; lia.
  - destruct IH as (e & wf & E & A & B & C); try (intros q Hq; first [apply HH|apply HS|apply Hok]; lia).
    cbn [all_k]. rewrite E.
    destruct (diag_success z N tol evmin (w0 k) (hamiltonian (H0 k) (S k) H1) (S k) Hz) as (e' & wf' & E' & A' & B' & C').
    + intros i j Hi Hj. unfold hamiltonian. destruct H1 as [h|]; [|apply (HH k ltac:(lia)); assumption].
      rewrite (HH k ltac:(lia) i j Hi Hj), (HS k ltac:(lia) i j Hi Hj), (H1s h eq_refl i j Hi Hj). apply cplx_eq; unfold cadd, cscale, cconj; cbn [fst snd]; ring.
    + apply HS. lia.
    + exact Ht.
    + apply Hok. lia.
    + rewrite E'. eexists _, _. split; [reflexivity|]. split; [|split].
      * intros q a b Hq Ha Hb. destruct (Nat.eqb_spec q k) as [->|Hne]; [apply B'; assumption|apply A; try assumption; lia].
      * intros q a Hq Ha. destruct (Nat.eqb_spec q k) as [->|Hne]; [|apply B; try assumption; lia].
        intros i Hi. specialize (A' a Ha i Hi). rewrite <- A'. apply csum_ext'. intros j Hj. f_equal.
        unfold hamiltonian. destruct H1 as [h|]; apply cplx_eq; unfold cadd, cscale; cbn [fst snd]; ring.
      * intros q a b Hq Ha Hb. destruct (Nat.eqb_spec q k) as [->|Hne]; [apply C'; assumption|apply C; try assumption; lia].
Qed.
(** an indefinite overlap that is not noticed *)
Definition I2 (i j : nat) : cplx := if (i =? j)%nat then c1 else c0.
Definition S2 (i j : nat) : cplx := if (i =? j)%nat then c1 else rc 2.
Lemma unnoticed z evmin w0 : lapack_contract z ->
  exists N H S wf, hermitian N H /\ hermitian N S /\ ~ positive_definite N S /\
  diagonalize z N (/ 10 ^ 8) evmin w0 H S = inr (w0, wf) /\ forall e, ~ RhoSpec.eigenstate N H S (fun _ _ => 0) (wf 0%nat) e.
Proof.
  intros Hz. exists 2%nat, I2, S2.
  assert (HS : hermitian 2 S2) by (intros i j _ _; unfold S2; rewrite (Nat.eqb_sym i j); destruct (j =? i)%nat; cpx).
  assert (HI : hermitian 2 I2) by (intros i j _ _; unfold I2; rewrite (Nat.eqb_sym i j); destruct (j =? i)%nat; cpx).
  assert (HP : ~ positive_definite 2 S2).
  { intros Q. specialize (Q (fun i => if (i =? 0)%nat then c1 else rc (-1))). 
    assert (E : (exists i, (i < 2)%nat /\ (if (i =? 0)%nat then c1 else rc (-1)) <> c0)). { exists 0%nat. split; [lia|]. cbn. intros K. apply (f_equal fst) in K. cbn in K. lra. }
    specialize (Q E). unfold bracket, csum, S2, rsum, cmul, cconj, c1, rc in Q. cbn [Nat.eqb fst snd] in Q. lra. }
  assert (HB : forall a, (a < 2)%nat -> bracket 2 S2 (fun i => I2 i a) (fun i => I2 i a) = c1).
  { intros a Ha. destruct a as [|[|a]]; [| |lia]; apply cplx_eq; unfold bracket, csum, S2, I2, rsum, cmul, cconj, c1, c0, rc; cbn [Nat.eqb fst snd]; ring. }
  destruct (diag_indefinite z 2 (/ 10 ^ 8) evmin w0 I2 S2 Hz HS HP) as [[(a & Ha & L) _]|[_ (wf & E & Q)]].
  - rewrite (HB a Ha), cabs_0 in L by reflexivity. assert (0 < / 10 ^ 8) by (apply Rinv_0_lt_compat, pow_lt; lra). lra.
  - exists wf. repeat (split; [assumption|]). intros e K. pose proof (f_equal fst (K 0%nat ltac:(lia))) as K0. pose proof (f_equal fst (K 1%nat ltac:(lia))) as K1.
    unfold csum, rsum in K0, K1. rewrite !(Q 0%nat) in K0, K1 by lia. unfold cadd, cscale, cmul, I2, S2, c1, c0, rc in K0, K1. cbn [Nat.eqb fst snd] in K0, K1. lra.
Qed.
(** ** a solver of matrices of one element *)
Definition z1 (N : nat) (A B : nat -> cplx) (w : nat -> R) : Z * (nat -> cplx) * (nat -> R) :=
  if (N =? 1)%nat && ltb 0 (fst (B 0%nat)) then (0%Z, fun _ => rc (/ sqrt (fst (B 0%nat))), fun _ => fst (A 0%nat) / fst (B 0%nat)) else (Z.of_nat N + 1, A, w)%Z.
Example z1_contract : lapack_contract z1.
Proof.
  intros N A B w info A' w' E. unfold z1 in E. destruct ((N =? 1)%nat && ltb 0 (fst (B 0%nat))) eqn:C.
  - apply andb_prop in C. destruct C as [C1 C2]. apply Nat.eqb_eq in C1. apply ltb_true in C2. subst N. injection E as <- <- <-. set (b := fst (B 0%nat)) in *.
    assert (Hs : 0 < sqrt b) by (apply sqrt_lt_R0; exact C2). assert (Hb : sqrt b * sqrt b = b) by (apply sqrt_sqrt; lra).
    split.
    + intros _. split; [|split].
      * intros a i Ha Hi. assert (a = 0%nat) by lia. assert (i = 0%nat) by lia. subst.
        apply cplx_eq; unfold csum, rsum, cscale, cmul, lower_matrix, rc; cbn [Nat.ltb Nat.leb Nat.add Nat.mul fst snd]; fold b; field; lra.
      * intros a a' Ha Hb'. assert (a = 0%nat) by lia. assert (a' = 0%nat) by lia. subst.
        apply cplx_eq; unfold bracket, csum, rsum, cmul, cconj, lower_matrix, rc, c1; cbn [Nat.ltb Nat.leb Nat.add Nat.mul Nat.eqb fst snd]; fold b; [|ring].
        transitivity (b * (/ sqrt b * / sqrt b)); [ring|]. rewrite <- Rinv_mult, Hb. field. lra.
      * intros a a' H1 H2. apply Rle_refl.
    + intros Hn. exfalso. apply Hn. intros v (i & Hi & Hv). assert (i = 0%nat) by lia. subst i. unfold bracket, csum, rsum, cmul, cconj, lower_matrix, rc. cbn [Nat.ltb Nat.leb Nat.add Nat.mul fst snd]. fold b.
      replace (0 + (0 + ((fst (v 0%nat) * b - - snd (v 0%nat) * 0) * fst (v 0%nat) - (fst (v 0%nat) * 0 + - snd (v 0%nat) * b) * snd (v 0%nat)))) with (b * (fst (v 0%nat) ^ 2 + snd (v 0%nat) ^ 2)) by ring.
      apply Rmult_lt_0_compat; [exact C2|]. destruct (v 0%nat) as [x y]. cbn [fst snd]. destruct (Req_dec x 0) as [->|Hx]; [|nra]. destruct (Req_dec y 0) as [->|Hy]; [|nra]. exfalso. apply Hv. reflexivity.
  - injection E as <- <- <-. split; [intros K; lia|]. intros _. split; [lia|]. split; reflexivity.
Qed.
Example z1_case : succeeds z1 1 (fun _ _ => rc 3) (fun _ _ => rc 4) (fun _ => 0).
Proof. unfold succeeds, z1, fmem. cbn [Nat.eqb andb rc fst]. assert (L : ltb 0 4 = true) by (apply ltb_true; lra). rewrite L. reflexivity. Qed.
(** ** auxil *)
Lemma hermitian_made N H : hermitian N (make_hermitian H) <-> forall i, (i < N)%nat -> snd (H i i) = 0.
Proof.
  split.
  - intros K i Hi. pose proof (f_equal snd (K i i Hi Hi)) as E. unfold make_hermitian in E. rewrite Nat.eqb_refl in E. unfold csub, cadd, copp, cconj in E. cbn [fst snd] in E. lra.
  - intros K i j Hi Hj. unfold make_hermitian. rewrite (Nat.eqb_sym j i). destruct (Nat.eqb_spec i j) as [<-|Hne].
    + specialize (K i Hi). apply cplx_eq; unfold csub, cadd, copp, cconj; cbn [fst snd]; lra.
    + apply cplx_eq; unfold csub, cadd, copp, cconj, c0; cbn [fst snd]; ring.
Qed.
Lemma triangle_made N H i j : (forall i j, (i < j)%nat -> (j < N)%nat -> H i j = c0) -> (j <= i)%nat -> (i < N)%nat -> snd (H i i) = 0 -> make_hermitian H i j = H i j.
Proof.
  intros Z L Hi Hd. unfold make_hermitian. destruct (Nat.eqb_spec i j) as [<-|Hne].
  - apply cplx_eq; unfold csub, cadd, copp, cconj; cbn [fst snd]; lra.
  - rewrite (Z j i) by lia. apply cplx_eq; unfold csub, cadd, copp, cconj, c0; cbn [fst snd]; ring.
Qed.
Lemma antihermitian_made D i j : make_antihermitian D i j = copp (cconj (make_antihermitian D j i)).
Proof. unfold make_antihermitian. apply cplx_eq; unfold csub, cadd, copp, cconj; cbn [fst snd]; ring. Qed.
Lemma dot_bracket N S v u : wf_dot_product N S v u = bracket N S v u.
Proof. unfold wf_dot_product, bracket. apply csum_ext'. intros i _. rewrite <- csum_mul. apply csum_ext'. intros j _. ring. Qed.
Lemma same_square n A B tol : rows A = n -> cols A = n -> rows B = n -> cols B = n ->
  same_matrix A B tol = true <-> forall i j, (i < n)%nat -> (j < n)%nat -> cabs (csub (entry A i j) (entry B i j)) < tol.
Proof.
  intros RA CA RB CB. unfold same_matrix, flatten. rewrite RA, CA, CB. rewrite forallb_forall. split.
  - intros H i j Hi Hj. specialize (H (i * n + j)%nat). rewrite in_seq in H. specialize (H ltac:(nia)). apply ltb_true in H.
    rewrite Nat.div_add_l, Nat.div_small, Nat.add_0_r in H by lia. rewrite Nat.add_comm, Nat.mod_add, Nat.mod_small in H by lia. exact H.
  - intros H k Hk. apply in_seq in Hk. apply ltb_true. assert (n <> 0)%nat by nia. apply H; [apply Nat.div_lt_upper_bound; lia|apply Nat.mod_upper_bound; assumption].
Qed.
Lemma property_square n A p tol : rows A = n -> cols A = n ->
  match has_property A p tol with
  | Some b =>
      (lower p = "square" -> b = true)%string /\
      (lower p = "hermitian" -> (b = true <-> forall i j, (i < n)%nat -> (j < n)%nat -> cabs (csub (entry A i j) (cconj (entry A j i))) < tol))%string /\
      (lower p = "symmetric" -> (b = true <-> forall i j, (i < n)%nat -> (j < n)%nat -> cabs (csub (entry A i j) (entry A j i)) < tol))%string /\
      (lower p = "orthogonal" -> (b = true <-> forall i j, (i < n)%nat -> (j < n)%nat ->
         cabs (csub (csum n (fun k => cmul (entry A i k) (entry A j k))) (if (i =? j)%nat then c1 else c0)) < tol))%string /\
      (lower p = "unitary" -> (b = true <-> forall i j, (i < n)%nat -> (j < n)%nat ->
         cabs (csub (csum n (fun k => cmul (entry A i k) (cconj (entry A j k)))) (if (i =? j)%nat then c1 else c0)) < tol))%string
  | None => ~ In (lower p) ["square"; "hermitian"; "symmetric"; "orthogonal"; "unitary"]%string
  end.
Proof.
  intros RA CA. unfold has_property. cbv zeta.
  destruct (String.eqb_spec (lower p) "square") as [E|E1].
  { rewrite E. split; [intros _; rewrite RA, CA; apply Nat.eqb_refl|]. repeat split; intros h; discriminate. }
  destruct (String.eqb_spec (lower p) "hermitian") as [E|E2].
  { rewrite E. split; [discriminate|]. split; [intros _; apply (same_square n); try assumption; cbn; assumption|]. repeat split; intros h; discriminate. }
  destruct (String.eqb_spec (lower p) "symmetric") as [E|E3].
  { rewrite E. split; [discriminate|]. split; [discriminate|]. split; [intros _; apply (same_square n); try assumption; cbn; assumption|]. repeat split; intros h; discriminate. }
  destruct (String.eqb_spec (lower p) "orthogonal") as [E|E4].
  { rewrite E. do 3 (split; [discriminate|]). split; [intros _|discriminate]. rewrite (same_square n); try assumption; try (cbn; assumption). cbn [mdot transpose identity entry]. rewrite CA. reflexivity. }
  destruct (String.eqb_spec (lower p) "unitary") as [E|E5].
  { rewrite E. do 4 (split; [discriminate|]). intros _. rewrite (same_square n); try assumption; try (cbn; assumption). cbn [mdot transpose conjugate identity entry]. rewrite CA. reflexivity. }
  cbn [In]. intuition congruence.
Qed.
(** a row is 'symmetric' *)
Lemma row_symmetric n tol f : (2 <= n)%nat -> 0 < tol -> has_property (Matrix 1 n f) "symmetric" tol = Some true /\ has_property (Matrix 1 n f) "square" tol = Some false.
Proof.
  intros Hn Ht. split.
  - unfold has_property. cbn [lower lower_ascii String.eqb]. change (Some (same_matrix (Matrix 1 n f) (transpose (Matrix 1 n f)) tol) = Some true). f_equal.
    unfold same_matrix, flatten. cbn [rows cols transpose entry]. apply forallb_forall. intros k Hk. apply in_seq in Hk. apply ltb_true.
    rewrite Nat.div_small, Nat.mod_small by lia. rewrite Nat.div_1_r, Nat.mod_1_r. replace (csub (f 0%nat k) (f 0%nat k)) with c0 by (symmetry; apply cplx_eq; unfold csub, cadd, copp, c0; cbn [fst snd]; ring).
    unfold cabs, c0. cbn [fst snd]. replace (0 ^ 2 + 0 ^ 2) with 0 by ring. rewrite sqrt_0. exact Ht.
  - unfold has_property. change (Some (1 =? n)%nat = Some false). f_equal. apply Nat.eqb_neq. lia.
Qed.
(** ** square root *)
Lemma root_inner n (U : nat -> nat -> R) (D : nat -> R) i j : (i < n)%nat ->
  rsum n (fun l => rsum n (fun k => U i k * (if (k =? l)%nat then sqrt (D k) else 0)) * U j l) = rsum n (fun l => U i l * sqrt (D l) * U j l).
Proof.
  intros _. apply rsum_ext. intros l Hl. f_equal. rewrite (rsum_single n l); [rewrite Nat.eqb_refl; reflexivity|exact Hl|].
  intros k Hk Hne. destruct (Nat.eqb_spec k l); [contradiction|ring].
Qed.
Lemma square_root eigh n A X : eigh_contract eigh -> (forall i j, (i < n)%nat -> (j < n)%nat -> A i j = A j i) -> matrix_square_root eigh n A = Some X ->
  (forall i j, (i < n)%nat -> (j < n)%nat -> rsum n (fun k => X i k * X k j) = A i j /\ X i j = X j i) /\
  (forall v, 0 <= rsum n (fun i => rsum n (fun j => v i * X i j * v j))).
Proof.
  intros He HA. unfold matrix_square_root. destruct (has_property (rmat n A) "symmetric" (/ 10 ^ 12)) as [[|]|]; try discriminate.
  destruct (eigh n A) as [D U] eqn:E. destruct (forallb _ (seq 0 n)) eqn:P; cbn [negb]; [|discriminate].
  destruct (has_property (rmat n U) "orthogonal" (/ 10 ^ 12)) as [[|]|]; try discriminate. intros K.
  apply (f_equal (fun o => match o with Some y => y | None => X end)) in K. cbv beta iota in K. rewrite <- K. clear K X.
  destruct (He n A D U E HA) as (E1 & E2 & E3).
  assert (HD : forall k, (k < n)%nat -> 0 <= D k). { intros k Hk. rewrite forallb_forall in P. apply leb_true. apply P. apply in_seq. lia. }
  split.
  - intros i j Hi Hj. split.
    + transitivity (rsum n (fun k => rsum n (fun l => rsum n (fun m => U i l * sqrt (D l) * (U k l * U k m) * (sqrt (D m) * U j m))))).
      { apply rsum_ext. intros k Hk. rewrite (root_inner n U D i k Hi), (root_inner n U D k j Hk). rewrite <- rsum_scal_r. apply rsum_ext. intros l Hl. rewrite <- rsum_scal. apply rsum_ext. intros m Hm. ring. }
      rewrite rsum_swap. transitivity (rsum n (fun l => U i l * D l * U j l)).
      { apply rsum_ext. intros l Hl. rewrite rsum_swap. rewrite (rsum_single n l); [|exact Hl|].
        - rewrite (rsum_ext n _ (fun k => (U k l * U k l) * (U i l * sqrt (D l) * (sqrt (D l) * U j l)))) by (intros; ring).
          rewrite rsum_scal_r. rewrite (E2 l l Hl Hl), Nat.eqb_refl. replace (D l) with (sqrt (D l) * sqrt (D l)) at 3 by (apply sqrt_sqrt; apply HD; exact Hl). ring.
        - intros m Hm Hne. rewrite (rsum_ext n _ (fun k => (U k l * U k m) * (U i l * sqrt (D l) * (sqrt (D m) * U j m)))) by (intros; ring).
          rewrite rsum_scal_r. rewrite (E2 l m Hl Hm). destruct (Nat.eqb_spec l m); [congruence|ring]. }
      transitivity (rsum n (fun l => rsum n (fun k => A i k * (U k l * U j l)))).
      { apply rsum_ext. intros l Hl. rewrite (Rmult_comm (U i l)), <- (E1 i l Hi Hl). rewrite <- rsum_scal_r. apply rsum_ext. intros; ring. }
      rewrite rsum_swap. rewrite (rsum_single n j); [|exact Hj|].
      * rewrite rsum_scal, (E3 j j Hj Hj), Nat.eqb_refl. ring.
      * intros k Hk Hne. rewrite rsum_scal, (E3 k j Hk Hj). destruct (Nat.eqb_spec k j); [contradiction|ring].
    + rewrite (root_inner n U D i j Hi), (root_inner n U D j i Hj). apply rsum_ext. intros; ring.
  - intros v. 
    rewrite (rsum_ext n _ (fun i => rsum n (fun l => rsum n (fun j => sqrt (D l) * (v i * U i l * (v j * U j l)))))).
    + rewrite rsum_swap. apply rsum_nonneg. intros l Hl. rewrite (rsum_ext n _ (fun i => sqrt (D l) * (v i * U i l) * rsum n (fun j => v j * U j l))).
      * rewrite rsum_scal_r. rewrite rsum_scal. assert (Q : 0 <= sqrt (D l)) by apply sqrt_pos. set (q := rsum n _). replace (sqrt (D l) * q * q) with (sqrt (D l) * (q * q)) by ring. apply Rmult_le_pos; [exact Q|nra].
      * intros i Hi. rewrite <- rsum_scal. apply rsum_ext. intros; ring.
    + intros i Hi. rewrite rsum_swap. apply rsum_ext. intros j Hj. rewrite (root_inner n U D i j Hi), <- rsum_scal, <- rsum_scal_r. apply rsum_ext. intros; ring.
Qed.
(** diagonal matrices *)
Definition eigh_diag (n : nat) (A : nat -> nat -> R) : (nat -> R) * (nat -> nat -> R) := (fun k => A k k, fun i k => if (i =? k)%nat then 1 else 0).
Example ex_root : exists X, matrix_square_root eigh_diag 2 (fun i j => if (i =? j)%nat then 4 else 0) = Some X.
Proof.
  unfold matrix_square_root.
  assert (C : forall z, z = c0 -> cabs z < / 10 ^ 12). { intros z ->. unfold cabs, c0. cbn [fst snd]. replace (0 ^ 2 + 0 ^ 2) with 0 by ring. rewrite sqrt_0. apply Rinv_0_lt_compat, pow_lt. lra. }
  assert (H1 : has_property (rmat 2 (fun i j => if (i =? j)%nat then 4 else 0)) "symmetric" (/ 10 ^ 12) = Some true).
  { change (Some (same_matrix (rmat 2 (fun i j => if (i =? j)%nat then 4 else 0)) (transpose (rmat 2 (fun i j => if (i =? j)%nat then 4 else 0))) (/ 10 ^ 12)) = Some true). f_equal. apply (same_square 2); try reflexivity.
    intros i j _ _. apply C. cbn [rmat transpose entry]. rewrite (Nat.eqb_sym j i). apply cplx_eq; unfold csub, cadd, copp, c0; cbn [fst snd]; ring. }
  rewrite H1. cbn [eigh_diag].
  assert (H2 : forallb (fun i => leb 0 (if (i =? i)%nat then 4 else 0)) (seq 0 2) = true).
  { apply forallb_forall. intros i _. rewrite Nat.eqb_refl. apply leb_true. lra. }
  rewrite H2. cbn [negb].
  assert (H3 : has_property (rmat 2 (fun i k => if (i =? k)%nat then 1 else 0)) "orthogonal" (/ 10 ^ 12) = Some true).
  { change (Some (same_matrix (mdot (rmat 2 (fun i k => if (i =? k)%nat then 1 else 0)) (transpose (rmat 2 (fun i k => if (i =? k)%nat then 1 else 0)))) (identity 2) (/ 10 ^ 12)) = Some true). f_equal. apply (same_square 2); try reflexivity.
    intros i j Hi Hj. apply C. cbn [rmat transpose mdot identity entry rows cols]. destruct i as [|[|i]]; [| |lia]; destruct j as [|[|j]]; try lia; apply cplx_eq; unfold csum, rsum, cmul, csub, cadd, copp, c0, c1, rc; cbn [Nat.eqb fst snd]; ring. }
  rewrite H3. eexists. reflexivity.
Qed.
