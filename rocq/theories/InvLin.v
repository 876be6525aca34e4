(** Linear algebra of complex n x n matrices as functions: dependence of n+1 vectors, completeness of orthonormal sets,
    functions of a Hermitian pencil do not depend on the eigenvectors chosen. *)
From Coq Require Import Reals List Bool Arith Lia Lra Ring.
From Verif Require Import Vec SkModel SkSpec Cpx RhoModel RhoSpec.
Import ListNotations.
Open Scope R_scope.

Definition cinv (z : cplx) : cplx := let d := fst z ^ 2 + snd z ^ 2 in (fst z / d, - snd z / d).
Lemma cinv_r z : z <> c0 -> cmul z (cinv z) = c1.
Proof.
  intros H. assert (D : fst z ^ 2 + snd z ^ 2 <> 0).
  { intros E. apply H. assert (A := pow2_ge_0 (fst z)). assert (B := pow2_ge_0 (snd z)). apply cplx_eq; cbn [c0 fst snd]; apply Rsqr_0_uniq; rewrite Rsqr_pow2; lra. }
  unfold cinv. cbv zeta. apply cplx_eq; cbn [cmul c1 fst snd]; field; exact D.
Qed.
Lemma c1_c0 : c1 <> c0. Proof. intros H. apply (f_equal fst) in H. cbn in H. lra. Qed.
Lemma cplx_dec (z : cplx) : {z = c0} + {z <> c0}.
Proof. destruct z as [a b]. destruct (Req_EM_T a 0) as [->|A]; [destruct (Req_EM_T b 0) as [->|B]; [left; reflexivity|right; intros E; apply B; exact (f_equal snd E)]|right; intros E; apply A; exact (f_equal fst E)]. Qed.
Lemma csum_S_first n f : csum (S n) f = cadd (f 0%nat) (csum n (fun i => f (S i))).
Proof. change (S n) with (1 + n)%nat. rewrite csum_split. f_equal. apply cplx_eq; cbn; ring. Qed.
Definition skip (p i : nat) : nat := if (i <? p)%nat then i else S i.
Lemma csum_skip n p f : (p <= n)%nat -> csum (S n) f = cadd (f p) (csum n (fun i => f (skip p i))).
Proof.
  intros H. replace (S n) with (p + (1 + (n - p)))%nat by lia. rewrite csum_split, csum_split. replace n with (p + (n - p))%nat at 2 by lia. rewrite csum_split.
  rewrite (csum_ext' p f (fun i => f (skip p i))). 2: { intros i Hi. unfold skip. rewrite (proj2 (Nat.ltb_lt i p)) by lia. reflexivity. }
  rewrite (csum_ext' (n - p) (fun i => f (p + (1 + i))%nat) (fun i => f (skip p (p + i)))). 2: { intros i Hi. unfold skip. rewrite (proj2 (Nat.ltb_ge (p + i) p)) by lia. f_equal. lia. }
  replace (csum 1 (fun i => f (p + i)%nat)) with (f p). 2: { rewrite csum_S. cbn [csum]. rewrite Nat.add_0_r. apply cplx_eq; cbn; ring. }
  ring.
Qed.
(** n+1 vectors of dimension n are dependent *)
Lemma dependent n (v : nat -> nat -> cplx) : exists c, (exists i, (i <= n)%nat /\ c i <> c0) /\ forall j, (j < n)%nat -> csum (S n) (fun i => cmul (c i) (v i j)) = c0.
Proof.
  revert v. induction n as [|n IH]; intros v. { exists (fun _ => c1). split; [exists 0%nat; split; [lia|exact c1_c0]|intros; lia]. }
  assert (D : (exists p, (p <= S n)%nat /\ v p n <> c0) \/ forall p, (p <= S n)%nat -> v p n = c0).
  { generalize (S n) at 1 2. intros m. induction m as [|m IHm].
    - destruct (cplx_dec (v 0%nat n)) as [E|E]; [right; intros p Hp; replace p with 0%nat by lia; exact E|left; exists 0%nat; split; [lia|exact E]].
    - destruct IHm as [(p & Hp & E)|A]; [left; exists p; split; [lia|exact E]|]. destruct (cplx_dec (v (S m) n)) as [E|E]; [right; intros p Hp; destruct (Nat.eq_dec p (S m)) as [->|]; [exact E|apply A; lia]|left; exists (S m); split; [lia|exact E]]. }
  destruct D as [(p & Hp & E)|A].
  - destruct (IH (fun i j => csub (v (skip p i) j) (cmul (cmul (v (skip p i) n) (cinv (v p n))) (v p j)))) as (c & (q & Hq & Ec) & Z).
    exists (fun i => if (i =? p)%nat then copp (cmul (csum (S n) (fun i => cmul (c i) (v (skip p i) n))) (cinv (v p n))) else c (if (i <? p)%nat then i else (i - 1)%nat)). split.
    + exists (skip p q). split; [unfold skip; destruct (q <? p)%nat; lia|]. unfold skip. destruct (Nat.ltb_spec q p).
      * rewrite (proj2 (Nat.eqb_neq q p)) by lia. rewrite (proj2 (Nat.ltb_lt q p)) by lia. exact Ec.
      * rewrite (proj2 (Nat.eqb_neq (S q) p)) by lia. rewrite (proj2 (Nat.ltb_ge (S q) p)) by lia. rewrite Nat.sub_1_r. exact Ec.
    + intros j Hj. rewrite (csum_skip (S n) p) by exact Hp. rewrite Nat.eqb_refl.
      rewrite (csum_ext' (S n) (fun i => cmul (if (skip p i =? p)%nat then _ else _) _) (fun i => cmul (c i) (v (skip p i) j))).
      2: { intros i Hi. f_equal. unfold skip. destruct (Nat.ltb_spec i p).
           - rewrite (proj2 (Nat.eqb_neq i p)) by lia. rewrite (proj2 (Nat.ltb_lt i p)) by lia. reflexivity.
           - rewrite (proj2 (Nat.eqb_neq (S i) p)) by lia. rewrite (proj2 (Nat.ltb_ge (S i) p)) by lia. rewrite Nat.sub_1_r. reflexivity. }
      destruct (Nat.eq_dec j n) as [->|Hn].
      * assert (I := cinv_r _ E). set (s := csum (S n) _). transitivity (csub s (cmul s (cmul (v p n) (cinv (v p n))))); [ring|]. rewrite I. ring.
      * specialize (Z j ltac:(lia)). cbv beta in Z. set (s := csum (S n) (fun i => cmul (c i) (v (skip p i) n))).
        rewrite (csum_ext' (S n) _ (fun i => csub (cmul (c i) (v (skip p i) j)) (cmul (cmul (c i) (v (skip p i) n)) (cmul (cinv (v p n)) (v p j))))) in Z by (intros; ring).
        unfold csub in Z. rewrite csum_add in Z.
        rewrite (csum_ext' (S n) (fun i => copp (cmul (cmul (c i) (v (skip p i) n)) (cmul (cinv (v p n)) (v p j)))) (fun i => cmul (cmul (c i) (v (skip p i) n)) (copp (cmul (cinv (v p n)) (v p j))))) in Z by (intros; ring).
        rewrite csum_mul_r in Z. fold s in Z. rewrite <- Z. ring.
  - destruct (IH v) as (c & (q & Hq & Ec) & Z). exists (fun i => if (i <=? n)%nat then c i else c0). split; [exists q; split; [lia|rewrite (proj2 (Nat.leb_le q n)) by lia; exact Ec]|].
    intros j Hj. rewrite csum_S. rewrite (proj2 (Nat.leb_gt (S n) n)) by lia.
    rewrite (csum_ext' (S n) _ (fun i => cmul (c i) (v i j))) by (intros i Hi; rewrite (proj2 (Nat.leb_le i n)) by lia; reflexivity).
    destruct (Nat.eq_dec j n) as [->|Hn]; [rewrite csum_zero; [ring|intros i Hi; rewrite A by lia; ring]|rewrite Z by lia; ring].
Qed.

(** ** brackets *)
Lemma bracket_ext n A v v' u u' : (forall i, (i < n)%nat -> v i = v' i) -> (forall i, (i < n)%nat -> u i = u' i) -> bracket n A v u = bracket n A v' u'.
Proof. intros H1 H2. unfold bracket. apply csum_ext'. intros i Hi. apply csum_ext'. intros j Hj. rewrite H1, H2 by assumption. reflexivity. Qed.
Lemma bracket_mat n A B v u : (forall i j, (i < n)%nat -> (j < n)%nat -> A i j = B i j) -> bracket n A v u = bracket n B v u.
Proof. intros H. unfold bracket. apply csum_ext'. intros i Hi. apply csum_ext'. intros j Hj. rewrite H by assumption. reflexivity. Qed.
Lemma bracket_sum_r n A v m c (u : nat -> nat -> cplx) : bracket n A v (fun i => csum m (fun a => cmul (c a) (u a i))) = csum m (fun a => cmul (c a) (bracket n A v (u a))).
Proof.
  induction m as [|m IH]. { cbn [csum]. unfold bracket. apply csum_zero. intros i _. apply csum_zero. intros j _. change (csum 0 (fun a => cmul (c a) (u a j))) with c0. ring. }
  rewrite csum_S, <- IH. unfold bracket. rewrite <- csum_mul, <- csum_add. apply csum_ext'. intros i _. rewrite <- csum_mul, <- csum_add. apply csum_ext'. intros j _. rewrite csum_S. ring.
Qed.
Lemma bracket_conj n A v u : hermitian n A -> bracket n A v u = cconj (bracket n A u v).
Proof.
  intros H. unfold bracket. rewrite csum_conj. rewrite (csum_ext' n (fun i => cconj _) (fun i => csum n (fun j => cmul (cmul (u i) (A j i)) (cconj (v j))))).
  2: { intros i Hi. rewrite csum_conj. apply csum_ext'. intros j Hj. rewrite !cconj_mul, cconj_conj. rewrite (H j i Hj Hi). reflexivity. }
  rewrite csum_swap. apply csum_ext'. intros i _. apply csum_ext'. intros j _. ring.
Qed.
Lemma bracket_zero_r n A v u : (forall i, (i < n)%nat -> u i = c0) -> bracket n A v u = c0.
Proof. intros H. unfold bracket. apply csum_zero. intros i _. apply csum_zero. intros j Hj. rewrite H by exact Hj. ring. Qed.
Lemma bracket_sub_r n A v u w : bracket n A v (fun i => csub (u i) (w i)) = csub (bracket n A v u) (bracket n A v w).
Proof. unfold bracket. rewrite (csum_ext' n _ (fun i => cadd (csum n (fun j => cmul (cmul (cconj (v i)) (A i j)) (u j))) (cmul (copp c1) (csum n (fun j => cmul (cmul (cconj (v i)) (A i j)) (w j)))))). 
  - rewrite csum_add, csum_mul. ring.
  - intros i _. rewrite <- csum_mul, <- csum_add. apply csum_ext'. intros. ring.
Qed.
(** orthonormal set of one k-point *)
Definition orthoset (n : nat) (S : nat -> nat -> cplx) (w : nat -> nat -> cplx) : Prop := forall a b, (a < n)%nat -> (b < n)%nat -> bracket n S (w a) (w b) = if (a =? b)%nat then c1 else c0.
Lemma csum_delta n a f : (a < n)%nat -> csum n (fun b => cmul (f b) (if (a =? b)%nat then c1 else c0)) = f a.
Proof. intros H. rewrite (csum_single n a) by (try exact H; intros i _ Hne; rewrite (proj2 (Nat.eqb_neq a i)) by lia; ring). rewrite Nat.eqb_refl. ring. Qed.
(** completeness *)
Lemma expand n S w x : orthoset n S w -> forall i, (i < n)%nat -> x i = csum n (fun a => cmul (bracket n S (w a) x) (w a i)).
Proof.
  intros O. destruct (dependent n (fun a => if (a <? n)%nat then w a else x)) as (c & (q & Hq & Ec) & Z).
  assert (Z' : forall i, (i < n)%nat -> cadd (csum n (fun a => cmul (c a) (w a i))) (cmul (c n) (x i)) = c0).
  { intros i Hi. rewrite <- (Z i Hi), csum_S, Nat.ltb_irrefl. f_equal. apply csum_ext'. intros a Ha. rewrite (proj2 (Nat.ltb_lt a n)) by exact Ha. reflexivity. }
  assert (P : forall b, (b < n)%nat -> cadd (c b) (cmul (c n) (bracket n S (w b) x)) = c0).
  { intros b Hb. assert (Q : bracket n S (w b) (fun i => csub (csum n (fun a => cmul (c a) (w a i))) (cmul (copp (c n)) (x i))) = c0).
    { apply bracket_zero_r. intros i Hi. rewrite <- (Z' i Hi). ring. }
    rewrite bracket_sub_r, bracket_sum_r in Q. rewrite (csum_ext' n _ (fun a => cmul (c a) (if (b =? a)%nat then c1 else c0))) in Q by (intros a Ha; rewrite (O b a Hb Ha); reflexivity).
    rewrite csum_delta in Q by exact Hb.
    assert (Y : bracket n S (w b) (fun i => cmul (copp (c n)) (x i)) = cmul (copp (c n)) (bracket n S (w b) x)).
    { unfold bracket. rewrite <- csum_mul. apply csum_ext'. intros i _. rewrite <- csum_mul. apply csum_ext'. intros. ring. }
    rewrite Y in Q. rewrite <- Q. ring. }
  assert (N : c n <> c0).
  { intros E. apply Ec. destruct (Nat.eq_dec q n) as [->|]; [exact E|]. specialize (P q ltac:(lia)). rewrite E in P. rewrite <- P. ring. }
  intros i Hi. assert (I := cinv_r _ N).
  assert (K : forall b, (b < n)%nat -> bracket n S (w b) x = copp (cmul (c b) (cinv (c n)))).
  { intros b Hb. specialize (P b Hb). set (k := bracket n S (w b) x) in *. transitivity (cmul k (cmul (c n) (cinv (c n)))); [rewrite I; ring|]. transitivity (cmul (cinv (c n)) (csub (cadd (c b) (cmul (c n) k)) (c b))); [ring|]. rewrite P. ring. }
  rewrite (csum_ext' n _ (fun a => cmul (copp (cinv (c n))) (cmul (c a) (w a i)))) by (intros a Ha; rewrite K by exact Ha; ring). rewrite csum_mul.
  specialize (Z' i Hi). set (t := csum n _) in *. transitivity (cmul (x i) (cmul (c n) (cinv (c n)))); [rewrite I; ring|]. transitivity (cmul (cinv (c n)) (csub (cadd t (cmul (c n) (x i))) t)); [ring|]. rewrite Z'. ring.
Qed.

(** ** two sets of states of one pencil *)
Definition solves (n : nat) (H S : nat -> nat -> cplx) (w : nat -> nat -> cplx) (e : nat -> R) : Prop :=
  forall a i, (a < n)%nat -> (i < n)%nat -> csum n (fun j => cmul (H i j) (w a j)) = cscale (e a) (csum n (fun j => cmul (S i j) (w a j))).
Lemma bracket_rows n A v u : bracket n A v u = csum n (fun i => cmul (cconj (v i)) (csum n (fun j => cmul (A i j) (u j)))).
Proof. unfold bracket. apply csum_ext'. intros i _. rewrite <- csum_mul. apply csum_ext'. intros. ring. Qed.
Lemma bracket_solves n H S w e v b : solves n H S w e -> (b < n)%nat -> bracket n H v (w b) = cscale (e b) (bracket n S v (w b)).
Proof.
  intros E Hb. rewrite !bracket_rows. rewrite (csum_ext' n _ (fun i => cmul (rc (e b)) (cmul (cconj (v i)) (csum n (fun j => cmul (S i j) (w b j)))))).
  - rewrite csum_mul, cscale_rc. reflexivity.
  - intros i Hi. rewrite (E b i Hb Hi), cscale_rc. ring.
Qed.
Section Two.
Context (n : nat) (H S : nat -> nat -> cplx) (w w' : nat -> nat -> cplx) (e e' : nat -> R).
Context (hH : hermitian n H) (hS : hermitian n S) (o : orthoset n S w) (o' : orthoset n S w') (s : solves n H S w e) (s' : solves n H S w' e').
Definition ovl (a b : nat) : cplx := bracket n S (w a) (w' b).
Lemma ovl_energy a b : (a < n)%nat -> (b < n)%nat -> e a = e' b \/ ovl a b = c0.
Proof.
  intros Ha Hb. assert (A := bracket_solves n H S w' e' (w a) b s' Hb). assert (B := bracket_solves n H S w e (w' b) a s Ha).
  rewrite (bracket_conj n H (w a) (w' b) hH), B in A. rewrite cscale_rc, cconj_mul, cconj_rc, <- (bracket_conj n S (w a) (w' b) hS), cscale_rc in A. fold (ovl a b) in A.
  destruct (Req_EM_T (e a) (e' b)) as [|N]; [left; assumption|right].
  assert (D : cmul (rc (e a - e' b)) (ovl a b) = c0). { replace (rc (e a - e' b)) with (csub (rc (e a)) (rc (e' b))) by (apply cplx_eq; cbn; ring). transitivity (csub (cmul (rc (e a)) (ovl a b)) (cmul (rc (e' b)) (ovl a b))); [ring|]. rewrite A. ring. }
  assert (N' : e a - e' b <> 0) by lra. apply cplx_eq; [apply (f_equal fst) in D|apply (f_equal snd) in D]; cbn [cmul rc c0 fst snd] in *; apply (Rmult_eq_reg_l (e a - e' b)); lra.
Qed.
Lemma ovl_phi (phi : R -> R) a b : (a < n)%nat -> (b < n)%nat -> cmul (rc (phi (e' b))) (ovl a b) = cmul (rc (phi (e a))) (ovl a b).
Proof. intros Ha Hb. destruct (ovl_energy a b Ha Hb) as [<-| ->]; [reflexivity|ring]. Qed.
Lemma ovl_unit_r a c : (a < n)%nat -> (c < n)%nat -> csum n (fun b => cmul (ovl a b) (cconj (ovl c b))) = if (a =? c)%nat then c1 else c0.
Proof.
  intros Ha Hc. rewrite <- (o a c Ha Hc). rewrite (bracket_ext n S (w a) (w a) (w c) (fun i => csum n (fun b => cmul (bracket n S (w' b) (w c)) (w' b i)))); [|reflexivity|intros i Hi; apply expand; assumption].
  rewrite bracket_sum_r. apply csum_ext'. intros b Hb. fold (ovl a b). unfold ovl at 2. rewrite <- (bracket_conj n S (w' b) (w c) hS). ring.
Qed.
Lemma ovl_unit_l b c : (b < n)%nat -> (c < n)%nat -> csum n (fun a => cmul (cconj (ovl a b)) (ovl a c)) = if (b =? c)%nat then c1 else c0.
Proof.
  intros Hb Hc. rewrite <- (o' b c Hb Hc). rewrite (bracket_ext n S (w' b) (w' b) (w' c) (fun i => csum n (fun a => cmul (bracket n S (w a) (w' c)) (w a i)))); [|reflexivity|intros i Hi; apply expand; assumption].
  rewrite bracket_sum_r. apply csum_ext'. intros a Ha. fold (ovl a c). unfold ovl at 1. rewrite <- (bracket_conj n S (w' b) (w a) hS). ring.
Qed.
(** any function of the energies *)
Lemma density_unique (phi : R -> R) i j : (i < n)%nat -> (j < n)%nat ->
  csum n (fun b => cmul (w' b i) (cscale (phi (e' b)) (cconj (w' b j)))) = csum n (fun a => cmul (w a i) (cscale (phi (e a)) (cconj (w a j)))).
Proof.
  intros Hi Hj. 
  transitivity (csum n (fun b => csum n (fun a => csum n (fun c => cmul (cmul (w a i) (cconj (w c j))) (cmul (rc (phi (e a))) (cmul (ovl a b) (cconj (ovl c b)))))))).
  - apply csum_ext'. intros b Hb. rewrite (expand n S w (w' b) o i Hi) at 1. rewrite (expand n S w (w' b) o j Hj) at 1.
    rewrite csum_conj, <- csum_mul_r. apply csum_ext'. intros a Ha. rewrite cscale_rc, <- !csum_mul. apply csum_ext'. intros c Hc. fold (ovl a b). fold (ovl c b). rewrite cconj_mul.
    transitivity (cmul (cmul (cmul (rc (phi (e' b))) (ovl a b)) (cconj (ovl c b))) (cmul (w a i) (cconj (w c j)))); [ring|]. rewrite ovl_phi by assumption. ring.
  - rewrite csum_swap. apply csum_ext'. intros a Ha. rewrite csum_swap.
    rewrite (csum_ext' n _ (fun c => cmul (cmul (cmul (w a i) (cconj (w c j))) (rc (phi (e a)))) (if (a =? c)%nat then c1 else c0))).
    + rewrite (csum_delta n a (fun c => cmul (cmul (w a i) (cconj (w c j))) (rc (phi (e a))))) by exact Ha. rewrite cscale_rc. ring.
    + intros c Hc. rewrite <- ovl_unit_r by assumption. rewrite <- csum_mul. apply csum_ext'. intros b Hb. ring.
Qed.
Definition below (x : R) (f : nat -> R) (a : nat) : R := if Rle_dec (f a) x then 1 else 0.
Lemma count_equal x : rsum n (below x e) = rsum n (below x e').
Proof.
  set (phi := fun y => if Rle_dec y x then 1 else 0).
  assert (A : rsum n (below x e) = fst (csum n (fun a => csum n (fun b => cmul (rc (phi (e a))) (cmul (ovl a b) (cconj (ovl a b))))))).
  { rewrite csum_fst. apply rsum_ext. intros a Ha. rewrite csum_mul, ovl_unit_r, Nat.eqb_refl by assumption. cbn [rc c1 cmul fst snd]. unfold below, phi. ring. }
  assert (B : rsum n (below x e') = fst (csum n (fun b => csum n (fun a => cmul (rc (phi (e a))) (cmul (ovl a b) (cconj (ovl a b))))))).
  { rewrite csum_fst. apply rsum_ext. intros b Hb. rewrite (csum_ext' n _ (fun a => cmul (rc (phi (e' b))) (cmul (cconj (ovl a b)) (ovl a b)))).
    - rewrite csum_mul, ovl_unit_l, Nat.eqb_refl by assumption. cbn [rc c1 cmul fst snd]. unfold below, phi. ring.
    - intros a Ha. transitivity (cmul (cmul (rc (phi (e a))) (ovl a b)) (cconj (ovl a b))); [ring|]. rewrite <- ovl_phi by assumption. ring. }
  rewrite A, B, csum_swap. reflexivity.
Qed.
Definition sorted (f : nat -> R) : Prop := forall a b, (a <= b)%nat -> (b < n)%nat -> f a <= f b.
Lemma count_le f g a : (a < n)%nat -> sorted f -> sorted g -> f a < g a -> rsum n (below (f a) g) + 1 <= rsum n (below (f a) f).
Proof.
  intros Ha Sf Sg L. replace n with (a + (1 + (n - a - 1)))%nat by lia. rewrite !rsum_split. 
  assert (X : rsum (1 + (n - a - 1)) (fun i => below (f a) g (a + i)%nat) = 0).
  { apply rsum_eq0. intros i Hi. unfold below. destruct (Rle_dec (g (a + i)%nat) (f a)) as [C|]; [|reflexivity]. exfalso. assert (g a <= g (a + i)%nat) by (apply Sg; lia). lra. }
  rewrite rsum_split in X. 
  assert (F : rsum a (below (f a) f) = INR a).
  { transitivity (rsum a (fun _ => 1)); [apply rsum_ext; intros i Hi; unfold below; destruct (Rle_dec (f i) (f a)) as [|C]; [reflexivity|exfalso; apply C, Sf; lia]|]. clear. induction a as [|a IH]; [reflexivity|]. cbn [rsum]. rewrite IH, S_INR. reflexivity. }
  assert (G : rsum a (below (f a) g) <= INR a).
  { clear. generalize (f a). intros x. induction a as [|a IH]; [apply Rle_refl|]. cbn [rsum]. rewrite S_INR. unfold below at 2. destruct (Rle_dec (g a) x); lra. }
  assert (P1 : rsum 1 (fun i => below (f a) f (a + i)%nat) = 1). { cbn [rsum]. rewrite Nat.add_0_r. unfold below. destruct (Rle_dec (f a) (f a)) as [|C]; [ring|exfalso; lra]. }
  assert (P2 : 0 <= rsum (n - a - 1) (fun i => below (f a) f (a + (1 + i))%nat)). { apply rsum_nonneg. intros. unfold below. destruct (Rle_dec _ _); lra. }
  rewrite P1, F. lra.
Qed.
Lemma energies_unique a : sorted e -> sorted e' -> (a < n)%nat -> e a = e' a.
Proof.
  intros S1 S2 Ha. destruct (Rtotal_order (e a) (e' a)) as [L|[E|L]]; [|exact E|]; exfalso.
  - pose proof (count_le e e' a Ha S1 S2 L). pose proof (count_equal (e a)). lra.
  - pose proof (count_le e' e a Ha S2 S1 L). pose proof (count_equal (e' a)). lra.
Qed.
End Two.
