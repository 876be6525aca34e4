From Coq Require Import Reals ZArith List Bool Arith Lia Lra FunctionalExtensionality.
From Verif Require Import Vec GeomModel MixModel OccModel SkModel SkSpec Cpx RhoModel RhoSpec RhoProofs EigModel EigSpec EigProofs2 InvModel InvSpec InvLin InvProofs InvProofs2 InvProofs3 InvProofs6 FoldSpec FoldProofs.
Import ListNotations.
Open Scope R_scope.

(** ** sums over all levels *)
Lemma sum_equal n H S w w' (e e' : nat -> R) (phi : R -> R) : RhoSpec.hermitian n H -> RhoSpec.hermitian n S -> orthoset n S w -> orthoset n S w' -> solves n H S w e -> solves n H S w' e' ->
  rsum n (fun a => phi (e a)) = rsum n (fun a => phi (e' a)).
Proof.
  intros hH hS o o' s s'.
  assert (A : rsum n (fun a => phi (e a)) = fst (csum n (fun a => csum n (fun b => cmul (rc (phi (e a))) (cmul (ovl n S w w' a b) (cconj (ovl n S w w' a b))))))).
  { rewrite csum_fst. apply rsum_ext. intros a Ha. rewrite csum_mul, (ovl_unit_r n S w w' hS o o'), Nat.eqb_refl by assumption. cbn [rc c1 cmul fst snd]. ring. }
  assert (B : rsum n (fun a => phi (e' a)) = fst (csum n (fun b => csum n (fun a => cmul (rc (phi (e a))) (cmul (ovl n S w w' a b) (cconj (ovl n S w w' a b))))))).
  { rewrite csum_fst. apply rsum_ext. intros b Hb. rewrite (csum_ext' n _ (fun a => cmul (rc (phi (e' b))) (cmul (cconj (ovl n S w w' a b)) (ovl n S w w' a b)))).
    - rewrite csum_mul, (ovl_unit_l n S w w' hS o o'), Nat.eqb_refl by assumption. cbn [rc c1 cmul fst snd]. ring.
    - intros a Ha. transitivity (cmul (cmul (rc (phi (e a))) (ovl n S w w' a b)) (cconj (ovl n S w w' a b))); [ring|]. rewrite <- (ovl_phi n H S w w' e e' hH hS s s') by assumption. ring. }
  rewrite A, B, csum_swap. reflexivity.
Qed.
(** ** a block for each Bloch state *)
Section Blocks.
Context (m n : nat).
Definition bd (A : nat -> nat -> nat -> cplx) (q q' : nat) : cplx := if (q / n =? q' / n)%nat then A (q / n)%nat (q mod n)%nat (q' mod n)%nat else c0.
Lemma bd_at A j i j' i' : (i < n)%nat -> (i' < n)%nat -> bd A (j * n + i) (j' * n + i') = if (j =? j')%nat then A j i i' else c0.
Proof. intros Hi Hi'. unfold bd. rewrite !pair_div, !pair_mod by assumption. reflexivity. Qed.
Definition bstate (w : nat -> nat -> nat -> cplx) (q x : nat) : cplx := if (q / n =? x / n)%nat then w (q / n)%nat (q mod n)%nat (x mod n)%nat else c0.
Lemma bstate_at w j a j' i : (a < n)%nat -> (i < n)%nat -> bstate w (j * n + a) (j' * n + i) = if (j =? j')%nat then w j a i else c0.
Proof. exact (bd_at w j a j' i). Qed.
Definition benergy (e : nat -> nat -> R) (q : nat) : R := e (q / n)%nat (q mod n)%nat.
Lemma benergy_at e j a : (a < n)%nat -> benergy e (j * n + a) = e j a.
Proof. intros H. unfold benergy. rewrite pair_div, pair_mod by exact H. reflexivity. Qed.
Lemma csum_block j (f : nat -> nat -> cplx) : (j < m)%nat -> csum m (fun j' => csum n (fun i => if (j =? j')%nat then f j' i else c0)) = csum n (f j).
Proof.
  intros Hj. rewrite (csum_single m j); [|exact Hj|].
  - apply csum_ext'. intros i _. rewrite Nat.eqb_refl. reflexivity.
  - intros j' _ Ne. apply csum_all0. intros i _. rewrite (proj2 (Nat.eqb_neq j j')) by auto. reflexivity.
Qed.
Lemma csum_block_r j (f : nat -> nat -> cplx) : (j < m)%nat -> csum m (fun j' => csum n (fun i => if (j' =? j)%nat then f j' i else c0)) = csum n (f j).
Proof. intros Hj. rewrite <- (csum_block j f Hj). apply csum_ext'. intros j' _. apply csum_ext'. intros i _. rewrite Nat.eqb_sym. reflexivity. Qed.
Lemma bd_mmul A B : meq (m * n) (mmul (m * n) (bd A) (bd B)) (bd (fun j => mmul n (A j) (B j))).
Proof.
  intros q q' Hq Hq'. destruct (pair_inv m n q Hq) as (j & i & Hj & Hi & ->). destruct (pair_inv m n q' Hq') as (j' & i' & Hj' & Hi' & ->).
  rewrite (bd_at _ j i j' i' Hi Hi'). unfold mmul. rewrite csum_pairs.
  rewrite (csum_ext' m _ (fun l => csum n (fun k => if (j =? l)%nat then cmul (A j i k) (if (l =? j')%nat then B l k i' else c0) else c0))).
  - rewrite (csum_block j (fun l k => cmul (A j i k) (if (l =? j')%nat then B l k i' else c0))) by exact Hj. destruct (j =? j')%nat; [reflexivity|apply csum_all0; intros; ring].
  - intros l Hl. apply csum_ext'. intros k Hk. rewrite !bd_at by assumption. destruct (j =? l)%nat; [reflexivity|ring].
Qed.
Lemma bd_hermitian A : (forall j, (j < m)%nat -> RhoSpec.hermitian n (A j)) -> RhoSpec.hermitian (m * n) (bd A).
Proof.
  intros H q q' Hq Hq'. destruct (pair_inv m n q Hq) as (j & i & Hj & Hi & ->). destruct (pair_inv m n q' Hq') as (j' & i' & Hj' & Hi' & ->). rewrite !bd_at by assumption.
  rewrite (Nat.eqb_sym j' j). destruct (Nat.eqb_spec j j') as [<-|]; [apply H; assumption|unfold cconj, c0; cbn; f_equal; ring].
Qed.
Lemma bd_apply A w j a q : (j < m)%nat -> (a < n)%nat -> (q < m * n)%nat ->
  csum (m * n) (fun x => cmul (bd A q x) (bstate w (j * n + a) x)) = if (q / n =? j)%nat then csum n (fun i => cmul (A j (q mod n)%nat i) (w j a i)) else c0.
Proof.
  intros Hj Ha Hq. destruct (pair_inv m n q Hq) as (l & i & Hl & Hi & ->). rewrite pair_div, pair_mod by exact Hi. rewrite csum_pairs.
  rewrite (csum_ext' m _ (fun j' => csum n (fun k => if (j =? j')%nat then cmul (if (l =? j')%nat then A l i k else c0) (w j a k) else c0))).
  - rewrite (csum_block j (fun j' k => cmul (if (l =? j')%nat then A l i k else c0) (w j a k))) by exact Hj. destruct (Nat.eqb_spec l j) as [->|]; [reflexivity|apply csum_all0; intros; ring].
  - intros j' Hj'. apply csum_ext'. intros k Hk. rewrite bd_at, bstate_at by assumption. destruct (j =? j')%nat; [reflexivity|ring].
Qed.
Lemma bd_solves H S w e : (forall j, (j < m)%nat -> solves n (H j) (S j) (w j) (e j)) -> solves (m * n) (bd H) (bd S) (bstate w) (benergy e).
Proof.
  intros K q x Hq Hx. destruct (pair_inv m n q Hq) as (j & a & Hj & Ha & ->). destruct (pair_inv m n x Hx) as (l & i & Hl & Hi & ->).
  rewrite !bd_apply, benergy_at by assumption. rewrite pair_div, pair_mod by exact Hi. destruct (Nat.eqb_spec l j) as [->|]; [apply (K j Hj a i Ha Hi)|unfold cscale, c0; cbn; f_equal; ring].
Qed.
Lemma bd_ortho S w : (forall j, (j < m)%nat -> orthoset n (S j) (w j)) -> orthoset (m * n) (bd S) (bstate w).
Proof.
  intros K q q' Hq Hq'. destruct (pair_inv m n q Hq) as (j & a & Hj & Ha & ->). destruct (pair_inv m n q' Hq') as (j' & a' & Hj' & Ha' & ->).
  rewrite bracket_rows, csum_pairs. rewrite (pair_eqb n j a j' a' Ha Ha').
  rewrite (csum_ext' m _ (fun l => csum n (fun i => if (j =? l)%nat then cmul (cconj (w j a i)) (if (l =? j')%nat then csum n (fun k => cmul (S j' i k) (w j' a' k)) else c0) else c0))).
  - rewrite (csum_block j (fun l i => cmul (cconj (w j a i)) (if (l =? j')%nat then csum n (fun k => cmul (S j' i k) (w j' a' k)) else c0))) by exact Hj.
    destruct (Nat.eqb_spec j j') as [<-|]; cbn [andb]; [rewrite <- bracket_rows; apply K; assumption|apply csum_all0; intros; ring].
  - intros l Hl. apply csum_ext'. intros i Hi. rewrite bd_apply, bstate_at by (try assumption; apply pair_lt; assumption). rewrite pair_div, pair_mod by exact Hi.
    destruct (j =? l)%nat; [reflexivity|unfold cconj, c0, cmul; cbn; f_equal; ring].
Qed.
Lemma bd_rho w (f : nat -> nat -> R) : meq (m * n) (compute_rho (m * n) (bstate w) (benergy f)) (bd (fun j => compute_rho n (w j) (f j))).
Proof.
  intros q q' Hq Hq'. destruct (pair_inv m n q Hq) as (j & i & Hj & Hi & ->). destruct (pair_inv m n q' Hq') as (j' & i' & Hj' & Hi' & ->). rewrite bd_at by assumption.
  unfold compute_rho. rewrite csum_pairs.
  rewrite (csum_ext' m _ (fun l => csum n (fun a => if (l =? j)%nat then cmul (w l a i) (cscale (f l a) (if (l =? j')%nat then cconj (w l a i') else c0)) else c0))).
  - rewrite (csum_block_r j (fun l a => cmul (w l a i) (cscale (f l a) (if (l =? j')%nat then cconj (w l a i') else c0)))) by exact Hj.
    destruct (Nat.eqb_spec j j') as [<-|]; [reflexivity|apply csum_all0; intros; unfold cscale, c0, cmul; cbn; f_equal; ring].
  - intros l Hl. apply csum_ext'. intros a Ha. rewrite !bstate_at, benergy_at by assumption. destruct (l =? j)%nat; [|unfold c0, cmul; cbn; f_equal; ring]. destruct (l =? j')%nat; [reflexivity|unfold cscale, cconj, c0, cmul; cbn; f_equal; ring].
Qed.
(** ** from Bloch states to copies *)
Context (Hm : (0 < m)%nat) (p : nat -> nat -> cplx) (D : nat -> nat -> nat -> R) (CH : characters m p).
Context (Drows : forall c a b, (c < m)%nat -> (a < n)%nat -> (b < n)%nat -> rsum n (fun i => D c a i * D c b i) = if (a =? b)%nat then 1 else 0).
Context (Dcols : forall c a b, (c < m)%nat -> (a < n)%nat -> (b < n)%nat -> rsum n (fun i => D c i a * D c i b) = if (a =? b)%nat then 1 else 0).
Definition Tm (q x : nat) : cplx := cscale (D (q / n)%nat (q mod n)%nat (x mod n)%nat / sqrt (INR m)) (p (x / n)%nat (q / n)%nat).
Lemma Tm_at c i j a : (i < n)%nat -> (a < n)%nat -> Tm (c * n + i) (j * n + a) = cscale (D c i a / sqrt (INR m)) (p j c).
Proof. intros Hi Ha. unfold Tm. rewrite !pair_div, !pair_mod by assumption. reflexivity. Qed.
Lemma INRm : 0 < INR m. Proof. apply (lt_INR 0). exact Hm. Qed.
Lemma sqrt_m x y : x / sqrt (INR m) * (y / sqrt (INR m)) = x * y / INR m.
Proof. pose proof INRm as P. pose proof (sqrt_lt_R0 _ P) as Q. pose proof (sqrt_sqrt (INR m) ltac:(lra)) as E. rewrite <- E at 3. field. lra. Qed.
Lemma Tm_unitary : unitary (m * n) Tm.
Proof.
  pose proof INRm as P. split; intros q x Hq Hx; destruct (pair_inv m n q Hq) as (c & i & Hc & Hi & ->); destruct (pair_inv m n x Hx) as (c' & i' & Hc' & Hi' & ->); rewrite csum_pairs, (pair_eqb n c i c' i' Hi Hi').
  - rewrite (csum_ext' m _ (fun j => cmul (rc (rsum n (fun a => D c i a * D c' i' a) / INR m)) (cmul (p j c) (cconj (p j c'))))).
    + rewrite csum_mul, (h_rows _ _ CH) by assumption. destruct (Nat.eqb_spec c c') as [<-|]; cbn [andb].
      * rewrite Drows by assumption. destruct (i =? i')%nat; unfold rc, c1, c0, cmul; cbn; f_equal; field; lra.
      * ring.
    + intros j Hj. rewrite (csum_ext' n _ (fun a => cmul (rc (D c i a * D c' i' a)) (cmul (rc (/ INR m)) (cmul (p j c) (cconj (p j c')))))).
      * rewrite csum_mul_r. replace (csum n (fun a => rc (D c i a * D c' i' a))) with (rc (rsum n (fun a => D c i a * D c' i' a))) by (unfold csum, rc; cbn; rewrite rsum_zero; reflexivity).
        unfold Rdiv. transitivity (cmul (cmul (rc (rsum n (fun a => D c i a * D c' i' a))) (rc (/ INR m))) (cmul (p j c) (cconj (p j c')))); [ring|]. f_equal. unfold rc, cmul. cbn. f_equal; ring.
      * intros a Ha. rewrite !Tm_at by assumption. rewrite !cscale_rc, cconj_mul, cconj_rc. transitivity (cmul (rc (D c i a / sqrt (INR m) * (D c' i' a / sqrt (INR m)))) (cmul (p j c) (cconj (p j c')))).
        -- replace (rc (D c i a / sqrt (INR m) * (D c' i' a / sqrt (INR m)))) with (cmul (rc (D c i a / sqrt (INR m))) (rc (D c' i' a / sqrt (INR m)))) by (unfold rc, cmul; cbn; f_equal; ring). ring.
        -- rewrite sqrt_m. unfold Rdiv. replace (rc (D c i a * D c' i' a * / INR m)) with (cmul (rc (D c i a * D c' i' a)) (rc (/ INR m))) by (unfold rc, cmul; cbn; f_equal; ring). ring.
  - rewrite (csum_ext' m _ (fun d => cmul (if (i =? i')%nat then rc (/ INR m) else c0) (cmul (cconj (p c d)) (p c' d)))).
    + rewrite csum_mul, (h_cols _ _ CH) by assumption. destruct (Nat.eqb_spec c c') as [<-|]; cbn [andb]; [|destruct (i =? i')%nat; ring].
      destruct (i =? i')%nat; unfold rc, c1, c0, cmul; cbn; f_equal; field; lra.
    + intros d Hd. rewrite (csum_ext' n _ (fun a => cmul (rc (D d a i * D d a i')) (cmul (rc (/ INR m)) (cmul (cconj (p c d)) (p c' d))))).
      * rewrite csum_mul_r. replace (csum n (fun a => rc (D d a i * D d a i'))) with (rc (rsum n (fun a => D d a i * D d a i'))) by (unfold csum, rc; cbn; rewrite rsum_zero; reflexivity).
        rewrite Dcols by assumption. destruct (i =? i')%nat; [change (rc 1) with c1; ring|change (rc 0) with c0; ring].
      * intros a Ha. rewrite !Tm_at by assumption. rewrite !cscale_rc, cconj_mul, cconj_rc. transitivity (cmul (rc (D d a i / sqrt (INR m) * (D d a i' / sqrt (INR m)))) (cmul (cconj (p c d)) (p c' d))).
        -- replace (rc (D d a i / sqrt (INR m) * (D d a i' / sqrt (INR m)))) with (cmul (rc (D d a i / sqrt (INR m))) (rc (D d a i' / sqrt (INR m)))) by (unfold rc, cmul; cbn; f_equal; ring). ring.
        -- rewrite sqrt_m. unfold Rdiv. replace (rc (D d a i * D d a i' * / INR m)) with (cmul (rc (D d a i * D d a i')) (rc (/ INR m))) by (unfold rc, cmul; cbn; f_equal; ring). ring.
Qed.
Lemma transported_unfolded A c i c' i' : (c < m)%nat -> (c' < m)%nat -> (i < n)%nat -> (i' < n)%nat -> transported (m * n) Tm (bd A) (c * n + i) (c' * n + i') = unfolded m n p D A c i c' i'.
Proof.
  intros Hc Hc' Hi Hi'. unfold transported, unfolded. rewrite csum_pairs. apply csum_ext'. intros j Hj. apply csum_ext'. intros a Ha. rewrite csum_pairs.
  rewrite (csum_ext' m _ (fun j' => csum n (fun b => if (j =? j')%nat then cmul (cmul (Tm (c * n + i) (j * n + a)) (A j a b)) (cconj (Tm (c' * n + i') (j' * n + b))) else c0))).
  - rewrite (csum_block j (fun j' b => cmul (cmul (Tm (c * n + i) (j * n + a)) (A j a b)) (cconj (Tm (c' * n + i') (j' * n + b))))) by exact Hj. apply csum_ext'. intros b Hb.
    rewrite !Tm_at by assumption. rewrite !cscale_rc, cconj_mul, cconj_rc. rewrite <- sqrt_m.
    replace (rc (D c i a / sqrt (INR m) * (D c' i' b / sqrt (INR m)))) with (cmul (rc (D c i a / sqrt (INR m))) (rc (D c' i' b / sqrt (INR m)))) by (unfold rc, cmul; cbn; f_equal; ring). ring.
  - intros j' Hj'. apply csum_ext'. intros b Hb. rewrite bd_at by assumption. destruct (j =? j')%nat; [reflexivity|ring].
Qed.
End Blocks.
