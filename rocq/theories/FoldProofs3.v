From Coq Require Import Reals ZArith List Bool Arith Lia Lra FunctionalExtensionality.
From Verif Require Import Vec GeomModel GeomProofs MixModel OccModel OccProofs SkModel SkSpec Cpx RhoModel RhoSpec RhoProofs EigModel EigSpec EigProofs2 InvModel InvSpec InvLin InvProofs InvProofs2 InvProofs3 InvProofs4 InvProofs6 BndModel BndSpec BndProofs BndProofs2 FoldSpec FoldProofs FoldProofs2.
Import ListNotations.
Open Scope R_scope.

Lemma extremes_alike' nk nk' n n' (e e' : nat -> nat -> R) : (forall x, In x (eflat nk n e) <-> In x (eflat nk' n' e')) -> emin nk n e = emin nk' n' e' /\ emax nk n e = emax nk' n' e'.
Proof.
  intros H. unfold emin, emax. destruct (eflat nk n e) as [|x l], (eflat nk' n' e') as [|y r].
  - split; reflexivity.
  - exfalso. exact (proj2 (H y) (or_introl eq_refl)).
  - exfalso. exact (proj1 (H x) (or_introl eq_refl)).
  - pose proof (fold_min_in l x) as A. pose proof (fold_min_in r y) as A'. pose proof (fold_max_in l x) as B. pose proof (fold_max_in r y) as B'.
    apply H in A. apply H in B. apply H in A'. apply H in B'.
    pose proof (fold_min l x) as [m1 m2]. pose proof (fold_min r y) as [m3 m4]. pose proof (fold_max l x) as [m5 m6]. pose proof (fold_max r y) as [m7 m8].
    assert (K1 : forall t, In t (x :: l) -> fold_left Rmin l x <= t) by (intros t [<-|T]; auto). assert (K2 : forall t, In t (y :: r) -> fold_left Rmin r y <= t) by (intros t [<-|T]; auto).
    assert (K3 : forall t, In t (x :: l) -> t <= fold_left Rmax l x) by (intros t [<-|T]; auto). assert (K4 : forall t, In t (y :: r) -> t <= fold_left Rmax r y) by (intros t [<-|T]; auto).
    split; f_equal; apply Rle_antisym; auto.
Qed.

Lemma rsum_nonzero k f : rsum k f <> 0 -> exists i, (i < k)%nat /\ f i <> 0.
Proof.
  induction k as [|k IH]; intros H; [exfalso; apply H; reflexivity|]. cbn [rsum] in H. destruct (Req_EM_T (f k) 0) as [T0|T0]; [|exists k; split; [lia|exact T0]].
  rewrite T0, Rplus_0_r in H. destruct (IH H) as (i & Hi & E). exists i. split; [lia|exact E].
Qed.
Section Fold.
Context (m : nat) (p : nat -> nat -> nat -> cplx) (D : nat -> nat -> nat -> R) (Q : nat -> nat -> nat -> R) (X Y : system).
Context (U : unfolds m p D Q X Y) (LX : layout (s_norb X) (s_N X) (s_o1 X) (s_no X)) (PX : proper X).
Let n := s_norb X.
Let N := s_N X.
Let Hm : (0 < m)%nat := y_m _ _ _ _ _ _ U.
Definition TT (k : nat) : nat -> nat -> cplx := Tm m n (p k) D.
Lemma m_pos : 0 < INR m. Proof. apply (lt_INR 0). exact Hm. Qed.
Lemma point_lt k j : (k < s_nk Y)%nat -> (j < m)%nat -> (k * m + j < s_nk X)%nat.
Proof. intros Hk Hj. rewrite (y_nk _ _ _ _ _ _ U). apply pair_lt; assumption. Qed.
Lemma TT_unitary k : (k < s_nk Y)%nat -> unitary (m * n) (TT k).
Proof.
  intros Hk. apply Tm_unitary; [exact Hm|exact (y_p _ _ _ _ _ _ U k Hk)| |].
  - intros c a b Hc Ha Hb. exact (d_rows _ _ (y_D _ _ _ _ _ _ U c Hc) a b Ha Hb).
  - intros c a b Hc Ha Hb. exact (d_cols _ _ (y_D _ _ _ _ _ _ U c Hc) a b Ha Hb).
Qed.
Lemma unfold_meq k A B : (forall c a c' b, (c < m)%nat -> (c' < m)%nat -> (a < n)%nat -> (b < n)%nat -> B (c * n + a)%nat (c' * n + b)%nat = unfolded m n (p k) D A c a c' b) ->
  meq (m * n) B (transported (m * n) (TT k) (bd n A)).
Proof.
  intros H q q' Hq Hq'. destruct (pair_inv m n q Hq) as (c & i & Hc & Hi & ->). destruct (pair_inv m n q' Hq') as (c' & i' & Hc' & Hi' & ->).
  unfold TT. rewrite transported_unfolded by assumption. apply H; assumption.
Qed.
Lemma H0_meq k : (k < s_nk Y)%nat -> meq (m * n) (s_H0 Y k) (transported (m * n) (TT k) (bd n (fun j => s_H0 X (k * m + j)%nat))).
Proof. intros Hk. apply unfold_meq. intros. apply (y_H0 _ _ _ _ _ _ U); assumption. Qed.
Lemma S_meq k : (k < s_nk Y)%nat -> meq (m * n) (s_S Y k) (transported (m * n) (TT k) (bd n (fun j => s_S X (k * m + j)%nat))).
Proof. intros Hk. apply unfold_meq. intros. apply (y_S _ _ _ _ _ _ U); assumption. Qed.
Lemma d_rows_meq k d c (F : nat -> kmatrix) (G : nat -> nat -> nat -> cplx) : (c < m)%nat ->
  (forall a c' b, (c' < m)%nat -> (a < n)%nat -> (b < n)%nat -> G k (c * n + a)%nat (c' * n + b)%nat = csum 3 (fun e => cscale (Q c d e) (unfolded m n (p k) D (fun j => F e (k * m + j)%nat) c a c' b))) ->
  forall a l, (a < n)%nat -> (l < m * n)%nat -> G k (c * n + a)%nat l = csum 3 (fun e => cscale (Q c d e) (transported (m * n) (TT k) (bd n (fun j => F e (k * m + j)%nat)) (c * n + a) l)).
Proof.
  intros Hc H a l Ha Hl. destruct (pair_inv m n l Hl) as (c' & b & Hc' & Hb & ->). rewrite (H a c' b Hc' Ha Hb). apply csum_ext'. intros e _. unfold TT. rewrite transported_unfolded by assumption. reflexivity.
Qed.
(** ** atoms *)
Lemma room I : (I < N)%nat -> (s_o1 X I + s_no X I <= n)%nat.
Proof. intros HI. pose proof LX as (Lo & Ln). unfold n. rewrite (Lo I HI), Ln. pose proof (nsum_le (S I) (s_N X) (s_no X) ltac:(fold N; lia)) as K. cbn [nsum] in K. exact K. Qed.
Lemma owns_fold c c' I i : (c < m)%nat -> (c' < m)%nat -> (I < N)%nat -> (i < n)%nat ->
  owns (s_o1 Y) (s_no Y) (c * N + I) (c' * n + i) = ((c =? c')%nat && owns (s_o1 X) (s_no X) I i)%bool.
Proof.
  intros Hc Hc' HI Hi. pose proof (room I HI) as B. unfold owns, N. rewrite (y_o1 _ _ _ _ _ _ U c I Hc HI), (y_no _ _ _ _ _ _ U c I Hc HI). fold n.
  apply eq_true_iff_eq. rewrite !andb_true_iff, Nat.eqb_eq, !Nat.leb_le, !Nat.ltb_lt. split.
  - intros [A1 A2]. assert (c = c') by nia. subst. lia.
  - intros (-> & A1 & A2). lia.
Qed.
Lemma belongs_fold c I i : (c < m)%nat -> (I < N)%nat -> belongs (s_o1 X) (s_no X) i I -> belongs (s_o1 Y) (s_no Y) (c * n + i) (c * N + I).
Proof. intros Hc HI. unfold belongs, N. rewrite (y_o1 _ _ _ _ _ _ U c I Hc HI), (y_no _ _ _ _ _ _ U c I Hc HI). fold n. lia. Qed.
Lemma same_owner c i a I : (c < m)%nat -> (i < n)%nat -> (a < n)%nat -> (I < N)%nat -> D c i a <> 0 -> owns (s_o1 X) (s_no X) I i = owns (s_o1 X) (s_no X) I a.
Proof.
  intros Hc Hi Ha HI E. destruct (belongs_exists _ _ _ _ i LX Hi) as (J & HJ & BJ). destruct (belongs_exists _ _ _ _ a LX Ha) as (J' & HJ' & BJ').
  assert (J = J') by (destruct (Nat.eq_dec J J') as [|Ne]; [assumption|exfalso; apply E; exact (d_atoms _ _ (y_D _ _ _ _ _ _ U c Hc) i a J J' HJ HJ' BJ BJ' Ne)]). subst J'.
  apply eq_true_iff_eq. rewrite !owns_belongs. split; intros B.
  - rewrite (belongs_unique _ _ _ _ i I J LX HI HJ B BJ). exact BJ'.
  - rewrite (belongs_unique _ _ _ _ a I J LX HI HJ B BJ'). exact BJ.
Qed.
Lemma block_D c I a b : (c < m)%nat -> (I < N)%nat -> (a < n)%nat -> (b < n)%nat ->
  rsum n (fun i => if owns (s_o1 X) (s_no X) I i then D c i a * D c i b else 0) = if (owns (s_o1 X) (s_no X) I a && (a =? b)%nat)%bool then 1 else 0.
Proof.
  intros Hc HI Ha Hb. destruct (owns (s_o1 X) (s_no X) I a) eqn:O; cbn [andb].
  - rewrite <- (d_cols _ _ (y_D _ _ _ _ _ _ U c Hc) a b Ha Hb). apply rsum_ext. intros i Hi. cbv beta. destruct (Req_EM_T (D c i a) 0) as [E|E]; [rewrite E; destruct (owns (s_o1 X) (s_no X) I i); ring|].
    rewrite (same_owner c i a I Hc Hi Ha HI E), O. reflexivity.
  - apply rsum_eq0. intros i Hi. destruct (Req_EM_T (D c i a) 0) as [E|E]; [rewrite E; destruct (owns (s_o1 X) (s_no X) I i); ring|]. rewrite (same_owner c i a I Hc Hi Ha HI E), O. reflexivity.
Qed.
Lemma rc_mul a b : rc (a * b) = cmul (rc a) (rc b). Proof. unfold rc, cmul. cbn. f_equal; ring. Qed.
Lemma csum_rc k (f : nat -> R) : csum k (fun i => rc (f i)) = rc (rsum k f). Proof. unfold csum, rc. cbn. rewrite rsum_zero. reflexivity. Qed.
Lemma atr_fold k c I A B A' B' : (k < s_nk Y)%nat -> (c < m)%nat -> (I < N)%nat ->
  (forall a l, (a < n)%nat -> (l < m * n)%nat -> A' (c * n + a)%nat l = transported (m * n) (TT k) (bd n A) (c * n + a) l) -> meq (m * n) B' (transported (m * n) (TT k) (bd n B)) ->
  atr Y (c * N + I) A' B' = cscale (/ INR m) (csum m (fun j => atr X I (A j) (B j))).
Proof.
  intros Hk Hc HI EA EB. unfold atr. rewrite (y_norb _ _ _ _ _ _ U). fold n. rewrite csum_pairs.
  set (ow := owns (s_o1 X) (s_no X) I).
  rewrite (csum_single m c); [|exact Hc|].
  2: { intros c' Hc' Ne. apply csum_all0. intros i Hi. rewrite owns_fold by assumption. rewrite (proj2 (Nat.eqb_neq c c')) by auto. reflexivity. }
  set (P := fun j => mmul n (A j) (B j)).
  transitivity (csum n (fun i => csum m (fun j => csum n (fun a => csum n (fun b => cmul (rc (if ow i then D c i a * D c i b else 0)) (cmul (rc (/ INR m)) (P j a b))))))).
  - apply csum_ext'. intros i Hi. rewrite owns_fold by assumption. rewrite Nat.eqb_refl. cbn [andb]. fold ow. pose proof (pair_lt m n c i Hc Hi) as Hq.
    destruct (ow i); cbv iota.
    + transitivity (mmul (m * n) (transported (m * n) (TT k) (bd n A)) (transported (m * n) (TT k) (bd n B)) (c * n + i) (c * n + i)).
      { apply csum_ext'. intros l Hl. rewrite (EA i l Hi Hl), (EB l _ Hl Hq). reflexivity. }
      rewrite (transported_mul (m * n) (TT k) (TT_unitary k Hk)) by assumption. rewrite (transported_ext (m * n) (TT k) _ _ _ _ (bd_mmul m n A B)). unfold TT. rewrite transported_unfolded by assumption.
      unfold unfolded. apply csum_ext'. intros j Hj. apply csum_ext'. intros a Ha. apply csum_ext'. intros b Hb. rewrite (h_unit _ _ (y_p _ _ _ _ _ _ U k Hk) j c Hj Hc). unfold Rdiv. rewrite cscale_rc, !rc_mul. unfold P. ring.
    + symmetry. apply csum_all0. intros j _. apply csum_all0. intros a _. apply csum_all0. intros b _. change (rc 0) with c0. ring.
  - rewrite csum_swap, cscale_rc, <- csum_mul. apply csum_ext'. intros j Hj. rewrite csum_swap, <- csum_mul. apply csum_ext'. intros a Ha. rewrite csum_swap.
    rewrite (csum_ext' n _ (fun b => if (a =? b)%nat then cmul (rc (/ INR m)) (if ow a then P j a b else c0) else c0)).
    + rewrite (csum_single n a); [rewrite Nat.eqb_refl; reflexivity|exact Ha|]. intros b _ Ne. rewrite (proj2 (Nat.eqb_neq a b)) by auto. reflexivity.
    + intros b Hb. rewrite csum_mul_r, csum_rc. pose proof (block_D c I a b Hc HI Ha Hb) as G. fold ow in G. rewrite G. destruct (ow a), (a =? b)%nat; cbn [andb]; change (rc 1) with c1; change (rc 0) with c0; ring.
Qed.
(** ** the potential *)
Lemma INR_fold q : (q < m * N)%nat -> exists c I, (c < m)%nat /\ (I < N)%nat /\ q = (c * N + I)%nat. Proof. apply pair_inv. Qed.
Lemma aux_fold u v c i a : repeated m N u v -> (c < m)%nat -> (i < n)%nat -> (a < n)%nat -> D c i a <> 0 -> aux_rows (s_o1 Y) (s_no Y) (s_N Y) v (c * n + i) = aux_rows (s_o1 X) (s_no X) (s_N X) u a.
Proof.
  intros C Hc Hi Ha E. destruct (belongs_exists _ _ _ _ a LX Ha) as (I & HI & BI). assert (B2 : belongs (s_o1 X) (s_no X) i I).
  { apply owns_belongs. rewrite (same_owner c i a I Hc Hi Ha HI E). apply owns_belongs. exact BI. }
  rewrite (aux_rows_value (s_norb X) (s_N X) _ _ u a I LX HI BI).
  rewrite (aux_rows_value (s_norb Y) (s_N Y) _ _ v (c * n + i) (c * N + I) (y_lay _ _ _ _ _ _ U)); [apply C; assumption|rewrite (y_N _ _ _ _ _ _ U); apply pair_lt; assumption|apply belongs_fold; assumption].
Qed.
Lemma ext_fold : existsb (fun I => ltb (/ 10 ^ 12) (Rabs (s_ext Y I))) (seq 0 (s_N Y)) = existsb (fun I => ltb (/ 10 ^ 12) (Rabs (s_ext X I))) (seq 0 (s_N X)).
Proof.
  rewrite (y_N _ _ _ _ _ _ U). fold N. apply eq_true_iff_eq. rewrite !existsb_exists. split.
  - intros (q & Hq & E). apply in_seq in Hq. destruct (INR_fold q ltac:(lia)) as (c & I & Hc & HI & ->). exists I. split; [apply in_seq; lia|]. rewrite <- (y_ext _ _ _ _ _ _ U c I Hc HI). exact E.
  - intros (I & HI & E). apply in_seq in HI. assert (HI' : (I < N)%nat) by lia. exists (0 * N + I)%nat. split; [apply in_seq; pose proof (pair_lt m N 0 I Hm HI'); lia|]. unfold N at 1. rewrite (y_ext _ _ _ _ _ _ U 0%nat I Hm HI'). exact E.
Qed.
Definition matched2 (h h' : nat -> nat -> R) : Prop := forall c i a c' l b, (c < m)%nat -> (c' < m)%nat -> (i < n)%nat -> (a < n)%nat -> (l < n)%nat -> (b < n)%nat -> D c i a <> 0 -> D c' l b <> 0 ->
  h' (c * n + i)%nat (c' * n + l)%nat = h a b.
Lemma h1_fold u v : repeated m N u v -> matched2 (h1_of X u) (h1_of Y v).
Proof.
  intros C c i a c' l b Hc Hc' Hi Ha Hl Hb E1 E2. unfold h1_of, construct_h1. rewrite ext_fold. pose proof (y_eps _ _ _ _ _ _ U u v C) as EP.
  rewrite (aux_fold _ _ c i a EP Hc Hi Ha E1), (aux_fold _ _ c' l b EP Hc' Hl Hb E2), (aux_fold _ _ c i a (y_ext _ _ _ _ _ _ U) Hc Hi Ha E1), (aux_fold _ _ c' l b (y_ext _ _ _ _ _ _ U) Hc' Hl Hb E2). reflexivity.
Qed.
Lemma TT_nonzero k c i j a : (i < n)%nat -> (a < n)%nat -> TT k (c * n + i) (j * n + a) <> c0 -> D c i a <> 0.
Proof. intros Hi Ha E F. apply E. unfold TT. rewrite Tm_at by assumption. rewrite F. unfold cscale, c0. cbn. f_equal; unfold Rdiv; ring. Qed.
Lemma weighted_fold k h h' (A : nat -> nat -> nat -> cplx) q q' : (q < m * n)%nat -> (q' < m * n)%nat -> matched2 h h' ->
  transported (m * n) (TT k) (bd n (fun j a b => cscale (h a b) (A j a b))) q q' = cscale (h' q q') (transported (m * n) (TT k) (bd n A) q q').
Proof.
  intros Hq Hq' M. rewrite <- (weighted_carried (m * n) (TT k) (fun x y => h (x mod n)%nat (y mod n)%nat) h' (bd n A) q q' Hq Hq').
  - apply transported_ext. intros x y _ _. unfold bd. destruct (_ =? _)%nat; [reflexivity|]. unfold cscale, c0. cbn. f_equal; ring.
  - intros x j y l Hx Hj Hy Hl E1 E2. destruct (pair_inv m n x Hx) as (c & i & Hc & Hi & ->). destruct (pair_inv m n y Hy) as (c' & i' & Hc' & Hi' & ->).
    destruct (pair_inv m n j Hj) as (d & a & Hd & Ha & ->). destruct (pair_inv m n l Hl) as (d' & b & Hd' & Hb & ->). rewrite !pair_mod by assumption.
    apply M; try assumption; [apply (TT_nonzero k c i d a)|apply (TT_nonzero k c' i' d' b)]; assumption.
Qed.
Lemma hermitian_meq q A B : meq q A B -> RhoSpec.hermitian q B -> RhoSpec.hermitian q A.
Proof. intros E H i j Hi Hj. rewrite (E i j Hi Hj), (E j i Hj Hi). apply H; assumption. Qed.
Lemma proper_fold : proper Y.
Proof.
  destruct PX as [A B]. split; intros k Hk; rewrite (y_norb _ _ _ _ _ _ U).
  - apply (hermitian_meq _ _ _ (H0_meq k Hk)). apply hermitian_carried. apply bd_hermitian. intros j Hj. apply A. apply point_lt; assumption.
  - apply (hermitian_meq _ _ _ (S_meq k Hk)). apply hermitian_carried. apply bd_hermitian. intros j Hj. apply B. apply point_lt; assumption.
Qed.
(** ** one pass *)
Record folded (q q' : passed) : Prop := {
  o_h : matched2 (fst (fst q)) (fst (fst q'));
  o_e : forall (phi : R -> R) k, (k < s_nk Y)%nat -> rsum (m * n) (fun a => phi (snd (fst q') k a)) = rsum m (fun j => rsum n (fun a => phi (snd (fst q) (k * m + j)%nat a)));
  o_rho : forall (phi : R -> R) k, (k < s_nk Y)%nat -> meq (m * n) (compute_rho (m * n) (snd q' k) (fun a => phi (snd (fst q') k a)))
    (transported (m * n) (TT k) (bd n (fun j => compute_rho n (snd q (k * m + j)%nat) (fun a => phi (snd (fst q) (k * m + j)%nat a)))));
  o_norm : orthonormal n (s_nk X) (s_S X) (snd q) }.
Context (z z' : lapack) (w0 w0' : nat -> nat -> R) (evmin evmin' : (nat -> nat -> cplx) -> R).
Context (RX : reliable z w0 X) (RY : reliable z' w0' Y).
Context (MAXE : R) (brentq : (R -> R) -> R -> R -> R -> option R) (tol_norm tol_mull tol_im Hartree Bohr : R) (Ht : 0 <= tol_norm) (scc : bool).
Lemma pass_fold H1 H1' : (forall h, H1 = Some h -> forall i j, h i j = h j i) -> (forall h, H1' = Some h -> forall i j, h i j = h j i) ->
  matched2 (match H1 with Some h => h | None => fun _ _ => 0 end) (match H1' with Some h => h | None => fun _ _ => 0 end) ->
  exists q q', pass z evmin w0 tol_norm X H1 = Some q /\ pass z' evmin' w0' tol_norm Y H1' = Some q' /\ folded q q'.
Proof.
  intros Sx Sy M. destruct (solve_system X z w0 evmin tol_norm H1 Ht PX RX Sx) as (e & wf & E & O & W & _). destruct (solve_system Y z' w0' evmin' tol_norm H1' Ht proper_fold RY Sy) as (e' & wf' & E' & O' & W' & _).
  unfold pass. rewrite E, E'. eexists _, _. split; [reflexivity|]. split; [reflexivity|].
  set (h := match H1 with Some h => h | None => fun _ _ => 0 end) in *. set (h' := match H1' with Some h => h | None => fun _ _ => 0 end) in *.
  assert (Hs : forall i j : nat, h i j = h j i) by (intros i j; unfold h; destruct H1 as [g|]; [apply (Sx g eq_refl)|reflexivity]).
  assert (K : forall (phi : R -> R) k, (k < s_nk Y)%nat -> rsum (m * n) (fun a => phi (e' k a)) = rsum m (fun j => rsum n (fun a => phi (e (k * m + j)%nat a))) /\
    meq (m * n) (compute_rho (m * n) (wf' k) (fun a => phi (e' k a))) (transported (m * n) (TT k) (bd n (fun j => compute_rho n (wf (k * m + j)%nat) (fun a => phi (e (k * m + j)%nat a)))))).
  { intros phi k Hk. rewrite (y_norb _ _ _ _ _ _ U) in O', W'. fold n in O', W'. destruct PX as [PH PS].
    set (HX := fun j a b => cadd (s_H0 X (k * m + j)%nat a b) (cscale (h a b) (s_S X (k * m + j)%nat a b))). set (SX := fun j => s_S X (k * m + j)%nat).
    set (W1 := fun a => back (m * n) (TT k) (wf' k a)).
    assert (hH : RhoSpec.hermitian (m * n) (bd n HX)).
    { apply bd_hermitian. intros j Hj i l Hi Hl. pose proof (point_lt k j Hk Hj) as Hp. unfold HX. rewrite (PH _ Hp i l Hi Hl), (PS _ Hp i l Hi Hl), (Hs i l), !cscale_rc, cconj_add, cconj_mul, cconj_rc. reflexivity. }
    assert (hS : RhoSpec.hermitian (m * n) (bd n SX)) by (apply bd_hermitian; intros j Hj; apply PS; apply point_lt; assumption).
    assert (o1 : orthoset (m * n) (bd n SX) (bstate n (fun j => wf (k * m + j)%nat))).
    { apply bd_ortho. intros j Hj a b Ha Hb. apply O; try assumption. apply point_lt; assumption. }
    assert (s1 : solves (m * n) (bd n HX) (bd n SX) (bstate n (fun j => wf (k * m + j)%nat)) (benergy n (fun j => e (k * m + j)%nat))).
    { apply bd_solves. intros j Hj. apply W. apply point_lt; assumption. }
    assert (o2 : orthoset (m * n) (bd n SX) W1).
    { intros a b Ha Hb. unfold W1. rewrite (back_bracket (m * n) (TT k)). rewrite <- (O' k a b Hk Ha Hb). apply InvLin.bracket_mat. intros i j Hi Hj. symmetry. apply S_meq; assumption. }
    assert (s2 : solves (m * n) (bd n HX) (bd n SX) W1 (e' k)).
    { apply (back_solves (m * n) (TT k) (TT_unitary k Hk)). refine (solves_ext (m * n) _ _ _ _ (wf' k) (e' k) _ (S_meq k Hk) (W' k Hk)).
      intros i l Hi Hl. cbv beta. assert (SM : meq (m * n) (s_S Y k) (transported (m * n) (TT k) (bd n SX))) by exact (S_meq k Hk). rewrite (H0_meq k Hk i l Hi Hl), (SM i l Hi Hl), <- (weighted_fold k h h' SX i l Hi Hl M).
      unfold transported. rewrite <- csum_add. apply csum_ext'. intros x Hx. rewrite <- csum_add. apply csum_ext'. intros y Hy. unfold bd, HX, SX. destruct (_ =? _)%nat; [ring|]. cbv beta. ring. }
    split.
    - rewrite <- (sum_equal (m * n) (bd n HX) (bd n SX) _ W1 _ (e' k) phi hH hS o1 o2 s1 s2). rewrite rsum_pairs. apply rsum_ext. intros j _. apply rsum_ext. intros a Ha. rewrite benergy_at by exact Ha. reflexivity.
    - intros i l Hi Hl. rewrite (density_carried (m * n) (TT k) (TT_unitary k Hk) (wf' k) _ i l Hi Hl). apply transported_ext. intros x y Hx Hy.
      rewrite <- (bd_rho m n (fun j => wf (k * m + j)%nat) (fun j a => phi (e (k * m + j)%nat a)) x y Hx Hy).
      exact (density_unique (m * n) (bd n HX) (bd n SX) _ W1 _ (e' k) hH hS o1 o2 s1 s2 phi x y Hx Hy). }
  split; cbn [fst snd].
  - exact M.
  - intros phi k Hk. exact (proj1 (K phi k Hk)).
  - intros phi k Hk. exact (proj2 (K phi k Hk)).
  - exact O.
Qed.
(** ** occupations and charges *)
Lemma levels_fold q q' k x : folded q q' -> (k < s_nk Y)%nat -> (exists a, (a < m * n)%nat /\ snd (fst q') k a = x) <-> exists j a, (j < m)%nat /\ (a < n)%nat /\ snd (fst q) (k * m + j)%nat a = x.
Proof.
  intros A Hk. pose proof (o_e _ _ A (fun y => if Req_EM_T y x then 1 else 0) k Hk) as E. cbv beta in E.
  assert (P0 : forall y, 0 <= (if Req_EM_T y x then 1 else 0)) by (intros y; destruct (Req_EM_T y x); lra).
  split.
  - intros (a & Ha & Ea). destruct (Req_EM_T (rsum (m * n) (fun a => if Req_EM_T (snd (fst q') k a) x then 1 else 0)) 0) as [Z0|Z0].
    + exfalso. assert (L : 1 <= rsum (m * n) (fun a => if Req_EM_T (snd (fst q') k a) x then 1 else 0)); [|lra].
      replace 1 with (rsum (m * n) (fun b => if (b =? a)%nat then 1 else 0)) at 1.
      * apply rsum_le. intros b Hb. destruct (Nat.eqb_spec b a) as [->|]; [rewrite Ea; destruct (Req_EM_T x x); [lra|congruence]|apply P0].
      * rewrite (rsum_single (m * n) a); [rewrite Nat.eqb_refl; reflexivity|exact Ha|]. intros b _ Ne. rewrite (proj2 (Nat.eqb_neq b a)) by exact Ne. reflexivity.
    + rewrite E in Z0. destruct (rsum_nonzero _ _ Z0) as (j & Hj & F). destruct (rsum_nonzero _ _ F) as (b & Hb & G). exists j, b. split; [exact Hj|]. split; [exact Hb|].
      cbv beta in G. destruct (Req_EM_T _ x) as [T0|T0]; [exact T0|lra].
  - intros (j & a & Hj & Ha & Ea). destruct (Req_EM_T (rsum (m * n) (fun a => if Req_EM_T (snd (fst q') k a) x then 1 else 0)) 0) as [Z0|Z0].
    + exfalso. rewrite E in Z0. assert (L : 1 <= rsum m (fun j => rsum n (fun a => if Req_EM_T (snd (fst q) (k * m + j)%nat a) x then 1 else 0))); [|lra].
      replace 1 with (rsum m (fun j' => if (j' =? j)%nat then 1 else 0)) at 1.
      * apply rsum_le. intros j' Hj'. destruct (Nat.eqb_spec j' j) as [->|]; [|apply rsum_nonneg; intros; apply P0].
        replace 1 with (rsum n (fun b => if (b =? a)%nat then 1 else 0)) at 1.
        -- apply rsum_le. intros b Hb. destruct (Nat.eqb_spec b a) as [->|]; [rewrite Ea; destruct (Req_EM_T x x); [lra|congruence]|apply P0].
        -- rewrite (rsum_single n a); [rewrite Nat.eqb_refl; reflexivity|exact Ha|]. intros b _ Ne. rewrite (proj2 (Nat.eqb_neq b a)) by exact Ne. reflexivity.
      * rewrite (rsum_single m j); [rewrite Nat.eqb_refl; reflexivity|exact Hj|]. intros b _ Ne. rewrite (proj2 (Nat.eqb_neq b j)) by exact Ne. reflexivity.
    + destruct (rsum_nonzero _ _ Z0) as (b & Hb & G). exists b. split; [exact Hb|]. cbv beta in G. destruct (Req_EM_T _ x) as [T0|T0]; [exact T0|lra].
Qed.
Lemma eflat_fold q q' x : folded q q' -> In x (eflat (s_nk X) (s_norb X) (snd (fst q))) <-> In x (eflat (s_nk Y) (s_norb Y) (snd (fst q'))).
Proof.
  intros A. rewrite (y_norb _ _ _ _ _ _ U). fold n. unfold eflat. rewrite !in_flat_map. split.
  - intros (k0 & Hk & Hx). apply in_seq in Hk. rewrite (y_nk _ _ _ _ _ _ U) in Hk. destruct (pair_inv (s_nk Y) m k0 ltac:(lia)) as (k & j & Hk' & Hj & ->).
    apply in_map_iff in Hx. destruct Hx as (a & Ea & Ha). apply in_seq in Ha. destruct (proj2 (levels_fold q q' k x A Hk')) as (b & Hb & Eb); [exists j, a; split; [exact Hj|]; split; [lia|exact Ea]|].
    exists k. split; [apply in_seq; lia|]. apply in_map_iff. exists b. split; [exact Eb|apply in_seq; lia].
  - intros (k & Hk & Hx). apply in_seq in Hk. apply in_map_iff in Hx. destruct Hx as (a & Ea & Ha). apply in_seq in Ha.
    destruct (proj1 (levels_fold q q' k x A ltac:(lia))) as (j & b & Hj & Hb & Eb); [exists a; split; [lia|exact Ea]|].
    exists (k * m + j)%nat. split; [apply in_seq; pose proof (point_lt k j ltac:(lia) Hj); lia|]. apply in_map_iff. exists b. split; [exact Eb|apply in_seq; lia].
Qed.
Lemma points_sum (F : nat -> R) (G : nat -> R) : (forall k, (k < s_nk Y)%nat -> G k = rsum m (fun j => F (k * m + j)%nat)) -> rsum (s_nk X) (fun k => s_wk X k * F k) = / INR m * rsum (s_nk Y) (fun k => s_wk Y k * G k).
Proof.
  intros H. rewrite (y_nk _ _ _ _ _ _ U), rsum_pairs, <- rsum_scal. apply rsum_ext. intros k Hk. rewrite (H k Hk), <- !rsum_scal. apply rsum_ext. intros j Hj. rewrite (y_wk _ _ _ _ _ _ U k j Hk Hj). unfold Rdiv. ring.
Qed.
Lemma points_sum' (F : nat -> R) (G : nat -> R) : (forall k, (k < s_nk Y)%nat -> G k = / INR m * rsum m (fun j => F (k * m + j)%nat)) -> rsum (s_nk Y) (fun k => s_wk Y k * G k) = rsum (s_nk X) (fun k => s_wk X k * F k).
Proof. intros H. rewrite (points_sum F (fun k => INR m * G k)); [rewrite <- rsum_scal; apply rsum_ext; intros k _; pose proof m_pos; field; lra|]. intros k Hk. rewrite (H k Hk). pose proof m_pos. field. lra. Qed.
Lemma root_fold q q' : folded q q' -> root_function MAXE (s_nk Y) (s_norb Y) (s_wk Y) (s_width Y) (s_nel Y) (snd (fst q')) = fun mu => INR m * root_function MAXE (s_nk X) (s_norb X) (s_wk X) (s_width X) (s_nel X) (snd (fst q)) mu.
Proof.
  intros A. apply functional_extensionality. intros mu. unfold root_function, electrons. rewrite (y_nel _ _ _ _ _ _ U), (y_width _ _ _ _ _ _ U), (y_norb _ _ _ _ _ _ U). fold n.
  rewrite (rsum_ext (s_nk X) _ (fun k => s_wk X k * rsum n (fun a => fermi MAXE (s_width X) (snd (fst q) k a) mu))) by (intros k _; rewrite rsum_scal; reflexivity).
  rewrite (points_sum (fun k => rsum n (fun a => fermi MAXE (s_width X) (snd (fst q) k a) mu)) (fun k => rsum (m * n) (fun a => fermi MAXE (s_width X) (snd (fst q') k a) mu))).
  - rewrite (rsum_ext (s_nk Y) _ (fun k => s_wk Y k * rsum (m * n) (fun a => fermi MAXE (s_width X) (snd (fst q') k a) mu))) by (intros k _; rewrite rsum_scal; reflexivity). pose proof m_pos. field. lra.
  - intros k Hk. exact (o_e _ _ A (fun x => fermi MAXE (s_width X) x mu) k Hk).
Qed.
Lemma total_fold (q : passed) (phi : R -> R) : orthonormal n (s_nk X) (s_S X) (snd q) ->
  rsum (s_norb X) (diag (s_norb X) (s_nk X) (s_wk X) (density X (snd q) (fun k a => phi (snd (fst q) k a))) (s_S X)) = rsum (s_nk X) (fun k => s_wk X k * rsum n (fun a => phi (snd (fst q) k a))).
Proof. intros O. apply (total_population (s_norb X) (s_nk X) (s_wk X) (snd q) (fun k a => phi (snd (fst q) k a)) (s_S X)). intros k a Hk Ha. pose proof (O k a a Hk Ha Ha) as E. rewrite Nat.eqb_refl in E. exact E. Qed.
Context (SFB : scale_free brentq).
(** then the checks never fail *)
Definition EX : Prop := exact_roots brentq /\ s_nel X = rsum (s_N X) (s_val X) - s_charge X /\ 0 <= tol_mull.
Lemma occupations_fold q q' : folded q q' ->
  (occupations MAXE brentq X q = None /\ occupations MAXE brentq Y q' = None) \/
  (exists phi, occupations MAXE brentq X q = Some (fun k a => phi (snd (fst q) k a)) /\ occupations MAXE brentq Y q' = Some (fun k a => phi (snd (fst q') k a)) /\
    (EX -> rsum (s_nk X) (fun k => s_wk X k * rsum n (fun a => phi (snd (fst q) k a))) = s_nel X)) \/
  (occupations MAXE brentq Y q' = None /\ (EX -> False)).
Proof.
  intros A. pose proof (root_fold _ _ A) as G.
  assert (F : emin (s_nk X) (s_norb X) (snd (fst q)) = emin (s_nk Y) (s_norb Y) (snd (fst q')) /\ emax (s_nk X) (s_norb X) (snd (fst q)) = emax (s_nk Y) (s_norb Y) (snd (fst q'))).
  { apply extremes_alike'. intros x. apply eflat_fold. exact A. }
  destruct F as [F1 F2]. destruct q as [[h e] wf], q' as [[h' e'] wf']. unfold occupations, occupy. cbn [fst snd] in *. rewrite G, <- F1, <- F2, (y_width _ _ _ _ _ _ U).
  destruct (emin _ _ _) as [lo|]; [|left; split; reflexivity]. destruct (emax _ _ _) as [hi|]; [|left; split; reflexivity].
  rewrite (SFB (INR m) _ _ _ _ m_pos). destruct (brentq _ _ _ _) as [mu|] eqn:EB; [|left; split; reflexivity].
  set (r := root_function MAXE (s_nk X) (s_norb X) (s_wk X) (s_width X) (s_nel X) e mu) in *. rewrite Rabs_mult, (Rabs_pos_eq (INR m)) by (pose proof m_pos; lra).
  assert (Gm : 1 <= INR m) by (apply (le_INR 1); lia).
  destruct (rlt tol (INR m * Rabs r)) eqn:E2.
  - destruct (rlt tol (Rabs r)) eqn:E1; [left; split; reflexivity|]. right. right. split; [reflexivity|]. intros (ER & _). pose proof (ER _ _ _ _ _ EB) as Z0. fold r in Z0. rewrite Z0, Rabs_R0, Rmult_0_r in E2. rewrite Z0, Rabs_R0 in E1. congruence.
  - assert (E1 : rlt tol (Rabs r) = false). { unfold rlt in *. destruct (Rlt_dec tol (INR m * Rabs r)) as [|N2]; [discriminate|]. destruct (Rlt_dec tol (Rabs r)) as [L|]; [|reflexivity]. exfalso. pose proof (Rabs_pos r). nra. }
    rewrite E1. right. left. exists (fun x => fermi MAXE (s_width X) x mu). split; [reflexivity|]. split; [reflexivity|]. intros (ER & _). pose proof (ER _ _ _ _ _ EB) as Z0. unfold root_function, electrons in Z0.
    rewrite (rsum_ext (s_nk X) _ (fun k => s_wk X k * rsum n (fun a => fermi MAXE (s_width X) (e k a) mu))) in Z0 by (intros k _; rewrite rsum_scal; reflexivity). lra.
Qed.
Lemma rho_fold q q' phi k : folded q q' -> (k < s_nk Y)%nat -> meq (m * n) (density Y (snd q') (fun k a => phi (snd (fst q') k a)) k) (transported (m * n) (TT k) (bd n (fun j => density X (snd q) (fun k a => phi (snd (fst q) k a)) (k * m + j)%nat))).
Proof. intros A Hk. unfold density. rewrite (y_norb _ _ _ _ _ _ U). apply (o_rho _ _ A phi k Hk). Qed.
Lemma rhoe_fold q q' phi k : folded q q' -> (k < s_nk Y)%nat -> meq (m * n) (density_e Y (snd q') (fun k a => phi (snd (fst q') k a)) (snd (fst q')) k) (transported (m * n) (TT k) (bd n (fun j => density_e X (snd q) (fun k a => phi (snd (fst q) k a)) (snd (fst q)) (k * m + j)%nat))).
Proof. intros A Hk. unfold density_e, compute_rhoe. rewrite (y_norb _ _ _ _ _ _ U). apply (o_rho _ _ A (fun x => x * phi x) k Hk). Qed.
Lemma atom_lt c I : (c < m)%nat -> (I < N)%nat -> (c * N + I < s_N Y)%nat. Proof. intros. rewrite (y_N _ _ _ _ _ _ U). apply pair_lt; assumption. Qed.
Lemma dq_fold q q' phi : folded q q' ->
  repeated m N (dq_of (s_norb X) (s_nk X) (s_o1 X) (s_no X) (s_val X) (s_wk X) (density X (snd q) (fun k a => phi (snd (fst q) k a))) (s_S X))
              (dq_of (s_norb Y) (s_nk Y) (s_o1 Y) (s_no Y) (s_val Y) (s_wk Y) (density Y (snd q') (fun k a => phi (snd (fst q') k a))) (s_S Y)).
Proof.
  intros A c I Hc HI. rewrite (dq_atr X) by assumption. rewrite (dq_atr Y) by (try apply (y_lay _ _ _ _ _ _ U); apply atom_lt; assumption).
  unfold N at 2. rewrite (y_val _ _ _ _ _ _ U c I Hc HI). f_equal. apply points_sum'. intros k Hk.
  rewrite (atr_fold k c I _ (fun j => s_S X (k * m + j)%nat) _ _ Hk Hc HI (fun a l Ha Hl => rho_fold q q' phi k A Hk (c * n + a)%nat l (pair_lt m n c a Hc Ha) Hl) (S_meq k Hk)).
  unfold cscale. cbn [fst]. rewrite csum_fst. reflexivity.
Qed.
Lemma charges_fold q q' : folded q q' ->
  (charges MAXE brentq tol_mull X q = None /\ charges MAXE brentq tol_mull Y q' = None) \/
  (exists u v, charges MAXE brentq tol_mull X q = Some u /\ charges MAXE brentq tol_mull Y q' = Some v /\ repeated m N u v) \/
  (charges MAXE brentq tol_mull Y q' = None /\ (EX -> False)).
Proof.
  intros A. unfold charges. destruct (occupations_fold q q' A) as [[-> ->]|[(phi & -> & -> & NE)|[-> F]]]; [left; split; reflexivity| |right; right; split; [reflexivity|exact F]].
  pose proof (dq_fold q q' phi A) as C. unfold mulliken. set (u := dq_of (s_norb X) _ _ _ _ _ _ _) in *. set (v := dq_of (s_norb Y) _ _ _ _ _ _ _) in *.
  assert (E : rsum (s_N Y) (fun I => - v I) = INR m * rsum (s_N X) (fun I => - u I)).
  { rewrite (y_N _ _ _ _ _ _ U). apply (repeated_sum m N (fun I => - u I) (fun I => - v I)). intros c I Hc HI. cbv beta. rewrite (C c I Hc HI). reflexivity. }
  cbv zeta. rewrite E, (y_charge _ _ _ _ _ _ U). rewrite <- Rmult_minus_distr_l, Rabs_mult, (Rabs_pos_eq (INR m)) by (pose proof m_pos; lra).
  set (r := Rabs (rsum (s_N X) (fun I => - u I) - s_charge X)). assert (R0 : 0 <= r) by apply Rabs_pos. assert (Gm : 1 <= INR m) by (apply (le_INR 1); lia).
  destruct (ltb tol_mull (INR m * r)) eqn:E2.
  - destruct (ltb tol_mull r) eqn:E1; [left; split; reflexivity|]. right. right. split; [reflexivity|]. intros (ER & En & Et). specialize (NE (conj ER (conj En Et))).
    assert (Z0 : r = 0); [|rewrite Z0, Rmult_0_r in E2; rewrite Z0 in E1; congruence].
    unfold r. replace (rsum (s_N X) (fun I => - u I)) with (s_charge X); [rewrite Rminus_diag_eq by reflexivity; apply Rabs_R0|].
    rewrite rsum_opp. unfold u, dq_of. rewrite rsum_minus. rewrite (atoms_sum (s_norb X) (s_N X)) by exact LX.
    rewrite (total_fold q phi (o_norm _ _ A)), NE, En. ring.
  - assert (E1 : ltb tol_mull r = false). { destruct (ltb tol_mull r) eqn:E1; [|reflexivity]. apply ltb_true in E1. apply ltb_false in E2. exfalso. nra. }
    rewrite E1. right. left. exists u, v. split; [reflexivity|]. split; [reflexivity|exact C].
Qed.
End Fold.
