From Coq Require Import Reals ZArith List Bool Arith Lia Lra FunctionalExtensionality.
From Verif Require Import Vec GeomModel GeomSpec GeomProofs CoulModel PairModel PairSpec PairProofs SkModel SkSpec SkProofs SkProofs2 SkProofs3 SkProofs4 SkProofs5 SkProofs6 SkProofs7 Cpx RhoModel RhoSpec RhoProofs InvModel InvSpec InvLin InvProofs InvProofs5 InvProofs6 InvProofs7 InvProofs8 GamModel InvProofs9 InvProofs10 InvProofs11 FoldSpec FoldProofs FoldProofs5 FoldProofs6.
Import ListNotations.
Open Scope R_scope.

(** ** blocks with different rotations of the two atoms *)
Lemma rotated_product2 P P' A O a b : orthogonal P -> orthogonal P' -> orthogonal O -> (a < 9)%nat -> (b < 9)%nat ->
  rsum 9 (fun k => rsum 9 (fun c => rsum 9 (fun c' => Drep P a c * A c c' * Drep P k c')) * Drep (mm (mm P O) (tr P')) k b) =
  rsum 9 (fun c => rsum 9 (fun f => Drep P a c * rsum 9 (fun c' => A c c' * Drep O c' f) * Drep P' b f)).
Proof.
  intros HP HP' HO Ha Hb. set (Dm := Drep P). set (Dm' := Drep P'). assert (HT : orthogonal (tr P')) by (apply orthogonal_tr; exact HP').
  transitivity (m9 (m9 (m9 Dm A) (tr9 Dm)) (m9 (m9 Dm (Drep O)) (tr9 Dm')) a b).
  - unfold m9 at 1. apply rsum_ext. intros k Hk. f_equal.
    + unfold m9, tr9. rewrite rsum_swap. apply rsum_ext. intros c' _. rewrite rsum_scal_r. reflexivity.
    + rewrite <- (Drep_mul (mm P O) (tr P') k b) by (try assumption; apply orthogonal_mm; assumption). unfold m9 at 1. apply rsum_ext. intros c Hc. rewrite Drep_tr by assumption. unfold tr9, Dm'. f_equal. unfold m9. symmetry. apply Drep_mul; assumption.
  - transitivity (m9 (m9 Dm (m9 A (Drep O))) (tr9 Dm') a b).
    + rewrite m9_assoc. transitivity (m9 (m9 Dm A) (m9 (Drep O) (tr9 Dm')) a b).
      * apply m9_ext; try assumption; [intros ? ? _ _; reflexivity|]. intros i j Hi Hj. rewrite <- m9_assoc. apply m9_ext; try assumption; [|intros ? ? _ _; reflexivity].
        intros i' j' Hi' Hj'. rewrite <- m9_assoc. rewrite (m9_ext _ dlt (Drep O) (Drep O)); try assumption; [apply dlt_m9; assumption|apply DtD; exact HP|intros ? ? _ _; reflexivity].
      * rewrite <- m9_assoc. apply m9_ext; try assumption; [|intros ? ? _ _; reflexivity]. intros i j _ _. apply m9_assoc.
    + unfold m9, tr9. rewrite rsum_swap. apply rsum_ext. intros f _. rewrite <- rsum_scal_r. reflexivity.
Qed.
Section Two.
Context (n n' : nat) (O O' P P' : m3) (DT DT' : nat -> nat -> R).
Context (Hn : In n [1; 4; 9]%nat) (Hn' : In n' [1; 4; 9]%nat) (HP : orthogonal P) (HP' : orthogonal P') (HO : orthogonal O) (HO' : mm O' P' = mm P O).
Context (HD : forall a b, (a < 9)%nat -> (b < 9)%nat -> DT a b = Drep O a b) (HD' : forall a b, (a < 9)%nat -> (b < 9)%nat -> DT' a b = Drep O' a b).
Lemma other_rotation : O' = mm (mm P O) (tr P').
Proof. rewrite <- HO'. rewrite mm_assoc. unfold orthogonal in HP'. rewrite HP'. destruct O' as [[a b c] [d e f] [x y z]]. unfold mm, eye, tr. cbn. f_equal; apply v3_eq; vunf; ring. Qed.
Lemma two_algebra A a b : (a < n)%nat -> (b < n')%nat ->
  rsum n' (fun k => rsum 9 (fun c => rsum 9 (fun c' => Drep P a c * A c c' * Drep P k c')) * DT' k b) =
  rsum n (fun c => rsum n' (fun f => Drep P a c * Drep P' b f * rsum n' (fun k => A c k * DT k f))).
Proof.
  intros Ha Hb. pose proof (at_most_nine _ Hn). pose proof (at_most_nine _ Hn').
  rewrite (rsum_ext n' _ (fun k => rsum 9 (fun c => rsum 9 (fun c' => Drep P a c * A c c' * Drep P k c')) * Drep (mm (mm P O) (tr P')) k b)) by (intros k Hk; rewrite HD', other_rotation by lia; reflexivity).
  rewrite <- (rsum_whole_r n' _ (fun k => rsum 9 (fun c => rsum 9 (fun c' => Drep P a c * A c c' * Drep P k c'))) b Hn' Hb).
  rewrite rotated_product2 by (assumption || lia).
  rewrite (rsum_ext 9 _ (fun c => Drep P a c * rsum 9 (fun f => Drep P' b f * rsum 9 (fun c' => A c c' * Drep O c' f)))).
  2: { intros c _. rewrite <- rsum_scal. apply rsum_ext. intros; ring. }
  rewrite (rsum_whole n P _ a Hn Ha). apply rsum_ext. intros c Hc. rewrite (rsum_whole n' P' _ b Hn' Hb), <- rsum_scal. apply rsum_ext. intros f Hf.
  rewrite (rsum_whole_r n' O (A c) f Hn' Hf). rewrite (rsum_ext n' (fun k => A c k * DT k f) (fun k => A c k * Drep O k f)) by (intros k Hk; rewrite HD by lia; reflexivity). ring.
Qed.
Context (x y : v3) (Hxy : y = mv P x) (Hx : x <> vzero).
Lemma two_ht (T : nat -> R) a b : (a < n)%nat -> (b < n')%nat ->
  rsum n' (fun k => ht (vscale (/ vnorm y) y) T a k * DT' k b) = rsum n (fun c => rsum n' (fun f => Drep P a c * Drep P' b f * rsum n' (fun k => ht (vscale (/ vnorm x) x) T c k * DT k f))).
Proof.
  intros Ha Hb. pose proof (at_most_nine _ Hn). pose proof (at_most_nine _ Hn'). rewrite <- (two_algebra (ht (vscale (/ vnorm x) x) T) a b) by assumption.
  apply rsum_ext. intros k Hk. f_equal. rewrite Hxy, mv_norm by assumption. rewrite <- mv_scale. apply covariant; try assumption; try lia. apply unit_vec. exact Hx.
Qed.
Lemma two_dht (T dT : nat -> R) a b d : (a < n)%nat -> (b < n')%nat -> (d < 3)%nat ->
  rsum n' (fun k => dht (vscale (/ vnorm y) y) (vnorm y) T (fun q e => dT q * comp e (vscale (/ vnorm y) y)) a k d * DT' k b) =
  rsum 3 (fun e => m3e P d e * rsum n (fun c => rsum n' (fun f => Drep P a c * Drep P' b f * rsum n' (fun k => dht (vscale (/ vnorm x) x) (vnorm x) T (fun q e => dT q * comp e (vscale (/ vnorm x) x)) c k e * DT k f)))).
Proof.
  intros Ha Hb Hd. pose proof (at_most_nine _ Hn). pose proof (at_most_nine _ Hn').
  rewrite (rsum_ext 3 _ (fun e => rsum n' (fun k => m3e P d e * (rsum 9 (fun c => rsum 9 (fun c' => Drep P a c * dht (vscale (/ vnorm x) x) (vnorm x) T (fun q e => dT q * comp e (vscale (/ vnorm x) x)) c c' e * Drep P k c')) * DT' k b)))).
  2: { intros e He. rewrite rsum_scal. f_equal. symmetry. apply (two_algebra (fun c c' => dht (vscale (/ vnorm x) x) (vnorm x) T (fun q e => dT q * comp e (vscale (/ vnorm x) x)) c c' e) a b); assumption. }
  rewrite (rsum_swap 3 n'). apply rsum_ext. intros k Hk.
  rewrite (rsum_ext 3 _ (fun e => m3e P d e * rsum 9 (fun c => rsum 9 (fun c' => Drep P a c * dht (vscale (/ vnorm x) x) (vnorm x) T (fun q e => dT q * comp e (vscale (/ vnorm x) x)) c c' e * Drep P k c')) * DT' k b)) by (intros; ring).
  rewrite rsum_scal_r. f_equal. rewrite Hxy, mv_norm by assumption. apply (dht_rotated P x); (assumption || lia).
Qed.
End Two.
(** ** the whole matrix in terms of blocks *)
Section Whole.
Context (D : database) (g : structure) (inv : nat -> nat) (Bohr : R) (Sg : sound D g inv) (OT : one_table D) (HC : too_close (g_N g) (g_nimg g) (g_Rn Bohr g) = false).
Definition good_table (tab : nat -> nat -> R -> nat -> R) : Prop :=
  forall K L d, exists tij tji, same_integrals tij tji /\ (forall c, (c < 14)%nat -> tab K L d c = read_integral tij tji c) /\ forall c, (c < 14)%nat -> tab L K d c = read_integral tji tij c.
Definition image_ht (tab : nat -> nat -> R -> nat -> R) (n i j a b : nat) : R :=
  if skipped (g_Rn Bohr g) (pairwise g (d_r1 D)) (pairwise g (d_r2 D)) n i j then 0 else ht_image (g_no D g) (g_Rn Bohr g) (g_DT g) (pairwise g tab) n i j a b.
Definition image_dht (tab dtab : nat -> nat -> R -> nat -> R) (c n i j a b : nat) : R :=
  if skipped (g_Rn Bohr g) (pairwise g (d_r1 D)) (pairwise g (d_r2 D)) n i j then 0 else - dht_image (g_no D g) (g_Rn Bohr g) (g_DT g) (pairwise g tab) (pairwise g dtab) n i j a b c.
Lemma block_images tab k i j a b : block (g_nimg g) (g_no D g) (g_Rn Bohr g) (g_DT g) (g_phase g k) (pairwise g tab) (pairwise g (d_r1 D)) (pairwise g (d_r2 D)) i j a b = csum (g_nimg g) (fun n => cscale (image_ht tab n i j a b) (g_phase g k n)).
Proof. unfold block, image_ht. apply csum_ext'. intros n _. destruct (skipped _ _ _ n i j); [apply cplx_eq; cbn; ring|reflexivity]. Qed.
Lemma dblock_images tab dtab c k i j a b : dblock (g_nimg g) (g_no D g) (g_Rn Bohr g) (g_DT g) (g_phase g k) (pairwise g tab) (pairwise g dtab) (pairwise g (d_r1 D)) (pairwise g (d_r2 D)) i j a b c = csum (g_nimg g) (fun n => cscale (image_dht tab dtab c n i j a b) (g_phase g k n)).
Proof. unfold dblock, image_dht. apply csum_ext'. intros n _. destruct (skipped _ _ _ n i j); [apply cplx_eq; cbn; ring|reflexivity]. Qed.
Lemma whole_matrix onsite tab k i a j b : (k < g_nk g)%nat -> good_table tab -> (i < g_N g)%nat -> (j < g_N g)%nat -> (a < g_no D g i)%nat -> (b < g_no D g j)%nat ->
  g_matrix Bohr D g onsite tab k i a j b = cadd (if ((i =? j) && (a =? b))%nat then rc (onsite i a) else c0) (csum (g_nimg g) (fun n => cscale (image_ht tab n i j a b) (g_phase g k n))).
Proof.
  intros Hk HT Hi Hj Ha Hb. unfold g_matrix, SkModel.matrix. rewrite <- block_images. destruct (Nat.ltb_spec i j) as [L|L].
  - destruct (Nat.eqb_spec i j); [lia|]. cbn [andb]. apply cplx_eq; cbn; ring.
  - destruct (Nat.ltb_spec j i) as [L'|L'].
    + destruct (Nat.eqb_spec i j); [lia|]. cbn [andb]. rewrite (g_block_swap D g inv Bohr Sg HC OT k tab i j a b) by assumption. apply cplx_eq; cbn; ring.
    + assert (i = j) by lia. subst j. rewrite Nat.eqb_refl. reflexivity.
Qed.
Lemma whole_dmatrix tab dtab c k i a j b : (c < 3)%nat -> (k < g_nk g)%nat -> good_table tab -> good_table dtab -> (i < g_N g)%nat -> (j < g_N g)%nat -> (a < g_no D g i)%nat -> (b < g_no D g j)%nat ->
  g_dmatrix Bohr D g tab dtab c k i a j b = csum (g_nimg g) (fun n => cscale (image_dht tab dtab c n i j a b) (g_phase g k n)).
Proof.
  intros Hc Hk HT HT' Hi Hj Ha Hb. unfold g_dmatrix. rewrite <- dblock_images. destruct (Nat.ltb_spec j i) as [L|L]; [|reflexivity]. symmetry. apply (g_dblock_swap D g inv Bohr Sg HC OT k tab dtab i j a b c); assumption.
Qed.
End Whole.
