From Coq Require Import Reals ZArith List Bool Arith Lia Lra.
From Verif Require Import Vec GeomModel GeomSpec GeomProofs PairModel PairSpec PairProofs SkModel SkSpec SkProofs SkProofs2 SkProofs3 SkProofs4 SkProofs5 SkProofs6 SkProofs7.
Import ListNotations.
Open Scope R_scope.

(** ** rotations of vectors *)
Lemma mv_dot P u w : orthogonal P -> vdot (mv P u) (mv P w) = vdot u w.
Proof.
  intros H. apply orthogonal_tr in H. unfold orthogonal in H. rewrite tr_tr in H. transitivity (vdot u (mv (mm (tr P) P) w)); [|rewrite H, mv_eye; reflexivity].
  destruct P as [[a b c] [d e f] [g h i]], u as [u1 u2 u3], w as [w1 w2 w3]. vunf. ring.
Qed.
Lemma mv_norm P u : orthogonal P -> vnorm (mv P u) = vnorm u.
Proof. intros H. unfold vnorm. rewrite mv_dot by exact H. reflexivity. Qed.
Lemma mv_scale P k u : mv P (vscale k u) = vscale k (mv P u).
Proof. destruct P as [[a b c] [d e f] [g h i]], u as [u1 u2 u3]. vring. Qed.
Lemma mv_sub P u w : mv P (vsub u w) = vsub (mv P u) (mv P w).
Proof. destruct P as [[a b c] [d e f] [g h i]], u as [u1 u2 u3], w as [w1 w2 w3]. vring. Qed.
Lemma comp_mv P u c : (c < 3)%nat -> comp c (mv P u) = rsum 3 (fun d => m3e P c d * comp d u).
Proof. intros H. destruct P as [[a b e] [d ee f] [g h i]], u as [u1 u2 u3]. destruct c as [|[|[|c]]]; try lia; unfold m3e, comp; cbn [rsum]; vunf; ring. Qed.
Lemma comp_tr_axis P k q : (k < 3)%nat -> (q < 3)%nat -> comp q (mv (tr P) (axis k)) = m3e P k q.
Proof. intros Hk Hq. destruct P as [[a b e] [d ee f] [g h i]]. destruct k as [|[|[|k]]]; try lia; destruct q as [|[|[|q]]]; try lia; unfold m3e, comp, axis; vunf; ring. Qed.
Lemma mv_tr P u : orthogonal P -> mv P (mv (tr P) u) = u.
Proof. intros H. rewrite <- mv_mm, H, mv_eye. reflexivity. Qed.
Lemma mv_nonzero P u : orthogonal P -> u <> vzero -> mv P u <> vzero.
Proof. intros H N E. apply N. apply orthogonal_tr in H. rewrite <- (mv_tr (tr P) u H), tr_tr, E. destruct P as [[a b c] [d e f] [g h i]]. vring. Qed.
Lemma comp_axis k q : (k < 3)%nat -> (q < 3)%nat -> comp q (axis k) = if (q =? k)%nat then 1 else 0.
Proof. intros Hk Hq. destruct k as [|[|[|k]]]; try lia; destruct q as [|[|[|q]]]; try lia; reflexivity. Qed.
Lemma axis_sum k f : (k < 3)%nat -> rsum 3 (fun q => comp q (axis k) * f q) = f k.
Proof. intros Hk. rewrite (rsum_single 3 k); [rewrite comp_axis, Nat.eqb_refl by assumption; ring|exact Hk|]. intros q Hq N. rewrite comp_axis by assumption. apply Nat.eqb_neq in N. rewrite N. ring. Qed.
(** ** the derivative of a block *)
Definition extended (h dh : nat -> R) (d : R) (c : nat) (x : R) : R := h c + (x - d) * dh c.
Lemma extended_at h dh d c : extended h dh d c d = h c. Proof. unfold extended. ring. Qed.
Lemma extended_D h dh d c x : derivable_pt_lim (extended h dh d c) x (dh c).
Proof. unfold extended. eapply D_eq; [apply (D_plus (fun _ => h c) (fun x => (x - d) * dh c)); [apply D_const|apply (D_mult (fun x => x - d) (fun _ => dh c)); [apply (D_minus (fun x => x) (fun _ => d)); [apply derivable_pt_lim_id|apply D_const]|apply D_const]]|]. ring. Qed.
Lemma bond_D h dh p u a b : p <> vzero -> (a < 9)%nat -> (b < 9)%nat ->
  derivable_pt_lim (fun t => bond (extended h dh (vnorm p)) (vadd p (vscale t u)) a b) 0
    (rsum 3 (fun k => comp k u * dht (vscale (/ vnorm p) p) (vnorm p) h (fun c k => dh c * comp k (vscale (/ vnorm p) p)) a b k)).
Proof.
  intros Hp Ha Hb. pose proof (sk_derivative (extended h dh (vnorm p)) dh p u a b Hp (fun c _ => extended_D h dh (vnorm p) c (vnorm p)) Ha Hb) as D.
  eapply D_eq; [exact D|]. apply rsum_ext. intros k Hk. f_equal. unfold dht. apply rsum_ext. intros q Hq. rewrite extended_at. reflexivity.
Qed.
Lemma stays_away p u : p <> vzero -> exists e, 0 < e /\ forall t, Rabs (t - 0) < e -> vadd p (vscale t u) <> vzero.
Proof.
  intros Hp. pose proof (vnorm_pos p Hp) as H. destruct (near_norm p u H (vnorm p) H) as (e & He & K). exists e. split; [exact He|]. intros t Ht Z. specialize (K t Ht). rewrite Z in K.
  rewrite vnorm_zero in K. unfold Rabs in K. destruct Rcase_abs; lra.
Qed.
Lemma bond_rotated T P p a b : orthogonal P -> p <> vzero -> (a < 9)%nat -> (b < 9)%nat ->
  bond T (mv P p) a b = rsum 9 (fun c => rsum 9 (fun c' => Drep P a c * bond T p c c' * Drep P b c')).
Proof. intros HP Hp Ha Hb. unfold bond. rewrite mv_norm, <- mv_scale by exact HP. apply covariant; try assumption. apply unit_vec. exact Hp. Qed.
Lemma dht_rotated P p h dh a b k : orthogonal P -> p <> vzero -> (a < 9)%nat -> (b < 9)%nat -> (k < 3)%nat ->
  dht (vscale (/ vnorm p) (mv P p)) (vnorm p) h (fun c k => dh c * comp k (vscale (/ vnorm p) (mv P p))) a b k =
  rsum 3 (fun q => m3e P k q * rsum 9 (fun c => rsum 9 (fun c' => Drep P a c * dht (vscale (/ vnorm p) p) (vnorm p) h (fun c k => dh c * comp k (vscale (/ vnorm p) p)) c c' q * Drep P b c'))).
Proof.
  intros HP Hp Ha Hb Hk. pose proof (bond_D h dh (mv P p) (axis k) a b (mv_nonzero P p HP Hp) Ha Hb) as D1. rewrite mv_norm in D1 by exact HP. rewrite axis_sum in D1 by exact Hk.
  set (u := mv (tr P) (axis k)). destruct (stays_away p u Hp) as (e & He & K).
  assert (D2 : derivable_pt_lim (fun t => bond (extended h dh (vnorm p)) (vadd (mv P p) (vscale t (axis k))) a b) 0
     (rsum 9 (fun c => rsum 9 (fun c' => Drep P a c * rsum 3 (fun q => comp q u * dht (vscale (/ vnorm p) p) (vnorm p) h (fun c k => dh c * comp k (vscale (/ vnorm p) p)) c c' q) * Drep P b c')))).
  { apply derivable_local with (e := e) (g := fun t => rsum 9 (fun c => rsum 9 (fun c' => Drep P a c * bond (extended h dh (vnorm p)) (vadd p (vscale t u)) c c' * Drep P b c'))); [exact He| |].
    - intros t Ht. rewrite <- (mv_tr P (axis k) HP). fold u. rewrite <- mv_scale, <- mv_add. apply bond_rotated; try assumption. apply K. exact Ht.
    - apply derivable_rsum. intros c Hc. apply derivable_rsum. intros c' Hc'. eapply D_eq.
      + apply (D_mult (fun t => Drep P a c * bond (extended h dh (vnorm p)) (vadd p (vscale t u)) c c') (fun _ => Drep P b c')); [|apply D_const].
        apply (D_mult (fun _ => Drep P a c) (fun t => bond (extended h dh (vnorm p)) (vadd p (vscale t u)) c c')); [apply D_const|apply bond_D; assumption].
      + cbv beta. ring. }
  pose proof (uniqueness_limite _ _ _ _ D1 D2) as E. rewrite E. clear E D1 D2.
  rewrite (rsum_ext 9 _ (fun c => rsum 3 (fun q => rsum 9 (fun c' => m3e P k q * (Drep P a c * dht (vscale (/ vnorm p) p) (vnorm p) h (fun c k => dh c * comp k (vscale (/ vnorm p) p)) c c' q * Drep P b c'))))).
  - rewrite rsum_swap. apply rsum_ext. intros q Hq. rewrite <- rsum_scal. apply rsum_ext. intros c Hc. apply rsum_scal.
  - intros c Hc. rewrite rsum_swap. apply rsum_ext. intros c' Hc'. rewrite <- rsum_scal, <- rsum_scal_r. apply rsum_ext. intros q Hq. unfold u. rewrite comp_tr_axis by assumption. ring.
Qed.
Lemma read_extended tij tji dij dji d c x : extended (read_integral tij tji) (read_integral dij dji) d c x = read_integral (fun c => tij c + (x - d) * dij c) (fun c => tji c + (x - d) * dji c) c.
Proof. unfold extended, read_integral. do 14 (destruct c as [|c]; [ring|]). ring. Qed.
Lemma neg_norm p : vnorm (vscale (-1) p) = vnorm p.
Proof. unfold vnorm. f_equal. destruct p as [x y w]. vunf. ring. Qed.
Lemma dht_reversed p tij tji dij dji a b k : p <> vzero -> same_integrals tij tji -> same_integrals dij dji -> (a < 9)%nat -> (b < 9)%nat -> (k < 3)%nat ->
  dht (vscale (-1) (vscale (/ vnorm p) p)) (vnorm p) (read_integral tji tij) (fun c k => read_integral dji dij c * comp k (vscale (-1) (vscale (/ vnorm p) p))) b a k =
  - dht (vscale (/ vnorm p) p) (vnorm p) (read_integral tij tji) (fun c k => read_integral dij dji c * comp k (vscale (/ vnorm p) p)) a b k.
Proof.
  intros Hp S dS Ha Hb Hk. assert (N : vscale (-1) p <> vzero) by (intros Z; apply Hp; destruct p as [x y w]; unfold vscale, vzero in *; cbn in *; injection Z as Z1 Z2 Z3; apply v3_eq; cbn; lra).
  pose proof (bond_D (read_integral tji tij) (read_integral dji dij) (vscale (-1) p) (axis k) b a N Hb Ha) as D1.
  rewrite neg_norm, axis_sum in D1 by exact Hk.
  replace (vscale (/ vnorm p) (vscale (-1) p)) with (vscale (-1) (vscale (/ vnorm p) p)) in D1 by (destruct p as [x y w]; vring).
  pose proof (bond_D (read_integral tij tji) (read_integral dij dji) p (vscale (-1) (axis k)) a b Hp Ha Hb) as D2.
  rewrite (rsum_ext 3 _ (fun q => comp q (axis k) * - dht (vscale (/ vnorm p) p) (vnorm p) (read_integral tij tji) (fun c k => read_integral dij dji c * comp k (vscale (/ vnorm p) p)) a b q)) in D2.
  2: { intros q Hq. replace (comp q (vscale (-1) (axis k))) with (- comp q (axis k)) by (destruct q as [|[|q]]; unfold comp, vscale; cbn [vx vy vz]; ring). ring. }
  rewrite axis_sum in D2 by exact Hk. apply (uniqueness_limite _ _ _ _ D1). eapply derivable_local; [apply Rlt_0_1| |exact D2].
  intros t _. cbv beta. unfold bond. replace (vadd (vscale (-1) p) (vscale t (axis k))) with (vscale (-1) (vadd p (vscale t (vscale (-1) (axis k))))) by (destruct p as [x y w], (axis k) as [x' y' w']; vring).
  set (w := vadd p (vscale t (vscale (-1) (axis k)))). rewrite neg_norm. replace (vscale (/ vnorm w) (vscale (-1) w)) with (vscale (-1) (vscale (/ vnorm w) w)) by (destruct w as [x y u]; vring).
  rewrite (ht_ext _ _ (read_integral (fun c => tji c + (vnorm w - vnorm p) * dji c) (fun c => tij c + (vnorm w - vnorm p) * dij c)) b a) by (try assumption; intros; apply read_extended).
  rewrite (ht_ext _ (fun c => extended (read_integral tij tji) (read_integral dij dji) (vnorm p) c (vnorm w)) (read_integral (fun c => tij c + (vnorm w - vnorm p) * dij c) (fun c => tji c + (vnorm w - vnorm p) * dji c)) a b) by (try assumption; intros; apply read_extended).
  apply reversed; try assumption. intros c Hc. rewrite (S c Hc), (dS c Hc). reflexivity.
Qed.
(** ** 9x9 matrices *)
Definition m9 (A B : nat -> nat -> R) (a b : nat) : R := rsum 9 (fun c => A a c * B c b).
Definition eq9 (A B : nat -> nat -> R) : Prop := forall a b, (a < 9)%nat -> (b < 9)%nat -> A a b = B a b.
Lemma m9_assoc A B C a b : m9 (m9 A B) C a b = m9 A (m9 B C) a b.
Proof.
  unfold m9. rewrite (rsum_ext 9 _ (fun c => rsum 9 (fun e => A a e * B e c * C c b))) by (intros; rewrite rsum_scal_r; reflexivity).
  rewrite rsum_swap. apply rsum_ext. intros e _. rewrite <- rsum_scal. apply rsum_ext. intros; ring.
Qed.
Lemma m9_ext A A' B B' a b : (a < 9)%nat -> (b < 9)%nat -> eq9 A A' -> eq9 B B' -> m9 A B a b = m9 A' B' a b.
Proof. intros Ha Hb E F. unfold m9. apply rsum_ext. intros c Hc. rewrite (E a c), (F c b) by assumption. reflexivity. Qed.
Definition tr9 (A : nat -> nat -> R) (a b : nat) : R := A b a.
Lemma DtD P : orthogonal P -> eq9 (m9 (tr9 (Drep P)) (Drep P)) dlt.
Proof.
  intros HP a b Ha Hb. unfold m9, tr9. rewrite <- (Drep_orth (tr P) a b (orthogonal_tr P HP) Ha Hb). apply rsum_ext. intros c Hc. rewrite !Drep_tr by assumption. ring.
Qed.
Lemma dlt_m9 A a b : (a < 9)%nat -> m9 dlt A a b = A a b.
Proof. intros Ha. unfold m9. rewrite (rsum_single 9 a); [unfold dlt; rewrite Nat.eqb_refl; ring|exact Ha|]. intros c Hc N. unfold dlt. replace (a =? c)%nat with false by (symmetry; apply Nat.eqb_neq; auto). ring. Qed.
(** a rotated block times a rotated rotation *)
Lemma rotated_product P A O a b : orthogonal P -> orthogonal O -> (a < 9)%nat -> (b < 9)%nat ->
  rsum 9 (fun k => rsum 9 (fun c => rsum 9 (fun c' => Drep P a c * A c c' * Drep P k c')) * Drep (mm (mm P O) (tr P)) k b) =
  rsum 9 (fun c => rsum 9 (fun f => Drep P a c * rsum 9 (fun c' => A c c' * Drep O c' f) * Drep P b f)).
Proof.
  intros HP HO Ha Hb. set (Dm := Drep P). assert (HT : orthogonal (tr P)) by (apply orthogonal_tr; exact HP).
  transitivity (m9 (m9 (m9 Dm A) (tr9 Dm)) (m9 (m9 Dm (Drep O)) (tr9 Dm)) a b).
  - unfold m9 at 1. apply rsum_ext. intros k Hk. f_equal.
    + unfold m9, tr9. rewrite rsum_swap. apply rsum_ext. intros c' _. rewrite rsum_scal_r. reflexivity.
    + rewrite <- (Drep_mul (mm P O) (tr P) k b) by (try assumption; apply orthogonal_mm; assumption). unfold m9 at 1. apply rsum_ext. intros c Hc. rewrite Drep_tr by assumption. unfold tr9, Dm. f_equal. unfold m9. symmetry. apply Drep_mul; assumption.
  - transitivity (m9 (m9 Dm (m9 A (Drep O))) (tr9 Dm) a b).
    + rewrite m9_assoc. transitivity (m9 (m9 Dm A) (m9 (Drep O) (tr9 Dm)) a b).
      * apply m9_ext; try assumption; [intros ? ? _ _; reflexivity|]. intros i j Hi Hj. rewrite <- m9_assoc. apply m9_ext; try assumption; [|intros ? ? _ _; reflexivity].
        intros i' j' Hi' Hj'. rewrite <- m9_assoc. rewrite (m9_ext _ dlt (Drep O) (Drep O)); try assumption; [apply dlt_m9; assumption|apply DtD; exact HP|intros ? ? _ _; reflexivity].
      * rewrite <- m9_assoc. apply m9_ext; try assumption; [|intros ? ? _ _; reflexivity]. intros i j _ _. apply m9_assoc.
    + unfold m9, tr9. rewrite rsum_swap. apply rsum_ext. intros f _. rewrite <- rsum_scal_r. reflexivity.
Qed.
