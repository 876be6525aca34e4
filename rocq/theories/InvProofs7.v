From Coq Require Import Reals ZArith List Bool Arith Lia Lra.
From Verif Require Import Vec GeomModel GeomSpec GeomProofs PairModel PairSpec PairProofs SkModel SkSpec SkProofs SkProofs2 SkProofs3 SkProofs4 SkProofs5 SkProofs6 SkProofs7 Cpx InvSpec InvProofs InvProofs5 InvProofs6.
Import ListNotations.
Open Scope R_scope.

Lemma csum_perm n s f : permutes n s -> csum n (fun i => f (s i)) = csum n f.
Proof. intros P. unfold csum. f_equal; [apply (rsum_perm n s (fun i => fst (f i)) P)|apply (rsum_perm n s (fun i => snd (f i)) P)]. Qed.
(** ** exchanging two atoms: the images of j seen from i and those of i seen from j *)
Section Swap.
Context (N nimg : nat) (no : nat -> nat) (O : nat -> m3) (t : nat -> v3) (inv : nat -> nat) (r : nat -> v3) (DT : nat -> nat -> nat -> R) (phase : nat -> cplx).
Context (tab dtab : nat -> nat -> R -> nat -> R) (r1 r2 : nat -> nat -> R).
Context (Him : images nimg O t inv) (Hno : forall i, (i < N)%nat -> In (no i) [1; 4; 9]%nat).
Context (HD : forall n a b, (n < nimg)%nat -> (a < 9)%nat -> (b < 9)%nat -> DT n a b = Drep (O n) a b).
Context (Hph : forall n, (n < nimg)%nat -> phase (inv n) = cconj (phase n)).
Context (Hr1 : forall i j, r1 i j = r1 j i) (Hr2 : forall i j, r2 i j = r2 j i).
Context (Htab : forall i j d, exists tij tji, same_integrals tij tji /\ (forall c, (c < 14)%nat -> tab i j d c = read_integral tij tji c) /\ forall c, (c < 14)%nat -> tab j i d c = read_integral tji tij c).
Context (Hdtab : forall i j d, exists tij tji, same_integrals tij tji /\ (forall c, (c < 14)%nat -> dtab i j d c = read_integral tij tji c) /\ forall c, (c < 14)%nat -> dtab j i d c = read_integral tji tij c).
Let Rn := place O t r.
Lemma inv_permutes : permutes nimg inv.
Proof. split; [intros n Hn; apply (im_inv _ _ _ _ Him n Hn)|]. intros n m Hn Hm E. rewrite <- (proj2 (im_inv _ _ _ _ Him n Hn)), E. apply (im_inv _ _ _ _ Him m Hm). Qed.
Lemma inverse_rotation n : (n < nimg)%nat -> O (inv n) = tr (O n).
Proof.
  intros Hn. pose proof (inv_tr nimg O t inv Him n (V3 1 0 0) Hn) as A. pose proof (inv_tr nimg O t inv Him n (V3 0 1 0) Hn) as B. pose proof (inv_tr nimg O t inv Him n (V3 0 0 1) Hn) as C.
  revert A B C. generalize (O (inv n)) (tr (O n)). intros [[p1 p2 p3] [p4 p5 p6] [p7 p8 p9]] [[q1 q2 q3] [q4 q5 q6] [q7 q8 q9]].
  unfold mv, vdot. cbn. intros A B C. injection A as A1 A2 A3. injection B as B1 B2 B3. injection C as C1 C2 C3. apply m3_eq; apply v3_eq; cbn; lra.
Qed.
Lemma mrij_swap n i j : (n < nimg)%nat -> mrij Rn (inv n) i j = vscale (-1) (mv (tr (O n)) (mrij Rn n j i)).
Proof.
  intros Hn. unfold mrij, Rn, place. destruct (im_id _ _ _ _ Him) as [E0 T0]. rewrite E0, T0, !mv_eye. rewrite <- (inv_tr nimg O t inv Him) by exact Hn.
  pose proof (im_inverse _ _ _ _ Him n (r i) Hn) as A. set (p := vadd (mv (O n) (r i)) (t n)) in *.
  rewrite <- A. unfold vsub, vadd, vscale, mv, vdot, vzero. cbn. apply v3_eq; cbn; ring.
Qed.
Lemma mdist_swap n i j : (n < nimg)%nat -> mdist Rn (inv n) i j = mdist Rn n j i.
Proof. intros Hn. unfold mdist. rewrite mrij_swap, neg_norm by exact Hn. apply mv_norm. apply (rigid_orthogonal nimg O t inv Him). exact Hn. Qed.
Lemma rijh_swap n i j : (n < nimg)%nat -> rijh Rn (inv n) i j = vscale (-1) (vscale (/ mdist Rn n j i) (mv (tr (O n)) (mrij Rn n j i))).
Proof. intros Hn. unfold rijh. rewrite mdist_swap, mrij_swap by exact Hn. destruct (mv (tr (O n)) (mrij Rn n j i)) as [x y w]. vring. Qed.
Lemma skipped_swap n i j : (n < nimg)%nat -> skipped Rn r1 r2 (inv n) i j = skipped Rn r1 r2 n j i.
Proof.
  intros Hn. unfold skipped. rewrite mdist_swap, (Hr1 i j), (Hr2 i j) by exact Hn. f_equal. rewrite (Nat.eqb_sym i j). f_equal.
  destruct (Nat.eqb_spec n 0) as [->|Hne]; [rewrite (im_inv0 _ _ _ _ Him); reflexivity|]. apply Nat.eqb_neq. intros E. apply Hne. apply (inv_zero nimg O t inv Him); assumption.
Qed.
(** transposing with the rotation of the images *)
Lemma swap_algebra A n i j a b : (n < nimg)%nat -> (i < N)%nat -> (j < N)%nat -> (a < no i)%nat -> (b < no j)%nat ->
  rsum (no j) (fun k => rsum 9 (fun c => rsum 9 (fun c' => Drep (tr (O n)) k c * A c c' * Drep (tr (O n)) a c')) * DT (inv n) k b) = rsum (no i) (fun k => A b k * DT n k a).
Proof.
  intros Hn Hi Hj Ha Hb. pose proof (at_most_nine _ (Hno i Hi)). pose proof (at_most_nine _ (Hno j Hj)). pose proof (proj1 (im_inv _ _ _ _ Him n Hn)) as Hi'. pose proof (orthogonal_n nimg O t inv Him n Hn) as HO.
  rewrite (rsum_ext (no i) (fun k => A b k * DT n k a) (fun k => A b k * Drep (O n) k a)) by (intros k Hk; rewrite HD by (assumption || lia); reflexivity).
  rewrite <- (rsum_whole_r (no i) (O n) (A b) a (Hno i Hi) Ha).
  rewrite (rsum_ext (no j) _ (fun k => rsum 9 (fun c => rsum 9 (fun c' => Drep (tr (O n)) k c * A c c' * Drep (tr (O n)) a c')) * Drep (tr (O n)) k b)) by (intros k Hk; rewrite HD, inverse_rotation by (assumption || lia); reflexivity).
  rewrite <- (rsum_whole_r (no j) _ (fun k => rsum 9 (fun c => rsum 9 (fun c' => Drep (tr (O n)) k c * A c c' * Drep (tr (O n)) a c'))) b (Hno j Hj) Hb).
  rewrite (rsum_ext 9 _ (fun k => rsum 9 (fun c => rsum 9 (fun c' => A c c' * Drep (O n) c' a) * (Drep (O n) b k * Drep (O n) c k)))).
  2: { intros k Hk. rewrite <- rsum_scal_r. apply rsum_ext. intros c Hc. rewrite <- !rsum_scal_r. apply rsum_ext. intros c' Hc'. rewrite !Drep_tr by (assumption || lia). ring. }
  rewrite rsum_swap. rewrite (rsum_single 9 b); [|lia|].
  - rewrite rsum_scal, Drep_orth by (assumption || lia). unfold dlt. rewrite Nat.eqb_refl. ring.
  - intros c Hc Ne. rewrite rsum_scal, Drep_orth by (assumption || lia). unfold dlt. replace (b =? c)%nat with false by (symmetry; apply Nat.eqb_neq; auto). ring.
Qed.
Lemma ht_image_swap n i j a b : (n < nimg)%nat -> (i < N)%nat -> (j < N)%nat -> mrij Rn n j i <> vzero -> (a < no i)%nat -> (b < no j)%nat ->
  ht_image no Rn DT tab (inv n) i j a b = ht_image no Rn DT tab n j i b a.
Proof.
  intros Hn Hi Hj Z Ha Hb. pose proof (at_most_nine _ (Hno i Hi)). pose proof (at_most_nine _ (Hno j Hj)). pose proof (rigid_orthogonal nimg O t inv Him n Hn) as HT.
  unfold ht_image. rewrite <- (swap_algebra (ht (rijh Rn n j i) (tab j i (mdist Rn n j i))) n i j a b) by assumption. apply rsum_ext. intros k Hk. f_equal.
  rewrite mdist_swap, rijh_swap by exact Hn. set (d := mdist Rn n j i). destruct (Htab i j d) as (tij & tji & S & E1 & E2).
  rewrite (ht_ext _ _ (read_integral tij tji) a k) by (assumption || lia).
  rewrite (reversed tji tij) by (assumption || lia || (intros c Hc; symmetry; apply S; exact Hc)).
  rewrite <- mv_scale. change (vscale (/ d) (mrij Rn n j i)) with (rijh Rn n j i). rewrite covariant by (try assumption; try lia; apply unit_vec; exact Z).
  apply rsum_ext. intros c Hc. apply rsum_ext. intros c' Hc'. rewrite (ht_ext _ (read_integral tji tij) (tab j i d) c c') by (assumption || (intros; symmetry; apply E2; assumption)). reflexivity.
Qed.
Lemma dht_ext w d h h' dh dh' a b k : (a < 9)%nat -> (b < 9)%nat -> (forall c, (c < 14)%nat -> h c = h' c) -> (forall c, (c < 14)%nat -> dh c k = dh' c k) -> dht w d h dh a b k = dht w d h' dh' a b k.
Proof.
  intros Ha Hb H H'. unfold dht. apply rsum_ext. intros q Hq. assert (L : (nth q (ind a b) 0 < 14)%nat).
  { clear - Ha Hb Hq. nine a; nine b; cbn [cnt Nat.leb andb] in Hq; destruct q as [|[|[|q]]]; try (exfalso; lia); cbn; lia. }
  rewrite (H _ L), (H' _ L). reflexivity.
Qed.
Lemma dht_image_swap n i j a b k : (n < nimg)%nat -> (i < N)%nat -> (j < N)%nat -> mrij Rn n j i <> vzero -> (a < no i)%nat -> (b < no j)%nat -> (k < 3)%nat ->
  dht_image no Rn DT tab dtab (inv n) i j a b k = - rsum 3 (fun q => dht_image no Rn DT tab dtab n j i b a q * m3e (O n) q k).
Proof.
  intros Hn Hi Hj Z Ha Hb Hk. pose proof (at_most_nine _ (Hno i Hi)). pose proof (at_most_nine _ (Hno j Hj)). pose proof (rigid_orthogonal nimg O t inv Him n Hn) as HT.
  set (D := fun q c c' => dht (rijh Rn n j i) (mdist Rn n j i) (tab j i (mdist Rn n j i)) (fun q k => dtab j i (mdist Rn n j i) q * comp k (rijh Rn n j i)) c c' q).
  transitivity (- rsum 3 (fun q => rsum (no j) (fun c => m3e (O n) q k * (rsum 9 (fun c1 => rsum 9 (fun c' => Drep (tr (O n)) c c1 * D q c1 c' * Drep (tr (O n)) a c')) * DT (inv n) c b)))).
  2: { f_equal. apply rsum_ext. intros q Hq. rewrite rsum_scal, Rmult_comm. f_equal. unfold dht_image. apply (swap_algebra (D q) n i j a b); assumption. }
  rewrite rsum_swap, <- rsum_opp. unfold dht_image. apply rsum_ext. intros c Hc.
  rewrite (rsum_ext 3 _ (fun q => m3e (O n) q k * rsum 9 (fun c1 => rsum 9 (fun c' => Drep (tr (O n)) c c1 * D q c1 c' * Drep (tr (O n)) a c')) * DT (inv n) c b)) by (intros; ring).
  rewrite rsum_scal_r. match goal with |- ?x * ?y = - (?z * ?y) => replace (- (z * y)) with ((- z) * y) by ring end. f_equal.
  rewrite mdist_swap by exact Hn. set (d := mdist Rn n j i) in *. destruct (Htab i j d) as (tij & tji & S & E1 & E2). destruct (Hdtab i j d) as (dij & dji & dS & F1 & F2).
  rewrite (dht_ext _ d _ (read_integral tij tji) _ (fun q k => read_integral dij dji q * comp k (rijh Rn (inv n) i j)) a c k) by (try assumption; try lia; intros; rewrite F1 by assumption; reflexivity).
  set (p := mv (tr (O n)) (mrij Rn n j i)). assert (Zp : p <> vzero) by (apply mv_nonzero; assumption).
  assert (Ed : vnorm p = d) by (unfold p; rewrite mv_norm by exact HT; reflexivity).
  rewrite rijh_swap by exact Hn. fold p d. rewrite <- Ed.
  rewrite (dht_reversed p tji tij dji dij c a k) by (try assumption; try lia; intros x Hx; symmetry; (apply S || apply dS); exact Hx). f_equal.
  assert (Ed2 : vnorm p = vnorm (mrij Rn n j i)) by (rewrite Ed; reflexivity). rewrite Ed2. unfold p.
  rewrite (dht_rotated (tr (O n)) (mrij Rn n j i)) by (assumption || lia). apply rsum_ext. intros q Hq.
  replace (m3e (tr (O n)) k q) with (m3e (O n) q k) by (destruct (O n) as [[? ? ?] [? ? ?] [? ? ?]], q as [|[|[|q]]], k as [|[|[|k]]]; try lia; reflexivity).
  f_equal. apply rsum_ext. intros c1 Hc1. apply rsum_ext. intros c' Hc'. f_equal. f_equal. unfold D, rijh. change (mdist Rn n j i) with (vnorm (mrij Rn n j i)).
  apply dht_ext; try assumption; [intros x Hx; symmetry; change (vnorm (mrij Rn n j i)) with d; apply E2; exact Hx|intros x Hx; f_equal; symmetry; change (vnorm (mrij Rn n j i)) with d; apply F2; exact Hx].
Qed.
Lemma block_swap i j a b : (i < N)%nat -> (j < N)%nat -> (forall n, (n < nimg)%nat -> skipped Rn r1 r2 n j i = false -> mrij Rn n j i <> vzero) -> (a < no i)%nat -> (b < no j)%nat ->
  block nimg no Rn DT phase tab r1 r2 i j a b = cconj (block nimg no Rn DT phase tab r1 r2 j i b a).
Proof.
  intros Hi Hj Hz Ha Hb. unfold block. rewrite csum_conj, <- (csum_perm nimg inv _ inv_permutes). apply csum_ext'. intros n Hn. rewrite skipped_swap by exact Hn.
  destruct (skipped Rn r1 r2 n j i) eqn:E; [unfold cconj; cbn; f_equal; ring|]. rewrite ht_image_swap by (try assumption; apply Hz; assumption). rewrite Hph, !cscale_rc, cconj_mul, cconj_rc by exact Hn. reflexivity.
Qed.
Lemma dblock_swap i j a b k : (i < N)%nat -> (j < N)%nat -> (forall n, (n < nimg)%nat -> skipped Rn r1 r2 n j i = false -> mrij Rn n j i <> vzero) -> (a < no i)%nat -> (b < no j)%nat -> (k < 3)%nat ->
  dblock nimg no Rn DT phase tab dtab r1 r2 i j a b k = dblock2 nimg no Rn O DT phase tab dtab r1 r2 j i b a k.
Proof.
  intros Hi Hj Hz Ha Hb Hk. unfold dblock, dblock2. rewrite csum_conj, <- (csum_perm nimg inv _ inv_permutes). apply csum_ext'. intros n Hn. rewrite skipped_swap by exact Hn.
  destruct (skipped Rn r1 r2 n j i) eqn:E; [unfold cconj; cbn; f_equal; ring|]. rewrite dht_image_swap by (try assumption; apply Hz; assumption). rewrite Hph, !cscale_rc, cconj_mul, cconj_rc by exact Hn. rewrite Ropp_involutive. reflexivity.
Qed.
End Swap.
