From Coq Require Import Reals List Bool Arith Lia Lra.
From Verif Require Import Vec GeomModel GeomSpec GeomProofs PairModel PairSpec PairProofs SkModel SkSpec SkProofs SkProofs2 SkProofs3 SkProofs4 SkProofs5 SkProofs6.
Import ListNotations.
Open Scope R_scope.

Lemma cconj_cconj x : cconj (cconj x) = x.
Proof. destruct x as [u w]. unfold cconj. cbn. rewrite Ropp_involutive. reflexivity. Qed.

(** ** Hermitian matrices *)
Section Herm.
Variables (N nimg : nat) (no : nat -> nat) (O : nat -> m3) (t : nat -> v3) (inv : nat -> nat) (r : nat -> v3)
  (DT : nat -> nat -> nat -> R) (phase : nat -> cplx) (onsite : nat -> nat -> R) (tab : nat -> nat -> R -> nat -> R) (r1 r2 : nat -> nat -> R).
Hypothesis Him : images nimg O t inv.
Hypothesis Hno : forall i, (i < N)%nat -> In (no i) [1; 4; 9]%nat.
Hypothesis HDT : forall n a b i, (n < nimg)%nat -> (i < N)%nat -> (a < no i)%nat -> (b < no i)%nat -> DT n a b = Drep (O n) a b.
Hypothesis Hph : forall n, (n < nimg)%nat -> phase (inv n) = cconj (phase n).
Hypothesis Htab : forall i d, (i < N)%nat -> exists T, forall c, (c < 14)%nat -> tab i i d c = read_integral T T c.

Lemma no_le i : (i < N)%nat -> (no i <= 9)%nat.
Proof. intros H. destruct (Hno i H) as [E|[E|[E|[]]]]; rewrite <- E; lia. Qed.
Lemma no_shell i a b : (i < N)%nat -> (a < no i)%nat -> (no i <= b < 9)%nat -> shell a <> shell b.
Proof.
  intros H Ha Hb. destruct (Hno i H) as [E|[E|[E|[]]]]; rewrite <- E in *.
  - assert (a = 0)%nat by lia. subst a. nine b; try (exfalso; lia); discriminate.
  - destruct a as [|[|[|[|a]]]]; try lia; nine b; try (exfalso; lia); discriminate.
  - lia.
Qed.
Lemma rsum_no f i n b : (i < N)%nat -> (n < nimg)%nat -> (b < no i)%nat ->
  rsum (no i) (fun k => f k * DT n k b) = rsum 9 (fun k => f k * Drep (O n) k b).
Proof.
  intros Hi Hn Hb. pose proof (no_le i Hi). replace 9%nat with (no i + (9 - no i))%nat at 1 by lia. rewrite rsum_split.
  rewrite (rsum_eq0 (9 - no i)).
  - rewrite Rplus_0_r. apply rsum_ext. intros k Hk. rewrite (HDT n k b i) by assumption. reflexivity.
  - intros k Hk. rewrite Drep_off; [ring|]. intros E. apply (no_shell i b (no i + k)); [exact Hi|exact Hb|lia|auto].
Qed.

Lemma rigid_orthogonal n : (n < nimg)%nat -> orthogonal (tr (O n)).
Proof.
  intros Hn. pose proof (im_rigid _ _ _ _ Him n) as R. unfold orthogonal. rewrite tr_tr.
  generalize dependent (O n). intros Q R. destruct Q as [[a b c] [d e f] [g h i]].
  pose proof (fun p q => R p q Hn) as R'.
  pose proof (R' (V3 1 0 0) (V3 1 0 0)) as A1. pose proof (R' (V3 1 0 0) (V3 0 1 0)) as A2. pose proof (R' (V3 1 0 0) (V3 0 0 1)) as A3.
  pose proof (R' (V3 0 1 0) (V3 0 1 0)) as A4. pose proof (R' (V3 0 1 0) (V3 0 0 1)) as A5. pose proof (R' (V3 0 0 1) (V3 0 0 1)) as A6.
  unfold mv, vdot in A1, A2, A3, A4, A5, A6. cbn [vx vy vz row1 row2 row3] in A1, A2, A3, A4, A5, A6.
  unfold mm, tr, mv, vdot, eye. cbn [vx vy vz row1 row2 row3]. apply m3_eq; apply v3_eq; cbn [vx vy vz row1 row2 row3]; lra.
Qed.
Lemma orthogonal_n n : (n < nimg)%nat -> orthogonal (O n).
Proof. intros Hn. rewrite <- (tr_tr (O n)). apply orthogonal_tr, rigid_orthogonal, Hn. Qed.
Lemma mv_add Q u w : mv Q (vadd u w) = vadd (mv Q u) (mv Q w).
Proof. destruct Q as [[a b c] [d e f] [g h i]], u as [u1 u2 u3], w as [w1 w2 w3]. unfold mv, vadd, vdot. cbn. apply v3_eq; cbn; ring. Qed.
Lemma vadd_cancel u w q : vadd u q = vadd w q -> u = w.
Proof.
  intros H. destruct u as [u1 u2 u3], w as [w1 w2 w3], q as [q1 q2 q3]. unfold vadd in H. cbn in H. injection H as A B C. apply v3_eq; cbn; lra.
Qed.
Lemma inv_apply n v : (n < nimg)%nat -> mv (O (inv n)) (mv (O n) v) = v.
Proof.
  intros Hn. pose proof (im_inverse _ _ _ _ Him n v Hn) as A. pose proof (im_inverse _ _ _ _ Him n vzero Hn) as B.
  rewrite mv_add in A, B.
  apply (vadd_cancel _ _ (vadd (mv (O (inv n)) (t n)) (t (inv n)))).
  transitivity v.
  - rewrite <- A at 2. generalize (mv (O (inv n)) (mv (O n) v)) (mv (O (inv n)) (t n)) (t (inv n)).
    intros x y z. unfold vadd. cbn. apply v3_eq; cbn; ring.
  - assert (E : mv (O (inv n)) (mv (O n) vzero) = vzero).
    { unfold vzero. generalize (O n) (O (inv n)). intros P Q. unfold mv, vdot. cbn. apply v3_eq; cbn; ring. }
    rewrite E in B. revert B. generalize (mv (O (inv n)) (t n)) (t (inv n)). intros y z B.
    destruct y as [y1 y2 y3], z as [z1 z2 z3], v as [v1 v2 v3']. unfold vadd, vzero in *. cbn in *. injection B as B1 B2 B3. apply v3_eq; cbn; lra.
Qed.
Lemma inv_tr n v : (n < nimg)%nat -> mv (O (inv n)) v = mv (tr (O n)) v.
Proof.
  intros Hn. pose proof (orthogonal_n n Hn) as H. unfold orthogonal in H.
  transitivity (mv (O (inv n)) (mv (O n) (mv (tr (O n)) v))); [|apply inv_apply; exact Hn].
  rewrite <- (mv_mm (O n)), H, mv_eye. reflexivity.
Qed.

Let Rn := place O t r.
Lemma mrij_inv n i : (n < nimg)%nat -> mrij Rn (inv n) i i = vscale (-1) (mv (tr (O n)) (mrij Rn n i i)).
Proof.
  intros Hn. unfold mrij, Rn, place. destruct (im_id _ _ _ _ Him) as [E0 T0]. rewrite E0, T0, mv_eye.
  rewrite <- inv_tr by exact Hn.
  pose proof (im_inverse _ _ _ _ Him n (r i) Hn) as A.
  set (p := vadd (mv (O n) (r i)) (t n)) in *.
  rewrite <- A at 2. unfold vsub, vadd, vscale, mv, vdot, vzero. cbn. apply v3_eq; cbn; ring.
Qed.
Lemma mdist_inv n i : (n < nimg)%nat -> mdist Rn (inv n) i i = mdist Rn n i i.
Proof.
  intros Hn. unfold mdist. rewrite mrij_inv by exact Hn. rewrite <- inv_tr by exact Hn.
  unfold vnorm. f_equal. transitivity (vdot (mv (O (inv n)) (mrij Rn n i i)) (mv (O (inv n)) (mrij Rn n i i))).
  - unfold vdot, vscale. cbn [vx vy vz]. ring.
  - apply (im_rigid _ _ _ _ Him). apply (im_inv _ _ _ _ Him n Hn).
Qed.
Lemma rijh_inv n i : (n < nimg)%nat -> rijh Rn (inv n) i i = vscale (-1) (mv (tr (O n)) (rijh Rn n i i)).
Proof.
  intros Hn. unfold rijh. rewrite mrij_inv, mdist_inv by exact Hn.
  generalize (mdist Rn n i i) (mrij Rn n i i) (tr (O n)). intros d [x y z] Q. unfold vscale, mv, vdot. cbn. apply v3_eq; cbn; ring.
Qed.
Lemma ht_ext w h h' a b : (a < 9)%nat -> (b < 9)%nat -> (forall c, (c < 14)%nat -> h c = h' c) -> ht w h a b = ht w h' a b.
Proof.
  intros Ha Hb H. unfold ht. apply rsum_ext. intros q Hq. f_equal. apply H.
  clear - Ha Hb Hq. nine a; nine b; cbn [cnt Nat.leb andb] in Hq; destruct q as [|[|[|q]]]; try (exfalso; lia); cbn; lia.
Qed.
Lemma ht_image_inv n i a b : (n < nimg)%nat -> (i < N)%nat -> mrij Rn n i i <> vzero -> (a < no i)%nat -> (b < no i)%nat ->
  ht_image no Rn DT tab (inv n) i i a b = ht_image no Rn DT tab n i i b a.
Proof.
  intros Hn Hi Hz Ha Hb. pose proof (no_le i Hi) as H9. unfold ht_image.
  rewrite rsum_no by (try assumption; apply (im_inv _ _ _ _ Him n Hn)). rewrite rsum_no by assumption.
  rewrite mdist_inv, rijh_inv by exact Hn.
  assert (U : vdot (rijh Rn n i i) (rijh Rn n i i) = 1) by (apply unit_axis; exact Hz).
  assert (I : O (inv n) = tr (O n)).
  { pose proof (inv_tr n (V3 1 0 0) Hn) as A. pose proof (inv_tr n (V3 0 1 0) Hn) as B. pose proof (inv_tr n (V3 0 0 1) Hn) as C.
    revert A B C. generalize (O (inv n)) (tr (O n)). intros [[p1 p2 p3] [p4 p5 p6] [p7 p8 p9]] [[q1 q2 q3] [q4 q5 q6] [q7 q8 q9]].
    unfold mv, vdot. cbn. intros A B C. injection A as A1 A2 A3. injection B as B1 B2 B3. injection C as C1 C2 C3. apply m3_eq; apply v3_eq; cbn; lra. }
  rewrite I. pose proof (orthogonal_n n Hn) as HO. pose proof (rigid_orthogonal n Hn) as HOt.
  destruct (Htab i (mdist Rn n i i) Hi) as (T & HT).
  generalize dependent (tab i i (mdist Rn n i i)). intros h HT.
  generalize dependent (rijh Rn n i i). intros w U.
  rewrite (rsum_ext 9 _ (fun k => rsum 9 (fun c => rsum 9 (fun c' => Drep (O n) c' a * ht w h c c' * (Drep (O n) b k * Drep (O n) c k))))).
  2:{ intros k Hk. rewrite (ht_ext _ _ (read_integral T T) a k) by (assumption || lia).
      rewrite reversed by (assumption || lia || (intros c _; reflexivity)).
      rewrite covariant by (assumption || lia). rewrite <- rsum_scal_r. apply rsum_ext. intros c Hc.
      rewrite <- rsum_scal_r. apply rsum_ext. intros c' Hc'. rewrite !Drep_tr by (assumption || lia).
      rewrite (ht_ext w h (read_integral T T) c c') by assumption. ring. }
  rewrite rsum_swap.
  rewrite (rsum_ext 9 _ (fun c => rsum 9 (fun c' => Drep (O n) c' a * ht w h c c' * dlt b c))).
  2:{ intros c Hc. rewrite rsum_swap. apply rsum_ext. intros c' Hc'. rewrite rsum_scal. f_equal. apply Drep_orth; (assumption || lia). }
  rewrite (rsum_single 9 b); [|lia|].
  - apply rsum_ext. intros c' Hc'. unfold dlt. rewrite Nat.eqb_refl. ring.
  - intros c Hc Hne. apply rsum_eq0. intros c' Hc'. unfold dlt. replace (b =? c)%nat with false; [ring|]. symmetry. apply Nat.eqb_neq. auto.
Qed.
Lemma inv_zero n : (n < nimg)%nat -> inv n = 0%nat -> n = 0%nat.
Proof.
  intros Hn E. destruct (im_inv _ _ _ _ Him n Hn) as [_ I]. rewrite E in I. rewrite (im_inv0 _ _ _ _ Him) in I. auto.
Qed.
Lemma skipped_inv n i : (n < nimg)%nat -> skipped Rn r1 r2 (inv n) i i = skipped Rn r1 r2 n i i.
Proof.
  intros Hn. unfold skipped. rewrite mdist_inv by exact Hn. f_equal. f_equal.
  destruct (Nat.eqb_spec n 0) as [->|Hne]; [rewrite (im_inv0 _ _ _ _ Him); reflexivity|].
  apply Nat.eqb_neq. intros E. apply Hne, inv_zero; assumption.
Qed.
Lemma block_diag i a b : (i < N)%nat -> (forall n, (n < nimg)%nat -> n <> 0%nat -> mrij Rn n i i <> vzero) -> (a < no i)%nat -> (b < no i)%nat ->
  block nimg no Rn DT phase tab r1 r2 i i a b = cconj (block nimg no Rn DT phase tab r1 r2 i i b a).
Proof.
  intros Hi Hz Ha Hb. unfold block, csum, cconj. cbn [fst snd].
  set (F := fun a b n => if skipped Rn r1 r2 n i i then (0, 0) else cscale (ht_image no Rn DT tab n i i a b) (phase n)).
  assert (G : forall n, (n < nimg)%nat -> F a b (inv n) = cconj (F b a n)).
  { intros n Hn. unfold F. rewrite skipped_inv by exact Hn. destruct (skipped Rn r1 r2 n i i) eqn:E.
    - unfold cconj. cbn. f_equal. ring.
    - rewrite ht_image_inv; try assumption.
      + rewrite Hph by exact Hn. unfold cscale, cconj. cbn. f_equal. ring.
      + apply Hz; [exact Hn|]. intros ->. unfold skipped in E. rewrite !Nat.eqb_refl in E. discriminate E. }
  f_equal.
  - change (rsum nimg (fun n => fst (F a b n)) = rsum nimg (fun n => fst (F b a n))). rewrite <- (rsum_involution nimg (fun n => fst (F a b n)) inv) by (apply (im_inv _ _ _ _ Him)).
    apply rsum_ext. intros n Hn. rewrite G by exact Hn. reflexivity.
  - change (rsum nimg (fun n => snd (F a b n)) = - rsum nimg (fun n => snd (F b a n))). rewrite <- (rsum_involution nimg (fun n => snd (F a b n)) inv) by (apply (im_inv _ _ _ _ Him)).
    rewrite <- rsum_opp. apply rsum_ext. intros n Hn. rewrite G by exact Hn. reflexivity.
Qed.
Lemma too_close_false i j n : too_close N nimg Rn = false -> (i < N)%nat -> (j < N)%nat -> (n < nimg)%nat -> (i <= j)%nat -> ~ (i = j /\ n = 0%nat) ->
  / 10 < mdist Rn n i j.
Proof.
  intros H Hi Hj Hn Hij Hne. unfold too_close in H.
  destruct (ltb (/ 10) (mdist Rn n i j)) eqn:E; [apply ltb_true; exact E|]. exfalso.
  apply not_true_iff_false in H. apply H. apply existsb_exists. exists i. split; [apply in_seq; lia|].
  apply existsb_exists. exists j. split; [apply in_seq; lia|]. apply existsb_exists. exists n. split; [apply in_seq; lia|].
  rewrite E. apply Nat.leb_le in Hij. rewrite Hij. cbn [negb andb].
  destruct (Nat.eqb_spec i j); [destruct (Nat.eqb_spec n 0)|]; cbn; try reflexivity. exfalso. auto.
Qed.
Lemma vnorm_zero : vnorm vzero = 0.
Proof. unfold vnorm, vdot, vzero. cbn [vx vy vz]. replace (0 * 0 + 0 * 0 + 0 * 0) with 0 by ring. apply sqrt_0. Qed.
Lemma hermitian M i a j b : get_matrix N nimg no Rn DT phase onsite tab r1 r2 = Some M ->
  (i < N)%nat -> (j < N)%nat -> (a < no i)%nat -> (b < no j)%nat -> M i a j b = cconj (M j b i a).
Proof.
  unfold get_matrix. destruct (too_close N nimg Rn) eqn:E; [discriminate|]. intros H Hi Hj Ha Hb. injection H as <-.
  unfold matrix. destruct (Nat.ltb_spec i j) as [L|L].
  - replace (j <? i)%nat with false by (symmetry; apply Nat.ltb_ge; lia). symmetry. apply cconj_cconj.
  - destruct (Nat.ltb_spec j i) as [L'|L'].
    + reflexivity.
    + assert (j = i) by lia. subst j. rewrite block_diag; try assumption.
      * unfold cadd, cconj. destruct (Nat.eqb_spec a b) as [->|Hne]; [rewrite Nat.eqb_refl|replace (b =? a)%nat with false by (symmetry; apply Nat.eqb_neq; auto)];
          cbn [fst snd]; f_equal; ring.
      * intros n Hn Hne Z. pose proof (too_close_false i i n E Hi Hi Hn (le_n _) ltac:(intros [_ ?]; auto)) as D.
        unfold mdist in D. rewrite Z, vnorm_zero in D. lra.
Qed.
End Herm.

(** ** Derivatives of the matrices *)
Section Deriv.
Variables (nimg : nat) (no : nat -> nat) (O : nat -> m3) (t : nat -> v3) (r : nat -> v3)
  (DT : nat -> nat -> nat -> R) (phase : nat -> cplx) (tab dtab : nat -> nat -> R -> nat -> R) (r1 r2 : nat -> nat -> R).
Variables (i j : nat).
Hypothesis Hij : i <> j.
Hypothesis Hid : O 0%nat = eye /\ t 0%nat = vzero.
Hypothesis Hno : (no i <= 9)%nat /\ (no j <= 9)%nat.
Hypothesis Hsmooth : smooth_pair nimg (place O t r) tab dtab r1 r2 i j.

Lemma image_moved n m u s : mrij (place O t (moved r (one m u) s)) n i j =
  vadd (mrij (place O t r) n i j) (vscale s (vadd (if (j =? m)%nat then mv (O n) u else vzero) (if (i =? m)%nat then vscale (-1) u else vzero))).
Proof.
  destruct Hid as [E0 T0]. unfold mrij, place, moved, one. rewrite E0, T0, !mv_eye.
  destruct (j =? m)%nat, (i =? m)%nat; generalize (O n) (t n) (r i) (r j); intros Q tn ri rj;
    unfold vsub, vadd, vscale, mv, vdot, vzero; cbn; apply v3_eq; cbn; ring.
Qed.
Lemma near_norm p w : 0 < vnorm p -> forall e, 0 < e -> exists d, 0 < d /\ forall s, Rabs (s - 0) < d -> Rabs (vnorm (vadd p (vscale s w)) - vnorm p) < e.
Proof.
  intros Hp e He. pose proof (norm_derivative p w Hp) as D.
  assert (C : continuity_pt (fun s => vnorm (vadd p (vscale s w))) 0).
  { apply derivable_continuous_pt. exists (vdot p w / vnorm p). exact D. }
  destruct (C e He) as (d & Hd & K). exists d. split; [exact Hd|]. intros s Hs.
  destruct (Req_dec s 0) as [->|Hne].
  - assert (Z : vadd p (vscale 0 w) = p) by (destruct p as [p1 p2 p3], w as [w1 w2 w3]; unfold vadd, vscale; cbn; apply v3_eq; cbn; ring).
    rewrite Z, Rminus_diag_eq, Rabs_R0 by reflexivity. exact He.
  - assert (Z : vadd p (vscale 0 w) = p) by (destruct p as [p1 p2 p3], w as [w1 w2 w3]; unfold vadd, vscale; cbn; apply v3_eq; cbn; ring).
    specialize (K s). unfold D_x, no_cond, dist, R_met, R_dist in K. cbn in K. unfold R_dist in K. rewrite Z in K. apply K. split; [split; [exact I|auto]|]. exact Hs.
Qed.
Lemma element_derivative m u n a b : (n < nimg)%nat -> (a < no i)%nat -> (b < no j)%nat ->
  derivable_pt_lim (fun s => if skipped (place O t (moved r (one m u) s)) r1 r2 n i j then 0
     else ht_image no (place O t (moved r (one m u) s)) DT tab n i j a b) 0
   (if skipped (place O t r) r1 r2 n i j then 0 else
     rsum 3 (fun k => comp k (vadd (if (j =? m)%nat then mv (O n) u else vzero) (if (i =? m)%nat then vscale (-1) u else vzero)) *
        dht_image no (place O t r) DT tab dtab n i j a b k)).
Proof.
  intros Hn Ha Hb. destruct (Hsmooth n Hn) as (Hpos & Hr1 & Hr2 & HT).
  set (w := vadd (if (j =? m)%nat then mv (O n) u else vzero) (if (i =? m)%nat then vscale (-1) u else vzero)).
  set (Rn := place O t r) in *. set (p := mrij Rn n i j) in *.
  assert (Hp : 0 < vnorm p) by exact Hpos.
  assert (Hz : p <> vzero) by (intros Z; rewrite Z, vnorm_zero in Hp; lra).
  assert (HE : exists e, 0 < e /\ (forall d, Rabs (d - vnorm p) < e -> leb (r1 i j) d && leb d (r2 i j) = leb (r1 i j) (vnorm p) && leb (vnorm p) (r2 i j))).
  { fold (mdist Rn n i j) in *. change (vnorm p) with (mdist Rn n i j) in *.
    exists (Rmin (Rabs (mdist Rn n i j - r1 i j)) (Rabs (mdist Rn n i j - r2 i j))). split.
    - apply Rmin_pos; apply Rabs_pos_lt; lra.
    - intros d Hd. pose proof (Rmin_l (Rabs (mdist Rn n i j - r1 i j)) (Rabs (mdist Rn n i j - r2 i j))) as M1.
      pose proof (Rmin_r (Rabs (mdist Rn n i j - r1 i j)) (Rabs (mdist Rn n i j - r2 i j))) as M2.
      f_equal.
      + destruct (leb (r1 i j) (mdist Rn n i j)) eqn:E; [apply leb_true in E; apply leb_true|apply leb_false in E; apply leb_false];
          unfold Rabs in *; repeat destruct Rcase_abs; lra.
      + destruct (leb (mdist Rn n i j) (r2 i j)) eqn:E; [apply leb_true in E; apply leb_true|apply leb_false in E; apply leb_false];
          unfold Rabs in *; repeat destruct Rcase_abs; lra. }
  destruct HE as (e & He & Hleb). destruct (near_norm p w Hp e He) as (dd & Hdd & Hnear).
  assert (SK : forall s, Rabs (s - 0) < dd -> skipped (place O t (moved r (one m u) s)) r1 r2 n i j = skipped Rn r1 r2 n i j).
  { intros s Hs. unfold skipped, mdist. rewrite image_moved. fold w. fold Rn. fold p. rewrite Hleb by (apply Hnear; exact Hs). reflexivity. }
  destruct (skipped Rn r1 r2 n i j) eqn:ES.
  - apply derivable_local with (g := fun _ => 0) (e := dd); [exact Hdd| |apply D_const]. intros s Hs. rewrite SK by exact Hs. reflexivity.
  - apply derivable_local with (g := fun s => rsum (no j) (fun k => bond (fun c d => tab i j d c) (vadd p (vscale s w)) a k * DT n k b)) (e := dd); [exact Hdd| |].
    + intros s Hs. rewrite SK by exact Hs. unfold ht_image, rijh, mdist. rewrite image_moved. fold w. fold Rn. fold p. reflexivity.
    + assert (Hin : r1 i j < vnorm p < r2 i j).
      { unfold skipped in ES. apply orb_false_iff in ES. destruct ES as [_ ES]. apply negb_false_iff, andb_true_iff in ES. destruct ES as [L1 L2].
        apply leb_true in L1, L2. change (vnorm p) with (mdist Rn n i j). split; apply Rnot_le_lt; intros K; [apply Hr1|apply Hr2]; lra. }
      eapply D_eq.
      * apply derivable_rsum with (l := fun k => rsum 3 (fun q => comp q w * dht (rijh Rn n i j) (mdist Rn n i j) (tab i j (mdist Rn n i j))
           (fun c q => dtab i j (mdist Rn n i j) c * comp q (rijh Rn n i j)) a k q) * DT n k b).
        intros k Hk. eapply D_eq.
        -- apply (D_mult (fun s => bond (fun c d => tab i j d c) (vadd p (vscale s w)) a k) (fun _ => DT n k b)); [|apply D_const].
           apply (sk_derivative (fun c d => tab i j d c) (fun c => dtab i j (vnorm p) c)); [exact Hz| |lia|lia].
           intros c Hc. apply HT; assumption.
        -- cbn beta. rewrite Rmult_0_r, Rplus_0_r. reflexivity.
      * cbn beta. unfold dht_image.
        rewrite (rsum_ext 3 _ (fun q => rsum (no j) (fun k => comp q w * dht (rijh Rn n i j) (mdist Rn n i j) (tab i j (mdist Rn n i j))
           (fun c q => dtab i j (mdist Rn n i j) c * comp q (rijh Rn n i j)) a k q * DT n k b))).
        -- rewrite rsum_swap. apply rsum_ext. intros k Hk. rewrite <- rsum_scal_r. reflexivity.
        -- intros q Hq. rewrite <- rsum_scal. apply rsum_ext. intros k Hk. ring.
Qed.
Lemma block_derivative m u a b : (a < no i)%nat -> (b < no j)%nat ->
  cderivative (fun s => block nimg no (place O t (moved r (one m u) s)) DT phase tab r1 r2 i j a b) 0
   (csum nimg (fun n => if skipped (place O t r) r1 r2 n i j then (0, 0) else
     cscale (rsum 3 (fun k => comp k (vadd (if (j =? m)%nat then mv (O n) u else vzero) (if (i =? m)%nat then vscale (-1) u else vzero)) *
        dht_image no (place O t r) DT tab dtab n i j a b k)) (phase n))).
Proof.
  intros Ha Hb. unfold cderivative, block, csum. cbn [fst snd].
  split; apply derivable_rsum; intros n Hn; pose proof (element_derivative m u n a b Hn Ha Hb) as D.
  - match type of D with derivable_pt_lim ?f _ ?l =>
      apply derivable_local with (g := fun s => f s * fst (phase n)) (e := 1); [lra| |apply D_eq with (a := l * fst (phase n) + f 0 * 0)] end.
    + intros y _. cbn beta. destruct (skipped (place O t (moved r (one m u) y)) r1 r2 n i j); unfold cscale; cbn [fst snd]; ring.
    + match type of D with derivable_pt_lim ?f _ _ => apply (D_mult f (fun _ => fst (phase n))); [exact D|apply D_const] end.
    + cbn beta. destruct (skipped (place O t r) r1 r2 n i j); unfold cscale; cbn [fst snd]; ring.
  - match type of D with derivable_pt_lim ?f _ ?l =>
      apply derivable_local with (g := fun s => f s * snd (phase n)) (e := 1); [lra| |apply D_eq with (a := l * snd (phase n) + f 0 * 0)] end.
    + intros y _. cbn beta. destruct (skipped (place O t (moved r (one m u) y)) r1 r2 n i j); unfold cscale; cbn [fst snd]; ring.
    + match type of D with derivable_pt_lim ?f _ _ => apply (D_mult f (fun _ => snd (phase n))); [exact D|apply D_const] end.
    + cbn beta. destruct (skipped (place O t r) r1 r2 n i j); unfold cscale; cbn [fst snd]; ring.
Qed.
Lemma csum_ext n f g : (forall i, (i < n)%nat -> f i = g i) -> csum n f = csum n g.
Proof. intros H. unfold csum. f_equal; apply rsum_ext; intros k Hk; rewrite H by exact Hk; reflexivity. Qed.
Lemma comp_unit_axis q k v : (q < 3)%nat -> (k < 3)%nat -> comp q (vadd vzero (vscale (-1) (axis k))) * v = if (q =? k)%nat then - v else 0.
Proof.
  intros Hq Hk. destruct q as [|[|[|q]]]; try lia; destruct k as [|[|[|k]]]; try lia; unfold axis, vadd, vzero, vscale; cbn; ring.
Qed.
Lemma wrt_i a b k : (a < no i)%nat -> (b < no j)%nat -> (k < 3)%nat ->
  cderivative (fun s => block nimg no (place O t (moved r (one i (axis k)) s)) DT phase tab r1 r2 i j a b) 0
    (dblock nimg no (place O t r) DT phase tab dtab r1 r2 i j a b k).
Proof.
  intros Ha Hb Hk. pose proof (block_derivative i (axis k) a b Ha Hb) as D.
  match goal with |- cderivative _ _ ?y => match type of D with cderivative _ _ ?x => replace y with x; [exact D|] end end.
  unfold dblock. apply csum_ext. intros n Hn. destruct (skipped _ _ _ _ _ _); [reflexivity|]. f_equal.
  rewrite Nat.eqb_refl. replace (j =? i)%nat with false by (symmetry; apply Nat.eqb_neq; auto).
  rewrite (rsum_single 3 k); [rewrite comp_unit_axis, Nat.eqb_refl by assumption; reflexivity|exact Hk|].
  intros q Hq Hne. rewrite comp_unit_axis by assumption. apply Nat.eqb_neq in Hne. rewrite Hne. reflexivity.
Qed.
Lemma wrt_j a b k : (a < no i)%nat -> (b < no j)%nat -> (k < 3)%nat ->
  cderivative (fun s => cconj (block nimg no (place O t (moved r (one j (axis k)) s)) DT phase tab r1 r2 i j a b)) 0
    (dblock2 nimg no (place O t r) O DT phase tab dtab r1 r2 i j a b k).
Proof.
  intros Ha Hb Hk. pose proof (block_derivative j (axis k) a b Ha Hb) as [D1 D2].
  unfold dblock2. match type of D1 with derivable_pt_lim _ _ (fst ?x) =>
    match goal with |- cderivative _ _ (cconj ?y) => replace y with x end end.
  - split; unfold cconj; cbn [fst snd]; [exact D1|].
    match type of D2 with derivable_pt_lim ?f _ _ => apply (D_opp f) end. exact D2.
  - apply csum_ext. intros n Hn. destruct (skipped _ _ _ _ _ _); [reflexivity|]. f_equal.
    rewrite Nat.eqb_refl. replace (i =? j)%nat with false by (symmetry; apply Nat.eqb_neq; auto).
    apply rsum_ext. intros q Hq. rewrite Rmult_comm. f_equal.
    generalize (O n). intros Q. destruct k as [|[|[|k]]]; try lia; destruct q as [|[|[|q]]]; try lia; unfold axis, vadd, vzero, mv, vdot, m3e; cbn; ring.
Qed.
End Deriv.
