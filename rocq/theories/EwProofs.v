From Coq Require Import Reals ZArith List Bool Arith Lra Lia Psatz Permutation FinFun.
From Verif Require Import Vec GeomModel GeomProofs EwModel EwSpec.
Import ListNotations.
Open Scope R_scope.

Definition neg (t : Z * Z * Z) : Z * Z * Z := ((- fst (fst t))%Z, (- snd (fst t))%Z, (- snd t)%Z).
Lemma in_span m x : In x (span m) <-> (- m <= x <= m)%Z.
Proof.
  unfold span. rewrite in_map_iff. split.
  - intros [i [<- hi]]. apply in_seq in hi. lia.
  - intros h. exists (Z.to_nat (x + m)). split; [lia|]. apply in_seq. lia.
Qed.
Lemma in_triples a b c t : In t (triples a b c) <-> (- a <= fst (fst t) <= a /\ - b <= snd (fst t) <= b /\ - c <= snd t <= c)%Z.
Proof. destruct t as [[x y] z]. unfold triples. rewrite !in_prod_iff, !in_span. cbn [fst snd]. tauto. Qed.
Lemma span_nodup m : NoDup (span m).
Proof. unfold span. apply Injective_map_NoDup; [|apply seq_NoDup]. intros x y h. lia. Qed.
Lemma nodup_join {A} (l l' : list A) : NoDup l -> NoDup l' -> (forall x, In x l -> ~ In x l') -> NoDup (l ++ l').
Proof.
  intros h h' d. induction h as [|x l hx h IH]; [exact h'|]. cbn [app]. constructor.
  - rewrite in_app_iff. intros [i|i]; [contradiction|]. apply (d x (or_introl eq_refl) i).
  - apply IH. intros y hy. apply d. right. exact hy.
Qed.
Lemma forallb_same {A} (l : list A) p p' : (forall x, In x l -> p x = p' x) -> forallb p l = forallb p' l.
Proof. induction l as [|a l IH]; intros h; [reflexivity|]. cbn [forallb]. rewrite (h a (or_introl eq_refl)), IH; [reflexivity|]. intros x hx. apply h. right. exact hx. Qed.
Lemma prod_nodup {A B} (l : list A) (l' : list B) : NoDup l -> NoDup l' -> NoDup (list_prod l l').
Proof.
  intros h h'. induction h as [|x l hx h IH]; [constructor|]. cbn [list_prod]. apply nodup_join; [|exact IH|].
  - apply Injective_map_NoDup; [|exact h']. intros a b e. congruence.
  - intros [a b] ha hb. apply in_map_iff in ha. destruct ha as [y [e _]]. inversion e; subst. apply in_prod_iff in hb. tauto.
Qed.
Lemma triples_nodup a b c : NoDup (triples a b c).
Proof. unfold triples. apply prod_nodup; [apply prod_nodup|]; apply span_nodup. Qed.
Lemma neg_neg t : neg (neg t) = t.
Proof. destruct t as [[x y] z]. unfold neg. cbn [fst snd]. rewrite !Z.opp_involutive. reflexivity. Qed.
Lemma triples_neg a b c : Permutation (triples a b c) (map neg (triples a b c)).
Proof.
  apply NoDup_Permutation; [apply triples_nodup|apply Injective_map_NoDup; [|apply triples_nodup]|].
  - intros x y h. rewrite <- (neg_neg x), h. apply neg_neg.
  - intros t. rewrite in_map_iff. split.
    + intros h. exists (neg t). split; [apply neg_neg|]. apply in_triples in h. apply in_triples. unfold neg. cbn [fst snd]. lia.
    + intros [s [<- h]]. apply in_triples in h. apply in_triples. unfold neg. cbn [fst snd]. lia.
Qed.
Lemma lsum_perm {A} (l l' : list A) f : Permutation l l' -> lsum l f = lsum l' f.
Proof. unfold lsum. intros h. induction h; cbn [fold_right]; try lra. Qed.
Lemma lsum_map {A B} (g : A -> B) l f : lsum (map g l) f = lsum l (fun t => f (g t)).
Proof. unfold lsum. induction l as [|a l IH]; [reflexivity|]. cbn [map fold_right]. rewrite IH. reflexivity. Qed.
Lemma lsum_ext {A} (l : list A) f g : (forall t, In t l -> f t = g t) -> lsum l f = lsum l g.
Proof. unfold lsum. induction l as [|a l IH]; intros h; [reflexivity|]. cbn [fold_right]. rewrite (h a (or_introl eq_refl)), IH; [reflexivity|]. intros t ht. apply h. right. exact ht. Qed.
Lemma lsum_scal_r {A} (l : list A) f c : lsum l f * c = lsum l (fun t => f t * c).
Proof. unfold lsum. induction l as [|a l IH]; cbn [fold_right]; [ring|]. rewrite <- IH. ring. Qed.
Lemma lsum_rsum {A} (l : list A) n (f : A -> nat -> R) : lsum l (fun t => rsum n (f t)) = rsum n (fun j => lsum l (fun t => f t j)).
Proof. unfold lsum. induction l as [|a l IH]; cbn [fold_right]; [symmetry; apply rsum_zero|]. rewrite IH, <- rsum_plus. reflexivity. Qed.
Lemma lsum_neg a b c f : lsum (triples a b c) f = lsum (triples a b c) (fun t => f (neg t)).
Proof. rewrite (lsum_perm _ _ f (triples_neg a b c)). apply lsum_map. Qed.
Lemma zero_neg t : is_zero (neg t) = is_zero t.
Proof.
  destruct t as [[x y] z]. unfold is_zero, neg. cbn [fst snd].
  assert (E : forall x : Z, (- x =? 0)%Z = (x =? 0)%Z) by (intros u; destruct (Z.eqb_spec u 0), (Z.eqb_spec (- u) 0); lia). rewrite !E. reflexivity.
Qed.

Section Ewald.
Variables (erfc : R -> R) (acc weight : R) (n : nat) (cell : m3).
Notation al := (alpha weight n cell).
Lemma shift_neg t : shift cell (neg t) = vscale (-1) (shift cell t).
Proof.
  destruct t as [[x y] z]. unfold shift, vm, mv, vec_of, neg, tr, vdot, vscale. cbn [fst snd vx vy vz row1 row2 row3]. rewrite !opp_IZR. f_equal; ring.
Qed.
Lemma dist_neg r t i j : dist cell r (neg t) i j = dist cell r t j i.
Proof.
  unfold dist. rewrite shift_neg. unfold vnorm. f_equal. unfold vdot, vsub, vadd, vscale. cbn [vx vy vz]. ring.
Qed.
Lemma dist_zero r t i j : is_zero t = true -> dist cell r t i j = vnorm (vsub (r i) (r j)).
Proof.
  destruct t as [[x y] z]. unfold is_zero. cbn [fst snd]. intros h. apply andb_true_iff in h. destruct h as [h hz]. apply andb_true_iff in h. destruct h as [hx hy].
  apply Z.eqb_eq in hx, hy, hz. subst. unfold dist, shift, vm, mv, vec_of, tr. cbn [fst snd]. unfold vnorm. f_equal. unfold vdot, vsub, vadd. cbn [vx vy vz row1 row2 row3]. ring.
Qed.
Lemma norm_sym a b : vnorm (vsub a b) = vnorm (vsub b a).
Proof. unfold vnorm. f_equal. unfold vdot, vsub. cbn [vx vy vz]. ring. Qed.
(** the interaction of unit charges *)
Definition kernel (r : nat -> v3) (i j : nat) : R :=
  lsum (g_range acc weight n cell) (fun t => rec_weight weight n cell t * cos (vdot (wave cell t) (vsub (r i) (r j)))) * (4 * PI / volume cell) +
  (lsum (r_range acc weight n cell) (fun t => if is_zero t then 0 else erfc (sqrt al * dist cell r t i j) / dist cell r t i j) +
   (if (i =? j)%nat then 0 else erfc (sqrt al * vnorm (vsub (r i) (r j))) / vnorm (vsub (r i) (r j)))) -
  (if (i =? j)%nat then 2 * sqrt (al / PI) else 0).
Lemma dot_sub g a b : vdot g (vsub a b) = vdot g a - vdot g b.
Proof. unfold vdot, vsub. cbn [vx vy vz]. ring. Qed.
Lemma kernel_sym r i j : kernel r i j = kernel r j i.
Proof.
  unfold kernel. rewrite (Nat.eqb_sym j i). f_equal. f_equal.
  - f_equal. apply lsum_ext. intros t _. f_equal. rewrite !dot_sub, <- cos_neg. f_equal. ring.
  - f_equal.
    + unfold r_range. cbv zeta. rewrite lsum_neg. apply lsum_ext. intros t _. rewrite zero_neg, dist_neg. reflexivity.
    + rewrite (norm_sym (r j) (r i)). reflexivity.
Qed.
Lemma delta_pick (q : nat -> R) c i : (i < n)%nat -> rsum n (fun j => (if (i =? j)%nat then c else 0) * q j) = c * q i.
Proof.
  intros hi. rewrite (rsum_single n i) by (try exact hi; intros j hj hne; replace (i =? j)%nat with false by (symmetry; apply Nat.eqb_neq; lia); ring).
  rewrite Nat.eqb_refl. reflexivity.
Qed.
Lemma phi_kernel r q i : (i < n)%nat ->
  phi_rec acc weight n cell r q i + phi_real erfc acc weight n cell r q i - 2 * q i * sqrt (al / PI) = rsum n (fun j => kernel r i j * q j).
Proof.
  intros hi. unfold kernel.
  transitivity (rsum n (fun j => lsum (g_range acc weight n cell) (fun t => rec_weight weight n cell t * cos (vdot (wave cell t) (vsub (r i) (r j)))) * (4 * PI / volume cell) * q j)
    + (rsum n (fun j => lsum (r_range acc weight n cell) (fun t => if is_zero t then 0 else erfc (sqrt al * dist cell r t i j) / dist cell r t i j) * q j)
       + rsum n (fun j => (if (i =? j)%nat then 0 else erfc (sqrt al * vnorm (vsub (r i) (r j))) / vnorm (vsub (r i) (r j))) * q j))
    - rsum n (fun j => (if (i =? j)%nat then 2 * sqrt (al / PI) else 0) * q j)).
  - rewrite delta_pick by exact hi. f_equal; [f_equal|ring].
    + unfold phi_rec. rewrite <- (rsum_ext n (fun j => lsum (g_range acc weight n cell) (fun t => rec_weight weight n cell t * cos (vdot (wave cell t) (vsub (r i) (r j))) * (4 * PI / volume cell) * q j))).
      * rewrite <- lsum_rsum, lsum_scal_r. apply lsum_ext. intros t _.
        transitivity (rsum n (fun j => rec_weight weight n cell t * (4 * PI / volume cell) * (sin (vdot (wave cell t) (r j)) * q j * sin (vdot (wave cell t) (r i)) + cos (vdot (wave cell t) (r j)) * q j * cos (vdot (wave cell t) (r i))))).
        -- rewrite rsum_scal, rsum_plus, !rsum_scal_r. ring.
        -- apply rsum_ext. intros j _. rewrite dot_sub, cos_minus. ring.
      * intros j _. rewrite <- !lsum_scal_r. reflexivity.
    + unfold phi_real. f_equal.
      * rewrite <- (rsum_ext n (fun j => lsum (r_range acc weight n cell) (fun t => (if is_zero t then 0 else erfc (sqrt al * dist cell r t i j) / dist cell r t i j) * q j))).
        -- rewrite <- lsum_rsum. apply lsum_ext. intros t _. destruct (is_zero t).
           ++ rewrite (rsum_ext n _ (fun _ => 0)) by (intros; ring). symmetry. apply rsum_zero.
           ++ apply rsum_ext. intros j _. unfold Rdiv. ring.
        -- intros j _. symmetry. apply lsum_scal_r.
      * apply rsum_ext. intros j _. destruct (i =? j)%nat; unfold Rdiv; ring.
  - rewrite <- !rsum_plus, <- rsum_minus. apply rsum_ext. intros j _. ring.
Qed.
Lemma moved_diff (r : nat -> v3) d i j : vsub (vadd (r i) d) (vadd (r j) d) = vsub (r i) (r j).
Proof. unfold vsub, vadd. cbn [vx vy vz]. f_equal; ring. Qed.
Lemma moved_dist r d t i j : dist cell (fun i => vadd (r i) d) t i j = dist cell r t i j.
Proof. unfold dist. f_equal. unfold vsub, vadd. cbn [vx vy vz]. f_equal; ring. Qed.
Lemma moved_kernel r d i j : kernel (fun i => vadd (r i) d) i j = kernel r i j.
Proof.
  unfold kernel. rewrite moved_diff. f_equal. f_equal. f_equal. apply lsum_ext. intros t _. rewrite moved_dist. reflexivity.
Qed.
Lemma moved_separated r d : separated acc weight n cell (fun i => vadd (r i) d) = separated acc weight n cell r.
Proof.
  unfold separated. apply forallb_same. intros i _. apply forallb_same. intros j _. apply forallb_same. intros t _. rewrite moved_dist. reflexivity.
Qed.
End Ewald.
