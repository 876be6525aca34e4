From Coq Require Import Reals List Bool Arith Lia Lra Psatz.
From Verif Require Import GeomModel DosModel MblModel MblSpec.
Import ListNotations.
Open Scope R_scope.

Lemma ltb_t a b : ltb a b = true <-> a < b. Proof. unfold ltb. destruct (Rlt_dec a b); split; auto; discriminate. Qed.
Lemma leb_t a b : leb a b = true <-> a <= b. Proof. unfold leb. destruct (Rle_dec a b); split; auto; discriminate. Qed.
Lemma in_list N dist r : In r (pair_distribution_list N dist) <-> is_distance N dist r.
Proof.
  unfold pair_distribution_list, is_distance. rewrite in_flat_map. split.
  - intros [i [hi h]]. apply in_map_iff in h. destruct h as [j [<- hj]]. apply in_seq in hi, hj. exists i, j. repeat split; lia.
  - intros [i [j [h1 [h2 ->]]]]. exists i. split; [apply in_seq; lia|]. apply in_map_iff. exists j. split; [reflexivity|apply in_seq; lia].
Qed.
Lemma filter_seq i N : (i < N)%nat -> filter (fun j => (i <? j)%nat) (seq 0 N) = seq (i + 1) (N - (i + 1)).
Proof.
  intros h. replace N with ((i + 1) + (N - (i + 1)))%nat at 1 by lia. rewrite seq_app, filter_app.
  assert (A : forall l, (forall j, In j l -> (j <= i)%nat) -> filter (fun j => (i <? j)%nat) l = []).
  { induction l as [|j l IH]; intros q; [reflexivity|]. cbn [filter]. destruct (Nat.ltb_spec i j); [specialize (q j (or_introl eq_refl)); lia|]. apply IH. intros k hk. apply q. right. exact hk. }
  assert (B : forall l, (forall j, In j l -> (i < j)%nat) -> filter (fun j => (i <? j)%nat) l = l).
  { induction l as [|j l IH]; intros q; [reflexivity|]. cbn [filter]. destruct (Nat.ltb_spec i j); [|specialize (q j (or_introl eq_refl)); lia]. f_equal. apply IH. intros k hk. apply q. right. exact hk. }
  rewrite A by (intros j hj; apply in_seq in hj; lia). cbn [app Nat.add]. apply B. intros j hj. apply in_seq in hj. lia.
Qed.
Lemma pair_list N dist : pair_distribution_list N dist = map (fun p => dist (fst p) (snd p)) (pairs N).
Proof.
  unfold pair_distribution_list, pairs.
  assert (G : forall l, (forall i, In i l -> (i < N)%nat) -> flat_map (fun i => map (dist i) (seq (i + 1) (N - (i + 1)))) l = map (fun p => dist (fst p) (snd p)) (filter (fun p : nat * nat => (fst p <? snd p)%nat) (list_prod l (seq 0 N)))).
  { induction l as [|i l IH]; intros q; [reflexivity|]. cbn [flat_map list_prod]. rewrite filter_app, map_app. rewrite IH by (intros k hk; apply q; right; exact hk). f_equal.
    rewrite <- filter_seq by (apply q; left; reflexivity). generalize (seq 0 N) as s. induction s as [|j s IHs]; [reflexivity|]. cbn [map filter fst snd]. destruct (i <? j)%nat; cbn [map fst snd]; rewrite IHs; reflexivity. }
  apply G. intros i hi. apply in_seq in hi. lia.
Qed.
(** sums of Gaussians *)
Lemma fold_sum (f : R -> R) l : forall s, fold_left (fun s x => s + f x) l s = s + fold_left (fun s x => s + f x) l 0.
Proof. induction l as [|x l IH]; intros s; cbn [fold_left]; [ring|]. rewrite (IH (s + f x)), (IH (0 + f x)). ring. Qed.
Lemma sum_le (f g : R -> R) l : (forall x, In x l -> f x <= g x) -> fold_left (fun s x => s + f x) l 0 <= fold_left (fun s x => s + g x) l 0.
Proof.
  induction l as [|x l IH]; intros h; cbn [fold_left]; [lra|]. rewrite (fold_sum f l (0 + f x)), (fold_sum g l (0 + g x)).
  specialize (IH (fun y hy => h y (or_intror hy))). specialize (h x (or_introl eq_refl)). lra.
Qed.
Lemma sum_part (f : R -> R) l x : (forall y, 0 <= f y) -> In x l -> f x <= fold_left (fun s x => s + f x) l 0.
Proof.
  intros hf. assert (P : forall l, 0 <= fold_left (fun s x => s + f x) l 0). { intros k. induction k as [|y k IH]; cbn [fold_left]; [lra|]. rewrite fold_sum. specialize (hf y). lra. }
  induction l as [|y l IH]; intros []; cbn [fold_left]; rewrite fold_sum; [subst y; specialize (P l); lra|]. specialize (IH H). specialize (hf y). lra.
Qed.
Lemma front s : 0 < s -> 0 < 1 / sqrt (2 * PI * s ^ 2).
Proof. intros h. apply Rdiv_lt_0_compat; [lra|]. apply sqrt_lt_R0. pose proof PI_RGT_0. apply Rmult_lt_0_compat; [lra|]. apply pow_lt, h. Qed.
Lemma gauss_pos a m s : 0 < s -> 0 <= gauss_fct a m s.
Proof. intros h. unfold gauss_fct. apply Rmult_le_pos; [apply Rlt_le, front, h|apply Rlt_le, exp_pos]. Qed.
Lemma gauss_closer a b m s : 0 < s -> (b - m) ^ 2 <= (a - m) ^ 2 -> gauss_fct a m s <= gauss_fct b m s.
Proof.
  intros h q. unfold gauss_fct. apply Rmult_le_compat_l; [apply Rlt_le, front, h|].
  assert (E : - (a - m) ^ 2 / (2 * s ^ 2) <= - (b - m) ^ 2 / (2 * s ^ 2)). { unfold Rdiv. apply Rmult_le_compat_r; [|lra]. apply Rlt_le, Rinv_0_lt_compat. assert (0 < s ^ 2) by (apply pow_lt, h). lra. }
  destruct E as [E|E]; [apply Rlt_le, exp_increasing, E|rewrite E; lra].
Qed.
Lemma gauss_strict a b m s : 0 < s -> (b - m) ^ 2 < (a - m) ^ 2 -> gauss_fct a m s < gauss_fct b m s.
Proof.
  intros h q. unfold gauss_fct. apply Rmult_lt_compat_l; [apply front, h|]. apply exp_increasing. unfold Rdiv. apply Rmult_lt_compat_r; [|lra]. apply Rinv_0_lt_compat. assert (0 < s ^ 2) by (apply pow_lt, h). lra.
Qed.
Lemma gauss_near a m : (a - m) ^ 2 <= / 100 -> eps < gauss_fct a m (7 / 10).
Proof.
  intros q. unfold gauss_fct, eps.
  assert (S3 : sqrt (2 * PI * (7 / 10) ^ 2) <= 3). { rewrite <- (sqrt_square 3) by lra. apply sqrt_le_1_alt. pose proof PI_4. lra. }
  assert (S0 : 0 < sqrt (2 * PI * (7 / 10) ^ 2)). { apply sqrt_lt_R0. pose proof PI_RGT_0. lra. }
  assert (F : / 3 <= 1 / sqrt (2 * PI * (7 / 10) ^ 2)). { unfold Rdiv. rewrite Rmult_1_l. apply Rinv_le_contravar; assumption. }
  assert (X : / 2 <= exp (- (a - m) ^ 2 / (2 * (7 / 10) ^ 2))). { pose proof (exp_ineq1_le (- (a - m) ^ 2 / (2 * (7 / 10) ^ 2))). lra. }
  assert (/ 3 * / 2 <= 1 / sqrt (2 * PI * (7 / 10) ^ 2) * exp (- (a - m) ^ 2 / (2 * (7 / 10) ^ 2))) by (apply Rmult_le_compat; lra). lra.
Qed.
Lemma grd_S i : grd (i + 1) = grd i + 10 / 199. Proof. unfold grd. rewrite plus_INR. cbn [INR]. ring. Qed.
Lemma grd_le i j : (i <= j)%nat -> grd i <= grd j. Proof. intros h. unfold grd. apply Rmult_le_compat_r; [lra|]. apply le_INR, h. Qed.
Section Bonds.
Variables (N : nat) (dist : nat -> nat -> R) (m : R).
Hypothesis hm : shortest N dist m.
(** the function can only fall beyond the shortest distance *)
Lemma falls i : pdf N dist (i + 1) < pdf N dist i -> m < grd (i + 1).
Proof.
  intros h. apply Rnot_le_lt. intros q. apply (Rlt_irrefl (pdf N dist i)). refine (Rle_lt_trans _ _ _ _ h). unfold pdf.
  apply (sum_le (fun x => gauss_fct (grd i) x (7 / 10)) (fun x => gauss_fct (grd (i + 1)) x (7 / 10))). intros x hx. apply in_list in hx. apply (proj2 hm) in hx.
  apply gauss_closer; [lra|]. rewrite grd_S in *. nra.
Qed.
Lemma big i : (grd i - m) ^ 2 <= / 100 -> eps < pdf N dist i.
Proof.
  intros q. eapply Rlt_le_trans; [apply gauss_near, q|]. unfold pdf. apply (sum_part (fun x => gauss_fct (grd i) x (7 / 10))); [intros y; apply gauss_pos; lra|]. apply in_list, (proj1 hm).
Qed.
Lemma stop i : m < grd (i + 1) -> grd i < m -> ~ pdf N dist i < eps.
Proof. intros h1 h2 q. rewrite grd_S in h1. assert (eps < pdf N dist i) by (apply big; nra). lra. Qed.
Lemma mean_cut_far fuel : forall i max, (max = true -> m < grd i) -> m <= grd 197 -> forall k, mean_cut N dist fuel i max = Some k -> m <= grd k.
Proof.
  induction fuel as [|fuel IH]; intros i max h h197 k e; [discriminate|]. cbn [mean_cut] in e.
  destruct max; cbn [orb] in e.
  - destruct (_ && _) in e; [injection e as <-; specialize (h eq_refl); lra|]. refine (IH _ _ _ h197 k e). intros _. specialize (h eq_refl). rewrite grd_S. lra.
  - destruct (ltb (pdf N dist (i + 1)) (pdf N dist i)) eqn:F; cbn [andb] in e.
    + apply ltb_t in F. pose proof (falls i F) as f. destruct (_ || _) eqn:T in e.
      * injection e as <-. destruct (Rle_lt_dec m (grd i)) as [g|g]; [exact g|]. exfalso. apply orb_true_iff in T. destruct T as [T|T].
        -- apply orb_true_iff in T. rewrite !ltb_t in T. destruct T as [T|T]; [lra|]. exact (stop i f g T).
        -- apply Nat.eqb_eq in T. subst i. lra.
      * refine (IH _ _ _ h197 k e). intros _. exact f.
    + refine (IH _ _ _ h197 k e). discriminate.
Qed.
Lemma number_cut_far fuel : forall i max, (max = true -> m < grd i) -> m <= grd (i + fuel - 1) -> (1 <= i + fuel)%nat -> m <= grd (number_cut N dist fuel i max).
Proof.
  induction fuel as [|fuel IH]; intros i max h hl hp; cbn [number_cut]; [rewrite Nat.add_0_r in hl; exact hl|].
  assert (hl' : m <= grd (i + 1 + fuel - 1)) by (replace (i + 1 + fuel - 1)%nat with (i + S fuel - 1)%nat by lia; exact hl).
  destruct max; cbn [orb].
  - destruct (_ && _); [specialize (h eq_refl); lra|]. apply IH; [|exact hl'|lia]. intros _. specialize (h eq_refl). rewrite grd_S. lra.
  - destruct (ltb (pdf N dist (i + 1)) (pdf N dist i)) eqn:F; cbn [andb].
    + apply ltb_t in F. pose proof (falls i F) as f. destruct (_ || _) eqn:T.
      * destruct (Rle_lt_dec m (grd i)) as [g|g]; [exact g|]. exfalso. apply orb_true_iff in T. rewrite !ltb_t in T. destruct T as [T|T]; [lra|]. exact (stop i f g T).
      * apply IH; [|exact hl'|lia]. intros _. exact f.
    + apply IH; [discriminate|exact hl'|lia].
Qed.
End Bonds.
Lemma ltb_f a b : ltb a b = false <-> b <= a. Proof. unfold ltb. destruct (Rlt_dec a b); split; intros; try discriminate; try lra; reflexivity. Qed.
(** the distribution of the specification *)
Lemma rdf_pdf N dist k : rdf N dist k = pdf N dist k.
Proof.
  unfold rdf, pdf. rewrite pair_list. generalize (pairs N) as l. induction l as [|p l IH]; [reflexivity|]. cbn [fold_right map fold_left]. rewrite (fold_sum (fun x => gauss_fct (grd k) x (7 / 10))), IH. f_equal. rewrite Rplus_0_l.
  unfold gauss_fct. change (point k) with (grd k). f_equal.
  assert (Q : sqrt (2 * PI * (7 / 10) ^ 2) = 7 / 10 * sqrt (2 * PI)) by (pose proof PI_RGT_0; rewrite (sqrt_mult (2 * PI) ((7 / 10) ^ 2)) by lra; rewrite sqrt_pow2 by lra; ring).
  rewrite Q. unfold Rdiv at 2. rewrite Rmult_1_l. reflexivity.
Qed.
Lemma mean_cut_true N dist fuel : forall i k, mean_cut N dist fuel i true = Some k -> (i <= k)%nat /\ (forall j, (i <= j < k)%nat -> pdf N dist (j + 1) <= pdf N dist j /\ eps <= pdf N dist j) /\ (pdf N dist k < pdf N dist (k + 1) \/ pdf N dist k < eps \/ k = 197%nat).
Proof.
  induction fuel as [|fuel IH]; intros i k e; [discriminate|]. cbn [mean_cut orb andb] in e. destruct (_ || _) eqn:T in e.
  - injection e as <-. split; [lia|]. split; [intros j hj; lia|]. rewrite !orb_true_iff, !ltb_t, Nat.eqb_eq in T. tauto.
  - apply IH in e. destruct e as [h1 [h2 h3]]. rewrite !orb_false_iff, !ltb_f in T. split; [lia|]. split; [|exact h3]. intros j hj. destruct (Nat.eq_dec j i) as [->|n]; [split; apply T|apply h2; lia].
Qed.
Lemma mean_cut_false N dist fuel : forall i k, mean_cut N dist fuel i false = Some k -> (i <= k)%nat /\ exists k1, (i <= k1 <= k)%nat /\ (forall j, (i <= j < k1)%nat -> pdf N dist j <= pdf N dist (j + 1)) /\ pdf N dist (k1 + 1) < pdf N dist k1 /\
  (forall j, (k1 <= j < k)%nat -> pdf N dist (j + 1) <= pdf N dist j /\ eps <= pdf N dist j) /\ (pdf N dist k < pdf N dist (k + 1) \/ pdf N dist k < eps \/ k = 197%nat).
Proof.
  induction fuel as [|fuel IH]; intros i k e; [discriminate|]. destruct (ltb (pdf N dist (i + 1)) (pdf N dist i)) eqn:F.
  - assert (e' : mean_cut N dist (S fuel) i true = Some k) by (cbn [mean_cut orb] in *; rewrite F in e; exact e). apply mean_cut_true in e'. destruct e' as [h1 [h2 h3]]. split; [exact h1|]. exists i. split; [lia|]. split; [intros j hj; lia|]. split; [apply ltb_t, F|]. split; assumption.
  - cbn [mean_cut orb] in e. rewrite F in e. cbn [andb] in e. apply IH in e. destruct e as [h1 [k1 [h2 [h3 h4]]]]. apply ltb_f in F. split; [lia|]. exists k1. split; [lia|]. split; [|exact h4]. intros j hj. destruct (Nat.eq_dec j i) as [->|n]; [exact F|apply h3; lia].
Qed.
Lemma mean_cut_minimum N dist k : mean_cut N dist 199 0 false = Some k -> first_minimum (rdf N dist) 197 k.
Proof.
  intros e. apply mean_cut_false in e. destruct e as [_ [k1 [h1 [h2 [h3 [h4 h5]]]]]]. exists k1. unfold eps in *. split; [lia|]. split; [intros j hj; rewrite !rdf_pdf; apply h2; lia|]. rewrite !rdf_pdf. split; [exact h3|]. split; [intros j hj; rewrite !rdf_pdf; apply h4, hj|]. split; [intros j hj; rewrite !rdf_pdf; apply h4, hj|exact h5].
Qed.
Lemma mean_cut_some N dist fuel : forall i max, (i <= 197)%nat -> (i + fuel = 199)%nat -> (max = true \/ exists j, (i <= j <= 197)%nat /\ pdf N dist (j + 1) < pdf N dist j) -> exists k, mean_cut N dist fuel i max = Some k.
Proof.
  induction fuel as [|fuel IH]; intros i max h1 h2 h3; [lia|]. cbn [mean_cut]. destruct (_ && _) eqn:T; [eauto|].
  assert (Q : max || ltb (pdf N dist (i + 1)) (pdf N dist i) = true \/ exists j, (i + 1 <= j <= 197)%nat /\ pdf N dist (j + 1) < pdf N dist j).
  { destruct h3 as [->|[j [hj q]]]; [left; reflexivity|]. destruct (Nat.eq_dec j i) as [->|n]; [left; apply ltb_t in q; rewrite q; apply orb_true_r|right; exists j; split; [lia|exact q]]. }
  apply IH; [|lia|exact Q]. destruct (Nat.eq_dec i 197) as [->|n]; [|lia]. exfalso. rewrite Nat.eqb_refl, orb_true_r, andb_true_r in T. destruct Q as [Q|[j [hj _]]]; [congruence|lia].
Qed.
Lemma number_cut_true N dist fuel : forall i, let k := number_cut N dist (S fuel) i true in (i <= k <= i + fuel)%nat /\ (forall j, (i <= j < k)%nat -> pdf N dist (j + 1) <= pdf N dist j /\ eps <= pdf N dist j) /\ (pdf N dist k < pdf N dist (k + 1) \/ pdf N dist k < eps \/ k = (i + fuel)%nat).
Proof.
  induction fuel as [|fuel IH]; intros i k; subst k; cbn [number_cut orb andb]; destruct (_ || _) eqn:T.
  - split; [lia|]. split; [intros j hj; lia|]. right. right. lia.
  - replace (i + 1 - 1)%nat with i by lia. split; [lia|]. split; [intros j hj; lia|]. right. right. lia.
  - split; [lia|]. split; [intros j hj; lia|]. rewrite !orb_true_iff, !ltb_t in T. tauto.
  - specialize (IH (i + 1)%nat). cbv zeta in IH. change (number_cut N dist (S fuel) (i + 1) true) with (if true && (ltb (pdf N dist (i + 1)) (pdf N dist (i + 1 + 1)) || ltb (pdf N dist (i + 1)) eps) then (i + 1)%nat else number_cut N dist fuel (i + 1 + 1) true) in IH. cbn [andb] in IH.
    rewrite !orb_false_iff, !ltb_f in T. destruct IH as [h1 [h2 h3]]. split; [lia|]. split; [|destruct h3 as [h3|[h3|h3]]; [tauto|tauto|right; right; lia]]. intros j hj. destruct (Nat.eq_dec j i) as [->|n]; [split; apply T|apply h2; lia].
Qed.
Lemma number_cut_false N dist fuel : forall i, let k := number_cut N dist (S fuel) i false in
  (k = (i + fuel)%nat /\ forall j, (i <= j <= i + fuel)%nat -> pdf N dist j <= pdf N dist (j + 1)) \/
  exists k1, (i <= k1 <= k)%nat /\ (forall j, (i <= j < k1)%nat -> pdf N dist j <= pdf N dist (j + 1)) /\ pdf N dist (k1 + 1) < pdf N dist k1 /\
  (forall j, (k1 <= j < k)%nat -> pdf N dist (j + 1) <= pdf N dist j /\ eps <= pdf N dist j) /\ (pdf N dist k < pdf N dist (k + 1) \/ pdf N dist k < eps \/ k = (i + fuel)%nat).
Proof.
  induction fuel as [|fuel IH]; intros i k; destruct (ltb (pdf N dist (i + 1)) (pdf N dist i)) eqn:F.
  - right. exists i. pose proof (number_cut_true N dist 0 i) as Q. cbv zeta in Q. assert (e : k = number_cut N dist (S 0) i true) by (subst k; cbn [number_cut orb]; rewrite F; reflexivity).
    rewrite <- e in Q. clearbody k. destruct Q as [h1 [h2 h3]]. split; [lia|]. split; [intros j hj; lia|]. split; [apply ltb_t, F|]. split; [exact h2|exact h3].
  - left. subst k. cbn [number_cut orb]. rewrite F. cbn [andb]. split; [lia|]. intros j hj. replace j with i by lia. apply ltb_f, F.
  - right. exists i. pose proof (number_cut_true N dist (S fuel) i) as Q. cbv zeta in Q. assert (e : k = number_cut N dist (S (S fuel)) i true) by (subst k; cbn [number_cut orb]; rewrite F; reflexivity).
    rewrite <- e in Q. clearbody k. destruct Q as [h1 [h2 h3]]. split; [lia|]. split; [intros j hj; lia|]. split; [apply ltb_t, F|]. split; [exact h2|exact h3].
  - assert (e : k = number_cut N dist (S fuel) (i + 1) false) by (subst k; cbn [number_cut orb]; rewrite F; reflexivity). specialize (IH (i + 1)%nat). cbv zeta in IH. rewrite <- e in IH. apply ltb_f in F. clearbody k.
    destruct IH as [[h1 h2]|[k1 [h1 [h2 [h3 [h4 h5]]]]]].
    + left. split; [lia|]. intros j hj. destruct (Nat.eq_dec j i) as [->|n]; [exact F|apply h2; lia].
    + right. exists k1. split; [lia|]. split; [intros j hj; destruct (Nat.eq_dec j i) as [->|n]; [exact F|apply h2; lia]|]. split; [exact h3|]. split; [exact h4|]. destruct h5 as [h5|[h5|h5]]; [tauto|tauto|right; right; lia].
Qed.
Lemma number_cut_minimum N dist : let k := number_cut N dist 199 0 false in first_minimum (rdf N dist) 198 k \/ (k = 198%nat /\ forall j, (j <= 198)%nat -> rdf N dist j <= rdf N dist (j + 1)).
Proof.
  intros k. pose proof (number_cut_false N dist 198 0) as Q. cbv zeta in Q. fold k in Q. clearbody k. destruct Q as [[h1 h2]|[k1 [h1 [h2 [h3 [h4 h5]]]]]].
  - right. split; [exact h1|]. intros j hj. rewrite !rdf_pdf. apply h2. lia.
  - left. exists k1. unfold eps in *. split; [lia|]. split; [intros j hj; rewrite !rdf_pdf; apply h2; lia|]. rewrite !rdf_pdf. split; [exact h3|]. split; [intros j hj; rewrite !rdf_pdf; apply h4, hj|]. split; [intros j hj; rewrite !rdf_pdf; apply h4, hj|exact h5].
Qed.
Lemma number_cut_small N dist fuel : forall i max, (1 <= i + fuel)%nat -> (number_cut N dist fuel i max <= i + fuel - 1)%nat.
Proof.
  induction fuel as [|fuel IH]; intros i max h; cbn [number_cut]; [lia|]. destruct (_ && _); [lia|]. etransitivity; [apply IH; lia|lia].
Qed.
Lemma in_within N dist rc r : In r (within N dist rc) <-> is_distance N dist r /\ r <= rc.
Proof. unfold within. rewrite filter_In, in_list, leb_t. reflexivity. Qed.
Lemma average l a b : l <> [] -> (forall r, In r l -> a <= r <= b) -> a <= fold_left Rplus l 0 / INR (length l) <= b.
Proof.
  intros hl h. assert (S : INR (length l) * a <= fold_left Rplus l 0 <= INR (length l) * b).
  { clear hl. assert (E : forall l s, fold_left Rplus l s = s + fold_left Rplus l 0). { clear. induction l as [|x l IH]; intros s; cbn [fold_left]; [ring|]. rewrite (IH (s + x)), (IH (0 + x)). ring. }
    induction l as [|x l IH]; [cbn; lra|]. cbn [fold_left length]. rewrite E, S_INR. specialize (IH (fun r hr => h r (or_intror hr))). specialize (h x (or_introl eq_refl)). lra. }
  assert (P : 0 < INR (length l)) by (apply lt_0_INR; destruct l; [congruence|cbn; lia]).
  split; apply (Rmult_le_reg_l (INR (length l))); try exact P; unfold Rdiv; rewrite <- ?Rmult_assoc, ?(Rmult_comm (INR (length l)) (fold_left Rplus l 0)), ?Rmult_assoc, ?Rinv_r, ?Rmult_1_r by lra; lra.
Qed.
(** a value is the average of all distances up to a cutoff that includes the shortest *)
Lemma mean_value N dist m r : N <> 2%nat -> shortest N dist m -> m <= 10 * (197 / 199) -> mean_bond_length N dist = MValue r ->
  exists k, let rc := point k in first_minimum (rdf N dist) 197 k /\ m <= r <= rc /\ let l := filter (fun x => leb x rc) (map (fun p => dist (fst p) (snd p)) (pairs N)) in r * INR (length l) = fold_left Rplus l 0.
Proof.
  intros hN hm h e. unfold mean_bond_length in e. apply Nat.eqb_neq in hN. rewrite hN in e. destruct (mean_cut N dist 199 0 false) as [i|] eqn:E; [|discriminate].
  assert (B : m <= grd i). { refine (mean_cut_far N dist m hm 199 0 false _ _ i E); [discriminate|]. unfold grd. replace (INR 197) with 197 by (rewrite INR_IZR_INZ; reflexivity). lra. }
  assert (A : within N dist (grd i) <> []). { intros q. assert (In m (within N dist (grd i))) by (apply in_within; split; [apply hm|exact B]). rewrite q in H. destruct H. }
  assert (V : r = fold_left Rplus (within N dist (grd i)) 0 / INR (length (within N dist (grd i)))) by (destruct (within N dist (grd i)); [congruence|injection e as <-; reflexivity]).
  exists i. cbn zeta. change (point i) with (grd i). split; [apply mean_cut_minimum, E|]. split.
  - rewrite V. apply average; [exact A|]. intros x hx. apply in_within in hx. split; [apply hm, hx|apply hx].
  - rewrite <- pair_list. fold (within N dist (grd i)). rewrite V. field. apply Rgt_not_eq, lt_0_INR. destruct (within N dist (grd i)); [congruence|cbn; lia].
Qed.
Lemma mean_not_nan N dist m : shortest N dist m -> m <= 10 * (197 / 199) -> mean_bond_length N dist <> MNan.
Proof.
  intros hm h e. unfold mean_bond_length in e. destruct (N =? 2)%nat; [discriminate|]. destruct (mean_cut N dist 199 0 false) as [i|] eqn:E; [|discriminate].
  assert (B : m <= grd i). { refine (mean_cut_far N dist m hm 199 0 false _ _ i E); [discriminate|]. unfold grd. replace (INR 197) with 197 by (rewrite INR_IZR_INZ; reflexivity). lra. }
  assert (In m (within N dist (grd i))) by (apply in_within; split; [apply hm|exact B]). destruct (within N dist (grd i)); [destruct H|discriminate].
Qed.
Lemma mean_two dist : mean_bond_length 2 dist = MValue (dist 0%nat 1%nat). Proof. reflexivity. Qed.
(** all pairs at the shortest distance are counted, and no pair beyond 10 *)
Lemma number N dist m : shortest N dist m -> m <= 10 * (198 / 199) ->
  exists k, let rc := point k in m <= rc < 10 /\ (first_minimum (rdf N dist) 198 k \/ (k = 198%nat /\ forall j, (j <= 198)%nat -> rdf N dist j <= rdf N dist (j + 1))) /\ number_of_bonds N dist = length (filter (fun p => leb (dist (fst p) (snd p)) rc) (pairs N)) /\ (1 <= number_of_bonds N dist)%nat.
Proof.
  intros hm h. pose proof (number_cut_small N dist 199 0 false ltac:(lia)) as hs.
  assert (B : m <= grd (number_cut N dist 199 0 false)). { apply number_cut_far; [exact hm|discriminate| |lia]. cbn [Nat.add Nat.sub]. unfold grd. replace (INR 198) with 198 by (rewrite INR_IZR_INZ; reflexivity). lra. }
  unfold number_of_bonds. rewrite Nat.min_l by lia. exists (number_cut N dist 199 0 false). cbv zeta. change (point (number_cut N dist 199 0 false)) with (grd (number_cut N dist 199 0 false)). split; [|split; [apply number_cut_minimum|]].
  - split; [exact B|]. eapply Rle_lt_trans; [apply grd_le, hs|]. cbn [Nat.add Nat.sub]. unfold grd. replace (INR 198) with 198 by (rewrite INR_IZR_INZ; reflexivity). lra.
  - split.
    + unfold within. rewrite pair_list. generalize (pairs N). induction l as [|p l IH]; [reflexivity|]. cbn [map filter]. destruct (leb _ _); cbn [length]; rewrite IH; reflexivity.
    + assert (I : In m (within N dist (grd (number_cut N dist 199 0 false)))) by (apply in_within; split; [apply hm|exact B]). destruct (within _ _ _); [destruct I|cbn; lia].
Qed.
(** one distance for all pairs *)
Section One.
Variables (N : nat) (a : R).
Let dist (i j : nat) := a.
Lemma pdf_one : (2 <= N)%nat -> exists n, (1 <= n)%nat /\ forall i, pdf N dist i = INR n * gauss_fct (grd i) a (7 / 10).
Proof.
  intros hN. exists (length (pair_distribution_list N dist)). split.
  - assert (In a (pair_distribution_list N dist)) by (apply in_list; exists 0%nat, 1%nat; repeat split; lia). destruct (pair_distribution_list N dist); [destruct H|cbn; lia].
  - intros k. unfold pdf. assert (A : forall x, In x (pair_distribution_list N dist) -> x = a) by (intros x hx; apply in_list in hx; destruct hx as [? [? [_ [_ ->]]]]; reflexivity).
    revert A. generalize (pair_distribution_list N dist) as l. induction l as [|x l IH]; intros A; [cbn; ring|]. cbn [fold_left length]. rewrite (fold_sum (fun x => gauss_fct (grd k) x (7 / 10))), IH, S_INR by (intros y hy; apply A; right; exact hy). rewrite (A x) by (left; reflexivity). ring.
Qed.
Lemma rising i : (2 <= N)%nat -> 2 * a > grd i + grd (i + 1) -> ltb (pdf N dist (i + 1)) (pdf N dist i) = false.
Proof.
  intros hN h. destruct (pdf_one hN) as [n [hn e]]. rewrite !e. unfold ltb. destruct (Rlt_dec _ _) as [q|]; [|reflexivity]. exfalso. apply (Rlt_irrefl (INR n * gauss_fct (grd i) a (7 / 10))). refine (Rle_lt_trans _ _ _ _ q).
  apply Rmult_le_compat_l; [apply pos_INR|]. apply gauss_closer; [lra|]. rewrite grd_S in *. nra.
Qed.
Lemma rise_skip f : forall i, (2 <= N)%nat -> (forall j, (i <= j < i + f)%nat -> 2 * a > grd j + grd (j + 1)) -> forall g, mean_cut N dist (f + g) i false = mean_cut N dist g (i + f) false.
Proof.
  induction f as [|f IH]; intros i hN h g; [rewrite Nat.add_0_r; reflexivity|]. cbn [Nat.add mean_cut]. rewrite rising by (auto; apply h; lia). cbn [orb andb].
  rewrite IH by (auto; intros j hj; apply h; lia). f_equal. lia.
Qed.
End One.
(** all distances equal, e.g. a tetrahedron: the mean is that distance *)
Lemma mean_equal N a : (3 <= N)%nat -> a <= 10 * (197 / 199) -> mean_bond_length N (fun _ _ => a) = MValue a.
Proof.
  intros hN ha. assert (hm : shortest N (fun _ _ => a) a) by (split; [exists 0%nat, 1%nat; repeat split; lia|intros r [i [j [_ [_ ->]]]]; lra]).
  assert (hn : N <> 2%nat) by lia. pose proof (mean_not_nan N (fun _ _ => a) a hm ha) as nn. pose proof (fun r => mean_value N (fun _ _ => a) a r hn hm ha) as mv.
  assert (G : grd 197 = 197 * (10 / 199)) by (unfold grd; replace (INR 197) with 197 by (rewrite INR_IZR_INZ; reflexivity); reflexivity).
  destruct (mean_bond_length N (fun _ _ => a)) as [| |r] eqn:E.
  - exfalso. unfold mean_bond_length in E. apply Nat.eqb_neq in hn. rewrite hn in E. destruct (mean_cut_some N (fun _ _ => a) 199 0 false) as [k hk]; [lia|lia| |rewrite hk in E; destruct (within N (fun _ _ => a) (grd k)); discriminate].
    right. exists 197%nat. split; [lia|]. destruct (pdf_one N a ltac:(lia)) as [n [h e]]. rewrite !e. apply Rmult_lt_compat_l; [apply lt_0_INR; lia|]. apply gauss_strict; [lra|]. rewrite grd_S, G. nra.
  - congruence.
  - f_equal. clear mv. unfold mean_bond_length in E. apply Nat.eqb_neq in hn. rewrite hn in E. destruct (mean_cut N (fun _ _ => a) 199 0 false) as [k|]; [|discriminate].
    assert (Q : within N (fun _ _ => a) (grd k) <> [] /\ r = fold_left Rplus (within N (fun _ _ => a) (grd k)) 0 / INR (length (within N (fun _ _ => a) (grd k)))) by (destruct (within N (fun _ _ => a) (grd k)); [discriminate|injection E as <-; split; [discriminate|reflexivity]]).
    destruct Q as [q1 q2]. assert (a <= r <= a); [|lra]. rewrite q2. apply average; [exact q1|]. intros x hx. apply in_within in hx. destruct hx as [[i [j [_ [_ ->]]]] _]. lra.
Qed.
(** a triangle with sides of 9.91: the cutoff is before the distance; with sides of 11 nothing is returned *)
Lemma nan_refuted : exists N dist, (forall i j, dist i j = 991 / 100) /\ N = 3%nat /\ mean_bond_length N dist = MNan.
Proof.
  exists 3%nat, (fun _ _ => 991 / 100). split; [reflexivity|]. split; [reflexivity|]. unfold mean_bond_length. cbn [Nat.eqb].
  assert (G : grd 197 = 197 * (10 / 199)) by (unfold grd; replace (INR 197) with 197 by (rewrite INR_IZR_INZ; reflexivity); reflexivity).
  change 199%nat with (197 + 2)%nat. rewrite rise_skip.
  - cbn [Nat.add mean_cut orb]. destruct (pdf_one 3 (991 / 100) ltac:(lia)) as [n [hn e]].
    assert (T : ltb (pdf 3 (fun _ _ => 991 / 100) 198) (pdf 3 (fun _ _ => 991 / 100) 197) = true).
    { apply ltb_t. rewrite !e. apply Rmult_lt_compat_l; [apply lt_0_INR; lia|]. apply gauss_strict; [lra|]. replace (grd 198) with (grd 197 + 10 / 199) by (rewrite <- grd_S; reflexivity). rewrite G. lra. }
    rewrite T. cbn [andb]. rewrite Nat.eqb_refl, orb_true_r. 
    assert (W : within 3 (fun _ _ => 991 / 100) (grd 197) = []). { destruct (within _ _ _) as [|x l] eqn:E; [reflexivity|]. exfalso. assert (I : In x (within 3 (fun _ _ => 991 / 100) (grd 197))) by (rewrite E; left; reflexivity). apply in_within in I. destruct I as [[i [j [_ [_ ->]]]] q]. rewrite G in q. lra. }
    rewrite W. reflexivity.
  - lia.
  - intros j hj. assert (Q : grd (j + 1) <= grd 197) by (apply grd_le; lia). rewrite G in Q. rewrite grd_S in *. lra.
Qed.
Lemma none_refuted : exists N dist, (forall i j, dist i j = 11) /\ N = 3%nat /\ mean_bond_length N dist = MNone.
Proof.
  exists 3%nat, (fun _ _ => 11). split; [reflexivity|]. split; [reflexivity|]. unfold mean_bond_length. cbn [Nat.eqb].
  change 199%nat with (199 + 0)%nat. rewrite rise_skip; [reflexivity|lia|].
  intros j hj. assert (Q : grd (j + 1) <= grd 199) by (apply grd_le; lia). unfold grd in Q at 2. replace (INR 199) with 199 in Q by (rewrite INR_IZR_INZ; reflexivity). rewrite grd_S in *. lra.
Qed.
Example ex_bonds : shortest 3 (fun i j => INR (i + j)) 1.
Proof.
  split; [exists 0%nat, 1%nat; repeat split; lia|]. intros r [i [j [h1 [h2 ->]]]]. change 1 with (INR 1). apply le_INR. lia.
Qed.
