(** Areas of the pieces of the grid *)
From Coq Require Import Reals ZArith String Ascii List Bool Arith Lia Lra Psatz.
From Coquelicot Require Import Coquelicot.
From Verif Require Import Vec GeomModel StbModel StbSpec StbProofs.
Import ListNotations.
Open Scope R_scope.

Lemma leb_true a b : leb a b = true <-> a <= b. Proof. unfold leb. destruct (Rle_dec a b); split; intros; congruence || assumption || contradiction. Qed.
Lemma leb_false a b : leb a b = false <-> b < a. Proof. unfold leb. destruct (Rle_dec a b); split; intros; try congruence; lra. Qed.
Lemma ltb_true a b : ltb a b = true <-> a < b. Proof. unfold ltb. destruct (Rlt_dec a b); split; intros; congruence || assumption || contradiction. Qed.
Lemma ltb_false a b : ltb a b = false <-> b <= a. Proof. unfold ltb. destruct (Rlt_dec a b); split; intros; try congruence; lra. Qed.

(** ** Cutting *)
Lemma cos_mono a b : 0 <= a -> a <= b -> b <= PI -> cos b <= cos a.
Proof. intros. apply cos_decr_1; lra. Qed.
Lemma below r h a t : 0 < r -> 0 <= a -> a <= t -> t <= PI -> r * cos a <= h -> r * cos t <= h.
Proof. intros hr ha hat ht h1. pose proof (cos_mono a t ha hat ht). nra. Qed.
Lemma above r h b t : 0 < r -> 0 <= t -> t <= b -> b <= PI -> h < r * cos b -> h < r * cos t.
Proof. intros hr ha hat ht h1. pose proof (cos_mono t b ha hat ht). nra. Qed.
Lemma half_pi r h b : 0 < h -> 0 < r -> 0 <= b <= PI -> h < r * cos b -> b < PI / 2.
Proof.
  intros hh hr hb h1. destruct (Rlt_le_dec b (PI / 2)) as [l|l]; [exact l|]. exfalso. pose proof (cos_mono (PI / 2) b ltac:(pose proof PI_RGT_0; lra) l ltac:(lra)) as c. rewrite cos_PI2 in c. nra.
Qed.
Definition half_cut (h r t : R) : R := cut h t r ^ 2 / 2.
Lemma int_flat (c a b : R) (f : R -> R) : a <= b -> (forall t, a < t < b -> f t = c) -> is_RInt f a b (c * (b - a)).
Proof.
  intros hab hf. apply (is_RInt_ext (fun _ => c)); [intros t ht; rewrite Rmin_left, Rmax_right in ht by exact hab; symmetry; apply hf; exact ht|].
  evar_last; [apply @is_RInt_const|]. unfold scal. cbn. unfold mult. cbn. ring.
Qed.
Lemma int_tan (h a b : R) (f : R -> R) : 0 <= a -> a <= b -> b < PI / 2 -> (forall t, a < t < b -> f t = (h / cos t) ^ 2 / 2) -> is_RInt f a b (1 / 2 * h ^ 2 * (tan b - tan a)).
Proof.
  intros ha hab hb hf. apply (is_RInt_ext (fun t => (h / cos t) ^ 2 / 2)); [intros t ht; rewrite Rmin_left, Rmax_right in ht by exact hab; symmetry; apply hf; exact ht|].
  assert (hc : forall x, Rmin a b <= x <= Rmax a b -> cos x <> 0). { intros x hx. rewrite Rmin_left, Rmax_right in hx by exact hab. apply Rgt_not_eq. apply cos_gt_0; pose proof PI_RGT_0; lra. }
  replace (1 / 2 * h ^ 2 * (tan b - tan a)) with (minus ((fun t => 1 / 2 * h ^ 2 * (sin t / cos t)) b) ((fun t => 1 / 2 * h ^ 2 * (sin t / cos t)) a)) by (unfold minus, plus, opp, tan; cbn; ring).
  apply (is_RInt_derive (fun t => 1 / 2 * h ^ 2 * (sin t / cos t)) (fun t => (h / cos t) ^ 2 / 2)).
  - intros x hx. specialize (hc x hx). auto_derive; [exact hc|]. pose proof (sin2_cos2 x) as e. unfold Rsqr in e.
    replace ((1 * cos x * / cos x + sin x * (- (1 * - sin x) / (cos x * cos x)))) with ((sin x * sin x + cos x * cos x) / (cos x * cos x)) by (field; exact hc). rewrite ?e.
    match goal with |- ?l = ?r => replace l with ((sin x * sin x + cos x * cos x) * (h * h / (2 * (cos x * cos x)))) by (field; exact hc) end. rewrite e. field. exact hc.
  - intros x hx. specialize (hc x hx). apply (ex_derive_continuous (fun t => (h / cos t) ^ 2 / 2)). auto_derive. exact hc.
Qed.
Section Cut.
Variables h r a b : R.
Hypothesis (hh : 0 < h) (hr : 0 < r) (ha : 0 <= a) (hab : a <= b) (hb : b <= PI).
Lemma cut_in : r * cos a <= h -> is_RInt (half_cut h r) a b (1 / 2 * r ^ 2 * (b - a)).
Proof.
  intros hz. replace (1 / 2 * r ^ 2) with (r ^ 2 / 2) by field. apply int_flat; [exact hab|]. intros t ht. unfold half_cut, cut. destruct (Rle_dec (r * cos t) h) as [l|l]; [reflexivity|]. exfalso. apply l. apply (below r h a); lra.
Qed.
Lemma cut_out : h < r * cos b -> is_RInt (half_cut h r) a b (1 / 2 * h ^ 2 * (tan b - tan a)).
Proof.
  intros hz. pose proof (half_pi r h b hh hr ltac:(lra) hz) as hp. apply int_tan; [exact ha|exact hab|exact hp|]. intros t ht. unfold half_cut, cut. destruct (Rle_dec (r * cos t) h) as [l|l]; [|reflexivity]. exfalso. pose proof (above r h b t hr ltac:(lra) ltac:(lra) hb hz). lra.
Qed.
End Cut.
Lemma acos_props h r : 0 < h -> h < r -> 0 < acos (h / r) < PI / 2 /\ r * cos (acos (h / r)) = h.
Proof.
  intros hh hr. assert (hq : 0 < h / r < 1). { split; [apply Rdiv_lt_0_compat; lra|]. apply Rmult_lt_reg_r with r; [lra|]. unfold Rdiv. rewrite Rmult_assoc, Rinv_l by lra. lra. }
  assert (hc : cos (acos (h / r)) = h / r) by (apply cos_acos; lra). pose proof (acos_bound (h / r)) as hb. split; [split|].
  - destruct (Rle_lt_or_eq_dec 0 _ (proj1 hb)) as [l|l]; [exact l|]. rewrite <- l, cos_0 in hc. lra.
  - destruct (Rlt_le_dec (acos (h / r)) (PI / 2)) as [l|l]; [exact l|]. exfalso. pose proof (cos_mono (PI / 2) (acos (h / r)) ltac:(pose proof PI_RGT_0; lra) l (proj2 hb)) as c. rewrite cos_PI2, hc in c. lra.
  - rewrite hc. field. lra.
Qed.
Section Mid.
Variables h r a b : R.
Hypothesis (hh : 0 < h) (hr : 0 < r) (ha : 0 <= a) (hab : a <= b) (hb : b <= PI) (h1 : h < r * cos a) (h2 : r * cos b <= h).
Let th := acos (h / r).
Lemma mid_r : h < r.
Proof. pose proof (COS_bound a). nra. Qed.
Lemma mid_th : a < th /\ th <= b /\ 0 < th < PI / 2 /\ r * cos th = h.
Proof.
  destruct (acos_props h r hh mid_r) as [p1 p2]. fold th in p1, p2. split; [|split; [|split; [exact p1|exact p2]]].
  - destruct (Rlt_le_dec a th) as [l|l]; [exact l|]. exfalso. pose proof (cos_mono th a ltac:(lra) l ltac:(lra)). nra.
  - destruct (Rle_lt_dec th b) as [l|l]; [exact l|]. exfalso. assert (cos th < cos b) by (apply cos_decreasing_1; pose proof PI_RGT_0; lra). nra.
Qed.
Lemma cut_mid : is_RInt (half_cut h r) a b (1 / 2 * h ^ 2 * (tan th - tan a) + 1 / 2 * r ^ 2 * (b - th)).
Proof.
  destruct mid_th as [p1 [p2 [p3 p4]]]. apply (@is_RInt_Chasles R_NormedModule (half_cut h r) a th b).
  - apply int_tan; [exact ha|lra|lra|]. intros t ht. unfold half_cut, cut. destruct (Rle_dec (r * cos t) h) as [l|l]; [|reflexivity]. exfalso. assert (cos th < cos t) by (apply cos_decreasing_1; pose proof PI_RGT_0; lra). nra.
  - apply cut_in; try assumption; lra.
Qed.
End Mid.

(** ** One element *)
Section Element.
Variables h ra rb ta tb : R.
Hypothesis (hh : 0 < h) (hra : 0 < ra) (hrb : ra < rb) (hta : 0 <= ta) (htb : ta < tb) (hpi : tb <= PI).
Lemma area_diff A B : is_RInt (half_cut h rb) ta tb A -> is_RInt (half_cut h ra) ta tb B -> is_area h ra rb ta tb (A - B).
Proof.
  intros hA hB. unfold is_area. apply (is_RInt_ext (fun t => minus (half_cut h rb t) (half_cut h ra t))); [intros t _; unfold minus, plus, opp, half_cut; cbn; field|].
  apply (is_RInt_minus (half_cut h rb) (half_cut h ra)); assumption.
Qed.
Lemma inner_below : rb * cos ta <= h -> ra * cos ta <= h.
Proof. intros e. destruct (Rle_lt_dec 0 (cos ta)); nra. Qed.
Lemma z3_below : ra * cos ta <= h -> ra * cos tb <= h.
Proof. intros e. apply (below ra h ta tb); lra. Qed.
Lemma z4_above : h < ra * cos tb -> h < rb * cos tb.
Proof. intros e. assert (0 < cos tb) by nra. nra. Qed.
Theorem piece_area : make_piece h ra rb ta tb <> Illegal /\ is_area h ra rb ta tb (area_of (make_piece h ra rb ta tb)).
Proof.
  unfold make_piece. set (z1 := rb * cos ta). set (z2 := ra * cos ta). set (z3 := ra * cos tb). set (z4 := rb * cos tb).
  destruct (leb z1 h) eqn:E1.
  { apply leb_true in E1. split; [discriminate|]. cbn [area_of]. replace ((rb ^ 2 - ra ^ 2) * (tb - ta) / 2) with (1 / 2 * rb ^ 2 * (tb - ta) - 1 / 2 * ra ^ 2 * (tb - ta)) by field.
    apply area_diff; apply cut_in; try lra; [exact E1|]. apply inner_below. exact E1. }
  apply leb_false in E1. assert (l1 : ltb h z1 = true) by (apply ltb_true; exact E1). rewrite l1. cbn [andb].
  destruct (leb z2 h) eqn:E2.
  - apply leb_true in E2. assert (l3 : leb z3 h = true) by (apply leb_true, z3_below; exact E2). assert (l2 : ltb h z2 = false) by (apply ltb_false; exact E2). rewrite l2, l3. cbn [andb]. destruct (leb z4 h) eqn:E4.
    + apply leb_true in E4. split; [discriminate|]. cbn [area_of]. set (th := acos (h / rb)).
      replace ((rb ^ 2 - ra ^ 2) * (tb - ta) / 2 - (1 / 2 * rb ^ 2 * (th - ta) - 1 / 2 * h ^ 2 * (tan th - tan ta))) with ((1 / 2 * h ^ 2 * (tan th - tan ta) + 1 / 2 * rb ^ 2 * (tb - th)) - 1 / 2 * ra ^ 2 * (tb - ta)) by field.
      apply area_diff; [apply cut_mid; try lra; assumption|apply cut_in; try lra; exact E2].
    + apply leb_false in E4. assert (l4 : ltb h z4 = true) by (apply ltb_true; exact E4). rewrite l4. cbn [andb]. split; [discriminate|]. cbn [area_of].
      apply area_diff; [apply (cut_out h rb); try lra; exact E4|apply cut_in; try lra; exact E2].
  - apply leb_false in E2. assert (l2 : ltb h z2 = true) by (apply ltb_true; exact E2). rewrite l2. cbn [andb]. destruct (leb z3 h) eqn:E3.
    + apply leb_true in E3. destruct (leb z4 h) eqn:E4; cbn [andb].
      * apply leb_true in E4. split; [discriminate|]. cbn [area_of]. set (th1 := acos (h / ra)). set (th2 := acos (h / rb)).
        match goal with |- is_area _ _ _ _ _ ?x => replace x with ((1 / 2 * h ^ 2 * (tan th2 - tan ta) + 1 / 2 * rb ^ 2 * (tb - th2)) - (1 / 2 * h ^ 2 * (tan th1 - tan ta) + 1 / 2 * ra ^ 2 * (tb - th1))) by (field; lra) end.
        apply area_diff; apply cut_mid; try lra; assumption.
      * apply leb_false in E4. assert (l4 : ltb h z4 = true) by (apply ltb_true; exact E4). rewrite l4. cbn [andb]. split; [discriminate|]. cbn [area_of]. set (th := acos (h / ra)).
        match goal with |- is_area _ _ _ _ _ ?x => replace x with (1 / 2 * h ^ 2 * (tan tb - tan ta) - (1 / 2 * h ^ 2 * (tan th - tan ta) + 1 / 2 * ra ^ 2 * (tb - th))) by field end.
        apply area_diff; [apply (cut_out h rb); try lra; exact E4|apply cut_mid; try lra; assumption].
    + apply leb_false in E3. assert (l3 : ltb h z3 = true) by (apply ltb_true; exact E3). rewrite l3, !andb_false_r. cbn [andb]. split; [discriminate|]. cbn [area_of].
      replace 0 with (1 / 2 * h ^ 2 * (tan tb - tan ta) - 1 / 2 * h ^ 2 * (tan tb - tan ta)) by ring. apply area_diff; [apply (cut_out h rb)|apply (cut_out h ra)]; try lra; [apply z4_above|]; exact E3.
Qed.
End Element.
