From Coq Require Import Reals ZArith List Bool Arith Lra Lia.
From Verif Require Import Vec GeomModel GeomProofs PairModel PairSpec PairProofs CoulModel GamModel GamSpec GamProofs SkProofs6 AtomProofs4.
Import ListNotations.
Open Scope R_scope.

(** ** derivatives *)
Lemma D_exp f x f' : derivable_pt_lim f x f' -> derivable_pt_lim (fun t => exp (f t)) x (exp (f x) * f').
Proof. intros D. apply (derivable_pt_lim_comp f exp x f' (exp (f x)) D). apply derivable_pt_lim_exp. Qed.
Lemma D_line k x : derivable_pt_lim (fun t => k * t) x k.
Proof. apply (D_eq _ _ (k * 1)); [apply D_scal, D_id|ring]. Qed.
Lemma grow f f' a b : a <= b -> (forall c, a <= c <= b -> derivable_pt_lim f c (f' c)) -> (forall c, a < c < b -> 0 <= f' c) -> f a <= f b.
Proof.
  intros H D P. destruct H as [H| ->]; [|lra]. destruct (MVT_cor2 f f' a b H D) as [c [E Hc]]. specialize (P c Hc). nra.
Qed.
Lemma exp_lower1 x : 0 <= x -> 1 + x <= exp x.
Proof. intros [H| <-]; [left; apply exp_ineq1; lra|rewrite exp_0; lra]. Qed.
Lemma exp_lower2 x : 0 <= x -> 1 + x + x ^ 2 / 2 <= exp x.
Proof.
  intros H. pose proof (grow (fun t => exp t - (1 + t + t ^ 2 / 2)) (fun t => exp t - (1 + t)) 0 x H) as G. cbn beta in G.
  rewrite exp_0 in G. cut (0 <= exp x - (1 + x + x ^ 2 / 2)); [lra|]. eapply Rle_trans; [|apply G].
  - lra.
  - intros c _. apply (D_eq _ _ (exp c - (1 + / 2 * (INR 2 * c ^ 1)))); [|cbn [INR]; field].
    apply D_minus; [apply derivable_pt_lim_exp|].
    apply (D_eq _ _ (0 + 1 + / 2 * (INR 2 * c ^ 1))); [|ring]. apply (D_plus (fun t => 1 + t) (fun t => t ^ 2 / 2)).
    + apply (D_plus (fun _ => 1) (fun t => t)); [apply D_const|apply D_id].
    + apply (derivable_local _ (fun t => / 2 * t ^ 2) c _ 1); [lra|intros; field|]. apply D_scal. apply (D_pow 1).
  - intros c Hc. pose proof (exp_lower1 c ltac:(lra)). lra.
Qed.
Lemma exp_lower3 x : 0 <= x -> 1 + x + x ^ 2 / 2 + x ^ 3 / 6 <= exp x.
Proof.
  intros H. pose proof (grow (fun t => exp t - (1 + t + t ^ 2 / 2 + t ^ 3 / 6)) (fun t => exp t - (1 + t + t ^ 2 / 2)) 0 x H) as G. cbn beta in G.
  rewrite exp_0 in G. cut (0 <= exp x - (1 + x + x ^ 2 / 2 + x ^ 3 / 6)); [lra|]. eapply Rle_trans; [|apply G].
  - lra.
  - intros c _. apply (D_eq _ _ (exp c - (0 + 1 + / 2 * (INR 2 * c ^ 1) + / 6 * (INR 3 * c ^ 2)))); [|cbn [INR]; field].
    apply D_minus; [apply derivable_pt_lim_exp|].
    apply (D_plus (fun t => 1 + t + t ^ 2 / 2) (fun t => t ^ 3 / 6)).
    + apply (D_plus (fun t => 1 + t) (fun t => t ^ 2 / 2)); [apply (D_plus (fun _ => 1) (fun t => t)); [apply D_const|apply D_id]|].
      apply (derivable_local _ (fun t => / 2 * t ^ 2) c _ 1); [lra|intros; field|]. apply D_scal. apply (D_pow 1).
    + apply (derivable_local _ (fun t => / 6 * t ^ 3) c _ 1); [lra|intros; field|]. apply D_scal. apply (D_pow 2).
  - intros c Hc. pose proof (exp_lower2 c ltac:(lra)). lra.
Qed.
(** ** Slater, equal widths *)
Definition avg (ti tj : R) : R := 16 / 10 * (ti * tj * (1 / (ti + tj)) + ti * tj * (1 / (ti + tj)) * (ti * tj * (1 / (ti + tj))) * (1 / (ti + tj))).
Definition poly (x : R) : R := 48 + 33 * x + 9 * x ^ 2 + x ^ 3.
Definition heq (a d : R) : R := - poly (a * d) * exp (- (a * d)) / (48 * d).
Lemma equal_h ti tj d : fst (slater_equal ti tj d) = heq (avg ti tj) d.
Proof. unfold slater_equal, heq, poly. cbn [fst]. fold (avg ti tj). unfold Rdiv. ring. Qed.
Lemma equal_dh ti tj d : snd (slater_equal ti tj d) =
  heq (avg ti tj) d / d + avg ti tj * heq (avg ti tj) d + avg ti tj * (33 + 18 * (avg ti tj * d) + 3 * (avg ti tj * d) ^ 2) * exp (- (avg ti tj * d)) / (48 * d).
Proof. unfold slater_equal, heq, poly. cbn [snd]. fold (avg ti tj). unfold Rdiv. ring. Qed.
Lemma poly_D x : derivable_pt_lim poly x (33 + 18 * x + 3 * x ^ 2).
Proof.
  unfold poly. apply (D_eq _ _ (0 + 33 + 9 * (INR 2 * x ^ 1) + INR 3 * x ^ 2)); [|cbn [INR]; ring].
  apply (D_plus (fun x => 48 + 33 * x + 9 * x ^ 2) (fun x => x ^ 3)); [|apply (D_pow 2)].
  apply (D_plus (fun x => 48 + 33 * x) (fun x => 9 * x ^ 2)); [|apply D_scal, (D_pow 1)].
  apply (D_plus (fun _ => 48) (fun x => 33 * x)); [apply D_const|apply D_line].
Qed.
Lemma pe_D a d : derivable_pt_lim (fun t => poly (a * t) * exp (- (a * t))) d
  (a * (33 + 18 * (a * d) + 3 * (a * d) ^ 2) * exp (- (a * d)) - a * poly (a * d) * exp (- (a * d))).
Proof.
  apply (D_eq _ _ ((33 + 18 * (a * d) + 3 * (a * d) ^ 2) * a * exp (- (a * d)) + poly (a * d) * (exp (- (a * d)) * - a))); [|ring].
  apply (D_mult (fun t => poly (a * t)) (fun t => exp (- (a * t)))).
  - apply (derivable_pt_lim_comp (fun t => a * t) poly d a); [apply D_line|apply poly_D].
  - apply (D_exp (fun t => - (a * t))). apply D_opp, D_line.
Qed.
Lemma equal_D ti tj d : 0 < d -> derivable_pt_lim (fun t => fst (slater_equal ti tj t)) d (- snd (slater_equal ti tj d)).
Proof.
  intros Hd. rewrite equal_dh. set (a := avg ti tj).
  apply (derivable_local _ (fun t => - (poly (a * t) * exp (- (a * t)) / (48 * t))) d _ 1); [lra| |].
  { intros t _. rewrite equal_h. fold a. unfold heq, Rdiv. ring. }
  pose proof (pe_D a d) as P. pose proof (D_quot _ (fun t => 48 * t) d _ 48 ltac:(lra) P (D_line 48 d)) as Q.
  apply D_opp in Q. eapply D_eq; [exact Q|]. unfold heq. field. lra.
Qed.
Lemma equal_sym ti tj d : slater_equal ti tj d = slater_equal tj ti d.
Proof. unfold slater_equal. rewrite (Rplus_comm ti tj), (Rmult_comm ti tj). reflexivity. Qed.
(** ** unequal widths *)
Definition f1 (ti tj : R) : R := - tj ^ 4 * ti / (2 * (ti ^ 2 - tj ^ 2) ^ 2).
Definition f2 (ti tj : R) : R := (tj ^ 6 - 3 * tj ^ 4 * ti ^ 2) / (ti ^ 2 - tj ^ 2) ^ 3.
Definition part (t a b d : R) : R := exp (- t * d) * (a + b / d).
Definition dpart (t a b d : R) : R := exp (- t * d) * (t * (a + b / d) + b / d ^ 2).
Lemma sq_ne ti tj : 0 < ti -> 0 < tj -> ti <> tj -> ti ^ 2 - tj ^ 2 <> 0.
Proof. intros A B C E. apply C. nra. Qed.
Lemma unequal_split ti tj d : ti ^ 2 - tj ^ 2 <> 0 ->
  slater_unequal ti tj d = (part ti (f1 ti tj) (f2 ti tj) d + part tj (f1 tj ti) (f2 tj ti) d, dpart ti (f1 ti tj) (f2 ti tj) d + dpart tj (f1 tj ti) (f2 tj ti) d).
Proof.
  intros H. assert (H' : tj ^ 2 - ti ^ 2 <> 0) by lra. unfold slater_unequal. cbv zeta.
  replace (1 / (2 * (ti ^ 2 - tj ^ 2) ^ 2) * (- tj ^ 4 * ti)) with (f1 ti tj) by (unfold f1; field; exact H).
  replace (- ti ^ 4 * tj * (1 / (2 * (ti ^ 2 - tj ^ 2) ^ 2))) with (f1 tj ti) by (unfold f1; field; split; assumption).
  replace (1 / (ti ^ 2 - tj ^ 2) ^ 3 * (tj ^ 6 - 3 * tj ^ 4 * ti ^ 2)) with (f2 ti tj) by (unfold f2; field; exact H).
  replace (- (ti ^ 6 - 3 * ti ^ 4 * tj ^ 2) * (1 / (ti ^ 2 - tj ^ 2) ^ 3)) with (f2 tj ti) by (unfold f2; field; split; assumption).
  reflexivity.
Qed.
Lemma unequal_sym ti tj d : ti ^ 2 - tj ^ 2 <> 0 -> slater_unequal ti tj d = slater_unequal tj ti d.
Proof. intros H. assert (tj ^ 2 - ti ^ 2 <> 0) by lra. rewrite !unequal_split by assumption. f_equal; ring. Qed.
Lemma part_D t a b d : 0 < d -> derivable_pt_lim (part t a b) d (- dpart t a b d).
Proof.
  intros Hd. unfold part, dpart.
  apply (D_eq _ _ (exp (- t * d) * - t * (a + b / d) + exp (- t * d) * (0 + (0 * d - b * 1) / d ^ 2))); [|field; lra].
  apply (D_mult (fun s => exp (- t * s)) (fun s => a + b / s)).
  - apply (D_exp (fun s => - t * s)). apply D_line.
  - apply (D_plus (fun _ => a) (fun s => b / s)); [apply D_const|]. apply (D_quot (fun _ => b) (fun s => s)); [lra|apply D_const|apply D_id].
Qed.
Lemma unequal_D ti tj d : ti ^ 2 - tj ^ 2 <> 0 -> 0 < d -> derivable_pt_lim (fun t => fst (slater_unequal ti tj t)) d (- snd (slater_unequal ti tj d)).
Proof.
  intros H Hd. rewrite unequal_split by exact H. cbn [snd].
  apply (derivable_local _ (fun t => part ti (f1 ti tj) (f2 ti tj) t + part tj (f1 tj ti) (f2 tj ti) t) d _ 1); [lra| |].
  { intros t _. rewrite unequal_split by exact H. reflexivity. }
  eapply D_eq; [apply D_plus; apply part_D; exact Hd|]. ring.
Qed.
Lemma slater_sym ti tj d : 0 < ti -> 0 < tj -> slater_term ti tj d = slater_term tj ti d.
Proof.
  intros A B. unfold slater_term. rewrite (Rabs_minus_sym tj ti). destruct (ltb (Rabs (ti - tj)) (/ 10 ^ 6)) eqn:E; [apply equal_sym|].
  apply unequal_sym. apply sq_ne; try assumption. intros ->. apply ltb_false in E. rewrite Rminus_diag_eq, Rabs_R0 in E by reflexivity.
  assert (0 < / 10 ^ 6) by (apply Rinv_0_lt_compat, pow_lt; lra). lra.
Qed.
Lemma slater_D ti tj d : 0 < ti -> 0 < tj -> 0 < d -> derivable_pt_lim (fun t => fst (slater_term ti tj t)) d (- snd (slater_term ti tj d)).
Proof.
  intros A B Hd. unfold slater_term. destruct (ltb (Rabs (ti - tj)) (/ 10 ^ 6)) eqn:E; [apply equal_D; exact Hd|].
  apply unequal_D; [|exact Hd]. apply sq_ne; try assumption. intros ->. apply ltb_false in E. rewrite Rminus_diag_eq, Rabs_R0 in E by reflexivity.
  assert (0 < / 10 ^ 6) by (apply Rinv_0_lt_compat, pow_lt; lra). lra.
Qed.
(** ** contact limits *)
Lemma quotient_limit F l f : derivable_pt_lim F 0 l -> F 0 = 0 -> (forall d, 0 < d -> f d = F d / d) -> tends_at_0 f l.
Proof.
  intros D F0 E eps He. destruct (D eps He) as [del H]. exists del. split; [apply cond_pos|]. intros d Hd. rewrite E by lra.
  specialize (H d ltac:(lra)). rewrite Rplus_0_l, F0, Rminus_0_r in H. apply H. rewrite Rabs_right; lra.
Qed.
Lemma avg_contact ti tj : 0 < ti -> 0 < tj -> 5 / 16 * avg ti tj = contact ti tj.
Proof. intros A B. unfold avg, contact. field. lra. Qed.
Lemma equal_contact ti tj : 0 < ti -> 0 < tj -> tends_at_0 (fun d => 1 / d + fst (slater_equal ti tj d)) (contact ti tj).
Proof.
  intros A B. set (a := avg ti tj). apply (quotient_limit (fun d => 1 - / 48 * (poly (a * d) * exp (- (a * d))))).
  - apply (D_eq _ _ (0 - / 48 * (a * (33 + 18 * (a * 0) + 3 * (a * 0) ^ 2) * exp (- (a * 0)) - a * poly (a * 0) * exp (- (a * 0))))).
    + apply (D_minus (fun _ => 1)); [apply D_const|]. apply D_scal. apply pe_D.
    + rewrite <- avg_contact by assumption. fold a. unfold poly. rewrite Rmult_0_r, Ropp_0, exp_0. field.
  - unfold poly. rewrite Rmult_0_r, Ropp_0, exp_0. field.
  - intros d Hd. rewrite equal_h. fold a. unfold heq. field. lra.
Qed.
Lemma unequal_contact ti tj : 0 < ti -> 0 < tj -> ti <> tj -> tends_at_0 (fun d => 1 / d + fst (slater_unequal ti tj d)) (contact ti tj).
Proof.
  intros A B C. pose proof (sq_ne ti tj A B C) as H. set (a1 := f1 ti tj). set (b1 := f2 ti tj). set (a2 := f1 tj ti). set (b2 := f2 tj ti).
  assert (S1 : b1 + b2 = -1). { unfold b1, b2, f2. field. split; lra. }
  apply (quotient_limit (fun d => 1 + (exp (- ti * d) * (a1 * d + b1) + exp (- tj * d) * (a2 * d + b2)))).
  - apply (D_eq _ _ (0 + ((exp (- ti * 0) * - ti * (a1 * 0 + b1) + exp (- ti * 0) * (a1 + 0)) + (exp (- tj * 0) * - tj * (a2 * 0 + b2) + exp (- tj * 0) * (a2 + 0))))).
    + apply (D_plus (fun _ => 1)); [apply D_const|].
      assert (Q : forall t a b, derivable_pt_lim (fun d => exp (- t * d) * (a * d + b)) 0 (exp (- t * 0) * - t * (a * 0 + b) + exp (- t * 0) * (a + 0))).
      { intros t a b. apply (D_mult (fun d => exp (- t * d)) (fun d => a * d + b)).
        - apply (D_exp (fun d => - t * d)). apply D_line.
        - apply (D_plus (fun d => a * d) (fun _ => b)); [apply D_line|apply D_const]. }
      apply D_plus; apply Q.
    + rewrite !Rmult_0_r, exp_0. unfold a1, a2, b1, b2, f1, f2, contact. field. split; [|split]; try lra. 
  - rewrite !Rmult_0_r, exp_0. lra.
  - intros d Hd. rewrite unequal_split by exact H. cbn [fst]. unfold part. fold a1 b1 a2 b2. field. lra.
Qed.
Lemma slater_contact ti tj : 0 < ti -> 0 < tj -> tends_at_0 (fun d => 1 / d + fst (slater_term ti tj d)) (contact ti tj).
Proof.
  intros A B. destruct (ltb (Rabs (ti - tj)) (/ 10 ^ 6)) eqn:E.
  - intros eps He. destruct (equal_contact ti tj A B eps He) as [del H]. exists del. unfold slater_term. rewrite E. exact H.
  - assert (C : ti <> tj). { intros ->. apply ltb_false in E. rewrite Rminus_diag_eq, Rabs_R0 in E by reflexivity.
      assert (0 < / 10 ^ 6) by (apply Rinv_0_lt_compat, pow_lt; lra). lra. }
    intros eps He. destruct (unequal_contact ti tj A B C eps He) as [del H]. exists del. unfold slater_term. rewrite E. exact H.
Qed.
Lemma contact_U U : 0 < U -> contact (tau U) (tau U) = U.
Proof. intros H. unfold contact, tau. field. lra. Qed.
(** ** bounds for equal widths *)
Lemma slater_bounds ti tj d : 0 < ti -> 0 < tj -> Rabs (ti - tj) < / 10 ^ 6 -> 0 < d ->
  0 < 1 / d + fst (slater_term ti tj d) < 1 / d /\ 1 / d + fst (slater_term ti tj d) <= contact ti tj.
Proof.
  intros A B C Hd. unfold slater_term. rewrite (proj2 (ltb_true _ _)) by exact C. rewrite equal_h. rewrite <- avg_contact by assumption. set (a := avg ti tj).
  assert (Ha : 0 < a). { unfold a, avg. assert (0 < 1 / (ti + tj)) by (apply Rdiv_lt_0_compat; lra). set (s := 1 / (ti + tj)) in *. assert (0 < ti * tj) by nra. set (p := ti * tj) in *. assert (0 < p * s) by nra. assert (0 < p * s * (p * s)) by nra. nra. }
  unfold heq. set (x := a * d). assert (Hx : 0 < x) by (unfold x; nra).
  assert (Pp : 0 < poly x) by (unfold poly; assert (0 < x ^ 2) by nra; assert (0 < x ^ 3) by (apply pow_lt; exact Hx); lra).
  assert (Pe : 0 < exp (- x)) by apply exp_pos.
  assert (L1 : poly x * exp (- x) < 48).
  { pose proof (exp_lower3 x ltac:(lra)) as T. assert (Q : poly x < 48 * exp x) by (unfold poly; assert (0 < x ^ 2) by nra; assert (0 < x ^ 3) by (apply pow_lt; exact Hx); lra).
    assert (E : exp x * exp (- x) = 1) by (rewrite <- exp_plus, Rplus_opp_r; apply exp_0). nra. }
  assert (L2 : 48 - 15 * x <= poly x * exp (- x)).
  { pose proof (grow (fun t => poly (1 * t) * exp (- (1 * t)) + 15 * t) (fun t => 15 - exp (- t) * (15 + 15 * t + 6 * t ^ 2 + t ^ 3)) 0 x ltac:(lra)) as G.
    cbv beta in G. assert (E0 : poly (1 * 0) * exp (- (1 * 0)) + 15 * 0 = 48) by (unfold poly; rewrite !Rmult_0_r, Ropp_0, exp_0; ring).
    rewrite E0, !Rmult_1_l in G. cut (48 <= poly x * exp (- x) + 15 * x); [lra|]. apply G.
    - intros c _. eapply D_eq; [apply D_plus; [apply (pe_D 1 c)|apply D_line]|]. rewrite !Rmult_1_l. unfold poly. ring.
    - intros c Hc. pose proof (exp_lower3 c ltac:(lra)) as T. assert (E : exp c * exp (- c) = 1) by (rewrite <- exp_plus, Rplus_opp_r; apply exp_0).
      assert (0 < exp (- c)) by apply exp_pos. assert (0 <= c ^ 2) by nra. assert (0 <= c ^ 3) by (apply pow_le; lra).
      assert (15 + 15 * c + 6 * c ^ 2 + c ^ 3 <= 15 * exp c) by lra. nra. }
  assert (I : 0 < / (48 * d)) by (apply Rinv_0_lt_compat; lra).
  replace (1 / d + - poly x * exp (- x) / (48 * d)) with ((48 - poly x * exp (- x)) * / (48 * d)) by (field; lra).
  replace (1 / d) with (48 * / (48 * d)) by (field; lra). assert (0 < poly x * exp (- x)) by nra. split; [split; nra|].
  replace (5 / 16 * a) with (15 * x * / (48 * d)) by (unfold x; field; lra). nra.
Qed.
(** ** Gauss *)
Lemma gauss_sym erfc fi fj d : gauss_term erfc fi fj d = gauss_term erfc fj fi d.
Proof. unfold gauss_term, gauss_const. rewrite (Rplus_comm (fi ^ 2)). reflexivity. Qed.
Lemma gauss_D erfc fi fj d : is_erfc erfc -> 0 < d -> derivable_pt_lim (fun t => fst (gauss_term erfc fi fj t)) d (- snd (gauss_term erfc fi fj d)).
Proof.
  intros [_ E] Hd. unfold gauss_term. cbn [fst snd]. set (c := gauss_const fi fj).
  assert (S : 0 < sqrt PI) by (apply sqrt_lt_R0, PI_RGT_0).
  apply (D_eq _ _ ((- (- (2 / sqrt PI) * exp (- (c * d) ^ 2) * c) * d - - erfc (c * d) * 1) / d ^ 2)); [|field; lra].
  apply (D_quot (fun t => - erfc (c * t)) (fun t => t)); [lra| |apply D_id]. apply D_opp.
  apply (derivable_pt_lim_comp (fun t => c * t) erfc d c); [apply D_line|apply E].
Qed.
Lemma gauss_contact erfc fi fj : is_erfc erfc -> tends_at_0 (fun d => 1 / d + fst (gauss_term erfc fi fj d)) (2 / sqrt PI * gauss_const fi fj).
Proof.
  intros [E0 E]. set (c := gauss_const fi fj). apply (quotient_limit (fun d => 1 + - erfc (c * d))).
  - apply (D_eq _ _ (0 + - (- (2 / sqrt PI) * exp (- (c * 0) ^ 2) * c))).
    + apply (D_plus (fun _ => 1)); [apply D_const|]. apply D_opp. apply (derivable_pt_lim_comp (fun t => c * t) erfc 0 c); [apply D_line|apply E].
    + rewrite Rmult_0_r. replace (- 0 ^ 2) with 0 by ring. rewrite exp_0. ring.
  - rewrite Rmult_0_r, E0. ring.
  - intros d Hd. unfold gauss_term. cbn [fst]. fold c. field. lra.
Qed.
Lemma gauss_onsite U : 0 < U -> 2 / sqrt PI * gauss_const (default_FWHM U) (default_FWHM U) = U.
Proof.
  intros HU. pose proof PI_RGT_0 as HP. assert (L : 0 < ln 2) by (rewrite <- ln_1; apply ln_increasing; lra).
  unfold gauss_const, default_FWHM.
  assert (E : (sqrt (8 * ln 2 / PI) / U) ^ 2 = 8 * ln 2 / PI / U ^ 2).
  { replace ((sqrt (8 * ln 2 / PI) / U) ^ 2) with (sqrt (8 * ln 2 / PI) * sqrt (8 * ln 2 / PI) / U ^ 2) by (field; lra).
    rewrite sqrt_sqrt; [reflexivity|]. left. apply Rdiv_lt_0_compat; lra. }
  rewrite E. replace (ln 2 / (8 * ln 2 / PI / U ^ 2 + 8 * ln 2 / PI / U ^ 2)) with ((U / 4) ^ 2 * PI) by (field; repeat split; lra).
  rewrite sqrt_mult_alt by nra. rewrite sqrt_pow2 by lra. field. apply Rgt_not_eq, sqrt_lt_R0, HP.
Qed.
