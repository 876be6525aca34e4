From Coq Require Import Reals List Bool Arith Lra Lia Psatz.
From Verif Require Import Vec GeomModel GeomProofs SkModel SkSpec SkProofs6 Cpx RhoModel RhoSpec SplProofs GamProofs3 DosModel DosSpec.
From Verif Require DosProofs.
Import ListNotations.
Open Scope R_scope.

(** ** integrals *)
Lemma antiderivatives P Q f : (forall x, derivable_pt_lim P x (f x)) -> (forall x, derivable_pt_lim Q x (f x)) -> forall x, P x - Q x = P 0 - Q 0.
Proof.
  intros hP hQ x.
  assert (D : forall t, derivable_pt_lim (fun t => P t - Q t) t 0).
  { intros t. replace 0 with (f t - f t) by ring. apply derivable_pt_lim_minus; [apply hP|apply hQ]. }
  set (pr := fun t => exist (fun l => derivable_pt_abs (fun t => P t - Q t) t l) 0 (D t) : derivable_pt (fun t => P t - Q t) t).
  assert (hc : constant (fun t => P t - Q t)) by (apply (null_derivative_1 _ pr); intros t; reflexivity).
  apply (hc x 0).
Qed.
Lemma integral_unique f s t : integrates_to f s -> integrates_to f t -> s = t.
Proof.
  intros (P & hP & dP & uP) (Q & hQ & dQ & uQ). pose proof (antiderivatives P Q f hP hQ) as E.
  assert (c0 : P 0 - Q 0 = 0).
  { apply Rminus_diag_uniq_sym. symmetry. destruct (Req_dec (P 0 - Q 0) 0) as [h|h]; [lra|]. exfalso.
    assert (hh : 0 < Rabs (P 0 - Q 0) / 2) by (pose proof (Rabs_pos_lt _ h); lra).
    destruct (dP _ hh) as [M1 h1], (dQ _ hh) as [M2 h2]. set (x := Rmin M1 M2 - 1).
    assert (x < M1 /\ x < M2) as [a b] by (unfold x; pose proof (Rmin_l M1 M2); pose proof (Rmin_r M1 M2); lra).
    specialize (h1 x a). specialize (h2 x b). specialize (E x). rewrite <- E in h1, h2, hh. revert h1 h2. unfold Rabs. repeat destruct Rcase_abs; lra. }
  destruct (Req_dec s t) as [h|h]; [exact h|]. exfalso.
  assert (hh : 0 < Rabs (s - t) / 2) by (pose proof (Rabs_pos_lt (s - t) ltac:(lra)); lra).
  destruct (uP _ hh) as [M1 h1], (uQ _ hh) as [M2 h2]. set (x := Rmax M1 M2 + 1).
  assert (M1 < x /\ M2 < x) as [a b] by (unfold x; pose proof (Rmax_l M1 M2); pose proof (Rmax_r M1 M2); lra).
  specialize (h1 x a). specialize (h2 x b). specialize (E x). revert h1 h2. unfold Rabs. repeat destruct Rcase_abs; lra.
Qed.
Lemma integral_plus f g s t : integrates_to f s -> integrates_to g t -> integrates_to (fun x => f x + g x) (s + t).
Proof.
  intros (P & hP & dP & uP) (Q & hQ & dQ & uQ). exists (fun x => P x + Q x). split; [intros x; apply derivable_pt_lim_plus; auto|]. split.
  - intros eps he. destruct (dP (eps / 2) ltac:(lra)) as [M1 h1], (dQ (eps / 2) ltac:(lra)) as [M2 h2]. exists (Rmin M1 M2). intros x hx.
    pose proof (Rmin_l M1 M2); pose proof (Rmin_r M1 M2). specialize (h1 x ltac:(lra)). specialize (h2 x ltac:(lra)). revert h1 h2. unfold Rabs. repeat destruct Rcase_abs; lra.
  - intros eps he. destruct (uP (eps / 2) ltac:(lra)) as [M1 h1], (uQ (eps / 2) ltac:(lra)) as [M2 h2]. exists (Rmax M1 M2). intros x hx.
    pose proof (Rmax_l M1 M2); pose proof (Rmax_r M1 M2). specialize (h1 x ltac:(lra)). specialize (h2 x ltac:(lra)). revert h1 h2. unfold Rabs. repeat destruct Rcase_abs; lra.
Qed.
Lemma integral_scal c f s : integrates_to f s -> integrates_to (fun x => c * f x) (c * s).
Proof.
  intros (P & hP & dP & uP). exists (fun x => c * P x). split; [intros x; apply derivable_pt_lim_scal; auto|].
  assert (B : forall eps, 0 < eps -> 0 < eps / (Rabs c + 1)) by (intros eps he; apply Rdiv_lt_0_compat; [exact he|pose proof (Rabs_pos c); lra]).
  assert (K : forall eps d, 0 < eps -> Rabs d < eps / (Rabs c + 1) -> Rabs (c * d) < eps).
  { intros eps d he hd. rewrite Rabs_mult. pose proof (Rabs_pos c). pose proof (Rabs_pos d).
    apply (Rmult_lt_compat_r (Rabs c + 1)) in hd; [|lra]. unfold Rdiv in hd. rewrite Rmult_assoc, Rinv_l in hd by lra. nra. }
  split; intros eps he.
  - destruct (dP _ (B eps he)) as [M h]. exists M. intros x hx. replace (c * P x - 0) with (c * (P x - 0)) by ring. apply K; [exact he|apply h, hx].
  - destruct (uP _ (B eps he)) as [M h]. exists M. intros x hx. replace (c * P x - c * s) with (c * (P x - s)) by ring. apply K; [exact he|apply h, hx].
Qed.
Lemma integral_ext f g s : (forall x, f x = g x) -> integrates_to f s -> integrates_to g s.
Proof. intros h (P & hP & d). exists P. split; [intros x; rewrite <- h; apply hP|exact d]. Qed.
Lemma integral_zero : integrates_to (fun _ => 0) 0.
Proof.
  exists (fun _ => 0). split; [intros x; apply derivable_pt_lim_const|]. split; intros eps he; exists 0; intros x _; rewrite Rminus_0_r, Rabs_R0; exact he.
Qed.

(** ** the two shapes *)
(** a shape with an odd antiderivative tending to 1/2 *)
Lemma shape_integral f P : (forall x, derivable_pt_lim P x (f x)) -> (forall x, P (- x) = - P x) -> tends_up P (/ 2) ->
  forall m w, 0 < w -> integrates_to (fun x => f ((x - m) / w) / w) 1.
Proof.
  intros hP ho hu m w hw. exists (fun x => / 2 + P ((x - m) / w)). split; [|split].
  - intros x. apply (D_eq _ _ (0 + f ((x - m) / w) * / w)); [|unfold Rdiv; ring]. apply (derivable_pt_lim_plus (fun _ => / 2) (fun x => P ((x - m) / w))); [apply derivable_pt_lim_const|].
    apply (derivable_pt_lim_comp (fun x => (x - m) / w) P); [apply D_affine'|apply hP].
  - intros eps he. destruct (hu eps he) as [M h]. exists (m - M * w). intros x hx.
    replace (P ((x - m) / w)) with (- P ((m - x) / w)) by (rewrite <- ho; f_equal; unfold Rdiv; ring).
    assert (hM : M < (m - x) / w) by (apply (Rmult_lt_reg_r w); [exact hw|]; unfold Rdiv; rewrite Rmult_assoc, Rinv_l by lra; lra).
    specialize (h _ hM). rewrite Rminus_0_r. replace (/ 2 + - P ((m - x) / w)) with (- (P ((m - x) / w) - / 2)) by ring. rewrite Rabs_Ropp. exact h.
  - intros eps he. destruct (hu eps he) as [M h]. exists (m + M * w). intros x hx.
    assert (hM : M < (x - m) / w) by (apply (Rmult_lt_reg_r w); [exact hw|]; unfold Rdiv; rewrite Rmult_assoc, Rinv_l by lra; lra).
    specialize (h _ hM). replace (/ 2 + P ((x - m) / w) - 1) with (P ((x - m) / w) - / 2) by lra. exact h.
Qed.
Lemma atan_up : tends_up atan (PI / 2).
Proof.
  intros eps he. destruct (derivable_continuous_pt atan 0 (exist _ _ (derivable_pt_lim_atan 0)) eps he) as (d & hd & h).
  cbn in h. unfold R_dist in h. rewrite atan_0 in h. exists (/ d). intros x hx.
  assert (hd' : 0 < / d) by (apply Rinv_0_lt_compat; exact hd). assert (x0 : 0 < x) by lra.
  assert (E : atan (/ x) = PI / 2 - atan x) by (apply atan_inv; exact x0).
  assert (hi : / x < d). { rewrite <- (Rinv_inv d). apply Rinv_lt_contravar; [apply Rmult_lt_0_compat; assumption|exact hx]. }
  assert (hx0 : 0 < / x) by (apply Rinv_0_lt_compat; exact x0).
  assert (A : Rabs (atan (/ x) - 0) < eps).
  { apply h. split; [split; [exact I|lra]|]. rewrite Rminus_0_r, Rabs_pos_eq by lra. exact hi. }
  rewrite E in A. replace (atan x - PI / 2) with (- (PI / 2 - atan x - 0)) by ring. rewrite Rabs_Ropp. exact A.
Qed.
Lemma tends_up_scal c f l : tends_up f l -> tends_up (fun x => c * f x) (c * l).
Proof.
  intros h eps he. assert (B : 0 < eps / (Rabs c + 1)) by (apply Rdiv_lt_0_compat; [exact he|pose proof (Rabs_pos c); lra]).
  destruct (h _ B) as [M hM]. exists M. intros x hx. specialize (hM x hx). replace (c * f x - c * l) with (c * (f x - l)) by ring.
  rewrite Rabs_mult. pose proof (Rabs_pos c). pose proof (Rabs_pos (f x - l)). apply (Rmult_lt_compat_r (Rabs c + 1)) in hM; [|lra]. unfold Rdiv in hM. rewrite Rmult_assoc, Rinv_l in hM by lra. nra.
Qed.
Lemma pi_pos : 0 < PI. Proof. exact PI_RGT_0. Qed.
Lemma lorentz_integral m w : 0 < w -> integrates_to (fun x => lorentzian x m w) 1.
Proof.
  intros hw. pose proof pi_pos as hp. apply (integral_ext (fun x => (/ PI * / (1 + ((x - m) / w) ^ 2)) / w)).
  - intros x. unfold lorentzian. assert (hx : 0 < (x - m) ^ 2 + w ^ 2) by (pose proof (pow2_ge_0 (x - m)); nra). field. repeat split; try lra.
  - apply (shape_integral (fun u => / PI * / (1 + u ^ 2)) (fun u => / PI * atan u)); [| |  |exact hw].
    + intros x. apply derivable_pt_lim_scal. apply derivable_pt_lim_atan.
    + intros x. rewrite atan_opp. ring.
    + replace (/ 2) with (/ PI * (PI / 2)) by (field; lra). apply tends_up_scal, atan_up.
Qed.
Lemma gauss_up : tends_up (fun x => / sqrt PI * DosProofs.F x) (/ 2).
Proof.
  assert (hs : 0 < sqrt PI) by (apply sqrt_lt_R0, pi_pos). replace (/ 2) with (/ sqrt PI * (sqrt PI / 2)) by (field; lra). apply tends_up_scal. exact DosProofs.F_limit.
Qed.
Lemma gauss_integral m w : 0 < w -> integrates_to (fun x => gauss_fct x m w) 1.
Proof.
  intros hw. pose proof pi_pos as hp. assert (h2 : 0 < sqrt 2) by (apply sqrt_lt_R0; lra). assert (hq : 0 < sqrt PI) by (apply sqrt_lt_R0, hp).
  apply (integral_ext (fun x => (/ sqrt PI * DosProofs.gs ((x - m) / (sqrt 2 * w))) / (sqrt 2 * w))).
  - intros x. unfold gauss_fct, DosProofs.gs. rewrite sqrt_mult by nra. rewrite sqrt_mult by lra. rewrite sqrt_pow2 by lra.
    replace (- ((x - m) / (sqrt 2 * w)) ^ 2) with (- (x - m) ^ 2 / (2 * w ^ 2)).
    + field. repeat split; lra.
    + assert (E : sqrt 2 ^ 2 = 2) by (rewrite <- Rsqr_pow2; apply Rsqr_sqrt; lra). unfold Rdiv. rewrite !Rpow_mult_distr, pow_inv, Rpow_mult_distr, E. ring.
  - apply (shape_integral (fun u => / sqrt PI * DosProofs.gs u) (fun u => / sqrt PI * DosProofs.F u)).
    + intros x. apply derivable_pt_lim_scal. apply Coquelicot.Derive.is_derive_Reals. apply DosProofs.F_D.
    + intros x. rewrite DosProofs.F_odd. ring.
    + exact gauss_up.
    + apply Rmult_lt_0_compat; assumption.
Qed.
Lemma peak_gauss w xi g : 0 < w -> peak Gaussian w xi g = gauss_fct g xi w.
Proof.
  intros hw. unfold peak, gauss_fct. pose proof pi_pos as hp. rewrite (sqrt_mult (2 * PI)) by nra. rewrite sqrt_pow2 by lra. assert (0 < sqrt (2 * PI)) by (apply sqrt_lt_R0; lra). field. split; lra.
Qed.
Lemma peak_lorentz w xi g : peak Lorentzian w xi g = lorentzian g xi w.
Proof. reflexivity. Qed.
Lemma peak_integral s w xi : known s -> 0 < w -> integrates_to (peak s w xi) 1.
Proof.
  intros [-> | ->] hw.
  - apply (integral_ext (fun g => gauss_fct g xi w)); [intros x; symmetry; apply peak_gauss, hw|apply gauss_integral, hw].
  - apply lorentz_integral, hw.
Qed.
(** positive, symmetric and highest at the centre *)
Lemma peak_shape s w xi g : known s -> 0 < w ->
  0 < peak s w xi g /\ peak s w xi (xi + g) = peak s w xi (xi - g) /\ (forall h, Rabs (h - xi) < Rabs (g - xi) -> peak s w xi g < peak s w xi h).
Proof.
  intros hs hw. pose proof pi_pos as hp.
  assert (hsq : forall h, Rabs (h - xi) < Rabs (g - xi) -> (h - xi) ^ 2 < (g - xi) ^ 2).
  { intros h hh. rewrite <- !Rsqr_pow2. apply Rsqr_lt_abs_1. exact hh. }
  destruct hs as [-> | ->]; unfold peak.
  - assert (h2 : 0 < sqrt (2 * PI) * w) by (apply Rmult_lt_0_compat; [apply sqrt_lt_R0; lra|exact hw]). split; [|split].
    + apply Rdiv_lt_0_compat; [apply exp_pos|exact h2].
    + f_equal. f_equal. f_equal. ring.
    + intros h hh. apply hsq in hh. apply Rmult_lt_compat_r; [apply Rinv_0_lt_compat, h2|]. apply exp_increasing.
      assert (0 < / (2 * w ^ 2)) by (apply Rinv_0_lt_compat; nra). unfold Rdiv. nra.
  - assert (hq : forall h, 0 < (h - xi) ^ 2 + w ^ 2) by (intros h; pose proof (pow2_ge_0 (h - xi)); nra).
    assert (hc : 0 < w / PI) by (apply Rdiv_lt_0_compat; assumption). split; [|split].
    + apply Rdiv_lt_0_compat; [exact hc|apply hq].
    + f_equal. ring.
    + intros h hh. apply hsq in hh. apply Rmult_lt_compat_l; [exact hc|]. apply Rinv_lt_contravar; [apply Rmult_lt_0_compat; apply hq|lra].
Qed.

(** ** curves *)
Lemma fold_total (q : R * R -> R) l : forall acc, fold_left (fun acc p => acc + q p) l acc = acc + total (map q l).
Proof. induction l as [|a l IH]; intros acc; cbn [fold_left map total]; [ring|]. rewrite IH. ring. Qed.
Lemma curve_total s w pts g : curve s w pts g = total (map (fun p => snd p * peak s w (fst p) g) pts).
Proof. unfold curve. rewrite (fold_total (fun p => snd p * peak s w (fst p) g)). ring. Qed.
Lemma curve_integral s w pts : known s -> 0 < w -> integrates_to (fun g => total (map (fun p => snd p * peak s w (fst p) g) pts)) (total (map snd pts)).
Proof.
  intros hs hw. induction pts as [|p pts IH]; cbn [map total]; [apply integral_zero|].
  apply integral_plus; [|exact IH]. pose proof (integral_scal (snd p) _ _ (peak_integral s w (fst p) hs hw)) as h. rewrite Rmult_1_r in h. exact h.
Qed.
Lemma combine_snd {A B} : forall (x : list A) (y : list B), length x = length y -> map snd (combine x y) = y.
Proof. induction x as [|a x IH]; intros [|b y] h; try discriminate; [reflexivity|]. cbn. f_equal. apply IH. injection h; auto. Qed.
Lemma area s w x y : known s -> 0 < w -> length x = length y -> integrates_to (superposition s w x y) (total y).
Proof. intros hs hw hl. unfold superposition. pose proof (curve_integral s w (combine x y) hs hw) as h. rewrite (combine_snd x y hl) in h. exact h. Qed.
Lemma total_app l l' : total (l ++ l') = total l + total l'.
Proof. induction l as [|a l IH]; cbn [app total]; [ring|]. rewrite IH. ring. Qed.
Lemma combine_app {A B} : forall (x : list A) (y : list B) x' y', length x = length y -> combine (x ++ x') (y ++ y') = combine x y ++ combine x' y'.
Proof. induction x as [|a x IH]; intros [|b y] x' y' h; try discriminate; [reflexivity|]. cbn. f_equal. apply IH. injection h; auto. Qed.
Lemma superpose s w x y x' y' g : length x = length y -> superposition s w (x ++ x') (y ++ y') g = superposition s w x y g + superposition s w x' y' g.
Proof. intros h. unfold superposition. rewrite combine_app by exact h. rewrite map_app, total_app. reflexivity. Qed.

(** ** broaden *)
Lemma fold_min : forall l x m, fold_left Rmin l x = m <-> (In m (x :: l) /\ forall y, In y (x :: l) -> m <= y).
Proof.
  assert (K : forall l x, In (fold_left Rmin l x) (x :: l) /\ forall y, In y (x :: l) -> fold_left Rmin l x <= y).
  { induction l as [|a l IH]; intros x; cbn [fold_left]; [split; [left; reflexivity|intros y [<- |[]]; lra]|].
    destruct (IH (Rmin x a)) as [h1 h2]. split.
    - destruct h1 as [h1|h1]; [|right; right; exact h1]. rewrite <- h1. unfold Rmin. destruct (Rle_dec x a); [left|right; left]; reflexivity.
    - intros y hy. pose proof (h2 _ (or_introl eq_refl)). pose proof (Rmin_l x a). pose proof (Rmin_r x a). destruct hy as [<- |[<- |hy]]; [lra|lra|]. apply h2. right. exact hy. }
  intros l x m. split; [intros <-; apply K|]. intros [h1 h2]. destruct (K l x) as [k1 k2]. apply Rle_antisym; [apply k2, h1|apply h2, k1].
Qed.
Lemma fold_max : forall l x m, fold_left Rmax l x = m <-> (In m (x :: l) /\ forall y, In y (x :: l) -> y <= m).
Proof.
  assert (K : forall l x, In (fold_left Rmax l x) (x :: l) /\ forall y, In y (x :: l) -> y <= fold_left Rmax l x).
  { induction l as [|a l IH]; intros x; cbn [fold_left]; [split; [left; reflexivity|intros y [<- |[]]; lra]|].
    destruct (IH (Rmax x a)) as [h1 h2]. split.
    - destruct h1 as [h1|h1]; [|right; right; exact h1]. rewrite <- h1. unfold Rmax. destruct (Rle_dec x a); [right; left|left]; reflexivity.
    - intros y hy. pose proof (h2 _ (or_introl eq_refl)). pose proof (Rmax_l x a). pose proof (Rmax_r x a). destruct hy as [<- |[<- |hy]]; [lra|lra|]. apply h2. right. exact hy. }
  intros l x m. split; [intros <-; apply K|]. intros [h1 h2]. destruct (K l x) as [k1 k2]. apply Rle_antisym; [apply h2, k1|apply k2, h1].
Qed.
Lemma list_min_spec l m : list_min l = Some m <-> In m l /\ forall y, In y l -> m <= y.
Proof. destruct l as [|x l]; cbn [list_min]; [split; [discriminate|intros [[] _]]|]. rewrite <- fold_min. split; [intros h; injection h; auto|intros ->; reflexivity]. Qed.
Lemma list_max_spec l m : list_max l = Some m <-> In m l /\ forall y, In y l -> y <= m.
Proof. destruct l as [|x l]; cbn [list_max]; [split; [discriminate|intros [[] _]]|]. rewrite <- fold_max. split; [intros h; injection h; auto|intros ->; reflexivity]. Qed.
Lemma linspace_length mn mx N : length (linspace mn mx N) = N.
Proof. unfold linspace. rewrite map_length, seq_length. reflexivity. Qed.
Lemma linspace_nth mn mx N i d : (i < N)%nat -> nth i (linspace mn mx N) d = mn + INR i * ((mx - mn) / INR (N - 1)).
Proof.
  intros h. unfold linspace. rewrite (nth_indep _ d ((fun i => mn + INR i * ((mx - mn) / INR (N - 1))) 0%nat)) by (rewrite map_length, seq_length; exact h).
  rewrite (map_nth (fun i => mn + INR i * ((mx - mn) / INR (N - 1)))), seq_nth by exact h. reflexivity.
Qed.
Lemma linspace_ends mn mx N d : (1 < N)%nat -> nth 0 (linspace mn mx N) d = mn /\ nth (N - 1) (linspace mn mx N) d = mx.
Proof.
  intros h. rewrite !linspace_nth by lia. split; [cbn [INR]; ring|]. assert (INR (N - 1) <> 0) by (apply not_0_INR; lia). field. exact H.
Qed.
(** the result: values are the superposition at the grid points *)
Lemma broaden_values x y w s ext N a b xg g v : broaden x (Some y) w s ext N a b xg = DOk (g, v) ->
  v = map (superposition s w x y) g /\ match xg with Some q => g = q | None => length g = N end.
Proof.
  unfold broaden. destruct (limit a _) as [mn|]; [|discriminate]. destruct (limit b _) as [mx|]; [|discriminate].
  assert (E : forall l, map (curve s w (combine x y)) l = map (superposition s w x y) l).
  { intros l. apply map_ext. intros t. apply curve_total. }
  rewrite E. intros h. assert (h' : (match xg with Some g => g | None => linspace mn mx N end, map (superposition s w x y) (match xg with Some g => g | None => linspace mn mx N end)) = (g, v)).
  { destruct s; [| |destruct (combine x y); [|discriminate]]; injection h as h1 h2; rewrite <- h1, <- h2; reflexivity. }
  injection h' as <- <-. split; [reflexivity|]. destruct xg; [reflexivity|apply linspace_length].
Qed.
Lemma broaden_ones x w s ext N a b xg : broaden x None w s ext N a b xg = broaden x (Some (map (fun _ => 1) x)) w s ext N a b xg.
Proof. reflexivity. Qed.
(** the limits of the grid *)
Lemma broaden_grid x y w s ext N a b g v : (1 < N)%nat -> broaden x (Some y) w s ext N a b None = DOk (g, v) ->
  (match a with Some a => nth 0 g 0 = a | None => exists m, In m x /\ (forall z, In z x -> m <= z) /\ nth 0 g 0 = m - (if ext then 4 * w else 0) end) /\
  (match b with Some b => nth (N - 1) g 0 = b | None => exists m, In m x /\ (forall z, In z x -> z <= m) /\ nth (N - 1) g 0 = m + (if ext then 4 * w else 0) end) /\
  forall i, (i + 1 < N)%nat -> nth (i + 1) g 0 - nth i g 0 = (nth (N - 1) g 0 - nth 0 g 0) / INR (N - 1).
Proof.
  intros hN. unfold broaden. destruct (limit a (option_map (fun m => m - (if ext then 4 * w else 0)) (list_min x))) as [mn|] eqn:E1; [|discriminate].
  destruct (limit b (option_map (fun m => m + (if ext then 4 * w else 0)) (list_max x))) as [mx|] eqn:E2; [|discriminate]. intros h.
  assert (hg : g = linspace mn mx N) by (destruct s; [| |destruct (combine x y); [|discriminate]]; injection h as h1 h2; symmetry; exact h1). subst g.
  destruct (linspace_ends mn mx N 0 hN) as [h0 h1]. rewrite h0, h1. split; [|split].
  - destruct a as [a|]; [injection E1; auto|]. cbn [limit] in E1. destruct (list_min x) as [m|] eqn:E; [|discriminate]. cbn in E1. injection E1 as <-. apply list_min_spec in E. exists m. split; [apply E|]. split; [apply E|reflexivity].
  - destruct b as [b|]; [injection E2; auto|]. cbn [limit] in E2. destruct (list_max x) as [m|] eqn:E; [|discriminate]. cbn in E2. injection E2 as <-. apply list_max_spec in E. exists m. split; [apply E|]. split; [apply E|reflexivity].
  - intros i hi. rewrite !linspace_nth by lia. rewrite plus_INR. cbn [INR]. ring.
Qed.
(** when it fails *)
Lemma broaden_errors x y w s ext N a b xg :
  match broaden x (Some y) w s ext N a b xg with
  | DFail DValueError => x = [] /\ (a = None \/ b = None)
  | DFail DUnboundLocal => s = OtherShape /\ combine x y <> []
  | DFail _ => False
  | DOk _ => (x <> [] \/ (a <> None /\ b <> None)) /\ (known s \/ combine x y = [])
  end.
Proof.
  unfold broaden. destruct x as [|x0 x].
  - cbn [list_min list_max option_map limit combine]. destruct a as [a|]; cbn [limit]; [|split; [reflexivity|left; reflexivity]]. destruct b as [b|]; cbn [limit]; [|split; [reflexivity|right; reflexivity]].
    destruct s; (split; [right; split; discriminate|right; reflexivity]).
  - destruct a, b; cbn [list_min list_max option_map limit]; destruct s; try (split; [left; discriminate|left; unfold known; auto]);
    (destruct (combine (x0 :: x) y); [split; [left; discriminate|right; reflexivity]|split; [reflexivity|discriminate]]).
Qed.
