From Coq Require Import Reals List Bool Arith Lia Lra Psatz.
From Verif Require Import DosSpec DosProofs2 BrdModel BrdSpec.
Import ListNotations.
Open Scope R_scope.

Lemma ln2_pos : 0 < ln 2. Proof. rewrite <- ln_1. apply ln_increasing; lra. Qed.
Lemma dev_pos F : 0 < F -> 0 < deviation F.
Proof. intros h. unfold deviation. apply Rdiv_lt_0_compat; [lra|]. pose proof ln2_pos. apply Rmult_lt_0_compat; [lra|]. apply sqrt_lt_R0. lra. Qed.
Lemma dev_sq F : 2 * deviation F ^ 2 = F ^ 2 / (4 * ln 2).
Proof.
  pose proof ln2_pos as hl. unfold deviation. assert (hs : 0 < sqrt (2 * ln 2)) by (apply sqrt_lt_R0; lra).
  assert (E : sqrt (2 * ln 2) ^ 2 = 2 * ln 2) by (rewrite <- Rsqr_pow2; apply Rsqr_sqrt; lra).
  unfold Rdiv. rewrite !Rpow_mult_distr, pow_inv, Rpow_mult_distr, E. field. lra.
Qed.
Lemma peak_normal g x0 F : 0 < F -> gaussian_peak g x0 F = normal x0 (deviation F) g.
Proof.
  intros hF. pose proof ln2_pos as hl. pose proof PI_RGT_0 as hp. unfold gaussian_peak, normal.
  assert (hs : 0 < sqrt (2 * ln 2)) by (apply sqrt_lt_R0; lra).
  assert (hP : 0 < sqrt PI) by (apply sqrt_lt_R0; lra).
  assert (h2 : 0 < sqrt 2) by (apply sqrt_lt_R0; lra).
  assert (hL : 0 < sqrt (ln 2)) by (apply sqrt_lt_R0; lra).
  rewrite dev_sq. f_equal.
  - unfold deviation. rewrite sqrt_div_alt by lra. rewrite (sqrt_mult 4 (ln 2)) by lra. rewrite (sqrt_mult 2 (ln 2)) by lra. rewrite (sqrt_mult 2 PI) by lra.
    replace (sqrt 4) with 2 by (replace 4 with (2 * 2) by ring; symmetry; apply sqrt_square; lra).
    assert (E : sqrt 2 * sqrt 2 = 2) by (apply sqrt_sqrt; lra).
    replace (F / (2 * (sqrt 2 * sqrt (ln 2))) * (sqrt 2 * sqrt PI)) with (F * sqrt PI / (2 * sqrt (ln 2))) by (field; repeat split; lra).
    field. repeat split; lra.
  - f_equal. field. split; [lra|]. apply Rgt_not_eq. assumption.
Qed.
Lemma normal_gauss x0 s x : 0 < s -> normal x0 s x = DosModel.gauss_fct x x0 s.
Proof.
  intros hs. pose proof PI_RGT_0 as hp. unfold normal, DosModel.gauss_fct. rewrite (sqrt_mult (2 * PI)) by nra. rewrite sqrt_pow2 by lra.
  assert (0 < sqrt (2 * PI)) by (apply sqrt_lt_R0; lra). f_equal. field. split; lra.
Qed.
Lemma peak_area x0 F : 0 < F -> integrates_to (fun g => gaussian_peak g x0 F) 1.
Proof.
  intros h. apply (integral_ext (fun x => DosModel.gauss_fct x x0 (deviation F))).
  - intros x. rewrite peak_normal by exact h. symmetry. apply normal_gauss, dev_pos, h.
  - apply gauss_integral, dev_pos, h.
Qed.
Lemma peak_half x0 F : 0 < F -> gaussian_peak (x0 + F / 2) x0 F = gaussian_peak x0 x0 F / 2 /\ gaussian_peak (x0 - F / 2) x0 F = gaussian_peak x0 x0 F / 2.
Proof.
  intros h. unfold gaussian_peak.
  replace (- (4 * ln 2 / F ^ 2) * (x0 + F / 2 - x0) ^ 2) with (- ln 2) by (field; lra).
  replace (- (4 * ln 2 / F ^ 2) * (x0 - F / 2 - x0) ^ 2) with (- ln 2) by (field; lra).
  replace (- (4 * ln 2 / F ^ 2) * (x0 - x0) ^ 2) with 0 by (field; lra).
  rewrite exp_Ropp, exp_ln, exp_0 by lra. split; field; lra.
Qed.
Lemma peak_falls x0 F g h : 0 < F -> 0 < gaussian_peak g x0 F /\ (Rabs (h - x0) < Rabs (g - x0) -> gaussian_peak g x0 F < gaussian_peak h x0 F).
Proof.
  intros hF. pose proof ln2_pos as hl. pose proof PI_RGT_0 as hp. unfold gaussian_peak.
  assert (ha : 0 < sqrt (4 * ln 2 / PI) / F). { apply Rdiv_lt_0_compat; [|lra]. apply sqrt_lt_R0. apply Rdiv_lt_0_compat; lra. }
  assert (hb : 0 < 4 * ln 2 / F ^ 2). { apply Rdiv_lt_0_compat; [lra|]. apply pow_lt. lra. }
  split.
  - apply Rmult_lt_0_compat; [exact ha|]. apply exp_pos.
  - intros hd. apply Rmult_lt_compat_l; [exact ha|]. apply exp_increasing.
    assert (hq : (h - x0) ^ 2 < (g - x0) ^ 2). { rewrite <- (pow2_abs (h - x0)), <- (pow2_abs (g - x0)). pose proof (Rabs_pos (h - x0)). nra. }
    nra.
Qed.

Lemma none_ok old w : comparable old w -> is_none old w = BOk (match w with WNone => true | _ => false end).
Proof.
  destruct w as [|l|l]; cbn; auto. intros [->|hl]; [reflexivity|]. destruct old; [reflexivity|].
  destruct l as [|x [|y l]]; [reflexivity|reflexivity|cbn in hl; lia].
Qed.
Lemma ones {A} (l : list A) : map (fun _ => 1) l = repeat 1 (length l).
Proof. induction l; cbn; congruence. Qed.
Lemma add_spectrum F v ws g : 0 < F -> add_peaks F (combine v ws) g = spectrum F v ws g.
Proof.
  intros hF. unfold add_peaks, spectrum. rewrite (fold_total (fun p => snd p * gaussian_peak g (fst p) F)). rewrite Rplus_0_l.
  f_equal. apply map_ext. intros p. rewrite peak_normal by exact hF. reflexivity.
Qed.
(** the values *)
Lemma values_ok old grid v F w : 0 < F -> comparable old w -> broaden old false grid v F w = BOk (map (spectrum F v (meant v w)) grid).
Proof.
  intros hF hw. unfold broaden. rewrite none_ok by exact hw.
  replace (if match w with WNone => true | _ => false end then map (fun _ => 1) v else entries w) with (meant v w) by (destruct w; cbn; rewrite ?ones; reflexivity).
  assert (E : map (add_peaks F (combine v (meant v w))) grid = map (spectrum F v (meant v w)) grid) by (apply map_ext; intros g; apply add_spectrum, hF).
  destruct (combine v (meant v w)) eqn:C; rewrite E; reflexivity.
Qed.
(** the exceptions *)
Lemma errors old ints grid v F w :
  match broaden old ints grid v F w with
  | BFail BValueError => ~ comparable old w
  | BFail BTypeError => comparable old w /\ ints = true /\ combine v (meant v w) <> []
  | BOk _ => comparable old w /\ (ints = false \/ combine v (meant v w) = [])
  end.
Proof.
  destruct (is_none old w) as [b|e] eqn:N.
  - assert (hw : comparable old w).
    { destruct w as [|l|l]; cbn in *; auto. destruct old; [left; reflexivity|]. right. destruct l as [|x [|y l]]; [cbn; lia|cbn; lia|discriminate]. }
    unfold broaden. rewrite none_ok by exact hw.
    replace (if match w with WNone => true | _ => false end then map (fun _ => 1) v else entries w) with (meant v w) by (destruct w; cbn; rewrite ?ones; reflexivity).
    destruct ints, (combine v (meant v w)) eqn:C; repeat split; auto; congruence.
  - unfold broaden. rewrite N. destruct w as [|l|l]; cbn in *; try discriminate. destruct old; [discriminate|].
    destruct l as [|x [|y l]]; [discriminate|discriminate|]. injection N as <-. intros [H|H]; [discriminate|cbn in H; lia].
Qed.
Lemma spectrum_area F v ws : 0 < F -> length v = length ws -> integrates_to (spectrum F v ws) (total ws).
Proof.
  intros hF hl. rewrite <- (combine_snd v ws hl) at 2. unfold spectrum. induction (combine v ws) as [|p l IH]; cbn [map total].
  - exact integral_zero.
  - apply integral_plus; [|exact IH].
    apply (eq_ind (snd p * 1) (fun z => integrates_to (fun g => snd p * normal (fst p) (deviation F) g) z)); [|ring]. apply integral_scal.
    apply (integral_ext (fun x => DosModel.gauss_fct x (fst p) (deviation F))).
    + intros x. symmetry. apply normal_gauss, dev_pos, hF.
    + apply gauss_integral, dev_pos, hF.
Qed.
Lemma spectrum_app F v ws v' ws' g : length v = length ws -> spectrum F (v ++ v') (ws ++ ws') g = spectrum F v ws g + spectrum F v' ws' g.
Proof. intros h. unfold spectrum. rewrite combine_app by exact h. rewrite map_app, total_app. reflexivity. Qed.
Lemma spectrum_nonneg F v ws g : 0 < F -> (forall w, In w ws -> 0 <= w) -> 0 <= spectrum F v ws g.
Proof.
  intros hF hw. unfold spectrum. assert (H : forall p, In p (combine v ws) -> 0 <= snd p).
  { intros [a b] hi. apply in_combine_r in hi. cbn. auto. }
  induction (combine v ws) as [|p l IH]; cbn [map total]; [lra|].
  assert (0 <= snd p * normal (fst p) (deviation F) g).
  { apply Rmult_le_pos; [apply H; left; reflexivity|]. rewrite <- peak_normal by exact hF. left. apply (peak_falls _ _ _ 0 hF). }
  assert (0 <= total (map (fun q => snd q * normal (fst q) (deviation F) g) l)) by (apply IH; intros q hq; apply H; right; exact hq). lra.
Qed.

(** ** plots *)
Section Plot.
Context {C L : Type}.
Variables (old : bool) (grid values : list R) (F : R).
Hypothesis hF : 0 < F.
Lemma firstn_snoc {A} (x : A) l k : firstn (S k) (x :: l) = x :: firstn k l. Proof. reflexivity. Qed.
Lemma bands_ok (todo : list (weights * C * L)) : forall base, (forall t, In t todo -> comparable old (fst (fst t))) ->
  exists r, bands old false grid values F todo (map base grid) = (r, None) /\ length r = length todo /\
  forall k t, nth_error todo k = Some t -> exists b, nth_error r k = Some b /\ b_color b = snd (fst t) /\ b_label b = snd t /\
    b_low b = map (fun g => base g + stacked F values (map (fun t => fst (fst t)) todo) k g) grid /\
    b_up b = map (fun g => base g + stacked F values (map (fun t => fst (fst t)) todo) (S k) g) grid /\
    b_x b = grid ++ b_low b /\ b_y b = b_up b ++ b_low b.
Proof.
  induction todo as [|[[w c] l] todo IH]; intros base hc.
  - exists []. cbn. repeat split; auto. intros [|k] t h; discriminate.
  - cbn [bands]. rewrite values_ok; [|exact hF|apply (hc (w, c, l)); left; reflexivity].
    assert (E : map (fun p => fst p + snd p) (combine (map base grid) (map (spectrum F values (meant values w)) grid)) = map (fun g => base g + spectrum F values (meant values w) g) grid).
    { clear. induction grid as [|g q IHq]; cbn; [reflexivity|]. rewrite IHq. reflexivity. }
    rewrite E. destruct (IH (fun g => base g + spectrum F values (meant values w) g)) as [r [hr [hl hk]]]; [intros t ht; apply hc; right; exact ht|].
    rewrite hr. eexists. split; [reflexivity|]. split; [cbn; congruence|]. intros [|k] t ht.
    + cbn in ht. injection ht as <-. eexists. split; [reflexivity|]. cbn [b_color b_label b_low b_up b_x b_y fst snd]. repeat split.
      * apply map_ext. intros g. unfold stacked. cbn. ring.
      * apply map_ext. intros g. unfold stacked. cbn. ring.
    + cbn [nth_error] in ht |- *. destruct (hk k t ht) as [b [h1 [h2 [h3 [h4 [h5 [h6 h7]]]]]]]. exists b. repeat split; auto.
      * rewrite h4. apply map_ext. intros g. unfold stacked. cbn [map fst firstn total]. ring.
      * rewrite h5. apply map_ext. intros g. unfold stacked. cbn [map fst firstn total]. ring.
Qed.
Variables (nolegend : L) (random : list C).
Lemma nth_combine {A B} : forall (a : list A) (b : list B) k x y, nth_error a k = Some x -> nth_error b k = Some y -> nth_error (combine a b) k = Some (x, y).
Proof. induction a as [|p a IH]; intros [|q b] [|k] x y h1 h2; cbn in *; try discriminate; [congruence|auto]. Qed.
Lemma combine_fst {A B} : forall (a : list A) (b : list B), map fst (combine a b) = firstn (length b) a.
Proof. induction a as [|p a IH]; intros [|q b]; cbn; try reflexivity. rewrite IH. reflexivity. Qed.
(** the bands lie on top of each other *)
Lemma stack ws labels colors : (forall w, In w ws -> comparable old w) -> length labels = length ws -> length colors = length ws ->
  exists r, make_cumulative_plot old false grid values F nolegend random ws (Some labels) (Some colors) = (r, None) /\ length r = length ws /\
  forall k b, nth_error r k = Some b -> nth_error colors k = Some (b_color b) /\ nth_error labels k = Some (b_label b) /\
    b_low b = map (stacked F values ws k) grid /\ b_up b = map (stacked F values ws (S k)) grid.
Proof.
  intros hc hl hq. unfold make_cumulative_plot.
  destruct (bands_ok (combine (combine ws colors) labels) (fun _ => 0)) as [r [hr [hn hk]]].
  { intros [[w c] l] ht. apply in_combine_l, in_combine_l in ht. apply hc, ht. }
  assert (E : map (fun t => fst (fst t)) (combine (combine ws colors) labels) = ws).
  { rewrite <- (map_map fst fst), combine_fst. rewrite firstn_all2 by (rewrite combine_length; lia). rewrite combine_fst. apply firstn_all2. lia. }
  assert (hn' : length r = length ws) by (rewrite hn, !combine_length; lia).
  exists r. split; [exact hr|]. split; [exact hn'|].
  intros k b hb. assert (hkl : (k < length ws)%nat) by (rewrite <- hn'; apply nth_error_Some; congruence).
  destruct (nth_error ws k) as [w|] eqn:e1; [|apply nth_error_None in e1; lia].
  destruct (nth_error colors k) as [c|] eqn:e2; [|apply nth_error_None in e2; lia].
  destruct (nth_error labels k) as [l|] eqn:e3; [|apply nth_error_None in e3; lia].
  destruct (hk k (w, c, l)) as [b' [h1 [h2 [h3 [h4 [h5 [h6 h7]]]]]]]; [repeat apply nth_combine; assumption|].
  rewrite hb in h1. injection h1 as <-. cbn [fst snd] in h2, h3. rewrite E in h4, h5.
  split; [congruence|]. split; [congruence|]. split; [rewrite h4|rewrite h5]; apply map_ext; intros g; apply Rplus_0_l.
Qed.
(** what is drawn of a band *)
Lemma vertices ws labels colors : (forall w, In w ws -> comparable old w) ->
  forall b, In b (fst (make_cumulative_plot old false grid values F nolegend random ws labels colors)) -> b_x b = grid ++ b_low b /\ b_y b = b_up b ++ b_low b.
Proof.
  intros hc b hb. unfold make_cumulative_plot in hb.
  set (todo := combine (combine ws _) _) in hb.
  destruct (bands_ok todo (fun _ => 0)) as [r [hr [hn hk]]].
  { intros [[w c] l] ht. apply in_combine_l, in_combine_l in ht. apply hc, ht. }
  rewrite hr in hb. cbn in hb. apply In_nth_error in hb. destruct hb as [k hb].
  assert (hkl : (k < length todo)%nat) by (rewrite <- hn; apply nth_error_Some; congruence).
  destruct (nth_error todo k) as [t|] eqn:e1; [|apply nth_error_None in e1; lia].
  destruct (hk k t e1) as [b' [h1 [h2 [h3 [h4 [h5 [h6 h7]]]]]]]. rewrite hb in h1. injection h1 as <-. auto.
Qed.
(** colours left out: as many bands as there are values, or less *)
Lemma default_colors ws labels : (forall w, In w ws -> comparable old w) -> length random = length values -> length labels = length ws ->
  length (fst (make_cumulative_plot old false grid values F nolegend random ws (Some labels) None)) = Nat.min (length ws) (length values).
Proof.
  intros hc hr hl. unfold make_cumulative_plot.
  destruct (bands_ok (combine (combine ws (firstn (length values) random)) labels) (fun _ => 0)) as [r [e [hn _]]].
  { intros [[w c] l] ht. apply in_combine_l, in_combine_l in ht. apply hc, ht. }
  rewrite e. cbn. rewrite hn, !combine_length, firstn_length. lia.
Qed.
End Plot.
(** nothing is drawn of weights given as an array, as the documentation says, for two or more values *)
Lemma array_fails {C L} grid values F (nolegend : L) (random : list C) row rest labels colors : (2 <= length row)%nat -> labels <> [] -> colors <> [] ->
  make_cumulative_plot false false grid values F nolegend random (WArray row :: rest) (Some labels) (Some colors) = ([], Some BValueError).
Proof.
  intros h hl hc. destruct labels as [|l labels]; [congruence|]. destruct colors as [|c colors]; [congruence|].
  unfold make_cumulative_plot. cbn [combine bands]. unfold broaden, is_none. replace (2 <=? length row)%nat with true by (symmetry; apply Nat.leb_le, h). reflexivity.
Qed.
Lemma stacked_grows F values ws k g : 0 < F -> (forall w x, In w ws -> In x (meant values w) -> 0 <= x) -> stacked F values ws k g <= stacked F values ws (S k) g.
Proof.
  intros hF. revert k. induction ws as [|w ws IH]; intros k hw; unfold stacked.
  - destruct k; cbn; lra.
  - destruct k as [|k].
    + cbn. pose proof (spectrum_nonneg F values (meant values w) g hF (fun x => hw w x (or_introl eq_refl))). lra.
    + cbn [firstn map total]. apply Rplus_le_compat_l. apply IH. intros w' x hi. apply hw. right. exact hi.
Qed.

(** cases *)
Example ex_comparable : comparable false (WList [1; 2]) /\ ~ comparable false (WArray [1; 2]).
Proof. split; [exact I|]. intros [H|H]; [discriminate|cbn in H; lia]. Qed.
Example ex_stack : length [tt; tt] = length [WNone; WList [1; 2]] /\ forall w, In w [WNone; WList [1; 2]] -> comparable false w.
Proof. split; [reflexivity|]. intros w [<-|[<-|[]]]; exact I. Qed.
Lemma plot_array_refuted : exists (grid values row : list R), length row = length values /\
  make_cumulative_plot false false grid values 1 tt [] [WArray row] (Some [tt]) (Some [tt]) = ([], Some BValueError).
Proof. exists [0; 1], [0; 1], [1; 2]. split; [reflexivity|]. apply array_fails; [cbn; lia|discriminate|discriminate]. Qed.
(** the corners of a band at the lower curve are not at grid points *)
Lemma polygon_refuted : exists (grid values : list R) (b : band unit unit) x,
  In b (fst (make_cumulative_plot false false grid values 1 tt [] [WNone] (Some [tt]) (Some [tt]))) /\ In x (b_x b) /\ ~ In x grid.
Proof.
  exists [1; 2], [1]. unfold make_cumulative_plot. cbn [combine bands map]. rewrite values_ok by (try exact I; lra). cbn [fst bands].
  eexists. exists 0. split; [left; reflexivity|]. cbn [b_x app map In]. split; [right; right; left; reflexivity|]. intros [H|[H|[]]]; lra.
Qed.
Lemma colors_refuted : exists (values : list R) (random : list unit) (ws : list weights), length random = length values /\
  (length (fst (make_cumulative_plot false false [0%R] values 1%R tt random ws None None)) < length ws)%nat.
Proof. exists [0], [tt], [WList [1]; WList [2]]. split; [reflexivity|]. cbn. lia. Qed.
