(** Fits that fail or use old settings; the integrated potential *)
From Coquelicot Require Import Coquelicot.
From Coq Require Import Reals ZArith String List Bool Arith Lia Lra Psatz Sorting.Permutation Sorting.Sorted.
From Verif Require Import Vec GeomModel GeomProofs ContProofs PairModel FitModel FitSpec FitProofs FitProofs2.
Import ListNotations.
Open Scope R_scope.

(** an implementation of argsort exists *)
Lemma insert_perm {A} (key : A -> R) a l : Permutation (a :: l) (insert key a l).
Proof.
  induction l as [|b l IH]; cbn [insert]; [reflexivity|]. destruct (leb _ _); [reflexivity|].
  transitivity (b :: a :: l); [constructor|]. constructor. exact IH.
Qed.
Lemma sort_by_perm {A} (key : A -> R) l : Permutation l (sort_by key l).
Proof. induction l as [|a l IH]; [constructor|]. cbn. transitivity (a :: sort_by key l); [constructor; exact IH|apply insert_perm]. Qed.
Lemma insert_sorted {A} (key : A -> R) a l : StronglySorted Rle (map key l) -> StronglySorted Rle (map key (insert key a l)).
Proof.
  induction l as [|b l IH]; cbn [insert map]; intros h; [constructor; constructor|]. inversion h as [|x y hs hf]; subst.
  destruct (leb (key a) (key b)) eqn:E; cbn [map].
  - apply leb_true in E. constructor; [exact h|]. constructor; [exact E|]. apply (Forall_impl _ (fun x (hx : key b <= x) => Rle_trans _ _ _ E hx) hf).
  - constructor; [apply IH, hs|]. rewrite Forall_forall in *. intros x hx.
    assert (hx2 : In x (map key (a :: l))) by (apply (Permutation_in _ (Permutation_sym (Permutation_map key (insert_perm key a l)))), hx).
    destruct hx2 as [<-|hx2]; [|apply hf, hx2]. unfold leb in E. destruct (Rle_dec (key a) (key b)); [discriminate|lra].
Qed.
Lemma sort_by_sorted {A} (key : A -> R) l : StronglySorted Rle (map key (sort_by key l)).
Proof. induction l as [|a l IH]; [constructor|]. apply insert_sorted, IH. Qed.
Lemma insertion_sorts : sorts (sort_by dx).
Proof. intros l. split; [apply sort_by_perm|apply sort_by_sorted]. Qed.

Lemma pseudo_int z y w : (0 <= z)%Z -> pseudo (IZR z, y, w) = (z * 10000)%Z.
Proof.
  intros h. unfold pseudo, dx, trunc. cbn [fst]. assert (hz : 0 <= IZR z) by (apply IZR_le, h).
  destruct (Rle_dec 0 (IZR z * 10 ^ 4)) as [g|g]; [|exfalso; apply g; simpl in *; nra].
  apply Int_part_bounds. rewrite mult_IZR. simpl in *; lra.
Qed.
Lemma pseudo_1 y w : pseudo (1, y, w) = 10000%Z.
Proof. apply (pseudo_int 1). lia. Qed.
Lemma pseudo_2 y w : pseudo (2, y, w) = 20000%Z.
Proof. apply (pseudo_int 2). lia. Qed.
Definition four_points : list point :=
  [Point 1 (-3) 1 "g" None; Point 1 (-2) 1 "g" None; Point 2 (-1) 1 "g" None; Point 2 (-1) 1 "g" None].
(** the order is not reduced to the number of merged points *)
Lemma order_kept : exists f, length (deriv f) = 4%nat /\ Forall (fun p => p_r p < r_cut f /\ 0 < p_w p) (deriv f) /\ order f = 3%Z /\
  forall sort splfit quad interp, sorts sort ->
    snd (fit sort splfit quad interp f) = FErr TypeError /\
    exists used, fit_data (r_cut f) (sort (data f)) = FOk used /\ splrep_check (map dx used) 2 = None.
Proof.
  exists (with_points (new_fitting 3 None 3 (5 / 1000)) four_points ""). split; [reflexivity|]. split.
  { cbn. repeat constructor; cbn; lra. }
  split; [reflexivity|]. intros sort splfit quad interp hs.
  set (f := with_points _ _ _).
  assert (ha : ascending (data f)).
  { unfold ascending, data, f. cbn [deriv with_points four_points map]. unfold dx. cbn [fst p_r p_dv p_w]. repeat constructor; lra. }
  assert (hd : fit_data (r_cut f) (sort (data f)) = FOk [average [(1, -3, 1); (1, -2, 1)]; average [(2, -1, 1); (2, -1, 1)];
     (3, 0, 1000 * Rmax (dw (average [(1, -3, 1); (1, -2, 1)])) (dw (average [(2, -1, 1); (2, -1, 1)])))]).
  { unfold fit_data. rewrite (group_perm _ (data f)); [|apply hs|exact ha|apply Permutation_sym, hs].
    unfold group_points, data, f. cbn [deriv with_points four_points map r_cut new_fitting p_r p_dv p_w].
    assert (hg : groups [(1, -3, 1); (1, -2, 1); (2, -1, 1); (2, -1, 1)] = [[(1, -3, 1); (1, -2, 1)]; [(2, -1, 1); (2, -1, 1)]]).
    { do 4 (cbn [groups Z.eqb Pos.eqb]; rewrite ?pseudo_1, ?pseudo_2). reflexivity. }
    rewrite hg. cbn [map filter].
    assert (h1 : dx (average [(1, -3, 1); (1, -2, 1)]) = 1) by (unfold average, mean, lsum, dx; cbn; field).
    assert (h2 : dx (average [(2, -1, 1); (2, -1, 1)]) = 2) by (unfold average, mean, lsum, dx; cbn; field).
    rewrite h1, h2. replace (ltb 1 3) with true by (symmetry; apply ltb_true; lra). replace (ltb 2 3) with true by (symmetry; apply ltb_true; lra).
    reflexivity. }
  split.
  - unfold fit. cbn [r_cut with_fit deriv smooth]. fold (data f). rewrite hd. reflexivity.
  - eexists. split; [exact hd|]. unfold splrep_check.
    rewrite (increasing_sorted); [reflexivity|]. cbn [map].
    assert (h1 : dx (average [(1, -3, 1); (1, -2, 1)]) = 1) by (unfold average, mean, lsum, dx; cbn; field).
    assert (h2 : dx (average [(2, -1, 1); (2, -1, 1)]) = 2) by (unfold average, mean, lsum, dx; cbn; field).
    rewrite h1, h2. unfold dx. cbn [fst]. repeat constructor; lra.
Qed.
(** the smoothing and the order of the first fit are kept when points are added *)
Definition pt (r : R) : point := Point r (-1) 1 "g" None.
Lemma settings_kept : forall sort splfit quad interp, sorts sort ->
  exists f p q, let fit := fit sort splfit quad interp in let add f p := with_points f (deriv f ++ [p]) (comments f) in
  let at_once := fit (add (add f p) q) in let first := fit (add f p) in let second := fit (add (fst first) q) in
  snd at_once = FOk tt /\ snd first = FOk tt /\ snd second = FOk tt /\
  smooth (fst at_once) = Some (3 - sqrt 6) /\ smooth (fst second) = Some 0 /\ (0 < 3 - sqrt 6) /\
  order (fst at_once) = 2%Z /\ order (fst second) = 1%Z.
Proof.
  intros sort splfit quad interp hs. exists (new_fitting 3 None 3 (5 / 1000)), (pt 1), (pt 2). cbv zeta.
  set (f0 := new_fitting 3 None 3 (5 / 1000)). set (f1 := with_points f0 (deriv f0 ++ [pt 1]) (comments f0)).
  set (f2 := with_points f1 (deriv f1 ++ [pt 2]) (comments f1)).
  assert (n2 : NoDup (map pseudo [(1, -1, 1); (2, -1, 1)])).
  { cbn [map]. rewrite pseudo_1, pseudo_2. repeat constructor; cbn; intuition discriminate. }
  assert (n1 : NoDup (map pseudo [(1, -1, 1)])) by (cbn [map]; repeat constructor; cbn; tauto).
  destruct (fit_distinct sort splfit quad interp hs f2) as (w2 & s2 & e2 & m2 & _);
    [discriminate|cbn; lia|cbn; repeat constructor; cbn; lra|exact n2|].
  destruct (fit_distinct sort splfit quad interp hs f1) as (w1 & s1 & e1 & m1 & _);
    [discriminate|cbn; lia|cbn; repeat constructor; cbn; lra|exact n1|].
  specialize (m2 eq_refl). specialize (m1 eq_refl). cbv zeta in e1, e2. rewrite e1, e2. cbn [fst snd].
  match goal with |- context [FitModel.fit sort splfit quad interp ?g] => set (f3 := g) end.
  destruct (fit_distinct sort splfit quad interp hs f3) as (w3 & s3 & e3 & _ & m3);
    [discriminate|cbn; lia|cbn; repeat constructor; cbn; lra|exact n2|].
  specialize (m3 s1 eq_refl). cbv zeta in e3. rewrite e3. cbn [fst snd smooth order with_fit].
  split; [reflexivity|]. split; [reflexivity|]. split; [reflexivity|]. split; [|split; [|split; [|split; reflexivity]]].
  - rewrite m2. cbn. f_equal. replace (1 + 1 + 1) with 3 by ring. replace (2 * 3) with 6 by ring. reflexivity.
  - rewrite m3, m1. cbn. f_equal. replace (2 * (1 + 1)) with (2 * 2) by ring. rewrite sqrt_square by lra. ring.
  - assert (h : sqrt 6 < 3); [|lra]. rewrite <- (sqrt_square 3) by lra. apply sqrt_lt_1; lra.
Qed.
(** a fit before any point was added spoils the later fits *)
Lemma early_fit : forall sort splfit quad interp, sorts sort ->
  exists f p, let fit := fit sort splfit quad interp in let add f p := with_points f (deriv f ++ [p]) (comments f) in
  snd (fit (add f p)) = FOk tt /\ snd (fit f) = FErr ValueError /\ snd (fit (add (fst (fit f)) p)) <> FOk tt.
Proof.
  intros sort splfit quad interp hs. exists (new_fitting 3 None 3 (5 / 1000)), (pt 1). cbv zeta.
  set (f0 := new_fitting 3 None 3 (5 / 1000)).
  assert (n1 : NoDup (map pseudo [(1, -1, 1)])) by (cbn [map]; repeat constructor; cbn; tauto).
  destruct (fit_distinct sort splfit quad interp hs (with_points f0 (deriv f0 ++ [pt 1]) (comments f0))) as (w1 & s1 & e1 & _);
    [discriminate|cbn; lia|cbn; repeat constructor; cbn; lra|exact n1|].
  cbv zeta in e1. rewrite e1. split; [reflexivity|].
  apply (fit_too_early sort splfit quad interp hs f0); [reflexivity|cbn; lia].
Qed.

(** ** The potential *)
Section Grid.
Variable rc : R.
Hypothesis Hrc : 0 < rc.
Lemma grid_at i : fit_grid rc i = rc * (1 - INR i / 99).
Proof. unfold fit_grid, linspace. change (INR (100 - 1)) with (INR 99). replace (INR 99) with 99 by (rewrite INR_IZR_INZ; reflexivity). field. Qed.
Lemma grid_lt i j : (i < j)%nat -> fit_grid rc j < fit_grid rc i.
Proof. intros h. rewrite !grid_at. apply lt_INR in h. apply Rmult_lt_compat_l; [exact Hrc|]. lra. Qed.
Lemma grid_range i : (i < 100)%nat -> 0 <= fit_grid rc i <= rc.
Proof.
  intros h. rewrite grid_at. assert (h1 : INR i <= 99). { replace 99 with (INR 99) by (rewrite INR_IZR_INZ; reflexivity). apply le_INR. lia. }
  pose proof (pos_INR i). split; [apply Rmult_le_pos; lra|]. assert (0 <= rc * (INR i / 99)) by (apply Rmult_le_pos; lra). lra.
Qed.
Lemma grid_first : fit_grid rc 0 = rc.
Proof. rewrite grid_at. change (INR 0) with 0. field. Qed.
Lemma grid_last : fit_grid rc 99 = 0.
Proof. rewrite grid_at. replace (INR 99) with 99 by (rewrite INR_IZR_INZ; reflexivity). field. Qed.
End Grid.
Section Integrated.
Variables (quad : (R -> R) -> R -> R -> R) (interp : list (R * R) -> R -> R) (dv : R -> R) (rc : R).
Hypothesis Hrc : 0 < rc.
Lemma value_integral i : exact_quadrature quad dv -> is_RInt dv rc (fit_grid rc i) (fit_value quad dv rc i).
Proof.
  intros h. induction i as [|i IH]; cbn [fit_value].
  - rewrite grid_first. apply (is_RInt_point dv rc).
  - apply (is_RInt_Chasles dv rc (fit_grid rc i)); [exact IH|apply h].
Qed.
Notation grid_list := (fit_table quad dv rc).
Lemma grid_NoDup : NoDup (map fst grid_list).
Proof.
  unfold fit_table. rewrite map_map. cbn [fst]. apply FinFun.Injective_map_NoDup.
  - intros i j h. destruct (Nat.lt_trichotomy i j) as [g|[g|g]]; [|exact g|]; apply (grid_lt rc Hrc) in g; lra.
  - apply NoDup_rev, seq_NoDup.
Qed.
Lemma potential_node i : interpolates interp -> (i < 100)%nat -> integrate_vrep quad interp dv rc (fit_grid rc i) = fit_value quad dv rc i.
Proof.
  intros hi h. unfold integrate_vrep. destruct (grid_range rc Hrc i h) as [h1 h2].
  replace (ltb (fit_grid rc i) 0) with false by (symmetry; apply ltb_false; lra).
  replace (ltb rc (fit_grid rc i)) with false by (symmetry; apply ltb_false; lra). cbn [orb].
  apply hi; [apply grid_NoDup|]. apply in_map_iff. exists i. split; [reflexivity|]. apply in_rev. rewrite rev_involutive. apply in_seq. lia.
Qed.
(** at the 100 grid points the potential is the integral of the fitted derivative from the cutoff *)
Lemma potential_integral i : interpolates interp -> exact_quadrature quad dv -> (i < 100)%nat ->
  is_RInt dv rc (fit_grid rc i) (integrate_vrep quad interp dv rc (fit_grid rc i)).
Proof. intros hi hq h. rewrite (potential_node i hi h). apply value_integral, hq. Qed.
(** it vanishes at the cutoff and beyond *)
Lemma potential_cutoff r : interpolates interp -> rc <= r -> integrate_vrep quad interp dv rc r = 0.
Proof.
  intros hi h. destruct (Req_dec r rc) as [->|hne].
  - rewrite <- (grid_first rc) at 2. rewrite potential_node by (exact hi || lia). reflexivity.
  - unfold integrate_vrep. replace (ltb rc r) with true by (symmetry; apply ltb_true; lra). rewrite orb_true_r. reflexivity.
Qed.
(** a negative derivative gives a potential that decreases *)
Lemma potential_decreasing i j : interpolates interp -> exact_quadrature quad dv -> (i < j < 100)%nat ->
  (forall r, continuous dv r) -> (forall r, 0 < r < rc -> dv r < 0) ->
  integrate_vrep quad interp dv rc (fit_grid rc i) < integrate_vrep quad interp dv rc (fit_grid rc j).
Proof.
  intros hi hq [hij hj] hc hn. rewrite !potential_node by (exact hi || lia).
  assert (hstep : forall k, (S k < 100)%nat -> fit_value quad dv rc k < fit_value quad dv rc (S k)).
  { intros k hk. cbn [fit_value]. pose proof (hq (fit_grid rc (S k)) (fit_grid rc k)) as h1.
    pose proof (hq (fit_grid rc k) (fit_grid rc (S k))) as h2. apply is_RInt_swap in h2.
    pose proof (is_RInt_unique _ _ _ _ h2) as e2. 
    assert (hp : 0 < RInt (fun r => - dv r) (fit_grid rc (S k)) (fit_grid rc k)).
    { apply RInt_gt_0; [apply grid_lt; [exact Hrc|lia]| |].
      - intros r hr. pose proof (grid_range rc Hrc (S k) hk). pose proof (grid_range rc Hrc k ltac:(lia)). assert (dv r < 0) by (apply hn; lra). lra.
      - intros r _. apply (continuous_opp dv r), hc. }
    rewrite (RInt_opp dv) in hp; [|eexists; exact h2]. rewrite e2 in hp. unfold opp in hp. simpl in hp. lra. }
  clear hi hq hc hn. induction hij as [|j hij IH]; [apply hstep, hj|]. specialize (IH ltac:(lia)). specialize (hstep j hj). lra.
Qed.
End Integrated.
(** the derivative returned with der=1 is not the derivative of the potential: the potential is a cubic spline of tabulated
    values, so that its derivative is not the fitted cubic spline *)
Lemma derivative_differs : forall quad interp rc, 0 < rc ->
  let dv := fun r => (r - rc) ^ 3 in let V := integrate_vrep quad interp dv rc in
  cubic_between (interp (fit_table quad dv rc)) (fit_grid rc 1) (fit_grid rc 0) ->
  exists r, 0 < r < rc /\ ~ is_derive V r (dv r).
Proof.
  intros quad interp rc h dv V (c0 & c1 & c2 & c3 & hc).
  set (a := fit_grid rc 1). set (b := fit_grid rc 0). assert (hab : a < b) by (apply grid_lt; [exact h|lia]).
  assert (ha : 0 <= a) by (apply grid_range; [exact h|lia]). assert (hb : b = rc) by (unfold b; apply grid_first).
  set (q := fun r => c1 + 2 * c2 * r + 3 * c3 * r ^ 2).
  assert (hq : forall r, a < r < b -> is_derive V r (q r)).
  { intros r hr. apply (is_derive_ext_loc (fun r => c0 + c1 * r + c2 * r ^ 2 + c3 * r ^ 3)).
    - assert (he : 0 < Rmin (r - a) (b - r)) by (apply Rmin_glb_lt; lra). exists (mkposreal _ he). intros y hy.
      unfold ball in hy. simpl in hy. unfold AbsRing_ball, abs, minus, plus, opp in hy. simpl in hy.
      pose proof (Rmin_l (r - a) (b - r)). pose proof (Rmin_r (r - a) (b - r)). apply Rabs_def2 in hy.
      assert (hy2 : a < y < b) by lra. unfold V, integrate_vrep.
      replace (ltb y 0) with false by (symmetry; apply ltb_false; lra).
      replace (ltb rc y) with false by (symmetry; apply ltb_false; lra). cbn [orb]. symmetry. apply hc, hy2.
    - unfold q. auto_derive; [exact I|]. ring. }
  set (u := fun t => a + t * ((b - a) / 5)).
  assert (hu : forall t, 0 < t < 5 -> a < u t < b) by (intros t ht; unfold u; split; nra).
  assert (hit : forall t, 0 < t < 5 -> q (u t) = dv (u t) \/ exists r, 0 < r < rc /\ ~ is_derive V r (dv r)).
  { intros t ht. destruct (Req_EM_T (q (u t)) (dv (u t))) as [e|e]; [left; exact e|]. right. exists (u t). specialize (hu t ht). split; [lra|].
    intros hd. apply e. rewrite <- (is_derive_unique _ _ _ hd). symmetry. apply is_derive_unique, hq, hu. }
  destruct (hit 1 ltac:(lra)) as [e1|e]; [|exact e]. destruct (hit 2 ltac:(lra)) as [e2|e]; [|exact e].
  destruct (hit 3 ltac:(lra)) as [e3|e]; [|exact e]. destruct (hit 4 ltac:(lra)) as [e4|e]; [|exact e].
  exfalso. assert (h0 : q (u 4) - 3 * q (u 3) + 3 * q (u 2) - q (u 1) = 0) by (unfold q, u; field).
  rewrite e1, e2, e3, e4 in h0. assert (h6 : dv (u 4) - 3 * dv (u 3) + 3 * dv (u 2) - dv (u 1) = 6 * ((b - a) / 5) ^ 3) by (unfold dv, u; field).
  rewrite h6 in h0. assert (0 < ((b - a) / 5) ^ 3) by (apply pow_lt; lra). lra.
Qed.
