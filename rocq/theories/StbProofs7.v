(** Cases of the hypotheses *)
From Coq Require Import Reals ZArith String Ascii List Bool Arith Lia Lra Psatz.
From Coquelicot Require Import Coquelicot.
From Verif Require Import Vec GeomModel TimerModel StbModel StbSpec StbProofs StbProofs2 StbProofs3 StbProofs4 StbProofs5 StbProofs6.
Import ListNotations.
Open Scope R_scope.

Lemma rmin_small : rmin < / 1000000.
Proof. unfold rmin. apply Rmult_lt_reg_r with (10 ^ 7); [lra|]. unfold Rdiv. rewrite ?Rmult_assoc, ?Rinv_l by lra. lra. Qed.
Lemma ex_w : rmin * (INR (3 - 1)) ^ 2 < 5 - rmin.
Proof. pose proof rmin_pos. pose proof rmin_small. cbn [Nat.sub INR]. lra. Qed.
Definition ex_R : R := 2 * rgrid 5 3 1.
Lemma ex_R_bounds : 2 < ex_R < 3.
Proof. pose proof rmin_pos. pose proof rmin_small. unfold ex_R, rgrid, lin01. cbn [Nat.sub INR]. lra. Qed.
(** the grid with three radii and angles, range 5, has points; one of them beyond the plane *)
Example ex_grid : exists grid, make_grid 5 ex_R 3 3 = SOk grid /\ grid <> [].
Proof.
  destruct (point_beyond 5 3 3 ltac:(lia) ltac:(lia) ex_w) as [p [hp _]]. fold ex_R in hp. pose proof rmin_pos. pose proof rmin_small. pose proof ex_R_bounds.
  unfold make_grid. rewrite (never_illegal 5 ex_R 3 3) by (lia || lra). destruct (half_grid 5 ex_R 3 3) as [|q l]; [destruct hp|]. eexists. split; [reflexivity|discriminate].
Qed.
(** an element with one flat orbital, which solves the radial equation *)
Definition ex_el : element := Element "H" ["1s"%string] (fun _ _ => 1) (fun _ _ => 0) (fun _ => 1) (fun _ => 0) (fun _ => 1) (fun _ _ => 5).
Example ex_radial : forall r, 0 < r -> - (1 / 2) * ddunl ex_el "1s" r / r + (veff ex_el r + INR 0 * (INR 0 + 1) / (2 * r ^ 2)) * Rnl ex_el "1s" r = epsilon ex_el "1s" * Rnl ex_el "1s" r.
Proof. intros r hr. cbn. field. lra. Qed.
Lemma ex_range : get_range (/ 100) (elements ex_el ex_el) = SOk 5.
Proof.
  unfold get_range, elements. rewrite String.eqb_refl. cbn [ranges list_max map valence ex_el wf_range fold_left]. unfold fmax. assert (a : ltb 5 0 = false) by (apply ltb_false; lra). rewrite a. assert (b : ltb 20 5 = false) by (apply ltb_false; lra). rewrite b. reflexivity.
Qed.
Lemma int_pos grid : grid <> [] -> (forall p, In p grid -> 0 < snd p /\ 0 < fst (fst p)) -> 0 < int_H ex_el ex_el ex_R grid 9 0 "1s" "1s".
Proof.
  intros ne h. assert (g : forall l, (forall p, In p l -> 0 < snd p /\ 0 < fst (fst p)) -> 0 <= int_H ex_el ex_el ex_R l 9 0 "1s" "1s" /\ (l <> [] -> 0 < int_H ex_el ex_el ex_R l 9 0 "1s" "1s")).
  { induction l as [|p l IH]; intros hl; [split; [cbn; lra|congruence]|]. destruct (IH (fun q hq => hl q (or_intror hq))) as [i1 _]. destruct (hl p (or_introl eq_refl)) as [p1 p2].
    assert (e : int_H ex_el ex_el ex_R (p :: l) 9 0 "1s" "1s" = snd p * fst (fst p) + int_H ex_el ex_el ex_R l 9 0 "1s" "1s").
    { unfold int_H at 1. unfold lsum. cbn [fold_right]. fold (lsum l (fun p => let r1 := rad1 p in let r2 := rad2 ex_R p in Rnl ex_el "1s" r1 * (- (1 / 2) * ddunl ex_el "1s" r2 / r2 + (v_part ex_el r1 + v_part ex_el r2 + INR 0 * (INR 0 + 1) / (2 * r2 ^ 2)) * Rnl ex_el "1s" r2) * aux ex_R 9 p)). fold (int_H ex_el ex_el ex_R l 9 0 "1s" "1s"). f_equal.
      cbv zeta. unfold v_part, aux, gphi. cbn [nth ex_el Rnl ddunl veff conf INR]. unfold Rdiv. rewrite !Rmult_0_l, !Rmult_0_r, !Rmult_0_l. field. }
    rewrite e. split; [nra|intros _; nra]. }
  apply g; assumption.
Qed.
(** a table is made *)
Example ex_run : exists t, run ex_el ex_el ex_R ex_R 1 3 3 (/ 100) = SOk t.
Proof.
  pose proof ex_R_bounds. pose proof rmin_pos. pose proof rmin_small. destruct ex_grid as (grid & hg & ne). unfold run. assert (a : ltb ex_R (/ 1000) = false) by (apply ltb_false; lra). rewrite a, ex_range.
  unfold pairs. rewrite String.eqb_refl. unfold linspace. cbn [seq map run_loop]. replace (ex_R + INR 0 * ((ex_R - ex_R) / INR (1 - 1))) with ex_R by (cbn [INR]; ring). assert (b : ltb (2 * 5) ex_R = false) by (apply ltb_false; lra). rewrite b, hg.
  unfold rows_at. cbn [fold_left fst snd]. destruct (row ex_el ex_el ex_R grid) as [[r m] m2] eqn:E. cbn [fst snd app run_loop map]. 
  assert (hm : 0 < m).
  { pose proof (int_pos grid ne (fun p hp => proj2 (proj2 (grid_points 5 ex_R 3 3 ltac:(lra) ltac:(lra) ltac:(lia) ltac:(lia) grid hg p hp)))) as hp. unfold row, calculate_mels in E.
    assert (es : select_integrals (valence ex_el) (valence ex_el) = [("sss"%string, "1s"%string, "1s"%string)]) by reflexivity. rewrite es in E. cbn [fold_left] in E. change (index_of "sss" integrals 0) with (Some 9%nat) in E. cbn [letter String.get angular_momentum fst snd] in E.
    change (angular_momentum "s") with (Some 0%nat) in E. cbv iota in E. set (x := int_H ex_el ex_el ex_R grid 9 0 "1s" "1s") in *. assert (em : m = fold_left fmax (map Rabs (set_nth 9 x (repeat 0 10))) 0) by (injection E as _ <- _; reflexivity). rewrite em.
    unfold set_nth. cbn [repeat firstn skipn app map fold_left]. rewrite !Rabs_R0. assert (z : fmax 0 0 = 0) by (unfold fmax; destruct (ltb 0 0); reflexivity). rewrite !z. unfold fmax. rewrite Rabs_right by lra. assert (c : ltb 0 x = true) by (apply ltb_true; exact hp). rewrite c. exact hp. }
  unfold fmax. assert (c : ltb 0 m = true) by (apply ltb_true; exact hm). rewrite c. assert (d : leb m 0 = false) by (apply leb_false; exact hm). rewrite d. eexists. reflexivity.
Qed.
(** a table up to twice the range is not made *)
Example ex_run_fails : run ex_el ex_el 1 10 46 50 150 (/ 100) = SErr IndexError.
Proof. pose proof rmin_small. replace 10 with (2 * 5) by ring. apply (run_to_range ex_el ex_el 1 46 50 150 (/ 100) 5); try lia; try lra. apply ex_range. Qed.
Example ex_select : select_integrals ["2s"; "2p"]%string ["4s"; "3d"]%string = [("pds", "2p", "3d"); ("pdp", "2p", "3d"); ("sds", "2s", "3d"); ("sss", "2s", "4s")]%string.
Proof. reflexivity. Qed.
Example ex_find : find_range (/ 10) [(1, 3); (2, -1); (3, / 5)] = Some 2.
Proof.
  unfold find_range, wf_max. cbn [map fold_left snd rev app find fst]. replace (Rabs (-1)) with 1 by (rewrite Rabs_left; lra). rewrite (Rabs_right 3), (Rabs_right (/ 5)) by lra. unfold fmax.
  assert (a : ltb 0 3 = true) by (apply ltb_true; lra). rewrite a. assert (b : ltb 3 1 = false) by (apply ltb_false; lra). rewrite b. assert (c : ltb 3 (/ 5) = false) by (apply ltb_false; lra). rewrite c.
  assert (d : ltb (/ 10 * 3) (/ 5) = false) by (apply ltb_false; lra). rewrite d. assert (e : ltb (/ 10 * 3) 1 = true) by (apply ltb_true; lra). rewrite e. reflexivity.
Qed.
