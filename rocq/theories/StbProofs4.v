(** Points of the grid *)
From Coq Require Import Reals ZArith String Ascii List Bool Arith Lia Lra Psatz.
From Coquelicot Require Import Coquelicot.
From Verif Require Import Vec GeomModel StbModel StbSpec StbProofs StbProofs2 StbProofs3.
Import ListNotations.
Open Scope R_scope.

Section Element.
Variables h ra rb ta tb : R.
Hypothesis (hh : 0 < h) (hra : 0 < ra) (hrb : ra < rb) (hta : 0 <= ta) (htb : ta < tb) (hpi : tb <= PI).
Lemma below_any r t th : 0 <= r <= rb -> 0 <= th -> th <= t -> t <= PI -> rb * cos th <= h -> r * cos t <= h.
Proof. intros hr h0 hl hp e. pose proof (cos_mono th t h0 hl hp). destruct (Rle_lt_dec 0 (cos t)); nra. Qed.
(** the point lies between the radii and angles of the element, and, unless the outer corner is beyond the plane, below the plane *)
Theorem piece_center r0 t0 A : make_piece h ra rb ta tb = Piece r0 t0 A -> ra <= r0 < rb /\ ta <= t0 <= tb /\ 0 < t0 < PI /\ (rb * cos tb <= h -> r0 * cos t0 <= h).
Proof.
  unfold make_piece. set (z1 := rb * cos ta). set (z2 := ra * cos ta). set (z3 := ra * cos tb). set (z4 := rb * cos tb).
  destruct (leb z1 h) eqn:E1.
  { apply leb_true in E1. intros e. injection e as <- <- _. repeat split; try (pose proof PI_RGT_0; lra). intros _. apply (below_any _ _ ta); try lra. exact E1. }
  apply leb_false in E1. destruct (ltb h z1 && leb z2 h && leb z4 h) eqn:C2.
  { apply andb_true_iff in C2. destruct C2 as [C2 E4]. apply leb_true in E4. destruct (mid_th h rb ta tb hh ltac:(lra) hta ltac:(lra) hpi E1 E4) as [p1 [p2 [p3 p4]]]. intros e. injection e as <- <- _. repeat split; try (pose proof PI_RGT_0; lra).
    intros _. apply (below_any _ _ (acos (h / rb))); try lra. }
  destruct (ltb h z1 && ltb h z2 && leb z3 h && leb z4 h) eqn:C3.
  { apply andb_true_iff in C3. destruct C3 as [C3 E4]. apply leb_true in E4. destruct (mid_th h rb ta tb hh ltac:(lra) hta ltac:(lra) hpi E1 E4) as [p1 [p2 [p3 p4]]]. intros e. injection e as <- <- _. repeat split; try (pose proof PI_RGT_0; lra).
    intros _. apply (below_any _ _ (acos (h / rb))); try lra. }
  assert (hx : h < z4 -> z3 <= h -> ra <= 1 / 2 * (ra + h / cos tb) < rb).
  { intros a4 a3. unfold z4, z3 in *. assert (hc : 0 < cos tb) by nra. assert (ra <= h / cos tb < rb). { split; [apply Rmult_le_reg_r with (cos tb)|apply Rmult_lt_reg_r with (cos tb)]; try exact hc; unfold Rdiv; rewrite Rmult_assoc, Rinv_l by lra; lra. } lra. }
  destruct (ltb h z1 && ltb h z2 && ltb h z4 && leb z3 h) eqn:C4.
  { apply andb_true_iff in C4. destruct C4 as [C4 E3]. apply andb_true_iff in C4. destruct C4 as [C4 E4]. apply andb_true_iff in C4. destruct C4 as [_ E2]. apply leb_true in E3. apply ltb_true in E4. apply ltb_true in E2.
    destruct (mid_th h ra ta tb hh hra hta ltac:(lra) hpi E2 E3) as [p1 [p2 [p3 p4]]]. intros e. injection e as <- <- _. specialize (hx E4 E3). split; [lra|]. split; [lra|]. split; [pose proof PI_RGT_0; lra|]. intros a4. exfalso. unfold z4 in *. lra. }
  destruct (ltb h z1 && ltb h z4 && leb z2 h && leb z3 h) eqn:C5.
  { apply andb_true_iff in C5. destruct C5 as [C5 E3]. apply andb_true_iff in C5. destruct C5 as [C5 _]. apply andb_true_iff in C5. destruct C5 as [_ E4]. apply leb_true in E3. apply ltb_true in E4.
    intros e. injection e as <- <- _. specialize (hx E4 E3). split; [lra|]. split; [lra|]. split; [pose proof PI_RGT_0; lra|]. intros a4. exfalso. unfold z4 in *. lra. }
  destruct (ltb h z3); discriminate.
Qed.
End Element.

Lemma polar r t : (r * sin t) ^ 2 + (r * cos t) ^ 2 = r ^ 2.
Proof. pose proof (sin2_cos2 t) as e. unfold Rsqr in e. replace ((r * sin t) ^ 2 + (r * cos t) ^ 2) with (r ^ 2 * (sin t * sin t + cos t * cos t)) by ring. rewrite e. ring. Qed.
Section Grid.
Variables (w Rz : R) (nt nr : nat).
Hypothesis (hw : rmin < w) (hR : 0 < Rz) (ht : (2 <= nt)%nat) (hr : (2 <= nr)%nat).
Let h := Rz / 2.
Lemma in_half p : In p (half_grid w Rz nt nr) -> exists i j r0 t0 A, (i < nr - 1)%nat /\ (j < nt - 1)%nat /\
  make_piece h (rgrid w nr i) (rgrid w nr (i + 1)) (tgrid nt j) (tgrid nt (j + 1)) = Piece r0 t0 A /\ p = ((r0 * sin t0, r0 * cos t0), A) /\
  rgrid w nr i <= r0 < rgrid w nr (i + 1) /\ 0 < t0 < PI /\ 0 < A /\ rad1 p < w /\ rad2 Rz p < w.
Proof.
  intros hp. unfold half_grid in hp. apply in_flat_map in hp. destruct hp as [q [hq hp]]. apply (in_pieces w Rz nt nr ht hr) in hq. destruct hq as (i & j & hi & hj & e). subst q.
  destruct (piece_hyps w nt nr hw ht hr i j hi hj) as (a1 & a2 & a3 & a4 & a5). fold h in hp. destruct (make_piece h _ _ _ _) as [r0 t0 A| |] eqn:E; cbn [keep] in hp; [|contradiction|contradiction].
  destruct (ltb 0 A && _ && _) eqn:C; [|contradiction]. destruct hp as [<-|[]]. apply andb_true_iff in C. destruct C as [C C3]. apply andb_true_iff in C. destruct C as [C1 C2]. apply ltb_true in C1. apply ltb_true in C2. apply ltb_true in C3.
  destruct (piece_center h _ _ _ _ (h_pos Rz hR) a1 a2 a3 a4 a5 _ _ _ E) as [c1 [c2 [c2' c3]]]. exists i, j, r0, t0, A. split; [exact hi|]. split; [exact hj|]. split; [exact E|]. split; [reflexivity|]. split; [exact c1|]. split; [lra|]. split; [exact C1|]. split; [exact C2|exact C3].
Qed.
(** every point of the grid is within the range of both atoms, has a positive area and is not on the far side of the axis *)
Lemma mirror_rad p : rad1 (mirror Rz p) = rad2 Rz p /\ rad2 Rz (mirror Rz p) = rad1 p.
Proof. unfold rad1, rad2, mirror. cbn [fst snd]. split; f_equal; field. Qed.
Theorem grid_points grid : make_grid w Rz nt nr = SOk grid -> forall p, In p grid -> rad1 p < w /\ rad2 Rz p < w /\ 0 < snd p /\ 0 < fst (fst p).
Proof.
  unfold make_grid. rewrite (never_illegal w Rz nt nr hw hR ht hr). intros e p hp.
  assert (g : forall p, In p (half_grid w Rz nt nr) -> rad1 p < w /\ rad2 Rz p < w /\ 0 < snd p /\ 0 < fst (fst p)).
  { intros q hq. destruct (in_half q hq) as (i & j & r0 & t0 & A & hi & hj & E & -> & c1 & c2 & c3 & c4 & c5). repeat split; try assumption. cbn [fst]. pose proof (r_pos w nr i hw). apply Rmult_lt_0_compat; [lra|apply sin_gt_0; lra]. }
  destruct (half_grid w Rz nt nr) as [|q l] eqn:E; [discriminate|]. injection e as <-. change (In p ((q :: l) ++ map (mirror Rz) (q :: l))) in hp. apply in_app_or in hp. destruct hp as [hp|hp]; [apply g; exact hp|].
  apply in_map_iff in hp. destruct hp as [p' [<- hp']]. destruct (g p' hp') as (b1 & b2 & b3 & b4). destruct (mirror_rad p') as [-> ->]. repeat split; assumption.
Qed.
(** no element is left out: the areas of the grid add up to twice those of all elements in range *)
Theorem grid_sum grid : make_grid w Rz nt nr = SOk grid -> lsum grid snd = 2 * lsum (pieces w Rz nt nr) (counted w Rz).
Proof.
  unfold make_grid. rewrite (never_illegal w Rz nt nr hw hR ht hr). intros e.
  assert (g : lsum (half_grid w Rz nt nr) snd = lsum (pieces w Rz nt nr) (counted w Rz)).
  { unfold half_grid. rewrite lsum_flat. apply lsum_ext. intros q hq. pose proof hq as hq'. apply (in_pieces w Rz nt nr ht hr) in hq'. destruct hq' as (i & j & hi & hj & eq). destruct (piece_hyps w nt nr hw ht hr i j hi hj) as (a1 & a2 & a3 & a4 & a5).
    pose proof (area_nonneg w Rz nt nr hw hR ht hr q hq) as hA. destruct q as [r0 t0 A| |]; [|reflexivity|reflexivity]. cbn [area_of] in hA. symmetry in eq. destruct (piece_center h _ _ _ _ (h_pos Rz hR) a1 a2 a3 a4 a5 _ _ _ eq) as [c1 _].
    cbn [keep counted]. rewrite polar. replace (r0 ^ 2) with (r0 * r0) at 1 by ring. rewrite sqrt_square by lra.
    replace ((r0 * sin t0) ^ 2 + (Rz - r0 * cos t0) ^ 2) with (((r0 * sin t0) ^ 2 + (r0 * cos t0) ^ 2) - 2 * r0 * Rz * cos t0 + Rz ^ 2) by ring. rewrite polar.
    destruct (ltb 0 A) eqn:E1; [apply ltb_true in E1|apply ltb_false in E1; assert (A = 0) by lra; subst A; cbn [andb]; unfold lsum; cbn [fold_right]; destruct (Rlt_dec r0 w); [destruct (Rlt_dec _ w)|]; reflexivity].
    destruct (ltb r0 w) eqn:E2; [apply ltb_true in E2|apply ltb_false in E2]; (destruct (Rlt_dec r0 w); [|try lra; reflexivity]); [|lra].
    destruct (ltb (sqrt _) w) eqn:E3; [apply ltb_true in E3|apply ltb_false in E3]; (destruct (Rlt_dec (sqrt _) w); try lra); cbn [andb]; unfold lsum; cbn [fold_right snd]; ring. }
  destruct (half_grid w Rz nt nr) as [|q l]; [discriminate|]. injection e as <-. change (q :: l ++ mirror Rz q :: map (mirror Rz) l) with ((q :: l) ++ map (mirror Rz) (q :: l)). rewrite lsum_app, lsum_map, g. rewrite (lsum_ext (q :: l) (fun x => snd (mirror Rz x)) snd) by reflexivity. rewrite g. ring.
Qed.
(** near twice the range no point is in the range of both atoms *)
Theorem grid_empty : w + (rgrid w nr (nr - 2) + w) / 2 <= Rz -> make_grid w Rz nt nr = SErr IndexError.
Proof.
  intros hbig. unfold make_grid. rewrite (never_illegal w Rz nt nr hw hR ht hr). destruct (half_grid w Rz nt nr) as [|q l] eqn:E; [reflexivity|]. exfalso.
  assert (hq : In q (half_grid w Rz nt nr)) by (rewrite E; left; reflexivity). destruct (in_half q hq) as (i & j & r0 & t0 & A & hi & hj & Ep & -> & c1 & c2 & c3 & c4 & c5).
  assert (hm : r0 <= (rgrid w nr (nr - 2) + w) / 2).
  { pose proof (piece_hyps w nt nr hw ht hr i j hi hj) as (a1 & a2 & a3 & a4 & a5). assert (m1 : rgrid w nr i <= rgrid w nr (nr - 2)). { destruct (Nat.eq_dec i (nr - 2)) as [->|ne]; [lra|]. apply Rlt_le, r_lt; [exact hr|exact hw|lia]. }
    pose proof (r_range w nr (i + 1) hr hw ltac:(lia)) as m2. assert (m3 : r0 <= (rgrid w nr i + rgrid w nr (i + 1)) / 2); [|lra].
    clear - Ep a1 a2 hR. unfold make_piece in Ep. repeat match type of Ep with (if ?b then _ else _) = _ => destruct b eqn:? end; try discriminate; injection Ep as <- _ _; try lra.
    - apply andb_true_iff in Heqb2. destruct Heqb2 as [C _]. apply andb_true_iff in C. destruct C as [_ C]. apply ltb_true in C. assert (hc : 0 < cos (tgrid nt (j + 1))) by (unfold h in C; nra).
      assert (h / cos (tgrid nt (j + 1)) < rgrid w nr (i + 1)). { apply Rmult_lt_reg_r with (cos (tgrid nt (j + 1))); [exact hc|]. unfold Rdiv at 1. rewrite Rmult_assoc, Rinv_l by lra. lra. } lra.
    - apply andb_true_iff in Heqb3. destruct Heqb3 as [C _]. apply andb_true_iff in C. destruct C as [C _]. apply andb_true_iff in C. destruct C as [_ C]. apply ltb_true in C. assert (hc : 0 < cos (tgrid nt (j + 1))) by (unfold h in C; nra).
      assert (h / cos (tgrid nt (j + 1)) < rgrid w nr (i + 1)). { apply Rmult_lt_reg_r with (cos (tgrid nt (j + 1))); [exact hc|]. unfold Rdiv at 1. rewrite Rmult_assoc, Rinv_l by lra. lra. } lra. }
  unfold rad2 in c5. cbn [fst snd] in c5. pose proof (r_pos w nr i hw) as r0p. pose proof rmin_pos as mp.
  assert (hz : r0 * cos t0 <= r0) by (pose proof (COS_bound t0); nra).
  assert (le : w <= sqrt ((r0 * sin t0) ^ 2 + (Rz - r0 * cos t0) ^ 2)); [|lra].
  rewrite <- (sqrt_Rsqr w) at 1 by lra. apply sqrt_le_1_alt. unfold Rsqr. pose proof (pow2_ge_0 (r0 * sin t0)) as q0. assert (w <= Rz - r0 * cos t0) by lra. nra.
Qed.
Lemma ratio_below : (rgrid w nr (nr - 2) + w) / 2 < w.
Proof. pose proof (r_lt w nr (nr - 2) (nr - 1) hr hw ltac:(lia)) as e. rewrite r_last in e by exact hr. lra. Qed.
(** the points are symmetric about the plane *)
Theorem grid_symmetric grid : make_grid w Rz nt nr = SOk grid -> forall f, lsum grid (fun p => f p) = lsum grid (fun p => f (mirror Rz p)).
Proof.
  unfold make_grid. rewrite (never_illegal w Rz nt nr hw hR ht hr). destruct (half_grid w Rz nt nr) as [|q l]; [discriminate|]. intros e f. injection e as <-. set (k := q :: l). change (lsum (k ++ map (mirror Rz) k) f = lsum (k ++ map (mirror Rz) k) (fun p => f (mirror Rz p))). rewrite !lsum_app, !lsum_map.
  rewrite (lsum_ext k (fun x => f (mirror Rz (mirror Rz x))) f); [ring|]. intros [[d z] A] _. unfold mirror. cbn [fst snd]. f_equal. f_equal. f_equal. field.
Qed.
End Grid.
