From Coq Require Import Reals List Bool Arith Lia Lra Psatz.
From Verif Require Import GeomModel PkpModel PkpSpec.
Import ListNotations.
Open Scope R_scope.

Lemma ltb_t a b : ltb a b = true <-> a < b. Proof. unfold ltb. destruct (Rlt_dec a b); split; auto; discriminate. Qed.
Lemma fold_max l : forall m, m <= fold_left Rmax l m /\ (forall z, In z l -> z <= fold_left Rmax l m) /\ (fold_left Rmax l m = m \/ In (fold_left Rmax l m) l).
Proof.
  induction l as [|z l IH]; intros m; cbn [fold_left].
  - split; [lra|]. split; [intros z []|left; reflexivity].
  - destruct (IH (Rmax m z)) as [h1 [h2 h3]]. pose proof (Rmax_l m z). pose proof (Rmax_r m z). split; [lra|]. split.
    + intros w [<-|hw]; [lra|auto].
    + destruct h3 as [h3|h3]; [|right; right; exact h3]. rewrite h3. unfold Rmax. destruct (Rle_dec m z); [right; left; reflexivity|left; reflexivity].
Qed.
Lemma ymax_highest N y m : (0 < N)%nat -> highest N y m -> ymax N y = m.
Proof.
  intros hN [[i [hi e]] hm]. unfold ymax. destruct (fold_max (map y (seq 1 (N - 1))) (y 0%nat)) as [h1 [h2 h3]]. apply Rle_antisym.
  - destruct h3 as [h3|h3]; [rewrite h3; apply hm; lia|]. apply in_map_iff in h3. destruct h3 as [j [e3 hj]]. apply in_seq in hj. rewrite <- e3. apply hm. lia.
  - rewrite <- e. destruct i as [|i]; [exact h1|]. apply h2. apply in_map. apply in_seq. lia.
Qed.
Lemma candidate N y i : In i (candidates N y) <-> top N y i.
Proof.
  unfold candidates, top, d. rewrite in_map_iff. split.
  - intros [j [<- hj]]. apply filter_In in hj. destruct hj as [hj h]. apply in_seq in hj. apply andb_true_iff in h. rewrite !ltb_t in h.
    replace (j + 1 - 1)%nat with j by lia. repeat split; try lia; lra.
  - intros [h1 [h2 [h3 h4]]]. exists (i - 1)%nat. split; [lia|]. apply filter_In. split; [apply in_seq; lia|]. apply andb_true_iff. rewrite !ltb_t.
    replace (i - 1 + 1)%nat with i by lia. split; lra.
Qed.
(** the parabola through three points *)
Lemma parabola x h y0 y1 y2 a b c : 0 < h -> y1 < y0 -> y1 < y2 ->
  a + / 2 * b * (x - h - c) ^ 2 = y0 -> a + / 2 * b * (x - c) ^ 2 = y1 -> a + / 2 * b * (x + h - c) ^ 2 = y2 ->
  0 < b /\ Rabs (c - x) < h / 2 /\ y1 - (y0 + y2 - 2 * y1) / 8 <= a <= y1.
Proof.
  intros hh h0 h2 e0 e1 e2.
  assert (B : b * h ^ 2 = y0 + y2 - 2 * y1) by (rewrite <- e0, <- e1, <- e2; field).
  assert (hb : 0 < b) by nra.
  assert (U : 2 * b * h * (c - x) = y0 - y2) by (rewrite <- e0, <- e2; field).
  assert (K : 0 < 2 * b * h) by nra.
  assert (L : - (h / 2) < c - x < h / 2). { split; apply (Rmult_lt_reg_l (2 * b * h)); try exact K; rewrite U; nra. }
  split; [exact hb|]. split; [apply Rabs_def1; lra|].
  assert (Q : (c - x) ^ 2 <= (h / 2) ^ 2) by nra.
  assert (Q0 : 0 <= (c - x) ^ 2) by apply pow2_ge_0.
  assert (E : a = y1 - / 2 * b * (c - x) ^ 2) by (rewrite <- e1; ring).
  assert (M1 : 0 <= b * (c - x) ^ 2) by (apply Rmult_le_pos; lra).
  assert (M2 : b * (c - x) ^ 2 <= b * (h / 2) ^ 2) by (apply Rmult_le_compat_l; lra).
  assert (M3 : b * (h / 2) ^ 2 = (y0 + y2 - 2 * y1) / 4) by (rewrite <- B; field). lra.
Qed.
Section Peaks.
Variables (fit2 : R * R * R -> R * R * R -> R * R * R) (N : nat) (x y : nat -> R) (fact h : R).
Hypothesis hf : exact_fit fit2.
Hypothesis hx : spaced N x h.
Let fitted i := fit2 (x (i - 1)%nat, x i, x (i + 1)%nat) (- y (i - 1)%nat, - y i, - y (i + 1)%nat).
Lemma fitted_spec i a b c : top N y i -> fitted i = (a, b, c) -> a + / 2 * b * (x i - h - c) ^ 2 = - y (i - 1)%nat /\ a + / 2 * b * (x i - c) ^ 2 = - y i /\ a + / 2 * b * (x i + h - c) ^ 2 = - y (i + 1)%nat.
Proof.
  intros [h1 [h2 [h3 h4]]] e. destruct hx as [hh hs]. apply (hf (x i) h); try lra. rewrite <- e. unfold fitted.
  rewrite (hs i h2). assert (E : x i = x (i - 1)%nat + h) by (rewrite <- hs by lia; f_equal; lia). rewrite E at 1. replace (x (i - 1)%nat + h - h) with (x (i - 1)%nat) by ring. reflexivity.
Qed.
Lemma fitted_bounds i a b c : top N y i -> fitted i = (a, b, c) -> 0 < b /\ Rabs (c - x i) < h / 2 /\ y i <= - a <= y i + (2 * y i - y (i - 1)%nat - y (i + 1)%nat) / 8.
Proof.
  intros ht e. destruct (fitted_spec i a b c ht e) as [e0 [e1 e2]]. destruct hx as [hh _]. destruct ht as [h1 [h2 [h3 h4]]].
  destruct (parabola (x i) h (- y (i - 1)%nat) (- y i) (- y (i + 1)%nat) a b c hh ltac:(lra) ltac:(lra) e0 e1 e2) as [q1 [q2 q3]]. split; [exact q1|]. split; [exact q2|]. lra.
Qed.
Lemma refine_ok l : (forall i, In i l -> top N y i) -> forall acc, exists r, refine fit2 N x y fact l acc = PkOk r /\
  forall p, In p r <-> In p acc \/ exists i a b, In i l /\ fitted i = (a, b, fst p) /\ snd p = - a /\ fact * ymax N y < - a.
Proof.
  induction l as [|i l IH]; intros hl acc.
  - exists acc. split; [reflexivity|]. intros p. split; [auto|]. intros [H|[i [a [b [[] _]]]]]. exact H.
  - cbn [refine]. fold (fitted i). destruct (fitted i) as [[a b] c] eqn:E.
    destruct (fitted_bounds i a b c (hl i (or_introl eq_refl)) E) as [hb _]. apply ltb_t in hb. rewrite hb. cbn [negb].
    destruct (IH (fun j hj => hl j (or_intror hj)) (if ltb (fact * ymax N y) (- a) then acc ++ [(c, - a)] else acc)) as [r [hr hp]].
    exists r. split; [exact hr|]. intros p. rewrite hp. split.
    + intros [H|[j [a' [b' [q1 q2]]]]]; [|right; exists j, a', b'; split; [right; exact q1|exact q2]].
      destruct (ltb (fact * ymax N y) (- a)) eqn:T; [|left; exact H]. apply in_app_iff in H. destruct H as [H|[<-|[]]]; [left; exact H|].
      right. exists i, a, b. apply ltb_t in T. cbn [fst snd]. repeat split; auto. left. reflexivity.
    + intros [H|[j [a' [b' [[<-|q1] [q2 [q3 q4]]]]]]].
      * left. destruct (ltb (fact * ymax N y) (- a)); [apply in_app_iff; left; exact H|exact H].
      * left. rewrite E in q2. injection q2 as -> -> ->. apply ltb_t in q4. rewrite q4. apply in_app_iff. right. left. destruct p; cbn in *; congruence.
      * right. exists j, a', b'. auto.
Qed.
Lemma result : (2 <= N)%nat -> exists r, get_peak_positions fit2 N x y fact = PkOk r /\
  forall p, In p r <-> In p (first_end N x y fact ++ last_end N x y fact) \/ exists i a b, top N y i /\ fitted i = (a, b, fst p) /\ snd p = - a /\ fact * ymax N y < - a.
Proof.
  intros hN. destruct (refine_ok (candidates N y) (fun i hi => proj1 (candidate N y i) hi) (first_end N x y fact ++ last_end N x y fact)) as [r [hr hp]].
  exists r. split; [unfold get_peak_positions; destruct N as [|[|n]]; [lia|lia|exact hr]|].
  intros p. rewrite hp. split; (intros [H|[i [a [b [q1 q2]]]]]; [left; exact H|right; exists i, a, b; split; [apply candidate, q1|exact q2]]).
Qed.
End Peaks.
Lemma no_error fit2 N x y fact h : exact_fit fit2 -> spaced N x h -> ((exists r, get_peak_positions fit2 N x y fact = PkOk r) <-> (2 <= N)%nat).
Proof.
  intros hf hx. split; [|intros hN; destruct (result fit2 N x y fact h hf hx hN) as [r [e _]]; eauto].
  intros [r e]. destruct N as [|[|n]]; [discriminate|discriminate|lia].
Qed.
(** every peak higher than the limit is found *)
Lemma found fit2 N x y fact h m r i : exact_fit fit2 -> spaced N x h -> highest N y m -> get_peak_positions fit2 N x y fact = PkOk r -> top N y i -> fact * m < y i ->
  exists c p, In (c, p) r /\ Rabs (c - x i) < h / 2 /\ y i <= p <= y i + (2 * y i - y (i - 1)%nat - y (i + 1)%nat) / 8.
Proof.
  intros hf hx hm e ht hi. assert (hN : (2 <= N)%nat) by (destruct ht; lia). destruct (result fit2 N x y fact h hf hx hN) as [r' [e' hr]]. rewrite e in e'. injection e' as <-.
  destruct (fit2 (x (i - 1)%nat, x i, x (i + 1)%nat) (- y (i - 1)%nat, - y i, - y (i + 1)%nat)) as [[a b] c] eqn:E.
  destruct (fitted_bounds fit2 N x y h hf hx i a b c ht E) as [hb [hc ha]].
  exists c, (- a). split; [|split; [exact hc|exact ha]]. apply hr. right. exists i, a, b. rewrite (ymax_highest N y m) by (auto; lia). cbn [fst snd]. repeat split; auto; try lra; apply ht.
Qed.
(** nothing else is *)
Lemma sound fit2 N x y fact h m r c p : exact_fit fit2 -> spaced N x h -> highest N y m -> get_peak_positions fit2 N x y fact = PkOk r -> In (c, p) r ->
  fact * m < p /\ ((c = x 0%nat /\ p = y 0%nat /\ y 1%nat < y 0%nat) \/ (c = x (N - 1)%nat /\ p = y (N - 1)%nat /\ y (N - 2)%nat < y (N - 1)%nat) \/
    exists i, top N y i /\ Rabs (c - x i) < h / 2 /\ y i <= p <= y i + (2 * y i - y (i - 1)%nat - y (i + 1)%nat) / 8).
Proof.
  intros hf hx hm e hi. assert (hN : (2 <= N)%nat) by (destruct N as [|[|n]]; [discriminate|discriminate|lia]).
  destruct (result fit2 N x y fact h hf hx hN) as [r' [e' hr]]. rewrite e in e'. injection e' as <-. apply hr in hi. rewrite <- (ymax_highest N y m) by (auto; lia). destruct hi as [hi|[i [a [b [ht [E [hs hl]]]]]]].
  - apply in_app_iff in hi. unfold first_end, last_end in hi. destruct hi as [hi|hi].
    + destruct (ltb (y 1%nat) (y 0%nat) && ltb (fact * ymax N y) (y 0%nat)) eqn:T; [|destruct hi]. apply andb_true_iff in T. rewrite !ltb_t in T. destruct hi as [hi|[]]. injection hi as <- <-. split; [lra|]. left. repeat split; lra.
    + destruct (ltb (y (N - 2)%nat) (y (N - 1)%nat) && ltb (fact * ymax N y) (y (N - 1)%nat)) eqn:T; [|destruct hi]. apply andb_true_iff in T. rewrite !ltb_t in T. destruct hi as [hi|[]]. injection hi as <- <-. split; [lra|]. right. left. repeat split; lra.
  - cbn [fst snd] in E, hs. subst p. split; [exact hl|]. right. right. exists i. split; [exact ht|]. destruct (fitted_bounds fit2 N x y h hf hx i a b c ht E) as [_ q]. exact q.
Qed.
Lemma ends fit2 N x y fact h m r : exact_fit fit2 -> spaced N x h -> highest N y m -> get_peak_positions fit2 N x y fact = PkOk r ->
  (y 1%nat < y 0%nat -> fact * m < y 0%nat -> In (x 0%nat, y 0%nat) r) /\ (y (N - 2)%nat < y (N - 1)%nat -> fact * m < y (N - 1)%nat -> In (x (N - 1)%nat, y (N - 1)%nat) r).
Proof.
  intros hf hx hm e. assert (hN : (2 <= N)%nat) by (destruct N as [|[|n]]; [discriminate|discriminate|lia]).
  destruct (result fit2 N x y fact h hf hx hN) as [r' [e' hr]]. rewrite e in e'. injection e' as <-.
  rewrite <- (ymax_highest N y m) by (auto; lia). unfold first_end, last_end in hr.
  split; intros h1 h2; apply hr; left; apply in_app_iff; [left|right]; apply ltb_t in h1, h2; rewrite h1, h2; left; reflexivity.
Qed.
(** exact for parabolas *)
Lemma exact_peak fit2 N x y fact h m r i A B C : exact_fit fit2 -> spaced N x h -> highest N y m -> get_peak_positions fit2 N x y fact = PkOk r -> top N y i ->
  (forall j, (i - 1 <= j <= i + 1)%nat -> y j = A - B * (x j - C) ^ 2) -> fact * m < A -> In (C, A) r.
Proof.
  intros hf hx hm e ht hy hA. assert (hN : (2 <= N)%nat) by (destruct ht; lia). destruct (result fit2 N x y fact h hf hx hN) as [r' [e' hr]]. rewrite e in e'. injection e' as <-.
  destruct (fit2 (x (i - 1)%nat, x i, x (i + 1)%nat) (- y (i - 1)%nat, - y i, - y (i + 1)%nat)) as [[a b] c] eqn:E.
  destruct (fitted_spec fit2 N x y h hf hx i a b c ht E) as [e0 [e1 e2]]. destruct (fitted_bounds fit2 N x y h hf hx i a b c ht E) as [hb _].
  destruct hx as [hh hs]. destruct ht as [h1 [h2 [h3 h4]]].
  assert (X1 : x (i + 1)%nat = x i + h) by (apply hs, h2). assert (X0 : x (i - 1)%nat = x i - h). { assert (Q : x i = x (i - 1)%nat + h) by (rewrite <- hs by lia; f_equal; lia). lra. }
  assert (Y0 := hy (i - 1)%nat ltac:(lia)). assert (Y1 := hy i ltac:(lia)). assert (Y2 := hy (i + 1)%nat ltac:(lia)). rewrite X0 in Y0. rewrite X1 in Y2. rewrite Y0 in e0. rewrite Y1 in e1. rewrite Y2 in e2.
  assert (EB : b * h ^ 2 = 2 * B * h ^ 2). { replace (b * h ^ 2) with ((a + / 2 * b * (x i - h - c) ^ 2) + (a + / 2 * b * (x i + h - c) ^ 2) - 2 * (a + / 2 * b * (x i - c) ^ 2)) by field. rewrite e0, e1, e2. ring. }
  assert (Eb : b = 2 * B) by (apply (Rmult_eq_reg_r (h ^ 2)); [exact EB|apply pow_nonzero; lra]).
  assert (EC : 2 * b * h * c = 2 * b * h * C). { replace (2 * b * h * c) with ((a + / 2 * b * (x i - h - c) ^ 2) - (a + / 2 * b * (x i + h - c) ^ 2) + 2 * b * h * x i) by field. rewrite e0, e2, Eb. ring. }
  assert (Ec : c = C) by (apply (Rmult_eq_reg_l (2 * b * h)); [exact EC|nra]).
  assert (Ea : - a = A). { subst c b. lra. }
  apply hr. right. exists i, a, b. rewrite (ymax_highest N y m) by (auto; lia). cbn [fst snd]. subst c. rewrite Ea. split; [repeat split; assumption|]. split; [exact E|]. split; [reflexivity|exact hA].
Qed.
(** a fit that meets the contract: the solution for three equally spaced points *)
Definition three (X Y : R * R * R) : R * R * R :=
  match X, Y with (x0, x1, x2), (y0, y1, y2) => let h := x1 - x0 in let b := (y0 + y2 - 2 * y1) / h ^ 2 in let u := (y0 - y2) / (2 * b * h) in (y1 - / 2 * b * u ^ 2, b, x1 + u) end.
Example ex_three : exact_fit three.
Proof.
  intros x h y0 y1 y2 a b c hh h0 h2 e. unfold three in e. replace (x - (x - h)) with h in e by ring. injection e as <- <- <-.
  assert (0 < y0 + y2 - 2 * y1) by lra. repeat split; field; repeat split; lra.
Qed.
Example ex_top : spaced 3 INR 1 /\ top 3 (fun i => if (i =? 1)%nat then 1 else 0) 1 /\ highest 3 (fun i => if (i =? 1)%nat then 1 else 0) 1.
Proof.
  split; [split; [lra|intros i _; rewrite plus_INR; cbn; lra]|]. split; [repeat split; try lia; cbn; lra|].
  split; [exists 1%nat; split; [lia|reflexivity]|]. intros i _. destruct (i =? 1)%nat; lra.
Qed.
(** a peak with two equally high points is overlooked *)
Lemma flat_refuted : exists fit2 N x y h, exact_fit fit2 /\ spaced N x h /\ highest N y 1 /\ y 0%nat = 0 /\ y (N - 1)%nat = 0 /\ get_peak_positions fit2 N x y (/ 100) = PkOk [].
Proof.
  pose (y := fun i : nat => match i with 1%nat | 2%nat => 1 | _ => 0 end).
  assert (hm : highest 4 y 1). { split; [exists 1%nat; split; [lia|reflexivity]|]. intros [|[|[|i]]] _; cbn; lra. }
  exists three, 4%nat, INR, y, 1. split; [exact ex_three|]. split; [split; [lra|intros i _; rewrite plus_INR; cbn; lra]|]. split; [exact hm|]. split; [reflexivity|]. split; [reflexivity|].
  assert (L : forall a b, b <= a -> ltb a b = false) by (intros a b q; unfold ltb; destruct (Rlt_dec a b); [lra|reflexivity]).
  unfold get_peak_positions, candidates, first_end, last_end, d. cbn [seq filter Nat.sub Nat.add y].
  rewrite (L 1 0) by lra. cbn [andb]. rewrite (L (1 - 1) 0) by lra. rewrite (L 0 (1 - 1)) by lra. rewrite andb_false_r. reflexivity.
Qed.
