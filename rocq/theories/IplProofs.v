From Coq Require Import Reals ZArith List Bool Arith Lia Lra Psatz.
From Verif Require Import GeomModel GridProofs IplModel IplSpec.
Import ListNotations.
Open Scope R_scope.

Lemma gap_norm a b : vnorm (vsub b a) = gap a b.
Proof. destruct a as [a1 a2 a3], b as [b1 b2 b3]. unfold vnorm, vdot, vsub, gap. cbn [vx vy vz]. f_equal. ring. Qed.
Lemma gap_nonneg a b : 0 <= gap a b. Proof. apply sqrt_pos. Qed.
Lemma vscale_norm k a : 0 <= k -> vnorm (vscale k a) = k * vnorm a.
Proof.
  intros h. destruct a as [a1 a2 a3]. unfold vnorm, vdot, vscale. cbn [vx vy vz]. replace (k * a1 * (k * a1) + k * a2 * (k * a2) + k * a3 * (k * a3)) with (k ^ 2 * (a1 * a1 + a2 * a2 + a3 * a3)) by ring.
  rewrite sqrt_mult by nra. rewrite sqrt_pow2 by exact h. reflexivity.
Qed.
Lemma sum_acc l : forall s, fold_left Rplus l s = s + fold_left Rplus l 0.
Proof. induction l as [|x l IH]; intros s; cbn [fold_left]; [ring|]. rewrite (IH (s + x)), (IH (0 + x)). ring. Qed.
Lemma sum_cons x l : sum (x :: l) = x + sum l. Proof. unfold sum. cbn [fold_left]. rewrite sum_acc. ring. Qed.
Lemma way_sum l : forall A k, (k <= length l)%nat -> sum (firstn k (lengths A l)) = way (A :: l) k.
Proof.
  induction l as [|B l IH]; intros A k h; [destruct k; reflexivity|]. destruct k as [|k]; [reflexivity|].
  cbn [lengths firstn way]. rewrite sum_cons, gap_norm. f_equal. apply IH. cbn [length] in h. lia.
Qed.
Lemma lengths_length l : forall A, length (lengths A l) = length l. Proof. induction l as [|B l IH]; intros A; [reflexivity|]. cbn [lengths length]. f_equal. apply IH. Qed.
Lemma dk_spacing A l N : sum (lengths A l) / (INR N - 1) = spacing (A :: l) N.
Proof. unfold spacing. replace (length (A :: l) - 1)%nat with (length l) by (cbn [length]; lia). rewrite <- (firstn_all (lengths A l)), lengths_length. rewrite way_sum by lia. reflexivity. Qed.
(** numbers of points *)
Lemma n_i_round dk len : 0 < dk -> n_i dk len = (pyround (len / dk) + 1)%Z.
Proof.
  intros h. unfold n_i. unfold ltb. destruct (Rlt_dec _ _) as [q|]; [|reflexivity]. exfalso. rewrite plus_IZR in q. pose proof (pyround_err (len / dk)) as e. assert (T : len = len / dk * dk) by (field; lra).
  set (t := len / dk) in *. clearbody t. subst len. apply Rmult_lt_reg_r in q; [|exact h]. unfold Rabs in e. destruct (Rcase_abs _) in e; lra.
Qed.
Lemma n_i_two dk len : 0 < dk -> dk / 2 < len -> (2 <= n_i dk len)%Z.
Proof.
  intros h hl. rewrite n_i_round by exact h. assert (Q : / 2 < len / dk) by (apply (Rmult_lt_reg_r dk); [exact h|]; unfold Rdiv; rewrite Rmult_assoc, Rinv_l by lra; lra).
  pose proof (pyround_err (len / dk)) as e. unfold Rabs in e. assert (0 < IZR (pyround (len / dk))) by (destruct (Rcase_abs _) in e; lra). apply lt_IZR in H. lia.
Qed.
(** one part *)
Fixpoint travel (p : v3) (l : list v3) : R := match l with [] => 0 | q :: l => gap p q + travel q l end.
Lemma linspace_step A B n j : (2 <= n)%Z -> gap (linspace A B n j) (linspace A B n (S j)) = gap A B / (IZR n - 1).
Proof.
  intros h. assert (P : 1 <= IZR n - 1) by (apply IZR_le in h; lra). rewrite <- !gap_norm.
  replace (vsub (linspace A B n (S j)) (linspace A B n j)) with (vscale (/ (IZR n - 1)) (vsub B A)).
  - rewrite vscale_norm by (apply Rlt_le, Rinv_0_lt_compat; lra). unfold Rdiv. ring.
  - destruct A as [a1 a2 a3], B as [b1 b2 b3]. unfold linspace, vsub, vadd, vscale. cbn [vx vy vz]. rewrite S_INR. f_equal; field; lra.
Qed.
Lemma linspace_0 A B n : linspace A B n 0 = A.
Proof. destruct A as [a1 a2 a3], B as [b1 b2 b3]. unfold linspace, vsub, vadd, vscale. cbn [vx vy vz INR]. unfold Rdiv. f_equal; ring. Qed.
Lemma linspace_last A B n : (2 <= n)%Z -> linspace A B n (Z.to_nat n - 1) = B.
Proof.
  intros h. assert (E : INR (Z.to_nat n - 1) = IZR n - 1). { rewrite minus_INR by lia. rewrite INR_IZR_INZ, Z2Nat.id by lia. reflexivity. }
  assert (P : 1 <= IZR n - 1) by (apply IZR_le in h; lra). destruct A as [a1 a2 a3], B as [b1 b2 b3]. unfold linspace, vsub, vadd, vscale. cbn [vx vy vz]. rewrite E. f_equal; field; lra.
Qed.
Lemma travel_linspace A B n m : (2 <= n)%Z -> forall s, travel (linspace A B n s) (map (linspace A B n) (seq (S s) m)) = INR m * (gap A B / (IZR n - 1)).
Proof.
  intros h. induction m as [|m IH]; intros s; [cbn; ring|]. cbn [seq map travel]. rewrite IH, linspace_step, S_INR by exact h. ring.
Qed.
Lemma travel_segment A B n : (2 <= n)%Z -> travel A (segment A B n) = gap A B.
Proof.
  intros h. unfold segment. pose proof (travel_linspace A B n (Z.to_nat n - 1) h 0) as T. rewrite linspace_0 in T. rewrite T. rewrite minus_INR by lia. rewrite INR_IZR_INZ, Z2Nat.id by lia. cbn [INR]. assert (P : 1 <= IZR n - 1) by (apply IZR_le in h; lra). field. lra.
Qed.
Lemma segment_last A B n : (2 <= n)%Z -> exists l, segment A B n = l ++ [B].
Proof.
  intros h. unfold segment. pose proof (linspace_last A B n h) as L. destruct (Z.to_nat n - 1)%nat as [|m] eqn:E; [lia|]. exists (map (linspace A B n) (seq 1 m)). rewrite seq_S, map_app. cbn [map Nat.add]. rewrite L. reflexivity.
Qed.
(** distances *)
Lemma cumulate_length l : forall d p, length (cumulate d p l) = length l. Proof. induction l as [|q l IH]; intros d p; [reflexivity|]. cbn [cumulate length]. f_equal. apply IH. Qed.
Lemma cumulate_app l1 q l2 : forall d p, cumulate d p ((l1 ++ [q]) ++ l2) = cumulate d p (l1 ++ [q]) ++ cumulate (d + travel p (l1 ++ [q])) q l2.
Proof.
  induction l1 as [|a l1 IH]; intros d p; cbn [app cumulate travel].
  - rewrite gap_norm. rewrite Rplus_0_r. reflexivity.
  - f_equal. rewrite IH. rewrite gap_norm. f_equal. f_equal. ring.
Qed.
Lemma cumulate_last l1 q : forall d p, In (q, d + travel p (l1 ++ [q])) (combine (l1 ++ [q]) (cumulate d p (l1 ++ [q]))).
Proof.
  induction l1 as [|a l1 IH]; intros d p; cbn [app cumulate travel combine].
  - left. rewrite gap_norm, Rplus_0_r. reflexivity.
  - right. rewrite gap_norm. rewrite <- Rplus_assoc. apply IH.
Qed.
Lemma combine_app {X Y : Type} (a : list X) (b : list Y) a' b' : length a = length b -> combine (a ++ a') (b ++ b') = combine a b ++ combine a' b'.
Proof. revert b. induction a as [|x a IH]; intros [|y b] h; try discriminate; [reflexivity|]. cbn [app combine]. f_equal. apply IH. injection h as h. exact h. Qed.
Lemma on_path dk l : 0 < dk -> forall A d k, (forall i, (i < length l)%nat -> dk / 2 < gap (nth i (A :: l) vzero) (nth (i + 1) (A :: l) vzero)) -> (k <= length l)%nat ->
  In (nth k (A :: l) vzero, d + way (A :: l) k) (combine (A :: path_from dk A l) (d :: cumulate d A (path_from dk A l))).
Proof.
  intros hd. induction l as [|B l IH]; intros A d k hl hk.
  - cbn [length] in hk. replace k with 0%nat by lia. left. cbn [nth way]. rewrite Rplus_0_r. reflexivity.
  - destruct k as [|k]; [left; cbn [nth way]; rewrite Rplus_0_r; reflexivity|]. cbn [length] in hk.
    assert (h0 : dk / 2 < gap A B) by (apply (hl 0%nat); cbn [length]; lia).
    assert (IHk := IH B (d + gap A B) k (fun i hi => hl (S i) (proj1 (Nat.succ_lt_mono _ _) hi)) ltac:(lia)).
    right. cbn [path_from]. rewrite gap_norm. pose proof (n_i_two dk (gap A B) hd h0) as n2. pose proof (travel_segment A B _ n2) as T. destruct (segment_last A B _ n2) as [s es]. rewrite es in *.
    change (In (nth (S k) (A :: B :: l) vzero, d + way (A :: B :: l) (S k)) (combine ((s ++ [B]) ++ path_from dk B l) (cumulate d A ((s ++ [B]) ++ path_from dk B l)))).
    rewrite cumulate_app, T, combine_app by (rewrite cumulate_length; reflexivity). apply in_app_iff.
    change (nth (S k) (A :: B :: l) vzero) with (nth k (B :: l) vzero). change (way (A :: B :: l) (S k)) with (gap A B + way (B :: l) k). rewrite <- Rplus_assoc.
    destruct IHk as [e|IHk]; [|right; exact IHk]. left. rewrite <- e. rewrite <- T. apply cumulate_last.
Qed.
Lemma IOk_inv a b c a' b' c' : IOk a b c = IOk a' b' c' -> a = a' /\ b = b' /\ c = c'. Proof. intros h. inversion h. auto. Qed.
Lemma spacing_pos points N : (2 <= N)%nat -> 0 <= spacing points N.
Proof.
  intros h. apply le_INR in h. cbn [INR] in h. unfold spacing. apply Rmult_le_pos; [|apply Rlt_le, Rinv_0_lt_compat; lra]. generalize (length points - 1)%nat as k. intros k. revert points.
  induction k as [|k IH]; intros [|a [|b l]]; try (cbn; lra). change (way (a :: b :: l) (S k)) with (gap a b + way (b :: l) k). pose proof (gap_nonneg a b). specialize (IH (b :: l)). lra.
Qed.
(** each given point is on the path, at the distance of its label *)
Lemma labels_on_path points N path ds ls k : (2 <= N)%nat -> interpolate_path points N = IOk path ds ls -> parts_long points N -> (k < length points)%nat ->
  In (nth k points vzero, nth k ls 0) (combine path ds) /\ nth k ls 0 = way points k.
Proof.
  intros hN e hp hk. destruct points as [|A l]; [discriminate|]. unfold interpolate_path in e. rewrite dk_spacing in e. destruct (_ && _) eqn:Z in e; [discriminate|]. apply IOk_inv in e. destruct e as [<- [<- <-]].
  assert (L : nth k (map (fun i => sum (firstn i (lengths A l))) (seq 0 (length (A :: l)))) 0 = way (A :: l) k).
  { rewrite (nth_indep _ 0 (sum (firstn 0 (lengths A l)))) by (rewrite map_length, seq_length; exact hk). rewrite (map_nth (fun i => sum (firstn i (lengths A l)))), seq_nth by exact hk. apply way_sum. cbn [length] in hk. lia. }
  rewrite L. split; [|reflexivity]. rewrite <- (Rplus_0_l (way (A :: l) k)). destruct l as [|B l].
  - cbn [length] in hk. replace k with 0%nat by lia. left. cbn [nth way]. rewrite Rplus_0_r. reflexivity.
  - assert (D : 0 < spacing (A :: B :: l) N). { destruct (spacing_pos (A :: B :: l) N hN) as [q|q]; [exact q|]. cbn [length Nat.eqb negb andb] in Z. destruct (Req_EM_T _ _) in Z; [discriminate|congruence]. }
    apply on_path; [exact D| |cbn [length] in *; lia]. intros i hi. apply hp. cbn [length] in *. lia.
Qed.
(** errors *)
Lemma ipl_errors points N : (2 <= N)%nat -> ((exists p d l, interpolate_path points N = IOk p d l) <-> (length points = 1%nat \/ 0 < spacing points N)).
Proof.
  intros hN. destruct points as [|A l].
  - split; [intros [p [d [q e]]]; discriminate|]. intros [h|h]; [discriminate|]. unfold spacing in h. cbn in h. unfold Rdiv in h. rewrite Rmult_0_l in h. lra.
  - unfold interpolate_path. rewrite dk_spacing. pose proof (spacing_pos (A :: l) N hN) as P. split.
    + intros [p [d [q e]]]. destruct l as [|B l]; [left; reflexivity|]. right. cbn [length Nat.eqb negb andb] in e. destruct (Req_EM_T _ _) in e; [discriminate|]. lra.
    + intros h. destruct (_ && _) eqn:Z; [|eauto]. exfalso. apply andb_true_iff in Z. destruct Z as [z1 z2]. destruct (Req_EM_T _ _) in z2; [|discriminate]. destruct h as [h|h]; [|lra]. injection h as h. rewrite h in z1. discriminate.
Qed.
(** distances never decrease, and steps are at most 3/2 of the average spacing *)
Lemma steps_from dk l : 0 < dk -> forall A i, (i < length (path_from dk A l))%nat -> (forall i, (i < length l)%nat -> dk / 2 < gap (nth i (A :: l) vzero) (nth (i + 1) (A :: l) vzero)) ->
  gap (nth i (A :: path_from dk A l) vzero) (nth i (path_from dk A l) vzero) <= 3 / 2 * dk.
Proof.
  intros hd. induction l as [|B l IH]; intros A i hi hl; [cbn in hi; lia|].
  assert (h0 : dk / 2 < gap A B) by (apply (hl 0%nat); cbn [length]; lia). cbn [path_from] in *. rewrite gap_norm in *. pose proof (n_i_two dk (gap A B) hd h0) as n2. pose proof (n_i_round dk (gap A B) hd) as nr. set (n := n_i dk (gap A B)) in *.
  assert (SL : length (segment A B n) = (Z.to_nat n - 1)%nat) by (unfold segment; rewrite map_length, seq_length; reflexivity).
  assert (SN : forall j, (j <= length (segment A B n))%nat -> nth j (A :: segment A B n) vzero = linspace A B n j).
  { intros j hj. destruct j as [|j]; [symmetry; apply linspace_0|]. cbn [nth]. unfold segment. rewrite SL in hj. rewrite (nth_indep _ vzero (linspace A B n 0)) by (rewrite map_length, seq_length; lia). rewrite map_nth, seq_nth by lia. reflexivity. }
  destruct (le_lt_dec (length (segment A B n)) i) as [q|q].
  - assert (LB : nth (length (segment A B n)) (A :: segment A B n) vzero = B) by (rewrite SN by lia; rewrite SL; apply linspace_last, n2).
    rewrite app_length in hi. replace (nth i (segment A B n ++ path_from dk B l) vzero) with (nth (i - length (segment A B n)) (path_from dk B l) vzero) by (rewrite app_nth2 by lia; reflexivity).
    assert (E : nth i (A :: segment A B n ++ path_from dk B l) vzero = nth (i - length (segment A B n)) (B :: path_from dk B l) vzero).
    { change (A :: segment A B n ++ path_from dk B l) with ((A :: segment A B n) ++ path_from dk B l). destruct (Nat.eq_dec i (length (segment A B n))) as [->|ne].
      - rewrite app_nth1 by (cbn [length]; lia). rewrite LB, Nat.sub_diag. reflexivity.
      - rewrite app_nth2 by (cbn [length]; lia). replace (i - length (segment A B n))%nat with (S (i - length (A :: segment A B n))) by (cbn [length]; lia). reflexivity. }
    rewrite E. apply IH; [lia|]. intros j hj. apply (hl (S j)). cbn [length]. lia.
  - rewrite (app_nth1 (segment A B n)) by lia. change (A :: segment A B n ++ path_from dk B l) with ((A :: segment A B n) ++ path_from dk B l). rewrite app_nth1 by (cbn [length]; lia).
    rewrite SN by lia. change (nth i (segment A B n) vzero) with (nth (S i) (A :: segment A B n) vzero). rewrite SN by lia. rewrite linspace_step by exact n2.
    assert (P : 1 <= IZR n - 1) by (apply IZR_le in n2; lra). rewrite nr in P |- *. rewrite plus_IZR in *. set (t := gap A B / dk) in *. pose proof (pyround_err t) as er.
    assert (T : gap A B = t * dk) by (unfold t; field; lra). apply (Rmult_le_reg_r (IZR (pyround t) + 1 - 1)); [lra|]. unfold Rdiv at 1. rewrite Rmult_assoc, Rinv_l, Rmult_1_r by lra. rewrite T.
    assert (tu : t <= IZR (pyround t) + / 2) by (unfold Rabs in er; destruct (Rcase_abs _) in er; lra). nra.
Qed.
Lemma steps points N path ds ls i : (2 <= N)%nat -> interpolate_path points N = IOk path ds ls -> parts_long points N -> (i + 1 < length path)%nat -> gap (nth i path vzero) (nth (i + 1) path vzero) <= 3 / 2 * spacing points N.
Proof.
  intros hN e hp hi. destruct points as [|A l]; [discriminate|]. unfold interpolate_path in e. rewrite dk_spacing in e. destruct (_ && _) eqn:Z in e; [discriminate|]. apply IOk_inv in e. destruct e as [<- _].
  destruct l as [|B l]; [cbn in hi; lia|].
  assert (D : 0 < spacing (A :: B :: l) N). { destruct (spacing_pos (A :: B :: l) N hN) as [q|q]; [exact q|]. cbn [length Nat.eqb negb andb] in Z. destruct (Req_EM_T _ _) in Z; [discriminate|congruence]. }
  rewrite Nat.add_1_r in *. change (nth (S i) (A :: path_from (spacing (A :: B :: l) N) A (B :: l)) vzero) with (nth i (path_from (spacing (A :: B :: l) N) A (B :: l)) vzero). apply steps_from; [exact D|cbn [length] in hi; lia|].
  intros j hj. apply hp. cbn [length] in *. lia.
Qed.
(** distances are the lengths of the way along the path *)
Lemma cumulate_way l : forall d A k, (k <= length l)%nat -> nth k (d :: cumulate d A l) 0 = d + way (A :: l) k.
Proof.
  induction l as [|B l IH]; intros d A k h; [cbn [length] in h; replace k with 0%nat by lia; cbn [nth way]; ring|]. destruct k as [|k]; [cbn [nth way]; ring|].
  cbn [length] in h. cbn [cumulate]. change (nth (S k) (d :: (d + vnorm (vsub B A)) :: cumulate (d + vnorm (vsub B A)) B l) 0) with (nth k ((d + vnorm (vsub B A)) :: cumulate (d + vnorm (vsub B A)) B l) 0). rewrite IH by lia. rewrite gap_norm. change (way (A :: B :: l) (S k)) with (gap A B + way (B :: l) k). ring.
Qed.
Lemma distances_way points N path ds ls k : interpolate_path points N = IOk path ds ls -> length ds = length path /\ ((k < length path)%nat -> nth k ds 0 = way path k).
Proof.
  intros e. destruct points as [|A l]; [discriminate|]. unfold interpolate_path in e. destruct (_ && _) in e; [discriminate|]. apply IOk_inv in e. destruct e as [<- [<- _]]. split; [cbn [length]; f_equal; apply cumulate_length|]. intros h. rewrite cumulate_way by (cbn [length] in h; lia). ring.
Qed.
