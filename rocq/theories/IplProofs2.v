From Coq Require Import Reals ZArith List Bool Arith Lia Lra Psatz.
From Verif Require Import GeomModel GridProofs IplModel IplSpec IplProofs.
Import ListNotations.
Open Scope R_scope.

Lemma near t k : Rabs (t - IZR k) < / 2 -> pyround t = k.
Proof.
  intros h. pose proof (pyround_err t) as e. apply Rabs_def2 in h. assert (- 1 < IZR (pyround t) - IZR k < 1) by (unfold Rabs in e; destruct (Rcase_abs _) in e; lra).
  rewrite <- minus_IZR in H. destruct H as [h1 h2]. apply lt_IZR in h1, h2. lia.
Qed.
(** a short part: its end is not on the path *)
Definition P0 := V3 0 0 0. Definition P4 := V3 4 0 0. Definition P5 := V3 5 0 0.
Lemma g04 : gap P0 P4 = 4. Proof. unfold gap, P0, P4. cbn [vx vy vz]. replace ((0 - 4) ^ 2 + (0 - 0) ^ 2 + (0 - 0) ^ 2) with (4 * 4) by ring. apply sqrt_square. lra. Qed.
Lemma g45 : gap P4 P5 = 1. Proof. unfold gap, P4, P5. cbn [vx vy vz]. replace ((4 - 5) ^ 2 + (0 - 0) ^ 2 + (0 - 0) ^ 2) with (1 * 1) by ring. apply sqrt_square. lra. Qed.
Lemma sp : spacing [P0; P4; P5] 3 = 5 / 2.
Proof. unfold spacing. change (way [P0; P4; P5] (length [P0; P4; P5] - 1)) with (gap P0 P4 + (gap P4 P5 + 0)). rewrite g04, g45. cbn [INR]. field. Qed.
Lemma end_missing_refuted : exists points N path ds ls, (2 <= N)%nat /\ interpolate_path points N = IOk path ds ls /\ points <> [] /\ ~ In (last points vzero) path.
Proof.
  destruct (proj2 (ipl_errors [P0; P4; P5] 3 ltac:(lia))) as [path [ds [ls e]]]; [right; rewrite sp; lra|].
  exists [P0; P4; P5], 3%nat, path, ds, ls. split; [lia|]. split; [exact e|]. split; [discriminate|]. unfold interpolate_path in e. rewrite dk_spacing, sp in e. destruct (_ && _) in e; [discriminate|]. apply IOk_inv in e. destruct e as [<- _].
  cbn [path_from]. rewrite !gap_norm, g04, g45, !n_i_round by lra. rewrite (near (4 / (5 / 2)) 2) by (apply Rabs_def1; lra). rewrite (near (1 / (5 / 2)) 0) by (apply Rabs_def1; lra).
  change (segment P0 P4 (2 + 1)) with [linspace P0 P4 3 1; linspace P0 P4 3 2]. change (segment P4 P5 (0 + 1)) with (@nil v3). cbn [app last In].
  assert (H : forall q, q = P5 -> vx q = 5) by (intros q ->; reflexivity). intros [h|[h|[h|[]]]]; apply H in h; unfold linspace, vadd, vscale, vsub, P0, P4 in h; cbn [vx vy vz INR] in h; lra.
Qed.
(** the number of points differs from N by at most half the number of parts *)
Lemma path_count dk l : 0 < dk -> forall A, Rabs (INR (length (path_from dk A l)) - sum (lengths A l) / dk) <= INR (length l) / 2.
Proof.
  intros hd. induction l as [|B l IH]; intros A; [cbn; unfold sum; cbn; unfold Rdiv; rewrite !Rmult_0_l, Rminus_0_r, Rabs_R0; lra|].
  cbn [path_from lengths]. rewrite app_length, plus_INR, sum_cons. change (length (B :: l)) with (S (length l)). rewrite S_INR, n_i_round by exact hd. specialize (IH B). set (t := vnorm (vsub B A) / dk). pose proof (pyround_err t) as e.
  assert (Nn : (0 <= pyround t)%Z). { apply pyround_nonneg. apply Rmult_le_pos; [apply sqrt_pos|apply Rlt_le, Rinv_0_lt_compat, hd]. }
  assert (S : INR (length (segment A B (pyround t + 1))) = IZR (pyround t)). { unfold segment. rewrite map_length, seq_length. replace (Z.to_nat (pyround t + 1) - 1)%nat with (Z.to_nat (pyround t)) by lia. rewrite INR_IZR_INZ, Z2Nat.id by exact Nn. reflexivity. }
  rewrite S. replace ((vnorm (vsub B A) + sum (lengths B l)) / dk) with (t + sum (lengths B l) / dk) by (unfold t; field; lra).
  replace (IZR (pyround t) + INR (length (path_from dk B l)) - (t + sum (lengths B l) / dk)) with ((IZR (pyround t) - t) + (INR (length (path_from dk B l)) - sum (lengths B l) / dk)) by ring.
  eapply Rle_trans; [apply Rabs_triang|]. lra.
Qed.
Lemma number_of_points points N path ds ls : (2 <= N)%nat -> (2 <= length points)%nat -> interpolate_path points N = IOk path ds ls -> Rabs (INR (length path) - INR N) <= INR (length points - 1) / 2.
Proof.
  intros hN hl e. pose proof (proj1 (ipl_errors points N hN) (ex_intro _ path (ex_intro _ ds (ex_intro _ ls e)))) as D. destruct D as [D|D]; [lia|].
  destruct points as [|A l]; [discriminate|]. unfold interpolate_path in e. rewrite dk_spacing in e. destruct (_ && _) in e; [discriminate|]. apply IOk_inv in e. destruct e as [<- _].
  pose proof (path_count _ l D A) as Q. apply le_INR in hN. cbn [INR] in hN. rewrite <- (dk_spacing A l N) in Q at 2. rewrite <- (dk_spacing A l N) in D.
  assert (E : sum (lengths A l) / (sum (lengths A l) / (INR N - 1)) = INR N - 1). { field. split; [lra|]. intros z. rewrite z in D. unfold Rdiv in D. rewrite Rmult_0_l in D. lra. }
  rewrite E in Q. change (length (A :: path_from (spacing (A :: l) N) A l)) with (S (length (path_from (spacing (A :: l) N) A l))). rewrite S_INR. replace (length (A :: l) - 1)%nat with (length l) by (cbn [length]; lia).
  replace (INR (length (path_from (spacing (A :: l) N) A l)) + 1 - INR N) with (INR (length (path_from (spacing (A :: l) N) A l)) - (INR N - 1)) by ring. exact Q.
Qed.
Example ex_long : parts_long [P0; P4; P5] 11 /\ 0 < spacing [P0; P4; P5] 11.
Proof.
  assert (S : spacing [P0; P4; P5] 11 = / 2). { unfold spacing. change (way [P0; P4; P5] (length [P0; P4; P5] - 1)) with (gap P0 P4 + (gap P4 P5 + 0)). rewrite g04, g45. replace (INR 11) with 11 by (rewrite INR_IZR_INZ; reflexivity). field. }
  split; [|rewrite S; lra]. intros k hk. rewrite S. cbn [length] in hk. destruct k as [|[|k]]; [|cbn [nth Nat.add]|lia]; [change (/ 2 / 2 < gap P0 P4); rewrite g04; lra|rewrite g45; lra].
Qed.
