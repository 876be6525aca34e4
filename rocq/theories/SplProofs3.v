From Coq Require Import Reals ZArith Bool Arith Lia Lra.
From Verif Require Import Vec GeomModel GeomProofs SplModel SplSpec SplProofs SplProofs2.
Open Scope R_scope.

Lemma msf_below n x y h v : linear n x h -> (1 < n)%nat -> v <= x 0%nat ->
  msf x y n v = ((x 0%nat - v) * y (n - 1)%nat - (x (n - 1)%nat - v) * y 0%nat) / h.
Proof.
  intros H Hn Hv. unfold msf, bracket. rewrite search_first by (lia || lra).
  replace (0 =? n)%nat with false by (symmetry; apply Nat.eqb_neq; lia).
  rewrite (linear_h n x h H Hn). unfold piece. rewrite second_first, second_last by exact Hn. pose proof (proj1 H). field. lra.
Qed.
Lemma INR_linear n : linear n INR 1.
Proof. split; [lra|]. intros i _. cbn [INR]. ring. Qed.
Lemma msf_first_refuted : exists n x h y, linear n x h /\ (1 < n)%nat /\ msf x y n (x 0%nat) <> y 0%nat.
Proof.
  exists 3%nat, INR, 1, (fun _ => 1). split; [apply INR_linear|]. split; [lia|].
  rewrite (msf_first 3 INR (fun _ => 1) 1 (INR_linear 3)) by lia. cbn. lra.
Qed.
Lemma msf_below_refuted : exists n x h y v, linear n x h /\ (1 < n)%nat /\ v < x 0%nat /\ msf x y n v <> 0.
Proof.
  exists 3%nat, INR, 1, (fun _ => 1), (-1). split; [apply INR_linear|]. split; [lia|]. split; [cbn; lra|].
  rewrite (msf_below 3 INR (fun _ => 1) 1 (-1) (INR_linear 3)) by (lia || (cbn; lra)). cbn. lra.
Qed.
(** a hat function: the middle second derivative is -3 *)
Example second_example : second INR (fun i => if (i =? 1)%nat then 1 else 0) 3 1 = -3.
Proof. cbn. field. Qed.
Example msf_example : msf INR (fun i => if (i =? 1)%nat then 1 else 0) 3 (/ 2) = 11 / 16.
Proof.
  unfold msf. rewrite (bracket_in 3 INR (/ 2) 0) by (try apply (linear_increasing 3 INR 1 (INR_linear 3)); try lia; cbn; lra).
  unfold piece. cbn. field.
Qed.
Example described_linear : described Linear 3 INR.
Proof. split; [cbn; lra|]. intros i Hi. cbn. field. Qed.
Example described_power : described (Power 2) 3 (fun i => INR i * INR i).
Proof.
  split; [cbn; lra|]. split; [lra|]. intros i Hi.
  assert (i = 0 \/ i = 1 \/ i = 2)%nat as [->|[->| ->]] by lia; cbn -[ppow].
  - replace (0 / (1 + 1)) with 0 by field. rewrite ppow_0. ring.
  - replace (1 / (1 + 1)) with (/ 2) by field. rewrite ppow_pos by lra. replace 2 with (INR 2) at 2 by (cbn; lra). rewrite Rpower_pow by lra. cbn. field.
  - replace ((1 + 1) / (1 + 1)) with 1 by field. rewrite ppow_1. ring.
Qed.
Lemma fsf_last g n x y : fsf g x y n (x (n - 1)%nat) = Some 0.
Proof. unfold fsf. apply fast_out. right. lra. Qed.
Lemma fsf_last_refuted : exists g n x y, described g n x /\ (1 < n)%nat /\ fsf g x y n (x (n - 1)%nat) <> Some (y (n - 1)%nat).
Proof.
  exists Linear, 3%nat, INR, (fun _ => 1). split; [apply described_linear|]. split; [lia|]. rewrite fsf_last. intros E. injection E. lra.
Qed.
Lemma trilinear_origin_refuted : exists a n1 n2 n3 x0 d i j k, (1 < n1)%nat /\ (1 < n2)%nat /\ (1 < n3)%nat /\ 0 < vx d /\ 0 < vy d /\ 0 < vz d /\
  (i < n1)%nat /\ (j < n2)%nat /\ (k < n3)%nat /\
  trilinear a n1 n2 n3 x0 d (V3 (vx x0 + INR i * vx d) (vy x0 + INR j * vy d) (vz x0 + INR k * vz d)) <> Some (a i j k).
Proof.
  exists (fun i _ _ => if (i =? 0)%nat then 1 else 0), 3%nat, 2%nat, 2%nat, (V3 1 0 0), (V3 1 1 1), 0%nat, 0%nat, 0%nat.
  repeat (split; [first [lia|cbn; lra]|]). cbn [vx vy vz INR].
  assert (E1 : inside 3 1 1 (1 + 0 * 1) = true) by (unfold inside; apply andb_true_intro; split; apply leb_true; cbn; lra).
  assert (E2 : inside 2 0 1 (0 + 0 * 1) = true) by (unfold inside; apply andb_true_intro; split; apply leb_true; cbn; lra).
  assert (F : forall t z, t = IZR z -> Int_part t = z) by (intros t z ->; pose proof (base_Int_part (IZR z)) as [A B]; rewrite <- minus_IZR in B; apply le_IZR in A; change (-1) with (IZR (-1)) in B; apply Rgt_lt, lt_IZR in B; lia).
  assert (C1 : cell 3 1 (1 + 0 * 1) = 1%Z) by (unfold cell; rewrite (F _ 1%Z) by field; reflexivity).
  assert (C2 : cell 2 1 (0 + 0 * 1) = 0%Z) by (unfold cell; rewrite (F _ 0%Z) by field; reflexivity).
  unfold trilinear. cbn [vx vy vz]. rewrite E1, E2. cbn [andb]. cbv zeta. rewrite C1, C2. cbn. intros E. injection E. lra.
Qed.
Example trilinear_example : trilinear (fun i j k => trilin (fun m => INR m) (INR i * 1) (INR j * 1) (INR k * 1)) 2 2 2 vzero (V3 1 1 1) (V3 (/ 2) (/ 2) (/ 2))
  = Some (trilin (fun m => INR m) (/ 2) (/ 2) (/ 2)).
Proof.
  apply (trilinear_exact (fun m => INR m) 2 2 2 (V3 1 1 1) (V3 (/ 2) (/ 2) (/ 2))); try lia; cbn [vx vy vz]; try lra;
    unfold inside; apply andb_true_intro; split; apply leb_true; cbn; lra.
Qed.
