(** Concrete cases. *)
From Coq Require Import Reals ZArith List Bool Arith Lia Lra Psatz FunctionalExtensionality String.
From Coquelicot Require Import Coquelicot.
From Verif Require Import Vec GeomModel GeomProofs BoxModel BoxSpec BoxProofs BoxProofs2 BoxProofs3 BoxProofs4.
Import ListNotations.
Open Scope R_scope.

Example ex_cube : orthogonal cube /\ positive_axes cube.
Proof.
  split; intros a; [intros c Ha Hc N; three a; three c; try contradiction; reflexivity|intros Ha; three a; unfold axis_length; cbn [cube b_cell row coord row1 row2 row3 vx vy vz]; lra].
Qed.
(** three images on a line, in one coordinate *)
Definition three_images : path := Path 3 (fun i => i) (fun a c => INR a ^ 2) false None (Some (fun i => INR i)).
Example ex_separate : separate three_images /\ h_lock three_images = false /\ segment 1 (positions three_images) 0 <> 0 /\ segment 1 (positions three_images) 1 <> 0.
Proof.
  split; [intros i j _ _ N; exact N|]. split; [reflexivity|]. split; unfold segment; apply Rgt_not_eq, sqrt_lt_R0; cbn; lra.
Qed.
Example ex_force : force_of 1 (fun v => v 0%nat ^ 2) (fun v c => - (2 * v 0%nat)) (positions three_images 1).
Proof. intros u. auto_derive; [exact I|]. cbn. ring. Qed.
Definition copies : path := Path 3 (fun i => if (i <? 2)%nat then 0%nat else 1%nat) (fun a _ => INR a) false None None.
Example ex_copied : copied copies.
Proof. intros i Hi. cbn in Hi. destruct i as [|[|i]]; [..|lia]; cbn; split; congruence. Qed.
(** the path is not equally spaced *)
Lemma copied_refuted : exists p i, copied p /\ h_M p = 3%nat /\ positions p 0 0%nat = 0 /\ positions p 2 0%nat = 1 /\ (i < h_M p)%nat /\ i = 0%nat /\ positions (interpolate p) i 0%nat = 1 / 2 /\ ~ all_equal 2 (segment 1 (positions (interpolate p))).
Proof.
  exists copies, 0%nat. split; [exact ex_copied|]. split; [reflexivity|]. split; [reflexivity|]. split; [reflexivity|]. split; [cbn; lia|]. split; [reflexivity|].
  assert (E : forall i, (i < 2)%nat -> positions (interpolate copies) i 0%nat = 1 / 2). { intros i Hi. rewrite interpolate_copied; [cbn; lra|exact ex_copied|cbn; lia|cbn; lia]. }
  split; [apply E; lia|]. intros H. specialize (H 0%nat 1%nat ltac:(lia) ltac:(lia)). unfold segment in H. cbn [rsum] in H. rewrite !E in H by lia.
  assert (L : positions (interpolate copies) 2 0%nat = 1). { rewrite interpolate_writes. unfold positions. destruct (writes_frame (line copies) (seq 1 (h_M copies - 2)) copies) as (_ & -> & _). rewrite writes_other; [reflexivity|]. intros i Hi. apply in_seq in Hi. cbn in Hi. replace i with 1%nat by lia. cbn. lia. }
  rewrite L in H. replace (0 + (1 / 2 - 1 / 2) ^ 2) with 0 in H by ring. replace (0 + (1 - 1 / 2) ^ 2) with ((1 / 2) ^ 2) in H by field. rewrite sqrt_0, sqrt_pow2 in H by lra. lra.
Qed.
(** after a locked step, the deviations of an equally spaced path are not zero *)
Lemma stale_refuted : exists p r r', separate p /\ (forall i, (i < h_M p)%nat -> positions (set_path (lock_path false (set_path (lock_path true p) r)) r') i = r' i) /\ all_equal (h_M p - 1) (segment 1 r') /\
  deviations 1 (set_path (lock_path false (set_path (lock_path true p) r)) r') 0%nat <> 0.
Proof.
  exists three_images, (fun i _ => INR i ^ 2), (fun i _ => INR i). split; [apply ex_separate|]. split.
  - intros i Hi. apply set_path_at; [intros a b _ _ N; exact N|reflexivity|exact Hi].
  - assert (Sg : forall (a : nat -> R) i, segment 1 (fun i _ => a i) i = Rabs (a (S i) - a i)). { intros a i. unfold segment. cbn [rsum]. rewrite Rplus_0_l. rewrite <- Rsqr_pow2. apply sqrt_Rsqr_abs. }
    split.
    + intros i j Hi Hj. rewrite !(Sg INR). rewrite !S_INR. f_equal. ring.
    + rewrite stale_deviations. cbn [three_images h_M Nat.sub]. cbn [rsum]. rewrite !(Sg (fun i => INR i ^ 2)). cbn [INR]. rewrite !Rabs_pos_eq by lra. lra.
Qed.
Example ex_leps t : 1 <= t <= 1 + / 10 ^ 6 -> 0 < leps_root t (3.742 - t).
Proof. intros H. apply leps_root_pos. assert (/ 10 ^ 6 <= 0.5) by (apply Rle_trans with (/ 2); [apply Rinv_le_contravar; lra|lra]). lra. Qed.
(** two atoms on the x axis: the tensor is diagonal, with the unit vectors as eigenvectors *)
Definition pair_tensor := inertia 2 (fun _ => 1) (seen true 2 (fun _ => 1) (fun k => V3 (2 * INR k) 0 0)).
Example ex_eigh : eigh_contract (fun T => (fun k => T k k, fun i j => if (i =? j)%nat then 1 else 0)) pair_tensor /\ pair_tensor 0%nat 0%nat = 0 /\ pair_tensor 1%nat 1%nat = 2.
Proof.
  assert (E : forall i j, (i < 3)%nat -> (j < 3)%nat -> pair_tensor i j = if (i =? j)%nat then (if (i =? 0)%nat then 0 else 2) else 0).
  { intros i j Hi Hj. unfold pair_tensor, inertia, seen, centre. cbn zeta. three i; three j; cbn [rsum Nat.eqb coord vsub vx vy vz INR]; field. }
  split; [|split; rewrite E by lia; reflexivity]. intros _. cbn [fst snd]. split.
  - intros k l Hk Hl. three k; three l; cbn [Nat.eqb]; unfold column, vdot; cbn [vx vy vz Nat.eqb]; ring.
  - intros k i Hk Hi. cbn [rsum]. rewrite !E by lia. three k; three i; cbn [Nat.eqb]; ring.
Qed.
Example ex_check : check_energy_conservation 2 0.01 (fun i => INR i) (fun i => - INR i) = true.
Proof.
  apply check_conserved; [lia|lra| |].
  - intros i j _ _. ring.
  - intros H. specialize (H 0%nat 1%nat ltac:(lia) ltac:(lia)). cbn in H. lra.
Qed.
Example ex_conserved : all_equal 5 (fun _ => 3) /\ all_equal 5 (fun _ => 3 + 2) /\ check_energy_conservation 5 0.01 (fun _ => 3) (fun _ => 2) = false.
Proof. split; [intros i j _ _; reflexivity|]. split; [intros i j _ _; reflexivity|]. apply conserved_refuted; [lia| |]; intros i j _ _; reflexivity. Qed.
Example ex_bonded : bonded (Batoms 2 (fun i => if (i =? 0)%nat then vzero else V3 1 0 0) (M3 (V3 20 0 0) (V3 0 20 0) (V3 0 0 20)) (fun _ => false)) (fun _ => 1) 0 1 1.
Proof.
  split; [cbn; lia|]. split; [|lra]. unfold distance, vector, wrap, each. cbn [negb coordinates b_pos b_pbc Nat.eqb]. f_equal. unfold vnorm. transitivity (sqrt (1 * 1)); [f_equal; vunf; ring|apply sqrt_square; lra].
Qed.
Lemma name_text : fst (get_name (Named ["O"; "H"; "H"]%string None None)) = [("O", 1%nat); ("H", 2%nat)]%string.
Proof. reflexivity. Qed.
