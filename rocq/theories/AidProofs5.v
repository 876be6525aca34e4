From Coq Require Import FunctionalExtensionality Reals ZArith List Bool Arith Lia Lra Psatz.
From Coquelicot Require Import Coquelicot.
From Verif Require Import GeomModel GeomProofs SysSpec AidModel AidSpec AidProofs AidProofs2 AidProofs3 AidProofs4.
Import ListNotations.
Open Scope R_scope.

(** what the greatest difference says about the forces *)
Lemma check_forces_sound N energy forces dx p M i c f1 f2 f3 : (i < N)%nat -> (c < 3)%nat -> 0 < dx ->
  smooth3 (along_axis energy p i c) f1 f2 f3 (p i c - dx) (p i c + dx) -> (forall t, p i c - dx <= t <= p i c + dx -> Rabs (f3 t) <= M) ->
  let '(_, ffd, f0, d) := check_forces N energy forces dx p in
  Rabs (ffd i c - - f1 (p i c)) <= M * dx ^ 2 / 6 /\ Rabs (f0 i c - - f1 (p i c)) <= d + M * dx ^ 2 / 6.
Proof.
  intros Hi Hc Hd S B. pose proof (check_forces_spec N energy forces dx p ltac:(lia)) as P. destruct (check_forces N energy forces dx p) as [[[p' ffd] f0] d]. destruct P as (_ & _ & F & D & _).
  pose proof (central_error _ _ _ _ _ _ _ Hd S B) as C. rewrite <- Rabs_Ropp in C.
  assert (A : Rabs (ffd i c - - f1 (p i c)) <= M * dx ^ 2 / 6). { rewrite (F i c Hi Hc). replace (- central (along_axis energy p i c) (p i c) dx - - f1 (p i c)) with (- (central (along_axis energy p i c) (p i c) dx - f1 (p i c))) by ring. exact C. }
  split; [exact A|]. specialize (D i c Hi Hc). rewrite Rabs_minus_sym in D. replace (f0 i c - - f1 (p i c)) with ((f0 i c - ffd i c) + (ffd i c - - f1 (p i c))) by ring. pose proof (Rabs_triang (f0 i c - ffd i c) (ffd i c - - f1 (p i c))). lra.
Qed.
(** correct forces are found correct *)
Lemma check_forces_complete N energy forces dx p M : (1 <= N)%nat -> 0 < dx ->
  (forall i c, (i < N)%nat -> (c < 3)%nat -> exists f1 f2 f3, smooth3 (along_axis energy p i c) f1 f2 f3 (p i c - dx) (p i c + dx) /\ (forall t, p i c - dx <= t <= p i c + dx -> Rabs (f3 t) <= M) /\ forces p i c = - f1 (p i c)) ->
  snd (check_forces N energy forces dx p) <= M * dx ^ 2 / 6.
Proof.
  intros HN Hd H. pose proof (check_forces_spec N energy forces dx p HN) as P. 
  destruct (check_forces N energy forces dx p) as [[[p' ffd] f0] d] eqn:E. destruct P as (_ & F0 & F & _ & (i & c & Hi & Hc & Ed)). cbn [snd]. rewrite Ed.
  destruct (H i c Hi Hc) as (f1 & f2 & f3 & S & B & G). pose proof (check_forces_sound N energy forces dx p M i c f1 f2 f3 Hi Hc Hd S B) as Q. rewrite E in Q. destruct Q as [Q _]. rewrite F0, G. exact Q.
Qed.
(** ** cases *)
(** a spring along x *)
Example ex_spring : smooth3 (along_axis (fun p => (p 0%nat 0%nat - 1) ^ 2) (fun _ _ => 0) 0 0) (fun t => 2 * (t - 1)) (fun _ => 2) (fun _ => 0) (0 - 1) (0 + 1).
Proof. intros t _. unfold along_axis, put. cbn [Nat.eqb andb]. split; [|split]; auto_derive; try exact I; ring. Qed.
Example ex_proper : proper (fun c p => c 0%nat 0%nat * p 0%nat 2%nat). Proof. intros c c' p p' H1 H2. rewrite (H1 0%nat 0%nat), (H2 0%nat 2%nat) by lia. reflexivity. Qed.
Example ex_bending : exists r, setup_bending unit3 (false, true, true) [V3 1 0 (/ 2)] (PI / 4) 5 0 = Some (r, PI / 4, 1, true).
Proof.
  eexists. unfold setup_bending.
  assert (D : ltb (/ 10 ^ 10) (Rabs (unit3 0%nat 0%nat * unit3 1%nat 1%nat * unit3 2%nat 2%nat - Rabs (det3 unit3))) = false).
  { apply ltb_false. unfold det3, unit3. cbn [Nat.eqb]. replace (1 * (1 * 1 - 0 * 0) - 0 * (0 * 1 - 0 * 0) + 0 * (0 * 0 - 1 * 0)) with 1 by ring. rewrite Rabs_R1. replace (1 * 1 * 1 - 1) with 0 by ring. rewrite Rabs_R0. apply Rlt_le, Rinv_0_lt_compat. lra. }
  rewrite D. cbn [negb orb]. cbv zeta. cbn [map existsb lie_down vy vx vz orb]. rewrite (proj2 (ltb_false (/ 2) 0)) by lra. cbn [orb]. reflexivity.
Qed.
Definition ex_data : grid := Grid (fun _ _ k => match k with O => 2 | _ => 0 end) 2 2 3 (V3 1 1 4).
Example ex_good : good ex_data. Proof. unfold good, ex_data. cbn [g_nx g_ny g_nz g_axes vx vy vz]. repeat split; try lia; lra. Qed.
Example ex_contour : ~ no_contour ex_data 1 0 0.
Proof.
  pose proof ex_good as G. assert (B : in_box ex_data 0 0) by (unfold in_box, ex_data; cbn [g_axes vx vy]; lra).
  assert (L : forall k, lay ex_data 0 0 k = match k with O => 2 | _ => 0 end) by (intros k; unfold lay, layer, SplProofs2.lin1, ex_data; cbn [g_data]; ring).
  assert (C0 := call_node ex_data G 0 0 B 0 ltac:(unfold ex_data; cbn [g_nz]; lia)). assert (C1 := call_node ex_data G 0 0 B 1 ltac:(unfold ex_data; cbn [g_nz]; lia)). rewrite L in C0, C1.
  intros N. apply (N 0%nat 2 0); [unfold ex_data; cbn [g_nz]; lia|exact C0|exact C1|lra].
Qed.
Example ex_uniform : (2 <= r_N)%nat /\ (forall v, 0 <= v <= 1 -> 0 <= (fun _ => 1) v). Proof. split; [unfold r_N; lia|intros; lra]. Qed.
