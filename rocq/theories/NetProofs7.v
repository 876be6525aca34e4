From Coq Require Import Reals ZArith List Bool Arith Permutation Lia Lra.
From Verif Require Import Vec GeomModel GeomSpec GeomProofs CoulModel CoulProofs MixModel PairModel PairSpec SkModel SkSpec Cpx RhoModel EigModel InvModel InvSpec InvProofs5 InvProofs9 InvProofs10 GamModel GamSpec GamProofs2 GamProofs4 GamProofs6 FrcSpec FoldSpec FoldProofs6 FoldProofs12 NetSpec NetProofs NetProofs6.
Import ListNotations.
Open Scope R_scope.

Lemma work_is g r w om : rsum (g_N g) (fun I => vdot (force_on r I) (rigid_velocity w om (g_r g I))) = vdot w (net_force g r) + vdot om (net_torque g r).
Proof.
  unfold net_force, net_torque, NetSpec.vsum, vdot at 2 3. cbn [vx vy vz]. rewrite <- !rsum_scal, <- !rsum_plus. apply rsum_ext. intros I _.
  generalize (force_on r I) (g_r g I). intros [f1 f2 f3] [x1 x2 x3]. destruct w, om. unfold rigid_velocity, vdot, vadd, vcross. cbn. ring.
Qed.
Lemma vdot_all p : (forall w, vdot w p = 0) -> p = vzero.
Proof.
  intros H. pose proof (H (V3 1 0 0)) as A. pose proof (H (V3 0 1 0)) as B. pose proof (H (V3 0 0 1)) as C. destruct p as [a b c]. unfold vdot in *. cbn in *. unfold vzero. f_equal; lra.
Qed.
Lemma mv_eye' p : mv eye p = p. Proof. apply v3_eq; vunf; ring. Qed.
(** ** structures *)
Lemma eye_moves w om : moves_along w om eye vzero.
Proof. intros x. rewrite !mv_eye'. f_equal. apply v3_eq; vunf; ring. Qed.
Lemma eye_translates w t : moves_along w vzero eye t.
Proof. intros x. rewrite !mv_eye'. unfold rigid_velocity. apply v3_eq; unfold vcross; vunf; ring. Qed.
Lemma screw_moves x y a b : moves_along (V3 0 0 x) (V3 0 0 y) (rotz a) (V3 0 0 b).
Proof. intros [p q r]. unfold rigid_velocity, rotz, vcross. apply v3_eq; vunf; ring. Qed.
Lemma molecule_scan g k cs : molecule g -> scan k (g_ranges g) = Some cs -> cs = [(0, 0, 0)%Z].
Proof. intros M. rewrite (b_ranges _ M). unfold scan, is_cluster, infinite, n_from_range. cbn [orb negb]. destruct k; intros E; injection E as <-; reflexivity. Qed.
Lemma molecule_motion w om g : molecule g -> symmetric_motion w om g.
Proof.
  intros M. split.
  - intros n Hn. rewrite (b_nimg _ M) in Hn. assert (n = 0%nat) by lia. subst n. rewrite (b_O _ M), (b_t _ M). apply eye_moves.
  - intros k cs c E Hc. rewrite (molecule_scan g k cs M E) in Hc. destruct Hc as [<-|[]]. rewrite (b_rot _ M), (b_tr0 _ M). apply eye_moves.
Qed.
Lemma molecule_closed g : molecule g -> closed_cells g.
Proof.
  intros M k cs E. rewrite (molecule_scan g k cs M E). exists (fun _ => vzero), (fun _ => eye), (fun c => c). split.
  - intros c [<-|[]]. rewrite (b_rot _ M), (b_tr0 _ M). split; reflexivity.
  - constructor.
    + rewrite map_id. apply Permutation_refl.
    + repeat split; reflexivity.
    + reflexivity.
    + intros c p q. rewrite !mv_eye'. reflexivity.
    + intros c p. rewrite !mv_eye'. reflexivity.
    + intros c. rewrite mv_eye'. apply v3_eq; vunf; ring.
Qed.
Lemma translated_motion w a1 a2 a3 g : translated a1 a2 a3 g -> symmetric_motion w vzero g.
Proof. intros T. split; [intros n Hn; rewrite (tl_O _ _ _ _ T n Hn)|intros k cs c _ _; rewrite (tl_rot _ _ _ _ T c)]; apply eye_translates. Qed.
Lemma translated_closed a1 a2 a3 g : translated a1 a2 a3 g -> closed_cells g.
Proof.
  intros T k cs E. destruct (bravais_inv (g_ranges g) a1 a2 a3 (tl_ranges _ _ _ _ T) k cs E) as [inv H]. exists (lattice a1 a2 a3), (fun _ => eye), inv. split; [|exact H].
  intros c _. rewrite (tl_rot _ _ _ _ T c), (tl_tr0 _ _ _ _ T c). split; reflexivity.
Qed.
Lemma wedge_motion x y M z g : wedge M z g -> symmetric_motion (V3 0 0 x) (V3 0 0 y) g.
Proof.
  intros W. split.
  - intros n Hn. rewrite (e_nimg _ _ _ W) in Hn. rewrite (e_O _ _ _ W n Hn), (e_t _ _ _ W n Hn). apply screw_moves.
  - intros k cs c _ _. rewrite (e_rot _ _ _ W c), (e_tr0 _ _ _ W c). apply screw_moves.
Qed.
Lemma wedge_scan M z g k cs : wedge M z g -> scan k (g_ranges g) = Some cs -> cs = triples (zrange (- (Z.of_nat (M - 1) / 2)) (Z.of_nat M / 2 + 1)) [0%Z] [0%Z].
Proof. intros W. rewrite (e_ranges _ _ _ W). unfold scan, is_cluster, infinite, n_from_range. cbn [fst snd orb negb]. destruct k; intros E; injection E as <-; reflexivity. Qed.
Lemma wedge_closed M z g : wedge M z g -> closed_cells g.
Proof.
  intros W k cs E. rewrite (wedge_scan M z g k cs W E). pose proof (e_M _ _ _ W) as HM. assert (HR : INR M <> 0) by (apply not_0_INR; lia).
  set (nv := fun c : cell => let '(a, b, d) := c in ((if (2 * Z.abs a =? Z.of_nat M)%Z then a else - a)%Z, b, d)).
  assert (II : forall c, nv (nv c) = c).
  { intros [[a b] d]. unfold nv. destruct (Z.eqb_spec (2 * Z.abs a) (Z.of_nat M)) as [H|H].
    - rewrite (proj2 (Z.eqb_eq _ _) H). reflexivity.
    - replace (2 * Z.abs (- a) =? Z.of_nat M)%Z with false by (symmetry; apply Z.eqb_neq; lia). f_equal. f_equal. lia. }
  assert (PM : forall c, In c (triples (zrange (- (Z.of_nat (M - 1) / 2)) (Z.of_nat M / 2 + 1)) [0%Z] [0%Z]) -> In (nv c) (triples (zrange (- (Z.of_nat (M - 1) / 2)) (Z.of_nat M / 2 + 1)) [0%Z] [0%Z])).
  { intros [[a b] d] Hc. apply in_triples in Hc. apply in_triples. unfold nv, t1, t2, t3 in *. cbn [fst snd] in *. destruct Hc as (H1 & H2 & H3). split; [|split; assumption]. apply in_zrange in H1. apply in_zrange.
    destruct (Z.eqb_spec (2 * Z.abs a) (Z.of_nat M)) as [H|H]; [exact H1|].
    pose proof (Z.div_mod (Z.of_nat (M - 1)) 2 ltac:(lia)). pose proof (Z.mod_pos_bound (Z.of_nat (M - 1)) 2 ltac:(lia)). pose proof (Z.div_mod (Z.of_nat M) 2 ltac:(lia)). pose proof (Z.mod_pos_bound (Z.of_nat M) 2 ltac:(lia)). lia. }
  assert (IR : forall c, rotz (IZR (t1 (nv c)) * (2 * PI / INR M) + IZR (t1 c) * (2 * PI / INR M)) = eye).
  { intros [[a b] d]. unfold nv, t1. cbn [fst]. rewrite <- rotz_0. destruct (Z.eqb_spec (2 * Z.abs a) (Z.of_nat M)) as [H|H].
    - apply (rotz_whole _ _ (Z.sgn a)). assert (E2 : 2 * IZR a = IZR (Z.sgn a) * INR M).
      { rewrite INR_IZR_INZ, <- !mult_IZR. f_equal. rewrite <- H. pose proof (Z.abs_sgn a) as Q. lia. }
      replace (IZR a * (2 * PI / INR M) + IZR a * (2 * PI / INR M)) with (2 * IZR a * (2 * PI / INR M)) by ring. rewrite E2. field. exact HR.
    - f_equal. rewrite opp_IZR. ring. }
  exists (g_tr0 g), (g_rot g), nv. split; [split; reflexivity|]. constructor.
  - apply NoDup_Permutation.
    + apply FinFun.Injective_map_NoDup; [intros c d Q; rewrite <- (II c), <- (II d), Q; reflexivity|]. apply nodup_triples; [apply nodup_zrange|repeat constructor; intros []|repeat constructor; intros []].
    + apply nodup_triples; [apply nodup_zrange|repeat constructor; intros []|repeat constructor; intros []].
    + intros c. rewrite in_map_iff. split; [intros (d & <- & Hd); apply PM; exact Hd|]. intros Hc. exists (nv c). split; [apply II|apply PM; exact Hc].
  - rewrite (e_tr0 _ _ _ W), (e_rot _ _ _ W). unfold origin_cell, t1. cbn [fst]. split; [reflexivity|]. split; [rewrite Rmult_0_l; apply rotz_0|]. unfold nv. destruct (_ =? _)%Z; reflexivity.
  - exact II.
  - intros c p q. rewrite (e_rot _ _ _ W). apply mv_dot. apply rotz_orthogonal.
  - intros c p. rewrite !(e_rot _ _ _ W). rewrite <- mv_mm, rotz_plus, IR. apply mv_eye'.
  - intros c. rewrite !(e_tr0 _ _ _ W). rewrite mv_vzero. apply v3_eq; vunf; ring.
Qed.
Lemma chain_scan z beta a kappa g k cs : chain z beta a kappa g -> scan k (g_ranges g) = Some cs -> cs = triples [0%Z] [0%Z] (zrange (-5) 6).
Proof. intros C. rewrite (n_ranges _ _ _ _ _ C). unfold scan, is_cluster, infinite, n_from_range. cbn [fst snd orb negb]. destruct k; [|discriminate]. intros E; injection E as <-. reflexivity. Qed.
Lemma chain_motion x y z beta s kappa g : chain z beta (V3 0 0 s) kappa g -> symmetric_motion (V3 0 0 x) (V3 0 0 y) g.
Proof.
  intros C. assert (Ax : forall l, vscale l (V3 0 0 s) = V3 0 0 (l * s)) by (intros l; apply v3_eq; vunf; ring). split.
  - intros n Hn. rewrite (n_O _ _ _ _ _ C n Hn), (n_t _ _ _ _ _ C n Hn), Ax. apply screw_moves.
  - intros k cs c _ _. rewrite (n_rot _ _ _ _ _ C c), (n_tr0 _ _ _ _ _ C c), Ax. apply screw_moves.
Qed.
Lemma chain_closed z beta a kappa g : chain z beta a kappa g -> closed_cells g.
Proof.
  intros C k cs E. rewrite (chain_scan _ _ _ _ _ k cs C E).
  set (nv := fun c : cell => let '(a, b, d) := c in (a, b, - d)%Z).
  assert (II : forall c, nv (nv c) = c) by (intros [[x y] d]; unfold nv; f_equal; lia).
  assert (PM : forall c, In c (triples [0%Z] [0%Z] (zrange (-5) 6)) -> In (nv c) (triples [0%Z] [0%Z] (zrange (-5) 6))).
  { intros [[x y] d] Hc. apply in_triples in Hc. apply in_triples. unfold nv, t1, t2, t3 in *. cbn [fst snd] in *. destruct Hc as (H1 & H2 & H3). split; [assumption|]. split; [assumption|]. apply in_zrange in H3. apply in_zrange. lia. }
  assert (T3 : forall c, t3 (nv c) = (- t3 c)%Z) by (intros [[x y] d]; reflexivity).
  exists (g_tr0 g), (g_rot g), nv. split; [split; reflexivity|]. constructor.
  - apply NoDup_Permutation.
    + apply FinFun.Injective_map_NoDup; [intros c d Q; rewrite <- (II c), <- (II d), Q; reflexivity|]. apply nodup_triples; [repeat constructor; intros []|repeat constructor; intros []|apply nodup_zrange].
    + apply nodup_triples; [repeat constructor; intros []|repeat constructor; intros []|apply nodup_zrange].
    + intros c. rewrite in_map_iff. split; [intros (d & <- & Hd); apply PM; exact Hd|]. intros Hc. exists (nv c). split; [apply II|apply PM; exact Hc].
  - rewrite (n_tr0 _ _ _ _ _ C), (n_rot _ _ _ _ _ C). unfold origin_cell, t3. cbn [fst snd]. split; [apply v3_eq; vunf; ring|]. split; [rewrite Rmult_0_l; apply rotz_0|reflexivity].
  - exact II.
  - intros c p q. rewrite (n_rot _ _ _ _ _ C). apply mv_dot. apply rotz_orthogonal.
  - intros c p. rewrite !(n_rot _ _ _ _ _ C), T3. rewrite <- mv_mm, rotz_plus. replace (IZR (- t3 c) * beta + IZR (t3 c) * beta) with 0 by (rewrite opp_IZR; ring). rewrite rotz_0. apply mv_eye'.
  - intros c. rewrite !(n_tr0 _ _ _ _ _ C), !(n_rot _ _ _ _ _ C), T3.
    assert (S : mv (rotz (IZR (- t3 c) * beta)) (vscale (IZR (t3 c)) a) = vscale (IZR (t3 c)) (mv (rotz (IZR (- t3 c) * beta)) a)) by (generalize (rotz (IZR (- t3 c) * beta)); intros [[? ? ?] [? ? ?] [? ? ?]]; apply v3_eq; vunf; ring).
    rewrite S, (n_axis _ _ _ _ _ C), opp_IZR. apply v3_eq; vunf; ring.
Qed.
(** ** totals *)
Section Totals.
Context (erfc : R -> R) (Bohr Hartree : R) (gaussian : bool) (gamma_cut : option R) (goal width sepsilon : R) (scc : bool) (D : database) (g : structure) (inv : nat -> nat).
Context (z : lapack) (evmin : (nat -> nat -> cplx) -> R) (w0 : nat -> nat -> R) (MAXE : R) (brentq : (R -> R) -> R -> R -> R -> option R) (m : mixer).
Context (tol_norm tol_mull tol_im : R) (maxiter : nat) (X : system) (s : mst m) (u : vec) (r : result) (it : option nat) (n : nat).
Context (Sg : sound D g inv) (OT : one_table D) (HB : Bohr <> 0) (Ht : 0 <= tol_norm).
Context (EX : assemble erfc Bohr Hartree gaussian gamma_cut goal width sepsilon scc D g = Some X) (RX : reliable z w0 X).
Context (EC : calculate z evmin w0 MAXE brentq m tol_norm tol_mull tol_im Hartree Bohr scc maxiter X s u = Solved r it n).
Lemma totals w om : symmetric_motion w om g -> (scc = true -> closed_cells g) -> vdot w (net_force g r) + vdot om (net_torque g r) = 0.
Proof. intros SM CC. rewrite <- work_is. eapply motion_net; eassumption. Qed.
Lemma molecule_totals : molecule g -> net_force g r = vzero /\ net_torque g r = vzero.
Proof.
  intros M. assert (T : forall w om, vdot w (net_force g r) + vdot om (net_torque g r) = 0) by (intros w om; apply totals; [apply molecule_motion|intros _; apply molecule_closed]; exact M).
  assert (Z : forall p, vdot vzero p = 0) by (intros p; vunf; ring).
  split; apply vdot_all; intros w; [pose proof (T w vzero) as E|pose proof (T vzero w) as E]; rewrite Z in E; lra.
Qed.
Lemma translated_totals a1 a2 a3 : translated a1 a2 a3 g -> net_force g r = vzero.
Proof.
  intros M. apply vdot_all. intros w. pose proof (totals w vzero (translated_motion w _ _ _ _ M) (fun _ => translated_closed _ _ _ _ M)) as E.
  assert (Z : vdot vzero (net_torque g r) = 0) by (vunf; ring). rewrite Z in E. lra.
Qed.
Lemma axis_totals : (forall x y, symmetric_motion (V3 0 0 x) (V3 0 0 y) g) -> (scc = true -> closed_cells g) -> vz (net_force g r) = 0 /\ vz (net_torque g r) = 0.
Proof.
  intros M C. pose proof (totals _ _ (M 1 0) C) as A. pose proof (totals _ _ (M 0 1) C) as B. unfold vdot in A, B. cbn [vx vy vz] in A, B. split; lra.
Qed.
Lemma wedge_totals M zz : wedge M zz g -> vz (net_force g r) = 0 /\ vz (net_torque g r) = 0.
Proof. intros W. apply axis_totals; [intros; eapply wedge_motion; exact W|intros _; eapply wedge_closed; exact W]. Qed.
Lemma chain_totals zz beta a kappa : chain zz beta (V3 0 0 a) kappa g -> vz (net_force g r) = 0 /\ vz (net_torque g r) = 0.
Proof. intros W. apply axis_totals; [intros; eapply chain_motion; exact W|intros _; eapply chain_closed; exact W]. Qed.
End Totals.
