From Coq Require Import Reals ZArith String List Bool Arith Lia Lra.
From Verif Require Import Vec GeomModel GeomProofs UtilModel KptModel KptSpec KptProofs KptProofs2 CoulModel MixModel OccModel PairModel PairSpec SkModel SkSpec Cpx RhoModel RhoSpec EigModel EigSpec InvModel InvSpec InvProofs13 GamModel InvProofs14 BndModel BndSpec BndProofs BndProofs2 BndProofs3 BndProofs4 BndProofs5.
Import ListNotations.
Open Scope R_scope.

Definition gamma_point : list (v3 * R) := [(vzero, 1)].
Lemma level1 erfc goal nimg V scc : nimg = 1%nat \/ nimg = 3%nat -> exists X, system_at erfc 1 1 true None goal (/ 10) 0 scc D2 (atom1 nimg V) chain_nt gamma_point = Some X /\ (forall w0, reliable z1 w0 X) /\ one_level X /\ s_ext X = (fun _ => V) /\ (forall I, s_phi X (fun _ => 0) I = 0).
Proof.
  intros Hn. assert (H3 : (nimg <= 3)%nat) by lia. destruct (system1 erfc goal nimg V (map fst gamma_point) (map snd gamma_point) scc H3) as (X & E & R & Ex & Ph & A1 & A2 & A3 & A4 & A5 & A6 & A7 & A8 & A9 & A10).
  exists X. split; [exact E|]. split; [exact R|]. split; [|split; assumption]. constructor; try assumption.
  - rewrite A4. reflexivity.
  - rewrite A5. reflexivity.
  - rewrite A6. reflexivity.
  - rewrite A7. reflexivity.
  - exact (assembled_proper _ _ _ _ _ _ _ _ _ _ _ _ _ (sound_at _ _ _ _ _ _ (sound1 nimg V Hn)) E).
Qed.
Lemma bands_h1_refuted : exists D g nt inv l X z evmin w0 m ms p it n E E0 ph ph0, sound_images D g nt inv /\
  system_at (fun _ => 0) 1 1 true None 1 (/ 10) 0 true D g nt l = Some X /\ (forall w0, reliable z w0 X) /\ fresh (g_N g) m ms /\
  get_states (fun dq => pass z evmin w0 0 X (Some (h1_of X dq))) (pass z evmin w0 0 X None) (charges 100 midpoint 0 X) m true 50 ms (fun _ => 0) = (Returned p it, n) /\
  get_band_energies (fun _ => 0) 1 1 true None 1 (/ 10) 0 D g nt None z evmin w0 0 (kept true p 0 (map fst l)) (Some (map fst l)) false "kappa" false = inr (E, ph) /\
  get_band_energies (fun _ => 0) 1 1 true None 1 (/ 10) 0 D g nt None z evmin w0 0 (kept true p 0 (map fst l)) None false "kappa" false = inr (E0, ph0) /\
  E 0%nat 0%nat <> E0 0%nat 0%nat.
Proof.
  destruct (level1 (fun _ => 0) 1 1%nat 1 true (or_introl eq_refl)) as (X & EX & RX & L & Ex & Ph). set (ev := fun _ : nat -> nat -> cplx => 0). set (w := fun _ _ : nat => 0).
  destruct (level_states X L ev w 0 ltac:(lra) 100 ltac:(lra) 0 ltac:(lra) true 49) as (p & it & e & GS & (wf & Ep) & Ee).
  destruct (system1 (fun _ => 0) 1 1 1 (map fst gamma_point) [] false ltac:(lia)) as (Y & EY & RY & _ & _ & A1 & A2 & A3 & _ & _ & _ & _ & _ & _ & A10).
  destruct (bands_found (fun _ => 0) 1 1 true None 1 (/ 10) 0 D2 (atom1 1 1) chain_nt (inv1 1) (sound1 1 1 (or_introl eq_refl)) z1 ev w 0 None (kept true p 0 (map fst gamma_point)) (map fst gamma_point) false false Y ltac:(lra) EY (RY w)) as [E B].
  { intros h Eh i j. subst p. unfold kept in Eh. cbn [b_h1] in Eh. replace h with (h1_of X (fun _ => 0)) by congruence. apply InvProofs3.h1_sym. }
  { discriminate. }
  exists D2, (atom1 1 1), chain_nt, (inv1 1), gamma_point, X, z1, ev, w, (anderson_mixer no_solver usual 1), anderson_new, p, it, 1%nat, E, (fun k a => e k a * 1 - 0), (map fst gamma_point), (map fst gamma_point).
  split; [apply sound1; left; reflexivity|]. split; [exact EX|]. split; [exact RX|]. split; [constructor|]. split; [exact GS|]. split; [exact B|]. split; [subst p; reflexivity|].
  apply bands_inv in B. destruct B as (_ & Y' & e' & wf' & H1 & EY' & EH & _ & EA & ->). assert (Y' = Y) by (unfold matrices_at in EY'; congruence). subst Y' H1.
  assert (LY : one_level Y \/ True) by (right; exact I). clear LY.
  assert (PY : proper Y) by (exact (assembled_proper _ _ _ _ _ _ _ _ _ _ _ _ _ (sound_at _ _ _ _ _ _ (sound1 1 1 (or_introl eq_refl))) EY)).
  destruct (solve_system Y z1 w ev 0 None ltac:(lra) PY (RY w) ltac:(discriminate)) as (e2 & wf2 & EA2 & O & W & _). cbv iota in EA. rewrite EA2 in EA. assert (e2 = e') by congruence. subst e'.
  rewrite A2, A3 in O, W. specialize (O 0%nat 0%nat 0%nat ltac:(cbn; lia) ltac:(lia) ltac:(lia)). specialize (W 0%nat ltac:(cbn; lia) 0%nat 0%nat ltac:(lia) ltac:(lia)).
  unfold bracket, csum, rsum in O. unfold csum, rsum in W. rewrite A10 in O, W. cbn [Nat.eqb] in O.
  assert (HXY : s_H0 Y 0%nat 0%nat 0%nat = s_H0 X 0%nat 0%nat 0%nat).
  { destruct (same_matrices (fun _ => 0) 1 1 true None 1 (/ 10) 0 D2 (atom1 1 1) chain_nt (inv1 1) (sound1 1 1 (or_introl eq_refl)) false true (map fst gamma_point) [] (map fst gamma_point) (map snd gamma_point) Y X 0 0 false (0, 0, 0)%Z EY EX) as [MH _]; [|apply MH].
    cbn [nth map gamma_point fst]. apply v3_eq; vunf; unfold real_tuple; cbn [vx vy vz]; ring. }
  rewrite HXY in W. set (q := wf2 0%nat 0%nat 0%nat) in *. 
  assert (HR : snd (s_H0 X 0%nat 0%nat 0%nat) = 0). { destruct (l_proper _ L) as [PH _]. specialize (PH 0%nat ltac:(rewrite (l_nk _ L); lia) 0%nat 0%nat ltac:(rewrite (l_norb _ L); lia) ltac:(rewrite (l_norb _ L); lia)). apply (f_equal snd) in PH. unfold cconj in PH. cbn [snd] in PH. lra. }
  assert (H1V : h1_of X (fun _ => 0) 0%nat 0%nat = -1).
  { unfold h1_of, construct_h1. rewrite (l_N _ L), Ex. assert (Ez : epsilon 1 (s_G X) (s_phi X (fun _ => 0)) (fun _ => 0) 0%nat = 0) by (unfold epsilon, rsum; rewrite Ph; ring).
    unfold aux_rows. rewrite (l_o1 _ L), (l_no _ L). cbn [Nat.leb Nat.ltb Nat.add andb]. rewrite Ez. cbn [existsb seq]. rewrite Rabs_R1.
    assert (T : ltb (/ 10 ^ 12) 1 = true). { apply ltb_true. rewrite <- Rinv_1. apply Rinv_lt_contravar; [rewrite Rmult_1_l; apply pow_lt; lra|]. cbn [pow]. lra. }
    rewrite T. cbn [orb]. lra. }
  rewrite Ee, H1V. destruct q as [x y], (s_H0 X 0%nat 0%nat 0%nat) as [a d]. unfold cmul, cadd, cscale, cconj, c1 in *. cbn [fst snd] in *. subst d.
  apply (f_equal fst) in O. cbn [fst] in O. assert (W1 := f_equal fst W). assert (W2 := f_equal snd W). cbn [fst snd] in W1, W2. intros K. set (t := e2 0%nat 0%nat) in *.
  assert (W1' : (a - t) * x = 0) by lra. assert (W2' : (a - t) * y = 0) by lra. assert (KK : a - t = 1) by lra. rewrite KK in W1', W2'. nra.
Qed.
Lemma phases_refuted : exists D g nt inv l X z evmin w0 m ms p it n ks E ph i f f', sound_images D g nt inv /\
  system_at (fun _ => 0) 1 1 true None 1 (/ 10) 0 false D g nt l = Some X /\ (forall w0, reliable z w0 X) /\ fresh (g_N g) m ms /\
  get_states (fun dq => pass z evmin w0 0 X (Some (h1_of X dq))) (pass z evmin w0 0 X None) (charges 100 midpoint 0 X) m false 50 ms (fun _ => 0) = (Returned p it, n) /\
  get_band_energies (fun _ => 0) 1 1 true None 1 (/ 10) 0 D g nt None z evmin w0 0 (kept false p 0 (map fst l)) (Some ks) false "kappa" false = inr (E, ph) /\
  (i < g_nimg g)%nat /\ grid_phases nt (b_phases (kept false p 0 (map fst l))) 0 = Some f /\ grid_phases nt ph 0 = Some f' /\ f i <> f' i.
Proof.
  destruct (level1 (fun _ => 0) 1 3%nat 0 false (or_intror eq_refl)) as (X & EX & RX & L & Ex & Ph). set (ev := fun _ : nat -> nat -> cplx => 0). set (w := fun _ _ : nat => 0).
  destruct (level_states X L ev w 0 ltac:(lra) 100 ltac:(lra) 0 ltac:(lra) false 49) as (p & it & e & GS & (wf & Ep) & Ee).
  destruct (system1 (fun _ => 0) 1 3 0 [V3 PI 0 0] [] false ltac:(lia)) as (Y & EY & RY & _).
  destruct (bands_found (fun _ => 0) 1 1 true None 1 (/ 10) 0 D2 (atom1 3 0) chain_nt (inv1 3) (sound1 3 0 (or_intror eq_refl)) z1 ev w 0 None (kept false p 0 (map fst gamma_point)) [V3 PI 0 0] false false Y ltac:(lra) EY (RY w)) as [E B].
  { intros h Eh. subst p. discriminate. }
  { discriminate. }
  exists D2, (atom1 3 0), chain_nt, (inv1 3), gamma_point, X, z1, ev, w, (anderson_mixer no_solver usual 1), anderson_new, p, it, 1%nat, [V3 PI 0 0], E, [V3 PI 0 0], 1%nat, (fun n => phase_at (chain_nt n) vzero), (fun n => phase_at (chain_nt n) (V3 PI 0 0)).
  split; [apply sound1; right; reflexivity|]. split; [exact EX|]. split; [exact RX|]. split; [constructor|]. split; [exact GS|]. split; [exact B|]. split; [cbn; lia|]. split; [subst p; reflexivity|]. split; [reflexivity|].
  unfold phase_at, chain_nt, real_tuple. intros K. apply (f_equal fst) in K. cbn [fst] in K.
  replace (vdot (V3 1 0 0) vzero) with 0 in K by (vunf; ring). replace (vdot (V3 1 0 0) (V3 PI 0 0)) with PI in K by (vunf; ring). rewrite cos_0, cos_PI in K. lra.
Qed.
(** ** a chain with two points: the mesh and the list of its points are accepted *)
Definition chain_M (i : nat) : option Z := if (i =? 0)%nat then None else Some 1%Z.
Definition chain_pbc (i : nat) : bool := (i =? 0)%nat.
Lemma spacing n : (1 <= n <= 2)%Z -> e10 < 2 * PI / IZR n.
Proof.
  intros H. assert (e10 < 1). { unfold e10. rewrite <- Rinv_1. apply Rinv_lt_contravar; [rewrite Rmult_1_l; apply pow_lt; lra|]. cbn [pow]. lra. }
  pose proof PI2_1. unfold PI2 in *. assert (n = 1 \/ n = 2)%Z as [-> | ->] by lia; lra.
Qed.
Example ex_mesh : exists lm ll, k_sampling chain_M (fun _ => None) chain_pbc (/ 10) true false None (KMesh 2 1 1) = Some lm /\ k_sampling chain_M (fun _ => None) chain_pbc (/ 10) true false None (KList (full_mesh chain_M (fun _ => None) 2 1 1)) = Some ll /\ List.length ll = 2%nat.
Proof.
  destruct (mesh_accepted chain_M chain_pbc (/ 10) true 2 1 1) as [l E]; try lia.
  - intros i m. unfold chain_M. destruct (i =? 0)%nat; [discriminate|]. intros Q. assert (m = 1%Z) by congruence. lia.
  - unfold e10. apply Rinv_le_contravar; [lra|]. cbn [pow]. lra.
  - intros _ m. unfold chain_M. cbn [Nat.eqb]. split; [discriminate|]. split; intros Q; replace m with 1%Z by congruence; exists 1%Z; reflexivity.
  - unfold chain_pbc. cbn. discriminate.
  - apply spacing; lia.
  - apply spacing; lia.
  - apply spacing; lia.
  - eexists _, _. unfold k_sampling. rewrite E. split; [reflexivity|].
    unfold setup_list. change (full_mesh chain_M (fun _ => None) 2 1 1) with [mesh_point chain_M (fun _ => None) 2 1 1 (0, 0, 0)%nat; mesh_point chain_M (fun _ => None) 2 1 1 (1, 0, 0)%nat].
    cbn [List.length Nat.eqb andb].
    assert (PO : periodic_ok chain_pbc [mesh_point chain_M (fun _ => None) 2 1 1 (0, 0, 0)%nat; mesh_point chain_M (fun _ => None) 2 1 1 (1, 0, 0)%nat] = true); [|rewrite PO; split; reflexivity].
    assert (Z0 : forall c, c = 0 -> ltb e10 c = false) by (intros c ->; apply ltb_false; apply Rlt_le, e10_pos).
    unfold periodic_ok, dirs, chain_pbc. cbn [forallb Nat.eqb negb andb]. rewrite !andb_false_r. cbn [negb andb]. rewrite !andb_true_r.
    rewrite !Z0; [reflexivity|..]; unfold mesh_point, KptModel.comp; cbn [vx vy vz]; unfold mesh_shift, mesh_coordinate, chain_M; cbn [Nat.eqb INR]; field.
Qed.
Example ex_chain_reliable l w0 : forall X, system_at (fun _ => 0) 1 1 true None 1 (/ 10) 0 false D2 (atom1 3 0) chain_nt l = Some X -> reliable z1 w0 X.
Proof. intros X E. destruct (system1 (fun _ => 0) 1 3 0 (map fst l) (map snd l) false ltac:(lia)) as (Y & EY & RY & _). unfold system_at in E. assert (X = Y) by congruence. subst Y. apply RY. Qed.
(** points that are the same: PI/2 and 3 PI/2 *)
Example ex_same_point : same_point (V3 (PI / 2) 0 0) (V3 (3 * PI / 2) 0 0).
Proof. exists true, (1, 0, 0)%Z. apply v3_eq; unfold vneg; vunf; unfold real_tuple; cbn [vx vy vz]; field. Qed.
