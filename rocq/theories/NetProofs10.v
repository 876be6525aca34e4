From Coq Require Import Reals ZArith List Bool Arith Lia Lra FunctionalExtensionality.
From Verif Require Import Vec GeomModel GeomSpec GeomProofs CoulModel CoulProofs MixModel OccModel PairModel PairSpec SkModel SkSpec SkProofs Cpx RhoModel RhoSpec EigModel EigSpec InvModel InvSpec InvLin InvProofs3 InvProofs5 InvProofs9 InvProofs10 InvProofs13 InvProofs14 GamModel GamSpec FrcSpec FrcProofs10 BndProofs2 BndProofs5 FoldSpec FoldProofs6 FoldProofs12 FoldProofs14 NetSpec NetProofs NetProofs6 NetProofs7 NetProofs8 NetProofs9.
Import ListNotations.
Open Scope R_scope.

(** ** a dimer *)
Example ex_dimer scc d mi : / 10 < d < 10 -> exists X r it n,
  assemble (fun _ => 0) 1 1 true None 1 (/ 10) 0 scc D2 (gd d) = Some X /\ reliable z2 (fun _ _ => 0) X /\ molecule (gd d) /\
  calculate z2 (fun _ => 0) (fun _ _ => 0) 200 middle (anderson_mixer no_solver usual 2) 0 0 1 1 1 scc (S mi) X anderson_new (fun _ => 0) = Solved r it n.
Proof.
  intros Hd. destruct (gd_assembled (fun _ => 0) scc d ltac:(lra)) as (X & EX & _). exists X.
  pose proof (gd_reliable (fun _ => 0) scc d X EX (fun _ _ => 0)) as RX.
  destruct (gd_calc (fun _ => 0) scc d X Hd EX z2 (fun _ _ => 0) (fun _ => 0) 0 0 1 RX ltac:(lra) ltac:(lra) ltac:(lra)) as (p & r & P & F & _ & Q).
  assert (C : charges 200 middle 0 X p = Some (r_dq r)).
  { destruct p as [[h1 e] wf]. unfold finish in F. destruct (occupations 200 middle X (h1, e, wf)) as [f|]; [|discriminate]. destruct (charges 200 middle 0 X (h1, e, wf)) as [dq|]; [|discriminate].
    destruct (negb _); [discriminate|]. destruct (band_structure_energy _ _ _ _ _ _); [|discriminate]. destruct (s_erep X); [|discriminate]. injection F as <-. reflexivity. }
  unfold calculate, get_states. destruct scc.
  - cbn [scc_loop]. rewrite P. cbv beta iota. rewrite C. unfold anderson_mixer. cbn [m_call m_reset]. unfold anderson. cbv zeta. match goal with |- context [Rlt_dec ?a ?b] => destruct (Rlt_dec a b) as [_|K] end.
    + cbv beta iota. rewrite F. exists r. eexists _, _. split; [exact EX|]. split; [exact RX|]. split; [constructor; reflexivity|]. reflexivity.
    + exfalso. apply K. unfold usual. cbn. rewrite !Q by lia. replace (0 - 0) with 0 by ring. rewrite Rabs_R0. rewrite ?(Rmax_left 0 0) by lra. lra.
  - rewrite P. cbv beta iota. rewrite C. cbv beta iota. rewrite F. exists r. eexists _, _. split; [exact EX|]. split; [exact RX|]. split; [constructor; reflexivity|]. reflexivity.
Qed.
(** ** a wedge, a screw and a chain of one atom *)
Lemma gw_image : g_Rn 1 gw 1 0 = V3 (- / 2) 0 0 /\ g_Rn 1 gw 0 0 = V3 (/ 2) 0 0.
Proof.
  unfold g_Rn. cbn [gw g_O g_r g_t]. change (zw 1) with 1%Z. change (zw 0) with 0%Z. replace (1 * (2 * PI / INR 2)) with PI by (change (INR 2) with 2; field). rewrite Rmult_0_l, rotz_0, mv_eye. unfold rotz. rewrite cos_PI, sin_PI. split; apply v3_eq; vunf; field.
Qed.
Lemma gw_dist : dist (g_Rn 1 gw) 1 0 0 = 1.
Proof. unfold dist, rijn. destruct gw_image as [-> ->]. unfold vnorm. replace (vdot _ _) with 1 by (vunf; field). apply sqrt_1. Qed.
Lemma gw_far n : (n < g_nimg gw)%nat -> n <> 0%nat -> / 10 < dist (g_Rn 1 gw) n 0 0.
Proof. intros Hn N. cbn [gw g_nimg] in Hn. assert (n = 1%nat) by lia. subst n. rewrite gw_dist. lra. Qed.
Lemma gw_weights : rsum (g_nk gw) (g_wk gw) = 1.
Proof. cbn [gw g_nk g_wk]. unfold rsum. change (INR 2) with 2. field. Qed.
Lemma gw_sound : sound D0 gw (fun i => i). Proof. apply D0_sound. exact (proj1 ex_wedge_sound). Qed.
Definition anderson1 : mixer := anderson_mixer no_solver usual 1.
Definition solved_case (g : structure) (X : system) (r : result) : Prop := assemble (fun _ => 0) 1 1 true None 1 (/ 10) 0 false D0 g = Some X /\ reliable z1 (fun _ _ => 0) X /\
  exists it n, calculate z1 (fun _ => 0) (fun _ _ => 0) 100 midpoint anderson1 0 0 1 1 1 false 50 X anderson_new (fun _ => 0) = Solved r it n.
Lemma solved_one g inv : sound D0 g inv -> g_N g = 1%nat -> (0 < g_nk g)%nat -> rsum (g_nk g) (g_wk g) = 1 -> g_charge g = 0 -> (forall n, (n < g_nimg g)%nat -> n <> 0%nat -> / 10 < dist (g_Rn 1 g) n 0 0) ->
  exists X r, solved_case g X r /\ forall c, r_force r c 0%nat = comp c (force 1 (g_nimg g) (g_Rn 1 g) (pairwise g (d_dvrep D0)) 5 0) + s_fpp X c 0%nat.
Proof.
  intros A1 A2 A3 A4 A5 A6. exists (XF g (fun _ => 0) true None 1).
  destruct (flat_solved g inv A1 A2 A3 A4 A5 A6 (fun _ => 0) true None 1 (fun _ => 0) (fun _ _ => 0) anderson1 anderson_new (fun _ => 0) 49) as (r & it & n & E & F). exists r. split.
  - split; [apply flat_assembled; assumption|]. split; [apply flat_reliable; assumption|]. exists it, n. exact E.
  - intros c. rewrite F. destruct (flat_fields g A2 A5 A6 (fun _ => 0) true None 1) as (_ & _ & _ & _ & _ & _ & _ & _ & _ & _ & _ & _ & _ & _ & _ & ->). reflexivity.
Qed.
Example ex_wedge_solved : wedge 2 zw gw /\ sound D0 gw (fun i => i) /\ one_table D0 /\ exists X r, solved_case gw X r.
Proof.
  split; [exact ex_wedge|]. split; [exact gw_sound|]. split; [exact D0_one_table|]. destruct (solved_one gw (fun i => i) gw_sound eq_refl ltac:(cbn; lia) gw_weights eq_refl gw_far) as (X & r & H & _). exists X, r. exact H.
Qed.
Definition gscrew (beta : R) : structure := screw3 1 (fun _ => V3 1 0 0) beta (V3 0 0 6) 1 (fun _ => 1) 1.
Lemma gscrew_far beta n : (n < 3)%nat -> n <> 0%nat -> / 10 < dist (g_Rn 1 (gscrew beta)) n 0 0.
Proof.
  intros Hn N. apply (Rlt_le_trans _ 6); [lra|]. unfold dist, vnorm. apply Rsqr_incr_0_var; [|apply sqrt_pos]. rewrite Rsqr_sqrt by (unfold vdot; nra).
  assert (Z : vz (rijn (g_Rn 1 (gscrew beta)) n 0 0) = 6 \/ vz (rijn (g_Rn 1 (gscrew beta)) n 0 0) = -6).
  { unfold rijn, g_Rn. cbn [gscrew screw3 g_O g_r g_t]. destruct n as [|[|[|n]]]; try lia; cbn [z3]; [left|right]; unfold rotz; vunf; field. }
  unfold vdot, Rsqr. destruct Z as [-> | ->]; nra.
Qed.
Example ex_chain_solved beta : chain z3 beta (V3 0 0 6) (fun _ => 1) (gscrew beta) /\ sound D0 (gscrew beta) turn3 /\ exists X r, solved_case (gscrew beta) X r.
Proof.
  split; [apply screw3_chain|]. assert (S : sound D0 (gscrew beta) turn3) by (apply D0_sound; apply screw3_sound). split; [exact S|].
  destruct (solved_one (gscrew beta) turn3 S eq_refl ltac:(cbn; lia) ltac:(unfold rsum; cbn; ring) eq_refl (gscrew_far beta)) as (X & r & H & _). exists X, r. exact H.
Qed.
Example ex_crystal_solved : translated vzero vzero (V3 0 0 6) (gscrew 0) /\ sound D0 (gscrew 0) turn3 /\ exists X r, solved_case (gscrew 0) X r.
Proof.
  split; [|apply ex_chain_solved]. constructor; cbn [gscrew screw3 g_O g_rot g_tr0 g_ranges g_nimg].
  - intros n _. rewrite Rmult_0_r. apply rotz_0.
  - intros c. rewrite Rmult_0_r. apply rotz_0.
  - intros [[c1' c2'] c3']. unfold lattice. cbn [t1 t2 t3]. apply v3_eq; vunf; ring.
  - unfold bravais_ranges. split; [right; reflexivity|]. split; [right; reflexivity|left; reflexivity].
Qed.
(** the radial components of a wedge need not cancel *)
Lemma radial_refuted : exists D g inv M zz X z w0 evmin m s u r it n, sound D g inv /\ one_table D /\ wedge M zz g /\
  assemble (fun _ => 0) 1 1 true None 1 (/ 10) 0 false D g = Some X /\ reliable z w0 X /\
  calculate z evmin w0 100 midpoint m 0 0 1 1 1 false 50 X s u = Solved r it n /\ net_force g r <> vzero.
Proof.
  destruct (solved_one gw (fun i => i) gw_sound eq_refl ltac:(cbn; lia) gw_weights eq_refl gw_far) as (X & r & (E1 & E2 & it & n & E3) & F).
  exists D0, gw, (fun i => i), 2%nat, zw, X, z1, (fun _ _ => 0), (fun _ => 0), anderson1, anderson_new, (fun _ => 0), r, it, n.
  split; [exact gw_sound|]. split; [exact D0_one_table|]. split; [exact ex_wedge|]. split; [exact E1|]. split; [exact E2|]. split; [exact E3|].
  intros H. apply (f_equal vx) in H. unfold net_force, NetSpec.vsum, force_on in H. cbn [gw g_N vx vzero] in H. unfold rsum in H. rewrite F in H.
  assert (P : s_fpp X 0 0%nat = 0).
  { unfold assemble in E1. destruct (too_close _ _ _); [discriminate|]. injection E1 as <-. cbn [s_fpp]. cbn [gw g_N g_nimg g_rc g_dpp]. unfold force, PairModel.vsum, rsum. cbn [comp vx]. unfold pair_force.
    rewrite (proj2 (ltb_false _ _)); [|unfold dist, vnorm; apply sqrt_pos]. rewrite (proj2 (ltb_false _ _)); [|unfold dist, vnorm; apply sqrt_pos]. destruct (self_pair _ _ _); destruct (self_pair _ _ _); vunf; ring. }
  rewrite P in H. cbn [gw g_nimg] in H. unfold force, PairModel.vsum, rsum in H. cbn [comp vx] in H. unfold pair_force in H. change (self_pair 0 0 0) with true in H. change (self_pair 1 0 0) with false in H. cbv iota in H. rewrite gw_dist in H. rewrite (proj2 (ltb_true 1 5)) in H by lra.
  unfold rijn in H. destruct gw_image as [G1 G0]. fold gw in H. rewrite G1, G0 in H. unfold pairwise in H. cbn [d_dvrep D0] in H. revert H. vunf. pose proof (exp_pos (-1)). replace (-1) with (- (1)) in * by ring. lra.
Qed.
