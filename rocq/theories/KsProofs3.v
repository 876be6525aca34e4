From Coq Require Import Reals ZArith String Ascii List Bool Arith Lra Lia FunctionalExtensionality.
From Verif Require Import Vec GeomModel GeomProofs AtomModel AtomSpec AtomProofs AtomProofs2 AtomProofs3 AtomProofs5 SkProofs6 KsModel KsSpec KsProofs KsProofs2.
Import ListNotations.
Open Scope R_scope.

(** ** a grid of three points *)
Lemma shoot3 dx c0 u : 0 < dx < 2 -> (forall i, (i < 3)%nat -> c0 i < 0) ->
  exists s, shoot dx (fun _ => coef2) (fun _ => coef1) c0 3 u = Some s /\ sh_A s = 0 /\ sh_nodes s = 0%nat /\ 0 < sh_u s 1%nat /\ sh_ctp s = 1%nat.
Proof.
  intros Hdx Hc.
  assert (Hm : forall i, (1 <= i <= 3 - 2)%nat -> fm dx (fun _ => coef2) (fun _ => coef1) i <> 0) by (intros i _; exact (proj1 (radial_step dx i Hdx))).
  assert (Hp : forall i, (1 <= i <= 3 - 2)%nat -> fp dx (fun _ => coef2) (fun _ => coef1) i <> 0) by (intros i _; exact (proj2 (radial_step dx i Hdx))).
  destruct (shoot dx (fun _ => coef2) (fun _ => coef1) c0 3 u) as [s|] eqn:E.
  2:{ exfalso. apply shoot_none in E; [|lia]. destruct E as [_ [(j & Hj & B)|B]]; [specialize (Hc j Hj); lra|discriminate]. }
  exists s. split; [reflexivity|]. revert E. unfold shoot. set (u1 := upd _ (3 - 2) _).
  destruct (back dx (fun _ => coef2) (fun _ => coef1) c0 3 (3 - 2) u1) as [[u2 ctp]|] eqn:E; [|discriminate].
  destruct (back_spec dx _ _ c0 3 Hm (3 - 2) u1 u2 ctp ltac:(lia) ltac:(intros; lia) E) as (P & Q & (k & Hk & K) & _).
  assert (ctp = 1%nat) by lia. subst ctp. specialize (Q 1%nat ltac:(lia)). unfold row in Q. specialize (Hp 1%nat ltac:(lia)).
  assert (N1 : u2 1%nat <> 0).
  { rewrite (K 1%nat) by lia. unfold u1. change (3 - 2)%nat with 1%nat. rewrite upd_eq. change (3 - 1)%nat with 2%nat. rewrite upd_eq.
    assert (I : 0 < / dx) by (apply Rinv_0_lt_compat; lra).
    assert (F : f0 dx (fun _ => coef2) c0 2 < 0).
    { unfold f0, coef2. replace (2 * 1 / dx ^ 2) with (2 * (/ dx * / dx)) by (field; lra). specialize (Hc 2%nat ltac:(lia)). nra. }
    pose proof (proj1 (radial_step dx 2 Hdx)) as F2. unfold Rdiv. repeat apply Rmult_integral_contrapositive_currified; try lra. apply Rinv_neq_0_compat. exact F2. }
  assert (F2 : fwd dx (fun _ => coef2) (fun _ => coef1) c0 1 u2 2%nat = u2 2%nat).
  { cbn [fwd]. unfold upd at 1. cbn [Nat.eqb Nat.add]. change (1 + 1)%nat with 2%nat in Q. change (1 - 1)%nat with 0%nat in *.
    apply Rmult_eq_reg_r with (fp dx (fun _ => coef2) (fun _ => coef1) 1); [|exact Hp]. unfold Rdiv. rewrite Rmult_assoc, Rinv_l by exact Hp. lra. }
  assert (F1 : forall j, (j <= 1)%nat -> fwd dx (fun _ => coef2) (fun _ => coef1) c0 1 u2 j = u2 j).
  { intros j Hj. cbn [fwd]. apply upd_ne. lia. }
  set (u3 := fwd dx (fun _ => coef2) (fun _ => coef1) c0 1 u2) in *. clearbody u3. intros H. injection H as <-. cbn [sh_A sh_nodes sh_u sh_ctp].
  rewrite (F1 1%nat) by lia. change (1 + 1)%nat with 2%nat. change (1 - 1)%nat with 0%nat. rewrite F2. rewrite (F1 0%nat) by lia.
  assert (Q1 : u2 1%nat / u2 1%nat = 1) by (field; exact N1). rewrite Q1. split; [ring|]. split; [reflexivity|].
  rewrite upd_ne by lia. cbn [Nat.leb]. rewrite (F1 1%nat) by lia. rewrite Rmult_1_r. split; [|reflexivity].
  pose proof (sgn_sq _ N1). pose proof (sgn_pos (u2 1%nat)).
  assert (u2 1%nat * sgn (u2 1%nat) <> 0). { intros Z. assert (u2 1%nat = 0); [|contradiction]. transitivity (u2 1%nat * (sgn (u2 1%nat) * sgn (u2 1%nat))); [rewrite H; ring|]. rewrite <- Rmult_assoc, Z. ring. }
  lra.
Qed.
Lemma norm3 r u : (forall i, (i < 2)%nat -> r i < r (i + 1)%nat) -> u 1%nat <> 0 -> 0 < g_integrate 3 r (fun i => u i ^ 2) false.
Proof.
  intros Hr Hu. unfold g_integrate, g_dr. cbn [Nat.sub rsum Nat.add]. pose proof (Hr 0%nat ltac:(lia)) as A. pose proof (Hr 1%nat ltac:(lia)) as B. cbn [Nat.add] in A, B.
  assert (X : 0 < u 1%nat ^ 2) by (replace (u 1%nat ^ 2) with (Rsqr (u 1%nat)) by (unfold Rsqr; ring); apply Rsqr_pos_lt; exact Hu). assert (0 <= u 0%nat ^ 2) by apply pow2_ge_0. assert (0 <= u 2%nat ^ 2) by apply pow2_ge_0. nra.
Qed.
Lemma eig3 r dx v l eps epsmax : 0 < dx < 2 -> (forall i, (i < 2)%nat -> r i < r (i + 1)%nat) -> (forall i, (i < 3)%nat -> coef0 l (r i) (v i) eps < 0) ->
  exists U, 0 < U 1%nat /\ g_integrate 3 r (fun i => U i ^ 2) false = 1 /\
    forall f delta, eig_loop 3 r dx (fun eps => (fun i => coef0 l (r i) (v i) eps, fun _ => coef1, fun _ => coef2)) l 0 epsmax (S f) (fun _ => 0) eps delta DNone = KOk (Eig U eps 0 (101 - f)).
Proof.
  intros Hdx Hr Hc. destruct (shoot3 dx (fun i => coef0 l (r i) (v i) eps) (fun i => if (i <? 2)%nat then r i ^ (l + 1) else 0) Hdx Hc) as (s & Sh & A & Nn & U & C).
  set (k := g_integrate 3 r (fun i => sh_u s i ^ 2) false). assert (K : 0 < k) by (apply norm3; [exact Hr|lra]). pose proof (sqrt_lt_R0 k K).
  exists (fun i => sh_u s i / sqrt k). split; [apply Rdiv_lt_0_compat; lra|]. split; [apply integrate_norm; [lia|exact K|reflexivity]|].
  intros f delta. cbn [eig_loop]. rewrite Sh. fold k.
  assert (B1 : ltb (coef0 l (r (3 - 2)%nat) (v (3 - 2)%nat) eps) 0 = true) by (apply ltb_true; apply Hc; lia).
  assert (B2 : ltb (coef0 l (r (3 - 1)%nat) (v (3 - 1)%nat) eps) 0 = true) by (apply ltb_true; apply Hc; lia).
  rewrite B1, B2. cbn [negb andb]. rewrite Nn. cbn [Z.of_nat Z.ltb Z.compare]. rewrite A.
  assert (B3 : ltb (Rabs (- / 2 * 0 / (r (sh_ctp s) * k))) (/ 10 ^ 8) = true).
  { apply ltb_true. replace (- / 2 * 0 / (r (sh_ctp s) * k)) with 0 by (unfold Rdiv; ring). rewrite Rabs_R0. apply Rinv_0_lt_compat. apply pow_lt. lra. }
  rewrite B3. reflexivity.
Qed.
(** hydrogen on that grid, in a constant confinement potential W/2; the potential is never updated *)
Definition tiny (W tol : R) (itmax : nat) : params :=
  Params 1 [("1s"%string, 1)] (CWoodsSaxon 1 0 W) false (/ 100 * exp 2) 3 0 itmax tol tol (fun v => v).
Section Tiny.
Variables (W tol : R) (itmax : nat).
Hypothesis Ht : 0 < tol.
Notation T := (tiny W tol itmax).
Lemma tiny_states : states T = [(1%nat, 0%nat, "1s"%string)]. Proof. reflexivity. Qed.
Lemma tiny_N : gN T = 3%nat. Proof. unfold gN, maxnodes. rewrite tiny_states. reflexivity. Qed.
Lemma tiny_nel : nel T = 1. Proof. unfold nel, electrons. cbn. ring. Qed.
Lemma tiny_fine : fine_grid T.
Proof.
  unfold fine_grid. rewrite tiny_N. cbn [p_Z p_rmax tiny]. replace (100 * 1 * (/ 100 * exp 2)) with (exp 2) by field. rewrite ln_exp. pose proof (exp_pos 2).
  change (INR (3 - 1)) with 2. repeat split; lra.
Qed.
Lemma tiny_solve V : (forall i, (i < 3)%nat -> -1 < V i) -> exists U, 
  (forall it o, (it = 0%nat \/ o_enl o "1s"%string = -1) -> exists k, solve_state T it V 1 0 "1s" o =
     KOk (Orbitals (set_str (o_enl o) "1s"%string (-1)) (set_str (o_denl o) "1s"%string (Rabs (-1 - o_enl o "1s"%string))) (set_str (o_unl o) "1s"%string U), k)) /\
  g_integrate 3 (rgrid T) (fun i => U i ^ 2) false = 1.
Proof.
  intros HV. pose proof (g_dx T tiny_fine) as Hdx. pose proof (g_inc T tiny_fine) as Hr. rewrite tiny_N in Hr.
  destruct (eig3 (rgrid T) (dx T) V 0 (-1) (V (gN T - 1)%nat - INR 0 * (INR 0 + 1) / (2 * rgrid T (gN T - 1) ^ 2)) Hdx) as (U & HU & HI & HE).
  { intros i Hi. rewrite Nat.add_1_r. apply Hr. lia. }
  { intros i Hi. unfold coef0. pose proof (HV i Hi). pose proof (g_pos T tiny_fine i). assert (0 < rgrid T i ^ 2) by nra. cbn [INR]. nra. }
  exists U. split; [|exact HI]. intros it o H. unfold solve_state. rewrite tiny_N in *.
  assert (E : match it with O => - (p_Z T ^ 2 / INR 1 ^ 2) | S _ => o_enl o "1s"%string end = -1). { destruct it; [cbn [INR p_Z tiny]; field|destruct H as [H|H]; [discriminate|exact H]]. }
  rewrite E. unfold coefs. cbn [p_scalarrel tiny]. change (nodes_of 1 0) with 0%Z.
  rewrite HE. cbn [e_u]. rewrite (proj2 (ltb_true _ _) HU). cbn [e_eps e_it]. exists (101 - 100)%nat. reflexivity.
Qed.
Lemma tiny_density o U : o_unl o "1s"%string = U -> g_integrate 3 (rgrid T) (fun i => U i ^ 2) false = 1 ->
  exists D, density T o = KOk D /\ forall o', o_unl o' "1s"%string = U -> density T o' = KOk D.
Proof.
  intros HU HI.
  assert (G : forall o', o_unl o' "1s"%string = U -> density T o' = KOk (fun i => (0 + 1 * U i ^ 2) / (4 * PI * rgrid T i ^ 2))).
  { intros o' Ho. unfold density. rewrite tiny_states, tiny_N, tiny_nel. unfold calculate_density. cbn [map length rsum nth snd]. rewrite Ho.
    change (occ_of T "1s"%string) with 1.
    assert (X : ltb (/ 10 ^ 10) (Rabs (g_integrate 3 (rgrid T) (fun j => 0 + 1 * U j ^ 2) false - 1)) = false).
    { rewrite (integrate_ext 3 (rgrid T) ltac:(lia) _ (fun j => U j ^ 2)) by (intros; ring). rewrite HI. rewrite Rminus_diag_eq by reflexivity. rewrite Rabs_R0. apply ltb_false. left. apply Rinv_0_lt_compat. apply pow_lt. lra. }
    rewrite X. reflexivity. }
  eexists. split; [exact (G o HU)|exact G].
Qed.
Lemma tiny_steps V : (forall i, (i < 3)%nat -> -1 < V i) -> exists D, forall it s, s_veff s = V -> (it = 0%nat \/ o_enl (s_orb s) "1s"%string = -1 /\ s_dens s = D) ->
  exists s', scf_step T it s = KOk (s', (5 <? it)%nat) /\ s_veff s' = V /\ o_enl (s_orb s') "1s"%string = -1 /\ s_dens s' = D /\ s_it s' = it.
Proof.
  intros HV. destruct (tiny_solve V HV) as (U & HS & HI).
  destruct (tiny_density (Orbitals (fun _ => 0) (fun _ => 0) (fun _ => U)) U eq_refl HI) as (D & _ & HD). exists D. intros it s Hv H.
  unfold scf_step.
  assert (EV : (fun i => p_mix T * calc_veff T (s_hart s) (s_dens s) i + (1 - p_mix T) * s_veff s i) = V).
  { apply functional_extensionality. intros i. cbn [p_mix tiny]. rewrite Hv. ring. }
  rewrite EV. rewrite tiny_states. cbn [solve_states].
  destruct (HS it (s_orb s)) as (k & Hk). { destruct H as [H|[H _]]; [left|right]; exact H. }
  rewrite Hk.
  set (o' := Orbitals _ _ _). assert (U' : o_unl o' "1s"%string = U) by reflexivity. rewrite (HD o' U').
  set (dm := if ltb 0 _ then _ else _). set (df := g_integrate _ _ _ true).
  assert (C : ltb df (p_tol_density T) && ltb dm (p_tol_energies T) && (5 <? it)%nat = (5 <? it)%nat).
  { destruct (5 <? it)%nat eqn:L; [|apply andb_false_r]. apply Nat.ltb_lt in L. destruct H as [H|[H1 H2]]; [lia|].
    assert (Z1 : df = 0). { unfold df. rewrite (integrate_ext (gN T) (rgrid T) (g_N T tiny_fine) _ (fun _ => 0 * 0)). - rewrite integrate_scale. ring. - intros i _. rewrite H2. rewrite Rminus_diag_eq by reflexivity. rewrite Rabs_R0. ring. }
    assert (Z2 : dm = 0). { unfold dm. change (o_denl o' "1s"%string) with (Rabs (-1 - o_enl (s_orb s) "1s"%string)). rewrite H1. replace (-1 - -1) with 0 by ring. rewrite Rabs_R0. destruct (ltb 0 0); reflexivity. }
    rewrite Z1, Z2. cbn [p_tol_density p_tol_energies tiny]. rewrite (proj2 (ltb_true 0 tol) Ht). reflexivity. }
  rewrite C. eexists. split; [reflexivity|]. cbn [s_veff s_orb s_dens s_it]. repeat split.
Qed.
Lemma loop_S P f it s : scf_loop P (S f) it s = match scf_step P it s with KErr e => KErr e | KOk (s', true) => KOk s' | KOk (s', false) => if (it =? p_itmax P - 1)%nat then KErr KRuntime else scf_loop P f (S it) s' end.
Proof. reflexivity. Qed.
Lemma tiny_loop V D : (7 <= itmax)%nat -> (forall it s, s_veff s = V -> (it = 0%nat \/ o_enl (s_orb s) "1s"%string = -1 /\ s_dens s = D) ->
  exists s', scf_step T it s = KOk (s', (5 <? it)%nat) /\ s_veff s' = V /\ o_enl (s_orb s') "1s"%string = -1 /\ s_dens s' = D /\ s_it s' = it) ->
  forall k it s, (it + k = 6)%nat -> s_veff s = V -> (it = 0%nat \/ o_enl (s_orb s) "1s"%string = -1 /\ s_dens s = D) ->
  forall x, exists s', scf_loop T (S k + x) it s = KOk s' /\ s_veff s' = V /\ s_dens s' = D /\ s_it s' = 6%nat /\ o_enl (s_orb s') "1s"%string = -1.
Proof.
  intros Hi HS. induction k as [|k IH]; intros it s E Hv H x; destruct (HS it s Hv H) as (s1 & S1 & A & B & C & F); rewrite Nat.add_succ_l, loop_S, S1.
  - assert (E6 : it = 6%nat) by lia. rewrite E6 in F |- *. cbn [Nat.ltb Nat.leb]. exists s1. split; [reflexivity|]. split; [exact A|]. split; [exact C|]. split; [exact F|exact B].
  - assert (L : (5 <? it)%nat = false) by (apply Nat.ltb_ge; lia). rewrite L.
    assert (M : (it =? p_itmax T - 1)%nat = false) by (apply Nat.eqb_neq; cbn [p_itmax tiny]; lia). rewrite M.
    apply IH; [lia|exact A|right; split; assumption].
Qed.
Lemma tiny_run V D0 : (7 <= itmax)%nat -> (forall i, (i < 3)%nat -> -1 < V i) ->
  exists s, run T (Some (V, D0)) = KOk s /\ s_veff s = V /\ s_it s = 6%nat /\ o_enl (s_orb s) "1s"%string = -1.
Proof.
  intros Hi HV. destruct (tiny_steps V HV) as (D & HS). unfold run. cbn [p_itmax tiny].
  destruct (tiny_loop V D Hi HS 6 0 (start T (Some (V, D0))) eq_refl eq_refl (or_introl eq_refl) (itmax - 7)) as (s & A & B & _ & C & E).
  replace (7 + (itmax - 7))%nat with itmax in A by lia. exists s. repeat split; assumption.
Qed.
Lemma tiny_run_none : (7 <= itmax)%nat -> 400 <= W -> exists s, run T None = KOk s /\ s_it s = 6%nat.
Proof.
  intros Hi HW. set (V := fun i => nucl_at T i + conf_at T i).
  assert (HV : forall i, (i < 3)%nat -> -1 < V i).
  { intros i Hi3. unfold V, nucl_at, conf_at. cbn [p_conf p_Z tiny confine]. replace (- 0 * (rgrid T i - 1)) with 0 by ring. rewrite exp_0.
    assert (R : / 100 <= rgrid T i).
    { unfold rgrid, g_rmin. cbn [p_Z tiny]. replace (/ 100 / 1) with (/ 100) by field.
      assert (X : 0 <= xgrid T i). { pose proof (g_dx T tiny_fine) as [G _]. unfold dx, xgrid in G. cbn [INR] in G. unfold xgrid. pose proof (pos_INR i). nra. }
      pose proof (exp_ineq1_le (xgrid T i)). nra. }
    assert (- 1 / rgrid T i >= -100).
    { assert (/ rgrid T i <= / / 100) by (apply Rinv_le_contravar; lra). rewrite Rinv_inv in H. unfold Rdiv. lra. }
    lra. }
  destruct (tiny_steps V HV) as (D & HS). unfold run. cbn [p_itmax tiny].
  destruct (tiny_loop V D Hi HS 6 0 (start T None) eq_refl eq_refl (or_introl eq_refl) (itmax - 7)) as (s & A & B & _ & C & E).
  replace (7 + (itmax - 7))%nat with itmax in A by lia. exists s. split; assumption.
Qed.
End Tiny.
