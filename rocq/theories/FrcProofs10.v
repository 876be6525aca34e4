(** A molecule meeting the hypotheses. *)
From Coq Require Import Reals ZArith List Bool Arith Lia Lra Psatz FunctionalExtensionality.
From Verif Require Import SkModel SkProofs SkProofs2 InvModel InvSpec InvLin InvProofs InvProofs2 InvProofs3 InvProofs4 InvProofs8 InvProofs9 InvProofs10 InvProofs11 InvProofs13 InvProofs14 Vec GeomModel GeomProofs PairModel PairSpec PairProofs CoulModel CoulProofs SkSpec SkProofs6 SkProofs7 Cpx OccModel RhoModel RhoSpec RhoProofs RhoProofs3 RhoProofs6 EigModel EigSpec EigProofs2 GamModel GamSpec GamProofs GamProofs6 FrcSpec FrcProofs FrcProofs2 FrcProofs5 FrcProofs6 FrcProofs7 FrcProofs8 FrcProofs9.
Import ListNotations.
Open Scope R_scope.

(** two equal atoms with one orbital each, at distance d along x *)
Definition gd (d : R) : structure := g2 (fun i => if (i =? 1)%nat then V3 d 0 0 else vzero) (fun _ => 0%nat).
Lemma displaced_gd d s : displaced (gd d) 1 0 s = gd (d + s).
Proof.
  unfold displaced, gd, g2. cbn [g_N g_r g_kind g_nimg g_O g_t g_DT g_nk g_phase g_wk g_ranges g_tr0 g_rot g_pp g_dpp g_rc g_ext g_charge]. f_equal.
  apply functional_extensionality. intros i. unfold moved, one, axis. destruct (i =? 1)%nat; apply v3_eq; vunf; ring.
Qed.
Lemma gd_dist d n i j : (n < 1)%nat -> (i < 2)%nat -> (j < 2)%nat -> 0 < d -> i <> j -> dist (g_Rn 1 (gd d)) n i j = d.
Proof.
  intros Hn Hi Hj Hd Ne. unfold gd. rewrite dist1. unfold vnorm. transitivity (sqrt (d * d)); [|apply sqrt_square; lra]. f_equal. two i; two j; try (exfalso; lia); cbn [Nat.eqb]; vunf; ring.
Qed.
Lemma gd_close d : / 10 < d -> too_close 2 1 (g_Rn 1 (gd d)) = false.
Proof.
  intros Hd. apply too_close_tested. intros i j n Hi Hj Hn L. assert (n = 0%nat) by lia. subst n. destruct (Nat.eq_dec i j) as [->|Ne]; [unfold self_pair; rewrite !Nat.eqb_refl; reflexivity|].
  apply orb_true_iff. right. change (mdist (g_Rn 1 (gd d)) 0 i j) with (dist (g_Rn 1 (gd d)) 0 i j). rewrite gd_dist by (lia || lra). apply ltb_true. exact Hd.
Qed.
Lemma gd_distances d : / 10 < d -> distances_ok 2 1 (g_Rn 1 (gd d)) 5 = true.
Proof.
  intros Hd. apply distances_tested. intros i j n Hi Hj Hn L. assert (n = 0%nat) by lia. subst n. destruct (Nat.eq_dec i j) as [->|Ne]; [unfold self_pair; rewrite !Nat.eqb_refl; reflexivity|].
  apply orb_true_iff. right. rewrite gd_dist by (lia || lra). apply ltb_true. apply (Rlt_trans _ (/ 10)); [|exact Hd]. apply Rinv_lt_contravar; [apply Rmult_lt_0_compat; [lra|apply pow_lt; lra]|]. rewrite <- (pow_1 10) at 1. apply Rlt_pow; [lra|lia].
Qed.
Section Erfc.
Context (erfc : R -> R).
Notation asm scc d := (assemble erfc 1 1 true None 1 (/ 10) 0 scc D2 (gd d)).
Lemma gd_assembled scc d : / 10 < d -> exists X, asm scc d = Some X /\ (exists x, s_erep X = Some x) /\ s_nel X = 2 /\ s_charge X = 0 /\ s_Z X = (fun _ => 1).
Proof.
  intros Hd. unfold assemble. change (g_N (gd d)) with 2%nat. change (g_nimg (gd d)) with 1%nat. rewrite (gd_close d Hd). change (d_rmax D2) with 5. rewrite (gd_distances d Hd).
  destruct scc.
  - unfold g_gamma, gauss_gamma, get_neighbours. cbn [gd g2 g_N g_kind g_ranges scan is_cluster infinite negb orb].
    assert (L : leb (rmaxn (2 - 1) (fun _ => d_FWHM D2 0)) 0 = false) by (apply leb_false; unfold D2; cbn; rewrite Rmax_left by lra; lra).
    rewrite L. cbn [negb orb andb].
    match goal with |- context [existsb ?p ?l] => assert (Z : existsb p l = false) end.
    { apply not_true_iff_false. intros E. apply existsb_exists in E. destruct E as (b & _ & E). unfold D2 in E. cbn [d_FWHM] in E. destruct (Req_EM_T (2 ^ 2 + 2 ^ 2) 0); [lra|discriminate]. }
    rewrite Z. eexists. split; [reflexivity|]. cbn [s_erep s_nel s_charge s_Z]. split; [eexists; reflexivity|]. split; [cbn; ring|]. split; [reflexivity|]. apply functional_extensionality. intros I. cbn. reflexivity.
  - eexists. split; [reflexivity|]. cbn [s_erep s_nel s_charge s_Z]. split; [eexists; reflexivity|]. split; [cbn; ring|]. split; [reflexivity|]. apply functional_extensionality. intros I. cbn. reflexivity.
Qed.
(** Hamiltonian and overlap *)
Lemma gd_H d k i j : / 10 < d < 10 -> (i < 2)%nat -> (j < 2)%nat ->
  flat D2 (gd d) (g_matrix 1 D2 (gd d) (fun I => d_onsite D2 (g_kind (gd d) I)) (d_H D2) k) i j = rc (if (i =? j)%nat then -1 else - exp (- d)).
Proof.
  intros Hd Hi Hj. unfold gd. rewrite flat2 by assumption. fold (gd d). unfold g_matrix, SkModel.matrix. change (g_nimg (gd d)) with 1%nat.
  assert (SF : forall i, (i < 2)%nat -> skipped (g_Rn 1 (gd d)) (pairwise (gd d) (d_r1 D2)) (pairwise (gd d) (d_r2 D2)) 0 i i = true) by (intros; unfold skipped; rewrite !Nat.eqb_refl; reflexivity).
  assert (NS : skipped (g_Rn 1 (gd d)) (pairwise (gd d) (d_r1 D2)) (pairwise (gd d) (d_r2 D2)) 0 0 1 = false).
  { unfold skipped. change (mdist (g_Rn 1 (gd d)) 0 0 1) with (dist (g_Rn 1 (gd d)) 0 0 1). rewrite gd_dist by (lia || lra). cbn [Nat.eqb andb orb]. unfold pairwise, D2. cbn [d_r1 d_r2]. rewrite (proj2 (leb_true 0 d)) by lra. rewrite (proj2 (leb_true d 10)) by lra. reflexivity. }
  assert (B01 : SkModel.block 1 (g_no D2 (gd d)) (g_Rn 1 (gd d)) (g_DT (gd d)) (g_phase (gd d) k) (pairwise (gd d) (d_H D2)) (pairwise (gd d) (d_r1 D2)) (pairwise (gd d) (d_r2 D2)) 0 1 0 0 = rc (- exp (- d))).
  { unfold SkModel.block, csum. cbn [rsum]. rewrite NS.
    assert (HI : ht_image (g_no D2 (gd d)) (g_Rn 1 (gd d)) (g_DT (gd d)) (pairwise (gd d) (d_H D2)) 0 0 1 0 0 = - exp (- d)).
    { unfold ht_image. change (g_no D2 (gd d) 1) with 1%nat. cbn [rsum]. change (mdist (g_Rn 1 (gd d)) 0 0 1) with (dist (g_Rn 1 (gd d)) 0 0 1). rewrite gd_dist by (lia || lra). unfold ht, cnt, mat, ind. cbn [Nat.leb andb rsum mat_upper ind_upper nth]. cbn [gd g2 g_DT]. rewrite Drep_eye by lia. unfold dlt. cbn [Nat.eqb]. unfold pairwise, D2. cbn [d_H Nat.eqb]. ring. }
    rewrite HI. apply cplx_eq; cbn [fst snd]; unfold cscale, rc, c1; cbn; ring. }
  assert (B00 : forall i, (i < 2)%nat -> SkModel.block 1 (g_no D2 (gd d)) (g_Rn 1 (gd d)) (g_DT (gd d)) (g_phase (gd d) k) (pairwise (gd d) (d_H D2)) (pairwise (gd d) (d_r1 D2)) (pairwise (gd d) (d_r2 D2)) i i 0 0 = c0).
  { intros q Hq. unfold SkModel.block, csum. cbn [rsum]. rewrite (SF q Hq). apply cplx_eq; cbn; ring. }
  two i; two j; cbn [Nat.ltb Nat.leb Nat.eqb]; rewrite ?B01, ?B00 by lia; apply cplx_eq; cbn; ring.
Qed.
Definition levels (x : R) (k a : nat) : R := -1 + (if (a =? 0)%nat then - x else x).
Definition bonding (k a i : nat) : cplx := rc (if (a =? 0)%nat then / sqrt 2 else if (i =? 0)%nat then / sqrt 2 else - / sqrt 2).
Lemma half2 : / sqrt 2 * / sqrt 2 = / 2.
Proof. rewrite <- Rinv_mult. f_equal. apply sqrt_sqrt. lra. Qed.
Definition middle (_ : R -> R) (a b _ : R) : option R := Some ((a + b) / 2).
Lemma fermi_pair x : x < 10 -> 0 < x -> fermi 200 (/ 10) (-1 - x) (-1) + fermi 200 (/ 10) (-1 + x) (-1) = 2.
Proof.
  intros H0 H. unfold fermi, rlt. destruct (Rlt_dec ((-1 - x - -1) / / 10) 200) as [_|N]; [|exfalso; apply N; replace ((-1 - x - -1) / / 10) with (-10 * x) by field; lra].
  destruct (Rlt_dec ((-1 + x - -1) / / 10) 200) as [_|N]; [|exfalso; apply N; replace ((-1 + x - -1) / / 10) with (10 * x) by field; lra].
  replace ((-1 - x - -1) / / 10) with (- (10 * x)) by field. replace ((-1 + x - -1) / / 10) with (10 * x) by field. rewrite exp_Ropp. pose proof (exp_pos (10 * x)). field. lra.
Qed.
Definition occ2 (x : R) (k a : nat) : R := fermi 200 (/ 10) (levels x k a) (-1).
Lemma occ2_sum x : 0 < x < 10 -> occ2 x 0 0 + occ2 x 0 1 = 2.
Proof. intros H. unfold occ2, levels. cbn [Nat.eqb]. rewrite <- (fermi_pair x) by lra. unfold Rminus. reflexivity. Qed.
Lemma gd_occupy x : 0 < x < 10 -> occupy 200 1 2 (fun _ => 1) (/ 10) 2 (levels x) middle = Some (-1, fun k a => occ2 x k a).
Proof.
  intros Hx. unfold occupy, emin, emax, eflat. cbn [seq flat_map map app fold_left].
  rewrite Rmin_left by (unfold levels; cbn [Nat.eqb]; lra). rewrite Rmax_right by (unfold levels; cbn [Nat.eqb]; lra). unfold middle.
  assert (E : (levels x 0 0 - / 10 + (levels x 0 1 + / 10)) / 2 = -1) by (unfold levels; cbn [Nat.eqb]; field). rewrite E.
  assert (Q : root_function 200 1 2 (fun _ => 1) (/ 10) 2 (levels x) (-1) = 0).
  { unfold root_function, electrons. cbn [rsum]. pose proof (occ2_sum x Hx) as S. unfold occ2 in S. lra. }
  rewrite Q, Rabs_R0. unfold rlt, OccModel.tol. destruct (Rlt_dec _ _) as [L|_]; [|reflexivity]. exfalso. pose proof (Rinv_0_lt_compat (10 ^ 10) ltac:(apply pow_lt; lra)). lra.
Qed.
Section Calc.
Context (scc : bool) (d : R) (X : system) (Hd : / 10 < d < 10) (EX : asm scc d = Some X).
Let x := exp (- d).
Lemma x_range : 0 < x < 10.
Proof. unfold x. split; [apply exp_pos|]. pose proof (exp_increasing (- d) 0 ltac:(lra)) as H. rewrite exp_0 in H. lra. Qed.
Lemma gd_F : fields erfc 1 1 true None 1 (/ 10) 0 scc D2 (gd d) X.
Proof. apply assembled_fields. exact EX. Qed.
Lemma gd_more : (exists x, s_erep X = Some x) /\ s_nel X = 2 /\ s_charge X = 0 /\ s_Z X = (fun _ => 1).
Proof. destruct (gd_assembled scc d ltac:(lra)) as (X' & E & H). replace X with X' by congruence. exact H. Qed.
Lemma gd_norb : s_norb X = 2%nat. Proof. exact (m_norb _ _ _ _ _ _ _ _ _ _ _ _ gd_F). Qed.
Lemma gd_N : s_N X = 2%nat. Proof. exact (m_N _ _ _ _ _ _ _ _ _ _ _ _ gd_F). Qed.
Lemma gd_nk : s_nk X = 1%nat. Proof. exact (m_nk _ _ _ _ _ _ _ _ _ _ _ _ gd_F). Qed.
Lemma gd_wk : s_wk X = (fun _ => 1). Proof. exact (m_wk _ _ _ _ _ _ _ _ _ _ _ _ gd_F). Qed.
Lemma gd_width : s_width X = / 10. Proof. exact (m_width _ _ _ _ _ _ _ _ _ _ _ _ gd_F). Qed.
Lemma gd_H0 k i j : (i < 2)%nat -> (j < 2)%nat -> s_H0 X k i j = rc (if (i =? j)%nat then -1 else - x).
Proof. intros Hi Hj. rewrite (m_H0 _ _ _ _ _ _ _ _ _ _ _ _ gd_F). apply gd_H; assumption. Qed.
Lemma gd_S k i j : (i < 2)%nat -> (j < 2)%nat -> s_S X k i j = if (i =? j)%nat then c1 else c0.
Proof. intros Hi Hj. rewrite (m_S _ _ _ _ _ _ _ _ _ _ _ _ gd_F). apply no_overlap; assumption. Qed.
Lemma gd_reliable w0 : reliable z2 w0 X.
Proof. apply z2_reliable; [exact gd_norb|]. intros k i j _ Hi Hj. apply gd_S; assumption. Qed.
Lemma gd_h1 : h1_of X (fun _ => 0) = fun _ _ => 0.
Proof.
  unfold h1_of. rewrite (m_ext _ _ _ _ _ _ _ _ _ _ _ _ gd_F), gd_N. 
  assert (Z : forall o1 no v n, (forall I, v I = 0) -> forall mu, aux_rows o1 no n v mu = 0).
  { intros o1 no v n Hv mu. induction n as [|n IH]; [reflexivity|]. cbn [aux_rows]. destruct (_ && _)%bool; [apply Hv|exact IH]. }
  apply functional_extensionality. intros mu. apply functional_extensionality. intros nu. unfold construct_h1. rewrite !(Z _ _ (g_ext (gd d))) by reflexivity.
  destruct (Bool.bool_dec scc true) as [Es|Es].
  - destruct (m_scc _ _ _ _ _ _ _ _ _ _ _ _ gd_F Es) as (G & dG & l & _ & El & EG & _ & EP & _).
    assert (E0 : forall I, epsilon 2 (s_G X) (s_phi X (fun _ => 0)) (fun _ => 0) I = 0).
    { intros I. unfold epsilon. rewrite EP. rewrite (direct_phi_gamma erfc None _ _ _ _ _ l (fun _ => 0) I El). rewrite !rsum_eq0 by (intros; ring). ring. }
    rewrite !Z by exact E0. destruct (existsb _ _); ring.
  - assert (E0 : forall I, epsilon 2 (s_G X) (s_phi X (fun _ => 0)) (fun _ => 0) I = 0).
    { intros I. unfold epsilon. assert (P : s_phi X = fun _ _ => 0) by (revert EX; unfold assemble; change (g_N (gd d)) with 2%nat; change (g_nimg (gd d)) with 1%nat; rewrite (gd_close d) by lra; destruct scc; [congruence|]; intros E; match type of E with Some ?q = _ => assert (Eq : X = q) by congruence end; rewrite Eq; reflexivity).
      rewrite P, rsum_eq0 by (intros; ring). ring. }
    rewrite !Z by exact E0. destruct (existsb _ _); ring.
Qed.
Lemma bonding_ortho : orthonormal (s_norb X) (s_nk X) (s_S X) bonding.
Proof.
  rewrite gd_norb. intros k a b _ Ha Hb. unfold bracket, csum. cbn [rsum]. rewrite !gd_S by lia. cbn [Nat.eqb]. pose proof half2 as H. two a; two b; apply cplx_eq; unfold bonding, rc, cmul, cconj, c0, c1; cbn [Nat.eqb fst snd]; lra.
Qed.
Lemma bonding_states k a : (a < 2)%nat -> RhoSpec.eigenstate (s_norb X) (s_H0 X k) (s_S X k) (fun _ _ => 0) (bonding k a) (levels x k a).
Proof.
  intros Ha. rewrite gd_norb. intros i Hi. unfold csum. cbn [rsum]. rewrite !gd_H0, !gd_S by lia. two a; two i; cbn [Nat.eqb]; apply cplx_eq; unfold levels, bonding, rc, cmul, cadd, cscale, c0, c1; cbn [Nat.eqb fst snd]; ring.
Qed.
Lemma bonding_rho f i : (i < 2)%nat -> fst (compute_rho 2 (bonding 0) f i i) = / 2 * (f 0%nat + f 1%nat).
Proof.
  intros Hi. unfold compute_rho, csum. cbn [rsum]. pose proof half2 as H. two i; unfold bonding, rc, cmul, cconj, cscale; cbn [Nat.eqb fst snd]; 
  [transitivity (/ sqrt 2 * / sqrt 2 * (f 0%nat + f 1%nat)); [ring|rewrite H; reflexivity] | transitivity (/ sqrt 2 * / sqrt 2 * (f 0%nat + f 1%nat)); [ring|rewrite H; reflexivity]].
Qed.
Lemma gd_finish tm ti : 0 <= tm -> 0 < ti -> exists r, finish 200 middle tm ti 1 1 scc X (fun _ _ => 0, levels x, bonding) = Some r /\ r_f r = (fun k a => occ2 x k a) /\ r_e r = levels x /\ forall J, (J < 2)%nat -> r_dq r J = 0.
Proof.
  intros Htm Hti. pose proof x_range as Hx. destruct gd_more as ((xr & Exr) & Hn & Hch & HZ). unfold finish, charges, occupations. cbn [snd]. rewrite gd_nk, gd_norb, gd_wk, gd_width, Hn, (gd_occupy x Hx).
  assert (Q : forall J, (J < 2)%nat -> dq_of 2 1 (s_o1 X) (s_no X) (s_val X) (fun _ => 1) (density X bonding (fun k a => occ2 x k a)) (s_S X) J = 0).
  { intros J HJ. unfold dq_of, atom_sum. rewrite (m_o1 _ _ _ _ _ _ _ _ _ _ _ _ gd_F), (m_no _ _ _ _ _ _ _ _ _ _ _ _ gd_F), (m_val _ _ _ _ _ _ _ _ _ _ _ _ gd_F).
    change (g_no D2 (gd d) J) with 1%nat. change (d_val D2 (g_kind (gd d) J)) with 1. replace (first_orbital (g_no D2 (gd d)) J) with J by (two J; reflexivity). cbn [rsum]. rewrite Nat.add_0_r. unfold diag, diag_k. cbn [rsum]. unfold mmul, csum. 
    unfold density. rewrite gd_norb. cbn [rsum fst snd]. rewrite !gd_S by lia. pose proof (bonding_rho (occ2 x 0) J HJ) as P. pose proof (occ2_sum x Hx) as S2. 
    rewrite S2 in P. two J; cbn [Nat.eqb] in *; unfold cmul, c1, c0; cbn [fst snd]; change (fun a : nat => occ2 x 0 a) with (occ2 x 0%nat); rewrite P; ring_simplify; lra. }
  unfold mulliken. rewrite gd_N, Hch.
  match goal with |- context [ltb tm ?v] => assert (L : ltb tm v = false) end.
  { apply ltb_false. rewrite rsum_eq0 by (intros i Hi; rewrite (Q i Hi); ring). rewrite Rminus_0_r, Rabs_R0. exact Htm. }
  rewrite L. match goal with |- context [sane 2 ?q ?w] => assert (S1 : sane 2 q w = true) end.
  { unfold sane. apply forallb_forall. intros J HJ. apply in_seq in HJ. rewrite (Q J) by lia. rewrite HZ. rewrite (proj2 (ltb_false _ _)) by lra. rewrite (proj2 (ltb_false _ _)) by lra. reflexivity. }
  rewrite S1. cbn [negb]. unfold band_structure_energy.
  match goal with |- context [ltb ?v ti] => assert (L2 : ltb v ti = true) end.
  { apply ltb_true. replace (snd _) with 0; [exact Hti|]. unfold ebs_c, density. rewrite gd_norb. unfold csum. cbn [rsum fst snd]. rewrite !gd_H0 by lia. unfold compute_rho, csum. cbn [rsum fst snd]. unfold bonding, rc, cmul, cconj, cscale. cbn [Nat.eqb fst snd]. ring. }
  rewrite L2, Exr. eexists. split; [reflexivity|]. cbn [r_f r_e r_dq]. split; [reflexivity|]. split; [reflexivity|exact Q].
Qed.
Lemma gd_calc z w0 ev tn tm ti : reliable z w0 X -> 0 <= tn -> 0 <= tm -> 0 < ti ->
  exists p r, pass z ev w0 tn X (if scc then Some (h1_of X (fun _ => 0)) else None) = Some p /\ finish 200 middle tm ti 1 1 scc X p = Some r /\
   (forall k a, (k < 1)%nat -> (a < 2)%nat -> r_e r k a = levels x k a /\ r_f r k a = occ2 x k a) /\ forall J, (J < 2)%nat -> r_dq r J = 0.
Proof.
  intros [C Rl] Htn Htm Hti. pose proof (assembled_proper _ _ _ _ _ _ _ _ _ _ _ _ _ (ex_sound _ _) EX) as PX. destruct PX as [A B]. pose proof (assembled_well _ _ _ _ _ _ _ _ _ _ _ _ EX) as WX.
  set (H1 := if scc then Some (h1_of X (fun _ => 0)) else None).
  assert (EH : match H1 with Some h => h | None => fun _ _ => 0 end = fun _ _ => 0) by (pose proof gd_h1 as Hh; unfold H1; destruct scc; [exact Hh|reflexivity]).
  destruct (all_k_spec z (s_norb X) (s_nk X) tn ev w0 (s_H0 X) (s_S X) H1 C A B Htn) as (e & wf & E & O & Wv & So).
  - intros h Eh i j _ _. unfold H1 in Eh. destruct scc; [|discriminate]. replace h with (h1_of X (fun _ => 0)) by congruence. apply InvProofs3.h1_sym.
  - intros k Hk. apply Rl; [exact Hk|]. unfold hamiltonian. destruct H1 as [h|] eqn:EH1; [|apply A; exact Hk].
    intros i j Hi Hj. rewrite (A k Hk i j Hi Hj), (B k Hk i j Hi Hj). rewrite EH, cconj_add, !cscale_rc, cconj_mul, cconj_rc. reflexivity.
  - rewrite EH in Wv. unfold pass. rewrite E, EH. exists ((fun _ _ => 0), e, wf).
    assert (SV : forall k, (k < s_nk X)%nat -> solves (s_norb X) (fun i j => cadd (s_H0 X k i j) (cscale 0 (s_S X k i j))) (s_S X k) (bonding k) (levels x k)).
    { intros k Hk a i Ha Hi. rewrite gd_norb in Ha. apply (bonding_states k a Ha). exact Hi. }
    assert (SV' : forall k, (k < s_nk X)%nat -> solves (s_norb X) (fun i j => cadd (s_H0 X k i j) (cscale 0 (s_S X k i j))) (s_S X k) (wf k) (e k)).
    { intros k Hk a i Ha Hi. apply (Wv k a Hk Ha i Hi). }
    assert (HM : forall k, (k < s_nk X)%nat -> RhoSpec.hermitian (s_norb X) (fun i j => cadd (s_H0 X k i j) (cscale 0 (s_S X k i j)))).
    { intros k Hk i' j' Hi' Hj'. rewrite (A k Hk i' j' Hi' Hj'), (B k Hk i' j' Hi' Hj'), cconj_add, !cscale_rc, cconj_mul, cconj_rc. reflexivity. }
    assert (Ee : forall k a, (k < s_nk X)%nat -> (a < s_norb X)%nat -> e k a = levels x k a).
    { intros k a Hk Ha. apply (energies_unique (s_norb X) (fun i j => cadd (s_H0 X k i j) (cscale 0 (s_S X k i j))) (s_S X k) (wf k) (bonding k) (e k) (levels x k)); try assumption.
      - apply HM; exact Hk.
      - apply B; exact Hk.
      - intros i j Hi Hj. apply O; assumption.
      - intros i j Hi Hj. apply bonding_ortho; assumption.
      - apply SV'; exact Hk.
      - apply SV; exact Hk.
      - intros i j H1' H2'. apply So; assumption.
      - intros i j H1' H2'. rewrite gd_norb in H2'. pose proof x_range. unfold levels. two j; two i; try (exfalso; lia); cbn [Nat.eqb]; lra. }
    assert (AL : alike same_orbitals X ((fun _ _ => 0), levels x, bonding) ((fun _ _ => 0), e, wf)).
    { constructor; cbn [fst snd].
      - intros k i j l m _ _ _ _ _ _ _. reflexivity.
      - exact Ee.
      - intros phi k i l Hk Hi Hl. rewrite same_transported by assumption.
        refine (density_unique (s_norb X) (fun i j => cadd (s_H0 X k i j) (cscale 0 (s_S X k i j))) (s_S X k) (bonding k) (wf k) (levels x k) (e k) (HM k Hk) (B k Hk) _ _ (SV k Hk) (SV' k Hk) phi i l Hi Hl).
        + intros a b Ha Hb. apply bonding_ortho; assumption.
        + intros a b Ha Hb. apply O; assumption. }
    pose proof (finish_alike (fun i => i) same_orbitals same_axes X X (self_equivalent X WX) 200 middle tm ti 1 1 scc _ _ AL) as F.
    destruct (gd_finish tm ti Htm Hti) as (r & Er & Qf & Qe & Qd). rewrite Er in F. destruct (finish 200 middle tm ti 1 1 scc X (fun _ _ => 0, e, wf)) as [r'|] eqn:E'; [|contradiction].
    exists r'. split; [reflexivity|]. split; [reflexivity|]. split.
    + intros k a Hk Ha. rewrite <- gd_nk in Hk. rewrite <- gd_norb in Ha. split; [rewrite (a_e _ _ _ _ _ _ F k a Hk Ha), Qe; reflexivity|rewrite (a_f _ _ _ _ _ _ F k a Hk Ha), Qf; reflexivity].
    + intros J HJ. pose proof (a_dq _ _ _ _ _ _ F J) as P. rewrite gd_N in P. rewrite (P HJ). apply Qd. exact HJ.
Qed.
End Calc.
End Erfc.
