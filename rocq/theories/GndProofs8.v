From Coq Require Import Reals ZArith List Bool Arith Lia Lra Psatz FunctionalExtensionality.
From Verif Require Import SkModel SkProofs SkProofs2 InvModel InvSpec InvLin InvProofs InvProofs2 InvProofs3 InvProofs4 InvProofs8 InvProofs9 InvProofs10 InvProofs11 InvProofs13 InvProofs14 Vec GeomModel GeomProofs PairModel PairSpec PairProofs CoulModel CoulProofs SkSpec SkProofs6 SkProofs7 Cpx OccModel RhoModel RhoSpec RhoProofs RhoProofs3 RhoProofs6 EigModel EigSpec EigProofs2 GamModel GamSpec GamProofs GamProofs6 FrcSpec FrcProofs FrcProofs2 FrcProofs5 FrcProofs6 FrcProofs7 FrcProofs8 FrcProofs9 FrcProofs10 MixModel BndProofs5 GndSpec GndProofs3 GndProofs4.
Import ListNotations.
Open Scope R_scope.

(** the dimer of FrcProofs10.v with width w *)
Section Erfc.
Context (erfc : R -> R) (w : R) (Hw : 0 < w).
Notation asm scc d := (assemble erfc 1 1 true None 1 w 0 scc D2 (gd d)).
Lemma gd_assembled_at scc d : / 10 < d -> exists X, asm scc d = Some X /\ (exists x, s_erep X = Some x) /\ s_nel X = 2 /\ s_charge X = 0 /\ s_Z X = (fun _ => 1).
Proof.
  intros Hd. unfold assemble. change (g_N (gd d)) with 2%nat. change (g_nimg (gd d)) with 1%nat. rewrite (gd_close d Hd). change (d_rmax D2) with 5. rewrite (gd_distances d Hd).
  destruct scc.
  - unfold g_gamma, gauss_gamma, get_neighbours. cbn [gd g2 g_N g_kind g_ranges scan is_cluster infinite negb orb].
    assert (L : leb (rmaxn (2 - 1) (fun _ => d_FWHM D2 0)) 0 = false) by (apply leb_false; unfold D2; cbn; rewrite Rmax_left by lra; lra).
    rewrite L. cbn [negb orb andb].
    match goal with |- context [existsb ?p ?l] => assert (Z : existsb p l = false) end.
    { apply not_true_iff_false. intros E. apply existsb_exists in E. destruct E as (b & _ & E). unfold D2 in E. cbn [d_FWHM] in E. destruct (Req_EM_T (2 ^ 2 + 2 ^ 2) 0); [lra|discriminate]. }
    rewrite Z. eexists. split; [reflexivity|]. cbn [s_erep s_nel s_charge s_Z]. split; [eexists; reflexivity|]. split; [cbn; ring|]. split; [reflexivity|]. apply functional_extensionality. intros I. cbn. reflexivity.
  - eexists. split; [reflexivity|]. cbn [s_erep s_nel s_charge s_Z]. split; [eexists; reflexivity|]. split; [cbn; ring|]. split; [reflexivity|]. apply functional_extensionality. intros I. cbn. reflexivity.
Qed.
(** Hamiltonian and overlap *)
Lemma fermi_pair_at x : x < 200 * w -> 0 < x -> fermi 200 w (-1 - x) (-1) + fermi 200 w (-1 + x) (-1) = 2.
Proof.
  intros H0 H. unfold fermi, rlt. assert (P : 0 < x / w) by (apply Rdiv_lt_0_compat; assumption). assert (L : x / w < 200). { apply (Rmult_lt_reg_r w); [exact Hw|]. unfold Rdiv. rewrite Rmult_assoc, Rinv_l by lra. lra. }
  replace ((-1 - x - -1) / w) with (- (x / w)) by (field; lra). replace ((-1 + x - -1) / w) with (x / w) by (field; lra).
  destruct (Rlt_dec (- (x / w)) 200) as [_|N]; [|exfalso; lra]. destruct (Rlt_dec (x / w) 200) as [_|N]; [|exfalso; lra]. rewrite exp_Ropp. pose proof (exp_pos (x / w)). field. lra.
Qed.
Definition occ2_at (x : R) (k a : nat) : R := fermi 200 w (levels x k a) (-1).
Lemma occ2_sum_at x : 0 < x < 200 * w -> occ2_at x 0 0 + occ2_at x 0 1 = 2.
Proof. intros H. unfold occ2_at, levels. cbn [Nat.eqb]. rewrite <- (fermi_pair_at x) by lra. unfold Rminus. reflexivity. Qed.
Lemma gd_occupy_at x : 0 < x < 200 * w -> occupy 200 1 2 (fun _ => 1) w 2 (levels x) middle = Some (-1, fun k a => occ2_at x k a).
Proof.
  intros Hx. unfold occupy, emin, emax, eflat. cbn [seq flat_map map app fold_left].
  rewrite Rmin_left by (unfold levels; cbn [Nat.eqb]; lra). rewrite Rmax_right by (unfold levels; cbn [Nat.eqb]; lra). unfold middle.
  assert (E : (levels x 0 0 - w + (levels x 0 1 + w)) / 2 = -1) by (unfold levels; cbn [Nat.eqb]; field). rewrite E.
  assert (Q : root_function 200 1 2 (fun _ => 1) w 2 (levels x) (-1) = 0).
  { unfold root_function, electrons. cbn [rsum]. pose proof (occ2_sum_at x Hx) as S. unfold occ2_at in S. lra. }
  rewrite Q, Rabs_R0. unfold rlt, OccModel.tol. destruct (Rlt_dec _ _) as [L|_]; [|reflexivity]. exfalso. pose proof (Rinv_0_lt_compat (10 ^ 10) ltac:(apply pow_lt; lra)). lra.
Qed.
Section Calc.
Context (scc : bool) (d : R) (X : system) (Hd : / 10 < d < 10) (Hx0 : 1 <= 200 * w) (EX : asm scc d = Some X).
Let x := exp (- d).
Lemma x_range_at : 0 < x < 200 * w.
Proof. unfold x. split; [apply exp_pos|]. pose proof (exp_increasing (- d) 0 ltac:(lra)) as H. rewrite exp_0 in H. lra. Qed.
Lemma gd_F_at : fields erfc 1 1 true None 1 w 0 scc D2 (gd d) X.
Proof. apply assembled_fields. exact EX. Qed.
Lemma gd_more_at : (exists x, s_erep X = Some x) /\ s_nel X = 2 /\ s_charge X = 0 /\ s_Z X = (fun _ => 1).
Proof. destruct (gd_assembled_at scc d ltac:(lra)) as (X' & E & H). replace X with X' by congruence. exact H. Qed.
Lemma gd_norb_at : s_norb X = 2%nat. Proof. exact (m_norb _ _ _ _ _ _ _ _ _ _ _ _ gd_F_at). Qed.
Lemma gd_N_at : s_N X = 2%nat. Proof. exact (m_N _ _ _ _ _ _ _ _ _ _ _ _ gd_F_at). Qed.
Lemma gd_nk_at : s_nk X = 1%nat. Proof. exact (m_nk _ _ _ _ _ _ _ _ _ _ _ _ gd_F_at). Qed.
Lemma gd_wk_at : s_wk X = (fun _ => 1). Proof. exact (m_wk _ _ _ _ _ _ _ _ _ _ _ _ gd_F_at). Qed.
Lemma gd_width_at : s_width X = w. Proof. exact (m_width _ _ _ _ _ _ _ _ _ _ _ _ gd_F_at). Qed.
Lemma gd_H0_at k i j : (i < 2)%nat -> (j < 2)%nat -> s_H0 X k i j = rc (if (i =? j)%nat then -1 else - x).
Proof. intros Hi Hj. rewrite (m_H0 _ _ _ _ _ _ _ _ _ _ _ _ gd_F_at). apply gd_H; assumption. Qed.
Lemma gd_S_at k i j : (i < 2)%nat -> (j < 2)%nat -> s_S X k i j = if (i =? j)%nat then c1 else c0.
Proof. intros Hi Hj. rewrite (m_S _ _ _ _ _ _ _ _ _ _ _ _ gd_F_at). apply no_overlap; assumption. Qed.
Lemma gd_reliable_at w0 : reliable z2 w0 X.
Proof. apply z2_reliable; [exact gd_norb_at|]. intros k i j _ Hi Hj. apply gd_S_at; assumption. Qed.
Lemma gd_h1_at : h1_of X (fun _ => 0) = fun _ _ => 0.
Proof.
  unfold h1_of. rewrite (m_ext _ _ _ _ _ _ _ _ _ _ _ _ gd_F_at), gd_N_at. 
  assert (Z : forall o1 no v n, (forall I, v I = 0) -> forall mu, aux_rows o1 no n v mu = 0).
  { intros o1 no v n Hv mu. induction n as [|n IH]; [reflexivity|]. cbn [aux_rows]. destruct (_ && _)%bool; [apply Hv|exact IH]. }
  apply functional_extensionality. intros mu. apply functional_extensionality. intros nu. unfold construct_h1. rewrite !(Z _ _ (g_ext (gd d))) by reflexivity.
  destruct (Bool.bool_dec scc true) as [Es|Es].
  - destruct (m_scc _ _ _ _ _ _ _ _ _ _ _ _ gd_F_at Es) as (G & dG & l & _ & El & EG & _ & EP & _).
    assert (E0 : forall I, epsilon 2 (s_G X) (s_phi X (fun _ => 0)) (fun _ => 0) I = 0).
    { intros I. unfold epsilon. rewrite EP. rewrite (direct_phi_gamma erfc None _ _ _ _ _ l (fun _ => 0) I El). rewrite !rsum_eq0 by (intros; ring). ring. }
    rewrite !Z by exact E0. destruct (existsb _ _); ring.
  - assert (E0 : forall I, epsilon 2 (s_G X) (s_phi X (fun _ => 0)) (fun _ => 0) I = 0).
    { intros I. unfold epsilon. assert (P : s_phi X = fun _ _ => 0) by (revert EX; unfold assemble; change (g_N (gd d)) with 2%nat; change (g_nimg (gd d)) with 1%nat; rewrite (gd_close d) by lra; destruct scc; [congruence|]; intros E; match type of E with Some ?q = _ => assert (Eq : X = q) by congruence end; rewrite Eq; reflexivity).
      rewrite P, rsum_eq0 by (intros; ring). ring. }
    rewrite !Z by exact E0. destruct (existsb _ _); ring.
Qed.
Lemma bonding_ortho_at : orthonormal (s_norb X) (s_nk X) (s_S X) bonding.
Proof.
  rewrite gd_norb_at. intros k a b _ Ha Hb. unfold bracket, csum. cbn [rsum]. rewrite !gd_S_at by lia. cbn [Nat.eqb]. pose proof half2 as H. two a; two b; apply cplx_eq; unfold bonding, rc, cmul, cconj, c0, c1; cbn [Nat.eqb fst snd]; lra.
Qed.
Lemma bonding_states_at k a : (a < 2)%nat -> RhoSpec.eigenstate (s_norb X) (s_H0 X k) (s_S X k) (fun _ _ => 0) (bonding k a) (levels x k a).
Proof.
  intros Ha. rewrite gd_norb_at. intros i Hi. unfold csum. cbn [rsum]. rewrite !gd_H0_at, !gd_S_at by lia. two a; two i; cbn [Nat.eqb]; apply cplx_eq; unfold levels, bonding, rc, cmul, cadd, cscale, c0, c1; cbn [Nat.eqb fst snd]; ring.
Qed.
Lemma bonding_rho_at f i : (i < 2)%nat -> fst (compute_rho 2 (bonding 0) f i i) = / 2 * (f 0%nat + f 1%nat).
Proof.
  intros Hi. unfold compute_rho, csum. cbn [rsum]. pose proof half2 as H. two i; unfold bonding, rc, cmul, cconj, cscale; cbn [Nat.eqb fst snd]; 
  [transitivity (/ sqrt 2 * / sqrt 2 * (f 0%nat + f 1%nat)); [ring|rewrite H; reflexivity] | transitivity (/ sqrt 2 * / sqrt 2 * (f 0%nat + f 1%nat)); [ring|rewrite H; reflexivity]].
Qed.
Lemma gd_finish_at tm ti : 0 <= tm -> 0 < ti -> exists r, finish 200 middle tm ti 1 1 scc X (fun _ _ => 0, levels x, bonding) = Some r /\ r_f r = (fun k a => occ2_at x k a) /\ r_e r = levels x /\ forall J, (J < 2)%nat -> r_dq r J = 0.
Proof.
  intros Htm Hti. pose proof x_range_at as Hx. destruct gd_more_at as ((xr & Exr) & Hn & Hch & HZ). unfold finish, charges, occupations. cbn [snd]. rewrite gd_nk_at, gd_norb_at, gd_wk_at, gd_width_at, Hn, (gd_occupy_at x Hx).
  assert (Q : forall J, (J < 2)%nat -> dq_of 2 1 (s_o1 X) (s_no X) (s_val X) (fun _ => 1) (density X bonding (fun k a => occ2_at x k a)) (s_S X) J = 0).
  { intros J HJ. unfold dq_of, atom_sum. rewrite (m_o1 _ _ _ _ _ _ _ _ _ _ _ _ gd_F_at), (m_no _ _ _ _ _ _ _ _ _ _ _ _ gd_F_at), (m_val _ _ _ _ _ _ _ _ _ _ _ _ gd_F_at).
    change (g_no D2 (gd d) J) with 1%nat. change (d_val D2 (g_kind (gd d) J)) with 1. replace (first_orbital (g_no D2 (gd d)) J) with J by (two J; reflexivity). cbn [rsum]. rewrite Nat.add_0_r. unfold diag, diag_k. cbn [rsum]. unfold mmul, csum. 
    unfold density. rewrite gd_norb_at. cbn [rsum fst snd]. rewrite !gd_S_at by lia. pose proof (bonding_rho_at (occ2_at x 0) J HJ) as P. pose proof (occ2_sum_at x Hx) as S2. 
    rewrite S2 in P. two J; cbn [Nat.eqb] in *; unfold cmul, c1, c0; cbn [fst snd]; change (fun a : nat => occ2_at x 0 a) with (occ2_at x 0%nat); rewrite P; ring_simplify; lra. }
  unfold mulliken. rewrite gd_N_at, Hch.
  match goal with |- context [ltb tm ?v] => assert (L : ltb tm v = false) end.
  { apply ltb_false. rewrite rsum_eq0 by (intros i Hi; rewrite (Q i Hi); ring). rewrite Rminus_0_r, Rabs_R0. exact Htm. }
  rewrite L. match goal with |- context [sane 2 ?q ?w] => assert (S1 : sane 2 q w = true) end.
  { unfold sane. apply forallb_forall. intros J HJ. apply in_seq in HJ. rewrite (Q J) by lia. rewrite HZ. rewrite (proj2 (ltb_false _ _)) by lra. rewrite (proj2 (ltb_false _ _)) by lra. reflexivity. }
  rewrite S1. cbn [negb]. unfold band_structure_energy.
  match goal with |- context [ltb ?v ti] => assert (L2 : ltb v ti = true) end.
  { apply ltb_true. replace (snd _) with 0; [exact Hti|]. unfold ebs_c, density. rewrite gd_norb_at. unfold csum. cbn [rsum fst snd]. rewrite !gd_H0_at by lia. unfold compute_rho, csum. cbn [rsum fst snd]. unfold bonding, rc, cmul, cconj, cscale. cbn [Nat.eqb fst snd]. ring. }
  rewrite L2, Exr. eexists. split; [reflexivity|]. cbn [r_f r_e r_dq]. split; [reflexivity|]. split; [reflexivity|exact Q].
Qed.
Lemma gd_calc_at z w0 ev tn tm ti : reliable z w0 X -> 0 <= tn -> 0 <= tm -> 0 < ti ->
  exists p r, pass z ev w0 tn X (if scc then Some (h1_of X (fun _ => 0)) else None) = Some p /\ finish 200 middle tm ti 1 1 scc X p = Some r /\
   (forall k a, (k < 1)%nat -> (a < 2)%nat -> r_e r k a = levels x k a /\ r_f r k a = occ2_at x k a) /\ forall J, (J < 2)%nat -> r_dq r J = 0.
Proof.
  intros [C Rl] Htn Htm Hti. pose proof (assembled_proper _ _ _ _ _ _ _ _ _ _ _ _ _ (ex_sound _ _) EX) as PX. destruct PX as [A B]. pose proof (assembled_well _ _ _ _ _ _ _ _ _ _ _ _ EX) as WX.
  set (H1 := if scc then Some (h1_of X (fun _ => 0)) else None).
  assert (EH : match H1 with Some h => h | None => fun _ _ => 0 end = fun _ _ => 0) by (pose proof gd_h1_at as Hh; unfold H1; destruct scc; [exact Hh|reflexivity]).
  destruct (all_k_spec z (s_norb X) (s_nk X) tn ev w0 (s_H0 X) (s_S X) H1 C A B Htn) as (e & wf & E & O & Wv & So).
  - intros h Eh i j _ _. unfold H1 in Eh. destruct scc; [|discriminate]. replace h with (h1_of X (fun _ => 0)) by congruence. apply InvProofs3.h1_sym.
  - intros k Hk. apply Rl; [exact Hk|]. unfold hamiltonian. destruct H1 as [h|] eqn:EH1; [|apply A; exact Hk].
    intros i j Hi Hj. rewrite (A k Hk i j Hi Hj), (B k Hk i j Hi Hj). rewrite EH, cconj_add, !cscale_rc, cconj_mul, cconj_rc. reflexivity.
  - rewrite EH in Wv. unfold pass. rewrite E, EH. exists ((fun _ _ => 0), e, wf).
    assert (SV : forall k, (k < s_nk X)%nat -> solves (s_norb X) (fun i j => cadd (s_H0 X k i j) (cscale 0 (s_S X k i j))) (s_S X k) (bonding k) (levels x k)).
    { intros k Hk a i Ha Hi. rewrite gd_norb_at in Ha. apply (bonding_states_at k a Ha). exact Hi. }
    assert (SV' : forall k, (k < s_nk X)%nat -> solves (s_norb X) (fun i j => cadd (s_H0 X k i j) (cscale 0 (s_S X k i j))) (s_S X k) (wf k) (e k)).
    { intros k Hk a i Ha Hi. apply (Wv k a Hk Ha i Hi). }
    assert (HM : forall k, (k < s_nk X)%nat -> RhoSpec.hermitian (s_norb X) (fun i j => cadd (s_H0 X k i j) (cscale 0 (s_S X k i j)))).
    { intros k Hk i' j' Hi' Hj'. rewrite (A k Hk i' j' Hi' Hj'), (B k Hk i' j' Hi' Hj'), cconj_add, !cscale_rc, cconj_mul, cconj_rc. reflexivity. }
    assert (Ee : forall k a, (k < s_nk X)%nat -> (a < s_norb X)%nat -> e k a = levels x k a).
    { intros k a Hk Ha. apply (energies_unique (s_norb X) (fun i j => cadd (s_H0 X k i j) (cscale 0 (s_S X k i j))) (s_S X k) (wf k) (bonding k) (e k) (levels x k)); try assumption.
      - apply HM; exact Hk.
      - apply B; exact Hk.
      - intros i j Hi Hj. apply O; assumption.
      - intros i j Hi Hj. apply bonding_ortho_at; assumption.
      - apply SV'; exact Hk.
      - apply SV; exact Hk.
      - intros i j H1' H2'. apply So; assumption.
      - intros i j H1' H2'. rewrite gd_norb_at in H2'. pose proof x_range_at. unfold levels. two j; two i; try (exfalso; lia); cbn [Nat.eqb]; lra. }
    assert (AL : alike same_orbitals X ((fun _ _ => 0), levels x, bonding) ((fun _ _ => 0), e, wf)).
    { constructor; cbn [fst snd].
      - intros k i j l m _ _ _ _ _ _ _. reflexivity.
      - exact Ee.
      - intros phi k i l Hk Hi Hl. rewrite same_transported by assumption.
        refine (density_unique (s_norb X) (fun i j => cadd (s_H0 X k i j) (cscale 0 (s_S X k i j))) (s_S X k) (bonding k) (wf k) (levels x k) (e k) (HM k Hk) (B k Hk) _ _ (SV k Hk) (SV' k Hk) phi i l Hi Hl).
        + intros a b Ha Hb. apply bonding_ortho_at; assumption.
        + intros a b Ha Hb. apply O; assumption. }
    pose proof (finish_alike (fun i => i) same_orbitals same_axes X X (self_equivalent X WX) 200 middle tm ti 1 1 scc _ _ AL) as F.
    destruct (gd_finish_at tm ti Htm Hti) as (r & Er & Qf & Qe & Qd). rewrite Er in F. destruct (finish 200 middle tm ti 1 1 scc X (fun _ _ => 0, e, wf)) as [r'|] eqn:E'; [|contradiction].
    exists r'. split; [reflexivity|]. split; [reflexivity|]. split.
    + intros k a Hk Ha. rewrite <- gd_nk_at in Hk. rewrite <- gd_norb_at in Ha. split; [rewrite (a_e _ _ _ _ _ _ F k a Hk Ha), Qe; reflexivity|rewrite (a_f _ _ _ _ _ _ F k a Hk Ha), Qf; reflexivity].
    + intros J HJ. pose proof (a_dq _ _ _ _ _ _ F J) as P. rewrite gd_N_at in P. rewrite (P HJ). apply Qd. exact HJ.
Qed.
End Calc.
End Erfc.

Lemma occ2_nonzero w x k a : 0 < w -> 0 < x < 200 * w -> (a < 2)%nat -> occ2_at w x k a <> 0.
Proof.
  intros Hw Hx Ha. unfold occ2_at, fermi, rlt. cbv zeta. destruct (Rlt_dec ((levels x k a - -1) / w) 200) as [_|N].
  - pose proof (exp_pos ((levels x k a - -1) / w)). assert (0 < 2 / (exp ((levels x k a - -1) / w) + 1)) by (apply Rdiv_lt_0_compat; lra). lra.
  - exfalso. apply N. assert (L : x / w < 200). { apply (Rmult_lt_reg_r w); [exact Hw|]. unfold Rdiv. rewrite Rmult_assoc, Rinv_l by lra. lra. } assert (P : 0 < x / w) by (apply Rdiv_lt_0_compat; lra).
    unfold levels. destruct (a =? 0)%nat; [replace ((-1 + - x - -1) / w) with (- (x / w)) by (field; lra)|replace ((-1 + x - -1) / w) with (x / w) by (field; lra)]; lra.
Qed.
(** calculations with every width *)
Example ex_widths erfc scc d w mi : / 10 < d < 10 -> / 200 <= w -> exists X r it n,
  assemble erfc 1 1 true None 1 w 0 scc D2 (gd d) = Some X /\ reliable z2 (fun _ _ => 0) X /\
  calculate z2 (fun _ => 0) (fun _ _ => 0) 200 middle (anderson_mixer no_solver usual 2) 0 0 1 1 1 scc (S mi) X anderson_new (fun _ => 0) = Solved r it n /\
  (scc = true -> computed_from z2 (fun _ => 0) (fun _ _ => 0) 200 middle 0 0 1 1 1 X (fun _ => 0) r) /\
  (forall I, (I < 2)%nat -> r_dq r I = 0) /\ (forall k a, (k < s_nk X)%nat -> (a < s_norb X)%nat -> r_f r k a <> 0) /\ filling (s_norb X) (s_nk X) (s_wk X) (r_f r) = 2.
Proof.
  intros Hd Hw. assert (Hw0 : 0 < w) by lra. assert (Hx1 : 1 <= 200 * w) by lra. destruct (gd_assembled_at erfc w scc d ltac:(lra)) as (X & EX & _). exists X.
  pose proof (gd_reliable_at erfc w scc d X EX (fun _ _ => 0)) as RX.
  destruct (gd_calc_at erfc w Hw0 scc d X Hd Hx1 EX z2 (fun _ _ => 0) (fun _ => 0) 0 0 1 RX ltac:(lra) ltac:(lra) ltac:(lra)) as (p & r & P & F & EF & Q). exists r.
  pose proof (finish_charges _ _ _ _ _ _ _ _ _ _ F) as C.
  assert (EC : exists it n, calculate z2 (fun _ => 0) (fun _ _ => 0) 200 middle (anderson_mixer no_solver usual 2) 0 0 1 1 1 scc (S mi) X anderson_new (fun _ => 0) = Solved r it n).
  { unfold calculate, get_states. destruct scc.
    - cbn [scc_loop]. rewrite P. cbv beta iota. rewrite C. unfold anderson_mixer. cbn [m_call m_reset]. unfold anderson. cbv zeta. match goal with |- context [Rlt_dec ?a ?b] => destruct (Rlt_dec a b) as [_|K] end.
      + cbv beta iota. rewrite F. eexists _, _. reflexivity.
      + exfalso. apply K. unfold usual. cbn. rewrite !Q by lia. replace (0 - 0) with 0 by ring. rewrite Rabs_R0. rewrite ?(Rmax_left 0 0) by lra. lra.
    - rewrite P. cbv beta iota. rewrite C. cbv beta iota. rewrite F. eexists _, _. reflexivity. }
  destruct EC as (it & n & EC). exists it, n. pose proof (gd_nk_at erfc w scc d X EX) as Ek. pose proof (gd_norb_at erfc w scc d X EX) as En. pose proof (x_range_at w d Hd Hx1) as Hx.
  split; [exact EX|]. split; [exact RX|]. split; [exact EC|]. split; [intros ->; exists p; split; assumption|]. split; [exact Q|]. split.
  - intros k a Hk Ha. rewrite Ek in Hk. rewrite En in Ha. rewrite (proj2 (EF k a Hk Ha)). apply occ2_nonzero; assumption.
  - unfold filling. rewrite Ek, En, (gd_wk_at erfc w scc d X EX). cbn [rsum]. rewrite (proj2 (EF 0 0 ltac:(lia) ltac:(lia))%nat), (proj2 (EF 0 1 ltac:(lia) ltac:(lia))%nat). pose proof (occ2_sum_at w Hw0 _ Hx). lra.
Qed.
