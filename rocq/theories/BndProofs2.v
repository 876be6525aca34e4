From Coq Require Import Reals ZArith List Bool Arith Lia Lra FunctionalExtensionality.
From Verif Require Import Vec GeomModel MixModel OccModel OccProofs SkModel SkSpec Cpx RhoModel RhoSpec RhoProofs EigModel EigSpec EigProofs2 GamModel InvModel InvSpec InvLin InvProofs InvProofs2 InvProofs3 BndModel BndSpec BndProofs.
Import ListNotations.
Open Scope R_scope.

Lemma solve_system (Z : system) zz ww ev tol_norm H1 : 0 <= tol_norm -> proper Z -> reliable zz ww Z -> (forall h, H1 = Some h -> forall i j, h i j = h j i) ->
  exists e wf, all_k zz (s_norb Z) (s_nk Z) tol_norm ev ww (s_H0 Z) (s_S Z) H1 = inr (e, wf) /\ orthonormal (s_norb Z) (s_nk Z) (s_S Z) wf /\
    (forall k, (k < s_nk Z)%nat -> solves (s_norb Z) (fun i j => cadd (s_H0 Z k i j) (cscale (match H1 with Some h => h | None => fun _ _ => 0 end i j) (s_S Z k i j))) (s_S Z k) (wf k) (e k)) /\
    forall k, (k < s_nk Z)%nat -> sorted (s_norb Z) (e k).
Proof.
  intros Ht [A B] [C R] Sym. destruct (all_k_spec zz (s_norb Z) (s_nk Z) tol_norm ev ww (s_H0 Z) (s_S Z) H1 C A B Ht) as (e & wf & E & O & W & So).
  - intros h Eh i j _ _. exact (Sym h Eh i j).
  - intros k Hk. apply R; [exact Hk|]. intros i j Hi Hj. unfold hamiltonian. destruct H1 as [h|]; [|apply A; assumption].
    rewrite (A k Hk i j Hi Hj), (B k Hk i j Hi Hj), (Sym h eq_refl i j), !cscale_rc, cconj_add, cconj_mul, cconj_rc. reflexivity.
  - exists e, wf. split; [exact E|]. split; [exact O|]. split; [intros k Hk; apply states_of_eigenstate; intros a Ha; apply W; assumption|intros k Hk a b Ha Hb; apply So; assumption].
Qed.
(** one point of one system and one point of another *)
Lemma one_point (X Y : system) n b k j h e wf e' wf' : s_norb X = n -> s_norb Y = n -> proper X -> (k < s_nk X)%nat -> (j < s_nk Y)%nat ->
  (forall i l, (i < n)%nat -> (l < n)%nat -> s_H0 X k i l = mirrored b (s_H0 Y j i l)) -> (forall i l, (i < n)%nat -> (l < n)%nat -> s_S X k i l = mirrored b (s_S Y j i l)) ->
  (forall i l : nat, h i l = h l i) -> orthonormal n (s_nk X) (s_S X) wf -> orthonormal n (s_nk Y) (s_S Y) wf' ->
  solves n (fun i l => cadd (s_H0 X k i l) (cscale (h i l) (s_S X k i l))) (s_S X k) (wf k) (e k) -> forall h',
  (forall i l, (i < n)%nat -> (l < n)%nat -> h' i l = h i l) ->
  solves n (fun i l => cadd (s_H0 Y j i l) (cscale (h' i l) (s_S Y j i l))) (s_S Y j) (wf' j) (e' j) -> sorted n (e k) -> sorted n (e' j) ->
  (forall a, (a < n)%nat -> e k a = e' j a) /\
  forall (phi : R -> R) i l, (i < n)%nat -> (l < n)%nat -> compute_rho n (wf k) (fun a => phi (e k a)) i l = mirrored b (compute_rho n (wf' j) (fun a => phi (e' j a)) i l).
Proof.
  intros EX EY [PH PS] Hk Hj HH HS Sym O O' W h' Eh W' So So'. rewrite EX in PH, PS.
  apply (solved_mirrored n b (fun i l => cadd (s_H0 X k i l) (cscale (h i l) (s_S X k i l))) (s_S X k) (fun i l => cadd (s_H0 Y j i l) (cscale (h' i l) (s_S Y j i l))) (s_S Y j) (wf k) (e k) (wf' j) (e' j)); try assumption.
  - intros i l Hi Hl. rewrite (PH k Hk i l Hi Hl), (PS k Hk i l Hi Hl), (Sym i l), !cscale_rc, cconj_add, cconj_mul, cconj_rc. reflexivity.
  - exact (PS k Hk).
  - intros i l Hi Hl. unfold mirm. rewrite mir_add, mir_scale, (HH i l Hi Hl), (HS i l Hi Hl), (Eh i l Hi Hl). reflexivity.
  - intros p q Hp Hq. apply O; assumption.
  - intros p q Hp Hq. apply O'; assumption.
Qed.
Lemma extremes_alike nk nk' n (e e' : nat -> nat -> R) : (forall x, In x (eflat nk n e) <-> In x (eflat nk' n e')) -> emin nk n e = emin nk' n e' /\ emax nk n e = emax nk' n e'.
Proof.
  intros H. unfold emin, emax. destruct (eflat nk n e) as [|x l], (eflat nk' n e') as [|y r].
  - split; reflexivity.
  - exfalso. exact (proj2 (H y) (or_introl eq_refl)).
  - exfalso. exact (proj1 (H x) (or_introl eq_refl)).
  - pose proof (fold_min_in l x) as A. pose proof (fold_min_in r y) as A'. pose proof (fold_max_in l x) as B. pose proof (fold_max_in r y) as B'.
    apply H in A. apply H in B. apply H in A'. apply H in B'.
    pose proof (fold_min l x) as [m1 m2]. pose proof (fold_min r y) as [m3 m4]. pose proof (fold_max l x) as [m5 m6]. pose proof (fold_max r y) as [m7 m8].
    assert (K1 : forall t, In t (x :: l) -> fold_left Rmin l x <= t) by (intros t [<-|T]; auto). assert (K2 : forall t, In t (y :: r) -> fold_left Rmin r y <= t) by (intros t [<-|T]; auto).
    assert (K3 : forall t, In t (x :: l) -> t <= fold_left Rmax l x) by (intros t [<-|T]; auto). assert (K4 : forall t, In t (y :: r) -> t <= fold_left Rmax r y) by (intros t [<-|T]; auto).
    split; f_equal; apply Rle_antisym; auto.
Qed.

Section Cover.
Context (c : nat -> nat) (b : nat -> bool) (X Y : system) (SF : stands_for c b X Y) (PX : proper X) (PY : proper Y) (WX : well_formed X).
Context (z z' : lapack) (w0 w0' : nat -> nat -> R) (evmin evmin' : (nat -> nat -> cplx) -> R).
Context (RX : reliable z w0 X) (RY : reliable z' w0' Y).
Context (MAXE : R) (brentq : (R -> R) -> R -> R -> R -> option R) (tol_norm tol_mull tol_im Hartree Bohr : R) (Ht : 0 <= tol_norm) (scc : bool).
Let n := s_norb X.
Let N := s_N X.
Let nk := s_nk X.
Lemma cover_sum F : rsum nk (fun k => s_wk X k * F (c k)) = rsum (s_nk Y) (fun j => s_wk Y j * F j).
Proof.
  rewrite (rsum_ext (s_nk Y) _ (fun j => rsum nk (fun k => (if (c k =? j)%nat then s_wk X k else 0) * F j))).
  - rewrite rsum_swap. apply rsum_ext. intros k Hk. rewrite (rsum_single (s_nk Y) (c k)).
    + rewrite Nat.eqb_refl. reflexivity.
    + apply (v_in _ _ _ _ SF). exact Hk.
    + intros j _ Hj. rewrite (proj2 (Nat.eqb_neq (c k) j)) by congruence. ring.
  - intros j Hj. rewrite (v_wk _ _ _ _ SF j Hj), rsum_scal_r. reflexivity.
Qed.
Lemma cover_sum' (G F : nat -> R) : (forall k, (k < nk)%nat -> G k = F (c k)) -> rsum nk (fun k => s_wk X k * G k) = rsum (s_nk Y) (fun j => s_wk Y j * F j).
Proof. intros H. rewrite <- cover_sum. apply rsum_ext. intros k Hk. rewrite (H k Hk). reflexivity. Qed.
Definition same_charges (u v : vec) : Prop := carried N (fun i => i) u v.
Lemma eps_same u v : same_charges u v -> same_charges (epsilon (s_N X) (s_G X) (s_phi X u) u) (epsilon (s_N Y) (s_G Y) (s_phi Y v) v).
Proof.
  intros C I HI. unfold epsilon. rewrite (v_G _ _ _ _ SF), (v_phi _ _ _ _ SF), (v_N _ _ _ _ SF). rewrite (f_phi _ WX u v C I HI). f_equal. apply rsum_ext. intros J HJ. rewrite (C J HJ). reflexivity.
Qed.
Lemma aux_same o1 no u v m mu : (forall i, (i < m)%nat -> v i = u i) -> aux_rows o1 no m v mu = aux_rows o1 no m u mu.
Proof. induction m as [|m IH]; intros H; [reflexivity|]. cbn [aux_rows]. rewrite IH by (intros; apply H; lia). rewrite (H m) by lia. reflexivity. Qed.
Lemma h1_same u v i j : same_charges u v -> h1_of Y v i j = h1_of X u i j.
Proof.
  intros C. unfold h1_of, construct_h1. rewrite (v_ext _ _ _ _ SF), (v_o1 _ _ _ _ SF), (v_no _ _ _ _ SF).
  pose proof (eps_same u v C) as E. rewrite (v_N _ _ _ _ SF) in *. rewrite !(aux_same _ _ (epsilon (s_N X) (s_G X) (s_phi X u) u) (epsilon (s_N X) (s_G Y) (s_phi Y v) v) (s_N X)) by exact E. reflexivity.
Qed.
Record agree (p p' : passed) : Prop := {
  g_h : forall i j, fst (fst p') i j = fst (fst p) i j;
  g_e : forall k a, (k < nk)%nat -> (a < n)%nat -> snd (fst p) k a = snd (fst p') (c k) a;
  g_rho : forall (phi : R -> R) k i l, (k < nk)%nat -> (i < n)%nat -> (l < n)%nat ->
    compute_rho n (snd p k) (fun a => phi (snd (fst p) k a)) i l = mirrored (b k) (compute_rho n (snd p' (c k)) (fun a => phi (snd (fst p') (c k) a)) i l) }.
Lemma pass_agree H1 H1' : (forall h, H1 = Some h -> forall i j, h i j = h j i) ->
  (forall i j, match H1' with Some h => h | None => fun _ _ => 0 end i j = match H1 with Some h => h | None => fun _ _ => 0 end i j) ->
  exists p p', pass z evmin w0 tol_norm X H1 = Some p /\ pass z' evmin' w0' tol_norm Y H1' = Some p' /\ agree p p'.
Proof.
  intros Sx M. set (h := match H1 with Some h => h | None => fun _ _ => 0 end) in *. set (h' := match H1' with Some h => h | None => fun _ _ => 0 end) in *.
  assert (Hs : forall i j : nat, h i j = h j i) by (intros i j; unfold h; destruct H1 as [g|]; [apply (Sx g eq_refl)|reflexivity]).
  assert (Sy : forall g, H1' = Some g -> forall i j, g i j = g j i). { intros g E i j. subst H1'. unfold h' in M. rewrite (M i j), (M j i). apply Hs. }
  destruct (solve_system X z w0 evmin tol_norm H1 Ht PX RX Sx) as (e & wf & E & O & W & So). destruct (solve_system Y z' w0' evmin' tol_norm H1' Ht PY RY Sy) as (e' & wf' & E' & O' & W' & So').
  fold h in W. fold h' in W'. unfold pass. rewrite E, E'. eexists _, _. split; [reflexivity|]. split; [reflexivity|].
  assert (K : forall k, (k < nk)%nat -> (forall a, (a < n)%nat -> e k a = e' (c k) a) /\
    forall (phi : R -> R) i l, (i < n)%nat -> (l < n)%nat -> compute_rho n (wf k) (fun a => phi (e k a)) i l = mirrored (b k) (compute_rho n (wf' (c k)) (fun a => phi (e' (c k) a)) i l)).
  { intros k Hk. pose proof (v_in _ _ _ _ SF k Hk) as Hj. pose proof (v_norb _ _ _ _ SF) as En. fold n in En. rewrite En in O', W', So'.
    apply (one_point X Y n (b k) k (c k) h e wf e' wf' eq_refl En PX Hk Hj (fun i l Hi Hl => v_H0 _ _ _ _ SF k i l Hk Hi Hl) (fun i l Hi Hl => v_S _ _ _ _ SF k i l Hk Hi Hl) Hs O O' (W k Hk) h' (fun i l _ _ => M i l) (W' (c k) Hj) (So k Hk) (So' (c k) Hj)). }
  constructor; cbn [fst snd].
  - exact M.
  - intros k a Hk Ha. exact (proj1 (K k Hk) a Ha).
  - intros phi k i l Hk Hi Hl. exact (proj2 (K k Hk) phi i l Hi Hl).
Qed.
Lemma eflat_agree p p' x : agree p p' -> In x (eflat nk n (snd (fst p))) <-> In x (eflat (s_nk Y) (s_norb Y) (snd (fst p'))).
Proof.
  intros A. rewrite (v_norb _ _ _ _ SF). fold n. unfold eflat. rewrite !in_flat_map. split.
  - intros (k & Hk & Hx). apply in_seq in Hk. apply in_map_iff in Hx. destruct Hx as (a & <- & Ha). apply in_seq in Ha.
    exists (c k). split; [apply in_seq; pose proof (v_in _ _ _ _ SF k ltac:(lia)); lia|]. apply in_map_iff. exists a. split; [symmetry; apply (g_e _ _ A); lia|apply in_seq; lia].
  - intros (j & Hj & Hx). apply in_seq in Hj. apply in_map_iff in Hx. destruct Hx as (a & <- & Ha). apply in_seq in Ha.
    destruct (v_onto _ _ _ _ SF j ltac:(lia)) as (k & Hk & <-). exists k. split; [apply in_seq; fold nk in Hk; lia|]. apply in_map_iff. exists a. split; [apply (g_e _ _ A); [exact Hk|lia]|apply in_seq; lia].
Qed.
Lemma root_agree p p' : agree p p' -> root_function MAXE (s_nk Y) (s_norb Y) (s_wk Y) (s_width Y) (s_nel Y) (snd (fst p')) = root_function MAXE (s_nk X) (s_norb X) (s_wk X) (s_width X) (s_nel X) (snd (fst p)).
Proof.
  intros A. apply functional_extensionality. intros mu. unfold root_function, electrons. rewrite (v_nel _ _ _ _ SF), (v_width _ _ _ _ SF), (v_norb _ _ _ _ SF). f_equal.
  rewrite (rsum_ext (s_nk X) _ (fun k => s_wk X k * rsum (s_norb X) (fun a => fermi MAXE (s_width X) (snd (fst p) k a) mu))) by (intros k _; rewrite rsum_scal; reflexivity).
  rewrite (cover_sum' _ (fun j => rsum (s_norb X) (fun a => fermi MAXE (s_width X) (snd (fst p') j a) mu))).
  - apply rsum_ext. intros j _. rewrite rsum_scal. reflexivity.
  - intros k Hk. apply rsum_ext. intros a Ha. rewrite (g_e _ _ A k a Hk Ha). reflexivity.
Qed.
Lemma occupations_agree p p' : agree p p' ->
  (occupations MAXE brentq X p = None /\ occupations MAXE brentq Y p' = None) \/
  exists phi, occupations MAXE brentq X p = Some (fun k a => phi (snd (fst p) k a)) /\ occupations MAXE brentq Y p' = Some (fun k a => phi (snd (fst p') k a)).
Proof.
  intros A. pose proof (root_agree _ _ A) as G.
  assert (F : emin (s_nk X) (s_norb X) (snd (fst p)) = emin (s_nk Y) (s_norb Y) (snd (fst p')) /\ emax (s_nk X) (s_norb X) (snd (fst p)) = emax (s_nk Y) (s_norb Y) (snd (fst p'))).
  { rewrite (v_norb _ _ _ _ SF). apply extremes_alike. intros x. pose proof (eflat_agree p p' x A) as Q. rewrite (v_norb _ _ _ _ SF) in Q. exact Q. }
  destruct F as [F1 F2]. destruct p as [[h e] wf], p' as [[h' e'] wf']. unfold occupations, occupy. cbn [fst snd] in *. rewrite G, <- F1, <- F2, (v_width _ _ _ _ SF).
  destruct (emin _ _ _); [|left; split; reflexivity]. destruct (emax _ _ _); [|left; split; reflexivity].
  destruct (brentq _ _ _ _) as [mu|]; [|left; split; reflexivity]. destruct (rlt tol _); [left; split; reflexivity|]. right. exists (fun x => fermi MAXE (s_width X) x mu). split; reflexivity.
Qed.
Lemma atr_agree k I A B A' B' : meq n A (mirm (b k) A') -> meq n B (mirm (b k) B') -> fst (atr X I A B) = fst (atr Y I A' B').
Proof.
  intros EA EB. unfold atr. rewrite (v_norb _ _ _ _ SF), (v_o1 _ _ _ _ SF), (v_no _ _ _ _ SF). rewrite !csum_fst. apply rsum_ext. intros i Hi. rewrite !fst_if. destruct (owns _ _ _ _); [|reflexivity].
  fold n in Hi |- *. rewrite (mmul_ext n A (mirm (b k) A') B (mirm (b k) B') EA EB i i Hi Hi), mirm_mmul. apply mir_fst.
Qed.
Lemma layout_Y : layout (s_norb Y) (s_N Y) (s_o1 Y) (s_no Y).
Proof. rewrite (v_norb _ _ _ _ SF), (v_N _ _ _ _ SF), (v_o1 _ _ _ _ SF), (v_no _ _ _ _ SF). apply (f_layout _ WX). Qed.
Lemma rho_meq p p' phi k : agree p p' -> (k < nk)%nat -> meq n (density X (snd p) (fun k a => phi (snd (fst p) k a)) k) (mirm (b k) (density Y (snd p') (fun k a => phi (snd (fst p') k a)) (c k))).
Proof. intros A Hk i l Hi Hl. unfold density, mirm. rewrite (v_norb _ _ _ _ SF). apply (g_rho _ _ A); assumption. Qed.
Lemma rhoe_meq p p' phi k : agree p p' -> (k < nk)%nat -> meq n (density_e X (snd p) (fun k a => phi (snd (fst p) k a)) (snd (fst p)) k) (mirm (b k) (density_e Y (snd p') (fun k a => phi (snd (fst p') k a)) (snd (fst p')) (c k))).
Proof. intros A Hk i l Hi Hl. unfold density_e, mirm, compute_rhoe. rewrite (v_norb _ _ _ _ SF). apply (g_rho _ _ A (fun x => x * phi x)); assumption. Qed.
Lemma dq_agree p p' phi : agree p p' ->
  same_charges (dq_of (s_norb X) (s_nk X) (s_o1 X) (s_no X) (s_val X) (s_wk X) (density X (snd p) (fun k a => phi (snd (fst p) k a))) (s_S X))
              (dq_of (s_norb Y) (s_nk Y) (s_o1 Y) (s_no Y) (s_val Y) (s_wk Y) (density Y (snd p') (fun k a => phi (snd (fst p') k a))) (s_S Y)).
Proof.
  intros A I HI. rewrite (dq_atr X) by (try exact HI; apply (f_layout _ WX)). rewrite (dq_atr Y) by (try apply layout_Y; rewrite (v_N _ _ _ _ SF); exact HI).
  rewrite (v_val _ _ _ _ SF). f_equal. symmetry. apply (cover_sum' _ (fun j => fst (atr Y I (density Y (snd p') (fun k a => phi (snd (fst p') k a)) j) (s_S Y j)))).
  intros k Hk. apply (atr_agree k); [apply rho_meq; assumption|]. intros i l Hi Hl. apply (v_S _ _ _ _ SF); assumption.
Qed.
Lemma charges_agree p p' : agree p p' ->
  (charges MAXE brentq tol_mull X p = None /\ charges MAXE brentq tol_mull Y p' = None) \/
  exists u v, charges MAXE brentq tol_mull X p = Some u /\ charges MAXE brentq tol_mull Y p' = Some v /\ same_charges u v.
Proof.
  intros A. unfold charges. destruct (occupations_agree p p' A) as [[-> ->]|(phi & -> & ->)]; [left; split; reflexivity|].
  pose proof (dq_agree p p' phi A) as C. unfold mulliken. set (u := dq_of (s_norb X) _ _ _ _ _ _ _) in *. set (v := dq_of (s_norb Y) _ _ _ _ _ _ _) in *.
  assert (E : rsum (s_N Y) (fun I => - v I) = rsum (s_N X) (fun I => - u I)).
  { rewrite (v_N _ _ _ _ SF). apply rsum_ext. intros I HI. rewrite (C I HI). reflexivity. }
  cbv zeta. rewrite E, (v_charge _ _ _ _ SF). destruct (ltb _ _); [left; split; reflexivity|right; exists u, v; split; [reflexivity|]; split; [reflexivity|exact C]].
Qed.
(** ** energies and forces *)
Lemma sane_same u v : same_charges u v -> sane (s_N Y) v (s_Z Y) = sane (s_N X) u (s_Z X).
Proof.
  intros C. unfold sane. rewrite (v_N _ _ _ _ SF), (v_Z _ _ _ _ SF). apply eq_true_iff_eq. rewrite !forallb_forall.
  split; intros H I HI; pose proof HI as HI'; apply in_seq in HI'; specialize (H I HI); rewrite (C I) in * by (fold N in HI'; lia); exact H.
Qed.
Lemma ebs_real (Z : system) (wf : nat -> nat -> nat -> cplx) f : proper Z ->
  snd (ebs_c (s_norb Z) (s_nk Z) (s_wk Z) (density Z wf f) (s_H0 Z)) = 0.
Proof.
  intros [PH _]. unfold ebs_c, csum at 1. cbn [snd]. apply rsum_eq0. intros k Hk. unfold cscale. cbn [snd]. rewrite trace_real; [ring|apply rho_hermitian|exact (PH k Hk)].
Qed.
Lemma ebs_agree p p' phi : agree p p' ->
  band_structure_energy (s_norb Y) (s_nk Y) (s_wk Y) tol_im (density Y (snd p') (fun k a => phi (snd (fst p') k a))) (s_H0 Y) =
  band_structure_energy (s_norb X) (s_nk X) (s_wk X) tol_im (density X (snd p) (fun k a => phi (snd (fst p) k a))) (s_H0 X).
Proof.
  intros A. unfold band_structure_energy. rewrite (ebs_real X _ _ PX), (ebs_real Y _ _ PY).
  assert (E : fst (ebs_c (s_norb Y) (s_nk Y) (s_wk Y) (density Y (snd p') (fun k a => phi (snd (fst p') k a))) (s_H0 Y)) = fst (ebs_c (s_norb X) (s_nk X) (s_wk X) (density X (snd p) (fun k a => phi (snd (fst p) k a))) (s_H0 X))); [|rewrite E; reflexivity].
  unfold ebs_c. rewrite (csum_fst (s_nk Y)), (csum_fst (s_nk X)). unfold cscale. cbn [fst]. symmetry.
  apply (cover_sum' _ (fun j => fst (csum (s_norb Y) (fun i => mmul (s_norb Y) (density Y (snd p') (fun k a => phi (snd (fst p') k a)) j) (s_H0 Y j) i i)))).
  intros k Hk. rewrite (v_norb _ _ _ _ SF). fold n. rewrite !csum_fst. apply rsum_ext. intros i Hi.
  change (csum n (fun j => cmul (density X (snd p) (fun k0 a => phi (snd (fst p) k0 a)) k i j) (s_H0 X k j i))) with (mmul n (density X (snd p) (fun k0 a => phi (snd (fst p) k0 a)) k) (s_H0 X k) i i).
  rewrite (mmul_ext n _ _ _ _ (rho_meq p p' phi k A Hk) (fun a l Ha Hl => v_H0 _ _ _ _ SF k a l Hk Ha Hl : s_H0 X k a l = mirm (b k) (s_H0 Y (c k)) a l) i i Hi Hi), mirm_mmul. apply mir_fst.
Qed.
Lemma coulomb_same u v : same_charges u v ->
  coulomb_energy (s_N Y) scc v (epsilon (s_N Y) (s_G Y) (s_phi Y v) v) = coulomb_energy (s_N X) scc u (epsilon (s_N X) (s_G X) (s_phi X u) u).
Proof.
  intros C. unfold coulomb_energy. destruct scc; [|reflexivity]. f_equal. pose proof (eps_same u v C) as E. rewrite (v_N _ _ _ _ SF) in *. apply rsum_ext. intros I HI. rewrite (C I HI), (E I HI). reflexivity.
Qed.
Lemma gamma_same u v d I : same_charges u v -> (I < N)%nat -> gamma_force (s_N Y) scc v (s_dG Y d) (s_field Y v d) I = gamma_force (s_N X) scc u (s_dG X d) (s_field X u d) I.
Proof.
  intros C HI. unfold gamma_force. destruct scc; [|reflexivity]. rewrite (v_N _ _ _ _ SF), (v_dG _ _ _ _ SF), (v_field _ _ _ _ SF), (f_field _ WX u v d I C HI), (C I HI). f_equal. f_equal. apply rsum_ext. intros J HJ. rewrite (C J HJ). reflexivity.
Qed.
Lemma dH_meq h h' d k : (forall i j : nat, h' i j = h i j) -> (k < nk)%nat -> meq n (dH_scc scc h (s_dH0 X d) (s_dS X d) k) (mirm (b k) (dH_scc scc h' (s_dH0 Y d) (s_dS Y d) (c k))).
Proof.
  intros M Hk i l Hi Hl. unfold dH_scc, mirm. destruct scc; [|apply (v_dH0 _ _ _ _ SF); assumption].
  rewrite mir_add, mir_scale, <- (v_dH0 _ _ _ _ SF), <- (v_dS _ _ _ _ SF), M by assumption. reflexivity.
Qed.
Lemma force_agree p p' phi d I : agree p p' -> (I < N)%nat ->
  band_structure_force (s_norb Y) (s_nk Y) (s_o1 Y) (s_no Y) (s_wk Y) (dH_scc scc (fst (fst p')) (s_dH0 Y d) (s_dS Y d)) (s_dS Y d) (density Y (snd p') (fun k a => phi (snd (fst p') k a))) (density_e Y (snd p') (fun k a => phi (snd (fst p') k a)) (snd (fst p'))) I =
  band_structure_force (s_norb X) (s_nk X) (s_o1 X) (s_no X) (s_wk X) (dH_scc scc (fst (fst p)) (s_dH0 X d) (s_dS X d)) (s_dS X d) (density X (snd p) (fun k a => phi (snd (fst p) k a))) (density_e X (snd p) (fun k a => phi (snd (fst p) k a)) (snd (fst p))) I.
Proof.
  intros A HI. rewrite (force_atr Y) by (try apply layout_Y; rewrite (v_N _ _ _ _ SF); exact HI). rewrite (force_atr X) by (try apply (f_layout _ WX); exact HI). f_equal.
  set (FY := fun j => - (fst (atr Y I (dH_scc scc (fst (fst p')) (s_dH0 Y d) (s_dS Y d) j) (density Y (snd p') (fun k a => phi (snd (fst p') k a)) j)) - fst (atr Y I (s_dS Y d j) (density_e Y (snd p') (fun k a => phi (snd (fst p') k a)) (snd (fst p')) j)))).
  rewrite (rsum_ext (s_nk Y) _ (fun j => s_wk Y j * FY j)) by (intros j _; unfold FY; ring).
  rewrite <- (cover_sum' (fun k => - (fst (atr X I (dH_scc scc (fst (fst p)) (s_dH0 X d) (s_dS X d) k) (density X (snd p) (fun k a => phi (snd (fst p) k a)) k)) - fst (atr X I (s_dS X d k) (density_e X (snd p) (fun k a => phi (snd (fst p) k a)) (snd (fst p)) k)))) FY).
  - apply rsum_ext. intros k _. ring.
  - intros k Hk. unfold FY. rewrite (atr_agree k I _ _ _ _ (dH_meq _ _ d k (g_h _ _ A) Hk) (rho_meq p p' phi k A Hk)).
    rewrite (atr_agree k I (s_dS X d k) _ (s_dS Y d (c k)) _ (fun i l Hi Hl => v_dS _ _ _ _ SF d k i l Hk Hi Hl) (rhoe_meq p p' phi k A Hk)). reflexivity.
Qed.
Lemma finish_agree p p' : agree p p' ->
  match finish MAXE brentq tol_mull tol_im Hartree Bohr scc X p, finish MAXE brentq tol_mull tol_im Hartree Bohr scc Y p' with
  | Some x, Some y => same_observables c b X x y
  | None, None => True
  | _, _ => False
  end.
Proof.
  intros A. pose proof (charges_agree p p' A) as CH. pose proof (occupations_agree p p' A) as OC.
  pose proof (fun phi => ebs_agree p p' phi A) as EB. pose proof (fun phi k => rho_meq p p' phi k A) as R1. pose proof (fun phi k => rhoe_meq p p' phi k A) as R2.
  pose proof (fun phi d I => force_agree p p' phi d I A) as FO. pose proof (g_e _ _ A) as LE.
  destruct p as [[h e] wf], p' as [[h' e'] wf']. unfold finish. cbn [fst snd] in *.
  destruct OC as [[-> ->]|(phi & -> & ->)]; [exact I|]. destruct CH as [[-> ->]|(u & v & -> & -> & C)]; [exact I|].
  rewrite (sane_same u v C). destruct (negb _); [exact I|]. cbv zeta.
  rewrite (EB phi), (v_erep _ _ _ _ SF). destruct (band_structure_energy _ _ _ _ _ _) as [ebs|]; [|exact I]. destruct (s_erep X) as [erep|]; [|exact I].
  rewrite (coulomb_same u v C), (v_epp _ _ _ _ SF), (v_efree _ _ _ _ SF).
  split; cbn [r_e r_f r_dq r_rho r_rhoe r_ebs r_ecoul r_epot r_force]; try reflexivity; try assumption.
  - intros k a Hk Ha. rewrite (LE k a Hk Ha). reflexivity.
  - intros k i l Hk Hi Hl. apply (R1 phi k Hk i l Hi Hl).
  - intros k i l Hk Hi Hl. apply (R2 phi k Hk i l Hi Hl).
  - intros d I HI. rewrite (FO phi d I HI), (gamma_same u v d I C HI), (v_frep _ _ _ _ SF), (v_fpp _ _ _ _ SF). reflexivity.
Qed.
Definition outcome_agree (o o' : outcome passed * nat) : Prop :=
  snd o = snd o' /\
  match fst o, fst o' with
  | Returned p i, Returned p' i' => agree p p' /\ i = i'
  | OutOfIterations, OutOfIterations => True | Raised, Raised => True | NeverSolved, NeverSolved => True
  | _, _ => False
  end.
Context (m : mixer) (rel : mst m -> mst m -> Prop) (SIM : simulates N (fun i => i) m rel).
Lemma pass_h1_agree u v : same_charges u v -> exists p p', pass z evmin w0 tol_norm X (Some (h1_of X u)) = Some p /\ pass z' evmin' w0' tol_norm Y (Some (h1_of Y v)) = Some p' /\ agree p p'.
Proof.
  intros C. apply pass_agree.
  - intros h E. replace h with (h1_of X u) by congruence. apply h1_sym.
  - intros i j. apply h1_same. exact C.
Qed.
Lemma loop_agree todo : forall i ms ms' u v, rel ms ms' -> same_charges u v ->
  outcome_agree (scc_loop (fun dq => pass z evmin w0 tol_norm X (Some (h1_of X dq))) (charges MAXE brentq tol_mull X) m todo i ms u)
                (scc_loop (fun dq => pass z' evmin' w0' tol_norm Y (Some (h1_of Y dq))) (charges MAXE brentq tol_mull Y) m todo i ms' v).
Proof.
  induction todo as [|todo IH]; intros i ms ms' u v R C; [split; [reflexivity|exact I]|]. cbn [scc_loop].
  destruct (pass_h1_agree u v C) as (p & p' & -> & -> & A). destruct (charges_agree p p' A) as [[-> ->]|(o & o' & -> & -> & Co)]; [split; [reflexivity|exact I]|].
  destruct (sim_call _ _ _ _ SIM ms ms' u v o o' R C Co) as (R' & D' & C').
  destruct (m_call m ms u o) as [ms1 [d1 q1]], (m_call m ms' v o') as [ms2 [d2 q2]]. cbn [fst snd] in *. rewrite <- D'. destruct d1; [split; [reflexivity|split; [exact A|reflexivity]]|].
  destruct todo as [|todo]; [split; [reflexivity|exact I]|]. specialize (IH (S i) ms1 ms2 q1 q2 R' C').
  destruct (scc_loop _ _ m (S todo) (S i) ms1 q1) as [r1 k1], (scc_loop _ _ m (S todo) (S i) ms2 q2) as [r2 k2]. destruct IH as [K1 K2]. cbn [fst snd] in *. split; [cbn [snd]; rewrite K1; reflexivity|exact K2].
Qed.
Lemma calculate_agree maxiter ms ms' u v : rel ms ms' -> same_charges u v ->
  same_observation c b X (calculate z evmin w0 MAXE brentq m tol_norm tol_mull tol_im Hartree Bohr scc maxiter X ms u)
                      (calculate z' evmin' w0' MAXE brentq m tol_norm tol_mull tol_im Hartree Bohr scc maxiter Y ms' v).
Proof.
  intros R C. unfold calculate.
  assert (O : outcome_agree (get_states (fun dq => pass z evmin w0 tol_norm X (Some (h1_of X dq))) (pass z evmin w0 tol_norm X None) (charges MAXE brentq tol_mull X) m scc maxiter ms u)
     (get_states (fun dq => pass z' evmin' w0' tol_norm Y (Some (h1_of Y dq))) (pass z' evmin' w0' tol_norm Y None) (charges MAXE brentq tol_mull Y) m scc maxiter ms' v)).
  { unfold get_states. pose proof (sim_reset _ _ _ _ SIM ms ms' R) as R'. destruct scc; [apply loop_agree; assumption|].
    destruct maxiter as [|maxiter]; [split; [reflexivity|exact I]|].
    destruct (pass_agree None None) as (p & p' & -> & -> & A); [intros h E; discriminate|reflexivity|].
    destruct (charges_agree p p' A) as [[-> ->]|(o & o' & -> & -> & Co)]; [split; [reflexivity|exact I]|]. split; [reflexivity|split; [exact A|reflexivity]]. }
  destruct (get_states _ (pass z evmin w0 tol_norm X None) _ m scc maxiter ms u) as [o k], (get_states _ (pass z' evmin' w0' tol_norm Y None) _ m scc maxiter ms' v) as [o' k'].
  destruct O as [Ok O]. cbn [fst snd] in *. subst k'. destruct o as [p i| | |], o' as [p' i'| | |]; try contradiction; try exact I; [|reflexivity].
  destruct O as [A <-]. pose proof (finish_agree p p' A) as F. destruct (finish _ _ _ _ _ _ _ X p) as [x|], (finish _ _ _ _ _ _ _ Y p') as [y|]; try contradiction; [split; [exact F|split; reflexivity]|exact I].
Qed.
End Cover.
Lemma reduction_exact c b X Y z z' w0 w0' evmin evmin' MAXE brentq m tol_norm tol_mull tol_im Hartree Bohr scc maxiter ms u v :
  stands_for c b X Y -> well_formed X -> proper X -> proper Y -> reliable z w0 X -> reliable z' w0' Y -> 0 <= tol_norm -> fresh (s_N X) m ms -> (forall I, (I < s_N X)%nat -> v I = u I) ->
  same_observation c b X (calculate z evmin w0 MAXE brentq m tol_norm tol_mull tol_im Hartree Bohr scc maxiter X ms u)
                      (calculate z' evmin' w0' MAXE brentq m tol_norm tol_mull tol_im Hartree Bohr scc maxiter Y ms v).
Proof.
  intros SF W PX PY RX RY Ht F C. assert (P : permutes (s_N X) (fun i => i)) by (split; auto). destruct (fresh_simulates (s_N X) (fun i => i) m ms P F) as (rel & SIM & R).
  exact (calculate_agree c b X Y SF PX PY W z z' w0 w0' evmin evmin' RX RY MAXE brentq tol_norm tol_mull tol_im Hartree Bohr Ht scc m rel SIM maxiter ms ms u v R C).
Qed.
