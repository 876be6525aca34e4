(** Forces are the derivatives of the free energy, continued. *)
From Coq Require Import Reals ZArith List Bool Arith Lia Lra FunctionalExtensionality.
From Verif Require Import SkModel InvModel InvSpec InvLin InvProofs InvProofs2 InvProofs3 InvProofs4 InvProofs8 InvProofs9 InvProofs10 InvProofs11 InvProofs13 Vec GeomModel GeomProofs PairModel PairSpec PairProofs CoulModel CoulProofs SkSpec SkProofs6 SkProofs7 Cpx OccModel RhoModel RhoSpec RhoProofs RhoProofs3 RhoProofs6 EigModel EigSpec EigProofs2 GamModel GamSpec FrcSpec FrcProofs FrcProofs2 FrcProofs5 FrcProofs6 FrcProofs7 FrcProofs8.
Import ListNotations.
Open Scope R_scope.

Section Main.
Context (z : InvSpec.lapack) (evmin : (nat -> nat -> cplx) -> R) (w0 : nat -> nat -> R) (MAXE : R) (brentq : (R -> R) -> R -> R -> R -> option R) (tol_norm tol_mull tol_im Hartree Bohr : R).
Context (erfc : R -> R) (gaussian : bool) (gamma_cut : option R) (goal width sepsilon : R) (scc : bool) (D : database) (g : structure) (I c : nat).
Context (eps : R) (X : R -> system) (dq : R -> vec) (W : R -> nat -> nat -> nat -> cplx) (res : R -> result) (inv : nat -> nat).
Context (SP : smooth_path z evmin w0 MAXE brentq tol_norm tol_mull tol_im Hartree Bohr erfc gaussian gamma_cut goal width sepsilon scc D g I c eps X dq W res).
Context (Ht : 0 <= tol_norm) (HB : 0 < Bohr) (Hw : 0 < width) (Sg : sound D g inv) (OT : one_table D) (SM : smooth Bohr D g) (HI : (I < g_N g)%nat) (Hc : (c < 3)%nat).
Notation gs s := (displaced g I c s).
Notation norb := (first_orbital (g_no D g) (g_N g)).
Notation o1 := (first_orbital (g_no D g)).
Notation no := (g_no D g).
Let h1 s := if scc then h1_of (X s) (dq s) else fun _ _ => 0.
Lemma F_at s : Rabs s < eps -> fields erfc Bohr Hartree gaussian gamma_cut goal width sepsilon scc D (gs s) (X s).
Proof. intros Hs. apply assembled_fields. exact (y_system _ _ _ _ _ _ _ _ _ _ _ _ _ _ _ _ _ _ _ _ _ _ _ _ _ _ SP s Hs). Qed.
Lemma WF_at s : Rabs s < eps -> well_formed (X s).
Proof. intros Hs. eapply assembled_well. exact (y_system _ _ _ _ _ _ _ _ _ _ _ _ _ _ _ _ _ _ _ _ _ _ _ _ _ _ SP s Hs). Qed.
Lemma P_at s : Rabs s < eps -> proper (X s).
Proof. intros Hs. eapply assembled_proper; [exact (sound_displaced D g inv I c s Sg)|]. exact (y_system _ _ _ _ _ _ _ _ _ _ _ _ _ _ _ _ _ _ _ _ _ _ _ _ _ _ SP s Hs). Qed.
Lemma h1_symmetric s i j : h1 s i j = h1 s j i.
Proof. unfold h1. destruct scc; [apply InvProofs3.h1_sym|reflexivity]. Qed.
(** the result in terms of the states W *)
Lemma at_states s : Rabs s < eps -> exists r mu, finish MAXE brentq tol_mull tol_im Hartree Bohr scc (X s) (h1 s, r_e (res s), W s) = Some r /\ r_f r = r_f (res s) /\ r_epot r = r_epot (res s) /\
  (forall k a, r_f (res s) k a = fermi MAXE width (r_e (res s) k a) mu) /\
  (forall J, (J < g_N g)%nat -> r_dq r J = r_dq (res s) J) /\ forall d J, (d < 3)%nat -> (J < g_N g)%nat -> r_force r d J = r_force (res s) d J.
Proof.
  intros Hs. pose proof (F_at s Hs) as F. destruct (y_solved _ _ _ _ _ _ _ _ _ _ _ _ _ _ _ _ _ _ _ _ _ _ _ _ _ _ SP s Hs) as (p & Ep & Ef). destruct (y_states _ _ _ _ _ _ _ _ _ _ _ _ _ _ _ _ _ _ _ _ _ _ _ _ _ _ SP s Hs) as [OW EW].
  destruct (y_lapack _ _ _ _ _ _ _ _ _ _ _ _ _ _ _ _ _ _ _ _ _ _ _ _ _ _ SP s Hs) as [C Rl]. destruct (P_at s Hs) as [A B]. pose proof Ep as Ep'. unfold pass in Ep.
  set (H1 := if scc then Some (h1_of (X s) (dq s)) else None) in *.
  assert (EH : match H1 with Some h => h | None => fun _ _ => 0 end = h1 s) by (unfold H1, h1; destruct scc; reflexivity).
  destruct (all_k_spec z (s_norb (X s)) (s_nk (X s)) tol_norm evmin w0 (s_H0 (X s)) (s_S (X s)) H1 C A B Ht) as (e & wf & E & O & Wv & _).
  - intros h Eh i j _ _. unfold H1 in Eh. destruct scc; [|discriminate]. replace h with (h1_of (X s) (dq s)) by congruence. apply InvProofs3.h1_sym.
  - intros k Hk. apply Rl; [exact Hk|]. unfold hamiltonian. destruct H1 as [h|] eqn:EH1; [|apply A; exact Hk].
    intros i j Hi Hj. rewrite (A k Hk i j Hi Hj), (B k Hk i j Hi Hj). rewrite EH, (h1_symmetric s i j), cconj_add, !cscale_rc, cconj_mul, cconj_rc. reflexivity.
  - rewrite E in Ep. rewrite EH in Ep, Wv. assert (Eq : p = (h1 s, e, wf)) by congruence. subst p. pose proof (finish_e _ _ _ _ _ _ _ _ _ _ _ _ Ef) as Ee.
    destruct (finish_states MAXE brentq tol_mull tol_im Hartree Bohr scc (X s) (WF_at s Hs) (P_at s Hs) (h1 s) e wf (W s) (res s) Ef (h1_symmetric s) O OW Wv) as (r & Er & Q1 & Q2 & Q3 & Q4).
    { intros k a Hk Ha. rewrite <- Ee. apply EW; assumption. }
    destruct (finish_inv _ _ _ _ _ _ _ _ _ _ _ _ Ef) as (mu & erep & _ & Qf & _). exists r, mu. rewrite Ee. split; [exact Er|]. split; [exact Q1|]. split; [exact Q2|]. pose proof (m_N _ _ _ _ _ _ _ _ _ _ _ _ F) as EN. change (g_N (gs s)) with (g_N g) in EN. rewrite EN in Q3, Q4. rewrite (m_width _ _ _ _ _ _ _ _ _ _ _ _ F) in Qf.
    split; [exact Qf|]. split; assumption.
Qed.

Let N := g_N g.
Let nk := g_nk g.
Let wk := g_wk g.
Let val := fun J => d_val D (g_kind g J).
Let Hs s := fun k => flat D (gs s) (g_matrix Bohr D (gs s) (fun J => d_onsite D (g_kind g J)) (d_H D) k).
Let Ss s := fun k => flat D (gs s) (g_matrix Bohr D (gs s) (fun _ _ => 1 + sepsilon) (d_S D) k).
Let dHs := fun k => flat D g (g_dmatrix Bohr D g (d_H D) (d_dH D) c k).
Let dSs := fun k => flat D g (g_dmatrix Bohr D g (d_S D) (d_dS D) c k).
Let fs s := r_f (res s).
Let dqs s := dq_states norb nk o1 no val wk (W s) (fs s) (Ss s).
Let Erep s := total_energy N (g_nimg g) (g_Rn Bohr (gs s)) (pairwise g (d_vrep D)) (d_rmax D).
Let Epp s := total_energy N (g_nimg g) (g_Rn Bohr (gs s)) (g_pp g) (g_rc g).
Let Efree := rsum N (fun J => d_efree D (g_kind g J)).
Let Frep := comp c (force N (g_nimg g) (g_Rn Bohr g) (pairwise g (d_dvrep D)) (d_rmax D) I).
Let Fpp := comp c (force N (g_nimg g) (g_Rn Bohr g) (g_dpp g) (g_rc g) I).
Lemma rank0 : Rabs 0 < eps.
Proof. rewrite Rabs_R0. exact (y_eps _ _ _ _ _ _ _ _ _ _ _ _ _ _ _ _ _ _ _ _ _ _ _ _ _ _ SP). Qed.
Lemma sizes s : Rabs s < eps -> s_norb (X s) = norb /\ s_N (X s) = N /\ s_nk (X s) = nk /\ s_o1 (X s) = o1 /\ s_no (X s) = no /\ s_val (X s) = val /\ s_wk (X s) = wk /\ s_H0 (X s) = Hs s /\ s_S (X s) = Ss s /\ s_efree (X s) = Efree.
Proof.
  intros H. pose proof (F_at s H) as F. repeat split.
  - exact (m_norb _ _ _ _ _ _ _ _ _ _ _ _ F).
  - exact (m_N _ _ _ _ _ _ _ _ _ _ _ _ F).
  - exact (m_nk _ _ _ _ _ _ _ _ _ _ _ _ F).
  - exact (m_o1 _ _ _ _ _ _ _ _ _ _ _ _ F).
  - exact (m_no _ _ _ _ _ _ _ _ _ _ _ _ F).
  - exact (m_val _ _ _ _ _ _ _ _ _ _ _ _ F).
  - exact (m_wk _ _ _ _ _ _ _ _ _ _ _ _ F).
  - exact (m_H0 _ _ _ _ _ _ _ _ _ _ _ _ F).
  - exact (m_S _ _ _ _ _ _ _ _ _ _ _ _ F).
  - exact (m_efree _ _ _ _ _ _ _ _ _ _ _ _ F).
Qed.
Lemma energy_at s : Rabs s < eps -> r_epot (res s) =
  (fst (ebs_c norb nk wk (krho norb (W s) (fs s)) (Hs s)) + coulomb_energy N scc (dqs s) (epsilon N (s_G (X s)) (s_phi (X s) (dqs s)) (dqs s))) * Hartree + Erep s * Hartree + Epp s * Hartree - Efree * Hartree.
Proof.
  intros H. destruct (at_states s H) as (r & mu & Er & Ef & Ee & _). pose proof (F_at s H) as F. destruct (sizes s H) as (A1 & A2 & A3 & A4 & A5 & A6 & A7 & A8 & A9 & A10).
  destruct (finish_inv _ _ _ _ _ _ _ _ _ _ _ _ Er) as (mu' & erep & Q1 & _ & Q3 & Q4 & _). rewrite <- Ee, Q4, Q3, Ef, A1, A2, A3, A4, A5, A6, A7, A8, A9, A10.
  rewrite (m_erep _ _ _ _ _ _ _ _ _ _ _ _ F erep Q1), (m_epp _ _ _ _ _ _ _ _ _ _ _ _ F). unfold dqs, dq_states, fs. change (g_N (gs s)) with N. change (g_nimg (gs s)) with (g_nimg g). change (g_pp (gs s)) with (g_pp g). change (g_rc (gs s)) with (g_rc g).
  change (pairwise (gs s) (d_vrep D)) with (pairwise g (d_vrep D)). unfold Erep, Epp. ring.
Qed.
Lemma force_at : r_force (res 0) c I =
  (band_structure_force norb nk o1 no wk (dH_scc scc (h1 0) dHs dSs) dSs (krho norb (W 0) (fs 0)) (krhoe norb (W 0) (fs 0) (r_e (res 0))) I
   + Frep + gamma_force N scc (dqs 0) (s_dG (X 0) c) (s_field (X 0) (dqs 0) c) I + Fpp) * (Hartree / Bohr).
Proof.
  pose proof rank0 as H. destruct (at_states 0 H) as (r & mu & Er & Ef & _ & _ & _ & Q). pose proof (F_at 0 H) as F. destruct (sizes 0 H) as (A1 & A2 & A3 & A4 & A5 & A6 & A7 & A8 & A9 & A10).
  destruct (finish_inv _ _ _ _ _ _ _ _ _ _ _ _ Er) as (mu' & erep & _ & _ & Q3 & _ & Q5). rewrite <- (Q c I Hc HI), Q5, Q3, Ef, A1, A2, A3, A4, A5, A6, A7, A9.
  rewrite (m_dH0 _ _ _ _ _ _ _ _ _ _ _ _ F), (m_dS _ _ _ _ _ _ _ _ _ _ _ _ F), (m_frep _ _ _ _ _ _ _ _ _ _ _ _ F), (m_fpp _ _ _ _ _ _ _ _ _ _ _ _ F), (displaced_0 g I c). reflexivity.
Qed.
(** ** derivatives *)
Let y := clip eps Bohr.
Let y_in t : Rabs (y t) < eps := clip_small eps Bohr (y_eps _ _ _ _ _ _ _ _ _ _ _ _ _ _ _ _ _ _ _ _ _ _ _ _ _ _ SP) t.
Lemma HC0 : too_close N (g_nimg g) (g_Rn Bohr g) = false.
Proof. pose proof (m_close _ _ _ _ _ _ _ _ _ _ _ _ (F_at 0 rank0)) as H. rewrite displaced_0 in H. exact H. Qed.
Lemma DH k : (k < nk)%nat -> matrix_derivative norb (fun t => Hs (y t) k) 0 (moved_matrix o1 no I (dHs k)).
Proof.
  intros Hk. assert (M := matrix_D D g inv Bohr I c HB Sg HC0 OT HI Hc SM (d_H D) (d_dH D) (fun J => d_onsite D (g_kind g J)) k Hk
    (fun i j n Hi Hj Hn Ne Hr q Hq => proj1 (proj2 (proj2 (v_tables _ _ _ SM i j n Hi Hj Hn Ne)) Hr q Hq)) (o_H _ OT) (o_dH _ OT)).
  intros i j Hi Hj. destruct (M i j Hi Hj) as [M1 M2]. pose proof (y_eps _ _ _ _ _ _ _ _ _ _ _ _ _ _ _ _ _ _ _ _ _ _ _ _ _ _ SP) as He. split.
  - exact (D_clip eps Bohr He HB (fun s => fst (Hs s k i j)) _ M1).
  - exact (D_clip eps Bohr He HB (fun s => snd (Hs s k i j)) _ M2).
Qed.
Lemma DS k : (k < nk)%nat -> matrix_derivative norb (fun t => Ss (y t) k) 0 (moved_matrix o1 no I (dSs k)).
Proof.
  intros Hk. assert (M := matrix_D D g inv Bohr I c HB Sg HC0 OT HI Hc SM (d_S D) (d_dS D) (fun _ _ => 1 + sepsilon) k Hk
    (fun i j n Hi Hj Hn Ne Hr q Hq => proj2 (proj2 (proj2 (v_tables _ _ _ SM i j n Hi Hj Hn Ne)) Hr q Hq)) (o_S _ OT) (o_dS _ OT)).
  intros i j Hi Hj. destruct (M i j Hi Hj) as [M1 M2]. pose proof (y_eps _ _ _ _ _ _ _ _ _ _ _ _ _ _ _ _ _ _ _ _ _ _ _ _ _ _ SP) as He. split.
  - exact (D_clip eps Bohr He HB (fun s => fst (Ss s k i j)) _ M1).
  - exact (D_clip eps Bohr He HB (fun s => snd (Ss s k i j)) _ M2).
Qed.
Lemma D_pairs : derivable_pt_lim (fun t => Erep (y t) + Epp (y t)) 0 (- Frep + - Fpp).
Proof.
  pose proof (y_eps _ _ _ _ _ _ _ _ _ _ _ _ _ _ _ _ _ _ _ _ _ _ _ _ _ _ SP) as He.
  apply (derivable_pt_lim_plus (fun t => Erep (y t)) (fun t => Epp (y t))).
  - apply (D_clip eps Bohr He HB Erep). apply (pairs_D D g inv Bohr I c HB Sg HC0 HI Hc (pairwise g (d_vrep D)) (pairwise g (d_dvrep D)) (d_rmax D)).
    + intros i j d _ _. apply (o_dvrep _ OT).
    + intros i j n Hi Hj Hn Ne. exact (v_rep _ _ _ SM i j n Hi Hj Hn Ne).
  - apply (D_clip eps Bohr He HB Epp). apply (pairs_D D g inv Bohr I c HB Sg HC0 HI Hc (g_pp g) (g_dpp g) (g_rc g)).
    + apply (u_dpp _ _ _ Sg).
    + intros i j n Hi Hj Hn Ne. exact (v_pp _ _ _ SM i j n Hi Hj Hn Ne).
Qed.
Lemma finite_choice {A} n (d : A) (P : nat -> A -> Prop) : (forall i, (i < n)%nat -> exists x, P i x) -> exists f, forall i, (i < n)%nat -> P i (f i).
Proof.
  intros H. induction n as [|n IH]; [exists (fun _ => d); intros; lia|]. destruct IH as [f Hf]; [intros; apply H; lia|]. destruct (H n) as [x Hx]; [lia|].
  exists (fun i => if (i =? n)%nat then x else f i). intros i Hi. destruct (Nat.eqb_spec i n) as [->|Ne]; [exact Hx|apply Hf; lia].
Qed.
Lemma Dy (h : R -> R) d : derivable_pt_lim h 0 d -> derivable_pt_lim (fun t => h (y t)) 0 (d * Bohr).
Proof.
  intros H. apply (D_clip eps Bohr (y_eps _ _ _ _ _ _ _ _ _ _ _ _ _ _ _ _ _ _ _ _ _ _ _ _ _ _ SP) HB). apply D_scaled. exact H.
Qed.
Lemma states_D : exists W' f', (forall k a, (k < nk)%nat -> (a < norb)%nat -> vector_derivative norb (fun t => W (y t) k a) 0 (W' k a)) /\
  forall k a, (k < nk)%nat -> (a < norb)%nat -> derivable_pt_lim (fun t => fs (y t) k a) 0 (f' k a).
Proof.
  destruct (sizes 0 rank0) as (A1 & _ & A3 & _).
  assert (E1 : exists W' : nat -> nat -> nat -> cplx, forall k, (k < nk)%nat -> forall a, (a < norb)%nat -> forall i, (i < norb)%nat -> cderivative (fun t => W (y t) k a i) 0 (W' k a i)).
  { apply (finite_choice nk (fun _ _ => c0) (fun k (w : nat -> nat -> cplx) => forall a, (a < norb)%nat -> forall i, (i < norb)%nat -> cderivative (fun t => W (y t) k a i) 0 (w a i))). intros k Hk.
    apply (finite_choice norb (fun _ => c0) (fun a (w : nat -> cplx) => forall i, (i < norb)%nat -> cderivative (fun t => W (y t) k a i) 0 (w i))). intros a Ha.
    apply (finite_choice norb c0 (fun i w => cderivative (fun t => W (y t) k a i) 0 w)). intros i Hi.
    destruct (y_W _ _ _ _ _ _ _ _ _ _ _ _ _ _ _ _ _ _ _ _ _ _ _ _ _ _ SP k a i) as [d [P1 P2]]; rewrite ?A1, ?A3; try assumption.
    exists (fst d * Bohr, snd d * Bohr). split; cbn [fst snd]; [apply (Dy (fun s => fst (W s k a i)))|apply (Dy (fun s => snd (W s k a i)))]; assumption. }
  assert (E2 : exists f' : nat -> nat -> R, forall k, (k < nk)%nat -> forall a, (a < norb)%nat -> derivable_pt_lim (fun t => fs (y t) k a) 0 (f' k a)).
  { apply (finite_choice nk (fun _ => 0) (fun k (w : nat -> R) => forall a, (a < norb)%nat -> derivable_pt_lim (fun t => fs (y t) k a) 0 (w a))). intros k Hk.
    apply (finite_choice norb 0 (fun a w => derivable_pt_lim (fun t => fs (y t) k a) 0 w)). intros a Ha.
    destruct (y_f _ _ _ _ _ _ _ _ _ _ _ _ _ _ _ _ _ _ _ _ _ _ _ _ _ _ SP k a) as [d P]; rewrite ?A1, ?A3; try assumption. exists (d * Bohr). apply (Dy (fun s => r_f (res s) k a)). exact P. }
  destruct E1 as [W' E1], E2 as [f' E2]. exists W', f'. split; [intros k a Hk Ha i Hi; apply E1; assumption|intros; apply E2; assumption].
Qed.
Lemma y0 : y 0 = 0.
Proof. apply clip_0. Qed.
Lemma occupied_or_empty : exists mu, forall k a, (k < nk)%nat -> (a < norb)%nat ->
  (r_e (res 0) k a - mu) / width < MAXE /\ fs (y 0) k a = fermi MAXE width (r_e (res 0) k a) mu \/ forall t, fs (y t) k a = 0.
Proof.
  destruct (at_states 0 rank0) as (r & mu & _ & _ & _ & Q & _). destruct (sizes 0 rank0) as (A1 & _ & A3 & _). exists mu. intros k a Hk Ha.
  destruct (y_empty _ _ _ _ _ _ _ _ _ _ _ _ _ _ _ _ _ _ _ _ _ _ _ _ _ _ SP k a) as [H|H]; rewrite ?A1, ?A3; try assumption.
  - left. rewrite y0. unfold fs. rewrite <- Q. split; [|reflexivity]. apply fermi_nonzero. rewrite <- Q. exact H.
  - right. intros t. apply H. apply y_in.
Qed.
Lemma constant_filling t : filling norb nk wk (fs (y t)) = filling norb nk wk (fs 0).
Proof.
  destruct (sizes 0 rank0) as (A1 & _ & A3 & _ & _ & _ & A7 & _). pose proof (y_filling _ _ _ _ _ _ _ _ _ _ _ _ _ _ _ _ _ _ _ _ _ _ _ _ _ _ SP (y t) (y_in t)) as H. rewrite A1, A3, A7 in H. exact H.
Qed.
Lemma hermitian_at t : khermitian norb nk (Hs (y t)) /\ khermitian norb nk (Ss (y t)).
Proof. destruct (sizes (y t) (y_in t)) as (A1 & _ & A3 & _ & _ & _ & _ & A8 & A9 & _). destruct (P_at (y t) (y_in t)) as [P1 P2]. rewrite A1, A3, A8 in P1. rewrite A1, A3, A9 in P2. split; assumption. Qed.
Lemma normalised_at t : normalised norb nk (Ss (y t)) (W (y t)).
Proof.
  destruct (sizes (y t) (y_in t)) as (A1 & _ & A3 & _ & _ & _ & _ & _ & A9 & _). destruct (y_states _ _ _ _ _ _ _ _ _ _ _ _ _ _ _ _ _ _ _ _ _ _ _ _ _ _ SP (y t) (y_in t)) as [O _]. rewrite A1, A3, A9 in O.
  intros k a Hk Ha. rewrite (O k a a Hk Ha Ha), Nat.eqb_refl. reflexivity.
Qed.
Lemma eigen_at0 k a : (k < nk)%nat -> (a < norb)%nat -> RhoSpec.eigenstate norb (Hs (y 0) k) (Ss (y 0) k) (h1 0) (W (y 0) k a) (r_e (res 0) k a).
Proof.
  intros Hk Ha. rewrite y0. destruct (sizes 0 rank0) as (A1 & _ & A3 & _ & _ & _ & _ & A8 & A9 & _). destruct (y_states _ _ _ _ _ _ _ _ _ _ _ _ _ _ _ _ _ _ _ _ _ _ _ _ _ _ SP 0 rank0) as [_ E]. rewrite A1, A3, A8, A9 in E. apply E; assumption.
Qed.
(** from the electronic part to the free energy *)
Lemma assemble_parts (el : R -> R) d : (forall t, el t = fst (ebs_c norb nk wk (krho norb (W (y t)) (fs (y t))) (Hs (y t))) + coulomb_energy N scc (dqs (y t)) (epsilon N (s_G (X (y t))) (s_phi (X (y t)) (dqs (y t))) (dqs (y t))) - width * fermi_entropy norb nk wk (fs (y t))) ->
  derivable_pt_lim el 0 (- d) -> (d + Frep + Fpp) * (Hartree / Bohr) = r_force (res 0) c I ->
  derivable_pt_lim (fun s => free_energy Hartree width (X s) (res s)) 0 (- r_force (res 0) c I).
Proof.
  intros E H Ef. apply (D_eq _ _ ((- d * Hartree + (- Frep + - Fpp) * Hartree) / Bohr)); [|rewrite <- Ef; field; lra].
  apply (D_unclip eps Bohr (y_eps _ _ _ _ _ _ _ _ _ _ _ _ _ _ _ _ _ _ _ _ _ _ _ _ _ _ SP) HB (fun s => free_energy Hartree width (X s) (res s))).
  apply (D_ext (fun t => (el t * Hartree + (Erep (y t) + Epp (y t)) * Hartree) - Efree * Hartree)).
  - intros t. unfold free_energy. fold y. rewrite (energy_at (y t) (y_in t)), E. destruct (sizes (y t) (y_in t)) as (A1 & _ & A3 & _ & _ & _ & A7 & _). rewrite A1, A3, A7. unfold fs. ring.
  - eapply D_eq; [|apply Rminus_0_r]. apply (derivable_pt_lim_minus (fun t => el t * Hartree + (Erep (y t) + Epp (y t)) * Hartree) (fun _ => Efree * Hartree)); [|apply derivable_pt_lim_const].
    apply (derivable_pt_lim_plus (fun t => el t * Hartree) (fun t => (Erep (y t) + Epp (y t)) * Hartree)).
    + apply (D_ext (fun t => Hartree * el t)); [intros; ring|]. rewrite Rmult_comm. apply (derivable_pt_lim_scal el). exact H.
    + apply (D_ext (fun t => Hartree * (Erep (y t) + Epp (y t)))); [intros; ring|]. rewrite Rmult_comm. apply (derivable_pt_lim_scal (fun t => Erep (y t) + Epp (y t))). exact D_pairs.
Qed.
(** ** without SCC *)
Lemma free_forces_plain : scc = false -> derivable_pt_lim (fun s => free_energy Hartree width (X s) (res s)) 0 (- r_force (res 0) c I).
Proof.
  intros Es. destruct states_D as (W' & f' & DW & Df). destruct occupied_or_empty as (mu & Hm).
  set (d := band_structure_force norb nk o1 no wk (dH_scc false (fun _ _ => 0) dHs dSs) dSs (krho norb (W (y 0)) (fs (y 0))) (krhoe norb (W (y 0)) (fs (y 0)) (r_e (res 0))) I).
  apply (assemble_parts (fun t => fst (ebs_c norb nk wk (krho norb (W (y t)) (fs (y t))) (Hs (y t))) - width * fermi_entropy norb nk wk (fs (y t))) d).
  - intros t. rewrite Es. unfold coulomb_energy. ring.
  - assert (EV : forall k a, (k < nk)%nat -> (a < norb)%nat -> RhoSpec.eigenstate norb (Hs (y 0) k) (Ss (y 0) k) (fun _ _ => 0) (W (y 0) k a) (r_e (res 0) k a)).
    { intros k a Hk Ha. pose proof (eigen_at0 k a Hk Ha) as P. unfold h1 in P. rewrite Es in P. exact P. }
    pose proof (nonscc_force_occ norb N nk o1 no wk (fun t => W (y t)) (fun t => fs (y t)) f' (r_e (res 0)) (fun t => Hs (y t)) (fun t => Ss (y t)) W' dHs dSs I (orbital_layout no N) HI (proj1 (hermitian_at 0)) (proj2 (hermitian_at 0)) normalised_at DW Df DH DS EV) as A.
    pose proof (D_entropy_empty MAXE norb nk wk width (fun t => fs (y t)) f' (r_e (res 0)) mu _ Hw Hm Df constant_filling) as B.
    eapply D_eq; [exact (derivable_pt_lim_minus _ (fun t => width * fermi_entropy norb nk wk (fs (y t))) _ _ _ A B)|]. unfold d. ring.
  - rewrite force_at. unfold d. rewrite y0, Es. unfold gamma_force, dH_scc. field. lra.
Qed.
(** ** with SCC *)
Context (He : is_erfc erfc) (SC : smooth_charges gaussian gamma_cut goal D g).
Let Gs s := G_of (g_gamma erfc Bohr gaussian gamma_cut goal D (gs s)).
Let nbs s := match get_neighbours N (g_r (gs s)) (g_tr0 g) (g_rot g) gamma_cut (g_ranges g) with Some l => l | None => [] end.
Let Ps s := fun J K => direct_gamma erfc gamma_cut (nbs s) J K * Bohr.
Lemma eps_at s q : scc = true -> Rabs s < eps -> epsilon N (s_G (X s)) (s_phi (X s) q) q = epsilon N (Gs s) (fun J => rsum N (fun K => Ps s J K * q K)) q.
Proof.
  intros Es Hs'. destruct (m_scc _ _ _ _ _ _ _ _ _ _ _ _ (F_at s Hs') Es) as (G & dG & l & Eg & El & -> & _ & -> & _).
  apply functional_extensionality. intros J. unfold epsilon. unfold Gs at 1. rewrite Eg. cbn [G_of]. f_equal. change (g_N (gs s)) with N in El. change (g_tr0 (gs s)) with (g_tr0 g) in El. change (g_rot (gs s)) with (g_rot g) in El. change (g_ranges (gs s)) with (g_ranges g) in El.
  rewrite (direct_phi_gamma erfc gamma_cut N (g_tr0 g) (g_rot g) (g_ranges g) _ l q J El). rewrite <- rsum_scal_r. apply rsum_ext. intros K _. unfold Ps, nbs. rewrite El. ring.
Qed.
Lemma free_forces_scc : scc = true -> derivable_pt_lim (fun s => free_energy Hartree width (X s) (res s)) 0 (- r_force (res 0) c I).
Proof.
  intros Es. destruct states_D as (W' & f' & DW & Df). destruct occupied_or_empty as (mu & Hm). pose proof (y_eps _ _ _ _ _ _ _ _ _ _ _ _ _ _ _ _ _ _ _ _ _ _ _ _ _ _ SP) as Hep.
  destruct (m_scc _ _ _ _ _ _ _ _ _ _ _ _ (F_at 0 rank0) Es) as (G & dG & l & Eg & El & EG & EdG & _ & EF).
  rewrite displaced_0 in Eg, El. change (g_N g) with N in El.
  destruct (gamma_elem erfc gaussian gamma_cut goal D g Bohr I c He HB HI Hc SC G dG Eg) as [GS DG].
  destruct (direct_elem erfc gaussian gamma_cut goal D g Bohr I c He HI Hc SC l El) as (L & EL & PS & DP & PE).
  set (dP := fun J K => comp c (gamma_dG 1 (dterm erfc gamma_cut) l J K) * Bohr ^ 2).
  set (h := construct_h1 N o1 no (eps_states norb N nk o1 no val wk (W (y 0)) (fs (y 0)) (Ss (y 0)) (Gs (y 0)) (Ps (y 0))) (fun _ => 0)).
  assert (N0 : nbs 0 = l) by (unfold nbs; rewrite displaced_0, El; reflexivity).
  assert (Eh : h1 0 = h).
  { unfold h1, h. rewrite Es. unfold h1_of. destruct (sizes 0 rank0) as (A1 & A2 & A3 & A4 & A5 & _). rewrite A2, A4, A5. rewrite y0. apply construct_h1_ext.
    - intros J HJ. rewrite (eps_at 0 (dq 0) Es rank0). unfold eps_states. unfold epsilon. destruct (at_states 0 rank0) as (r & mu' & Er & Ef & _ & _ & Qd & _). destruct (finish_inv _ _ _ _ _ _ _ _ _ _ _ _ Er) as (mu'' & erep & _ & _ & Q3 & _).
      assert (Q : forall K, (K < N)%nat -> dq 0 K = dq_states norb nk o1 no val wk (W 0) (fs 0) (Ss 0) K).
      { intros K HK. rewrite <- (y_scc _ _ _ _ _ _ _ _ _ _ _ _ _ _ _ _ _ _ _ _ _ _ _ _ _ _ SP Es K HK), <- (Qd K HK), Q3, Ef. destruct (sizes 0 rank0) as (B1 & _ & B3 & B4 & B5 & B6 & B7 & _ & B9 & _). rewrite B1, B3, B4, B5, B6, B7, B9. reflexivity. }
      f_equal; apply rsum_ext; intros K HK; rewrite (Q K HK); reflexivity.
    - intros J HJ. rewrite (m_ext _ _ _ _ _ _ _ _ _ _ _ _ (F_at 0 rank0)). exact (y_ext _ _ _ _ _ _ _ _ _ _ _ _ _ _ _ _ _ _ _ _ _ _ _ _ _ _ SP Es J HJ). }
  set (d := band_structure_force norb nk o1 no wk (dH_scc true h dHs dSs) dSs (krho norb (W (y 0)) (fs (y 0))) (krhoe norb (W (y 0)) (fs (y 0)) (r_e (res 0))) I
     + gamma_force N true (dq_states norb nk o1 no val wk (W (y 0)) (fs (y 0)) (Ss (y 0))) (fun J K => comp c (dG J K)) (fun J => rsum N (fun K => dq_states norb nk o1 no val wk (W (y 0)) (fs (y 0)) (Ss (y 0)) K * dP J K)) I).
  apply (assemble_parts (fun t => scc_energy norb N nk o1 no val wk (W (y t)) (fs (y t)) (Hs (y t)) (Ss (y t)) (Gs (y t)) (Ps (y t)) - width * fermi_entropy norb nk wk (fs (y t))) d).
  - intros t. rewrite Es, (eps_at (y t) _ Es (y_in t)). unfold scc_energy, eps_states, dqs. ring.
  - assert (EV : forall k a, (k < nk)%nat -> (a < norb)%nat -> RhoSpec.eigenstate norb (Hs (y 0) k) (Ss (y 0) k) h (W (y 0) k a) (r_e (res 0) k a)).
    { intros k a Hk Ha. rewrite <- Eh. apply eigen_at0; assumption. }
    assert (SY : forall J K, (J < N)%nat -> (K < N)%nat -> Gs (y 0) J K = Gs (y 0) K J /\ Ps (y 0) J K = Ps (y 0) K J).
    { intros J K HJ HK. rewrite y0. split; [unfold Gs; rewrite displaced_0, Eg; apply GS; assumption|]. unfold Ps. rewrite N0, (PS J K HJ HK). reflexivity. }
    assert (DG' : forall J K, (J < N)%nat -> (K < N)%nat -> derivable_pt_lim (fun t => Gs (y t) J K) 0 (moved_gamma I (fun J K => comp c (dG J K)) J K)).
    { intros J K HJ HK. apply (D_clip eps Bohr Hep HB (fun s => Gs s J K)). apply DG; assumption. }
    assert (DP' : forall J K, (J < N)%nat -> (K < N)%nat -> derivable_pt_lim (fun t => Ps (y t) J K) 0 (moved_gamma I dP J K)).
    { intros J K HJ HK. apply (D_clip eps Bohr Hep HB (fun s => Ps s J K)). eapply D_ext; [|exact (DP J K HJ HK)]. intros t. unfold Ps, nbs. fold N in EL. rewrite EL. reflexivity. }
    pose proof (scc_force_occ0 norb N nk o1 no val wk (fun t => W (y t)) (fun t => fs (y t)) f' (r_e (res 0)) (fun t => Hs (y t)) (fun t => Ss (y t)) (fun t => Gs (y t)) (fun t => Ps (y t)) W' dHs dSs (fun J K => comp c (dG J K)) dP I (orbital_layout no N) HI
      (fun t => proj1 (hermitian_at t)) (fun t => proj2 (hermitian_at t)) normalised_at SY DW Df DH DS DG' DP' EV) as A.
    pose proof (D_entropy_empty MAXE norb nk wk width (fun t => fs (y t)) f' (r_e (res 0)) mu _ Hw Hm Df constant_filling) as B.
    eapply D_eq; [exact (derivable_pt_lim_minus _ (fun t => width * fermi_entropy norb nk wk (fs (y t))) _ _ _ A B)|]. unfold d, h. ring.
  - rewrite force_at, Eh, Es, EdG, EF. unfold d. rewrite y0. unfold dqs. unfold gamma_force at 2. unfold gamma_force.
    rewrite (PE (dq_states norb nk o1 no val wk (W 0) (fs 0) (Ss 0)) I). unfold dP. fold N. ring.
Qed.
End Main.
