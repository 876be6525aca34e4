(** Forces are the derivatives of the free energy. *)
From Coq Require Import Reals ZArith List Bool Arith Lia Lra FunctionalExtensionality.
From Verif Require Import SkModel InvModel InvSpec InvLin InvProofs InvProofs2 InvProofs3 InvProofs4 InvProofs8 InvProofs9 InvProofs10 InvProofs11 InvProofs13 Vec GeomModel GeomProofs PairModel PairSpec PairProofs CoulModel CoulProofs SkSpec SkProofs6 SkProofs7 Cpx OccModel RhoModel RhoSpec RhoProofs RhoProofs3 RhoProofs6 EigModel EigSpec EigProofs2 GamModel GamSpec FrcSpec FrcProofs FrcProofs2 FrcProofs5 FrcProofs6 FrcProofs7.
Import ListNotations.
Open Scope R_scope.

Lemma sound_displaced D g inv I c s : sound D g inv -> sound D (displaced g I c s) inv.
Proof. intros S. destruct S. constructor; assumption. Qed.
(** ** fields of the system of a structure *)
Section Fields.
Context (erfc : R -> R) (Bohr Hartree : R) (gaussian : bool) (gamma_cut : option R) (goal width sepsilon : R) (scc : bool) (D : database) (g : structure).
Record fields (X : system) : Prop := {
  m_close : too_close (g_N g) (g_nimg g) (g_Rn Bohr g) = false;
  m_norb : s_norb X = first_orbital (g_no D g) (g_N g); m_N : s_N X = g_N g; m_nk : s_nk X = g_nk g; m_o1 : s_o1 X = first_orbital (g_no D g); m_no : s_no X = g_no D g;
  m_val : s_val X = (fun I => d_val D (g_kind g I)); m_wk : s_wk X = g_wk g; m_width : s_width X = width;
  m_H0 : s_H0 X = (fun k => flat D g (g_matrix Bohr D g (fun I => d_onsite D (g_kind g I)) (d_H D) k));
  m_S : s_S X = (fun k => flat D g (g_matrix Bohr D g (fun _ _ => 1 + sepsilon) (d_S D) k));
  m_dH0 : s_dH0 X = (fun c k => flat D g (g_dmatrix Bohr D g (d_H D) (d_dH D) c k));
  m_dS : s_dS X = (fun c k => flat D g (g_dmatrix Bohr D g (d_S D) (d_dS D) c k));
  m_ext : s_ext X = g_ext g;
  m_erep : forall x, s_erep X = Some x -> x = total_energy (g_N g) (g_nimg g) (g_Rn Bohr g) (pairwise g (d_vrep D)) (d_rmax D) * Hartree;
  m_epp : s_epp X = total_energy (g_N g) (g_nimg g) (g_Rn Bohr g) (g_pp g) (g_rc g) * Hartree;
  m_efree : s_efree X = rsum (g_N g) (fun I => d_efree D (g_kind g I));
  m_frep : s_frep X = (fun c I => comp c (force (g_N g) (g_nimg g) (g_Rn Bohr g) (pairwise g (d_dvrep D)) (d_rmax D) I));
  m_fpp : s_fpp X = (fun c I => comp c (force (g_N g) (g_nimg g) (g_Rn Bohr g) (g_dpp g) (g_rc g) I));
  m_scc : scc = true -> exists G dG l, g_gamma erfc Bohr gaussian gamma_cut goal D g = GOk G dG /\ get_neighbours (g_N g) (g_r g) (g_tr0 g) (g_rot g) gamma_cut (g_ranges g) = Some l /\
    s_G X = G /\ s_dG X = (fun c I J => comp c (dG I J)) /\ s_phi X = (fun q I => direct_phi erfc gamma_cut l q I * Bohr) /\ s_field X = (fun q c I => direct_E erfc gamma_cut l q c I * Bohr ^ 2) }.
Lemma assembled_fields X : assemble erfc Bohr Hartree gaussian gamma_cut goal width sepsilon scc D g = Some X -> fields X.
Proof.
  unfold assemble. destruct (too_close _ _ _) eqn:HC; [discriminate|].
  destruct scc eqn:Es; [destruct (g_gamma _ _ _ _ _ _ _) as [G dG| | |] eqn:Eg; try discriminate; destruct (get_neighbours _ _ _ _ _ _) as [l|] eqn:El; try discriminate|]; intros E.
  all: match type of E with Some ?q = _ => assert (Eq : X = q) by congruence end; clear E; subst X.
  all: constructor; cbn [s_norb s_N s_nk s_o1 s_no s_val s_wk s_width s_H0 s_S s_dH0 s_dS s_ext s_erep s_epp s_efree s_frep s_fpp s_G s_dG s_phi s_field]; try reflexivity; try exact HC.
  all: try (intros x; destruct (distances_ok _ _ _ _); intros Ex; congruence).
  - intros _. exists G, dG, l. repeat split; try reflexivity; assumption.
  - congruence.
Qed.
End Fields.
(** ** the states can be replaced *)
Section Swap.
Context (MAXE : R) (brentq : (R -> R) -> R -> R -> R -> option R) (tol_mull tol_im Hartree Bohr : R) (scc : bool) (X : system) (WF : well_formed X) (PX : proper X).
Lemma finish_f h e wf r h' wf' r' : finish MAXE brentq tol_mull tol_im Hartree Bohr scc X (h, e, wf) = Some r -> finish MAXE brentq tol_mull tol_im Hartree Bohr scc X (h', e, wf') = Some r' -> r_f r' = r_f r /\ r_e r = e.
Proof.
  unfold finish, charges, occupations. cbn [snd]. destruct (occupy MAXE (s_nk X) (s_norb X) (s_wk X) (s_width X) (s_nel X) e brentq) as [[mu f]|]; [|discriminate].
  unfold mulliken. destruct (ltb tol_mull _); [discriminate|]. match goal with |- context [sane ?a ?b ?d] => destruct (sane a b d) end; [|discriminate]. cbn [negb].
  destruct (band_structure_energy _ _ _ _ _ _); [|discriminate]. destruct (s_erep X); [|discriminate]. intros E.
  destruct (ltb tol_mull _); [discriminate|]. match goal with |- context [sane ?a ?b ?d] => destruct (sane a b d) end; [|discriminate]. cbn [negb].
  destruct (band_structure_energy _ _ _ _ _ _); [|discriminate]. intros E'. inversion E. inversion E'. split; reflexivity.
Qed.
Lemma finish_e h e wf r : finish MAXE brentq tol_mull tol_im Hartree Bohr scc X (h, e, wf) = Some r -> r_e r = e.
Proof. intros E. apply (finish_f h e wf r h wf r E E). Qed.
Lemma finish_states h e wf W r : finish MAXE brentq tol_mull tol_im Hartree Bohr scc X (h, e, wf) = Some r -> (forall i j, h i j = h j i) ->
  orthonormal (s_norb X) (s_nk X) (s_S X) wf -> orthonormal (s_norb X) (s_nk X) (s_S X) W ->
  (forall k a, (k < s_nk X)%nat -> (a < s_norb X)%nat -> RhoSpec.eigenstate (s_norb X) (s_H0 X k) (s_S X k) h (wf k a) (e k a)) ->
  (forall k a, (k < s_nk X)%nat -> (a < s_norb X)%nat -> RhoSpec.eigenstate (s_norb X) (s_H0 X k) (s_S X k) h (W k a) (e k a)) ->
  exists r', finish MAXE brentq tol_mull tol_im Hartree Bohr scc X (h, e, W) = Some r' /\ r_f r' = r_f r /\ r_epot r' = r_epot r /\
    (forall J, (J < s_N X)%nat -> r_dq r' J = r_dq r J) /\ forall c I, (c < 3)%nat -> (I < s_N X)%nat -> r_force r' c I = r_force r c I.
Proof.
  intros E Sh O1 O2 W1 W2. destruct PX as [A B].
  assert (AL : alike same_orbitals X (h, e, wf) (h, e, W)).
  { constructor; cbn [fst snd].
    - intros k i j l m _ _ _ _ _ H1 H2. unfold same_orbitals in *. destruct (Nat.eqb_spec i j) as [->|]; [|contradiction]. destruct (Nat.eqb_spec l m) as [->|]; [reflexivity|contradiction].
    - reflexivity.
    - intros phi k i l Hk Hi Hl. rewrite same_transported by assumption.
      refine (density_unique (s_norb X) (fun i j => cadd (s_H0 X k i j) (cscale (h i j) (s_S X k i j))) (s_S X k) (wf k) (W k) (e k) (e k) _ (B k Hk) _ _ _ _ phi i l Hi Hl).
      + intros i' j' Hi' Hj'. rewrite (A k Hk i' j' Hi' Hj'), (B k Hk i' j' Hi' Hj'), (Sh i' j'), cconj_add, !cscale_rc, cconj_mul, cconj_rc. reflexivity.
      + intros a b Ha Hb. apply O1; assumption.
      + intros a b Ha Hb. apply O2; assumption.
      + intros a i' Ha Hi'. apply W1; assumption.
      + intros a i' Ha Hi'. apply W2; assumption. }
  pose proof (finish_alike (fun i => i) same_orbitals same_axes X X (self_equivalent X WF) MAXE brentq tol_mull tol_im Hartree Bohr scc _ _ AL) as F.
  rewrite E in F. destruct (finish MAXE brentq tol_mull tol_im Hartree Bohr scc X (h, e, W)) as [r'|] eqn:E'; [|contradiction]. exists r'. split; [reflexivity|]. split; [|split; [|split]].
  - apply (finish_f _ _ _ _ _ _ _ E E').
  - apply (a_epot _ _ _ _ _ _ F).
  - apply (a_dq _ _ _ _ _ _ F).
  - intros c I Hc HI. rewrite (a_force _ _ _ _ _ _ F c I Hc HI). apply (same_axes_sum c (fun d => r_force r d I) Hc).
Qed.
End Swap.
