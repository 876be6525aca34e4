(** Energy and forces of a whole calculation. *)
From Coq Require Import Reals ZArith List Bool Arith Lia Lra FunctionalExtensionality.
From Verif Require Import SkModel InvModel InvSpec InvProofs InvProofs2 InvProofs3 InvProofs8 InvProofs9 InvProofs10 InvProofs11 InvProofs13 Vec GeomModel GeomProofs PairModel PairSpec PairProofs CoulModel CoulProofs SkSpec SkProofs6 SkProofs7 Cpx OccModel RhoModel RhoSpec RhoProofs RhoProofs3 RhoProofs6 EigModel EigSpec EigProofs2 GamModel GamSpec FrcSpec FrcProofs FrcProofs2 FrcProofs5 FrcProofs6.
Import ListNotations.
Open Scope R_scope.

(** ** what finish returns *)
Lemma finish_inv MAXE brentq tol_mull tol_im Hartree Bohr scc X h1 e wf r :
  finish MAXE brentq tol_mull tol_im Hartree Bohr scc X (h1, e, wf) = Some r ->
  exists mu erep, s_erep X = Some erep /\ (forall k a, r_f r k a = fermi MAXE (s_width X) (e k a) mu) /\
   r_dq r = dq_of (s_norb X) (s_nk X) (s_o1 X) (s_no X) (s_val X) (s_wk X) (krho (s_norb X) wf (r_f r)) (s_S X) /\
   r_epot r = fst (ebs_c (s_norb X) (s_nk X) (s_wk X) (krho (s_norb X) wf (r_f r)) (s_H0 X)) * Hartree + coulomb_energy (s_N X) scc (r_dq r) (epsilon (s_N X) (s_G X) (s_phi X (r_dq r)) (r_dq r)) * Hartree + erep + s_epp X - s_efree X * Hartree /\
   forall c I, r_force r c I = (band_structure_force (s_norb X) (s_nk X) (s_o1 X) (s_no X) (s_wk X) (dH_scc scc h1 (s_dH0 X c) (s_dS X c)) (s_dS X c) (krho (s_norb X) wf (r_f r)) (krhoe (s_norb X) wf (r_f r) e) I
                         + s_frep X c I + gamma_force (s_N X) scc (r_dq r) (s_dG X c) (s_field X (r_dq r) c) I + s_fpp X c I) * (Hartree / Bohr).
Proof.
  unfold finish, charges, occupations. cbn [snd]. destruct (occupy MAXE (s_nk X) (s_norb X) (s_wk X) (s_width X) (s_nel X) e brentq) as [[mu f]|] eqn:EO; [|discriminate].
  unfold mulliken. destruct (ltb tol_mull _); [discriminate|]. match goal with |- context [sane ?a ?b ?d] => destruct (sane a b d) end; [|discriminate]. cbn [negb].
  unfold band_structure_energy. match goal with |- context [ltb ?a tol_im] => destruct (ltb a tol_im) end; [|discriminate]. destruct (s_erep X) as [erep|] eqn:ER; [|discriminate].
  intros E. exists mu, erep. split; [reflexivity|]. match type of E with Some ?q = _ => assert (Er : q = r) by congruence end. clear E. subst r. cbn [r_f r_dq r_epot r_force].
  split; [|split; [reflexivity|split; [reflexivity|reflexivity]]].
  unfold occupy in EO. destruct (emin (s_nk X) (s_norb X) e); [|discriminate]. destruct (emax (s_nk X) (s_norb X) e); [|discriminate]. destruct (brentq _ _ _ _); [|discriminate]. destruct (rlt _ _); [discriminate|].
  assert (Em := f_equal (fun o => match o with Some q => fst q | None => 0 end) EO). assert (Ef := f_equal (fun o => match o with Some q => snd q | None => fun _ _ => 0 end) EO). cbn [fst snd] in Em, Ef. subst. reflexivity.
Qed.
Lemma aux_rows_ext o1 no n v v' mu : (forall I, (I < n)%nat -> v I = v' I) -> aux_rows o1 no n v mu = aux_rows o1 no n v' mu.
Proof. induction n as [|n IH]; intros H; [reflexivity|]. cbn [aux_rows]. destruct (_ && _)%bool; [apply H; lia|apply IH; intros I HI; apply H; lia]. Qed.
Lemma construct_h1_ext N o1 no eps eps' ext ext' : (forall I, (I < N)%nat -> eps I = eps' I) -> (forall I, (I < N)%nat -> ext I = ext' I) -> construct_h1 N o1 no eps ext = construct_h1 N o1 no eps' ext'.
Proof.
  intros H H'. apply functional_extensionality. intros mu. apply functional_extensionality. intros nu. unfold construct_h1.
  rewrite !(aux_rows_ext o1 no N eps eps') by exact H. rewrite !(aux_rows_ext o1 no N ext ext') by exact H'.
  replace (existsb (fun I => ltb (/ 10 ^ 12) (Rabs (ext I))) (seq 0 N)) with (existsb (fun I => ltb (/ 10 ^ 12) (Rabs (ext' I))) (seq 0 N)); [reflexivity|].
  assert (X : forall l, (forall I, In I l -> (I < N)%nat) -> existsb (fun I => ltb (/ 10 ^ 12) (Rabs (ext' I))) l = existsb (fun I => ltb (/ 10 ^ 12) (Rabs (ext I))) l).
  { induction l as [|I l IH]; intros HI; [reflexivity|]. cbn [existsb]. rewrite H' by (apply HI; left; reflexivity). rewrite IH by (intros J HJ; apply HI; right; exact HJ). reflexivity. }
  apply X. intros I HI. apply in_seq in HI. lia.
Qed.
(** a state is occupied exactly when its energy is not too high *)
Lemma fermi_nonzero MAXE width e mu : fermi MAXE width e mu <> 0 -> (e - mu) / width < MAXE.
Proof. unfold fermi, rlt. destruct (Rlt_dec ((e - mu) / width) MAXE); [auto|]. intros H. exfalso. apply H. reflexivity. Qed.
Lemma displaced_0 g I c : displaced g I c 0 = g.
Proof.
  unfold displaced. replace (moved (g_r g) (one I (axis c)) 0) with (g_r g); [destruct g; reflexivity|]. apply functional_extensionality. intros j. unfold moved. destruct (g_r g j) as [a b d], (one I (axis c) j) as [a' b' d']. apply v3_eq; vunf; ring.
Qed.
(** ** restricting a path to a neighbourhood *)
Section Clip.
Context (eps Bohr : R) (He : 0 < eps) (HB : 0 < Bohr).
Definition clip (t : R) : R := if Rlt_dec (Rabs (Bohr * t)) eps then Bohr * t else 0.
Lemma clip_0 : clip 0 = 0.
Proof. unfold clip. rewrite Rmult_0_r. destruct (Rlt_dec _ _); reflexivity. Qed.
Lemma clip_small t : Rabs (clip t) < eps.
Proof. unfold clip. destruct (Rlt_dec (Rabs (Bohr * t)) eps) as [H|H]; [exact H|rewrite Rabs_R0; exact He]. Qed.
Lemma clip_near t : Rabs (t - 0) < eps / Bohr -> clip t = Bohr * t.
Proof.
  intros H. unfold clip. destruct (Rlt_dec (Rabs (Bohr * t)) eps) as [L|L]; [reflexivity|]. exfalso. apply L. rewrite Rabs_mult, (Rabs_right Bohr) by lra. rewrite Rminus_0_r in H. apply (Rmult_lt_compat_l Bohr) in H; [|exact HB]. replace (Bohr * (eps / Bohr)) with eps in H by (field; lra). exact H.
Qed.
Lemma D_clip (h : R -> R) d : derivable_pt_lim (fun t => h (Bohr * t)) 0 d -> derivable_pt_lim (fun t => h (clip t)) 0 d.
Proof.
  intros H. apply (derivable_local _ (fun t => h (Bohr * t)) 0 d (eps / Bohr)); [apply Rdiv_lt_0_compat; assumption| |exact H]. intros t Ht. cbv beta. rewrite clip_near by exact Ht. reflexivity.
Qed.
Lemma D_scaled (h : R -> R) d : derivable_pt_lim h 0 d -> derivable_pt_lim (fun t => h (Bohr * t)) 0 (d * Bohr).
Proof.
  intros H. apply (derivable_pt_lim_comp (fun t => Bohr * t) h 0 Bohr d); [|rewrite Rmult_0_r; exact H]. apply (D_eq _ _ (Bohr * 1)); [apply (derivable_pt_lim_scal (fun t => t)); apply derivable_pt_lim_id|ring].
Qed.
Lemma D_unclip (h : R -> R) d : derivable_pt_lim (fun t => h (clip t)) 0 d -> derivable_pt_lim h 0 (d / Bohr).
Proof.
  intros H. apply (derivable_local _ (fun s => h (clip (s / Bohr))) 0 _ eps); [exact He| |].
  - intros s Hs. cbv beta. rewrite clip_near; [f_equal; field; lra|]. rewrite Rminus_0_r in *. unfold Rdiv. rewrite Rabs_mult, (Rabs_right (/ Bohr)) by (apply Rle_ge; left; apply Rinv_0_lt_compat; exact HB). apply Rmult_lt_compat_r; [apply Rinv_0_lt_compat; exact HB|exact Hs].
  - apply (D_eq _ _ (d * / Bohr)); [|reflexivity]. apply (derivable_pt_lim_comp (fun s => s / Bohr) (fun t => h (clip t)) 0 (/ Bohr) d).
    + apply (D_eq _ _ (/ Bohr * 1)); [|ring]. apply (D_ext (fun s => / Bohr * s)); [intros; unfold Rdiv; ring|]. apply (derivable_pt_lim_scal (fun t => t)). apply derivable_pt_lim_id.
    + replace (0 / Bohr) with 0 by (field; lra). exact H.
Qed.
End Clip.

(** ** the entropy, with states that stay empty *)
Lemma D_entropy_empty MAXE norb nk wk width (f : R -> nat -> nat -> R) f' (e : nat -> nat -> R) mu c : 0 < width ->
  (forall k a, (k < nk)%nat -> (a < norb)%nat -> (e k a - mu) / width < MAXE /\ f 0 k a = fermi MAXE width (e k a) mu \/ forall s, f s k a = 0) ->
  (forall k a, (k < nk)%nat -> (a < norb)%nat -> derivable_pt_lim (fun s => f s k a) 0 (f' k a)) ->
  (forall s, filling norb nk wk (f s) = c) ->
  derivable_pt_lim (fun s => width * fermi_entropy norb nk wk (f s)) 0 (state_sum norb nk wk f' e).
Proof.
  intros W F D C.
  assert (K : rsum nk (fun k => wk k * rsum norb (f' k)) = 0).
  { apply (uniqueness_limite (fun s => filling norb nk wk (f s)) 0).
    - unfold filling. apply (D_rsum nk (fun k s => wk k * rsum norb (f s k))). intros k Hk. apply D_scal. apply (D_rsum norb (fun a s => f s k a)). intros a Ha. apply D; assumption.
    - apply (D_ext (fun _ => c)); [intros; symmetry; apply C|apply derivable_pt_lim_const]. }
  assert (Z : forall k a, (k < nk)%nat -> (a < norb)%nat -> (forall s, f s k a = 0) -> f' k a = 0).
  { intros k a Hk Ha H. apply (uniqueness_limite (fun s => f s k a) 0); [apply D; assumption|]. apply (D_ext (fun _ => 0)); [intros; symmetry; apply H|apply derivable_pt_lim_const]. }
  eapply D_rew.
  - apply D_scal. unfold fermi_entropy. apply (derivable_pt_lim_opp (fun s => 2 * rsum nk (fun k => wk k * rsum norb (fun a => f s k a / 2 * ln (f s k a / 2) + (1 - f s k a / 2) * ln (1 - f s k a / 2))))).
    apply D_scal. apply (D_rsum nk (fun k s => wk k * rsum norb (fun a => f s k a / 2 * ln (f s k a / 2) + (1 - f s k a / 2) * ln (1 - f s k a / 2)))). intros k Hk. apply D_scal.
    apply (D_rsum norb (fun a s => f s k a / 2 * ln (f s k a / 2) + (1 - f s k a / 2) * ln (1 - f s k a / 2)) 0
      (fun a => f' k a / 2 * (ln (f 0 k a / 2) + 1) + (- (f' k a / 2)) * (ln (1 - f 0 k a / 2) + 1))). intros a Ha.
    destruct (F k a Hk Ha) as [[A1 A2]|H].
    2:{ rewrite (Z k a Hk Ha H). eapply D_rew; [apply (D_ext (fun _ => 0 / 2 * ln (0 / 2) + (1 - 0 / 2) * ln (1 - 0 / 2))); [intros t; rewrite H; reflexivity|apply derivable_pt_lim_const]|field]. }
    destruct (fermi_ln MAXE width (e k a) mu W A1) as [P1 [P2 _]]. rewrite <- A2 in P1, P2.
    assert (D2 : derivable_pt_lim (fun s => f s k a / 2) 0 (f' k a / 2)).
    { apply (D_ext (fun s => / 2 * f s k a)); [intros; field|]. eapply D_rew; [apply D_scal; apply D; assumption|field]. }
    apply (derivable_pt_lim_plus (fun s => f s k a / 2 * ln (f s k a / 2)) (fun s => (1 - f s k a / 2) * ln (1 - f s k a / 2))).
    + apply (D_xlnx (fun s => f s k a / 2)); assumption.
    + apply (D_xlnx (fun s => 1 - f s k a / 2)); [|exact P2]. eapply D_rew; [apply (derivable_pt_lim_minus (fun _ => 1) (fun s => f s k a / 2)); [apply derivable_pt_lim_const|exact D2]|ring].
  - unfold state_sum. transitivity (rsum nk (fun k => wk k * rsum norb (fun a => f' k a * e k a)) - mu * rsum nk (fun k => wk k * rsum norb (f' k))); [|rewrite K; ring].
    transitivity (rsum nk (fun k => wk k * rsum norb (fun a => f' k a * e k a) - mu * (wk k * rsum norb (f' k)))); [|rewrite rsum_minus, rsum_scal; reflexivity].
    transitivity (- 2 * width * rsum nk (fun k => wk k * rsum norb (fun a => f' k a / 2 * (ln (f 0 k a / 2) + 1) + - (f' k a / 2) * (ln (1 - f 0 k a / 2) + 1)))); [ring|].
    rewrite <- rsum_scal. apply rsum_ext. intros k Hk.
    assert (E0 : - 2 * width * rsum norb (fun a => f' k a / 2 * (ln (f 0 k a / 2) + 1) + - (f' k a / 2) * (ln (1 - f 0 k a / 2) + 1)) = rsum norb (fun a => f' k a * e k a) - mu * rsum norb (f' k)).
    2:{ transitivity (wk k * (- 2 * width * rsum norb (fun a => f' k a / 2 * (ln (f 0 k a / 2) + 1) + - (f' k a / 2) * (ln (1 - f 0 k a / 2) + 1)))); [ring|]. rewrite E0. ring. }
    transitivity (rsum norb (fun a => f' k a * e k a - mu * f' k a)); [|rewrite rsum_minus, rsum_scal; reflexivity].
    rewrite <- rsum_scal. apply rsum_ext. intros a Ha. destruct (F k a Hk Ha) as [[A1 A2]|H]; [|rewrite (Z k a Hk Ha H); field].
    destruct (fermi_ln MAXE width (e k a) mu W A1) as [_ [_ E]]. rewrite <- A2 in E.
    transitivity (- f' k a * (width * (ln (f 0 k a / 2) - ln (1 - f 0 k a / 2)))); [field|]. rewrite E. ring.
Qed.
