(** A dimer with Fermi occupations: the energy without entropy is not what the forces derive from. *)
From Coq Require Import Reals List Bool Arith Lia Lra.
From Verif Require Import Vec GeomModel GeomProofs PairProofs SkModel SkSpec Cpx OccModel RhoModel RhoSpec RhoProofs RhoProofs2 RhoProofs3 RhoProofs6 OccProofs.
Import ListNotations.
Open Scope R_scope.

Definition hop (s : R) : R := 1 + sin s.
Definition dimH (s : R) : kmatrix := fun _ i j => rc (if (i =? j)%nat then 0 else hop s).
Definition dimS (s : R) : kmatrix := fun _ i j => rc (if (i =? j)%nat then 1 else 0).
Definition dimwf (s : R) : nat -> nat -> nat -> cplx := fun _ a i => rc (if (a =? 0)%nat then (if (i =? 0)%nat then / sqrt 2 else - / sqrt 2) else / sqrt 2).
Definition dime (s : R) : nat -> nat -> R := fun _ a => if (a =? 0)%nat then - hop s else hop s.
Definition dimdH : kmatrix := fun _ i j => rc (if ((i =? 0) && (j =? 1))%nat then 1 else 0).
Definition dimdS : kmatrix := fun _ _ _ => c0.
Definition dimf (M : R) (s : R) : nat -> nat -> R := fun k a => fermi M 1 (dime s k a) 0.
Definition dimf' : nat -> nat -> R := fun _ a => let x := exp 1 in if (a =? 0)%nat then 2 * x / (x + 1) ^ 2 else - (2 * x / (x + 1) ^ 2).

Lemma hop_bounds s : 0 <= hop s <= 2. Proof. unfold hop. pose proof (SIN_bound s). lra. Qed.
Lemma hop0 : hop 0 = 1. Proof. unfold hop. rewrite sin_0. ring. Qed.
Lemma D_hop : derivable_pt_lim hop 0 1.
Proof.
  unfold hop. eapply D_rew; [apply (derivable_pt_lim_plus (fun _ => 1) sin); [apply derivable_pt_lim_const|apply derivable_pt_lim_sin]|]. rewrite cos_0. ring.
Qed.
Lemma half2 : / sqrt 2 * / sqrt 2 = / 2.
Proof. rewrite <- Rinv_mult. rewrite sqrt_sqrt by lra. reflexivity. Qed.
Lemma fermi_at M x : x < M -> fermi M 1 x 0 = 2 / (exp x + 1).
Proof. intros L. unfold fermi, rlt. replace ((x - 0) / 1) with x by field. destruct (Rlt_dec x M); [reflexivity|contradiction]. Qed.

Lemma D_fermi_neg (g : R -> R) g' : derivable_pt_lim g 0 g' -> derivable_pt_lim (fun s => 2 / (exp (g s) + 1)) 0 (- (2 * exp (g 0) / (exp (g 0) + 1) ^ 2) * g').
Proof.
  intros D. assert (P := exp_pos (g 0)).
  assert (E : derivable_pt_lim (fun s => exp (g s) + 1) 0 (exp (g 0) * g' + 0)).
  { apply (derivable_pt_lim_plus (fun s => exp (g s)) (fun _ => 1)); [|apply derivable_pt_lim_const]. eapply D_rew; [apply (derivable_pt_lim_comp g exp); [exact D|apply derivable_pt_lim_exp]|ring]. }
  assert (Q := derivable_pt_lim_div (fun _ => 2) (fun s => exp (g s) + 1) 0 0 _ (derivable_pt_lim_const 2 0) E ltac:(lra)).
  eapply D_rew; [exact Q|]. unfold Rsqr. field. lra.
Qed.

Lemma dimer : forall M, 2 < M -> exists norb N nk o1 no wk width mu (wf : R -> nat -> nat -> nat -> cplx) (f : R -> nat -> nat -> R) f' (e : R -> nat -> nat -> R) (H0 S : R -> kmatrix) wf' dH0 dS I c,
  layout norb N o1 no /\ (I < N)%nat /\ 0 < width /\
  (forall s, khermitian norb nk (H0 s)) /\ (forall s, khermitian norb nk (S s)) /\ (forall s, normalised norb nk (S s) (wf s)) /\
  (forall k a, (k < nk)%nat -> (a < norb)%nat -> vector_derivative norb (fun s => wf s k a) 0 (wf' k a)) /\
  (forall k a, (k < nk)%nat -> (a < norb)%nat -> derivable_pt_lim (fun s => f s k a) 0 (f' k a)) /\
  (forall k, (k < nk)%nat -> matrix_derivative norb (fun s => H0 s k) 0 (moved_matrix o1 no I (dH0 k))) /\
  (forall k, (k < nk)%nat -> matrix_derivative norb (fun s => S s k) 0 (moved_matrix o1 no I (dS k))) /\
  (forall s, filling norb nk wk (f s) = c) /\
  (forall s k a, (k < nk)%nat -> (a < norb)%nat -> (e s k a - mu) / width < M /\ f s k a = fermi M width (e s k a) mu) /\
  (forall s k a, (k < nk)%nat -> (a < norb)%nat -> eigenstate norb (H0 s k) (S s k) (fun _ _ => 0) (wf s k a) (e s k a)) /\
  state_sum norb nk wk f' (e 0) < 0.
Proof.
  intros M HM. exists 2%nat, 2%nat, 1%nat, (fun I => I), (fun _ => 1%nat), (fun _ => 1), 1, 0, dimwf, (dimf M), dimf', dime, dimH, dimS, (fun _ _ _ => c0), dimdH, dimdS, 0%nat, 2.
  assert (h := half2).
  split. { split; [|reflexivity]. intros I HI. destruct I as [|[|I]]; [reflexivity|reflexivity|lia]. }
  split; [lia|]. split; [lra|].
  split. { intros s k _ i j Hi Hj. unfold dimH. rewrite (Nat.eqb_sym i j). apply cplx_eq; cbn [rc cconj fst snd]; ring. }
  split. { intros s k _ i j Hi Hj. unfold dimS. rewrite (Nat.eqb_sym i j). apply cplx_eq; cbn [rc cconj fst snd]; ring. }
  split. { intros s k a _ Ha. unfold bracket, dimS, dimwf. destruct a as [|[|a]]; [| |lia]; unfold csum; cbn [fold_right fold_left seq map rsum Nat.eqb]; apply cplx_eq; cbn [rc cconj cmul cadd c0 c1 fst snd]; first [ring|transitivity (2 * (/ sqrt 2 * / sqrt 2)); [ring|rewrite h; lra]]. }
  split. { intros k a _ _ i _. unfold dimwf. split; cbn [rc fst snd c0]; apply derivable_pt_lim_const. }
  split. { intros k a _ Ha. unfold dimf, dimf'. cbv zeta. pose proof (exp_pos 1) as P1.
    destruct a as [|[|a]]; [| |lia]; cbn [dime Nat.eqb].
    - apply (D_ext (fun s => 2 / (exp (- hop s) + 1))); [intros s; rewrite fermi_at; [reflexivity|pose proof (hop_bounds s); lra]|].
      eapply D_rew; [apply (D_fermi_neg (fun s => - hop s)); apply (derivable_pt_lim_opp hop); exact D_hop|]. rewrite hop0, exp_Ropp. field. split; lra.
    - apply (D_ext (fun s => 2 / (exp (hop s) + 1))); [intros s; rewrite fermi_at; [reflexivity|pose proof (hop_bounds s); lra]|].
      eapply D_rew; [apply (D_fermi_neg hop); exact D_hop|]. rewrite hop0. field. lra. }
  split. { intros k _ i j Hi Hj. unfold dimH. destruct i as [|[|i]], j as [|[|j]]; try lia; cbn [Nat.eqb]; split; cbn [rc fst snd moved_matrix owns dimdH andb Nat.leb Nat.ltb Nat.add Nat.eqb cadd cconj c0];
      try (eapply D_rew; [apply derivable_pt_lim_const|ring]); (eapply D_rew; [exact D_hop|ring]). }
  split. { intros k _ i j Hi Hj. unfold dimS. destruct i as [|[|i]], j as [|[|j]]; try lia; cbn [Nat.eqb]; split; cbn [rc fst snd moved_matrix owns dimdS andb Nat.leb Nat.ltb Nat.add Nat.eqb cadd cconj c0];
      (eapply D_rew; [apply derivable_pt_lim_const|ring]). }
  split. { intros s. unfold filling, dimf. cbn [rsum dime Nat.eqb]. rewrite !fermi_at by (pose proof (hop_bounds s); lra). rewrite exp_Ropp. pose proof (exp_pos (hop s)). field. split; lra. }
  split. { intros s k a _ Ha. split; [|reflexivity]. unfold dime. pose proof (hop_bounds s). destruct (a =? 0)%nat; lra. }
  split. { intros s k a _ Ha i Hi. unfold dimH, dimS, dimwf, dime. destruct a as [|[|a]]; [| |lia]; (destruct i as [|[|i]]; [| |lia]); unfold csum; cbn [fold_right fold_left seq map rsum Nat.eqb]; apply cplx_eq; cbn [rc cconj cmul cadd cscale c0 c1 fst snd]; ring. }
  unfold state_sum, dimf', dime. cbn [rsum Nat.eqb]. rewrite hop0. pose proof (exp_pos 1) as P. assert (0 < 2 * exp 1 / (exp 1 + 1) ^ 2) by (apply Rdiv_lt_0_compat; [lra|apply pow_lt; lra]). lra.
Qed.

(** the band energy of the dimer does not change as its forces say *)
Lemma energy_not_gradient : forall M, 2 < M -> exists norb N nk o1 no wk width mu (wf : R -> nat -> nat -> nat -> cplx) (f e : R -> nat -> nat -> R) (H0 S : R -> kmatrix) dH0 dS I c,
  layout norb N o1 no /\ (I < N)%nat /\ 0 < width /\
  (forall s, khermitian norb nk (H0 s)) /\ (forall s, khermitian norb nk (S s)) /\ (forall s, normalised norb nk (S s) (wf s)) /\
  (forall k, (k < nk)%nat -> matrix_derivative norb (fun s => H0 s k) 0 (moved_matrix o1 no I (dH0 k))) /\
  (forall k, (k < nk)%nat -> matrix_derivative norb (fun s => S s k) 0 (moved_matrix o1 no I (dS k))) /\
  (forall s k a, (k < nk)%nat -> (a < norb)%nat -> eigenstate norb (H0 s k) (S s k) (fun _ _ => 0) (wf s k a) (e s k a)) /\
  (forall s k a, (k < nk)%nat -> (a < norb)%nat -> f s k a = fermi M width (e s k a) mu) /\ (forall s, filling norb nk wk (f s) = c) /\
  exists d, derivable_pt_lim (fun s => fst (ebs_c norb nk wk (krho norb (wf s) (f s)) (H0 s))) 0 d /\
    d < - band_structure_force norb nk o1 no wk (dH_scc false (fun _ _ => 0) dH0 dS) dS (krho norb (wf 0) (f 0)) (krhoe norb (wf 0) (f 0) (e 0)) I.
Proof.
  intros M HM. destruct (dimer M HM) as (norb & N & nk & o1 & no & wk & width & mu & wf & f & f' & e & H0 & S & wf' & dH0 & dS & I & c & L & HI & W & HH & HS & Hn & Dw & Df & DH & DS & C & F & HE & neg).
  exists norb, N, nk, o1, no, wk, width, mu, wf, f, e, H0, S, dH0, dS, I, c.
  repeat (split; [first [assumption|intros s k a Hk Ha; apply F; assumption]|]).
  eexists. split; [exact (nonscc_force_occ norb N nk o1 no wk wf f f' (e 0) H0 S wf' dH0 dS I L HI (HH 0) (HS 0) Hn Dw Df DH DS (HE 0))|lra].
Qed.
