From Coq Require Import Reals ZArith List Bool Arith Lia Lra FunctionalExtensionality.
From Verif Require Import Vec GeomModel GeomSpec GeomProofs CoulModel CoulProofs MixModel OccModel PairModel PairSpec SkModel SkSpec SkProofs Cpx RhoModel RhoSpec EigModel EigSpec InvModel InvSpec InvLin InvProofs3 InvProofs5 InvProofs9 InvProofs10 InvProofs14 GamModel GamSpec FrcSpec InvProofs13 FrcProofs10 BndProofs2 BndProofs5 FoldSpec FoldProofs6 FoldProofs12 FoldProofs14 NetSpec NetProofs NetProofs6 NetProofs7 NetProofs8.
Import ListNotations.
Open Scope R_scope.

Lemma fold_same (f : R -> R -> R) (x : R) l : f x x = x -> (forall y, In y l -> y = x) -> fold_left f l x = x.
Proof. intros E. induction l as [|y l IH]; intros H; [reflexivity|]. cbn [fold_left]. rewrite (H y (or_introl eq_refl)), E. apply IH. intros u Hu. apply H. right. exact Hu. Qed.
Section Flat.
Context (g : structure) (inv : nat -> nat) (Sg : sound D0 g inv) (HN : g_N g = 1%nat) (Hnk : (0 < g_nk g)%nat) (Hwk : rsum (g_nk g) (g_wk g) = 1) (Hch : g_charge g = 0).
Context (Far : forall n, (n < g_nimg g)%nat -> n <> 0%nat -> / 10 < dist (g_Rn 1 g) n 0 0).

Context (erfc : R -> R) (gaussian : bool) (gamma_cut : option R) (goal : R) (evmin : (nat -> nat -> cplx) -> R) (w0 : nat -> nat -> R) (m : mixer) (s : mst m) (u : vec).
Let X : system := XF g erfc gaussian gamma_cut goal.
Lemma flat_reliable : reliable z1 w0 X.
Proof. destruct (flat_fields g HN Hch Far erfc gaussian gamma_cut goal) as (E1 & _ & _ & _ & _ & _ & _ & _ & _ & _ & E2 & _). apply z1_reliable; assumption. Qed.
Lemma flat_pass : exists e wf, pass z1 evmin w0 0 X None = Some (fun _ _ => 0, e, wf) /\ (forall k, (k < g_nk g)%nat -> e k 0%nat = -1) /\ forall k, (k < g_nk g)%nat -> fst (wf k 0 0)%nat ^ 2 + snd (wf k 0 0)%nat ^ 2 = 1.
Proof.
  destruct (flat_fields g HN Hch Far erfc gaussian gamma_cut goal) as (En & EN & Ek & _ & _ & _ & _ & _ & _ & _ & ES & EH & _). fold X in En, EN, Ek, ES, EH.
  pose proof (assembled_proper _ _ _ _ _ _ _ _ _ _ _ _ _ Sg (flat_assembled g HN Far erfc gaussian gamma_cut goal)) as PX. fold X in PX.
  destruct (solve_system X z1 w0 evmin 0 None (Rle_refl 0) PX flat_reliable ltac:(discriminate)) as (e & wf & E & O & W & _).
  exists e, wf. unfold pass. rewrite E. split; [reflexivity|]. rewrite En, Ek in O, W.
  assert (Q : forall k, (k < g_nk g)%nat -> fst (wf k 0 0)%nat ^ 2 + snd (wf k 0 0)%nat ^ 2 = 1).
  { intros k Hk. specialize (O k 0%nat 0%nat Hk ltac:(lia) ltac:(lia)). unfold bracket, csum, rsum in O. rewrite ES in O. cbn [Nat.eqb] in O. destruct (wf k 0%nat 0%nat) as [x y]. unfold cmul, cconj, c1 in O. cbn [fst snd] in *. apply (f_equal fst) in O. cbn [fst] in O. lra. }
  split; [|exact Q]. intros k Hk. specialize (W k Hk 0%nat 0%nat ltac:(lia) ltac:(lia)). specialize (Q k Hk). unfold csum, rsum in W. rewrite ES, EH in W. destruct (wf k 0%nat 0%nat) as [x y]. unfold cmul, cadd, cscale, c1, rc in W. cbn [fst snd] in *.
  assert (W1 := f_equal fst W). assert (W2 := f_equal snd W). cbn [fst snd] in W1, W2. set (e0 := e k 0%nat) in *.
  assert (K : (e0 + 1) * (x ^ 2 + y ^ 2) = 0); [|rewrite Q in K; lra].
  replace ((e0 + 1) * (x ^ 2 + y ^ 2)) with (x * (e0 * x + x) + y * (e0 * y + y)) by ring.
  replace (e0 * x + x) with 0 by lra. replace (e0 * y + y) with 0 by lra. ring.
Qed.
Lemma flat_occupied e : (forall k, (k < g_nk g)%nat -> e k 0%nat = -1) -> exists f, occupy 100 (g_nk g) 1 (g_wk g) (/ 10) 1 e midpoint = Some (-1, f) /\ forall k, (k < g_nk g)%nat -> f k 0%nat = 1.
Proof.
  intros He. assert (A : forall y, In y (eflat (g_nk g) 1 e) -> y = -1). { intros y Hy. unfold eflat in Hy. apply in_flat_map in Hy. destruct Hy as (k & Hk & Hy). apply in_seq in Hk. cbn [seq map In] in Hy. destruct Hy as [<-|[]]. apply He. lia. }
  unfold occupy, emin, emax. destruct (eflat (g_nk g) 1 e) as [|x l] eqn:El.
  { exfalso. unfold eflat in El. destruct (g_nk g) as [|k]; [lia|]. discriminate. }
  assert (x = -1) by (apply A; left; reflexivity). subst x.
  rewrite (fold_same Rmin) by (solve [apply Rmin_left; lra] || (intros y Hy; apply A; right; exact Hy)). rewrite (fold_same Rmax) by (solve [apply Rmax_left; lra] || (intros y Hy; apply A; right; exact Hy)).
  unfold midpoint. replace ((-1 - / 10 + (-1 + / 10)) / 2) with (-1) by field.
  assert (F : fermi 100 (/ 10) (-1) (-1) = 1). { unfold fermi. replace ((-1 - -1) / / 10) with 0 by field. unfold rlt. destruct (Rlt_dec 0 100); [|lra]. rewrite exp_0. field. }
  assert (G : root_function 100 (g_nk g) 1 (g_wk g) (/ 10) 1 e (-1) = 0).
  { unfold root_function, electrons. rewrite (rsum_ext _ _ (g_wk g)); [rewrite Hwk; ring|]. intros k Hk. unfold rsum. rewrite (He k Hk), F. ring. }
  rewrite G, Rabs_R0. unfold rlt. destruct (Rlt_dec tol 0) as [K|_]; [exfalso; revert K; apply Rle_not_lt; unfold tol; apply Rlt_le, Rinv_0_lt_compat; lra|].
  eexists. split; [reflexivity|]. intros k Hk. cbv beta. rewrite (He k Hk). exact F.
Qed.
Lemma flat_solved maxiter : exists r it n, calculate z1 evmin w0 100 midpoint m 0 0 1 1 1 false (S maxiter) X s u = Solved r it n /\ forall c, r_force r c 0%nat = s_frep X c 0%nat + s_fpp X c 0%nat.
Proof.
  destruct (flat_fields g HN Hch Far erfc gaussian gamma_cut goal) as (En & EN & Ek & Eo & Eno & Ev & EZ & Ew & Ee & Ec & ES & EH & EdH & EdS & (x & Ex) & _). fold X in En, EN, Ek, Eo, Eno, Ev, EZ, Ew, Ee, Ec, ES, EH, EdH, EdS, Ex.
  pose proof (assembled_proper _ _ _ _ _ _ _ _ _ _ _ _ _ Sg (flat_assembled g HN Far erfc gaussian gamma_cut goal)) as PX. fold X in PX.
  assert (Wi : s_width X = / 10) by (unfold X, XF, assemble; rewrite HN, (flat_close g HN Far erfc goal); reflexivity).
  destruct flat_pass as (e & wf & P & He & Hw). destruct (flat_occupied e He) as (f & Oc & Hf).
  assert (Oc' : occupations 100 midpoint X (fun _ _ => 0, e, wf) = Some f) by (unfold occupations; rewrite Ek, En, Ew, Wi, Ee, Oc; reflexivity).
  assert (Q : dq_of (s_norb X) (s_nk X) (s_o1 X) (s_no X) (s_val X) (s_wk X) (density X wf f) (s_S X) 0 = 0).
  { unfold dq_of, atom_sum. rewrite Eno, Eo, Ev. unfold rsum at 1. cbn [Nat.add]. unfold diag. rewrite Ek, Ew.
    rewrite (rsum_ext _ _ (g_wk g)); [rewrite Hwk; ring|]. intros k Hk. unfold diag_k, csum. rewrite En. unfold rsum. rewrite ES. unfold density, compute_rho. rewrite En. unfold csum, rsum. rewrite (Hf k Hk).
    specialize (Hw k Hk). destruct (wf k 0%nat 0%nat) as [p q]. unfold cmul, cscale, cconj, c1. cbn [fst snd] in *.
    match goal with |- ?l = _ => transitivity (g_wk g k * (p ^ 2 + q ^ 2)); [ring|rewrite Hw; ring] end. }
  assert (Ch : charges 100 midpoint 0 X (fun _ _ => 0, e, wf) = Some (dq_of (s_norb X) (s_nk X) (s_o1 X) (s_no X) (s_val X) (s_wk X) (density X wf f) (s_S X))).
  { unfold charges. rewrite Oc'. unfold mulliken. cbv zeta. rewrite EN. cbn [snd]. match goal with |- context [ltb 0 ?x] => replace x with 0 end; [rewrite (proj2 (ltb_false 0 0)) by lra; reflexivity|].
    unfold rsum at 1. rewrite Q, Ec. replace (0 + - 0 - 0) with 0 by ring. symmetry. apply Rabs_R0. }
  set (dq := dq_of (s_norb X) (s_nk X) (s_o1 X) (s_no X) (s_val X) (s_wk X) (density X wf f) (s_S X)) in *.
  unfold calculate, get_states. rewrite P. rewrite Ch. cbv beta iota zeta. unfold finish. cbv beta iota zeta. match goal with |- context [occupations ?a ?b ?c ?p] => replace (occupations a b c p) with (Some f) by (symmetry; exact Oc') end. match goal with |- context [charges ?a ?b ?c ?d ?p] => replace (charges a b c d p) with (Some dq) by (symmetry; exact Ch) end. rewrite EN.
  assert (Sa : sane 1 dq (s_Z X) = true). { unfold sane. cbn [seq forallb]. rewrite Q, EZ. unfold ltb. destruct (Rlt_dec 0 (- (1))); [lra|]. destruct (Rlt_dec 1 0); [lra|]. reflexivity. }
  rewrite Sa. cbn [negb]. unfold band_structure_energy. rewrite (ebs_real X wf f PX). rewrite (proj2 (ltb_true 0 1)) by lra. rewrite Ex. eexists _, _, _. split; [reflexivity|]. intros c. cbn [r_force].
  unfold gamma_force. replace (1 / 1) with 1 by field.
  match goal with |- (?b + ?p + ?q + ?t) * 1 = _ => replace b with 0; [replace q with 0; [ring|]|] end.
  - reflexivity.
  - symmetry. unfold band_structure_force, atom_sum. rewrite Eno, Eo. unfold rsum, fdiag. cbn [Nat.add]. rewrite csum_zero; [unfold c0; cbn [fst snd]; ring|]. intros k Hk. rewrite En. unfold csum, rsum. unfold dH_scc. rewrite EdH, EdS.
    apply cplx_eq; unfold cmul, csub, cadd, copp, cscale, c0; cbn [fst snd]; ring.
Qed.
End Flat.
