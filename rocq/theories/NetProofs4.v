From Coq Require Import Reals ZArith List Bool Arith Permutation Lia Lra.
From Verif Require Import Vec GeomModel GeomSpec GeomProofs CoulModel CoulProofs MixModel PairModel PairSpec PairProofs SkModel SkSpec SkProofs6 Cpx RhoModel InvModel InvSpec InvProofs9 GamModel GamSpec GamProofs GamProofs2 GamProofs3 GamProofs4 FrcProofs FrcProofs2 NetSpec NetProofs NetProofs3.
Import ListNotations.
Open Scope R_scope.

Lemma cross_self om p : vdot p (vcross om p) = 0.
Proof. destruct om, p. unfold vdot, vcross. cbn. ring. Qed.
Lemma antisym_sum N (W : nat -> nat -> R) : (forall i j, (i < N)%nat -> (j < N)%nat -> W i j + W j i = 0) -> rsum N (fun i => rsum N (fun j => W i j)) = 0.
Proof.
  intros H. assert (E : rsum N (fun i => rsum N (fun j => W i j)) + rsum N (fun i => rsum N (fun j => W i j)) = 0); [|lra].
  rewrite (rsum_swap N N W) at 2. rewrite <- rsum_plus. rewrite (rsum_ext N _ (fun _ => 0)); [apply rsum_zero|]. intros i Hi.
  rewrite <- rsum_plus. rewrite (rsum_ext N _ (fun _ => 0)); [apply rsum_zero|]. intros j Hj. apply H; assumption.
Qed.
(** ** pair potentials *)
Section PairNet.
Context (N nimg : nat) (O : nat -> m3) (t : nat -> v3) (inv : nat -> nat) (Him : images nimg O t inv).
Context (dV : nat -> nat -> R -> R) (rmax : R) (r u : nat -> v3).
Context (Hsym : forall i j d, (i < N)%nat -> (j < N)%nat -> dV i j d = dV j i d).
Context (s : R) (om : v3) (Hu : forall n i j, (n < nimg)%nat -> vsub (mv (O n) (u j)) (u i) = vscale s (vcross om (PairProofs.A O t r n i j))).
Lemma hterm_back n i j : (i < N)%nat -> (j < N)%nat -> (n < nimg)%nat -> hterm O t dV rmax r i j n (mv (O n) (u j)) = - hterm O t dV rmax r j i (inv n) (u j).
Proof.
  intros Hi Hj Hn. unfold hterm. rewrite (self_inverse nimg O t inv Him), (dist_inverse nimg O t inv Him) by exact Hn.
  destruct (self_pair n i j); [ring|]. destruct (ltb _ _); [|ring].
  rewrite (Hsym j i) by assumption. rewrite (A_inverse nimg O t inv Him) by exact Hn.
  destruct (im_inv _ _ _ _ Him n Hn) as [Hin _].
  assert (E : vdot (mv (O (inv n)) (PairProofs.A O t r n i j)) (u j) = vdot (PairProofs.A O t r n i j) (mv (O n) (u j))).
  { rewrite <- (im_rigid _ _ _ _ Him (inv n) (PairProofs.A O t r n i j) (mv (O n) (u j)) Hin). rewrite (O_inverse nimg O t inv Him) by exact Hn. reflexivity. }
  replace (vdot (vscale (-1) (mv (O (inv n)) (PairProofs.A O t r n i j))) (u j)) with (- vdot (mv (O (inv n)) (PairProofs.A O t r n i j)) (u j)) by (set (x := mv _ _); vunf; ring).
  rewrite E. unfold Rdiv. ring.
Qed.
Lemma pair_net : rsum N (fun i => vdot (force N nimg (place O t r) dV rmax i) (u i)) = 0.
Proof.
  rewrite (rsum_ext N _ (fun i => rsum N (fun j => rsum nimg (fun n => hterm O t dV rmax r i j n (u i))))) by (intros; apply force_dot).
  apply (antisym_sum N (fun i j => rsum nimg (fun n => hterm O t dV rmax r i j n (u i)))). intros i j Hi Hj.
  rewrite <- (rsum_involution nimg (fun n => hterm O t dV rmax r j i n (u j)) inv (im_inv _ _ _ _ Him)), <- rsum_plus.
  rewrite (rsum_ext nimg _ (fun _ => 0)); [apply rsum_zero|]. intros n Hn.
  pose proof (hterm_back n i j Hi Hj Hn) as E1. pose proof (hterm_B O t dV rmax r u i j n) as E2.
  assert (E3 : hterm O t dV rmax r i j n (PairProofs.B O u n i j) = 0); [|lra].
  unfold hterm, PairProofs.B. rewrite Hu by exact Hn. destruct (self_pair n i j); [reflexivity|]. destruct (ltb _ _); [|reflexivity].
  replace (vdot (PairProofs.A O t r n i j) (vscale s (vcross om (PairProofs.A O t r n i j)))) with (s * vdot (PairProofs.A O t r n i j) (vcross om (PairProofs.A O t r n i j))) by (set (x := vcross _ _); vunf; ring).
  rewrite cross_self. unfold Rdiv. ring.
Qed.
End PairNet.
(** ** charges *)
Section CoulNet.
Context (cs : list cell) (tr0 : cell -> v3) (rot : cell -> m3) (inv : cell -> cell) (Hc : closed_images cs tr0 rot inv).
Context (N : nat) (cutoff : option R) (Bohr : R) (term : nat -> nat -> R -> R * R) (q : nat -> R) (r : nat -> v3) (w om : v3).
Context (Mo : forall c, In c cs -> moves_along w om (rot c) (tr0 c)).
Context (Ht : forall i j d, (i < N)%nat -> (j < N)%nat -> term i j d = term j i d).
Notation u := (fun i => rigid_velocity w om (r i)).
Notation nbs := (flat_map (cell_neighbours N r tr0 rot cutoff) cs).
Definition kc (c : cell) (i j : nat) : R := if mask r tr0 rot cutoff c i j then q i * q j * (snd (term i j (vnorm (drv r tr0 rot c i j) / Bohr)) * / vnorm (drv r tr0 rot c i j)) else 0.
Lemma kc_back c i j : (i < N)%nat -> (j < N)%nat -> kc (inv c) j i = kc c i j.
Proof. intros Hi Hj. unfold kc. rewrite (mask_back cs tr0 rot inv Hc), (dist_back cs tr0 rot inv Hc), (Ht j i) by assumption. destruct (mask _ _ _ _ _ _ _); ring. Qed.
Lemma coul_net : rsum N (fun i => q i * rsum N (fun j => q j * vdot (gamma_dG Bohr term nbs i j) (u i))) = 0.
Proof.
  set (W := fun i j => gsum cs (fun c => kc c i j * vdot (drv r tr0 rot c i j) (u i))).
  transitivity (rsum N (fun i => rsum N (fun j => W i j))).
  - apply rsum_ext. intros i Hi. rewrite <- rsum_scal. apply rsum_ext. intros j Hj.
    rewrite (dG_value N r tr0 rot cutoff Bohr (fun _ => 0) term (fun v => vdot v (u i))); [|intros; vunf; ring|vunf; ring|exact Hi|exact Hj].
    unfold W. rewrite <- Rmult_assoc, <- lsum_scal. apply lsum_ext. intros c Hin. unfold kc. destruct (mask r tr0 rot cutoff c i j); [|ring].
    set (v := drv r tr0 rot c i j). set (x := rigid_velocity _ _ _). vunf. ring.
  - apply antisym_sum. intros i j Hi Hj. unfold W. rewrite (lsum_inv cs tr0 rot inv Hc (fun c => kc c j i * vdot (drv r tr0 rot c j i) (u j))). rewrite <- lsum_plus.
    transitivity (gsum cs (fun c => 0 * 0)); [|rewrite lsum_scal; ring]. apply lsum_ext. intros c Hin. rewrite kc_back by assumption.
    pose proof (AB_split cs tr0 rot inv Hc r u c i j) as E. unfold GamProofs2.A in E.
    assert (E0 : vdot (drv r tr0 rot c i j) (GamProofs2.B rot u c i j) = 0).
    { unfold GamProofs2.B. pose proof (motion_difference w om (rot c) (tr0 c) (r i) (r j) (Mo c Hin)) as M.
      set (x := mv (rot c) (rigid_velocity w om (r j))) in *. set (y := rigid_velocity w om (r i)) in *.
      replace (vsub y x) with (vscale (-1) (vsub x y)) by (apply v3_eq; vunf; ring). rewrite M.
      assert (ED : vsub (vadd (mv (rot c) (r j)) (tr0 c)) (r i) = vscale (-1) (drv r tr0 rot c i j)) by (unfold drv, image; set (m := mv _ _); apply v3_eq; vunf; ring).
      rewrite ED. set (d := drv r tr0 rot c i j). clearbody d x y. destruct om, d. unfold vdot, vscale, vcross. cbn. ring. }
    rewrite E0 in E. nra.
Qed.
End CoulNet.
