From Coq Require Import Reals Lra Lia ZArith List Bool Arith String.
From Verif Require Import Vec GeomModel GeomProofs PairModel PairSpec.
Import ListNotations.
Open Scope R_scope.

(** ** sums *)
Lemma rsum_involution n f inv : (forall i, (i < n)%nat -> (inv i < n)%nat /\ inv (inv i) = i) ->
  rsum n (fun i => f (inv i)) = rsum n f.
Proof.
  intros H.
  rewrite (rsum_ext n (fun i => f (inv i)) (fun i => rsum n (fun j => if (j =? inv i)%nat then f j else 0))).
  2:{ intros i Hi. destruct (H i Hi) as [H1 _]. symmetry.
      rewrite (rsum_single n (inv i)); [rewrite Nat.eqb_refl; reflexivity|exact H1|].
      intros j _ Hne. rewrite (proj2 (Nat.eqb_neq j (inv i)) Hne). reflexivity. }
  rewrite rsum_swap. apply rsum_ext. intros j Hj. destruct (H j Hj) as [H1 H2].
  rewrite (rsum_single n (inv j)); [|exact H1|].
  - rewrite H2, Nat.eqb_refl. reflexivity.
  - intros i Hi Hne. destruct (H i Hi) as [_ H3]. rewrite (proj2 (Nat.eqb_neq j (inv i))); [reflexivity|].
    intros E. apply Hne. rewrite E. symmetry. exact H3.
Qed.

(** sum over i<=j, as the code loops *)
Lemma triangle_sum N (H : nat -> nat -> R) (c : nat -> nat -> R) :
  (forall i j, i <> j -> c i j = 1) -> (forall i, c i i = / 2) ->
  rsum N (fun i => rsum (N - i) (fun j' => c i (i + j')%nat * (H i (i + j')%nat + H (i + j')%nat i))) =
  rsum N (fun i => rsum N (fun j => H i j)).
Proof.
  intros C1 C2.
  assert (G : forall i, (i < N)%nat -> rsum (N - i) (fun j' => c i (i + j')%nat * (H i (i + j')%nat + H (i + j')%nat i)) =
     rsum N (fun j => if (j <? i)%nat then 0 else if (j =? i)%nat then H i i else H i j + H j i)).
  { intros i Hi. replace N with (i + (N - i))%nat at 2 by lia. rewrite rsum_split.
    rewrite (rsum_eq0 i) by (intros j Hj; rewrite (proj2 (Nat.ltb_lt j i) Hj); reflexivity). rewrite Rplus_0_l.
    apply rsum_ext. intros j Hj. rewrite (proj2 (Nat.ltb_ge (i + j) i)) by lia.
    destruct (Nat.eqb_spec (i + j) i) as [E|E].
    - rewrite E, C2. lra.
    - rewrite C1 by lia. lra. }
  rewrite (rsum_ext N _ _ G).
  rewrite (rsum_ext N _ (fun i => rsum N (fun j => if (j <? i)%nat then 0 else H i j) + rsum N (fun j => if (j <=? i)%nat then 0 else H j i))).
  2:{ intros i Hi. rewrite <- rsum_plus. apply rsum_ext. intros j Hj.
      destruct (Nat.ltb_spec j i), (Nat.leb_spec j i), (Nat.eqb_spec j i); subst; try lia; lra. }
  rewrite rsum_plus. rewrite (rsum_swap N N (fun i j => if (j <=? i)%nat then 0 else H j i)).
  rewrite <- rsum_plus. apply rsum_ext. intros i Hi. rewrite <- rsum_plus. apply rsum_ext. intros j Hj.
  destruct (Nat.ltb_spec j i), (Nat.leb_spec i j); try lia; lra.
Qed.

Lemma derivable_rsum n (f : nat -> R -> R) x l :
  (forall i, (i < n)%nat -> derivable_pt_lim (f i) x (l i)) ->
  derivable_pt_lim (fun t => rsum n (fun i => f i t)) x (rsum n l).
Proof.
  induction n as [|n IH]; intros H; cbn [rsum]; [apply derivable_pt_lim_const|].
  apply (derivable_pt_lim_plus (fun t => rsum n (fun i => f i t)) (f n)); [apply IH; intros; apply H; lia|apply H; lia].
Qed.

(** functions equal near x have the same derivative *)
Lemma derivable_local f g x l e : 0 < e -> (forall y, Rabs (y - x) < e -> f y = g y) ->
  derivable_pt_lim g x l -> derivable_pt_lim f x l.
Proof.
  intros He H D eps Heps. destruct (D eps Heps) as [d Hd].
  assert (P : 0 < Rmin d e) by (apply Rmin_pos; [apply cond_pos|exact He]).
  exists (mkposreal _ P). intros h Hh Hl. cbn in Hl.
  pose proof (Rmin_l d e). pose proof (Rmin_r d e).
  rewrite H by (replace (x + h - x) with h by ring; lra). rewrite (H x) by (replace (x - x) with 0 by ring; rewrite Rabs_R0; lra).
  apply Hd; [exact Hh|lra].
Qed.

(** ** vectors *)
Lemma vdot_sym a b : vdot a b = vdot b a. Proof. vunf; ring. Qed.
Lemma mv_sub m a b : mv m (vsub a b) = vsub (mv m a) (mv m b). Proof. apply v3_eq; vunf; ring. Qed.
Lemma vnorm_nonneg a : 0 <= vnorm a. Proof. apply sqrt_pos. Qed.
Lemma vdot_self_nonneg a : 0 <= vdot a a. Proof. vunf; nra. Qed.

(** d/ds |A + s B| at 0 *)
Lemma norm_derivative A B : 0 < vnorm A ->
  derivable_pt_lim (fun s => vnorm (vadd A (vscale s B))) 0 (vdot A B / vnorm A).
Proof.
  intros HA. unfold vnorm in *.
  set (q := fun s => vdot A A + 2 * s * vdot A B + s * s * vdot B B).
  assert (Q0 : q 0 = vdot A A) by (unfold q; ring).
  assert (HA2 : 0 < vdot A A).
  { destruct (Rle_lt_or_eq_dec 0 (vdot A A)) as [P|P]; [apply vdot_self_nonneg|exact P|]. rewrite <- P, sqrt_0 in HA. lra. }
  apply derivable_local with (g := comp sqrt q) (e := 1); [lra| |].
  - intros s _. unfold comp, q. f_equal. vunf. ring.
  - replace (vdot A B / sqrt (vdot A A)) with (/ (2 * sqrt (q 0)) * (2 * vdot A B)).
    + apply derivable_pt_lim_comp.
      * unfold q. replace (2 * vdot A B) with (0 + 2 * vdot A B + 0) by ring.
        apply (derivable_pt_lim_plus (fun s => vdot A A + 2 * s * vdot A B) (fun s => s * s * vdot B B)).
        -- apply (derivable_pt_lim_plus (fun _ => vdot A A) (fun s => 2 * s * vdot A B)); [apply derivable_pt_lim_const|].
           replace (2 * vdot A B) with ((0 * id 0 + 2 * 1) * vdot A B + 2 * id 0 * 0) by (unfold id; ring).
           apply (derivable_pt_lim_mult (fun s => 2 * s) (fun _ => vdot A B)); [|apply derivable_pt_lim_const].
           apply (derivable_pt_lim_mult (fun _ => 2) id); [apply derivable_pt_lim_const|apply derivable_pt_lim_id].
        -- replace 0 with ((1 * id 0 + id 0 * 1) * vdot B B + id 0 * id 0 * 0) at 2 by (unfold id; ring).
           apply (derivable_pt_lim_mult (fun s => s * s) (fun _ => vdot B B)); [|apply derivable_pt_lim_const].
           apply (derivable_pt_lim_mult id id); apply derivable_pt_lim_id.
      * apply derivable_pt_lim_sqrt. rewrite Q0. exact HA2.
    + rewrite Q0. field. apply Rgt_not_eq, HA.
Qed.

Lemma norm_continuous A B eps : 0 < eps -> exists e, 0 < e /\ forall s, Rabs s < e ->
  Rabs (vnorm (vadd A (vscale s B)) - vnorm A) < eps.
Proof.
  intros He.
  assert (C : continuity_pt (fun s => vnorm (vadd A (vscale s B))) 0).
  { apply (continuity_pt_comp (fun s => vdot (vadd A (vscale s B)) (vadd A (vscale s B))) sqrt).
    - apply derivable_continuous_pt. unfold vdot, vadd, vscale. cbn [vx vy vz]. reg.
    - apply continuity_pt_sqrt. apply vdot_self_nonneg. }
  destruct (C eps He) as (d & Hd & H). exists d. split; [exact Hd|]. intros s Hs.
  destruct (Req_dec s 0) as [->|Hne].
  - replace (vadd A (vscale 0 B)) with A by (apply v3_eq; vunf; ring). replace (vnorm A - vnorm A) with 0 by ring. rewrite Rabs_R0. exact He.
  - specialize (H s). cbn in H. unfold R_dist in H. replace (vadd A (vscale 0 B)) with A in H by (apply v3_eq; vunf; ring).
    apply H. split; [split; [exact Logic.I|auto]|]. rewrite Rminus_0_r. exact Hs.
Qed.

Section Forces.
Variables (N nimg : nat) (O : nat -> m3) (t : nat -> v3) (inv : nat -> nat).
Hypothesis Him : images nimg O t inv.
Variables V dV : nat -> nat -> R -> R.
Variable rmax : R.
Variables r u : nat -> v3.
Local Notation Rn0 := (place O t r).
(** the images of the moved atoms *)
Definition Rnm (s : R) := place O t (moved r u s).

Hypothesis Hsym : forall i j d, (i < N)%nat -> (j < N)%nat -> dV i j d = dV j i d.
Hypothesis Hder : forall i j n, (i < N)%nat -> (j < N)%nat -> (n < nimg)%nat -> self_pair n i j = false ->
  0 < dist Rn0 n i j /\ dist Rn0 n i j <> rmax /\
  (dist Rn0 n i j < rmax -> derivable_pt_lim (V i j) (dist Rn0 n i j) (dV i j (dist Rn0 n i j))).

Definition A n i j : v3 := rijn Rn0 n i j.
Definition B n i j : v3 := vsub (mv (O n) (u j)) (u i).

Lemma place0 s i : Rnm s 0%nat i = moved r u s i.
Proof. unfold Rnm, place. destruct (im_id _ _ _ _ Him) as [-> ->]. apply v3_eq; vunf; ring. Qed.
Lemma rijn_moved s n i j : rijn (Rnm s) n i j = vadd (A n i j) (vscale s (B n i j)).
Proof.
  unfold rijn. rewrite place0. unfold A, rijn, B, Rnm, place, moved.
  destruct (im_id _ _ _ _ Him) as [-> ->]. apply v3_eq; vunf; ring.
Qed.

(** derivative of one term of the energy *)
Definition term (i j n : nat) (s : R) : R :=
  if self_pair n i j then 0
  else if ltb rmax (dist (Rnm s) n i j) then 0
  else if (i =? j)%nat then / 2 * V i j (dist (Rnm s) n i j)
  else V i j (dist (Rnm s) n i j).
(** w'(d) A.x/d for pairs inside the cutoff *)
Definition hterm (i j n : nat) (x : v3) : R :=
  if self_pair n i j then 0
  else if ltb (dist Rn0 n i j) rmax then dV i j (dist Rn0 n i j) * (vdot (A n i j) x / dist Rn0 n i j) else 0.
Definition cw (i j : nat) : R := if (i =? j)%nat then / 2 else 1.

Lemma term_derivative i j n : (i < N)%nat -> (j < N)%nat -> (n < nimg)%nat ->
  derivable_pt_lim (term i j n) 0 (cw i j * hterm i j n (B n i j)).
Proof.
  intros Hi Hj Hn. unfold term, hterm. destruct (self_pair n i j) eqn:S; [rewrite Rmult_0_r; apply derivable_pt_lim_const|].
  destruct (Hder i j n Hi Hj Hn S) as (Hp & Hne & HD).
  destruct (norm_continuous (A n i j) (B n i j) (Rabs (dist Rn0 n i j - rmax))) as (e & He & Hc).
  { apply Rabs_pos_lt. lra. }
  assert (Hd : forall s, dist (Rnm s) n i j = vnorm (vadd (A n i j) (vscale s (B n i j)))) by (intros; unfold dist; rewrite rijn_moved; reflexivity).
  destruct (ltb (dist Rn0 n i j) rmax) eqn:L; [apply ltb_true in L|apply ltb_false in L].
  - apply derivable_local with (g := fun s => cw i j * V i j (vnorm (vadd (A n i j) (vscale s (B n i j))))) (e := e); [exact He| |].
    + intros s Hs. rewrite Rminus_0_r in Hs. specialize (Hc s Hs). rewrite Hd.
      rewrite (proj2 (ltb_false rmax _)).
      * unfold cw. destruct (i =? j)%nat; ring.
      * rewrite (Rabs_left (dist Rn0 n i j - rmax)) in Hc by lra. apply Rabs_def2 in Hc. unfold dist in *. fold (A n i j) in *. lra.
    + apply (derivable_pt_lim_scal (fun s => V i j (vnorm (vadd (A n i j) (vscale s (B n i j))))) (cw i j)).
      apply (derivable_pt_lim_comp (fun s => vnorm (vadd (A n i j) (vscale s (B n i j)))) (V i j)).
      * apply norm_derivative. exact Hp.
      * replace (vadd (A n i j) (vscale 0 (B n i j))) with (A n i j) by (apply v3_eq; vunf; ring). apply HD, L.
  - rewrite Rmult_0_r. apply derivable_local with (g := fun _ => 0) (e := e); [exact He| |apply derivable_pt_lim_const].
    intros s Hs. rewrite Rminus_0_r in Hs. specialize (Hc s Hs). rewrite Hd.
    rewrite (proj2 (ltb_true rmax _)); [reflexivity|].
    rewrite (Rabs_right (dist Rn0 n i j - rmax)) in Hc by lra. apply Rabs_def2 in Hc. unfold dist in *. fold (A n i j) in *. lra.
Qed.

(** the same pair seen from the other atom *)
Lemma A_inverse n i j : (n < nimg)%nat -> A (inv n) j i = vscale (-1) (mv (O (inv n)) (A n i j)).
Proof.
  intros Hn. unfold A, rijn, place. destruct (im_id _ _ _ _ Him) as [-> ->].
  pose proof (im_inverse _ _ _ _ Him n (r j) Hn) as E.
  set (y := vadd (mv (O n) (r j)) (t n)) in *.
  replace (vadd (mv eye (r j)) vzero) with (r j) by (apply v3_eq; vunf; ring). rewrite <- E.
  apply v3_eq; vunf; ring.
Qed.
Lemma O_inverse n p : (n < nimg)%nat -> mv (O (inv n)) (mv (O n) p) = p.
Proof.
  intros Hn. pose proof (im_inverse _ _ _ _ Him n p Hn) as E1. pose proof (im_inverse _ _ _ _ Him n vzero Hn) as E2.
  assert (mv (O (inv n)) (mv (O n) p) = vsub (vadd (mv (O (inv n)) (vadd (mv (O n) p) (t n))) (t (inv n)))
     (vadd (mv (O (inv n)) (vadd (mv (O n) vzero) (t n))) (t (inv n)))) as -> by (apply v3_eq; vunf; ring).
  rewrite E1, E2. apply v3_eq; vunf; ring.
Qed.
Lemma dist_inverse n i j : (n < nimg)%nat -> dist Rn0 (inv n) j i = dist Rn0 n i j.
Proof.
  intros Hn. unfold dist, vnorm. fold (A (inv n) j i). fold (A n i j). rewrite A_inverse by exact Hn. f_equal.
  destruct (im_inv _ _ _ _ Him n Hn) as [Hi _].
  rewrite <- (im_rigid _ _ _ _ Him (inv n) (A n i j) (A n i j) Hi). set (x := mv _ _). vunf. ring.
Qed.
Lemma self_inverse n i j : (n < nimg)%nat -> self_pair (inv n) j i = self_pair n i j.
Proof.
  intros Hn. unfold self_pair. rewrite Nat.eqb_sym. f_equal.
  destruct (Nat.eqb_spec n 0) as [->|H]; [rewrite (im_inv0 _ _ _ _ Him); reflexivity|].
  apply Nat.eqb_neq. intros E. apply H. destruct (im_inv _ _ _ _ Him n Hn) as [_ <-]. rewrite E. apply (im_inv0 _ _ _ _ Him).
Qed.
Lemma hterm_other n i j : (i < N)%nat -> (j < N)%nat -> (n < nimg)%nat -> hterm i j n (mv (O n) (u j)) = - hterm j i (inv n) (u j).
Proof.
  intros Hi Hj Hn. unfold hterm. rewrite self_inverse, dist_inverse by exact Hn.
  destruct (self_pair n i j) eqn:Sp; [ring|]. destruct (ltb _ _) eqn:L; [|ring].
  rewrite (Hsym j i) by assumption. rewrite A_inverse by exact Hn.
  destruct (im_inv _ _ _ _ Him n Hn) as [Hin _].
  assert (E : vdot (mv (O (inv n)) (A n i j)) (u j) = vdot (A n i j) (mv (O n) (u j))).
  { rewrite <- (im_rigid _ _ _ _ Him (inv n) (A n i j) (mv (O n) (u j)) Hin). rewrite O_inverse by exact Hn. reflexivity. }
  replace (vdot (vscale (-1) (mv (O (inv n)) (A n i j))) (u j)) with (- vdot (mv (O (inv n)) (A n i j)) (u j)) by (set (x := mv _ _); vunf; ring).
  rewrite E. destruct (Hder i j n Hi Hj Hn Sp) as (Hp & _). field. lra.
Qed.

Lemma hterm_B i j n : hterm i j n (B n i j) = hterm i j n (mv (O n) (u j)) - hterm i j n (u i).
Proof.
  unfold hterm. destruct (self_pair n i j); [ring|]. destruct (ltb _ _); [|ring].
  unfold B. replace (vdot (A n i j) (vsub (mv (O n) (u j)) (u i))) with (vdot (A n i j) (mv (O n) (u j)) - vdot (A n i j) (u i))
    by (set (x := mv _ _); vunf; ring). unfold Rdiv. ring.
Qed.

Lemma force_dot i : vdot (force N nimg Rn0 dV rmax i) (u i) = rsum N (fun j => rsum nimg (fun n => hterm i j n (u i))).
Proof.
  assert (E : forall m f x, vdot (vsum m f) x = rsum m (fun k => vdot (f k) x)).
  { intros m f x. unfold vsum, vdot. cbn [vx vy vz]. rewrite !rsum_plus, !rsum_scal_r. reflexivity. }
  unfold force. rewrite E. apply rsum_ext. intros j _. rewrite E. apply rsum_ext. intros n _.
  unfold pair_force, hterm. destruct (self_pair n i j); [vunf; ring|]. destruct (ltb _ _); [|vunf; ring].
  fold (A n i j). unfold Rdiv. vunf. ring.
Qed.

Lemma energy_derivative :
  derivable_pt_lim (fun s => total_energy N nimg (Rnm s) V rmax) 0
    (- rsum N (fun i => vdot (force N nimg Rn0 dV rmax i) (u i))).
Proof.
  assert (D : derivable_pt_lim (fun s => total_energy N nimg (Rnm s) V rmax) 0
    (rsum N (fun i => rsum (N - i) (fun j' => rsum nimg (fun n => cw i (i + j')%nat * hterm i (i + j')%nat n (B n i (i + j')%nat)))))).
  { unfold total_energy. apply (derivable_rsum N (fun i s => rsum (N - i) (fun j' => pair_energy nimg (Rnm s) V rmax i (i + j')))).
    intros i Hi. apply (derivable_rsum (N - i) (fun j' s => pair_energy nimg (Rnm s) V rmax i (i + j'))). intros j Hj.
    unfold pair_energy. apply (derivable_rsum nimg (fun n s => term i (i + j)%nat n s)). intros n Hn. apply term_derivative; lia. }
  match type of D with derivable_pt_lim _ _ ?x => assert (E : x = - rsum N (fun i => vdot (force N nimg Rn0 dV rmax i) (u i))) end;
   [|rewrite E in D; exact D]. clear D.
  set (H := fun i j => rsum nimg (fun n => hterm i j n (u i))).
  rewrite (rsum_ext N (fun i => vdot (force N nimg Rn0 dV rmax i) (u i)) (fun i => rsum N (fun j => H i j))) by (intros; apply force_dot).
  rewrite <- (triangle_sum N H cw).
  - rewrite <- rsum_opp. apply rsum_ext. intros i Hi. rewrite <- rsum_opp. apply rsum_ext. intros j' Hj'.
    set (j := (i + j')%nat). assert (Hj : (j < N)%nat) by lia. unfold H.
    rewrite rsum_scal.
    rewrite (rsum_ext nimg (fun n => hterm i j n (B n i j)) (fun n => (- hterm j i (inv n) (u j)) - hterm i j n (u i))).
    2:{ intros n Hn. rewrite hterm_B, hterm_other by assumption. reflexivity. }
    rewrite rsum_minus, rsum_opp. rewrite (rsum_involution nimg (fun n => hterm j i n (u j)) inv (im_inv _ _ _ _ Him)). ring.
  - intros i j Hne. unfold cw. rewrite (proj2 (Nat.eqb_neq i j) Hne). reflexivity.
  - intros i. unfold cw. rewrite Nat.eqb_refl. reflexivity.
Qed.
End Forces.

(** translations only: forces sum to zero *)
Lemma forces_sum_zero N nimg O t inv V' rmax r (w : v3) : images nimg O t inv ->
  (forall n, (n < nimg)%nat -> O n = eye) ->
  (forall i j d, (i < N)%nat -> (j < N)%nat -> V' i j d = V' j i d) ->
  (forall i j n, (i < N)%nat -> (j < N)%nat -> (n < nimg)%nat -> self_pair n i j = false -> 0 < dist (place O t r) n i j) ->
  rsum N (fun i => vdot (force N nimg (place O t r) V' rmax i) w) = 0.
Proof.
  intros Him HO Hs Hd. set (Rn := place O t r).
  assert (E : forall m f x, vdot (vsum m f) x = rsum m (fun k => vdot (f k) x)).
  { intros m f x. unfold vsum, vdot. cbn [vx vy vz]. rewrite !rsum_plus, !rsum_scal_r. reflexivity. }
  set (G := fun i j => rsum nimg (fun n => vdot (pair_force Rn V' rmax i j n) w)).
  assert (Anti : forall i j, (i < N)%nat -> (j < N)%nat -> G i j = - G j i).
  { intros i j Hi Hj. unfold G. rewrite <- rsum_opp.
    rewrite <- (rsum_involution nimg (fun n => - vdot (pair_force Rn V' rmax j i n) w) inv (im_inv _ _ _ _ Him)).
    apply rsum_ext. intros n Hn. destruct (im_inv _ _ _ _ Him n Hn) as [Hin _]. unfold pair_force, Rn.
    rewrite (self_inverse nimg O t inv Him) by exact Hn. rewrite (dist_inverse nimg O t inv Him r) by exact Hn.
    destruct (self_pair n i j); [vunf; ring|]. destruct (ltb _ _); [|vunf; ring].
    rewrite (Hs j i) by assumption.
    pose proof (A_inverse nimg O t inv Him r n i j Hn) as EA. unfold A in EA. rewrite EA. rewrite (HO (inv n) Hin).
    set (x := rijn _ _ _ _). set (c := V' _ _ _ / _). vunf. ring. }
  rewrite (rsum_ext N _ (fun i => rsum N (fun j => G i j))).
  2:{ intros i Hi. unfold force. rewrite E. apply rsum_ext. intros j _. rewrite E. reflexivity. }
  assert (S : rsum N (fun i => rsum N (fun j => G i j)) = - rsum N (fun i => rsum N (fun j => G i j))).
  { rewrite rsum_swap at 1. rewrite <- rsum_opp. apply rsum_ext. intros i Hi. rewrite <- rsum_opp. apply rsum_ext. intros j Hj. apply Anti; assumption. }
  lra.
Qed.

Lemma energy_is_sum_of_pairs N nimg Rn V rmax :
  total_energy N nimg Rn V rmax = rsum N (fun i => rsum N (fun j => if (i <=? j)%nat then pair_energy nimg Rn V rmax i j else 0)).
Proof.
  unfold total_energy. apply rsum_ext. intros i Hi. replace N with (i + (N - i))%nat at 2 by lia. rewrite rsum_split.
  rewrite (rsum_eq0 i), Rplus_0_l.
  - apply rsum_ext. intros j Hj. rewrite (proj2 (Nat.leb_le i (i + j))) by lia. reflexivity.
  - intros j Hj. rewrite (proj2 (Nat.leb_gt i j)) by lia. reflexivity.
Qed.
