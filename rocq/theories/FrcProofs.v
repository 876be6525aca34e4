(** Derivatives of the elements of the gamma matrix; the direct Coulomb sum. *)
From Coq Require Import Reals ZArith List Bool Arith Permutation Lra Lia.
From Verif Require Import SkModel InvModel InvProofs9 Vec GeomModel GeomProofs PairModel PairSpec PairProofs CoulModel CoulProofs GamModel GamSpec GamProofs GamProofs2 GamProofs3 SkProofs6.
Import ListNotations.
Open Scope R_scope.

Notation gsum := GamSpec.lsum.
Lemma lsum_gsum {A} (f : A -> R) l : InvModel.lsum f l = gsum l f.
Proof. induction l as [|a l IH]; [reflexivity|]. cbn. rewrite IH. reflexivity. Qed.
Lemma D_ext f g x l : (forall t, f t = g t) -> derivable_pt_lim f x l -> derivable_pt_lim g x l.
Proof. intros H Hf. apply (derivable_local g f x l 1); [lra|intros; symmetry; apply H|exact Hf]. Qed.
Section Elem.
Context (cs : list cell) (tr0 : cell -> v3) (rot : cell -> m3) (inv : cell -> cell) (Hc : closed_images cs tr0 rot inv).
Context (N : nat) (cutoff : option R) (Bohr : R) (U : nat -> R) (term : nat -> nat -> R -> R * R) (r u : nat -> v3) (HB : 0 < Bohr) (Ht : consistent_term N term).
Context (Hd : forall c i j, In c cs -> (i < N)%nat -> (j < N)%nat -> ~ (c = origin_cell /\ i = j) -> 
  0 < vnorm (drv r tr0 rot c i j) /\ match cutoff with None => True | Some k => vnorm (drv r tr0 rot c i j) <> k end).
Notation nbs p := (flat_map (cell_neighbours N p tr0 rot cutoff) cs).
Notation K1 := (K tr0 rot cutoff Bohr (fun _ => 1) term r).
Lemma dG_dot i j w : (i < N)%nat -> (j < N)%nat -> vdot (gamma_dG Bohr term (nbs r) i j) w = Bohr * gsum cs (fun c => K1 c i j * vdot (A tr0 rot r c i j) w).
Proof.
  intros Hi Hj. rewrite (dG_value N r tr0 rot cutoff Bohr U term (fun v => vdot v w)); [|intros; vunf; ring|vunf; ring|exact Hi|exact Hj].
  rewrite <- lsum_scal. apply lsum_ext. intros c Hin. unfold K. destruct (mask r tr0 rot cutoff c i j) eqn:M; [|ring].
  apply mask_iff in M. destruct (Hd c i j Hin Hi Hj (proj1 M)) as [P _]. unfold A.
  set (v := drv r tr0 rot c i j) in *. replace (vdot (vscale (snd (term i j (vnorm v / Bohr))) (vscale (/ vnorm v) v)) w)
    with (snd (term i j (vnorm v / Bohr)) / vnorm v * vdot v w) by (vunf; field; lra). field. split; lra.
Qed.
Lemma G_elem i j : (i < N)%nat -> (j < N)%nat ->
  derivable_pt_lim (fun s => gamma_G Bohr U term (nbs (moved r u s)) i j) 0
    (- (vdot (gamma_dG Bohr term (nbs r) i j) (u i) + vdot (gamma_dG Bohr term (nbs r) j i) (u j)) / Bohr).
Proof.
  intros Hi Hj.
  apply (derivable_local _ (fun s => (if (i =? j)%nat then U i else 0) + gsum cs (fun c => Tm tr0 rot cutoff Bohr (fun _ => 1) term r u c i j s)) 0 _ 1); [lra| |].
  { intros s _. rewrite G_value by assumption. f_equal. apply lsum_ext. intros c _. unfold Tm. destruct (mask _ _ _ _ _ _ _); [ring|reflexivity]. }
  apply (D_eq _ _ (0 + gsum cs (fun c => - (K1 c i j * vdot (A tr0 rot r c i j) (B rot u c i j))))).
  - apply (D_plus (fun _ => if (i =? j)%nat then U i else 0)); [apply D_const|]. apply (D_lsum cs (fun c => Tm tr0 rot cutoff Bohr (fun _ => 1) term r u c i j)). intros c Hin. apply (term_D cs tr0 rot N cutoff Bohr U); assumption.
  - rewrite !dG_dot by assumption. rewrite (lsum_inv cs tr0 rot inv Hc (fun c => K1 c j i * vdot (A tr0 rot r c j i) (u j))).
    transitivity (gsum cs (fun c => -1 * (K1 c i j * vdot (A tr0 rot r c i j) (u i)) + -1 * (K1 (inv c) j i * vdot (A tr0 rot r (inv c) j i) (u j)))).
    + rewrite Rplus_0_l. apply lsum_ext. intros c _. rewrite (AB_split cs tr0 rot inv Hc), (K_back cs tr0 rot inv Hc N) by assumption. ring.
    + rewrite lsum_plus, !lsum_scal. field. lra.
Qed.
End Elem.

(** ** DirectCoulomb *)
Section Direct.
Context (erfc : R -> R) (cut : option R).
Definition dterm (i j : nat) (d : R) : R * R := (direct_f erfc cut d, direct_df erfc cut d).
Lemma div1 d : d / 1 = d. Proof. field. Qed.
Lemma gamma_is l i j : direct_gamma erfc cut l i j = gamma_G 1 (fun _ => 0) dterm l i j.
Proof.
  unfold direct_gamma, gamma_G. rewrite G_fold, lsum_gsum. replace (if (i =? j)%nat then 0 else 0) with 0 by (destruct (i =? j)%nat; reflexivity).
  rewrite Rplus_0_l. apply lsum_ext. intros b _. unfold dterm. cbn [fst]. rewrite div1. reflexivity.
Qed.
Lemma dgamma_is l c i j : comp c (gamma_dG 1 dterm l i j) = gsum l (fun b => if ((nb_i b =? i) && (nb_j b =? j))%nat then direct_df erfc cut (nb_d b) * comp c (nb_n b) else 0).
Proof.
  unfold gamma_dG. rewrite (dG_fold 1 dterm (comp c)); [|intros; apply comp_vadd]. rewrite comp_vzero, Rplus_0_l. apply lsum_ext. intros b _. unfold dterm. cbn [snd]. rewrite div1, comp_vscale. reflexivity.
Qed.
Lemma pick_j N l (F : neighbour -> R) (q : nat -> R) i : (forall b, In b l -> (nb_j b < N)%nat) ->
  rsum N (fun j => q j * gsum l (fun b => if ((nb_i b =? i) && (nb_j b =? j))%nat then F b else 0)) = gsum l (fun b => if (nb_i b =? i)%nat then q (nb_j b) * F b else 0).
Proof.
  intros H. induction l as [|b l IH]; cbn [GamSpec.lsum].
  - rewrite (rsum_ext N _ (fun _ => 0 * 0)) by (intros; ring). rewrite rsum_scal. ring.
  - rewrite <- IH by (intros b' Hb'; apply H; right; exact Hb').
    assert (E : rsum N (fun j => q j * (if ((nb_i b =? i) && (nb_j b =? j))%nat then F b else 0)) = if (nb_i b =? i)%nat then q (nb_j b) * F b else 0).
    { rewrite (rsum_single N (nb_j b)); [|apply H; left; reflexivity|].
      - rewrite Nat.eqb_refl, andb_true_r. destruct (nb_i b =? i)%nat; ring.
      - intros j _ Ne. rewrite (proj2 (Nat.eqb_neq (nb_j b) j)) by auto. rewrite andb_false_r. ring. }
    rewrite <- E, <- rsum_plus. apply rsum_ext. intros j _. ring.
Qed.
Lemma phi_is N l q i : (forall b, In b l -> (nb_j b < N)%nat) -> direct_phi erfc cut l q i = rsum N (fun j => direct_gamma erfc cut l i j * q j).
Proof.
  intros H. unfold direct_phi. rewrite lsum_gsum. rewrite <- (pick_j N l (fun b => direct_f erfc cut (nb_d b)) q i H). apply rsum_ext. intros j _. unfold direct_gamma. rewrite lsum_gsum. ring.
Qed.
Lemma E_is N l q c i : (forall b, In b l -> (nb_j b < N)%nat) -> direct_E erfc cut l q c i = rsum N (fun j => q j * comp c (gamma_dG 1 dterm l i j)).
Proof.
  intros H. unfold direct_E. rewrite lsum_gsum. rewrite (rsum_ext N _ (fun j => q j * gsum l (fun b => if ((nb_i b =? i) && (nb_j b =? j))%nat then direct_df erfc cut (nb_d b) * comp c (nb_n b) else 0))) by (intros; rewrite dgamma_is; reflexivity).
  rewrite (pick_j N l _ q i H). apply lsum_ext. intros b _. destruct (nb_i b =? i)%nat; ring.
Qed.
Lemma nb_range N r tr0 rot cs b : In b (flat_map (cell_neighbours N r tr0 rot cut) cs) -> (nb_i b < N)%nat /\ (nb_j b < N)%nat.
Proof.
  intros H. apply in_flat_map in H. destruct H as (c & _ & H). unfold cell_neighbours in H. apply in_flat_map in H. destruct H as (i & Hi & H). apply in_map_iff in H. destruct H as (j & <- & Hj).
  apply filter_In in Hj. apply in_seq in Hi. destruct Hj as [Hj _]. apply in_seq in Hj. cbn [nb_i nb_j]. lia.
Qed.
(** 1/d and erfc(d/c)/d have the derivatives used *)
Lemma dterm_D d : is_erfc erfc -> 0 < d -> (forall c, cut = Some c -> c <> 0) -> derivable_pt_lim (direct_f erfc cut) d (- direct_df erfc cut d).
Proof.
  intros He Hd Hcut. unfold direct_f, direct_df. destruct cut as [c|].
  - assert (c0 : c <> 0) by (apply Hcut; reflexivity).
    apply (D_eq _ _ ((- (2 / sqrt PI) * exp (- (d / c) ^ 2) * (1 / c) * d - 1 * erfc (d / c)) / Rsqr d)).
    + apply (derivable_pt_lim_div (fun t => erfc (t / c)) (fun t => t)); [|apply derivable_pt_lim_id|lra].
      apply (derivable_pt_lim_comp (fun t => t / c) erfc); [|apply (proj2 He)].
      apply (D_ext (fun t => / c * t)); [intros; field; exact c0|]. apply (D_eq _ _ (/ c)); [apply D_line|field; exact c0].
    + unfold Rsqr. assert (sp : sqrt PI <> 0) by (apply Rgt_not_eq, sqrt_lt_R0, PI_RGT_0). field. repeat split; (assumption || lra).
  - apply (D_eq _ _ ((0 * d - 1 * 1) / Rsqr d)).
    + apply (D_ext (fun t => 1 / t)); [intros; unfold Rdiv; ring|]. apply (derivable_pt_lim_div (fun _ => 1) (fun t => t)); [apply derivable_pt_lim_const|apply derivable_pt_lim_id|lra].
    + unfold Rsqr. field. lra.
Qed.
Lemma dterm_consistent N : is_erfc erfc -> (forall c, cut = Some c -> c <> 0) -> consistent_term N dterm.
Proof. intros He Hcut. split; [reflexivity|]. intros i j d _ _ Hd. apply dterm_D; assumption. Qed.
End Direct.
