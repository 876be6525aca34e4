(** Derivatives of the matrices of a structure when one atom moves. *)
From Coq Require Import Reals ZArith List Bool Arith Lia Lra FunctionalExtensionality.
From Verif Require Import Vec GeomModel GeomSpec GeomProofs CoulModel PairModel PairSpec PairProofs SkModel SkSpec SkProofs SkProofs2 SkProofs3 SkProofs4 SkProofs5 SkProofs6 SkProofs7 Cpx RhoModel RhoSpec RhoProofs GamModel EigModel OccModel InvModel InvSpec InvLin InvProofs InvProofs2 InvProofs5 InvProofs6 InvProofs7 InvProofs8 InvProofs9 InvProofs10 InvProofs11 FrcSpec FrcProofs FrcProofs4.
Import ListNotations.
Open Scope R_scope.

Lemma CD_plus_c f x d k : cderivative f x d -> cderivative (fun s => cadd k (f s)) x d.
Proof.
  intros [A B]. split; unfold cadd; cbn [fst snd]; (eapply D_eq; [apply D_plus; [apply D_const|first [exact A|exact B]]|ring]).
Qed.
Lemma CD_conj f x d : cderivative f x d -> cderivative (fun s => cconj (f s)) x (cconj d).
Proof. intros [A B]. split; unfold cconj; cbn [fst snd]; [exact A|]. apply (D_opp (fun s => snd (f s))). exact B. Qed.
Lemma CD_eq' f x d d' : cderivative f x d -> d = d' -> cderivative f x d'.
Proof. intros A <-. exact A. Qed.
Lemma vdot_pos_c p : 0 <= vdot p p.
Proof. destruct p as [x y z]. vunf. pose proof (Rle_0_sqr x). pose proof (Rle_0_sqr y). pose proof (Rle_0_sqr z). unfold Rsqr in *. lra. Qed.
Section Mat.
Context (D : database) (g : structure) (inv : nat -> nat) (Bohr : R) (I c : nat) (HB : 0 < Bohr) (S : sound D g inv) (HC : too_close (g_N g) (g_nimg g) (g_Rn Bohr g) = false) (OT : one_table D).
Context (HI : (I < g_N g)%nat) (Hc : (c < 3)%nat) (SM : smooth Bohr D g).
Notation g' t := (displaced g I c (Bohr * t)).
Let Him := images_scaled _ _ _ _ (/ Bohr) (u_images _ _ _ S).
Lemma r_displaced t j : r_of Bohr (g' t) j = moved (r_of Bohr g) (one I (axis c)) t j.
Proof.
  unfold r_of, displaced, moved, one. cbn [g_r]. destruct (j =? I)%nat; generalize (g_r g j) (axis c); intros u w; apply v3_eq; vunf; field; lra.
Qed.
Lemma Rn_displaced t : g_Rn Bohr (g' t) = place (g_O g) (t_of Bohr g) (moved (r_of Bohr g) (one I (axis c)) t).
Proof.
  rewrite g_Rn_is. unfold place. apply functional_extensionality. intros n. apply functional_extensionality. intros j. rewrite r_displaced. reflexivity.
Qed.
Lemma separation_is n i j : mdist (g_Rn Bohr g) n i j = separation Bohr g n i j.
Proof.
  unfold mdist, mrij, g_Rn, separation. destruct (im_id _ _ _ _ (u_images _ _ _ S)) as [-> ->]. rewrite mv_eye.
  generalize (mv (g_O g n) (g_r g j)) (g_t g n) (g_r g i). intros p q w. unfold vnorm.
  match goal with |- sqrt ?x = sqrt ?y / _ => replace x with (/ Bohr * / Bohr * y) by (vunf; ring) end.
  rewrite sqrt_mult; [|left; apply Rmult_lt_0_compat; apply Rinv_0_lt_compat; lra|apply vdot_pos_c].
  rewrite sqrt_square by (left; apply Rinv_0_lt_compat; lra). field. lra.
Qed.
Lemma separation_pos n i j : (i < g_N g)%nat -> (j < g_N g)%nat -> (n < g_nimg g)%nat -> ~ (i = j /\ n = 0%nat) -> 0 < separation Bohr g n i j.
Proof.
  intros Hi Hj Hn Ne. rewrite <- separation_is. pose proof (apart D g inv Bohr S HC n i j Hn Hi Hj Ne) as A. unfold mdist. destruct (Rle_lt_dec (vnorm (mrij (g_Rn Bohr g) n i j)) 0) as [L|L]; [|exact L].
  exfalso. apply A. clear A. revert L. generalize (mrij (g_Rn Bohr g) n i j). intros p L. unfold vnorm in L. pose proof (vdot_pos_c p) as P. pose proof (sqrt_pos (vdot p p)) as Q. assert (Z : vdot p p = 0) by (apply sqrt_eq_0; [exact P|lra]). clear L P Q. destruct p as [x y z]. unfold vzero. revert Z. vunf. intros Z. apply v3_eq; cbn [vx vy vz]; nra.
Qed.
Lemma nine i : (g_no D g i <= 9)%nat.
Proof. apply at_most_nine. apply (u_no _ _ _ S). Qed.
Lemma owns_at i a : (i < g_N g)%nat -> (a < g_no D g i)%nat -> owns (first_orbital (g_no D g)) (g_no D g) I (first_orbital (g_no D g) i + a) = (i =? I)%nat.
Proof.
  intros Hi Ha. unfold owns. destruct (Nat.eqb_spec i I) as [<-|Ne].
  - apply andb_true_iff. split; [apply Nat.leb_le; lia|apply Nat.ltb_lt; lia].
  - apply not_true_iff_false. intros E. apply andb_true_iff in E. rewrite Nat.leb_le, Nat.ltb_lt in E. apply Ne.
    apply (belongs_unique _ _ _ _ (first_orbital (g_no D g) i + a)%nat i I (orbital_layout (g_no D g) (g_N g))); [exact Hi|exact HI|apply belongs_first; exact Ha|exact E].
Qed.
Context (tab dtab : nat -> nat -> R -> nat -> R) (onsite : nat -> nat -> R) (k : nat) (Hk : (k < g_nk g)%nat).
Context (HT : forall i j n, (i < g_N g)%nat -> (j < g_N g)%nat -> (n < g_nimg g)%nat -> ~ (i = j /\ n = 0%nat) ->
    let d := separation Bohr g n i j in let K := g_kind g i in let L := g_kind g j in
    d_r1 D K L < d < d_r2 D K L -> forall q, (q < 14)%nat -> derivable_pt_lim (fun x => tab K L x q) d (dtab K L d q)).
Context (H1 : forall K L d, exists tij tji, same_integrals tij tji /\ (forall c, (c < 14)%nat -> tab K L d c = read_integral tij tji c) /\ forall c, (c < 14)%nat -> tab L K d c = read_integral tji tij c).
Context (H2 : forall K L d, exists tij tji, same_integrals tij tji /\ (forall c, (c < 14)%nat -> dtab K L d c = read_integral tij tji c) /\ forall c, (c < 14)%nat -> dtab L K d c = read_integral tji tij c).
Notation blk R0 := (block (g_nimg g) (g_no D g) R0 (g_DT g) (g_phase g k) (pairwise g tab) (pairwise g (d_r1 D)) (pairwise g (d_r2 D))).
Notation db := (dblock (g_nimg g) (g_no D g) (g_Rn Bohr g) (g_DT g) (g_phase g k) (pairwise g tab) (pairwise g dtab) (pairwise g (d_r1 D)) (pairwise g (d_r2 D))).
Notation db2 := (dblock2 (g_nimg g) (g_no D g) (g_Rn Bohr g) (g_O g) (g_DT g) (g_phase g k) (pairwise g tab) (pairwise g dtab) (pairwise g (d_r1 D)) (pairwise g (d_r2 D))).
Lemma block_D i j a b : (i < g_N g)%nat -> (j < g_N g)%nat -> (a < g_no D g i)%nat -> (b < g_no D g j)%nat ->
  cderivative (fun t => blk (g_Rn Bohr (g' t)) i j a b) 0 (cadd (if (i =? I)%nat then db i j a b c else c0) (if (j =? I)%nat then cconj (db2 i j a b c) else c0)).
Proof.
  intros Hi Hj Ha Hb. pose proof (block_moved (g_nimg g) (g_no D g) (g_O g) (t_of Bohr g) (r_of Bohr g) (g_DT g) (g_phase g k) (pairwise g tab) (pairwise g dtab) (pairwise g (d_r1 D)) (pairwise g (d_r2 D)) i j) as P.
  specialize (P (im_id _ _ _ _ Him) (conj (nine i) (nine j))).
  assert (Q : forall n, (n < g_nimg g)%nat -> ~ (i = j /\ n = 0%nat) -> 0 < mdist (place (g_O g) (t_of Bohr g) (r_of Bohr g)) n i j /\ mdist (place (g_O g) (t_of Bohr g) (r_of Bohr g)) n i j <> pairwise g (d_r1 D) i j /\ mdist (place (g_O g) (t_of Bohr g) (r_of Bohr g)) n i j <> pairwise g (d_r2 D) i j /\
    (pairwise g (d_r1 D) i j < mdist (place (g_O g) (t_of Bohr g) (r_of Bohr g)) n i j < pairwise g (d_r2 D) i j -> forall c, (c < 14)%nat ->
       derivable_pt_lim (fun d => pairwise g tab i j d c) (mdist (place (g_O g) (t_of Bohr g) (r_of Bohr g)) n i j) (pairwise g dtab i j (mdist (place (g_O g) (t_of Bohr g) (r_of Bohr g)) n i j) c))).
  { intros n Hn Ne. rewrite <- g_Rn_is, separation_is. destruct (v_tables _ _ _ SM i j n Hi Hj Hn Ne) as (A & B & _). split; [apply separation_pos; assumption|]. split; [exact A|]. split; [exact B|]. exact (HT i j n Hi Hj Hn Ne). }
  specialize (P Q I c a b Ha Hb Hc). rewrite <- g_Rn_is in P. destruct P as [P1 P2]. split.
  - eapply D_ext; [|exact P1]. intros t. cbv beta. rewrite Rn_displaced. reflexivity.
  - eapply D_ext; [|exact P2]. intros t. cbv beta. rewrite Rn_displaced. reflexivity.
Qed.
Lemma element_D i a j b : (i < g_N g)%nat -> (j < g_N g)%nat -> (a < g_no D g i)%nat -> (b < g_no D g j)%nat ->
  cderivative (fun t => g_matrix Bohr D (g' t) onsite tab k i a j b) 0
    (cadd (if (i =? I)%nat then g_dmatrix Bohr D g tab dtab c k i a j b else c0) (if (j =? I)%nat then cconj (g_dmatrix Bohr D g tab dtab c k j b i a) else c0)).
Proof.
  intros Hi Hj Ha Hb. unfold g_matrix, SkModel.matrix.
  change (fun t => if (i <? j)%nat then blk (g_Rn Bohr (g' t)) i j a b else if (j <? i)%nat then cconj (blk (g_Rn Bohr (g' t)) j i b a) else cadd (if (a =? b)%nat then (onsite i a, 0) else (0, 0)) (blk (g_Rn Bohr (g' t)) i i a b)) with
   (fun t => (fun t => if (i <? j)%nat then blk (g_Rn Bohr (g' t)) i j a b else if (j <? i)%nat then cconj (blk (g_Rn Bohr (g' t)) j i b a) else cadd (if (a =? b)%nat then (onsite i a, 0) else (0, 0)) (blk (g_Rn Bohr (g' t)) i i a b)) t).
  unfold g_dmatrix. destruct (Nat.ltb_spec i j) as [L|L].
  - rewrite (proj2 (Nat.ltb_ge j i)) by lia. exact (block_D i j a b Hi Hj Ha Hb).
  - destruct (Nat.ltb_spec j i) as [L'|L'].
    + eapply CD_eq'; [exact (CD_conj _ _ _ (block_D j i b a Hj Hi Hb Ha))|].
      destruct (i =? I)%nat, (j =? I)%nat; rewrite ?cconj_add, ?cconj_cconj; apply cplx_eq; unfold cadd, cconj, c0; cbn [fst snd]; ring.
    + assert (j = i) by lia. subst j. eapply CD_eq'; [exact (CD_plus_c _ _ _ _ (block_D i i a b Hi Hi Ha Hb))|].
      destruct (i =? I)%nat; [|reflexivity]. rewrite (g_dblock_swap D g inv Bohr S HC OT k tab dtab i i b a c Hk H1 H2 Hi Hi Hb Ha Hc). reflexivity.
Qed.
Lemma matrix_D : matrix_derivative (first_orbital (g_no D g) (g_N g)) (fun t => flat D (g' t) (g_matrix Bohr D (g' t) onsite tab k)) 0
  (moved_matrix (first_orbital (g_no D g)) (g_no D g) I (flat D g (g_dmatrix Bohr D g tab dtab c k))).
Proof.
  intros i l Hi Hl. destruct (orbitals_X D g g eq_refl i Hi) as (i' & a & Hi' & Ha & ->). destruct (orbitals_X D g g eq_refl l Hl) as (j' & b & Hj' & Hb & ->).
  unfold moved_matrix. rewrite !owns_at, !flat_at by assumption. destruct (element_D i' a j' b Hi' Hj' Ha Hb) as [P1 P2].
  assert (F : forall t, flat D (g' t) (g_matrix Bohr D (g' t) onsite tab k) (first_orbital (g_no D g) i' + a) (first_orbital (g_no D g) j' + b) = g_matrix Bohr D (g' t) onsite tab k i' a j' b).
  { intros t. apply (flat_at D (g' t)); assumption. }
  split.
  - eapply D_ext; [|exact P1]. intros t. cbv beta. rewrite F. reflexivity.
  - eapply D_ext; [|exact P2]. intros t. cbv beta. rewrite F. reflexivity.
Qed.
End Mat.
