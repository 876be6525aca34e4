From Coq Require Import Reals ZArith List Bool Arith Lia Lra.
From Verif Require Import Vec GeomModel GeomSpec GeomProofs CoulModel PairModel PairSpec PairProofs SkModel SkSpec SkProofs SkProofs2 SkProofs3 SkProofs4 SkProofs5 SkProofs6 SkProofs7 Cpx GamModel InvModel InvSpec InvLin InvProofs InvProofs5 InvProofs6 InvProofs7 InvProofs9.
Import ListNotations.
Open Scope R_scope.

Lemma images_scaled nimg O t inv k : images nimg O t inv -> images nimg O (fun n => vscale k (t n)) inv.
Proof.
  intros H. constructor; try apply H.
  - split; [apply H|]. rewrite (proj2 (im_id _ _ _ _ H)). apply v3_eq; vunf; ring.
  - intros n p Hn. assert (E : forall x, vadd (mv (O (inv n)) (vadd (mv (O n) x) (t n))) (t (inv n)) = x) by (intros x; apply (im_inverse _ _ _ _ H); exact Hn).
    assert (A : forall x, mv (O (inv n)) (mv (O n) x) = x) by (intros x; apply (inv_apply nimg O t inv H); exact Hn).
    assert (B : vadd (mv (O (inv n)) (t n)) (t (inv n)) = vzero).
    { pose proof (E vzero) as E0. rewrite <- E0. f_equal. f_equal. destruct (O n) as [[a b c] [d e f] [g h i]], (t n). vring. }
    rewrite mv_add, A. transitivity (vadd p (vscale k (vadd (mv (O (inv n)) (t n)) (t (inv n))))); [|rewrite B; destruct p; vring].
    destruct (O (inv n)) as [[a b c] [d e f] [g h i]], (t n), (t (inv n)), p. vring.
Qed.
Lemma g_Rn_place Bohr g : forall n j, g_Rn Bohr g n j = place (g_O g) (fun n => vscale (/ Bohr) (g_t g n)) (fun j => vscale (/ Bohr) (g_r g j)) n j.
Proof. intros n j. unfold g_Rn, place. destruct (g_O g n) as [[a b c] [d e f] [x y z]], (g_r g j), (g_t g n). vring. Qed.
(** ** sums over pairs *)
Definition upper (N : nat) (E : nat -> nat -> R) : R := rsum N (fun i => rsum (N - i) (fun j => E i (i + j)%nat)).
Lemma upper_S N E : upper (S N) E = upper N E + rsum N (fun i => E i N) + E N N.
Proof.
  unfold upper. cbn [rsum]. replace (S N - N)%nat with 1%nat by lia. cbn [rsum]. rewrite Nat.add_0_r.
  rewrite (rsum_ext N (fun i => rsum (S N - i) (fun j => E i (i + j)%nat)) (fun i => rsum (N - i) (fun j => E i (i + j)%nat) + E i N)); [rewrite rsum_plus; ring|].
  intros i Hi. replace (S N - i)%nat with (S (N - i)) by lia. cbn [rsum]. f_equal. f_equal. lia.
Qed.
Lemma upper_sym N E : (forall i j, (i < N)%nat -> (j < N)%nat -> E i j = E j i) -> upper N E = / 2 * (rsum N (fun i => rsum N (E i)) + rsum N (fun i => E i i)).
Proof.
  induction N as [|N IH]; intros H; [unfold upper; cbn; ring|]. rewrite upper_S, IH by (intros; apply H; lia). cbn [rsum]. rewrite rsum_plus.
  rewrite (rsum_ext N (E N) (fun i => E i N)) by (intros; apply H; lia). field.
Qed.
Lemma upper_ext N E E' : (forall i j, (i < N)%nat -> (j < N)%nat -> E i j = E' i j) -> upper N E = upper N E'.
Proof. intros H. unfold upper. apply rsum_ext. intros i Hi. apply rsum_ext. intros j Hj. apply H; lia. Qed.
Lemma upper_moved N s E E' : permutes N s -> (forall i j, (i < N)%nat -> (j < N)%nat -> E' (s i) (s j) = E i j) -> (forall i, (i < N)%nat -> s i = i) \/ (forall i j, (i < N)%nat -> (j < N)%nat -> E i j = E j i) ->
  upper N E' = upper N E.
Proof.
  intros Hs H [Hid|Hsym].
  - apply upper_ext. intros i j Hi Hj. rewrite <- H by assumption. rewrite !Hid by assumption. reflexivity.
  - rewrite (upper_sym N E Hsym). rewrite upper_sym.
    + rewrite <- (rsum_perm N s (fun i => E' i i) Hs), <- (rsum_perm N s (fun i => rsum N (E' i)) Hs). f_equal. f_equal; apply rsum_ext; intros i Hi; [|apply H; assumption].
      rewrite <- (rsum_perm N s (E' (s i)) Hs). apply rsum_ext. intros j Hj. apply H; assumption.
    + intros i j Hi Hj. destruct (permutes_onto N s i Hs Hi) as (i0 & Hi0 & <-). destruct (permutes_onto N s j Hs Hj) as (j0 & Hj0 & <-). rewrite !H by assumption. apply Hsym; assumption.
Qed.
(** ** tests over pairs *)
Definition tested (N nimg : nat) (p : nat -> nat -> nat -> bool) : Prop := forall i j n, (i < N)%nat -> (j < N)%nat -> (n < nimg)%nat -> (i <= j)%nat -> p n i j = true.
Lemma tested_moved N nimg s (inv : nat -> nat) p p' : permutes N s -> (forall n, (n < nimg)%nat -> (inv n < nimg)%nat /\ inv (inv n) = n) ->
  (forall n i j, (n < nimg)%nat -> (i < N)%nat -> (j < N)%nat -> p' n (s i) (s j) = p n i j) ->
  (forall i, (i < N)%nat -> s i = i) \/ (forall n i j, (n < nimg)%nat -> (i < N)%nat -> (j < N)%nat -> p (inv n) i j = p n j i) ->
  tested N nimg p' <-> tested N nimg p.
Proof.
  intros Hs Hinv H [Hid|Hsym].
  - split; intros A i j n Hi Hj Hn L; [rewrite <- H, !Hid by assumption|rewrite <- (Hid i Hi), <- (Hid j Hj), H by assumption]; apply A; assumption.
  - assert (full : forall q, (forall n i j, (n < nimg)%nat -> (i < N)%nat -> (j < N)%nat -> q (inv n) i j = q n j i) -> tested N nimg q -> forall i j n, (i < N)%nat -> (j < N)%nat -> (n < nimg)%nat -> q n i j = true).
    { intros q Q A i j n Hi Hj Hn. destruct (le_ge_dec i j) as [L|L]; [apply A; assumption|]. rewrite <- Q by assumption. apply A; try assumption. apply Hinv. exact Hn. }
    split; intros A.
    + assert (B := full p' ltac:(intros n i j Hn Hi Hj; destruct (permutes_onto N s i Hs Hi) as (i0 & Hi0 & <-); destruct (permutes_onto N s j Hs Hj) as (j0 & Hj0 & <-); rewrite !H; try assumption; [apply Hsym; assumption|apply Hinv; exact Hn]) A).
      intros i j n Hi Hj Hn L. rewrite <- H by assumption. apply B; try assumption; apply (proj1 Hs); assumption.
    + assert (B := full p Hsym A). intros i j n Hi Hj Hn L. destruct (permutes_onto N s i Hs Hi) as (i0 & Hi0 & <-). destruct (permutes_onto N s j Hs Hj) as (j0 & Hj0 & <-). rewrite H by assumption. apply B; assumption.
Qed.
Lemma distances_tested N nimg Rn rmax : distances_ok N nimg Rn rmax = true <-> tested N nimg (fun n i j => self_pair n i j || ltb rmax (dist Rn n i j) || ltb (/ 10 ^ 10) (dist Rn n i j)).
Proof.
  unfold distances_ok, tested. rewrite forallb_forall. split.
  - intros H i j n Hi Hj Hn L. specialize (H i ltac:(apply in_seq; lia)). rewrite forallb_forall in H. specialize (H j ltac:(apply in_seq; lia)). apply orb_true_iff in H. destruct H as [H|H]; [apply Nat.ltb_lt in H; lia|].
    rewrite forallb_forall in H. apply H. apply in_seq. lia.
  - intros H i Hi. apply in_seq in Hi. rewrite forallb_forall. intros j Hj. apply in_seq in Hj. apply orb_true_iff. destruct (Nat.ltb_spec j i); [left; reflexivity|right]. rewrite forallb_forall. intros n Hn. apply in_seq in Hn. apply H; lia.
Qed.
Lemma too_close_tested N nimg Rn : too_close N nimg Rn = false <-> tested N nimg (fun n i j => self_pair n i j || ltb (/ 10) (mdist Rn n i j)).
Proof.
  unfold too_close, tested. split.
  - intros H i j n Hi Hj Hn L. destruct (self_pair n i j || ltb (/ 10) (mdist Rn n i j)) eqn:E; [reflexivity|]. exfalso. rewrite <- not_true_iff_false in H. apply H. apply existsb_exists. exists i. split; [apply in_seq; lia|].
    apply existsb_exists. exists j. split; [apply in_seq; lia|]. apply existsb_exists. exists n. split; [apply in_seq; lia|]. apply orb_false_iff in E. destruct E as [E1 E2]. unfold self_pair in E1. rewrite E1, E2, (proj2 (Nat.leb_le _ _) L). reflexivity.
  - intros H. apply not_true_iff_false. intros E. apply existsb_exists in E. destruct E as (i & Hi & E). apply existsb_exists in E. destruct E as (j & Hj & E). apply existsb_exists in E. destruct E as (n & Hn & E). apply in_seq in Hi, Hj, Hn.
    apply andb_true_iff in E. destruct E as [E E3]. apply andb_true_iff in E. destruct E as [E1 E2]. apply Nat.leb_le in E1. specialize (H i j n ltac:(lia) ltac:(lia) ltac:(lia) E1). apply orb_true_iff in H. unfold self_pair in H. destruct H as [H|H]; rewrite H in *; discriminate.
Qed.
Section Moved.
Context (s : nat -> nat) (P : m3) (v : v3) (g h : structure) (M : rigid_motion s P v g h) (Bohr : R) (inv : nat -> nat) (Him : images (g_nimg g) (g_O g) (g_t g) inv).
Let N := g_N g.
Let nimg := g_nimg g.
Let Rn := g_Rn Bohr g.
Let Rn' := g_Rn Bohr h.
Lemma place_moved n j : (n < nimg)%nat -> (j < N)%nat -> Rn' n (s j) = vadd (mv P (Rn n j)) (vscale (/ Bohr) v).
Proof.
  intros Hn Hj. unfold Rn', Rn, g_Rn. rewrite (j_t _ _ _ _ _ M n Hn), (j_O _ _ _ _ _ M n Hn), (j_r _ _ _ _ _ M j Hj). pose proof (j_P _ _ _ _ _ M) as HP.
  pose proof (orthogonal_tr P HP) as HT. unfold orthogonal in HT. rewrite tr_tr in HT.
  assert (E : mv (mm (mm P (g_O g n)) (tr P)) (vadd (mv P (g_r g j)) v) = vadd (mv P (mv (g_O g n) (g_r g j))) (mv (mm (mm P (g_O g n)) (tr P)) v)).
  { rewrite mv_add. f_equal. transitivity (mv P (mv (g_O g n) (mv (mm (tr P) P) (g_r g j)))); [|rewrite HT, mv_eye; reflexivity].
    destruct P as [[a b e] [d f k] [p q w]], (g_O g n) as [[a' b' e'] [d' f' k'] [p' q' w']], (g_r g j) as [x y z]. vring. }
  rewrite E. generalize (mv (mm (mm P (g_O g n)) (tr P)) v). intros u. destruct P as [[a b e] [d f k] [p q w]], (g_t g n), (mv (g_O g n) (g_r g j)), u, v. vring.
Qed.
Lemma rijn_moved' n i j : (n < nimg)%nat -> (i < N)%nat -> (j < N)%nat -> rijn Rn' n (s i) (s j) = mv P (rijn Rn n i j).
Proof.
  intros Hn Hi Hj. unfold rijn. rewrite !place_moved by (assumption || exact (im_some _ _ _ _ Him)). destruct P as [[a b e] [d f k] [p q w]], (Rn n j), (Rn 0%nat i), (vscale (/ Bohr) v). vring.
Qed.
Lemma dist_moved n i j : (n < nimg)%nat -> (i < N)%nat -> (j < N)%nat -> dist Rn' n (s i) (s j) = dist Rn n i j.
Proof. intros Hn Hi Hj. unfold dist. rewrite rijn_moved' by assumption. apply mv_norm. apply (j_P _ _ _ _ _ M). Qed.
Lemma self_moved n i j : (i < N)%nat -> (j < N)%nat -> self_pair n (s i) (s j) = self_pair n i j.
Proof. intros Hi Hj. unfold self_pair. rewrite (s_eqb s P v g h M) by assumption. reflexivity. Qed.
Lemma dist_swap n i j : (n < nimg)%nat -> dist Rn (inv n) i j = dist Rn n j i.
Proof.
  intros Hn. pose proof (images_scaled _ _ _ _ (/ Bohr) Him) as Him'. pose proof (mdist_swap _ _ _ _ (fun j => vscale (/ Bohr) (g_r g j)) Him' n i j Hn) as E.
  unfold dist, rijn, Rn. unfold mdist, mrij in E. rewrite !g_Rn_place. exact E.
Qed.
Lemma self_swap n i j : (n < nimg)%nat -> self_pair (inv n) i j = self_pair n j i.
Proof.
  intros Hn. unfold self_pair. rewrite (Nat.eqb_sym i j). f_equal. destruct (Nat.eqb_spec n 0) as [->|Ne]; [rewrite (im_inv0 _ _ _ _ Him); reflexivity|]. apply Nat.eqb_neq. intros E. apply Ne. apply (inv_zero nimg _ _ inv Him); assumption.
Qed.
Lemma comp_vsum c m f : comp c (vsum m f) = rsum m (fun i => comp c (f i)).
Proof. unfold comp, vsum. destruct c as [|[|c]]; reflexivity. Qed.
Lemma force_moved dV dV' rmax c I : (forall i j d, (i < N)%nat -> (j < N)%nat -> dV' (s i) (s j) d = dV i j d) -> (c < 3)%nat -> (I < N)%nat ->
  comp c (force (g_N h) (g_nimg h) Rn' dV' rmax (s I)) = rsum 3 (fun d => m3e P c d * comp d (force (g_N g) (g_nimg g) Rn dV rmax I)).
Proof.
  intros HV Hc HI. unfold force. rewrite (j_N _ _ _ _ _ M), (j_nimg _ _ _ _ _ M). fold N nimg. rewrite comp_vsum, <- (rsum_perm N s _ (j_perm _ _ _ _ _ M)).
  rewrite (rsum_ext N _ (fun j => rsum nimg (fun n => rsum 3 (fun d => m3e P c d * comp d (pair_force Rn dV rmax I j n))))).
  - rewrite (rsum_ext N _ (fun j => rsum 3 (fun d => m3e P c d * comp d (vsum nimg (fun n => pair_force Rn dV rmax I j n))))).
    + rewrite rsum_swap. apply rsum_ext. intros d _. rewrite rsum_scal, comp_vsum. reflexivity.
    + intros j _. rewrite rsum_swap. apply rsum_ext. intros d _. rewrite rsum_scal, comp_vsum. reflexivity.
  - intros j Hj. rewrite comp_vsum. apply rsum_ext. intros n Hn. rewrite <- comp_mv by exact Hc. f_equal. unfold pair_force. rewrite self_moved, dist_moved, HV, rijn_moved' by assumption.
    assert (Z : mv P vzero = vzero) by (destruct P as [[a b e] [d f k] [p q w]]; apply v3_eq; vunf; ring).
    destruct (self_pair n I j); [symmetry; exact Z|]. destruct (ltb (dist Rn n I j) rmax); [symmetry; apply mv_scale|symmetry; exact Z].
Qed.
Lemma energy_moved V V' rmax : (forall i j d, (i < N)%nat -> (j < N)%nat -> V' (s i) (s j) d = V i j d) ->
  (forall i, (i < N)%nat -> s i = i) \/ (forall i j d, (i < N)%nat -> (j < N)%nat -> V i j d = V j i d) ->
  total_energy (g_N h) (g_nimg h) Rn' V' rmax = total_energy (g_N g) (g_nimg g) Rn V rmax.
Proof.
  intros HV Hor. rewrite (j_N _ _ _ _ _ M), (j_nimg _ _ _ _ _ M). fold N nimg. apply (upper_moved N s (pair_energy nimg Rn V rmax) (pair_energy nimg Rn' V' rmax) (j_perm _ _ _ _ _ M)).
  - intros i j Hi Hj. unfold pair_energy. apply rsum_ext. intros n Hn. rewrite self_moved, dist_moved, HV, (s_eqb s P v g h M) by assumption. reflexivity.
  - destruct Hor as [Hid|Hsym]; [left; exact Hid|right]. intros i j Hi Hj. unfold pair_energy. rewrite <- (rsum_perm nimg inv _ (inv_permutes _ _ _ _ Him)). apply rsum_ext. intros n Hn.
    rewrite self_swap, dist_swap, (Hsym i j), (Nat.eqb_sym i j) by assumption. reflexivity.
Qed.
Lemma ok_moved rmax : distances_ok (g_N h) (g_nimg h) Rn' rmax = distances_ok (g_N g) (g_nimg g) Rn rmax.
Proof.
  apply eq_iff_eq_true. rewrite !distances_tested, (j_N _ _ _ _ _ M), (j_nimg _ _ _ _ _ M). fold N nimg. apply (tested_moved N nimg s inv _ _ (j_perm _ _ _ _ _ M)); [apply (im_inv _ _ _ _ Him)| |].
  - intros n i j Hn Hi Hj. rewrite self_moved, dist_moved by assumption. reflexivity.
  - right. intros n i j Hn Hi Hj. rewrite self_swap, dist_swap by assumption. reflexivity.
Qed.
Lemma close_moved : too_close (g_N h) (g_nimg h) Rn' = too_close (g_N g) (g_nimg g) Rn.
Proof.
  assert (A : too_close (g_N h) (g_nimg h) Rn' = false <-> too_close (g_N g) (g_nimg g) Rn = false).
  { rewrite !too_close_tested, (j_N _ _ _ _ _ M), (j_nimg _ _ _ _ _ M). fold N nimg. apply (tested_moved N nimg s inv _ _ (j_perm _ _ _ _ _ M)); [apply (im_inv _ _ _ _ Him)| |].
    - intros n i j Hn Hi Hj. rewrite self_moved by assumption. f_equal. f_equal. apply dist_moved; assumption.
    - right. intros n i j Hn Hi Hj. rewrite self_swap by assumption. f_equal. f_equal. apply dist_swap; assumption. }
  destruct (too_close (g_N h) (g_nimg h) Rn'), (too_close (g_N g) (g_nimg g) Rn); try reflexivity; destruct A as [A B]; [apply B|symmetry; apply A]; reflexivity.
Qed.
End Moved.
