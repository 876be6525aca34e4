From Coq Require Import Reals ZArith List Bool Arith Lia Lra FunctionalExtensionality.
From Verif Require Import Vec GeomModel GeomSpec GeomProofs CoulModel PairModel PairSpec PairProofs SkModel SkSpec SkProofs SkProofs2 SkProofs3 SkProofs4 SkProofs5 SkProofs6 SkProofs7 Cpx RhoModel RhoSpec RhoProofs GamModel InvModel InvSpec InvLin InvProofs InvProofs2 InvProofs5 InvProofs6 InvProofs7 InvProofs8 InvProofs9 InvProofs10.
Import ListNotations.
Open Scope R_scope.

Definition t_of (Bohr : R) (g : structure) (n : nat) : v3 := vscale (/ Bohr) (g_t g n).
Definition r_of (Bohr : R) (g : structure) (j : nat) : v3 := vscale (/ Bohr) (g_r g j).
Lemma g_Rn_is Bohr g : g_Rn Bohr g = place (g_O g) (t_of Bohr g) (r_of Bohr g).
Proof. apply functional_extensionality. intros n. apply functional_extensionality. intros j. apply g_Rn_place. Qed.
Section One.
Context (D : database) (g : structure) (inv : nat -> nat) (Bohr : R) (S : sound D g inv) (HC : too_close (g_N g) (g_nimg g) (g_Rn Bohr g) = false).
Let Rn := g_Rn Bohr g.
Let Him := images_scaled _ _ _ _ (/ Bohr) (u_images _ _ _ S).
Lemma apart n i j : (n < g_nimg g)%nat -> (i < g_N g)%nat -> (j < g_N g)%nat -> ~ (i = j /\ n = 0%nat) -> mrij Rn n i j <> vzero.
Proof.
  intros Hn Hi Hj Ne Z. assert (D0 : mdist Rn n i j = 0) by (unfold mdist; rewrite Z; apply vnorm_zero).
  destruct (le_ge_dec i j) as [L|L].
  - pose proof (too_close_false (g_N g) (g_nimg g) (g_O g) (t_of Bohr g) (r_of Bohr g) i j n) as A. rewrite <- g_Rn_is in A. specialize (A HC Hi Hj Hn L Ne). fold Rn in A. rewrite D0 in A. lra.
  - pose proof (im_inv _ _ _ _ (u_images _ _ _ S) n Hn) as [Hn' En].
    pose proof (too_close_false (g_N g) (g_nimg g) (g_O g) (t_of Bohr g) (r_of Bohr g) j i (inv n)) as A. rewrite <- g_Rn_is in A.
    assert (Ne' : ~ (j = i /\ inv n = 0%nat)) by (intros [E1 E2]; apply Ne; split; [symmetry; exact E1|]; apply (inv_zero _ _ _ _ (u_images _ _ _ S) n Hn E2)).
    specialize (A HC Hj Hi Hn' L Ne'). pose proof (dist_swap g Bohr inv (u_images _ _ _ S) n j i Hn) as B. change (mdist Rn (inv n) j i = mdist Rn n i j) in B. fold Rn in A. rewrite B, D0 in A. lra.
Qed.
Context (OT : one_table D).
Lemma g_block_swap k (tab : nat -> nat -> R -> nat -> R) i j a b : (k < g_nk g)%nat -> (forall K L d, exists tij tji, same_integrals tij tji /\ (forall c, (c < 14)%nat -> tab K L d c = read_integral tij tji c) /\ forall c, (c < 14)%nat -> tab L K d c = read_integral tji tij c) ->
  (i < g_N g)%nat -> (j < g_N g)%nat -> (a < g_no D g i)%nat -> (b < g_no D g j)%nat ->
  block (g_nimg g) (g_no D g) Rn (g_DT g) (g_phase g k) (pairwise g tab) (pairwise g (d_r1 D)) (pairwise g (d_r2 D)) i j a b =
  cconj (block (g_nimg g) (g_no D g) Rn (g_DT g) (g_phase g k) (pairwise g tab) (pairwise g (d_r1 D)) (pairwise g (d_r2 D)) j i b a).
Proof.
  intros Hk HT Hi Hj Ha Hb. unfold Rn. rewrite g_Rn_is. apply (block_swap (g_N g) (g_nimg g) (g_no D g) (g_O g) (t_of Bohr g) inv (r_of Bohr g) (g_DT g) (g_phase g k) (pairwise g tab) (pairwise g (d_r1 D)) (pairwise g (d_r2 D))); try assumption.
  - intros I _. apply (u_no _ _ _ S).
  - apply (u_DT _ _ _ S).
  - intros n Hn. apply (u_phase _ _ _ S); assumption.
  - intros; apply (o_r1 _ OT).
  - intros; apply (o_r2 _ OT).
  - intros; apply HT.
  - rewrite <- g_Rn_is. intros n Hn Sk. apply apart; try assumption. apply (not_skipped _ _ _ _ _ _ Sk).
Qed.
Lemma g_dblock_swap k (tab dtab : nat -> nat -> R -> nat -> R) i j a b c : (k < g_nk g)%nat ->
  (forall K L d, exists tij tji, same_integrals tij tji /\ (forall c, (c < 14)%nat -> tab K L d c = read_integral tij tji c) /\ forall c, (c < 14)%nat -> tab L K d c = read_integral tji tij c) ->
  (forall K L d, exists tij tji, same_integrals tij tji /\ (forall c, (c < 14)%nat -> dtab K L d c = read_integral tij tji c) /\ forall c, (c < 14)%nat -> dtab L K d c = read_integral tji tij c) ->
  (i < g_N g)%nat -> (j < g_N g)%nat -> (a < g_no D g i)%nat -> (b < g_no D g j)%nat -> (c < 3)%nat ->
  dblock (g_nimg g) (g_no D g) Rn (g_DT g) (g_phase g k) (pairwise g tab) (pairwise g dtab) (pairwise g (d_r1 D)) (pairwise g (d_r2 D)) i j a b c =
  dblock2 (g_nimg g) (g_no D g) Rn (g_O g) (g_DT g) (g_phase g k) (pairwise g tab) (pairwise g dtab) (pairwise g (d_r1 D)) (pairwise g (d_r2 D)) j i b a c.
Proof.
  intros Hk HT HT' Hi Hj Ha Hb Hc. unfold Rn. rewrite g_Rn_is. apply (dblock_swap (g_N g) (g_nimg g) (g_no D g) (g_O g) (t_of Bohr g) inv (r_of Bohr g) (g_DT g) (g_phase g k) (pairwise g tab) (pairwise g dtab) (pairwise g (d_r1 D)) (pairwise g (d_r2 D))); try assumption.
  - intros I _. apply (u_no _ _ _ S).
  - apply (u_DT _ _ _ S).
  - intros n Hn. apply (u_phase _ _ _ S); assumption.
  - intros; apply (o_r1 _ OT).
  - intros; apply (o_r2 _ OT).
  - intros; apply HT.
  - intros; apply HT'.
  - rewrite <- g_Rn_is. intros n Hn Sk. apply apart; try assumption. apply (not_skipped _ _ _ _ _ _ Sk).
Qed.
End One.
Section Two.
Context (D : database) (g h : structure) (s : nat -> nat) (P : m3) (v : v3) (inv : nat -> nat) (Bohr : R).
Context (M : rigid_motion s P v g h) (Sg : sound D g inv) (Sh : sound D h inv) (Hor : (forall I, (I < g_N g)%nat -> s I = I) \/ one_table D).
Context (HC : too_close (g_N g) (g_nimg g) (g_Rn Bohr g) = false).
Let N := g_N g.
Let no := g_no D g.
Let Rs (n j : nat) : v3 := g_Rn Bohr h n (s j).
Lemma HC' : too_close (g_N h) (g_nimg h) (g_Rn Bohr h) = false.
Proof. rewrite (close_moved s P v g h M Bohr inv (u_images _ _ _ Sg)). exact HC. Qed.
Lemma no_moved I : (I < N)%nat -> g_no D h (s I) = no I.
Proof. intros HI. unfold no, g_no. rewrite (j_kind _ _ _ _ _ M I HI). reflexivity. Qed.
Lemma pair_moved {A} (t : nat -> nat -> A) i j : (i < N)%nat -> (j < N)%nat -> pairwise h t (s i) (s j) = pairwise g t i j.
Proof. intros Hi Hj. unfold pairwise. rewrite (j_kind _ _ _ _ _ M i Hi), (j_kind _ _ _ _ _ M j Hj). reflexivity. Qed.
Lemma skipped_moved n i j : (i < N)%nat -> (j < N)%nat -> skipped (g_Rn Bohr h) (pairwise h (d_r1 D)) (pairwise h (d_r2 D)) n (s i) (s j) = skipped Rs (pairwise g (d_r1 D)) (pairwise g (d_r2 D)) n i j.
Proof. intros Hi Hj. unfold skipped. rewrite !pair_moved, (s_eqb s P v g h M) by assumption. reflexivity. Qed.
Lemma block_moved k tab i j a b : (k < g_nk g)%nat -> (i < N)%nat -> (j < N)%nat ->
  block (g_nimg h) (g_no D h) (g_Rn Bohr h) (g_DT h) (g_phase h k) (pairwise h tab) (pairwise h (d_r1 D)) (pairwise h (d_r2 D)) (s i) (s j) a b =
  block (g_nimg g) no Rs (g_DT h) (g_phase g k) (pairwise g tab) (pairwise g (d_r1 D)) (pairwise g (d_r2 D)) i j a b.
Proof.
  intros Hk Hi Hj. unfold block. rewrite (j_nimg _ _ _ _ _ M). apply csum_ext'. intros n Hn. rewrite skipped_moved, (j_phase _ _ _ _ _ M k n Hk Hn) by assumption. destruct (skipped _ _ _ n i j); [reflexivity|]. f_equal.
  unfold ht_image. rewrite (no_moved j Hj), pair_moved by assumption. reflexivity.
Qed.
Lemma dblock_moved k tab dtab i j a b c : (k < g_nk g)%nat -> (i < N)%nat -> (j < N)%nat ->
  dblock (g_nimg h) (g_no D h) (g_Rn Bohr h) (g_DT h) (g_phase h k) (pairwise h tab) (pairwise h dtab) (pairwise h (d_r1 D)) (pairwise h (d_r2 D)) (s i) (s j) a b c =
  dblock (g_nimg g) no Rs (g_DT h) (g_phase g k) (pairwise g tab) (pairwise g dtab) (pairwise g (d_r1 D)) (pairwise g (d_r2 D)) i j a b c.
Proof.
  intros Hk Hi Hj. unfold dblock. rewrite (j_nimg _ _ _ _ _ M). apply csum_ext'. intros n Hn. rewrite skipped_moved, (j_phase _ _ _ _ _ M k n Hk Hn) by assumption. destruct (skipped _ _ _ n i j); [reflexivity|]. f_equal. f_equal.
  unfold dht_image. rewrite (no_moved j Hj), !pair_moved by assumption. reflexivity.
Qed.
Lemma dblock2_moved k tab dtab i j a b c : (k < g_nk g)%nat -> (i < N)%nat -> (j < N)%nat ->
  dblock2 (g_nimg h) (g_no D h) (g_Rn Bohr h) (g_O h) (g_DT h) (g_phase h k) (pairwise h tab) (pairwise h dtab) (pairwise h (d_r1 D)) (pairwise h (d_r2 D)) (s i) (s j) a b c =
  dblock2 (g_nimg g) no Rs (g_O h) (g_DT h) (g_phase g k) (pairwise g tab) (pairwise g dtab) (pairwise g (d_r1 D)) (pairwise g (d_r2 D)) i j a b c.
Proof.
  intros Hk Hi Hj. unfold dblock2. rewrite (j_nimg _ _ _ _ _ M). f_equal. apply csum_ext'. intros n Hn. rewrite skipped_moved, (j_phase _ _ _ _ _ M k n Hk Hn) by assumption. destruct (skipped _ _ _ n i j); [reflexivity|]. f_equal. apply rsum_ext. intros q _. f_equal.
  unfold dht_image. rewrite (no_moved j Hj), !pair_moved by assumption. reflexivity.
Qed.
Lemma s_order i j : (i < N)%nat -> (j < N)%nat -> (forall I, (I < N)%nat -> s I = I) -> (s i <? s j)%nat = (i <? j)%nat.
Proof. intros Hi Hj H. rewrite !H by assumption. reflexivity. Qed.
Lemma relabelled onsite onsite' tab k i a j b : (one_table D -> forall K L d, exists tij tji, same_integrals tij tji /\ (forall c, (c < 14)%nat -> tab K L d c = read_integral tij tji c) /\ forall c, (c < 14)%nat -> tab L K d c = read_integral tji tij c) ->
  (k < g_nk g)%nat -> (i < N)%nat -> (j < N)%nat -> (a < no i)%nat -> (b < no j)%nat -> onsite' (s i) a = onsite i a ->
  g_matrix Bohr D h onsite' tab k (s i) a (s j) b = SkModel.matrix (g_nimg g) no Rs (g_DT h) (g_phase g k) onsite (pairwise g tab) (pairwise g (d_r1 D)) (pairwise g (d_r2 D)) i a j b.
Proof.
  intros HT Hk Hi Hj Ha Hb Hon. unfold g_matrix, SkModel.matrix. pose proof (proj1 (j_perm _ _ _ _ _ M) i Hi) as Hsi. pose proof (proj1 (j_perm _ _ _ _ _ M) j Hj) as Hsj. rewrite !block_moved by assumption. rewrite Hon.
  destruct Hor as [Hid|OT].
  - rewrite !s_order by assumption. destruct (Nat.ltb_spec i j); [reflexivity|]. destruct (Nat.ltb_spec j i); [reflexivity|]. assert (i = j) by lia. subst j. reflexivity.
  - assert (W : block (g_nimg g) no Rs (g_DT h) (g_phase g k) (pairwise g tab) (pairwise g (d_r1 D)) (pairwise g (d_r2 D)) i j a b = cconj (block (g_nimg g) no Rs (g_DT h) (g_phase g k) (pairwise g tab) (pairwise g (d_r1 D)) (pairwise g (d_r2 D)) j i b a)).
    { rewrite <- !block_moved by assumption. apply (g_block_swap D h inv Bohr Sh HC' OT); try (rewrite no_moved by assumption; assumption).
      - rewrite (j_nk _ _ _ _ _ M). exact Hk.
      - apply HT. exact OT.
      - rewrite (j_N _ _ _ _ _ M). exact Hsi.
      - rewrite (j_N _ _ _ _ _ M). exact Hsj. }
    destruct (Nat.eq_dec i j) as [->|Ne]; [rewrite !Nat.ltb_irrefl; reflexivity|].
    assert (Ne' : s i <> s j) by (intros E; apply Ne; apply (proj2 (j_perm _ _ _ _ _ M)); assumption).
    destruct (Nat.ltb_spec (s i) (s j)), (Nat.ltb_spec i j), (Nat.ltb_spec (s j) (s i)), (Nat.ltb_spec j i); try (exfalso; lia); first [reflexivity|exact W|symmetry; exact W].
Qed.
Lemma drelabelled tab dtab k i a j b c :
  (one_table D -> forall K L d, exists tij tji, same_integrals tij tji /\ (forall c, (c < 14)%nat -> tab K L d c = read_integral tij tji c) /\ forall c, (c < 14)%nat -> tab L K d c = read_integral tji tij c) ->
  (one_table D -> forall K L d, exists tij tji, same_integrals tij tji /\ (forall c, (c < 14)%nat -> dtab K L d c = read_integral tij tji c) /\ forall c, (c < 14)%nat -> dtab L K d c = read_integral tji tij c) ->
  (k < g_nk g)%nat -> (i < N)%nat -> (j < N)%nat -> (a < no i)%nat -> (b < no j)%nat -> (c < 3)%nat ->
  g_dmatrix Bohr D h tab dtab c k (s i) a (s j) b =
  if (j <? i)%nat then dblock2 (g_nimg g) no Rs (g_O h) (g_DT h) (g_phase g k) (pairwise g tab) (pairwise g dtab) (pairwise g (d_r1 D)) (pairwise g (d_r2 D)) j i b a c
  else dblock (g_nimg g) no Rs (g_DT h) (g_phase g k) (pairwise g tab) (pairwise g dtab) (pairwise g (d_r1 D)) (pairwise g (d_r2 D)) i j a b c.
Proof.
  intros HT HT' Hk Hi Hj Ha Hb Hc. unfold g_dmatrix. pose proof (proj1 (j_perm _ _ _ _ _ M) i Hi) as Hsi. pose proof (proj1 (j_perm _ _ _ _ _ M) j Hj) as Hsj. rewrite dblock_moved, dblock2_moved by assumption.
  destruct Hor as [Hid|OT].
  - rewrite !s_order by assumption. reflexivity.
  - assert (W : dblock (g_nimg g) no Rs (g_DT h) (g_phase g k) (pairwise g tab) (pairwise g dtab) (pairwise g (d_r1 D)) (pairwise g (d_r2 D)) i j a b c = dblock2 (g_nimg g) no Rs (g_O h) (g_DT h) (g_phase g k) (pairwise g tab) (pairwise g dtab) (pairwise g (d_r1 D)) (pairwise g (d_r2 D)) j i b a c).
    { rewrite <- dblock_moved, <- dblock2_moved by assumption. apply (g_dblock_swap D h inv Bohr Sh HC' OT); try (rewrite no_moved by assumption; assumption).
      - rewrite (j_nk _ _ _ _ _ M). exact Hk.
      - apply HT. exact OT.
      - apply HT'. exact OT.
      - rewrite (j_N _ _ _ _ _ M). exact Hsi.
      - rewrite (j_N _ _ _ _ _ M). exact Hsj.
      - exact Hc. }
    destruct (s j <? s i)%nat, (j <? i)%nat; first [reflexivity|exact W|symmetry; exact W].
Qed.
(** ** the matrices of the two structures *)
Let Rn := g_Rn Bohr g.
Lemma mrij_moved n i j : (n < g_nimg g)%nat -> (i < N)%nat -> (j < N)%nat -> mrij Rs n i j = mv P (mrij Rn n i j).
Proof. apply (rijn_moved' s P v g h M Bohr inv (u_images _ _ _ Sg)). Qed.
Lemma Hz n i j : (n < g_nimg g)%nat -> (i < N)%nat -> (j < N)%nat -> (i <= j)%nat -> ~ (i = j /\ n = 0%nat) -> mrij Rn n i j <> vzero.
Proof. intros Hn Hi Hj _. apply (apart D g inv Bohr Sg HC); assumption. Qed.
Lemma HOg n : (n < g_nimg g)%nat -> orthogonal (g_O g n).
Proof. apply (orthogonal_n _ _ _ _ (u_images _ _ _ Sg)). Qed.
Lemma HDh n a b : (n < g_nimg g)%nat -> (a < 9)%nat -> (b < 9)%nat -> g_DT h n a b = Drep (g_O h n) a b.
Proof. intros Hn. apply (u_DT _ _ _ Sh). rewrite (j_nimg _ _ _ _ _ M). exact Hn. Qed.
Lemma Hnog i : (i < N)%nat -> In (no i) [1; 4; 9]%nat. Proof. intros _. apply (u_no _ _ _ Sg). Qed.
Let T := orbital_map D g h s P.
Let n := first_orbital no N.
Lemma H_moved onsite onsite' tab k : (one_table D -> forall K L d, exists tij tji, same_integrals tij tji /\ (forall c, (c < 14)%nat -> tab K L d c = read_integral tij tji c) /\ forall c, (c < 14)%nat -> tab L K d c = read_integral tji tij c) ->
  (k < g_nk g)%nat -> (forall i a, (i < N)%nat -> onsite' (s i) a = onsite i a) -> (forall i a b, (i < N)%nat -> shell a = shell b -> onsite i a = onsite i b) ->
  forall i l, (i < n)%nat -> (l < n)%nat -> flat D h (g_matrix Bohr D h onsite' tab k) i l = transported n (T k) (flat D g (g_matrix Bohr D g onsite tab k)) i l.
Proof.
  intros HT Hk Hon' Hon. apply (transported_blocks D g h s P (j_N _ _ _ _ _ M) (j_perm _ _ _ _ _ M) (j_kind _ _ _ _ _ M) (g_matrix Bohr D g onsite tab k) (g_matrix Bohr D h onsite' tab k)).
  intros I a J b HI HJ Ha Hb. rewrite (relabelled onsite onsite' tab k I a J b HT Hk HI HJ Ha Hb (Hon' I a HI)).
  apply (matrix_rot N (g_nimg g) no Rn Rs (g_O g) (g_O h) (g_DT g) (g_DT h) (g_phase g k) onsite (pairwise g tab) (pairwise g (d_r1 D)) (pairwise g (d_r2 D)) P (j_P _ _ _ _ _ M) Hnog mrij_moved HOg (j_O _ _ _ _ _ M) (u_DT _ _ _ Sg) HDh Hz Hon); assumption.
Qed.
Lemma transported_lin m (U : nat -> nat -> cplx) (w : nat -> R) (A : nat -> nat -> nat -> cplx) i l : transported m U (fun x y => csum 3 (fun d => cscale (w d) (A d x y))) i l = csum 3 (fun d => cscale (w d) (transported m U (A d) i l)).
Proof.
  unfold transported.
  rewrite (csum_ext' 3 _ (fun d => csum m (fun j => csum m (fun q => cmul (rc (w d)) (cmul (cmul (U i j) (A d j q)) (cconj (U l q))))))).
  - rewrite (csum_swap 3 m). apply csum_ext'. intros j _. rewrite (csum_swap 3 m). apply csum_ext'. intros q _. rewrite <- csum_mul, <- csum_mul_r. apply csum_ext'. intros d _. rewrite cscale_rc. ring.
  - intros d _. rewrite cscale_rc, <- csum_mul. apply csum_ext'. intros j _. rewrite <- csum_mul. reflexivity.
Qed.
Lemma transported_ext m (U A A' : nat -> nat -> cplx) i l : (forall x y, (x < m)%nat -> (y < m)%nat -> A x y = A' x y) -> transported m U A i l = transported m U A' i l.
Proof. intros H. unfold transported. apply csum_ext'. intros j Hj. apply csum_ext'. intros q Hq. rewrite H by assumption. reflexivity. Qed.
Lemma dH_moved tab dtab c k : (one_table D -> forall K L d, exists tij tji, same_integrals tij tji /\ (forall c, (c < 14)%nat -> tab K L d c = read_integral tij tji c) /\ forall c, (c < 14)%nat -> tab L K d c = read_integral tji tij c) ->
  (one_table D -> forall K L d, exists tij tji, same_integrals tij tji /\ (forall c, (c < 14)%nat -> dtab K L d c = read_integral tij tji c) /\ forall c, (c < 14)%nat -> dtab L K d c = read_integral tji tij c) ->
  (c < 3)%nat -> (k < g_nk g)%nat ->
  forall i l, (i < n)%nat -> (l < n)%nat -> flat D h (g_dmatrix Bohr D h tab dtab c k) i l = csum 3 (fun d => cscale (m3e P c d) (transported n (T k) (flat D g (g_dmatrix Bohr D g tab dtab d k)) i l)).
Proof.
  intros HT HT' Hc Hk i l Hi Hl. rewrite <- transported_lin.
  transitivity (transported n (T k) (flat D g (fun I a J b => csum 3 (fun d => cscale (m3e P c d) (g_dmatrix Bohr D g tab dtab d k I a J b)))) i l); [|reflexivity].
  revert i l Hi Hl.
  apply (transported_blocks D g h s P (j_N _ _ _ _ _ M) (j_perm _ _ _ _ _ M) (j_kind _ _ _ _ _ M) (fun I a J b => csum 3 (fun d => cscale (m3e P c d) (g_dmatrix Bohr D g tab dtab d k I a J b))) (g_dmatrix Bohr D h tab dtab c k)).
  intros I a J b HI HJ Ha Hb. rewrite (drelabelled tab dtab k I a J b c HT HT' Hk HI HJ Ha Hb Hc). unfold g_dmatrix. fold no. rewrite turned2_lin. destruct (Nat.ltb_spec J I) as [L|L].
  - apply (dblock2_rot N (g_nimg g) no Rn Rs (g_O g) (g_O h) (g_DT g) (g_DT h) (g_phase g k) (pairwise g tab) (pairwise g dtab) (pairwise g (d_r1 D)) (pairwise g (d_r2 D)) P (j_P _ _ _ _ _ M) Hnog mrij_moved HOg (j_O _ _ _ _ _ M) (u_DT _ _ _ Sg) HDh Hz); (assumption || lia).
  - apply (dblock_rot N (g_nimg g) no Rn Rs (g_O g) (g_O h) (g_DT g) (g_DT h) (g_phase g k) (pairwise g tab) (pairwise g dtab) (pairwise g (d_r1 D)) (pairwise g (d_r2 D)) P (j_P _ _ _ _ _ M) Hnog mrij_moved HOg (j_O _ _ _ _ _ M) (u_DT _ _ _ Sg) HDh Hz); (assumption || lia).
Qed.
Lemma H_hermitian onsite tab k : (k < g_nk g)%nat -> (forall K d, exists T, forall c, (c < 14)%nat -> tab K K d c = read_integral T T c) -> RhoSpec.hermitian n (flat D g (g_matrix Bohr D g onsite tab k)).
Proof.
  intros Hk HT i l Hi Hl. destruct (orbitals_X D g g eq_refl i Hi) as (I & a & HI & Ha & ->). destruct (orbitals_X D g g eq_refl l Hl) as (J & b & HJ & Hb & ->). rewrite !flat_at by assumption. unfold g_matrix. rewrite g_Rn_is.
  refine (SkProofs7.hermitian (g_N g) (g_nimg g) (g_no D g) (g_O g) (t_of Bohr g) inv (r_of Bohr g) (g_DT g) (g_phase g k) onsite (pairwise g tab) (pairwise g (d_r1 D)) (pairwise g (d_r2 D)) (images_scaled _ _ _ _ (/ Bohr) (u_images _ _ _ Sg)) Hnog _ _ _ _ I a J b _ HI HJ Ha Hb).
  - intros m a0 b0 i0 Hm Hi0 Ha0 Hb0. pose proof (at_most_nine _ (Hnog i0 Hi0)). unfold no in *. apply (u_DT _ _ _ Sg); (assumption || lia).
  - intros m Hm. apply (u_phase _ _ _ Sg); assumption.
  - intros i0 d _. apply HT.
  - unfold get_matrix. rewrite <- g_Rn_is, HC. reflexivity.
Qed.
End Two.
