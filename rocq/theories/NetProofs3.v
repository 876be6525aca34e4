From Coq Require Import Reals ZArith List Bool Arith Lia Lra FunctionalExtensionality.
From Verif Require Import Vec GeomModel GeomSpec GeomProofs CoulModel PairModel PairSpec PairProofs SkModel SkSpec SkProofs SkProofs2 SkProofs3 SkProofs4 SkProofs5 SkProofs6 SkProofs7 Cpx RhoModel RhoSpec RhoProofs GamModel InvModel InvSpec InvLin InvProofs InvProofs2 InvProofs5 InvProofs6 InvProofs7 InvProofs8 InvProofs9 InvProofs10 InvProofs11 FrcSpec NetSpec NetProofs NetProofs2.
Import ListNotations.
Open Scope R_scope.

Lemma moves_commutes w om O t : moves_along w om O t -> commutes om O.
Proof.
  intros H x. pose proof (H x) as A. pose proof (H vzero) as B. unfold rigid_velocity in *.
  rewrite !mv_vadd in A. rewrite mv_vadd in B.
  destruct O as [[o1 o2 o3] [o4 o5 o6] [o7 o8 o9]], w as [w1 w2 w3], om as [a b c], t as [t1 t2 t3], x as [x1 x2 x3].
  unfold mv, vadd, vcross, vdot, vzero in *. cbn [vx vy vz row1 row2 row3] in *. injection A; injection B; intros. f_equal; lra.
Qed.
Lemma motion_difference w om O t a b : moves_along w om O t ->
  vsub (mv O (rigid_velocity w om b)) (rigid_velocity w om a) = vcross om (vsub (vadd (mv O b) t) a).
Proof.
  intros H. rewrite (H b). unfold rigid_velocity. generalize (vadd (mv O b) t). intros q. destruct w, om, a, q. unfold vsub, vadd, vcross. cbn. f_equal; ring.
Qed.
Lemma drop_zero x y p q : cadd x y = c0 -> cadd p q = cadd (cadd x p) (cadd y q).
Proof. intros E. transitivity (cadd (cadd x y) (cadd p q)); [rewrite E; ring|ring]. Qed.
Section Blocks.
Context (D : database) (g : structure) (inv : nat -> nat) (Bohr : R) (Sg : sound D g inv) (OT : one_table D) (HB : Bohr <> 0).
Context (HC : too_close (g_N g) (g_nimg g) (g_Rn Bohr g) = false).
Context (w om : v3) (Mo : forall n, (n < g_nimg g)%nat -> moves_along w om (g_O g n) (g_t g n)).
Context (L : nat -> nat -> R) (SR : small_rotation om L).
Definition vel (c I : nat) : R := comp c (rigid_velocity w om (g_r g I)).
Lemma O_orth n : (n < g_nimg g)%nat -> orthogonal (g_O g n).
Proof. exact (orthogonal_n (g_nimg g) (g_O g) (g_t g) inv (u_images _ _ _ Sg) n). Qed.
Lemma no9 i : (g_no D g i <= 9)%nat.
Proof. apply at_most_nine, (u_no _ _ _ Sg). Qed.
Lemma rsum_L n a f : In n [1; 4; 9]%nat -> (a < n)%nat -> rsum 9 (fun c => L a c * f c) = rsum n (fun c => L a c * f c).
Proof.
  intros H Ha. pose proof (at_most_nine n H). replace 9%nat with (n + (9 - n))%nat by lia. rewrite rsum_split, (rsum_eq0 (9 - n)); [ring|].
  intros k Hk. rewrite (sr_off _ _ SR); [ring|lia|lia|]. apply (whole_shells n); [exact H|exact Ha|lia].
Qed.
(** one image of a pair of atoms: the derivative along the motion is the rotation of the orbitals *)
Lemma image_turn (tab dtab : nat -> nat -> R -> nat -> R) n i j a b : (n < g_nimg g)%nat -> (i < g_N g)%nat -> (j < g_N g)%nat -> ~ (i = j /\ n = 0%nat) -> (a < g_no D g i)%nat -> (b < g_no D g j)%nat ->
  rsum 3 (fun q => comp q (vcross om (mrij (g_Rn Bohr g) n i j)) * dht_image (g_no D g) (g_Rn Bohr g) (g_DT g) (pairwise g tab) (pairwise g dtab) n i j a b q) =
  rsum (g_no D g i) (fun c => L a c * ht_image (g_no D g) (g_Rn Bohr g) (g_DT g) (pairwise g tab) n i j c b) + rsum (g_no D g j) (fun c => L b c * ht_image (g_no D g) (g_Rn Bohr g) (g_DT g) (pairwise g tab) n i j a c).
Proof.
  intros Hn Hi Hj Ne Ha Hb. pose proof (apart D g inv Bohr Sg HC n i j Hn Hi Hj Ne) as Hp.
  pose proof (no9 i) as N1. pose proof (no9 j) as N2. pose proof (u_no _ _ _ Sg (g_kind g i)) as U1. pose proof (u_no _ _ _ Sg (g_kind g j)) as U2.
  change (In (g_no D g i) [1; 4; 9]%nat) in U1. change (In (g_no D g j) [1; 4; 9]%nat) in U2.
  unfold dht_image, ht_image, rijh, mdist. set (p := mrij (g_Rn Bohr g) n i j) in *. set (ph := vscale (/ vnorm p) p). set (h := pairwise g tab i j (vnorm p)). set (h' := pairwise g dtab i j (vnorm p)).
  set (ni := g_no D g i) in *. set (nj := g_no D g j) in *.
  set (E := fun k b => g_DT g n k b).
  assert (EE : forall k, (k < 9)%nat -> E k b = Drep (g_O g n) k b) by (intros k Hk; apply (u_DT _ _ _ Sg); [exact Hn|exact Hk|lia]).
  transitivity (rsum nj (fun k => (rsum 9 (fun c => L a c * ht ph h c k) + rsum 9 (fun c => ht ph h a c * L k c)) * E k b)).
  { rewrite (rsum_ext 3 _ (fun q => rsum nj (fun k => comp q (vcross om p) * dht ph (vnorm p) h (fun c k => h' c * comp k ph) a k q * E k b))).
    2:{ intros q _. rewrite <- rsum_scal. apply rsum_ext. intros k _. unfold E. ring. }
    rewrite rsum_swap. apply rsum_ext. intros k Hk. rewrite rsum_scal_r. f_equal. apply (sr_bond _ _ SR); [exact Hp|lia|lia]. }
  rewrite (rsum_ext nj _ (fun k => rsum 9 (fun c => L a c * ht ph h c k) * E k b + rsum 9 (fun c => ht ph h a c * L k c) * E k b)) by (intros; ring). rewrite rsum_plus. f_equal.
  - rewrite (rsum_ext nj _ (fun k => rsum ni (fun c => L a c * (ht ph h c k * E k b)))).
    2:{ intros k _. rewrite (rsum_L ni a (fun c => ht ph h c k) U1 Ha), <- rsum_scal_r. apply rsum_ext. intros c _. ring. }
    rewrite rsum_swap. apply rsum_ext. intros c _. rewrite <- rsum_scal. reflexivity.
  - rewrite (rsum_ext nj _ (fun k => rsum nj (fun c => ht ph h a c * (L k c * E k b)))).
    2:{ intros k Hk. rewrite (rsum_ext 9 _ (fun c => L k c * ht ph h a c)) by (intros; ring). rewrite (rsum_L nj k (fun c => ht ph h a c) U2 Hk), <- rsum_scal_r. apply rsum_ext. intros c _. ring. }
    rewrite rsum_swap. rewrite (rsum_ext nj (fun c => L b c * _) (fun c => rsum nj (fun k => L b c * (ht ph h a k * g_DT g n k c)))) by (intros; rewrite rsum_scal; reflexivity).
    rewrite (rsum_swap nj nj (fun c k => L b c * (ht ph h a k * g_DT g n k c))). apply rsum_ext. intros c Hc.
    rewrite rsum_scal. rewrite (rsum_ext nj (fun i0 => L b i0 * _) (fun k => ht ph h a c * (L b k * g_DT g n c k))) by (intros; ring). rewrite rsum_scal. f_equal.
    transitivity (- rsum 9 (fun k => L c k * Drep (g_O g n) k b)).
    + rewrite (rsum_L nj c (fun k => Drep (g_O g n) k b) U2 Hc).
      replace (- rsum nj (fun k => L c k * Drep (g_O g n) k b)) with (-1 * rsum nj (fun k => L c k * Drep (g_O g n) k b)) by ring. rewrite <- rsum_scal.
      apply rsum_ext. intros k Hk. rewrite EE by lia. rewrite (sr_anti _ _ SR k c) by lia. ring.
    + rewrite (sr_comm _ _ SR (g_O g n) c b (O_orth n Hn) (moves_commutes w om _ _ (Mo n Hn))) by lia.
      transitivity (rsum 9 (fun k => L b k * Drep (g_O g n) c k)).
      * replace (- rsum 9 (fun c0 => Drep (g_O g n) c c0 * L c0 b)) with (-1 * rsum 9 (fun c0 => Drep (g_O g n) c c0 * L c0 b)) by ring. rewrite <- rsum_scal. apply rsum_ext. intros k Hk. rewrite (sr_anti _ _ SR k b) by lia. ring.
      * rewrite (rsum_L nj b (fun k => Drep (g_O g n) c k) U2 Hb). apply rsum_ext. intros k Hk. rewrite (u_DT _ _ _ Sg) by (assumption || lia). reflexivity.
Qed.
Lemma vel_difference n i j q : (n < g_nimg g)%nat -> (q < 3)%nat ->
  rsum 3 (fun c => m3e (g_O g n) q c * vel c j) - vel q i = Bohr * comp q (vcross om (mrij (g_Rn Bohr g) n i j)).
Proof.
  intros Hn Hq. unfold vel. rewrite <- comp_mv by assumption.
  pose proof (motion_difference w om (g_O g n) (g_t g n) (g_r g i) (g_r g j) (Mo n Hn)) as E.
  assert (E0 : mrij (g_Rn Bohr g) n i j = vscale (/ Bohr) (vsub (vadd (mv (g_O g n) (g_r g j)) (g_t g n)) (g_r g i))).
  { unfold mrij, g_Rn. destruct (im_id _ _ _ _ (u_images _ _ _ Sg)) as [I1 I2]. rewrite I1, I2, mv_eye. generalize (vadd (mv (g_O g n) (g_r g j)) (g_t g n)). intros q0. destruct q0, (g_r g i). unfold vsub, vscale, vadd, vzero. cbn. f_equal; ring. }
  rewrite E0. generalize dependent (vsub (vadd (mv (g_O g n) (g_r g j)) (g_t g n)) (g_r g i)). intros p E _.
  transitivity (comp q (vcross om p)).
  - rewrite <- E. three q; reflexivity.
  - generalize om. intros [o1 o2 o3]. destruct p as [p1 p2 p3]. three q; unfold vcross, vscale, comp; cbn [vx vy vz]; field; exact HB.
Qed.
Context (k : nat) (Hk : (k < g_nk g)%nat).
Context (onsite : nat -> nat -> R) (tab dtab : nat -> nat -> R -> nat -> R).
Context (HT : forall K L d, exists tij tji, same_integrals tij tji /\ (forall c, (c < 14)%nat -> tab K L d c = read_integral tij tji c) /\ forall c, (c < 14)%nat -> tab L K d c = read_integral tji tij c).
Context (HT' : forall K L d, exists tij tji, same_integrals tij tji /\ (forall c, (c < 14)%nat -> dtab K L d c = read_integral tij tji c) /\ forall c, (c < 14)%nat -> dtab L K d c = read_integral tji tij c).
Context (Hon : forall i a b, shell a = shell b -> onsite i a = onsite i b).
Let Hm := g_matrix Bohr D g onsite tab k.
Let dHm (c : nat) := g_dmatrix Bohr D g tab dtab c k.
(** the derivative of one element along the motion *)
Definition velo (i a j b : nat) : cplx := csum 3 (fun c => cscale (vel c i) (g_dmatrix Bohr D g tab dtab c k i a j b)).
Lemma cscale_lin n (f : nat -> R) z : cscale (rsum n f) z = csum n (fun q => cscale (f q) z).
Proof. apply cplx_eq; cbn [cscale csum fst snd]; rewrite rsum_scal_r; reflexivity. Qed.
Lemma images_sum n (sk : nat -> bool) (A : nat -> nat -> R) nimg (phase : nat -> cplx) (x : nat -> R) :
  csum n (fun c => cscale (x c) (csum nimg (fun m => if sk m then (0, 0) else cscale (A c m) (phase m)))) = csum nimg (fun m => if sk m then (0, 0) else cscale (rsum n (fun c => x c * A c m)) (phase m)).
Proof.
  rewrite (csum_ext' n _ (fun c => csum nimg (fun m => if sk m then (0, 0) else cscale (x c * A c m) (phase m)))).
  - rewrite csum_swap. apply csum_ext'. intros m _. destruct (sk m); [apply csum_zero; reflexivity|]. rewrite cscale_lin. reflexivity.
  - intros c _. rewrite cscale_rc, <- csum_mul. apply csum_ext'. intros m _. destruct (sk m); [apply cplx_eq; cbn; ring|]. apply cplx_eq; cbn [cmul rc cscale fst snd]; ring.
Qed.
Lemma velo_upper i a j b : (i <= j)%nat -> (i < g_N g)%nat -> (j < g_N g)%nat -> (a < g_no D g i)%nat -> (b < g_no D g j)%nat ->
  cadd (velo i a j b) (cconj (velo j b i a)) =
  cadd (csum (g_no D g i) (fun c => cmul (rc (Bohr * L a c)) (Hm i c j b))) (csum (g_no D g j) (fun c => cmul (rc (Bohr * L b c)) (Hm i a j c))).
Proof.
  intros Le Hi Hj Ha Hb. pose proof (no9 i). pose proof (no9 j).
  set (sk := fun n => skipped (g_Rn Bohr g) (pairwise g (d_r1 D)) (pairwise g (d_r2 D)) n i j).
  set (dht3 := fun q n => dht_image (g_no D g) (g_Rn Bohr g) (g_DT g) (pairwise g tab) (pairwise g dtab) n i j a b q).
  assert (E1 : velo i a j b = csum (g_nimg g) (fun n => if sk n then (0, 0) else cscale (rsum 3 (fun c => vel c i * - dht3 c n)) (g_phase g k n))).
  { unfold velo, g_dmatrix. rewrite (proj2 (Nat.ltb_ge j i) Le). unfold dblock. fold sk. apply (images_sum 3 sk (fun c n => - dht3 c n)). }
  assert (E2 : cconj (velo j b i a) = csum (g_nimg g) (fun n => if sk n then (0, 0) else cscale (rsum 3 (fun c => vel c j * rsum 3 (fun q => dht3 q n * m3e (g_O g n) q c))) (g_phase g k n))).
  { transitivity (csum 3 (fun c => cscale (vel c j) (cconj (dblock2 (g_nimg g) (g_no D g) (g_Rn Bohr g) (g_O g) (g_DT g) (g_phase g k) (pairwise g tab) (pairwise g dtab) (pairwise g (d_r1 D)) (pairwise g (d_r2 D)) i j a b c)))).
    - unfold velo. rewrite csum_conj. apply csum_ext'. intros c Hc. rewrite !cscale_rc, cconj_mul, cconj_rc. f_equal. f_equal. unfold g_dmatrix.
      destruct (Nat.ltb_spec i j) as [Lt|Ge]; [reflexivity|]. assert (i = j) by lia. subst j.
      apply (g_dblock_swap D g inv Bohr Sg HC OT k tab dtab i i b a c); assumption.
    - unfold dblock2. rewrite <- (images_sum 3 sk (fun c n => rsum 3 (fun q => dht3 q n * m3e (g_O g n) q c))). apply csum_ext'. intros c _. rewrite cconj_conj. reflexivity. }
  rewrite E1, E2, <- csum_add.
  transitivity (csum (g_nimg g) (fun n => if sk n then (0, 0) else cscale (Bohr * (rsum (g_no D g i) (fun c => L a c * ht_image (g_no D g) (g_Rn Bohr g) (g_DT g) (pairwise g tab) n i j c b) + rsum (g_no D g j) (fun c => L b c * ht_image (g_no D g) (g_Rn Bohr g) (g_DT g) (pairwise g tab) n i j a c))) (g_phase g k n))).
  - apply csum_ext'. intros n Hn. destruct (sk n) eqn:Esk; [apply cplx_eq; cbn; ring|].
    assert (Ne : ~ (i = j /\ n = 0%nat)) by (apply (not_skipped (g_Rn Bohr g) (pairwise g (d_r1 D)) (pairwise g (d_r2 D)) n i j Esk)).
    rewrite <- (image_turn tab dtab n i j a b Hn Hi Hj Ne Ha Hb). fold dht3.
    rewrite !cscale_rc. transitivity (cmul (rc (rsum 3 (fun c => vel c i * - dht3 c n) + rsum 3 (fun c => vel c j * rsum 3 (fun q => dht3 q n * m3e (g_O g n) q c)))) (g_phase g k n)).
    + rewrite rc_add. ring.
    + f_equal. f_equal.
      transitivity (rsum 3 (fun q => (rsum 3 (fun c => m3e (g_O g n) q c * vel c j) - vel q i) * dht3 q n)).
      * cbn [rsum]. ring.
      * rewrite <- rsum_scal. apply rsum_ext. intros q Hq. rewrite (vel_difference n i j q Hn Hq). unfold dht3. ring.
  - set (on := fun c d : nat => if (i =? j)%nat then if (c =? d)%nat then (onsite i c, 0) else (0, 0) else (0, 0) : cplx).
    assert (EH : forall c d, Hm i c j d = cadd (on c d) (block (g_nimg g) (g_no D g) (g_Rn Bohr g) (g_DT g) (g_phase g k) (pairwise g tab) (pairwise g (d_r1 D)) (pairwise g (d_r2 D)) i j c d)).
    { intros c d. unfold Hm, g_matrix, SkModel.matrix, on. destruct (Nat.ltb_spec i j) as [Lt|Ge].
      - replace (i =? j)%nat with false by (symmetry; apply Nat.eqb_neq; lia). apply cplx_eq; cbn; ring.
      - assert (i = j) by lia. subst j. replace (i <? i)%nat with false by (symmetry; apply Nat.ltb_irrefl). rewrite Nat.eqb_refl. reflexivity. }
    rewrite (csum_ext' (g_no D g i) _ (fun c => cadd (cmul (rc (Bohr * L a c)) (on c b)) (cmul (rc (Bohr * L a c)) (block (g_nimg g) (g_no D g) (g_Rn Bohr g) (g_DT g) (g_phase g k) (pairwise g tab) (pairwise g (d_r1 D)) (pairwise g (d_r2 D)) i j c b)))) by (intros c _; rewrite EH; ring).
    rewrite (csum_ext' (g_no D g j) _ (fun c => cadd (cmul (rc (Bohr * L b c)) (on a c)) (cmul (rc (Bohr * L b c)) (block (g_nimg g) (g_no D g) (g_Rn Bohr g) (g_DT g) (g_phase g k) (pairwise g tab) (pairwise g (d_r1 D)) (pairwise g (d_r2 D)) i j a c)))) by (intros c _; rewrite EH; ring).
    rewrite !csum_add.
    assert (EO : cadd (csum (g_no D g i) (fun c => cmul (rc (Bohr * L a c)) (on c b))) (csum (g_no D g j) (fun c => cmul (rc (Bohr * L b c)) (on a c))) = c0).
    { unfold on. destruct (Nat.eqb_spec i j) as [Eij|Nij].
      - subst j. rewrite (csum_single (g_no D g i) b) by first [assumption | intros c _ Nc; destruct (Nat.eqb_spec c b); [contradiction|apply cplx_eq; cbn; ring]].
        rewrite (csum_single (g_no D g i) a) by first [assumption | intros c _ Nc; destruct (Nat.eqb_spec a c); [subst; contradiction|apply cplx_eq; cbn; ring]].
        rewrite !Nat.eqb_refl. rewrite (sr_anti _ _ SR b a) by lia. destruct (Nat.eq_dec (shell a) (shell b)) as [Es|Ns].
        + rewrite (Hon i a b Es). apply cplx_eq; cbn; ring.
        + rewrite (sr_off _ _ SR a b) by (lia || exact Ns). apply cplx_eq; cbn; ring.
      - rewrite !csum_zero by (intros; apply cplx_eq; cbn; ring). apply cplx_eq; cbn; ring. }
    transitivity (cadd (csum (g_no D g i) (fun c => cmul (rc (Bohr * L a c)) (block (g_nimg g) (g_no D g) (g_Rn Bohr g) (g_DT g) (g_phase g k) (pairwise g tab) (pairwise g (d_r1 D)) (pairwise g (d_r2 D)) i j c b)))
      (csum (g_no D g j) (fun c => cmul (rc (Bohr * L b c)) (block (g_nimg g) (g_no D g) (g_Rn Bohr g) (g_DT g) (g_phase g k) (pairwise g tab) (pairwise g (d_r1 D)) (pairwise g (d_r2 D)) i j a c)))).
    2:{ apply drop_zero. exact EO. }
    unfold block. fold sk.
    rewrite (csum_ext' (g_no D g i) _ (fun c => cscale (Bohr * L a c) (csum (g_nimg g) (fun n => if sk n then (0, 0) else cscale (ht_image (g_no D g) (g_Rn Bohr g) (g_DT g) (pairwise g tab) n i j c b) (g_phase g k n))))) by (intros; rewrite cscale_rc; reflexivity).
    rewrite (csum_ext' (g_no D g j) _ (fun c => cscale (Bohr * L b c) (csum (g_nimg g) (fun n => if sk n then (0, 0) else cscale (ht_image (g_no D g) (g_Rn Bohr g) (g_DT g) (pairwise g tab) n i j a c) (g_phase g k n))))) by (intros; rewrite cscale_rc; reflexivity).
    rewrite (images_sum _ sk (fun c n => ht_image (g_no D g) (g_Rn Bohr g) (g_DT g) (pairwise g tab) n i j c b)), (images_sum _ sk (fun c n => ht_image (g_no D g) (g_Rn Bohr g) (g_DT g) (pairwise g tab) n i j a c)), <- csum_add.
    apply csum_ext'. intros n _. destruct (sk n); [apply cplx_eq; cbn; ring|]. rewrite !cscale_rc.
    rewrite (rsum_ext (g_no D g i) (fun c => Bohr * L a c * _) (fun c => Bohr * (L a c * ht_image (g_no D g) (g_Rn Bohr g) (g_DT g) (pairwise g tab) n i j c b))) by (intros; ring).
    rewrite (rsum_ext (g_no D g j) (fun c => Bohr * L b c * _) (fun c => Bohr * (L b c * ht_image (g_no D g) (g_Rn Bohr g) (g_DT g) (pairwise g tab) n i j a c))) by (intros; ring).
    rewrite !rsum_scal, Rmult_plus_distr_l, rc_add. ring.
Qed.
End Blocks.
