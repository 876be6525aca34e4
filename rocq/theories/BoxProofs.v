(** Minimum images. *)
From Coq Require Import Reals ZArith List Bool Arith Lia Lra Psatz FunctionalExtensionality.
From Verif Require Import Vec GeomModel GeomProofs ContProofs BoxModel BoxSpec.
Import ListNotations.
Open Scope R_scope.

Ltac three a := destruct a as [|[|[|a]]]; [| | |exfalso; lia].
Lemma npmod_range x L : 0 < L -> 0 <= npmod x L < L.
Proof.
  intros HL. unfold npmod. destruct (base_Int_part (x / L)) as [A B]. set (k := IZR (Int_part (x / L))) in *.
  assert (E : x = L * (x / L)) by (field; lra). set (y := x / L) in *. rewrite E. split; nra.
Qed.
Lemma npmod_shift x L : exists k : Z, npmod x L = x + IZR k * L.
Proof. exists (- Int_part (x / L))%Z. unfold npmod. rewrite opp_IZR. ring. Qed.
Lemma nearest x L k : 0 < L -> - (L / 2) <= x <= L / 2 -> x ^ 2 <= (x + IZR k * L) ^ 2.
Proof.
  intros HL Hx. destruct (Z.eq_dec k 0) as [->|Hk]; [apply Req_le; ring|].
  assert (C : IZR k <= -1 \/ 1 <= IZR k) by (destruct (Z_lt_le_dec k 0); [left; apply (IZR_le k (-1)); lia|right; apply (IZR_le 1 k); lia]).
  assert (0 <= IZR k * L * (IZR k * L + 2 * x)); [|nra].
  destruct C as [C|C].
  - assert (IZR k * L <= - L) by nra. assert (IZR k * L + 2 * x <= 0) by lra. nra.
  - assert (L <= IZR k * L) by nra. assert (0 <= IZR k * L + 2 * x) by lra. nra.
Qed.
Lemma norm_le u v : (forall a, (a < 3)%nat -> coord u a ^ 2 <= coord v a ^ 2) -> vnorm u <= vnorm v.
Proof.
  intros H. unfold vnorm. apply sqrt_le_1_alt. pose proof (H 0%nat ltac:(lia)) as A. pose proof (H 1%nat ltac:(lia)) as B. pose proof (H 2%nat ltac:(lia)) as C. cbn [coord] in *. unfold vdot. nra.
Qed.
Lemma v3_coord u v : (forall a, (a < 3)%nat -> coord u a = coord v a) -> u = v.
Proof. intros H. apply v3_eq; [apply (H 0%nat)|apply (H 1%nat)|apply (H 2%nat)]; lia. Qed.
Lemma coord_image b n v a : orthogonal b -> (a < 3)%nat -> coord (image b n v) a = coord v a + if b_pbc b a then IZR (n a) * axis_length b a else 0.
Proof.
  intros O Ha. unfold image, shift, axis_length.
  pose proof (O 0%nat 1%nat ltac:(lia) ltac:(lia) ltac:(lia)). pose proof (O 0%nat 2%nat ltac:(lia) ltac:(lia) ltac:(lia)). pose proof (O 1%nat 0%nat ltac:(lia) ltac:(lia) ltac:(lia)).
  pose proof (O 1%nat 2%nat ltac:(lia) ltac:(lia) ltac:(lia)). pose proof (O 2%nat 0%nat ltac:(lia) ltac:(lia) ltac:(lia)). pose proof (O 2%nat 1%nat ltac:(lia) ltac:(lia) ltac:(lia)).
  cbn [coord row] in *.
  three a; cbn [coord row]; destruct (b_pbc b 0), (b_pbc b 1), (b_pbc b 2); vunf; nra.
Qed.
Lemma coord_each f v a : (a < 3)%nat -> coord (each f v) a = f a (coord v a).
Proof. intros Ha. three a; reflexivity. Qed.
Lemma wrap_shortest b v : orthogonal b -> positive_axes b -> shortest_image b v (wrap b v).
Proof.
  intros O P.
  assert (K : forall a, exists k : Z, (a < 3)%nat -> coord (wrap b v) a = coord v a + (if b_pbc b a then IZR k * axis_length b a else 0) /\ (b_pbc b a = true -> - (axis_length b a / 2) <= coord (wrap b v) a <= axis_length b a / 2)).
  { intros a. destruct (npmod_shift (coord v a + 0.5 * axis_length b a) (axis_length b a)) as [k Hk]. exists k. intros Ha. unfold wrap. rewrite coord_each by exact Ha. destruct (b_pbc b a) eqn:Ep.
    - split; [rewrite Hk; ring|]. intros _. pose proof (npmod_range (coord v a + 0.5 * axis_length b a) (axis_length b a) (P a Ha Ep)). lra.
    - split; [ring|discriminate]. }
  destruct (K 0%nat) as [k0 K0]. destruct (K 1%nat) as [k1 K1]. destruct (K 2%nat) as [k2 K2].
  set (n := fun a => match a with O => k0 | 1%nat => k1 | _ => k2 end).
  assert (W : forall a, (a < 3)%nat -> coord (wrap b v) a = coord v a + (if b_pbc b a then IZR (n a) * axis_length b a else 0) /\ (b_pbc b a = true -> - (axis_length b a / 2) <= coord (wrap b v) a <= axis_length b a / 2)).
  { intros a Ha. three a; [apply K0|apply K1|apply K2]; lia. }
  split.
  - exists n. apply v3_coord. intros a Ha. rewrite (coord_image b n v a O Ha). apply W. exact Ha.
  - intros m. apply norm_le. intros a Ha. destruct (W a Ha) as [E B]. rewrite (coord_image b m v a O Ha). destruct (b_pbc b a) eqn:Ep.
    + replace (coord v a + IZR (m a) * axis_length b a) with (coord (wrap b v) a + IZR (m a - n a) * axis_length b a) by (rewrite E, minus_IZR; ring). apply nearest; [apply P; assumption|apply B; reflexivity].
    + rewrite E. apply Req_le. reflexivity.
Qed.
(** minimum image vectors *)
Lemma vector_shortest b p q : orthogonal b -> positive_axes b -> exists d, vector false b p (Point q) true = inr d /\ shortest_image b (difference b p q) d.
Proof. intros O P. eexists. split; [reflexivity|]. apply wrap_shortest; assumption. Qed.
Lemma vector_of_point b p e : orthogonal b -> positive_axes b -> exists d, vector e b p Nothing true = inr d /\ shortest_image b (coordinates b p) d.
Proof. intros O P. eexists. split; [reflexivity|]. apply wrap_shortest; assumption. Qed.
Lemma distance_false b p q mic : distance false b p (Point q) mic = match vector false b p (Point q) mic with inl e => inl e | inr v => inr (vnorm v) end.
Proof. destruct q; reflexivity. Qed.
Lemma distance_least b p q : orthogonal b -> positive_axes b -> exists d, distance false b p (Point q) true = inr d /\
  (exists n, d = vnorm (image b n (difference b p q))) /\ forall m, d <= vnorm (image b m (difference b p q)).
Proof.
  intros O P. rewrite distance_false. destruct (vector_shortest b p q O P) as (v & E & (n & En) & Hm). rewrite E. eexists. split; [reflexivity|]. split; [exists n; rewrite En; reflexivity|exact Hm].
Qed.
Lemma norm_opp v : vnorm (vscale (-1) v) = vnorm v.
Proof. unfold vnorm. f_equal. vunf. ring. Qed.
Lemma image_opp b n v : image b (fun a => (- n a)%Z) (vscale (-1) v) = vscale (-1) (image b n v).
Proof. unfold image, shift. rewrite !opp_IZR. destruct (b_pbc b 0), (b_pbc b 1), (b_pbc b 2); apply v3_eq; vunf; ring. Qed.
Lemma image_add b n m u v : image b (fun a => (n a + m a)%Z) (vadd u v) = vadd (image b n u) (image b m v).
Proof. unfold image, shift. rewrite !plus_IZR. destruct (b_pbc b 0), (b_pbc b 1), (b_pbc b 2); apply v3_eq; vunf; ring. Qed.
Lemma distance_symmetric b p q : orthogonal b -> positive_axes b -> distance false b p (Point q) true = distance false b q (Point p) true.
Proof.
  intros O P. destruct (distance_least b p q O P) as (d & E & (n & En) & Hm). destruct (distance_least b q p O P) as (d' & E' & (n' & En') & Hm'). rewrite E, E'. f_equal.
  assert (D : difference b q p = vscale (-1) (difference b p q)) by (unfold difference; apply v3_eq; vunf; ring). rewrite D in *.
  apply Rle_antisym.
  - rewrite En'. specialize (Hm (fun a => (- n' a)%Z)). eapply Rle_trans; [exact Hm|]. apply Req_le. rewrite <- norm_opp, <- image_opp. f_equal. f_equal. apply functional_extensionality. intros a. lia.
  - rewrite En. specialize (Hm' (fun a => (- n a)%Z)). eapply Rle_trans; [exact Hm'|]. apply Req_le. rewrite image_opp, norm_opp. reflexivity.
Qed.
Lemma norm_triangle u v : vnorm (vadd u v) <= vnorm u + vnorm v.
Proof.
  assert (C : vdot u v <= vnorm u * vnorm v).
  { unfold vnorm. assert (A : 0 <= vdot u u) by (unfold vdot; nra). assert (B : 0 <= vdot v v) by (unfold vdot; nra). rewrite <- sqrt_mult by assumption.
    destruct (Rle_dec (vdot u v) 0) as [N|N]; [eapply Rle_trans; [exact N|apply sqrt_pos]|]. rewrite <- (sqrt_Rsqr (vdot u v)) by lra. apply sqrt_le_1_alt. unfold Rsqr.
    assert (I : 0 <= vdot (vcross u v) (vcross u v)) by (unfold vdot; nra). replace (vdot (vcross u v) (vcross u v)) with (vdot u u * vdot v v - vdot u v * vdot u v) in I by (vunf; ring). lra. }
  assert (P : 0 <= vnorm u) by apply sqrt_pos. assert (Q : 0 <= vnorm v) by apply sqrt_pos. apply Rsqr_incr_0_var; [|lra]. unfold Rsqr.
  assert (S1 : forall x, vnorm x * vnorm x = vdot x x) by (intros x; unfold vnorm; apply sqrt_sqrt; unfold vdot; nra). rewrite S1. replace (vdot (vadd u v) (vadd u v)) with (vdot u u + 2 * vdot u v + vdot v v) by (vunf; ring). rewrite <- !S1. nra.
Qed.
Lemma distance_triangle b p q s x y z : orthogonal b -> positive_axes b -> distance false b p (Point q) true = inr x -> distance false b q (Point s) true = inr y -> distance false b p (Point s) true = inr z -> z <= x + y.
Proof.
  intros O P Ex Ey Ez. destruct (distance_least b p q O P) as (d1 & E1 & (n1 & En1) & _). destruct (distance_least b q s O P) as (d2 & E2 & (n2 & En2) & _). destruct (distance_least b p s O P) as (d3 & E3 & _ & Hm).
  assert (d1 = x) by congruence. assert (d2 = y) by congruence. assert (d3 = z) by congruence. subst.
  eapply Rle_trans; [apply (Hm (fun a => (n1 a + n2 a)%Z))|]. replace (difference b p s) with (vadd (difference b p q) (difference b q s)) by (unfold difference; apply v3_eq; vunf; ring). rewrite image_add. apply norm_triangle.
Qed.
Lemma norm_zero v : vnorm v = 0 <-> v = vzero.
Proof.
  split.
  - intros H. unfold vnorm in H. apply sqrt_eq_0 in H; [|unfold vdot; nra]. unfold vdot in H. apply v3_eq; cbn; nra.
  - intros ->. unfold vnorm. rewrite <- sqrt_0. f_equal. vunf. ring.
Qed.
(** distance zero: the same point of the crystal *)
Lemma distance_zero b p q : orthogonal b -> positive_axes b -> (distance false b p (Point q) true = inr 0 <-> exists n, image b n (difference b p q) = vzero).
Proof.
  intros O P. destruct (distance_least b p q O P) as (d & E & (n & En) & Hm). rewrite E. split.
  - intros H. assert (d = 0) by congruence. exists n. apply norm_zero. lra.
  - intros (m & Em). f_equal. specialize (Hm m). rewrite Em in Hm. rewrite (proj2 (norm_zero vzero) eq_refl) in Hm. assert (0 <= d) by (rewrite En; apply sqrt_pos). lra.
Qed.
(** equal distances for structures that agree up to images *)
Lemma distance_unique b p q d : orthogonal b -> positive_axes b -> (exists n, d = vnorm (image b n (difference b p q))) -> (forall m, d <= vnorm (image b m (difference b p q))) -> distance false b p (Point q) true = inr d.
Proof.
  intros O P (n & En) H. destruct (distance_least b p q O P) as (d' & E & (n' & En') & H'). rewrite E. f_equal. apply Rle_antisym; [rewrite En; apply H'|rewrite En'; apply H].
Qed.
(** ** Failures *)
Lemma new_numpy b p q mic : (exists e, vector true b p (Point q) mic = inl e) /\ (exists e, distance true b p (Point q) mic = inl e) /\ vector true b p (Point q) true = inl ValueError /\ distance true b p (Point q) true = inl ValueError.
Proof. destruct mic, q; repeat split; try (eexists; reflexivity). Qed.
Lemma np_small x L : 0 <= x < L -> npmod x L = x.
Proof.
  intros H. unfold npmod. assert (E : Int_part (x / L) = 0%Z).
  { apply Int_part_bounds. split.
    - unfold Rdiv. apply Rmult_le_pos; [lra|]. left. apply Rinv_0_lt_compat. lra.
    - assert (x / L < 1) by (apply Rmult_lt_reg_r with L; [lra|]; unfold Rdiv; rewrite Rmult_assoc, Rinv_l by lra; lra). lra. }
  rewrite E. ring.
Qed.
(** the length of a vector at the origin comes out as that of (1,1,1) *)
Lemma length_refuted e : exists b p, orthogonal b /\ positive_axes b /\ coordinates b p = vzero /\ distance e b p Nothing true = inr (sqrt 3).
Proof.
  exists cube, (Index 0). split; [intros a c Ha Hc Ne; three a; three c; try (exfalso; lia); reflexivity|]. split; [intros a Ha _; three a; cbn; lra|]. split; [reflexivity|].
  unfold distance, vector, wrap, each. cbn [negb b_pbc cube]. f_equal. unfold vnorm. f_equal. unfold axis_length. cbn [cube coordinates b_pos Nat.eqb b_cell row coord row1 row2 row3 vx vy vz vsub vzero].
  rewrite np_small by lra. vunf. lra.
Qed.
(** an oblique cell with a negative component is taken to be orthogonal *)
Lemma oblique_refuted : orthogonal_check oblique = true /\ positive_axes oblique /\ (exists n, image oblique n (difference oblique (Index 0) (Index 1)) = vzero) /\ distance false oblique (Index 0) (Point (Index 1)) true = inr 1.
Proof.
  split.
  { unfold orthogonal_check. cbn [forallb seq Nat.eqb oblique b_cell row coord row1 row2 row3 vx vy vz orb]. assert (0 < / 10 ^ 9) by (apply Rinv_0_lt_compat, pow_lt; lra). rewrite !(proj2 (ltb_false _ _)) by lra. reflexivity. }
  split; [intros a Ha _; three a; cbn; lra|]. split.
  - exists (fun a => if (a =? 1)%nat then (-1)%Z else 0%Z). unfold image, shift, difference. cbn [oblique b_pbc b_cell row Nat.eqb coordinates b_pos row1 row2 row3]. apply v3_eq; vunf; ring.
  - unfold distance, vector, wrap, each. cbn [negb b_pbc oblique]. f_equal. transitivity (sqrt 1); [|apply sqrt_1]. unfold vnorm. f_equal. unfold axis_length. cbn [oblique coordinates b_pos Nat.eqb b_cell row coord row1 row2 row3 vx vy vz vsub vzero].
    assert (E4 : npmod (4 - 0 + 0.5 * 4) 4 = 2). { unfold npmod. replace ((4 - 0 + 0.5 * 4) / 4) with (3 / 2) by lra. rewrite (Int_part_bounds (3 / 2) 1) by lra. lra. }
    rewrite E4. rewrite !(np_small _ 4) by lra. vunf. lra.
Qed.
