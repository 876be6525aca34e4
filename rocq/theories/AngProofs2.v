(** Proofs about rotation_from_matrix. *)
From Coq Require Import Reals ZArith List Bool Lia Lra.
From Verif Require Import Vec GeomModel GeomSpec GeomProofs ScaModel SkModel SkSpec Cpx AngModel AngSpec AngProofs.
Import ListNotations.
Open Scope R_scope.

Lemma det_fixed m : is_rotation m -> det (msub m (mscale 1 eye)) = 0.
Proof.
  intros H. transitivity (det m - trace (cof m) + trace m - 1).
  - destruct m as [[a b c] [d e f] [g h k]]. unfold msub, mscale, trace, cof. vunf. ring.
  - rewrite (rotation_cof m H). destruct H as (_ & _ & ->). ring.
Qed.
Lemma cmul_zero x y : cmul x y = c0 -> x = c0 \/ y = c0.
Proof.
  destruct x as [a b], y as [c d]. unfold cmul, c0. cbn [fst snd]. intros E. injection E as E1 E2.
  assert (P : (a ^ 2 + b ^ 2) * (c ^ 2 + d ^ 2) = 0).
  { transitivity ((a * c - b * d) ^ 2 + (a * d + b * c) ^ 2); [ring|rewrite E1, E2; ring]. }
  destruct (Rmult_integral _ _ P) as [Z|Z]; [left|right].
  - assert (a = 0) by nra. assert (b = 0) by nra. subst. reflexivity.
  - assert (c = 0) by nra. assert (d = 0) by nra. subst. reflexivity.
Qed.
Lemma csub_zero x y : csub x y = c0 -> x = y.
Proof.
  destruct x as [a b], y as [c d]. unfold csub, cadd, copp, c0. cbn [fst snd]. intros E. injection E as E1 E2.
  apply cplx_eq; cbn [fst snd]; lra.
Qed.
Lemma eigenvalue_one m l : is_rotation m -> eigenpairs_of m l -> exists p, In p l /\ fst p = c1.
Proof.
  intros Hm [_ [p [q [r [-> Hc]]]]]. specialize (Hc 1). rewrite det_fixed in Hc by exact Hm.
  symmetry in Hc. apply cmul_zero in Hc. destruct Hc as [Z|Z]; [exists p; split; [left; reflexivity|apply csub_zero; exact Z]|].
  apply cmul_zero in Z. destruct Z as [Z|Z].
  - exists q. split; [right; left; reflexivity|apply csub_zero; exact Z].
  - exists r. split; [right; right; left; reflexivity|apply csub_zero; exact Z].
Qed.
Lemma closest_min l p : In p l -> exists q, closest l = Some q /\ In q l /\ off q <= off p.
Proof.
  revert p. induction l as [|x l IH]; intros p H; [destruct H|]. cbn [closest].
  destruct l as [|y l].
  - cbn [closest]. destruct H as [<-|[]]. exists x. split; [reflexivity|]. split; [left; reflexivity|lra].
  - destruct (IH y (or_introl eq_refl)) as [q [Eq [Iq _]]]. rewrite Eq. unfold leb.
    assert (M : forall p', In p' (y :: l) -> off q <= off p').
    { intros p' H'. destruct (IH p' H') as [q' [E' [_ L]]]. rewrite Eq in E'. injection E' as <-. exact L. }
    destruct (Rle_dec (off x) (off q)) as [L|L].
    + exists x. split; [reflexivity|]. split; [left; reflexivity|].
      destruct H as [<-|H]; [lra|specialize (M p H); lra].
    + exists q. split; [reflexivity|]. split; [right; exact Iq|].
      destruct H as [<-|H]; [lra|apply M; exact H].
Qed.
Lemma nonzero_dot x : x <> vzero -> 0 < vdot x x.
Proof. intros H. pose proof (vnorm_pos x H). pose proof (vnorm_sq x). nra. Qed.
Lemma dot_nonneg x : 0 <= vdot x x.
Proof. destruct x. vunf. nra. Qed.
Lemma eigenvalue_modulus m p : is_rotation m -> eigenvector m p -> fst (fst p) ^ 2 + snd (fst p) ^ 2 = 1.
Proof.
  intros Hm [Hz [E1 E2]]. destruct p as [[a b] [x y]]. cbn [fst snd] in *.
  pose proof (rotation_dot m x x Hm) as D1. pose proof (rotation_dot m y y Hm) as D2. rewrite E1 in D1. rewrite E2 in D2.
  assert (S : (a ^ 2 + b ^ 2) * (vdot x x + vdot y y) = vdot x x + vdot y y).
  { rewrite <- D1 at 2. rewrite <- D2 at 2. destruct x, y. vunf. ring. }
  assert (P : 0 < vdot x x + vdot y y).
  { pose proof (dot_nonneg x). pose proof (dot_nonneg y). destruct Hz as [Hz|Hz]; apply nonzero_dot in Hz; lra. }
  nra.
Qed.
Lemma zero_dot : vdot vzero vzero = 0.
Proof. vunf. ring. Qed.
(** the direction found *)
Lemma closest_axis m l : is_rotation m -> eigenpairs_of m l ->
  exists x, closest l = Some (c1, (x, vzero)) /\ x <> vzero /\ mv m x = x.
Proof.
  intros Hm Hl. destruct (eigenvalue_one m l Hm Hl) as [p [Ip Ep]]. destruct (closest_min l p Ip) as [q [Eq [Iq L]]].
  destruct Hl as [Hv _]. destruct (Hv q Iq) as [V Rl]. pose proof (eigenvalue_modulus m q Hm V) as U.
  unfold off in L. rewrite Ep in L. cbn [c1 fst] in L. replace (1 - 1) with 0 in L by ring. rewrite Rabs_R0 in L.
  assert (A : fst (fst q) = 1).
  { destruct (Req_dec (fst (fst q) - 1) 0) as [Z|Z]; [lra|]. pose proof (Rabs_pos_lt _ Z). lra. }
  assert (B : snd (fst q) = 0) by (rewrite A in U; nra).
  specialize (Rl B). destruct V as [Hz [E1 E2]]. destruct q as [[a b] [x y]]. cbn [fst snd] in *. subst a b y.
  exists x. split; [exact Eq|]. split; [destruct Hz as [Hz|Hz]; [exact Hz|congruence]|].
  rewrite E1. destruct x. vring.
Qed.
Lemma cvnorm_real x : cvnorm (x, vzero) = vnorm x.
Proof. unfold cvnorm, vnorm. cbn [fst snd]. rewrite zero_dot, Rplus_0_r. reflexivity. Qed.
Lemma mv_scale m k x : mv m (vscale k x) = vscale k (mv m x).
Proof. destruct x. vring. Qed.
(** a vector off the axis *)
Lemma off_axis m t u : vdot t t = 1 -> mv m t = t -> mv m u <> u -> vcross t u <> vzero.
Proof.
  intros Ht Hf Hu Z. apply Hu.
  assert (E : u = vscale (vdot t u) t).
  { assert (TT : vcross t (vcross t u) = vsub (vscale (vdot t u) t) (vscale (vdot t t) u)) by (destruct t, u; vunf; apply v3_eq; cbn; ring).
    rewrite Z, Ht in TT.
    assert (T0 : vcross t vzero = vzero) by (destruct t; vunf; apply v3_eq; cbn; ring). rewrite T0 in TT. clear - TT.
    set (w := vscale (vdot t u) t) in *. clearbody w. destruct u as [u1 u2 u3], w as [w1 w2 w3]. vunf. injection TT as ? ? ?. apply v3_eq; cbn; lra. }
  rewrite E at 1. rewrite mv_scale, Hf. symmetry. exact E.
Qed.
Lemma from_matrix m l u : is_rotation m -> eigenpairs_of m l -> mv m u <> u -> angle_resolved m ->
  exists angle t, rotation_from_matrix l u m = Ok (angle, t) /\ vnorm t = 1 /\ 0 <= angle < 2 * PI /\
    mv m t = t /\ m = rotation_matrix t angle.
Proof.
  intros Hm Hl Hu Hr. destruct (closest_axis m l Hm Hl) as [x [Ec [Hx Fx]]].
  unfold rotation_from_matrix. rewrite Ec.
  replace (ltb (Rabs (det m - 1)) e14) with true.
  2:{ symmetry. unfold ltb. destruct Hm as (_ & _ & ->). replace (1 - 1) with 0 by ring. rewrite Rabs_R0.
      destruct (Rlt_dec 0 e14) as [_|N]; [reflexivity|]. exfalso. apply N. unfold e14. apply Rinv_0_lt_compat, pow_lt. lra. }
  cbn [negb].
  replace (ltb e8 (cabs (csub c1 c1))) with false.
  2:{ symmetry. unfold ltb. replace (cabs (csub c1 c1)) with 0.
      - destruct (Rlt_dec e8 0) as [N|_]; [exfalso|reflexivity]. assert (0 < e8) by (unfold e8; apply Rinv_0_lt_compat, pow_lt; lra). lra.
      - unfold cabs, csub, cadd, copp, c1. cbn [fst snd]. replace ((1 + - (1)) ^ 2 + (0 + - 0) ^ 2) with 0 by ring. rewrite sqrt_0. reflexivity. }
  cbv zeta. rewrite cvnorm_real. cbn [fst].
  pose proof (unit_axis x Hx) as Ht. set (t := vscale (/ vnorm x) x) in *.
  assert (Ft : mv m t = t) by (unfold t; rewrite mv_scale, Fx; reflexivity).
  pose proof (off_axis m t u Ht Ft Hu) as Hn. pose proof (unit_axis _ Hn) as Ha. 
  assert (Hta : vdot t (vscale (/ vnorm (vcross t u)) (vcross t u)) = 0).
  { generalize (/ vnorm (vcross t u)). intros k. clear. clearbody t. destruct t, u. vunf. ring. }
  set (a := vscale (/ vnorm (vcross t u)) (vcross t u)) in *.
  destruct (turn m t a Hm Ht Ft Ha Hta) as [th [Em [Cs Sn]]].
  rewrite Cs, Sn. rewrite Em in Hr. destruct (resolved_angle t th Ht Hr) as [R1 R2].
  destruct (phival_angle th R1 R2) as [an [Ean [B [C S]]]]. rewrite Ean. exists an, t.
  split; [reflexivity|]. split; [apply unit_norm; exact Ht|]. split; [exact B|]. split; [exact Ft|].
  rewrite Em. apply rotation_matrix_cs; auto.
Qed.
(** whatever is returned: without rounding of small cosines and sines nothing else is needed of the matrix *)
Lemma from_matrix_bad m l u : Rabs (det m - 1) >= e14 -> rotation_from_matrix l u m = AssertionError.
Proof.
  intros H. unfold rotation_from_matrix, ltb. destruct (Rlt_dec (Rabs (det m - 1)) e14) as [L|_]; [lra|reflexivity].
Qed.
