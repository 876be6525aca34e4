(** Proofs about spherical harmonics: they are orthonormal. *)
From Coq Require Import Reals ZArith List Bool Lia Lra.
From Coquelicot Require Import Coquelicot.
From Verif Require Import Vec GeomModel GeomSpec GeomProofs SkModel Cpx YlmModel YlmSpec YlmProofs YlmProofs2.
Import ListNotations.
Open Scope R_scope.

Lemma peval_add p q x : peval (padd p q) x = peval p x + peval q x.
Proof.
  revert q. induction p as [|a p IH]; intros [|b q]; cbn [padd peval]; try ring. rewrite IH, plus_IZR. ring.
Qed.
Lemma peval_scale a q x : peval (map (Z.mul a) q) x = IZR a * peval q x.
Proof. induction q as [|b q IH]; cbn [map peval]; [ring|]. rewrite IH, mult_IZR. ring. Qed.
Lemma peval_mul p q x : peval (pmul p q) x = peval p x * peval q x.
Proof.
  induction p as [|a p IH]; cbn [pmul peval]; [ring|]. rewrite peval_add, peval_scale. cbn [peval]. rewrite IH. ring.
Qed.
Lemma peval_pow p n x : peval (ppow p n) x = peval p x ^ n.
Proof. induction n as [|n IH]; cbn [ppow pow peval]; [ring|]. rewrite peval_mul, IH. reflexivity. Qed.
Lemma peval_cont p : continuity (peval p).
Proof.
  induction p as [|a p IH]; cbn [peval].
  - apply continuity_const. intros x y. reflexivity.
  - apply (continuity_plus (fun _ => IZR a) (fun x => x * peval p x)).
    + apply continuity_const. intros x y. reflexivity.
    + apply (continuity_mult (fun x => x) (peval p)); [apply derivable_continuous, derivable_id|exact IH].
Qed.
(** antiderivative *)
Fixpoint prim (j : positive) (p : list Z) (x : R) : R :=
  match p with [] => 0 | a :: p => IZR a * x ^ Pos.to_nat j / IZR (Zpos j) + prim (Pos.succ j) p x end.
Lemma prim_derive p x : forall j, is_derive (prim j p) x (x ^ Nat.pred (Pos.to_nat j) * peval p x).
Proof.
  induction p as [|a p IH]; intros j; cbn [prim peval].
  - rewrite Rmult_0_r. apply (is_derive_const (V := R_NormedModule) 0).
  - replace (x ^ Nat.pred (Pos.to_nat j) * (IZR a + x * peval p x))
      with (IZR a * x ^ Nat.pred (Pos.to_nat j) + x ^ Nat.pred (Pos.to_nat (Pos.succ j)) * peval p x).
    2:{ rewrite Pos2Nat.inj_succ. cbn [Nat.pred]. pose proof (Pos2Nat.is_pos j) as P. replace (Pos.to_nat j) with (S (Nat.pred (Pos.to_nat j))) at 2 by lia.
        cbn [pow]. ring. }
    apply (is_derive_plus (V := R_NormedModule) (fun x => IZR a * x ^ Pos.to_nat j / IZR (Z.pos j)) (prim (Pos.succ j) p)); [|apply IH].
    auto_derive; [trivial|]. rewrite INR_IZR_INZ. rewrite positive_nat_Z. field. apply IZR_neq. discriminate.
Qed.
Definition span (p : list Z) : R := prim 1 p 1 - prim 1 p (-1).
Lemma peval_integral k p : is_RInt (fun t => k * peval p (cos t) * sin t) 0 PI (k * span p).
Proof.
  replace (k * span p) with (minus (- (k * prim 1 p (cos PI))) (- (k * prim 1 p (cos 0)))) by (rewrite cos_PI, cos_0; unfold minus, plus, opp, span; simpl; ring).
  apply (is_RInt_derive (V := R_CompleteNormedModule) (fun t => - (k * prim 1 p (cos t))) (fun t => k * peval p (cos t) * sin t)).
  - intros t _. assert (D : is_derive (fun t => prim 1 p (cos t)) t (scal (- sin t) (cos t ^ Nat.pred (Pos.to_nat 1) * peval p (cos t)))).
    { apply (is_derive_comp (prim 1 p) cos); [apply prim_derive|]. apply is_derive_Reals, derivable_pt_lim_cos. }
    change (Nat.pred (Pos.to_nat 1)) with 0%nat in D.
    replace (k * peval p (cos t) * sin t) with (- (k * (- sin t * (cos t ^ 0 * peval p (cos t))))) by (cbn [pow]; ring).
    apply (is_derive_opp (V := R_NormedModule) (fun t => k * prim 1 p (cos t))). apply (is_derive_scal (fun t => prim 1 p (cos t)) t k). exact D.
  - intros t _. apply continuity_pt_filterlim. apply (continuity_pt_mult (fun t => k * peval p (cos t)) sin).
    + apply (continuity_pt_mult (fun _ => k) (fun t => peval p (cos t))).
      * apply continuity_pt_const. intros a b. reflexivity.
      * apply (continuity_pt_comp cos (peval p)); [apply continuity_cos|apply peval_cont].
    + apply continuity_sin.
Qed.
Definition square (l l' k : nat) : list Z := pmul (ppow [1%Z; 0%Z; (-1)%Z] k) (pmul (rodrigues l k) (rodrigues l' k)).
Definition factor (l l' k : nat) : R := normalisation l k * normalisation l' k / (IZR (2 ^ Z.of_nat l * zfact l) * IZR (2 ^ Z.of_nat l' * zfact l')).
Lemma zfact_pos n : (0 < zfact n)%Z.
Proof. induction n as [|n IH]; cbn [zfact]; lia. Qed.
Lemma denominator l : IZR (2 ^ Z.of_nat l * zfact l) <> 0.
Proof. apply IZR_neq. pose proof (zfact_pos l). assert (0 < 2 ^ Z.of_nat l)%Z by (apply Z.pow_pos_nonneg; lia). nia. Qed.
Lemma product_same l l' m t : amplitude l m t * amplitude l' m t = factor l l' (Z.abs_nat m) * peval (square l l' (Z.abs_nat m)) (cos t).
Proof.
  unfold amplitude, factor, square, legendre. set (k := Z.abs_nat m). rewrite !peval_mul, peval_pow.
  replace (peval [1%Z; 0%Z; (-1)%Z] (cos t)) with (sin t * sin t) by (cbn [peval]; pose proof (sincos t); lra).
  rewrite (Rpow_mult_distr (sin t) (sin t) k). pose proof (denominator l). pose proof (denominator l').
  destruct (m <? 0)%Z; [field; split; assumption|]. pose proof (sign_sq k) as S. set (e := (-1) ^ k) in *. clearbody e.
  set (N := normalisation l k). set (N' := normalisation l' k). set (P := peval (rodrigues l k) (cos t)). set (P' := peval (rodrigues l' k) (cos t)).
  set (B := IZR (2 ^ Z.of_nat l * zfact l)) in *. set (B' := IZR (2 ^ Z.of_nat l' * zfact l')) in *.
  transitivity ((e * e) * (N * N' / (B * B') * (sin t ^ k * sin t ^ k * (P * P')))); [field; split; assumption|rewrite S; ring].
Qed.
Lemma amplitude_cont l m : continuity (amplitude l m).
Proof.
  unfold amplitude, legendre. set (c := (if (m <? 0)%Z then 1 else (-1) ^ Z.abs_nat m) * normalisation l (Z.abs_nat m)). set (k := Z.abs_nat m).
  apply (continuity_mult (fun t => c * sin t ^ k) (fun t => peval (rodrigues l k) (cos t) / IZR (2 ^ Z.of_nat l * zfact l))).
  - apply (continuity_mult (fun _ => c) (fun t => sin t ^ k)).
    + apply continuity_const. intros x y. reflexivity.
    + apply (continuity_comp sin (fun x => x ^ k)); [apply continuity_sin|apply derivable_continuous, derivable_pow].
  - apply (continuity_mult (fun t => peval (rodrigues l k) (cos t)) (fun _ => / IZR (2 ^ Z.of_nat l * zfact l))).
    + apply (continuity_comp cos (peval (rodrigues l k))); [apply continuity_cos|apply peval_cont].
    + apply continuity_const. intros x y. reflexivity.
Qed.
Lemma theta_integrable l m l' m' : ex_RInt (fun t => amplitude l m t * amplitude l' m' t * sin t) 0 PI.
Proof.
  apply (ex_RInt_continuous (V := R_CompleteNormedModule)). intros t _. apply continuity_pt_filterlim.
  apply (continuity_mult (fun t => amplitude l m t * amplitude l' m' t) sin); [|apply continuity_sin].
  apply (continuity_mult (amplitude l m) (amplitude l' m')); apply amplitude_cont.
Qed.
(** the integral over phi *)
Lemma cos_period d : d <> 0%Z -> is_RInt (fun p => cos (IZR d * p)) 0 (2 * PI) 0.
Proof.
  intros H. assert (Hd : IZR d <> 0) by (apply IZR_neq; exact H).
  assert (E : sin (IZR d * (2 * PI)) = 0) by (apply sin_eq_0_1; exists (2 * d)%Z; rewrite mult_IZR; ring).
  replace 0 with (minus (sin (IZR d * (2 * PI)) / IZR d) (sin (IZR d * 0) / IZR d)) at 2
    by (rewrite E, Rmult_0_r, sin_0; unfold minus, plus, opp; simpl; field; exact Hd).
  apply (is_RInt_derive (V := R_CompleteNormedModule) (fun p => sin (IZR d * p) / IZR d) (fun p => cos (IZR d * p))).
  - intros p _. auto_derive; [trivial|]. field. exact Hd.
  - intros p _. apply continuity_pt_filterlim. apply (continuity_pt_comp (fun p => IZR d * p) cos); [|apply continuity_cos].
    apply derivable_continuous_pt. reg.
Qed.
Lemma cos_2pi d : cos (IZR d * (2 * PI)) = 1.
Proof.
  pose proof (sincos (IZR d * PI)) as S. assert (E : sin (IZR d * PI) = 0) by (apply sin_eq_0_1; exists d; reflexivity).
  replace (IZR d * (2 * PI)) with (2 * (IZR d * PI)) by ring. rewrite cos_2a_sin, E. ring.
Qed.
Lemma sin_period d : is_RInt (fun p => sin (IZR d * p)) 0 (2 * PI) 0.
Proof.
  destruct (Z.eq_dec d 0) as [->|H].
  - apply (is_RInt_ext (V := R_NormedModule) (fun _ => 0)); [intros p _; rewrite Rmult_0_l, sin_0; reflexivity|].
    pose proof (is_RInt_const (V := R_NormedModule) 0 (2 * PI) 0) as C. refine (eq_ind _ (fun z : R => is_RInt (fun _ : R => 0) 0 (2 * PI) z) C _ _). unfold scal; simpl; unfold mult; simpl; ring.
  - assert (Hd : IZR d <> 0) by (apply IZR_neq; exact H).
    replace 0 with (minus (- cos (IZR d * (2 * PI)) / IZR d) (- cos (IZR d * 0) / IZR d)) at 2
      by (rewrite cos_2pi, Rmult_0_r, cos_0; unfold minus, plus, opp; simpl; field; exact Hd).
    apply (is_RInt_derive (V := R_CompleteNormedModule) (fun p => - cos (IZR d * p) / IZR d) (fun p => sin (IZR d * p))).
    + intros p _. auto_derive; [trivial|]. field. exact Hd.
    + intros p _. apply continuity_pt_filterlim. apply (continuity_pt_comp (fun p => IZR d * p) sin); [|apply continuity_sin].
      apply derivable_continuous_pt. reg.
Qed.
(** a product of a function of theta and one of phi *)
Lemma separate (A g : R -> R) I : ex_RInt (fun t => A t * sin t) 0 PI -> is_RInt g 0 (2 * PI) I ->
  is_sphere_integral (fun t p => A t * g p) (RInt (fun t => A t * sin t) 0 PI * I).
Proof.
  intros HA Hg.
  assert (X : forall p, is_RInt (fun t => A t * g p * sin t) 0 PI (RInt (fun t => A t * sin t) 0 PI * g p)).
  { intros p. apply (is_RInt_ext (V := R_NormedModule) (fun t => scal (g p) (A t * sin t))); [intros t _; unfold scal; simpl; unfold mult; simpl; ring|].
    replace (RInt (fun t => A t * sin t) 0 PI * g p) with (scal (g p) (RInt (fun t => A t * sin t) 0 PI)) by (unfold scal; simpl; unfold mult; simpl; ring).
    apply (is_RInt_scal (V := R_NormedModule)). apply (RInt_correct (V := R_CompleteNormedModule)). exact HA. }
  split.
  - intros p. exists (RInt (fun t => A t * sin t) 0 PI * g p). apply X.
  - apply (is_RInt_ext (V := R_NormedModule) (fun p => scal (RInt (fun t => A t * sin t) 0 PI) (g p))).
    + intros p _. symmetry. apply is_RInt_unique. apply X.
    + apply (is_RInt_scal (V := R_NormedModule)). exact Hg.
Qed.
(** ** The integrals of products of Legendre functions *)
Ltac prim_num := unfold span; cbn [prim Pos.succ]; unfold Pos.to_nat; cbn [Pos.iter_op Nat.add]; field.
Lemma span_0_0_0 : span (square 0 0 0) = 2 / 1.
Proof. replace (square 0 0 0) with [1%Z] by (vm_compute; reflexivity). prim_num. Qed.
Lemma unit_0_0 : 2 * PI * (factor 0 0 0 * span (square 0 0 0)) = 1.
Proof.
  rewrite span_0_0_0. unfold factor. change (2 ^ Z.of_nat 0 * zfact 0)%Z with 1%Z.
  transitivity (2 * PI * (normalisation 0 0 ^ 2 / (1 * 1) * (2 / 1))); [field|]. rewrite nsq_0_0. pose proof PI_RGT_0. field. lra.
Qed.
Lemma span_0_1_0 : span (square 0 1 0) = 0 / 1.
Proof. replace (square 0 1 0) with [0%Z; 2%Z] by (vm_compute; reflexivity). prim_num. Qed.
Lemma span_0_2_0 : span (square 0 2 0) = 0 / 1.
Proof. replace (square 0 2 0) with [(-4)%Z; 0%Z; 12%Z] by (vm_compute; reflexivity). prim_num. Qed.
Lemma span_0_3_0 : span (square 0 3 0) = 0 / 1.
Proof. replace (square 0 3 0) with [0%Z; (-72)%Z; 0%Z; 120%Z] by (vm_compute; reflexivity). prim_num. Qed.
Lemma span_0_4_0 : span (square 0 4 0) = 0 / 1.
Proof. replace (square 0 4 0) with [144%Z; 0%Z; (-1440)%Z; 0%Z; 1680%Z] by (vm_compute; reflexivity). prim_num. Qed.
Lemma span_0_5_0 : span (square 0 5 0) = 0 / 1.
Proof. replace (square 0 5 0) with [0%Z; 7200%Z; 0%Z; (-33600)%Z; 0%Z; 30240%Z] by (vm_compute; reflexivity). prim_num. Qed.
Lemma span_0_6_0 : span (square 0 6 0) = 0 / 1.
Proof. replace (square 0 6 0) with [(-14400)%Z; 0%Z; 302400%Z; 0%Z; (-907200)%Z; 0%Z; 665280%Z] by (vm_compute; reflexivity). prim_num. Qed.
Lemma span_1_0_0 : span (square 1 0 0) = 0 / 1.
Proof. replace (square 1 0 0) with [0%Z; 2%Z] by (vm_compute; reflexivity). prim_num. Qed.
Lemma span_1_1_0 : span (square 1 1 0) = 8 / 3.
Proof. replace (square 1 1 0) with [0%Z; 0%Z; 4%Z] by (vm_compute; reflexivity). prim_num. Qed.
Lemma unit_1_0 : 2 * PI * (factor 1 1 0 * span (square 1 1 0)) = 1.
Proof.
  rewrite span_1_1_0. unfold factor. change (2 ^ Z.of_nat 1 * zfact 1)%Z with 2%Z.
  transitivity (2 * PI * (normalisation 1 0 ^ 2 / (2 * 2) * (8 / 3))); [field|]. rewrite nsq_1_0. pose proof PI_RGT_0. field. lra.
Qed.
Lemma span_1_2_0 : span (square 1 2 0) = 0 / 1.
Proof. replace (square 1 2 0) with [0%Z; (-8)%Z; 0%Z; 24%Z] by (vm_compute; reflexivity). prim_num. Qed.
Lemma span_1_3_0 : span (square 1 3 0) = 0 / 1.
Proof. replace (square 1 3 0) with [0%Z; 0%Z; (-144)%Z; 0%Z; 240%Z] by (vm_compute; reflexivity). prim_num. Qed.
Lemma span_1_4_0 : span (square 1 4 0) = 0 / 1.
Proof. replace (square 1 4 0) with [0%Z; 288%Z; 0%Z; (-2880)%Z; 0%Z; 3360%Z] by (vm_compute; reflexivity). prim_num. Qed.
Lemma span_1_5_0 : span (square 1 5 0) = 0 / 1.
Proof. replace (square 1 5 0) with [0%Z; 0%Z; 14400%Z; 0%Z; (-67200)%Z; 0%Z; 60480%Z] by (vm_compute; reflexivity). prim_num. Qed.
Lemma span_1_6_0 : span (square 1 6 0) = 0 / 1.
Proof. replace (square 1 6 0) with [0%Z; (-28800)%Z; 0%Z; 604800%Z; 0%Z; (-1814400)%Z; 0%Z; 1330560%Z] by (vm_compute; reflexivity). prim_num. Qed.
Lemma span_1_1_1 : span (square 1 1 1) = 16 / 3.
Proof. replace (square 1 1 1) with [4%Z; 0%Z; (-4)%Z] by (vm_compute; reflexivity). prim_num. Qed.
Lemma unit_1_1 : 2 * PI * (factor 1 1 1 * span (square 1 1 1)) = 1.
Proof.
  rewrite span_1_1_1. unfold factor. change (2 ^ Z.of_nat 1 * zfact 1)%Z with 2%Z.
  transitivity (2 * PI * (normalisation 1 1 ^ 2 / (2 * 2) * (16 / 3))); [field|]. rewrite nsq_1_1. pose proof PI_RGT_0. field. lra.
Qed.
Lemma span_1_2_1 : span (square 1 2 1) = 0 / 1.
Proof. replace (square 1 2 1) with [0%Z; 48%Z; 0%Z; (-48)%Z] by (vm_compute; reflexivity). prim_num. Qed.
Lemma span_1_3_1 : span (square 1 3 1) = 0 / 1.
Proof. replace (square 1 3 1) with [(-144)%Z; 0%Z; 864%Z; 0%Z; (-720)%Z] by (vm_compute; reflexivity). prim_num. Qed.
Lemma span_1_4_1 : span (square 1 4 1) = 0 / 1.
Proof. replace (square 1 4 1) with [0%Z; (-5760)%Z; 0%Z; 19200%Z; 0%Z; (-13440)%Z] by (vm_compute; reflexivity). prim_num. Qed.
Lemma span_1_5_1 : span (square 1 5 1) = 0 / 1.
Proof. replace (square 1 5 1) with [14400%Z; 0%Z; (-216000)%Z; 0%Z; 504000%Z; 0%Z; (-302400)%Z] by (vm_compute; reflexivity). prim_num. Qed.
Lemma span_1_6_1 : span (square 1 6 1) = 0 / 1.
Proof. replace (square 1 6 1) with [0%Z; 1209600%Z; 0%Z; (-8467200)%Z; 0%Z; 15240960%Z; 0%Z; (-7983360)%Z] by (vm_compute; reflexivity). prim_num. Qed.
Lemma span_2_0_0 : span (square 2 0 0) = 0 / 1.
Proof. replace (square 2 0 0) with [(-4)%Z; 0%Z; 12%Z] by (vm_compute; reflexivity). prim_num. Qed.
Lemma span_2_1_0 : span (square 2 1 0) = 0 / 1.
Proof. replace (square 2 1 0) with [0%Z; (-8)%Z; 0%Z; 24%Z] by (vm_compute; reflexivity). prim_num. Qed.
Lemma span_2_2_0 : span (square 2 2 0) = 128 / 5.
Proof. replace (square 2 2 0) with [16%Z; 0%Z; (-96)%Z; 0%Z; 144%Z] by (vm_compute; reflexivity). prim_num. Qed.
Lemma unit_2_0 : 2 * PI * (factor 2 2 0 * span (square 2 2 0)) = 1.
Proof.
  rewrite span_2_2_0. unfold factor. change (2 ^ Z.of_nat 2 * zfact 2)%Z with 8%Z.
  transitivity (2 * PI * (normalisation 2 0 ^ 2 / (8 * 8) * (128 / 5))); [field|]. rewrite nsq_2_0. pose proof PI_RGT_0. field. lra.
Qed.
Lemma span_2_3_0 : span (square 2 3 0) = 0 / 1.
Proof. replace (square 2 3 0) with [0%Z; 288%Z; 0%Z; (-1344)%Z; 0%Z; 1440%Z] by (vm_compute; reflexivity). prim_num. Qed.
Lemma span_2_4_0 : span (square 2 4 0) = 0 / 1.
Proof. replace (square 2 4 0) with [(-576)%Z; 0%Z; 7488%Z; 0%Z; (-24000)%Z; 0%Z; 20160%Z] by (vm_compute; reflexivity). prim_num. Qed.
Lemma span_2_5_0 : span (square 2 5 0) = 0 / 1.
Proof. replace (square 2 5 0) with [0%Z; (-28800)%Z; 0%Z; 220800%Z; 0%Z; (-524160)%Z; 0%Z; 362880%Z] by (vm_compute; reflexivity). prim_num. Qed.
Lemma span_2_6_0 : span (square 2 6 0) = 0 / 1.
Proof. replace (square 2 6 0) with [57600%Z; 0%Z; (-1382400)%Z; 0%Z; 7257600%Z; 0%Z; (-13547520)%Z; 0%Z; 7983360%Z] by (vm_compute; reflexivity). prim_num. Qed.
Lemma span_2_1_1 : span (square 2 1 1) = 0 / 1.
Proof. replace (square 2 1 1) with [0%Z; 48%Z; 0%Z; (-48)%Z] by (vm_compute; reflexivity). prim_num. Qed.
Lemma span_2_2_1 : span (square 2 2 1) = 768 / 5.
Proof. replace (square 2 2 1) with [0%Z; 0%Z; 576%Z; 0%Z; (-576)%Z] by (vm_compute; reflexivity). prim_num. Qed.
Lemma unit_2_1 : 2 * PI * (factor 2 2 1 * span (square 2 2 1)) = 1.
Proof.
  rewrite span_2_2_1. unfold factor. change (2 ^ Z.of_nat 2 * zfact 2)%Z with 8%Z.
  transitivity (2 * PI * (normalisation 2 1 ^ 2 / (8 * 8) * (768 / 5))); [field|]. rewrite nsq_2_1. pose proof PI_RGT_0. field. lra.
Qed.
Lemma span_2_3_1 : span (square 2 3 1) = 0 / 1.
Proof. replace (square 2 3 1) with [0%Z; (-1728)%Z; 0%Z; 10368%Z; 0%Z; (-8640)%Z] by (vm_compute; reflexivity). prim_num. Qed.
Lemma span_2_4_1 : span (square 2 4 1) = 0 / 1.
Proof. replace (square 2 4 1) with [0%Z; 0%Z; (-69120)%Z; 0%Z; 230400%Z; 0%Z; (-161280)%Z] by (vm_compute; reflexivity). prim_num. Qed.
Lemma span_2_5_1 : span (square 2 5 1) = 0 / 1.
Proof. replace (square 2 5 1) with [0%Z; 172800%Z; 0%Z; (-2592000)%Z; 0%Z; 6048000%Z; 0%Z; (-3628800)%Z] by (vm_compute; reflexivity). prim_num. Qed.
Lemma span_2_6_1 : span (square 2 6 1) = 0 / 1.
Proof. replace (square 2 6 1) with [0%Z; 0%Z; 14515200%Z; 0%Z; (-101606400)%Z; 0%Z; 182891520%Z; 0%Z; (-95800320)%Z] by (vm_compute; reflexivity). prim_num. Qed.
Lemma span_2_2_2 : span (square 2 2 2) = 3072 / 5.
Proof. replace (square 2 2 2) with [576%Z; 0%Z; (-1152)%Z; 0%Z; 576%Z] by (vm_compute; reflexivity). prim_num. Qed.
Lemma unit_2_2 : 2 * PI * (factor 2 2 2 * span (square 2 2 2)) = 1.
Proof.
  rewrite span_2_2_2. unfold factor. change (2 ^ Z.of_nat 2 * zfact 2)%Z with 8%Z.
  transitivity (2 * PI * (normalisation 2 2 ^ 2 / (8 * 8) * (3072 / 5))); [field|]. rewrite nsq_2_2. pose proof PI_RGT_0. field. lra.
Qed.
Lemma span_2_3_2 : span (square 2 3 2) = 0 / 1.
Proof. replace (square 2 3 2) with [0%Z; 17280%Z; 0%Z; (-34560)%Z; 0%Z; 17280%Z] by (vm_compute; reflexivity). prim_num. Qed.
Lemma span_2_4_2 : span (square 2 4 2) = 0 / 1.
Proof. replace (square 2 4 2) with [(-69120)%Z; 0%Z; 622080%Z; 0%Z; (-1036800)%Z; 0%Z; 483840%Z] by (vm_compute; reflexivity). prim_num. Qed.
Lemma span_2_5_2 : span (square 2 5 2) = 0 / 1.
Proof. replace (square 2 5 2) with [0%Z; (-4838400)%Z; 0%Z; 24192000%Z; 0%Z; (-33868800)%Z; 0%Z; 14515200%Z] by (vm_compute; reflexivity). prim_num. Qed.
Lemma span_2_6_2 : span (square 2 6 2) = 0 / 1.
Proof. replace (square 2 6 2) with [14515200%Z; 0%Z; (-290304000)%Z; 0%Z; 1016064000%Z; 0%Z; (-1219276800)%Z; 0%Z; 479001600%Z] by (vm_compute; reflexivity). prim_num. Qed.
Lemma span_3_0_0 : span (square 3 0 0) = 0 / 1.
Proof. replace (square 3 0 0) with [0%Z; (-72)%Z; 0%Z; 120%Z] by (vm_compute; reflexivity). prim_num. Qed.
Lemma span_3_1_0 : span (square 3 1 0) = 0 / 1.
Proof. replace (square 3 1 0) with [0%Z; 0%Z; (-144)%Z; 0%Z; 240%Z] by (vm_compute; reflexivity). prim_num. Qed.
Lemma span_3_2_0 : span (square 3 2 0) = 0 / 1.
Proof. replace (square 3 2 0) with [0%Z; 288%Z; 0%Z; (-1344)%Z; 0%Z; 1440%Z] by (vm_compute; reflexivity). prim_num. Qed.
Lemma span_3_3_0 : span (square 3 3 0) = 4608 / 7.
Proof. replace (square 3 3 0) with [0%Z; 0%Z; 5184%Z; 0%Z; (-17280)%Z; 0%Z; 14400%Z] by (vm_compute; reflexivity). prim_num. Qed.
Lemma unit_3_0 : 2 * PI * (factor 3 3 0 * span (square 3 3 0)) = 1.
Proof.
  rewrite span_3_3_0. unfold factor. change (2 ^ Z.of_nat 3 * zfact 3)%Z with 48%Z.
  transitivity (2 * PI * (normalisation 3 0 ^ 2 / (48 * 48) * (4608 / 7))); [field|]. rewrite nsq_3_0. pose proof PI_RGT_0. field. lra.
Qed.
Lemma span_3_4_0 : span (square 3 4 0) = 0 / 1.
Proof. replace (square 3 4 0) with [0%Z; (-10368)%Z; 0%Z; 120960%Z; 0%Z; (-293760)%Z; 0%Z; 201600%Z] by (vm_compute; reflexivity). prim_num. Qed.
Lemma span_3_5_0 : span (square 3 5 0) = 0 / 1.
Proof. replace (square 3 5 0) with [0%Z; 0%Z; (-518400)%Z; 0%Z; 3283200%Z; 0%Z; (-6209280)%Z; 0%Z; 3628800%Z] by (vm_compute; reflexivity). prim_num. Qed.
Lemma span_3_6_0 : span (square 3 6 0) = 0 / 1.
Proof. replace (square 3 6 0) with [0%Z; 1036800%Z; 0%Z; (-23500800)%Z; 0%Z; 101606400%Z; 0%Z; (-156764160)%Z; 0%Z; 79833600%Z] by (vm_compute; reflexivity). prim_num. Qed.
Lemma span_3_1_1 : span (square 3 1 1) = 0 / 1.
Proof. replace (square 3 1 1) with [(-144)%Z; 0%Z; 864%Z; 0%Z; (-720)%Z] by (vm_compute; reflexivity). prim_num. Qed.
Lemma span_3_2_1 : span (square 3 2 1) = 0 / 1.
Proof. replace (square 3 2 1) with [0%Z; (-1728)%Z; 0%Z; 10368%Z; 0%Z; (-8640)%Z] by (vm_compute; reflexivity). prim_num. Qed.
Lemma span_3_3_1 : span (square 3 3 1) = 55296 / 7.
Proof. replace (square 3 3 1) with [5184%Z; 0%Z; (-57024)%Z; 0%Z; 181440%Z; 0%Z; (-129600)%Z] by (vm_compute; reflexivity). prim_num. Qed.
Lemma unit_3_1 : 2 * PI * (factor 3 3 1 * span (square 3 3 1)) = 1.
Proof.
  rewrite span_3_3_1. unfold factor. change (2 ^ Z.of_nat 3 * zfact 3)%Z with 48%Z.
  transitivity (2 * PI * (normalisation 3 1 ^ 2 / (48 * 48) * (55296 / 7))); [field|]. rewrite nsq_3_1. pose proof PI_RGT_0. field. lra.
Qed.
Lemma span_3_4_1 : span (square 3 4 1) = 0 / 1.
Proof. replace (square 3 4 1) with [0%Z; 207360%Z; 0%Z; (-1728000)%Z; 0%Z; 3939840%Z; 0%Z; (-2419200)%Z] by (vm_compute; reflexivity). prim_num. Qed.
Lemma span_3_5_1 : span (square 3 5 1) = 0 / 1.
Proof. replace (square 3 5 1) with [(-518400)%Z; 0%Z; 10368000%Z; 0%Z; (-57024000)%Z; 0%Z; 101606400%Z; 0%Z; (-54432000)%Z] by (vm_compute; reflexivity). prim_num. Qed.
Lemma span_3_6_1 : span (square 3 6 1) = 0 / 1.
Proof. replace (square 3 6 1) with [0%Z; (-43545600)%Z; 0%Z; 522547200%Z; 0%Z; (-2072770560)%Z; 0%Z; 3030773760%Z; 0%Z; (-1437004800)%Z] by (vm_compute; reflexivity). prim_num. Qed.
Lemma span_3_2_2 : span (square 3 2 2) = 0 / 1.
Proof. replace (square 3 2 2) with [0%Z; 17280%Z; 0%Z; (-34560)%Z; 0%Z; 17280%Z] by (vm_compute; reflexivity). prim_num. Qed.
Lemma span_3_3_2 : span (square 3 3 2) = 552960 / 7.
Proof. replace (square 3 3 2) with [0%Z; 0%Z; 518400%Z; 0%Z; (-1036800)%Z; 0%Z; 518400%Z] by (vm_compute; reflexivity). prim_num. Qed.
Lemma unit_3_2 : 2 * PI * (factor 3 3 2 * span (square 3 3 2)) = 1.
Proof.
  rewrite span_3_3_2. unfold factor. change (2 ^ Z.of_nat 3 * zfact 3)%Z with 48%Z.
  transitivity (2 * PI * (normalisation 3 2 ^ 2 / (48 * 48) * (552960 / 7))); [field|]. rewrite nsq_3_2. pose proof PI_RGT_0. field. lra.
Qed.
Lemma span_3_4_2 : span (square 3 4 2) = 0 / 1.
Proof. replace (square 3 4 2) with [0%Z; (-2073600)%Z; 0%Z; 18662400%Z; 0%Z; (-31104000)%Z; 0%Z; 14515200%Z] by (vm_compute; reflexivity). prim_num. Qed.
Lemma span_3_5_2 : span (square 3 5 2) = 0 / 1.
Proof. replace (square 3 5 2) with [0%Z; 0%Z; (-145152000)%Z; 0%Z; 725760000%Z; 0%Z; (-1016064000)%Z; 0%Z; 435456000%Z] by (vm_compute; reflexivity). prim_num. Qed.
Lemma span_3_6_2 : span (square 3 6 2) = 0 / 1.
Proof. replace (square 3 6 2) with [0%Z; 435456000%Z; 0%Z; (-8709120000)%Z; 0%Z; 30481920000%Z; 0%Z; (-36578304000)%Z; 0%Z; 14370048000%Z] by (vm_compute; reflexivity). prim_num. Qed.
Lemma span_3_3_3 : span (square 3 3 3) = 3317760 / 7.
Proof. replace (square 3 3 3) with [518400%Z; 0%Z; (-1555200)%Z; 0%Z; 1555200%Z; 0%Z; (-518400)%Z] by (vm_compute; reflexivity). prim_num. Qed.
Lemma unit_3_3 : 2 * PI * (factor 3 3 3 * span (square 3 3 3)) = 1.
Proof.
  rewrite span_3_3_3. unfold factor. change (2 ^ Z.of_nat 3 * zfact 3)%Z with 48%Z.
  transitivity (2 * PI * (normalisation 3 3 ^ 2 / (48 * 48) * (3317760 / 7))); [field|]. rewrite nsq_3_3. pose proof PI_RGT_0. field. lra.
Qed.
Lemma span_3_4_3 : span (square 3 4 3) = 0 / 1.
Proof. replace (square 3 4 3) with [0%Z; 29030400%Z; 0%Z; (-87091200)%Z; 0%Z; 87091200%Z; 0%Z; (-29030400)%Z] by (vm_compute; reflexivity). prim_num. Qed.
Lemma span_3_5_3 : span (square 3 5 3) = 0 / 1.
Proof. replace (square 3 5 3) with [(-145152000)%Z; 0%Z; 1741824000%Z; 0%Z; (-4354560000)%Z; 0%Z; 4064256000%Z; 0%Z; (-1306368000)%Z] by (vm_compute; reflexivity). prim_num. Qed.
Lemma span_3_6_3 : span (square 3 6 3) = 0 / 1.
Proof. replace (square 3 6 3) with [0%Z; (-15676416000)%Z; 0%Z; 104509440000%Z; 0%Z; (-219469824000)%Z; 0%Z; 188116992000%Z; 0%Z; (-57480192000)%Z] by (vm_compute; reflexivity). prim_num. Qed.
Lemma span_4_0_0 : span (square 4 0 0) = 0 / 1.
Proof. replace (square 4 0 0) with [144%Z; 0%Z; (-1440)%Z; 0%Z; 1680%Z] by (vm_compute; reflexivity). prim_num. Qed.
Lemma span_4_1_0 : span (square 4 1 0) = 0 / 1.
Proof. replace (square 4 1 0) with [0%Z; 288%Z; 0%Z; (-2880)%Z; 0%Z; 3360%Z] by (vm_compute; reflexivity). prim_num. Qed.
Lemma span_4_2_0 : span (square 4 2 0) = 0 / 1.
Proof. replace (square 4 2 0) with [(-576)%Z; 0%Z; 7488%Z; 0%Z; (-24000)%Z; 0%Z; 20160%Z] by (vm_compute; reflexivity). prim_num. Qed.
Lemma span_4_3_0 : span (square 4 3 0) = 0 / 1.
Proof. replace (square 4 3 0) with [0%Z; (-10368)%Z; 0%Z; 120960%Z; 0%Z; (-293760)%Z; 0%Z; 201600%Z] by (vm_compute; reflexivity). prim_num. Qed.
Lemma span_4_4_0 : span (square 4 4 0) = 32768 / 1.
Proof. replace (square 4 4 0) with [20736%Z; 0%Z; (-414720)%Z; 0%Z; 2557440%Z; 0%Z; (-4838400)%Z; 0%Z; 2822400%Z] by (vm_compute; reflexivity). prim_num. Qed.
Lemma unit_4_0 : 2 * PI * (factor 4 4 0 * span (square 4 4 0)) = 1.
Proof.
  rewrite span_4_4_0. unfold factor. change (2 ^ Z.of_nat 4 * zfact 4)%Z with 384%Z.
  transitivity (2 * PI * (normalisation 4 0 ^ 2 / (384 * 384) * (32768 / 1))); [field|]. rewrite nsq_4_0. pose proof PI_RGT_0. field. lra.
Qed.
Lemma span_4_5_0 : span (square 4 5 0) = 0 / 1.
Proof. replace (square 4 5 0) with [0%Z; 1036800%Z; 0%Z; (-15206400)%Z; 0%Z; 64834560%Z; 0%Z; (-99993600)%Z; 0%Z; 50803200%Z] by (vm_compute; reflexivity). prim_num. Qed.
Lemma span_4_6_0 : span (square 4 6 0) = 0 / 1.
Proof. replace (square 4 6 0) with [(-2073600)%Z; 0%Z; 64281600%Z; 0%Z; (-590284800)%Z; 0%Z; 1910200320%Z; 0%Z; (-2482099200)%Z; 0%Z; 1117670400%Z] by (vm_compute; reflexivity). prim_num. Qed.
Lemma span_4_1_1 : span (square 4 1 1) = 0 / 1.
Proof. replace (square 4 1 1) with [0%Z; (-5760)%Z; 0%Z; 19200%Z; 0%Z; (-13440)%Z] by (vm_compute; reflexivity). prim_num. Qed.
Lemma span_4_2_1 : span (square 4 2 1) = 0 / 1.
Proof. replace (square 4 2 1) with [0%Z; 0%Z; (-69120)%Z; 0%Z; 230400%Z; 0%Z; (-161280)%Z] by (vm_compute; reflexivity). prim_num. Qed.
Lemma span_4_3_1 : span (square 4 3 1) = 0 / 1.
Proof. replace (square 4 3 1) with [0%Z; 207360%Z; 0%Z; (-1728000)%Z; 0%Z; 3939840%Z; 0%Z; (-2419200)%Z] by (vm_compute; reflexivity). prim_num. Qed.
Lemma span_4_4_1 : span (square 4 4 1) = 655360 / 1.
Proof. replace (square 4 4 1) with [0%Z; 0%Z; 8294400%Z; 0%Z; (-47001600)%Z; 0%Z; 83865600%Z; 0%Z; (-45158400)%Z] by (vm_compute; reflexivity). prim_num. Qed.
Lemma unit_4_1 : 2 * PI * (factor 4 4 1 * span (square 4 4 1)) = 1.
Proof.
  rewrite span_4_4_1. unfold factor. change (2 ^ Z.of_nat 4 * zfact 4)%Z with 384%Z.
  transitivity (2 * PI * (normalisation 4 1 ^ 2 / (384 * 384) * (655360 / 1))); [field|]. rewrite nsq_4_1. pose proof PI_RGT_0. field. lra.
Qed.
Lemma span_4_5_1 : span (square 4 5 1) = 0 / 1.
Proof. replace (square 4 5 1) with [0%Z; (-20736000)%Z; 0%Z; 359424000%Z; 0%Z; (-1451520000)%Z; 0%Z; 2128896000%Z; 0%Z; (-1016064000)%Z] by (vm_compute; reflexivity). prim_num. Qed.
Lemma span_4_6_1 : span (square 4 6 1) = 0 / 1.
Proof. replace (square 4 6 1) with [0%Z; 0%Z; (-1741824000)%Z; 0%Z; 16257024000%Z; 0%Z; (-50396774400)%Z; 0%Z; 62705664000%Z; 0%Z; (-26824089600)%Z] by (vm_compute; reflexivity). prim_num. Qed.
Lemma span_4_2_2 : span (square 4 2 2) = 0 / 1.
Proof. replace (square 4 2 2) with [(-69120)%Z; 0%Z; 622080%Z; 0%Z; (-1036800)%Z; 0%Z; 483840%Z] by (vm_compute; reflexivity). prim_num. Qed.
Lemma span_4_3_2 : span (square 4 3 2) = 0 / 1.
Proof. replace (square 4 3 2) with [0%Z; (-2073600)%Z; 0%Z; 18662400%Z; 0%Z; (-31104000)%Z; 0%Z; 14515200%Z] by (vm_compute; reflexivity). prim_num. Qed.
Lemma span_4_4_2 : span (square 4 4 2) = 11796480 / 1.
Proof. replace (square 4 4 2) with [8294400%Z; 0%Z; (-132710400)%Z; 0%Z; 646963200%Z; 0%Z; (-928972800)%Z; 0%Z; 406425600%Z] by (vm_compute; reflexivity). prim_num. Qed.
Lemma unit_4_2 : 2 * PI * (factor 4 4 2 * span (square 4 4 2)) = 1.
Proof.
  rewrite span_4_4_2. unfold factor. change (2 ^ Z.of_nat 4 * zfact 4)%Z with 384%Z.
  transitivity (2 * PI * (normalisation 4 2 ^ 2 / (384 * 384) * (11796480 / 1))); [field|]. rewrite nsq_4_2. pose proof PI_RGT_0. field. lra.
Qed.
Lemma span_4_5_2 : span (square 4 5 2) = 0 / 1.
Proof. replace (square 4 5 2) with [0%Z; 580608000%Z; 0%Z; (-6967296000)%Z; 0%Z; 24385536000%Z; 0%Z; (-30191616000)%Z; 0%Z; 12192768000%Z] by (vm_compute; reflexivity). prim_num. Qed.
Lemma span_4_6_2 : span (square 4 6 2) = 0 / 1.
Proof. replace (square 4 6 2) with [(-1741824000)%Z; 0%Z; 47029248000%Z; 0%Z; (-365783040000)%Z; 0%Z; 999806976000%Z; 0%Z; (-1081672704000)%Z; 0%Z; 402361344000%Z] by (vm_compute; reflexivity). prim_num. Qed.
Lemma span_4_3_3 : span (square 4 3 3) = 0 / 1.
Proof. replace (square 4 3 3) with [0%Z; 29030400%Z; 0%Z; (-87091200)%Z; 0%Z; 87091200%Z; 0%Z; (-29030400)%Z] by (vm_compute; reflexivity). prim_num. Qed.
Lemma span_4_4_3 : span (square 4 4 3) = 165150720 / 1.
Proof. replace (square 4 4 3) with [0%Z; 0%Z; 1625702400%Z; 0%Z; (-4877107200)%Z; 0%Z; 4877107200%Z; 0%Z; (-1625702400)%Z] by (vm_compute; reflexivity). prim_num. Qed.
Lemma unit_4_3 : 2 * PI * (factor 4 4 3 * span (square 4 4 3)) = 1.
Proof.
  rewrite span_4_4_3. unfold factor. change (2 ^ Z.of_nat 4 * zfact 4)%Z with 384%Z.
  transitivity (2 * PI * (normalisation 4 3 ^ 2 / (384 * 384) * (165150720 / 1))); [field|]. rewrite nsq_4_3. pose proof PI_RGT_0. field. lra.
Qed.
Lemma span_4_5_3 : span (square 4 5 3) = 0 / 1.
Proof. replace (square 4 5 3) with [0%Z; (-8128512000)%Z; 0%Z; 97542144000%Z; 0%Z; (-243855360000)%Z; 0%Z; 227598336000%Z; 0%Z; (-73156608000)%Z] by (vm_compute; reflexivity). prim_num. Qed.
Lemma span_4_6_3 : span (square 4 6 3) = 0 / 1.
Proof. replace (square 4 6 3) with [0%Z; 0%Z; (-877879296000)%Z; 0%Z; 5852528640000%Z; 0%Z; (-12290310144000)%Z; 0%Z; 10534551552000%Z; 0%Z; (-3218890752000)%Z] by (vm_compute; reflexivity). prim_num. Qed.
Lemma span_4_4_4 : span (square 4 4 4) = 1321205760 / 1.
Proof. replace (square 4 4 4) with [1625702400%Z; 0%Z; (-6502809600)%Z; 0%Z; 9754214400%Z; 0%Z; (-6502809600)%Z; 0%Z; 1625702400%Z] by (vm_compute; reflexivity). prim_num. Qed.
Lemma unit_4_4 : 2 * PI * (factor 4 4 4 * span (square 4 4 4)) = 1.
Proof.
  rewrite span_4_4_4. unfold factor. change (2 ^ Z.of_nat 4 * zfact 4)%Z with 384%Z.
  transitivity (2 * PI * (normalisation 4 4 ^ 2 / (384 * 384) * (1321205760 / 1))); [field|]. rewrite nsq_4_4. pose proof PI_RGT_0. field. lra.
Qed.
Lemma span_4_5_4 : span (square 4 5 4) = 0 / 1.
Proof. replace (square 4 5 4) with [0%Z; 146313216000%Z; 0%Z; (-585252864000)%Z; 0%Z; 877879296000%Z; 0%Z; (-585252864000)%Z; 0%Z; 146313216000%Z] by (vm_compute; reflexivity). prim_num. Qed.
Lemma span_4_6_4 : span (square 4 6 4) = 0 / 1.
Proof. replace (square 4 6 4) with [(-877879296000)%Z; 0%Z; 13168189440000%Z; 0%Z; (-43893964800000)%Z; 0%Z; 61451550720000%Z; 0%Z; (-39504568320000)%Z; 0%Z; 9656672256000%Z] by (vm_compute; reflexivity). prim_num. Qed.
Lemma span_5_0_0 : span (square 5 0 0) = 0 / 1.
Proof. replace (square 5 0 0) with [0%Z; 7200%Z; 0%Z; (-33600)%Z; 0%Z; 30240%Z] by (vm_compute; reflexivity). prim_num. Qed.
Lemma span_5_1_0 : span (square 5 1 0) = 0 / 1.
Proof. replace (square 5 1 0) with [0%Z; 0%Z; 14400%Z; 0%Z; (-67200)%Z; 0%Z; 60480%Z] by (vm_compute; reflexivity). prim_num. Qed.
Lemma span_5_2_0 : span (square 5 2 0) = 0 / 1.
Proof. replace (square 5 2 0) with [0%Z; (-28800)%Z; 0%Z; 220800%Z; 0%Z; (-524160)%Z; 0%Z; 362880%Z] by (vm_compute; reflexivity). prim_num. Qed.
Lemma span_5_3_0 : span (square 5 3 0) = 0 / 1.
Proof. replace (square 5 3 0) with [0%Z; 0%Z; (-518400)%Z; 0%Z; 3283200%Z; 0%Z; (-6209280)%Z; 0%Z; 3628800%Z] by (vm_compute; reflexivity). prim_num. Qed.
Lemma span_5_4_0 : span (square 5 4 0) = 0 / 1.
Proof. replace (square 5 4 0) with [0%Z; 1036800%Z; 0%Z; (-15206400)%Z; 0%Z; 64834560%Z; 0%Z; (-99993600)%Z; 0%Z; 50803200%Z] by (vm_compute; reflexivity). prim_num. Qed.
Lemma span_5_5_0 : span (square 5 5 0) = 29491200 / 11.
Proof. replace (square 5 5 0) with [0%Z; 0%Z; 51840000%Z; 0%Z; (-483840000)%Z; 0%Z; 1564416000%Z; 0%Z; (-2032128000)%Z; 0%Z; 914457600%Z] by (vm_compute; reflexivity). prim_num. Qed.
Lemma unit_5_0 : 2 * PI * (factor 5 5 0 * span (square 5 5 0)) = 1.
Proof.
  rewrite span_5_5_0. unfold factor. change (2 ^ Z.of_nat 5 * zfact 5)%Z with 3840%Z.
  transitivity (2 * PI * (normalisation 5 0 ^ 2 / (3840 * 3840) * (29491200 / 11))); [field|]. rewrite nsq_5_0. pose proof PI_RGT_0. field. lra.
Qed.
Lemma span_5_6_0 : span (square 5 6 0) = 0 / 1.
Proof. replace (square 5 6 0) with [0%Z; (-103680000)%Z; 0%Z; 2661120000%Z; 0%Z; (-17127936000)%Z; 0%Z; 44416512000%Z; 0%Z; (-49787136000)%Z; 0%Z; 20118067200%Z] by (vm_compute; reflexivity). prim_num. Qed.
Lemma span_5_1_1 : span (square 5 1 1) = 0 / 1.
Proof. replace (square 5 1 1) with [14400%Z; 0%Z; (-216000)%Z; 0%Z; 504000%Z; 0%Z; (-302400)%Z] by (vm_compute; reflexivity). prim_num. Qed.
Lemma span_5_2_1 : span (square 5 2 1) = 0 / 1.
Proof. replace (square 5 2 1) with [0%Z; 172800%Z; 0%Z; (-2592000)%Z; 0%Z; 6048000%Z; 0%Z; (-3628800)%Z] by (vm_compute; reflexivity). prim_num. Qed.
Lemma span_5_3_1 : span (square 5 3 1) = 0 / 1.
Proof. replace (square 5 3 1) with [(-518400)%Z; 0%Z; 10368000%Z; 0%Z; (-57024000)%Z; 0%Z; 101606400%Z; 0%Z; (-54432000)%Z] by (vm_compute; reflexivity). prim_num. Qed.
Lemma span_5_4_1 : span (square 5 4 1) = 0 / 1.
Proof. replace (square 5 4 1) with [0%Z; (-20736000)%Z; 0%Z; 359424000%Z; 0%Z; (-1451520000)%Z; 0%Z; 2128896000%Z; 0%Z; (-1016064000)%Z] by (vm_compute; reflexivity). prim_num. Qed.
Lemma span_5_5_1 : span (square 5 5 1) = 884736000 / 11.
Proof. replace (square 5 5 1) with [51840000%Z; 0%Z; (-1503360000)%Z; 0%Z; 13789440000%Z; 0%Z; (-42819840000)%Z; 0%Z; 53343360000%Z; 0%Z; (-22861440000)%Z] by (vm_compute; reflexivity). prim_num. Qed.
Lemma unit_5_1 : 2 * PI * (factor 5 5 1 * span (square 5 5 1)) = 1.
Proof.
  rewrite span_5_5_1. unfold factor. change (2 ^ Z.of_nat 5 * zfact 5)%Z with 3840%Z.
  transitivity (2 * PI * (normalisation 5 1 ^ 2 / (3840 * 3840) * (884736000 / 11))); [field|]. rewrite nsq_5_1. pose proof PI_RGT_0. field. lra.
Qed.
Lemma span_5_6_1 : span (square 5 6 1) = 0 / 1.
Proof. replace (square 5 6 1) with [0%Z; 4354560000%Z; 0%Z; (-91445760000)%Z; 0%Z; 573060096000%Z; 0%Z; (-1437004800000)%Z; 0%Z; 1554577920000%Z; 0%Z; (-603542016000)%Z] by (vm_compute; reflexivity). prim_num. Qed.
Lemma span_5_2_2 : span (square 5 2 2) = 0 / 1.
Proof. replace (square 5 2 2) with [0%Z; (-4838400)%Z; 0%Z; 24192000%Z; 0%Z; (-33868800)%Z; 0%Z; 14515200%Z] by (vm_compute; reflexivity). prim_num. Qed.
Lemma span_5_3_2 : span (square 5 3 2) = 0 / 1.
Proof. replace (square 5 3 2) with [0%Z; 0%Z; (-145152000)%Z; 0%Z; 725760000%Z; 0%Z; (-1016064000)%Z; 0%Z; 435456000%Z] by (vm_compute; reflexivity). prim_num. Qed.
Lemma span_5_4_2 : span (square 5 4 2) = 0 / 1.
Proof. replace (square 5 4 2) with [0%Z; 580608000%Z; 0%Z; (-6967296000)%Z; 0%Z; 24385536000%Z; 0%Z; (-30191616000)%Z; 0%Z; 12192768000%Z] by (vm_compute; reflexivity). prim_num. Qed.
Lemma span_5_5_2 : span (square 5 5 2) = 24772608000 / 11.
Proof. replace (square 5 5 2) with [0%Z; 0%Z; 40642560000%Z; 0%Z; (-325140480000)%Z; 0%Z; 894136320000%Z; 0%Z; (-975421440000)%Z; 0%Z; 365783040000%Z] by (vm_compute; reflexivity). prim_num. Qed.
Lemma unit_5_2 : 2 * PI * (factor 5 5 2 * span (square 5 5 2)) = 1.
Proof.
  rewrite span_5_5_2. unfold factor. change (2 ^ Z.of_nat 5 * zfact 5)%Z with 3840%Z.
  transitivity (2 * PI * (normalisation 5 2 ^ 2 / (3840 * 3840) * (24772608000 / 11))); [field|]. rewrite nsq_5_2. pose proof PI_RGT_0. field. lra.
Qed.
Lemma span_5_6_2 : span (square 5 6 2) = 0 / 1.
Proof. replace (square 5 6 2) with [0%Z; (-121927680000)%Z; 0%Z; 2804336640000%Z; 0%Z; (-15850598400000)%Z; 0%Z; 35846737920000%Z; 0%Z; (-34749388800000)%Z; 0%Z; 12070840320000%Z] by (vm_compute; reflexivity). prim_num. Qed.
Lemma span_5_3_3 : span (square 5 3 3) = 0 / 1.
Proof. replace (square 5 3 3) with [(-145152000)%Z; 0%Z; 1741824000%Z; 0%Z; (-4354560000)%Z; 0%Z; 4064256000%Z; 0%Z; (-1306368000)%Z] by (vm_compute; reflexivity). prim_num. Qed.
Lemma span_5_4_3 : span (square 5 4 3) = 0 / 1.
Proof. replace (square 5 4 3) with [0%Z; (-8128512000)%Z; 0%Z; 97542144000%Z; 0%Z; (-243855360000)%Z; 0%Z; 227598336000%Z; 0%Z; (-73156608000)%Z] by (vm_compute; reflexivity). prim_num. Qed.
Lemma span_5_5_3 : span (square 5 5 3) = 594542592000 / 11.
Proof. replace (square 5 5 3) with [40642560000%Z; 0%Z; (-853493760000)%Z; 0%Z; 5608673280000%Z; 0%Z; (-12111482880000)%Z; 0%Z; 10607708160000%Z; 0%Z; (-3292047360000)%Z] by (vm_compute; reflexivity). prim_num. Qed.
Lemma unit_5_3 : 2 * PI * (factor 5 5 3 * span (square 5 5 3)) = 1.
Proof.
  rewrite span_5_5_3. unfold factor. change (2 ^ Z.of_nat 5 * zfact 5)%Z with 3840%Z.
  transitivity (2 * PI * (normalisation 5 3 ^ 2 / (3840 * 3840) * (594542592000 / 11))); [field|]. rewrite nsq_5_3. pose proof PI_RGT_0. field. lra.
Qed.
Lemma span_5_6_3 : span (square 5 6 3) = 0 / 1.
Proof. replace (square 5 6 3) with [0%Z; 4389396480000%Z; 0%Z; (-68767211520000)%Z; 0%Z; 324815339520000%Z; 0%Z; (-605736714240000)%Z; 0%Z; 490149273600000%Z; 0%Z; (-144850083840000)%Z] by (vm_compute; reflexivity). prim_num. Qed.
Lemma span_5_4_4 : span (square 5 4 4) = 0 / 1.
Proof. replace (square 5 4 4) with [0%Z; 146313216000%Z; 0%Z; (-585252864000)%Z; 0%Z; 877879296000%Z; 0%Z; (-585252864000)%Z; 0%Z; 146313216000%Z] by (vm_compute; reflexivity). prim_num. Qed.
Lemma span_5_5_4 : span (square 5 5 4) = 10701766656000 / 11.
Proof. replace (square 5 5 4) with [0%Z; 0%Z; 13168189440000%Z; 0%Z; (-52672757760000)%Z; 0%Z; 79009136640000%Z; 0%Z; (-52672757760000)%Z; 0%Z; 13168189440000%Z] by (vm_compute; reflexivity). prim_num. Qed.
Lemma unit_5_4 : 2 * PI * (factor 5 5 4 * span (square 5 5 4)) = 1.
Proof.
  rewrite span_5_5_4. unfold factor. change (2 ^ Z.of_nat 5 * zfact 5)%Z with 3840%Z.
  transitivity (2 * PI * (normalisation 5 4 ^ 2 / (3840 * 3840) * (10701766656000 / 11))); [field|]. rewrite nsq_5_4. pose proof PI_RGT_0. field. lra.
Qed.
Lemma span_5_6_4 : span (square 5 6 4) = 0 / 1.
Proof. replace (square 5 6 4) with [0%Z; (-79009136640000)%Z; 0%Z; 1185137049600000%Z; 0%Z; (-3950456832000000)%Z; 0%Z; 5530639564800000%Z; 0%Z; (-3555411148800000)%Z; 0%Z; 869100503040000%Z] by (vm_compute; reflexivity). prim_num. Qed.
Lemma span_5_5_5 : span (square 5 5 5) = 107017666560000 / 11.
Proof. replace (square 5 5 5) with [13168189440000%Z; 0%Z; (-65840947200000)%Z; 0%Z; 131681894400000%Z; 0%Z; (-131681894400000)%Z; 0%Z; 65840947200000%Z; 0%Z; (-13168189440000)%Z] by (vm_compute; reflexivity). prim_num. Qed.
Lemma unit_5_5 : 2 * PI * (factor 5 5 5 * span (square 5 5 5)) = 1.
Proof.
  rewrite span_5_5_5. unfold factor. change (2 ^ Z.of_nat 5 * zfact 5)%Z with 3840%Z.
  transitivity (2 * PI * (normalisation 5 5 ^ 2 / (3840 * 3840) * (107017666560000 / 11))); [field|]. rewrite nsq_5_5. pose proof PI_RGT_0. field. lra.
Qed.
Lemma span_5_6_5 : span (square 5 6 5) = 0 / 1.
Proof. replace (square 5 6 5) with [0%Z; 1738201006080000%Z; 0%Z; (-8691005030400000)%Z; 0%Z; 17382010060800000%Z; 0%Z; (-17382010060800000)%Z; 0%Z; 8691005030400000%Z; 0%Z; (-1738201006080000)%Z] by (vm_compute; reflexivity). prim_num. Qed.
Lemma span_6_0_0 : span (square 6 0 0) = 0 / 1.
Proof. replace (square 6 0 0) with [(-14400)%Z; 0%Z; 302400%Z; 0%Z; (-907200)%Z; 0%Z; 665280%Z] by (vm_compute; reflexivity). prim_num. Qed.
Lemma span_6_1_0 : span (square 6 1 0) = 0 / 1.
Proof. replace (square 6 1 0) with [0%Z; (-28800)%Z; 0%Z; 604800%Z; 0%Z; (-1814400)%Z; 0%Z; 1330560%Z] by (vm_compute; reflexivity). prim_num. Qed.
Lemma span_6_2_0 : span (square 6 2 0) = 0 / 1.
Proof. replace (square 6 2 0) with [57600%Z; 0%Z; (-1382400)%Z; 0%Z; 7257600%Z; 0%Z; (-13547520)%Z; 0%Z; 7983360%Z] by (vm_compute; reflexivity). prim_num. Qed.
Lemma span_6_3_0 : span (square 6 3 0) = 0 / 1.
Proof. replace (square 6 3 0) with [0%Z; 1036800%Z; 0%Z; (-23500800)%Z; 0%Z; 101606400%Z; 0%Z; (-156764160)%Z; 0%Z; 79833600%Z] by (vm_compute; reflexivity). prim_num. Qed.
Lemma span_6_4_0 : span (square 6 4 0) = 0 / 1.
Proof. replace (square 6 4 0) with [(-2073600)%Z; 0%Z; 64281600%Z; 0%Z; (-590284800)%Z; 0%Z; 1910200320%Z; 0%Z; (-2482099200)%Z; 0%Z; 1117670400%Z] by (vm_compute; reflexivity). prim_num. Qed.
Lemma span_6_5_0 : span (square 6 5 0) = 0 / 1.
Proof. replace (square 6 5 0) with [0%Z; (-103680000)%Z; 0%Z; 2661120000%Z; 0%Z; (-17127936000)%Z; 0%Z; 44416512000%Z; 0%Z; (-49787136000)%Z; 0%Z; 20118067200%Z] by (vm_compute; reflexivity). prim_num. Qed.
Lemma span_6_6_0 : span (square 6 6 0) = 4246732800 / 13.
Proof. replace (square 6 6 0) with [207360000%Z; 0%Z; (-8709120000)%Z; 0%Z; 117573120000%Z; 0%Z; (-567834624000)%Z; 0%Z; 1225373184000%Z; 0%Z; (-1207084032000)%Z; 0%Z; 442597478400%Z] by (vm_compute; reflexivity). prim_num. Qed.
Lemma unit_6_0 : 2 * PI * (factor 6 6 0 * span (square 6 6 0)) = 1.
Proof.
  rewrite span_6_6_0. unfold factor. change (2 ^ Z.of_nat 6 * zfact 6)%Z with 46080%Z.
  transitivity (2 * PI * (normalisation 6 0 ^ 2 / (46080 * 46080) * (4246732800 / 13))); [field|]. rewrite nsq_6_0. pose proof PI_RGT_0. field. lra.
Qed.
Lemma span_6_1_1 : span (square 6 1 1) = 0 / 1.
Proof. replace (square 6 1 1) with [0%Z; 1209600%Z; 0%Z; (-8467200)%Z; 0%Z; 15240960%Z; 0%Z; (-7983360)%Z] by (vm_compute; reflexivity). prim_num. Qed.
Lemma span_6_2_1 : span (square 6 2 1) = 0 / 1.
Proof. replace (square 6 2 1) with [0%Z; 0%Z; 14515200%Z; 0%Z; (-101606400)%Z; 0%Z; 182891520%Z; 0%Z; (-95800320)%Z] by (vm_compute; reflexivity). prim_num. Qed.
Lemma span_6_3_1 : span (square 6 3 1) = 0 / 1.
Proof. replace (square 6 3 1) with [0%Z; (-43545600)%Z; 0%Z; 522547200%Z; 0%Z; (-2072770560)%Z; 0%Z; 3030773760%Z; 0%Z; (-1437004800)%Z] by (vm_compute; reflexivity). prim_num. Qed.
Lemma span_6_4_1 : span (square 6 4 1) = 0 / 1.
Proof. replace (square 6 4 1) with [0%Z; 0%Z; (-1741824000)%Z; 0%Z; 16257024000%Z; 0%Z; (-50396774400)%Z; 0%Z; 62705664000%Z; 0%Z; (-26824089600)%Z] by (vm_compute; reflexivity). prim_num. Qed.
Lemma span_6_5_1 : span (square 6 5 1) = 0 / 1.
Proof. replace (square 6 5 1) with [0%Z; 4354560000%Z; 0%Z; (-91445760000)%Z; 0%Z; 573060096000%Z; 0%Z; (-1437004800000)%Z; 0%Z; 1554577920000%Z; 0%Z; (-603542016000)%Z] by (vm_compute; reflexivity). prim_num. Qed.
Lemma span_6_6_1 : span (square 6 6 1) = 178362777600 / 13.
Proof. replace (square 6 6 1) with [0%Z; 0%Z; 365783040000%Z; 0%Z; (-4755179520000)%Z; 0%Z; 22385922048000%Z; 0%Z; (-46966542336000)%Z; 0%Z; 44903525990400%Z; 0%Z; (-15933509222400)%Z] by (vm_compute; reflexivity). prim_num. Qed.
Lemma unit_6_1 : 2 * PI * (factor 6 6 1 * span (square 6 6 1)) = 1.
Proof.
  rewrite span_6_6_1. unfold factor. change (2 ^ Z.of_nat 6 * zfact 6)%Z with 46080%Z.
  transitivity (2 * PI * (normalisation 6 1 ^ 2 / (46080 * 46080) * (178362777600 / 13))); [field|]. rewrite nsq_6_1. pose proof PI_RGT_0. field. lra.
Qed.
Lemma span_6_2_2 : span (square 6 2 2) = 0 / 1.
Proof. replace (square 6 2 2) with [14515200%Z; 0%Z; (-290304000)%Z; 0%Z; 1016064000%Z; 0%Z; (-1219276800)%Z; 0%Z; 479001600%Z] by (vm_compute; reflexivity). prim_num. Qed.
Lemma span_6_3_2 : span (square 6 3 2) = 0 / 1.
Proof. replace (square 6 3 2) with [0%Z; 435456000%Z; 0%Z; (-8709120000)%Z; 0%Z; 30481920000%Z; 0%Z; (-36578304000)%Z; 0%Z; 14370048000%Z] by (vm_compute; reflexivity). prim_num. Qed.
Lemma span_6_4_2 : span (square 6 4 2) = 0 / 1.
Proof. replace (square 6 4 2) with [(-1741824000)%Z; 0%Z; 47029248000%Z; 0%Z; (-365783040000)%Z; 0%Z; 999806976000%Z; 0%Z; (-1081672704000)%Z; 0%Z; 402361344000%Z] by (vm_compute; reflexivity). prim_num. Qed.
Lemma span_6_5_2 : span (square 6 5 2) = 0 / 1.
Proof. replace (square 6 5 2) with [0%Z; (-121927680000)%Z; 0%Z; 2804336640000%Z; 0%Z; (-15850598400000)%Z; 0%Z; 35846737920000%Z; 0%Z; (-34749388800000)%Z; 0%Z; 12070840320000%Z] by (vm_compute; reflexivity). prim_num. Qed.
Lemma span_6_6_2 : span (square 6 6 2) = 7134511104000 / 13.
Proof. replace (square 6 6 2) with [365783040000%Z; 0%Z; (-13899755520000)%Z; 0%Z; 169357547520000%Z; 0%Z; (-733029212160000)%Z; 0%Z; 1410093619200000%Z; 0%Z; (-1231225712640000)%Z; 0%Z; 398337730560000%Z] by (vm_compute; reflexivity). prim_num. Qed.
Lemma unit_6_2 : 2 * PI * (factor 6 6 2 * span (square 6 6 2)) = 1.
Proof.
  rewrite span_6_6_2. unfold factor. change (2 ^ Z.of_nat 6 * zfact 6)%Z with 46080%Z.
  transitivity (2 * PI * (normalisation 6 2 ^ 2 / (46080 * 46080) * (7134511104000 / 13))); [field|]. rewrite nsq_6_2. pose proof PI_RGT_0. field. lra.
Qed.
Lemma span_6_3_3 : span (square 6 3 3) = 0 / 1.
Proof. replace (square 6 3 3) with [0%Z; (-15676416000)%Z; 0%Z; 104509440000%Z; 0%Z; (-219469824000)%Z; 0%Z; 188116992000%Z; 0%Z; (-57480192000)%Z] by (vm_compute; reflexivity). prim_num. Qed.
Lemma span_6_4_3 : span (square 6 4 3) = 0 / 1.
Proof. replace (square 6 4 3) with [0%Z; 0%Z; (-877879296000)%Z; 0%Z; 5852528640000%Z; 0%Z; (-12290310144000)%Z; 0%Z; 10534551552000%Z; 0%Z; (-3218890752000)%Z] by (vm_compute; reflexivity). prim_num. Qed.
Lemma span_6_5_3 : span (square 6 5 3) = 0 / 1.
Proof. replace (square 6 5 3) with [0%Z; 4389396480000%Z; 0%Z; (-68767211520000)%Z; 0%Z; 324815339520000%Z; 0%Z; (-605736714240000)%Z; 0%Z; 490149273600000%Z; 0%Z; (-144850083840000)%Z] by (vm_compute; reflexivity). prim_num. Qed.
Lemma span_6_6_3 : span (square 6 6 3) = 256842399744000 / 13.
Proof. replace (square 6 6 3) with [0%Z; 0%Z; 474054819840000%Z; 0%Z; (-4898566471680000)%Z; 0%Z; 18224774184960000%Z; 0%Z; (-30023471923200000)%Z; 0%Z; 22596613079040000%Z; 0%Z; (-6373403688960000)%Z] by (vm_compute; reflexivity). prim_num. Qed.
Lemma unit_6_3 : 2 * PI * (factor 6 6 3 * span (square 6 6 3)) = 1.
Proof.
  rewrite span_6_6_3. unfold factor. change (2 ^ Z.of_nat 6 * zfact 6)%Z with 46080%Z.
  transitivity (2 * PI * (normalisation 6 3 ^ 2 / (46080 * 46080) * (256842399744000 / 13))); [field|]. rewrite nsq_6_3. pose proof PI_RGT_0. field. lra.
Qed.
Lemma span_6_4_4 : span (square 6 4 4) = 0 / 1.
Proof. replace (square 6 4 4) with [(-877879296000)%Z; 0%Z; 13168189440000%Z; 0%Z; (-43893964800000)%Z; 0%Z; 61451550720000%Z; 0%Z; (-39504568320000)%Z; 0%Z; 9656672256000%Z] by (vm_compute; reflexivity). prim_num. Qed.
Lemma span_6_5_4 : span (square 6 5 4) = 0 / 1.
Proof. replace (square 6 5 4) with [0%Z; (-79009136640000)%Z; 0%Z; 1185137049600000%Z; 0%Z; (-3950456832000000)%Z; 0%Z; 5530639564800000%Z; 0%Z; (-3555411148800000)%Z; 0%Z; 869100503040000%Z] by (vm_compute; reflexivity). prim_num. Qed.
Lemma span_6_6_4 : span (square 6 6 4) = 7705271992320000 / 13.
Proof. replace (square 6 6 4) with [474054819840000%Z; 0%Z; (-12325425315840000)%Z; 0%Z; 101921786265600000%Z; 0%Z; (-293913988300800000)%Z; 0%Z; 386354678169600000%Z; 0%Z; (-239871738839040000)%Z; 0%Z; 57360633200640000%Z] by (vm_compute; reflexivity). prim_num. Qed.
Lemma unit_6_4 : 2 * PI * (factor 6 6 4 * span (square 6 6 4)) = 1.
Proof.
  rewrite span_6_6_4. unfold factor. change (2 ^ Z.of_nat 6 * zfact 6)%Z with 46080%Z.
  transitivity (2 * PI * (normalisation 6 4 ^ 2 / (46080 * 46080) * (7705271992320000 / 13))); [field|]. rewrite nsq_6_4. pose proof PI_RGT_0. field. lra.
Qed.
Lemma span_6_5_5 : span (square 6 5 5) = 0 / 1.
Proof. replace (square 6 5 5) with [0%Z; 1738201006080000%Z; 0%Z; (-8691005030400000)%Z; 0%Z; 17382010060800000%Z; 0%Z; (-17382010060800000)%Z; 0%Z; 8691005030400000%Z; 0%Z; (-1738201006080000)%Z] by (vm_compute; reflexivity). prim_num. Qed.
Lemma span_6_6_5 : span (square 6 6 5) = 169515983831040000 / 13.
Proof. replace (square 6 6 5) with [0%Z; 0%Z; 229442532802560000%Z; 0%Z; (-1147212664012800000)%Z; 0%Z; 2294425328025600000%Z; 0%Z; (-2294425328025600000)%Z; 0%Z; 1147212664012800000%Z; 0%Z; (-229442532802560000)%Z] by (vm_compute; reflexivity). prim_num. Qed.
Lemma unit_6_5 : 2 * PI * (factor 6 6 5 * span (square 6 6 5)) = 1.
Proof.
  rewrite span_6_6_5. unfold factor. change (2 ^ Z.of_nat 6 * zfact 6)%Z with 46080%Z.
  transitivity (2 * PI * (normalisation 6 5 ^ 2 / (46080 * 46080) * (169515983831040000 / 13))); [field|]. rewrite nsq_6_5. pose proof PI_RGT_0. field. lra.
Qed.
Lemma span_6_6_6 : span (square 6 6 6) = 2034191805972480000 / 13.
Proof. replace (square 6 6 6) with [229442532802560000%Z; 0%Z; (-1376655196815360000)%Z; 0%Z; 3441637992038400000%Z; 0%Z; (-4588850656051200000)%Z; 0%Z; 3441637992038400000%Z; 0%Z; (-1376655196815360000)%Z; 0%Z; 229442532802560000%Z] by (vm_compute; reflexivity). prim_num. Qed.
Lemma unit_6_6 : 2 * PI * (factor 6 6 6 * span (square 6 6 6)) = 1.
Proof.
  rewrite span_6_6_6. unfold factor. change (2 ^ Z.of_nat 6 * zfact 6)%Z with 46080%Z.
  transitivity (2 * PI * (normalisation 6 6 ^ 2 / (46080 * 46080) * (2034191805972480000 / 13))); [field|]. rewrite nsq_6_6. pose proof PI_RGT_0. field. lra.
Qed.
Lemma legendre_orthogonal l l' k : (l <= 6)%nat -> (l' <= 6)%nat -> (k <= l)%nat -> (k <= l')%nat ->
  2 * PI * (factor l l' k * span (square l l' k)) = kron (l =? l')%nat.
Proof.
  intros H1 H2 H3 H4.
  destruct l as [|[|[|[|[|[|[|l]]]]]]]; [| | | | | | |lia]; destruct l' as [|[|[|[|[|[|[|l']]]]]]]; try lia; destruct k as [|[|[|[|[|[|[|k]]]]]]]; try lia; cbn [Nat.eqb kron].
  - exact unit_0_0.
  - rewrite span_0_1_0. field.
  - rewrite span_0_2_0. field.
  - rewrite span_0_3_0. field.
  - rewrite span_0_4_0. field.
  - rewrite span_0_5_0. field.
  - rewrite span_0_6_0. field.
  - rewrite span_1_0_0. field.
  - exact unit_1_0.
  - exact unit_1_1.
  - rewrite span_1_2_0. field.
  - rewrite span_1_2_1. field.
  - rewrite span_1_3_0. field.
  - rewrite span_1_3_1. field.
  - rewrite span_1_4_0. field.
  - rewrite span_1_4_1. field.
  - rewrite span_1_5_0. field.
  - rewrite span_1_5_1. field.
  - rewrite span_1_6_0. field.
  - rewrite span_1_6_1. field.
  - rewrite span_2_0_0. field.
  - rewrite span_2_1_0. field.
  - rewrite span_2_1_1. field.
  - exact unit_2_0.
  - exact unit_2_1.
  - exact unit_2_2.
  - rewrite span_2_3_0. field.
  - rewrite span_2_3_1. field.
  - rewrite span_2_3_2. field.
  - rewrite span_2_4_0. field.
  - rewrite span_2_4_1. field.
  - rewrite span_2_4_2. field.
  - rewrite span_2_5_0. field.
  - rewrite span_2_5_1. field.
  - rewrite span_2_5_2. field.
  - rewrite span_2_6_0. field.
  - rewrite span_2_6_1. field.
  - rewrite span_2_6_2. field.
  - rewrite span_3_0_0. field.
  - rewrite span_3_1_0. field.
  - rewrite span_3_1_1. field.
  - rewrite span_3_2_0. field.
  - rewrite span_3_2_1. field.
  - rewrite span_3_2_2. field.
  - exact unit_3_0.
  - exact unit_3_1.
  - exact unit_3_2.
  - exact unit_3_3.
  - rewrite span_3_4_0. field.
  - rewrite span_3_4_1. field.
  - rewrite span_3_4_2. field.
  - rewrite span_3_4_3. field.
  - rewrite span_3_5_0. field.
  - rewrite span_3_5_1. field.
  - rewrite span_3_5_2. field.
  - rewrite span_3_5_3. field.
  - rewrite span_3_6_0. field.
  - rewrite span_3_6_1. field.
  - rewrite span_3_6_2. field.
  - rewrite span_3_6_3. field.
  - rewrite span_4_0_0. field.
  - rewrite span_4_1_0. field.
  - rewrite span_4_1_1. field.
  - rewrite span_4_2_0. field.
  - rewrite span_4_2_1. field.
  - rewrite span_4_2_2. field.
  - rewrite span_4_3_0. field.
  - rewrite span_4_3_1. field.
  - rewrite span_4_3_2. field.
  - rewrite span_4_3_3. field.
  - exact unit_4_0.
  - exact unit_4_1.
  - exact unit_4_2.
  - exact unit_4_3.
  - exact unit_4_4.
  - rewrite span_4_5_0. field.
  - rewrite span_4_5_1. field.
  - rewrite span_4_5_2. field.
  - rewrite span_4_5_3. field.
  - rewrite span_4_5_4. field.
  - rewrite span_4_6_0. field.
  - rewrite span_4_6_1. field.
  - rewrite span_4_6_2. field.
  - rewrite span_4_6_3. field.
  - rewrite span_4_6_4. field.
  - rewrite span_5_0_0. field.
  - rewrite span_5_1_0. field.
  - rewrite span_5_1_1. field.
  - rewrite span_5_2_0. field.
  - rewrite span_5_2_1. field.
  - rewrite span_5_2_2. field.
  - rewrite span_5_3_0. field.
  - rewrite span_5_3_1. field.
  - rewrite span_5_3_2. field.
  - rewrite span_5_3_3. field.
  - rewrite span_5_4_0. field.
  - rewrite span_5_4_1. field.
  - rewrite span_5_4_2. field.
  - rewrite span_5_4_3. field.
  - rewrite span_5_4_4. field.
  - exact unit_5_0.
  - exact unit_5_1.
  - exact unit_5_2.
  - exact unit_5_3.
  - exact unit_5_4.
  - exact unit_5_5.
  - rewrite span_5_6_0. field.
  - rewrite span_5_6_1. field.
  - rewrite span_5_6_2. field.
  - rewrite span_5_6_3. field.
  - rewrite span_5_6_4. field.
  - rewrite span_5_6_5. field.
  - rewrite span_6_0_0. field.
  - rewrite span_6_1_0. field.
  - rewrite span_6_1_1. field.
  - rewrite span_6_2_0. field.
  - rewrite span_6_2_1. field.
  - rewrite span_6_2_2. field.
  - rewrite span_6_3_0. field.
  - rewrite span_6_3_1. field.
  - rewrite span_6_3_2. field.
  - rewrite span_6_3_3. field.
  - rewrite span_6_4_0. field.
  - rewrite span_6_4_1. field.
  - rewrite span_6_4_2. field.
  - rewrite span_6_4_3. field.
  - rewrite span_6_4_4. field.
  - rewrite span_6_5_0. field.
  - rewrite span_6_5_1. field.
  - rewrite span_6_5_2. field.
  - rewrite span_6_5_3. field.
  - rewrite span_6_5_4. field.
  - rewrite span_6_5_5. field.
  - exact unit_6_0.
  - exact unit_6_1.
  - exact unit_6_2.
  - exact unit_6_3.
  - exact unit_6_4.
  - exact unit_6_5.
  - exact unit_6_6.
Qed.
Lemma product_phase a a' m m' p : cmul (cconj (cscale a (phase m p))) (cscale a' (phase m' p)) = cscale (a * a') (phase (m' - m) p).
Proof.
  unfold cmul, cconj, cscale, phase. cbn [fst snd]. rewrite minus_IZR.
  replace ((IZR m' - IZR m) * p) with (IZR m' * p - IZR m * p) by ring. rewrite cos_minus, sin_minus. apply cplx_eq; cbn [fst snd]; ring.
Qed.
Lemma orthonormal l m l' m' : (l <= 6)%nat -> (Z.abs m <= Z.of_nat l)%Z -> (l' <= 6)%nat -> (Z.abs m' <= Z.of_nat l')%Z ->
  is_sphere_integral (fun t p => fst (cmul (cconj (value l m t p)) (value l' m' t p))) (kron ((l =? l')%nat && (m =? m')%Z)) /\
  is_sphere_integral (fun t p => snd (cmul (cconj (value l m t p)) (value l' m' t p))) 0.
Proof.
  intros H1 H2 H3 H4.
  assert (E : forall t p, cmul (cconj (value l m t p)) (value l' m' t p) = cscale (amplitude l m t * amplitude l' m' t) (phase (m' - m) p)).
  { intros t p. rewrite !value_harmonic by assumption. rewrite !harmonic_amplitude. apply product_phase. }
  set (A := fun t => amplitude l m t * amplitude l' m' t). pose proof (theta_integrable l m l' m') as X. fold A in X.
  assert (same : forall f g I I', (forall t p, f t p = g t p) -> I = I' -> is_sphere_integral f I -> is_sphere_integral g I').
  { clear. intros f g I I' H <- [B C]. split.
    - intros p. apply (ex_RInt_ext (V := R_NormedModule) (fun t => f t p * sin t)); [intros t _; rewrite H; reflexivity|apply B].
    - apply (is_RInt_ext (V := R_NormedModule) (fun p => RInt (fun t => f t p * sin t) 0 PI)); [|exact C].
      intros p _. apply RInt_ext. intros t _. rewrite H. reflexivity. }
  split.
  - destruct (Z.eq_dec m m') as [<-|N].
    + assert (Hg : is_RInt (fun p => cos (IZR (m - m) * p)) 0 (2 * PI) (2 * PI)).
      { rewrite Z.sub_diag. apply (is_RInt_ext (V := R_NormedModule) (fun _ => 1)); [intros p _; rewrite Rmult_0_l, cos_0; reflexivity|].
        pose proof (is_RInt_const (V := R_NormedModule) 0 (2 * PI) 1) as C. refine (eq_ind _ (fun z : R => is_RInt (fun _ : R => 1) 0 (2 * PI) z) C _ _). unfold scal; simpl; unfold mult; simpl; ring. }
      apply (same _ _ _ _) with (3 := separate A (fun p => cos (IZR (m - m) * p)) (2 * PI) X Hg).
      * intros t p. rewrite E. reflexivity.
      * rewrite Z.eqb_refl, andb_true_r. rewrite <- (legendre_orthogonal l l' (Z.abs_nat m)) by lia.
        assert (J : RInt (fun t => A t * sin t) 0 PI = factor l l' (Z.abs_nat m) * span (square l l' (Z.abs_nat m))).
        { apply is_RInt_unique. apply (is_RInt_ext (V := R_NormedModule) (fun t => factor l l' (Z.abs_nat m) * peval (square l l' (Z.abs_nat m)) (cos t) * sin t)).
          - intros t _. unfold A. rewrite product_same. reflexivity.
          - apply peval_integral. }
        rewrite J. ring.
    + apply (same _ _ _ _) with (3 := separate A (fun p => cos (IZR (m' - m) * p)) 0 X (cos_period (m' - m) ltac:(lia))).
      * intros t p. rewrite E. reflexivity.
      * rewrite Rmult_0_r. apply Z.eqb_neq in N. rewrite N, andb_false_r. reflexivity.
  - apply (same _ _ _ _) with (3 := separate A (fun p => sin (IZR (m' - m) * p)) 0 X (sin_period (m' - m))).
    + intros t p. rewrite E. reflexivity.
    + ring.
Qed.
