From Coq Require Import Reals ZArith List Bool Arith Lia Lra.
From Coquelicot Require Import Coquelicot.
From Verif Require Import Vec GeomModel GeomSpec GeomProofs SkModel SkSpec SkProofs SkProofs2 SkProofs3 SkProofs4 SkProofs5 SkProofs6 InvProofs5.
Import ListNotations.
Open Scope R_scope.

(** ** The rotation of the orbitals by a small angle *)
Definition commutes (w : v3) (O : m3) : Prop := forall x, mv O (vcross w x) = vcross w (mv O x).
Record small_rotation (w : v3) (L : nat -> nat -> R) : Prop := {
  sr_off : forall a b, (a < 9)%nat -> (b < 9)%nat -> shell a <> shell b -> L a b = 0;
  sr_anti : forall a b, (a < 9)%nat -> (b < 9)%nat -> L a b = - L b a;
  sr_comm : forall O a b, orthogonal O -> commutes w O -> (a < 9)%nat -> (b < 9)%nat ->
    rsum 9 (fun c => L a c * Drep O c b) = rsum 9 (fun c => Drep O a c * L c b);
  sr_bond : forall p h dh a b, p <> vzero -> (a < 9)%nat -> (b < 9)%nat ->
    rsum 3 (fun k => comp k (vcross w p) * dht (vscale (/ vnorm p) p) (vnorm p) h (fun c k => dh c * comp k (vscale (/ vnorm p) p)) a b k) =
    rsum 9 (fun c => L a c * ht (vscale (/ vnorm p) p) h c b) + rsum 9 (fun c => ht (vscale (/ vnorm p) p) h a c * L b c) }.

Lemma rotm_orthogonal e t : vdot e e = 1 -> orthogonal (rotm e t).
Proof. intros H. pose proof (rotm_is_rotation e t H) as [A [B C]]. exact B || exact A. Qed.
Lemma rotm_0 e : rotm e 0 = eye.
Proof. unfold rotm, eye. rewrite cos_0, sin_0. cbv zeta. repeat f_equal; ring. Qed.
Lemma vx_D e w : derivable_pt_lim (fun t => vx (mv (rotm e t) w)) 0 (vx (vcross e w)).
Proof.
  apply is_derive_Reals. unfold rotm, mv, vdot, vcross. cbn [vx vy vz row1 row2 row3]. auto_derive; [exact I|]. rewrite ?sin_0, ?cos_0. ring.
Qed.
Lemma vy_D e w : derivable_pt_lim (fun t => vy (mv (rotm e t) w)) 0 (vy (vcross e w)).
Proof.
  apply is_derive_Reals. unfold rotm, mv, vdot, vcross. cbn [vx vy vz row1 row2 row3]. auto_derive; [exact I|]. rewrite ?sin_0, ?cos_0. ring.
Qed.
Lemma vz_D e w : derivable_pt_lim (fun t => vz (mv (rotm e t) w)) 0 (vz (vcross e w)).
Proof.
  apply is_derive_Reals. unfold rotm, mv, vdot, vcross. cbn [vx vy vz row1 row2 row3]. auto_derive; [exact I|]. rewrite ?sin_0, ?cos_0. ring.
Qed.
Ltac three i := destruct i as [|[|[|i]]]; [..|exfalso; lia].
(** all elements are differentiable at 0 *)
Definition smooth3 (M : R -> m3) : Prop := forall i j, (i < 3)%nat -> (j < 3)%nat -> ex_derive (fun t => m3e (M t) i j) 0.
Lemma m3e_mm3 A B i j : (i < 3)%nat -> (j < 3)%nat -> m3e (mm A B) i j = m3e A i 0 * m3e B 0 j + m3e A i 1 * m3e B 1 j + m3e A i 2 * m3e B 2 j.
Proof. intros Hi Hj. three i; three j; unfold m3e, mm, tr, vdot; cbn [comp vx vy vz row1 row2 row3]; ring. Qed.
Lemma ex_derive_mult' (f g : R -> R) : ex_derive f 0 -> ex_derive g 0 -> ex_derive (fun t => f t * g t) 0.
Proof. intros [a A] [b B]. exists (a * g 0 + f 0 * b). apply is_derive_Reals. apply is_derive_Reals in A, B. apply (derivable_pt_lim_mult f g 0 a b A B). Qed.
Lemma ex_derive_plus' (f g : R -> R) : ex_derive f 0 -> ex_derive g 0 -> ex_derive (fun t => f t + g t) 0.
Proof. intros [a A] [b B]. exists (a + b). apply is_derive_Reals. apply is_derive_Reals in A, B. apply (derivable_pt_lim_plus f g 0 a b A B). Qed.
Ltac ex_split := lazymatch goal with
  | |- ex_derive (fun t => @?f t + @?g t) 0 => refine (ex_derive_plus' f g _ _); cbv beta; ex_split
  | |- ex_derive (fun t => @?f t * @?g t) 0 => refine (ex_derive_mult' f g _ _); cbv beta; ex_split
  | |- _ => idtac end.
Lemma smooth3_mm A B : smooth3 A -> smooth3 B -> smooth3 (fun t => mm (A t) (B t)).
Proof.
  intros HA HB i j Hi Hj. apply (ex_derive_ext (fun t => m3e (A t) i 0 * m3e (B t) 0 j + m3e (A t) i 1 * m3e (B t) 1 j + m3e (A t) i 2 * m3e (B t) 2 j)).
  - intros t. symmetry. apply m3e_mm3; assumption.
  - ex_split; (refine (HA _ _ _ _) || refine (HB _ _ _ _)); lia.
Qed.
Lemma smooth3_tr A : smooth3 A -> smooth3 (fun t => tr (A t)).
Proof.
  intros HA i j Hi Hj. apply (ex_derive_ext (fun t => m3e (A t) j i)); [|apply HA; assumption].
  intros t. three i; three j; reflexivity.
Qed.
Lemma smooth3_const A : smooth3 (fun _ => A).
Proof. intros i j _ _. apply ex_derive_const. Qed.
Lemma smooth3_rotm e : smooth3 (rotm e).
Proof. intros i j Hi Hj. three i; three j; unfold m3e, rotm; cbn [comp vx vy vz row1 row2 row3]; auto_derive; exact I. Qed.
Lemma frob_m3e A B : frob A B = m3e A 0 0 * m3e B 0 0 + m3e A 0 1 * m3e B 0 1 + m3e A 0 2 * m3e B 0 2 + (m3e A 1 0 * m3e B 1 0 + m3e A 1 1 * m3e B 1 1 + m3e A 1 2 * m3e B 1 2) + (m3e A 2 0 * m3e B 2 0 + m3e A 2 1 * m3e B 2 1 + m3e A 2 2 * m3e B 2 2).
Proof. unfold frob, vdot, m3e. cbn [comp]. ring. Qed.
Lemma frob_ex A M : smooth3 M -> ex_derive (fun t => frob A (M t)) 0.
Proof.
  intros H. eapply ex_derive_ext; [intros t; symmetry; apply frob_m3e|].
  ex_split; first [refine (ex_derive_const _ _) | refine (H _ _ _ _); lia].
Qed.
Lemma Drep_ex e a b : (a < 9)%nat -> (b < 9)%nat -> ex_derive (fun t => Drep (rotm e t) a b) 0.
Proof.
  intros Ha Hb. unfold Drep. destruct (shell a =? shell b)%nat eqn:E; [|refine (ex_derive_const _ _)]. apply Nat.eqb_eq in E.
  nine_shell a.
  - refine (ex_derive_const 1 _).
  - assert (Hb' : (1 <= b <= 3)%nat). { rewrite (shell_p a) in E by assumption. nine_shell b; [discriminate|assumption|]. rewrite shell_dd in E by assumption. discriminate. }
    rewrite shell_p by assumption. refine (smooth3_rotm e _ _ _ _); lia.
  - rewrite shell_dd by assumption. refine (ex_derive_mult' (fun _ => 2 / 3) (fun t => frob (Td a) (mm (mm (rotm e t) (Td b)) (tr (rotm e t)))) (ex_derive_const _ _) _). refine (frob_ex (Td a) (fun t => mm (mm (rotm e t) (Td b)) (tr (rotm e t))) _). refine (smooth3_mm (fun t => mm (rotm e t) (Td b)) (fun t => tr (rotm e t)) (smooth3_mm (rotm e) (fun _ => Td b) (smooth3_rotm e) (smooth3_const _)) (smooth3_tr (rotm e) (smooth3_rotm e))).
Qed.
Lemma mv_vadd A x y : mv A (vadd x y) = vadd (mv A x) (mv A y).
Proof. destruct A as [[? ? ?] [? ? ?] [? ? ?]], x, y. unfold mv, vadd, vdot. cbn. f_equal; ring. Qed.
Section Unit.
Variables (e : v3).
Hypothesis He : vdot e e = 1.
Definition L1 (a b : nat) : R := Derive (fun t => Drep (rotm e t) a b) 0.
Lemma L1_D a b : (a < 9)%nat -> (b < 9)%nat -> derivable_pt_lim (fun t => Drep (rotm e t) a b) 0 (L1 a b).
Proof. intros Ha Hb. apply is_derive_Reals. apply Derive_correct. apply Drep_ex; assumption. Qed.
Lemma L1_off a b : (a < 9)%nat -> (b < 9)%nat -> shell a <> shell b -> L1 a b = 0.
Proof.
  intros Ha Hb H. unfold L1. rewrite (Derive_ext _ (fun _ => 0)); [apply Derive_const|]. intros t. apply Drep_off; exact H.
Qed.
Lemma lim_unique f x a b : derivable_pt_lim f x a -> derivable_pt_lim f x b -> a = b.
Proof. apply uniqueness_limite. Qed.
Lemma lim_rsum n (f : nat -> R -> R) (l : nat -> R) x : (forall i, (i < n)%nat -> derivable_pt_lim (f i) x (l i)) -> derivable_pt_lim (fun t => rsum n (fun i => f i t)) x (rsum n l).
Proof.
  induction n as [|n IH]; intros H; cbn [rsum]; [apply derivable_pt_lim_const|].
  apply (derivable_pt_lim_plus (fun t => rsum n (fun i => f i t)) (f n)); [apply IH; intros; apply H; lia|apply H; lia].
Qed.
Lemma lim_ext f g x l : (forall t, f t = g t) -> derivable_pt_lim f x l -> derivable_pt_lim g x l.
Proof. intros E H eps He'. destruct (H eps He') as [d Hd]. exists d. intros h. rewrite <- !E. apply Hd. Qed.
Lemma Drep_0 a b : (a < 9)%nat -> (b < 9)%nat -> Drep (rotm e 0) a b = dlt a b.
Proof. intros. rewrite rotm_0. apply Drep_eye; assumption. Qed.
Lemma dlt_l n a f : (a < n)%nat -> rsum n (fun c => dlt a c * f c) = f a.
Proof.
  induction n as [|n IH]; intros H; [lia|]. cbn [rsum]. unfold dlt at 2. destruct (a =? n)%nat eqn:E.
  - apply Nat.eqb_eq in E. subst n. rewrite (rsum_ext a _ (fun _ => 0)); [rewrite rsum_zero; ring|]. intros c Hc. unfold dlt. destruct (a =? c)%nat eqn:E2; [apply Nat.eqb_eq in E2; lia|ring].
  - apply Nat.eqb_neq in E. rewrite IH by lia. ring.
Qed.
Lemma L1_anti a b : (a < 9)%nat -> (b < 9)%nat -> L1 a b = - L1 b a.
Proof.
  intros Ha Hb. cut (L1 a b + L1 b a = 0); [lra|].
  apply (lim_unique (fun t => rsum 9 (fun c => Drep (rotm e t) a c * Drep (rotm e t) b c)) 0).
  - replace (L1 a b + L1 b a) with (rsum 9 (fun c => L1 a c * Drep (rotm e 0) b c + Drep (rotm e 0) a c * L1 b c)).
    + apply (lim_rsum 9 (fun c t => Drep (rotm e t) a c * Drep (rotm e t) b c)). intros c Hc.
      apply (derivable_pt_lim_mult (fun t => Drep (rotm e t) a c) (fun t => Drep (rotm e t) b c)); apply L1_D; assumption.
    + rewrite rsum_plus. rewrite (rsum_ext 9 _ (fun c => dlt b c * L1 a c)) by (intros c Hc; rewrite Drep_0 by assumption; ring).
      rewrite (rsum_ext 9 (fun c => Drep (rotm e 0) a c * L1 b c) (fun c => dlt a c * L1 b c)) by (intros c Hc; rewrite Drep_0 by assumption; ring).
      rewrite !dlt_l by assumption. reflexivity.
  - apply (lim_ext (fun _ => dlt a b)); [|apply derivable_pt_lim_const]. intros t. symmetry. apply Drep_orth; try assumption. apply rotm_orthogonal, He.
Qed.
Lemma rotm_comm O t : orthogonal O -> commutes e O -> mm (rotm e t) O = mm O (rotm e t).
Proof.
  intros HO HC.
  assert (Hv : forall x, mv (rotm e t) x = vadd x (vadd (vscale (sin t) (vcross e x)) (vscale (1 - cos t) (vcross e (vcross e x))))).
  { intros x. destruct e as [e1 e2 e3], x as [x1 x2 x3]. unfold vdot in He. cbn [vx vy vz] in He. unfold rotm, mv, vadd, vscale, vcross, vdot. cbn [vx vy vz row1 row2 row3].
    f_equal; ring_simplify; [replace (e1^2) with (1 - e2*e2 - e3*e3) by lra|replace (e2^2) with (1 - e1*e1 - e3*e3) by lra|replace (e3^2) with (1 - e1*e1 - e2*e2) by lra]; ring. }
  assert (Hm : forall x, mv (mm (rotm e t) O) x = mv (mm O (rotm e t)) x).
  { intros x. rewrite !mv_mm, !Hv. rewrite !mv_vadd, !mv_scale, !HC. reflexivity. }
  assert (forall A B : m3, (forall x, mv A x = mv B x) -> A = B) as Ext.
  { intros [[a1 a2 a3] [a4 a5 a6] [a7 a8 a9]] [[b1 b2 b3] [b4 b5 b6] [b7 b8 b9]] E.
    pose proof (E (V3 1 0 0)) as E1. pose proof (E (V3 0 1 0)) as E2. pose proof (E (V3 0 0 1)) as E3.
    unfold mv, vdot in E1, E2, E3. cbn [vx vy vz row1 row2 row3] in E1, E2, E3. injection E1; injection E2; injection E3. intros. repeat f_equal; lra. }
  apply Ext, Hm.
Qed.
Lemma L1_comm O a b : orthogonal O -> commutes e O -> (a < 9)%nat -> (b < 9)%nat ->
  rsum 9 (fun c => L1 a c * Drep O c b) = rsum 9 (fun c => Drep O a c * L1 c b).
Proof.
  intros HO HC Ha Hb. apply (lim_unique (fun t => Drep (mm (rotm e t) O) a b) 0).
  - apply (lim_ext (fun t => rsum 9 (fun c => Drep (rotm e t) a c * Drep O c b))).
    + intros t. apply Drep_mul; try assumption. apply rotm_orthogonal, He.
    + apply (lim_rsum 9 (fun c t => Drep (rotm e t) a c * Drep O c b)). intros c Hc.
      replace (L1 a c * Drep O c b) with (L1 a c * Drep O c b + Drep (rotm e 0) a c * 0) by ring.
      apply (derivable_pt_lim_mult (fun t => Drep (rotm e t) a c) (fun _ => Drep O c b)); [apply L1_D; assumption|apply derivable_pt_lim_const].
  - apply (lim_ext (fun t => rsum 9 (fun c => Drep O a c * Drep (rotm e t) c b))).
    + intros t. rewrite rotm_comm by assumption. apply Drep_mul; assumption.
    + apply (lim_rsum 9 (fun c t => Drep O a c * Drep (rotm e t) c b)). intros c Hc.
      apply (derivable_pt_lim_scal (fun t => Drep (rotm e t) c b)). apply L1_D; assumption.
Qed.
Lemma ht_turn w h a b : vdot w w = 1 -> (a < 9)%nat -> (b < 9)%nat ->
  rsum (cnt a b) (fun q => nth q (der (vx w) (vy w) (vz w) (vx (vcross e w)) (vy (vcross e w)) (vz (vcross e w)) a b) 0 * h (nth q (ind a b) 0%nat)) =
  rsum 9 (fun c => L1 a c * ht w h c b) + rsum 9 (fun c => ht w h a c * L1 b c).
Proof.
  intros Hw Ha Hb. apply (lim_unique (fun t => ht (mv (rotm e t) w) h a b) 0).
  - unfold ht. apply (lim_rsum (cnt a b) (fun q t => nth q (mat (vx (mv (rotm e t) w)) (vy (mv (rotm e t) w)) (vz (mv (rotm e t) w)) a b) 0 * h (nth q (ind a b) 0%nat))).
    intros q Hq. pose proof (mat_der (fun t => vx (mv (rotm e t) w)) (fun t => vy (mv (rotm e t) w)) (fun t => vz (mv (rotm e t) w)) 0 _ _ _ a b q (vx_D e w) (vy_D e w) (vz_D e w) Ha Hb Hq) as M.
    cbn beta in M. rewrite rotm_0, mv_eye in M.
    rewrite (Rmult_comm _ (h _)). apply (lim_ext (fun t => h (nth q (ind a b) 0%nat) * nth q (mat (vx (mv (rotm e t) w)) (vy (mv (rotm e t) w)) (vz (mv (rotm e t) w)) a b) 0)); [intros t; ring|].
    apply (derivable_pt_lim_scal _ _ _ _ M).
  - apply (lim_ext (fun t => rsum 9 (fun c => rsum 9 (fun c' => ht w h c c' * (Drep (rotm e t) a c * Drep (rotm e t) b c'))))).
    + intros t. rewrite covariant by (try assumption; apply rotm_orthogonal, He). apply rsum_ext. intros c _. apply rsum_ext. intros c' _. ring.
    + replace (rsum 9 (fun c => L1 a c * ht w h c b) + rsum 9 (fun c => ht w h a c * L1 b c))
        with (rsum 9 (fun c => rsum 9 (fun c' => ht w h c c' * (L1 a c * Drep (rotm e 0) b c' + Drep (rotm e 0) a c * L1 b c')))).
      * apply (lim_rsum 9 (fun c t => rsum 9 (fun c' => ht w h c c' * (Drep (rotm e t) a c * Drep (rotm e t) b c')))). intros c Hc.
        apply (lim_rsum 9 (fun c' t => ht w h c c' * (Drep (rotm e t) a c * Drep (rotm e t) b c'))). intros c' Hc'.
        apply (derivable_pt_lim_scal (fun t => Drep (rotm e t) a c * Drep (rotm e t) b c')).
        apply (derivable_pt_lim_mult (fun t => Drep (rotm e t) a c) (fun t => Drep (rotm e t) b c')); apply L1_D; assumption.
      * transitivity (rsum 9 (fun c => L1 a c * ht w h c b + dlt a c * rsum 9 (fun c' => ht w h c c' * L1 b c'))).
        -- apply rsum_ext. intros c Hc. rewrite (rsum_ext 9 _ (fun c' => dlt b c' * (L1 a c * ht w h c c') + dlt a c * (ht w h c c' * L1 b c'))).
           ++ rewrite rsum_plus, dlt_l, rsum_scal by assumption. reflexivity.
           ++ intros c' Hc'. rewrite !Drep_0 by assumption. ring.
        -- rewrite rsum_plus. f_equal. rewrite (dlt_l 9 a (fun c => rsum 9 (fun c' => ht w h c c' * L1 b c'))) by assumption. reflexivity.
Qed.
End Unit.
Lemma dht_tangent p u h dh a b : p <> vzero -> vdot p u = 0 -> (a < 9)%nat -> (b < 9)%nat ->
  rsum 3 (fun k => comp k u * dht (vscale (/ vnorm p) p) (vnorm p) h (fun c k => dh c * comp k (vscale (/ vnorm p) p)) a b k) =
  / vnorm p * rsum (cnt a b) (fun q => nth q (der (vx (vscale (/ vnorm p) p)) (vy (vscale (/ vnorm p) p)) (vz (vscale (/ vnorm p) p)) (vx u) (vy u) (vz u) a b) 0 * h (nth q (ind a b) 0%nat)).
Proof.
  intros Hp Hu Ha Hb. pose proof (vnorm_pos p Hp) as Hn. set (w := vscale (/ vnorm p) p).
  assert (Hw : vdot w u = 0). { subst w. replace (vdot (vscale (/ vnorm p) p) u) with (/ vnorm p * vdot p u) by (unfold vdot, vscale; cbn [vx vy vz]; ring). rewrite Hu. ring. }
  cbn [rsum]. unfold dht. rewrite Rplus_0_l, <- !rsum_scal, <- !rsum_plus. apply rsum_ext. intros q Hq.
  rewrite (der_linear _ _ _ (vx u)) by assumption. rewrite !(der_linear _ _ _ (dl _ _ _)) by assumption.
  unfold dl, dm, dn. cbn [comp vx vy vz].
  generalize (nth q (der (vx w) (vy w) (vz w) 1 0 0 a b) 0) (nth q (der (vx w) (vy w) (vz w) 0 1 0 a b) 0) (nth q (der (vx w) (vy w) (vz w) 0 0 1 a b) 0)
    (nth q (mat (vx w) (vy w) (vz w) a b) 0) (h (nth q (ind a b) 0%nat)) (dh (nth q (ind a b) 0%nat)).
  intros d1 d2 d3 mm hh h'. unfold vdot in Hw. revert Hw. generalize (vx w) (vy w) (vz w) (vx u) (vy u) (vz u). intros w1 w2 w3 u1 u2 u3 Hw.
  transitivity (mm * h' * (w1 * u1 + w2 * u2 + w3 * u3) + / vnorm p * hh * ((u1 - w1 * (w1 * u1 + w2 * u2 + w3 * u3)) * d1 + (u2 - w2 * (w1 * u1 + w2 * u2 + w3 * u3)) * d2 + (u3 - w3 * (w1 * u1 + w2 * u2 + w3 * u3)) * d3)).
  - field. lra.
  - rewrite Hw. field. lra.
Qed.
Lemma vcross_scale s w x : vcross (vscale s w) x = vscale s (vcross w x).
Proof. destruct w, x. unfold vcross, vscale. cbn. f_equal; ring. Qed.
Lemma small_rotation_exists w : exists L, small_rotation w L.
Proof.
  assert (Hz : w = vzero \/ w <> vzero).
  { destruct w as [x y z]. destruct (Req_dec x 0) as [->|]; [destruct (Req_dec y 0) as [->|]; [destruct (Req_dec z 0) as [->|]; [left; reflexivity|]|]|]; right; intros E; injection E; intros; contradiction. }
  destruct Hz as [->|Hz].
  - exists (fun _ _ => 0). split; intros.
    + reflexivity.
    + ring.
    + apply rsum_ext. intros. ring.
    + assert (Z9 : forall f, (forall c, f c = 0) -> rsum 9 f = 0) by (intros f F; cbn [rsum]; rewrite !F; ring).
      rewrite !Z9 by (intros; ring). replace (vcross vzero p) with vzero by (destruct p; unfold vcross, vzero; cbn; f_equal; ring).
      cbn [rsum comp vzero vx vy vz]. ring.
  - pose proof (vnorm_pos w Hz) as Hn. pose proof (unit_axis w Hz) as He. set (e := vscale (/ vnorm w) w) in *.
    assert (Ew : w = vscale (vnorm w) e). { subst e. destruct w as [x y z]. unfold vscale at 1 2. cbn [vx vy vz]. f_equal; field; lra. }
    assert (HC : forall O, commutes w O -> commutes e O).
    { intros O H x. subst e. rewrite !vcross_scale, mv_scale, H. reflexivity. }
    exists (fun a b => vnorm w * L1 e a b). split; intros.
    + rewrite L1_off by assumption. ring.
    + rewrite (L1_anti e He a b) by assumption. ring.
    + pose proof (L1_comm e He O a b) as A. rewrite (rsum_ext 9 _ (fun c => vnorm w * (L1 e a c * Drep O c b))) by (intros; ring). rewrite (rsum_ext 9 (fun c => Drep O a c * _) (fun c => vnorm w * (Drep O a c * L1 e c b))) by (intros; ring).
      rewrite !rsum_scal. f_equal. apply A; try assumption. apply HC; assumption.
    + rewrite dht_tangent by (try assumption; destruct w, p; unfold vdot, vcross; cbn; ring).
      rewrite (rsum_ext 9 _ (fun c => vnorm w * (L1 e a c * ht (vscale (/ vnorm p) p) h c b))) by (intros; ring).
      rewrite (rsum_ext 9 (fun c => ht _ _ _ _ * _) (fun c => vnorm w * (ht (vscale (/ vnorm p) p) h a c * L1 e b c))) by (intros; ring).
      rewrite !rsum_scal, <- Rmult_plus_distr_l.
      rewrite <- (ht_turn e He (vscale (/ vnorm p) p) h a b (unit_axis p H) H0 H1). rewrite <- !rsum_scal. apply rsum_ext. intros q Hq.
      rewrite (der_linear _ _ _ (vx (vcross w p))), (der_linear _ _ _ (vx (vcross e _))) by assumption.
      pose proof (vnorm_pos p H). subst e. rewrite vcross_scale. unfold vcross, vscale. cbn [vx vy vz]. field. lra.
Qed.
