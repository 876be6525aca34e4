From Coq Require Import Reals List Bool Arith Lia Lra.
From Verif Require Import Vec GeomModel GeomSpec GeomProofs PairModel PairSpec PairProofs SkModel SkSpec SkProofs SkProofs2 SkProofs3 SkProofs4 SkProofs5.
Import ListNotations.
Open Scope R_scope.

(** ** Derivatives of polynomials *)
Lemma D_const (c x : R) : derivable_pt_lim (fun _ => c) x 0.
Proof. apply derivable_pt_lim_const. Qed.
Lemma D_plus f g x f' g' : derivable_pt_lim f x f' -> derivable_pt_lim g x g' -> derivable_pt_lim (fun t => f t + g t) x (f' + g').
Proof. apply derivable_pt_lim_plus. Qed.
Lemma D_minus f g x f' g' : derivable_pt_lim f x f' -> derivable_pt_lim g x g' -> derivable_pt_lim (fun t => f t - g t) x (f' - g').
Proof. apply derivable_pt_lim_minus. Qed.
Lemma D_mult f g x f' g' : derivable_pt_lim f x f' -> derivable_pt_lim g x g' -> derivable_pt_lim (fun t => f t * g t) x (f' * g x + f x * g').
Proof. apply derivable_pt_lim_mult. Qed.
Lemma D_opp f x f' : derivable_pt_lim f x f' -> derivable_pt_lim (fun t => - f t) x (- f').
Proof. apply derivable_pt_lim_opp. Qed.
Lemma D_sq f x f' : derivable_pt_lim f x f' -> derivable_pt_lim (fun t => f t ^ 2) x (2 * f x * f').
Proof.
  intros H. replace (2 * f x * f') with (f' * f x + f x * f') by ring.
  apply derivable_local with (g := fun t => f t * f t) (e := 1); [lra|intros; ring|]. apply D_mult; exact H.
Qed.
Lemma D_eq f x a b : derivable_pt_lim f x a -> a = b -> derivable_pt_lim f x b.
Proof. intros H <-. exact H. Qed.

Lemma mat_upper_der (l m n : R -> R) x l' m' n' a b k :
  derivable_pt_lim l x l' -> derivable_pt_lim m x m' -> derivable_pt_lim n x n' ->
  (a <= b < 9)%nat -> (k < cnt a b)%nat ->
  derivable_pt_lim (fun t => nth k (mat_upper (l t) (m t) (n t) a b) 0) x (nth k (der_upper (l x) (m x) (n x) l' m' n' a b) 0).
Proof.
  intros Dl Dm Dn [Hab Hb] Hk. assert (Ha : (a < 9)%nat) by lia.
  nine a; nine b; try (exfalso; lia); cbn [cnt Nat.leb andb] in Hk; destruct k as [|[|[|k]]]; try (exfalso; lia);
    cbn [mat_upper der_upper nth];
    (eapply D_eq; [repeat first [apply D_const|exact Dl|exact Dm|exact Dn|eapply D_sq|eapply D_mult|eapply D_plus|eapply D_minus|eapply D_opp]|]); cbn beta; field.
Qed.
Lemma mat_der (l m n : R -> R) x l' m' n' a b k :
  derivable_pt_lim l x l' -> derivable_pt_lim m x m' -> derivable_pt_lim n x n' ->
  (a < 9)%nat -> (b < 9)%nat -> (k < cnt a b)%nat ->
  derivable_pt_lim (fun t => nth k (mat (l t) (m t) (n t) a b) 0) x (nth k (der (l x) (m x) (n x) l' m' n' a b) 0).
Proof.
  intros Dl Dm Dn Ha Hb Hk. unfold mat, der. destruct (a <=? b)%nat eqn:E.
  - apply mat_upper_der; try assumption. apply Nat.leb_le in E. lia.
  - apply mat_upper_der; try assumption; [apply Nat.leb_gt in E; lia|].
    unfold cnt in *. rewrite (andb_comm (4 <=? b)%nat), (andb_comm (1 <=? b)%nat). exact Hk.
Qed.
Lemma der_upper_linear l m n l1 m1 n1 a b k : (a <= b < 9)%nat -> (k < cnt a b)%nat ->
  nth k (der_upper l m n l1 m1 n1 a b) 0 =
  l1 * nth k (der_upper l m n 1 0 0 a b) 0 + m1 * nth k (der_upper l m n 0 1 0 a b) 0 + n1 * nth k (der_upper l m n 0 0 1 a b) 0.
Proof.
  intros [Hab Hb] Hk. assert (Ha : (a < 9)%nat) by lia.
  nine a; nine b; try (exfalso; lia); cbn [cnt Nat.leb andb] in Hk; destruct k as [|[|[|k]]]; try (exfalso; lia);
    cbn [der_upper nth]; ring.
Qed.
Lemma der_linear l m n l1 m1 n1 a b k : (a < 9)%nat -> (b < 9)%nat -> (k < cnt a b)%nat ->
  nth k (der l m n l1 m1 n1 a b) 0 =
  l1 * nth k (der l m n 1 0 0 a b) 0 + m1 * nth k (der l m n 0 1 0 a b) 0 + n1 * nth k (der l m n 0 0 1 a b) 0.
Proof.
  intros Ha Hb Hk. unfold der. destruct (a <=? b)%nat eqn:E.
  - apply der_upper_linear; try assumption. apply Nat.leb_le in E. lia.
  - apply der_upper_linear; [apply Nat.leb_gt in E; lia|].
    unfold cnt in *. rewrite (andb_comm (4 <=? b)%nat), (andb_comm (1 <=? b)%nat). exact Hk.
Qed.

(** ** The unit vector and the distance *)
Lemma D_div f g x f' g' : g x <> 0 -> derivable_pt_lim f x f' -> derivable_pt_lim g x g' ->
  derivable_pt_lim (fun t => / g t * f t) x ((f' - f x / g x * g') / g x).
Proof.
  intros Hg Df Dg. pose proof (derivable_pt_lim_div f g x f' g' Df Dg Hg) as D.
  apply derivable_local with (g := (f / g)%F) (e := 1); [lra|intros; unfold div_fct, Rdiv; ring|].
  eapply D_eq; [exact D|]. unfold Rsqr. field. exact Hg.
Qed.
Lemma D_lin a b x : derivable_pt_lim (fun t => a + t * b) x b.
Proof.
  eapply D_eq; [apply (D_plus (fun _ => a) (fun t => t * b)); [apply D_const|apply (D_mult (fun t => t) (fun _ => b)); [apply derivable_pt_lim_id|apply D_const]]|]. ring.
Qed.

Lemma unit_derivative p u k : p <> vzero ->
  derivable_pt_lim (fun t => comp k (vscale (/ vnorm (vadd p (vscale t u))) (vadd p (vscale t u)))) 0
    ((comp k u - comp k (vscale (/ vnorm p) p) * vdot (vscale (/ vnorm p) p) u) / vnorm p).
Proof.
  intros Hp. pose proof (vnorm_pos p Hp) as Hn. pose proof (norm_derivative p u Hn) as Dn.
  assert (E0 : vnorm (vadd p (vscale 0 u)) = vnorm p).
  { f_equal. destruct p as [x y z], u as [u1 u2 u3]. unfold vadd, vscale. cbn. f_equal; ring. }
  assert (G : derivable_pt_lim (fun t => / vnorm (vadd p (vscale t u)) * (comp k p + t * comp k u)) 0
     ((comp k u - (comp k p + 0 * comp k u) / vnorm (vadd p (vscale 0 u)) * (vdot p u / vnorm p)) / vnorm (vadd p (vscale 0 u)))).
  { apply D_div; [rewrite E0; lra|apply D_lin|exact Dn]. }
  rewrite E0 in G. eapply D_eq; [match type of G with derivable_pt_lim ?gg _ _ => apply derivable_local with (g := gg) (e := 1); [lra| |exact G] end|].
  - intros y _. destruct k as [|[|k]]; unfold comp; unfold vadd, vscale; cbn [vx vy vz]; reflexivity.
  - assert (V : vdot (vscale (/ vnorm p) p) u = vdot p u / vnorm p) by (unfold vdot, vscale; cbn [vx vy vz]; field; lra).
    rewrite V. replace (comp k (vscale (/ vnorm p) p)) with (comp k p / vnorm p) by (destruct k as [|[|k]]; unfold comp, vscale; cbn [vx vy vz]; field; lra).
    field. lra.
Qed.

(** ** The block of a bond *)
Lemma unit_vec p : p <> vzero -> vdot (vscale (/ vnorm p) p) (vscale (/ vnorm p) p) = 1.
Proof. apply unit_axis. Qed.

Lemma sk_derivative T T' p u a b : p <> vzero ->
  (forall c, (c < 14)%nat -> derivable_pt_lim (T c) (vnorm p) (T' c)) -> (a < 9)%nat -> (b < 9)%nat ->
  derivable_pt_lim (fun t => bond T (vadd p (vscale t u)) a b) 0
    (rsum 3 (fun k => comp k u * dht (vscale (/ vnorm p) p) (vnorm p) (fun c => T c (vnorm p)) (fun c k => T' c * comp k (vscale (/ vnorm p) p)) a b k)).
Proof.
  intros Hp HT Ha Hb. pose proof (vnorm_pos p Hp) as Hn.
  assert (E0 : vadd p (vscale 0 u) = p) by (destruct p as [x y z], u as [u1 u2 u3]; unfold vadd, vscale; cbn; f_equal; ring).
  set (w := vscale (/ vnorm p) p) in *.
  pose proof (unit_derivative p u 0 Hp) as Dl. pose proof (unit_derivative p u 1 Hp) as Dm. pose proof (unit_derivative p u 2 Hp) as Dn.
  fold w in Dl, Dm, Dn. unfold comp in Dl, Dm, Dn.
  pose proof (norm_derivative p u Hn) as Dd.
  unfold bond, ht. eapply D_eq.
  - apply derivable_rsum with (l := fun q =>
      nth q (der (vx w) (vy w) (vz w) ((vx u - vx w * vdot w u) / vnorm p) ((vy u - vy w * vdot w u) / vnorm p) ((vz u - vz w * vdot w u) / vnorm p) a b) 0 * T (nth q (ind a b) 0%nat) (vnorm p) +
      nth q (mat (vx w) (vy w) (vz w) a b) 0 * (T' (nth q (ind a b) 0%nat) * vdot w u)).
    intros q Hq.
    assert (Hi : (nth q (ind a b) 0 < 14)%nat).
    { clear - Ha Hb Hq. nine a; nine b; cbn [cnt Nat.leb andb] in Hq; destruct q as [|[|[|q]]]; try (exfalso; lia); cbn; lia. }
    eapply D_eq.
    + apply D_mult.
      * apply (mat_der (fun t => vx (vscale (/ vnorm (vadd p (vscale t u))) (vadd p (vscale t u)))) (fun t => vy (vscale (/ vnorm (vadd p (vscale t u))) (vadd p (vscale t u))))
          (fun t => vz (vscale (/ vnorm (vadd p (vscale t u))) (vadd p (vscale t u)))) 0 _ _ _ a b q Dl Dm Dn Ha Hb Hq).
      * apply (derivable_pt_lim_comp (fun t => vnorm (vadd p (vscale t u))) (T (nth q (ind a b) 0%nat))); [exact Dd|]. rewrite E0. apply HT. exact Hi.
    + cbn beta. rewrite E0. fold w. assert (V : vdot p u / vnorm p = vdot w u) by (subst w; unfold vdot, vscale; cbn [vx vy vz]; field; lra).
      rewrite V. reflexivity.
  - cbn [rsum]. unfold dht. rewrite Rplus_0_l, <- !rsum_scal, <- !rsum_plus. apply rsum_ext. intros q Hq.
    rewrite !(der_linear _ _ _ (_ / _)), !(der_linear _ _ _ (dl _ _ _)) by assumption.
    unfold dl, dm, dn. cbn [comp vx vy vz]. fold w.
    generalize (nth q (der (vx w) (vy w) (vz w) 1 0 0 a b) 0) (nth q (der (vx w) (vy w) (vz w) 0 1 0 a b) 0) (nth q (der (vx w) (vy w) (vz w) 0 0 1 a b) 0)
      (nth q (mat (vx w) (vy w) (vz w) a b) 0) (T (nth q (ind a b) 0%nat) (vnorm p)) (T' (nth q (ind a b) 0%nat)).
    intros d1 d2 d3 mm hh h'. unfold vdot. field. lra.
Qed.
