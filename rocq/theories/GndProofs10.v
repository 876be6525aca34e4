From Coq Require Import Reals List Bool Arith Lia Lra FunctionalExtensionality.
From Coquelicot Require Import Coquelicot.
From Verif Require Import Vec GamSpec NetProofs.
Open Scope R_scope.

(** ** limits at infinity *)
Definition tends (f : R -> R) (L : R) : Prop := forall eps, 0 < eps -> exists U, 0 <= U /\ forall u, U <= u -> Rabs (f u - L) < eps.
Lemma tends_const c : tends (fun _ => c) c.
Proof. intros e He. exists 0. split; [lra|]. intros u _. rewrite Rminus_diag_eq, Rabs_R0 by reflexivity. exact He. Qed.
Lemma tends_ext f g L : (forall u, 0 <= u -> f u = g u) -> tends f L -> tends g L.
Proof. intros E T e He. destruct (T e He) as (U & HU & H). exists U. split; [exact HU|]. intros u Hu. rewrite <- E by lra. apply H. exact Hu. Qed.
Lemma tends_plus f g L M : tends f L -> tends g M -> tends (fun u => f u + g u) (L + M).
Proof.
  intros F G e He. destruct (F (e / 2)) as (U & HU & A); [lra|]. destruct (G (e / 2)) as (V & HV & B); [lra|]. exists (Rmax U V). split; [pose proof (Rmax_l U V); lra|].
  intros u Hu. specialize (A u). specialize (B u). pose proof (Rmax_l U V). pose proof (Rmax_r U V). replace (f u + g u - (L + M)) with ((f u - L) + (g u - M)) by ring.
  eapply Rle_lt_trans; [apply Rabs_triang|]. assert (Rabs (f u - L) < e / 2) by (apply A; lra). assert (Rabs (g u - M) < e / 2) by (apply B; lra). lra.
Qed.
Lemma tends_scal c f L : tends f L -> tends (fun u => c * f u) (c * L).
Proof.
  intros F e He. destruct (F (e / (Rabs c + 1))) as (U & HU & A); [apply Rdiv_lt_0_compat; [lra|pose proof (Rabs_pos c); lra]|]. exists U. split; [exact HU|]. intros u Hu. specialize (A u Hu).
  replace (c * f u - c * L) with (c * (f u - L)) by ring. rewrite Rabs_mult. pose proof (Rabs_pos c) as Hc. pose proof (Rabs_pos (f u - L)) as Hf.
  assert (P : (Rabs c + 1) * Rabs (f u - L) < e). { apply Rmult_lt_compat_l with (r := Rabs c + 1) in A; [|lra]. replace ((Rabs c + 1) * (e / (Rabs c + 1))) with e in A by (field; lra). exact A. }
  nra.
Qed.
Lemma tends_rsum n (f : nat -> R -> R) L : (forall i, (i < n)%nat -> tends (f i) (L i)) -> tends (fun u => rsum n (fun i => f i u)) (rsum n L).
Proof.
  induction n as [|n IH]; intros H; [exact (tends_const 0)|]. cbn [rsum]. apply (tends_plus (fun u => rsum n (fun i => f i u)) (f n)); [apply IH; intros i Hi; apply H; lia|apply H; lia].
Qed.
Lemma tends_nonneg f L : (forall u, 0 <= u -> 0 <= f u) -> tends f L -> 0 <= L.
Proof.
  intros H T. destruct (Rle_lt_dec 0 L) as [|N]; [assumption|exfalso]. destruct (T (- L)) as (U & HU & A); [lra|]. specialize (A U (Rle_refl U)). specialize (H U HU). rewrite Rabs_right in A by lra. lra.
Qed.
Lemma tends_affine f L a b : 0 < a -> tends f L -> tends (fun u => f (a * u + b)) L.
Proof.
  intros Ha T e He. destruct (T e He) as (U & HU & A). exists (Rmax 0 ((U - b) / a)). split; [apply Rmax_l|]. intros u Hu. apply A.
  assert ((U - b) / a <= u) by (pose proof (Rmax_r 0 ((U - b) / a)); lra). assert (E : a * ((U - b) / a) = U - b) by (field; lra). assert (a * ((U - b) / a) <= a * u) by (apply Rmult_le_compat_l; lra). lra.
Qed.
Lemma tends_comp f g L : tends g L -> continuity_pt f L -> tends (fun u => f (g u)) (f L).
Proof.
  intros G C e He. destruct (C e He) as (d & Hd & H). destruct (G d Hd) as (U & HU & A). exists U. split; [exact HU|]. intros u Hu. specialize (A u Hu).
  destruct (Req_dec L (g u)) as [<-|Ne]; [rewrite Rminus_diag_eq, Rabs_R0 by reflexivity; exact He|]. apply (H (g u)). split; [split; [exact I|exact Ne]|exact A].
Qed.
Lemma grows f f' a b : a <= b -> (forall x, a <= x <= b -> derivable_pt_lim f x (f' x)) -> (forall x, 0 <= f' x) -> f a <= f b.
Proof.
  intros [H| ->] D P; [|lra]. destruct (MVT_cor2 f f' a b H D) as [c [E _]]. specialize (P c). nra.
Qed.
(** ** the integral of exp(-u^2) *)
Section Erfc.
Context (erfc : R -> R) (He : is_erfc erfc).
Definition prim (u : R) : R := - (sqrt PI / 2) * erfc u.
Lemma root_pi : 0 < sqrt PI.
Proof. apply sqrt_lt_R0. apply PI_RGT_0. Qed.
Lemma prim_D u : derivable_pt_lim prim u (exp (- u ^ 2)).
Proof.
  destruct He as [_ D]. unfold prim. replace (exp (- u ^ 2)) with (- (sqrt PI / 2) * (- (2 / sqrt PI) * exp (- u ^ 2))) by (pose proof root_pi; field; lra).
  exact (derivable_pt_lim_scal erfc (- (sqrt PI / 2)) u _ (D u)).
Qed.
Lemma prim_le a b : a <= b -> prim a <= prim b.
Proof. intros H. apply (grows prim (fun u => exp (- u ^ 2))); [exact H|intros; apply prim_D|intros; left; apply exp_pos]. Qed.
Lemma prim_bound u : 0 <= u -> prim u <= prim 0 + exp (/ 4).
Proof.
  intros Hu. pose proof (grows (fun t => - exp (/ 4 - t) - prim t) (fun t => exp (/ 4 - t) - exp (- t ^ 2)) 0 u Hu) as G.
  assert (K : - exp (/ 4 - 0) - prim 0 <= - exp (/ 4 - u) - prim u).
  { apply G.
    - intros x _. apply derivable_pt_lim_minus; [|apply prim_D]. apply is_derive_Reals. auto_derive; [exact I|unfold Rminus; ring].
    - intros x. assert (exp (- x ^ 2) <= exp (/ 4 - x)); [|lra]. destruct (Req_dec (- x ^ 2) (/ 4 - x)) as [->|]; [lra|]. left. apply exp_increasing. assert (0 <= (x - / 2) ^ 2) by apply pow2_ge_0. lra. }
  rewrite Rminus_0_r in K. pose proof (exp_pos (/ 4 - u)). lra.
Qed.

(** a monotonic bounded function has a limit *)
Lemma bounded_limit f B : (forall a b, a <= b -> f a <= f b) -> (forall u, 0 <= u -> f u <= B) -> exists L, tends f L /\ f 0 <= L.
Proof.
  intros Hm Hb. destruct (completeness (fun y => exists u, 0 <= u /\ y = f u)) as (L & HL1 & HL2).
  - exists B. intros y (u & Hu & ->). apply Hb. exact Hu.
  - exists (f 0), 0. split; [lra|reflexivity].
  - exists L. split; [|apply HL1; exists 0; split; [lra|reflexivity]]. intros e Hpos.
    destruct (Classical_Prop.classic (exists u, 0 <= u /\ L - e < f u)) as [(u & Hu & H)|N].
    + exists u. split; [exact Hu|]. intros v Hv. pose proof (Hm u v Hv). assert (f v <= L) by (apply HL1; exists v; split; [lra|reflexivity]). apply Rabs_def1; lra.
    + exfalso. assert (L <= L - e); [|lra]. apply HL2. intros y (u & Hu & ->). apply Rnot_lt_le. intros C. apply N. exists u. split; assumption.
Qed.
Lemma prim_odd u : prim u + prim (- u) = 2 * prim 0.
Proof.
  assert (D : forall x, derivable_pt_lim (fun t => prim t + prim (- t)) x (exp (- x ^ 2) + exp (- (- x) ^ 2) * (- 1))).
  { intros x. apply (derivable_pt_lim_plus prim (fun t => prim (- t))); [apply prim_D|]. apply (derivable_pt_lim_comp (fun t => - t) prim x (-1)); [|apply prim_D]. apply is_derive_Reals. auto_derive; [exact I|ring]. }
  assert (Z : forall x, exp (- x ^ 2) + exp (- (- x) ^ 2) * (- 1) = 0) by (intros x; replace ((- x) ^ 2) with (x ^ 2) by ring; ring).
  assert (K : forall a b, a <= b -> prim a + prim (- a) = prim b + prim (- b)).
  { intros a b H. apply Rle_antisym.
    - apply (grows (fun t => prim t + prim (- t)) (fun _ => 0) a b H); [intros x _; rewrite <- (Z x); apply D|intros; lra].
    - pose proof (grows (fun t => - (prim t + prim (- t))) (fun _ => 0) a b H) as G. apply Ropp_le_cancel. apply G; [|intros; lra]. intros x _. replace 0 with (- 0) by ring. apply (derivable_pt_lim_opp (fun t => prim t + prim (- t))). rewrite <- (Z x). apply D. }
  destruct (Rle_dec 0 u) as [H|H]; [rewrite <- (K 0 u H)|rewrite (K u 0) by lra]; rewrite Ropp_0; ring.
Qed.
Lemma prim_limits : exists Lp Lm, tends prim Lp /\ tends (fun u => prim (- u)) Lm /\ Lm < Lp.
Proof.
  destruct (bounded_limit prim (prim 0 + exp (/ 4)) prim_le prim_bound) as (L & T & _). exists L, (2 * prim 0 - L). split; [exact T|]. split.
  - apply (tends_ext (fun u => 2 * prim 0 + -1 * prim u)); [intros u _; pose proof (prim_odd u); lra|]. replace (2 * prim 0 - L) with (2 * prim 0 + -1 * L) by ring. apply (tends_plus (fun _ => 2 * prim 0)); [apply tends_const|apply tends_scal; exact T].
  - assert (P1 : prim 0 < prim 1). { destruct (MVT_cor2 prim (fun u => exp (- u ^ 2)) 0 1 ltac:(lra)) as (c & E & _); [intros; apply prim_D|]. pose proof (exp_pos (- c ^ 2)). nra. }
    assert (prim 1 <= L); [|lra]. destruct (Rle_lt_dec (prim 1) L) as [|N]; [assumption|exfalso]. destruct (T (prim 1 - L)) as (U & HU & A); [lra|]. specialize (A (Rmax U 1) (Rmax_l U 1)). pose proof (prim_le 1 (Rmax U 1) (Rmax_r U 1)). apply Rabs_def2 in A. lra.
Qed.
(** ** products of Gaussians *)
Definition psd (n : nat) (k : nat -> nat -> R) : Prop := forall q, 0 <= rsum n (fun i => rsum n (fun j => q i * k i j * q j)).
Definition mean (b c x y : R) : R := (c * x + b * y) / (b + c).
Lemma product b c x y z : 0 < b -> 0 < c -> - (z - x) ^ 2 / b + - (z - y) ^ 2 / c = - (x - y) ^ 2 / (b + c) + - (sqrt (/ b + / c) * (z - mean b c x y)) ^ 2.
Proof.
  intros Hb Hc. assert (P : 0 < / b + / c) by (pose proof (Rinv_0_lt_compat b Hb); pose proof (Rinv_0_lt_compat c Hc); lra).
  rewrite Rpow_mult_distr. replace (sqrt (/ b + / c) ^ 2) with (/ b + / c) by (rewrite <- (sqrt_sqrt (/ b + / c)) at 1 by lra; ring). unfold mean. field. lra.
Qed.
(** multiplying by a Gaussian of the distance keeps a matrix positive *)
Lemma psd_gauss n k (b x : nat -> R) : (forall i, (i < n)%nat -> 0 < b i) -> psd n k -> psd n (fun i j => k i j * (/ sqrt (/ b i + / b j) * exp (- (x i - x j) ^ 2 / (b i + b j)))).
Proof.
  intros Hb Hk q. destruct prim_limits as (Lp & Lm & Tp & Tm & HL).
  set (al := fun i j => sqrt (/ b i + / b j)). set (w := fun i j => k i j * (/ al i j * exp (- (x i - x j) ^ 2 / (b i + b j)))).
  assert (Hal : forall i j, (i < n)%nat -> (j < n)%nat -> 0 < al i j). { intros i j Hi Hj. apply sqrt_lt_R0. pose proof (Rinv_0_lt_compat _ (Hb i Hi)). pose proof (Rinv_0_lt_compat _ (Hb j Hj)). lra. }
  set (A := fun z => rsum n (fun i => rsum n (fun j => q i * w i j * q j * prim (al i j * (z - mean (b i) (b j) (x i) (x j)))))).
  set (g := fun i z => exp (- (z - x i) ^ 2 / b i)).
  assert (DA : forall z, derivable_pt_lim A z (rsum n (fun i => rsum n (fun j => (q i * g i z) * k i j * (q j * g j z))))).
  { intros z. unfold A. apply (lim_rsum n (fun i z => rsum n (fun j => q i * w i j * q j * prim (al i j * (z - mean (b i) (b j) (x i) (x j)))))). intros i Hi.
    apply (lim_rsum n (fun j z => q i * w i j * q j * prim (al i j * (z - mean (b i) (b j) (x i) (x j))))). intros j Hj.
    replace (q i * g i z * k i j * (q j * g j z)) with (q i * w i j * q j * (exp (- (al i j * (z - mean (b i) (b j) (x i) (x j))) ^ 2) * al i j)).
    - apply (derivable_pt_lim_scal (fun z => prim (al i j * (z - mean (b i) (b j) (x i) (x j))))).
      apply (derivable_pt_lim_comp (fun z => al i j * (z - mean (b i) (b j) (x i) (x j))) prim z (al i j)); [|apply prim_D]. apply is_derive_Reals. auto_derive; [exact I|ring].
    - unfold w, g. pose proof (Hal i j Hi Hj). replace (q i * exp (- (z - x i) ^ 2 / b i) * k i j * (q j * exp (- (z - x j) ^ 2 / b j))) with (q i * k i j * q j * (exp (- (z - x i) ^ 2 / b i) * exp (- (z - x j) ^ 2 / b j))) by ring.
      rewrite <- exp_plus, (product (b i) (b j) (x i) (x j) z (Hb i Hi) (Hb j Hj)), exp_plus. fold (al i j). field. lra. }
  assert (P : forall u, 0 <= u -> 0 <= A u + -1 * A (- u)).
  { intros u Hu. assert (A (- u) <= A u); [|lra]. apply (grows A (fun z => rsum n (fun i => rsum n (fun j => (q i * g i z) * k i j * (q j * g j z)))) (- u) u); [lra|intros; apply DA|]. intros z. apply (Hk (fun i => q i * g i z)). }
  set (S := rsum n (fun i => rsum n (fun j => q i * w i j * q j))).
  assert (T1 : tends A (rsum n (fun i => rsum n (fun j => q i * w i j * q j * Lp)))).
  { unfold A. apply (tends_rsum n (fun i z => rsum n (fun j => q i * w i j * q j * prim (al i j * (z - mean (b i) (b j) (x i) (x j)))))). intros i Hi. apply (tends_rsum n (fun j z => q i * w i j * q j * prim (al i j * (z - mean (b i) (b j) (x i) (x j))))). intros j Hj.
    apply tends_scal. apply (tends_ext (fun z => prim (al i j * z + - (al i j * mean (b i) (b j) (x i) (x j))))); [intros; f_equal; ring|]. apply tends_affine; [apply Hal; assumption|exact Tp]. }
  assert (T2 : tends (fun u => A (- u)) (rsum n (fun i => rsum n (fun j => q i * w i j * q j * Lm)))).
  { unfold A. apply (tends_rsum n (fun i z => rsum n (fun j => q i * w i j * q j * prim (al i j * (- z - mean (b i) (b j) (x i) (x j)))))). intros i Hi. apply (tends_rsum n (fun j z => q i * w i j * q j * prim (al i j * (- z - mean (b i) (b j) (x i) (x j))))). intros j Hj.
    apply (tends_scal _ (fun z => prim (al i j * (- z - mean (b i) (b j) (x i) (x j))))). apply (tends_ext (fun z => prim (- (al i j * z + al i j * mean (b i) (b j) (x i) (x j))))); [intros; f_equal; ring|]. apply (tends_affine (fun z => prim (- z))); [apply Hal; assumption|exact Tm]. }
  assert (E : forall L, rsum n (fun i => rsum n (fun j => q i * w i j * q j * L)) = L * S).
  { intros L. unfold S. rewrite <- rsum_scal. apply rsum_ext. intros i _. rewrite <- rsum_scal. apply rsum_ext. intros; ring. }
  rewrite E in T1, T2. pose proof (tends_nonneg _ _ P (tends_plus A (fun u => -1 * A (- u)) _ _ T1 (tends_scal (-1) _ _ T2))) as F.
  assert (0 <= S) by nra. exact H.
Qed.
End Erfc.
