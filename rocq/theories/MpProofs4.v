(** Local expansions: change of centre, potential and field *)
From Coq Require Import Reals ZArith List Bool Arith Lia Lra Psatz.
From Coquelicot Require Import Coquelicot.
From Verif Require Import Vec GeomModel GeomProofs ScaModel MpModel MpSpec MpProofs MpProofs2 MpProofs3.
Import ListNotations.
Open Scope C_scope.

Lemma csum_rev n (f : nat -> C) : csum (S n) f = csum (S n) (fun i => f (n - i)%nat).
Proof.
  induction n as [|n IH]; [reflexivity|]. rewrite (csum_first (S n) (fun i => f (S n - i)%nat)). replace (S n - 0)%nat with (S n) by lia.
  change (csum (S (S n)) f) with (csum (S n) f + f (S n)). rewrite IH. rewrite Cplus_comm. f_equal.
Qed.
Lemma tri_sum n (B : nat -> nat -> C) : csum n (fun l => csum (n - l) (fun la => B l la)) = csum n (fun L => csum (S L) (fun la => B (L - la)%nat la)).
Proof.
  induction n as [|n IH]; [reflexivity|].
  change (csum (S n) (fun l => csum (S n - l) (fun la => B l la))) with (csum n (fun l => csum (S n - l) (fun la => B l la)) + csum (S n - n) (fun la => B n la)).
  change (csum (S n) (fun L => csum (S L) (fun la => B (L - la)%nat la))) with (csum n (fun L => csum (S L) (fun la => B (L - la)%nat la)) + csum (S n) (fun la => B (n - la)%nat la)).
  rewrite <- IH. replace (csum (S n - n) (fun la => B n la)) with (B n 0%nat) by (replace (S n - n)%nat with 1%nat by lia; cbn [csum]; ring).
  transitivity (csum n (fun l => csum (n - l) (fun la => B l la)) + (csum n (fun l => B l (n - l)%nat) + B n 0%nat)).
  - rewrite (csum_ext n _ (fun l => csum (n - l) (fun la => B l la) + B l (n - l)%nat)); [rewrite csum_plus; ring|]. intros l hl. replace (S n - l)%nat with (S (n - l)) by lia. reflexivity.
  - f_equal. pose proof (csum_rev n (fun l => B l (n - l)%nat)) as e. transitivity (csum (S n) (fun l => B l (n - l)%nat)); [cbn [csum]; rewrite Nat.sub_diag; reflexivity|]. rewrite e.
    apply csum_ext. intros i hi. replace (n - (n - i))%nat with i by lia. reflexivity.
Qed.
Lemma symm_at M : symm (at_m M).
Proof.
  intros l m. unfold at_m, sg. destruct (Z.lt_trichotomy m 0) as [h|[->|h]].
  - replace (- m <? 0)%Z with false by (symmetry; apply Z.ltb_ge; lia). replace (- m =? 0)%Z with false by (symmetry; apply Z.eqb_neq; lia). replace (m <? 0)%Z with true by (symmetry; apply Z.ltb_lt; lia).
    rewrite conj_mult, conj_R, conj_conj. replace (Z.abs_nat m) with (Z.to_nat (- m)) by lia. rewrite Cmult_assoc, <- RtoC_mult, sgn_sq. ring.
  - cbn. rewrite conj_R. unfold sgn. cbn. ring.
  - replace (- m <? 0)%Z with true by (symmetry; apply Z.ltb_lt; lia). replace (m =? 0)%Z with false by (symmetry; apply Z.eqb_neq; lia). replace (m <? 0)%Z with false by (symmetry; apply Z.ltb_ge; lia).
    replace (- - m)%Z with m by ring. replace (Z.abs_nat m) with (Z.to_nat m) by lia. reflexivity.
Qed.
Lemma re_scal a z : Re (RtoC a * z) = (a * Re z)%R. Proof. unfold Re, Cmult, RtoC. cbn [fst snd]. ring. Qed.
Lemma at_zero l m : at_m zero_moments l m = 0.
Proof. unfold at_m. cbn. destruct (m <? 0)%Z; [rewrite conj_R; ring|]. destruct (m =? 0)%Z; reflexivity. Qed.
Lemma holds_at M : holds M (at_m M).
Proof.
  split; intros; unfold at_m; [reflexivity|]. replace (Z.of_nat m <? 0)%Z with false by (symmetry; apply Z.ltb_ge; lia). replace (Z.of_nat m =? 0)%Z with false by (symmetry; apply Z.eqb_neq; lia). rewrite Nat2Z.id. reflexivity.
Qed.
(** the harmonics of -dr, computed with -cos(theta) and phi + pi *)
Lemma harm_minus dr : is_zero dr = false -> holds (let '(x, c, p) := to_spherical dr in solid_R x (- c) (PI + p)) (solid (vscale (-1) dr)).
Proof.
  intros h. pose proof (polar_xi dr h) as H. pose proof (rho_r dr) as Hr. unfold to_spherical in *. destruct H as [H1 [H2 H3]]. set (x := vnorm dr) in *. set (c := (vz dr / x)%R) in *. set (p := atan2 (vy dr) (vx dr)) in *.
  assert (G1 : RtoC (x * sqrt (1 - - c * - c)) * cis (PI + p) = - (RtoC 2 * xi (vscale (-1) dr))).
  { replace (1 - - c * - c)%R with (1 - c * c)%R by ring. rewrite cis_add. replace (cis PI) with (- RtoC 1) by (unfold cis; rewrite cos_PI, sin_PI; apply c_eq; cbn; ring).
    transitivity (- (RtoC (x * sqrt (1 - c * c)) * cis p)); [ring|]. rewrite H1. apply c_eq; cbn; field. }
  assert (G2 : (x * - c)%R = vz (vscale (-1) dr)) by (cbn; rewrite <- H2; ring).
  assert (G3 : RtoC (x * x) = RtoC (vz (vscale (-1) dr)) * RtoC (vz (vscale (-1) dr)) - RtoC 2 * RtoC 2 * xi (vscale (-1) dr) * eta (vscale (-1) dr)).
  { rewrite Hr. apply c_eq; cbn; field. }
  split; intros l; [|intros m hm]; unfold solid_R; cbn [ml0 mlm].
  - change 0%Z with (Z.of_nat 0). rewrite <- (tabR_ok _ _ _ _ _ G1 G2 G3 l 0) by lia. unfold tabR. cbn [INR]. rewrite Rmult_0_l. apply c_eq; cbn; rewrite ?cos_0, ?sin_0; ring.
  - rewrite <- (tabR_ok _ _ _ _ _ G1 G2 G3 l m) by lia. reflexivity.
Qed.
(** ** local_to_local *)
Definition lshift (n : nat) (f : nat -> Z -> C) (dr : v3) (l : nat) (m : Z) : C :=
  csum (S n - l) (fun la => zsum (- Z.of_nat la) (Z.of_nat la) (fun mu => f (l + la)%nat (m + mu)%Z * Cconj (solid (vscale (-1) dr) la mu))).
Lemma minus_zero : vscale (-1) vzero = vzero. Proof. apply v3_eq; cbn; ring. Qed.
Lemma lshift_zero n f l m : lshift n f vzero l m = if (l <=? n)%nat then f l m else 0.
Proof.
  unfold lshift. rewrite minus_zero. destruct (Nat.leb_spec l n) as [h|h].
  - replace (S n - l)%nat with (S (n - l)) by lia. rewrite csum_first. rewrite (zsum_single _ _ 0); [|lia|intros; lia]. rewrite solid_zero. cbn [Z.eqb]. rewrite conj_R. rewrite Nat.add_0_r, Z.add_0_r.
    rewrite (csum_zero (n - l)); [ring|]. intros i _. apply zsum_zero. intros mu _. rewrite solid_zero. cbn iota. rewrite conj_R. ring.
  - replace (S n - l)%nat with 0%nat by lia. reflexivity.
Qed.
Lemma l2l_gen dr n lout L L' : holds_to lout (l2l dr n lout L L') (fun l m => at_m L' l m + lshift n (at_m L) dr l m).
Proof.
  unfold l2l. destruct (is_zero dr) eqn:E.
  - apply is_zero_true in E. subst dr. destruct (holds_at L) as [a0 am]. destruct (holds_at L') as [b0 bm]. split; cbn [ml0 mlm]; intros; rewrite lshift_zero.
    + destruct (Nat.leb_spec l (Nat.min n lout)), (Nat.leb_spec l n); try lia; [rewrite RtoC_plus, a0, b0; reflexivity|rewrite b0; ring].
    + destruct (Nat.leb_spec l (Nat.min n lout)), (Nat.leb_spec l n); try lia; [rewrite am, bm by assumption; reflexivity|rewrite bm by assumption; ring].
  - assert (hH : forall la, holds_to la (let '(x, c, p) := to_spherical dr in solid_R x (- c) (PI + p)) (solid (vscale (-1) dr))) by (apply holds_to_all, harm_minus, E). destruct (to_spherical dr) as [[x c] p]. set (H := solid_R x (- c) (PI + p)) in *.
    pose proof (holds_at L) as hL. destruct (holds_at L') as [b0 bm]. pose proof (proj1 (holds_to_all _ _) hL) as hL'. split; cbn [ml0 mlm].
    + intros l hl. rewrite RtoC_plus, b0. f_equal. unfold lshift. rewrite csum_R. apply csum_ext. intros la hla. rewrite zsum_sym, RtoC_plus, csum_R. rewrite RtoC_mult, (proj1 hL), (proj1 (hH la)) by lia. f_equal.
      * change (0 + 0)%Z with 0%Z. f_equal. rewrite solid_conj. change (sg 0) with (RtoC 1). change (- 0)%Z with 0%Z. ring.
      * apply csum_ext. intros i hi. rewrite (proj2 hL), (proj2 (hH la)) by lia. rewrite !Z.add_0_l. rewrite (symm_at L), (symm_solid (vscale (-1) dr)), conj_mult, sg_conj, conj_conj.
        set (a := at_m L (l + la) (Z.of_nat (S i))). set (b := solid (vscale (-1) dr) la (Z.of_nat (S i))).
        transitivity (a * Cconj b + Cconj a * b); [apply c_eq; cbn; ring|]. transitivity (a * Cconj b + (sg (Z.of_nat (S i)) * sg (Z.of_nat (S i))) * (Cconj a * b)); [rewrite sg_sq; ring|ring].
    + intros l m hl hm. rewrite bm by exact hm. f_equal. unfold lshift. apply csum_ext. intros la hla. apply zsum_ext. intros mu hmu. f_equal. f_equal.
      apply (at_m_holds la _ _ la mu (hH la) (symm_solid _)); lia.
Qed.
Lemma lshift_value n f dr a : csum (S n) (fun l => zsum (- Z.of_nat l) (Z.of_nat l) (fun m => lshift n f dr l m * Cconj (solid a l m))) =
  csum (S n) (fun l => zsum (- Z.of_nat l) (Z.of_nat l) (fun m => f l m * Cconj (solid (vadd a (vscale (-1) dr)) l m))).
Proof.
  set (b := vscale (-1) dr).
  transitivity (csum (S n) (fun l => csum (S n - l) (fun la => zsum (- Z.of_nat (l + la)) (Z.of_nat (l + la)) (fun M => f (l + la)%nat M * zsum (- Z.of_nat la) (Z.of_nat la) (fun mu => Cconj (solid b la mu) * Cconj (solid a l (M - mu))))))).
  - apply csum_ext. intros l hl. unfold lshift. fold b.
    transitivity (zsum (- Z.of_nat l) (Z.of_nat l) (fun m => csum (S n - l) (fun la => zsum (- Z.of_nat la) (Z.of_nat la) (fun mu => f (l + la)%nat (m + mu)%Z * Cconj (solid b la mu) * Cconj (solid a l m))))).
    { apply zsum_ext. intros m _. rewrite <- csum_scal_r. apply csum_ext. intros la _. rewrite <- zsum_scal_r. reflexivity. }
    unfold zsum at 1. rewrite csum_swap. apply csum_ext. intros la hla. 
    change (zsum (- Z.of_nat l) (Z.of_nat l) (fun m => zsum (- Z.of_nat la) (Z.of_nat la) (fun mu => f (l + la)%nat (m + mu)%Z * Cconj (solid b la mu) * Cconj (solid a l m))) =
      zsum (- Z.of_nat (l + la)) (Z.of_nat (l + la)) (fun M => f (l + la)%nat M * zsum (- Z.of_nat la) (Z.of_nat la) (fun mu => Cconj (solid b la mu) * Cconj (solid a l (M - mu))))).
    rewrite zsum_swap.
    transitivity (zsum (- Z.of_nat la) (Z.of_nat la) (fun mu => zsum (- Z.of_nat (l + la)) (Z.of_nat (l + la)) (fun M => f (l + la)%nat M * (Cconj (solid b la mu) * Cconj (solid a l (M - mu)))))).
    + apply zsum_ext. intros mu hmu. rewrite (zsum_shift _ _ (- mu)). symmetry. rewrite (zsum_narrow _ _ (- Z.of_nat l - - mu) (Z.of_nat l - - mu)); [|lia|lia|].
      * apply zsum_ext. intros M _. replace (M + - mu + mu)%Z with M by ring. replace (M + - mu)%Z with (M - mu)%Z by ring. ring.
      * intros M h1 h2. rewrite (solid_out a) by lia. rewrite conj_R. ring.
    + rewrite zsum_swap. apply zsum_ext. intros M _. rewrite zsum_scal. reflexivity.
  - rewrite (tri_sum (S n) (fun l la => zsum (- Z.of_nat (l + la)) (Z.of_nat (l + la)) (fun M => f (l + la)%nat M * zsum (- Z.of_nat la) (Z.of_nat la) (fun mu => Cconj (solid b la mu) * Cconj (solid a l (M - mu)))))).
    apply csum_ext. intros l hl. transitivity (csum (S l) (fun la => zsum (- Z.of_nat l) (Z.of_nat l) (fun M => f l M * zsum (- Z.of_nat la) (Z.of_nat la) (fun mu => Cconj (solid b la mu) * Cconj (solid a (l - la) (M - mu)))))).
    { apply csum_ext. intros la hla. replace (l - la + la)%nat with l by lia. reflexivity. }
    unfold zsum at 1. rewrite csum_swap. apply csum_ext. intros i hi. cbv beta. rewrite csum_scal. f_equal. rewrite solid_add, csum_conj. apply csum_ext. intros la _. rewrite zsum_conj. apply zsum_ext. intros mu _. rewrite conj_mult. ring.
Qed.
Theorem l2l_exact n dr L L' s : local_value n (l2l dr n n L L') s = (local_value n L' s + local_value n L (vadd s dr))%R.
Proof.
  unfold local_value. match goal with |- _ = (Re ?a + Re ?b)%R => change (Re a + Re b)%R with (Re (a + b)) end. f_equal.
  transitivity (csum (S n) (fun l => zsum (- Z.of_nat l) (Z.of_nat l) (fun m => (at_m L' l m + lshift n (at_m L) dr l m) * Cconj (solid (vscale (-1) s) l m)))).
  - pose proof (l2l_gen dr n n L L') as h. apply csum_ext. intros l hl. apply zsum_ext. intros m hm. f_equal. apply (at_m_holds n _ _ l m h); [|lia|lia].
    clear. intros l m. rewrite conj_plus, (symm_at L' l m). rewrite Cmult_plus_distr_l. f_equal. unfold lshift. rewrite csum_conj, <- csum_scal. apply csum_ext. intros la _. rewrite zsum_conj, <- zsum_scal. rewrite zsum_rev. apply zsum_ext. intros mu _.
    replace (- m + - mu)%Z with (- (m + mu))%Z by ring. rewrite (symm_at L), (symm_solid _ la mu), !conj_mult, sg_conj, !conj_conj, sg_add.
    transitivity (sg mu * sg mu * (sg m * (Cconj (at_m L (l + la) (m + mu)) * solid (vscale (-1) dr) la mu))); [ring|]. rewrite sg_sq. ring.
  - transitivity (csum (S n) (fun l => zsum (- Z.of_nat l) (Z.of_nat l) (fun m => at_m L' l m * Cconj (solid (vscale (-1) s) l m)) + zsum (- Z.of_nat l) (Z.of_nat l) (fun m => lshift n (at_m L) dr l m * Cconj (solid (vscale (-1) s) l m)))).
    { apply csum_ext. intros l _. rewrite <- zsum_plus. apply zsum_ext. intros m _. ring. }
    rewrite csum_plus, lshift_value. replace (vscale (-1) (vadd s dr)) with (vadd (vscale (-1) s) (vscale (-1) dr)) by (apply v3_eq; cbn; ring). reflexivity.
Qed.
Theorem local_phi_exact L n dr : local_phi L n dr = local_value n L dr.
Proof.
  unfold local_phi, local_value. pose proof (proj1 (l2l_gen dr n 1 L zero_moments) 0%nat ltac:(lia)) as h. apply (f_equal fst) in h. cbn [fst RtoC] in h. rewrite h. unfold Re. f_equal.
  unfold lshift. cbn [Nat.add]. replace (S n - 0)%nat with (S n) by lia. cbn. rewrite Cplus_0_l. reflexivity.
Qed.
(** ** Homogeneity, and the field *)
Lemma ediv_scale t x n : ediv (RtoC t * x) n = RtoC (t ^ n) * ediv x n.
Proof. unfold ediv. replace (cpow (RtoC t * x) n) with (RtoC (t ^ n) * cpow x n); [field; apply fact_neq|]. induction n as [|n IH]; cbn [cpow pow]; [ring|]. rewrite <- IH, RtoC_mult. ring. Qed.
Lemma solid_scale t r l m : solid (vscale t r) l m = RtoC (t ^ l) * solid r l m.
Proof.
  unfold solid. rewrite <- csum_scal. apply csum_ext. intros p hp. rewrite <- csum_scal. apply csum_ext. intros q hq. destruct (_ && _)%bool eqn:E; [|ring]. apply andb_prop in E. destruct E as [_ E]. apply Nat.leb_le in E.
  replace (xi (vscale t r)) with (RtoC t * xi r) by (apply c_eq; cbn; field). replace (eta (vscale t r)) with (RtoC t * eta r) by (apply c_eq; cbn; field). replace (RtoC (vz (vscale t r))) with (RtoC t * RtoC (vz r)) by (rewrite <- RtoC_mult; reflexivity).
  rewrite !ediv_scale. replace l with (p + (q + (l - p - q)))%nat at 3 by lia. rewrite !pow_add, !RtoC_mult. ring.
Qed.
Lemma poly_derive n (c : nat -> R) : is_derive (fun t => rsum (S n) (fun l => t ^ l * c l)%R) 0 (match n with O => 0 | _ => c 1%nat end)%R.
Proof.
  induction n as [|n IH].
  - apply (is_derive_ext (fun _ => c 0%nat)); [intros t; cbn; ring|]. apply @is_derive_const.
  - apply (is_derive_ext (fun t => rsum (S n) (fun l => t ^ l * c l) + t ^ S n * c (S n))%R); [intros t; reflexivity|].
    evar_last; [apply @is_derive_plus; [exact IH|]|].
    + auto_derive; [exact I|reflexivity].
    + unfold plus; cbn -[INR pow]. destruct n as [|n]; [cbn; ring|]. replace (Nat.pred (S (S n))) with (S n) by reflexivity. rewrite pow_i by lia. ring.
Qed.
Theorem local_field_exact L n dr e : is_derive (fun t => local_value n L (vadd dr (vscale t e))) 0 (- vdot (local_field L n dr) e)%R.
Proof.
  set (K := l2l dr n n L zero_moments).
  set (c := fun l => Re (zsum (- Z.of_nat l) (Z.of_nat l) (fun m => at_m K l m * Cconj (solid (vscale (-1) e) l m)))).
  apply (is_derive_ext (fun t => rsum (S n) (fun l => t ^ l * c l)%R)).
  - intros t. replace (vadd dr (vscale t e)) with (vadd (vscale t e) dr) by (apply v3_eq; cbn; ring).
    transitivity (local_value n zero_moments (vscale t e) + local_value n L (vadd (vscale t e) dr))%R.
    + rewrite <- l2l_exact. fold K. unfold local_value. rewrite csum_re. apply rsum_ext. intros l hl. unfold c. replace (vscale (-1) (vscale t e)) with (vscale t (vscale (-1) e)) by (apply v3_eq; cbn; ring).
      transitivity (Re (RtoC (t ^ l) * zsum (- Z.of_nat l) (Z.of_nat l) (fun m => at_m K l m * Cconj (solid (vscale (-1) e) l m)))); [rewrite re_scal; reflexivity|]. f_equal. rewrite <- zsum_scal. apply zsum_ext. intros m _. rewrite (solid_scale t), conj_mult, conj_R. ring.
    + replace (local_value n zero_moments (vscale t e)) with 0%R; [apply Rplus_0_l|]. unfold local_value. rewrite csum_zero; [reflexivity|]. intros l _. apply zsum_zero. intros m _.
      rewrite at_zero. ring.
  - evar_last; [apply poly_derive|]. unfold local_field. set (K1 := l2l dr n 1 L zero_moments).
    assert (hK : forall m : nat, (m <= 1)%nat -> at_m K1 1 (Z.of_nat m) = lshift n (at_m L) dr 1 (Z.of_nat m)).
    { intros m hm. destruct (l2l_gen dr n 1 L zero_moments) as [g0 gm]. fold K1 in g0, gm. destruct (holds_at K1) as [a0 am]. destruct m as [|m].
      - change (Z.of_nat 0) with 0%Z. rewrite <- a0, g0 by lia. rewrite at_zero. ring.
      - rewrite <- am by lia. rewrite gm by lia. replace m with 0%nat by lia. rewrite at_zero. ring. }
    assert (h0 : RtoC (ml0 K1 1) = lshift n (at_m L) dr 1 0) by (rewrite (proj1 (holds_at K1)); apply (hK 0%nat); lia).
    assert (h1 : mlm K1 1 1 = lshift n (at_m L) dr 1 1) by (rewrite (proj2 (holds_at K1)) by lia; apply (hK 1%nat); lia).
    destruct n as [|n].
    + assert (z : forall m, lshift 0 (at_m L) dr 1 m = 0) by reflexivity. rewrite z in h0, h1. apply (f_equal fst) in h0. cbn [fst RtoC] in h0. cbn zeta. rewrite h0, h1. unfold vdot. cbn [vx vy vz]. unfold Re, Im, RtoC. cbn [fst snd]. ring.
    + assert (k0 : RtoC (ml0 K 1) = lshift (S n) (at_m L) dr 1 0). { pose proof (proj1 (l2l_gen dr (S n) (S n) L zero_moments) 1%nat ltac:(lia)) as g. fold K in g. rewrite g. rewrite at_zero, Cplus_0_l. reflexivity. }
      assert (k1 : mlm K 1 1 = lshift (S n) (at_m L) dr 1 1). { pose proof (proj2 (l2l_gen dr (S n) (S n) L zero_moments) 1%nat 1%nat ltac:(lia) ltac:(lia)) as g. fold K in g. rewrite g. rewrite at_zero, Cplus_0_l. reflexivity. }
      unfold c. rewrite <- h0 in k0. rewrite <- h1 in k1. apply (f_equal fst) in k0. cbn [fst RtoC] in k0.
      rewrite zsum_sym. cbn [csum]. rewrite (symm_at K 1%nat (Z.of_nat 1)), (symm_solid (vscale (-1) e) 1%nat (Z.of_nat 1)). change (Z.of_nat 1) with 1%Z.
      replace (at_m K 1 0) with (RtoC (ml0 K1 1)) by (rewrite <- k0; reflexivity). replace (at_m K 1 1) with (mlm K1 1 1) by (rewrite <- k1; reflexivity).
      assert (s0 : solid (vscale (-1) e) 1 0 = RtoC (- vz e)).
      { unfold solid. cbn. unfold ediv. cbn. apply c_eq; cbn; field. }
      assert (s1 : solid (vscale (-1) e) 1 1 = (vx e / 2, vy e / 2)%R).
      { unfold solid. cbn. unfold ediv. cbn. apply c_eq; cbn; field. }
      rewrite s0, s1. change (sg 1) with (RtoC (-1 * 1)). destruct (mlm K1 1 1) as [a b]. unfold vdot. cbn. field.
Qed.
