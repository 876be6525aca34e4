(** The potential of MultipoleExpansion for translations *)
From Coq Require Import Reals ZArith List Bool Arith Lia Lra Psatz.
From Coquelicot Require Import Coquelicot.
From Verif Require Import Vec GeomModel GeomSpec GeomProofs ScaModel MpModel MpSpec MpProofs MpProofs2 MpProofs3 MpProofs4 MpProofs5 MpProofs6 MpProofs7 MpProofs8 MpProofs9.
Import ListNotations.
Open Scope R_scope.

Lemma potential_app a b x : potential (a ++ b) x = potential a x + potential b x.
Proof. unfold potential. induction a as [|p a IH]; cbn [app fold_right]; [ring|]. rewrite IH. ring. Qed.
Lemma abs_app a b : absolute_charge (a ++ b) = absolute_charge a + absolute_charge b.
Proof. unfold absolute_charge. induction a as [|p a IH]; cbn [app fold_right]; [ring|]. rewrite IH. ring. Qed.
Lemma abs_images f cs qs : absolute_charge (images f cs qs) = INR (length cs) * absolute_charge qs.
Proof.
  unfold images. induction cs as [|x cs IH]; [cbn; ring|]. cbn [flat_map length]. rewrite abs_app, IH, S_INR. assert (e : absolute_charge (map (fun p => (f x (fst p), snd p)) qs) = absolute_charge qs). { clear. unfold absolute_charge. induction qs as [|p qs IH]; [reflexivity|]. cbn [map fold_right snd]. rewrite IH. reflexivity. } rewrite e. ring.
Qed.
Section Bravais.
Variable a : atoms.
Notation f := (fun (n : Z * Z * Z) r => transform Bravais a r n).
Lemma f_diff x r r0 : vsub (f x r) (f x r0) = vsub r r0.
Proof. unfold transform. apply v3_eq; cbn; ring. Qed.
Lemma images_flat (l cs : list (Z * Z * Z)) qs : images f l (images f cs qs) = images f (flat_map (fun x => map (zadd3 x) cs) l) qs.
Proof.
  unfold images. induction l as [|x l IH]; [reflexivity|]. cbn [flat_map]. rewrite IH, flat_map_app. f_equal. clear. induction cs as [|y c IH]; [reflexivity|]. cbn [flat_map map]. rewrite map_app, IH. f_equal.
  rewrite map_map. apply map_ext. intros [r q]. cbn [fst snd]. rewrite bravais_comp. reflexivity.
Qed.
Lemma moment_image x qs r0 l m : moment (map (turned (rotation Bravais a x) r0) qs) r0 l m = moment (map (fun p => (f x (fst p), snd p)) qs) (f x r0) l m.
Proof.
  apply moment_same. induction qs as [|[r q] qs IH]; cbn [map]; constructor; [|exact IH]. unfold turned. cbn [fst snd]. split; [|reflexivity]. pose proof (f_diff x r r0) as e. cbv beta in e. rewrite e. change (rotation Bravais a x) with eye. unfold mv, eye. apply v3_eq; unfold vdot; cbn; ring.
Qed.
Variables (lmax : nat) (r0 x : v3) (t d : R).
Hypothesis Ht : 0 <= t < 1.
Hypothesis Hd : 0 < d.
Definition unit_bound : R := INR (S lmax) * (t ^ S lmax / ((1 - t) * d)).
Lemma ub_pos : 0 <= unit_bound.
Proof. unfold unit_bound. apply Rmult_le_pos; [apply pos_INR|]. apply Rmult_le_pos; [apply pow_le, Ht|]. apply Rlt_le, Rinv_0_lt_compat. apply Rmult_lt_0_compat; lra. Qed.
Lemma norm_sym u v : vnorm (vsub u v) = vnorm (vsub v u).
Proof. unfold vnorm. f_equal. unfold vdot. cbn. ring. Qed.
Definition sep (z : Z * Z * Z) (p : v3 * R) : Prop := vnorm (vsub (fst p) r0) + vnorm (vsub x r0) <= t * vnorm (vsub (f z r0) r0) /\ d <= vnorm (vsub (f z r0) r0).
Lemma far_one z qs M L : holds_to lmax M (moment qs r0) -> d <= vnorm (vsub (f z r0) r0) -> (forall p, In p qs -> sep z p) ->
  Rabs (local_value lmax (m2l (vsub r0 (f z r0)) lmax (transform_multipole (rotation Bravais a z) M) L) (vsub x r0) - (local_value lmax L (vsub x r0) + potential (images f [z] qs) x)) <= absolute_charge qs * unit_bound.
Proof.
  intros hM hd hs. unfold images. cbn [flat_map]. rewrite app_nil_r. set (ps := map (fun p => (f z (fst p), snd p)) qs).
  assert (hT : holds_to lmax (transform_multipole (rotation Bravais a z) M) (moment ps (f z r0))).
  { eapply holds_to_ext; [apply transform_exact; [|exact hM]|intros; apply moment_image]. exact (proj1 (container_affine Bravais a z I)). }
  assert (hne : r0 <> f z r0). { intros e. assert (h0 : vnorm (vsub (f z r0) r0) = 0). { rewrite <- e. apply Rsqr_0_uniq. unfold Rsqr. rewrite <- dot_norm. unfold vdot. cbn. ring. } lra. }
  eapply Rle_trans; [apply (m2l_error lmax _ L ps (f z r0) r0 x hT hne)|].
  - intros p hp. apply in_map_iff in hp. destruct hp as [[r q] [<- hp]]. cbn [fst]. pose proof (f_diff z r r0) as e. cbv beta in e. rewrite e. destruct (hs _ hp) as [h1 h2]. cbn [fst] in h1. rewrite (norm_sym r0 (f z r0)). nra.
  - unfold ps. clear hT ps hM. induction qs as [|[r q] qs IH]; [cbn; rewrite Rmult_0_l; lra|]. specialize (IH (fun p hp => hs p (or_intror hp))). unfold m2l_bound, absolute_charge in *. cbn [map fold_right fst snd]. rewrite Rmult_plus_distr_r. apply Rplus_le_compat; [|exact IH]. clear IH. apply Rmult_le_compat_l; [apply Rabs_pos|].
    destruct (hs _ (or_introl eq_refl)) as [h1 h2]. cbn [fst] in h1. pose proof (f_diff z r r0) as e. cbv beta in e. rewrite e. rewrite (norm_sym r0 (transform Bravais a r0 z)). unfold unit_bound. cbv beta in h1, h2. set (D := vnorm (vsub (transform Bravais a r0 z) r0)) in *. pose proof (norm_nonneg (vsub r r0)) as n1. pose proof (norm_nonneg (vsub x r0)) as n2. set (A := vnorm (vsub r r0) + vnorm (vsub x r0)) in *. assert (hA : 0 <= A) by (unfold A; lra). clearbody A.
    apply Rmult_le_compat_l; [apply pos_INR|]. unfold Rdiv. apply Rmult_le_compat.
    + apply pow_le, Rmult_le_pos; [exact hA|apply Rlt_le, Rinv_0_lt_compat; lra].
    + apply Rlt_le, Rinv_0_lt_compat. nra.
    + apply pow_incr. split; [apply Rmult_le_pos; [exact hA|apply Rlt_le, Rinv_0_lt_compat; lra]|]. apply Rmult_le_reg_r with D; [lra|]. rewrite Rmult_assoc, Rinv_l by lra. lra.
    + apply Rinv_le_contravar; [apply Rmult_lt_0_compat; lra|nra].
Qed.
Lemma far_level (ops : list (Z * Z * Z)) qs M L : holds_to lmax M (moment qs r0) -> (forall z, In z ops -> d <= vnorm (vsub (f z r0) r0)) -> (forall z p, In z ops -> In p qs -> sep z p) ->
  Rabs (local_value lmax (add_far f (rotation Bravais a) lmax ops (r0, M) L) (vsub x r0) - (local_value lmax L (vsub x r0) + potential (images f ops qs) x)) <= INR (length ops) * absolute_charge qs * unit_bound.
Proof.
  intros hM. unfold add_far. cbn [fst snd]. revert L. induction ops as [|z ops IH]; intros L h1 h2.
  - cbn [fold_left images flat_map potential fold_right length INR]. rewrite Rplus_0_r, Rminus_eq_0, Rabs_R0. lra.
  - cbn [fold_left length]. set (L1 := m2l _ lmax _ L). specialize (IH L1 (fun z hz => h1 z (or_intror hz)) (fun z p hz => h2 z p (or_intror hz))).
    pose proof (far_one z qs M L hM (h1 z (or_introl eq_refl)) (fun p => h2 z p (or_introl eq_refl))) as h. cbv beta in h. fold L1 in h. match goal with |- context [fold_left ?g ops L1] => set (L2 := fold_left g ops L1) in * end.
    replace (images f (z :: ops) qs) with (images f [z] qs ++ images f ops qs) by (unfold images; cbn [flat_map]; rewrite app_nil_r; reflexivity). rewrite potential_app, S_INR.
    set (v2 := local_value lmax L2 (vsub x r0)) in *. set (v1 := local_value lmax L1 (vsub x r0)) in *. set (v0 := local_value lmax L (vsub x r0)) in *. set (p1 := potential (images f [z] qs) x) in *. set (p2 := potential (images f ops qs) x) in *.
    replace (v2 - (v0 + (p1 + p2))) with ((v2 - (v1 + p2)) + (v1 - (v0 + p1))) by ring. eapply Rle_trans; [apply Rabs_triang|]. lra.
Qed.
End Bravais.
(** ** All levels *)
Definition far_cells (h : nat * nat * nat) (i : nat) : list (Z * Z * Z) := flat_map (fun x => map (zadd3 x) (cells h i)) (far_ops h i).
Lemma far_length h i : length (far_cells h i) = (length (far_ops h i) * length (cells h i))%nat.
Proof. unfold far_cells. induction (far_ops h i) as [|x l IH]; [reflexivity|]. cbn [flat_map length]. rewrite app_length, map_length, IH. lia. Qed.
Lemma far_all a h K qs lmax x t d M r0 : 0 <= t < 1 -> 0 < d -> holds_to lmax M (moment qs r0) -> qs <> [] -> separated a h K qs r0 x t d ->
  let f := fun (n : Z * Z * Z) r => transform Bravais a r n in let is := rev (seq 0 (K - 1)) in
  Rabs (local_value lmax (local_expansion f (rotation Bravais a) lmax h K (r0, M)) (vsub x r0) - potential (images f (flat_map (far_cells h) is) qs) x) <= INR (length (flat_map (far_cells h) is)) * absolute_charge qs * unit_bound lmax t d.
Proof.
  intros ht hd hM hne hs f is. unfold local_expansion. fold is. assert (his : forall i, In i is -> (i + 1 < K)%nat). { intros i hi. unfold is in hi. apply in_rev in hi. apply in_seq in hi. lia. }
  assert (g : forall is L, (forall i, In i is -> (i + 1 < K)%nat) -> Rabs (local_value lmax (fold_left (fun L i => add_far f (rotation Bravais a) lmax (far_ops h i) (levels f (rotation Bravais a) (map (level_ops h) (seq 0 i)) (r0, M)) L) is L) (vsub x r0) - (local_value lmax L (vsub x r0) + potential (images f (flat_map (far_cells h) is) qs) x)) <= INR (length (flat_map (far_cells h) is)) * absolute_charge qs * unit_bound lmax t d).
  { clear is his. induction is as [|i is IH]; intros L hi.
    - cbn [fold_left flat_map images potential fold_right length INR]. rewrite Rplus_0_r, Rminus_eq_0, Rabs_R0. lra.
    - cbn [fold_left flat_map]. destruct (levels_cells a h i lmax M qs r0 hM) as [e1 h1]. fold f in e1, h1. set (s := levels f _ _ _) in *. assert (es : s = (r0, snd s)) by (rewrite <- e1; apply surjective_pairing). rewrite es. set (L1 := add_far _ _ _ _ _ L). specialize (IH L1 (fun j hj => hi j (or_intror hj))).
      pose proof (far_level a lmax r0 x t d ht hd (far_ops h i) (images f (cells h i) qs) (snd s) L h1) as hf. fold f in hf. fold L1 in hf.
      assert (hsep : forall z p, In z (far_ops h i) -> In p (images f (cells h i) qs) -> sep a r0 x t d z p).
      { intros z p hz hp. unfold images in hp. apply in_flat_map in hp. destruct hp as [y [hy hp]]. apply in_map_iff in hp. destruct hp as [q [<- hq]]. apply (hs i z y q); [apply hi; left; reflexivity|exact hz|apply in_cells; exact hy|exact hq]. }
      assert (hdz : forall z, In z (far_ops h i) -> d <= vnorm (vsub (f z r0) r0)).
      { intros z hz. destruct qs as [|q qs]; [contradiction|]. apply (hs i z (0%Z, 0%Z, 0%Z) q); [apply hi; left; reflexivity|exact hz| |left; reflexivity]. unfold in_block, in_range, o1, o2, o3. cbn [fst snd]. assert (hp : forall n, (0 < Z.of_nat (2 * n + 1) ^ Z.of_nat i)%Z) by (intros n; apply Z.pow_pos_nonneg; lia). repeat split; match goal with |- context [(Z.of_nat (2 * ?n + 1) ^ _)%Z] => specialize (hp n) end; lia. }
      specialize (hf hdz hsep). rewrite abs_images in hf. pose proof (images_flat a (far_ops h i) (cells h i) qs) as ei. fold f in ei. rewrite ei in hf. fold (far_cells h i) in hf. rewrite <- Rmult_assoc, <- mult_INR, <- far_length in hf.
      replace (images f (far_cells h i ++ flat_map (far_cells h) is) qs) with (images f (far_cells h i) qs ++ images f (flat_map (far_cells h) is) qs) by (unfold images; rewrite flat_map_app; reflexivity). rewrite potential_app, app_length, plus_INR.
      set (v2 := local_value lmax (fold_left _ is L1) (vsub x r0)) in *. set (v1 := local_value lmax L1 (vsub x r0)) in *. set (v0 := local_value lmax L (vsub x r0)) in *. set (p1 := potential (images f (far_cells h i) qs) x) in *. set (p2 := potential _ x) in *.
      replace (v2 - (v0 + (p1 + p2))) with ((v2 - (v1 + p2)) + (v1 - (v0 + p1))) by ring. eapply Rle_trans; [apply Rabs_triang|]. lra. }
  specialize (g is zero_moments his). assert (e0 : local_value lmax zero_moments (vsub x r0) = 0). { unfold local_value. rewrite csum_zero; [reflexivity|]. intros l _. apply zsum_zero. intros m _. rewrite at_zero. apply c_eq; cbn; ring. } rewrite e0, Rplus_0_l in g. exact g.
Qed.
(** ** Cells *)
Lemma cell_dec (x y : Z * Z * Z) : {x = y} + {x <> y}.
Proof. destruct x as [[a b] c], y as [[a' b'] c']. destruct (Z.eq_dec a a') as [->|n]; [|right; congruence]. destruct (Z.eq_dec b b') as [->|n]; [|right; congruence]. destruct (Z.eq_dec c c') as [->|n]; [left; reflexivity|right; congruence]. Qed.
Lemma in_box h z : In z (box h) <-> In (o1 z) (zrange (fst (fst h))) /\ In (o2 z) (zrange (snd (fst h))) /\ In (o3 z) (zrange (snd h)).
Proof.
  unfold box. rewrite in_flat_map. split.
  - intros [x1 [h1 h2]]. apply in_flat_map in h2. destruct h2 as [x2 [h2 h3]]. apply in_map_iff in h3. destruct h3 as [x3 [<- h3]]. unfold o1, o2, o3. cbn. auto.
  - intros (h1 & h2 & h3). exists (o1 z). split; [exact h1|]. apply in_flat_map. exists (o2 z). split; [exact h2|]. apply in_map_iff. exists (o3 z). split; [destruct z as [[p q] r]; reflexivity|exact h3].
Qed.
Lemma box_nodup h : NoDup (box h).
Proof.
  unfold box. apply nodup_flat; [apply zrange_nodup| |].
  - intros x1 _. apply nodup_flat; [apply zrange_nodup| |].
    + intros x2 _. apply nodup_map; [apply zrange_nodup|]. intros x y e. congruence.
    + intros x y b _ _ h1 h2. apply in_map_iff in h1. apply in_map_iff in h2. destruct h1 as [u [<- _]], h2 as [w [e _]]. congruence.
  - intros x y b _ _ h1 h2. apply in_flat_map in h1. apply in_flat_map in h2. destruct h1 as [u [_ h1]], h2 as [w [_ h2]]. apply in_map_iff in h1. apply in_map_iff in h2. destruct h1 as [u' [<- _]], h2 as [w' [e _]]. congruence.
Qed.
Definition scaled (h : nat * nat * nat) (i : nat) (x : Z * Z * Z) : Z * Z * Z :=
  let lv h := (Z.of_nat (2 * h + 1) ^ Z.of_nat i)%Z in ((o1 x * lv (fst (fst h)))%Z, (o2 x * lv (snd (fst h)))%Z, (o3 x * lv (snd h))%Z).
Lemma digit2 h k z : in_range h (S (S k)) z <-> exists x y, In x (zrange (2 * h * h + 2 * h)) /\ in_range h k y /\ (z = x * Z.of_nat (2 * h + 1) ^ Z.of_nat k + y)%Z.
Proof.
  rewrite digit. split.
  - intros (x & y & hx & hy & ->). apply digit in hy. destruct hy as (u & w & hu & hw & ->). exists (x * Z.of_nat (2 * h + 1) + u)%Z, w. apply in_zrange in hx. apply in_zrange in hu. split; [apply in_zrange; nia|]. split; [exact hw|]. rewrite Nat2Z.inj_succ, Z.pow_succ_r by lia. ring.
  - intros (x & y & hx & hy & ->). apply in_zrange in hx. assert (hr : in_range h 2 x). { unfold in_range. change (Z.of_nat 2) with 2%Z. rewrite Z.pow_2_r. nia. } apply digit in hr. destruct hr as (u & w & hu & hw & ->). exists u, (w * Z.of_nat (2 * h + 1) ^ Z.of_nat k + y)%Z. split; [exact hu|]. split.
    + apply digit. exists w, y. split; [|split; [exact hy|reflexivity]]. apply in_zrange. unfold in_range in hw. change (Z.of_nat 1) with 1%Z in hw. rewrite Z.pow_1_r in hw. lia.
    + change (Z.of_nat 1) with 1%Z. rewrite Z.pow_1_r, Nat2Z.inj_succ, Z.pow_succ_r by lia. ring.
Qed.
Lemma in_far_cells h i z : In z (far_cells h i) <-> in_block h (S (S i)) z /\ ~ in_block h (S i) z.
Proof.
  unfold far_cells. rewrite in_flat_map.
  assert (hins : forall x, outside h x = false <-> In (o1 x) (zrange (fst (fst h))) /\ In (o2 x) (zrange (snd (fst h))) /\ In (o3 x) (zrange (snd h))).
  { intros x. unfold outside. rewrite !orb_false_iff, !in_zrange, !Z.ltb_ge. lia. }
  assert (hchar : forall x y, in_block h i y -> (in_block h (S i) (zadd3 (scaled h i x) y) <-> outside h x = false)).
  { intros x y (y1 & y2 & y3). rewrite hins. unfold in_block, zadd3, scaled, o1, o2, o3 in *. cbn [fst snd] in *. rewrite !digit. split.
    - intros [(u1 & w1 & a1 & b1 & e1) [(u2 & w2 & a2 & b2 & e2) (u3 & w3 & a3 & b3 & e3)]]. destruct (digit_unique _ _ _ _ _ _ y1 b1 e1) as [-> _], (digit_unique _ _ _ _ _ _ y2 b2 e2) as [-> _], (digit_unique _ _ _ _ _ _ y3 b3 e3) as [-> _]. auto.
    - intros (a1 & a2 & a3). split; [|split]; eexists; eexists; (split; [|split; [|reflexivity]]); eassumption. }
  split.
  - intros [u [hu hz]]. apply in_map_iff in hz. destruct hz as [y [<- hy]]. apply in_cells in hy. unfold far_ops in hu. apply in_map_iff in hu. destruct hu as [x [<- hx]]. fold (scaled h i x). apply filter_In in hx. destruct hx as [hx ho]. apply in_box in hx. split; [|rewrite hchar by exact hy; congruence].
    destruct hy as (y1 & y2 & y3). destruct hx as (x1 & x2 & x3). unfold in_block, zadd3, scaled, o1, o2, o3 in *. cbn [fst snd wide] in *. rewrite !digit2. split; [|split]; eexists; eexists; (split; [|split; [|reflexivity]]); eassumption.
  - intros [(z1 & z2 & z3) hn]. rewrite digit2 in z1, z2, z3. destruct z1 as (u1 & w1 & a1 & b1 & e1), z2 as (u2 & w2 & a2 & b2 & e2), z3 as (u3 & w3 & a3 & b3 & e3).
    assert (ez : z = zadd3 (scaled h i (u1, u2, u3)) (w1, w2, w3)) by (destruct z as [[p q] r]; unfold zadd3, scaled, o1, o2, o3 in *; cbn [fst snd] in *; rewrite e1, e2, e3; reflexivity).
    assert (hb : in_block h i (w1, w2, w3)) by (unfold in_block, o1, o2, o3; cbn [fst snd]; auto). exists (scaled h i (u1, u2, u3)). split.
    + unfold far_ops. apply in_map_iff. exists (u1, u2, u3). split; [reflexivity|]. apply filter_In. split; [apply in_box; unfold wide, o1, o2, o3; cbn [fst snd]; auto|]. destruct (outside h (u1, u2, u3)) eqn:E; [reflexivity|]. exfalso. apply hn. rewrite ez. apply hchar; assumption.
    + apply in_map_iff. exists (w1, w2, w3). split; [symmetry; exact ez|apply in_cells; exact hb].
Qed.
Lemma far_nodup h i : NoDup (far_cells h i).
Proof.
  assert (hp : forall n, (0 < Z.of_nat (2 * n + 1) ^ Z.of_nat i)%Z) by (intros n; apply Z.pow_pos_nonneg; lia).
  unfold far_cells. apply nodup_flat.
  - unfold far_ops. fold (scaled h i). apply nodup_map; [apply NoDup_filter, box_nodup|]. intros [[p q] r] [[p' q'] r'] e. unfold o1, o2, o3 in e. cbn [fst snd] in e. injection e as e1 e2 e3. pose proof (hp (fst (fst h))) as q1. pose proof (hp (snd (fst h))) as q2. pose proof (hp (snd h)) as q3. apply Z.mul_cancel_r in e1; [|lia]. apply Z.mul_cancel_r in e2; [|lia]. apply Z.mul_cancel_r in e3; [|lia]. apply pair3; assumption.
  - intros x _. apply nodup_map; [apply cells_nodup|]. intros [[p b] c] [[p' b'] c'] e. unfold zadd3, o1, o2, o3 in e. cbn [fst snd] in e. injection e as e1 e2 e3. apply pair3; lia.
  - intros x y b hx hy hb hb'. unfold far_ops in hx, hy. apply in_map_iff in hx. apply in_map_iff in hy. destruct hx as [u [<- _]], hy as [w [<- _]]. apply in_map_iff in hb. apply in_map_iff in hb'. destruct hb as [u' [<- hu]], hb' as [w' [e hw]]. apply in_cells in hu. apply in_cells in hw. destruct hu as (u1 & u2 & u3), hw as (w1 & w2 & w3). unfold zadd3, o1, o2, o3 in *. cbn [fst snd] in *. injection e as e1 e2 e3.
    destruct (digit_unique _ _ _ _ _ _ w1 u1 e1) as [-> _], (digit_unique _ _ _ _ _ _ w2 u2 e2) as [-> _], (digit_unique _ _ _ _ _ _ w3 u3 e3) as [-> _]. reflexivity.
Qed.
Lemma block_mono h i j z : (i <= j)%nat -> in_block h i z -> in_block h j z.
Proof.
  intros hij. induction hij as [|j _ IH]; [auto|]. intros hz. specialize (IH hz). unfold in_block in *. assert (g : forall n k z, in_range n k z -> in_range n (S k) z). { intros n k y hy. apply digit. exists 0%Z, y. split; [apply in_zrange; lia|]. split; [exact hy|ring]. } destruct IH as (h1 & h2 & h3). auto.
Qed.
Lemma box_block h z : In z (box h) <-> in_block h 1 z.
Proof.
  rewrite in_box. unfold in_block, in_range. rewrite !in_zrange. change (Z.of_nat 1) with 1%Z. rewrite !Z.pow_1_r. lia.
Qed.
Lemma far_union h n z : In z (flat_map (far_cells h) (rev (seq 0 n))) <-> in_block h (S n) z /\ ~ in_block h 1 z.
Proof.
  rewrite in_flat_map. split.
  - intros [i [hi hz]]. apply in_rev in hi. apply in_seq in hi. apply in_far_cells in hz. destruct hz as [h1 h2]. split; [apply (block_mono h (S (S i))); [lia|exact h1]|]. intros hb. apply h2. apply (block_mono h 1); [lia|exact hb].
  - intros [h1 h2]. induction n as [|n IH]; [contradiction|]. destruct (in_dec cell_dec z (cells h (S n))) as [hc|hc].
    + apply in_cells in hc. destruct (IH hc) as [i [hi hz]]. exists i. split; [|exact hz]. apply in_rev in hi. apply -> in_rev. apply in_seq in hi. apply in_seq. lia.
    + exists n. split; [apply -> in_rev; apply in_seq; lia|]. apply in_far_cells. split; [exact h1|]. rewrite <- in_cells. exact hc.
Qed.
Lemma app_nodup {B} (a b : list B) : NoDup a -> NoDup b -> (forall z, In z a -> In z b -> False) -> NoDup (a ++ b).
Proof.
  induction a as [|u a IH]; intros ha hb hd; [exact hb|]. inversion ha; subst. cbn. constructor; [|apply IH; [assumption|assumption|intros z hz1 hz2; apply (hd z); [right|]; assumption]].
  intros hin. apply in_app_or in hin. destruct hin as [hin|hin]; [contradiction|]. apply (hd u); [left; reflexivity|exact hin].
Qed.
Lemma all_cells h K : (1 <= K)%nat -> let cs := box h ++ flat_map (far_cells h) (rev (seq 0 (K - 1))) in NoDup cs /\ forall z, In z cs <-> in_block h K z.
Proof.
  intros hK cs. split.
  - unfold cs. apply app_nodup; [apply box_nodup| |].
    + apply nodup_flat; [apply NoDup_rev, seq_NoDup|intros; apply far_nodup|]. intros i j z _ _ hi hj. apply in_far_cells in hi. apply in_far_cells in hj. destruct (lt_eq_lt_dec i j) as [[hl|e]|hl]; [|exact e|]; exfalso.
      * destruct hi as [hi _], hj as [_ hj]. apply hj. apply (block_mono h (S (S i))); [lia|exact hi].
      * destruct hj as [hj _], hi as [_ hi]. apply hi. apply (block_mono h (S (S j))); [lia|exact hj].
    + intros z h1 h2. apply box_block in h1. apply far_union in h2. tauto.
  - intros z. unfold cs. rewrite in_app_iff, far_union, box_block. replace (S (K - 1)) with K by lia. split; [intros [h1|[h1 _]]; [apply (block_mono h 1); [lia|exact h1]|exact h1]|]. intros hz.
    destruct (in_dec cell_dec z (box h)) as [hb|hb]; rewrite box_block in hb; [left; exact hb|right; split; assumption].
Qed.
(** ** The result *)
Lemma potential_nth qs x : potential qs x = rsum (length qs) (fun j => let p := nth j qs (vzero, 0) in snd p / vnorm (vsub x (fst p))).
Proof. unfold potential. induction qs as [|p qs IH]; [reflexivity|]. cbn [fold_right length]. rewrite rsum_shift, IH. reflexivity. Qed.
Lemma lattice_app f cs ds qs i : lattice_potential f (cs ++ ds) qs i = lattice_potential f cs qs i + lattice_potential f ds qs i.
Proof. unfold lattice_potential. induction cs as [|z cs IH]; cbn [app fold_right]; [ring|]. rewrite IH. ring. Qed.
Lemma map_nth_p (f : v3 -> v3) (qs : list (v3 * R)) j : (j < length qs)%nat -> nth j (map (fun p => (f (fst p), snd p)) qs) (vzero, 0) = (f (fst (nth j qs (vzero, 0))), snd (nth j qs (vzero, 0))).
Proof. revert j. induction qs as [|p qs IH]; intros j hj; [cbn in hj; lia|]. destruct j as [|j]; [reflexivity|]. cbn [map nth]. apply IH. cbn in hj. lia. Qed.
Lemma lattice_far (f : Z * Z * Z -> v3 -> v3) cs qs i : (forall z, In z cs -> is_000 z = false) -> lattice_potential f cs qs i = potential (images f cs qs) (fst (nth i qs (vzero, 0))).
Proof.
  induction cs as [|z cs IH]; intros h; [reflexivity|]. unfold lattice_potential, images. cbn [fold_right flat_map]. rewrite potential_app. fold (images f cs qs). rewrite <- IH by (intros y hy; apply h; right; exact hy). f_equal. rewrite potential_nth, map_length. apply rsum_ext. intros j hj. rewrite (h z (or_introl eq_refl)). cbn [andb]. rewrite map_nth_p by exact hj. reflexivity.
Qed.
Lemma is_000_true z : is_000 z = true <-> z = (0%Z, 0%Z, 0%Z).
Proof. unfold is_000. rewrite !andb_true_iff, !Z.eqb_eq. destruct z as [[p q] r]. unfold o1, o2, o3. cbn [fst snd]. split; [intros [[-> ->] ->]; reflexivity|intros e; injection e; auto]. Qed.
Lemma near_sum a qs r0 i l : let r := fst (nth i qs (vzero, 0)) in let f := fun (n : Z * Z * Z) r => transform Bravais a r n in NoDup l ->
  fold_right (fun x s => near_cell f (rotation Bravais a) qs r0 r x + s) 0 (filter (fun x => negb (is_000 x)) l) + (if existsb is_000 l then self_cell qs i r else 0) = lattice_potential f l qs i.
Proof.
  intros r f hl. induction hl as [|z l hz hl IH]; [cbn; ring|]. unfold lattice_potential. cbn [fold_right filter existsb]. fold (lattice_potential f l qs i). rewrite <- IH. fold r. destruct (is_000 z) eqn:E; cbn [negb orb].
  - assert (hex : existsb is_000 l = false). { apply is_000_true in E. destruct (existsb is_000 l) eqn:E2; [|reflexivity]. exfalso. apply existsb_exists in E2. destruct E2 as [y [hy e]]. apply is_000_true in e. subst. contradiction. }
    rewrite hex. cbn [andb]. assert (e1 : self_cell qs i r = rsum (length qs) (fun j => if (i =? j)%nat then 0 else let p := nth j qs (vzero, 0) in snd p / vnorm (vsub r (f z (fst p))))).
    { unfold self_cell. apply rsum_ext. intros j _. destruct (i =? j)%nat; [reflexivity|]. cbn zeta. f_equal. f_equal. f_equal. apply is_000_true in E. subst z. unfold f, transform, o1, o2, o3. cbn [fst snd]. apply v3_eq; cbn; ring. }
    rewrite e1. cbv zeta. ring.
  - cbn [fold_right andb]. assert (e1 : near_cell f (rotation Bravais a) qs r0 r z = rsum (length qs) (fun j => let p := nth j qs (vzero, 0) in snd p / vnorm (vsub r (f z (fst p))))).
    { transitivity (potential (map (fun p => (f z (fst p), snd p)) qs) r).
      - unfold near_cell, potential. generalize r. intros rr. clear. induction qs as [|p qs IH]; [reflexivity|]. cbn [map fold_right fst snd]. rewrite IH. f_equal. f_equal. f_equal. f_equal. change (rotation Bravais a z) with eye. unfold f, transform, mv, eye. apply v3_eq; unfold vdot; cbn; ring.
      - rewrite potential_nth, map_length. apply rsum_ext. intros j hj. rewrite map_nth_p by exact hj. reflexivity. }
    rewrite e1. cbv zeta. ring.
Qed.
Theorem mp_phi_error a h K lmax vol qs r0 i t d : (1 <= K)%nat -> (1 <= lmax)%nat -> (i < length qs)%nat -> 0 <= t < 1 -> 0 < d ->
  let f := fun (n : Z * Z * Z) r => transform Bravais a r n in let x := fst (nth i qs (vzero, 0)) in
  separated a h K qs r0 x t d ->
  exists cs, NoDup cs /\ (forall z, In z cs <-> in_block h K z) /\
    Rabs (mp_phi f (rotation Bravais a) lmax h K vol qs r0 i -
          (lattice_potential f cs qs i - match vol with None => 0 | Some v => 4 * PI / (3 * v) * vdot (vsub x r0) (total_dipole qs r0) end)) <=
      INR (length cs) * absolute_charge qs * (INR (S lmax) * (t ^ S lmax / ((1 - t) * d))).
Proof.
  intros hK hl hi ht hd f x hs. set (fc := flat_map (far_cells h) (rev (seq 0 (K - 1)))). exists (box h ++ fc). destruct (all_cells h K hK) as [h1 h2]. fold fc in h1, h2. split; [exact h1|]. split; [exact h2|].
  assert (hne : qs <> []) by (intros ->; cbn in hi; lia). pose proof (proj1 (holds_to_all _ _) (get_moments_holds qs r0) lmax) as hM.
  pose proof (far_all a h K qs lmax x t d (get_moments qs r0) r0 ht hd hM hne hs) as hf. cbn zeta in hf. fold f fc in hf.
  unfold mp_phi. fold x. rewrite local_phi_exact. set (V := local_value lmax _ _) in *.
  pose proof (near_sum a qs r0 i (box h) (box_nodup h)) as hn. cbn zeta in hn. fold f x in hn.
  assert (hex : existsb is_000 (box h) = true). { apply existsb_exists. exists (0%Z, 0%Z, 0%Z). split; [|reflexivity]. apply in_box. unfold o1, o2, o3. cbn [fst snd]. rewrite !in_zrange. lia. } rewrite hex in hn.
  rewrite lattice_app, <- hn. rewrite (lattice_far f fc).
  2: { intros z hz. destruct (is_000 z) eqn:E; [|reflexivity]. exfalso. apply is_000_true in E. subst z. apply far_union in hz. destruct hz as [_ hz]. apply hz. apply box_block. apply in_box. unfold o1, o2, o3. cbn [fst snd]. rewrite !in_zrange. lia. }
  fold x. set (N := fold_right _ 0 _). rewrite (dipole_exact lmax _ qs r0 hl hM). rewrite app_length, plus_INR. fold (unit_bound lmax t d).
  assert (hb : 0 <= INR (length (box h)) * absolute_charge qs * unit_bound lmax t d). { apply Rmult_le_pos; [apply Rmult_le_pos; [apply pos_INR|]|apply ub_pos; assumption]. unfold absolute_charge. clear. induction qs as [|p qs IH]; cbn [fold_right]; [lra|]. pose proof (Rabs_pos (snd p)). lra. }
  match goal with |- Rabs ?e <= _ => replace e with (V - potential (images f fc qs) x) end; [lra|].
  destruct vol as [v|]; [|ring]. replace (vdot (vsub x r0) (vscale (4 * PI / (3 * v)) (total_dipole qs r0))) with (4 * PI / (3 * v) * vdot (vsub x r0) (total_dipole qs r0)) by (unfold vdot; cbn; ring). ring.
Qed.
