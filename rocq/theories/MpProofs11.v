(** Cases that meet the hypotheses *)
From Coq Require Import Reals ZArith List Bool Arith Lia Lra Psatz Sorting.Permutation.
From Coquelicot Require Import Coquelicot.
From Verif Require Import Vec GeomModel GeomSpec GeomProofs ScaModel MpModel MpSpec MpProofs MpProofs2 MpProofs3 MpProofs4 MpProofs5 MpProofs6 MpProofs7 MpProofs8 MpProofs9 MpProofs10.
Import ListNotations.
Open Scope R_scope.

(** a chain of dipoles with period 10, three cells combined in each step, any depth *)
Definition chain : atoms := Atoms (fun i j => match i, j with 2%nat, 2%nat => 10 | _, _ => 0 end) (false, false, true) [] (0, 0).
Definition chain_charges : list (v3 * R) := [(V3 0 0 0, 1); (V3 1 0 0, -1)].
Lemma chain_transform r z : transform Bravais chain r z = V3 (vx r) (vy r) (vz r + 10 * IZR (o3 z)).
Proof. unfold transform, chain, cellv. cbn [GeomModel.cell]. apply v3_eq; cbn; ring. Qed.
Lemma norm_le (u : v3) (b : R) : 0 <= b -> vx u * vx u + vy u * vy u + vz u * vz u <= b * b -> vnorm u <= b.
Proof. intros hb h. apply Rsqr_incr_0; [|apply norm_nonneg|exact hb]. unfold Rsqr. rewrite norm_sq. exact h. Qed.
Lemma norm_z z : vnorm (V3 0 0 z) = Rabs z.
Proof. unfold vnorm. rewrite <- sqrt_Rsqr_abs. f_equal. unfold Rsqr, vdot. cbn. ring. Qed.
Example ex_separated K i : (i < 2)%nat -> separated chain (0, 0, 1)%nat K chain_charges (V3 0 0 0) (fst (nth i chain_charges (vzero, 0))) (1 / 4) 20.
Proof.
  intros hi j z y p hj hz hy hp. rewrite !chain_transform. unfold far_ops in hz. apply in_map_iff in hz. destruct hz as [x [<- hx]]. apply filter_In in hx. destruct hx as [hb ho].
  destruct x as [[x1 x2] x3]. destruct y as [[y1 y2] y3]. unfold o1, o2, o3 in *. cbn [fst snd] in *.
  set (n := (3 ^ Z.of_nat j)%Z). assert (hn : (1 <= n)%Z) by (assert (0 < n)%Z by (apply Z.pow_pos_nonneg; lia); lia).
  destruct hy as (_ & _ & hy). unfold in_range, o3 in hy. cbn [fst snd] in hy. change (Z.of_nat (2 * 1 + 1)) with 3%Z in *. fold n in hy. fold n.
  assert (hy' : (2 * Z.abs y3 <= n - 1)%Z) by lia. apply IZR_le in hy'. rewrite mult_IZR, minus_IZR, abs_IZR in hy'.
  assert (hn' : 1 <= IZR n) by (apply (IZR_le 1); exact hn).
  assert (D : vnorm (vsub (V3 0 0 (0 + 10 * IZR (x3 * n))) (V3 0 0 0)) = 10 * (Rabs (IZR x3) * IZR n)).
  { replace (vsub (V3 0 0 (0 + 10 * IZR (x3 * n))) (V3 0 0 0)) with (V3 0 0 (10 * (IZR x3 * IZR n))) by (rewrite mult_IZR; apply v3_eq; cbn; ring). rewrite norm_z, !Rabs_mult. rewrite (Rabs_right 10), (Rabs_right (IZR n)) by lra. reflexivity. }
  cbn [vx vy vz]. rewrite D. 
  unfold box in hb. apply in_flat_map in hb. destruct hb as [u1 [k1 hb]]. apply in_flat_map in hb. destruct hb as [u2 [k2 hb]]. apply in_map_iff in hb. destruct hb as [u3 [e k3]].
  injection e as -> -> ->. apply in_zrange in k1. apply in_zrange in k2. cbn [wide fst snd Nat.mul Nat.add Z.of_nat] in k1, k2. assert (x1 = 0%Z) by lia. assert (x2 = 0%Z) by lia. subst.
  assert (hx3 : 2 <= Rabs (IZR x3)).
  { unfold outside, o1, o2, o3 in ho. cbn in ho. rewrite <- abs_IZR. apply IZR_le. apply orb_true_iff in ho. destruct ho as [ho|ho]; apply Z.ltb_lt in ho; lia. }
  assert (hD : 20 * IZR n <= 10 * (Rabs (IZR x3) * IZR n)) by nra.
  assert (X : vnorm (vsub (fst (nth i chain_charges (vzero, 0))) (V3 0 0 0)) <= 1).
  { destruct i as [|[|i]]; [| |lia]; apply norm_le; cbn; lra. }
  assert (P : vnorm (vsub (V3 (vx (fst p)) (vy (fst p)) (vz (fst p) + 10 * IZR y3)) (V3 0 0 0)) <= 1 + 10 * Rabs (IZR y3)).
  { pose proof (Rabs_pos (IZR y3)) as q0. assert (q : Rabs (IZR y3) * Rabs (IZR y3) = IZR y3 * IZR y3) by (rewrite <- Rabs_mult; apply Rabs_right; nra).
    destruct hp as [<-|[<-|[]]]; apply norm_le; cbn; nra. }
  split; lra.
Qed.
Example ex_chain K lmax : (1 <= K)%nat -> (1 <= lmax)%nat -> exists cs, NoDup cs /\ (forall z, In z cs <-> in_block (0, 0, 1)%nat K z) /\
  Rabs (mp_phi (fun (n : Z * Z * Z) r => transform Bravais chain r n) (rotation Bravais chain) lmax (0, 0, 1)%nat K None chain_charges (V3 0 0 0) 1
        - lattice_potential (fun (n : Z * Z * Z) r => transform Bravais chain r n) cs chain_charges 1)
  <= INR (length cs) * 2 * (INR (S lmax) * ((1 / 4) ^ S lmax / ((1 - 1 / 4) * 20))).
Proof.
  intros hK hl. destruct (mp_phi_error chain (0, 0, 1)%nat K lmax None chain_charges (V3 0 0 0) 1 (1 / 4) 20 hK hl) as [cs [n1 [n2 n3]]]; [cbn; lia|lra|lra|apply ex_separated; lia|].
  exists cs. split; [exact n1|split; [exact n2|]]. cbv zeta in n3. rewrite Rminus_0_r in n3. replace (absolute_charge chain_charges) with 2 in n3; [exact n3|]. cbn. rewrite Rabs_R1, Rabs_left; lra.
Qed.

(** two cells combined along z: the origin moves *)
Example ex_even : let f := fun (n : Z * Z * Z) r => transform Bravais chain r n in let ops := [(0, 0, 0); (0, 0, 1)]%Z in
  (forall x, In x ops -> rigid_container Bravais chain x) /\ total_charge (images f ops [(V3 0 0 0, 1)]) <> 0 /\ next_origin f ops (V3 0 0 0) = V3 0 0 5.
Proof.
  cbv zeta. split; [intros; exact I|]. split; [cbn; lra|]. unfold next_origin. cbn [fold_left length]. rewrite !chain_transform. apply v3_eq; cbn; lra.
Qed.

(** a dipole at distance 10 *)
Example ex_m2l : V3 0 0 10 <> V3 0 0 0 /\ (forall p, In p chain_charges -> vnorm (vsub (fst p) (V3 0 0 0)) + vnorm (vsub (V3 0 1 10) (V3 0 0 10)) < vnorm (vsub (V3 0 0 10) (V3 0 0 0))).
Proof.
  split; [intros h; apply (f_equal vz) in h; cbn in h; lra|]. replace (vsub (V3 0 0 10) (V3 0 0 0)) with (V3 0 0 10) by (apply v3_eq; cbn; ring). rewrite norm_z, (Rabs_right 10) by lra.
  assert (vnorm (vsub (V3 0 1 10) (V3 0 0 10)) <= 1) by (apply norm_le; cbn; lra). intros p [<-|[<-|[]]];
  match goal with |- ?a + _ < _ => assert (a <= 1) by (apply norm_le; cbn; lra); lra end.
Qed.

(** a rotation that is not the identity *)
Example ex_rotation : is_orthogonal (M3 (V3 0 (-1) 0) (V3 1 0 0) (V3 0 0 1)).
Proof. unfold is_orthogonal, eye, mm, tr. cbn. unfold vdot. cbn. f_equal; apply v3_eq; cbn; ring. Qed.

(** ** The expansions converge *)
Lemma geom_bound s n : 0 <= s < 1 -> INR n * s ^ n * (1 - s) <= 1 - s ^ n.
Proof.
  intros hs. assert (hp : forall k, 0 <= s ^ k <= 1). { intros k. split; [apply pow_le; lra|]. rewrite <- (pow1 k). apply pow_incr. lra. }
  induction n as [|n IH]; [cbn [INR pow]; lra|]. rewrite S_INR. cbn [pow]. pose proof (hp n) as p. pose proof (hp (S n)) as p'. cbn [pow] in p'.
  assert (a1 : s * (INR n * s ^ n * (1 - s)) <= s * (1 - s ^ n)) by (apply Rmult_le_compat_l; lra). assert (a2 : 0 <= (1 - s) * (1 - s * s ^ n)) by (apply Rmult_le_pos; lra). lra.
Qed.
Lemma nt_lim t (c : R) : 0 <= t < 1 -> is_lim_seq (fun n => c * (INR n * t ^ n)) 0.
Proof.
  intros ht. set (s := sqrt t). assert (hs : 0 <= s < 1). { split; [apply sqrt_pos|]. unfold s. rewrite <- sqrt_1. apply sqrt_lt_1; lra. }
  assert (e : s * s = t) by (apply sqrt_sqrt; lra). replace (Finite 0) with (Rbar_mult c 0) by (cbn; f_equal; ring). apply is_lim_seq_scal_l.
  apply (is_lim_seq_le_le (fun _ => 0) _ (fun n => / (1 - s) * s ^ n)).
  - intros n. rewrite <- e, Rpow_mult_distr. pose proof (geom_bound s n hs) as g. pose proof (pow_le s n (proj1 hs)) as p. pose proof (pos_INR n) as q.
    assert (0 <= INR n * s ^ n) by nra. split; [nra|]. replace (INR n * (s ^ n * s ^ n)) with (INR n * s ^ n * s ^ n) by ring. apply Rmult_le_compat_r; [exact p|].
    apply Rmult_le_reg_r with (1 - s); [lra|]. rewrite Rinv_l by lra. lra.
  - apply is_lim_seq_const.
  - replace (Finite 0) with (Rbar_mult (/ (1 - s)) 0) by (cbn; f_equal; ring). apply is_lim_seq_scal_l. apply is_lim_seq_geom. rewrite Rabs_right; lra.
Qed.
Lemma close_lim (u v : nat -> R) (l : R) : is_lim_seq v 0 -> (forall n, Rabs (u n - l) <= v n) -> is_lim_seq u l.
Proof.
  intros hv h. apply (is_lim_seq_ext (fun n => l + (u n - l))); [intros; ring|]. replace (Finite l) with (Finite (l + 0)) by (f_equal; ring). apply is_lim_seq_plus'; [apply is_lim_seq_const|].
  apply is_lim_seq_abs_0. apply (is_lim_seq_le_le (fun _ => 0) _ v); [intros n; split; [apply Rabs_pos|apply h]|apply is_lim_seq_const|exact hv].
Qed.
Lemma bound_lim qs r0 c x : (forall p, In p qs -> vnorm (vsub (fst p) r0) + vnorm (vsub x c) < vnorm (vsub c r0)) -> is_lim_seq (fun n => m2l_bound n qs r0 c x) 0.
Proof.
  induction qs as [|[r q] qs IH]; intros h; unfold m2l_bound; cbn [fold_right]; [apply is_lim_seq_const|].
  replace (Finite 0) with (Finite (0 + 0)) by (f_equal; ring). apply is_lim_seq_plus'; [|apply IH; intros p hp; apply h; right; exact hp].
  specialize (h (r, q) (or_introl eq_refl)). cbn [fst snd] in *. pose proof (norm_nonneg (vsub r r0)). pose proof (norm_nonneg (vsub x c)).
  set (A := vnorm (vsub r r0) + vnorm (vsub x c)) in *. set (D := vnorm (vsub c r0)) in *. assert (hD : 0 < D) by (unfold A in *; lra).
  apply (is_lim_seq_ext (fun n => Rabs q / (D - A) * (INR (S n) * (A / D) ^ S n))). { intros n. field. lra. }
  apply (is_lim_seq_incr_1 (fun n => Rabs q / (D - A) * (INR n * (A / D) ^ n))). apply nt_lim. split.
  - apply Rmult_le_pos; [unfold A; lra|apply Rlt_le, Rinv_0_lt_compat, hD].
  - apply Rmult_lt_reg_r with D; [exact hD|]. replace (A / D * D) with A by (field; lra). lra.
Qed.
Theorem m2l_converges M L qs r0 c x : holds M (moment qs r0) -> c <> r0 -> (forall p, In p qs -> vnorm (vsub (fst p) r0) + vnorm (vsub x c) < vnorm (vsub c r0)) ->
  is_lim_seq (fun lmax => local_value lmax (m2l (vsub c r0) lmax M L) (vsub x c) - local_value lmax L (vsub x c)) (potential qs x).
Proof.
  intros hM hne hq. apply (close_lim _ (fun n => m2l_bound n qs r0 c x)); [apply bound_lim; exact hq|]. intros n. pose proof (m2l_error n M L qs r0 c x (proj1 (holds_to_all _ _) hM n) hne hq) as e.
  eapply Rle_trans; [|exact e]. right. f_equal. ring.
Qed.
Lemma lattice_perm f cs cs' qs i : Permutation cs cs' -> lattice_potential f cs qs i = lattice_potential f cs' qs i.
Proof. intros h. unfold lattice_potential. induction h; cbn [fold_right]; [reflexivity|rewrite IHh; reflexivity|ring|etransitivity; eassumption]. Qed.
Theorem mp_phi_bound a h K lmax vol qs r0 i t d cs : (1 <= K)%nat -> (1 <= lmax)%nat -> (i < length qs)%nat -> 0 <= t < 1 -> 0 < d ->
  let f := fun (n : Z * Z * Z) r => transform Bravais a r n in let x := fst (nth i qs (vzero, 0)) in
  separated a h K qs r0 x t d -> NoDup cs -> (forall z, In z cs <-> in_block h K z) ->
  Rabs (mp_phi f (rotation Bravais a) lmax h K vol qs r0 i -
        (lattice_potential f cs qs i - match vol with None => 0 | Some v => 4 * PI / (3 * v) * vdot (vsub x r0) (total_dipole qs r0) end)) <=
    INR (length cs) * absolute_charge qs * (INR (S lmax) * (t ^ S lmax / ((1 - t) * d))).
Proof.
  cbv zeta. intros hK hl hi ht hd hs hn hc. destruct (mp_phi_error a h K lmax vol qs r0 i t d hK hl hi ht hd hs) as [cs' [n1 [n2 n3]]].
  assert (P : Permutation cs' cs) by (apply NoDup_Permutation; [exact n1|exact hn|intros z; rewrite n2, hc; tauto]).
  rewrite <- (lattice_perm _ _ _ qs i P), <- (Permutation_length P). exact n3.
Qed.
Theorem mp_phi_converges a h K vol qs r0 i t d cs : (1 <= K)%nat -> (i < length qs)%nat -> 0 <= t < 1 -> 0 < d ->
  let f := fun (n : Z * Z * Z) r => transform Bravais a r n in let x := fst (nth i qs (vzero, 0)) in
  separated a h K qs r0 x t d -> NoDup cs -> (forall z, In z cs <-> in_block h K z) ->
  is_lim_seq (fun lmax => mp_phi f (rotation Bravais a) lmax h K vol qs r0 i)
    (lattice_potential f cs qs i - match vol with None => 0 | Some v => 4 * PI / (3 * v) * vdot (vsub x r0) (total_dipole qs r0) end).
Proof.
  cbv zeta. intros hK hi ht hd hs hn hc. apply (is_lim_seq_incr_1 (fun lmax => mp_phi _ _ lmax _ _ _ _ _ _)).
  apply (close_lim _ (fun n => INR (length cs) * absolute_charge qs / ((1 - t) * d) * (INR (S (S n)) * t ^ S (S n)))).
  - set (w := fun n => INR (length cs) * absolute_charge qs / ((1 - t) * d) * (INR n * t ^ n)). apply (is_lim_seq_incr_1 (fun n => w (S n))). apply (is_lim_seq_incr_1 w).
    apply nt_lim. exact ht.
  - intros n. eapply Rle_trans; [apply (mp_phi_bound a h K (S n) vol qs r0 i t d cs); try assumption; lia|]. right. field. lra.
Qed.
Lemma cells_exist h K : (1 <= K)%nat -> exists cs, NoDup cs /\ forall z, In z cs <-> in_block h K z.
Proof. intros hK. eexists. apply (all_cells h K hK). Qed.
