From Coq Require Import Reals ZArith List Bool Arith Permutation Lra Lia.
From Verif Require Import Vec GeomModel GeomProofs PairModel PairSpec PairProofs CoulModel CoulProofs GamModel GamSpec GamProofs GamProofs2 GamProofs3 SkProofs6 AtomProofs4.
Import ListNotations.
Open Scope R_scope.

(** ** the cells visited *)
Lemma scan_some cutoff s cs : scan cutoff s = Some cs -> NoDup cs /\ forall c, In c cs <-> scanned s c.
Proof.
  destruct s as [[s1 s2] s3]. unfold scan, scanned.
  assert (P : forall cn cm s z, (cutoff <> None -> cn = -5 /\ cm = 5)%Z -> (cutoff = None -> infinite s = false) -> (let '(a, b) := n_from_range cn cm s in In z (zrange a b)) <-> in_scan s z).
  { intros cn cm [[a|] [b|]] z K L; unfold n_from_range, in_scan; cbn [fst snd]; rewrite in_zrange; destruct cutoff; try (specialize (L eq_refl); discriminate);
      try (destruct K as [-> ->]; [discriminate|]); lia. }
  destruct cutoff as [k|].
  - intros E. injection E as <-. split.
    + apply nodup_triples; apply nodup_zrange.
    + intros c. rewrite in_triples. pose proof (P (-5)%Z 5%Z) as Q. assert (K : Some k <> None -> (-5 = -5 /\ 5 = 5)%Z) by (intros; split; reflexivity).
      rewrite <- (Q s1 (t1 c) K), <- (Q s2 (t2 c) K), <- (Q s3 (t3 c) K) by discriminate.
      reflexivity.
  - unfold is_cluster. destruct (infinite s1) eqn:I1, (infinite s2) eqn:I2, (infinite s3) eqn:I3; cbn [negb orb]; try discriminate.
    intros E. injection E as <-. split.
    + apply nodup_triples; apply nodup_zrange.
    + intros c. rewrite in_triples. pose proof (P 0%Z 0%Z) as Q. assert (K : @None R <> None -> (0 = -5 /\ 0 = 5)%Z) by (intros X; contradiction X; reflexivity).
      rewrite <- (Q s1 (t1 c) K), <- (Q s2 (t2 c) K), <- (Q s3 (t3 c) K) by (intros; assumption).
      reflexivity.
Qed.
Lemma scan_none cutoff s : scan cutoff s = None <-> cutoff = None /\ is_cluster s = false.
Proof.
  destruct s as [[s1 s2] s3]. unfold scan. destruct cutoff as [k|]; [split; [discriminate|intros [? _]; discriminate]|].
  destruct (is_cluster (s1, s2, s3)); split; try discriminate; try tauto. intros [_ ?]; discriminate.
Qed.
Lemma nbs_none N r tr0 rot cutoff s : get_neighbours N r tr0 rot cutoff s = None <-> cutoff = None /\ is_cluster s = false.
Proof. unfold get_neighbours. rewrite <- scan_none. destruct (scan cutoff s); split; congruence. Qed.
Lemma in_map_forall2 {A B} (P : A -> B -> Prop) (f : A -> B) l : (forall a, P a (f a)) -> Forall2 P l (map f l).
Proof. intros H. induction l; cbn [map]; constructor; auto. Qed.
Lemma nbs_list N r tr0 rot cutoff s l : get_neighbours N r tr0 rot cutoff s = Some l ->
  exists L, NoDup L /\ (forall x, In x L <-> scanned s (fst (fst x)) /\ close_pair N r tr0 rot cutoff x) /\ Forall2 (entry_of r tr0 rot) L l.
Proof.
  unfold get_neighbours. destruct (scan cutoff s) as [cs|] eqn:E; [|discriminate]. intros X. injection X as <-. destruct (scan_some _ _ _ E) as [D I].
  exists (trips N r tr0 rot cutoff cs). split; [apply nodup_trips; exact D|]. split.
  - intros [[c i] j]. rewrite in_trips. unfold wanted, close_pair. cbn [fst]. rewrite I. tauto.
  - rewrite trips_list. apply in_map_forall2. apply mk_entry.
Qed.
(** ** the scan is sufficient for atoms inside a cell not too narrow for the cutoff *)
Lemma cauchy a b : Rabs (vdot a b) <= vnorm a * vnorm b.
Proof.
  unfold vnorm. rewrite <- sqrt_mult_alt by (vunf; nra). rewrite <- sqrt_Rsqr_abs. apply sqrt_le_1_alt. unfold Rsqr.
  enough (0 <= vdot a a * vdot b b - vdot a b * vdot a b) by lra.
  replace (vdot a a * vdot b b - vdot a b * vdot a b) with ((vx a * vy b - vy a * vx b) ^ 2 + (vx a * vz b - vz a * vx b) ^ 2 + (vy a * vz b - vz a * vy b) ^ 2) by (vunf; ring).
  pose proof (pow2_ge_0 (vx a * vy b - vy a * vx b)). pose proof (pow2_ge_0 (vx a * vz b - vz a * vx b)). pose proof (pow2_ge_0 (vy a * vz b - vz a * vy b)). lra.
Qed.
Lemma bound_dir (n : Z) (f g k d nb : R) : 0 <= f < 1 -> 0 <= g < 1 -> Rabs (f - g - IZR n) <= nb * d -> 0 <= nb -> d < k -> nb * k <= 5 -> (-5 <= n <= 5)%Z.
Proof.
  intros Hf Hg H Hn Hd Hk. assert (Y : nb * d <= nb * k) by (apply Rmult_le_compat_l; lra).
  assert (Z1 : -5 <= f - g - IZR n <= 5) by (unfold Rabs in H; destruct (Rcase_abs (f - g - IZR n)); lra).
  split.
  - apply Z.lt_succ_r. apply lt_IZR. rewrite succ_IZR. lra.
  - apply Z.lt_succ_r. apply lt_IZR. rewrite succ_IZR. lra.
Qed.
Lemma dir_ok s z b k d f g : in_bounds s z -> narrow s b k -> (infinite s = true -> 0 <= f < 1 /\ 0 <= g < 1) -> Rabs (f - g - IZR z) <= vnorm b * d -> d < k -> in_scan s z.
Proof.
  intros B W F H D. destruct (infinite s) eqn:I.
  - specialize (W I). destruct (F eq_refl) as [F1 F2]. pose proof (bound_dir z f g k d (vnorm b) F1 F2 H (vnorm_nonneg b) D W) as X.
    unfold in_scan, in_bounds in *. destruct s as [[a|] [c|]]; cbn [fst snd] in *; try discriminate; lia.
  - unfold in_scan, in_bounds in *. destruct s as [[a|] [c|]]; cbn [fst snd] in *; try discriminate; lia.
Qed.
Lemma frac_diff (a1 a2 a3 b1 b2 b3 : v3) (r : nat -> v3) c i j : dual a1 a2 a3 b1 b2 b3 ->
  let v := vsub (r i) (vadd (lattice a1 a2 a3 c) (mv eye (r j))) in
  vdot b1 v = vdot b1 (r i) - vdot b1 (r j) - IZR (t1 c) /\ vdot b2 v = vdot b2 (r i) - vdot b2 (r j) - IZR (t2 c) /\ vdot b3 v = vdot b3 (r i) - vdot b3 (r j) - IZR (t3 c).
Proof.
  intros (H11 & H12 & H13 & H21 & H22 & H23 & H31 & H32 & H33) v.
  assert (E : forall b, vdot b v = vdot b (r i) - vdot b (r j) - (IZR (t1 c) * vdot b a1 + IZR (t2 c) * vdot b a2 + IZR (t3 c) * vdot b a3)).
  { intros b. unfold v, lattice. vunf. ring. }
  rewrite !E, H11, H12, H13, H21, H22, H23, H31, H32, H33. repeat split; ring.
Qed.
Lemma nbs_complete N r a1 a2 a3 b1 b2 b3 k s1 s2 s3 c i j : dual a1 a2 a3 b1 b2 b3 ->
  narrow s1 b1 k -> narrow s2 b2 k -> narrow s3 b3 k ->
  (forall i, (i < N)%nat -> (infinite s1 = true -> 0 <= vdot b1 (r i) < 1) /\ (infinite s2 = true -> 0 <= vdot b2 (r i) < 1) /\ (infinite s3 = true -> 0 <= vdot b3 (r i) < 1)) ->
  is_image (s1, s2, s3) c -> close_pair N r (lattice a1 a2 a3) (fun _ => eye) (Some k) (c, i, j) -> scanned (s1, s2, s3) c.
Proof.
  intros D W1 W2 W3 F (B1 & B2 & B3) (Hi & Hj & _ & H). destruct (frac_diff a1 a2 a3 b1 b2 b3 r c i j D) as (E1 & E2 & E3).
  destruct (F i Hi) as (Fi1 & Fi2 & Fi3). destruct (F j Hj) as (Fj1 & Fj2 & Fj3). set (v := vsub (r i) (vadd (lattice a1 a2 a3 c) (mv eye (r j)))) in *.
  split; [|split].
  - apply (dir_ok s1 _ b1 k (vnorm v) (vdot b1 (r i)) (vdot b1 (r j))); auto. rewrite <- E1. apply cauchy.
  - apply (dir_ok s2 _ b2 k (vnorm v) (vdot b2 (r i)) (vdot b2 (r j))); auto. rewrite <- E2. apply cauchy.
  - apply (dir_ok s3 _ b3 k (vnorm v) (vdot b3 (r i)) (vdot b3 (r j))); auto. rewrite <- E3. apply cauchy.
Qed.
(** ** Bravais containers are closed under inversion *)
Definition neg_cell (c : cell) : cell := (- t1 c, - t2 c, - t3 c)%Z.
Lemma neg_neg c : neg_cell (neg_cell c) = c.
Proof. destruct c as [[a b] c]. unfold neg_cell, t1, t2, t3. cbn [fst snd]. rewrite !Z.opp_involutive. reflexivity. Qed.
Lemma in_scan_neg s z : bravais_range s -> in_scan s (- z) <-> in_scan s z.
Proof. intros [-> | ->]; unfold in_scan; cbn [fst snd]; lia. Qed.
Lemma bravais_closed cutoff s cs a1 a2 a3 : bravais_ranges s -> scan cutoff s = Some cs -> closed_images cs (lattice a1 a2 a3) (fun _ => eye) neg_cell.
Proof.
  intros B E. destruct (scan_some _ _ _ E) as [D I]. constructor.
  - apply NoDup_Permutation.
    + apply FinFun.Injective_map_NoDup; [|exact D]. intros a b X. rewrite <- (neg_neg a), <- (neg_neg b), X. reflexivity.
    + exact D.
    + intros c. rewrite in_map_iff, I.
      assert (Q : forall c, scanned s (neg_cell c) <-> scanned s c).
      { intros x. destruct s as [[s1 s2] s3]. destruct B as (B1 & B2 & B3). unfold scanned, neg_cell, t1, t2, t3. cbn [fst snd]. rewrite !in_scan_neg by assumption. reflexivity. }
      split; [intros (x & <- & Hx); apply Q, I, Hx|]. intros H. exists (neg_cell c). split; [apply neg_neg|]. apply I, Q, H.
  - split; [|split]; try reflexivity. unfold lattice, origin_cell, t1, t2, t3. cbn [fst snd]. apply v3_eq; vunf; ring.
  - apply neg_neg.
  - intros c p q. vunf. ring.
  - intros c p. apply v3_eq; vunf; ring.
  - intros c. unfold lattice, neg_cell, t1, t2, t3. cbn [fst snd]. rewrite !opp_IZR. apply v3_eq; vunf; ring.
Qed.
(** ** error branches *)
Lemma rmin_le n f i : (i <= n)%nat -> rmin n f <= f i.
Proof.
  induction n as [|n IH]; intros H; cbn [rmin]; [replace i with O by lia; lra|].
  destruct (Nat.eq_dec i (S n)) as [->|]; [apply Rmin_r|]. eapply Rle_trans; [apply Rmin_l|]. apply IH. lia.
Qed.
Lemma rmin_in n f : exists i, (i <= n)%nat /\ rmin n f = f i.
Proof.
  induction n as [|n (i & Hi & E)]; cbn [rmin]; [exists O; auto|]. unfold Rmin. destruct (Rle_dec (rmin n f) (f (S n))); [exists i|exists (S n)]; split; auto.
Qed.
Lemma rmaxn_le n f i : (i <= n)%nat -> f i <= rmaxn n f.
Proof.
  induction n as [|n IH]; intros H; cbn [rmaxn]; [replace i with O by lia; lra|].
  destruct (Nat.eq_dec i (S n)) as [->|]; [apply Rmax_r|]. eapply Rle_trans; [|apply Rmax_l]. apply IH. lia.
Qed.
Lemma rmaxn_in n f : exists i, (i <= n)%nat /\ rmaxn n f = f i.
Proof.
  induction n as [|n (i & Hi & E)]; cbn [rmaxn]; [exists O; auto|]. unfold Rmax. destruct (Rle_dec (rmaxn n f) (f (S n))); [exists (S n)|exists i]; split; auto.
Qed.
Lemma used_nbs N r tr0 rot s cutoff e : exists cs, scan (used_cutoff s cutoff e) s = Some cs /\
  get_neighbours N r tr0 rot (used_cutoff s cutoff e) s = Some (flat_map (cell_neighbours N r tr0 rot (used_cutoff s cutoff e)) cs).
Proof.
  destruct (scan (used_cutoff s cutoff e) s) as [cs|] eqn:E.
  - exists cs. split; [reflexivity|]. unfold get_neighbours. rewrite E. reflexivity.
  - apply scan_none in E. destruct E as [E1 E2]. unfold used_cutoff in E1. rewrite E2 in E1. destruct cutoff; discriminate.
Qed.
Lemma slater_value Bohr N (r : nat -> v3) tr0 rot s U cutoff goal : (0 < N)%nat -> (forall i, (i < N)%nat -> 0 < U i) ->
  exists e cs, e = slater_cutoff goal (rmin (N - 1) U) /\ scan (used_cutoff s cutoff e) s = Some cs /\ forall r, slater_gamma Bohr N r tr0 rot s U cutoff goal =
   GOk (gamma_G Bohr U (fun i j => slater_term (tau (U i)) (tau (U j))) (flat_map (cell_neighbours N r tr0 rot (used_cutoff s cutoff e)) cs))
       (gamma_dG Bohr (fun i j => slater_term (tau (U i)) (tau (U j))) (flat_map (cell_neighbours N r tr0 rot (used_cutoff s cutoff e)) cs)).
Proof.
  intros HN HU. destruct (used_nbs N r tr0 rot s cutoff (slater_cutoff goal (rmin (N - 1) U))) as (cs & E1 & E2).
  exists (slater_cutoff goal (rmin (N - 1) U)), cs. split; [reflexivity|]. split; [exact E1|]. intros r'. unfold slater_gamma.
  destruct (rmin_in (N - 1) U) as (i & Hi & Ei). rewrite (proj2 (leb_false _ _)) by (rewrite Ei; apply HU; lia).
  fold (used_cutoff s cutoff (slater_cutoff goal (rmin (N - 1) U))). unfold get_neighbours. rewrite E1. reflexivity.
Qed.
Lemma slater_errors Bohr N r tr0 rot s U cutoff goal : (0 < N)%nat ->
  ((forall i, (i < N)%nat -> 0 < U i) -> succeeds (slater_gamma Bohr N r tr0 rot s U cutoff goal)) /\
  ((exists i, (i < N)%nat /\ U i <= 0) -> slater_gamma Bohr N r tr0 rot s U cutoff goal = GValueError).
Proof.
  intros HN. split.
  - intros HU. destruct (slater_value Bohr N r tr0 rot s U cutoff goal HN HU) as (e & cs & _ & _ & E). rewrite E. exact I.
  - intros (i & Hi & Hu). unfold slater_gamma. rewrite (proj2 (leb_true _ _)); [reflexivity|]. pose proof (rmin_le (N - 1) U i ltac:(lia)). lra.
Qed.
Lemma slater_consistent N U : (forall i, (i < N)%nat -> 0 < U i) -> consistent_term N (fun i j => slater_term (tau (U i)) (tau (U j))).
Proof.
  intros HU. assert (T : forall i, (i < N)%nat -> 0 < tau (U i)) by (intros i Hi; unfold tau; specialize (HU i Hi); lra). split.
  - intros i j d Hi Hj. apply slater_sym; auto.
  - intros i j d Hi Hj Hd. apply slater_D; auto.
Qed.
Lemma gauss_consistent erfc N F : is_erfc erfc -> consistent_term N (fun i j => gauss_term erfc (F i) (F j)).
Proof. intros He. split; [intros; apply gauss_sym|intros i j d _ _ Hd; apply gauss_D; assumption]. Qed.
Lemma gauss_value erfc Bohr N (r : nat -> v3) tr0 rot s U F cutoff goal : (0 < N)%nat -> (forall i, (i < N)%nat -> 0 < F i) ->
  exists e cs, e = gauss_cutoff goal (rmaxn (N - 1) F) /\ scan (used_cutoff s cutoff e) s = Some cs /\ forall r, gauss_gamma erfc Bohr N r tr0 rot s U F cutoff goal =
   GOk (gamma_G Bohr U (fun i j => gauss_term erfc (F i) (F j)) (flat_map (cell_neighbours N r tr0 rot (used_cutoff s cutoff e)) cs))
       (gamma_dG Bohr (fun i j => gauss_term erfc (F i) (F j)) (flat_map (cell_neighbours N r tr0 rot (used_cutoff s cutoff e)) cs)).
Proof.
  intros HN HF. destruct (used_nbs N r tr0 rot s cutoff (gauss_cutoff goal (rmaxn (N - 1) F))) as (cs & E1 & E2).
  exists (gauss_cutoff goal (rmaxn (N - 1) F)), cs. split; [reflexivity|]. split; [exact E1|]. intros r'. unfold gauss_gamma.
  destruct (rmaxn_in (N - 1) F) as (i & Hi & Ei). rewrite (proj2 (leb_false _ _)) by (rewrite Ei; apply HF; lia).
  fold (used_cutoff s cutoff (gauss_cutoff goal (rmaxn (N - 1) F))). unfold get_neighbours. rewrite E1.
  match goal with |- context [existsb ?p ?l] => destruct (existsb p l) eqn:X end; [exfalso|reflexivity].
  apply existsb_exists in X. destruct X as (b & Hb & X). rewrite trips_list in Hb. apply in_map_iff in Hb. destruct Hb as ([[c k] l] & <- & Hin).
  apply in_trips in Hin. destruct Hin as (_ & Hk & Hl & _). cbn [mk nb_i nb_j] in X. destruct (Req_EM_T (F k ^ 2 + F l ^ 2) 0) as [Z0|]; [|discriminate].
  pose proof (HF k Hk). pose proof (HF l Hl). nra.
Qed.
Lemma gauss_errors erfc Bohr N r tr0 rot s U F cutoff goal : (0 < N)%nat ->
  ((forall i, (i < N)%nat -> 0 < F i) -> succeeds (gauss_gamma erfc Bohr N r tr0 rot s U F cutoff goal)) /\
  ((forall i, (i < N)%nat -> F i <= 0) -> gauss_gamma erfc Bohr N r tr0 rot s U F cutoff goal = GValueError).
Proof.
  intros HN. split.
  - intros HF. destruct (gauss_value erfc Bohr N r tr0 rot s U F cutoff goal HN HF) as (e & cs & _ & _ & E). rewrite E. exact I.
  - intros HF. unfold gauss_gamma. rewrite (proj2 (leb_true _ _)); [reflexivity|]. destruct (rmaxn_in (N - 1) F) as (i & Hi & ->). apply HF. lia.
Qed.
(** ** symmetry and forces of the two corrections, for images closed under inversion *)
Section Any.
Variables (Bohr : R) (N : nat) (tr0 : cell -> v3) (rot : cell -> m3) (s : ranges) (cutoff : option R) (goal : R).
Hypothesis HN : (0 < N)%nat.
Hypothesis HB : 0 < Bohr.
Hypothesis Hinv : forall k cs, scan k s = Some cs -> exists inv, closed_images cs tr0 rot inv.
Lemma slater_symmetric r U i j : (forall i, (i < N)%nat -> 0 < U i) -> (i < N)%nat -> (j < N)%nat ->
  G_of (slater_gamma Bohr N r tr0 rot s U cutoff goal) i j = G_of (slater_gamma Bohr N r tr0 rot s U cutoff goal) j i.
Proof.
  intros HU Hi Hj. destruct (slater_value Bohr N r tr0 rot s U cutoff goal HN HU) as (e & cs & _ & Hs & E). destruct (Hinv _ _ Hs) as [inv Hc]. rewrite E. cbn [G_of].
  apply (G_symmetric cs tr0 rot inv Hc); auto. apply slater_consistent; exact HU.
Qed.
Lemma gauss_symmetric erfc r U F i j : is_erfc erfc -> (forall i, (i < N)%nat -> 0 < F i) -> (i < N)%nat -> (j < N)%nat ->
  G_of (gauss_gamma erfc Bohr N r tr0 rot s U F cutoff goal) i j = G_of (gauss_gamma erfc Bohr N r tr0 rot s U F cutoff goal) j i.
Proof.
  intros He HF Hi Hj. destruct (gauss_value erfc Bohr N r tr0 rot s U F cutoff goal HN HF) as (e & cs & _ & Hs & E). destruct (Hinv _ _ Hs) as [inv Hc]. rewrite E. cbn [G_of].
  apply (G_symmetric cs tr0 rot inv Hc); auto. apply gauss_consistent; exact He.
Qed.
Lemma regular_drv r k cs : scan k s = Some cs -> regular N r tr0 rot s k -> forall c i j, In c cs -> (i < N)%nat -> (j < N)%nat -> ~ (c = origin_cell /\ i = j) -> 
  0 < vnorm (drv r tr0 rot c i j) /\ match k with None => True | Some k => vnorm (drv r tr0 rot c i j) <> k end.
Proof. intros Hs Hr c i j Hin Hi Hj Hne. apply Hr; auto. apply (proj2 (scan_some _ _ _ Hs)). exact Hin. Qed.
Lemma slater_forces r u U q : (forall i, (i < N)%nat -> 0 < U i) ->
  regular N r tr0 rot s (used_cutoff s cutoff (slater_cutoff goal (rmin (N - 1) U))) ->
  derivable_pt_lim (fun t => correction_energy N q (G_of (slater_gamma Bohr N (moved r u t) tr0 rot s U cutoff goal))) 0
    (- rsum N (fun i => vdot (correction_force N q (dG_of (slater_gamma Bohr N r tr0 rot s U cutoff goal)) i) (u i)) / Bohr).
Proof.
  intros HU Hr. destruct (slater_value Bohr N r tr0 rot s U cutoff goal HN HU) as (e & cs & -> & Hs & E). destruct (Hinv _ _ Hs) as [inv Hc].
  pose proof (gradient cs tr0 rot inv Hc N (used_cutoff s cutoff (slater_cutoff goal (rmin (N - 1) U))) Bohr U q _ r u HB (slater_consistent N U HU) (regular_drv _ _ _ Hs Hr)) as P.
  rewrite E. cbn [dG_of]. eapply (derivable_local _ _ 0 _ 1); [lra| |exact P]. intros t _. cbv beta. rewrite E. reflexivity.
Qed.
Lemma gauss_forces erfc r u U F q : is_erfc erfc -> (forall i, (i < N)%nat -> 0 < F i) ->
  regular N r tr0 rot s (used_cutoff s cutoff (gauss_cutoff goal (rmaxn (N - 1) F))) ->
  derivable_pt_lim (fun t => correction_energy N q (G_of (gauss_gamma erfc Bohr N (moved r u t) tr0 rot s U F cutoff goal))) 0
    (- rsum N (fun i => vdot (correction_force N q (dG_of (gauss_gamma erfc Bohr N r tr0 rot s U F cutoff goal)) i) (u i)) / Bohr).
Proof.
  intros He HF Hr. destruct (gauss_value erfc Bohr N r tr0 rot s U F cutoff goal HN HF) as (e & cs & -> & Hs & E). destruct (Hinv _ _ Hs) as [inv Hc].
  pose proof (gradient cs tr0 rot inv Hc N (used_cutoff s cutoff (gauss_cutoff goal (rmaxn (N - 1) F))) Bohr U q _ r u HB (gauss_consistent erfc N F He) (regular_drv _ _ _ Hs Hr)) as P.
  rewrite E. cbn [dG_of]. eapply (derivable_local _ _ 0 _ 1); [lra| |exact P]. intros t _. cbv beta. rewrite E. reflexivity.
Qed.
End Any.
