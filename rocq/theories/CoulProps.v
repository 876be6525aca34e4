(** Theorems on the Coulomb solvers (C32 - C34). *)
From Coq Require Import ZArith List Bool Arith.
From Verif Require Import CoulModel CoulSpec CoulProofs CoulProofs2 CoulProofs3.
Import ListNotations.
Open Scope Z_scope.

(** C32 (full statement: after every sequence of updates and for every cell, the stored potential is the one of
    the atoms and charges last passed).  Missing: changes of the cell or of the symmetry (first refutation), and
    calls repeated after an exception (second refutation).
    Hypotheses met: ex_cache (CoulProofs3). *)
Theorem C32_right_partial Pos Chg Env Res poseq chgeq (compute : Env -> Pos -> Chg -> option Res) e l p q s s' :
  (forall e' p q, In (e', p, q) l -> e' = e) ->
  updates Pos Chg Env Res poseq chgeq compute (fresh Pos Chg Res) l = (s, true) ->
  update Pos Chg Env Res poseq chgeq compute s e p q = (s', true) ->
  exists r, compute e p q = Some r /\ res _ _ _ s' = Some r.
Proof. exact (cache_right Pos Chg Env Res poseq chgeq compute e l p q s s'). Qed.

Theorem C32_cell_change_refuted Pos Chg Env Res poseq chgeq (compute : Env -> Pos -> Chg -> option Res) e1 e2 p q r1 r2 :
  compute e1 p q = Some r1 -> compute e2 p q = Some r2 -> r1 <> r2 ->
  exists s, updates Pos Chg Env Res poseq chgeq compute (fresh Pos Chg Res) [(e1, p, q); (e2, p, q)] = (s, true) /\
    res _ _ _ s = Some r1 /\ Some r1 <> compute e2 p q.
Proof. exact (cache_stale Pos Chg Env Res poseq chgeq compute e1 e2 p q r1 r2). Qed.

Theorem C32_after_error_refuted Pos Chg Env Res poseq chgeq (compute : Env -> Pos -> Chg -> option Res) e p q p' q' r :
  p <> p' -> compute e p q = Some r -> compute e p' q' = None ->
  exists s1 s2 s3, update Pos Chg Env Res poseq chgeq compute (fresh Pos Chg Res) e p q = (s1, true) /\
    update Pos Chg Env Res poseq chgeq compute s1 e p' q' = (s2, false) /\
    update Pos Chg Env Res poseq chgeq compute s2 e p' q' = (s3, true) /\
    res _ _ _ s3 = Some r /\ res _ _ _ s3 <> compute e p' q'.
Proof. exact (cache_after_error Pos Chg Env Res poseq chgeq compute e p q p' q' r). Qed.

(** C33: for l_max = L the pairs 1 <= m <= l <= L are numbered 0 .. lm2index(L,L) without gaps or repetitions *)
Theorem C33_bijection L : 1 <= L ->
  (forall l m, 1 <= m <= l -> l <= L -> 0 <= lm2index l m < lm2index L L + 1) /\
  (forall l m l' m', 1 <= m <= l -> 1 <= m' <= l' -> lm2index l m = lm2index l' m' -> l = l' /\ m = m') /\
  (forall i, 0 <= i < lm2index L L + 1 -> exists l m, 1 <= m <= l /\ l <= L /\ lm2index l m = i).
Proof. intros H. exact (conj (lm_bound L) (conj lm_injective (fun i => lm_surjective L i H))). Qed.

(** the running counters of the loops over (l,m) are the index of (l,m) *)
Theorem C33_counter L j l m : 0 <= L -> In (j, (l, m)) (counted L) <-> (1 <= m <= l /\ l <= L /\ j = lm2index l m).
Proof. exact (counter_spec L j l m). Qed.

(** every array access of the harmonics, the three shifts and the rotation is inside the array *)
Theorem C33_entries_distinct : forall l i j i' j', 0 <= l -> - (l + 2) <= i <= l + 2 -> - (l + 2) <= j <= l + 2 -> - (l + 2) <= i' <= l + 2 -> - (l + 2) <= j' <= l + 2 ->
  idx l i j = idx l i' j' -> i = i' /\ j = j'.
Proof. exact idx_injective. Qed.
Theorem C33_bounds L L2 z : 1 <= L -> 1 <= L2 ->
  Forall in_bounds (acc_R L ++ acc_I L ++ acc_m2m z L ++ acc_m2l L ++ acc_l2l z L L2 ++ acc_transform L).
Proof. exact (all_bounds L L2 z). Qed.

(** l_max = 0 is accepted by the C functions, and they write outside their arrays *)
Theorem C33_lmax0_refuted : ~ Forall in_bounds (acc_R 0) /\ ~ Forall in_bounds (acc_I 0) /\ ~ Forall in_bounds (acc_transform 0).
Proof. exact lmax0_refuted. Qed.

(** C34 (full statement: for all n and k each cell of the n^k super cell is counted exactly once).  Missing: even n,
    different depths in different directions, finite symmetry ranges (the three refutations).
    Hypotheses met: ex_telescope (CoulProofs2). *)
Theorem C34_exact_partial K n kk s1 s2 s3 : K = Z.max (t1 kk) (Z.max (t2 kk) (t3 kk)) -> 1 <= K ->
  good_direction K (t1 n) (t1 kk) s1 -> good_direction K (t2 n) (t2 kk) s2 -> good_direction K (t3 n) (t3 kk) s3 ->
  NoDup (near n s1 s2 s3 ++ far n kk s1 s2 s3) /\
  forall c, In c (near n s1 s2 s3 ++ far n kk s1 s2 s3) <->
    cell_within K (t1 n) (t1 c) s1 /\ cell_within K (t2 n) (t2 c) s2 /\ cell_within K (t3 n) (t3 c) s3.
Proof. intros H1 H2. exact (telescope_exact K n kk s1 s2 s3 H1 H2). Qed.

(** n = 2, k = 3: the cell -1 is counted twice and the cell 3 never *)
Theorem C34_even_refuted : let n := (1, 1, 2) in let kk := (1, 1, 3) in
  let l := near n one one inf ++ far n kk one one inf in
  count l (0, 0, -1) = 2%nat /\ count l (0, 0, 3) = 0%nat.
Proof. exact even_refuted. Qed.

Theorem C34_mixed_depth_refuted : let n := (1, 3, 3) in let kk := (1, 4, 5) in
  let l := near n one inf inf ++ far n kk one inf inf in
  count l (0, 1, 0) = 1%nat /\ count l (0, 2, 0) = 0%nat.
Proof. exact mixed_depth_refuted. Qed.

(** a finite symmetry range 0..1 in one direction: (0,0,2) is counted but not its image (0,1,2) *)
Theorem C34_rotations_refuted : let n := (1, 3, 3) in let kk := (1, 1, 3) in
  let l := near n one (Some 0, Some 1) inf ++ far n kk one (Some 0, Some 1) inf in
  count l (0, 0, 2) = 1%nat /\ count l (0, 1, 2) = 0%nat.
Proof. exact rotations_refuted. Qed.
Print Assumptions C32_right_partial.
Print Assumptions C32_cell_change_refuted.
Print Assumptions C32_after_error_refuted.
Print Assumptions C33_bijection.
Print Assumptions C33_counter.
Print Assumptions C33_entries_distinct.
Print Assumptions C33_bounds.
Print Assumptions C33_lmax0_refuted.
Print Assumptions C34_exact_partial.
Print Assumptions C34_even_refuted.
Print Assumptions C34_mixed_depth_refuted.
Print Assumptions C34_rotations_refuted.
