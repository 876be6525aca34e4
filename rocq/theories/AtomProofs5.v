From Coq Require Import Reals List Bool Arith Lra Lia.
From Verif Require Import Vec GeomModel GeomProofs AtomModel AtomSpec AtomProofs AtomProofs2 AtomProofs3 AtomProofs4 SkProofs6 PairProofs.
Import ListNotations.
Open Scope R_scope.

Lemma vxc_derivative n : small < n -> derivable_pt_lim (fun t => t * pw_exc t false) n (pw_vxc n).
Proof.
  intros Hn. assert (S0 : 0 < small) by (unfold small; apply Rinv_0_lt_compat, pow_lt; lra).
  apply (derivable_local _ (fun t => t * (e_x t false + e_corr t false)) n _ (n - small)); [lra| |].
  - intros t Ht. apply Rabs_def2 in Ht. unfold pw_exc. rewrite (proj2 (ltb_false t small)) by lra. reflexivity.
  - unfold pw_vxc, pw_exc. rewrite (proj2 (ltb_false n small)) by lra.
    apply (D_eq _ _ (1 * (e_x n false + e_corr n false) + n * (e_x n true + e_corr n true))); [|ring].
    apply (D_mult (fun t => t) (fun t => e_x t false + e_corr t false)); [apply D_id|].
    apply (D_plus (fun t => e_x t false) (fun t => e_corr t false)); [apply e_x_derivative; lra|apply e_corr_derivative; lra].
Qed.
Lemma vxc_vacuum n : n < small -> derivable_pt_lim (fun t => t * pw_exc t false) n (pw_vxc n) /\ pw_vxc n = 0.
Proof.
  intros Hn. assert (V : pw_vxc n = 0) by (unfold pw_vxc, pw_exc; rewrite (proj2 (ltb_true n small)) by lra; ring). split; [|exact V].
  rewrite V. apply (derivable_local _ (fun _ => 0) n _ (small - n)); [lra| |apply D_const].
  intros t Ht. apply Rabs_def2 in Ht. unfold pw_exc. rewrite (proj2 (ltb_true t small)) by lra. ring.
Qed.
(** sign of the functional: it binds *)
Lemma exc_negative n : 0 < n -> e_x n false < 0 /\ e_corr n false < 0.
Proof.
  intros Hn. split.
  - unfold e_x. cbn [negb]. assert (0 < Rpower (3 * n / PI) (1 / 3)) by apply exp_pos. lra.
  - rewrite e_corr_es by exact Hn. unfold pw_es. pose proof (pw_s_pos n) as Hs. set (s := pw_s n) in *. pose proof (pw_aux_pos s Hs) as A.
    assert (Q : 0 < ln (1 + / pw_aux s)) by (rewrite <- ln_1; apply ln_increasing; [lra|pose proof (Rinv_0_lt_compat _ A); lra]).
    assert (0 < 1 + pw_a1 * s ^ 2) by (unfold pw_a1; nra). unfold pw_c0. nra.
Qed.

(** ** tails *)
Lemma signs_no N y k s i : (k <= i < N)%nat -> y i * s < 0 -> tail_signs N y k s = false.
Proof.
  intros H Hs. unfold tail_signs. apply not_true_iff_false. intros E. rewrite forallb_forall in E. specialize (E i ltac:(apply in_seq; lia)).
  apply leb_true in E. lra.
Qed.
Lemma signs_yes N y k s : (forall i, (k <= i < N)%nat -> 0 <= y i * s) -> tail_signs N y k s = true.
Proof. intros H. unfold tail_signs. apply forallb_forall. intros i Hi. apply in_seq in Hi. apply leb_true. apply H. lia. Qed.
Definition tx (i : nat) : R := 2 * INR i.
Definition ty (i : nat) : R := match i with O => 20 | 1%nat => 15 | 2%nat => 9 | 3%nat => 1 | 4%nat => 3 / 4 | _ => 1 / 2 end.
Lemma tx_inc N : increasing N tx.
Proof. intros i _. unfold tx. rewrite S_INR. lra. Qed.
Lemma not_tiny N y i : (i < N)%nat -> 1 <= y i -> forallb (fun i => ltb (Rabs (y i)) (/ 10 ^ 10)) (seq 0 N) = false.
Proof.
  intros Hi Hy. apply not_true_iff_false. intros E. rewrite forallb_forall in E. specialize (E i ltac:(apply in_seq; lia)). apply ltb_true in E.
  rewrite Rabs_right in E by lra. assert (/ 10 ^ 10 < 1) by (rewrite <- Rinv_1; apply Rinv_lt_contravar; lra). lra.
Qed.
Lemma ty_k : find_k 6 tx ty 3 = Some 2%nat.
Proof.
  cbn [find_k]. assert (C3 : crosses 6 tx ty 3 = false).
  { unfold crosses, ty, tx, xmax. destruct (Req_EM_T (3 / 4) 1); [lra|]. apply ltb_false. cbn [INR Nat.sub]. unfold tx. cbn [INR]. lra. }
  assert (C2 : crosses 6 tx ty 2 = true).
  { unfold crosses, ty, tx, xmax. destruct (Req_EM_T 1 9); [lra|]. apply ltb_true. cbn [INR Nat.sub]. unfold tx. cbn [INR]. lra. }
  rewrite C3, C2. reflexivity.
Qed.
Lemma fill_val y m (c3 c2 : R) : y 2%nat = 9 -> y 3%nat = 1 ->
  tail_c3 6 tx y 2 m = c3 -> tail_c2 6 tx y 2 m = c2 ->
  let f := tail_fill 6 tx y 2 m in f 2%nat = 9 /\ f 3%nat = 1 /\ f 4%nat = c2 * 4 + c3 * 8 /\ f 5%nat = 0.
Proof.
  intros H2 H3 <- <-. unfold tail_fill, upd, xmax. cbn [Nat.leb Nat.ltb Nat.eqb andb Nat.sub Nat.add]. unfold tx at 3 4 7 8. cbn [INR].
  repeat split; try assumption. unfold tx. cbn [INR]. ring.
Qed.
Lemma c3_val y m p q : y 2%nat = 9 -> y 3%nat = 1 -> 6 ^ m = p -> 4 ^ m = q -> q <> 0 ->
  tail_c3 6 tx y 2 m = (9 - p / q) / (2 * p) /\ tail_c2 6 tx y 2 m = (9 - 6 * p * ((9 - p / q) / (2 * p))) / p.
Proof.
  intros H2 H3 Hp Hq Q. assert (P : p <> 0) by (rewrite <- Hp; apply pow_nonzero; lra).
  assert (X2 : xmax 6 tx - tx 2 = 6) by (unfold xmax, tx; cbn [Nat.sub INR]; lra).
  assert (X3 : xmax 6 tx - tx 3 = 4) by (unfold xmax, tx; cbn [Nat.sub INR]; lra).
  assert (C : tail_c3 6 tx y 2 m = (9 - p / q) / (2 * p)).
  { unfold tail_c3. cbv zeta. rewrite X2, X3, H2, H3. rewrite !pow_add, Hp, Hq. cbn [pow]. 
    replace (p * (6 * 1) - p * (q * (4 * 1)) / q) with (2 * p) by (field; exact Q). f_equal. field. exact Q. }
  split; [exact C|]. unfold tail_c2. rewrite C, X2, H2. rewrite pow_add, Hp. cbn [pow]. f_equal. ring.
Qed.
Lemma ty_out : exists out, tail_smoothening 6 tx ty = TOk out /\ out 2%nat = 9 /\ out 3%nat = 1 /\ out 4%nat = 1 / 288 /\ out 5%nat = 0.
Proof.
  unfold tail_smoothening. rewrite (not_tiny 6 ty 0) by (cbn; lra || lia). change (6 - 3)%nat with 3%nat. rewrite ty_k.
  change (4 * 2 <? 6)%nat with false. change (2 =? 3)%nat with false.
  assert (S1 : sgn (ty 2) = 1) by (unfold sgn, ty; rewrite (proj2 (ltb_true 0 9)) by lra; reflexivity). rewrite S1. cbv iota.
  destruct (c3_val ty 2 36 16 ltac:(reflexivity) ltac:(reflexivity) ltac:(lra) ltac:(lra) ltac:(lra)) as [A3 A2].
  destruct (fill_val ty 2 _ _ ltac:(reflexivity) ltac:(reflexivity) A3 A2) as (B2 & B3 & B4 & B5). set (y1 := tail_fill 6 tx ty 2 2) in *.
  destruct (c3_val y1 3 216 64 B2 B3 ltac:(lra) ltac:(lra) ltac:(lra)) as [C3 C2].
  destruct (fill_val y1 3 _ _ B2 B3 C3 C2) as (D2 & D3 & D4 & D5). set (y2 := tail_fill 6 tx y1 2 3) in *.
  destruct (c3_val y2 4 1296 256 D2 D3 ltac:(lra) ltac:(lra) ltac:(lra)) as [E3 E2].
  destruct (fill_val y2 4 _ _ D2 D3 E3 E2) as (F2 & F3 & F4 & F5). set (y3 := tail_fill 6 tx y2 2 4) in *.
  exists y3. cbn [tail_try]. change (9 - 7)%nat with 2%nat. fold y1. rewrite (signs_no 6 y1 2 1 4) by (lia || (rewrite B4; lra)).
  change (9 - 6)%nat with 3%nat. fold y2. rewrite (signs_no 6 y2 2 1 4) by (lia || (rewrite D4; lra)).
  change (9 - 5)%nat with 4%nat. fold y3. rewrite signs_yes.
  2:{ intros i Hi. destruct i as [|[|[|[|[|[|i]]]]]]; try lia; [rewrite F2|rewrite F3|rewrite F4|rewrite F5]; lra. }
  repeat split; try assumption. rewrite F4. lra.
Qed.
(** the tail is not a cubic with a double zero through the last two kept points *)
Lemma tail_through_refuted : exists N x y out k,
  increasing N x /\ tail_smoothening N x y = TOk out /\ (k + 3 < N)%nat /\ out k = y k /\ out (S k) = y (S k) /\ out (k + 2)%nat <> y (k + 2)%nat /\
  forall a b, ~ (forall i, (k <= i < N)%nat -> out i = cubic a b (xmax N x) (x i)).
Proof.
  destruct ty_out as (out & H & O2 & O3 & O4 & O5). exists 6%nat, tx, ty, out, 2%nat. split; [apply tx_inc|]. split; [exact H|].
  split; [lia|]. split; [exact O2|]. split; [exact O3|]. split; [change (2 + 2)%nat with 4%nat; rewrite O4; unfold ty; lra|].
  intros a b G. pose proof (G 2%nat ltac:(lia)) as G2. pose proof (G 3%nat ltac:(lia)) as G3. pose proof (G 4%nat ltac:(lia)) as G4.
  rewrite O2 in G2. rewrite O3 in G3. rewrite O4 in G4. unfold cubic, xmax, tx in *. cbn [Nat.sub INR] in *. lra.
Qed.
(** a table of tiny values is returned as it is, without zero at the end *)
Lemma tail_tiny_refuted : exists N x y out, increasing N x /\ (0 < N)%nat /\ tail_smoothening N x y = TOk out /\ out (N - 1)%nat <> 0.
Proof.
  set (e := / 10 ^ 11). assert (Q : 0 < e < / 10 ^ 10).
  { unfold e. split; [apply Rinv_0_lt_compat, pow_lt; lra|]. apply Rinv_lt_contravar; [apply Rmult_lt_0_compat; apply pow_lt; lra|]. lra. }
  exists 6%nat, tx, (fun _ => e), (fun _ => e). split; [apply tx_inc|]. split; [lia|]. split; [|lra].
  unfold tail_smoothening. rewrite (proj2 (forallb_forall _ _)); [reflexivity|]. intros i _. apply ltb_true. rewrite Rabs_right; lra.
Qed.
(** the exact condition of the missing k: no pair of neighbours from 2 on aims below the last point *)
Lemma find_k_none N x y i : find_k N x y i = None <-> forall j, (2 <= j <= i)%nat -> crosses N x y j = false.
Proof.
  induction i as [|i IH]; [split; [intros _ j Hj; lia|reflexivity]|].
  destruct i as [|i]; [split; [intros _ j Hj; lia|reflexivity]|].
  change (find_k N x y (S (S i))) with (if crosses N x y (S (S i)) then Some (S (S i)) else find_k N x y (S i)).
  destruct (crosses N x y (S (S i))) eqn:E.
  - split; [discriminate|]. intros H. rewrite H in E by lia. discriminate.
  - rewrite IH. split; intros H j Hj; [|apply H; lia]. destruct (Nat.eq_dec j (S (S i))) as [->|]; [exact E|apply H; lia].
Qed.
Lemma try_bound N x s k n y : tail_try N x s k n y <> TUnbound.
Proof. revert y. induction n as [|n IH]; intros y; cbn [tail_try]; destruct (tail_signs _ _ _ _); try discriminate. apply IH. Qed.
Lemma tail_unbound N x y : tail_smoothening N x y = TUnbound <->
  (exists i, (i < N)%nat /\ / 10 ^ 10 <= Rabs (y i)) /\ (forall j, (2 <= j <= N - 3)%nat -> crosses N x y j = false).
Proof.
  unfold tail_smoothening. destruct (forallb _ (seq 0 N)) eqn:E.
  - split; [discriminate|]. intros [[i [Hi Hs]] _]. rewrite forallb_forall in E. specialize (E i ltac:(apply in_seq; lia)). apply ltb_true in E. lra.
  - assert (A : exists i, (i < N)%nat /\ / 10 ^ 10 <= Rabs (y i)).
    { clear -E. assert (G : forall l, forallb (fun i => ltb (Rabs (y i)) (/ 10 ^ 10)) l = false -> exists i, In i l /\ / 10 ^ 10 <= Rabs (y i)).
      { induction l as [|i l IH]; cbn [forallb]; [discriminate|]. intros H. apply andb_false_iff in H. destruct H as [H|H].
        - exists i. split; [left; reflexivity|]. apply ltb_false in H. exact H.
        - destruct (IH H) as [j [A B]]. exists j. split; [right; exact A|exact B]. }
      destruct (G _ E) as [i [A B]]. apply in_seq in A. exists i. split; [lia|exact B]. }
    destruct (find_k N x y (N - 3)) as [k|] eqn:F.
    + split.
      * destruct (4 * k <? N)%nat; [discriminate|]. destruct (k =? N - 3)%nat; [discriminate|]. 
        intros H. exfalso. exact (try_bound _ _ _ _ _ _ H).
      * intros [_ H]. apply find_k_none in H. rewrite H in F. discriminate.
    + split; [|reflexivity]. intros _. split; [exact A|]. apply find_k_none. exact F.
Qed.
(** fewer than five points always fail *)
Lemma tail_short N x y : (N < 5)%nat -> (exists i, (i < N)%nat /\ / 10 ^ 10 <= Rabs (y i)) -> tail_smoothening N x y = TUnbound.
Proof. intros H A. apply tail_unbound. split; [exact A|]. intros j Hj. lia. Qed.

(** ** examples *)
(** a table whose tail is the cubic (xmax - x)^2 already *)
Example tail_example : exists out, tail_smoothening 6 tx (fun i => match i with O => 100 | 1%nat => 64 | 2%nat => 36 | 3%nat => 16 | 4%nat => 12 | _ => 1 end) = TOk out /\
  out 4%nat = 4 /\ out 5%nat = 0.
Proof.
  set (y := fun i : nat => match i with O => 100 | 1%nat => 64 | 2%nat => 36 | 3%nat => 16 | 4%nat => 12 | _ => 1 end).
  assert (K : find_k 6 tx y 3 = Some 2%nat).
  { cbn [find_k]. assert (C3 : crosses 6 tx y 3 = false).
    { unfold crosses, y, tx, xmax. destruct (Req_EM_T 12 16); [lra|]. apply ltb_false. cbn [INR Nat.sub]. unfold tx. cbn [INR]. lra. }
    assert (C2 : crosses 6 tx y 2 = true).
    { unfold crosses, y, tx, xmax. destruct (Req_EM_T 16 36); [lra|]. apply ltb_true. cbn [INR Nat.sub]. unfold tx. cbn [INR]. lra. }
    rewrite C3, C2. reflexivity. }
  assert (T : exists i, (i < 6)%nat /\ / 10 ^ 10 <= Rabs (y i)).
  { exists 0%nat. split; [lia|]. unfold y. rewrite Rabs_right by lra. assert (/ 10 ^ 10 < 1) by (rewrite <- Rinv_1; apply Rinv_lt_contravar; lra). lra. }
  assert (X : xmax 6 tx = 10) by (unfold xmax, tx; cbn [Nat.sub INR]; lra).
  assert (O : exists out, tail_smoothening 6 tx y = TOk out).
  { unfold tail_smoothening. rewrite (not_tiny 6 y 0) by (cbn; lra || lia). change (6 - 3)%nat with 3%nat. rewrite K.
    change (4 * 2 <? 6)%nat with false. change (2 =? 3)%nat with false. cbv iota. cbn [tail_try]. change (9 - 7)%nat with 2%nat.
    assert (S1 : sgn (y 2%nat) = 1) by (unfold sgn, y; rewrite (proj2 (ltb_true 0 36)) by lra; reflexivity). rewrite S1.
    rewrite signs_yes; [eexists; reflexivity|]. 
    assert (C : tail_c3 6 tx y 2 2 = 0) by (unfold tail_c3; cbv zeta; rewrite X; unfold tx, y; cbn [INR pow Nat.add]; field).
    assert (D : tail_c2 6 tx y 2 2 = 1) by (unfold tail_c2; rewrite C, X; unfold tx, y; cbn [INR pow Nat.add]; field).
    intros i Hi. unfold tail_fill, upd. rewrite C, D, X. destruct i as [|[|[|[|[|[|i]]]]]]; try lia; cbn [Nat.leb Nat.ltb Nat.eqb andb Nat.sub Nat.add]; unfold y, tx; cbn [INR]; lra. }
  destruct O as [out O]. exists out. split; [exact O|].
  assert (P : forall i, (2 <= i < 6)%nat -> out i = cubic 1 0 (xmax 6 tx) (tx i)).
  { apply (tail_cubic 6 tx (tx_inc 6) y out 2 1 0 O T K); [discriminate| | |].
    - rewrite X. unfold cubic, tx, y. cbn [INR]. lra.
    - rewrite X. unfold cubic, tx, y. cbn [INR]. lra.
    - intros i Hi. rewrite X. unfold cubic. unfold y. pose proof (pow2_ge_0 (10 - tx i)). lra. }
  split; [rewrite P by lia|rewrite P by lia]; rewrite X; unfold cubic, tx; cbn [INR]; lra.
Qed.
(** three points, c2 = c1 = 0-free coefficients: the shoot ends at the only inner point *)
Example shoot_example : exists r, shoot 1 (fun _ => coef2) (fun _ => coef1) (fun i => match i with 1%nat => 1 | _ => -1 end) 3 (fun _ => 1) = Some r /\
  sh_ctp r = 1%nat /\ sh_u r 1%nat <> 0.
Proof.
  unfold shoot. change (3 - 2)%nat with 1%nat. cbn [back]. rewrite (proj2 (ltb_true 0 1)) by lra. cbv iota.
  eexists. split; [reflexivity|]. cbn [sh_ctp sh_u]. split; [reflexivity|].
  set (v := back_step _ _ _ _ _ _).
  assert (V1 : v 1%nat = -2).
  { unfold v, back_step, upd, fp, fm, f0, coef1, coef2. cbn [Nat.sub Nat.add Nat.eqb Nat.leb]. 
    rewrite (proj2 (ltb_false (10 ^ 10) _)). { cbn [Nat.eqb]. field. }
    apply Rabs_le. cbn [pow]. split; lra. }
  cbn [fwd Nat.sub Nat.add]. unfold upd. cbn [Nat.eqb Nat.leb]. rewrite V1. unfold sgn.
  replace (-2 * (-2 / -2)) with (-2) by field. rewrite (proj2 (ltb_false 0 (-2))) by lra. rewrite (proj2 (ltb_true (-2) 0)) by lra. lra.
Qed.
Example grid_example : increasing 3 (fun i => INR (S i)) /\ rsum 2 (fun i => / 2 * (1 + 1) * g_dV 3 (fun i => INR (S i)) i) = 36 * PI.
Proof.
  assert (I : increasing 3 (fun i => INR (S i))) by (intros i _; rewrite (S_INR (S i)); lra). split; [exact I|].
  transitivity (rsum (3 - 1) (g_dV 3 (fun i => INR (S i)))); [apply rsum_ext; intros; lra|].
  rewrite dV_total; [|lia|exact I|cbn [INR]; lra]. cbn [Nat.sub INR]. field.
Qed.
Example IP_EA_example : IP_EA (-1) 0 5 1 1 = Some (5, 1).
Proof. rewrite IP_EA_unit. f_equal. f_equal; lra. Qed.
(** matching: the mismatch A vanishes exactly when the equation holds at the matching point too *)
Lemma shoot_matched dx c2 c1 c0 N u r : dx <> 0 -> (2 <= N)%nat ->
  (forall i, (1 <= i <= N - 2)%nat -> fm dx c2 c1 i <> 0) -> (forall i, (1 <= i <= N - 2)%nat -> fp dx c2 c1 i <> 0) ->
  (forall i, (1 <= i <= N - 2)%nat -> c2 i <> 0) ->
  shoot dx c2 c1 c0 N u = Some r -> sh_u r (sh_ctp r) <> 0 -> sh_u r 1%nat <> 0 ->
  (sh_A r = 0 <-> forall i, (1 <= i <= N - 2)%nat -> residual dx c2 c1 c0 (sh_u r) i = 0).
Proof.
  intros Hdx HN Hm Hp H2 H Hc H1.
  destruct (shoot_spec dx c2 c1 c0 N Hdx Hm Hp u r HN H Hc H1) as (R1 & R2 & A & _). rewrite A.
  specialize (Hm _ R1). specialize (Hp _ R1). specialize (H2 _ R1).
  assert (Q : / fp dx c2 c1 (sh_ctp r) + / fm dx c2 c1 (sh_ctp r) <> 0).
  { replace (/ fp dx c2 c1 (sh_ctp r) + / fm dx c2 c1 (sh_ctp r)) with ((2 * c2 (sh_ctp r) / dx ^ 2) * / fp dx c2 c1 (sh_ctp r) * / fm dx c2 c1 (sh_ctp r)).
    - repeat apply Rmult_integral_contrapositive_currified; try (apply Rinv_neq_0_compat; assumption); try assumption; try lra.
      apply Rinv_neq_0_compat, pow_nonzero. exact Hdx.
    - assert (E : 2 * c2 (sh_ctp r) / dx ^ 2 = fp dx c2 c1 (sh_ctp r) + fm dx c2 c1 (sh_ctp r)) by (unfold fp, fm; field; exact Hdx).
      rewrite E. field. split; assumption. }
  split.
  - intros E i Hi. destruct (Nat.eq_dec i (sh_ctp r)) as [->|Hne]; [|apply R2; assumption].
    unfold Rdiv in E. apply Rmult_integral in E. destruct E as [E|E].
    2:{ exfalso. apply (Rinv_neq_0_compat (2 * dx)); [lra|exact E]. }
    apply Rmult_integral in E. destruct E as [E|E]; [|contradiction].
    apply Rmult_integral in E. destruct E as [E|E]; [contradiction|exact E].
  - intros E. rewrite (E _ R1). unfold Rdiv. ring.
Qed.
(** coefficients of the radial equation: any step between 0 and 2 will do *)
Lemma radial_step dx i : 0 < dx < 2 -> fm dx (fun _ => coef2) (fun _ => coef1) i <> 0 /\ fp dx (fun _ => coef2) (fun _ => coef1) i <> 0.
Proof.
  intros H. unfold fm, fp, coef1, coef2. split.
  - replace (1 / dx ^ 2 - / 2 * -1 / dx) with ((2 + dx) * / (2 * dx ^ 2)) by (field; lra). apply Rmult_integral_contrapositive_currified; [lra|].
    apply Rinv_neq_0_compat. assert (0 < dx ^ 2) by nra. lra.
  - replace (1 / dx ^ 2 + / 2 * -1 / dx) with ((2 - dx) * / (2 * dx ^ 2)) by (field; lra). apply Rmult_integral_contrapositive_currified; [lra|].
    apply Rinv_neq_0_compat. assert (0 < dx ^ 2) by nra. lra.
Qed.
Lemma shoot_none dx c2 c1 c0 N u : (2 <= N)%nat -> (shoot dx c2 c1 c0 N u = None <->
  (forall j, (1 <= j <= N - 2)%nat -> c0 j <= 0) /\ ((exists j, (j < N)%nat /\ 0 <= c0 j) \/ N = 2%nat)).
Proof.
  intros HN. unfold shoot. destruct (back dx c2 c1 c0 N (N - 2) _) as [[u2 ctp]|] eqn:E.
  - split; [discriminate|]. intros [A B]. exfalso.
    assert (back dx c2 c1 c0 N (N - 2) (upd (upd u (N - 1) 1) (N - 2) (upd u (N - 1) 1 (N - 1)%nat * f0 dx c2 c0 (N - 1) / fm dx c2 c1 (N - 1))) = None).
    { apply back_none. split; [exact A|]. destruct B as [B|B]; [left; exact B|right]. subst N. left. cbn. lia. }
    congruence.
  - split; [|reflexivity]. intros _. apply back_none in E. destruct E as [A B]. split; [exact A|]. destruct B as [B|[B|B]]; [left; exact B|right|right].
    + pose proof (Nat.div_mod N 2 ltac:(lia)). pose proof (Nat.mod_upper_bound N 2 ltac:(lia)). lia.
    + pose proof (Nat.div_mod N 2 ltac:(lia)). pose proof (Nat.mod_upper_bound N 2 ltac:(lia)). lia.
Qed.
Lemma shells N grid : (2 <= N)%nat -> increasing N grid -> 0 < grid 0%nat -> shell_volumes N grid (g_dV N grid).
Proof.
  intros HN Hi H0. split; [apply dV_total; assumption|].
  exists (4 * PI * grid (N - 1)%nat ^ 3 / 3 / rsum (N - 1) (g_dV0 grid)). split.
  - pose proof (sum_pos N HN (N - 1) (g_dV0 grid) ltac:(lia) (dV0_pos N grid HN Hi H0)) as S. pose proof (grid_pos N grid HN Hi H0 (N - 1) ltac:(lia)) as G.
    pose proof PI_RGT_0. pose proof (pow_lt _ 3 G). apply Rdiv_lt_0_compat; [nra|exact S].
  - intros i _. unfold g_dV, g_dV0, g_r0, g_dr. replace (grid i + (grid (i + 1)%nat - grid i) / 2) with ((grid i + grid (i + 1)%nat) / 2) by field. ring.
Qed.
Lemma raw_sum N grid dens : rsum (N - 1) (fun i => / 2 * (dens (i + 1)%nat + dens i) * g_dV N grid i) = rsum (N - 1) (shell_raw (g_dV N grid) dens).
Proof. apply rsum_ext. intros i _. unfold shell_raw. field. Qed.
Lemma charge_n0 N grid dens nel i : h_n0 N grid nel dens i * g_dV N grid i = shell_charge N (g_dV N grid) dens nel i.
Proof. unfold h_n0, shell_charge. cbv zeta. rewrite raw_sum. unfold shell_raw, Rdiv. ring. Qed.
Lemma hartree_shells N grid nel dens i : (2 <= N)%nat -> (i < N)%nat ->
  hartree N grid nel dens i = shell_potential N grid (shell_charge N (g_dV N grid) dens nel) i.
Proof.
  intros HN Hi. rewrite hartree_gauss by assumption. unfold shell_potential, inside. f_equal.
  - f_equal. apply rsum_ext. intros j _. apply charge_n0.
  - apply rsum_ext. intros j _. rewrite charge_n0. f_equal. unfold g_r0, g_dr. field.
Qed.
Lemma hartree_edge N grid nel dens : (2 <= N)%nat -> rsum (N - 1) (shell_raw (g_dV N grid) dens) <> 0 ->
  rsum (N - 1) (shell_charge N (g_dV N grid) dens nel) = nel /\ hartree N grid nel dens (N - 1) = nel / grid (N - 1)%nat.
Proof.
  intros HN Hd. rewrite <- raw_sum in Hd. split; [|apply hartree_outer; assumption].
  transitivity (inside (g_dV N grid) (h_n0 N grid nel dens) (N - 1)); [|apply inside_all; exact Hd]. unfold inside. apply rsum_ext. intros i _. symmetry. apply charge_n0.
Qed.
Lemma hartree_bounds N grid nel dens : (2 <= N)%nat -> increasing N grid -> 0 < grid 0%nat -> 0 <= nel -> (forall i, (i < N)%nat -> 0 <= dens i) ->
  rsum (N - 1) (shell_raw (g_dV N grid) dens) <> 0 ->
  (forall i, (S i < N)%nat -> hartree N grid nel dens (S i) <= hartree N grid nel dens i) /\
  forall i, (i < N)%nat -> nel / grid (N - 1)%nat <= hartree N grid nel dens i <= nel / grid i.
Proof.
  intros HN Hi H0 Hn Hp Hd. rewrite <- raw_sum in Hd.
  assert (D : forall i, (S i < N)%nat -> hartree N grid nel dens (S i) <= hartree N grid nel dens i).
  { intros i Hs. apply hartree_decreasing; assumption. }
  split; [exact D|]. intros i HiN. split.
  - rewrite <- (hartree_outer N grid HN nel dens Hd). assert (G : forall d, (d <= N - 1)%nat -> hartree N grid nel dens (N - 1) <= hartree N grid nel dens (N - 1 - d)).
    { induction d as [|d IH]; intros Hd'; [rewrite Nat.sub_0_r; lra|]. specialize (IH ltac:(lia)). specialize (D (N - 1 - S d)%nat ltac:(lia)).
      replace (S (N - 1 - S d)) with (N - 1 - d)%nat in D by lia. lra. }
    specialize (G (N - 1 - i)%nat ltac:(lia)). replace (N - 1 - (N - 1 - i))%nat with i in G by lia. exact G.
  - rewrite hartree_shells by assumption. unfold shell_potential. set (q := shell_charge N (g_dV N grid) dens nel).
    assert (Q : forall j, (j < N - 1)%nat -> 0 <= q j).
    { intros j Hj. unfold q. rewrite <- charge_n0. apply Rmult_le_pos; [apply n0_nonneg; assumption|left; apply dV_pos; assumption]. }
    assert (T : rsum (N - 1) q = nel). { unfold q. transitivity (inside (g_dV N grid) (h_n0 N grid nel dens) (N - 1)); [|apply inside_all; exact Hd]. unfold inside. apply rsum_ext. intros j _. symmetry. apply charge_n0. }
    assert (T' : nel = rsum i q + rsum (N - 1 - i) (fun j => q (i + j)%nat)). { rewrite <- T. replace (N - 1)%nat with (i + (N - 1 - i))%nat at 1 by lia. apply rsum_split. }
    rewrite T'. unfold Rdiv at 1 4. rewrite Rmult_plus_distr_r. apply Rplus_le_compat_l. rewrite <- rsum_scal_r. apply rsum_le. intros j Hj.
    unfold Rdiv. apply Rmult_le_compat_l; [apply Q; lia|]. pose proof (grid_pos N grid HN Hi H0 i HiN). apply Rinv_le_contravar; [assumption|].
    pose proof (Hi (i + j)%nat ltac:(lia)) as S1. replace (S (i + j)) with (i + j + 1)%nat in S1 by lia.
    assert (S2 : grid i <= grid (i + j)%nat). { destruct j as [|j]; [rewrite Nat.add_0_r; lra|]. left. apply (x_lt N grid Hi); lia. }
    lra.
Qed.
