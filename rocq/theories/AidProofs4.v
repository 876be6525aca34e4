From Coq Require Import Reals ZArith List Bool Arith Lia Lra Psatz.
From Verif Require Import GeomModel GeomProofs AidModel AidSpec.
Import ListNotations.
Open Scope R_scope.

(** ** linear splines on increasing grids *)
Section Lin.
Variables (x y : nat -> R) (n : nat).
Hypothesis Hn : (2 <= n)%nat.
Hypothesis Hx : forall i, x i < x (S i).
Definition seg (i : nat) (v : R) : R := y i + (y (S i) - y i) / (x (S i) - x i) * (v - x i).
Lemma x_mono i j : (i <= j)%nat -> x i <= x j.
Proof. induction 1 as [|j H IH]; [lra|]. pose proof (Hx j). lra. Qed.
Lemma seg_left i : seg i (x i) = y i. Proof. unfold seg. pose proof (Hx i). field. lra. Qed.
Lemma seg_right i : seg i (x (S i)) = y (S i). Proof. unfold seg. pose proof (Hx i). field. lra. Qed.
Lemma piecewise_seg v : forall rest i j, (i <= j < i + rest)%nat -> x i <= v -> x j <= v <= x (S j) -> piecewise x y rest i v = seg j v.
Proof.
  induction rest as [|rest IH]; intros i j Hj Hi Hv; [lia|]. cbn [piecewise]. destruct (leb v (x (S i))) eqn:C.
  - apply leb_true in C. destruct (Nat.eq_dec i j) as [->|N]; [reflexivity|]. assert (L : (S i <= j)%nat) by lia. apply x_mono in L.
    assert (v = x (S i)) as -> by lra. assert (x (S i) = x j) as E by lra.
    destruct (Nat.eq_dec j (S i)) as [->|N2]; [rewrite seg_left; apply seg_right|]. exfalso. assert (L2 : (S (S i) <= j)%nat) by lia. apply x_mono in L2. pose proof (Hx (S i)). lra.
  - assert (C' : x (S i) < v). { destruct (Rlt_dec (x (S i)) v) as [Q|Q]; [exact Q|]. rewrite (proj2 (leb_true v (x (S i)))) in C by lra. discriminate. }
    destruct (Nat.eq_dec i j) as [->|N]; [lra|]. apply IH; [lia|lra|exact Hv].
Qed.
Lemma cell_of v : x 0%nat <= v <= x (n - 1)%nat -> exists j, (S j < n)%nat /\ x j <= v <= x (S j).
Proof.
  intros [V1 V2]. assert (Q : forall k, (k < n)%nat -> v <= x k -> (exists j, (S j < n)%nat /\ x j <= v <= x (S j)) ).
  { induction k as [|k IH]; intros Hk Hv.
    - exists 0%nat. split; [lia|]. pose proof (Hx 0%nat). lra.
    - destruct (Rle_dec (x k) v) as [L|N]; [exists k; split; [exact Hk|lra]|]. apply IH; [lia|lra]. }
  apply (Q (n - 1)%nat); [lia|exact V2].
Qed.
Lemma spline_seg v j : (S j < n)%nat -> x j <= v <= x (S j) -> linear_spline x y n v = seg j v.
Proof.
  intros Hj Hv. unfold linear_spline. assert (A0 : x 0%nat <= x j) by (apply x_mono; lia). assert (A1 : x (S j) <= x (n - 1)%nat) by (apply x_mono; lia).
  rewrite (proj2 (ltb_false v (x 0%nat))) by lra. rewrite (proj2 (ltb_false (x (n - 1)%nat) v)) by lra. cbn [orb]. apply piecewise_seg; [lia|lra|exact Hv].
Qed.
Lemma spline_node i : (i < n)%nat -> linear_spline x y n (x i) = y i.
Proof.
  intros Hi. destruct i as [|i].
  - rewrite (spline_seg (x 0%nat) 0) by (try lia; pose proof (Hx 0%nat); lra). apply seg_left.
  - rewrite (spline_seg (x (S i)) i) by (try lia; pose proof (Hx i); lra). apply seg_right.
Qed.
(** increments of the spline lie between lo and hi times those of v if the slopes do *)
Lemma spline_slopes lo hi : (forall i, (S i < n)%nat -> lo * (x (S i) - x i) <= y (S i) - y i <= hi * (x (S i) - x i)) ->
  forall u v, x 0%nat <= u -> u <= v -> v <= x (n - 1)%nat -> lo * (v - u) <= linear_spline x y n v - linear_spline x y n u <= hi * (v - u).
Proof.
  intros Hs.
  assert (Sl : forall i, (S i < n)%nat -> lo <= (y (S i) - y i) / (x (S i) - x i) <= hi).
  { intros i Hi. pose proof (Hs i Hi). pose proof (Hx i). split; apply (Rmult_le_reg_r (x (S i) - x i)); try lra; replace ((y (S i) - y i) / (x (S i) - x i) * (x (S i) - x i)) with (y (S i) - y i) by (field; lra); lra. }
  assert (Same : forall j u v, (S j < n)%nat -> x j <= u -> u <= v -> v <= x (S j) -> lo * (v - u) <= linear_spline x y n v - linear_spline x y n u <= hi * (v - u)).
  { intros j u v Hj U UV V. rewrite (spline_seg u j), (spline_seg v j) by (assumption || lra). unfold seg. pose proof (Sl j Hj). set (s := (y (S j) - y j) / (x (S j) - x j)) in *.
    replace (y j + s * (v - x j) - (y j + s * (u - x j))) with (s * (v - u)) by ring. split; apply Rmult_le_compat_r; lra. }
  assert (Many : forall d i u v, (S (i + d) < n)%nat -> x i <= u <= x (S i) -> u <= v -> x (i + d)%nat <= v <= x (S (i + d)) -> lo * (v - u) <= linear_spline x y n v - linear_spline x y n u <= hi * (v - u)).
  { induction d as [|d IH]; intros i u v Hd U UV V.
    - rewrite Nat.add_0_r in *. apply (Same i); assumption || lra.
    - replace (i + S d)%nat with (S i + d)%nat in * by lia.
      assert (M : x (S i) <= x (S i + d)%nat) by (apply x_mono; lia).
      pose proof (Same i u (x (S i)) ltac:(lia) ltac:(lra) ltac:(lra) ltac:(lra)) as P1.
      pose proof (IH (S i) (x (S i)) v ltac:(lia)) as P2. pose proof (Hx (S i)). specialize (P2 ltac:(lra) ltac:(lra) V). lra. }
  intros u v U UV V. destruct (cell_of u) as (i & Hi & Ui); [lra|]. destruct (cell_of v) as (j & Hj & Vj); [lra|].
  destruct (le_lt_dec i j) as [L|L].
  - apply (Many (j - i)%nat i); try assumption; replace (i + (j - i))%nat with j by lia; assumption.
  - apply (Same j); try assumption; try lra. assert (x (S j) <= x i) by (apply x_mono; lia). pose proof (Hx j). lra.
Qed.
End Lin.
(** ** the distribution *)
Section Dist.
Variables (f : R -> R) (a b : R) (N : nat).
Hypothesis HN : (2 <= N)%nat.
Hypothesis Hab : a < b.
Hypothesis Hf : forall v, a <= v <= b -> 0 <= f v.
Hypothesis Htot : 0 < trapezoid f (r_grid a b N) (N - 1).
Let x := r_grid a b N.
Let h := (b - a) / INR (N - 1).
Lemma N1 : 0 < INR (N - 1). Proof. apply lt_0_INR. lia. Qed.
Lemma Np : 0 < INR N. Proof. apply lt_0_INR. lia. Qed.
Lemma h_pos : 0 < h. Proof. apply Rdiv_lt_0_compat; [lra|apply N1]. Qed.
Lemma x_S i : x (S i) = x i + h. Proof. unfold x, r_grid, h. rewrite S_INR. ring. Qed.
Lemma x_inc i : x i < x (S i). Proof. rewrite x_S. pose proof h_pos. lra. Qed.
Lemma x_0 : x 0%nat = a. Proof. unfold x, r_grid. cbn [INR]. ring. Qed.
Lemma x_N : x (N - 1)%nat = b. Proof. unfold x, r_grid. pose proof N1. field. lra. Qed.
Lemma x_in i : (i < N)%nat -> a <= x i <= b.
Proof. intros Hi. rewrite <- x_0, <- x_N at 1. split; apply x_mono; try apply x_inc; lia. Qed.
Lemma cum_trapezoid i : trapezoid f x i = h / 2 * r_cum (r_vals f a b N) i.
Proof. induction i as [|i IH]; cbn [trapezoid r_cum]; [ring|]. rewrite IH. replace (x (S i) - x i) with h by (rewrite x_S; ring). unfold r_vals. fold x. field. Qed.
Lemma scaled_trapezoid i : r_scaled f a b N i = INR (N - 1) / INR N * trapezoid f x i.
Proof. unfold r_scaled. rewrite cum_trapezoid. unfold h. pose proof N1. pose proof Np. field. lra. Qed.
(** the number called norm *)
Lemma norm_spec : r_norm f a b N = INR (N - 1) / INR N * trapezoid f x (N - 1).
Proof. unfold r_norm. apply scaled_trapezoid. Qed.
Lemma node_spec i : r_nodes f a b N i = trapezoid f x i / trapezoid f x (N - 1).
Proof. unfold r_nodes. rewrite norm_spec, scaled_trapezoid. pose proof N1. pose proof Np. field. unfold x. lra. Qed.
Lemma F_node i : (i < N)%nat -> r_F f a b N (x i) = trapezoid f x i / trapezoid f x (N - 1).
Proof. intros Hi. unfold r_F. fold x. rewrite (spline_node x (r_nodes f a b N) N HN x_inc) by exact Hi. apply node_spec. Qed.
Lemma F_ends : r_F f a b N a = 0 /\ r_F f a b N b = 1.
Proof.
  split.
  - pose proof (F_node 0%nat ltac:(lia)) as E. rewrite x_0 in E. rewrite E. cbn [trapezoid]. unfold Rdiv. ring.
  - pose proof (F_node (N - 1)%nat ltac:(lia)) as E. rewrite x_N in E. rewrite E. unfold x. field. lra.
Qed.
Lemma node_inc i : r_nodes f a b N (S i) - r_nodes f a b N i = (x (S i) - x i) * ((f (x i) + f (x (S i))) / 2 / trapezoid f x (N - 1)).
Proof. rewrite !node_spec. cbn [trapezoid]. unfold x. field. lra. Qed.
Lemma F_slopes lo hi : (forall i, (i < N)%nat -> lo * trapezoid f x (N - 1) <= f (x i) <= hi * trapezoid f x (N - 1)) ->
  forall u v, a <= u -> u <= v -> v <= b -> lo * (v - u) <= r_F f a b N v - r_F f a b N u <= hi * (v - u).
Proof.
  intros Hs u v U UV V. unfold r_F. fold x. apply (spline_slopes x (r_nodes f a b N) N HN x_inc); [|rewrite x_0; exact U|exact UV|rewrite x_N; exact V].
  intros i Hi. rewrite node_inc. pose proof (Hs i ltac:(lia)) as S1. pose proof (Hs (S i) Hi) as S2. pose proof (x_inc i). fold x in Htot. set (T := trapezoid f x (N - 1)) in *.
  assert (Q : lo <= (f (x i) + f (x (S i))) / 2 / T <= hi).
  { split; apply (Rmult_le_reg_r T); try exact Htot; replace ((f (x i) + f (x (S i))) / 2 / T * T) with ((f (x i) + f (x (S i))) / 2) by (field; lra); lra. }
  split; rewrite (Rmult_comm _ (x (S i) - x i)); apply Rmult_le_compat_l; lra.
Qed.
Lemma max_upto (g : nat -> R) k : exists M, 0 <= M /\ forall i, (i < k)%nat -> g i <= M.
Proof.
  induction k as [|k (M & P & H)]; [exists 0; split; [lra|intros; lia]|]. exists (Rmax M (g k)). split; [pose proof (Rmax_l M (g k)); lra|].
  intros i Hi. destruct (Nat.eq_dec i k) as [->|Ne]; [apply Rmax_r|]. pose proof (H i ltac:(lia)). pose proof (Rmax_l M (g k)). lra.
Qed.
Lemma min_pos (g : nat -> R) k : (forall i, (i < k)%nat -> 0 < g i) -> exists m, 0 < m /\ forall i, (i < k)%nat -> m <= g i.
Proof.
  induction k as [|k IH]; intros Hg; [exists 1; split; [lra|intros; lia]|]. destruct IH as (m & P & H); [intros; apply Hg; lia|]. pose proof (Hg k ltac:(lia)). exists (Rmin m (g k)). split; [unfold Rmin; destruct (Rle_dec m (g k)); lra|].
  intros i Hi. destruct (Nat.eq_dec i k) as [->|Ne]; [apply Rmin_r|]. pose proof (H i ltac:(lia)). pose proof (Rmin_l m (g k)). lra.
Qed.
Lemma F_mono u v : a <= u -> u <= v -> v <= b -> r_F f a b N u <= r_F f a b N v.
Proof.
  intros U UV V. fold x in Htot. destruct (max_upto (fun i => f (x i) / trapezoid f x (N - 1)) N) as (M & P & HM).
  pose proof (F_slopes 0 M) as S. enough (0 * (v - u) <= r_F f a b N v - r_F f a b N u) by lra. apply S; try assumption.
  intros i Hi. specialize (HM i Hi). cbn beta in HM. split; [rewrite Rmult_0_l; apply Hf, x_in, Hi|]. apply (Rmult_le_reg_r (/ trapezoid f x (N - 1))); [apply Rinv_0_lt_compat; exact Htot|].
  rewrite Rmult_assoc, Rinv_r by lra. unfold Rdiv in HM. lra.
Qed.
Lemma F_lipschitz : exists K, forall u v, a <= u <= b -> a <= v <= b -> Rabs (r_F f a b N u - r_F f a b N v) <= K * Rabs (u - v).
Proof.
  fold x in Htot. destruct (max_upto (fun i => f (x i) / trapezoid f x (N - 1)) N) as (M & P & HM). exists M.
  assert (S : forall u v, a <= u -> u <= v -> v <= b -> 0 <= r_F f a b N v - r_F f a b N u <= M * (v - u)).
  { intros u v U UV V. pose proof (F_mono u v U UV V). split; [lra|]. apply (F_slopes 0 M); try assumption.
    intros i Hi. specialize (HM i Hi). cbn beta in HM. split; [rewrite Rmult_0_l; apply Hf, x_in, Hi|]. apply (Rmult_le_reg_r (/ trapezoid f x (N - 1))); [apply Rinv_0_lt_compat; exact Htot|].
    rewrite Rmult_assoc, Rinv_r by lra. unfold Rdiv in HM. lra. }
  intros u v U V. destruct (Rle_dec u v) as [L|L].
  - pose proof (S u v ltac:(lra) L ltac:(lra)). rewrite (Rabs_left1 (u - v)) by lra. rewrite Rabs_left1; lra.
  - pose proof (S v u ltac:(lra) ltac:(lra) ltac:(lra)). rewrite (Rabs_right (u - v)) by lra. rewrite Rabs_right; lra.
Qed.
Lemma sample_spec brentq rnd : brentq_contract brentq -> 0 <= rnd <= 1 ->
  a <= r_call f a b N brentq rnd <= b /\ r_F f a b N (r_call f a b N brentq rnd) = rnd.
Proof.
  intros C Hr. destruct F_lipschitz as (K & HK). destruct F_ends as [E0 E1].
  unfold r_call. fold x. rewrite x_0, x_N.
  destruct (C (fun v => r_F f a b N v - rnd) a b Hab K) as [B Z].
  - intros u v U V. replace (r_F f a b N u - rnd - (r_F f a b N v - rnd)) with (r_F f a b N u - r_F f a b N v) by ring. apply HK; assumption.
  - rewrite E0, E1. lra.
  - split; [exact B|lra].
Qed.
(** where f is positive the probability of numbers up to t is F(t) *)
Lemma sample_distribution brentq rnd t : brentq_contract brentq -> (forall i, (i < N)%nat -> 0 < f (x i)) -> 0 <= rnd <= 1 -> a <= t <= b ->
  (r_call f a b N brentq rnd <= t <-> rnd <= r_F f a b N t).
Proof.
  intros C Hp Hr Ht. destruct (sample_spec brentq rnd C Hr) as [B E]. set (s := r_call f a b N brentq rnd) in *. split; intros H.
  - rewrite <- E. apply F_mono; lra.
  - destruct (Rle_dec s t) as [L|L]; [exact L|]. exfalso. fold x in Htot.
    destruct (min_pos (fun i => f (x i) / trapezoid f x (N - 1)) N) as (m & Pm & Hm); [intros i Hi; apply Rdiv_lt_0_compat; [apply Hp, Hi|exact Htot]|].
    destruct (max_upto (fun i => f (x i) / trapezoid f x (N - 1)) N) as (M & PM & HM).
    assert (S : m * (s - t) <= r_F f a b N s - r_F f a b N t).
    { apply (F_slopes m M); try lra. intros i Hi. specialize (HM i Hi). specialize (Hm i Hi). cbn beta in *.
      assert (Q : f (x i) = f (x i) / trapezoid f x (N - 1) * trapezoid f x (N - 1)) by (field; lra). rewrite Q. split; apply Rmult_le_compat_r; lra. }
    assert (0 < m * (s - t)) by (apply Rmult_lt_0_compat; lra). lra.
Qed.
End Dist.
(** the norm is not the integral *)
Lemma norm_refuted : exists f a b, a < b /\ 0 < trapezoid f (r_grid a b r_N) (r_N - 1) /\ r_norm f a b r_N <> trapezoid f (r_grid a b r_N) (r_N - 1).
Proof.
  exists (fun _ => 1), 0, 1. assert (HN : (2 <= r_N)%nat) by (unfold r_N; lia).
  assert (T : forall i, trapezoid (fun _ => 1) (r_grid 0 1 r_N) i = INR i * (1 / INR (r_N - 1))).
  { induction i as [|i IH]; [cbn [trapezoid INR]; ring|]. cbn [trapezoid]. rewrite IH. unfold r_grid. rewrite !S_INR. field. apply not_0_INR. lia. }
  assert (T1 : trapezoid (fun _ => 1) (r_grid 0 1 r_N) (r_N - 1) = 1) by (rewrite T; field; apply not_0_INR; lia).
  split; [lra|]. split; [rewrite T1; lra|]. rewrite norm_spec by (exact HN || lra). rewrite T1.
  rewrite minus_INR by lia. change (INR 1) with 1. assert (P : (0 < r_N)%nat) by lia. apply lt_0_INR in P. clear T T1 HN. set (n := INR r_N) in *. clearbody n. intros E. assert (Q : (n - 1) / n * 1 * n = n) by (rewrite E; ring). assert (Q2 : (n - 1) / n * 1 * n = n - 1) by (field; lra). lra.
Qed.
