From Coq Require Import Reals ZArith Bool Arith Lia Lra.
From Verif Require Import Vec GeomModel GeomProofs PairProofs SkProofs6 SplModel SplSpec.
Open Scope R_scope.

(** ** The sweep never divides by zero and solves the equations *)
Lemma sweep_bounds n x y i : increasing n x -> (S i < n)%nat -> -1 < fst (sweep x y i) <= 0.
Proof.
  intros Hx. induction i as [|k IH]; intros Hi; [cbn; lra|].
  pose proof (Hx k ltac:(lia)) as A. pose proof (Hx (S k) ltac:(lia)) as B. specialize (IH ltac:(lia)).
  cbn [sweep]. destruct (sweep x y k) as [d u]. cbn [fst] in *.
  set (sig := (x (S k) - x k) / (x (S (S k)) - x k)).
  assert (S1 : 0 < sig < 1).
  { unfold sig. split; [apply Rdiv_lt_0_compat; lra|]. apply (Rmult_lt_reg_r (x (S (S k)) - x k)); [lra|]. field_simplify; lra. }
  assert (P : 1 < sig * d + 2) by nra. split.
  - apply (Rmult_lt_reg_r (sig * d + 2)); [lra|]. replace ((sig - 1) / (sig * d + 2) * (sig * d + 2)) with (sig - 1) by (field; lra). nra.
  - apply (Rmult_le_reg_r (sig * d + 2)); [lra|]. replace ((sig - 1) / (sig * d + 2) * (sig * d + 2)) with (sig - 1) by (field; lra). lra.
Qed.
Lemma second_last x y n : second x y n (n - 1) = 0.
Proof. unfold second. rewrite Nat.sub_diag. cbn [back]. rewrite !Rmult_0_l. unfold Rdiv. ring. Qed.
Lemma second_step x y n i : (S i < n)%nat -> second x y n i = fst (sweep x y i) * second x y n (S i) + snd (sweep x y i).
Proof.
  intros H. unfold second. replace (n - 1 - i)%nat with (S (n - 1 - S i)) by lia. cbn [back].
  replace (n - 1 - S (n - 1 - S i))%nat with i by lia. reflexivity.
Qed.
Lemma second_first x y n : (1 < n)%nat -> second x y n 0 = 0.
Proof. intros H. rewrite second_step by lia. cbn. ring. Qed.
Lemma second_equation n x y i : increasing n x -> (0 < i)%nat -> (S i < n)%nat ->
  (x i - x (i - 1)%nat) / 6 * second x y n (i - 1) + (x (S i) - x (i - 1)%nat) / 3 * second x y n i + (x (S i) - x i) / 6 * second x y n (S i) =
  (y (S i) - y i) / (x (S i) - x i) - (y i - y (i - 1)%nat) / (x i - x (i - 1)%nat).
Proof.
  intros Hx H0 Hi. destruct i as [|k]; [lia|]. replace (S k - 1)%nat with k by lia.
  pose proof (Hx k ltac:(lia)) as A. pose proof (Hx (S k) ltac:(lia)) as B.
  pose proof (sweep_bounds n x y k Hx ltac:(lia)) as C.
  rewrite (second_step x y n k) by lia. rewrite (second_step x y n (S k)) by lia.
  cbn [sweep]. destruct (sweep x y k) as [d u]. cbn [fst snd] in *.
  set (M := second x y n (S (S k))).
  assert (P : (x (S k) - x k) * d + 2 * (x (S (S k)) - x k) <> 0) by nra.
  field. repeat split; nra.
Qed.
Lemma second_natural n x y : (1 < n)%nat -> increasing n x -> natural_spline n x y (second x y n).
Proof.
  intros Hn Hx. split; [apply second_first; exact Hn|]. split; [apply second_last|]. intros i H0 Hi. apply second_equation; assumption.
Qed.
(** the natural spline is unique *)
Lemma max_index n (f : nat -> R) : (0 < n)%nat -> exists k, (k < n)%nat /\ forall i, (i < n)%nat -> Rabs (f i) <= Rabs (f k).
Proof.
  induction n as [|n IH]; [lia|]. intros _. destruct n as [|n].
  - exists 0%nat. split; [lia|]. intros i Hi. replace i with 0%nat by lia. lra.
  - destruct IH as (k & Hk & K); [lia|]. destruct (Rle_dec (Rabs (f (S n))) (Rabs (f k))) as [L|L].
    + exists k. split; [lia|]. intros i Hi. destruct (Nat.eq_dec i (S n)) as [->|]; [exact L|apply K; lia].
    + exists (S n). split; [lia|]. intros i Hi. destruct (Nat.eq_dec i (S n)) as [->|]; [lra|]. specialize (K i ltac:(lia)). lra.
Qed.
Lemma natural_unique n x y m m' : (1 < n)%nat -> increasing n x -> natural_spline n x y m -> natural_spline n x y m' ->
  forall i, (i < n)%nat -> m i = m' i.
Proof.
  intros Hn Hx (A0 & A1 & A) (B0 & B1 & B).
  set (d := fun i => m i - m' i).
  destruct (max_index n d ltac:(lia)) as (k & Hk & K).
  assert (Z : d k = 0).
  { destruct (Nat.eq_dec k 0) as [->|N0]; [unfold d; lra|]. destruct (Nat.eq_dec k (n - 1)) as [->|N1]; [unfold d; lra|].
    specialize (A k ltac:(lia) ltac:(lia)). specialize (B k ltac:(lia) ltac:(lia)).
    destruct k as [|j]; [lia|]. replace (S j - 1)%nat with j in * by lia.
    pose proof (Hx j ltac:(lia)) as X1. pose proof (Hx (S j) ltac:(lia)) as X2.
    assert (E : (x (S j) - x j) * d j + 2 * (x (S (S j)) - x j) * d (S j) + (x (S (S j)) - x (S j)) * d (S (S j)) = 0).
    { unfold d. lra. }
    pose proof (K j ltac:(lia)) as K1. pose proof (K (S (S j)) ltac:(lia)) as K2.
    revert E K1 K2. generalize (d j) (d (S j)) (d (S (S j))). intros u v w E K1 K2.
    destruct (Req_dec v 0) as [|Nv]; [assumption|exfalso].
    pose proof (Rabs_pos_lt v Nv) as Pv.
    unfold Rabs in *. repeat destruct Rcase_abs; nra. }
  intros i Hi. specialize (K i Hi). rewrite Z, Rabs_R0 in K. pose proof (Rabs_pos (d i)) as P.
  assert (D : d i = 0). { destruct (Req_dec (d i) 0) as [|N]; [assumption|]. pose proof (Rabs_pos_lt _ N). lra. }
  unfold d in D. lra.
Qed.

(** ** searchsorted *)
Lemma search_from x v : forall rest i, let r := searchsorted_from x v i rest in
  (i <= r <= i + rest)%nat /\ (forall k, (i <= k < r)%nat -> x k < v) /\ ((r < i + rest)%nat -> v <= x r).
Proof.
  induction rest as [|rest IH]; intros i; cbn [searchsorted_from].
  - split; [lia|]. split; [intros; lia|intros; lia].
  - destruct (leb v (x i)) eqn:E.
    + apply leb_true in E. split; [lia|]. split; [intros; lia|auto].
    + apply leb_false in E. destruct (IH (S i)) as (A & B & C). split; [lia|]. split.
      * intros k Hk. destruct (Nat.eq_dec k i) as [->|]; [exact E|apply B; lia].
      * intros H. apply C. lia.
Qed.
Lemma increasing_lt n x i j : increasing n x -> (i < j < n)%nat -> x i < x j.
Proof.
  intros Hx [Hij Hj]. induction j as [|j IH]; [lia|]. destruct (Nat.eq_dec i j) as [->|]; [apply Hx; lia|].
  apply Rlt_trans with (x j); [apply IH; lia|apply Hx; lia].
Qed.
Lemma search_above n x v : increasing n x -> (0 < n)%nat -> x (n - 1)%nat < v -> searchsorted x n v = n.
Proof.
  intros Hx Hn Hv. destruct (search_from x v n 0) as (A & B & C). unfold searchsorted.
  destruct (Nat.eq_dec (searchsorted_from x v 0 n) n) as [|N]; [assumption|exfalso].
  assert (L : (searchsorted_from x v 0 n < 0 + n)%nat) by lia. specialize (C L).
  set (r := searchsorted_from x v 0 n) in *.
  destruct (Nat.eq_dec r (n - 1)) as [E|N1]; [rewrite E in C; lra|].
  pose proof (increasing_lt n x r (n - 1) Hx ltac:(lia)). lra.
Qed.
Lemma search_in n x v i : increasing n x -> (S i < n)%nat -> x i < v <= x (S i) -> searchsorted x n v = S i.
Proof.
  intros Hx Hi [H1 H2]. destruct (search_from x v n 0) as (A & B & C). unfold searchsorted.
  set (r := searchsorted_from x v 0 n) in *. cbn [Nat.add] in *.
  destruct (lt_eq_lt_dec r (S i)) as [[L|E]|L]; [|exact E|].
  - exfalso. assert (r < n)%nat as L' by lia. specialize (C L').
    destruct (Nat.eq_dec r i) as [->|N]; [lra|]. pose proof (increasing_lt n x r i Hx ltac:(lia)). lra.
  - exfalso. specialize (B (S i) ltac:(lia)). lra.
Qed.
Lemma search_first n x v : (0 < n)%nat -> v <= x 0%nat -> searchsorted x n v = 0%nat.
Proof.
  intros Hn Hv. unfold searchsorted. destruct n as [|n]; [lia|]. cbn [searchsorted_from].
  replace (leb v (x 0%nat)) with true; [reflexivity|]. symmetry. apply leb_true. exact Hv.
Qed.
Lemma bracket_in n x v i : increasing n x -> (S i < n)%nat -> x i < v <= x (S i) -> bracket x n v = (i, S i).
Proof.
  intros Hx Hi H. unfold bracket. rewrite (search_in n x v i) by assumption.
  replace (S i =? n)%nat with false by (symmetry; apply Nat.eqb_neq; lia). reflexivity.
Qed.
Lemma linear_increasing n x h : linear n x h -> increasing n x.
Proof. intros [Hh H] i Hi. rewrite (H i), (H (S i)) by lia. rewrite S_INR. lra. Qed.

(** ** Values *)
Lemma msf_above n x y v : increasing n x -> (0 < n)%nat -> x (n - 1)%nat < v -> msf x y n v = 0 /\ msf1 x y n v = 0 /\ msf2 x y n v = 0.
Proof.
  intros Hx Hn Hv. unfold msf, msf1, msf2, bracket. rewrite (search_above n x v Hx Hn Hv), Nat.eqb_refl.
  destruct n as [|k]; [lia|]. cbn [Nat.sub]. rewrite Nat.sub_0_r.
  unfold piece, dpiece, ddpiece, Rdiv. split; [|split]; ring.
Qed.
Lemma piece_left x y n lo hi h : h <> 0 -> x hi - x lo = h -> piece x y n lo hi h (x lo) = y lo.
Proof. intros Hh E. unfold piece. rewrite E. field. exact Hh. Qed.
Lemma piece_right x y n lo hi h : h <> 0 -> x hi - x lo = h -> piece x y n lo hi h (x hi) = y hi.
Proof. intros Hh E. unfold piece. rewrite E. field. exact Hh. Qed.
Lemma linear_gap n x h i : linear n x h -> (S i < n)%nat -> x (S i) - x i = h.
Proof. intros [Hh H] Hi. rewrite (H i), (H (S i)) by lia. rewrite S_INR. ring. Qed.
Lemma linear_h n x h : linear n x h -> (1 < n)%nat -> x 1%nat - x 0%nat = h.
Proof. intros H Hn. apply (linear_gap n x h 0 H Hn). Qed.
Lemma msf_grid n x y h i : linear n x h -> (0 < i < n)%nat -> msf x y n (x i) = y i.
Proof.
  intros H [H0 Hi]. destruct i as [|k]; [lia|]. pose proof (linear_increasing n x h H) as Hx. pose proof (proj1 H).
  unfold msf. rewrite (bracket_in n x (x (S k)) k Hx Hi) by (split; [apply Hx; exact Hi|lra]).
  rewrite (linear_h n x h H) by lia. apply piece_right; [lra|]. apply (linear_gap n x h k H Hi).
Qed.
Lemma msf_first n x y h : linear n x h -> (1 < n)%nat -> msf x y n (x 0%nat) = - INR (n - 1) * y 0%nat.
Proof.
  intros H Hn. unfold msf, bracket. rewrite search_first by (lia || lra).
  replace (0 =? n)%nat with false by (symmetry; apply Nat.eqb_neq; lia).
  rewrite (linear_h n x h H Hn). unfold piece. rewrite second_first, second_last by exact Hn.
  pose proof (proj2 H (n - 1)%nat ltac:(lia)) as E. rewrite E. pose proof (proj1 H). field. lra.
Qed.

(** ** Derivatives *)
Lemma D_affine c h v : derivable_pt_lim (fun t => (c - t) / h) v (- / h).
Proof.
  apply derivable_local with (g := fun t => c / h + t * (- / h)) (e := 1); [lra|intros; unfold Rdiv; ring|apply D_lin].
Qed.
Lemma D_affine' c h v : derivable_pt_lim (fun t => (t - c) / h) v (/ h).
Proof.
  apply derivable_local with (g := fun t => - c / h + t * / h) (e := 1); [lra|intros; unfold Rdiv; ring|apply D_lin].
Qed.
Lemma D_cube f x f' : derivable_pt_lim f x f' -> derivable_pt_lim (fun t => f t ^ 3) x (3 * f x ^ 2 * f').
Proof.
  intros H. apply derivable_local with (g := fun t => f t * (f t * f t)) (e := 1); [lra|intros; ring|].
  eapply D_eq; [apply (D_mult f (fun t => f t * f t)); [exact H|apply D_mult; exact H]|]. cbn beta. ring.
Qed.
Lemma piece_derivative x y n lo hi h v : h <> 0 -> derivable_pt_lim (piece x y n lo hi h) v (dpiece x y n lo hi h v).
Proof.
  intros Hh. unfold piece. pose proof (D_affine (x hi) h v) as Da. pose proof (D_affine' (x lo) h v) as Db.
  apply derivable_local with (g := fun t => (x hi - t) / h * y lo + (t - x lo) / h * y hi +
    ((((x hi - t) / h) ^ 3 - (x hi - t) / h) * second x y n lo + (((t - x lo) / h) ^ 3 - (t - x lo) / h) * second x y n hi) * (h ^ 2 / 6)) (e := 1); [lra|intros; unfold Rdiv; ring|].
  eapply D_eq.
  - apply (D_plus (fun t => (x hi - t) / h * y lo + (t - x lo) / h * y hi)).
    + apply (D_plus (fun t => (x hi - t) / h * y lo)); apply (D_mult _ (fun _ => _)); [exact Da|apply D_const|exact Db|apply D_const].
    + apply (D_mult _ (fun _ => _)); [|apply D_const].
      apply (D_plus (fun t => (((x hi - t) / h) ^ 3 - (x hi - t) / h) * second x y n lo)); apply (D_mult _ (fun _ => _)); try apply D_const.
      * apply (D_minus (fun t => ((x hi - t) / h) ^ 3)); [apply (D_cube (fun t => (x hi - t) / h)); exact Da|exact Da].
      * apply (D_minus (fun t => ((t - x lo) / h) ^ 3)); [apply (D_cube (fun t => (t - x lo) / h)); exact Db|exact Db].
  - cbn beta. unfold dpiece. field. exact Hh.
Qed.
Lemma dpiece_derivative x y n lo hi h v : h <> 0 -> derivable_pt_lim (dpiece x y n lo hi h) v (ddpiece x y n lo hi h v).
Proof.
  intros Hh. unfold dpiece. pose proof (D_affine (x hi) h v) as Da. pose proof (D_affine' (x lo) h v) as Db.
  apply derivable_local with (g := fun t => (y hi - y lo) / h - (3 * ((x hi - t) / h) ^ 2 - 1) * (/ 6 * h * second x y n lo) + (3 * ((t - x lo) / h) ^ 2 - 1) * (/ 6 * h * second x y n hi)) (e := 1);
    [lra|intros; unfold Rdiv; ring|].
  eapply D_eq.
  - apply (D_plus (fun t => (y hi - y lo) / h - (3 * ((x hi - t) / h) ^ 2 - 1) * (/ 6 * h * second x y n lo))).
    + apply (D_minus (fun _ => _)); [apply D_const|]. apply (D_mult _ (fun _ => _)); [|apply D_const].
      apply (D_minus (fun t => 3 * ((x hi - t) / h) ^ 2) (fun _ => _)); [|apply D_const]. apply (D_mult (fun _ => _)); [apply D_const|]. apply (D_sq (fun t => (x hi - t) / h)). exact Da.
    + apply (D_mult _ (fun _ => _)); [|apply D_const].
      apply (D_minus (fun t => 3 * ((t - x lo) / h) ^ 2) (fun _ => _)); [|apply D_const]. apply (D_mult (fun _ => _)); [apply D_const|]. apply (D_sq (fun t => (t - x lo) / h)). exact Db.
  - cbn beta. unfold ddpiece. field. exact Hh.
Qed.
(** gluing two differentiable functions *)
Lemma glue f g k c l e : 0 < e -> (forall t, c - e < t <= c -> f t = g t) -> (forall t, c < t < c + e -> f t = k t) -> g c = k c ->
  derivable_pt_lim g c l -> derivable_pt_lim k c l -> derivable_pt_lim f c l.
Proof.
  intros He Hg Hk Hc Dg Dk eps Heps. destruct (Dg eps Heps) as (d1 & K1). destruct (Dk eps Heps) as (d2 & K2).
  assert (P : 0 < Rmin e (Rmin d1 d2)) by (repeat apply Rmin_pos; try exact He; apply cond_pos).
  exists (mkposreal _ P). intros t Ht Hl. cbn in Hl.
  pose proof (Rmin_l e (Rmin d1 d2)). pose proof (Rmin_r e (Rmin d1 d2)). pose proof (Rmin_l d1 d2). pose proof (Rmin_r d1 d2).
  rewrite (Hg c) by lra. destruct (Rle_dec t 0) as [L|L].
  - rewrite Hg by (unfold Rabs in Hl; destruct Rcase_abs in Hl; lra). apply K1; [exact Ht|lra].
  - rewrite Hk by (unfold Rabs in Hl; destruct Rcase_abs in Hl; lra). rewrite Hc. apply K2; [exact Ht|lra].
Qed.
Lemma find_interval n x v : increasing n x -> (1 < n)%nat -> x 0%nat < v < x (n - 1)%nat ->
  exists i, (S i < n)%nat /\ (x i < v < x (S i) \/ v = x (S i) /\ (S (S i) < n)%nat).
Proof.
  intros Hx Hn [H1 H2]. destruct (search_from x v n 0) as (A & B & C). set (r := searchsorted_from x v 0 n) in *.
  destruct r as [|i]; [exfalso; specialize (C ltac:(lia)); lra|].
  assert (L : (S i < n)%nat).
  { destruct (Nat.eq_dec (S i) n) as [E|]; [exfalso|lia]. specialize (B (n - 1)%nat ltac:(lia)). lra. }
  exists i. split; [exact L|]. specialize (B i ltac:(lia)). specialize (C ltac:(lia)).
  destruct (Rle_lt_or_eq_dec v (x (S i)) C) as [L2|E]; [left; lra|right]. split; [exact E|].
  destruct (Nat.eq_dec (S (S i)) n) as [E2|]; [|lia]. exfalso. replace (n - 1)%nat with (S i) in H2 by lia. lra.
Qed.
Lemma knot_slope n x y h i : linear n x h -> (S (S i) < n)%nat ->
  dpiece x y n i (S i) h (x (S i)) = dpiece x y n (S i) (S (S i)) h (x (S i)).
Proof.
  intros H Hi. pose proof (linear_increasing n x h H) as Hx. pose proof (proj1 H) as Hh.
  pose proof (second_equation n x y (S i) Hx ltac:(lia) Hi) as E. replace (S i - 1)%nat with i in E by lia.
  pose proof (linear_gap n x h i H ltac:(lia)) as G1. pose proof (linear_gap n x h (S i) H Hi) as G2.
  replace (x (S (S i)) - x i) with (2 * h) in E by lra. rewrite G1, G2 in E.
  unfold dpiece. rewrite G1, G2. replace (x (S i) - x (S i)) with 0 by ring.
  assert (E' : h / 6 * second x y n i + 2 * h / 3 * second x y n (S i) + h / 6 * second x y n (S (S i)) - (y (S (S i)) - y (S i)) / h + (y (S i) - y i) / h = 0) by lra.
  apply Rminus_diag_uniq. eapply eq_trans; [|exact E']. field. lra.
Qed.
Lemma knot_curv n x y h i : linear n x h -> (S (S i) < n)%nat ->
  ddpiece x y n i (S i) h (x (S i)) = ddpiece x y n (S i) (S (S i)) h (x (S i)).
Proof.
  intros H Hi. pose proof (proj1 H) as Hh. pose proof (linear_gap n x h i H ltac:(lia)) as G1. pose proof (linear_gap n x h (S i) H Hi) as G2.
  unfold ddpiece. rewrite G1, G2. field. lra.
Qed.
Section Pieces.
Variables (n : nat) (x y : nat -> R) (h : R).
Hypothesis H : linear n x h.
Hypothesis Hn : (1 < n)%nat.
Variables (P : nat -> nat -> R -> R -> R) (Q : nat -> nat -> R -> R -> R).
Hypothesis DP : forall lo hi k v, k <> 0 -> derivable_pt_lim (P lo hi k) v (Q lo hi k v).
Hypothesis Knot : forall i, (S (S i) < n)%nat -> P i (S i) h (x (S i)) = P (S i) (S (S i)) h (x (S i)) /\ Q i (S i) h (x (S i)) = Q (S i) (S (S i)) h (x (S i)).
Let F v := let '(lo, hi) := bracket x n v in P lo hi (x 1%nat - x 0%nat) v.
Let G v := let '(lo, hi) := bracket x n v in Q lo hi (x 1%nat - x 0%nat) v.
Lemma pieces_derivative v : x 0%nat < v < x (n - 1)%nat -> derivable_pt_lim F v (G v).
Proof.
  intros Hv. pose proof (linear_increasing n x h H) as Hx. pose proof (proj1 H) as Hh.
  destruct (find_interval n x v Hx Hn Hv) as (i & Hi & [B|[-> B]]).
  - assert (EG : G v = Q i (S i) h v) by (unfold G; rewrite (bracket_in n x v i Hx Hi) by lra; rewrite (linear_h n x h H Hn); reflexivity).
    rewrite EG. apply derivable_local with (g := P i (S i) h) (e := Rmin (v - x i) (x (S i) - v)).
    + apply Rmin_pos; lra.
    + intros t Ht. pose proof (Rmin_l (v - x i) (x (S i) - v)). pose proof (Rmin_r (v - x i) (x (S i) - v)).
      unfold F. rewrite (bracket_in n x t i Hx Hi) by (unfold Rabs in Ht; destruct Rcase_abs in Ht; lra). rewrite (linear_h n x h H Hn). reflexivity.
    + apply DP. lra.
  - pose proof (linear_gap n x h i H Hi) as G1. pose proof (linear_gap n x h (S i) H B) as G2. destruct (Knot i B) as [K1 K2].
    assert (EG : G (x (S i)) = Q i (S i) h (x (S i))) by (unfold G; rewrite (bracket_in n x (x (S i)) i Hx Hi) by lra; rewrite (linear_h n x h H Hn); reflexivity).
    rewrite EG. apply glue with (g := P i (S i) h) (k := P (S i) (S (S i)) h) (e := h); [exact Hh| | |exact K1| |].
    + intros t Ht. unfold F. rewrite (bracket_in n x t i Hx Hi) by lra. rewrite (linear_h n x h H Hn). reflexivity.
    + intros t Ht. unfold F. rewrite (bracket_in n x t (S i) Hx B) by lra. rewrite (linear_h n x h H Hn). reflexivity.
    + apply DP. lra.
    + rewrite K2. apply DP. lra.
Qed.
End Pieces.
Lemma msf_derivative n x y h v : linear n x h -> (1 < n)%nat -> x 0%nat < v < x (n - 1)%nat -> derivable_pt_lim (msf x y n) v (msf1 x y n v).
Proof.
  intros H Hn Hv. apply (pieces_derivative n x h H Hn (piece x y n) (dpiece x y n)); [|intros i Hi|exact Hv].
  - intros lo hi k w Hk. apply piece_derivative. exact Hk.
  - pose proof (proj1 H). split; [|apply knot_slope; assumption].
    rewrite piece_right by (lra || (apply (linear_gap n x h i H); lia)). rewrite piece_left by (lra || (apply (linear_gap n x h (S i) H); lia)). reflexivity.
Qed.
Lemma msf1_derivative n x y h v : linear n x h -> (1 < n)%nat -> x 0%nat < v < x (n - 1)%nat -> derivable_pt_lim (msf1 x y n) v (msf2 x y n v).
Proof.
  intros H Hn Hv. apply (pieces_derivative n x h H Hn (dpiece x y n) (ddpiece x y n)); [|intros i Hi|exact Hv].
  - intros lo hi k w Hk. apply dpiece_derivative. exact Hk.
  - split; [apply knot_slope; assumption|apply knot_curv; assumption].
Qed.
