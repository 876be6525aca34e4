(** Finite sums and maxima over index ranges; a numpy array of length n is a
    function of the index of which only the values below n matter. *)
From Coq Require Import Reals Lra Lia Arith List.
Open Scope R_scope.

Definition vec := nat -> R.

(** sum of f 0 .. f (n-1) *)
Fixpoint rsum (n : nat) (f : vec) : R :=
  match n with O => 0 | S m => rsum m f + f m end.

(** largest |f i|, i < n (0 for n = 0) *)
Fixpoint maxabs (n : nat) (f : vec) : R :=
  match n with O => 0 | S m => Rmax (maxabs m f) (Rabs (f m)) end.

Lemma rsum_ext n f g : (forall i, (i < n)%nat -> f i = g i) -> rsum n f = rsum n g.
Proof.
  induction n as [|n IH]; intros H; simpl; [reflexivity|].
  rewrite IH, H; auto.
Qed.

Lemma rsum_plus n f g : rsum n (fun i => f i + g i) = rsum n f + rsum n g.
Proof. induction n as [|n IH]; simpl; [lra|rewrite IH; lra]. Qed.

Lemma rsum_minus n f g : rsum n (fun i => f i - g i) = rsum n f - rsum n g.
Proof. induction n as [|n IH]; simpl; [lra|rewrite IH; lra]. Qed.

Lemma rsum_scal n c f : rsum n (fun i => c * f i) = c * rsum n f.
Proof. induction n as [|n IH]; simpl; [lra|rewrite IH; lra]. Qed.

Lemma rsum_opp n f : rsum n (fun i => - f i) = - rsum n f.
Proof. induction n as [|n IH]; simpl; [lra|rewrite IH; lra]. Qed.

Lemma rsum_scal_r n c f : rsum n (fun i => f i * c) = rsum n f * c.
Proof. induction n as [|n IH]; simpl; [lra|rewrite IH; lra]. Qed.

Lemma rsum_zero n : rsum n (fun _ => 0) = 0.
Proof. induction n as [|n IH]; simpl; [lra|rewrite IH; lra]. Qed.

Lemma rsum_const n c : rsum n (fun _ => c) = INR n * c.
Proof. induction n as [|n IH]; [simpl; lra|]. rewrite S_INR. simpl rsum. rewrite IH. lra. Qed.

Lemma rsum_swap n m (f : nat -> nat -> R) :
  rsum n (fun i => rsum m (fun j => f i j)) = rsum m (fun j => rsum n (fun i => f i j)).
Proof.
  induction n as [|n IH]; simpl.
  - rewrite rsum_zero. reflexivity.
  - rewrite IH, <- rsum_plus. reflexivity.
Qed.

Lemma rsum_split n m f : rsum (n + m) f = rsum n f + rsum m (fun i => f (n + i)%nat).
Proof.
  induction m as [|m IH]; simpl.
  - rewrite Nat.add_0_r. lra.
  - rewrite Nat.add_succ_r. simpl. rewrite IH. lra.
Qed.

Lemma rsum_shift n f : rsum (S n) f = f O + rsum n (fun i => f (S i)).
Proof.
  change (S n) with (1 + n)%nat. rewrite rsum_split. simpl. lra.
Qed.

Lemma rsum_nonneg n f : (forall i, (i < n)%nat -> 0 <= f i) -> 0 <= rsum n f.
Proof.
  induction n as [|n IH]; intros H; simpl; [lra|].
  specialize (IH (fun i Hi => H i (Nat.lt_lt_succ_r _ _ Hi))). specialize (H n (Nat.lt_succ_diag_r n)). lra.
Qed.

Lemma rsum_le n f g : (forall i, (i < n)%nat -> f i <= g i) -> rsum n f <= rsum n g.
Proof.
  induction n as [|n IH]; intros H; simpl; [lra|].
  specialize (IH (fun i Hi => H i (Nat.lt_lt_succ_r _ _ Hi))). specialize (H n (Nat.lt_succ_diag_r n)). lra.
Qed.

Lemma rsum_lt n f g : (0 < n)%nat -> (forall i, (i < n)%nat -> f i < g i) -> rsum n f < rsum n g.
Proof.
  destruct n as [|n]; [lia|]. intros _ H. simpl.
  assert (rsum n f <= rsum n g) by (apply rsum_le; intros; left; apply H; lia).
  assert (f n < g n) by (apply H; lia). lra.
Qed.

(** only one term differs from zero *)
Lemma rsum_single n k f : (k < n)%nat -> (forall i, (i < n)%nat -> i <> k -> f i = 0) ->
  rsum n f = f k.
Proof.
  induction n as [|n IH]; intros Hk H; [lia|]. simpl.
  destruct (Nat.eq_dec k n) as [->|Hne].
  - rewrite (rsum_ext n f (fun _ => 0)); [rewrite rsum_zero; lra|].
    intros i Hi. apply H; lia.
  - rewrite IH by (try lia; intros; apply H; lia). rewrite (H n) by lia. lra.
Qed.

Lemma rsum_eq0 n f : (forall i, (i < n)%nat -> f i = 0) -> rsum n f = 0.
Proof. intros H. rewrite (rsum_ext n f (fun _ => 0)) by exact H. apply rsum_zero. Qed.

Lemma maxabs_ge n f i : (i < n)%nat -> Rabs (f i) <= maxabs n f.
Proof.
  induction n as [|n IH]; intros Hi; [lia|]. simpl.
  destruct (Nat.eq_dec i n) as [->|Hne]; [apply Rmax_r|].
  eapply Rle_trans; [apply IH; lia|apply Rmax_l].
Qed.

Lemma maxabs_nonneg n f : 0 <= maxabs n f.
Proof.
  destruct n as [|n]; simpl; [lra|]. eapply Rle_trans; [apply Rabs_pos|apply Rmax_r].
Qed.

Lemma maxabs_attained n f : (0 < n)%nat -> exists i, (i < n)%nat /\ maxabs n f = Rabs (f i).
Proof.
  induction n as [|n IH]; intros Hn; [lia|]. simpl.
  destruct n as [|n].
  - exists O. split; [lia|]. simpl. apply Rmax_right, Rabs_pos.
  - destruct IH as (i & Hi & E); [lia|]. unfold Rmax at 1.
    destruct (Rle_dec (maxabs (S n) f) (Rabs (f (S n)))).
    + exists (S n). split; [lia|reflexivity].
    + exists i. split; [lia|exact E].
Qed.

Lemma maxabs_lt n f c : 0 < c -> (maxabs n f < c <-> forall i, (i < n)%nat -> Rabs (f i) < c).
Proof.
  intros Hc. induction n as [|n IH]; simpl.
  - split; [intros; lia|intros; exact Hc].
  - split.
    + intros H i Hi. destruct (Nat.eq_dec i n) as [->|Hne].
      * eapply Rle_lt_trans; [apply Rmax_r|exact H].
      * apply IH; [|lia]. eapply Rle_lt_trans; [apply Rmax_l|exact H].
    + intros H. apply Rmax_lub_lt; [apply IH; intros; apply H; lia|apply H; lia].
Qed.

Lemma maxabs_ext n f g : (forall i, (i < n)%nat -> f i = g i) -> maxabs n f = maxabs n g.
Proof.
  induction n as [|n IH]; intros H; simpl; [reflexivity|]. rewrite IH, H; auto.
Qed.
