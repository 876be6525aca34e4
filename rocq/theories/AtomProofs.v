From Coq Require Import Reals List Bool Arith Lra Lia.
From Verif Require Import Vec GeomModel GeomProofs AtomModel AtomSpec.
Import ListNotations.
Open Scope R_scope.

Lemma upd_eq u i v : upd u i v i = v. Proof. unfold upd. rewrite Nat.eqb_refl. reflexivity. Qed.
Lemma upd_ne u i v j : j <> i -> upd u i v j = u j.
Proof. intros H. unfold upd. apply Nat.eqb_neq in H. rewrite H. reflexivity. Qed.

(** ** ionisation energies *)
Lemma IP_EA_fit en e0 ep r a : 0 < r -> 0 < a -> exists IP EA c1 c2,
  IP_EA en e0 ep r a = Some (IP, EA) /\
  e0 + parabola c1 c2 a = en /\ e0 + parabola c1 c2 (- r) = ep /\
  IP = parabola c1 c2 (- 1) /\ EA = - parabola c1 c2 1.
Proof.
  intros Hr Ha. unfold IP_EA. destruct (Req_EM_T r 0); [lra|]. assert (0 < a * (r + a)) by nra. destruct (Req_EM_T (a * (r + a)) 0); [lra|].
  set (c2 := (en - e0 + (ep - e0) * a / r) / (a * (r + a))). set (c1 := (c2 * r ^ 2 - (ep - e0)) / r).
  exists (- c1 + c2), (- (c1 + c2)), c1, c2. split; [reflexivity|]. unfold parabola.
  split; [unfold c1, c2; field; lra|]. split; [unfold c1; field; lra|]. split; ring.
Qed.
Lemma IP_EA_unit en e0 ep : IP_EA en e0 ep 1 1 = Some (ep - e0, e0 - en).
Proof.
  unfold IP_EA. destruct (Req_EM_T 1 0); [lra|]. destruct (Req_EM_T (1 * (1 + 1)) 0); [lra|]. cbv zeta. f_equal. f_equal; field.
Qed.
Lemma IP_EA_zero en e0 ep r a : r = 0 \/ a = 0 -> IP_EA en e0 ep r a = None.
Proof.
  intros H. unfold IP_EA. destruct (Req_EM_T r 0); [reflexivity|]. destruct H as [H|H]; [contradiction|].
  destruct (Req_EM_T (a * (r + a)) 0) as [|E]; [reflexivity|]. exfalso. apply E. rewrite H. ring.
Qed.

(** ** tails *)
Section T.
Variables (N : nat) (x : nat -> R).
Hypothesis Hx : increasing N x.
Lemma x_lt i j : (i < j)%nat -> (j < N)%nat -> x i < x j.
Proof.
  intros Hij. induction Hij as [|j Hij IH]; intros HN; [apply Hx; exact HN|].
  apply Rlt_trans with (x j); [apply IH; lia|apply Hx; exact HN].
Qed.
Lemma find_k_range y i k : find_k N x y i = Some k -> (2 <= k <= i)%nat.
Proof.
  induction i as [|[|i] IH]; cbn [find_k]; intros H; try discriminate.
  destruct (crosses N x y (S (S i))); [injection H as <-; lia|]. specialize (IH H). lia.
Qed.
Lemma find_k_below y i k j : find_k N x y i = Some k -> (k < j <= i)%nat -> crosses N x y j = false.
Proof.
  induction i as [|[|i] IH]; cbn [find_k]; intros H Hj; try discriminate.
  destruct (crosses N x y (S (S i))) eqn:E; [injection H as <-; lia|].
  destruct (Nat.eq_dec j (S (S i))) as [->|]; [exact E|]. apply IH; [exact H|lia].
Qed.
Lemma fill_kept y k m i : (i <= k + 1)%nat -> (k + 2 < N)%nat -> tail_fill N x y k m i = y i.
Proof.
  intros Hi Hk. unfold tail_fill. rewrite upd_ne by lia. replace ((k + 2 <=? i) && (i <? N))%nat with false; [reflexivity|].
  symmetry. apply andb_false_iff. left. apply Nat.leb_gt. lia.
Qed.
Lemma fill_beyond y k m i : (N <= i)%nat -> (0 < N)%nat -> tail_fill N x y k m i = y i.
Proof.
  intros Hi HN. unfold tail_fill. rewrite upd_ne by lia. replace ((k + 2 <=? i) && (i <? N))%nat with false; [reflexivity|].
  symmetry. apply andb_false_iff. right. apply Nat.ltb_ge. lia.
Qed.
Lemma fill_last y k m : tail_fill N x y k m (N - 1) = 0. Proof. unfold tail_fill. apply upd_eq. Qed.
Lemma fill_tail y k m i : (k + 2 <= i)%nat -> (i < N)%nat -> tail_fill N x y k m i = cubic (tail_c2 N x y k m) (tail_c3 N x y k m) (xmax N x) (x i).
Proof.
  intros Hi HN. unfold tail_fill. destruct (Nat.eq_dec i (N - 1)) as [->|Hne].
  - rewrite upd_eq. unfold cubic, xmax. ring.
  - rewrite upd_ne by exact Hne. replace ((k + 2 <=? i) && (i <? N))%nat with true; [reflexivity|].
    symmetry. apply andb_true_iff. split; [apply Nat.leb_le|apply Nat.ltb_lt]; lia.
Qed.
Lemma signs_spec y k s : tail_signs N y k s = true <-> forall i, (k <= i < N)%nat -> 0 <= y i * s.
Proof.
  unfold tail_signs. rewrite forallb_forall. split.
  - intros H i Hi. apply leb_true. apply H. apply in_seq. lia.
  - intros H i Hi. apply in_seq in Hi. apply leb_true. apply H. lia.
Qed.
Lemma try_ok s k n y out : (k + 2 < N)%nat -> tail_try N x s k n y = TOk out ->
  (forall i, (i <= k + 1)%nat -> out i = y i) /\ out (N - 1)%nat = 0 /\ (forall i, (k <= i < N)%nat -> 0 <= out i * s).
Proof.
  intros Hk. revert y. induction n as [|n IH]; intros y; cbn [tail_try].
  - destruct (tail_signs N _ k s) eqn:E; intros H; [|discriminate]. injection H as <-.
    split; [intros i Hi; apply fill_kept; assumption|]. split; [apply fill_last|]. apply signs_spec. exact E.
  - destruct (tail_signs N (tail_fill N x y k (9 - S n)) k s) eqn:E; intros H.
    + injection H as <-. split; [intros i Hi; apply fill_kept; assumption|]. split; [apply fill_last|]. apply signs_spec. exact E.
    + destruct (IH _ H) as (A & B & C). split; [|split; assumption]. intros i Hi. rewrite (A i Hi). apply fill_kept; assumption.
Qed.
(** the coefficients for m = 2 *)
Lemma c3_two y k a b : (k + 1 < N - 1)%nat -> y k = cubic a b (xmax N x) (x k) -> y (S k) = cubic a b (xmax N x) (x (S k)) ->
  tail_c3 N x y k 2 = b /\ tail_c2 N x y k 2 = a.
Proof.
  intros Hk E1 E2. 
  assert (P : 0 < xmax N x - x (S k)) by (pose proof (x_lt (S k) (N - 1)%nat ltac:(lia) ltac:(lia)); unfold xmax; lra).
  assert (Q : xmax N x - x (S k) < xmax N x - x k) by (pose proof (x_lt k (S k) ltac:(lia) ltac:(lia)); lra).
  unfold cubic in E1, E2. set (t := xmax N x - x k) in *. set (t1 := xmax N x - x (S k)) in *.
  assert (C3 : tail_c3 N x y k 2 = b).
  { unfold tail_c3. fold t t1. rewrite E1, E2. cbn [Nat.add]. 
    replace (t ^ 3 - t ^ 2 * t1 ^ 3 / t1 ^ 2) with (t ^ 2 * (t - t1)) by (field; lra).
    replace (a * t ^ 2 + b * t ^ 3 - t ^ 2 * (a * t1 ^ 2 + b * t1 ^ 3) / t1 ^ 2) with (b * (t ^ 2 * (t - t1))) by (field; lra).
    field. lra. }
  split; [exact C3|]. unfold tail_c2. rewrite C3. fold t. rewrite E1. cbn [Nat.add]. field. lra.
Qed.
Lemma sgn_mult a b : 0 <= a * b -> 0 <= a * sgn b.
Proof.
  intros H. unfold sgn. destruct (ltb 0 b) eqn:E; [apply ltb_true in E; nra|apply ltb_false in E].
  destruct (ltb b 0) eqn:F; [apply ltb_true in F; nra|]. lra.
Qed.
Lemma tail_ok y out : tail_smoothening N x y = TOk out ->
  (forall i, (i < N)%nat -> Rabs (y i) < / 10 ^ 10 /\ out i = y i) \/
  exists k, (2 <= k <= N - 3)%nat /\ (N <= 4 * k)%nat /\ crosses N x y k = true /\ (forall j, (k < j <= N - 3)%nat -> crosses N x y j = false) /\
    (forall i, (i <= k + 1)%nat -> out i = y i) /\ out (N - 1)%nat = 0 /\
    (k <> (N - 3)%nat -> forall i, (k <= i < N)%nat -> 0 <= out i * sgn (y k)).
Proof.
  unfold tail_smoothening. destruct (forallb _ _) eqn:E.
  { intros H. injection H as <-. left. intros i Hi. split; [|reflexivity]. apply ltb_true. apply (proj1 (forallb_forall _ _) E). apply in_seq. lia. }
  destruct (find_k N x y (N - 3)) as [k|] eqn:F; [|discriminate].
  pose proof (find_k_range _ _ _ F) as Hk.
  destruct (4 * k <? N)%nat eqn:G; [discriminate|]. apply Nat.ltb_ge in G.
  assert (C : crosses N x y k = true).
  { clear -F. induction (N - 3)%nat as [|[|i] IH]; cbn [find_k] in F; try discriminate.
    destruct (crosses N x y (S (S i))) eqn:E; [injection F as <-; exact E|]. apply IH. exact F. }
  intros H. right. exists k. split; [exact Hk|]. split; [exact G|]. split; [exact C|]. split; [intros j Hj; apply (find_k_below y (N - 3) k j F Hj)|].
  destruct (Nat.eqb_spec k (N - 3)) as [->|Hne].
  - injection H as <-. split; [intros i Hi; apply upd_ne; lia|]. split; [apply upd_eq|]. congruence.
  - apply try_ok in H; [|lia]. destruct H as (A & B & D). split; [exact A|]. split; [exact B|]. intros _. exact D.
Qed.
(** when the cubic through the two points has the right sign, it is the tail *)
Lemma tail_cubic y out k a b : tail_smoothening N x y = TOk out ->
  (exists i, (i < N)%nat /\ / 10 ^ 10 <= Rabs (y i)) ->
  find_k N x y (N - 3) = Some k -> k <> (N - 3)%nat ->
  y k = cubic a b (xmax N x) (x k) -> y (S k) = cubic a b (xmax N x) (x (S k)) ->
  (forall i, (k < i < N)%nat -> 0 <= cubic a b (xmax N x) (x i) * y k) ->
  forall i, (k <= i < N)%nat -> out i = cubic a b (xmax N x) (x i).
Proof.
  intros H [j [Hj Hs]] F Hne E1 E2 Hsg.
  pose proof (find_k_range _ _ _ F) as Hk.
  unfold tail_smoothening in H.
  destruct (forallb _ _) eqn:E.
  { exfalso. assert (Q := proj1 (forallb_forall _ _) E j ltac:(apply in_seq; lia)). apply ltb_true in Q. lra. }
  rewrite F in H. destruct (4 * k <? N)%nat; [discriminate|].
  destruct (Nat.eqb_spec k (N - 3)) as [->|_]; [contradiction|].
  destruct (c3_two y k a b ltac:(lia) E1 E2) as [C3 C2].
  assert (V : forall i, (k <= i < N)%nat -> tail_fill N x y k 2 i = cubic a b (xmax N x) (x i)).
  { intros i Hi. destruct (le_lt_dec (k + 2) i).
    - rewrite fill_tail by lia. rewrite C2, C3. reflexivity.
    - rewrite fill_kept by lia. assert (i = k \/ i = S k) as [->| ->] by lia; assumption. }
  assert (SG : tail_signs N (tail_fill N x y k 2) k (sgn (y k)) = true).
  { apply signs_spec. intros i Hi. rewrite (V i Hi). apply sgn_mult. destruct (Nat.eq_dec i k) as [->|]; [rewrite <- E1; nra|]. apply Hsg. lia. }
  cbn [tail_try Nat.sub] in H. rewrite SG in H. injection H as <-. exact V.
Qed.
End T.
