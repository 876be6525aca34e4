From Coq Require Import Reals List Bool Arith Lra Lia.
From Verif Require Import Vec GeomModel GeomProofs AtomModel AtomSpec AtomProofs.
Import ListNotations.
Open Scope R_scope.

Lemma some_pair {A B : Type} (a c : A) (b d : B) : Some (a, b) = Some (c, d) -> a = c /\ b = d.
Proof. intros H. injection H. auto. Qed.
Section S.
Variables (dx : R) (c2 c1 c0 : nat -> R) (N : nat).
Hypothesis Hdx : dx <> 0.
Notation fp := (fp dx c2 c1). Notation fm := (fm dx c2 c1). Notation f0 := (f0 dx c2 c0).
Definition row (u : nat -> R) (i : nat) : R := fp i * u (i + 1)%nat + f0 i * u i + fm i * u (i - 1)%nat.
Lemma residual_row u i : residual dx c2 c1 c0 u i = row u i.
Proof. unfold residual, row, AtomModel.fp, AtomModel.fm, AtomModel.f0. field. exact Hdx. Qed.
Hypothesis Hfm : forall i, (1 <= i <= N - 2)%nat -> fm i <> 0.
Hypothesis Hfp : forall i, (1 <= i <= N - 2)%nat -> fp i <> 0.

Lemma row_ext u v i : (1 <= i)%nat -> u (i + 1)%nat = v (i + 1)%nat -> u i = v i -> u (i - 1)%nat = v (i - 1)%nat -> row u i = row v i.
Proof. intros _ A B C. unfold row. rewrite A, B, C. reflexivity. Qed.
Lemma row_scale u v i k : u (i + 1)%nat = v (i + 1)%nat * k -> u i = v i * k -> u (i - 1)%nat = v (i - 1)%nat * k -> row u i = row v i * k.
Proof. intros A B C. unfold row. rewrite A, B, C. ring. Qed.
Lemma back_step_spec i u : (1 <= i <= N - 2)%nat -> (forall j, (i < j <= N - 2)%nat -> row u j = 0) ->
  (forall j, (i <= j <= N - 2)%nat -> row (back_step dx c2 c1 c0 i u) j = 0) /\
  exists k, 0 < k /\ (forall j, (i <= j)%nat -> back_step dx c2 c1 c0 i u j = u j * k).
Proof.
  intros Hi HR. set (u1 := upd u (i - 1) ((- fp i * u (i + 1)%nat - f0 i * u i) / fm i)).
  assert (K : exists k, 0 < k /\ forall j, (i - 1 <= j)%nat -> back_step dx c2 c1 c0 i u j = u1 j * k).
  { unfold back_step. fold u1. destruct (ltb (10 ^ 10) _).
    - exists (/ 10 ^ 10). split; [apply Rinv_0_lt_compat; lra|]. intros j Hj. apply Nat.leb_le in Hj. rewrite Hj. reflexivity.
    - exists 1. split; [lra|]. intros j _. ring. }
  destruct K as (k & Hk & K). split.
  - intros j Hj. rewrite (row_scale _ u1 j k); [|apply K; lia|apply K; lia|apply K; lia].
    destruct (Nat.eq_dec j i) as [->|Hne].
    + unfold row, u1. rewrite upd_eq, !upd_ne by lia. field. apply Hfm. exact Hi.
    + rewrite (row_ext u1 u j) by (try apply upd_ne; lia). rewrite HR by lia. ring.
  - exists k. split; [exact Hk|]. intros j Hj. rewrite K by lia. unfold u1. rewrite upd_ne by lia. reflexivity.
Qed.
Lemma back_spec i u u2 ctp : (i <= N - 2)%nat -> (forall j, (i < j <= N - 2)%nat -> row u j = 0) -> back dx c2 c1 c0 N i u = Some (u2, ctp) ->
  (1 <= ctp <= i)%nat /\ (forall j, (ctp <= j <= N - 2)%nat -> row u2 j = 0) /\
  (exists k, 0 < k /\ forall j, (i <= j)%nat -> u2 j = u j * k) /\
  (forall j, (ctp < j <= i)%nat -> c0 j <= 0) /\ (0 < c0 ctp \/ (ctp = N / 2)%nat /\ forall j, (j < N)%nat -> c0 j < 0).
Proof.
  revert u. induction i as [|i IH]; intros u Hi HR; cbn [back]; [discriminate|].
  destruct (back_step_spec (S i) u ltac:(lia) HR) as (A & k & Hk & B).
  destruct (ltb 0 (c0 (S i))) eqn:E.
  { intros H. injection H as <- <-. split; [lia|]. split; [exact A|]. split; [exists k; split; [exact Hk|intros j Hj; apply B; lia]|].
    split; [intros; lia|]. left. apply ltb_true. exact E. }
  apply ltb_false in E.
  destruct (all_negative c0 N && (S i =? N / 2)%nat) eqn:F.
  { apply andb_prop in F. destruct F as [F1 F2]. apply Nat.eqb_eq in F2. intros H. apply some_pair in H. destruct H as [<- <-]. rewrite <- F2.
    split; [lia|]. split; [exact A|]. split; [exists k; split; [exact Hk|intros j Hj; apply B; lia]|]. split; [intros; lia|].
    right. split; [reflexivity|]. intros j Hj. apply ltb_true. apply (proj1 (forallb_forall _ _) F1). apply in_seq. lia. }
  intros H. destruct (IH (back_step dx c2 c1 c0 (S i) u) ltac:(lia)) with (2 := H) as (P & Q & (k' & Hk' & K) & T & U); [intros j Hj; apply A; lia|].
  split; [lia|]. split; [exact Q|]. split.
  { exists (k * k'). split; [nra|]. intros j Hj. rewrite K by lia. rewrite B by lia. ring. }
  split; [|exact U]. intros j Hj. destruct (Nat.eq_dec j (S i)) as [->|]; [exact E|]. apply T. lia.
Qed.
Lemma back_none i u : back dx c2 c1 c0 N i u = None <->
  (forall j, (1 <= j <= i)%nat -> c0 j <= 0) /\ ((exists j, (j < N)%nat /\ 0 <= c0 j) \/ (i < N / 2)%nat \/ (N / 2 = 0)%nat).
Proof.
  assert (AN : all_negative c0 N = false <-> exists j, (j < N)%nat /\ 0 <= c0 j).
  { unfold all_negative. rewrite <- not_true_iff_false, forallb_forall. split.
    - intros H. clear -H. induction N as [|n IH]; [exfalso; apply H; intros j Hj; apply in_seq in Hj; lia|].
      destruct (Rlt_le_dec (c0 n) 0) as [L|L]; [|exists n; split; [lia|exact L]].
      destruct IH as [j [Hj Q]]; [|exists j; split; [lia|exact Q]]. intros K. apply H. intros j Hj. apply in_seq in Hj.
      destruct (Nat.eq_dec j n) as [->|]; [apply ltb_true; exact L|]. apply K. apply in_seq. lia.
    - intros [j [Hj Q]] H. specialize (H j ltac:(apply in_seq; lia)). apply ltb_true in H. lra. }
  revert u. induction i as [|i IH]; intros u; cbn [back].
  - split; [|reflexivity]. intros _. split; [intros; lia|]. destruct (N / 2)%nat eqn:E; [right; right; reflexivity|right; left; lia].
  - destruct (ltb 0 (c0 (S i))) eqn:E.
    { split; [discriminate|]. intros [H _]. apply ltb_true in E. specialize (H (S i) ltac:(lia)). lra. }
    apply ltb_false in E. destruct (all_negative c0 N && (S i =? N / 2)%nat) eqn:F.
    { split; [discriminate|]. intros [_ H]. apply andb_prop in F. destruct F as [F1 F2]. apply Nat.eqb_eq in F2.
      destruct H as [H|[H|H]]; [apply AN in H; congruence|lia|lia]. }
    rewrite IH. split.
    + intros [A B]. split; [intros j Hj; destruct (Nat.eq_dec j (S i)) as [->|]; [exact E|apply A; lia]|].
      destruct B as [B|[B|B]]; [left; exact B| |right; right; exact B].
      destruct (all_negative c0 N) eqn:G; [|left; apply AN; reflexivity]. cbn [andb] in F. apply Nat.eqb_neq in F. right. left. lia.
    + intros [A B]. split; [intros j Hj; apply A; lia|]. destruct B as [B|[B|B]]; [left; exact B|right; left; lia|right; right; exact B].
Qed.
Lemma fwd_spec n u : (n <= N - 2)%nat ->
  (forall j, (j <= 1 \/ n + 1 < j)%nat -> fwd dx c2 c1 c0 n u j = u j) /\ (forall j, (1 <= j <= n)%nat -> row (fwd dx c2 c1 c0 n u) j = 0).
Proof.
  induction n as [|n IH]; intros Hn; cbn [fwd]; [split; [reflexivity|intros; lia]|].
  destruct (IH ltac:(lia)) as [A B]. split.
  - intros j Hj. rewrite upd_ne by lia. apply A. lia.
  - intros j Hj. destruct (Nat.eq_dec j (S n)) as [->|Hne].
    + unfold row. rewrite upd_eq, !upd_ne by lia. field. apply Hfp. lia.
    + rewrite (row_ext _ (fwd dx c2 c1 c0 n u) j) by (try apply upd_ne; lia). apply B. lia.
Qed.
Lemma sgn_sq x : x <> 0 -> sgn x * sgn x = 1.
Proof. intros H. unfold sgn. destruct (ltb 0 x) eqn:E; [ring|]. apply ltb_false in E. destruct (ltb x 0) eqn:F; [ring|]. apply ltb_false in F. lra. Qed.
Lemma sgn_pos x : 0 <= x * sgn x.
Proof. unfold sgn. destruct (ltb 0 x) eqn:E; [apply ltb_true in E; lra|]. destruct (ltb x 0) eqn:F; [apply ltb_true in F; lra|]. lra. Qed.
Lemma shoot_spec u r : (2 <= N)%nat -> shoot dx c2 c1 c0 N u = Some r -> sh_u r (sh_ctp r) <> 0 -> sh_u r 1%nat <> 0 ->
  let v := sh_u r in let ctp := sh_ctp r in
  (1 <= ctp <= N - 2)%nat /\
  (forall i, (1 <= i <= N - 2)%nat -> i <> ctp -> residual dx c2 c1 c0 v i = 0) /\
  sh_A r = v ctp * residual dx c2 c1 c0 v ctp * (/ fp ctp + / fm ctp) / (2 * dx) /\
  0 < v 1%nat /\
  (forall j, (ctp < j <= N - 2)%nat -> c0 j <= 0) /\ (0 < c0 ctp \/ (ctp = N / 2)%nat /\ forall j, (j < N)%nat -> c0 j < 0) /\
  v (N - 2)%nat = v (N - 1)%nat * f0 (N - 1) / fm (N - 1) /\ v (N - 1)%nat <> 0.
Proof.
  intros HN. unfold shoot. set (u1 := upd _ (N - 2) _).
  destruct (back dx c2 c1 c0 N (N - 2) u1) as [[u2 ctp]|] eqn:E; [|discriminate].
  destruct (back_spec (N - 2) u1 u2 ctp ltac:(lia) ltac:(intros; lia) E) as (P & Q & (k & Hk & K) & T & U).
  destruct (fwd_spec ctp u2 ltac:(lia)) as [A B]. set (u3 := fwd dx c2 c1 c0 ctp u2) in *.
  intros H. injection H as <-. cbn [sh_u sh_ctp sh_A sh_nodes].
  set (scale := u2 ctp / u3 ctp). set (u4 := fun j => if (j <=? ctp)%nat then u3 j * scale else u3 j).
  set (u5 := upd u4 (ctp + 1) (u2 (ctp + 1)%nat)). set (s := sgn (u5 1%nat)). intros H1 H2. cbv zeta.
  assert (V : forall j, (j <= ctp)%nat -> u5 j = u3 j * scale).
  { intros j Hj. unfold u5. rewrite upd_ne by lia. unfold u4. apply Nat.leb_le in Hj. rewrite Hj. reflexivity. }
  assert (N3 : u3 ctp <> 0). { intros Z. apply H1. rewrite V by lia. rewrite Z. ring. }
  assert (W : forall j, (ctp <= j)%nat -> u5 j = u2 j).
  { intros j Hj. destruct (Nat.eq_dec j ctp) as [->|Hne]; [rewrite V by lia; unfold scale; field; exact N3|].
    unfold u5. destruct (Nat.eq_dec j (ctp + 1)) as [->|Hne2]; [apply upd_eq|]. rewrite upd_ne by exact Hne2. unfold u4.
    replace (j <=? ctp)%nat with false by (symmetry; apply Nat.leb_gt; lia). apply A. lia. }
  assert (S5 : u5 1%nat <> 0). { intros Z. apply H2. rewrite Z. ring. }
  pose proof (sgn_sq _ S5) as SS. fold s in SS.
  split; [lia|]. split.
  { intros i Hi Hne. rewrite residual_row. rewrite (row_scale _ u5 i s) by reflexivity.
    assert (Z : row u5 i = 0); [|rewrite Z; ring].
    destruct (le_lt_dec i ctp).
    - rewrite (row_scale u5 u3 i scale); [rewrite B by lia; ring|apply V; lia|apply V; lia|apply V; lia].
    - rewrite (row_ext u5 u2 i); [apply Q; lia|lia|apply W; lia|apply W; lia|apply W; lia]. }
  split.
  { rewrite residual_row. rewrite (row_scale _ u5 ctp s) by reflexivity.
    assert (F : row u3 ctp = 0) by (apply B; lia). assert (G : row u2 ctp = 0) by (apply Q; lia).
    assert (Nm : fm ctp <> 0) by (apply Hfm; lia). assert (Np : fp ctp <> 0) by (apply Hfp; lia).
    assert (R1 : row u5 ctp = fp ctp * (u2 (ctp + 1)%nat - u3 (ctp + 1)%nat * scale)).
    { unfold row in *. rewrite (W (ctp + 1)%nat) by lia. rewrite !V by lia. 
      transitivity (fp ctp * (u2 (ctp + 1)%nat - u3 (ctp + 1)%nat * scale) + scale * (fp ctp * u3 (ctp + 1)%nat + f0 ctp * u3 ctp + fm ctp * u3 (ctp - 1)%nat)); [ring|rewrite F; ring]. }
    assert (R2 : row u5 ctp = fm ctp * (u3 (ctp - 1)%nat * scale - u2 (ctp - 1)%nat)).
    { unfold row in *. rewrite (W (ctp + 1)%nat) by lia. rewrite (W ctp) by lia. rewrite V by lia. 
      transitivity (fm ctp * (u3 (ctp - 1)%nat * scale - u2 (ctp - 1)%nat) + (fp ctp * u2 (ctp + 1)%nat + f0 ctp * u2 ctp + fm ctp * u2 (ctp - 1)%nat)); [ring|rewrite G; ring]. }
    rewrite <- (W ctp) by lia.
    transitivity (u5 ctp * (s * s) * (/ fp ctp * row u5 ctp + / fm ctp * row u5 ctp) / (2 * dx)).
    - rewrite SS. rewrite R1 at 1. rewrite R2. field. repeat split; assumption.
    - field. repeat split; assumption. }
  split. { assert (0 <= u5 1%nat * s) by apply sgn_pos. lra. }
  split; [exact T|]. split; [exact U|].
  rewrite !W by lia. rewrite !K by lia.
  assert (E1 : u1 (N - 1)%nat = 1) by (unfold u1; rewrite upd_ne by lia; apply upd_eq).
  assert (E2 : u1 (N - 2)%nat = f0 (N - 1) / fm (N - 1)) by (unfold u1; rewrite upd_eq, upd_eq; unfold Rdiv; ring).
  split.
  - rewrite E1, E2. unfold Rdiv. ring.
  - rewrite E1. assert (s <> 0) by (intros Z; rewrite Z in SS; lra). nra.
Qed.
End S.
