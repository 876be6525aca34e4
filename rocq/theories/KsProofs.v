From Coq Require Import Reals ZArith String List Bool Arith Lra Lia.
From Verif Require Import Vec GeomModel GeomProofs AtomModel AtomSpec AtomProofs AtomProofs2 AtomProofs3 AtomProofs5 SkProofs6 KsModel KsSpec.
Import ListNotations.
Open Scope R_scope.

Lemma shoot_ctp dx c2 c1 c0 N u r : (2 <= N)%nat -> dx <> 0 ->
  (forall i, (1 <= i <= N - 2)%nat -> fm dx c2 c1 i <> 0) -> (forall i, (1 <= i <= N - 2)%nat -> fp dx c2 c1 i <> 0) ->
  shoot dx c2 c1 c0 N u = Some r -> sh_u r 1%nat <> 0 -> sh_u r (sh_ctp r) <> 0.
Proof.
  intros HN Hdx Hm Hp. unfold shoot. set (u1 := upd _ (N - 2) _).
  destruct (back dx c2 c1 c0 N (N - 2) u1) as [[u2 ctp]|] eqn:E; [|discriminate].
  destruct (back_spec dx c2 c1 c0 N Hm (N - 2) u1 u2 ctp ltac:(lia) ltac:(intros; lia) E) as (P & _).
  intros H. injection H as <-. cbn [sh_u sh_ctp]. set (u3 := fwd dx c2 c1 c0 ctp u2). set (k := u2 ctp / u3 ctp).
  assert (L1 : (1 <=? ctp)%nat = true) by (apply Nat.leb_le; lia). assert (L2 : (ctp <=? ctp)%nat = true) by (apply Nat.leb_le; lia).
  set (s := sgn _). intros H1 H2. apply H1.
  rewrite upd_ne in H1, H2 |- * by lia. cbv beta in *. rewrite L1 in H1 |- *. rewrite L2 in H2.
  assert (s <> 0) by (intros Z; apply H1; rewrite Z; ring).
  assert (Z : u3 ctp * k = 0). { apply Rmult_integral in H2. destruct H2; [assumption|contradiction]. }
  assert (K : k = 0). { apply Rmult_integral in Z. destruct Z as [Z|Z]; [unfold k; rewrite Z; unfold Rdiv; rewrite Rinv_0; ring|exact Z]. }
  exfalso. apply H1. rewrite K. ring.
Qed.
Section Eig.
Variables (N : nat) (r : nat -> R) (dx : R) (coefs : R -> (nat -> R) * (nat -> R) * (nat -> R)) (l : nat) (nn : Z) (epsmax : R).
Notation loop := (eig_loop N r dx coefs l nn epsmax).
Definition norm_of (s : shot) : R := g_integrate N r (fun i => sh_u s i ^ 2) false.
Lemma eig_ok fuel u eps delta dir e : loop fuel u eps delta dir = KOk e ->
  exists u0 c0 c1 c2 s, coefs (e_eps e) = (c0, c1, c2) /\ c0 (N - 2)%nat < 0 /\ c0 (N - 1)%nat < 0 /\
    shoot dx c2 c1 c0 N u0 = Some s /\ (forall i, (i < 2)%nat -> u0 i = r i ^ (l + 1)) /\
    e_u e = (fun i => sh_u s i / sqrt (norm_of s)) /\ Z.of_nat (sh_nodes s) = nn /\ e_nodes e = nn /\
    Rabs (- (/ 2) * sh_A s / (r (sh_ctp s) * norm_of s)) < / 10 ^ 8 /\ (102 - fuel <= e_it e <= 101)%nat /\
    e_eps e <= Rmax eps epsmax.
Proof.
  revert u eps delta dir. induction fuel as [|f IH]; intros u eps delta dir; cbn [eig_loop]; [discriminate|].
  destruct (coefs eps) as [[c0 c1] c2] eqn:C. set (u0 := fun i => if (i <? 2)%nat then _ else _).
  destruct (ltb (c0 (N - 2)%nat) 0 && ltb (c0 (N - 1)%nat) 0) eqn:B; [|discriminate]. cbn [negb].
  apply andb_prop in B. destruct B as [B1 B2]. apply ltb_true in B1, B2.
  destruct (shoot dx c2 c1 c0 N u0) as [s|] eqn:Sh; [|discriminate]. fold (norm_of s). cbv zeta.
  assert (cap : forall e', (if ltb epsmax e' then / 2 * (epsmax + eps) else e') <= Rmax eps epsmax).
  { intros e'. pose proof (Rmax_l eps epsmax). pose proof (Rmax_r eps epsmax). destruct (ltb epsmax e') eqn:X; [lra|]. apply ltb_false in X. lra. }
  assert (next : forall u' e' d dr, loop f u' (if ltb epsmax e' then / 2 * (epsmax + eps) else e') d dr = KOk e ->
    exists u0 c0 c1 c2 s, coefs (e_eps e) = (c0, c1, c2) /\ c0 (N - 2)%nat < 0 /\ c0 (N - 1)%nat < 0 /\
    shoot dx c2 c1 c0 N u0 = Some s /\ (forall i, (i < 2)%nat -> u0 i = r i ^ (l + 1)) /\
    e_u e = (fun i => sh_u s i / sqrt (norm_of s)) /\ Z.of_nat (sh_nodes s) = nn /\ e_nodes e = nn /\
    Rabs (- (/ 2) * sh_A s / (r (sh_ctp s) * norm_of s)) < / 10 ^ 8 /\ (102 - S f <= e_it e <= 101)%nat /\ e_eps e <= Rmax eps epsmax).
  { intros u' e' d dr H. destruct (IH _ _ _ _ H) as (v0 & a0 & a1 & a2 & t & h1 & h2 & h3 & h4 & h5 & h6 & h7 & h8 & h9 & h10 & h11).
    exists v0, a0, a1, a2, t. repeat (split; [assumption|]). split; [lia|].
    apply (Rle_trans _ _ _ h11). apply Rmax_lub; [apply cap|apply Rmax_r]. }
  destruct (nn <? Z.of_nat (sh_nodes s))%Z eqn:L1; [apply next|].
  destruct (Z.of_nat (sh_nodes s) <? nn)%Z eqn:L2; [apply next|].
  assert (Hn : Z.of_nat (sh_nodes s) = nn) by lia.
  destruct (ltb (Rabs _) (/ 10 ^ 8)) eqn:L3; [|apply next]. apply ltb_true in L3.
  intros H. injection H as <-. cbn [e_eps e_u e_nodes e_it].
  exists u0, c0, c1, c2, s. repeat (split; [assumption|]). split.
  { intros i Hi. unfold u0. apply Nat.ltb_lt in Hi. rewrite Hi. reflexivity. }
  split; [reflexivity|]. split; [exact Hn|]. split; [exact Hn|]. split; [exact L3|]. split; [split; [apply Nat.le_refl|change (102 - S f <= 101)%nat; clear; lia]|apply Rmax_l].
Qed.
(** a vanishing step: the energy does not change while the number of nodes is wrong *)
Lemma eig_stuck fuel u eps dir c0 c1 c2 : coefs eps = (c0, c1, c2) -> eps <= epsmax ->
  (forall v, (forall i, (i < 2)%nat -> v i = r i ^ (l + 1)) -> exists s, shoot dx c2 c1 c0 N v = Some s /\ Z.of_nat (sh_nodes s) <> nn) ->
  c0 (N - 2)%nat < 0 -> c0 (N - 1)%nat < 0 ->
  loop fuel u eps 0 dir = KErr KRuntime.
Proof.
  intros C M Sh B1 B2. revert u dir. induction fuel as [|f IH]; intros u dir; cbn [eig_loop]; [reflexivity|].
  rewrite C. apply ltb_true in B1, B2. rewrite B1, B2. cbn [negb andb].
  set (v := fun i => if (i <? 2)%nat then _ else _).
  destruct (Sh v) as (s & Hs & Hn). { intros i Hi. unfold v. apply Nat.ltb_lt in Hi. rewrite Hi. reflexivity. }
  rewrite Hs. cbv zeta.
  assert (M' : ltb epsmax eps = false) by (apply ltb_false; exact M).
  destruct (nn <? Z.of_nat (sh_nodes s))%Z eqn:L1.
  - destruct dir; try replace (0 / 2) with 0 by field; rewrite Rminus_0_r, M'; apply IH.
  - destruct (Z.of_nat (sh_nodes s) <? nn)%Z eqn:L2; [|lia].
    destruct dir; try replace (0 / 2) with 0 by field; rewrite Rplus_0_r, M'; apply IH.
Qed.
End Eig.

Lemma residual_scale dx c2 c1 c0 u k i : residual dx c2 c1 c0 (fun j => u j / k) i = residual dx c2 c1 c0 u i / k.
Proof. unfold residual, Rdiv. ring. Qed.
Lemma schroedinger_residual dx r l v eps u i : dx <> 0 ->
  residual dx (fun _ => coef2) (fun _ => coef1) (fun i => coef0 l (r i) (v i) eps) u i = schroedinger dx r l v eps u i.
Proof. intros H. unfold residual, schroedinger, coef0, coef1, coef2. field. exact H. Qed.
Lemma integrate_norm N r u k : (2 <= N)%nat -> 0 < k -> g_integrate N r (fun i => u i ^ 2) false = k -> g_integrate N r (fun i => (u i / sqrt k) ^ 2) false = 1.
Proof.
  intros HN H E. rewrite (integrate_ext N r HN _ (fun i => u i ^ 2 * / k)).
  - rewrite integrate_scale. rewrite E. field. lra.
  - intros i _. pose proof (sqrt_lt_R0 k H). replace ((u i / sqrt k) ^ 2) with (u i ^ 2 / (sqrt k * sqrt k)) by (field; lra).
    rewrite sqrt_sqrt by lra. reflexivity.
Qed.
Lemma sign_scale u k m : 0 < k -> sign_changes (fun i => u i / k) m = length (filter (fun j => ltb (u j * u (j + 1)%nat) 0) (seq 0 m)).
Proof.
  intros H. unfold sign_changes. f_equal. apply filter_ext. intros j. 
  assert (0 < / k) by (apply Rinv_0_lt_compat; exact H). assert (0 < / k * / k) by nra.
  replace (u j / k * (u (j + 1)%nat / k)) with (u j * u (j + 1)%nat * (/ k * / k)) by (unfold Rdiv; ring).
  set (p := u j * u (j + 1)%nat) in *. set (q := / k * / k) in *. clearbody p q.
  destruct (ltb p 0) eqn:A; [apply ltb_true in A; apply ltb_true; nra|apply ltb_false in A; apply ltb_false; nra].
Qed.
(** the state found by the eigensolver *)
Lemma eig_state N r dx v n l epsmax fuel u eps delta dir e : (2 <= N)%nat -> 0 < dx < 2 -> (forall i, (i < N)%nat -> 0 < r i) ->
  eig_loop N r dx (fun eps => (fun i => coef0 l (r i) (v i) eps, fun _ => coef1, fun _ => coef2)) l (nodes_of n l) epsmax fuel u eps delta dir = KOk e ->
  0 < e_u e 1%nat -> eigenstate N dx r n l v (e_eps e) (e_u e) /\ (102 - fuel <= e_it e <= 101)%nat /\ e_eps e <= Rmax eps epsmax.
Proof.
  intros HN Hdx Hr H Hu.
  destruct (eig_ok _ _ _ _ _ _ _ _ _ _ _ _ _ H) as (u0 & c0 & c1 & c2 & s & C & B1 & B2 & Sh & _ & Eu & En & _ & Sf & It & Cap).
  injection C as <- <- <-. set (c0 := fun i => coef0 l (r i) (v i) (e_eps e)) in *.
  split; [|split; [exact It|exact Cap]].
  set (k := norm_of N r s) in *. 
  assert (K : 0 < k). { destruct (Rlt_le_dec 0 k) as [h|h]; [exact h|]. exfalso. rewrite Eu in Hu. rewrite (sqrt_neg_0 k h) in Hu. unfold Rdiv in Hu. rewrite Rinv_0 in Hu. rewrite Rmult_0_r in Hu. lra. }
  pose proof (sqrt_lt_R0 k K) as K2. 
  assert (Hm : forall i, (1 <= i <= N - 2)%nat -> fm dx (fun _ => coef2) (fun _ => coef1) i <> 0) by (intros i _; exact (proj1 (radial_step dx i Hdx))).
  assert (Hp : forall i, (1 <= i <= N - 2)%nat -> fp dx (fun _ => coef2) (fun _ => coef1) i <> 0) by (intros i _; exact (proj2 (radial_step dx i Hdx))).
  assert (U1 : sh_u s 1%nat <> 0). { intros Z. rewrite Eu in Hu. rewrite Z in Hu. unfold Rdiv in Hu. rewrite Rmult_0_l in Hu. lra. }
  assert (Dn : dx <> 0) by lra. pose proof (shoot_ctp _ _ _ _ _ _ _ HN Dn Hm Hp Sh U1) as Uc.
  destruct (shoot_spec dx _ _ c0 N Dn Hm Hp u0 s HN Sh Uc U1) as (T1 & T2 & T3 & T4 & T5 & _).
  assert (Nd : sh_nodes s = length (filter (fun j => ltb (sh_u s j * sh_u s (j + 1)%nat) 0) (seq 0 (sh_ctp s - 1)))).
  { revert Sh. unfold shoot. destruct (back _ _ _ _ _ _ _) as [[u2 c]|]; [|discriminate]. intros X. injection X as <-. reflexivity. }
  unfold eigenstate. set (p := sh_ctp s) in *. set (w := sh_u s) in *.
  assert (W : forall i, e_u e i = w i / sqrt k) by (intros i; rewrite Eu; reflexivity).
  split. { rewrite (integrate_ext N r HN _ (fun i => (w i / sqrt k) ^ 2)) by (intros i _; rewrite W; reflexivity). apply integrate_norm; [exact HN|exact K|reflexivity]. }
  split; [exact Hu|].
  pose proof (Hr p ltac:(lia)) as Rp.
  set (rho := residual dx (fun _ => coef2) (fun _ => coef1) c0 w p) in *.
  exists p, (rho / (2 * r p ^ 2 * w p)). split; [exact T1|]. split.
  { unfold nodes_of in En. rewrite <- En, Nd. f_equal. rewrite Eu. apply sign_scale. exact K2. }
  split.
  { intros i Hi. rewrite <- schroedinger_residual by lra. rewrite Eu. rewrite residual_scale.
    assert (Q : residual dx (fun _ => coef2) (fun _ => coef1) (fun i0 => coef0 l (r i0) (changed v p (rho / (2 * r p ^ 2 * w p)) i0) (e_eps e)) w i = 0); [|rewrite Q; unfold Rdiv; ring].
    destruct (Nat.eq_dec i p) as [->|Hne].
    - transitivity (rho - rho); [|ring]. unfold rho at 2. unfold residual, changed, c0, coef0. rewrite Nat.eqb_refl. fold w. field. repeat split; try lra; exact Uc.
    - rewrite <- (T2 i Hi Hne). unfold residual, changed, c0. apply Nat.eqb_neq in Hne. rewrite Hne. reflexivity. }
  split.
  { rewrite W. unfold fm, fp, coef1, coef2 in T3.
    assert (E : / (1 / dx ^ 2 + / 2 * -1 / dx) + / (1 / dx ^ 2 - / 2 * -1 / dx) = 8 * dx ^ 2 / (4 - dx ^ 2)).
    { field. assert (2 + dx <> 0) by lra. assert (2 - dx <> 0) by lra. repeat split; try lra. replace (4 - dx ^ 2) with ((2 + dx) * (2 - dx)) by ring. nra. }
    rewrite E in T3. assert (D : 0 < 4 - dx ^ 2) by nra. 
    set (X := w p * rho) in *.
    assert (Sf' : - (/ 2) * sh_A s / (r p * k) = - (X / (r p * k) * (2 * dx / (4 - dx ^ 2)))) by (rewrite T3; fold rho; fold X; field; lra).
    rewrite Sf' in Sf. rewrite Rabs_Ropp, Rabs_mult in Sf. 
    assert (P1 : 0 < 2 * dx / (4 - dx ^ 2)) by (apply Rdiv_lt_0_compat; lra). rewrite (Rabs_right (2 * dx / (4 - dx ^ 2))) in Sf by lra.
    assert (G : Rabs (rho / (2 * r p ^ 2 * w p)) * (w p / sqrt k) ^ 2 * (r p * dx) = Rabs (X / (r p * k)) * (dx / 2)).
    { transitivity (Rabs (rho / (2 * r p ^ 2 * w p)) * Rabs ((w p / sqrt k) ^ 2 * r p) * dx).
      - rewrite (Rabs_right ((w p / sqrt k) ^ 2 * r p)); [ring|]. apply Rle_ge. apply Rmult_le_pos; [apply pow2_ge_0|lra].
      - rewrite <- Rabs_mult. replace (rho / (2 * r p ^ 2 * w p) * ((w p / sqrt k) ^ 2 * r p)) with (X / (r p * k) * / 2).
        + rewrite Rabs_mult. rewrite (Rabs_right (/ 2)) by lra. field.
        + unfold X. replace ((w p / sqrt k) ^ 2) with (w p ^ 2 / (sqrt k * sqrt k)) by (field; lra). rewrite sqrt_sqrt by lra. field. repeat split; try lra; exact Uc. }
    rewrite G. set (Y := Rabs _) in *. assert (0 <= Y) by apply Rabs_pos.
    assert (P2 : dx / 2 <= 2 * dx / (4 - dx ^ 2)).
    { apply Rmult_le_reg_r with (4 - dx ^ 2); [exact D|]. replace (2 * dx / (4 - dx ^ 2) * (4 - dx ^ 2)) with (2 * dx) by (field; lra). nra. }
    nra. }
  intros j Hj. specialize (T5 j Hj). unfold c0, coef0 in T5. fold p in Hj. lra.
Qed.
