From Coq Require Import Reals List Bool Arith Lra Lia.
From Verif Require Import Vec GeomModel GeomProofs AtomModel AtomSpec AtomProofs AtomProofs2 SkProofs6.
Import ListNotations.
Open Scope R_scope.

(** the function found by shoot changes sign at the outer end *)
Lemma shoot_outer dx c0 N u r : 0 < dx -> (2 <= N)%nat -> c0 (N - 1)%nat < 0 ->
  (forall i, (1 <= i <= N - 2)%nat -> fm dx (fun _ => coef2) (fun _ => coef1) i <> 0) ->
  (forall i, (1 <= i <= N - 2)%nat -> fp dx (fun _ => coef2) (fun _ => coef1) i <> 0) ->
  shoot dx (fun _ => coef2) (fun _ => coef1) c0 N u = Some r -> sh_u r (sh_ctp r) <> 0 -> sh_u r 1%nat <> 0 ->
  sh_u r (N - 2)%nat * sh_u r (N - 1)%nat < 0.
Proof.
  intros Hdx HN Hc Hm Hp H H1 H2.
  destruct (shoot_spec dx (fun _ => coef2) (fun _ => coef1) c0 N ltac:(lra) Hm Hp u r HN H H1 H2) as (_ & _ & _ & _ & _ & _ & E & Hn).
  rewrite E. 
  assert (I : 0 < / dx) by (apply Rinv_0_lt_compat; exact Hdx).
  assert (P : 0 < fm dx (fun _ => coef2) (fun _ => coef1) (N - 1)).
  { unfold fm, coef1, coef2. replace (1 / dx ^ 2 - / 2 * -1 / dx) with (/ dx * / dx + / 2 * / dx) by (field; lra). nra. }
  assert (Q : f0 dx (fun _ => coef2) c0 (N - 1) < 0).
  { unfold f0, coef2. replace (2 * 1 / dx ^ 2) with (2 * (/ dx * / dx)) by (field; lra). nra. }
  set (a := sh_u r (N - 1)%nat) in *. set (p := fm _ _ _ _) in *. set (q := f0 _ _ _ _) in *.
  replace (a * q / p * a) with ((a * a) * q * / p) by (field; lra).
  assert (0 < / p) by (apply Rinv_0_lt_compat; exact P). assert (0 < a * a) by nra. assert (a * a * q < 0) by nra. nra.
Qed.
(** ** logarithmic grid.  U(x) = u(rmin exp x); the equation solved for U is the radial Schroedinger equation for u *)
Lemma log_grid (u u1 u2 : R -> R) rmin l v eps x :
  0 < rmin -> (forall r, 0 < r -> derivable_pt_lim u r (u1 r)) -> (forall r, 0 < r -> derivable_pt_lim u1 r (u2 r)) ->
  let r := rmin * exp x in
  exists U1 U2, (forall y, derivable_pt_lim (fun y => u (rmin * exp y)) y (U1 y)) /\ derivable_pt_lim U1 x U2 /\
  (coef2 * U2 + coef1 * U1 x + coef0 l r v eps * u r = 0 <-> - / 2 * u2 r + (v + INR l * (INR l + 1) / (2 * r ^ 2)) * u r = eps * u r).
Proof.
  intros Hr D1 D2 r.
  assert (De : forall y, derivable_pt_lim (fun y => rmin * exp y) y (rmin * exp y)).
  { intros y. apply (derivable_pt_lim_scal exp rmin y (exp y)). apply derivable_pt_lim_exp. }
  assert (Pos : forall y, 0 < rmin * exp y) by (intros y; pose proof (exp_pos y); nra).
  exists (fun y => u1 (rmin * exp y) * (rmin * exp y)), (u2 r * r * r + u1 r * r). split; [|split].
  - intros y. apply (derivable_pt_lim_comp (fun y => rmin * exp y) u y); [apply De|apply D1, Pos].
  - apply (derivable_pt_lim_mult (fun y => u1 (rmin * exp y)) (fun y => rmin * exp y) x (u2 r * r) r); [|apply De].
    apply (derivable_pt_lim_comp (fun y => rmin * exp y) u1 x r (u2 r)); [apply De|apply D2, Pos].
  - fold r. assert (R0 : 0 < r) by apply Pos. unfold coef0, coef1, coef2.
    assert (E : 1 * (u2 r * r * r + u1 r * r) + -1 * (u1 r * r) + -2 * (/ 2 * INR l * (INR l + 1) + r ^ 2 * (v - eps)) * u r
       = -2 * r ^ 2 * (- / 2 * u2 r + (v + INR l * (INR l + 1) / (2 * r ^ 2)) * u r - eps * u r)) by (field; lra).
    rewrite E. assert (RP : 0 < r ^ 2) by nra. split; intros H; [|rewrite H; ring].
    apply Rmult_integral in H. destruct H as [H|H]; nra.
Qed.

(** ** radial grid *)
Section G.
Variables (N : nat) (grid : nat -> R).
Hypothesis HN : (2 <= N)%nat.
Hypothesis Hinc : increasing N grid.
Hypothesis H0 : 0 < grid 0%nat.
Lemma grid_pos i : (i < N)%nat -> 0 < grid i.
Proof. intros H. destruct i as [|i]; [exact H0|]. apply Rlt_trans with (grid 0%nat); [exact H0|]. apply (x_lt N grid Hinc); lia. Qed.
Lemma dr_pos i : (i < N - 1)%nat -> 0 < g_dr grid i.
Proof. intros H. unfold g_dr. replace (i + 1)%nat with (S i) by lia. pose proof (Hinc i ltac:(lia)). lra. Qed.
Lemma r0_between i : (i < N - 1)%nat -> grid i < g_r0 grid i < grid (i + 1)%nat.
Proof. intros H. pose proof (dr_pos i H) as P. unfold g_r0, g_dr in *. lra. Qed.
Lemma dV0_pos i : (i < N - 1)%nat -> 0 < g_dV0 grid i.
Proof.
  intros H. unfold g_dV0. pose proof (dr_pos i H). pose proof (r0_between i H). pose proof (grid_pos i ltac:(lia)). pose proof PI_RGT_0.
  assert (0 < g_r0 grid i ^ 2) by nra. assert (0 < 4 * PI * g_r0 grid i ^ 2) by nra. nra.
Qed.
Lemma sum_pos n f : (0 < n)%nat -> (forall i, (i < n)%nat -> 0 < f i) -> 0 < rsum n f.
Proof.
  intros Hn Hf. destruct n as [|n]; [lia|]. cbn [rsum]. apply Rplus_le_lt_0_compat; [apply rsum_nonneg; intros i Hi; left; apply Hf; lia|apply Hf; lia].
Qed.
Lemma dV_pos i : (i < N - 1)%nat -> 0 < g_dV N grid i.
Proof.
  intros H. unfold g_dV. pose proof (dV0_pos i H). pose proof (sum_pos (N - 1) (g_dV0 grid) ltac:(lia) dV0_pos) as S.
  pose proof (grid_pos (N - 1) ltac:(lia)) as G. pose proof PI_RGT_0. set (R3 := grid (N - 1)%nat) in *.
  assert (0 < R3 ^ 3) by (assert (0 < R3 * R3) by nra; replace (R3 ^ 3) with (R3 * R3 * R3) by ring; nra).
  apply Rmult_lt_0_compat; [assumption|]. unfold Rdiv. apply Rmult_lt_0_compat; [nra|apply Rinv_0_lt_compat; exact S].
Qed.
Lemma dV_total : rsum (N - 1) (g_dV N grid) = 4 * PI * grid (N - 1)%nat ^ 3 / 3.
Proof.
  pose proof (sum_pos (N - 1) (g_dV0 grid) ltac:(lia) dV0_pos) as S. unfold g_dV.
  transitivity (rsum (N - 1) (g_dV0 grid) * (4 * PI * grid (N - 1)%nat ^ 3 / 3 / rsum (N - 1) (g_dV0 grid))); [apply rsum_scal_r|]. field. lra.
Qed.
Lemma integrate_one : g_integrate N grid (fun _ => 1) true = 4 * PI * grid (N - 1)%nat ^ 3 / 3.
Proof.
  rewrite <- dV_total. unfold g_integrate. rewrite <- rsum_scal_r. apply rsum_ext. intros; field.
Qed.
Lemma telescope n (f : nat -> R) : rsum n (fun i => f (i + 1)%nat - f i) = f n - f 0%nat.
Proof. induction n as [|n IH]; cbn [rsum]; [ring|]. rewrite IH. replace (n + 1)%nat with (S n) by lia. ring. Qed.
Lemma integrate_linear a b : g_integrate N grid (fun i => a + b * grid i) false =
  a * (grid (N - 1)%nat - grid 0%nat) + b * (grid (N - 1)%nat ^ 2 - grid 0%nat ^ 2) / 2.
Proof.
  unfold g_integrate, g_dr. rewrite <- rsum_scal_r.
  transitivity (rsum (N - 1) (fun i => (fun j => a * grid j + b * grid j ^ 2 / 2) (i + 1)%nat - (fun j => a * grid j + b * grid j ^ 2 / 2) i)).
  - apply rsum_ext. intros; field.
  - rewrite (telescope (N - 1) (fun j => a * grid j + b * grid j ^ 2 / 2)). field.
Qed.
Lemma integrate_ext f g b : (forall i, (i < N)%nat -> f i = g i) -> g_integrate N grid f b = g_integrate N grid g b.
Proof. intros H. unfold g_integrate. destruct b; f_equal; apply rsum_ext; intros i Hi; rewrite !H by lia; reflexivity. Qed.
Lemma integrate_scale f k b : g_integrate N grid (fun i => f i * k) b = g_integrate N grid f b * k.
Proof. unfold g_integrate. destruct b; rewrite <- !rsum_scal_r; apply rsum_ext; intros; ring. Qed.
Lemma guess_electrons Z nel : 0 < Z -> g_integrate N grid (guess_density N grid Z nel) true = nel.
Proof.
  intros HZ. unfold guess_density. set (d := fun i => exp (- grid i / (2 / 100 * Z / ln 2))). cbv zeta.
  assert (P : 0 < g_integrate N grid d true).
  { unfold g_integrate. apply Rmult_lt_0_compat; [|lra]. apply sum_pos; [lia|]. intros i Hi. apply Rmult_lt_0_compat; [|apply dV_pos; exact Hi].
    unfold d. pose proof (exp_pos (- grid i / (2 / 100 * Z / ln 2))). pose proof (exp_pos (- grid (i + 1)%nat / (2 / 100 * Z / ln 2))). lra. }
  transitivity (g_integrate N grid (fun i => d i * (/ g_integrate N grid d true * nel)) true).
  - apply integrate_ext. intros i _. unfold d. unfold Rdiv. ring.
  - rewrite integrate_scale. field. lra.
Qed.
(** ** Hartree potential *)
Variables (nel : R) (dens : nat -> R).
Hypothesis Hd : rsum (N - 1) (fun i => / 2 * (dens (i + 1)%nat + dens i) * g_dV N grid i) <> 0.
Lemma lo_inside i : h_lo N grid nel dens i = inside (g_dV N grid) (h_n0 N grid nel dens) i.
Proof. induction i as [|i IH]; cbn [h_lo]; [reflexivity|]. unfold inside in *. cbn [rsum]. rewrite IH. ring. Qed.
Lemma inside_all : inside (g_dV N grid) (h_n0 N grid nel dens) (N - 1) = nel.
Proof.
  unfold inside, h_n0. cbv beta zeta. set (T := rsum (N - 1) _) in *. 
  transitivity (rsum (N - 1) (fun i => / 2 * (dens (i + 1)%nat + dens i) * g_dV N grid i) * (nel / T)).
  - rewrite <- rsum_scal_r. apply rsum_ext. intros; ring.
  - fold T. field. exact Hd.
Qed.
Lemma hi_sum d : (d <= N - 1)%nat -> h_hi N grid nel dens d = 
  rsum d (fun j => let i := (N - 1 - d + j)%nat in h_n0 N grid nel dens i * g_dV N grid i / g_r0 grid i).
Proof.
  induction d as [|d IH]; intros H; [reflexivity|]. cbn [h_hi]. rewrite IH by lia.
  replace (S d) with (1 + d)%nat at 4 by lia. rewrite rsum_split. cbn [rsum]. cbv zeta.
  rewrite Rplus_comm, Rplus_0_l. f_equal; [replace (N - 1 - S d + 0)%nat with (N - 1 - S d)%nat by lia; reflexivity|].
  apply rsum_ext. intros j Hj. replace (N - 1 - S d + (1 + j))%nat with (N - 1 - d + j)%nat by lia. reflexivity.
Qed.
Lemma hartree_gauss i : (i < N)%nat -> hartree N grid nel dens i =
  inside (g_dV N grid) (h_n0 N grid nel dens) i / grid i
  + rsum (N - 1 - i) (fun j => h_n0 N grid nel dens (i + j) * g_dV N grid (i + j) / g_r0 grid (i + j)).
Proof.
  intros H. unfold hartree. rewrite lo_inside, hi_sum by lia. f_equal. apply rsum_ext. intros j Hj. cbv zeta.
  replace (N - 1 - (N - 1 - i) + j)%nat with (i + j)%nat by lia. reflexivity.
Qed.
Lemma hartree_outer : hartree N grid nel dens (N - 1) = nel / grid (N - 1)%nat.
Proof. rewrite hartree_gauss by lia. rewrite inside_all, Nat.sub_diag. cbn [rsum]. ring. Qed.
Lemma n0_nonneg i : 0 <= nel -> (forall i, (i < N)%nat -> 0 <= dens i) -> (i < N - 1)%nat -> 0 <= h_n0 N grid nel dens i.
Proof.
  intros Hn Hp Hi. unfold h_n0. cbv beta zeta. apply Rmult_le_pos; [pose proof (Hp i ltac:(lia)); pose proof (Hp (i + 1)%nat ltac:(lia)); lra|].
  assert (T : 0 <= rsum (N - 1) (fun i => / 2 * (dens (i + 1)%nat + dens i) * g_dV N grid i)).
  { apply rsum_nonneg. intros j Hj. apply Rmult_le_pos; [pose proof (Hp j ltac:(lia)); pose proof (Hp (j + 1)%nat ltac:(lia)); lra|left; apply dV_pos; exact Hj]. }
  apply Rmult_le_pos; [exact Hn|]. left. apply Rinv_0_lt_compat. destruct T as [T|T]; [exact T|]. exfalso. apply Hd. symmetry. exact T.
Qed.
Lemma hartree_decreasing i : 0 <= nel -> (forall i, (i < N)%nat -> 0 <= dens i) -> (S i < N)%nat ->
  hartree N grid nel dens (S i) <= hartree N grid nel dens i.
Proof.
  intros Hn Hp Hi. rewrite !hartree_gauss by lia.
  replace (N - 1 - i)%nat with (1 + (N - 1 - S i))%nat by lia. rewrite rsum_split. cbn [rsum]. rewrite Rplus_0_l, Nat.add_0_r.
  replace (rsum (N - 1 - S i) (fun j => h_n0 N grid nel dens (i + (1 + j)) * g_dV N grid (i + (1 + j)) / g_r0 grid (i + (1 + j))))
    with (rsum (N - 1 - S i) (fun j => h_n0 N grid nel dens (S i + j) * g_dV N grid (S i + j) / g_r0 grid (S i + j))).
  2:{ apply rsum_ext. intros j _. replace (i + (1 + j))%nat with (S i + j)%nat by lia. reflexivity. }
  set (X := rsum (N - 1 - S i) _). unfold inside. cbn [rsum]. fold (inside (g_dV N grid) (h_n0 N grid nel dens) i).
  assert (Q : 0 <= inside (g_dV N grid) (h_n0 N grid nel dens) i).
  { apply rsum_nonneg. intros j Hj. apply Rmult_le_pos; [apply n0_nonneg; [exact Hn|exact Hp|lia]|left; apply dV_pos; lia]. }
  assert (P : 0 <= h_n0 N grid nel dens i * g_dV N grid i).
  { apply Rmult_le_pos; [apply n0_nonneg; [exact Hn|exact Hp|lia]|left; apply dV_pos; lia]. }
  set (q := inside _ _ i) in *. set (p := h_n0 _ _ _ _ i * _) in *.
  pose proof (r0_between i ltac:(lia)) as [B1 B2]. pose proof (grid_pos i ltac:(lia)) as G0. replace (i + 1)%nat with (S i) in B2 by lia.
  assert (I1 : / grid (S i) <= / g_r0 grid i) by (apply Rinv_le_contravar; lra).
  assert (I2 : / g_r0 grid i <= / grid i) by (apply Rinv_le_contravar; lra).
  unfold Rdiv. nra.
Qed.
End G.
