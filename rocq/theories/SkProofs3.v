From Coq Require Import Reals List Bool Arith Lia Lra.
From Verif Require Import Vec GeomModel GeomProofs SkModel SkSpec SkProofs SkProofs2.
Import ListNotations.
Open Scope R_scope.

(** ** The bond frame gives the coordinate-free form *)
Lemma bond_frame_expand h Q a b : bond_frame h Q a b =
  let D := Drep Q a in let D' := Drep Q b in
  D 0%nat * D' 0%nat * h 9%nat + D 0%nat * D' 3%nat * h 8%nat + D 0%nat * D' 8%nat * h 7%nat +
  D 3%nat * D' 0%nat * h 13%nat + D 3%nat * D' 3%nat * h 5%nat + D 3%nat * D' 8%nat * h 3%nat +
  D 8%nat * D' 0%nat * h 12%nat + D 8%nat * D' 3%nat * h 10%nat + D 8%nat * D' 8%nat * h 0%nat +
  (D 1%nat * D' 1%nat + D 2%nat * D' 2%nat) * h 6%nat + (D 1%nat * D' 6%nat + D 2%nat * D' 5%nat) * h 4%nat +
  (D 6%nat * D' 1%nat + D 5%nat * D' 2%nat) * h 11%nat + (D 6%nat * D' 6%nat + D 5%nat * D' 5%nat) * h 1%nat +
  (D 4%nat * D' 4%nat + D 7%nat * D' 7%nat) * h 2%nat.
Proof.
  unfold bond_frame. cbv zeta. generalize (Drep Q a) (Drep Q b). intros D D'.
  cbn [rsum around Nat.eqb lambda shell integral Nat.leb Nat.add]. ring.
Qed.

Definition col (k : nat) (Q : m3) : v3 := V3 (m3e Q 0 k) (m3e Q 1 k) (m3e Q 2 k).
Lemma col3 Q : mv Q ez = col 2 Q.
Proof. unfold col, m3e, comp, ez. vunf. apply v3_eq; cbn; ring. Qed.
Lemma orth_eqs Q i j : orthogonal Q -> (i < 3)%nat -> (j < 3)%nat ->
  m3e Q i 0 * m3e Q j 0 + m3e Q i 1 * m3e Q j 1 + m3e Q i 2 * m3e Q j 2 = dlt i j.
Proof.
  unfold orthogonal. intros H Hi Hj. destruct Q as [[q1 q2 q3] [q4 q5 q6] [q7 q8 q9]]. vunf.
  injection H as F1 F2 F3 F4 F5 F6 F7 F8 F9.
  destruct i as [|[|[|i]]]; try lia; destruct j as [|[|[|j]]]; try lia; unfold dlt; cbn; assumption.
Qed.
(** completeness of the columns *)
Lemma cols_complete Q u w : orthogonal Q ->
  vdot u (col 0 Q) * vdot w (col 0 Q) + vdot u (col 1 Q) * vdot w (col 1 Q) + vdot u (col 2 Q) * vdot w (col 2 Q) = vdot u w.
Proof.
  intros H. pose proof (fun i j => orth_eqs Q i j H) as E. unfold col. generalize dependent (m3e Q). intros q E.
  destruct u as [u1 u2 u3], w as [w1 w2 w3]. unfold vdot. cbn [vx vy vz].
  transitivity (u1 * w1 * dlt 0 0 + (u1 * w2 + u2 * w1) * dlt 0 1 + (u1 * w3 + u3 * w1) * dlt 0 2 + u2 * w2 * dlt 1 1 + (u2 * w3 + u3 * w2) * dlt 1 2 + u3 * w3 * dlt 2 2).
  - rewrite <- !E by lia. ring.
  - unfold dlt. cbn [Nat.eqb]. ring.
Qed.
Lemma col_norm Q : orthogonal Q -> vdot (col 2 Q) (col 2 Q) = 1.
Proof.
  intros H. apply orthogonal_tr in H. pose proof (orth_eqs (tr Q) 2 2 H ltac:(lia) ltac:(lia)) as E.
  destruct Q as [[q1 q2 q3] [q4 q5 q6] [q7 q8 q9]]. unfold dlt in E. cbn in E. unfold col, vdot. cbn. lra.
Qed.

(** components of the d orbitals in the bond frame *)
Lemma D_sigma Q a : orthogonal Q -> dshell a -> Drep Q a 8 = orbital a (col 2 Q).
Proof.
  intros H Ha. rewrite Drep_dd by (assumption || unfold dshell; lia).
  assert (E : mm (mm Q (Td 8)) (tr Q) = let r := col 2 Q in
    M3 (V3 (3 / 2 * (vx r * vx r) - / 2) (3 / 2 * (vx r * vy r)) (3 / 2 * (vx r * vz r)))
       (V3 (3 / 2 * (vy r * vx r)) (3 / 2 * (vy r * vy r) - / 2) (3 / 2 * (vy r * vz r)))
       (V3 (3 / 2 * (vz r * vx r)) (3 / 2 * (vz r * vy r)) (3 / 2 * (vz r * vz r) - / 2))).
  { pose proof (fun i j => orth_eqs Q i j H) as E.
    pose proof (E 0%nat 0%nat ltac:(lia) ltac:(lia)) as E00. pose proof (E 0%nat 1%nat ltac:(lia) ltac:(lia)) as E01.
    pose proof (E 0%nat 2%nat ltac:(lia) ltac:(lia)) as E02. pose proof (E 1%nat 1%nat ltac:(lia) ltac:(lia)) as E11.
    pose proof (E 1%nat 2%nat ltac:(lia) ltac:(lia)) as E12. pose proof (E 2%nat 2%nat ltac:(lia) ltac:(lia)) as E22.
    clear E H. destruct Q as [[q1 q2 q3] [q4 q5 q6] [q7 q8 q9]]. unfold dlt in *. cbn in E00, E01, E02, E11, E12, E22.
    unfold col. cbn [m3e comp vx vy vz row1 row2 row3 Td]. cbv zeta. vunf.
    apply m3_eq; apply v3_eq; cbn [row1 row2 row3 vx vy vz]; lra. }
  rewrite E. clear E. cbv zeta. generalize (col 2 Q). intros [x y z].
  five a; unfold frob; cbn [orbital Td]; vunf; field.
Qed.
Lemma D_pi Q a k : dshell a -> (k < 2)%nat -> Drep Q a (6 - k) = 2 * s3 / 3 * vdot (mv (Td a) (col 2 Q)) (col k Q).
Proof.
  intros Ha Hk. rewrite Drep_dd by (assumption || unfold dshell; lia).
  assert (E : mm (mm Q (Td (6 - k))) (tr Q) = let c := col k Q in let r := col 2 Q in
    M3 (V3 (s3 * (vx c * vx r)) (s3 / 2 * (vx c * vy r + vx r * vy c)) (s3 / 2 * (vx c * vz r + vx r * vz c)))
       (V3 (s3 / 2 * (vx c * vy r + vx r * vy c)) (s3 * (vy c * vy r)) (s3 / 2 * (vy c * vz r + vy r * vz c)))
       (V3 (s3 / 2 * (vx c * vz r + vx r * vz c)) (s3 / 2 * (vy c * vz r + vy r * vz c)) (s3 * (vz c * vz r)))).
  { destruct Q as [[q1 q2 q3] [q4 q5 q6] [q7 q8 q9]]. destruct k as [|[|k]]; [..|exfalso; lia]; cbv zeta; unfold col;
      cbn [m3e comp vx vy vz row1 row2 row3 Nat.sub Td]; vunf; apply m3_eq; apply v3_eq; cbn [row1 row2 row3 vx vy vz]; field. }
  rewrite E. clear E. cbv zeta. generalize (col 2 Q), (col k Q). intros [x y z] [x' y' z'].
  five a; unfold frob; cbn [Td]; vunf; field.
Qed.
Lemma unit_comp i Q k : (i < 3)%nat -> m3e Q i k = vdot (V3 (dlt i 0) (dlt i 1) (dlt i 2)) (col k Q).
Proof. intros Hi. destruct i as [|[|[|i]]]; try lia; unfold dlt, vdot, col; cbn [vx vy vz Nat.eqb]; ring. Qed.
Lemma D_p Q a k : (1 <= a <= 3)%nat -> (k < 3)%nat -> Drep Q a (k + 1) = m3e Q (a - 1) k.
Proof. intros Ha Hk. destruct a as [|[|[|[|a]]]]; try lia; destruct k as [|[|[|k]]]; try lia; reflexivity. Qed.
Lemma orbital_p a r : (1 <= a <= 3)%nat -> orbital a r = vdot (V3 (dlt (a - 1) 0) (dlt (a - 1) 1) (dlt (a - 1) 2)) r.
Proof. intros Ha. destruct r as [x y z]. destruct a as [|[|[|[|a]]]]; try lia; unfold dlt, vdot; cbn [vx vy vz Nat.eqb orbital Nat.sub]; ring. Qed.
Lemma orbital_d a r : dshell a -> orbital a r = vdot (mv (Td a) r) r.
Proof. intros Ha. destruct r as [x y z]. five a; cbn [orbital]; unfold vdot; ring. Qed.
Lemma comp_unit i v : (i < 3)%nat -> comp i v = vdot (V3 (dlt i 0) (dlt i 1) (dlt i 2)) v.
Proof. intros Hi. destruct v as [x y z]. destruct i as [|[|[|i]]]; try lia; unfold dlt, vdot; cbn [vx vy vz Nat.eqb comp]; ring. Qed.

Lemma Drep_orth Q a b : orthogonal Q -> (a < 9)%nat -> (b < 9)%nat -> rsum 9 (fun c => Drep Q a c * Drep Q b c) = dlt a b.
Proof.
  intros H Ha Hb. rewrite (rsum_ext 9 _ (fun c => Drep Q a c * Drep (tr Q) c b)).
  - rewrite Drep_mul by assumption. unfold orthogonal in H. rewrite H. apply Drep_eye; assumption.
  - intros c Hc. rewrite Drep_tr by assumption. reflexivity.
Qed.
Ltac nine_shell a := match goal with H : (a < 9)%nat |- _ =>
  let H1 := fresh in assert (H1 : a = 0%nat \/ (1 <= a <= 3)%nat \/ dshell a) by (unfold dshell; lia); destruct H1 as [->|[H1|H1]] end.
Lemma shell_p a : (1 <= a <= 3)%nat -> shell a = 1%nat.
Proof. intros H. destruct a as [|[|[|[|a]]]]; try lia; reflexivity. Qed.
Lemma shell_dd a : dshell a -> shell a = 2%nat. Proof. intros [H _]. apply d_shell; exact H. Qed.

Lemma bond_frame_tens h Q a b : orthogonal Q -> (a < 9)%nat -> (b < 9)%nat -> bond_frame h Q a b = tens (mv Q ez) h a b.
Proof.
  intros H Ha Hb. rewrite bond_frame_expand, col3. cbv zeta.
  assert (Off : forall x c, (x < 9)%nat -> shell x <> shell c -> Drep Q x c = 0) by (intros; apply Drep_off; assumption).
  assert (D0 : Drep Q 0 0 = 1) by reflexivity.
  assert (P0 : forall x, (1 <= x <= 3)%nat -> Drep Q x 0 = 0 /\ Drep Q x 8 = 0 /\ Drep Q x 4 = 0 /\ Drep Q x 5 = 0 /\ Drep Q x 6 = 0 /\ Drep Q x 7 = 0)
    by (intros x Hx; repeat split; apply Off; try lia; rewrite (shell_p x Hx); discriminate).
  assert (S0 : Drep Q 0 1 = 0 /\ Drep Q 0 2 = 0 /\ Drep Q 0 3 = 0 /\ Drep Q 0 4 = 0 /\ Drep Q 0 5 = 0 /\ Drep Q 0 6 = 0 /\ Drep Q 0 7 = 0 /\ Drep Q 0 8 = 0)
    by (repeat split; apply Off; try lia; discriminate).
  assert (D00 : forall x, dshell x -> Drep Q x 0 = 0 /\ Drep Q x 1 = 0 /\ Drep Q x 2 = 0 /\ Drep Q x 3 = 0)
    by (intros x Hx; repeat split; apply Off; try (destruct Hx; lia); rewrite (shell_dd x Hx); discriminate).
  assert (P1 : forall x, (1 <= x <= 3)%nat -> Drep Q x 1 = m3e Q (x - 1) 0 /\ Drep Q x 2 = m3e Q (x - 1) 1 /\ Drep Q x 3 = m3e Q (x - 1) 2)
    by (intros x Hx; repeat split; [apply (D_p Q x 0 Hx)|apply (D_p Q x 1 Hx)|apply (D_p Q x 2 Hx)]; lia).
  assert (D1 : forall x, dshell x -> Drep Q x 8 = orbital x (col 2 Q) /\ Drep Q x 6 = 2 * s3 / 3 * vdot (mv (Td x) (col 2 Q)) (col 0 Q) /\
      Drep Q x 5 = 2 * s3 / 3 * vdot (mv (Td x) (col 2 Q)) (col 1 Q))
    by (intros x Hx; repeat split; [apply D_sigma; assumption|apply (D_pi Q x 0 Hx); lia|apply (D_pi Q x 1 Hx); lia]).
  assert (PU : forall x k, (1 <= x <= 3)%nat -> m3e Q (x - 1) k = vdot (V3 (dlt (x - 1) 0) (dlt (x - 1) 1) (dlt (x - 1) 2)) (col k Q))
    by (intros x k Hx; apply unit_comp; lia).
  pose proof s3_sq as H3. set (r := col 2 Q) in *.
  nine_shell a; nine_shell b; unfold tens; repeat match goal with H : (1 <= ?x <= 3)%nat |- context [shell ?x] => rewrite (shell_p x H) | H : dshell ?x |- context [shell ?x] => rewrite (shell_dd x H) end; change (shell 0) with 0%nat; cbv beta iota zeta.
  - destruct S0 as (-> & -> & -> & -> & -> & -> & -> & ->). rewrite D0. ring.
  - destruct S0 as (-> & -> & -> & -> & -> & -> & -> & ->). rewrite D0.
    destruct (P0 b H0) as (-> & -> & -> & -> & -> & ->). destruct (P1 b H0) as (-> & -> & ->).
    rewrite orbital_p by assumption. rewrite (PU b 2%nat) by assumption. fold r. ring.
  - destruct S0 as (-> & -> & -> & -> & -> & -> & -> & ->). rewrite D0.
    destruct (D00 b H0) as (-> & -> & -> & ->). destruct (D1 b H0) as (-> & -> & ->). ring.
  - destruct S0 as (-> & -> & -> & -> & -> & -> & -> & ->). rewrite D0.
    destruct (P0 a H0) as (-> & -> & -> & -> & -> & ->). destruct (P1 a H0) as (-> & -> & ->).
    rewrite orbital_p by assumption. rewrite (PU a 2%nat) by assumption. fold r. ring.
  - destruct (P0 a H0) as (-> & -> & -> & -> & -> & ->). destruct (P1 a H0) as (-> & -> & ->).
    destruct (P0 b H1) as (-> & -> & -> & -> & -> & ->). destruct (P1 b H1) as (-> & -> & ->).
    rewrite !orbital_p by assumption. rewrite !PU by assumption. fold r.
    pose proof (cols_complete Q (V3 (dlt (a - 1) 0) (dlt (a - 1) 1) (dlt (a - 1) 2)) (V3 (dlt (b - 1) 0) (dlt (b - 1) 1) (dlt (b - 1) 2)) H) as C.
    fold r in C.
    assert (E : vdot (V3 (dlt (a - 1) 0) (dlt (a - 1) 1) (dlt (a - 1) 2)) (V3 (dlt (b - 1) 0) (dlt (b - 1) 1) (dlt (b - 1) 2)) = dlt a b).
    { clear - H0 H1. destruct a as [|[|[|[|a]]]]; try lia; destruct b as [|[|[|[|b]]]]; try lia; unfold dlt, vdot; cbn; ring. }
    rewrite E in C. rewrite <- C. ring.
  - destruct (P0 a H0) as (-> & -> & -> & -> & -> & ->). destruct (P1 a H0) as (-> & -> & ->).
    destruct (D00 b H1) as (-> & -> & -> & ->). destruct (D1 b H1) as (-> & -> & ->).
    rewrite (orbital_p a) by assumption. rewrite (orbital_d b) by assumption. rewrite !PU by assumption. fold r. rewrite comp_unit by lia.
    pose proof (cols_complete Q (V3 (dlt (a - 1) 0) (dlt (a - 1) 1) (dlt (a - 1) 2)) (mv (Td b) r) H) as C. fold r in C. rewrite <- C. ring.
  - destruct S0 as (-> & -> & -> & -> & -> & -> & -> & ->). rewrite D0.
    destruct (D00 a H0) as (-> & -> & -> & ->). destruct (D1 a H0) as (-> & -> & ->). ring.
  - destruct (P0 b H1) as (-> & -> & -> & -> & -> & ->). destruct (P1 b H1) as (-> & -> & ->).
    destruct (D00 a H0) as (-> & -> & -> & ->). destruct (D1 a H0) as (-> & -> & ->).
    rewrite (orbital_p b) by assumption. rewrite (orbital_d a) by assumption. rewrite !PU by assumption. fold r. rewrite comp_unit by lia.
    pose proof (cols_complete Q (V3 (dlt (b - 1) 0) (dlt (b - 1) 1) (dlt (b - 1) 2)) (mv (Td a) r) H) as C. fold r in C. rewrite <- C. ring.
  - pose proof (Drep_orth Q a b H Ha Hb) as O. cbn [rsum] in O.
    destruct (D00 b H1) as (E1 & E2 & E3 & E4). destruct (D1 b H1) as (E5 & E6 & E7).
    destruct (D00 a H0) as (E1' & E2' & E3' & E4'). destruct (D1 a H0) as (E5' & E6' & E7').
    rewrite E1, E2, E3, E4, E5, E6, E7, E1', E2', E3', E4', E5', E6', E7' in *.
    rewrite (orbital_d a), (orbital_d b) in * by assumption.
    pose proof (cols_complete Q (mv (Td a) r) (mv (Td b) r) H) as C. fold r in C.
    set (A0 := vdot (mv (Td a) r) (col 0 Q)) in *. set (A1 := vdot (mv (Td a) r) (col 1 Q)) in *. set (A2 := vdot (mv (Td a) r) r) in *.
    set (B0 := vdot (mv (Td b) r) (col 0 Q)) in *. set (B1 := vdot (mv (Td b) r) (col 1 Q)) in *. set (B2 := vdot (mv (Td b) r) r) in *.
    rewrite <- C.
    assert (E : Drep Q a 4 * Drep Q b 4 + Drep Q a 7 * Drep Q b 7 = dlt a b - A2 * B2 - 4 / 3 * (A0 * B0 + A1 * B1)).
    { rewrite <- O. field [H3]. }
    rewrite E. field [H3].
Qed.

Lemma slater_koster h Q a b : orthogonal Q -> (a < 9)%nat -> (b < 9)%nat -> ht (mv Q ez) h a b = bond_frame h Q a b.
Proof.
  intros H Ha Hb. rewrite bond_frame_tens by assumption. apply ht_tens; try assumption. rewrite col3. apply col_norm. exact H.
Qed.
