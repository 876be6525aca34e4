From Coq Require Import Reals List Bool Arith Lia Lra.
From Verif Require Import Vec GeomModel GeomSpec GeomProofs SkModel SkSpec SkProofs SkProofs2 SkProofs3.
Import ListNotations.
Open Scope R_scope.

(** ** Orbitals as functions *)
Lemma trace_conj Q A : orthogonal Q -> trace A = 0 -> trace (mm (mm Q A) (tr Q)) = 0.
Proof.
  intros H HA. apply orthogonal_tr in H. unfold orthogonal in H. rewrite tr_tr in H.
  rewrite <- frob_eye, frob_sym, frob_move, mm_eye_r, H, frob_sym, frob_eye. exact HA.
Qed.
Lemma orbital_rotated Q b x : orthogonal Q -> (b < 9)%nat ->
  orbital b (mv (tr Q) x) = rsum 9 (fun a => orbital a x * Drep Q a b).
Proof.
  intros H Hb.
  assert (E : rsum 9 (fun a => orbital a x * Drep Q a b) = Drep Q 0 b + (vx x * Drep Q 1 b + vy x * Drep Q 2 b + vz x * Drep Q 3 b) +
     rsum 5 (fun c => orbital (4 + c) x * Drep Q (4 + c) b)).
  { cbn [rsum Nat.add]. change (orbital 0 x) with 1. change (orbital 1 x) with (vx x). change (orbital 2 x) with (vy x). change (orbital 3 x) with (vz x). ring. }
  rewrite E. clear E. nine_shell b.
  - rewrite (rsum_eq0 5) by (intros c Hc; rewrite (Drep_off Q (4 + c) 0); [ring|rewrite d_shell by lia; discriminate]).
    rewrite (Drep_off Q 1 0), (Drep_off Q 2 0), (Drep_off Q 3 0) by discriminate. change (Drep Q 0 0) with 1. cbn [orbital]. ring.
  - rewrite (rsum_eq0 5) by (intros c Hc; rewrite (Drep_off Q (4 + c) b); [ring|rewrite d_shell, (shell_p b) by lia; discriminate]).
    rewrite (Drep_off Q 0 b) by (rewrite (shell_p b) by assumption; discriminate).
    clear H Hb. destruct b as [|[|[|[|b]]]]; try lia; unfold Drep; cbn [shell Nat.eqb Nat.leb orbital m3e comp Nat.sub]; vunf; ring.
  - rewrite (Drep_off Q 0 b), (Drep_off Q 1 b), (Drep_off Q 2 b), (Drep_off Q 3 b) by (rewrite (shell_dd b) by assumption; discriminate).
    assert (O : forall c y, dshell c -> orbital c y = frob (Td c) (M3 (vscale (vx y) y) (vscale (vy y) y) (vscale (vz y) y))).
    { intros c y Hc. rewrite orbital_d by exact Hc. unfold frob. vunf. ring. }
    set (X := M3 (vscale (vx x) x) (vscale (vy x) x) (vscale (vz x) x)) in *.
    rewrite (rsum_ext 5 _ (fun c => 2 / 3 * (frob (mm (mm Q (Td b)) (tr Q)) (Td (4 + c)) * frob (Td (4 + c)) X))).
    2:{ intros c Hc. rewrite Drep_dd by (assumption || unfold dshell; lia). rewrite O by (unfold dshell; lia). fold X.
        rewrite (frob_sym (Td (4 + c)) (mm _ _)). ring. }
    rewrite rsum_scal, complete.
    + rewrite orbital_d by assumption. replace (2 / 3 * (3 / 2 * frob (mm (mm Q (Td b)) (tr Q)) X)) with (frob (mm (mm Q (Td b)) (tr Q)) X) by field.
      subst X. generalize (Td b). intros T. destruct x as [x y z]. unfold frob. vunf. ring.
    + apply conj_sym. apply Td_sym.
    + apply trace_conj; [exact H|apply Td_trace].
    + subst X. destruct x as [x y z]. vunf. apply m3_eq; apply v3_eq; cbn; ring.
Qed.

(** ** A frame for every bond direction (Householder reflection) *)
Lemma frame_exists r : vdot r r = 1 -> exists Q, orthogonal Q /\ mv Q ez = r.
Proof.
  intros Hr. destruct r as [x y z]. unfold vdot in Hr. cbn [vx vy vz] in Hr.
  destruct (Req_dec z 1) as [->|Nz].
  - exists eye. split; [unfold orthogonal; change (tr eye) with eye; apply mm_eye_l|]. rewrite mv_eye. unfold ez.
    assert (x = 0 /\ y = 0) as [-> ->]; [|reflexivity]. split; nra.
  - set (w := 1 - z). assert (Hw : w <> 0) by (unfold w; lra).
    assert (Hx : x * x = 2 * w - w * w - y * y) by (unfold w; lra).
    exists (M3 (V3 (1 - x * x / w) (- x * y / w) x) (V3 (- x * y / w) (1 - y * y / w) y) (V3 x y (1 - w))).
    split.
    + unfold orthogonal. vunf. apply m3_eq; apply v3_eq; cbn; field [Hx]; exact Hw.
    + unfold ez. vunf. apply v3_eq; cbn; unfold w; ring.
Qed.

Lemma bond_frame_mul h P Q a b : orthogonal P -> (a < 9)%nat -> (b < 9)%nat ->
  bond_frame h (mm P Q) a b = rsum 9 (fun c => rsum 9 (fun c' => Drep P a c * Drep P b c' * bond_frame h Q c c')).
Proof.
  intros HP Ha Hb. unfold bond_frame.
  rewrite (rsum_ext 9 _ (fun e => rsum 9 (fun e' => rsum 9 (fun c => rsum 9 (fun c' => Drep P a c * Drep P b c' *
     (if (around e =? around e')%nat then Drep Q c e * Drep Q c' e' * h (integral (shell e) (shell e') (lambda (around e))) else 0)))))).
  2:{ intros e He. apply rsum_ext. intros e' He'. destruct (around e =? around e')%nat.
      - rewrite <- (Drep_mul P Q a e), <- (Drep_mul P Q b e') by assumption.
        rewrite (Rmult_assoc (rsum 9 _)), <- rsum_scal_r. apply rsum_ext. intros c Hc.
        rewrite <- Rmult_assoc, <- rsum_scal, <- rsum_scal_r. apply rsum_ext. intros c' Hc'. ring.
      - symmetry. apply rsum_eq0. intros c Hc. apply rsum_eq0. intros c' Hc'. ring. }
  rewrite (rsum_ext 9 _ (fun e => rsum 9 (fun c => rsum 9 (fun e' => rsum 9 (fun c' => Drep P a c * Drep P b c' *
     (if (around e =? around e')%nat then Drep Q c e * Drep Q c' e' * h (integral (shell e) (shell e') (lambda (around e))) else 0)))))).
  2:{ intros e He. apply rsum_swap. }
  rewrite rsum_swap. apply rsum_ext. intros c Hc.
  rewrite (rsum_ext 9 _ (fun e => rsum 9 (fun c' => rsum 9 (fun e' => Drep P a c * Drep P b c' *
     (if (around e =? around e')%nat then Drep Q c e * Drep Q c' e' * h (integral (shell e) (shell e') (lambda (around e))) else 0))))).
  2:{ intros e He. apply rsum_swap. }
  rewrite rsum_swap. apply rsum_ext. intros c' Hc'.
  rewrite <- rsum_scal. apply rsum_ext. intros e He. rewrite <- rsum_scal. apply rsum_ext. intros e' He'. reflexivity.
Qed.
Lemma orthogonal_mm P Q : orthogonal P -> orthogonal Q -> orthogonal (mm P Q).
Proof.
  unfold orthogonal. intros HP HQ. rewrite tr_mm, mm_assoc, <- (mm_assoc Q), HQ, mm_eye_l. exact HP.
Qed.
(** the block of a rotated bond is the rotated block *)
Lemma covariant h P r a b : orthogonal P -> vdot r r = 1 -> (a < 9)%nat -> (b < 9)%nat ->
  ht (mv P r) h a b = rsum 9 (fun c => rsum 9 (fun c' => Drep P a c * ht r h c c' * Drep P b c')).
Proof.
  intros HP Hr Ha Hb. destruct (frame_exists r Hr) as (Q & HQ & <-). rewrite <- mv_mm.
  rewrite slater_koster by (try assumption; apply orthogonal_mm; assumption).
  rewrite bond_frame_mul by assumption. apply rsum_ext. intros c Hc. apply rsum_ext. intros c' Hc'.
  rewrite slater_koster by assumption. ring.
Qed.

(** ** Bond reversal *)
Lemma reversed tij tji r a b : same_integrals tij tji -> (a < 9)%nat -> (b < 9)%nat ->
  ht (vscale (-1) r) (read_integral tji tij) b a = ht r (read_integral tij tji) a b.
Proof.
  intros H Ha Hb. destruct r as [l m n]. unfold vscale. cbn [vx vy vz].
  assert (E : forall c, In c [0; 1; 2; 5; 6; 9]%nat -> read_integral tji tij c = read_integral tij tji c).
  { intros c Hc. pose proof (H c Hc). cbn in Hc. repeat (destruct Hc as [<-|Hc]; [cbn; congruence|]). destruct Hc. }
  assert (E1 : read_integral tji tij 10 = - tij 3%nat /\ read_integral tji tij 11 = - tij 4%nat /\ read_integral tji tij 12 = tij 7%nat /\ read_integral tji tij 13 = - tij 8%nat)
    by (cbn; repeat split; ring).
  assert (E2 : read_integral tij tji 10 = - tji 3%nat /\ read_integral tij tji 11 = - tji 4%nat /\ read_integral tij tji 12 = tji 7%nat /\ read_integral tij tji 13 = - tji 8%nat)
    by (cbn; repeat split; ring).
  assert (E3 : read_integral tij tji 3 = tij 3%nat /\ read_integral tij tji 4 = tij 4%nat /\ read_integral tij tji 7 = tij 7%nat /\ read_integral tij tji 8 = tij 8%nat) by (cbn; auto).
  assert (E4 : read_integral tji tij 3 = tji 3%nat /\ read_integral tji tij 4 = tji 4%nat /\ read_integral tji tij 7 = tji 7%nat /\ read_integral tji tij 8 = tji 8%nat) by (cbn; auto).
  destruct E1 as (A1 & A2 & A3 & A4), E2 as (B1 & B2 & B3 & B4), E3 as (C1 & C2 & C3 & C4), E4 as (D1 & D2 & D3 & D4).
  pose proof (E 0%nat ltac:(cbn; tauto)) as E0. pose proof (E 1%nat ltac:(cbn; tauto)) as E1. pose proof (E 2%nat ltac:(cbn; tauto)) as E2.
  pose proof (E 5%nat ltac:(cbn; tauto)) as E5. pose proof (E 6%nat ltac:(cbn; tauto)) as E6. pose proof (E 9%nat ltac:(cbn; tauto)) as E9. clear E H.
  generalize dependent (read_integral tij tji). generalize dependent (read_integral tji tij). intros f A1 A2 A3 A4 D1 D2 D3 D4 g B1 B2 B3 B4 C1 C2 C3 C4 E0 E1 E2 E5 E6 E9.
  unfold ht. cbn [vx vy vz].
  nine a; nine b; cbn [rsum cnt mat ind mat_upper ind_upper nth Nat.leb andb];
    rewrite ?A1, ?A2, ?A3, ?A4, ?B1, ?B2, ?B3, ?B4, ?C1, ?C2, ?C3, ?C4, ?D1, ?D2, ?D3, ?D4, ?E0, ?E1, ?E2, ?E5, ?E6, ?E9; field.
Qed.
