From Coq Require Import Reals List Bool Arith Lia Lra.
From Verif Require Import Vec GeomModel GeomProofs SkModel SkSpec SkProofs.
Import ListNotations.
Open Scope R_scope.

(** ** Representation of rotations *)
Definition trace (A : m3) : R := vx (row1 A) + vy (row2 A) + vz (row3 A).
Lemma frob_sym A B : frob A B = frob B A. Proof. unfold frob. vunf. ring. Qed.
Lemma frob_move P A B : frob A (mm (mm P B) (tr P)) = frob (mm (mm (tr P) A) P) B.
Proof. unfold frob. vunf. ring. Qed.
Lemma frob_tr A B : frob A (tr B) = frob (tr A) B. Proof. unfold frob. vunf. ring. Qed.
Lemma frob_eye A : frob A eye = trace A. Proof. unfold frob, trace. vunf. ring. Qed.
Definition dshell (a : nat) : Prop := (4 <= a < 9)%nat.
Ltac five a := match goal with H : dshell a |- _ => unfold dshell in H end;
  destruct a as [|[|[|[|[|[|[|[|[|a]]]]]]]]]; try (exfalso; lia).
Lemma Td_sym a : tr (Td a) = Td a.
Proof. destruct a as [|[|[|[|[|[|[|[|[|a]]]]]]]]]; reflexivity. Qed.
Lemma Td_trace a : trace (Td a) = 0.
Proof. destruct a as [|[|[|[|[|[|[|[|[|a]]]]]]]]]; unfold trace; cbn [Td vx vy vz row1 row2 row3]; field. Qed.
(** the five tensors span the symmetric traceless matrices *)
Lemma complete A B : tr A = A -> trace A = 0 -> tr B = B ->
  rsum 5 (fun c => frob A (Td (4 + c)) * frob (Td (4 + c)) B) = 3 / 2 * frob A B.
Proof.
  intros SA TA SB. pose proof s3_sq as H3. destruct A as [[a1 a2 a3] [b1 b2 b3] [c1 c2 c3]].
  destruct B as [[a1' a2' a3'] [b1' b2' b3'] [c1' c2' c3']]. unfold trace in TA. cbn in SA, TA, SB.
  injection SA as E1 E2 E3 E4 E5 E6. injection SB as E1' E2' E3' E4' E5' E6'. subst.
  assert (c3 = - a1 - b2) as -> by lra. cbn [rsum Nat.add Td]. unfold frob. vunf. field [H3].
Qed.
Lemma tr_tr A : tr (tr A) = A. Proof. destruct A as [[] [] []]. reflexivity. Qed.
Lemma conj_sym P A : tr A = A -> tr (mm (mm P A) (tr P)) = mm (mm P A) (tr P).
Proof. intros E. rewrite !tr_mm, tr_tr, E. rewrite mm_assoc. reflexivity. Qed.
Lemma conj_sym' P A : tr A = A -> tr (mm (mm (tr P) A) P) = mm (mm (tr P) A) P.
Proof. intros E. pose proof (conj_sym (tr P) A E) as Q. rewrite tr_tr in Q. exact Q. Qed.

Lemma Drep_dd Q a b : dshell a -> dshell b -> Drep Q a b = 2 / 3 * frob (Td a) (mm (mm Q (Td b)) (tr Q)).
Proof. intros Ha Hb. five a; five b; reflexivity. Qed.
Lemma dd_mul P Q a b : orthogonal P -> dshell a -> dshell b ->
  rsum 5 (fun c => Drep P a (4 + c) * Drep Q (4 + c) b) = Drep (mm P Q) a b.
Proof.
  intros HP Ha Hb. rewrite Drep_dd by assumption.
  rewrite (rsum_ext 5 _ (fun c => 4 / 9 * (frob (mm (mm (tr P) (Td a)) P) (Td (4 + c)) * frob (Td (4 + c)) (mm (mm Q (Td b)) (tr Q))))).
  2:{ intros c Hc. rewrite !Drep_dd by (unfold dshell in *; lia). rewrite (frob_move P). field. }
  rewrite rsum_scal, complete.
  - rewrite <- frob_move. rewrite tr_mm. replace (mm (mm P (mm (mm Q (Td b)) (tr Q))) (tr P)) with (mm (mm (mm P Q) (Td b)) (mm (tr Q) (tr P))); [field|].
    rewrite !mm_assoc. reflexivity.
  - apply conj_sym'. apply Td_sym.
  - rewrite <- frob_eye, <- frob_move, mm_eye_r. unfold orthogonal in HP. rewrite HP, frob_eye. apply Td_trace.
  - apply conj_sym. apply Td_sym.
Qed.

(** general indices *)
Lemma Drep_off Q a b : shell a <> shell b -> Drep Q a b = 0.
Proof. intros H. unfold Drep. apply Nat.eqb_neq in H. rewrite H. reflexivity. Qed.
Lemma d_shell a : (4 <= a)%nat -> shell a = 2%nat.
Proof. intros H. unfold shell. destruct a as [|[|[|[|a]]]]; try lia. reflexivity. Qed.
Lemma shell_d a : (a < 9)%nat -> shell a = 2%nat -> dshell a.
Proof. intros H E. unfold dshell. split; [|exact H]. destruct a as [|[|[|[|a]]]]; cbn in E; try discriminate. lia. Qed.
Lemma Drep_mul P Q a b : orthogonal P -> (a < 9)%nat -> (b < 9)%nat ->
  rsum 9 (fun c => Drep P a c * Drep Q c b) = Drep (mm P Q) a b.
Proof.
  intros HP Ha Hb.
  assert (E : rsum 9 (fun c => Drep P a c * Drep Q c b) = Drep P a 0 * Drep Q 0 b +
    (Drep P a 1 * Drep Q 1 b + Drep P a 2 * Drep Q 2 b + Drep P a 3 * Drep Q 3 b) + rsum 5 (fun c => Drep P a (4 + c) * Drep Q (4 + c) b)).
  { cbn [rsum Nat.add]. ring. }
  rewrite E. clear E. destruct (Nat.eq_dec (shell a) (shell b)) as [Es|Es].
  - destruct (Nat.lt_ge_cases a 4) as [La|La].
    + rewrite (rsum_eq0 5).
      2:{ intros c Hc. rewrite (Drep_off P a (4 + c)); [ring|]. clear Es. destruct a as [|[|[|[|a]]]]; try (exfalso; lia); cbn; discriminate. }
      destruct a as [|[|[|[|a]]]]; try (exfalso; lia); nine b; cbn in Es; try discriminate; unfold Drep; cbn [shell Nat.eqb Nat.leb m3e comp row1 row2 row3 vx vy vz Nat.sub]; vunf; try ring.
    + assert (Db : dshell b) by (apply shell_d; [lia|]; rewrite <- Es; apply d_shell; lia).
      rewrite dd_mul; [|exact HP|unfold dshell; lia|exact Db].
      rewrite (Drep_off P a 0), (Drep_off P a 1), (Drep_off P a 2), (Drep_off P a 3); [ring|..];
        clear Es; nine a; cbn; try discriminate; exfalso; lia.
  - rewrite (Drep_off _ a b Es).
    assert (Z : forall c, Drep P a c * Drep Q c b = 0).
    { intros c. destruct (Nat.eq_dec (shell a) (shell c)) as [E1|E1]; [|rewrite (Drep_off P a c E1); ring].
      rewrite (Drep_off Q c b) by congruence. ring. }
    rewrite !Z. rewrite (rsum_eq0 5) by (intros; apply Z). ring.
Qed.
Lemma Drep_tr Q a b : (a < 9)%nat -> (b < 9)%nat -> Drep (tr Q) a b = Drep Q b a.
Proof.
  intros Ha Hb. destruct (Nat.eq_dec (shell a) (shell b)) as [Es|Es].
  2:{ rewrite !Drep_off by congruence. reflexivity. }
  unfold Drep. rewrite Es, Nat.eqb_refl.
  destruct (shell b) as [|[|k]] eqn:Eb.
  - reflexivity.
  - nine a; nine b; cbn in Es, Eb; try discriminate; reflexivity.
  - f_equal. rewrite tr_tr, frob_sym. rewrite <- frob_move. reflexivity.
Qed.
Lemma Drep_eye a b : (a < 9)%nat -> (b < 9)%nat -> Drep eye a b = dlt a b.
Proof.
  intros Ha Hb. pose proof s3_sq as H3.
  assert (E : forall x, mm (mm eye x) (tr eye) = x) by (intros x; rewrite mm_eye_l; change (tr eye) with eye; apply mm_eye_r).
  unfold Drep, dlt. rewrite E.
  nine a; nine b; cbn [shell Nat.eqb Nat.leb m3e comp eye row1 row2 row3 vx vy vz Nat.sub];
    try ring; unfold frob, vdot; cbn [Td row1 row2 row3 vx vy vz]; field [H3].
Qed.
Lemma orthogonal_tr Q : orthogonal Q -> orthogonal (tr Q).
Proof.
  unfold orthogonal. rewrite tr_tr. intros H.
  set (adj := M3 (vcross (row2 (tr Q)) (row3 (tr Q))) (vcross (row3 (tr Q)) (row1 (tr Q))) (vcross (row1 (tr Q)) (row2 (tr Q)))).
  assert (D : det Q * det Q = 1).
  { assert (E : det (mm Q (tr Q)) = 1) by (rewrite H; vunf; ring). rewrite det_mm in E.
    replace (det (tr Q)) with (det Q) in E by (vunf; ring). exact E. }
  assert (E1 : mm adj Q = M3 (V3 (det Q) 0 0) (V3 0 (det Q) 0) (V3 0 0 (det Q))).
  { subst adj. destruct Q as [[q1 q2 q3] [q4 q5 q6] [q7 q8 q9]]. vunf. apply m3_eq; apply v3_eq; cbn; ring. }
  assert (E2 : mm (mm adj Q) (tr Q) = adj) by (rewrite mm_assoc, H, mm_eye_r; reflexivity).
  rewrite E1 in E2.
  assert (E3 : mm (mm (M3 (V3 (det Q) 0 0) (V3 0 (det Q) 0) (V3 0 0 (det Q))) (tr Q)) Q = M3 (V3 (det Q) 0 0) (V3 0 (det Q) 0) (V3 0 0 (det Q)))
    by (rewrite E2; exact E1).
  rewrite mm_assoc in E3. set (X := mm (tr Q) Q) in *. clearbody X. set (d := det Q) in *. clearbody d.
  assert (Nd : d <> 0) by (intros ->; lra).
  destruct X as [[x1 x2 x3] [y1 y2 y3] [z1 z2 z3]]. vunf.
  injection E3 as F1 F2 F3 F4 F5 F6 F7 F8 F9.
  clear - F1 F2 F3 F4 F5 F6 F7 F8 F9 Nd.
  apply m3_eq; apply v3_eq; cbn; (apply (Rmult_eq_reg_l d); [lra|exact Nd]).
Qed.
