From Coq Require Import Reals List Bool Arith Lia Lra.
From Verif Require Import Vec GeomModel GeomProofs SkModel SkSpec.
Import ListNotations.
Open Scope R_scope.

Lemma s3_sq : s3 * s3 = 3. Proof. apply sqrt_sqrt. lra. Qed.
Lemma s3_pos : 0 < s3. Proof. apply sqrt_lt_R0. lra. Qed.

Ltac nine a := destruct a as [|[|[|[|[|[|[|[|[|a]]]]]]]]]; [..|exfalso; lia].

Definition dlt (a b : nat) : R := if (a =? b)%nat then 1 else 0.
(** coordinate-free form of the Slater-Koster rules *)
Definition tens (r : v3) (h : nat -> R) (a b : nat) : R :=
  let Y c := orbital c r in
  let w c := mv (Td c) r in
  match shell a, shell b with
  | 0%nat, 0%nat => h 9%nat
  | 0%nat, 1%nat => Y b * h 8%nat
  | 0%nat, 2%nat => Y b * h 7%nat
  | 1%nat, 0%nat => Y a * h 13%nat
  | 2%nat, 0%nat => Y a * h 12%nat
  | 1%nat, 1%nat => Y a * Y b * h 5%nat + (dlt a b - Y a * Y b) * h 6%nat
  | 1%nat, 2%nat => Y a * Y b * h 3%nat + 2 * s3 / 3 * (comp (a - 1) (w b) - Y a * Y b) * h 4%nat
  | 2%nat, 1%nat => Y a * Y b * h 10%nat + 2 * s3 / 3 * (comp (b - 1) (w a) - Y a * Y b) * h 11%nat
  | _, _ => let pi := 4 / 3 * (vdot (w a) (w b) - Y a * Y b) in
      Y a * Y b * h 0%nat + pi * h 1%nat + (dlt a b - Y a * Y b - pi) * h 2%nat
  end.

Lemma ht_tens r h a b : (a < 9)%nat -> (b < 9)%nat -> vdot r r = 1 -> ht r h a b = tens r h a b.
Proof.
  intros Ha Hb Hr. destruct r as [l m n]. unfold vdot in Hr. cbn [vx vy vz] in Hr.
  assert (Hn : n * n = 1 - l * l - m * m) by lra. pose proof s3_sq as H3.
  nine a; nine b; unfold ht, tens; cbn -[s3 Rplus Rmult Rminus Ropp Rdiv Rinv IZR pow]; vunf; try field [Hn H3].
Qed.
