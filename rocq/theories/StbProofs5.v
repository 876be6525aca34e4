(** Points beyond the plane; symmetry of overlaps *)
From Coq Require Import Reals ZArith String Ascii List Bool Arith Lia Lra Psatz.
From Coquelicot Require Import Coquelicot.
From Verif Require Import Vec GeomModel StbModel StbSpec StbProofs StbProofs2 StbProofs3 StbProofs4.
Import ListNotations.
Open Scope R_scope.

Lemma tan_gt x : 0 < x < PI / 2 -> x < tan x.
Proof.
  intros hx. assert (hc : 0 < cos x) by (apply cos_gt_0; lra).
  assert (g : forall y, 0 <= y <= x -> 0 < cos y) by (intros y hy; apply cos_gt_0; pose proof PI_RGT_0; lra).
  assert (I : is_RInt (fun t => (1 / cos t) ^ 2 / 2) 0 x (1 / 2 * 1 ^ 2 * (tan x - tan 0))) by (apply int_tan; try lra; intros; reflexivity). rewrite tan_0 in I.
  assert (J : is_RInt (fun t => (1 / cos t) ^ 2 / 2 - 1 / 2) 0 x (1 / 2 * 1 ^ 2 * (tan x - 0) - 1 / 2 * (x - 0))).
  { apply (is_RInt_ext (fun t => minus ((1 / cos t) ^ 2 / 2) (1 / 2))); [intros; unfold minus, plus, opp; cbn; ring|]. apply (is_RInt_minus (fun t => (1 / cos t) ^ 2 / 2) (fun _ => 1 / 2)); [exact I|]. apply int_flat; [lra|reflexivity]. }
  assert (P : 0 < RInt (fun t => (1 / cos t) ^ 2 / 2 - 1 / 2) 0 x).
  { apply RInt_gt_0; [lra| |].
    - intros t ht. specialize (g t ltac:(lra)). assert (l : cos t < 1). { rewrite <- cos_0. apply cos_decreasing_1; pose proof PI_RGT_0; lra. }
      replace ((1 / cos t) ^ 2 / 2 - 1 / 2) with ((1 - cos t * cos t) / (2 * (cos t * cos t))) by (field; lra). apply Rdiv_lt_0_compat; nra.
    - intros t ht. specialize (g t ht). apply (ex_derive_continuous (fun t => (1 / cos t) ^ 2 / 2 - 1 / 2)). auto_derive. lra. }
  rewrite (is_RInt_unique _ _ _ _ J) in P. lra.
Qed.
Lemma cos_quarter t : 0 <= t <= PI / 4 -> 7 / 10 < cos t.
Proof.
  intros h. assert (e : cos (PI / 4) <= cos t) by (apply cos_mono; pose proof PI_RGT_0; lra). rewrite cos_PI4 in e. pose proof (sqrt_sqrt 2 ltac:(lra)) as s. pose proof (sqrt_lt_R0 2 ltac:(lra)) as s0.
  assert (1 / sqrt 2 > 7 / 10); [|lra]. apply Rmult_lt_reg_r with (sqrt 2); [exact s0|]. unfold Rdiv at 2. rewrite Rmult_assoc, Rinv_l by lra. nra.
Qed.
(** some point taken for the half space of atom 1 lies beyond the plane in the middle *)
Theorem point_beyond w nt nr : (3 <= nt)%nat -> (3 <= nr)%nat -> rmin * (INR (nr - 1)) ^ 2 < w - rmin ->
  exists p, In p (half_grid w (2 * rgrid w nr 1) nt nr) /\ 2 * rgrid w nr 1 / 2 < snd (fst p).
Proof.
  intros ht hr hw. pose proof rmin_pos as m0. set (x := (w - rmin) / INR (nr - 1) ^ 2). pose proof (INR_pred nr ltac:(lia)) as n0. assert (n4 : 4 <= INR (nr - 1) ^ 2). { assert (2 <= INR (nr - 1)) by (apply (le_INR 2); lia). nra. }
  assert (xm : rmin < x). { unfold x. apply Rmult_lt_reg_r with (INR (nr - 1) ^ 2); [lra|]. unfold Rdiv. rewrite Rmult_assoc, Rinv_l by lra. lra. }
  assert (e1 : rgrid w nr 1 = rmin + x) by (unfold rgrid, lin01, x; cbn [INR]; field; lra).
  assert (e2 : rgrid w nr 2 = rmin + 4 * x) by (unfold rgrid, lin01, x; cbn [INR]; field; lra).
  assert (ew : rmin + 4 * x <= w). { assert (e : w - rmin = x * INR (nr - 1) ^ 2) by (unfold x; field; lra). assert (4 * x <= x * INR (nr - 1) ^ 2) by nra. lra. }
  set (h := rgrid w nr 1). set (T := tgrid nt 1). assert (nt0 := INR_pred nt ltac:(lia)). assert (hT : 0 < T <= PI / 4).
  { unfold T, tgrid, lin01. cbn [INR]. pose proof PI_RGT_0 as pp. assert (2 <= INR (nt - 1)) by (apply (le_INR 2); lia). assert (q : 0 < 1 / INR (nt - 1) <= 1 / 2). { split; [apply Rdiv_lt_0_compat; lra|]. unfold Rdiv. rewrite !Rmult_1_l. apply Rinv_le_contravar; lra. } set (q1 := 1 / INR (nt - 1)) in *. clearbody q1. assert (0 < q1 ^ 2 <= 1 / 4) by (cbn [pow]; nra). nra. }
  pose proof PI_RGT_0 as pp. pose proof (cos_quarter T ltac:(lra)) as hc. set (c := cos T) in *. set (k := cos (T / 2)). assert (ck : c = 2 * k * k - 1). { unfold c, k. replace T with (2 * (T / 2)) at 1 by field. apply cos_2a_cos. }
  assert (k1 : k < 1). { unfold k. rewrite <- cos_0. apply cos_decreasing_1; lra. } assert (k0 : 0 < k) by (unfold k; apply cos_gt_0; lra).
  assert (c1 : c < 1) by nra.
  set (r0 := 1 / 2 * (h + h / c)). assert (hh : 0 < h) by (unfold h; rewrite e1; lra).
  assert (rz : h < r0 * k). { unfold r0. apply Rmult_lt_reg_r with c; [lra|]. replace (1 / 2 * (h + h / c) * k * c) with (h * (1 / 2 * (c + 1) * k)) by (field; lra). apply Rmult_lt_compat_l; [exact hh|]. rewrite ck. nra. }
  assert (ic : h / c < h * (143 / 100)). { apply Rmult_lt_reg_r with c; [lra|]. unfold Rdiv at 1. rewrite Rmult_assoc, Rinv_l by lra. nra. }
  assert (r0w : r0 < w) by (unfold r0; unfold h in *; rewrite e1 in *; lra). assert (r0h : 0 < r0) by nra.
  set (A := 1 / 2 * h ^ 2 * (tan T - tan 0) - 1 / 2 * h ^ 2 * (T - 0)). assert (hA : 0 < A). { unfold A. rewrite tan_0. pose proof (tan_gt T ltac:(lra)). assert (0 < h ^ 2) by nra. nra. }
  assert (E : make_piece (2 * h / 2) h (rgrid w nr 2) 0 T = Piece r0 (T / 2) A).
  { replace (2 * h / 2) with h by field. unfold make_piece. rewrite cos_0, !Rmult_1_r. fold c. unfold h. rewrite e1, e2. 
    assert (b1 : leb (rmin + 4 * x) (rmin + x) = false) by (apply leb_false; lra). assert (b4 : leb ((rmin + 4 * x) * c) (rmin + x) = false) by (apply leb_false; nra). assert (b2 : ltb (rmin + x) (rmin + x) = false) by (apply ltb_false; lra).
    assert (b1' : ltb (rmin + x) (rmin + 4 * x) = true) by (apply ltb_true; lra). assert (b4' : ltb (rmin + x) ((rmin + 4 * x) * c) = true) by (apply ltb_true; nra). assert (b2' : leb (rmin + x) (rmin + x) = true) by (apply leb_true; lra). assert (b3 : leb ((rmin + x) * c) (rmin + x) = true) by (apply leb_true; nra).
    rewrite b1, b4, b2, b1', b4', b2', b3. cbn [andb]. unfold r0, A, h. rewrite e1. f_equal. field. }
  exists ((r0 * sin (T / 2), r0 * cos (T / 2)), A). fold h. split; [|cbn [fst snd]; fold k; replace (2 * h / 2) with h by field; exact rz].
  unfold half_grid. apply in_flat_map. exists (Piece r0 (T / 2) A). split.
  - apply (in_pieces w (2 * h) nt nr); [lia|lia|]. exists 1%nat, 0%nat. split; [lia|]. split; [lia|]. rewrite t_0. symmetry. exact E.
  - cbn [keep]. fold k. set (s := sin (T / 2)). assert (sk : s * s + k * k = 1) by (pose proof (sin2_cos2 (T / 2)) as e; unfold Rsqr in e; exact e).
    assert (w1 : sqrt ((r0 * s) ^ 2 + (r0 * k) ^ 2) < w). { replace ((r0 * s) ^ 2 + (r0 * k) ^ 2) with (r0 * r0 * (s * s + k * k)) by ring. rewrite sk, Rmult_1_r, sqrt_square by lra. exact r0w. }
    assert (w2 : sqrt ((r0 * s) ^ 2 + (2 * h - r0 * k) ^ 2) < w). { eapply Rle_lt_trans; [|exact w1]. apply sqrt_le_1_alt. assert (r0 * k < 2 * h) by (unfold r0; nra). nra. }
    apply ltb_true in hA. apply ltb_true in w1. apply ltb_true in w2. rewrite hA, w1, w2. left. reflexivity.
Qed.

(** ** Overlaps *)
Lemma Y_mirror l m t p : (l <= 2)%nat -> (m <= l)%nat -> Y l m (PI - t) p = (-1) ^ (l + m) * Y l m t p.
Proof.
  intros hl hm. assert (c : cos (PI - t) = - cos t) by (rewrite Rtrigo_facts.cos_pi_minus; reflexivity). assert (s : sin (PI - t) = sin t) by (apply sin_PI_x).
  destruct l as [|[|[|l]]]; [| | |lia]; destruct m as [|[|[|m]]]; try lia; unfold Y; rewrite ?c, ?s; cbn [Nat.add pow]; ring.
Qed.
Lemma pow_par a b : (-1) ^ (a + b + (a + b)) = 1.
Proof. replace (a + b + (a + b))%nat with (2 * (a + b))%nat by lia. apply pow_1_even. Qed.
Lemma ex_angular i t1 t2 : (i < 10)%nat -> let '(l1, l2, m) := nth i lm_of (0, 0, 0)%nat in angular l1 l2 m t1 t2 = nth i (gphi t1 t2) 0.
Proof. intros hi. pose proof (angular_integral i t1 t2 hi) as h. destruct (nth i lm_of (0, 0, 0)%nat) as [[l1 l2] m]. apply is_RInt_unique. exact h. Qed.
Lemma angular_mirror l1 l2 m t1 t2 : (l1 <= 2)%nat -> (l2 <= 2)%nat -> (m <= l1)%nat -> (m <= l2)%nat -> angular l1 l2 m (PI - t2) (PI - t1) = (-1) ^ (l1 + l2) * angular l2 l1 m t1 t2.
Proof.
  intros h1 h2 h3 h4. unfold angular. assert (e : forall p, Y l1 m (PI - t2) p * Y l2 m (PI - t1) p = (-1) ^ (l1 + l2) * (Y l2 m t1 p * Y l1 m t2 p)).
  { intros p. rewrite !Y_mirror by assumption. rewrite !pow_add. replace ((-1) ^ l1 * (-1) ^ m * Y l1 m t2 p * ((-1) ^ l2 * (-1) ^ m * Y l2 m t1 p)) with ((-1) ^ m * (-1) ^ m * ((-1) ^ l1 * (-1) ^ l2 * (Y l2 m t1 p * Y l1 m t2 p))) by ring.
    rewrite <- pow_add. replace (m + m)%nat with (2 * m)%nat by lia. rewrite pow_1_even. ring. }
  erewrite RInt_ext; [|intros p _; apply e]. apply (RInt_scal (fun p => Y l2 m t1 p * Y l1 m t2 p)).
  (* continuous *)
  assert (C : forall l m t p, ex_derive (Y l m t) p). { intros l m' t p. destruct l as [|[|[|l]]], m' as [|[|[|m']]]; unfold Y; auto_derive; exact I. }
  apply (ex_RInt_continuous (fun p => Y l2 m t1 p * Y l1 m t2 p)). intros p _. apply (ex_derive_continuous (fun p => Y l2 m t1 p * Y l1 m t2 p)). apply (ex_derive_mult (Y l2 m t1) (Y l1 m t2)); apply C.
Qed.
Section Overlap.
Variables (w Rz : R) (nt nr : nat) (grid : list gpoint).
Hypothesis (hw : rmin < w) (hR : 0 < Rz) (ht : (2 <= nt)%nat) (hr : (2 <= nr)%nat) (hg : make_grid w Rz nt nr = SOk grid).
Theorem overlap_exchange e1 e2 l1 l2 m nl1 nl2 : (l1 <= 2)%nat -> (l2 <= 2)%nat -> (m <= l1)%nat -> (m <= l2)%nat ->
  overlap e1 e2 Rz grid l1 l2 m nl1 nl2 = (-1) ^ (l1 + l2) * overlap e2 e1 Rz grid l2 l1 m nl2 nl1.
Proof.
  intros h1 h2 h3 h4. unfold overlap at 1. rewrite (grid_symmetric w Rz nt nr hw hR ht hr grid hg). unfold overlap. 
  assert (sc : forall (c : R) (l : list gpoint) f, c * lsum l f = lsum l (fun p => c * f p)) by (intros c l f; induction l as [|q l IH]; unfold lsum in *; cbn [fold_right]; [ring|rewrite <- IH; ring]). rewrite sc.
  apply lsum_ext. intros p _. destruct (mirror_rad Rz p) as [-> ->]. unfold mirror. cbn [fst snd].
  replace ((- snd (fst p) + 2 * (Rz / 2)) / rad2 Rz p) with (- ((snd (fst p) - Rz) / rad2 Rz p)) by (replace (- snd (fst p) + 2 * (Rz / 2)) with (- (snd (fst p) - Rz)) by field; unfold Rdiv; ring).
  replace ((- snd (fst p) + 2 * (Rz / 2) - Rz) / rad1 p) with (- (snd (fst p) / rad1 p)) by (replace (- snd (fst p) + 2 * (Rz / 2) - Rz) with (- snd (fst p)) by field; unfold Rdiv; ring).
  rewrite !acos_opp. rewrite angular_mirror by assumption. ring.
Qed.
Theorem table_overlap e1 e2 i nl1 nl2 : (i < 10)%nat -> let '(l1, l2, m) := nth i lm_of (0, 0, 0)%nat in
  int_S e1 e2 Rz grid i nl1 nl2 = overlap e1 e2 Rz grid l1 l2 m nl1 nl2 /\ int_S e1 e2 Rz grid i nl1 nl2 = (-1) ^ (l1 + l2) * overlap e2 e1 Rz grid l2 l1 m nl2 nl1.
Proof.
  intros hi. pose proof (fun t1 t2 => ex_angular i t1 t2 hi) as ha. assert (hl : let '(l1, l2, m) := nth i lm_of (0, 0, 0)%nat in (l1 <= 2 /\ l2 <= 2 /\ m <= l1 /\ m <= l2)%nat).
  { clear - hi. destruct i as [|[|[|[|[|[|[|[|[|[|i]]]]]]]]]]; [..|lia]; cbn; lia. }
  destruct (nth i lm_of (0, 0, 0)%nat) as [[l1 l2] m]. destruct hl as (h1 & h2 & h3 & h4). 
  assert (e : int_S e1 e2 Rz grid i nl1 nl2 = overlap e1 e2 Rz grid l1 l2 m nl1 nl2). { unfold int_S, overlap. apply lsum_ext. intros p _. unfold aux. rewrite ha. ring. }
  split; [exact e|]. rewrite e. apply overlap_exchange; assumption.
Qed.
(** the overlap table of two elements is the same in both orders for integrals between orbitals of the same angular momentum *)
Theorem table_symmetric e1 e2 i nl1 nl2 : In i [0; 1; 2; 5; 6; 9]%nat -> int_S e1 e2 Rz grid i nl1 nl2 = int_S e2 e1 Rz grid i nl2 nl1.
Proof.
  intros hi. assert (h10 : (i < 10)%nat) by (cbn in hi; lia). pose proof (table_overlap e1 e2 i nl1 nl2 h10) as a. pose proof (table_overlap e2 e1 i nl2 nl1 h10) as b.
  destruct hi as [<-|[<-|[<-|[<-|[<-|[<-|[]]]]]]]; cbn [nth lm_of Nat.add] in *; destruct a as [_ a], b as [b _]; rewrite a, b; ring.
Qed.
Lemma aux_mirror i p : In i [0; 1; 2; 5; 6; 9]%nat -> aux Rz i (mirror Rz p) = aux Rz i p.
Proof.
  intros hi. assert (h10 : (i < 10)%nat) by (cbn in hi; lia). unfold aux. destruct (mirror_rad Rz p) as [-> ->]. unfold mirror. cbn [fst snd].
  replace ((- snd (fst p) + 2 * (Rz / 2)) / rad2 Rz p) with (- ((snd (fst p) - Rz) / rad2 Rz p)) by (replace (- snd (fst p) + 2 * (Rz / 2)) with (- (snd (fst p) - Rz)) by field; unfold Rdiv; ring).
  replace ((- snd (fst p) + 2 * (Rz / 2) - Rz) / rad1 p) with (- (snd (fst p) / rad1 p)) by (replace (- snd (fst p) + 2 * (Rz / 2) - Rz) with (- snd (fst p)) by field; unfold Rdiv; ring).
  rewrite !acos_opp. set (u := acos (snd (fst p) / rad1 p)). set (v := acos ((snd (fst p) - Rz) / rad2 Rz p)). 
  pose proof (ex_angular i (PI - v) (PI - u) h10) as a. pose proof (ex_angular i u v h10) as b. do 2 f_equal.
  destruct hi as [<-|[<-|[<-|[<-|[<-|[<-|[]]]]]]]; cbn [nth lm_of] in a, b; rewrite <- a, <- b, angular_mirror by lia; cbn [Nat.add pow]; ring.
Qed.
(** if the orbital of element 2 solves the radial equation of the free atom, the element of the hamiltonian is the estimate H2 of the
    exchanged pair; the difference of H and H2 that is reported as the error is the asymmetry of the tables *)
Theorem table_hamiltonian e1 e2 i nl1 nl2 : In i [0; 1; 2; 5; 6; 9]%nat -> let l := snd (fst (nth i lm_of (0, 0, 0)%nat)) in
  (forall r, 0 < r -> - (1 / 2) * ddunl e2 nl2 r / r + (veff e2 r + INR l * (INR l + 1) / (2 * r ^ 2)) * Rnl e2 nl2 r = epsilon e2 nl2 * Rnl e2 nl2 r) ->
  int_H e1 e2 Rz grid i l nl1 nl2 = int_H2 e2 e1 Rz grid i nl2 nl1.
Proof.
  intros hi l hs. unfold int_H2, int_S. cbv zeta. rewrite (grid_symmetric w Rz nt nr hw hR ht hr grid hg (fun p => Rnl e2 nl2 (rad1 p) * Rnl e1 nl1 (rad2 Rz p) * aux Rz i p)).
  rewrite (grid_symmetric w Rz nt nr hw hR ht hr grid hg (fun p => Rnl e2 nl2 (rad1 p) * Rnl e1 nl1 (rad2 Rz p) * aux Rz i p * (v_part e1 (rad2 Rz p) - conf e2 (rad1 p)))).
  assert (sc : forall (c : R) (l : list gpoint) f g, lsum l f + c * lsum l g = lsum l (fun p => f p + c * g p)) by (intros c k f g; induction k as [|q k IH]; unfold lsum in *; cbn [fold_right]; [ring|rewrite <- IH; ring]). rewrite sc.
  unfold int_H. apply lsum_ext. intros p hp. cbv zeta. destruct (mirror_rad Rz p) as [-> ->]. rewrite (aux_mirror i p hi). 
  assert (r2 : 0 < rad2 Rz p). { destruct (grid_points w Rz nt nr hw hR ht hr grid hg p hp) as (_ & _ & _ & hd). unfold rad2. apply sqrt_lt_R0. pose proof (pow2_ge_0 (Rz - snd (fst p))) as q. assert (0 < fst (fst p) ^ 2) by (apply pow_lt; exact hd). lra. }
  specialize (hs _ r2). unfold v_part. 
  replace (- (1 / 2) * ddunl e2 nl2 (rad2 Rz p) / rad2 Rz p + (veff e1 (rad1 p) - conf e1 (rad1 p) + (veff e2 (rad2 Rz p) - conf e2 (rad2 Rz p)) + INR l * (INR l + 1) / (2 * rad2 Rz p ^ 2)) * Rnl e2 nl2 (rad2 Rz p))
    with (- (1 / 2) * ddunl e2 nl2 (rad2 Rz p) / rad2 Rz p + (veff e2 (rad2 Rz p) + INR l * (INR l + 1) / (2 * rad2 Rz p ^ 2)) * Rnl e2 nl2 (rad2 Rz p) + (veff e1 (rad1 p) - conf e1 (rad1 p) - conf e2 (rad2 Rz p)) * Rnl e2 nl2 (rad2 Rz p)) by ring.
  rewrite hs. ring.
Qed.
End Overlap.
