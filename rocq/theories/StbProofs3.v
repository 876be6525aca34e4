(** The whole grid *)
From Coq Require Import Reals ZArith String Ascii List Bool Arith Lia Lra Psatz.
From Coquelicot Require Import Coquelicot.
From Verif Require Import Vec GeomModel StbModel StbSpec StbProofs StbProofs2.
Import ListNotations.
Open Scope R_scope.

Lemma rmin_pos : 0 < rmin. Proof. unfold rmin. apply Rinv_0_lt_compat. apply pow_lt. lra. Qed.
Lemma INR_pred n : (2 <= n)%nat -> 0 < INR (n - 1). Proof. intros h. apply lt_0_INR. lia. Qed.
Lemma lin_lt n i j : (2 <= n)%nat -> (i < j)%nat -> lin01 n i < lin01 n j.
Proof. intros hn hij. unfold lin01, Rdiv. apply Rmult_lt_compat_r; [apply Rinv_0_lt_compat, INR_pred, hn|]. apply lt_INR. exact hij. Qed.
Lemma lin_nonneg n i : (2 <= n)%nat -> 0 <= lin01 n i.
Proof. intros hn. unfold lin01. apply Rmult_le_pos; [apply pos_INR|apply Rlt_le, Rinv_0_lt_compat, INR_pred, hn]. Qed.
Lemma lin_last n : (2 <= n)%nat -> lin01 n (n - 1) = 1.
Proof. intros hn. unfold lin01. apply Rinv_r. pose proof (INR_pred n hn). lra. Qed.
Lemma lin_0 n : lin01 n 0 = 0. Proof. unfold lin01. cbn [INR]. unfold Rdiv. ring. Qed.
Lemma sq_lt a b : 0 <= a -> a < b -> a ^ 2 < b ^ 2. Proof. intros. nra. Qed.
Lemma t_lt nt i j : (2 <= nt)%nat -> (i < j)%nat -> tgrid nt i < tgrid nt j.
Proof. intros hn hij. unfold tgrid. apply Rmult_lt_compat_r; [exact PI_RGT_0|]. apply sq_lt; [apply lin_nonneg, hn|apply lin_lt; assumption]. Qed.
Lemma r_lt w nr i j : (2 <= nr)%nat -> rmin < w -> (i < j)%nat -> rgrid w nr i < rgrid w nr j.
Proof. intros hn hw hij. unfold rgrid. apply Rplus_lt_compat_l. apply Rmult_lt_compat_r; [lra|]. apply sq_lt; [apply lin_nonneg, hn|apply lin_lt; assumption]. Qed.
Lemma t_0 nt : tgrid nt 0 = 0. Proof. unfold tgrid. rewrite lin_0. ring. Qed.
Lemma t_last nt : (2 <= nt)%nat -> tgrid nt (nt - 1) = PI. Proof. intros h. unfold tgrid. rewrite lin_last by exact h. ring. Qed.
Lemma r_0 w nr : rgrid w nr 0 = rmin. Proof. unfold rgrid. rewrite lin_0. ring. Qed.
Lemma r_last w nr : (2 <= nr)%nat -> rgrid w nr (nr - 1) = w. Proof. intros h. unfold rgrid. rewrite lin_last by exact h. ring. Qed.
Lemma t_range nt j : (2 <= nt)%nat -> (j < nt)%nat -> 0 <= tgrid nt j <= PI.
Proof.
  intros hn hj. split; [unfold tgrid; apply Rmult_le_pos; [apply pow2_ge_0|apply Rlt_le, PI_RGT_0]|]. destruct (Nat.eq_dec j (nt - 1)) as [->|ne]; [rewrite t_last by exact hn; lra|].
  rewrite <- (t_last nt hn). apply Rlt_le, t_lt; [exact hn|lia].
Qed.
Lemma r_pos w nr i : rmin < w -> 0 < rgrid w nr i.
Proof. intros hw. unfold rgrid. pose proof rmin_pos. pose proof (pow2_ge_0 (lin01 nr i)). nra. Qed.
Lemma r_range w nr i : (2 <= nr)%nat -> rmin < w -> (i < nr)%nat -> rgrid w nr i <= w.
Proof. intros hn hw hi. destruct (Nat.eq_dec i (nr - 1)) as [->|ne]; [rewrite r_last by exact hn; lra|]. rewrite <- (r_last w nr hn) at 2. apply Rlt_le, r_lt; [exact hn|exact hw|lia]. Qed.

Lemma lsum_app {A} (l l' : list A) f : lsum (l ++ l') f = lsum l f + lsum l' f.
Proof. induction l as [|x l IH]; cbn [lsum fold_right app]; [unfold lsum; cbn; ring|]. fold (lsum (l ++ l') f). rewrite IH. unfold lsum. cbn. ring. Qed.
Lemma lsum_map {A B} (g : A -> B) l f : lsum (map g l) f = lsum l (fun x => f (g x)).
Proof. induction l as [|x l IH]; [reflexivity|]. cbn [map lsum fold_right]. fold (lsum (map g l) f). rewrite IH. reflexivity. Qed.
Lemma lsum_flat {A B} (g : A -> list B) l f : lsum (flat_map g l) f = lsum l (fun x => lsum (g x) f).
Proof. induction l as [|x l IH]; [reflexivity|]. cbn [flat_map]. rewrite lsum_app, IH. reflexivity. Qed.
Lemma lsum_ext {A} (l : list A) f g : (forall x, In x l -> f x = g x) -> lsum l f = lsum l g.
Proof. induction l as [|x l IH]; intros h; [reflexivity|]. unfold lsum. cbn [fold_right]. fold (lsum l f) (lsum l g). rewrite (h x), IH; [reflexivity|intros; apply h; right; assumption|left; reflexivity]. Qed.
Lemma lsum_seq n f : lsum (seq 0 n) f = rsum n f.
Proof.
  induction n as [|n IH]; [reflexivity|]. rewrite seq_S, lsum_app, IH. unfold lsum at 1. cbn. ring.
Qed.

Section Grid.
Variables (w Rz : R) (nt nr : nat).
Hypothesis (hw : rmin < w) (hR : 0 < Rz) (ht : (2 <= nt)%nat) (hr : (2 <= nr)%nat).
Let h := Rz / 2.
Lemma h_pos : 0 < h. Proof. unfold h. lra. Qed.
Lemma in_pieces p : In p (pieces w Rz nt nr) <-> exists i j, (i < nr - 1)%nat /\ (j < nt - 1)%nat /\ p = make_piece h (rgrid w nr i) (rgrid w nr (i + 1)) (tgrid nt j) (tgrid nt (j + 1)).
Proof.
  unfold pieces. rewrite in_flat_map. split.
  - intros [j [hj hp]]. apply in_map_iff in hp. destruct hp as [i [<- hi]]. apply in_seq in hj. apply in_seq in hi. exists i, j. repeat split; lia.
  - intros (i & j & hi & hj & ->). exists j. split; [apply in_seq; lia|]. apply in_map_iff. exists i. split; [reflexivity|apply in_seq; lia].
Qed.
Lemma piece_hyps i j : (i < nr - 1)%nat -> (j < nt - 1)%nat -> 0 < rgrid w nr i /\ rgrid w nr i < rgrid w nr (i + 1) /\ 0 <= tgrid nt j /\ tgrid nt j < tgrid nt (j + 1) /\ tgrid nt (j + 1) <= PI.
Proof. intros hi hj. repeat split; [apply r_pos, hw|apply r_lt; [exact hr|exact hw|lia]|apply t_range; [exact ht|lia]|apply t_lt; [exact ht|lia]|apply t_range; [exact ht|lia]]. Qed.
Theorem never_illegal : existsb is_illegal (pieces w Rz nt nr) = false.
Proof.
  destruct (existsb is_illegal _) eqn:E; [|reflexivity]. exfalso. apply existsb_exists in E. destruct E as [p [hp e]]. apply in_pieces in hp. destruct hp as (i & j & hi & hj & ->). destruct (piece_hyps i j hi hj) as (a1 & a2 & a3 & a4 & a5).
  destruct (piece_area h _ _ _ _ h_pos a1 a2 a3 a4 a5) as [ne _]. destruct (make_piece _ _ _ _ _); try discriminate. apply ne. reflexivity.
Qed.
Lemma radial_sum j n : (n <= nr - 1)%nat -> (j < nt - 1)%nat -> 
  is_area h rmin (rgrid w nr n) (tgrid nt j) (tgrid nt (j + 1)) (rsum n (fun i => area_of (make_piece h (rgrid w nr i) (rgrid w nr (i + 1)) (tgrid nt j) (tgrid nt (j + 1))))).
Proof.
  induction n as [|n IH]; intros hn hj.
  - rewrite r_0. unfold is_area. cbn [rsum]. change (is_RInt (fun t : R => (cut h t rmin ^ 2 - cut h t rmin ^ 2) / 2) (tgrid nt j) (tgrid nt (j + 1)) 0). apply (is_RInt_ext (fun _ => 0)); [intros; real; field|]. evar_last; [apply @is_RInt_const|]. unfold scal. cbn. unfold mult. cbn. ring.
  - specialize (IH ltac:(lia) hj). destruct (piece_hyps n j ltac:(lia) hj) as (a1 & a2 & a3 & a4 & a5). destruct (piece_area h _ _ _ _ h_pos a1 a2 a3 a4 a5) as [_ hA]. replace (S n) with (n + 1)%nat at 1 by lia. unfold is_area in *.
    change (rsum (S n) ?f) with (rsum n f + f n). 
    eapply is_RInt_ext; [|apply (is_RInt_plus _ _ _ _ _ _ IH hA)]. intros t _. unfold plus. cbn. field.
Qed.
Theorem total_area : is_area h rmin w 0 PI (lsum (pieces w Rz nt nr) area_of).
Proof.
  unfold pieces. rewrite lsum_flat, lsum_seq. rewrite <- (t_last nt ht). rewrite <- (t_0 nt) at 1.
  assert (g : forall n, (n <= nt - 1)%nat -> is_area h rmin w (tgrid nt 0) (tgrid nt n) (rsum n (fun j => lsum (map (fun i => make_piece (Rz / 2) (rgrid w nr i) (rgrid w nr (i + 1)) (tgrid nt j) (tgrid nt (j + 1))) (seq 0 (nr - 1))) area_of))).
  { induction n as [|n IH]; intros hn.
    - unfold is_area. change (is_RInt (fun t : R => (cut h t w ^ 2 - cut h t rmin ^ 2) / 2) (tgrid nt 0) (tgrid nt 0) 0). apply @is_RInt_point.
    - unfold is_area. change (rsum (S n) ?f) with (rsum n f + f n). apply (@is_RInt_Chasles R_NormedModule _ _ (tgrid nt n)); [apply IH; lia|]. rewrite lsum_map, lsum_seq. replace (S n) with (n + 1)%nat by lia.
      pose proof (radial_sum n (nr - 1) (le_n _) ltac:(lia)) as e. rewrite r_last in e by exact hr. exact e. }
  apply g. lia.
Qed.
Lemma cut_pos t r : 0 < r -> 0 < cut h t r.
Proof.
  intros hr0. unfold cut. destruct (Rle_dec (r * cos t) h) as [l|l]; [exact hr0|]. pose proof h_pos. apply Rdiv_lt_0_compat; [assumption|]. nra.
Qed.
Lemma cut_mono t r r' : 0 < r -> r <= r' -> cut h t r <= cut h t r'.
Proof.
  intros h0 hle. pose proof h_pos as hp. unfold cut. destruct (Rle_dec (r * cos t) h) as [l|l], (Rle_dec (r' * cos t) h) as [l'|l']; try lra.
  - assert (hc : 0 < cos t) by nra. apply Rmult_le_reg_r with (cos t); [exact hc|]. unfold Rdiv. rewrite Rmult_assoc, Rinv_l by lra. lra.
  - exfalso. assert (hc : 0 < cos t) by nra. nra.
Qed.
Theorem area_nonneg p : In p (pieces w Rz nt nr) -> 0 <= area_of p.
Proof.
  intros hp. apply in_pieces in hp. destruct hp as (i & j & hi & hj & ->). destruct (piece_hyps i j hi hj) as (a1 & a2 & a3 & a4 & a5). destruct (piece_area h _ _ _ _ h_pos a1 a2 a3 a4 a5) as [_ hA].
  apply (is_RInt_ge_0 _ _ _ _ (Rlt_le _ _ a4) hA). intros t _. pose proof (cut_pos t _ a1). pose proof (cut_mono t _ _ a1 (Rlt_le _ _ a2)). nra.
Qed.
End Grid.
