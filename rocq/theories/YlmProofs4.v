(** Proofs about the analysis of angular momenta. *)
From Coq Require Import Reals ZArith List Bool Lia Lra.
From Verif Require Import Vec GeomModel SkModel Cpx YlmModel YlmSpec YlmProofs YlmProofs2.
Import ListNotations.
Open Scope R_scope.

Lemma cauchy_step A X S a x : 0 <= A -> 0 <= X -> S ^ 2 <= A * X -> (S + a * x) ^ 2 <= (A + a ^ 2) * (X + x ^ 2).
Proof.
  intros HA HX H.
  assert (P : 2 * S * (a * x) <= A * x ^ 2 + a ^ 2 * X).
  { destruct (Rle_dec (2 * S * (a * x)) (A * x ^ 2 + a ^ 2 * X)) as [L|N]; [exact L|exfalso].
    apply Rnot_le_lt in N.
    assert (N0 : 0 <= A * x ^ 2 + a ^ 2 * X) by (pose proof (pow2_ge_0 x); pose proof (pow2_ge_0 a); nra).
    assert (Q : (A * x ^ 2 + a ^ 2 * X) ^ 2 < (2 * S * (a * x)) ^ 2) by nra.
    assert (Q2 : (2 * S * (a * x)) ^ 2 <= 4 * (A * X) * (a * x) ^ 2) by (pose proof (pow2_ge_0 (a * x)); nra).
    pose proof (pow2_ge_0 (A * x ^ 2 - a ^ 2 * X)). nra. }
  nra.
Qed.
Lemma cauchy_sum n a x : rsum n (fun g => a g * x g) ^ 2 <= rsum n (fun g => a g ^ 2) * rsum n (fun g => x g ^ 2).
Proof.
  induction n as [|n IH]; [cbn; lra|]. cbn [rsum]. apply cauchy_step; [| |exact IH]; apply rsum_nonneg; intros; apply pow2_ge_0.
Qed.
Lemma total_le A (f g : A -> R) l : (forall x, In x l -> f x <= g x) -> total_of (map f l) <= total_of (map g l).
Proof.
  induction l as [|x l IH]; intros H; unfold total_of in *; cbn [map fold_right]; [lra|].
  pose proof (H x (or_introl eq_refl)). assert (fold_right Rplus 0 (map f l) <= fold_right Rplus 0 (map g l)) by (apply IH; intros y Hy; apply H; right; exact Hy). lra.
Qed.
Lemma total_nonneg A (f : A -> R) l : (forall x, In x l -> 0 <= f x) -> 0 <= total_of (map f l).
Proof.
  induction l as [|x l IH]; intros H; unfold total_of in *; cbn [map fold_right]; [lra|].
  pose proof (H x (or_introl eq_refl)). assert (0 <= fold_right Rplus 0 (map f l)) by (apply IH; intros y Hy; apply H; right; exact Hy). lra.
Qed.
Lemma total_ext A (f g : A -> R) l : (forall x, In x l -> f x = g x) -> total_of (map f l) = total_of (map g l).
Proof. intros H. f_equal. apply map_ext_in. exact H. Qed.
Lemma total_scal A (f : A -> R) c l : total_of (map (fun x => c * f x) l) = c * total_of (map f l).
Proof. unfold total_of. induction l as [|x l IH]; cbn [map fold_right]; [ring|]. rewrite IH. ring. Qed.
Lemma total_rsum A (f : A -> nat -> R) n l : total_of (map (fun x => rsum n (f x)) l) = rsum n (fun g => total_of (map (fun x => f x g) l)).
Proof.
  unfold total_of. induction l as [|x l IH]; cbn [map fold_right].
  - rewrite rsum_zero. reflexivity.
  - rewrite IH, <- rsum_plus. reflexivity.
Qed.
Lemma total_div l c : total_of (map (fun x => x / c) l) = total_of l / c.
Proof. unfold total_of. induction l as [|x l IH]; cbn [map fold_right]; [unfold Rdiv; ring|]. rewrite IH. unfold Rdiv. ring. Qed.

Section Analysis.
Context (npts : nat) (index : nat -> nat) (theta phi : nat -> R) (dV : R) (HdV : 0 <= dV).
Lemma keys_in n i : In i (keys index n) <-> i <> O /\ exists g, (g < n)%nat /\ index g = i.
Proof.
  induction n as [|n IH]; cbn [keys].
  - split; [intros []|]. intros [_ [g [H _]]]. lia.
  - destruct (Nat.eqb_spec (index n) 0) as [Z|Z]; cbn [orb].
    + rewrite IH. split; intros [H [g [L E]]]; (split; [exact H|]).
      * exists g. split; [lia|exact E].
      * exists g. split; [|exact E]. assert (g <> n) by (intros ->; congruence). lia.
    + destruct (existsb (Nat.eqb (index n)) (keys index n)) eqn:X.
      * apply existsb_exists in X. destruct X as [y [Iy Ey]]. apply Nat.eqb_eq in Ey. subst y.
        rewrite IH. split; intros [H [g [L E]]]; (split; [exact H|]).
        -- exists g. split; [lia|exact E].
        -- destruct (Nat.eq_dec g n) as [->|N]; [|exists g; split; [lia|exact E]].
           rewrite E in Iy. apply IH in Iy. exact (proj2 Iy).
      * rewrite in_app_iff, IH. split.
        -- intros [[H [g [L E]]]|[<-|[]]]; [split; [exact H|exists g; split; [lia|exact E]]|split; [exact Z|exists n; split; [lia|reflexivity]]].
        -- intros [H [g [L E]]]. destruct (Nat.eq_dec g n) as [->|N]; [right; left; exact E|left; split; [exact H|exists g; split; [lia|exact E]]].
Qed.
Lemma keys_nodup n : NoDup (keys index n).
Proof.
  induction n as [|n IH]; cbn [keys]; [constructor|]. destruct ((index n =? 0)%nat || existsb (Nat.eqb (index n)) (keys index n)) eqn:X; [exact IH|].
  apply orb_false_iff in X. destruct X as [_ X]. apply (NoDup_Add (a := index n) (l := keys index n)).
  - rewrite <- (app_nil_r (keys index n)) at 1. apply Add_app.
  - split; [exact IH|]. intros H. assert (existsb (Nat.eqb (index n)) (keys index n) = true) by (apply existsb_exists; exists (index n); split; [exact H|apply Nat.eqb_refl]). congruence.
Qed.
Lemma total_pick l i x : NoDup l -> total_of (map (fun k => if (i =? k)%nat then x else 0) l) = if existsb (Nat.eqb i) l then x else 0.
Proof.
  intros H. induction H as [|k l Hk Hl IH]; [reflexivity|]. unfold total_of in *. cbn [map fold_right existsb].
  destruct (Nat.eqb_spec i k) as [->|N]; cbn [orb].
  - rewrite IH. replace (existsb (Nat.eqb k) l) with false; [ring|]. symmetry. apply not_true_is_false. intros E. apply existsb_exists in E. destruct E as [y [Iy Ey]]. apply Nat.eqb_eq in Ey. subst. contradiction.
  - rewrite IH. ring.
Qed.
(** every point inside belongs to one shell *)
Lemma partition (x : nat -> R) :
  total_of (map (fun i => rsum npts (fun g => if (index g =? i)%nat then x g else 0)) (keys index npts)) =
  rsum npts (fun g => if (index g =? 0)%nat then 0 else x g).
Proof.
  rewrite total_rsum. apply rsum_ext. intros g Hg. rewrite total_pick by apply keys_nodup.
  destruct (Nat.eqb_spec (index g) 0) as [Z|Z].
  - replace (existsb (Nat.eqb (index g)) (keys index npts)) with false; [reflexivity|]. symmetry. apply not_true_is_false. intros E.
    apply existsb_exists in E. destruct E as [y [Iy Ey]]. apply Nat.eqb_eq in Ey. subst. apply keys_in in Iy. destruct Iy as [N _]. contradiction.
  - replace (existsb (Nat.eqb (index g)) (keys index npts)) with true; [reflexivity|]. symmetry. apply existsb_exists. exists (index g).
    split; [apply keys_in; split; [exact Z|exists g; split; [exact Hg|reflexivity]]|apply Nat.eqb_refl].
Qed.
Lemma count_pos i : In i (keys index npts) -> 0 < count npts index i.
Proof.
  intros H. apply keys_in in H. destruct H as [_ [g [Hg E]]]. unfold count.
  apply Rlt_le_trans with (rsum npts (fun h => if (h =? g)%nat then 1 else 0)).
  - rewrite (rsum_single npts g); [rewrite Nat.eqb_refl; lra|exact Hg|]. intros h _ N. apply Nat.eqb_neq in N. rewrite N. reflexivity.
  - apply rsum_le. intros h _. destruct (Nat.eqb_spec h g) as [->|N]; [rewrite E, Nat.eqb_refl; lra|]. destruct (index h =? i)%nat; lra.
Qed.
Section State.
Context (state : nat -> R).
Let mask i g := if (index g =? i)%nat then 1 else 0.
Lemma mask_sq i g : mask i g ^ 2 = mask i g.
Proof. unfold mask. destruct (index g =? i)%nat; ring. Qed.
(** |phi|^2 of a shell is at most the sums of |Y|^2 and state^2 over the shell *)
Lemma phi_bound l m i : fst (phi_nlm npts index theta phi state l m i) ^ 2 + snd (phi_nlm npts index theta phi state l m i) ^ 2 <=
  rsum npts (fun g => if (index g =? i)%nat then state g ^ 2 else 0) * rsum npts (fun g => mask i g * cabs2 (ylm_grid theta phi l m g)).
Proof.
  unfold phi_nlm, csum. cbn [fst snd].
  set (y := ylm_grid theta phi l m).
  rewrite (rsum_ext npts (fun i0 => fst (cscale ((if (index i0 =? i)%nat then 1 else 0) * state i0) (cconj (y i0)))) (fun g => (mask i g * state g) * (mask i g * fst (y g)))).
  2:{ intros g _. unfold mask, cscale, cconj. cbn [fst snd]. destruct (index g =? i)%nat; ring. }
  rewrite (rsum_ext npts (fun i0 => snd (cscale ((if (index i0 =? i)%nat then 1 else 0) * state i0) (cconj (y i0)))) (fun g => (mask i g * state g) * (mask i g * - snd (y g)))).
  2:{ intros g _. unfold mask, cscale, cconj. cbn [fst snd]. destruct (index g =? i)%nat; ring. }
  pose proof (cauchy_sum npts (fun g => mask i g * state g) (fun g => mask i g * fst (y g))) as C1.
  pose proof (cauchy_sum npts (fun g => mask i g * state g) (fun g => mask i g * - snd (y g))) as C2.
  rewrite (rsum_ext npts (fun g => if (index g =? i)%nat then state g ^ 2 else 0) (fun g => (mask i g * state g) ^ 2)).
  2:{ intros g _. unfold mask. destruct (index g =? i)%nat; ring. }
  rewrite (rsum_ext npts (fun g => mask i g * cabs2 (y g)) (fun g => (mask i g * fst (y g)) ^ 2 + (mask i g * - snd (y g)) ^ 2)).
  2:{ intros g _. unfold cabs2. transitivity (mask i g ^ 2 * (fst (y g) ^ 2 + snd (y g) ^ 2)); [rewrite mask_sq; reflexivity|ring]. }
  rewrite rsum_plus. lra.
Qed.
Lemma analyse_swap l : analyse_state npts index theta phi dV state l =
  total_of (map (fun i => rsum (2 * l + 1) (fun j => let z := phi_nlm npts index theta phi state l (Z.of_nat j - Z.of_nat l) i in fst z ^ 2 + snd z ^ 2) * (4 * PI * dV / count npts index i)) (keys index npts)).
Proof.
  unfold analyse_state. rewrite <- (total_rsum nat (fun i j => let m := (Z.of_nat j - Z.of_nat l)%Z in (fst (phi_nlm npts index theta phi state l m i) ^ 2 + snd (phi_nlm npts index theta phi state l m i) ^ 2) * 4 * PI * dV / count npts index i)).
  apply total_ext. intros i _. rewrite <- rsum_scal_r. apply rsum_ext. intros j _. cbv zeta. unfold Rdiv. ring.
Qed.
Lemma weight_partition : weight npts index dV state = total_of (map (fun i => rsum npts (fun g => if (index g =? i)%nat then state g ^ 2 else 0) * dV) (keys index npts)).
Proof.
  unfold weight. rewrite (total_ext nat _ (fun i => dV * rsum npts (fun g => if (index g =? i)%nat then state g ^ 2 else 0))) by (intros; ring).
  rewrite total_scal, partition. rewrite Rmult_comm. f_equal. apply rsum_ext. intros g _. destruct (index g =? 0)%nat; ring.
Qed.
Lemma weight_nonneg : 0 <= weight npts index dV state.
Proof.
  unfold weight. apply Rmult_le_pos; [|exact HdV]. apply rsum_nonneg. intros g _. pose proof (pow2_ge_0 (state g)). destruct (index g =? 0)%nat; lra.
Qed.
Lemma factor_pos i : In i (keys index npts) -> 0 <= 4 * PI * dV / count npts index i.
Proof.
  intros H. pose proof (count_pos i H). pose proof PI_RGT_0. unfold Rdiv. apply Rmult_le_pos; [nra|]. apply Rlt_le, Rinv_0_lt_compat. assumption.
Qed.
Lemma analyse_nonneg l : 0 <= analyse_state npts index theta phi dV state l.
Proof.
  rewrite analyse_swap. apply total_nonneg. intros i Hi. apply Rmult_le_pos; [|apply factor_pos; exact Hi].
  apply rsum_nonneg. intros j _. cbv zeta. pose proof (pow2_ge_0 (fst (phi_nlm npts index theta phi state l (Z.of_nat j - Z.of_nat l) i))).
  pose proof (pow2_ge_0 (snd (phi_nlm npts index theta phi state l (Z.of_nat j - Z.of_nat l) i))). lra.
Qed.
Lemma analyse_bound l : (l <= 6)%nat -> analyse_state npts index theta phi dV state l <= IZR (2 * Z.of_nat l + 1) * weight npts index dV state.
Proof.
  intros Hl. rewrite analyse_swap, weight_partition, <- total_scal. apply total_le. intros i Hi.
  set (W := rsum npts (fun g => if (index g =? i)%nat then state g ^ 2 else 0)).
  pose proof (count_pos i Hi) as Hc. pose proof PI_RGT_0 as Hpi.
  assert (B : rsum (2 * l + 1) (fun j => let z := phi_nlm npts index theta phi state l (Z.of_nat j - Z.of_nat l) i in fst z ^ 2 + snd z ^ 2)
    <= W * (count npts index i * (IZR (2 * Z.of_nat l + 1) / (4 * PI)))).
  { apply Rle_trans with (rsum (2 * l + 1) (fun j => W * rsum npts (fun g => mask i g * cabs2 (ylm_grid theta phi l (Z.of_nat j - Z.of_nat l) g)))).
    - apply rsum_le. intros j _. apply phi_bound.
    - rewrite rsum_scal, rsum_swap. apply Req_le. f_equal. unfold count.
      rewrite <- (rsum_scal_r npts (IZR (2 * Z.of_nat l + 1) / (4 * PI))). apply rsum_ext. intros g _. rewrite rsum_scal. unfold mask. f_equal.
      exact (addition l (theta g) (phi g) Hl). }
  apply Rle_trans with (W * (count npts index i * (IZR (2 * Z.of_nat l + 1) / (4 * PI))) * (4 * PI * dV / count npts index i)).
  - apply Rmult_le_compat_r; [apply factor_pos; exact Hi|exact B].
  - apply Req_le. field. lra.
Qed.
(** a state with spherical shells has the character s only *)
Lemma analyse_s : spherical_state npts index state -> analyse_state npts index theta phi dV state 0 = weight npts index dV state.
Proof.
  intros Hs. rewrite analyse_swap, weight_partition. apply total_ext. intros i Hi. pose proof (count_pos i Hi) as Hc. pose proof PI_RGT_0 as Hpi.
  apply keys_in in Hi. destruct Hi as [Ni [h [Hh Eh]]].
  assert (E : forall g, (g < npts)%nat -> index g = i -> state g = state h) by (intros g Hg Eg; apply Hs; try assumption; congruence).
  cbn [Nat.mul Nat.add rsum]. change (Z.of_nat 0 - Z.of_nat 0)%Z with 0%Z. cbv zeta.
  assert (Y : forall g, ylm_grid theta phi 0 0 g = rc (/ 2 * sqrt (1 / PI))) by reflexivity.
  unfold phi_nlm, csum. cbn [fst snd].
  rewrite (rsum_ext npts (fun i0 => fst (cscale ((if (index i0 =? i)%nat then 1 else 0) * state i0) (cconj (ylm_grid theta phi 0 0 i0)))) (fun g => state h * (/ 2 * sqrt (1 / PI)) * (if (index g =? i)%nat then 1 else 0))).
  2:{ intros g Hg. rewrite Y. unfold cscale, cconj, rc. cbn [fst snd]. destruct (Nat.eqb_spec (index g) i) as [Eg|_]; [rewrite (E g Hg Eg)|]; ring. }
  rewrite (rsum_eq0 npts (fun i0 => snd (cscale ((if (index i0 =? i)%nat then 1 else 0) * state i0) (cconj (ylm_grid theta phi 0 0 i0))))).
  2:{ intros g Hg. rewrite Y. unfold cscale, cconj, rc. cbn [fst snd]. ring. }
  rewrite (rsum_ext npts (fun g => if (index g =? i)%nat then state g ^ 2 else 0) (fun g => state h ^ 2 * (if (index g =? i)%nat then 1 else 0))).
  2:{ intros g Hg. destruct (Nat.eqb_spec (index g) i) as [Eg|_]; [rewrite (E g Hg Eg)|]; ring. }
  rewrite !rsum_scal. fold (count npts index i).
  assert (Q : sqrt (1 / PI) ^ 2 = 1 / PI) by (apply pow2_sqrt; apply qpi; lra).
  replace (0 + ((state h * (/ 2 * sqrt (1 / PI)) * count npts index i) ^ 2 + 0 ^ 2))
    with (state h ^ 2 * / 4 * sqrt (1 / PI) ^ 2 * count npts index i ^ 2) by field.
  rewrite Q. field. lra.
Qed.
Lemma characters_sum ls : / 100 < total_of (map (fun l => weight npts index dV state * analyse_state npts index theta phi dV state l) ls) ->
  total_of (characters npts index theta phi dV state ls) = 1 /\ List.Forall (fun x => 0 <= x <= 1) (characters npts index theta phi dV state ls).
Proof.
  intros H. unfold characters. set (c := map (fun l => weight npts index dV state * analyse_state npts index theta phi dV state l) ls) in *.
  unfold ltb. destruct (Rlt_dec (/ 100) (total_of c)) as [_|N]; [|contradiction].
  assert (S : total_of (map (fun x => x / total_of c) c) = 1) by (rewrite total_div; field; lra). split; [exact S|].
  assert (P : forall x, In x c -> 0 <= x).
  { intros x Hx. unfold c in Hx. apply in_map_iff in Hx. destruct Hx as [l [<- _]]. apply Rmult_le_pos; [apply weight_nonneg|apply analyse_nonneg]. }
  apply List.Forall_forall. intros x Hx. apply in_map_iff in Hx. destruct Hx as [y [<- Hy]].
  assert (L : y <= total_of c).
  { clear - P Hy. induction c as [|z c IH]; [destruct Hy|]. unfold total_of in *. cbn [fold_right].
    assert (T : 0 <= fold_right Rplus 0 c) by (rewrite <- (map_id c); apply (total_nonneg R (fun x => x) c); intros; apply P; right; assumption).
    destruct Hy as [->|Hy]; [lra|]. pose proof (P z (or_introl eq_refl)). specialize (IH (fun x Hx => P x (or_intror Hx)) Hy). lra. }
  pose proof (P y Hy). assert (I : 0 < / total_of c) by (apply Rinv_0_lt_compat; lra). unfold Rdiv. split; [apply Rmult_le_pos; lra|].
  apply Rmult_le_reg_r with (total_of c); [lra|]. rewrite Rmult_assoc, Rinv_l by lra. lra.
Qed.
End State.
Lemma analyse_scale k state l : analyse_state npts index theta phi dV (fun g => k * state g) l = k ^ 2 * analyse_state npts index theta phi dV state l.
Proof.
  rewrite !analyse_swap, <- total_scal. apply total_ext. intros i _. rewrite <- Rmult_assoc, <- rsum_scal. f_equal. apply rsum_ext. intros j _. cbv zeta.
  assert (E : forall m, phi_nlm npts index theta phi (fun g => k * state g) l m i = cscale k (phi_nlm npts index theta phi state l m i)).
  { intros m. unfold phi_nlm, csum, cscale. cbn [fst snd]. rewrite <- !rsum_scal. f_equal; apply rsum_ext; intros g _; ring. }
  rewrite E. unfold cscale. cbn [fst snd]. ring.
Qed.
Lemma characters_scale k state ls : k <> 0 ->
  / 100 < total_of (map (fun l => weight npts index dV state * analyse_state npts index theta phi dV state l) ls) ->
  / 100 < total_of (map (fun l => weight npts index dV (fun g => k * state g) * analyse_state npts index theta phi dV (fun g => k * state g) l) ls) ->
  characters npts index theta phi dV (fun g => k * state g) ls = characters npts index theta phi dV state ls.
Proof.
  intros Hk H1 H2. unfold characters. unfold ltb. destruct (Rlt_dec _ _) as [_|N]; [|contradiction]. destruct (Rlt_dec _ _) as [_|N]; [|contradiction].
  assert (W : weight npts index dV (fun g => k * state g) = k ^ 2 * weight npts index dV state).
  { unfold weight. rewrite <- Rmult_assoc, <- rsum_scal. f_equal. apply rsum_ext. intros g _. ring. }
  assert (C : forall l, weight npts index dV (fun g => k * state g) * analyse_state npts index theta phi dV (fun g => k * state g) l = k ^ 4 * (weight npts index dV state * analyse_state npts index theta phi dV state l)).
  { intros l. rewrite W, analyse_scale. ring. }
  rewrite !map_map. rewrite (total_ext nat _ _ ls (fun l _ => C l)), total_scal. clear H2.
  set (T := total_of (map (fun l => weight npts index dV state * analyse_state npts index theta phi dV state l) ls)) in *.
  assert (HT : T <> 0) by lra. apply map_ext. intros l. rewrite C. field. split; assumption.
Qed.
End Analysis.
(** five points in two shells and outside *)
Definition ex_index (g : nat) : nat := match g with 0 => 1 | 1 | 2 => 2 | 3 => 0 | _ => 2 end%nat.
Definition ex_state (g : nat) : R := match g with O => 1 | 3%nat => 7 | _ => 1 / 2 end.
Example ex_spherical_state : spherical_state 5 ex_index ex_state.
Proof.
  intros g h Hg Hh E N.
  destruct g as [|[|[|[|[|g]]]]]; try lia; destruct h as [|[|[|[|[|h]]]]]; try lia; cbn in *; try reflexivity; try discriminate; try contradiction.
Qed.
Example ex_weight : weight 5 ex_index 1 ex_state = 7 / 4.
Proof. unfold weight. cbn. field. Qed.
Example ex_characters : / 100 < total_of (map (fun l => weight 5 ex_index 1 ex_state * analyse_state 5 ex_index (fun _ => 1) (fun _ => 2) 1 ex_state l) [0%nat]).
Proof.
  cbn [map total_of fold_right]. rewrite analyse_s; [|apply ex_spherical_state]. rewrite ex_weight. lra.
Qed.
