From Coq Require Import Reals List Bool Arith Lia Lra Permutation.
From Verif Require Import Vec EnvModel EnvSpec.
Import ListNotations.
Open Scope R_scope.

(** ** sums *)
Lemma fold_phi fs r t p : fold_left (fun p f => p + f r t) fs p = p + superposition fs r t.
Proof. revert p. induction fs as [|f fs IH]; intros p; cbn [fold_left superposition fold_right]; [ring|]. rewrite IH. unfold superposition. cbn [fold_right]. ring. Qed.
Lemma phi_sum e r : phi e r = superposition (e_phis e) r (e_t e).
Proof. unfold phi. rewrite fold_phi. ring. Qed.
Lemma phi_order e fs r : Permutation (e_phis e) fs -> phi e r = phi (Env (e_t e) fs) r.
Proof.
  intros H. rewrite !phi_sum. cbn [e_phis e_t]. induction H; unfold superposition in *; cbn [fold_right]; try lra. 
Qed.
Section Calc.
Context (atoms : Type) (same : atoms -> atoms -> bool) (pos : atoms -> nat -> nat -> R).
Notation step := (estep atoms same pos).
Notation runs := (eruns atoms same pos).
Definition env_of (xs : list (ecall atoms)) : env := Env (elapsed xs) (added xs).
Lemma added_app xs ys : added (xs ++ ys) = @added atoms xs ++ added ys.
Proof. induction xs as [|[f|d|a] xs IH]; cbn [app added]; [reflexivity|rewrite IH; reflexivity|exact IH|exact IH]. Qed.
Lemma elapsed_app xs ys : elapsed (xs ++ ys) = @elapsed atoms xs + elapsed ys.
Proof. induction xs as [|[f|d|a] xs IH]; cbn [app elapsed]; [ring|exact IH|rewrite IH; ring|exact IH]. Qed.
Definition ext_of (s : option (atoms * list (ecall atoms))) (i : nat) : R :=
  match s with None => 0 | Some (a, h) => superposition (added h) (pos a i) (elapsed h) end.
(** what the state is after a history *)
Definition good (done : list (ecall atoms)) (cur : option (atoms * list (ecall atoms))) (c : calc atoms) : Prop :=
  c_env atoms c = Some (env_of done) /\ c_solved atoms c = option_map fst cur /\ forall i, c_ext atoms c i = ext_of cur i.
Lemma runs_good xs : forall done cur c, good done cur c -> good (done ++ xs) (last_solution same done cur xs) (fst (runs true c xs)).
Proof.
  induction xs as [|x xs IH]; intros done cur c G; [rewrite app_nil_r; exact G|].
  cbn [eruns]. destruct (step true c x) as [c' an] eqn:E. specialize (IH (done ++ [x])). destruct (eruns atoms same pos true c' xs) as [c'' l] eqn:R. cbn [fst].
  rewrite (app_assoc done [x] xs : done ++ x :: xs = (done ++ [x]) ++ xs). destruct G as (G1 & G2 & G3).
  assert (K : forall cur', good (done ++ [x]) cur' c' -> good ((done ++ [x]) ++ xs) (last_solution same (done ++ [x]) cur' xs) c'').
  { intros cur' G'. specialize (IH cur' c' G'). rewrite R in IH. exact IH. }
  destruct x as [f|d|a]; cbn [last_solution estep] in *.
  - rewrite G1 in E. injection E as <- <-. apply K. split; [|split; assumption]. cbn [c_env]. unfold env_of, add_phi. cbn [e_t e_phis]. rewrite added_app, elapsed_app. cbn [added elapsed]. rewrite Rplus_0_r. reflexivity.
  - rewrite G1 in E. injection E as <- <-. apply K. split; [|split; assumption]. cbn [c_env]. unfold env_of, propagate_time. cbn [e_t e_phis]. rewrite added_app, elapsed_app. cbn [added elapsed]. rewrite Rplus_0_r, app_nil_r. reflexivity.
  - assert (Ev : Some (env_of done) = Some (env_of (done ++ [Solve a]))). { unfold env_of. rewrite added_app, elapsed_app. cbn [added elapsed]. rewrite Rplus_0_r, app_nil_r. reflexivity. }
    rewrite G1, G2 in E. apply K. destruct cur as [[b h]|]; cbn [option_map fst] in E.
    + destruct (same b a) eqn:Sb; cbn [negb] in E; injection E as <- <-.
      * split; [exact Ev|]. split; [reflexivity|exact G3].
      * split; [exact Ev|]. split; [reflexivity|]. intros i. cbn [c_ext ext_of]. apply phi_sum.
    + injection E as <- <-. split; [exact Ev|]. split; [reflexivity|]. intros i. cbn [c_ext ext_of]. apply phi_sum.
Qed.
(** after a history that starts with a calculation *)
Lemma history xs a b h : starts_with_solve xs -> last_solution same [] None (xs ++ [Solve a]) = Some (b, h) ->
  exists v, snd (step true (fst (runs true (new_calc atoms) xs)) (Solve a)) = Ext v /\ forall i, v i = superposition (added h) (pos b i) (elapsed h).
Proof.
  intros Hs HL.
  assert (G : xs = [] \/ good xs (last_solution same [] None xs) (fst (runs true (new_calc atoms) xs))).
  { destruct xs as [|x xs]; [left; reflexivity|right]. destruct x as [f|d|a0]; cbn in Hs; try discriminate. cbn [eruns estep new_calc c_env c_solved last_solution app].
    destruct (eruns atoms same pos true _ xs) as [c'' l] eqn:R. cbn [fst]. pose proof (runs_good xs [Solve a0] (Some (a0, [])) (Calc atoms (Some new_env) (Some a0) (fun i => phi new_env (pos a0 i)))) as K.
    rewrite R in K. apply K. split; [reflexivity|]. split; [reflexivity|]. intros i. cbn [c_ext ext_of]. reflexivity. }
  destruct G as [->|G].
  - cbn in HL. injection HL as <- <-. eexists. split; [reflexivity|]. intros i. cbn. reflexivity.
  - assert (A : forall ys done cur, last_solution same done cur (ys ++ [Solve a]) = match last_solution same done cur ys with None => Some (a, done ++ ys) | Some (b, k) => if same b a then Some (b, k) else Some (a, done ++ ys) end).
    { induction ys as [|y ys IH]; intros done cur; [cbn; rewrite app_nil_r; destruct cur as [[? ?]|]; reflexivity|].
      destruct y; cbn [app last_solution]; rewrite IH; rewrite <- app_assoc; reflexivity. }
    rewrite A in HL. destruct G as (G1 & G2 & G3). unfold estep. rewrite G1, G2. cbn [app] in HL. destruct (last_solution same [] None xs) as [[b' h']|]; cbn [option_map fst].
    + destruct (same b' a); cbn [negb]; injection HL as <- <-; eexists; (split; [reflexivity|]); intros i; [apply G3|]. apply phi_sum.
    + injection HL as <- <-. eexists. split; [reflexivity|]. intros i. apply phi_sum.
Qed.
Lemma early xs x : (forall y, In y xs -> is_solve y = false) -> is_solve x = false -> snd (step true (fst (runs true (new_calc atoms) xs)) x) = AttributeError.
Proof.
  intros H Hx. assert (N : c_env atoms (fst (runs true (new_calc atoms) xs)) = None).
  { generalize (eq_refl : c_env atoms (new_calc atoms) = None). generalize (new_calc atoms). induction xs as [|y xs IH]; intros c Hc; [exact Hc|].
    specialize (IH (fun z hz => H z (or_intror hz))). pose proof (H y (or_introl eq_refl)) as Hy. destruct y as [f|d|a]; cbn in Hy; try discriminate; cbn [eruns estep]; rewrite Hc; specialize (IH c Hc); destruct (eruns atoms same pos true c xs); exact IH. }
  destruct x as [f|d|a]; cbn in Hx; try discriminate; cbn [estep]; rewrite N; reflexivity.
Qed.
Lemma no_scc xs a : exists v, snd (step false (fst (runs false (new_calc atoms) xs)) (Solve a)) = Ext v /\ forall i, v i = 0.
Proof.
  assert (N : forall i, c_ext atoms (fst (runs false (new_calc atoms) xs)) i = 0).
  { assert (Z : forall i, c_ext atoms (new_calc atoms) i = 0) by reflexivity. revert Z. generalize (new_calc atoms). induction xs as [|y xs IH]; intros c Hc; [exact Hc|].
    cbn [eruns]. destruct (step false c y) as [c' an] eqn:E. specialize (IH c'). destruct (eruns atoms same pos false c' xs). cbn [fst] in *. apply IH.
    destruct y as [f|d|a']; cbn [estep] in E.
    - destruct (c_env atoms c); injection E as <- <-; exact Hc.
    - destruct (c_env atoms c); injection E as <- <-; exact Hc.
    - destruct (match c_solved atoms c with None => true | Some b => negb (same b a') end); injection E as <- <-; [reflexivity|exact Hc]. }
  unfold estep. destruct (match c_solved atoms _ with None => true | Some b => negb (same b a) end); eexists; (split; [reflexivity|]); [reflexivity|exact N].
Qed.
Lemma stale a i f : same a a = true -> f (pos a i) 0 <> 0 ->
  exists v, snd (step true (fst (runs true (new_calc atoms) [Solve a; AddPhi f])) (Solve a)) = Ext v /\ v i <> superposition [f] (pos a i) 0.
Proof.
  intros Hs Hf. cbn [eruns estep new_calc c_env c_solved add_phi fst snd c_ext]. rewrite Hs. cbn [negb snd]. eexists. split; [reflexivity|]. unfold phi. cbn [new_env e_phis fold_left]. unfold superposition. cbn [fold_right]. lra.
Qed.
Lemma last_in ys : forall done cur b h, last_solution same done cur ys = Some (b, h) -> In (Solve b) ys \/ cur = Some (b, h).
Proof.
  induction ys as [|y ys IH]; intros done cur b h H; [right; exact H|].
  destruct y as [f|d|a]; cbn [last_solution] in H; destruct (IH _ _ _ _ H) as [K|K]; try (left; right; exact K); try (right; exact K).
  destruct cur as [[c k]|]; [destruct (same c a); [right; exact K|]|]; injection K as <- <-; left; left; reflexivity.
Qed.
Lemma last_app a ys : forall done cur, last_solution same done cur (ys ++ [Solve a]) = match last_solution same done cur ys with None => Some (a, done ++ ys) | Some (b, k) => if same b a then Some (b, k) else Some (a, done ++ ys) end.
Proof.
  induction ys as [|y ys IH]; intros done cur; [cbn; rewrite app_nil_r; destruct cur as [[? ?]|]; reflexivity|].
  destruct y; cbn [app last_solution]; rewrite IH; rewrite <- app_assoc; reflexivity.
Qed.
Lemma moved xs a : starts_with_solve xs -> (forall b, In (Solve b) xs -> same b a = false) ->
  exists v, snd (step true (fst (runs true (new_calc atoms) xs)) (Solve a)) = Ext v /\ forall i, v i = superposition (added xs) (pos a i) (elapsed xs).
Proof.
  intros Hs Hd. apply (history xs a a xs Hs). rewrite last_app. destruct (last_solution same [] None xs) as [[b h]|] eqn:E; [|reflexivity].
  destruct (last_in _ _ _ _ _ E) as [K|K]; [|discriminate]. rewrite (Hd b K). reflexivity.
Qed.
End Calc.
(** ** laser *)
Lemma dot3_comm a b : dot3 a b = dot3 b a.
Proof. unfold dot3. apply rsum_ext. intros; ring. Qed.
Lemma dot3_pos a : 0 <= dot3 a a.
Proof. unfold dot3, rsum. nra. Qed.
Lemma norm3_scale k a : norm3 (fun i => k * a i) = Rabs k * norm3 a.
Proof. unfold norm3. replace (dot3 (fun i => k * a i) (fun i => k * a i)) with (k ^ 2 * dot3 a a) by (unfold dot3, rsum; ring). rewrite sqrt_mult; [|nra|apply dot3_pos]. f_equal. replace (k ^ 2) with (Rsqr k) by (unfold Rsqr; ring). apply sqrt_Rsqr_abs. Qed.
Lemma cauchy a b : Rabs (dot3 a b) <= norm3 a * norm3 b.
Proof.
  unfold norm3. rewrite <- sqrt_mult by apply dot3_pos. rewrite <- sqrt_Rsqr_abs. apply sqrt_le_1_alt. unfold Rsqr, dot3, rsum.
  set (x := a 0%nat). set (y := a 1%nat). set (z := a 2%nat). set (u := b 0%nat). set (v := b 1%nat). set (w := b 2%nat).
  pose proof (pow2_ge_0 (x * v - y * u)). pose proof (pow2_ge_0 (x * w - z * u)). pose proof (pow2_ge_0 (y * w - z * v)).
  apply Rminus_le. match goal with |- ?l <= 0 => replace l with (- ((x * v - y * u) ^ 2 + (x * w - z * u) ^ 2 + (y * w - z * v) ^ 2)) by ring end. lra.
Qed.
Section LaserFacts.
Variables (Hartree energy flux phase : R) (p : nat -> R).
Hypothesis HH : 0 < Hartree.
Hypothesis Hp : norm3 p <> 0.
Let L := new_laser Hartree energy flux p phase.
Lemma pol_unit : norm3 (l_pol L) = 1.
Proof.
  assert (X : forall n, norm3 (fun k => p k / n) = norm3 (fun k => / n * p k)).
  { intros n. unfold norm3. f_equal. unfold dot3. apply rsum_ext. intros; unfold Rdiv; ring. }
  unfold L, new_laser. cbn [l_pol]. rewrite X.
  rewrite norm3_scale. assert (0 <= norm3 p) by (unfold norm3; apply sqrt_pos). rewrite Rabs_inv, Rabs_pos_eq by assumption. field. exact Hp.
Qed.
Lemma laser_spec : 
  (** energy of a photon *)
  hbar * l_omega L * Hartree = energy /\
  (** amplitude of the field, in the documentation 5.3E-9 sqrt(flux) *)
  Rabs (l_E0 L - 53 / 10 ^ 10 * sqrt flux) <= 4 / 10 ^ 11 * sqrt flux /\
  (** linear in the position: a uniform field *)
  (forall r s t, laser_phi L (fun k => r k + s k) t = laser_phi L r t + laser_phi L s t) /\
  (** bounded by the field, reached along the polarization *)
  (forall r t, Rabs (laser_phi L r t) <= l_E0 L * norm3 r) /\
  (forall t, sin (l_omega L * t + phase) = -1 -> laser_phi L p t = l_E0 L * norm3 p) /\
  (forall r t, dot3 r p = 0 -> laser_phi L r t = 0) /\
  (** periodic *)
  (energy <> 0 -> forall r t, laser_phi L r (t + 2 * PI / l_omega L) = laser_phi L r t /\ laser_phi L r (t + PI / l_omega L) = - laser_phi L r t).
Proof.
  assert (Hb : 0 < hbar) by (unfold hbar; lra).
  assert (Ls : forall r s t, laser_phi L (fun k => r k + s k) t = laser_phi L r t + laser_phi L s t).
  { intros r s t. unfold laser_phi, dot3. rewrite (rsum_ext 3 _ (fun k => r k * l_pol L k + s k * l_pol L k)) by (intros; ring). rewrite rsum_plus. ring. }
  assert (E0 : 0 <= l_E0 L). { unfold L, new_laser. cbn [l_E0]. apply Rmult_le_pos; [apply sqrt_pos|lra]. }
  assert (Dp : forall r, dot3 r (l_pol L) = dot3 r p / norm3 p). { intros r. unfold L, new_laser, Rdiv, dot3. cbn [l_pol]. rewrite <- rsum_scal_r. apply rsum_ext. intros; ring. }
  split; [unfold L, new_laser; cbn [l_omega]; field; lra|]. split; [|split; [exact Ls|]].
  { unfold L, new_laser. cbn [l_E0]. assert (0 <= sqrt flux) by apply sqrt_pos. rewrite Rabs_pos_eq; lra. }
  split; [|split; [|split]].
  - intros r t. unfold laser_phi. rewrite !Rabs_mult, Rabs_Ropp, (Rabs_pos_eq (l_E0 L)) by exact E0. rewrite Rmult_assoc. apply Rmult_le_compat_l; [exact E0|].
    pose proof (cauchy r (l_pol L)) as C. rewrite pol_unit, Rmult_1_r in C. assert (S1 : Rabs (sin (l_omega L * t + l_phase L)) <= 1) by (apply Rabs_le; apply SIN_bound).
    apply Rle_trans with (1 * norm3 r); [|lra]. apply Rmult_le_compat; try apply Rabs_pos; assumption.
  - intros t Hs. unfold laser_phi. change (l_phase L) with phase. rewrite Hs, Dp. replace (dot3 p p) with (norm3 p * norm3 p) by (unfold norm3; apply sqrt_sqrt; apply dot3_pos). field. exact Hp.
  - intros r t Hr. unfold laser_phi. rewrite Dp, Hr. unfold Rdiv. ring.
  - intros He r t. assert (W : l_omega L <> 0). { unfold L, new_laser. cbn [l_omega]. unfold Rdiv. apply Rmult_integral_contrapositive_currified; [|apply Rinv_neq_0_compat; lra]. apply Rmult_integral_contrapositive_currified; [exact He|]. apply Rinv_neq_0_compat. lra. }
    unfold laser_phi. split.
    + replace (l_omega L * (t + 2 * PI / l_omega L) + l_phase L) with (l_omega L * t + l_phase L + 2 * INR 1 * PI) by (cbn [INR]; field; exact W). rewrite sin_period. reflexivity.
    + replace (l_omega L * (t + PI / l_omega L) + l_phase L) with (l_omega L * t + l_phase L + PI) by (field; exact W). rewrite neg_sin. ring.
Qed.
Lemma laser_direction k r t : 0 < k -> laser_phi (new_laser Hartree energy flux (fun i => k * p i) phase) r t = laser_phi L r t.
Proof.
  intros Hk. unfold laser_phi, L, new_laser. cbn [l_E0 l_omega l_phase l_pol]. f_equal. unfold dot3. apply rsum_ext. intros i _. f_equal. rewrite norm3_scale, Rabs_pos_eq by lra. field. split; [exact Hp|lra].
Qed.
End LaserFacts.
Example ex_laser : norm3 (fun k => if (k =? 0)%nat then 2 else 0) <> 0.
Proof. unfold norm3, dot3, rsum. cbn [Nat.eqb]. replace (0 + 2 * 2 + 0 * 0 + 0 * 0) with (Rsqr 2) by (unfold Rsqr; ring). rewrite sqrt_Rsqr; lra. Qed.
(** one atom at x = 1, field switched on after the first calculation *)
Lemma stale_field : exists (f : potential) v, snd (estep nat Nat.eqb (fun a _ k => if (k =? 0)%nat then INR a else 0) true
    (fst (eruns nat Nat.eqb (fun a _ k => if (k =? 0)%nat then INR a else 0) true (new_calc nat) [Solve 1%nat; AddPhi f])) (Solve 1%nat)) = Ext v /\
  v 0%nat <> superposition [f] (fun k => if (k =? 0)%nat then INR 1 else 0) 0.
Proof.
  exists (fun r _ => r 0%nat). apply (stale nat Nat.eqb (fun a _ k => if (k =? 0)%nat then INR a else 0) 1%nat 0%nat (fun r _ => r 0%nat)); [reflexivity|]. cbn. lra.
Qed.
Lemma stale_time : exists (f : potential) dt v, snd (estep nat Nat.eqb (fun a _ k => if (k =? 0)%nat then INR a else 0) true
    (fst (eruns nat Nat.eqb (fun a _ k => if (k =? 0)%nat then INR a else 0) true (new_calc nat) [Solve 1%nat; AddPhi f; Solve 2%nat; Propagate dt])) (Solve 2%nat)) = Ext v /\
  v 0%nat <> superposition [f] (fun k => if (k =? 0)%nat then INR 2 else 0) dt.
Proof.
  exists (fun r t => t), 1. eexists. split; [reflexivity|]. cbn. lra.
Qed.
Lemma ignored_field : exists (f : potential) v, snd (estep nat Nat.eqb (fun a _ k => if (k =? 0)%nat then INR a else 0) false
    (fst (eruns nat Nat.eqb (fun a _ k => if (k =? 0)%nat then INR a else 0) false (new_calc nat) [Solve 1%nat; AddPhi f])) (Solve 2%nat)) = Ext v /\
  v 0%nat <> superposition [f] (fun k => if (k =? 0)%nat then INR 2 else 0) 0.
Proof. exists (fun r _ => r 0%nat). eexists. split; [reflexivity|]. cbn. lra. Qed.
(** the order of calls in hotbit/test/external_field.py *)
Example ex_first (a : unit) f : snd (estep unit (fun _ _ => true) (fun _ _ _ => 0) true (new_calc unit) (AddPhi f)) = AttributeError.
Proof. reflexivity. Qed.
Example ex_history f g : last_solution Nat.eqb [] None [Solve 1%nat; AddPhi f; Solve 1%nat; Solve 2%nat; AddPhi g; Solve 2%nat] = Some (2%nat, [Solve 1%nat; AddPhi f; Solve 1%nat]).
Proof. reflexivity. Qed.
Example ex_moved f : starts_with_solve [Solve 1%nat; AddPhi f] /\ forall b, In (Solve b) [Solve 1%nat; AddPhi f] -> Nat.eqb b 2 = false.
Proof. split; [reflexivity|]. intros b [H|[H|[]]]; [injection H as <-; reflexivity|discriminate]. Qed.
