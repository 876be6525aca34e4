From Coq Require Import Reals ZArith List Bool Arith Lia Lra FunctionalExtensionality.
From Verif Require Import Vec GeomModel MixModel OccModel SkModel SkSpec Cpx RhoModel RhoSpec RhoProofs EigModel EigSpec EigProofs2 InvModel InvSpec InvLin InvProofs InvProofs2 FoldSpec.
Import ListNotations.
Open Scope R_scope.

(** ** indices of copies *)
Lemma rsum_pairs m n f : rsum (m * n) f = rsum m (fun c => rsum n (fun i => f (c * n + i)%nat)).
Proof. induction m as [|m IH]; [reflexivity|]. replace (S m * n)%nat with (m * n + n)%nat by lia. rewrite rsum_split, IH. reflexivity. Qed.
Lemma csum_pairs m n f : csum (m * n) f = csum m (fun c => csum n (fun i => f (c * n + i)%nat)).
Proof. unfold csum. cbn [fst snd]. rewrite !rsum_pairs. reflexivity. Qed.
Lemma pair_lt m n c i : (c < m)%nat -> (i < n)%nat -> (c * n + i < m * n)%nat.
Proof. intros. nia. Qed.
Lemma pair_inv m n q : (q < m * n)%nat -> exists c i, (c < m)%nat /\ (i < n)%nat /\ q = (c * n + i)%nat.
Proof.
  intros H. assert (n <> 0)%nat by (intros ->; lia). exists (q / n)%nat, (q mod n)%nat. split; [apply Nat.div_lt_upper_bound; lia|]. split; [apply Nat.mod_upper_bound; assumption|].
  rewrite Nat.mul_comm. apply Nat.div_mod. assumption.
Qed.
Lemma pair_inj n c i c' i' : (i < n)%nat -> (i' < n)%nat -> (c * n + i = c' * n + i')%nat -> c = c' /\ i = i'.
Proof. intros Hi Hi' E. assert (c = c') by nia. subst. split; [reflexivity|lia]. Qed.
Lemma pair_div n c i : (i < n)%nat -> ((c * n + i) / n = c)%nat.
Proof. intros H. rewrite Nat.add_comm, Nat.div_add by lia. rewrite Nat.div_small by exact H. reflexivity. Qed.
Lemma pair_mod n c i : (i < n)%nat -> ((c * n + i) mod n = i)%nat.
Proof. intros H. rewrite Nat.add_comm, Nat.mod_add by lia. apply Nat.mod_small. exact H. Qed.
Lemma pair_eqb n c i c' i' : (i < n)%nat -> (i' < n)%nat -> (c * n + i =? c' * n + i')%nat = ((c =? c') && (i =? i'))%nat.
Proof.
  intros Hi Hi'. destruct (Nat.eqb_spec (c * n + i) (c' * n + i')) as [E|E].
  - destruct (pair_inj n c i c' i' Hi Hi' E) as [-> ->]. rewrite !Nat.eqb_refl. reflexivity.
  - destruct (Nat.eqb_spec c c') as [->|]; [|reflexivity]. destruct (Nat.eqb_spec i i') as [->|]; [congruence|reflexivity].
Qed.
(** ** repeated charges and mixers *)
Lemma repeated_sum m n u v : repeated m n u v -> rsum (m * n) v = INR m * rsum n u.
Proof. intros H. rewrite rsum_pairs. rewrite (rsum_ext m _ (fun _ => rsum n u)) by (intros c Hc; apply rsum_ext; intros i Hi; apply H; assumption). rewrite rsum_const. ring. Qed.
Lemma repeated_op2 m n (h : R -> R -> R) u v u' v' : repeated m n u v -> repeated m n u' v' -> repeated m n (fun k => h (u k) (u' k)) (fun k => h (v k) (v' k)).
Proof. intros A B c i Hc Hi. cbv beta. rewrite (A c i Hc Hi), (B c i Hc Hi). reflexivity. Qed.
Lemma repeated_dot m n u v u' v' : repeated m n u v -> repeated m n u' v' -> dot (m * n) v v' = INR m * dot n u u'.
Proof. intros A B. unfold dot. apply (repeated_sum m n (fun k => u k * u' k) (fun k => v k * v' k)). apply (repeated_op2 m n Rmult); assumption. Qed.
Lemma repeated_max m n u v : (0 < m)%nat -> repeated m n u v -> maxabs (m * n) v = maxabs n u.
Proof.
  intros Hm C. destruct n as [|n]. { rewrite Nat.mul_0_r. reflexivity. }
  apply Rle_antisym.
  - destruct (maxabs_attained (m * S n) v ltac:(nia)) as (q & Hq & ->). destruct (pair_inv m (S n) q Hq) as (c & i & Hc & Hi & ->). rewrite (C c i Hc Hi). apply maxabs_ge. exact Hi.
  - destruct (maxabs_attained (S n) u ltac:(lia)) as (i & Hi & ->). rewrite <- (C 0%nat i Hm Hi). apply maxabs_ge. apply pair_lt; assumption.
Qed.
Definition repeated_rows m n (F F' : nat -> vec) : Prop := forall q, repeated m n (F q) (F' q).
Lemma repeated_zero m n : repeated m n (fun _ => 0) (fun _ => 0). Proof. intros c i _ _. reflexivity. Qed.
Section Mixers.
Context (m n : nat) (Hm : (0 < m)%nat).
Lemma INR_m : 0 < INR m. Proof. apply (lt_INR 0). exact Hm. Qed.
Lemma chopped_repeated p u v xb xb' : repeated m n u v -> repeated m n xb xb' -> repeated m n (chopped p n u xb) (chopped p (m * n) v xb').
Proof.
  intros A B. unfold chopped. rewrite (repeated_max m n (fun k => xb k - u k) (fun k => xb' k - v k) Hm) by (apply (repeated_op2 m n Rminus); assumption).
  destruct (chop p) as [c|]; [|exact B]. destruct (Rlt_dec _ _); [|exact B]. intros d i Hd Hi. rewrite (A d i Hd Hi), (B d i Hd Hi). reflexivity.
Qed.
Lemma a_sum_repeated M c b b' F F' : repeated m n b b' -> repeated_rows m n F F' -> repeated m n (a_sum M c b F) (a_sum M c b' F').
Proof. intros A B. induction M as [|M IH]; [exact A|]. intros d i Hd Hi. cbn [a_sum]. rewrite (IH d i Hd Hi), (B (S M) d i Hd Hi), (A d i Hd Hi). reflexivity. Qed.
Definition ar_rel (x y : astate) : Prop := a_it x = a_it y /\ (a_it x <> 0%nat -> repeated_rows m n (a_F x) (a_F y) /\ repeated_rows m n (a_x x) (a_x y)).
Lemma shift_repeated k F F' : repeated_rows m n F F' -> repeated_rows m n (shift_rows k F) (shift_rows k F').
Proof. intros A q. unfold shift_rows. destruct (andb _ _); apply A. Qed.
Lemma set0_repeated u v F F' : repeated m n u v -> repeated_rows m n F F' -> repeated_rows m n (set_row0 u F) (set_row0 v F').
Proof. intros A B [|q]; [exact A|apply B]. Qed.
Lemma anderson_repeated sv p x y u v u' v' : scaled_solver sv -> ar_rel x y -> repeated m n u v -> repeated m n u' v' ->
  ar_rel (fst (anderson sv p n x u u')) (fst (anderson sv p (m * n) y v v')) /\ fst (snd (anderson sv p n x u u')) = fst (snd (anderson sv p (m * n) y v v')) /\
  repeated m n (snd (snd (anderson sv p n x u u'))) (snd (snd (anderson sv p (m * n) y v v'))).
Proof.
  intros SV (E1 & E2) A B.
  assert (F1 : repeated_rows m n (if (a_it x =? 0)%nat then zero_rows else a_F x) (if (a_it y =? 0)%nat then zero_rows else a_F y)).
  { rewrite <- E1. destruct (Nat.eqb_spec (a_it x) 0); [intros q; apply repeated_zero|apply E2; assumption]. }
  assert (X1 : repeated_rows m n (if (a_it x =? 0)%nat then zero_rows else a_x x) (if (a_it y =? 0)%nat then zero_rows else a_x y)).
  { rewrite <- E1. destruct (Nat.eqb_spec (a_it x) 0); [intros q; apply repeated_zero|apply E2; assumption]. }
  unfold anderson. rewrite <- E1 in *. cbv zeta.
  set (F := set_row0 (fun k => u' k - u k) (if (a_it x =? 0)%nat then zero_rows else a_F x)) in *.
  set (F' := set_row0 (fun k => v' k - v k) (if (a_it x =? 0)%nat then zero_rows else a_F y)) in *.
  set (G := set_row0 u (if (a_it x =? 0)%nat then zero_rows else a_x x)) in *.
  set (G' := set_row0 v (if (a_it x =? 0)%nat then zero_rows else a_x y)) in *.
  assert (CF : repeated_rows m n F F') by (apply set0_repeated; [apply (repeated_op2 m n Rminus); assumption|exact F1]).
  assert (CG : repeated_rows m n G G') by (apply set0_repeated; [assumption|exact X1]).
  set (M := Nat.min (S (a_it x) - 1) (memory p)).
  assert (Es : sv M (a_mat (m * n) F') (a_rhs (m * n) F') = sv M (a_mat n F) (a_rhs n F)).
  { apply (SV (INR m)); [exact INR_m| |].
    - intros i j _ _. unfold a_mat. apply repeated_dot; apply (repeated_op2 m n Rminus); apply CF.
    - intros i _. unfold a_rhs. apply repeated_dot; [apply (repeated_op2 m n Rminus); apply CF|apply CF]. }
  rewrite Es.
  assert (Ef : maxabs (m * n) (shift_rows (memory p) F' 0%nat) = maxabs n (shift_rows (memory p) F 0%nat)) by (apply repeated_max; [exact Hm|apply shift_repeated; exact CF]).
  rewrite Ef. cbn [fst snd]. split; [|split; [reflexivity|]].
  - split; [reflexivity|]. intros _; split; apply shift_repeated; assumption.
  - apply chopped_repeated; [exact A|]. destruct (if (M <=? 1)%nat then None else sv _ _ _) as [c|].
    + intros d i Hd Hi. unfold a_combine. rewrite (a_sum_repeated _ c u v G G' A CG d i Hd Hi), (a_sum_repeated _ c (F 0%nat) (F' 0%nat) F F' (CF 0%nat) CF d i Hd Hi). reflexivity.
    + intros d i Hd Hi. unfold simple_mix. rewrite (A d i Hd Hi), (B d i Hd Hi). reflexivity.
Qed.
Definition pr_rel (x y : pstate) : Prop := p_it x = p_it y /\ (p_it x <> 0%nat -> repeated_rows m n (p_R x) (p_R y) /\ repeated_rows m n (p_rho x) (p_rho y)) /\ p_fmax x = p_fmax y.
Lemma push_repeated k u v F F' : repeated m n u v -> repeated_rows m n F F' -> repeated_rows m n (push_row k u F) (push_row k v F').
Proof. intros A B [|q]; cbn [push_row]; [exact A|]. destruct (_ <? _)%nat; apply B. Qed.
Lemma pulay_repeated iv p x y u v u' v' : scaled_inverter iv -> pr_rel x y -> repeated m n u v -> repeated m n u' v' ->
  pr_rel (fst (pulay iv p n x u u')) (fst (pulay iv p (m * n) y v v')) /\ fst (snd (pulay iv p n x u u')) = fst (snd (pulay iv p (m * n) y v v')) /\
  repeated m n (snd (snd (pulay iv p n x u u'))) (snd (snd (pulay iv p (m * n) y v v'))).
Proof.
  intros IV (E1 & E2 & E3) A B.
  assert (F1 : repeated_rows m n (if (p_it x =? 0)%nat then zero_rows else p_R x) (if (p_it y =? 0)%nat then zero_rows else p_R y)).
  { rewrite <- E1. destruct (Nat.eqb_spec (p_it x) 0); [intros q; apply repeated_zero|apply E2; assumption]. }
  assert (X1 : repeated_rows m n (if (p_it x =? 0)%nat then zero_rows else p_rho x) (if (p_it y =? 0)%nat then zero_rows else p_rho y)).
  { rewrite <- E1. destruct (Nat.eqb_spec (p_it x) 0); [intros q; apply repeated_zero|apply E2; assumption]. }
  unfold pulay. rewrite <- E1, <- E3 in *. cbv zeta. set (lim := Nat.min (S (p_it x)) (memory p)).
  set (G := push_row lim u (if (p_it x =? 0)%nat then zero_rows else p_rho x)) in *.
  set (G' := push_row lim v (if (p_it x =? 0)%nat then zero_rows else p_rho y)) in *.
  set (F := push_row lim (fun k => u' k - u k) (if (p_it x =? 0)%nat then zero_rows else p_R x)) in *.
  set (F' := push_row lim (fun k => v' k - v k) (if (p_it x =? 0)%nat then zero_rows else p_R y)) in *.
  assert (CF : repeated_rows m n F F') by (apply push_repeated; [apply (repeated_op2 m n Rminus); assumption|exact F1]).
  assert (CG : repeated_rows m n G G') by (apply push_repeated; [assumption|exact X1]).
  pose proof (IV (INR m) lim (fun i j => if andb (i <? lim) (j <? lim) then dot n (F j) (F i) else p_A x i j) (fun i j => if andb (i <? lim) (j <? lim) then dot (m * n) (F' j) (F' i) else p_A y i j) INR_m) as Q.
  assert (Ef : maxabs (m * n) (F' 0%nat) = maxabs n (F 0%nat)) by (apply repeated_max; [exact Hm|apply CF]). rewrite Ef.
  specialize (Q ltac:(intros i j Hi Hj; cbv beta; rewrite (proj2 (Nat.ltb_lt i lim) Hi), (proj2 (Nat.ltb_lt j lim) Hj); cbn [andb]; apply repeated_dot; apply CF)).
  destruct (iv lim (fun i j => if andb (i <? lim) (j <? lim) then dot n (F j) (F i) else p_A x i j)) as [Bx|], (iv lim (fun i j => if andb (i <? lim) (j <? lim) then dot (m * n) (F' j) (F' i) else p_A y i j)) as [By|]; try contradiction;
    cbn [fst snd]; (split; [split; [reflexivity|]; split; [intros _; split; assumption|reflexivity]|]; split; [reflexivity|]; apply chopped_repeated; [exact A|]).
  - intros d k Hd Hk. apply rsum_ext. intros i Hi. rewrite (CG i d k Hd Hk), (CF i d k Hd Hk). f_equal. rewrite (proj2 (Nat.ltb_lt i lim) Hi). pose proof INR_m as P.
    assert (T1 : rsum lim (fun j => Bx j i) = INR m * rsum lim (fun j => By j i)) by (rewrite <- rsum_scal; apply rsum_ext; intros j Hj; apply Q; assumption).
    assert (T2 : rsum lim (fun i => rsum lim (fun j => Bx i j)) = INR m * rsum lim (fun i => rsum lim (fun j => By i j))) by (rewrite <- rsum_scal; apply rsum_ext; intros a Ha; rewrite <- rsum_scal; apply rsum_ext; intros j Hj; apply Q; assumption).
    rewrite T1, T2. unfold Rdiv. rewrite Rinv_mult.
    match goal with |- ?a * / ?b = _ => replace (INR m * a * (/ INR m * / b)) with (a * / b * (INR m * / INR m)) by ring end. rewrite Rinv_r by lra. ring.
  - intros d i Hd Hi. unfold simple_mix. rewrite (A d i Hd Hi), (B d i Hd Hi). reflexivity.
Qed.
(** a relation of the states of two mixers kept by every call *)
Record simulates2 (mx my : mixer) (rel : mst mx -> mst my -> Prop) : Prop := {
  sim2_reset : forall x y, rel x y -> rel (m_reset mx x) (m_reset my y);
  sim2_call : forall x y u v u' v', rel x y -> repeated m n u v -> repeated m n u' v' ->
    rel (fst (m_call mx x u u')) (fst (m_call my y v v')) /\ fst (snd (m_call mx x u u')) = fst (snd (m_call my y v v')) /\
    repeated m n (snd (snd (m_call mx x u u'))) (snd (snd (m_call my y v v'))) }.
Lemma fresh_simulates2 mx my sx sy : fresh_pair n (m * n) mx my sx sy -> exists rel, simulates2 mx my rel /\ rel sx sy.
Proof.
  intros F. destruct F as [sv p SV|iv p IV|].
  - exists ar_rel. split; [split|].
    + intros x y (E1 & E2). split; [reflexivity|]. intros C; elim C; reflexivity.
    + intros. apply anderson_repeated; assumption.
    + split; [reflexivity|]. intros C; elim C; reflexivity.
  - exists pr_rel. split; [split|].
    + intros x y (E1 & E2 & E3). split; [reflexivity|]. split; [intros C; elim C; reflexivity|reflexivity].
    + intros. apply pulay_repeated; assumption.
    + split; [reflexivity|]. split; [intros C; elim C; reflexivity|reflexivity].
  - exists (fun _ _ => True). split; [split|exact I].
    + intros; exact I.
    + intros x y u v u' v' _ A B. cbn. split; [exact I|]. split; [reflexivity|exact B].
Qed.
End Mixers.
