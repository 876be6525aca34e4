From Coq Require Import Reals ZArith List Bool Arith Lia Lra FunctionalExtensionality Permutation.
From Verif Require Import Vec GeomModel MixModel SkModel SkSpec Cpx RhoModel RhoSpec InvModel InvSpec.
Import ListNotations.
Open Scope R_scope.

(** ** sums over permuted indices *)
Lemma permutes_list n s : permutes n s -> Permutation (map s (seq 0 n)) (seq 0 n).
Proof.
  intros [A B]. apply NoDup_Permutation_bis.
  - assert (C : forall l, NoDup l -> (forall i, In i l -> (i < n)%nat) -> NoDup (map s l)).
    { induction l as [|x l IH]; intros N I; [constructor|]. inversion N; subst. constructor; [|apply IH; [assumption|intros; apply I; right; assumption]].
      intros Q. apply in_map_iff in Q. destruct Q as (y & E & Iy). assert (y = x) by (apply B; [apply I; right; exact Iy|apply I; left; reflexivity|exact E]). subst. contradiction. }
    apply C; [apply seq_NoDup|intros i Hi; apply in_seq in Hi; lia].
  - rewrite map_length. lia.
  - intros y Hy. apply in_map_iff in Hy. destruct Hy as (x & <- & Ix). apply in_seq in Ix. apply in_seq. specialize (A x ltac:(lia)). lia.
Qed.
Definition listsum (l : list R) : R := fold_right Rplus 0 l.
Lemma listsum_perm l m : Permutation l m -> listsum l = listsum m.
Proof. intros P. unfold listsum. induction P; cbn [fold_right]; lra. Qed.
Lemma rsum_list n f : rsum n f = listsum (map f (seq 0 n)).
Proof.
  induction n as [|n IH]; [reflexivity|]. rewrite seq_S, map_app. cbn [rsum]. rewrite IH. unfold listsum. rewrite fold_right_app. cbn [map fold_right plus].
  generalize (f n + 0) (Rplus_0_r (f n)). intros y <-. generalize (map f (seq 0 n)). intros l. induction l as [|a l IHl]; cbn [fold_right]; lra.
Qed.
Lemma rsum_perm n s f : permutes n s -> rsum n (fun i => f (s i)) = rsum n f.
Proof.
  intros P. rewrite !rsum_list. apply listsum_perm. rewrite <- (map_map s f). apply Permutation_map. apply permutes_list; exact P.
Qed.
Lemma permutes_onto n s j : permutes n s -> (j < n)%nat -> exists i, (i < n)%nat /\ s i = j.
Proof.
  intros P Hj. assert (I : In j (map s (seq 0 n))). { apply (Permutation_in _ (Permutation_sym (permutes_list n s P))). apply in_seq. lia. }
  apply in_map_iff in I. destruct I as (i & E & Ii). apply in_seq in Ii. exists i. split; [lia|exact E].
Qed.
Lemma carried_sum n s u v : permutes n s -> carried n s u v -> rsum n v = rsum n u.
Proof. intros P C. rewrite <- (rsum_perm n s v P). apply rsum_ext. exact C. Qed.
Lemma carried_max n s u v : permutes n s -> carried n s u v -> maxabs n v = maxabs n u.
Proof.
  intros P C. destruct n as [|n]; [reflexivity|]. apply Rle_antisym.
  - destruct (maxabs_attained (S n) v ltac:(lia)) as (j & Hj & ->). destruct (permutes_onto _ s j P Hj) as (i & Hi & <-). rewrite (C i Hi). apply maxabs_ge. exact Hi.
  - destruct (maxabs_attained (S n) u ltac:(lia)) as (i & Hi & ->). rewrite <- (C i Hi). apply maxabs_ge. apply P. exact Hi.
Qed.
Lemma carried_op2 n s (h : R -> R -> R) u v u' v' : carried n s u v -> carried n s u' v' -> carried n s (fun k => h (u k) (u' k)) (fun k => h (v k) (v' k)).
Proof. intros A B i Hi. cbv beta. rewrite (A i Hi), (B i Hi). reflexivity. Qed.
Lemma carried_dot n s u v u' v' : permutes n s -> carried n s u v -> carried n s u' v' -> dot n v v' = dot n u u'.
Proof. intros P A B. unfold dot. apply (carried_sum n s); [exact P|apply (carried_op2 n s Rmult); assumption]. Qed.
Lemma carried_zero n s : carried n s (fun _ => 0) (fun _ => 0). Proof. intros i _. reflexivity. Qed.

(** ** mixers treat all atoms alike *)
Definition carried_rows n s (F F' : nat -> vec) : Prop := forall q, carried n s (F q) (F' q).
Lemma chopped_carried p n s u v xb xb' : permutes n s -> carried n s u v -> carried n s xb xb' -> carried n s (chopped p n u xb) (chopped p n v xb').
Proof.
  intros P A B. unfold chopped. rewrite (carried_max n s (fun k => xb k - u k) (fun k => xb' k - v k) P) by (apply (carried_op2 n s Rminus); assumption).
  destruct (chop p) as [c|]; [|exact B]. destruct (Rlt_dec _ _); [|exact B]. intros i Hi. rewrite (A i Hi), (B i Hi). reflexivity.
Qed.
Lemma a_sum_carried n s M c b b' F F' : carried n s b b' -> carried_rows n s F F' -> carried n s (a_sum M c b F) (a_sum M c b' F').
Proof. intros A B. induction M as [|M IH]; [exact A|]. intros i Hi. cbn [a_sum]. rewrite (IH i Hi), (B (S M) i Hi), (A i Hi). reflexivity. Qed.
Definition a_rel n s (x y : astate) : Prop := a_it x = a_it y /\ (a_it x <> 0%nat -> carried_rows n s (a_F x) (a_F y) /\ carried_rows n s (a_x x) (a_x y)) /\ a_fmax x = a_fmax y.
Lemma shift_carried n s k F F' : carried_rows n s F F' -> carried_rows n s (shift_rows k F) (shift_rows k F').
Proof. intros A q. unfold shift_rows. destruct (andb _ _); apply A. Qed.
Lemma set0_carried n s u v F F' : carried n s u v -> carried_rows n s F F' -> carried_rows n s (set_row0 u F) (set_row0 v F').
Proof. intros A B [|q]; [exact A|apply B]. Qed.
Lemma anderson_step n s sv p x y u v u' v' : permutes n s -> a_rel n s x y -> carried n s u v -> carried n s u' v' ->
  a_rel n s (fst (anderson sv p n x u u')) (fst (anderson sv p n y v v')) /\ fst (snd (anderson sv p n x u u')) = fst (snd (anderson sv p n y v v')) /\
  carried n s (snd (snd (anderson sv p n x u u'))) (snd (snd (anderson sv p n y v v'))).
Proof.
  intros P (E1 & E2 & E3) A B.
  assert (F1 : carried_rows n s (if (a_it x =? 0)%nat then zero_rows else a_F x) (if (a_it y =? 0)%nat then zero_rows else a_F y)).
  { rewrite <- E1. destruct (Nat.eqb_spec (a_it x) 0); [intros q; apply carried_zero|apply E2; assumption]. }
  assert (X1 : carried_rows n s (if (a_it x =? 0)%nat then zero_rows else a_x x) (if (a_it y =? 0)%nat then zero_rows else a_x y)).
  { rewrite <- E1. destruct (Nat.eqb_spec (a_it x) 0); [intros q; apply carried_zero|apply E2; assumption]. }
  unfold anderson. rewrite <- E1 in *. cbv zeta.
  set (F := set_row0 (fun k => u' k - u k) (if (a_it x =? 0)%nat then zero_rows else a_F x)) in *.
  set (F' := set_row0 (fun k => v' k - v k) (if (a_it x =? 0)%nat then zero_rows else a_F y)) in *.
  set (G := set_row0 u (if (a_it x =? 0)%nat then zero_rows else a_x x)) in *.
  set (G' := set_row0 v (if (a_it x =? 0)%nat then zero_rows else a_x y)) in *.
  assert (CF : carried_rows n s F F') by (apply set0_carried; [apply (carried_op2 n s Rminus); assumption|exact F1]).
  assert (CG : carried_rows n s G G') by (apply set0_carried; [assumption|exact X1]).
  assert (Em : a_mat n F' = a_mat n F).
  { apply functional_extensionality. intros i. apply functional_extensionality. intros j. unfold a_mat. apply (carried_dot n s); [exact P| |]; apply (carried_op2 n s Rminus); apply CF. }
  assert (Er : a_rhs n F' = a_rhs n F).
  { apply functional_extensionality. intros i. unfold a_rhs. apply (carried_dot n s); [exact P|apply (carried_op2 n s Rminus); apply CF|apply CF]. }
  rewrite Em, Er.
  assert (Ef : maxabs n (shift_rows (memory p) F' 0%nat) = maxabs n (shift_rows (memory p) F 0%nat)) by (apply (carried_max n s); [exact P|apply shift_carried; exact CF]).
  rewrite Ef. cbn [fst snd]. split; [|split; [reflexivity|]].
  - split; [reflexivity|]. split; [intros _; split; apply shift_carried; assumption|cbn [a_fmax]; rewrite E3; reflexivity].
  - apply chopped_carried; [exact P|exact A|]. destruct (if (Nat.min _ _ <=? 1)%nat then None else sv _ _ _) as [c|].
    + intros i Hi. unfold a_combine. rewrite (a_sum_carried n s _ c u v G G' A CG i Hi), (a_sum_carried n s _ c (F 0%nat) (F' 0%nat) F F' (CF 0%nat) CF i Hi). reflexivity.
    + intros i Hi. unfold simple_mix. rewrite (A i Hi), (B i Hi). reflexivity.
Qed.
Definition p_rel n s (x y : pstate) : Prop := p_it x = p_it y /\ (p_it x <> 0%nat -> carried_rows n s (p_R x) (p_R y) /\ carried_rows n s (p_rho x) (p_rho y)) /\
  p_A x = p_A y /\ p_alfa x = p_alfa y /\ p_fmax x = p_fmax y.
Lemma push_carried n s k u v F F' : carried n s u v -> carried_rows n s F F' -> carried_rows n s (push_row k u F) (push_row k v F').
Proof. intros A B [|q]; cbn [push_row]; [exact A|]. destruct (_ <? _)%nat; apply B. Qed.
Lemma pulay_step n s iv p x y u v u' v' : permutes n s -> p_rel n s x y -> carried n s u v -> carried n s u' v' ->
  p_rel n s (fst (pulay iv p n x u u')) (fst (pulay iv p n y v v')) /\ fst (snd (pulay iv p n x u u')) = fst (snd (pulay iv p n y v v')) /\
  carried n s (snd (snd (pulay iv p n x u u'))) (snd (snd (pulay iv p n y v v'))).
Proof.
  intros P (E1 & E2 & E3 & E4 & E5) A B.
  assert (F1 : carried_rows n s (if (p_it x =? 0)%nat then zero_rows else p_R x) (if (p_it y =? 0)%nat then zero_rows else p_R y)).
  { rewrite <- E1. destruct (Nat.eqb_spec (p_it x) 0); [intros q; apply carried_zero|apply E2; assumption]. }
  assert (X1 : carried_rows n s (if (p_it x =? 0)%nat then zero_rows else p_rho x) (if (p_it y =? 0)%nat then zero_rows else p_rho y)).
  { rewrite <- E1. destruct (Nat.eqb_spec (p_it x) 0); [intros q; apply carried_zero|apply E2; assumption]. }
  unfold pulay. rewrite <- E1, <- E3, <- E4, <- E5 in *. cbv zeta. set (lim := Nat.min (S (p_it x)) (memory p)).
  set (G := push_row lim u (if (p_it x =? 0)%nat then zero_rows else p_rho x)) in *.
  set (G' := push_row lim v (if (p_it x =? 0)%nat then zero_rows else p_rho y)) in *.
  set (F := push_row lim (fun k => u' k - u k) (if (p_it x =? 0)%nat then zero_rows else p_R x)) in *.
  set (F' := push_row lim (fun k => v' k - v k) (if (p_it x =? 0)%nat then zero_rows else p_R y)) in *.
  assert (CF : carried_rows n s F F') by (apply push_carried; [apply (carried_op2 n s Rminus); assumption|exact F1]).
  assert (CG : carried_rows n s G G') by (apply push_carried; [assumption|exact X1]).
  assert (Em : (fun i j => if andb (i <? lim) (j <? lim) then dot n (F' j) (F' i) else p_A x i j) = (fun i j => if andb (i <? lim) (j <? lim) then dot n (F j) (F i) else p_A x i j)).
  { apply functional_extensionality. intros i. apply functional_extensionality. intros j. destruct (andb _ _); [apply (carried_dot n s); [exact P|apply CF|apply CF]|reflexivity]. }
  rewrite Em. assert (Ef : maxabs n (F' 0%nat) = maxabs n (F 0%nat)) by (apply (carried_max n s); [exact P|apply CF]). rewrite Ef.
  destruct (iv lim _) as [Bm|]; cbn [fst snd]; (split; [split; [reflexivity|]; split; [intros _; split; assumption|]; split; [reflexivity|]; split; reflexivity|]; split; [reflexivity|]; apply chopped_carried; [exact P|exact A|]).
  - intros k Hk. apply rsum_ext. intros i Hi. rewrite (CG i k Hk), (CF i k Hk). reflexivity.
  - intros i Hi. unfold simple_mix. rewrite (A i Hi), (B i Hi). reflexivity.
Qed.
(** a relation of mixer states kept by every call *)
Record simulates n s (m : mixer) (rel : mst m -> mst m -> Prop) : Prop := {
  sim_reset : forall x y, rel x y -> rel (m_reset m x) (m_reset m y);
  sim_call : forall x y u v u' v', rel x y -> carried n s u v -> carried n s u' v' ->
    rel (fst (m_call m x u u')) (fst (m_call m y v v')) /\ fst (snd (m_call m x u u')) = fst (snd (m_call m y v v')) /\
    carried n s (snd (snd (m_call m x u u'))) (snd (snd (m_call m y v v'))) }.
Lemma fresh_simulates n s m ms : permutes n s -> fresh n m ms -> exists rel, simulates n s m rel /\ rel ms ms.
Proof.
  intros P F. destruct F as [sv p|iv p|].
  - exists (a_rel n s). split; [split|].
    + intros x y (E1 & E2 & E3). split; [reflexivity|]. split; [intros C; elim C; reflexivity|reflexivity].
    + intros. apply anderson_step; assumption.
    + split; [reflexivity|]. split; [intros C; elim C; reflexivity|reflexivity].
  - exists (p_rel n s). split; [split|].
    + intros x y (E1 & E2 & E3 & E4 & E5). split; [reflexivity|]. split; [intros C; elim C; reflexivity|]. split; [exact E3|]. split; [exact E4|reflexivity].
    + intros. apply pulay_step; assumption.
    + split; [reflexivity|]. split; [intros C; elim C; reflexivity|]. split; [reflexivity|]. split; reflexivity.
  - exists (fun _ _ => True). split; [split|exact I].
    + intros; exact I.
    + intros x y u v u' v' _ A B. cbn. split; [exact I|]. split; [reflexivity|exact B].
Qed.
