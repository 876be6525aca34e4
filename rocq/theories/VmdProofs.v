From Coq Require Import Reals List Bool Arith Lia Lra.
From Verif Require Import VmdModel VmdSpec.
Import ListNotations.
Open Scope R_scope.

Lemma fold_concat (l : list (list R)) : forall x, fold_left (fun x v => x ++ v) l x = x ++ concat l.
Proof. induction l as [|v l IH]; intros x; cbn [fold_left concat]; [rewrite app_nil_r; reflexivity|]. rewrite IH, app_assoc. reflexivity. Qed.
(** whatever is returned has the same components *)
Lemma components_kept v mode w : select_vector_mode v mode = VmOk w -> components w = components v.
Proof.
  destruct v as [[|x l]|a], mode; cbn [select_vector_mode]; intros e; try discriminate; try (injection e as <-; reflexivity).
  - injection e as <-. cbn [components concat]. apply fold_concat.
  - destruct (negb _) in e; discriminate.
Qed.
Lemma to_array l : l <> [] -> select_vector_mode (VecList l) MGlobal = VmOk (VecArray (concat l)).
Proof. destruct l as [|x l]; [congruence|]. intros _. cbn [select_vector_mode concat]. rewrite fold_concat. reflexivity. Qed.
Lemma unchanged v : (forall l, v = VecList l -> select_vector_mode v MDefault = VmOk v) /\ (forall a, v = VecArray a -> select_vector_mode v MGlobal = VmOk v).
Proof. split; intros ? ->; [destruct l|]; reflexivity. Qed.
(** arrays are never changed into lists *)
Lemma to_list_fails a : exists e, select_vector_mode (VecArray a) MDefault = VmFail e.
Proof. cbn [select_vector_mode]. destruct (negb _); eauto. Qed.
Lemma to_list_refuted : exists l a, select_vector_mode (VecList l) MGlobal = VmOk (VecArray a) /\ length a = 6%nat /\ select_vector_mode (VecArray a) MDefault = VmFail VmType.
Proof. exists [[1; 2; 3]; [4; 5; 6]], [1; 2; 3; 4; 5; 6]. repeat split. Qed.
Lemma norm_len a : norm a = len a.
Proof.
  unfold norm, len. f_equal. assert (G : forall s, fold_left (fun s x => s + x * x) a s = s + fold_right (fun x s => x ^ 2 + s) 0 a); [|rewrite G; ring].
  induction a as [|x a IH]; intros s; cbn [fold_left fold_right]; [ring|]. rewrite IH. ring.
Qed.
Lemma max_gen l : forall m, m <= fold_left (fun mx v => Rmax mx (norm v)) l m /\ (forall v, In v l -> norm v <= fold_left (fun mx v => Rmax mx (norm v)) l m) /\
  (fold_left (fun mx v => Rmax mx (norm v)) l m = m \/ exists v, In v l /\ norm v = fold_left (fun mx v => Rmax mx (norm v)) l m).
Proof.
  induction l as [|v l IH]; intros m; cbn [fold_left]; [split; [lra|split; [intros v []|left; reflexivity]]|].
  destruct (IH (Rmax m (norm v))) as [h1 [h2 h3]]. pose proof (Rmax_l m (norm v)). pose proof (Rmax_r m (norm v)). split; [lra|]. split; [intros w [<-|hw]; [lra|auto]|].
  destruct h3 as [h3|[w [a b]]]; [|right; exists w; split; [right; exact a|exact b]]. rewrite h3. unfold Rmax. destruct (Rle_dec m (norm v)); [right; exists v; split; [left; reflexivity|reflexivity]|left; reflexivity].
Qed.
(** the largest length, zero without vectors *)
Lemma max_norm_spec l : (forall v, In v l -> len v <= max_norm l) /\ (l = [] -> max_norm l = 0) /\ (l <> [] -> exists v, In v l /\ len v = max_norm l).
Proof.
  destruct (max_gen l 0) as [h1 [h2 h3]]. fold (max_norm l) in *. split; [intros v hv; rewrite <- norm_len; apply h2, hv|]. split; [intros ->; reflexivity|]. intros hn. destruct h3 as [h3|[v [a b]]]; [|exists v; rewrite <- norm_len; auto].
  destruct l as [|v l]; [congruence|]. exists v. split; [left; reflexivity|]. rewrite <- norm_len. specialize (h2 v (or_introl eq_refl)). pose proof (sqrt_pos (fold_left (fun s x => s + x * x) v 0)) as P. fold (norm v) in P. lra.
Qed.
Example ex_vectors : select_vector_mode (VecList [[1; 2; 3]; [4; 5; 6]]) MGlobal = VmOk (VecArray [1; 2; 3; 4; 5; 6]) /\ select_vector_mode (VecArray [1; 2; 3; 4; 5; 6]) MDefault = VmFail VmType.
Proof. split; reflexivity. Qed.
