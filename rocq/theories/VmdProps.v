From Coq Require Import Reals List Bool Arith.
From Verif Require Import VmdModel VmdSpec VmdProofs.
Import ListNotations.
Open Scope R_scope.

(** C202: lists of vectors.  Case: ex_vectors *)
Theorem C202_components :
  forall (v : vecs) (mode : vmode) (w : vecs), select_vector_mode v mode = VmOk w -> components w = components v.
Proof. exact components_kept. Qed.
Theorem C202_to_array :
  forall l : list (list R), l <> [] -> select_vector_mode (VecList l) MGlobal = VmOk (VecArray (concat l)).
Proof. exact to_array. Qed.
Theorem C202_unchanged :
  forall v : vecs,
  (forall l : list (list R), v = VecList l -> select_vector_mode v MDefault = VmOk v) /\
  (forall a : list R, v = VecArray a -> select_vector_mode v MGlobal = VmOk v).
Proof. exact unchanged. Qed.
Theorem C202_to_list_fails :
  forall a : list R, exists e : vmerror, select_vector_mode (VecArray a) MDefault = VmFail e.
Proof. exact to_list_fails. Qed.
Theorem C202_to_list_refuted :
  exists (l : list (list R)) (a : list R),
    select_vector_mode (VecList l) MGlobal = VmOk (VecArray a) /\ length a = 6%nat /\ select_vector_mode (VecArray a) MDefault = VmFail VmType.
Proof. exact to_list_refuted. Qed.
Theorem C202_max_norm :
  forall l : list (list R),
  (forall v : list R, In v l -> len v <= max_norm l) /\
  (l = [] -> max_norm l = 0) /\ (l <> [] -> exists v : list R, In v l /\ len v = max_norm l).
Proof. exact max_norm_spec. Qed.
Print Assumptions C202_components.
Print Assumptions C202_to_array.
Print Assumptions C202_unchanged.
Print Assumptions C202_to_list_fails.
Print Assumptions C202_to_list_refuted.
Print Assumptions C202_max_norm.
