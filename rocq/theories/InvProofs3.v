From Coq Require Import Reals ZArith List Bool Arith Lia Lra FunctionalExtensionality.
From Verif Require Import Vec GeomModel MixModel OccModel SkModel SkSpec Cpx RhoModel RhoSpec RhoProofs EigModel EigSpec EigProofs2 InvModel InvSpec InvLin InvProofs InvProofs2.
Import ListNotations.
Open Scope R_scope.

Lemma owns_belongs o1 no I mu : owns o1 no I mu = true <-> belongs o1 no mu I.
Proof. unfold owns, belongs. rewrite andb_true_iff, Nat.leb_le, Nat.ltb_lt. reflexivity. Qed.
Lemma atom_sum_owns norb N o1 no a I : layout norb N o1 no -> (I < N)%nat -> atom_sum o1 no a I = rsum norb (fun i => if owns o1 no I i then a i else 0).
Proof.
  intros L HI. pose proof L as (Lo & Ln). assert (B : (o1 I + no I <= norb)%nat).
  { rewrite (Lo I HI), Ln. pose proof (nsum_le (S I) N no ltac:(lia)) as Q. cbn [nsum] in Q. exact Q. }
  unfold atom_sum. replace norb with (o1 I + (no I + (norb - o1 I - no I)))%nat by lia. rewrite !rsum_split.
  rewrite (rsum_eq0 (o1 I)). 2: { intros i Hi. unfold owns. rewrite (proj2 (Nat.leb_gt (o1 I) i)) by lia. reflexivity. }
  rewrite (rsum_eq0 (norb - o1 I - no I)). 2: { intros i Hi. unfold owns. rewrite (proj2 (Nat.ltb_ge (o1 I + (no I + i)) (o1 I + no I))) by lia. rewrite andb_false_r. reflexivity. }
  rewrite Rplus_0_l, Rplus_0_r. apply rsum_ext. intros i Hi. unfold owns. rewrite (proj2 (Nat.leb_le (o1 I) (o1 I + i))) by lia. rewrite (proj2 (Nat.ltb_lt (o1 I + i) (o1 I + no I))) by lia. reflexivity.
Qed.
Definition atr (X : system) (I : nat) (A B : nat -> nat -> cplx) : cplx := csum (s_norb X) (fun i => if owns (s_o1 X) (s_no X) I i then mmul (s_norb X) A B i i else c0).
Lemma fst_if (b : bool) (x y : cplx) : fst (if b then x else y) = if b then fst x else fst y. Proof. destruct b; reflexivity. Qed.
Lemma dq_atr (X : system) rho S I : layout (s_norb X) (s_N X) (s_o1 X) (s_no X) -> (I < s_N X)%nat ->
  dq_of (s_norb X) (s_nk X) (s_o1 X) (s_no X) (s_val X) (s_wk X) rho S I = rsum (s_nk X) (fun k => s_wk X k * fst (atr X I (rho k) (S k))) - s_val X I.
Proof.
  intros L HI. unfold dq_of. rewrite (atom_sum_owns (s_norb X) (s_N X)) by assumption. f_equal.
  rewrite (rsum_ext _ _ (fun i => rsum (s_nk X) (fun k => if owns (s_o1 X) (s_no X) I i then s_wk X k * diag_k (s_norb X) (rho k) (S k) i else 0))).
  - rewrite rsum_swap. apply rsum_ext. intros k _. unfold atr. rewrite csum_fst, <- rsum_scal. apply rsum_ext. intros i _. rewrite fst_if. destruct (owns _ _ _ _); [reflexivity|cbn [c0 fst]; ring].
  - intros i _. destruct (owns _ _ _ _); [reflexivity|]. symmetry. apply rsum_zero.
Qed.
Lemma force_atr (X : system) dH dS rho rhoe I : layout (s_norb X) (s_N X) (s_o1 X) (s_no X) -> (I < s_N X)%nat ->
  band_structure_force (s_norb X) (s_nk X) (s_o1 X) (s_no X) (s_wk X) dH dS rho rhoe I =
  2 * rsum (s_nk X) (fun k => - s_wk X k * (fst (atr X I (dH k) (rho k)) - fst (atr X I (dS k) (rhoe k)))).
Proof.
  intros L HI. unfold band_structure_force. f_equal. change (rsum (s_no X I) (fun m => fst (fdiag (s_norb X) (s_nk X) (s_wk X) dH dS rho rhoe (s_o1 X I + m)%nat)))
    with (atom_sum (s_o1 X) (s_no X) (fun i => fst (fdiag (s_norb X) (s_nk X) (s_wk X) dH dS rho rhoe i)) I).
  rewrite (atom_sum_owns (s_norb X) (s_N X)) by assumption.
  rewrite (rsum_ext _ _ (fun i => rsum (s_nk X) (fun k => if owns (s_o1 X) (s_no X) I i then - s_wk X k * (fst (mmul (s_norb X) (dH k) (rho k) i i) - fst (mmul (s_norb X) (dS k) (rhoe k) i i)) else 0))).
  - rewrite rsum_swap. apply rsum_ext. intros k _. unfold atr. rewrite !csum_fst, <- rsum_minus, <- rsum_scal. apply rsum_ext. intros i _. rewrite !fst_if. destruct (owns _ _ _ _); [reflexivity|cbn [c0 fst]; ring].
  - intros i _. destruct (owns _ _ _ _); [|symmetry; apply rsum_zero]. unfold fdiag. rewrite csum_fst. apply rsum_ext. intros k _. unfold cscale. cbn [fst]. f_equal.
    unfold mmul. rewrite !csum_fst, <- rsum_minus. apply rsum_ext. intros j _. reflexivity.
Qed.
Lemma atr_ext X I A A' B B' : meq (s_norb X) A A' -> meq (s_norb X) B B' -> atr X I A B = atr X I A' B'.
Proof. intros H K. unfold atr. apply csum_ext'. intros i Hi. destruct (owns _ _ _ _); [apply mmul_ext; assumption|reflexivity]. Qed.

Section Alike.
Context (s : nat -> nat) (T : nat -> nat -> nat -> cplx) (Q : nat -> nat -> R) (X Y : system).
Context (EQ : equivalent s T Q X Y) (PX : proper X).
Context (z z' : lapack) (w0 w0' : nat -> nat -> R) (evmin evmin' : (nat -> nat -> cplx) -> R).
Context (RX : reliable z w0 X) (RY : reliable z' w0' Y).
Context (MAXE : R) (brentq : (R -> R) -> R -> R -> R -> option R) (tol_norm tol_mull tol_im Hartree Bohr : R) (Ht : 0 <= tol_norm).
Let n := s_norb X.
Let N := s_N X.
Let nk := s_nk X.
Lemma same_atom k i j : (k < nk)%nat -> (i < n)%nat -> (j < n)%nat -> T k i j <> c0 ->
  exists I, (I < N)%nat /\ belongs (s_o1 X) (s_no X) j I /\ belongs (s_o1 Y) (s_no Y) i (s I).
Proof.
  intros Hk Hi Hj E. destruct (belongs_exists _ _ _ _ j (q_layX _ _ _ _ _ EQ) Hj) as (I & HI & BI).
  assert (Hi' : (i < s_norb Y)%nat) by (rewrite (q_norb _ _ _ _ _ EQ); exact Hi).
  destruct (belongs_exists _ _ _ _ i (q_layY _ _ _ _ _ EQ) Hi') as (J & HJ & BJ). rewrite (q_N _ _ _ _ _ EQ) in HJ.
  exists I. split; [exact HI|]. split; [exact BI|]. destruct (Nat.eq_dec J (s I)) as [<-|Ne]; [exact BJ|]. exfalso. apply E. apply (q_atoms _ _ _ _ _ EQ k i j I J); assumption.
Qed.
Lemma sI_lt I : (I < N)%nat -> (s I < s_N Y)%nat.
Proof. intros H. rewrite (q_N _ _ _ _ _ EQ). apply (q_perm _ _ _ _ _ EQ). exact H. Qed.
Lemma owns_alike k i j I : (k < nk)%nat -> (I < N)%nat -> (i < n)%nat -> (j < n)%nat -> T k i j <> c0 -> owns (s_o1 Y) (s_no Y) (s I) i = owns (s_o1 X) (s_no X) I j.
Proof.
  intros Hk HI Hi Hj E. destruct (same_atom k i j Hk Hi Hj E) as (J & HJ & B & B').
  destruct (Nat.eq_dec I J) as [->|Ne]; [rewrite (proj2 (owns_belongs _ _ _ _) B), (proj2 (owns_belongs _ _ _ _) B'); reflexivity|].
  destruct (owns (s_o1 X) (s_no X) I j) eqn:O1.
  - exfalso. apply Ne. apply owns_belongs in O1. exact (belongs_unique _ _ _ _ j I J (q_layX _ _ _ _ _ EQ) HI HJ O1 B).
  - destruct (owns (s_o1 Y) (s_no Y) (s I) i) eqn:O2; [|reflexivity]. exfalso. apply Ne. apply owns_belongs in O2.
    assert (s I = s J) by (apply (belongs_unique _ _ _ _ i (s I) (s J) (q_layY _ _ _ _ _ EQ)); [apply sI_lt; exact HI|apply sI_lt; exact HJ|exact O2|exact B']).
    apply (proj2 (q_perm _ _ _ _ _ EQ)); assumption.
Qed.
Lemma atr_alike k I A B A' B' : (k < nk)%nat -> (I < N)%nat -> meq n A' (transported n (T k) A) -> meq n B' (transported n (T k) B) -> atr Y (s I) A' B' = atr X I A B.
Proof.
  intros Hk HI EA EB. unfold atr. rewrite (q_norb _ _ _ _ _ EQ). fold n.
  rewrite (csum_ext' n _ (fun i => if owns (s_o1 Y) (s_no Y) (s I) i then mmul n (transported n (T k) A) (transported n (T k) B) i i else c0)) by (intros i Hi; destruct (owns _ _ _ _); [apply mmul_ext; assumption|reflexivity]).
  apply (block_trace n (T k) (q_T _ _ _ _ _ EQ k Hk)). intros i j Hi Hj E. exact (owns_alike k i j I Hk HI Hi Hj E).
Qed.
(** ** the potential *)
Lemma aux_alike k i j u v : carried N s u v -> (k < nk)%nat -> (i < n)%nat -> (j < n)%nat -> T k i j <> c0 ->
  aux_rows (s_o1 Y) (s_no Y) (s_N Y) v i = aux_rows (s_o1 X) (s_no X) (s_N X) u j.
Proof.
  intros C Hk Hi Hj E. destruct (same_atom k i j Hk Hi Hj E) as (I & HI & B & B').
  rewrite (aux_rows_value (s_norb X) (s_N X) _ _ u j I (q_layX _ _ _ _ _ EQ) HI B).
  rewrite (aux_rows_value (s_norb Y) (s_N Y) _ _ v i (s I) (q_layY _ _ _ _ _ EQ) (sI_lt I HI) B'). apply C. exact HI.
Qed.
Lemma ext_alike : existsb (fun I => ltb (/ 10 ^ 12) (Rabs (s_ext Y I))) (seq 0 (s_N Y)) = existsb (fun I => ltb (/ 10 ^ 12) (Rabs (s_ext X I))) (seq 0 (s_N X)).
Proof.
  rewrite (q_N _ _ _ _ _ EQ). fold N. apply eq_true_iff_eq. rewrite !existsb_exists. split.
  - intros (J & HJ & E). apply in_seq in HJ. destruct (permutes_onto N s J (q_perm _ _ _ _ _ EQ) ltac:(lia)) as (I & HI & <-). exists I. split; [apply in_seq; lia|]. rewrite <- (q_ext _ _ _ _ _ EQ I HI). exact E.
  - intros (I & HI & E). apply in_seq in HI. exists (s I). split; [apply in_seq; assert (HN : (I < N)%nat) by lia; pose proof (proj1 (q_perm _ _ _ _ _ EQ) I HN) as HS; fold N in HS; lia|]. rewrite (q_ext _ _ _ _ _ EQ I) by (fold N; lia). exact E.
Qed.
Lemma eps_alike u v : carried N s u v -> carried N s (epsilon (s_N X) (s_G X) (s_phi X u) u) (epsilon (s_N Y) (s_G Y) (s_phi Y v) v).
Proof.
  intros C I HI. unfold epsilon. rewrite (q_phi _ _ _ _ _ EQ u v C I HI). f_equal. rewrite (q_N _ _ _ _ _ EQ). fold N.
  rewrite <- (rsum_perm N s (fun J => s_G Y (s I) J * v J) (q_perm _ _ _ _ _ EQ)). apply rsum_ext. intros J HJ. rewrite (C J HJ), (q_G _ _ _ _ _ EQ I J HI HJ). reflexivity.
Qed.
Definition matched (h h' : nat -> nat -> R) : Prop := forall k i j l m, (k < nk)%nat -> (i < n)%nat -> (j < n)%nat -> (l < n)%nat -> (m < n)%nat -> T k i j <> c0 -> T k l m <> c0 -> h' i l = h j m.
Lemma h1_alike u v : carried N s u v -> matched (h1_of X u) (h1_of Y v).
Proof.
  intros C k i j l m Hk Hi Hj Hl Hm E1 E2. unfold h1_of, construct_h1. rewrite ext_alike.
  rewrite (aux_alike k i j _ _ (eps_alike u v C) Hk Hi Hj E1), (aux_alike k l m _ _ (eps_alike u v C) Hk Hl Hm E2).
  rewrite (aux_alike k i j _ _ (q_ext _ _ _ _ _ EQ) Hk Hi Hj E1), (aux_alike k l m _ _ (q_ext _ _ _ _ _ EQ) Hk Hl Hm E2). reflexivity.
Qed.
Lemma h1_sym (Z : system) u i j : h1_of Z u i j = h1_of Z u j i.
Proof. unfold h1_of, construct_h1. destruct (existsb _ _); ring. Qed.
Lemma proper_Y : proper Y.
Proof.
  destruct PX as [A B]. split; intros k Hk; rewrite (q_nk _ _ _ _ _ EQ) in Hk; rewrite (q_norb _ _ _ _ _ EQ); intros i j Hi Hj.
  - rewrite !(q_H0 _ _ _ _ _ EQ k) by assumption. apply hermitian_carried; try assumption. apply A; exact Hk.
  - rewrite !(q_S _ _ _ _ _ EQ k) by assumption. apply hermitian_carried; try assumption. apply B; exact Hk.
Qed.
(** ** one pass *)
Record alike (p p' : passed) : Prop := {
  l_h : matched (fst (fst p)) (fst (fst p'));
  l_e : forall k a, (k < nk)%nat -> (a < n)%nat -> snd (fst p') k a = snd (fst p) k a;
  l_rho : forall (phi : R -> R) k i l, (k < nk)%nat -> (i < n)%nat -> (l < n)%nat ->
    compute_rho n (snd p' k) (fun a => phi (snd (fst p') k a)) i l = transported n (T k) (compute_rho n (snd p k) (fun a => phi (snd (fst p) k a))) i l }.
Lemma solve_one (Z : system) zz ww ev H1 : proper Z -> reliable zz ww Z -> (forall h, H1 = Some h -> forall i j, h i j = h j i) ->
  exists e wf, all_k zz (s_norb Z) (s_nk Z) tol_norm ev ww (s_H0 Z) (s_S Z) H1 = inr (e, wf) /\ orthonormal (s_norb Z) (s_nk Z) (s_S Z) wf /\
    (forall k, (k < s_nk Z)%nat -> solves (s_norb Z) (fun i j => cadd (s_H0 Z k i j) (cscale (match H1 with Some h => h | None => fun _ _ => 0 end i j) (s_S Z k i j))) (s_S Z k) (wf k) (e k)) /\
    forall k, (k < s_nk Z)%nat -> sorted (s_norb Z) (e k).
Proof.
  intros [A B] [C R] Sym. destruct (all_k_spec zz (s_norb Z) (s_nk Z) tol_norm ev ww (s_H0 Z) (s_S Z) H1 C A B Ht) as (e & wf & E & O & W & So).
  - intros h Eh i j _ _. exact (Sym h Eh i j).
  - intros k Hk. apply R; [exact Hk|]. intros i j Hi Hj. unfold hamiltonian. destruct H1 as [h|]; [|apply A; assumption].
    rewrite (A k Hk i j Hi Hj), (B k Hk i j Hi Hj), (Sym h eq_refl i j), !cscale_rc, cconj_add, cconj_mul, cconj_rc. reflexivity.
  - exists e, wf. split; [exact E|]. split; [exact O|]. split; [intros k Hk; apply states_of_eigenstate; intros a Ha; apply W; assumption|intros k Hk a b Ha Hb; apply So; assumption].
Qed.
Lemma pass_alike H1 H1' : (forall h, H1 = Some h -> forall i j, h i j = h j i) -> (forall h, H1' = Some h -> forall i j, h i j = h j i) ->
  matched (match H1 with Some h => h | None => fun _ _ => 0 end) (match H1' with Some h => h | None => fun _ _ => 0 end) ->
  exists p p', pass z evmin w0 tol_norm X H1 = Some p /\ pass z' evmin' w0' tol_norm Y H1' = Some p' /\ alike p p'.
Proof.
  intros Sx Sy M. destruct (solve_one X z w0 evmin H1 PX RX Sx) as (e & wf & E & O & W & So). destruct (solve_one Y z' w0' evmin' H1' proper_Y RY Sy) as (e' & wf' & E' & O' & W' & So').
  unfold pass. rewrite E, E'. eexists _, _. split; [reflexivity|]. split; [reflexivity|].
  set (h := match H1 with Some h => h | None => fun _ _ => 0 end) in *. set (h' := match H1' with Some h => h | None => fun _ _ => 0 end) in *.
  assert (K : forall k, (k < nk)%nat -> (forall a, (a < n)%nat -> e' k a = e k a) /\
    forall (phi : R -> R) i l, (i < n)%nat -> (l < n)%nat -> compute_rho n (wf' k) (fun a => phi (e' k a)) i l = transported n (T k) (compute_rho n (wf k) (fun a => phi (e k a))) i l).
  { intros k Hk. assert (Hk' : (k < s_nk Y)%nat) by (rewrite (q_nk _ _ _ _ _ EQ); exact Hk).
    assert (En := q_norb _ _ _ _ _ EQ). fold n in En.
    assert (W2 := W' k Hk'). assert (So2 := So' k Hk'). assert (O2 : orthoset (s_norb Y) (s_S Y k) (wf' k)) by (intros a b Ha Hb; apply O'; assumption). rewrite En in W2, So2, O2.
    destruct PX as [PH PS].
    assert (HH : hermitian n (fun i j => cadd (s_H0 X k i j) (cscale (h i j) (s_S X k i j)))).
    { intros i j Hi Hj. rewrite (PH k Hk i j Hi Hj), (PS k Hk i j Hi Hj). replace (h i j) with (h j i) by (unfold h; destruct H1 as [g|]; [apply (Sx g eq_refl)|reflexivity]).
      rewrite !cscale_rc, cconj_add, cconj_mul, cconj_rc. reflexivity. }
    apply (solved_alike n (T k) (fun i j => cadd (s_H0 X k i j) (cscale (h i j) (s_S X k i j))) (s_S X k) (fun i j => cadd (s_H0 Y k i j) (cscale (h' i j) (s_S Y k i j))) (s_S Y k) (wf k) (e k) (wf' k) (e' k) (q_T _ _ _ _ _ EQ k Hk) HH (PS k Hk)); try assumption.
    - intros i l Hi Hl. rewrite (q_H0 _ _ _ _ _ EQ k i l Hk Hi Hl), (q_S _ _ _ _ _ EQ k i l Hk Hi Hl). fold n.
      rewrite <- (weighted_carried n (T k) h h' (s_S X k) i l Hi Hl) by (intros i0 j0 l0 m0 ? ? ? ?; apply M; assumption).
      unfold transported. rewrite <- csum_add. apply csum_ext'. intros j _. rewrite <- csum_add. apply csum_ext'. intros; ring.
    - intros i l Hi Hl. exact (q_S _ _ _ _ _ EQ k i l Hk Hi Hl).
    - intros a b Ha Hb. apply O; assumption.
    - exact (W k Hk).
    - exact (So k Hk). }
  split.
  - exact M.
  - intros k a Hk Ha. exact (proj1 (K k Hk) a Ha).
  - intros phi k i l Hk Hi Hl. exact (proj2 (K k Hk) phi i l Hi Hl).
Qed.
(** ** occupations and charges *)
Lemma eflat_alike p p' : alike p p' -> eflat (s_nk Y) (s_norb Y) (snd (fst p')) = eflat (s_nk X) (s_norb X) (snd (fst p)).
Proof.
  intros A. rewrite (q_nk _ _ _ _ _ EQ), (q_norb _ _ _ _ _ EQ). fold n nk. unfold eflat. rewrite !flat_map_concat_map. f_equal. apply map_ext_in. intros k Hk. apply in_seq in Hk.
  apply map_ext_in. intros a Ha. apply in_seq in Ha. apply (l_e _ _ A); lia.
Qed.
Lemma root_alike p p' : alike p p' -> root_function MAXE (s_nk Y) (s_norb Y) (s_wk Y) (s_width Y) (s_nel Y) (snd (fst p')) = root_function MAXE (s_nk X) (s_norb X) (s_wk X) (s_width X) (s_nel X) (snd (fst p)).
Proof.
  intros A. apply functional_extensionality. intros mu. unfold root_function, electrons. rewrite (q_nel _ _ _ _ _ EQ), (q_width _ _ _ _ _ EQ), (q_nk _ _ _ _ _ EQ), (q_norb _ _ _ _ _ EQ). f_equal.
  apply rsum_ext. intros k Hk. apply rsum_ext. intros a Ha. rewrite (q_wk _ _ _ _ _ EQ k Hk), (l_e _ _ A k a Hk Ha). reflexivity.
Qed.
Lemma occupations_alike p p' : alike p p' ->
  (occupations MAXE brentq X p = None /\ occupations MAXE brentq Y p' = None) \/
  exists phi, occupations MAXE brentq X p = Some (fun k a => phi (snd (fst p) k a)) /\ occupations MAXE brentq Y p' = Some (fun k a => phi (snd (fst p') k a)).
Proof.
  intros A. destruct p as [[h e] wf], p' as [[h' e'] wf']. unfold occupations, occupy, emin, emax. pose proof (eflat_alike _ _ A) as F. pose proof (root_alike _ _ A) as G. cbn [fst snd] in *. rewrite F, G.
  destruct (eflat _ _ e) as [|x l]; [left; split; reflexivity|]. rewrite (q_width _ _ _ _ _ EQ).
  destruct (brentq _ _ _ _) as [mu|]; [|left; split; reflexivity]. destruct (rlt tol _); [left; split; reflexivity|]. right. exists (fun x => fermi MAXE (s_width X) x mu). split; reflexivity.
Qed.
Lemma dq_alike p p' phi : alike p p' ->
  carried N s (dq_of (s_norb X) (s_nk X) (s_o1 X) (s_no X) (s_val X) (s_wk X) (density X (snd p) (fun k a => phi (snd (fst p) k a))) (s_S X))
              (dq_of (s_norb Y) (s_nk Y) (s_o1 Y) (s_no Y) (s_val Y) (s_wk Y) (density Y (snd p') (fun k a => phi (snd (fst p') k a))) (s_S Y)).
Proof.
  intros A I HI. rewrite (dq_atr X) by (try exact HI; apply (q_layX _ _ _ _ _ EQ)). rewrite (dq_atr Y) by (try apply sI_lt; try exact HI; apply (q_layY _ _ _ _ _ EQ)).
  rewrite (q_val _ _ _ _ _ EQ I HI). f_equal. rewrite (q_nk _ _ _ _ _ EQ). apply rsum_ext. intros k Hk. rewrite (q_wk _ _ _ _ _ EQ k Hk). f_equal. f_equal. apply (atr_alike k); try assumption.
  - intros i l Hi Hl. unfold density. rewrite (q_norb _ _ _ _ _ EQ). apply (l_rho _ _ A); assumption.
  - intros i l Hi Hl. apply (q_S _ _ _ _ _ EQ); assumption.
Qed.
Lemma charges_alike p p' : alike p p' ->
  (charges MAXE brentq tol_mull X p = None /\ charges MAXE brentq tol_mull Y p' = None) \/
  exists u v, charges MAXE brentq tol_mull X p = Some u /\ charges MAXE brentq tol_mull Y p' = Some v /\ carried N s u v.
Proof.
  intros A. unfold charges. destruct (occupations_alike p p' A) as [[-> ->]|(phi & -> & ->)]; [left; split; reflexivity|].
  pose proof (dq_alike p p' phi A) as C. unfold mulliken. set (u := dq_of (s_norb X) _ _ _ _ _ _ _) in *. set (v := dq_of (s_norb Y) _ _ _ _ _ _ _) in *.
  assert (E : rsum (s_N Y) (fun I => - v I) = rsum (s_N X) (fun I => - u I)).
  { rewrite (q_N _ _ _ _ _ EQ). apply (carried_sum N s); [apply (q_perm _ _ _ _ _ EQ)|]. intros I HI. cbv beta. rewrite (C I HI). reflexivity. }
  cbv zeta. rewrite E, (q_charge _ _ _ _ _ EQ). destruct (ltb _ _); [left; split; reflexivity|right; exists u, v; split; [reflexivity|]; split; [reflexivity|exact C]].
Qed.
End Alike.
