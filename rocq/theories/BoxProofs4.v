(** Paths of images, LEPS potential. *)
From Coq Require Import Reals ZArith List Bool Arith Lia Lra Psatz FunctionalExtensionality.
From Coquelicot Require Import Coquelicot.
From Verif Require Import Vec GeomModel BoxModel BoxSpec.
Import ListNotations.
Open Scope R_scope.

(** ** Writing to images *)
Definition writes (g : nat -> vec) (l : list nat) (p : path) : path := fold_left (fun p i => write p i (g i)) l p.
Lemma writes_frame g l p : h_M (writes g l p) = h_M p /\ h_addr (writes g l p) = h_addr p /\ h_lock (writes g l p) = h_lock p /\ h_pos2 (writes g l p) = h_pos2 p /\ h_lambdas (writes g l p) = h_lambdas p.
Proof. unfold writes. revert p. induction l as [|i l IH]; intros p; cbn [fold_left]; [repeat split|]. destruct (IH (write p i (g i))) as (A & B & C & D & F). rewrite A, B, C, D, F. repeat split. Qed.
Lemma writes_other g l p a : (forall i, In i l -> h_addr p i <> a) -> h_pos (writes g l p) a = h_pos p a.
Proof.
  unfold writes. revert p. induction l as [|i l IH]; intros p H; cbn [fold_left]; [reflexivity|]. rewrite IH.
  - cbn [write h_pos]. destruct (Nat.eqb_spec a (h_addr p i)) as [E|E]; [|reflexivity]. exfalso. apply (H i); [left; reflexivity|congruence].
  - intros j Hj. cbn [write h_addr]. apply H. right. exact Hj.
Qed.
Lemma writes_at g l p i : NoDup l -> In i l -> (forall j, In j l -> j <> i -> h_addr p j <> h_addr p i) -> h_pos (writes g l p) (h_addr p i) = g i.
Proof.
  revert p. induction l as [|k l IH]; intros p N Hi H; [contradiction|]. inversion N as [|? ? N1 N2]; subst. unfold writes. cbn [fold_left]. fold (writes g l (write p k (g k))).
  destruct (in_dec Nat.eq_dec i l) as [K|K].
  - change (h_addr p i) with (h_addr (write p k (g k)) i). apply IH; [exact N2|exact K|]. intros j Hj Nj. cbn [write h_addr]. apply H; [right; exact Hj|exact Nj].
  - destruct Hi as [->|Hi]; [|contradiction]. rewrite writes_other.
    + cbn [write h_pos]. rewrite Nat.eqb_refl. reflexivity.
    + intros j Hj. cbn [write h_addr]. apply H; [right; exact Hj|]. intros ->. contradiction.
Qed.
Lemma writes_last g l p i : (forall j, In j l -> h_addr p j = h_addr p i) -> h_pos (writes g (l ++ [i]) p) (h_addr p i) = g i.
Proof.
  intros H. unfold writes. rewrite fold_left_app. cbn [fold_left]. fold (writes g l p). cbn [write h_pos]. destruct (writes_frame g l p) as (_ & -> & _). rewrite Nat.eqb_refl. reflexivity.
Qed.
Definition line (p : path) (i : nat) : vec := fun c => positions p 0 c + INR i * 1.0 / (INR (h_M p) - 1.0) * (positions p (h_M p - 1) c - positions p 0 c).
Lemma interpolate_writes p : interpolate p = writes (line p) (seq 1 (h_M p - 2)) p.
Proof.
  unfold interpolate, writes. cbv zeta. assert (G : forall l q, h_M q = h_M p -> 
    fold_left (fun q i => write q i (fun c => positions p 0 c + INR i * 1.0 / (INR (h_M q) - 1.0) * (positions p (h_M p - 1) c - positions p 0 c))) l q = fold_left (fun q i => write q i (line p i)) l q).
  { induction l as [|i l IH]; intros q Hq; cbn [fold_left]; [reflexivity|]. rewrite Hq. rewrite IH; [reflexivity|exact Hq]. }
  apply G. reflexivity.
Qed.
Lemma line_ends p c : (2 <= h_M p)%nat -> line p 0 c = positions p 0 c /\ line p (h_M p - 1) c = positions p (h_M p - 1) c.
Proof.
  intros H. unfold line. replace 1.0 with 1 by lra. assert (2 <= INR (h_M p)) by (replace 2 with (INR 2) by (cbn; lra); apply le_INR; exact H). split; [cbn [INR]; field; lra|]. rewrite minus_INR by lia. cbn [INR]. field. lra.
Qed.
Lemma interpolate_at p i : separate p -> (2 <= h_M p)%nat -> (i < h_M p)%nat -> forall c, positions (interpolate p) i c = positions p 0 c + INR i / (INR (h_M p) - 1) * (positions p (h_M p - 1) c - positions p 0 c).
Proof.
  intros S H Hi c. transitivity (line p i c); [|unfold line; replace 1.0 with 1 by lra; assert (2 <= INR (h_M p)) by (replace 2 with (INR 2) by (cbn; lra); apply le_INR; exact H); field; lra].
  rewrite interpolate_writes. unfold positions at 1. destruct (writes_frame (line p) (seq 1 (h_M p - 2)) p) as (_ & -> & _).
  destruct (in_dec Nat.eq_dec i (seq 1 (h_M p - 2))) as [K|K].
  - rewrite writes_at; [reflexivity|apply seq_NoDup|exact K|]. intros j Hj Nj. apply in_seq in Hj. apply S; [lia|exact Hi|exact Nj].
  - rewrite writes_other.
    + destruct (line_ends p c H) as [A B]. assert (i = 0 \/ i = h_M p - 1)%nat as [->| ->] by (rewrite in_seq in K; lia); [rewrite A|rewrite B]; reflexivity.
    + intros j Hj. apply S; [apply in_seq in Hj; lia|exact Hi|]. intros ->. contradiction.
Qed.
Lemma interpolate_frame p : h_M (interpolate p) = h_M p /\ h_addr (interpolate p) = h_addr p /\ h_pos2 (interpolate p) = h_pos2 p.
Proof. rewrite interpolate_writes. destruct (writes_frame (line p) (seq 1 (h_M p - 2)) p) as (A & B & _ & D & _). auto. Qed.
Lemma interpolate_segments n p i : separate p -> (2 <= h_M p)%nat -> (i < h_M p - 1)%nat -> segment n (positions (interpolate p)) i = span n p / INR (h_M p - 1).
Proof.
  intros S H Hi. unfold segment, span. assert (P : 0 < INR (h_M p - 1)) by (apply lt_0_INR; lia).
  assert (EI : INR (h_M p) - 1 = INR (h_M p - 1)) by (rewrite minus_INR by lia; cbn [INR]; ring).
  rewrite (rsum_ext n _ (fun c => (/ INR (h_M p - 1)) ^ 2 * (positions p (h_M p - 1) c - positions p 0 c) ^ 2)).
  - rewrite rsum_scal, sqrt_mult; [rewrite sqrt_pow2 by (left; apply Rinv_0_lt_compat; exact P); unfold Rdiv; ring|apply pow2_ge_0|apply rsum_nonneg; intros; apply pow2_ge_0].
  - intros c _. rewrite !interpolate_at by (auto; lia). rewrite S_INR, EI. field. lra.
Qed.
(** ** setting positions *)
Lemma set_path_at p r i : separate p -> h_lock p = false -> (i < h_M p)%nat -> positions (set_path p r) i = r i.
Proof.
  intros S L Hi. unfold set_path. rewrite L. fold (writes r (seq 0 (h_M p)) p). unfold positions. destruct (writes_frame r (seq 0 (h_M p)) p) as (_ & -> & _). apply writes_at; [apply seq_NoDup|apply in_seq; lia|].
  intros j Hj Nj. apply in_seq in Hj. apply S; [lia|exact Hi|exact Nj].
Qed.
Lemma set_path_frame p r : h_M (set_path p r) = h_M p /\ h_addr (set_path p r) = h_addr p /\ h_lambdas (set_path p r) = h_lambdas p /\ h_lock (set_path p r) = h_lock p.
Proof. unfold set_path. destruct (h_lock p) eqn:L; [repeat split; exact L|]. fold (writes r (seq 0 (h_M p)) p). destruct (writes_frame r (seq 0 (h_M p)) p) as (A & B & C & _ & D). repeat split; congruence. Qed.
Lemma set_path_locked n p r : h_lock p = true -> (forall i, positions (set_path p r) i = positions p i) /\ (forall E, path_energy E (set_path p r) = path_energy E p) /\ (forall F k, path_force F n (set_path p r) k = path_force F n p k) /\
  forall i, deviations n (set_path p r) i = segment n r i - rsum (h_M p - 1) (segment n r) / INR (h_M p - 1).
Proof. intros L. unfold set_path. rewrite L. repeat split. Qed.
(** ** deviations *)
Lemma deviations_sum n p : (2 <= h_M p)%nat -> rsum (h_M p - 1) (deviations n p) = 0.
Proof. intros H. unfold deviations. rewrite rsum_minus, rsum_const. field. apply not_0_INR. lia. Qed.
Lemma deviations_zero n p : (2 <= h_M p)%nat -> h_pos2 p = None -> (forall i, (i < h_M p - 1)%nat -> deviations n p i = 0) <-> all_equal (h_M p - 1) (segment n (positions p)).
Proof.
  intros H N. unfold deviations. rewrite N. assert (Nz : INR (h_M p - 1) <> 0) by (apply not_0_INR; lia). split.
  - intros K i j Hi Hj. pose proof (K i Hi). pose proof (K j Hj). cbv beta zeta in *. lra.
  - intros K i Hi. rewrite (rsum_ext (h_M p - 1) (segment n (positions p)) (fun _ => segment n (positions p) i)) by (intros j Hj; apply K; assumption). rewrite rsum_const. field. exact Nz.
Qed.
Lemma interpolate_equal n p : separate p -> (2 <= h_M p)%nat -> all_equal (h_M p - 1) (segment n (positions (interpolate p))).
Proof. intros S H i j Hi Hj. rewrite !interpolate_segments by assumption. reflexivity. Qed.
(** the positions of a locked step are used for ever *)
Lemma stale_deviations n p r r' i : deviations n (set_path (lock_path false (set_path (lock_path true p) r)) r') i = segment n r i - rsum (h_M p - 1) (segment n r) / INR (h_M p - 1).
Proof.
  set (p1 := lock_path false (set_path (lock_path true p) r)). assert (L : h_lock p1 = false) by reflexivity. unfold set_path at 1. rewrite L. fold (writes r' (seq 0 (h_M p1)) p1). unfold deviations.
  destruct (writes_frame r' (seq 0 (h_M p1)) p1) as (-> & _ & _ & -> & _). reflexivity.
Qed.
(** ** images made by copying *)
Lemma interpolate_copied p i c : copied p -> (3 <= h_M p)%nat -> (i < h_M p - 1)%nat -> positions (interpolate p) i c = positions p 0 c + INR (h_M p - 2) / INR (h_M p - 1) * (positions p (h_M p - 1) c - positions p 0 c).
Proof.
  intros C H Hi. rewrite interpolate_writes. unfold positions at 1. destruct (writes_frame (line p) (seq 1 (h_M p - 2)) p) as (_ & -> & _).
  assert (E : seq 1 (h_M p - 2) = seq 1 (h_M p - 3) ++ [(h_M p - 2)%nat]). { replace (h_M p - 2)%nat with (S (h_M p - 3)) at 1 by lia. rewrite seq_S. f_equal. f_equal. lia. }
  rewrite E. destruct (C i Hi) as [-> _]. destruct (C (h_M p - 2)%nat ltac:(lia)) as [<- _]. rewrite writes_last.
  - unfold line. replace 1.0 with 1 by lra. replace (INR (h_M p) - 1) with (INR (h_M p - 1)); [|rewrite minus_INR by lia; cbn [INR]; lra]. field. apply not_0_INR. lia.
  - intros j Hj. apply in_seq in Hj. destruct (C j ltac:(lia)) as [-> _]. destruct (C (h_M p - 2)%nat ltac:(lia)) as [-> _]. reflexivity.
Qed.
(** ** constraint forces *)
Definition moved (r : nat -> vec) (k : nat) (u : vec) (t : R) : nat -> vec := fun i c => if (i =? k)%nat then r i c + t * u c else r i c.
Lemma D_norm n (a b : vec) : rsum n (fun c => a c ^ 2) <> 0 -> is_derive (fun t => sqrt (rsum n (fun c => (a c + t * b c) ^ 2))) 0 (rsum n (fun c => a c / sqrt (rsum n (fun c => a c ^ 2)) * b c)).
Proof.
  intros H. assert (P : 0 < rsum n (fun c => a c ^ 2)). { pose proof (rsum_nonneg n (fun c => a c ^ 2) (fun i _ => pow2_ge_0 _)). lra. }
  assert (D : is_derive (fun t => rsum n (fun c => (a c + t * b c) ^ 2)) 0 (rsum n (fun c => 2 * a c * b c))).
  { clear. induction n as [|n IH]; cbn [rsum]; [apply @is_derive_const|]. apply (is_derive_plus (V := R_NormedModule)); [exact IH|]. auto_derive; [exact I|]. ring. }
  assert (E0 : rsum n (fun c => (a c + 0 * b c) ^ 2) = rsum n (fun c => a c ^ 2)) by (apply rsum_ext; intros; f_equal; ring).
  pose proof (is_derive_sqrt (fun t => rsum n (fun c => (a c + t * b c) ^ 2)) 0 _ D) as Q. cbv beta in Q. rewrite E0 in Q. specialize (Q P). 
  eapply is_derive_ext in Q; [|intros t; reflexivity]. assert (S0 : 0 < sqrt (rsum n (fun c => a c ^ 2))) by (apply sqrt_lt_R0; exact P).
  replace (rsum n (fun c => a c / sqrt (rsum n (fun c0 => a c0 ^ 2)) * b c)) with (rsum n (fun c => 2 * a c * b c) / (2 * sqrt (rsum n (fun c => a c ^ 2)))); [exact Q|].
  set (s := sqrt _) in *. unfold Rdiv. rewrite <- rsum_scal_r. apply rsum_ext. intros i _. field. lra.
Qed.
Lemma D_seg_left n r k u i : S i = k -> segment n r i <> 0 -> is_derive (fun t => segment n (moved r k u t) i) 0 (rsum n (fun c => (r (S i) c - r i c) / segment n r i * u c)).
Proof.
  intros <- H. eapply is_derive_ext; [|apply (D_norm n (fun c => r (S i) c - r i c) u)].
  - intros t. cbv beta. unfold segment, moved. f_equal. apply rsum_ext. intros c _. rewrite Nat.eqb_refl. rewrite (proj2 (Nat.eqb_neq i (S i))) by lia. f_equal. ring.
  - intros E. apply H. unfold segment. rewrite E. apply sqrt_0.
Qed.
Lemma D_seg_right n r k u i : i = k -> segment n r i <> 0 -> is_derive (fun t => segment n (moved r k u t) i) 0 (- rsum n (fun c => (r (S i) c - r i c) / segment n r i * u c)).
Proof.
  intros <- H. replace (- rsum n _) with (rsum n (fun c => (r (S i) c - r i c) / sqrt (rsum n (fun c => (r (S i) c - r i c) ^ 2)) * - u c)).
  - eapply is_derive_ext; [|apply (D_norm n (fun c => r (S i) c - r i c) (fun c => - u c))].
    + intros t. cbv beta. unfold segment, moved. f_equal. apply rsum_ext. intros c _. rewrite Nat.eqb_refl. rewrite (proj2 (Nat.eqb_neq (S i) i)) by lia. f_equal. ring.
    + intros E. apply H. unfold segment. rewrite E. apply sqrt_0.
  - rewrite <- rsum_opp. apply rsum_ext. intros c _. unfold segment. ring.
Qed.
Lemma seg_other n r k u i t : i <> k -> S i <> k -> segment n (moved r k u t) i = segment n r i.
Proof. intros A B. unfold segment, moved. f_equal. apply rsum_ext. intros c _. rewrite (proj2 (Nat.eqb_neq _ _) A), (proj2 (Nat.eqb_neq _ _) B). reflexivity. Qed.
Lemma D_rsum n (f : nat -> R -> R) (d : nat -> R) x : (forall i, (i < n)%nat -> is_derive (f i) x (d i)) -> is_derive (fun t => rsum n (fun i => f i t)) x (rsum n d).
Proof. induction n as [|n IH]; intros H; cbn [rsum]; [apply @is_derive_const|]. apply (is_derive_plus (V := R_NormedModule)); [apply IH; intros; apply H; lia|apply H; lia]. Qed.
Lemma constraint_energy_weights n M l r : (2 <= M)%nat -> constraint_energy n M l r = rsum (M - 1) (fun i => (l i - rsum (M - 1) l / INR (M - 1)) * segment n r i).
Proof.
  intros H. unfold constraint_energy. assert (Nz : INR (M - 1) <> 0) by (apply not_0_INR; lia). set (m := (M - 1)%nat) in *. set (s := segment n r).
  rewrite (rsum_ext m _ (fun i => l i * s i - l i * (rsum m s / INR m))) by (intros; ring). rewrite rsum_minus, rsum_scal_r.
  rewrite (rsum_ext m (fun i => (l i - rsum m l / INR m) * s i) (fun i => l i * s i - (rsum m l / INR m) * s i)) by (intros; ring). rewrite rsum_minus, rsum_scal. field. exact Nz.
Qed.
Lemma D_constraint n p l k u : (0 < k < h_M p - 1)%nat -> segment n (positions p) (k - 1) <> 0 -> segment n (positions p) k <> 0 ->
  is_derive (fun t => constraint_energy n (h_M p) l (path_moved p k u t)) 0 (rsum n (fun c => constraint_force n p l k c * u c)).
Proof.
  intros Hk S1 S2. set (M := h_M p) in *. set (r := positions p) in *. set (l0 := rsum (M - 1) l / INR (M - 1)).
  set (d := fun i => if (S i =? k)%nat then rsum n (fun c => (r (S i) c - r i c) / segment n r i * u c) else if (i =? k)%nat then - rsum n (fun c => (r (S i) c - r i c) / segment n r i * u c) else 0).
  apply is_derive_ext with (fun t => rsum (M - 1) (fun i => (l i - l0) * segment n (moved r k u t) i)); [intros t; symmetry; apply constraint_energy_weights; lia|].
  replace (rsum n _) with (rsum (M - 1) (fun i => (l i - l0) * d i)).
  - apply D_rsum. intros i Hi. apply is_derive_Reals. apply derivable_pt_lim_scal. apply is_derive_Reals. unfold d. destruct (Nat.eqb_spec (S i) k) as [E|E]; [apply D_seg_left; [exact E|replace i with (k - 1)%nat by lia; exact S1]|].
    destruct (Nat.eqb_spec i k) as [E'|E']; [apply D_seg_right; [exact E'|rewrite E'; exact S2]|]. eapply is_derive_ext; [intros t; symmetry; apply seg_other; assumption|]. apply @is_derive_const.
  - transitivity ((l (k - 1)%nat - l0) * d (k - 1)%nat + (l k - l0) * d k).
    + rewrite (rsum_ext (M - 1) _ (fun i => (if (i =? k - 1)%nat then (l (k - 1)%nat - l0) * d (k - 1)%nat else 0) + (if (i =? k)%nat then (l k - l0) * d k else 0))).
      * rewrite rsum_plus. f_equal; [rewrite (rsum_single _ (k - 1)%nat)|rewrite (rsum_single _ k)]; try lia; try (rewrite Nat.eqb_refl; reflexivity); intros i _ N; rewrite (proj2 (Nat.eqb_neq _ _) N); reflexivity.
      * intros i Hi. destruct (Nat.eqb_spec i (k - 1)) as [->|A]; [rewrite (proj2 (Nat.eqb_neq (k - 1) k)) by lia; ring|]. destruct (Nat.eqb_spec i k) as [->|B]; [ring|]. unfold d. rewrite (proj2 (Nat.eqb_neq (S i) k)) by lia. rewrite (proj2 (Nat.eqb_neq i k)) by lia. ring.
    + unfold d. replace (S (k - 1)) with k by lia. rewrite Nat.eqb_refl. rewrite (proj2 (Nat.eqb_neq (S k) k)) by lia. unfold constraint_force. fold r M l0. cbv zeta.
      replace ((k =? 0)%nat || (k =? M - 1)%nat) with false by (symmetry; apply orb_false_intro; apply Nat.eqb_neq; lia). replace (S (k - 1)) with k by lia.
      rewrite (rsum_ext n (fun c => ((r k c - r (k - 1)%nat c) / segment n r (k - 1) * (l (k - 1)%nat - l0) - (r (S k) c - r k c) / segment n r k * (l k - l0)) * u c)
        (fun c => (l (k - 1)%nat - l0) * ((r k c - r (k - 1)%nat c) / segment n r (k - 1) * u c) - (l k - l0) * ((r (S k) c - r k c) / segment n r k * u c))) by (intros; ring).
      rewrite rsum_minus, !rsum_scal. ring.
Qed.
Lemma constraint_shift n p l a k c : (2 <= h_M p)%nat -> constraint_force n p (fun i => l i + a) k c = constraint_force n p l k c.
Proof.
  intros H. unfold constraint_force. cbv zeta. destruct (_ || _); [reflexivity|]. rewrite rsum_plus, rsum_const. assert (INR (h_M p - 1) <> 0) by (apply not_0_INR; lia).
  replace ((rsum (h_M p - 1) l + INR (h_M p - 1) * a) / INR (h_M p - 1)) with (rsum (h_M p - 1) l / INR (h_M p - 1) + a) by (field; assumption). ring.
Qed.
(** the objective: energies of the images less the constraint energy, when image k of a path is moved *)
Lemma path_force_gradient n E F p l k u : separate p -> h_lock p = false -> h_lambdas p = Some l -> (0 < k < h_M p - 1)%nat -> force_of n E F (positions p k) ->
  segment n (positions p) (k - 1) <> 0 -> segment n (positions p) k <> 0 ->
  exists f, path_force F n p k = Some f /\ is_derive (fun t => path_energy E (set_path p (path_moved p k u t)) - constraint_energy n (h_M p) l (path_moved p k u t)) 0 (- rsum n (fun c => f c * u c)).
Proof.
  intros S L HL Hk HF S1 S2. unfold path_force. rewrite HL. eexists. split; [reflexivity|]. replace ((k =? 0)%nat || (k =? h_M p - 1)%nat) with false by (symmetry; apply orb_false_intro; apply Nat.eqb_neq; lia).
  pose proof (D_constraint n p l k u Hk S1 S2) as DC. 
  replace (- rsum n _) with (minus (- rsum n (fun c => F (positions p k) c * u c)) (rsum n (fun c => constraint_force n p l k c * u c))); [|unfold minus, plus, opp; cbn; rewrite <- !rsum_opp, <- rsum_plus; apply rsum_ext; intros; ring].
  apply (is_derive_minus (V := R_NormedModule)); [|exact DC].
  apply is_derive_ext with (fun t => rsum (h_M p) (fun i => E (path_moved p k u t i))).
  - intros t. unfold path_energy. rewrite (proj1 (set_path_frame _ _)). apply rsum_ext. intros i Hi. rewrite set_path_at by assumption. reflexivity.
  - replace (- rsum n _) with (rsum (h_M p) (fun i => if (i =? k)%nat then - rsum n (fun c => F (positions p k) c * u c) else 0)) by (rewrite (rsum_single _ k) by (try lia; intros i _ N; rewrite (proj2 (Nat.eqb_neq _ _) N); reflexivity); rewrite Nat.eqb_refl; reflexivity).
    apply D_rsum. intros i Hi. unfold path_moved. destruct (Nat.eqb_spec i k) as [->|N]; [apply HF|apply @is_derive_const].
Qed.
Lemma ends_fixed n F p l k f : h_lambdas p = Some l -> (k = 0 \/ k = h_M p - 1)%nat -> path_force F n p k = Some f -> forall c, f c = 0.
Proof.
  intros HL Hk E c. unfold path_force in E. rewrite HL in E. assert (EB : ((k =? 0)%nat || (k =? h_M p - 1)%nat) = true) by (apply orb_true_intro; rewrite !Nat.eqb_eq; exact Hk). rewrite EB in E.
  assert (E' : f = (fun c => 0 + constraint_force n p l k c)) by congruence. rewrite E'. unfold constraint_force. cbv zeta. rewrite EB. ring.
Qed.
(** ** LEPS *)
Lemma root_squares x y z : x ^ 2 + y ^ 2 + z ^ 2 - x * y - y * z - x * z = 3 / 4 * (x - y) ^ 2 + (z - (x + y) / 2) ^ 2.
Proof. field. Qed.
Lemma leps_root_squares a b : let x := leps_J a 1.942 0.742 4.746 * (1 / (1 + 0.05)) in let y := leps_J b 1.942 0.742 4.746 * (1 / (1 + 0.3)) in
  let z := leps_J (a + b) 1.942 0.742 3.445 * (1 / (1 + 0.05)) in leps_root a b = 3 / 4 * (x - y) ^ 2 + (z - (x + y) / 2) ^ 2.
Proof. cbv zeta. rewrite <- root_squares. unfold leps_root. ring. Qed.
Lemma leps_root_nonneg a b : 0 <= leps_root a b.
Proof. rewrite leps_root_squares. cbv zeta. match goal with |- 0 <= 3 / 4 * ?p ^ 2 + ?q ^ 2 => pose proof (pow2_ge_0 p); pose proof (pow2_ge_0 q) end. lra. Qed.
Lemma exp_15 : exp 1.5 <= 5.2.
Proof.
  pose proof (exp_pos 1.5) as P. assert (E : exp 1.5 * exp 1.5 = exp 1 * exp 1 * exp 1) by (rewrite <- !exp_plus; f_equal; lra). pose proof exp_le_3 as T. pose proof (exp_pos 1) as Q.
  assert (exp 1 * exp 1 <= 9) by nra. assert (exp 1 * exp 1 * exp 1 <= 27) by nra. nra.
Qed.
Lemma leps_root_pos a : 0 <= a <= 1.871 -> 0 < leps_root a (3.742 - a).
Proof.
  intros H. rewrite leps_root_squares. cbv zeta.
  set (x := leps_J a 1.942 0.742 4.746 * (1 / (1 + 0.05))). set (y := leps_J (3.742 - a) 1.942 0.742 4.746 * (1 / (1 + 0.3))). set (z := leps_J _ _ _ _ * _).
  assert (N : x < y).
  { unfold x, y, leps_J. set (e := exp (- (1.942) * (a - 0.742))). set (g := exp (- (1.942) * (3.742 - a - 0.742))).
    assert (Sq : forall r, exp (- 2 * 1.942 * (r - 0.742)) = exp (- (1.942) * (r - 0.742)) * exp (- (1.942) * (r - 0.742))) by (intros; rewrite <- exp_plus; f_equal; lra).
    rewrite !Sq. fold e g.
    assert (G1 : 0 < g) by apply exp_pos. assert (G2 : g <= e) by (unfold g, e; destruct (Rle_lt_or_eq_dec _ _ (proj2 H)) as [K|K]; [left; apply exp_increasing; lra|right; f_equal; lra]).
    assert (G3 : e <= 5.2). { apply Rle_trans with (exp 1.5); [left; apply exp_increasing; lra|apply exp_15]. }
    assert (G4 : g <= 1 / 3). { apply Rle_trans with (exp (Ropp 2)); [left; apply exp_increasing; lra|]. rewrite exp_Ropp. apply Rle_trans with (/ 3); [apply Rinv_le_contravar; [lra|]; pose proof (exp_ineq1 2 ltac:(lra)); lra|lra]. }
    assert (K : 0 < g * (6 - g)) by nra. assert (K2 : g * (6 - g) <= e * (6 - e)) by nra. nra. }
  pose proof (pow2_ge_0 (z - (x + y) / 2)). assert (0 < (x - y) ^ 2) by nra. lra.
Qed.
Lemma leps_ex_derive y z t : 0 < leps_root t (3.742 - t) -> ex_derive (fun t => leps_energy (V3 t y z)) t.
Proof.
  intros H. unfold leps_energy. cbn [vx vy]. unfold leps, leps_V. cbv zeta.
  assert (DQ : forall s al r0 d, ex_derive (fun s => leps_Q s al r0 d) s) by (intros; unfold leps_Q; auto_derive; exact I).
  assert (DR : ex_derive (fun t => leps_root t (3.742 - t)) t) by (unfold leps_root, leps_J; cbv zeta; auto_derive; exact I).
  assert (DQ2 : ex_derive (fun t => leps_Q (3.742 - t) 1.942 0.742 4.746) t) by (unfold leps_Q; auto_derive; exact I).
  assert (DQ3 : ex_derive (fun t => leps_Q (t + (3.742 - t)) 1.942 0.742 3.445) t) by (unfold leps_Q; auto_derive; exact I).
  assert (DS : ex_derive (fun t => sqrt (leps_root t (3.742 - t))) t). { apply ex_derive_comp with (f := sqrt) (g := fun t => leps_root t (3.742 - t)); [auto_derive; exact H|exact DR]. }
  assert (DP : ex_derive (fun t => 2 * 0.2025 * (t - (3.742 / 2 - y / 1.154)) ^ 2) t) by (auto_derive; exact I).
  apply (ex_derive_plus (V := R_NormedModule)); [|exact DP]. apply (ex_derive_minus (V := R_NormedModule)); [|exact DS].
  apply (ex_derive_plus (V := R_NormedModule)); [apply (ex_derive_plus (V := R_NormedModule))|]; (apply ex_derive_mult; [|apply ex_derive_const]); [apply DQ|exact DQ2|exact DQ3].
Qed.
Lemma leps_force_x r : (forall t, vx r <= t <= vx r + / 10 ^ 6 -> 0 < leps_root t (3.742 - t)) ->
  exists c, vx r <= c <= vx r + / 10 ^ 6 /\ is_derive (fun t => leps_energy (V3 t (vy r) (vz r))) c (- vx (leps_force r)).
Proof.
  intros H. assert (D0 : 0 < / 10 ^ 6) by (apply Rinv_0_lt_compat; apply pow_lt; lra). set (f := fun t => leps_energy (V3 t (vy r) (vz r))).
  destruct (MVT_gen f (vx r) (vx r + / 10 ^ 6) (Derive f)) as (c & Hc & E).
  - intros t Ht. rewrite Rmin_left, Rmax_right in Ht by lra. apply Derive_correct. apply leps_ex_derive. apply H. lra.
  - intros t Ht. rewrite Rmin_left, Rmax_right in Ht by lra. apply continuity_pt_filterlim. apply (ex_derive_continuous (V := R_NormedModule)). apply leps_ex_derive. apply H. lra.
  - rewrite Rmin_left, Rmax_right in Hc by lra. exists c. split; [exact Hc|]. replace (- vx (leps_force r)) with (Derive f c); [apply Derive_correct, leps_ex_derive, H, Hc|].
    unfold leps_force. cbv zeta. cbn [vx]. rewrite Ropp_involutive. unfold f in E at 1 2. unfold leps_energy in E. cbn [vx vy] in E. rewrite E. field.
Qed.
Lemma leps_force_y r : is_derive (fun t => leps_energy (V3 (vx r) t (vz r))) (vy r + / 10 ^ 6 / 2) (- vy (leps_force r)).
Proof.
  assert (D0 : 0 < / 10 ^ 6) by (apply Rinv_0_lt_compat; apply pow_lt; lra). unfold leps_force. cbv zeta. cbn [vy]. set (d := / 10 ^ 6) in *. unfold leps_energy. cbn [vx vy]. unfold leps. set (V := leps_V _ _). auto_derive; [exact I|]. field. lra.
Qed.
