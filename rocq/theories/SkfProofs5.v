(** Proofs about the repulsion of .skf files. *)
From Coq Require Import Reals ZArith List Arith Bool Ascii String Lia Lra.
From Verif Require Import Vec UtilModel GeomModel ElemModel IoModel IoSpec IoProofs IoProofs2 IoProofs3 SkfModel SkfSpec.
Import ListNotations.
Open Scope R_scope.

(** ** The grid *)
Lemma trunc_nonneg : forall x, 0 <= x -> (0 <= trunc x)%Z /\ IZR (trunc x) <= x < IZR (trunc x) + 1.
Proof.
  intros x H. unfold trunc. destruct (Rlt_dec x 0) as [L|_]; [lra|]. destruct (base_Int_part x) as [A B].
  split; [|lra]. apply Z.lt_succ_r. apply lt_IZR. rewrite succ_IZR. lra.
Qed.
Lemma nth_linspace : forall a b n i, (i < n)%nat -> nth_error (linspace a b n) i = Some (a + INR i * ((b - a) / INR (n - 1))).
Proof.
  intros a b n i I. unfold linspace. rewrite nth_error_map, (nth_error_nth' _ 0%nat) by (rewrite seq_length; exact I). rewrite seq_nth by exact I. reflexivity.
Qed.
Lemma linspace_length : forall a b n, List.length (linspace a b n) = n.
Proof. intros. unfold linspace. rewrite map_length, seq_length. reflexivity. Qed.
Lemma linspace_asc : forall a b n, a < b -> ascending (linspace a b n).
Proof.
  intros a b n L i j u v I U V.
  assert (J : (j < n)%nat) by (rewrite <- (linspace_length a b n); apply nth_error_Some; rewrite V; discriminate).
  rewrite nth_linspace in U by lia. rewrite nth_linspace in V by exact J. injection U as <-. injection V as <-.
  assert (P : 0 < INR (n - 1)) by (apply lt_0_INR; lia). apply Rplus_lt_compat_l. apply Rmult_lt_compat_r; [|apply lt_INR; exact I].
  apply Rdiv_lt_0_compat; lra.
Qed.

Lemma grid_ok : forall x0 dx cutoff, 0 < dx -> x0 + dx <= cutoff ->
  exists x h, rep_grid x0 dx cutoff = Ok x /\ ascending x /\ dx <= h < 2 * dx /\ (2 <= List.length x)%nat /\
    (forall i, (i < List.length x)%nat -> nth_error x i = Some (x0 + INR i * h)) /\ nth_error x (List.length x - 1) = Some cutoff.
Proof.
  intros x0 dx cutoff D C. set (q := (cutoff - x0) / dx).
  assert (Q : 1 <= q) by (unfold q; apply (Rmult_le_reg_r dx); [exact D|]; unfold Rdiv; rewrite Rmult_assoc, Rinv_l by lra; lra).
  destruct (trunc_nonneg q ltac:(lra)) as [T0 T]. set (k := Z.to_nat (trunc q)).
  assert (K : INR k = IZR (trunc q)) by (unfold k; rewrite INR_IZR_INZ, Z2Nat.id by exact T0; reflexivity).
  assert (K1 : (1 <= k)%nat).
  { apply INR_le. change (INR 1) with 1. rewrite K. assert (1 < trunc q + 1)%Z; [|apply IZR_le; lia]. apply lt_IZR. rewrite plus_IZR. lra. }
  assert (KP : 0 < INR k) by (apply lt_0_INR; lia).
  exists (linspace x0 cutoff (S k)), ((cutoff - x0) / INR k).
  assert (E : cutoff - x0 = q * dx) by (unfold q; field; lra).
  split; [|split; [|split; [|split; [|split]]]].
  - unfold rep_grid. fold q. destruct (Z.ltb_spec (trunc q + 1) 0); [lia|]. replace (Z.to_nat (trunc q + 1)) with (S k) by (unfold k; lia). reflexivity.
  - apply linspace_asc. lra.
  - rewrite <- K in T. rewrite E. split.
    + apply (Rmult_le_reg_r (INR k)); [exact KP|]. unfold Rdiv. rewrite (Rmult_assoc (q * dx)), Rinv_l, Rmult_1_r by lra. rewrite Rmult_comm. apply Rmult_le_compat_r; lra.
    + apply (Rmult_lt_reg_r (INR k)); [exact KP|]. unfold Rdiv. rewrite (Rmult_assoc (q * dx)), Rinv_l, Rmult_1_r by lra.
      assert (1 <= INR k) by (change 1 with (INR 1); apply le_INR; exact K1).
      apply Rlt_le_trans with ((INR k + 1) * dx); [apply Rmult_lt_compat_r; lra|].
      replace (2 * dx * INR k) with ((INR k + INR k) * dx) by ring. apply Rmult_le_compat_r; lra.
  - rewrite linspace_length. lia.
  - rewrite linspace_length. intros i I. rewrite nth_linspace by exact I. replace (S k - 1)%nat with k by lia. reflexivity.
  - rewrite linspace_length. rewrite nth_linspace by lia. replace (S k - 1)%nat with k by lia. f_equal. field. lra.
Qed.

(** ** Which piece is used where *)
Lemma ss_spec : forall x v i a, ascending x -> nth_error x i = Some a -> ((i < searchsorted x v)%nat <-> a < v).
Proof.
  induction x as [|b x IH]; intros v i a A E; [destruct i; discriminate|]. cbn [searchsorted].
  assert (A' : ascending x) by (intros p q u w I U W; apply (A (S p) (S q)); [lia|exact U|exact W]).
  destruct i as [|i].
  - injection E as ->. destruct (Rlt_dec a v); split; intros; try assumption; try lia; contradiction.
  - cbn [nth_error] in E. destruct (Rlt_dec b v) as [L|L].
    + rewrite <- (IH v i a A' E). lia.
    + split; [lia|]. intros X. exfalso. pose proof (A 0%nat (S i) b a ltac:(lia) eq_refl E). lra.
Qed.

Lemma assign_length : forall i0 i1 x g y, List.length x = List.length y -> List.length (assign i0 i1 x g y) = List.length y.
Proof. intros. unfold assign. rewrite map_length, !combine_length, seq_length. lia. Qed.
Lemma assign_nth : forall i0 i1 x g y i a b, List.length x = List.length y -> nth_error x i = Some a -> nth_error y i = Some b ->
  nth_error (assign i0 i1 x g y) i = Some (if ((i0 <=? i) && (i <? i1))%nat%bool then g a else b).
Proof.
  intros i0 i1 x g y i a b L A B. unfold assign. rewrite nth_error_map.
  assert (G : forall s (u : list R) w k, List.length u = List.length w -> nth_error u k = Some a -> nth_error w k = Some b ->
    nth_error (combine (seq s (List.length w)) (combine u w)) k = Some ((s + k)%nat, (a, b))).
  { intros s u. revert s. induction u as [|p u IH]; intros s [|q w] k Lk Ak Bk; try discriminate; [destruct k; discriminate|].
    destruct k as [|k]; cbn [List.length seq combine nth_error] in *.
    - injection Ak as ->. injection Bk as ->. rewrite Nat.add_0_r. reflexivity.
    - rewrite (IH (S s) w k); [f_equal; f_equal; lia|lia|exact Ak|exact Bk]. }
  rewrite (G 0%nat x y i L A B). cbn [option_map fst snd Nat.add]. reflexivity.
Qed.

(** one by one: what the entries after the grid point [b] are *)
Lemma pieces_inv : forall x ps knot y, ascending x -> List.length x = List.length y -> chain knot ps ->
  let z := assign_pieces x (S (searchsorted x knot)) ps y in
  List.length z = List.length y /\ (nth_error z 0 = nth_error y 0) /\
  (forall j a b, nth_error x (S j) = Some a -> nth_error x j = Some b ->
     (b < knot \/ last (map p_to ps) knot <= b -> nth_error z (S j) = nth_error y (S j)) /\
     (forall g, knot <= b -> b < last (map p_to ps) knot -> nth_error z (S j) = Some (in_force g knot ps b a))).
Proof.
  intros x ps. induction ps as [|p ps IH]; intros knot y A L C; cbv zeta.
  - cbn [assign_pieces map last]. repeat split. intros g G1 G2. lra.
  - cbn [chain] in C. destruct C as [C1 [C2 C3]]. cbn [assign_pieces].
    set (y' := assign (S (searchsorted x knot)) (S (searchsorted x (p_to p))) x (piece_at p) y).
    assert (L' : List.length x = List.length y') by (unfold y'; rewrite assign_length; assumption).
    destruct (IH (p_to p) y' A L' C3) as [I1 [I2 I3]].
    assert (Y : forall j a b, nth_error x (S j) = Some a -> nth_error x j = Some b ->
       (b < knot \/ p_to p <= b -> nth_error y' (S j) = nth_error y (S j)) /\ (knot <= b < p_to p -> nth_error y' (S j) = Some (piece_at p a))).
    { intros j a b Xa Xb. assert (J : (S j < List.length y)%nat) by (rewrite <- L; apply nth_error_Some; rewrite Xa; discriminate).
      destruct (nth_error y (S j)) as [c|] eqn:Yc; [|apply nth_error_None in Yc; lia].
      unfold y'. rewrite (assign_nth _ _ x (piece_at p) y (S j) a c L Xa Yc).
      pose proof (ss_spec x knot j b A Xb) as Q1. pose proof (ss_spec x (p_to p) j b A Xb) as Q2. split.
      - intros O. assert (F : ((S (searchsorted x knot) <=? S j) && (S j <? S (searchsorted x (p_to p))))%nat%bool = false).
        { apply andb_false_iff. destruct O as [O|O].
          - left. apply Nat.leb_gt. apply Q1 in O. lia.
          - right. apply Nat.ltb_ge. assert (~ (j < searchsorted x (p_to p))%nat) by (rewrite Q2; lra). lia. }
        rewrite F. reflexivity.
      - intros [O1 O2]. assert (F : ((S (searchsorted x knot) <=? S j) && (S j <? S (searchsorted x (p_to p))))%nat%bool = true).
        { apply andb_true_iff. split; [apply Nat.leb_le|apply Nat.ltb_lt].
          - assert (~ (j < searchsorted x knot)%nat) by (rewrite Q1; lra). lia.
          - apply Q2 in O2. lia. }
        rewrite F. reflexivity. }
    assert (Lst : last (map p_to (p :: ps)) knot = last (map p_to ps) (p_to p)).
    { cbn [map]. destruct ps as [|q ps]; [reflexivity|]. cbn [map]. clear. generalize (map p_to ps) (p_to q). induction l as [|u l IH]; intros v; [reflexivity|]. cbn [last] in *. apply IH. }
    assert (Up : p_to p <= last (map p_to ps) (p_to p)).
    { clear - C3. revert C3. generalize (p_to p). induction ps as [|q ps IHp]; intros k C; [cbn; lra|]. cbn [chain] in C. destruct C as [E [Lq C]].
      specialize (IHp _ C). replace (last (map p_to (q :: ps)) k) with (last (map p_to ps) (p_to q)); [lra|].
      cbn [map]. destruct ps as [|w ps]; [reflexivity|]. cbn [map]. clear. generalize (map p_to ps) (p_to w). induction l as [|u l IH]; intros v; [reflexivity|]. cbn [last] in *. apply IH. }
    rewrite Lst. split; [|split].
    + rewrite I1. unfold y'. apply assign_length. exact L.
    + rewrite I2. unfold y'. destruct x as [|u x]; destruct y as [|w y]; try discriminate; [reflexivity|].
      rewrite (assign_nth _ _ (u :: x) (piece_at p) (w :: y) 0 u w L eq_refl eq_refl). reflexivity.
    + intros j a b Xa Xb. destruct (Y j a b Xa Xb) as [Y1 Y2]. destruct (I3 j a b Xa Xb) as [J1 J2]. split.
      * intros [O|O].
        -- rewrite J1 by (left; lra). apply Y1. left. exact O.
        -- rewrite J1 by (right; exact O). apply Y1. right. lra.
      * intros g O1 O2. cbn [in_force]. destruct (Rlt_dec b knot) as [B|_]; [lra|]. destruct (Rlt_dec b (p_to p)) as [B|B].
        -- rewrite J1 by (left; exact B). rewrite Y2 by lra. destruct ps as [|q ps]; [reflexivity|]. cbn [in_force]. destruct (Rlt_dec b (p_to p)); [reflexivity|contradiction].
        -- apply J2; lra.
Qed.

(** ** The table against the described function *)
Lemma force_lip : forall L a b ps f knot, lipschitz L a b f -> Forall (fun p => lipschitz L a b (piece_at p)) ps -> forall r, lipschitz L a b (in_force f knot ps r).
Proof.
  intros L a b ps. induction ps as [|p ps IH]; intros f knot F P r; [exact F|]. cbn [in_force]. destruct (Rlt_dec r knot); [exact F|].
  apply IH; [exact (Forall_inv P)|exact (Forall_inv_tail P)].
Qed.
Lemma described_at_from : forall p ps, chain (p_to p) ps -> p_from p < p_to p -> described (piece_at p) (p_to p) ps (p_from p) = piece_at p (p_from p).
Proof. intros p ps C L. unfold described. destruct ps as [|q ps]; [reflexivity|]. cbn [in_force]. destruct (Rlt_dec (p_from p) (p_to p)); [reflexivity|contradiction]. Qed.
Lemma described_lip : forall L a b ps f knot, chain knot ps -> continuous_pieces f knot ps -> lipschitz L a b f -> Forall (fun p => lipschitz L a b (piece_at p)) ps ->
  lipschitz L a b (described f knot ps).
Proof.
  intros L a b ps. induction ps as [|p ps IH]; intros f knot C K F P; [exact F|].
  cbn [chain] in C. destruct C as [C1 [C2 C3]]. cbn [continuous_pieces] in K. destruct K as [K1 K2].
  pose proof (IH (piece_at p) (p_to p) C3 K2 (Forall_inv P) (Forall_inv_tail P)) as G.
  intros u v [U1 U2] V. unfold described. cbn [in_force]. destruct (Rlt_dec v knot) as [Kv|Kv]; destruct (Rlt_dec u knot) as [Ku|Ku]; try lra.
  - apply F; lra.
  - pose proof (G knot v ltac:(lra) V) as G1. pose proof (described_at_from p ps C3 C2) as D. rewrite C1 in D. rewrite D, K1 in G1.
    pose proof (F u knot ltac:(lra) ltac:(lra)) as F1. unfold described in G1.
    replace (in_force (piece_at p) (p_to p) ps v v - f u) with ((in_force (piece_at p) (p_to p) ps v v - f knot) + (f knot - f u)) by ring.
    eapply Rle_trans; [apply Rabs_triang|]. lra.
  - apply (G u v); lra.
Qed.
(** the function in force a step earlier differs by the order of the step *)
Lemma force_error : forall L a b ps f knot, chain knot ps -> continuous_pieces f knot ps -> lipschitz L a b f -> Forall (fun p => lipschitz L a b (piece_at p)) ps ->
  forall u v, a <= u <= v -> v <= b -> Rabs (in_force f knot ps u v - described f knot ps v) <= 2 * L * (v - u).
Proof.
  intros L a b ps f knot C K F P u v U V. pose proof (described_lip L a b ps f knot C K F P u v U V) as D.
  pose proof (force_lip L a b ps f knot F P u u v U V) as G. unfold described in *.
  replace (in_force f knot ps u v - in_force f knot ps v v) with ((in_force f knot ps u v - in_force f knot ps u u) - (in_force f knot ps v v - in_force f knot ps u u)) by ring.
  eapply Rle_trans; [apply Rabs_triang|]. rewrite Rabs_Ropp. lra.
Qed.
(** and not at all when no knot lies between *)
Lemma force_exact : forall ps f knot, chain knot ps -> continuous_pieces f knot ps ->
  forall u v, u <= v -> (forall p, In p ps -> ~ (u < p_from p < v)) -> in_force f knot ps u v = described f knot ps v.
Proof.
  induction ps as [|p ps IH]; intros f knot C K u v U N; [reflexivity|].
  cbn [chain] in C. destruct C as [C1 [C2 C3]]. cbn [continuous_pieces] in K. destruct K as [K1 K2].
  unfold described. cbn [in_force]. destruct (Rlt_dec u knot) as [Ku|Ku]; destruct (Rlt_dec v knot) as [Kv|Kv]; try lra.
  - assert (E : v = knot). { destruct (Req_dec v knot) as [E|E]; [exact E|]. exfalso. apply (N p (or_introl eq_refl)). lra. }
    pose proof (described_at_from p ps C3 C2) as D. unfold described in D. rewrite C1 in D. rewrite E, D, K1. reflexivity.
  - apply IH; try assumption. intros q Q. apply N. right. exact Q.
Qed.
