From Coq Require Import ZArith List Bool Arith Lia ZifyBool FinFun.
From Verif Require Import CoulModel CoulSpec CoulProofs.
Import ListNotations.
Ltac Zify.zify_post_hook ::= Z.div_mod_to_equations.
Open Scope Z_scope.

Definition tri (l : Z) : Z := l * (l - 1) / 2.
Lemma tri_step l : tri (l + 1) = tri l + l.
Proof. unfold tri. replace ((l + 1) * (l + 1 - 1)) with (l * (l - 1) + l * 2) by ring. rewrite Z.div_add by lia. reflexivity. Qed.
Lemma tri_nonneg l : 1 <= l -> 0 <= tri l.
Proof. intros. unfold tri. apply Z.div_pos; nia. Qed.
Lemma lm_tri l m : 0 <= l -> lm2index l m = tri l + m - 1.
Proof.
  intros. unfold lm2index, tri. destruct (Z.eq_dec l 0) as [->|]; [reflexivity|].
  rewrite Z.quot_div_nonneg by nia. reflexivity.
Qed.
Lemma tri_mono a b : 0 <= a -> a <= b -> tri a <= tri b.
Proof.
  intros. unfold tri. apply Z.div_le_mono; [lia|]. destruct (Z.eq_dec a b) as [->|]; [lia|].
  assert (0 <= (b - a) * (a + b - 1)) by (apply Z.mul_nonneg_nonneg; lia). lia.
Qed.
Lemma tri_lt a b : 0 <= a -> a < b -> tri a + a <= tri b.
Proof. intros. rewrite <- tri_step. apply tri_mono; lia. Qed.
Lemma tri0 : tri 0 = 0. Proof. reflexivity. Qed.

Lemma lm_bound L l m : 1 <= m <= l -> l <= L -> 0 <= lm2index l m < lm2index L L + 1.
Proof.
  intros Hm HL. rewrite !lm_tri by lia. pose proof (tri_nonneg l ltac:(lia)).
  destruct (Z.eq_dec l L) as [->|]; [lia|]. pose proof (tri_lt l L ltac:(lia) ltac:(lia)). lia.
Qed.
Lemma lm_injective l m l' m' : 1 <= m <= l -> 1 <= m' <= l' -> lm2index l m = lm2index l' m' -> l = l' /\ m = m'.
Proof.
  intros H H' E. rewrite !lm_tri in E by lia.
  destruct (Z.lt_trichotomy l l') as [L|[->|L]]; [|lia|].
  - pose proof (tri_lt l l' ltac:(lia) L). lia.
  - pose proof (tri_lt l' l ltac:(lia) L). lia.
Qed.
Lemma lm_surjective L i : 1 <= L -> 0 <= i < lm2index L L + 1 -> exists l m, 1 <= m <= l /\ l <= L /\ lm2index l m = i.
Proof.
  intros HL Hi. rewrite lm_tri in Hi by lia.
  assert (H : forall N, (1 <= N)%nat -> Z.of_nat N <= L -> i < tri (Z.of_nat N) + Z.of_nat N -> exists l m, 1 <= m <= l /\ l <= L /\ lm2index l m = i).
  { induction N as [|N IH]; [lia|]. intros _ HN HH. destruct (Z_lt_le_dec i (tri (Z.of_nat (S N)))) as [Lt|Le].
    - destruct N as [|N]; [change (tri (Z.of_nat 1)) with 0 in Lt; lia|]. apply IH; [lia|lia|].
      rewrite <- tri_step. replace (Z.of_nat (S N) + 1) with (Z.of_nat (S (S N))) by lia. exact Lt.
    - exists (Z.of_nat (S N)), (i - tri (Z.of_nat (S N)) + 1). split; [lia|]. split; [lia|]. rewrite lm_tri by lia. lia. }
  apply (H (Z.to_nat L)); rewrite ?Z2Nat.id by lia; lia.
Qed.

(** ** The running counters *)
Lemma zrange_snoc a b : a <= b -> zrange a (b + 1) = zrange a b ++ [b].
Proof.
  intros H. unfold zrange. replace (Z.to_nat (b + 1 - a)) with (S (Z.to_nat (b - a))) by lia.
  rewrite seq_S, map_app. cbn [map Nat.add]. f_equal. f_equal. lia.
Qed.
Lemma zrange_length a b : length (zrange a b) = Z.to_nat (b - a).
Proof. unfold zrange. rewrite map_length, seq_length. reflexivity. Qed.
Lemma lm_order_step N : lm_order (Z.of_nat (S N)) = lm_order (Z.of_nat N) ++ map (fun m => (Z.of_nat (S N), m)) (upto 1 (Z.of_nat (S N))).
Proof.
  unfold lm_order. assert (E : upto 0 (Z.of_nat (S N)) = upto 0 (Z.of_nat N) ++ [Z.of_nat (S N)]).
  { unfold upto. rewrite zrange_snoc by lia. replace (Z.of_nat N + 1) with (Z.of_nat (S N)) by lia. reflexivity. }
  rewrite E, flat_map_app. cbn [flat_map]. rewrite app_nil_r. reflexivity.
Qed.
Lemma lm_order_length N : Z.of_nat (length (lm_order (Z.of_nat N))) = tri (Z.of_nat N) + Z.of_nat N.
Proof.
  induction N as [|N IH]; [reflexivity|]. rewrite lm_order_step, app_length, Nat2Z.inj_add, IH, map_length.
  unfold upto. rewrite zrange_length. replace (Z.of_nat (S N)) with (Z.of_nat N + 1) by lia. rewrite tri_step. lia.
Qed.
Lemma lm_order_nth N t l m : nth_error (lm_order (Z.of_nat N)) t = Some (l, m) ->
  1 <= m <= l /\ l <= Z.of_nat N /\ Z.of_nat t = lm2index l m.
Proof.
  induction N as [|N IH]; [destruct t; discriminate|]. rewrite lm_order_step.
  destruct (Nat.lt_ge_cases t (length (lm_order (Z.of_nat N)))) as [L|L].
  - rewrite nth_error_app1 by exact L. intros H. apply IH in H. lia.
  - rewrite nth_error_app2 by exact L. intros H. pose proof (lm_order_length N) as LL.
    set (t' := (t - length (lm_order (Z.of_nat N)))%nat) in *.
    rewrite nth_error_map in H. unfold upto, zrange in H. rewrite nth_error_map in H.
    destruct (nth_error (seq 0 _) t') as [x|] eqn:E; [|discriminate]. cbn [option_map] in H.
    assert (Hl' : Z.of_nat (S N) = l /\ 1 + Z.of_nat x = m) by (split; congruence). destruct Hl' as [<- <-].
    assert (x = t' /\ (t' < S N)%nat) as [-> Ht].
    { assert (Hl : (t' < Z.to_nat (Z.of_nat (S N) + 1 - 1))%nat) by (rewrite <- (seq_length (Z.to_nat (Z.of_nat (S N) + 1 - 1)) 0); apply nth_error_Some; congruence).
      apply nth_error_nth with (d := 0%nat) in E. rewrite seq_nth in E by exact Hl. lia. }
    rewrite lm_tri by lia. replace (tri _) with (tri (Z.of_nat N + 1)) by (f_equal; lia). rewrite tri_step. lia.
Qed.
Lemma counted_spec L j l m : 0 <= L -> In (j, (l, m)) (counted L) -> 1 <= m <= l /\ l <= L /\ j = lm2index l m.
Proof.
  intros HL H. unfold counted in H. apply In_nth_error in H. destruct H as (t & H).
  rewrite <- (Z2Nat.id L HL) in *.
  assert (G : forall {A B} (a : list A) (b : list B) t x y, nth_error (combine a b) t = Some (x, y) -> nth_error a t = Some x /\ nth_error b t = Some y).
  { clear. intros A B a. induction a as [|a0 a IH]; intros [|b0 b] [|t] x y; cbn; try discriminate.
    - intros [= -> ->]. auto.
    - apply IH. }
  apply G in H. destruct H as [H1 H2].
  assert (Z.of_nat t = j).
  { rewrite nth_error_map in H1. destruct (nth_error (seq 0 _) t) as [x|] eqn:E; [|discriminate]. injection H1 as <-. f_equal.
    assert (Hl : (t < length (lm_order (Z.of_nat (Z.to_nat L))))%nat) by (rewrite <- (seq_length (length (lm_order (Z.of_nat (Z.to_nat L)))) 0); apply nth_error_Some; congruence).
    apply nth_error_nth with (d := 0%nat) in E. rewrite seq_nth in E by exact Hl. lia. }
  apply lm_order_nth in H2. lia.
Qed.
Lemma counted_complete L l m : 0 <= L -> 1 <= m <= l -> l <= L -> In (lm2index l m, (l, m)) (counted L).
Proof.
  intros HL Hm Hl. assert (Hin : In (l, m) (lm_order L)).
  { unfold lm_order. apply in_flat_map. exists l. split; [apply in_upto; lia|]. apply in_map. apply in_upto. lia. }
  apply In_nth_error in Hin. destruct Hin as (t & Ht).
  pose proof Ht as Hx. rewrite <- (Z2Nat.id L HL) in Hx. apply lm_order_nth in Hx. destruct Hx as (_ & _ & <-).
  unfold counted. assert (Hlen : (t < length (lm_order L))%nat) by (apply nth_error_Some; congruence).
  apply nth_error_In with (n := t).
  assert (G : forall {A B} (a : list A) (b : list B) t x y, nth_error a t = Some x -> nth_error b t = Some y -> nth_error (combine a b) t = Some (x, y)).
  { clear. intros A B a. induction a as [|a0 a IH]; intros [|b0 b] [|t] x y; cbn; try discriminate; [congruence|apply IH]. }
  apply G; [|exact Ht]. rewrite nth_error_map. replace (nth_error (seq 0 (length (lm_order L))) t) with (Some t); [reflexivity|].
  symmetry. rewrite (nth_error_nth' _ 0%nat) by (rewrite seq_length; exact Hlen). rewrite seq_nth by exact Hlen. reflexivity.
Qed.

(** ** Bounds *)
Lemma Forall_fm {A} (f : A -> list acc) l : (forall x, In x l -> Forall in_bounds (f x)) -> Forall in_bounds (flat_map f l).
Proof. intros H. apply Forall_flat_map. apply Forall_forall. exact H. Qed.
Lemma Forall_mp {A} (f : A -> acc) l : (forall x, In x l -> in_bounds (f x)) -> Forall in_bounds (map f l).
Proof. intros H. apply Forall_map. apply Forall_forall. exact H. Qed.
Lemma lm0 l m : lm2index l 0 + m = lm2index l m. Proof. unfold lm2index. lia. Qed.

Ltac fin := unfold in_bounds; cbn [fst snd]; rewrite ?lm0; first [lia | apply lm_bound; lia].
Ltac walk L := repeat first
  [ match goal with H : In _ (upto _ _) |- _ => apply in_upto in H end
  | match goal with H : In (_, (_, _)) (counted _) |- _ => apply counted_spec in H; [|lia] end
  | match goal with
    | |- Forall _ (_ ++ _) => apply Forall_app; split
    | |- Forall _ (flat_map _ _) => apply Forall_fm; intros
    | |- Forall _ (map _ _) => apply Forall_mp; intros
    | |- Forall _ (_ :: _) => constructor
    | |- Forall _ [] => constructor
    | |- Forall _ (if ?b then _ else _) => destruct b eqn:?
    | |- in_bounds (if ?b then _ else _) => destruct b eqn:?
    end ].

Lemma R_bounds L : 1 <= L -> Forall in_bounds (acc_R L).
Proof. intros HL. unfold acc_R. walk L; fin. Qed.
Lemma I_bounds L : 1 <= L -> Forall in_bounds (acc_I L).
Proof. intros HL. unfold acc_I. walk L; fin. Qed.
Lemma m2m_bounds z L : 1 <= L -> Forall in_bounds (acc_m2m z L).
Proof.
  intros HL. unfold acc_m2m. destruct z; [walk L; fin|].
  apply Forall_app. split; [apply R_bounds; exact HL|]. walk L; try fin.
  all: destruct x as [j [l m]]; walk L; try fin.
  all: destruct H as (Hm & Hl & ->); fin.
Qed.
Lemma m2l_bounds L : 1 <= L -> Forall in_bounds (acc_m2l L).
Proof.
  intros HL. unfold acc_m2l.
  apply Forall_app. split; [apply I_bounds; lia|]. walk L; try fin.
  all: destruct x as [j [l m]]; walk L; try fin.
  all: destruct H as (Hm & Hl & ->); fin.
Qed.
Lemma l2l_bounds z L L2 : 1 <= L -> 1 <= L2 -> Forall in_bounds (acc_l2l z L L2).
Proof.
  intros HL HL2. unfold acc_l2l. destruct z.
  - assert (M : lm2index (Z.min L L2) (Z.min L L2) < lm2index L L + 1 /\ lm2index (Z.min L L2) (Z.min L L2) < lm2index L2 L2 + 1)
      by (split; apply lm_bound; lia).
    walk L; fin.
  - apply Forall_app. split; [apply R_bounds; exact HL|]. walk L; try fin.
    all: destruct x as [j [l m]]; walk L; try fin.
    all: destruct H as (Hm & Hl & ->); fin.
Qed.
Lemma idx_bound L l i j : 0 <= l <= L -> - (l + 2) <= i <= l + 2 -> - (l + 2) <= j <= l + 2 -> 0 <= idx l i j < arrsize L.
Proof. intros. unfold arrsize, idx. nia. Qed.
Lemma idx_injective l i j i' j' : 0 <= l -> - (l + 2) <= i <= l + 2 -> - (l + 2) <= j <= l + 2 -> - (l + 2) <= i' <= l + 2 -> - (l + 2) <= j' <= l + 2 ->
  idx l i j = idx l i' j' -> i = i' /\ j = j'.
Proof.
  intros Hl Hi Hj Hi' Hj' E. unfold idx in E.
  assert (i = i') as ->; [|lia]. destruct (Z.lt_trichotomy i i') as [L|[L|L]]; [exfalso|exact L|exfalso]; nia.
Qed.
Lemma arrsize_mono l L : 0 <= l <= L -> 0 < arrsize l <= arrsize L.
Proof. intros. unfold arrsize, idx. nia. Qed.
Ltac fin2 := unfold in_bounds; cbn [fst snd]; first [lia | apply lm_bound; lia | apply idx_bound; lia].
Lemma dot_bounds L l : 1 <= l <= L -> Forall in_bounds (acc_dot L l).
Proof. intros H. unfold acc_dot. walk L; fin2. Qed.
Lemma transform_bounds L : 1 <= L -> Forall in_bounds (acc_transform L).
Proof.
  intros HL. unfold acc_transform. pose proof (arrsize_mono 1 L ltac:(lia)).
  walk L; try (apply dot_bounds; lia); try fin2.
  - pose proof (arrsize_mono (x - 1) L ltac:(lia)); fin2.
  - pose proof (arrsize_mono x L ltac:(lia)); fin2.
Qed.
Lemma all_bounds L L2 z : 1 <= L -> 1 <= L2 ->
  Forall in_bounds (acc_R L ++ acc_I L ++ acc_m2m z L ++ acc_m2l L ++ acc_l2l z L L2 ++ acc_transform L).
Proof.
  intros. apply Forall_app; split; [apply R_bounds; assumption|]. apply Forall_app; split; [apply I_bounds; assumption|].
  apply Forall_app; split; [apply m2m_bounds; assumption|]. apply Forall_app; split; [apply m2l_bounds; assumption|].
  apply Forall_app; split; [apply l2l_bounds; assumption|apply transform_bounds; assumption].
Qed.
Lemma lmax0_refuted : ~ Forall in_bounds (acc_R 0) /\ ~ Forall in_bounds (acc_I 0) /\ ~ Forall in_bounds (acc_transform 0).
Proof.
  split; [|split]; intros H; rewrite Forall_forall in H.
  - specialize (H (1, 1)). cbn in H. unfold in_bounds in H. cbn in H. intuition lia.
  - specialize (H (1, 1)). cbn in H. unfold in_bounds in H. cbn in H. intuition lia.
  - specialize (H (arrsize 0, arrsize 1 - 1)).
    assert (Hin : In (arrsize 0, arrsize 1 - 1) (acc_transform 0)).
    { unfold acc_transform. apply in_or_app. right. apply in_or_app. right. left. reflexivity. }
    specialize (H Hin). unfold in_bounds in H. vm_compute in H. intuition congruence.
Qed.
Lemma counter_spec L j l m : 0 <= L -> In (j, (l, m)) (counted L) <-> (1 <= m <= l /\ l <= L /\ j = lm2index l m).
Proof. intros HL. split; [apply counted_spec; exact HL|]. intros (H1 & H2 & ->). apply counted_complete; assumption. Qed.

(** the hypotheses of the cache theorem with a calculation that succeeds, asked for two structures in turn *)
Example ex_cache : let c := fun (e p q : Z) => if p =? 0 then None else Some (e + p * q) in
  let ups := updates Z Z Z Z Z.eq_dec Z.eq_dec c (fresh Z Z Z) in let up := update Z Z Z Z Z.eq_dec Z.eq_dec c in
  exists s s', ups [(5, 1, 2); (5, 3, 2); (5, 3, 2)] = (s, true) /\ up s 5 1 2 = (s', true) /\ res _ _ _ s' = Some 7.
Proof. do 2 eexists. repeat split. Qed.
