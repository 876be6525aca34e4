From Coq Require Import ZArith List Bool Arith Lia ZifyBool FinFun.
From Verif Require Import CoulModel CoulSpec.
Import ListNotations.
Ltac Zify.zify_post_hook ::= Z.div_mod_to_equations.

(** ** Cache *)
Section CacheP.
Variables Pos Chg Env Res : Type.
Variables (poseq : forall a b : Pos, {a = b} + {a <> b}) (chgeq : forall a b : Chg, {a = b} + {a <> b}).
Variable compute : Env -> Pos -> Chg -> option Res.
Notation update := (update Pos Chg Env Res poseq chgeq compute).
Notation updates := (updates Pos Chg Env Res poseq chgeq compute).
Notation solver := (solver Pos Chg Res).
Notation last := (last Pos Chg Res).
Notation res := (res Pos Chg Res).
Notation fresh := (fresh Pos Chg Res).

Definition current (e : Env) (s : solver) : Prop :=
  match last s with None => True | Some (p, q) => exists r, compute e p q = Some r /\ res s = Some r end.
Lemma update_current e s p q s' : current e s -> update s e p q = (s', true) ->
  current e s' /\ exists r, compute e p q = Some r /\ res s' = Some r.
Proof.
  intros C. assert (D : do_update Pos Chg Env Res compute s e p q = (s', true) -> current e s' /\ exists r, compute e p q = Some r /\ res s' = Some r).
  { unfold do_update. destruct (compute e p q) as [r|] eqn:E; [|discriminate]. intros [= <-].
    split; [unfold current; cbn; exists r; auto|]. exists r. auto. }
  unfold update. destruct (last s) as [[p' q']|] eqn:L; [|exact D].
  destruct (poseq p p') as [->|]; [|exact D]. destruct (chgeq q q') as [->|]; [|exact D].
  intros [= <-]. split; [exact C|]. unfold current in C. rewrite L in C. exact C.
Qed.
Lemma updates_current e l : forall s s', current e s -> (forall e' p q, In (e', p, q) l -> e' = e) ->
  updates s l = (s', true) -> current e s'.
Proof.
  induction l as [|[[e1 p1] q1] l IH]; cbn; intros s s' C He E; [injection E as <-; exact C|].
  assert (e1 = e) as -> by (apply (He e1 p1 q1); auto).
  destruct (update s e p1 q1) as [s1 ok] eqn:U. destruct (updates s1 l) as [s2 ok2] eqn:U2.
  injection E as -> Hok. apply andb_prop in Hok. destruct Hok as [-> ->].
  destruct (update_current e s p1 q1 s1 C U) as [C1 _].
  eapply IH; [exact C1| |exact U2]. intros e' p q Hin. apply (He e' p q). right. exact Hin.
Qed.
Lemma cache_right e l p q s s' :
  (forall e' p q, In (e', p, q) l -> e' = e) ->
  updates fresh l = (s, true) -> update s e p q = (s', true) ->
  exists r, compute e p q = Some r /\ res s' = Some r.
Proof.
  intros He U U2. assert (C : current e s) by (eapply (updates_current e l fresh); [exact Logic.I|exact He|exact U]).
  apply (update_current e s p q s' C U2).
Qed.
(** any two environments with different results expose the stale cache *)
Lemma cache_stale e1 e2 p q r1 r2 : compute e1 p q = Some r1 -> compute e2 p q = Some r2 -> r1 <> r2 ->
  exists s, updates fresh [(e1, p, q); (e2, p, q)] = (s, true) /\ res s = Some r1 /\ Some r1 <> compute e2 p q.
Proof.
  intros E1 E2 N. exists {| CoulModel.last := Some (p, q); CoulModel.res := Some r1 |}.
  cbn. unfold CoulModel.update, do_update. cbn. rewrite E1. cbn.
  destruct (poseq p p) as [_|]; [|contradiction]. destruct (chgeq q q) as [_|]; [|contradiction]. cbn.
  repeat split. rewrite E2. congruence.
Qed.
(** after a calculation that raises, asking again succeeds and returns the old result *)
Lemma cache_after_error e p q p' q' r : p <> p' -> compute e p q = Some r -> compute e p' q' = None ->
  exists s1 s2 s3, update fresh e p q = (s1, true) /\ update s1 e p' q' = (s2, false) /\
    update s2 e p' q' = (s3, true) /\ res s3 = Some r /\ res s3 <> compute e p' q'.
Proof.
  intros N E1 E2. exists {| CoulModel.last := Some (p, q); CoulModel.res := Some r |},
    {| CoulModel.last := Some (p', q'); CoulModel.res := Some r |}, {| CoulModel.last := Some (p', q'); CoulModel.res := Some r |}.
  unfold CoulModel.update, do_update. cbn. rewrite E1, E2.
  destruct (poseq p' p) as [E|_]; [congruence|]. destruct (poseq p' p') as [_|]; [|contradiction].
  destruct (chgeq q' q') as [_|]; [|contradiction]. repeat split. cbn. congruence.
Qed.
End CacheP.

Open Scope Z_scope.
(** ** Lists of integers *)
Lemma in_zrange x a b : In x (zrange a b) <-> a <= x < b.
Proof.
  unfold zrange. rewrite in_map_iff. split.
  - intros (i & <- & H). apply in_seq in H. lia.
  - intros H. exists (Z.to_nat (x - a)). split; [lia|]. apply in_seq. lia.
Qed.
Lemma nodup_zrange a b : NoDup (zrange a b).
Proof. apply Injective_map_NoDup; [|apply seq_NoDup]. intros i j H. lia. Qed.
Lemma in_upto x a b : In x (upto a b) <-> a <= x <= b.
Proof. unfold upto. rewrite in_zrange. lia. Qed.

Lemma nodup_app {X} (l1 l2 : list X) : NoDup l1 -> NoDup l2 -> (forall x, In x l1 -> In x l2 -> False) -> NoDup (l1 ++ l2).
Proof.
  induction l1 as [|a l1 IH]; cbn; intros H1 H2 D; [exact H2|]. inversion H1; subst. constructor.
  - rewrite in_app_iff. intros [H|H]; [contradiction|]. apply (D a); auto.
  - apply IH; auto. intros x Hx Hx2. apply (D x); auto.
Qed.
Lemma nodup_flat_map {X Y} (f : X -> list Y) l : NoDup l -> (forall x, In x l -> NoDup (f x)) ->
  (forall x x' y, In x l -> In x' l -> In y (f x) -> In y (f x') -> x = x') -> NoDup (flat_map f l).
Proof.
  induction l as [|a l IH]; cbn; intros Hl Hf Hd; [constructor|]. inversion Hl; subst. apply nodup_app.
  - apply Hf. auto.
  - apply IH; auto. intros x x' y Hx Hx'. apply Hd; auto.
  - intros y Hy Hy2. apply in_flat_map in Hy2. destruct Hy2 as (x & Hx & Hyx).
    assert (a = x) by (apply (Hd a x y); auto). subst. contradiction.
Qed.
Lemma in_triples x l1 l2 l3 : In x (triples l1 l2 l3) <-> In (t1 x) l1 /\ In (t2 x) l2 /\ In (t3 x) l3.
Proof.
  destruct x as [[a b] c]. unfold triples, t1, t2, t3. cbn [fst snd]. rewrite in_flat_map. split.
  - intros (a' & Ha & H). apply in_flat_map in H. destruct H as (b' & Hb & H). apply in_map_iff in H. destruct H as (c' & E & Hc).
    injection E as -> -> ->. auto.
  - intros (Ha & Hb & Hc). exists a. split; [exact Ha|]. apply in_flat_map. exists b. split; [exact Hb|]. apply in_map_iff. exists c. auto.
Qed.
Lemma nodup_triples l1 l2 l3 : NoDup l1 -> NoDup l2 -> NoDup l3 -> NoDup (triples l1 l2 l3).
Proof.
  intros H1 H2 H3. unfold triples. apply nodup_flat_map; [exact H1| |].
  - intros a _. apply nodup_flat_map; [exact H2| |].
    + intros b _. apply Injective_map_NoDup; [|exact H3]. intros c c' E. congruence.
    + intros b b' y _ _ Hy Hy'. apply in_map_iff in Hy, Hy'. destruct Hy as (c & <- & _), Hy' as (c' & E & _). congruence.
  - intros a a' y _ _ Hy Hy'. apply in_flat_map in Hy, Hy'. destruct Hy as (b & _ & Hy), Hy' as (b' & _ & Hy').
    apply in_map_iff in Hy, Hy'. destruct Hy as (c & <- & _), Hy' as (c' & E & _). congruence.
Qed.

(** ** One direction *)
(** unique decomposition with an odd step *)
Lemma decompose b x y x' y' : 0 <= b -> Z.abs y <= b -> Z.abs y' <= b ->
  x * (2 * b + 1) + y = x' * (2 * b + 1) + y' -> x = x' /\ y = y'.
Proof. intros. assert (x = x') by nia. subst. lia. Qed.

(** radius of the cells in a block of level i *)
Definition odd_pow n i : Z := (n ^ Z.of_nat i - 1) / 2.
Lemma odd_pow_spec n i : 1 <= n -> n mod 2 = 1 -> 0 <= odd_pow n i /\ n ^ Z.of_nat i = 2 * odd_pow n i + 1.
Proof.
  intros Hn Ho. unfold odd_pow.
  assert (H : exists h, 0 <= h /\ n ^ Z.of_nat i = 2 * h + 1).
  { induction i as [|i IH]; [exists 0; cbn; lia|]. destruct IH as (h & Hh & E).
    rewrite Nat2Z.inj_succ, Z.pow_succ_r by lia. rewrite E. exists (n * h + (n - 1) / 2). nia. }
  destruct H as (h & Hh & E). rewrite E. replace ((2 * h + 1 - 1) / 2) with h by lia. lia.
Qed.

Section Dir.
Variables (K n k : Z) (s : option Z * option Z).
Hypothesis good : good_direction K n k s.
Definition rad (i : nat) : Z := match snd s with None => odd_pow n i | Some _ => 0 end.
Lemma rad_mono i j : (i <= j)%nat -> 0 <= rad i <= rad j.
Proof.
  intros H. unfold rad. destruct good as [Hn [(-> & Ho & _)|(-> & _)]]; cbn [snd]; [|lia].
  pose proof (odd_pow_spec n i Hn Ho). pose proof (odd_pow_spec n j Hn Ho).
  assert (n ^ Z.of_nat i <= n ^ Z.of_nat j) by (apply Z.pow_le_mono_r; lia). lia.
Qed.
Lemma odd_pow_add e i : 1 <= n -> n mod 2 = 1 -> odd_pow n (e + i) = odd_pow n e * n ^ Z.of_nat i + odd_pow n i.
Proof.
  intros Hn Ho. pose proof (odd_pow_spec n (e + i) Hn Ho) as [H1 H2]. pose proof (odd_pow_spec n e Hn Ho) as [H3 H4].
  pose proof (odd_pow_spec n i Hn Ho) as [H5 H6]. rewrite Nat2Z.inj_add, Z.pow_add_r in H2 by lia. rewrite H4 in H2. nia.
Qed.
Lemma in_span b e x : (b = true -> s = (Some 0, Some 0)) ->
  In x (sel b (span s (n ^ Z.of_nat e))) <-> Z.abs x <= rad e.
Proof.
  intros Hb. unfold rad. destruct good as [Hn [(-> & Ho & _)|(-> & _)]]; cbn [snd].
  - destruct b; [specialize (Hb eq_refl); discriminate|]. cbn [sel]. unfold span, n_from_range, lo_of, hi_of. cbn [fst snd].
    rewrite in_zrange. pose proof (odd_pow_spec n e Hn Ho) as [H1 H2]. rewrite H2. fold (odd_pow n e).
    replace ((2 * odd_pow n e + 1 - 1) / 2) with (odd_pow n e) by lia.
    replace ((2 * odd_pow n e + 1) / 2) with (odd_pow n e) by lia. lia.
  - destruct b; cbn [sel]; unfold span, n_from_range; cbn [fst snd]; rewrite in_zrange; lia.
Qed.
Lemma nodup_sel b e : NoDup (sel b (span s (n ^ Z.of_nat e))).
Proof. destruct b; apply nodup_zrange. Qed.
Lemma dir_into e i x y : Z.abs x <= rad e -> Z.abs y <= rad i -> Z.abs (x * n ^ Z.of_nat i + y) <= rad (e + i).
Proof.
  unfold rad. destruct good as [Hn [(-> & Ho & _)|(-> & _)]]; cbn [snd]; intros Hx Hy; [|lia].
  rewrite odd_pow_add by assumption. pose proof (odd_pow_spec n i Hn Ho). nia.
Qed.
Lemma dir_unique i x y x' y' : Z.abs y <= rad i -> Z.abs y' <= rad i ->
  (snd s <> None -> x = 0 /\ x' = 0) ->
  x * n ^ Z.of_nat i + y = x' * n ^ Z.of_nat i + y' -> x = x' /\ y = y'.
Proof.
  unfold rad. destruct good as [Hn [(-> & Ho & _)|(-> & _)]]; cbn [snd]; intros Hy Hy' Hz E.
  - destruct (odd_pow_spec n i Hn Ho) as [H1 H2]. rewrite H2 in E. apply (decompose (odd_pow n i)); assumption.
  - destruct Hz as [-> ->]; [discriminate|]. lia.
Qed.
Lemma dir_from e i c : Z.abs c <= rad (e + i) -> exists x y, Z.abs x <= rad e /\ Z.abs y <= rad i /\ c = x * n ^ Z.of_nat i + y.
Proof.
  unfold rad. destruct good as [Hn [(-> & Ho & _)|(-> & _)]]; cbn [snd]; intros H.
  - rewrite odd_pow_add in H by assumption. destruct (odd_pow_spec n i Hn Ho) as [H1 H2]. destruct (odd_pow_spec n e Hn Ho) as [H3 H4].
    rewrite H2 in *. set (b := odd_pow n i) in *. set (h := odd_pow n e) in *.
    exists ((c + b) / (2 * b + 1)), (c - (c + b) / (2 * b + 1) * (2 * b + 1)).
    pose proof (Z.div_mod (c + b) (2 * b + 1) ltac:(lia)) as DM. pose proof (Z.mod_pos_bound (c + b) (2 * b + 1) ltac:(lia)) as MB.
    set (q := (c + b) / (2 * b + 1)) in *. set (m := (c + b) mod (2 * b + 1)) in *. split; [nia|]. split; lia.
  - exists 0, 0. lia.
Qed.
(** x lies in the inner range iff the cell lies in the smaller block *)
Lemma dir_inner i x y : (snd s <> None -> x = 0) -> Z.abs y <= rad i ->
  (Z.abs x <= rad 1 <-> Z.abs (x * n ^ Z.of_nat i + y) <= rad (1 + i)).
Proof.
  unfold rad. destruct good as [Hn [(-> & Ho & _)|(-> & _)]]; cbn [snd]; intros Hz Hy.
  - rewrite odd_pow_add by assumption. destruct (odd_pow_spec n i Hn Ho) as [H1 H2]. destruct (odd_pow_spec n 1 Hn Ho) as [H3 H4].
    rewrite H2 in *. nia.
  - rewrite Hz by discriminate. lia.
Qed.
Lemma outside_dir x : (snd s <> None -> x = 0) -> (x <? lo_of n) || (hi_of n <? x) = false <-> Z.abs x <= rad 1.
Proof.
  unfold rad. destruct good as [Hn [(-> & Ho & _)|(-> & _)]]; cbn [snd]; intros Hz.
  - unfold lo_of, hi_of, odd_pow. change (Z.of_nat 1) with 1. rewrite Z.pow_1_r. lia.
  - rewrite Hz by discriminate. unfold lo_of, hi_of. lia.
Qed.
End Dir.
