From Coq Require Import ZArith List Bool Arith Lia ZifyBool FinFun.
From Verif Require Import CoulModel CoulSpec CoulProofs.
Import ListNotations.
Ltac Zify.zify_post_hook ::= Z.div_mod_to_equations.
Open Scope Z_scope.

Section Tel.
Variables (K : Z) (n kk : cell) (s1 s2 s3 : option Z * option Z).
Hypothesis HK : K = Z.max (t1 kk) (Z.max (t2 kk) (t3 kk)).
Hypothesis HK1 : 1 <= K.
Hypothesis G1 : good_direction K (t1 n) (t1 kk) s1.
Hypothesis G2 : good_direction K (t2 n) (t2 kk) s2.
Hypothesis G3 : good_direction K (t3 n) (t3 kk) s3.
Notation r1 := (rad (t1 n) s1).
Notation r2 := (rad (t2 n) s2).
Notation r3 := (rad (t3 n) s3).
Definition box (i : nat) (c : cell) : Prop := Z.abs (t1 c) <= r1 i /\ Z.abs (t2 c) <= r2 i /\ Z.abs (t3 c) <= r3 i.
Notation block := (block n kk s1 s2 s3).
Notation far_step := (far_step n kk s1 s2 s3).
Notation far := (far n kk s1 s2 s3).
Notation near := (near n s1 s2 s3).
Notation kmax := (kmax kk).
Lemma kmax_K : Z.of_nat kmax = K. Proof. unfold CoulModel.kmax. lia. Qed.

Lemma box_mono i j c : (i <= j)%nat -> box i c -> box j c.
Proof.
  intros H (B1 & B2 & B3). pose proof (rad_mono _ _ _ _ G1 i j H). pose proof (rad_mono _ _ _ _ G2 i j H). pose proof (rad_mono _ _ _ _ G3 i j H).
  unfold box. lia.
Qed.
Lemma sel_false k' (k : Z) (s : option Z * option Z) n' e : good_direction K n' k s -> k' < K - e -> (k - e <=? k') = true -> s = (Some 0, Some 0).
Proof. intros [_ [(-> & _ & ->)|(-> & _)]] H E; [lia|reflexivity]. Qed.
Lemma trivial_zero e (s : option Z * option Z) n' k x : good_direction K n' k s -> Z.abs x <= rad n' s e -> snd s <> None -> x = 0.
Proof. intros [_ [(-> & _)|(-> & _)]]; unfold rad; cbn [snd]; [congruence|lia]. Qed.

Lemma level_t1 i : t1 (level n i) = t1 n ^ Z.of_nat i. Proof. reflexivity. Qed.
Lemma level_t2 i : t2 (level n i) = t2 n ^ Z.of_nat i. Proof. reflexivity. Qed.
Lemma level_t3 i : t3 (level n i) = t3 n ^ Z.of_nat i. Proof. reflexivity. Qed.
Definition place_cell (i : nat) (x y : cell) : cell := tmap2 Z.add (tmap2 Z.mul x (level n i)) y.
Lemma pc1 i x y : t1 (place_cell i x y) = t1 x * t1 n ^ Z.of_nat i + t1 y. Proof. reflexivity. Qed.
Lemma pc2 i x y : t2 (place_cell i x y) = t2 x * t2 n ^ Z.of_nat i + t2 y. Proof. reflexivity. Qed.
Lemma pc3 i x y : t3 (place_cell i x y) = t3 x * t3 n ^ Z.of_nat i + t3 y. Proof. reflexivity. Qed.
Lemma cell_eq (a b : cell) : t1 a = t1 b -> t2 a = t2 b -> t3 a = t3 b -> a = b.
Proof. destruct a as [[]], b as [[]]. unfold t1, t2, t3. cbn. congruence. Qed.

(** a list of outer positions xs combined with a block *)
Lemma combine_spec e i xs blk : NoDup xs -> (forall x, In x xs -> box e x) -> NoDup blk -> (forall c, In c blk <-> box i c) ->
  NoDup (flat_map (fun x => map (place_cell i x) blk) xs) /\
  forall c, In c (flat_map (fun x => map (place_cell i x) blk) xs) <-> exists x y, In x xs /\ box i y /\ c = place_cell i x y.
Proof.
  intros Nx Bx Nb Ib.
  assert (U : forall x x' y y', box e x -> box e x' -> box i y -> box i y' -> place_cell i x y = place_cell i x' y' -> x = x' /\ y = y').
  { intros x x' y y' (A1 & A2 & A3) (B1 & B2 & B3) (C1 & C2 & C3) (D1 & D2 & D3) E.
    assert (E1 := f_equal t1 E). assert (E2 := f_equal t2 E). assert (E3 := f_equal t3 E).
    rewrite !pc1 in E1. rewrite !pc2 in E2. rewrite !pc3 in E3.
    assert (Z1 : snd s1 <> None -> t1 x = 0 /\ t1 x' = 0) by (intros H; split; eapply (trivial_zero e s1); eauto).
    assert (Z2 : snd s2 <> None -> t2 x = 0 /\ t2 x' = 0) by (intros H; split; eapply (trivial_zero e s2); eauto).
    assert (Z3 : snd s3 <> None -> t3 x = 0 /\ t3 x' = 0) by (intros H; split; eapply (trivial_zero e s3); eauto).
    pose proof (dir_unique _ _ _ _ G1 i _ _ _ _ C1 D1 Z1 E1) as F1.
    pose proof (dir_unique _ _ _ _ G2 i _ _ _ _ C2 D2 Z2 E2) as F2.
    pose proof (dir_unique _ _ _ _ G3 i _ _ _ _ C3 D3 Z3 E3) as F3.
    split; apply cell_eq; tauto. }
  split.
  - apply nodup_flat_map; [exact Nx| |].
    + intros x Hx. 
      assert (Inj : forall l, NoDup l -> (forall c, In c l -> box i c) -> NoDup (map (place_cell i x) l)).
      { induction l as [|a l IH]; cbn; intros Hn Hb; [constructor|]. inversion Hn; subst. constructor; [|apply IH; auto].
        rewrite in_map_iff. intros (c & E & Hc). apply U in E; auto. destruct E as [_ ->]. contradiction. }
      apply Inj; [exact Nb|]. intros c. apply Ib.
    + intros x x' y Hx Hx' Hy Hy'. apply in_map_iff in Hy, Hy'. destruct Hy as (a & <- & Ha), Hy' as (a' & E & Ha').
      apply U in E; auto; [destruct E; congruence| |]; apply Ib; assumption.
  - intros c. rewrite in_flat_map. split.
    + intros (x & Hx & H). apply in_map_iff in H. destruct H as (y & <- & Hy). exists x, y. rewrite <- Ib. auto.
    + intros (x & y & Hx & Hy & ->). exists x. split; [exact Hx|]. apply in_map. apply Ib. exact Hy.
Qed.

Lemma pow1 a : a = a ^ Z.of_nat 1. Proof. change (Z.of_nat 1) with 1. rewrite Z.pow_1_r. reflexivity. Qed.
Lemma sel_triples k' e1 e2 x : k' < K - e1 ->
  In x (triples (sel (t1 kk - e1 <=? k') (span s1 (t1 n ^ Z.of_nat e2)))
                (sel (t2 kk - e1 <=? k') (span s2 (t2 n ^ Z.of_nat e2)))
                (sel (t3 kk - e1 <=? k') (span s3 (t3 n ^ Z.of_nat e2)))) <-> box e2 x.
Proof.
  intros Hk. rewrite in_triples.
  rewrite (in_span _ _ _ _ G1), (in_span _ _ _ _ G2), (in_span _ _ _ _ G3); [reflexivity| | |];
   intros H; eapply sel_false; eauto.
Qed.
Lemma block_spec i : (i + 2 <= kmax)%nat \/ i = 0%nat -> NoDup (block i) /\ forall c, In c (block i) <-> box i c.
Proof.
  induction i as [|i IH]; intros Hi.
  - cbn [CoulModel.block]. split; [constructor; [intros []|constructor]|]. intros c. unfold box, rad, odd_pow. cbn [Z.of_nat Z.pow In].
    split.
    + intros [<-|[]]. unfold t1, t2, t3. cbn [fst snd]. destruct (snd s1), (snd s2), (snd s3); lia.
    + intros H. left. apply cell_eq; unfold t1, t2, t3 in *; cbn [fst snd] in *; destruct (snd s1), (snd s2), (snd s3); cbn in H; lia.
  - destruct IH as [IH1 IH2]; [lia|]. pose proof kmax_K as KK.
    cbn [CoulModel.block]. rewrite (pow1 (t1 n)), (pow1 (t2 n)), (pow1 (t3 n)). fold (place_cell i).
    match goal with |- context [triples ?a ?b ?c] => set (xs := triples a b c) end.
    assert (Hx : forall x, In x xs <-> box 1 x) by (intros x; apply (sel_triples (Z.of_nat i) 2 1); lia).
    destruct (combine_spec 1 i xs (block i)) as [C1 C2]; auto.
    { apply nodup_triples; apply nodup_sel. }
    { intros x. apply Hx. }
    split; [exact C1|]. intros c. rewrite C2. split.
    + intros (x & y & Hxx & (Y1 & Y2 & Y3) & ->). apply Hx in Hxx. destruct Hxx as (X1 & X2 & X3). unfold box. rewrite pc1, pc2, pc3.
      split; [apply (dir_into _ _ _ _ G1 1); assumption|split; [apply (dir_into _ _ _ _ G2 1); assumption|apply (dir_into _ _ _ _ G3 1); assumption]].
    + intros (H1 & H2 & H3).
      destruct (dir_from _ _ _ _ G1 1 i _ H1) as (x1 & y1 & A1 & B1 & E1).
      destruct (dir_from _ _ _ _ G2 1 i _ H2) as (x2 & y2 & A2 & B2 & E2).
      destruct (dir_from _ _ _ _ G3 1 i _ H3) as (x3 & y3 & A3 & B3 & E3).
      exists (x1, x2, x3), (y1, y2, y3). split; [apply Hx; repeat split; assumption|]. split; [repeat split; assumption|].
      apply cell_eq; [rewrite pc1|rewrite pc2|rewrite pc3]; assumption.
Qed.

Lemma outside_spec x : box 2 x -> (outside n x = false <-> box 1 x).
Proof.
  intros (B1 & B2 & B3). unfold box.
  rewrite <- (outside_dir _ _ _ _ G1 (t1 x)) by (eapply trivial_zero; eauto).
  rewrite <- (outside_dir _ _ _ _ G2 (t2 x)) by (eapply trivial_zero; eauto).
  rewrite <- (outside_dir _ _ _ _ G3 (t3 x)) by (eapply trivial_zero; eauto).
  unfold outside. lia.
Qed.
Lemma far_step_spec k : (k + 1 < kmax)%nat -> let i := (kmax - 2 - k)%nat in
  NoDup (far_step k) /\ forall c, In c (far_step k) <-> box (2 + i) c /\ ~ box (1 + i) c.
Proof.
  intros Hk i. pose proof kmax_K as KK. destruct (block_spec i) as [IB1 IB2]; [subst i; lia|].
  unfold CoulModel.far_step. fold i. fold (place_cell i). change 2 with (Z.of_nat 2).
  match goal with |- context [filter ?f (triples ?a ?b ?c)] => set (xs := triples a b c) end.
  assert (Hx : forall x, In x xs <-> box 2 x) by (intros x; apply (sel_triples (Z.of_nat k) 1 2); lia).
  destruct (combine_spec 2 i (filter (outside n) xs) (block i)) as [C1 C2]; auto.
  { apply NoDup_filter. apply nodup_triples; apply nodup_sel. }
  { intros x H. apply filter_In in H. apply Hx. tauto. }
  split; [exact C1|]. intros c. rewrite C2.
  assert (IN : forall x y, box 2 x -> box i y -> (box 1 x <-> box (1 + i) (place_cell i x y))).
  { intros x y (X1 & X2 & X3) (Y1 & Y2 & Y3). unfold box. rewrite pc1, pc2, pc3.
    rewrite <- (dir_inner _ _ _ _ G1 i (t1 x) (t1 y)), <- (dir_inner _ _ _ _ G2 i (t2 x) (t2 y)), <- (dir_inner _ _ _ _ G3 i (t3 x) (t3 y));
     auto; try (eapply trivial_zero; eauto). reflexivity. }
  split.
  + intros (x & y & Hxx & Y & ->). apply filter_In in Hxx. destruct Hxx as [Hxx Ho]. apply Hx in Hxx. split.
    * destruct Hxx as (X1 & X2 & X3), Y as (Y1 & Y2 & Y3). unfold box. rewrite pc1, pc2, pc3.
      split; [apply (dir_into _ _ _ _ G1 2); assumption|split; [apply (dir_into _ _ _ _ G2 2); assumption|apply (dir_into _ _ _ _ G3 2); assumption]].
    * rewrite <- IN by assumption. rewrite <- outside_spec by assumption. congruence.
  + intros ((H1 & H2 & H3) & NB).
    destruct (dir_from _ _ _ _ G1 2 i _ H1) as (x1 & y1 & A1 & B1 & E1).
    destruct (dir_from _ _ _ _ G2 2 i _ H2) as (x2 & y2 & A2 & B2 & E2).
    destruct (dir_from _ _ _ _ G3 2 i _ H3) as (x3 & y3 & A3 & B3 & E3).
    assert (X2 : box 2 (x1, x2, x3)) by (repeat split; assumption).
    assert (Yi : box i (y1, y2, y3)) by (repeat split; assumption).
    assert (E : c = place_cell i (x1, x2, x3) (y1, y2, y3)) by (apply cell_eq; [rewrite pc1|rewrite pc2|rewrite pc3]; assumption).
    exists (x1, x2, x3), (y1, y2, y3). split; [|auto]. apply filter_In. split; [apply Hx; exact X2|].
    destruct (outside n (x1, x2, x3)) eqn:O; [reflexivity|]. exfalso. apply NB. rewrite E. apply IN; auto. apply outside_spec; auto.
Qed.
Lemma near_spec : NoDup near /\ forall c, In c near <-> box 1 c.
Proof.
  unfold CoulModel.near. split.
  - apply nodup_triples; apply nodup_zrange.
  - intros c. rewrite in_triples.
    pose proof (in_span _ _ _ _ G1 false 1 (t1 c)) as Q1. pose proof (in_span _ _ _ _ G2 false 1 (t2 c)) as Q2. pose proof (in_span _ _ _ _ G3 false 1 (t3 c)) as Q3.
    cbn [sel] in *. rewrite <- !pow1 in *. rewrite Q1, Q2, Q3 by discriminate. reflexivity.
Qed.
Lemma box_dec i c : {box i c} + {~ box i c}.
Proof. unfold box. destruct (Z_le_dec (Z.abs (t1 c)) (r1 i)), (Z_le_dec (Z.abs (t2 c)) (r2 i)), (Z_le_dec (Z.abs (t3 c)) (r3 i)); try (left; tauto); right; tauto. Qed.
Lemma shell c j : forall i, (i <= j)%nat -> box j c -> ~ box i c -> exists m, (i <= m < j)%nat /\ box (S m) c /\ ~ box m c.
Proof.
  induction j as [|j IH]; intros i Hi HB HN; [assert (i = 0)%nat as -> by lia; contradiction|].
  destruct (box_dec j c) as [Bj|Nj].
  - destruct (Nat.eq_dec i (S j)) as [->|]; [contradiction|]. destruct (IH i) as (m & H1 & H2); auto; [lia|]. exists m. split; [lia|exact H2].
  - destruct (Nat.eq_dec i (S j)) as [->|]; [contradiction|]. exists j. split; [lia|auto].
Qed.
Lemma all_spec : NoDup (near ++ far) /\ forall c, In c (near ++ far) <-> box kmax c.
Proof.
  pose proof kmax_K as KK. destruct near_spec as [N1 N2].
  assert (F : forall c, In c far <-> box kmax c /\ ~ box 1 c).
  { intros c. unfold CoulModel.far. rewrite in_flat_map. split.
    - intros (k & Hk & H). apply in_seq in Hk. destruct (far_step_spec k) as [_ FS]; [lia|]. apply FS in H. destruct H as [H1 H2].
      split; [eapply box_mono; [|exact H1]; lia|]. intros B. apply H2. eapply box_mono; [|exact B]. lia.
    - intros [H1 H2]. destruct (shell c kmax 1) as (m & Hm & B & NB); auto; [lia|]. exists (kmax - 1 - m)%nat. split; [apply in_seq; lia|].
      destruct (far_step_spec (kmax - 1 - m)) as [_ FS]; [lia|]. apply FS.
      replace (2 + (kmax - 2 - (kmax - 1 - m)))%nat with (S m) by lia. replace (1 + (kmax - 2 - (kmax - 1 - m)))%nat with m by lia. auto. }
  split.
  - apply nodup_app; [exact N1| |].
    + unfold CoulModel.far. apply nodup_flat_map; [apply seq_NoDup| |].
      * intros k Hk. apply in_seq in Hk. apply far_step_spec. lia.
      * intros k k' c Hk Hk' H H'. apply in_seq in Hk, Hk'.
        destruct (far_step_spec k) as [_ FS]; [lia|]. destruct (far_step_spec k') as [_ FS']; [lia|]. apply FS in H. apply FS' in H'.
        destruct H as [A B], H' as [A' B']. destruct (Nat.lt_trichotomy k k') as [L|[L|L]]; [|exact L|]; exfalso.
        -- apply B. eapply box_mono; [|exact A']. lia.
        -- apply B'. eapply box_mono; [|exact A]. lia.
    + intros c H H'. apply N2 in H. apply F in H'. tauto.
  - intros c. rewrite in_app_iff, N2, F. destruct (box_dec 1 c) as [B|B]; [|tauto]. split; [|tauto]. intros _. eapply box_mono; [|exact B]. lia.
Qed.
Lemma box_within c : box kmax c <-> cell_within K (t1 n) (t1 c) s1 /\ cell_within K (t2 n) (t2 c) s2 /\ cell_within K (t3 n) (t3 c) s3.
Proof.
  assert (W : forall n' k s x, good_direction K n' k s -> (Z.abs x <= rad n' s kmax <-> cell_within K n' x s)).
  { intros n' k s x [Hn [(-> & Ho & _)|(-> & _)]]; unfold rad, cell_within; cbn [snd]; [|lia].
    destruct (odd_pow_spec n' kmax Hn Ho) as [H1 H2]. rewrite kmax_K in H2. rewrite H2. lia. }
  unfold box. rewrite (W _ _ _ _ G1), (W _ _ _ _ G2), (W _ _ _ _ G3). reflexivity.
Qed.
Lemma telescope_exact : NoDup (near ++ far) /\ forall c, In c (near ++ far) <->
  cell_within K (t1 n) (t1 c) s1 /\ cell_within K (t2 n) (t2 c) s2 /\ cell_within K (t3 n) (t3 c) s3.
Proof. destruct all_spec as [H1 H2]. split; [exact H1|]. intros c. rewrite H2. apply box_within. Qed.
End Tel.

(** ** Cases where images are lost or counted twice *)
Lemma even_refuted : let n := (1, 1, 2) in let kk := (1, 1, 3) in
  let l := near n one one inf ++ far n kk one one inf in
  count l (0, 0, -1) = 2%nat /\ count l (0, 0, 3) = 0%nat.
Proof. vm_compute. auto. Qed.
Lemma mixed_depth_refuted : let n := (1, 3, 3) in let kk := (1, 4, 5) in
  let l := near n one inf inf ++ far n kk one inf inf in
  count l (0, 1, 0) = 1%nat /\ count l (0, 2, 0) = 0%nat.
Proof. vm_compute. auto. Qed.
Lemma rotations_refuted : let n := (1, 3, 3) in let kk := (1, 1, 3) in
  let l := near n one (Some 0, Some 1) inf ++ far n kk one (Some 0, Some 1) inf in
  count l (0, 0, 2) = 1%nat /\ count l (0, 1, 2) = 0%nat.
Proof. vm_compute. auto. Qed.
Example ex_telescope : let n := (1, 3, 3) in let kk := (1, 3, 3) in
  good_direction 3 1 1 one /\ good_direction 3 3 3 inf /\ count (near n one inf inf ++ far n kk one inf inf) (0, 13, -13) = 1%nat.
Proof. unfold good_direction, one, inf. vm_compute. intuition (congruence || auto). Qed.
