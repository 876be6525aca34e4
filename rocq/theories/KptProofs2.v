From Coq Require Import Reals Lra Lia ZArith List Bool Arith FinFun.
From Verif Require Import Vec GeomModel GeomProofs UtilModel UtilProofs KptModel KptSpec KptProofs.
Import ListNotations.
Open Scope R_scope.

Lemma lsum_one {A} (l : list A) : lsum (fun _ => 1) l = INR (length l).
Proof. induction l as [|x l IH]; [reflexivity|]. cbn [lsum length]. rewrite S_INR, IH. ring. Qed.
Lemma rsum_one n : rsum n (fun _ => 1) = INR n.
Proof. rewrite rsum_const. ring. Qed.

Section S.
Variables (M : nat -> option Z) (table : nat -> option v3) (pbc : nat -> bool) (width : R) (physical : bool) (n1 n2 n3 : Z).
Variable l : list kentry.
Hypothesis S1 : e10 < 2 * PI / IZR n1. Hypothesis S2 : e10 < 2 * PI / IZR n2. Hypothesis S3 : e10 < 2 * PI / IZR n3.
Hypothesis HS : setup_mesh M table pbc width physical n1 n2 n3 = Some l.

Lemma mesh_average g : (forall k, g (vneg k) = g k) ->
  lsum (fun o => wgt o * g (kpt o)) l =
  rsum (Z.to_nat n1) (fun a => rsum (Z.to_nat n2) (fun b => rsum (Z.to_nat n3) (fun c =>
    g (mesh_point M table n1 n2 n3 (a, b, c))))) / IZR (n1 * n2 * n3).
Proof.
  intros Hg. destruct (mesh_reduced M table pbc width physical n1 n2 n3 l S1 S2 S3 HS) as (_ & _ & _ & _ & _ & _ & H).
  rewrite (H g Hg). f_equal. unfold pts. rewrite lsum_map. cbn [fst]. apply lsum_inds.
Qed.

Lemma mesh_weights : (forall o, In o l -> 0 < wgt o) /\ lsum wgt l = 1.
Proof.
  destruct (mesh_reduced M table pbc width physical n1 n2 n3 l S1 S2 S3 HS) as (HN & _ & H1 & H2 & H3 & [R1 R2 R3 R4 R5] & _).
  split.
  - intros o Ho. destruct (R5 o Ho) as (L & NL & HL & ->). apply Rdiv_lt_0_compat; [|exact HN].
    assert (In (kpt o) L) as Q. { apply HL. split; [apply (in_map fst _ _ (R1 o Ho))|left; reflexivity]. }
    destruct L; [destruct Q|]. apply lt_0_INR. cbn. lia.
  - rewrite (lsum_ext wgt (fun o => wgt o * (fun _ => 1) (kpt o))) by (intros; ring).
    rewrite (mesh_average (fun _ => 1)) by reflexivity.
    assert (E : rsum (Z.to_nat n1) (fun _ => rsum (Z.to_nat n2) (fun _ => rsum (Z.to_nat n3) (fun _ => 1))) = IZR (n1 * n2 * n3)).
    { rewrite !rsum_const, Rmult_1_r. rewrite !INR_IZR_INZ, !Z2Nat.id, !mult_IZR by lia. ring. }
    cbn beta. rewrite E. field. lra.
Qed.

Lemma mesh_entries o : In o l -> in_mesh n1 n2 n3 (kind o) /\ kpt o = mesh_point M table n1 n2 n3 (kind o).
Proof.
  intros Ho. destruct (mesh_reduced M table pbc width physical n1 n2 n3 l S1 S2 S3 HS) as (HN & _ & H1 & H2 & H3 & [R1 R2 R3 R4 R5] & _).
  apply R1 in Ho. unfold pts in Ho. apply in_map_iff in Ho. destruct Ho as (i & E & Hi).
  assert (E1 : kind o = i) by congruence. assert (E2 : kpt o = mesh_point M table n1 n2 n3 i) by congruence. rewrite E1.
  split; [apply in_inds; assumption|exact E2].
Qed.
Lemma in_pts p : In p (map fst (pts M table n1 n2 n3)) <-> on_mesh M table n1 n2 n3 p.
Proof.
  destruct (mesh_reduced M table pbc width physical n1 n2 n3 l S1 S2 S3 HS) as (_ & _ & H1 & H2 & H3 & _).
  unfold pts, on_mesh. rewrite map_map. cbn [fst]. rewrite in_map_iff. split.
  - intros (i & <- & Hi). exists i. split; [apply in_inds; assumption|reflexivity].
  - intros (i & Hi & ->). exists i. split; [reflexivity|apply in_inds; assumption].
Qed.
Lemma mesh_covered p : on_mesh M table n1 n2 n3 p ->
  exists o, In o l /\ (p = kpt o \/ p = vneg (kpt o)) /\
            forall o', In o' l -> (p = kpt o' \/ p = vneg (kpt o')) -> o' = o.
Proof.
  intros Hp. apply in_pts in Hp.
  destruct (mesh_reduced M table pbc width physical n1 n2 n3 l S1 S2 S3 HS) as (_ & _ & _ & _ & _ & [R1 R2 R3 R4 R5] & _).
  destruct (R3 p Hp) as (o & Ho & So). exists o. split; [exact Ho|]. split; [exact So|]. intros o' Ho' So'.
  destruct So as [E|E], So' as [E'|E']; rewrite E in E'.
  - apply (NoDup_kpt_eq l); auto.
  - symmetry. apply R4; auto.
  - apply R4; auto.
  - apply (NoDup_kpt_eq l); auto. apply (f_equal vneg) in E'. rewrite !vneg_invol in E'. auto.
Qed.
Lemma mesh_counted o : In o l -> exists L, NoDup L /\
  (forall p, In p L <-> on_mesh M table n1 n2 n3 p /\ (p = kpt o \/ p = vneg (kpt o))) /\
  wgt o = INR (length L) / IZR (n1 * n2 * n3).
Proof.
  intros Ho. destruct (mesh_reduced M table pbc width physical n1 n2 n3 l S1 S2 S3 HS) as (_ & _ & _ & _ & _ & [R1 R2 R3 R4 R5] & _).
  destruct (R5 o Ho) as (L & NL & HL & W). exists L. split; [exact NL|]. split; [|exact W].
  intros p. rewrite HL, in_pts. reflexivity.
Qed.
End S.

(** ** accepted input *)
Lemma existsb_in n l : existsb (Z.eqb n) l = true <-> In n l.
Proof.
  rewrite existsb_exists. split; [intros (x & Hx & E); apply Z.eqb_eq in E; subst; exact Hx|].
  intros H. exists n. split; [exact H|apply Z.eqb_refl].
Qed.
Lemma kline_some M physical i n : (forall m, M i = Some m -> (1 <= m)%Z) ->
  (exists f, kline M physical i n = Some f) <->
  (1 <= n)%Z /\ (physical = true -> forall m, M i = Some m -> (n | m)%Z).
Proof.
  intros HM. unfold kline. destruct (n <? 1)%Z eqn:L.
  - apply Z.ltb_lt in L. split; [intros [f E]; discriminate|intros [H _]; lia].
  - apply Z.ltb_ge in L. destruct (M i) as [m|].
    + specialize (HM m eq_refl). destruct (divisors_spec m ltac:(lia)) as [HD _]. specialize (HD n).
      destruct (existsb (Z.eqb n) (divisors m)) eqn:Ex.
      * apply existsb_in in Ex. apply HD in Ex. cbn. split; [|eauto]. intros _. split; [exact L|]. intros _ m' E.
        assert (m' = m) by congruence. subst. apply Ex.
      * assert (NI : ~ In n (divisors m)) by (intros Q; apply existsb_in in Q; congruence).
        destruct physical; cbn.
        -- split; [intros [f E]; discriminate|]. intros [_ H]. exfalso. apply NI, HD. split; [lia|apply H; reflexivity].
        -- split; [|eauto]. intros _. split; [exact L|discriminate].
    + split; [|eauto]. intros _. split; [exact L|discriminate].
Qed.
Lemma sample_some M nk0 f1 f2 f3 l acc : exists r, sample M (fun _ => None) nk0 f1 f2 f3 l acc = Some r.
Proof.
  revert acc. induction l as [|[[a b] c] l IH]; intros acc; cbn [sample]; [eauto|].
  unfold dirs. cbn [shear]. apply IH.
Qed.
Lemma mesh_coordinate_one m j : (j < 1)%nat -> mesh_coordinate m 1 j = 0.
Proof. intros H. replace j with 0%nat by lia. unfold mesh_coordinate. destruct m; cbn; field. Qed.

Lemma mesh_accepted M pbc width physical n1 n2 n3 :
  (forall i m, M i = Some m -> (1 <= m)%Z) -> e10 <= width ->
  (1 <= n1)%Z -> (1 <= n2)%Z -> (1 <= n3)%Z ->
  (physical = true -> forall m, (M 0%nat = Some m -> (n1 | m)%Z) /\ (M 1%nat = Some m -> (n2 | m)%Z) /\ (M 2%nat = Some m -> (n3 | m)%Z)) ->
  (pbc 0%nat = false -> n1 = 1%Z) -> (pbc 1%nat = false -> n2 = 1%Z) -> (pbc 2%nat = false -> n3 = 1%Z) ->
  e10 < 2 * PI / IZR n1 -> e10 < 2 * PI / IZR n2 -> e10 < 2 * PI / IZR n3 ->
  exists l, setup_mesh M (fun _ => None) pbc width physical n1 n2 n3 = Some l.
Proof.
  intros HM Hw H1 H2 H3 Hd P1 P2 P3 S1 S2 S3. unfold setup_mesh.
  rewrite (proj2 (ltb_false _ _) Hw), andb_false_r.
  rewrite (proj2 (Z.eqb_neq n1 0)), (proj2 (Z.eqb_neq n2 0)), (proj2 (Z.eqb_neq n3 0)) by lia. cbn [orb].
  assert (K1 : exists f, kline M physical 0 n1 = Some f) by (apply kline_some; [apply HM|]; split; [exact H1|]; intros E m; apply (Hd E m)).
  assert (K2 : exists f, kline M physical 1 n2 = Some f) by (apply kline_some; [apply HM|]; split; [exact H2|]; intros E m; apply (Hd E m)).
  assert (K3 : exists f, kline M physical 2 n3 = Some f) by (apply kline_some; [apply HM|]; split; [exact H3|]; intros E m; apply (Hd E m)).
  destruct K1 as [f1 K1], K2 as [f2 K2], K3 as [f3 K3]. rewrite K1, K2, K3.
  destruct (sample_some M (IZR (n1 * n2 * n3)) f1 f2 f3 (indices (Z.to_nat n1) (Z.to_nat n2) (Z.to_nat n3)) []) as [r Er].
  rewrite Er. assert (E : periodic_ok pbc (map kpt r) = true); [|rewrite E; eauto].
  (* the same mesh with all directions declared periodic is certainly accepted *)
  assert (SM : setup_mesh M (fun _ => None) (fun _ => true) width physical n1 n2 n3 = Some r).
  { unfold setup_mesh. rewrite (proj2 (ltb_false _ _) Hw), andb_false_r.
    rewrite (proj2 (Z.eqb_neq n1 0)), (proj2 (Z.eqb_neq n2 0)), (proj2 (Z.eqb_neq n3 0)) by lia. cbn [orb].
    rewrite K1, K2, K3, Er.
    assert (E : periodic_ok (fun _ => true) (map kpt r) = true); [|rewrite E; reflexivity].
    unfold periodic_ok. apply forallb_forall. intros i _. apply forallb_forall. intros k _. rewrite andb_false_r. reflexivity. }
  unfold periodic_ok. apply forallb_forall. intros i Hi. apply forallb_forall. intros k Hk.
  apply in_map_iff in Hk. destruct Hk as (o & <- & Ho).
  destruct (mesh_entries M (fun _ => None) (fun _ => true) width physical n1 n2 n3 r S1 S2 S3 SM o Ho) as [Im Ek].
  rewrite Ek. destruct (kind o) as [[a b] c]. destruct Im as (Ia & Ib & Ic). pose proof e10_pos as EP.
  cbn in Hi. destruct (pbc i) eqn:Pb; [rewrite andb_false_r; reflexivity|].
  unfold mesh_point, mesh_shift.
  destruct Hi as [<-|[<-|[<-|[]]]]; cbn [comp vx vy vz]; rewrite Rplus_0_r.
  - rewrite (P1 Pb) in *. rewrite mesh_coordinate_one by lia. rewrite (proj2 (ltb_false _ _)) by lra. reflexivity.
  - rewrite (P2 Pb) in *. rewrite mesh_coordinate_one by lia. rewrite (proj2 (ltb_false _ _)) by lra. reflexivity.
  - rewrite (P3 Pb) in *. rewrite mesh_coordinate_one by lia. rewrite (proj2 (ltb_false _ _)) by lra. reflexivity.
Qed.

Lemma mesh_rejected M table pbc width physical n1 n2 n3 l :
  (forall i m, M i = Some m -> (1 <= m)%Z) ->
  setup_mesh M table pbc width physical n1 n2 n3 = Some l ->
  (1 <= n1)%Z /\ (1 <= n2)%Z /\ (1 <= n3)%Z /\
  ((n1, n2, n3) <> (1, 1, 1)%Z -> e10 <= width) /\
  (physical = true -> forall m, (M 0%nat = Some m -> (n1 | m)%Z) /\ (M 1%nat = Some m -> (n2 | m)%Z) /\ (M 2%nat = Some m -> (n3 | m)%Z)).
Proof.
  intros HM H. unfold setup_mesh in H.
  assert (W : (n1, n2, n3) <> (1, 1, 1)%Z -> e10 <= width).
  { intros Q. destruct (ltb width e10) eqn:L; [|apply ltb_false in L; exact L]. exfalso.
    assert (E : negb ((n1 =? 1)%Z && (n2 =? 1)%Z && (n3 =? 1)%Z) = true).
    { apply negb_true_iff. destruct (Z.eqb_spec n1 1), (Z.eqb_spec n2 1), (Z.eqb_spec n3 1); cbn; try reflexivity. subst. congruence. }
    rewrite E in H. cbn [andb] in H. discriminate. }
  destruct (_ && ltb width e10); [discriminate|]. destruct (_ || _); [discriminate|].
  destruct (kline M physical 0 n1) as [f1|] eqn:K1; [|discriminate]. destruct (kline M physical 1 n2) as [f2|] eqn:K2; [|discriminate].
  destruct (kline M physical 2 n3) as [f3|] eqn:K3; [|discriminate].
  assert (X1 : exists f, kline M physical 0 n1 = Some f) by eauto. assert (X2 : exists f, kline M physical 1 n2 = Some f) by eauto.
  assert (X3 : exists f, kline M physical 2 n3 = Some f) by eauto.
  apply kline_some in X1; [|apply HM]. apply kline_some in X2; [|apply HM]. apply kline_some in X3; [|apply HM].
  destruct X1 as [Y1 Z1], X2 as [Y2 Z2], X3 as [Y3 Z3].
  split; [exact Y1|]. split; [exact Y2|]. split; [exact Y3|]. split; [exact W|]. intros P m.
  split; [intros; apply Z1; assumption|]. split; [intros; apply Z2; assumption|intros; apply Z3; assumption].
Qed.

(** ** explicit lists *)
Lemma list_weights pbc width rsk bravais kpts l : kpts <> [] -> setup_list pbc width rsk bravais kpts = Some l ->
  (forall x, In x l -> 0 < snd x) /\ lsum snd l = 1 /\ length l = length kpts.
Proof.
  intros Hne H. unfold setup_list in H. destruct (_ && _); [discriminate|].
  destruct (if rsk then _ else _) as [ks|] eqn:K; [|discriminate]. destruct (periodic_ok pbc ks); [|discriminate].
  assert (Lk : length ks = length kpts).
  { destruct rsk; [destruct bravais; [|discriminate]|]; assert (E := K); injection E as <-; [apply map_length|reflexivity]. }
  assert (El : l = map (fun k => (k, 1 / INR (length kpts))) ks) by congruence. rewrite El.
  assert (HN : 0 < INR (length kpts)) by (destruct kpts; [congruence|]; apply lt_0_INR; cbn; lia).
  split; [|split].
  - intros x Hx. apply in_map_iff in Hx. destruct Hx as (k & <- & _). cbn. apply Rdiv_lt_0_compat; lra.
  - rewrite lsum_map. cbn [snd]. rewrite (lsum_ext _ (fun _ => 1 / INR (length kpts) * 1)) by (intros; ring).
    rewrite lsum_scal, lsum_one, Lk. field. lra.
  - rewrite map_length. exact Lk.
Qed.

(** ** witnesses *)
Lemma norm_big v x : x = vx v -> e10 <= Rabs x -> ltb (vnorm v) e10 = false.
Proof. intros -> H. apply ltb_false. destruct (norm_ge_x v) as (A & _). lra. Qed.
Lemma e10_small : e10 < / 1000. Proof. unfold e10. apply Rinv_lt_contravar; lra. Qed.

(** a wedge with three copies: k and its inverse, one period away, are both kept *)
Lemma period_refuted : exists (M : nat -> option Z) pbc width n1 n2 n3 l o o',
  setup_mesh M (fun _ => None) pbc width true n1 n2 n3 = Some l /\ In o l /\ In o' l /\ o <> o' /\
  exists z : Z, vadd (kpt o) (kpt o') = V3 (IZR z * (2 * PI)) 0 0.
Proof.
  set (M := fun i => match i with 0%nat => Some 3%Z | _ => Some 1%Z end).
  set (pbc := fun i => match i with 0%nat => true | _ => false end).
  pose proof PI_RGT_0 as P. pose proof PI2_3_2. pose proof e10_small as E1. pose proof e10_pos.
  assert (PI2 : 3 < 2 * PI) by lra.
  destruct (mesh_accepted M pbc 1 true 3 1 1) as [l Hl]; try lia; try lra.
  - intros i m. unfold M. destruct i; intros E; injection E; lia.
  - intros _ m. unfold M. repeat split; intros E; injection E as <-; apply Z.divide_refl.
  - unfold pbc. discriminate.
  - destruct (mesh_covered M (fun _ => None) pbc 1 true 3 1 1 l ltac:(lra) ltac:(lra) ltac:(lra) Hl (mesh_point M (fun _ => None) 3 1 1 (1, 0, 0)%nat)) as (o & Ho & So & _).
    { exists (1, 0, 0)%nat. split; [cbn; lia|reflexivity]. }
    destruct (mesh_covered M (fun _ => None) pbc 1 true 3 1 1 l ltac:(lra) ltac:(lra) ltac:(lra) Hl (mesh_point M (fun _ => None) 3 1 1 (2, 0, 0)%nat)) as (o' & Ho' & So' & _).
    { exists (2, 0, 0)%nat. split; [cbn; lia|reflexivity]. }
    assert (G : forall x a, In x l -> (a = 1 \/ a = 2)%nat -> (mesh_point M (fun _ => None) 3 1 1 (a, 0, 0)%nat = kpt x \/ mesh_point M (fun _ => None) 3 1 1 (a, 0, 0)%nat = vneg (kpt x)) ->
      kpt x = mesh_point M (fun _ => None) 3 1 1 (a, 0, 0)%nat).
    { intros x a Hx Ha [E|E]; [auto|exfalso].
      destruct (mesh_entries M (fun _ => None) pbc 1 true 3 1 1 l ltac:(lra) ltac:(lra) ltac:(lra) Hl x Hx) as [_ Ex].
      rewrite Ex in E. destruct (kind x) as [[u v] w]. apply (f_equal vx) in E. cbn in E.
      pose proof (pos_INR u). assert (1 <= INR a) by (destruct Ha; subst; cbn; lra).
      assert (0 < PI * INR a) by nra. assert (0 <= PI * INR u) by nra.
      assert (2 * PI * INR a / 3 = - (2 * PI * INR u / 3)) by lra. lra. }
    apply G in So; [|assumption|auto]. apply G in So'; [|assumption|auto].
    exists M, pbc, 1, 3%Z, 1%Z, 1%Z, l, o, o'. split; [exact Hl|]. split; [exact Ho|]. split; [exact Ho'|]. split.
    + intros Q. rewrite Q in So. rewrite So in So'. apply (f_equal vx) in So'. cbn in So'. lra.
    + exists 1%Z. rewrite So, So'. apply v3_eq; cbn; field.
Qed.

Lemma zero_width_refuted : exists pbc l k1 k2, k1 <> k2 /\
  setup_list pbc 0 false None [k1; k2] = Some l /\ (forall l' : list (v3 * R), setup_list pbc 0 false None [k1] <> Some l').
Proof.
  exists (fun _ => true), [(V3 0 0 0, 1 / INR 2); (V3 1 0 0, 1 / INR 2)], (V3 0 0 0), (V3 1 0 0). split; [|split].
  - intros E. apply (f_equal vx) in E. cbn in E. lra.
  - unfold setup_list. cbn [length Nat.eqb andb]. unfold periodic_ok. cbn. rewrite !andb_false_r. reflexivity.
  - intros l. unfold setup_list. cbn [length Nat.eqb andb]. rewrite (proj2 (ltb_true 0 e10) e10_pos). discriminate.
Qed.
Lemma nonperiodic_refuted : exists pbc width k l, pbc 0%nat = false /\ vx k <> 0 /\
  setup_list pbc width false None [k] = Some l.
Proof.
  exists (fun _ => false), 1, (V3 (-1) 0 0), [(V3 (-1) 0 0, 1 / INR 1)]. split; [reflexivity|]. split; [cbn; lra|].
  unfold setup_list. pose proof e10_small. pose proof e10_pos. rewrite (proj2 (ltb_false 1 e10)) by lra. rewrite andb_false_r.
  unfold periodic_ok, dirs. cbn [forallb comp vx vy vz].
  rewrite (proj2 (ltb_false e10 (-1))) by lra. rewrite (proj2 (ltb_false e10 0)) by lra. reflexivity.
Qed.
Lemma list_periodic pbc width rsk bravais kpts l : setup_list pbc width rsk bravais kpts = Some l ->
  forall k i, In k (map fst l) -> (i < 3)%nat -> pbc i = false -> comp i k <= e10.
Proof.
  unfold setup_list. destruct (_ && _); [discriminate|]. destruct (if rsk then _ else _) as [ks|]; [|discriminate].
  destruct (periodic_ok pbc ks) eqn:P; [|discriminate]. intros E k i Hk Hi Hp.
  assert (El : l = map (fun k => (k, 1 / INR (length kpts))) ks) by congruence.
  rewrite El, map_map in Hk. cbn [fst] in Hk. rewrite map_id in Hk.
  unfold periodic_ok in P. rewrite forallb_forall in P. specialize (P i). rewrite forallb_forall in P.
  specialize (P ltac:(cbn; lia) k Hk). rewrite Hp, andb_true_r in P. apply negb_true_iff, ltb_false in P. exact P.
Qed.

(** example: a 4x1x1 mesh along a chain keeps two points *)
Example ex_chain : exists l, setup_mesh (fun i => match i with 0%nat => None | _ => Some 1%Z end) (fun _ => None)
   (fun i => match i with 0%nat => true | _ => false end) (1 / 100) true 4 1 1 = Some l.
Proof.
  pose proof PI2_3_2. pose proof e10_small. 
  apply mesh_accepted; try lia; try lra.
  - intros i m. destruct i; [discriminate|]. intros E; injection E; lia.
  - intros _ m. repeat split; try discriminate; intros E; injection E as <-; apply Z.divide_refl.
Qed.
