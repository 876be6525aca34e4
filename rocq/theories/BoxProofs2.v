(** Atoms within the cell, histories of objects, bonds and names. *)
From Coq Require Import Reals ZArith List Bool Arith Lia Lra Psatz FunctionalExtensionality String.
From Verif Require Import Vec GeomModel GeomProofs ContProofs BoxModel BoxSpec BoxProofs.
Import ListNotations.
Open Scope R_scope.

Lemma reduce_placed b b' : orthogonal b -> reduce b = inr b' -> placed b b'.
Proof.
  intros O E. unfold reduce in E. destruct (existsb (fun a => ltb (axis_length b a) 1.1) (seq 0 3)) eqn:E1; [discriminate|].
  destruct (existsb (fun i => existsb (outside b i) (seq 0 3)) (seq 0 (b_N b))) eqn:E2; [discriminate|]. injection E as <-.
  assert (L : forall a, (a < 3)%nat -> 1.1 <= axis_length b a).
  { intros a Ha. destruct (Rle_dec 1.1 (axis_length b a)) as [H|H]; [exact H|]. exfalso. assert (T : existsb (fun a => ltb (axis_length b a) 1.1) (seq 0 3) = true); [|congruence].
    apply existsb_exists. exists a. split; [apply in_seq; lia|]. apply ltb_true. lra. }
  split; [reflexivity|]. split; [reflexivity|]. split; [reflexivity|]. intros i Hi. cbn [with_pos b_pos].
  assert (Q : forall a, (a < 3)%nat -> outside b i a = false).
  { intros a Ha. destruct (outside b i a) eqn:Ho; [|reflexivity]. exfalso. assert (T : existsb (fun i => existsb (outside b i) (seq 0 3)) (seq 0 (b_N b)) = true); [|congruence].
    apply existsb_exists. exists i. split; [apply in_seq; lia|]. apply existsb_exists. exists a. split; [apply in_seq; lia|exact Ho]. }
  split.
  - intros a Ha. rewrite coord_each by exact Ha. change (axis_length _ a) with (axis_length b a). change (b_pbc _ a) with (b_pbc b a). pose proof (L a Ha). destruct (b_pbc b a) eqn:Ep.
    + pose proof (npmod_range (coord (b_pos b i) a) (axis_length b a) ltac:(lra)). split; [lra|intros; lra].
    + split; [|discriminate]. specialize (Q a Ha). unfold outside in Q. rewrite Ep in Q. cbn [negb andb] in Q. apply orb_false_iff in Q. destruct Q as [Q1 Q2]. apply ltb_false in Q1, Q2. lra.
  - destruct (npmod_shift (vx (b_pos b i)) (axis_length b 0)) as [k0 K0]. destruct (npmod_shift (vy (b_pos b i)) (axis_length b 1)) as [k1 K1]. destruct (npmod_shift (vz (b_pos b i)) (axis_length b 2)) as [k2 K2].
    exists (fun a => match a with O => k0 | 1%nat => k1 | _ => k2 end). apply v3_coord. intros a Ha. rewrite (coord_image b _ _ a O Ha), coord_each by exact Ha. three a; cbn [coord]; destruct (b_pbc b _); rewrite ?K0, ?K1, ?K2; ring.
Qed.
Lemma reduce_rejects b e : reduce b = inl e -> e = ValueError /\ ((exists a, (a < 3)%nat /\ axis_length b a < 1.1) \/
  exists i a, (i < b_N b)%nat /\ (a < 3)%nat /\ b_pbc b a = false /\ (coord (b_pos b i) a < 0 \/ axis_length b a < coord (b_pos b i) a)).
Proof.
  intros E. unfold reduce in E. destruct (existsb (fun a => ltb (axis_length b a) 1.1) (seq 0 3)) eqn:E1.
  - split; [congruence|]. left. apply existsb_exists in E1. destruct E1 as (a & Ha & H). apply in_seq in Ha. apply ltb_true in H. exists a. split; [lia|exact H].
  - destruct (existsb (fun i => existsb (outside b i) (seq 0 3)) (seq 0 (b_N b))) eqn:E2; [|discriminate]. split; [congruence|]. right. apply existsb_exists in E2. destruct E2 as (i & Hi & H). apply existsb_exists in H. destruct H as (a & Ha & H).
    apply in_seq in Hi, Ha. exists i, a. split; [lia|]. split; [lia|]. unfold outside in H. apply andb_true_iff in H. destruct H as [H1 H2]. split; [destruct (b_pbc b a); [discriminate|reflexivity]|]. apply orb_true_iff in H2. destruct H2 as [H2|H2]; apply ltb_true in H2; [left|right]; exact H2.
Qed.
Lemma placed_same b b' i j : orthogonal b -> positive_axes b -> placed b b' -> (i < b_N b)%nat -> (j < b_N b)%nat -> distance false b' (Index i) (Point (Index j)) true = distance false b (Index i) (Point (Index j)) true.
Proof.
  intros O P (_ & Ec & Ep & H) Hi Hj. destruct (proj2 (H i Hi)) as (ni & Ei). destruct (proj2 (H j Hj)) as (nj & Ej).
  assert (IM : forall n v, image b' n v = image b n v) by (intros; unfold image, shift; rewrite Ec, Ep; reflexivity).
  destruct (distance_least b (Index i) (Index j) O P) as (d & E & (n & En) & Hm). rewrite E. apply distance_unique.
  - intros a c Ha Hc Ne. rewrite Ec. apply O; assumption.
  - intros a Ha Hp. unfold axis_length. rewrite Ec. apply P; [exact Ha|rewrite <- Ep; exact Hp].
  - exists (fun a => (n a + (ni a - nj a))%Z). rewrite IM, En. f_equal. unfold difference. cbn [coordinates]. rewrite Ei, Ej. unfold image, shift. rewrite !plus_IZR, !minus_IZR. destruct (b_pbc b 0), (b_pbc b 1), (b_pbc b 2); apply v3_eq; vunf; ring.
  - intros m. rewrite IM. eapply Rle_trans; [apply (Hm (fun a => (m a + (nj a - ni a))%Z))|]. apply Req_le. f_equal. unfold difference. cbn [coordinates]. rewrite Ei, Ej. unfold image, shift. rewrite !plus_IZR, !minus_IZR. destruct (b_pbc b 0), (b_pbc b 1), (b_pbc b 2); apply v3_eq; vunf; ring.
Qed.
Lemma inside_fixed b b' : reduce b = inr b' -> (forall i, (i < b_N b)%nat -> inside b (b_pos b i)) -> forall i, (i < b_N b)%nat -> b_pos b' i = b_pos b i.
Proof.
  intros E H i Hi. unfold reduce in E. destruct (existsb _ _); [discriminate|]. destruct (existsb _ _); [discriminate|]. injection E as <-. cbn [with_pos b_pos]. apply v3_coord. intros a Ha. rewrite coord_each by exact Ha. destruct (b_pbc b a) eqn:Ep; [|reflexivity].
  destruct (H i Hi a Ha) as [H1 H2]. apply np_small. specialize (H2 Ep). lra.
Qed.
(** ** Histories *)
Lemma obj_store w a b o : obj (store w a b) o = obj w o. Proof. reflexivity. Qed.
Lemma data_store w o b : data_of (store w (fst (obj w o)) b) o = b.
Proof. unfold data_of, store. cbn [w_data w_objs]. change (obj (World _ (w_objs w)) o) with (obj w o). rewrite Nat.eqb_refl. reflexivity. Qed.
Lemma update_placed b b' : orthogonal b -> update b = inr b' -> placed b b'.
Proof. intros O. unfold update. destruct (orthogonal_check b); [|discriminate]. apply reduce_placed. exact O. Qed.
Lemma set_positions_placed w o r : orthogonal (data_of w o) -> snd (obj w o) = true -> snd (step w (SetPositions o r)) = None -> placed (with_pos (data_of w o) r) (data_of (fst (step w (SetPositions o r))) o).
Proof.
  intros O C. cbn [step]. rewrite obj_store, C. unfold updated. rewrite data_store. destruct (update (with_pos (data_of w o) r)) as [e|b'] eqn:E; [discriminate|]. intros _. cbn [fst]. rewrite data_store. apply update_placed; [exact O|exact E].
Qed.
Lemma nth_set_nth {A} (l : list A) n x d m : (n < List.length l)%nat -> nth m (set_nth l n x) d = if (m =? n)%nat then x else nth m l d.
Proof.
  revert n m. induction l as [|y l IH]; intros n m H; [cbn in H; lia|]. destruct n as [|n], m as [|m]; cbn; try reflexivity. apply IH. cbn in H. lia.
Qed.
Lemma set_calculator_placed w o : exists_obj w o -> orthogonal (data_of w o) -> snd (step w (SetCalculator o true)) = None -> placed (data_of w o) (data_of (fst (step w (SetCalculator o true))) o).
Proof.
  intros X O. cbn [step]. set (w1 := World (w_data w) (set_nth (w_objs w) o (fst (obj w o), true))).
  assert (E1 : obj w1 o = (fst (obj w o), true)) by (unfold obj, w1; cbn [w_objs]; rewrite nth_set_nth by exact X; rewrite Nat.eqb_refl; reflexivity).
  assert (E2 : data_of w1 o = data_of w o) by (unfold data_of; rewrite E1; reflexivity).
  unfold updated. rewrite E2. destruct (update (data_of w o)) as [e|b'] eqn:E; [discriminate|]. intros _. cbn [fst]. rewrite data_store. apply update_placed; assumption.
Qed.
(** positions that are rejected stay *)
Lemma rejected_kept w o r e : snd (step w (SetPositions o r)) = Some e -> b_pos (data_of (fst (step w (SetPositions o r))) o) = r.
Proof.
  cbn [step]. rewrite !obj_store. destruct (snd (obj w o)) eqn:C; [|discriminate]. unfold updated. rewrite data_store. destruct (update _) as [e'|b'] eqn:E; [|discriminate]. intros _. cbn [fst]. rewrite data_store. reflexivity.
Qed.
Definition molecule (r : v3) : batoms := Batoms 1 (fun _ => r) (M3 (V3 4 0 0) (V3 0 4 0) (V3 0 0 4)) (fun _ => false).
Lemma molecule_checks r : orthogonal_check (molecule r) = true /\ orthogonal (molecule r) /\ positive_axes (molecule r).
Proof.
  split; [|split].
  - unfold orthogonal_check. cbn [forallb seq Nat.eqb molecule b_cell row coord row1 row2 row3 vx vy vz orb]. assert (0 < / 10 ^ 9) by (apply Rinv_0_lt_compat, pow_lt; lra). rewrite !(proj2 (ltb_false _ _)) by lra. reflexivity.
  - intros a c Ha Hc Ne. three a; three c; try (exfalso; lia); reflexivity.
  - intros a _ H. discriminate H.
Qed.
Lemma rejected_refuted : exists w r, exists_obj w 0 /\ inside (data_of w 0) (b_pos (data_of w 0) 0) /\
  snd (step w (SetPositions 0 r)) = Some ValueError /\ ~ inside (data_of w 0) (b_pos (data_of (fst (step w (SetPositions 0 r))) 0) 0).
Proof.
  exists (World (fun _ => molecule (V3 1 1 1)) [(0%nat, true)]), (fun _ => V3 5 1 1). split; [unfold exists_obj; cbn; lia|]. split.
  - intros a Ha. cbn. unfold axis_length. three a; cbn; (split; [lra|intros Q; try discriminate Q; lra]).
  - assert (E : snd (step (World (fun _ => molecule (V3 1 1 1)) [(0%nat, true)]) (SetPositions 0 (fun _ => V3 5 1 1))) = Some ValueError).
    { cbn [step]. rewrite obj_store. match goal with |- context [if ?c then _ else _] => change c with true end. cbv iota. unfold updated. rewrite data_store. change (with_pos _ _) with (molecule (V3 5 1 1)). unfold update. rewrite (proj1 (molecule_checks _)). unfold reduce.
      unfold outside, axis_length. cbn [existsb seq molecule b_cell b_N b_pbc b_pos row coord row1 row2 row3 vx vy vz negb andb]. rewrite !(proj2 (ltb_false 4 1.1)) by lra. rewrite (proj2 (ltb_true 4 5)) by lra. rewrite orb_true_r. reflexivity. }
    split; [exact E|]. rewrite (rejected_kept _ _ _ _ E). intros H. specialize (H 0%nat ltac:(lia)). unfold axis_length in H. cbn in H. lra.
Qed.
(** set_cell does not look after the atoms *)
Lemma set_cell_refuted : exists w m, exists_obj w 0 /\ snd (obj w 0) = true /\ inside (data_of w 0) (b_pos (data_of w 0) 0) /\ orthogonal (data_of (fst (step w (SetCell 0 m))) 0) /\
  snd (step w (SetCell 0 m)) = None /\ b_pbc (data_of w 0) 0 = true /\ ~ inside (data_of (fst (step w (SetCell 0 m))) 0) (b_pos (data_of (fst (step w (SetCell 0 m))) 0) 0).
Proof.
  exists (World (fun _ => Batoms 1 (fun _ => V3 3 1 1) (M3 (V3 4 0 0) (V3 0 4 0) (V3 0 0 4)) (fun _ => true)) [(0%nat, true)]), (M3 (V3 2 0 0) (V3 0 4 0) (V3 0 0 4)). split; [unfold exists_obj; cbn; lia|]. split; [reflexivity|]. split.
  - intros a Ha. cbn. unfold axis_length. three a; cbn; (split; [lra|intros; lra]).
  - cbn [step fst snd]. rewrite data_store. split; [intros a c Ha Hc Ne; three a; three c; try (exfalso; lia); reflexivity|]. split; [reflexivity|]. split; [reflexivity|]. intros H. specialize (H 0%nat ltac:(lia)). unfold axis_length in H. cbn in H. lra.
Qed.
(** scaling multiplies all distances *)
Lemma scale_distances w o x i j d : orthogonal (data_of w o) -> positive_axes (data_of w o) -> 0 < x -> snd (step w (ScalePositions o x)) = None ->
  (i < b_N (data_of w o))%nat -> (j < b_N (data_of w o))%nat -> distance false (data_of w o) (Index i) (Point (Index j)) true = inr d ->
  distance false (data_of (fst (step w (ScalePositions o x))) o) (Index i) (Point (Index j)) true = inr (x * d).
Proof.
  intros O P Hx. cbn [step]. unfold updated. rewrite data_store. set (b := data_of w o) in *. set (b1 := Batoms _ _ _ _). destruct (reduce b1) as [e|b'] eqn:E; [discriminate|]. intros _ Hi Hj Hd. cbn [fst].
  assert (E0 : data_of (store (store w (fst (obj w o)) b1) (fst (obj (store w (fst (obj w o)) b1) o)) b') o = b') by apply data_store. rewrite E0.
  assert (RW : forall a, (a < 3)%nat -> row (b_cell b1) a = vscale x (row (b_cell b) a)) by (intros a Ha; three a; reflexivity).
  assert (O1 : orthogonal b1). { intros a c Ha Hc Ne. rewrite RW by exact Ha. pose proof (O a c Ha Hc Ne) as Z. three c; cbn [coord vscale vx vy vz] in *; rewrite Z; ring. }
  assert (P1 : positive_axes b1). { intros a Ha Hp. pose proof (P a Ha Hp) as Z. unfold axis_length in *. rewrite RW by exact Ha. three a; cbn [coord vscale vx vy vz] in *; nra. }
  rewrite (placed_same b1 b' i j O1 P1 (reduce_placed b1 b' O1 E) Hi Hj).
  assert (IM : forall n, image b1 n (difference b1 (Index i) (Index j)) = vscale x (image b n (difference b (Index i) (Index j)))).
  { intros n. unfold image, shift, difference. cbn [coordinates]. unfold b1 at 1 2 3 4 5 6 7 8. cbn [b_pbc b_pos b_cell row row1 row2 row3]. destruct (b_pbc b 0), (b_pbc b 1), (b_pbc b 2); apply v3_eq; vunf; ring. }
  assert (NM : forall v, vnorm (vscale x v) = x * vnorm v).
  { intros v. unfold vnorm. replace (vdot (vscale x v) (vscale x v)) with (x² * vdot v v) by (unfold Rsqr; vunf; ring). rewrite sqrt_mult; [rewrite sqrt_Rsqr by lra; reflexivity|apply Rle_0_sqr|unfold vdot; nra]. }
  destruct (distance_least b (Index i) (Index j) O P) as (d' & Ed & (n & En) & Hm). assert (Qd : d' = d) by congruence. rewrite Qd in En, Hm. clear Qd Ed d'.
  apply distance_unique; [exact O1|exact P1| |].
  - exists n. rewrite IM, NM, En. reflexivity.
  - intros m. rewrite IM, NM. apply Rmult_le_compat_l; [lra|apply Hm].
Qed.
(** ** Copies *)
Lemma set_nth_ge {A} (l : list A) n x : (List.length l <= n)%nat -> set_nth l n x = l.
Proof. revert n. induction l as [|y l IH]; intros [|n] H; cbn in *; try reflexivity; [lia|]. rewrite IH by lia. reflexivity. Qed.
Lemma length_set_nth {A} (l : list A) n x : List.length (set_nth l n x) = List.length l.
Proof. revert n. induction l as [|y l IH]; intros [|n]; cbn; try reflexivity. rewrite IH. reflexivity. Qed.
Lemma step_addr w x o : exists_obj w o -> exists_obj (fst (step w x)) o /\ fst (obj (fst (step w x)) o) = fst (obj w o).
Proof.
  unfold exists_obj. intros H.
  assert (U : forall w o' up, w_objs (fst (updated w o' up)) = w_objs w) by (intros w' o' up; unfold updated; destruct (up _); reflexivity).
  assert (K : forall w', w_objs w' = w_objs w -> (o < List.length (w_objs w'))%nat /\ fst (obj w' o) = fst (obj w o)) by (intros w' E; unfold obj; rewrite E; split; [exact H|reflexivity]).
  destruct x as [p r|p c|p m|p q|p s|p]; cbn [step].
  - destruct (snd _); apply K; [rewrite U; reflexivity|reflexivity].
  - set (w1 := World (w_data w) (set_nth (w_objs w) p (fst (obj w p), c))).
    assert (LN : List.length (w_objs w1) = List.length (w_objs w)). { unfold w1. cbn [w_objs]. apply length_set_nth. }
    assert (F : fst (obj w1 o) = fst (obj w o)).
    { unfold obj, w1. cbn [w_objs]. destruct (Nat.lt_ge_cases p (List.length (w_objs w))) as [Hp|Hp].
      - rewrite nth_set_nth by exact Hp. destruct (o =? p)%nat eqn:Eo; [apply Nat.eqb_eq in Eo; subst; reflexivity|reflexivity].
      - rewrite set_nth_ge by exact Hp. reflexivity. }
    destruct c.
    + split; [rewrite U, LN; exact H|]. unfold obj in *. rewrite U. exact F.
    + cbn [fst]. split; [rewrite LN; exact H|exact F].
  - apply K. reflexivity.
  - apply K. reflexivity.
  - apply K. rewrite U. reflexivity.
  - cbn [fst w_objs]. split; [rewrite app_length; lia|]. unfold obj. cbn [w_objs]. rewrite app_nth1 by exact H. reflexivity.
Qed.
Lemma run_addr l : forall w o, exists_obj w o -> exists_obj (run w l) o /\ fst (obj (run w l) o) = fst (obj w o).
Proof.
  induction l as [|x l IH]; intros w o H; [split; [exact H|reflexivity]|]. cbn [run fold_left]. destruct (step_addr w x o H) as [H1 H2]. destruct (IH (fst (step w x)) o H1) as [H3 H4]. split; [exact H3|]. etransitivity; [exact H4|exact H2].
Qed.
(** whatever happens afterwards, copy and original have the same atoms, cell and periodicity *)
Lemma copy_shares w o l : exists_obj w o -> data_of (run (fst (step w (Copy o))) l) (List.length (w_objs w)) = data_of (run (fst (step w (Copy o))) l) o.
Proof.
  intros H. set (w1 := fst (step w (Copy o))). destruct (step_addr w (Copy o) o H) as [H1 E1]. fold w1 in H1, E1.
  assert (H2 : exists_obj w1 (List.length (w_objs w))) by (unfold exists_obj, w1; cbn; rewrite app_length; cbn; lia).
  assert (E2 : fst (obj w1 (List.length (w_objs w))) = fst (obj w o)) by (unfold w1, obj; cbn; rewrite app_nth2, Nat.sub_diag by lia; reflexivity).
  unfold data_of. rewrite (proj2 (run_addr l w1 _ H1)), (proj2 (run_addr l w1 _ H2)), E1, E2. reflexivity.
Qed.
Lemma copy_refuted w o r : exists_obj w o -> snd (obj w o) = false -> let w1 := fst (step w (Copy o)) in
  b_pos (data_of w1 o) = b_pos (data_of w o) /\ b_pos (data_of (fst (step w1 (SetPositions (List.length (w_objs w)) r))) o) = r.
Proof.
  intros H C w1. split.
  - destruct (step_addr w (Copy o) o H) as [H1 E1]. fold w1 in H1, E1. unfold data_of. rewrite E1. reflexivity.
  - pose proof (copy_shares w o [SetPositions (List.length (w_objs w)) r] H) as E. cbn [run fold_left] in E. fold w1 in E. rewrite <- E. cbn [step]. rewrite obj_store.
    assert (E2 : obj w1 (List.length (w_objs w)) = obj w o) by (unfold w1, obj; cbn; rewrite app_nth2, Nat.sub_diag by lia; reflexivity). rewrite E2, C. cbn [fst]. rewrite <- E2, data_store. reflexivity.
Qed.
(** what is accepted *)
Lemma orthogonal_accepted b : orthogonal b -> orthogonal_check b = true.
Proof.
  intros O. unfold orthogonal_check. apply forallb_forall. intros a Ha. apply forallb_forall. intros c Hc. apply in_seq in Ha, Hc. destruct (Nat.eqb_spec a c) as [E|E]; [reflexivity|]. cbn [orb]. rewrite (O a c) by (try lia; assumption).
  apply Bool.negb_true_iff, ltb_false. left. apply Rinv_0_lt_compat, pow_lt. lra.
Qed.
Lemma reduce_accepts b : (forall a, (a < 3)%nat -> 1.1 <= axis_length b a) -> (forall i a, (i < b_N b)%nat -> (a < 3)%nat -> b_pbc b a = false -> 0 <= coord (b_pos b i) a <= axis_length b a) -> exists b', reduce b = inr b'.
Proof.
  intros L I. destruct (reduce b) as [e|b'] eqn:E; [|eauto]. exfalso. destruct (reduce_rejects b e E) as (_ & [(a & Ha & K)|(i & a & Hi & Ha & P & K)]).
  - pose proof (L a Ha). lra.
  - pose proof (I i a Hi Ha P). lra.
Qed.
Lemma set_positions_accepts w o r : let b := with_pos (data_of w o) r in orthogonal b -> (forall a, (a < 3)%nat -> 1.1 <= axis_length b a) ->
  (forall i a, (i < b_N b)%nat -> (a < 3)%nat -> b_pbc b a = false -> 0 <= coord (r i) a <= axis_length b a) -> snd (step w (SetPositions o r)) = None.
Proof.
  intros b O L I. unfold step. cbv zeta. destruct (snd (obj _ o)); [|reflexivity]. unfold updated. rewrite data_store. fold b. unfold update. rewrite (orthogonal_accepted b O). destruct (reduce_accepts b L I) as (b' & ->). reflexivity.
Qed.
