From Coq Require Import Reals Lra Lia ZArith List Bool Arith FinFun.
From Verif Require Import Vec GeomModel GeomProofs UtilModel KptModel KptSpec.
Import ListNotations.
Open Scope R_scope.

Lemma e10_pos : 0 < e10. Proof. unfold e10. apply Rinv_0_lt_compat. lra. Qed.
Lemma vneg_invol k : vneg (vneg k) = k.
Proof. apply v3_eq; cbn; ring. Qed.

(** ** The reduction loop, for points where "nearly inverse" means "inverse" *)
Definition stands (k p : v3) : Prop := p = k \/ p = vneg k.
Definition add (nk0 : R) (acc : list kentry) (x : v3 * (nat * nat * nat)) := merge nk0 acc (fst x) (snd x).

Record reduced (nk0 : R) (P : list (v3 * (nat * nat * nat))) (acc : list kentry) : Prop := {
  red_in : forall o, In o acc -> In (kpt o, kind o) P;
  red_nodup : NoDup (map kpt acc);
  red_cover : forall p, In p (map fst P) -> exists o, In o acc /\ stands (kpt o) p;
  red_one : forall o o', In o acc -> In o' acc -> kpt o = vneg (kpt o') -> o = o';
  red_count : forall o, In o acc -> exists L, NoDup L /\ (forall p, In p L <-> In p (map fst P) /\ stands (kpt o) p) /\
                wgt o = INR (length L) / nk0 }.

Lemma NoDup_kpt_eq acc o o' : NoDup (map kpt acc) -> In o acc -> In o' acc -> kpt o = kpt o' -> o = o'.
Proof.
  induction acc as [|x acc IH]; cbn; intros N H H' E; [contradiction|]. inversion N as [|? ? N1 N2]; subst.
  destruct H as [->|H], H' as [->|H']; auto.
  - exfalso. apply N1. rewrite E. apply in_map, H'.
  - exfalso. apply N1. rewrite <- E. apply in_map, H.
Qed.

Section Merge.
Variable nk0 : R.
Variable Hnk : 0 < nk0.
Variable D : v3 -> Prop.
Hypothesis HD : forall p q, D p -> D q -> vnorm (vadd p q) < e10 -> p = vneg q.

Lemma near_inverse p o : D p -> D (kpt o) -> inverse p o = true <-> kpt o = vneg p.
Proof.
  intros Dp Do. unfold inverse. rewrite ltb_true. split; intros H.
  - apply HD; assumption.
  - rewrite H. replace (vadd (vneg p) p) with vzero by (apply v3_eq; cbn; ring).
    unfold vnorm. replace (vdot vzero vzero) with 0 by (vunf; ring). rewrite sqrt_0. apply e10_pos.
Qed.

Lemma merge_reduced P acc p ind : Forall D (map fst P) -> D p -> ~ In p (map fst P) ->
  reduced nk0 P acc -> reduced nk0 (P ++ [(p, ind)]) (merge nk0 acc p ind).
Proof.
  intros DP Dp Np [R1 R2 R3 R4 R5].
  assert (Dk : forall o, In o acc -> D (kpt o)).
  { intros o Ho. rewrite Forall_forall in DP. apply DP. apply (in_map fst _ _ (R1 o Ho)). }
  assert (Nk : forall o, In o acc -> kpt o <> p).
  { intros o Ho E. apply Np. rewrite <- E. apply (in_map fst _ _ (R1 o Ho)). }
  unfold merge. destruct (existsb (inverse p) acc) eqn:Ex.
  - apply existsb_exists in Ex. destruct Ex as (o & Ho & Io). apply (near_inverse _ _ Dp (Dk o Ho)) in Io.
    set (f := fun o => if inverse p o then {| kpt := kpt o; wgt := wgt o + 1 / nk0; kind := kind o |} else o).
    assert (Kf : forall x, kpt (f x) = kpt x) by (intros x; unfold f; destruct (inverse p x); reflexivity).
    assert (If : forall x, kind (f x) = kind x) by (intros x; unfold f; destruct (inverse p x); reflexivity).
    assert (Mf : map kpt (map f acc) = map kpt acc) by (rewrite map_map; apply map_ext, Kf).
    split.
    + intros x Hx. apply in_map_iff in Hx. destruct Hx as (y & <- & Hy). rewrite Kf, If. apply in_or_app. left. apply R1, Hy.
    + rewrite Mf. exact R2.
    + intros q Hq. rewrite map_app in Hq. apply in_app_or in Hq. destruct Hq as [Hq|[<-|[]]].
      * destruct (R3 q Hq) as (x & Hx & S). exists (f x). split; [apply in_map, Hx|rewrite Kf; exact S].
      * exists (f o). split; [apply in_map, Ho|]. rewrite Kf. right. cbn. rewrite Io. symmetry. apply vneg_invol.
    + intros x x' Hx Hx' E. apply in_map_iff in Hx. apply in_map_iff in Hx'.
      destruct Hx as (y & <- & Hy), Hx' as (y' & <- & Hy'). rewrite !Kf in E. f_equal. apply R4; assumption.
    + intros x Hx. apply in_map_iff in Hx. destruct Hx as (y & <- & Hy).
      destruct (R5 y Hy) as (L & N & HL & W). unfold f. destruct (inverse p y) eqn:Iy.
      * apply (near_inverse _ _ Dp (Dk y Hy)) in Iy. exists (p :: L). cbn [kpt wgt]. split; [|split].
        -- constructor; [|exact N]. intros Q. apply HL in Q. apply Np, Q.
        -- intros q. rewrite map_app. cbn. rewrite in_app_iff, HL. cbn. split.
           ++ intros [<-|[H1 H2]]; [|tauto]. split; [tauto|]. right. rewrite Iy. symmetry. apply vneg_invol.
           ++ intros [[H|[H|[]]] S]; tauto.
        -- rewrite W. cbn [length]. rewrite S_INR. field. lra.
      * exists L. split; [exact N|]. split; [|exact W]. intros q. rewrite map_app, in_app_iff, HL. cbn.
        split; [tauto|]. intros [[H|[H|[]]] S]; [tauto|]. exfalso. subst q.
        destruct S as [S|S]; [apply (Nk y Hy); auto|].
        assert (Q : inverse p y = true) by (apply (near_inverse _ _ Dp (Dk y Hy)); rewrite S; symmetry; apply vneg_invol). congruence.
  - assert (Nx : forall o, In o acc -> kpt o <> vneg p).
    { intros o Ho E. apply (near_inverse _ _ Dp (Dk o Ho)) in E.
      assert (Q : existsb (inverse p) acc = true) by (apply existsb_exists; eauto). congruence. }
    set (e := {| kpt := p; wgt := 1 / nk0; kind := ind |}).
    assert (Ninv : ~ In (vneg p) (map fst P)).
    { intros Q. destruct (R3 _ Q) as (o & Ho & [S|S]); [apply (Nx o Ho); auto|].
      apply (Nk o Ho). apply (f_equal vneg) in S. rewrite !vneg_invol in S. auto. }
    split.
    + intros x Hx. apply in_app_or in Hx. apply in_or_app. destruct Hx as [Hx|[<-|[]]]; [left; apply R1, Hx|right; left; reflexivity].
    + rewrite map_app. cbn. clear - R2 Nk. assert (NI : ~ In p (map kpt acc)).
      { intros Q. apply in_map_iff in Q. destruct Q as (o & E & Ho). exact (Nk o Ho E). }
      revert R2 NI. generalize (map kpt acc). induction l as [|x l IH]; cbn; intros N NI; [constructor; [auto|constructor]|].
      inversion N as [|? ? N1 N2]; subst. constructor; [|apply IH; tauto]. rewrite in_app_iff. cbn. intros [Q|[Q|[]]]; [contradiction|apply NI; left; auto].
    + intros q Hq. rewrite map_app in Hq. apply in_app_or in Hq. destruct Hq as [Hq|[<-|[]]].
      * destruct (R3 q Hq) as (o & Ho & S). exists o. split; [apply in_or_app; tauto|exact S].
      * exists e. split; [apply in_or_app; right; left; reflexivity|left; reflexivity].
    + intros x x' Hx Hx' E. apply in_app_or in Hx. apply in_app_or in Hx'.
      destruct Hx as [Hx|[<-|[]]], Hx' as [Hx'|[<-|[]]]; [apply R4; assumption| | |reflexivity]; exfalso; cbn in E.
      * apply (Nx x Hx E).
      * apply (Nx x' Hx'). rewrite E. symmetry. apply vneg_invol.
    + intros x Hx. apply in_app_or in Hx. destruct Hx as [Hx|[<-|[]]].
      * destruct (R5 x Hx) as (L & N & HL & W). exists L. split; [exact N|]. split; [|exact W].
        intros q. rewrite map_app, in_app_iff, HL. cbn. split; [tauto|]. intros [[H|[H|[]]] S]; [tauto|]. exfalso. subst q.
        destruct S as [S|S]; [apply (Nk x Hx); auto|]. apply (Nx x Hx). rewrite S. symmetry. apply vneg_invol.
      * exists [p]. split; [constructor; [auto|constructor]|]. split; [|cbn; reflexivity].
        intros q. rewrite map_app, in_app_iff. cbn. split.
        -- intros [<-|[]]. split; [tauto|]. left. reflexivity.
        -- intros [[H|[H|[]]] S]; [|tauto]. exfalso. destruct S as [->| ->]; tauto.
Qed.

Lemma fold_reduced l : forall P acc, Forall D (map fst P) -> Forall D (map fst l) -> NoDup (map fst (P ++ l)) ->
  reduced nk0 P acc -> reduced nk0 (P ++ l) (fold_left (add nk0) l acc).
Proof.
  induction l as [|[p ind] l IH]; intros P acc DP Dl N Rd; [rewrite app_nil_r; exact Rd|].
  cbn [fold_left]. replace (P ++ (p, ind) :: l) with ((P ++ [(p, ind)]) ++ l) by (rewrite <- app_assoc; reflexivity).
  cbn in Dl. inversion Dl as [|? ? D1 D2]; subst.
  apply IH; [|exact D2| |].
  - rewrite map_app. apply Forall_app. split; [exact DP|constructor; [exact D1|constructor]].
  - rewrite <- app_assoc. exact N.
  - unfold add. cbn [fst snd]. apply merge_reduced; try assumption.
    rewrite map_app in N. cbn in N. intros Q. apply NoDup_remove_2 in N. apply N, in_or_app. left. exact Q.
Qed.

(** sums over the reduced mesh *)
Lemma lsum_app {A} (f : A -> R) l l' : lsum f (l ++ l') = lsum f l + lsum f l'.
Proof. induction l as [|x l IH]; cbn; [ring|]. rewrite IH. ring. Qed.
Lemma lsum_ext {A} (f g : A -> R) l : (forall x, In x l -> f x = g x) -> lsum f l = lsum g l.
Proof. induction l as [|x l IH]; cbn; intros H; [reflexivity|]. rewrite (H x), IH; auto. Qed.
Lemma lsum_map {A B} (f : B -> R) (g : A -> B) l : lsum f (map g l) = lsum (fun x => f (g x)) l.
Proof. induction l as [|x l IH]; cbn; [reflexivity|]. rewrite IH. reflexivity. Qed.

Lemma lsum_scal {A} (f : A -> R) c l : lsum (fun x => c * f x) l = c * lsum f l.
Proof. induction l as [|x l IH]; cbn; [ring|]. rewrite IH. ring. Qed.

Lemma merge_sum g acc p ind : (forall k, g (vneg k) = g k) -> Forall (fun o => D (kpt o)) acc -> D p ->
  NoDup (map kpt acc) ->
  lsum (fun o => wgt o * g (kpt o)) (merge nk0 acc p ind) = lsum (fun o => wgt o * g (kpt o)) acc + g p / nk0.
Proof.
  intros Hg Da Dp N. unfold merge. destruct (existsb (inverse p) acc) eqn:Ex.
  - assert (Dk : forall o, In o acc -> D (kpt o)) by (rewrite Forall_forall in Da; exact Da).
    revert N Dk Ex. clear Da. induction acc as [|x acc IH]; cbn; [discriminate|]. intros N Dk Ex.
    inversion N as [|? ? N1 N2]; subst.
    destruct (inverse p x) eqn:Ix.
    + cbn. assert (E : lsum (fun o => wgt o * g (kpt o)) (map (fun o => if inverse p o then {| kpt := kpt o; wgt := wgt o + 1 / nk0; kind := kind o |} else o) acc) = lsum (fun o => wgt o * g (kpt o)) acc).
      { rewrite lsum_map. apply lsum_ext. intros y Hy. destruct (inverse p y) eqn:Iy; [exfalso|reflexivity].
        apply (near_inverse _ _ Dp (Dk x (or_introl eq_refl))) in Ix. apply (near_inverse _ _ Dp (Dk y (or_intror Hy))) in Iy.
        apply N1. rewrite Ix, <- Iy. apply in_map, Hy. }
      rewrite E. apply (near_inverse _ _ Dp (Dk x (or_introl eq_refl))) in Ix. rewrite Ix, Hg. field. lra.
    + cbn in Ex. rewrite IH; [ring|exact N2|intros; apply Dk; right; assumption|exact Ex].
  - rewrite lsum_app. cbn. field. lra.
Qed.

Lemma fold_sum g l : (forall k, g (vneg k) = g k) -> forall P acc, Forall D (map fst P) -> Forall D (map fst l) ->
  NoDup (map fst (P ++ l)) -> reduced nk0 P acc ->
  lsum (fun o => wgt o * g (kpt o)) (fold_left (add nk0) l acc) =
  lsum (fun o => wgt o * g (kpt o)) acc + lsum (fun x => g (fst x)) l / nk0.
Proof.
  intros Hg. induction l as [|[p ind] l IH]; intros P acc DP Dl N Rd; cbn [fold_left]; [cbn; field; lra|].
  cbn in Dl. inversion Dl as [|? ? D1 D2]; subst.
  assert (Dacc : Forall (fun o => D (kpt o)) acc).
  { apply Forall_forall. intros o Ho. rewrite Forall_forall in DP. apply DP. apply (in_map fst _ _ (red_in _ _ _ Rd o Ho)). }
  assert (Np : ~ In p (map fst P)).
  { rewrite map_app in N. cbn in N. intros Q. apply NoDup_remove_2 in N. apply N, in_or_app. left. exact Q. }
  rewrite (IH (P ++ [(p, ind)])).
  - unfold add. cbn [fst snd]. rewrite merge_sum; try assumption; [|apply (red_nodup _ _ _ Rd)].
    cbn. field. lra.
  - rewrite map_app. apply Forall_app. split; [exact DP|constructor; [exact D1|constructor]].
  - exact D2.
  - rewrite <- app_assoc. exact N.
  - unfold add. cbn [fst snd]. apply merge_reduced; assumption.
Qed.
End Merge.

Lemma reduced_nil nk0 : reduced nk0 [] [].
Proof. split; cbn; try contradiction. constructor. Qed.

(** ** The mesh *)
Lemma kline_spec M physical i n f : kline M physical i n = Some f ->
  (1 <= n)%Z /\ forall j, (j < Z.to_nat n)%nat -> f j = mesh_coordinate (M i) n j.
Proof.
  unfold kline. destruct (n <? 1)%Z eqn:Ln; [discriminate|]. apply Z.ltb_ge in Ln.
  assert (Hn : 1 <= IZR n) by (apply IZR_le; exact Ln).
  assert (HN : INR (Z.to_nat n) = IZR n) by (rewrite INR_IZR_INZ, Z2Nat.id; [reflexivity|lia]).
  intros H. split; [exact Ln|]. intros j Hj.
  assert (Hone : Z.to_nat n = 1%nat -> n = 1%Z /\ j = 0%nat) by lia.
  assert (Hgt : Z.to_nat n <> 1%nat -> 1 < IZR n) by (intros; apply IZR_lt; lia).
  unfold mesh_coordinate. destruct (M i) as [m|].
  - destruct (_ && _); [discriminate|]. assert (E : f = linspace 0 (2 * PI - 2 * PI / IZR n) (Z.to_nat n)) by congruence.
    rewrite E. unfold linspace. destruct (Nat.eqb_spec (Z.to_nat n) 1) as [Q|Q].
    + destruct (Hone Q) as [-> ->]. cbn. field.
    + rewrite HN. specialize (Hgt Q). field. lra.
  - assert (E : f = linspace (- PI + 2 * PI / IZR n / 2) (PI - 2 * PI / IZR n / 2) (Z.to_nat n)) by congruence.
    rewrite E. unfold linspace. destruct (Nat.eqb_spec (Z.to_nat n) 1) as [Q|Q].
    + destruct (Hone Q) as [-> ->]. cbn. field.
    + rewrite HN. specialize (Hgt Q). field. lra.
Qed.

(** at most one direction is sheared, by the other two components *)
Definition shear_ok (table : nat -> option v3) : Prop :=
  match table 0%nat, table 1%nat, table 2%nat with
  | None, None, None => True
  | Some n, None, None => vx n = 0
  | None, Some n, None => vy n = 0
  | None, None, Some n => vz n = 0
  | _, _, _ => False
  end.
Lemma shear_spec M table k k' : shear M table dirs false k = Some k' ->
  shear_ok table /\
  k' = V3 (vx k + mesh_shift (M 0%nat) (table 0%nat) k) (vy k + mesh_shift (M 1%nat) (table 1%nat) k)
          (vz k + mesh_shift (M 2%nat) (table 2%nat) k).
Proof.
  unfold dirs, shear_ok. cbn [shear].
  destruct (table 0%nat) as [n|], (table 1%nat) as [n'|], (table 2%nat) as [n''|]; cbn [comp];
   repeat match goal with |- context[Req_EM_T ?a ?b] => destruct (Req_EM_T a b) end; intros H; try discriminate;
   (assert (E := H); injection E as <-; clear H);
   (split; [auto|]); unfold mesh_shift; apply v3_eq; cbn [set_comp vx vy vz];
   try (destruct (M 0%nat)); try (destruct (M 1%nat)); try (destruct (M 2%nat)); ring.
Qed.

Lemma coordinate_sum m n a b : (1 <= n)%Z -> exists z : Z,
  mesh_coordinate m n a + mesh_coordinate m n b = IZR z * (2 * PI / IZR n).
Proof.
  intros Hn. apply IZR_le in Hn. unfold mesh_coordinate. destruct m as [m|].
  - exists (Z.of_nat a + Z.of_nat b)%Z. rewrite plus_IZR, <- !INR_IZR_INZ. field. lra.
  - exists (Z.of_nat a + Z.of_nat b + 1 - n)%Z. rewrite minus_IZR, !plus_IZR, <- !INR_IZR_INZ. field. lra.
Qed.
Lemma coordinate_inj m n a b : (1 <= n)%Z -> mesh_coordinate m n a = mesh_coordinate m n b -> a = b.
Proof.
  intros Hn H. apply IZR_le in Hn. pose proof PI_RGT_0 as P. apply INR_eq. unfold mesh_coordinate in H. destruct m as [m|].
  - apply (f_equal (fun x => x * (IZR n / (2 * PI)))) in H.
    replace (2 * PI * INR a / IZR n * (IZR n / (2 * PI))) with (INR a) in H by (field; lra).
    replace (2 * PI * INR b / IZR n * (IZR n / (2 * PI))) with (INR b) in H by (field; lra). exact H.
  - apply (f_equal (fun x => x * (IZR n / (2 * PI)))) in H.
    replace ((2 * INR a + 1 - IZR n) * PI / IZR n * (IZR n / (2 * PI))) with (INR a + (1 - IZR n) / 2) in H by (field; lra).
    replace ((2 * INR b + 1 - IZR n) * PI / IZR n * (IZR n / (2 * PI))) with (INR b + (1 - IZR n) / 2) in H by (field; lra). lra.
Qed.
Lemma small_multiple z s x : e10 < s -> x = IZR z * s -> Rabs x < e10 -> x = 0.
Proof.
  intros Hs -> H. pose proof e10_pos. destruct (Z.eq_dec z 0) as [->|Hz]; [ring|]. exfalso.
  rewrite Rabs_mult, (Rabs_pos_eq s) in H by lra. rewrite <- abs_IZR in H.
  assert (1 <= IZR (Z.abs z)) by (apply IZR_le; lia). nra.
Qed.
Lemma norm_ge_x v : Rabs (vx v) <= vnorm v /\ Rabs (vy v) <= vnorm v /\ Rabs (vz v) <= vnorm v.
Proof.
  unfold vnorm, vdot.
  assert (G : forall a s, a * a <= s -> Rabs a <= sqrt s).
  { intros a s H. rewrite <- sqrt_Rsqr_abs. apply sqrt_le_1_alt. exact H. }
  repeat split; apply G; nra.
Qed.

Section MeshP.
Variable M : nat -> option Z.
Variable table : nat -> option v3.
Variables n1 n2 n3 : Z.
Hypothesis H1 : (1 <= n1)%Z. Hypothesis H2 : (1 <= n2)%Z. Hypothesis H3 : (1 <= n3)%Z.
Local Notation mp := (mesh_point M table n1 n2 n3).

Lemma mesh_injective i j : shear_ok table -> mp i = mp j -> i = j.
Proof.
  destruct i as [[a b] c], j as [[a' b'] c']. intros S E. unfold mesh_point in E. injection E as E1 E2 E3.
  cbn [vx vy vz] in *.
  set (x := mesh_coordinate (M 0%nat) n1) in *. set (y := mesh_coordinate (M 1%nat) n2) in *. set (z := mesh_coordinate (M 2%nat) n3) in *.
  assert (Q : x a = x a' /\ y b = y b' /\ z c = z c').
  { unfold shear_ok in S. unfold mesh_shift, vdot in *. cbn [vx vy vz] in *.
    destruct (table 0%nat) as [n|], (table 1%nat) as [n'|], (table 2%nat) as [n''|]; try contradiction.
    - assert (Y : y b = y b') by lra. assert (Z : z c = z c') by lra. rewrite Y, Z, S, !Rmult_0_l in E1. destruct (M 0%nat); repeat split; lra.
    - assert (Y : x a = x a') by lra. assert (Z : z c = z c') by lra. rewrite Y, Z, S, !Rmult_0_l in E2. destruct (M 1%nat); repeat split; lra.
    - assert (Y : x a = x a') by lra. assert (Z : y b = y b') by lra. rewrite Y, Z, S, !Rmult_0_l in E3. destruct (M 2%nat); repeat split; lra.
    - repeat split; lra. }
  destruct Q as (Q1 & Q2 & Q3). apply coordinate_inj in Q1, Q2, Q3; auto. congruence.
Qed.

Lemma mesh_near_inverse i j : shear_ok table ->
  e10 < 2 * PI / IZR n1 -> e10 < 2 * PI / IZR n2 -> e10 < 2 * PI / IZR n3 ->
  vnorm (vadd (mp i) (mp j)) < e10 -> mp i = vneg (mp j).
Proof.
  intros S S1 S2 S3 H. destruct (norm_ge_x (vadd (mp i) (mp j))) as (N1 & N2 & N3).
  destruct i as [[a b] c], j as [[a' b'] c'].
  destruct (coordinate_sum (M 0%nat) n1 a a' H1) as [z1 X1].
  destruct (coordinate_sum (M 1%nat) n2 b b' H2) as [z2 X2].
  destruct (coordinate_sum (M 2%nat) n3 c c' H3) as [z3 X3].
  pose proof (fun A => small_multiple z1 _ _ S1 X1 A) as Y1.
  pose proof (fun A => small_multiple z2 _ _ S2 X2 A) as Y2.
  pose proof (fun A => small_multiple z3 _ _ S3 X3 A) as Y3. clear X1 X2 X3.
  unfold vadd, mesh_point in *. cbn [vx vy vz] in *.
  set (x := mesh_coordinate (M 0%nat) n1) in *. set (y := mesh_coordinate (M 1%nat) n2) in *. set (z := mesh_coordinate (M 2%nat) n3) in *.
  set (nrm := vnorm _) in *. clearbody nrm.
  unfold shear_ok in S. unfold mesh_shift, vdot, vneg in *. cbn [vx vy vz] in *.
  destruct (table 0%nat) as [n|], (table 1%nat) as [n'|], (table 2%nat) as [n''|]; try contradiction.
  - replace (y b + 0 + (y b' + 0)) with (y b + y b') in N2 by ring. replace (z c + 0 + (z c' + 0)) with (z c + z c') in N3 by ring.
    specialize (Y2 ltac:(lra)). specialize (Y3 ltac:(lra)).
    assert (B : y b = - y b') by lra. assert (C : z c = - z c') by lra. rewrite S, !Rmult_0_l in *.
    assert (X : x a + x a' = 0). { apply Y1. destruct (M 0%nat) as [m|]; [|replace (x a + 0 + (x a' + 0)) with (x a + x a') in N1 by ring; lra].
      rewrite B, C in N1. match type of N1 with Rabs ?u <= _ => replace u with (x a + x a') in N1 by (unfold Rdiv; ring) end. lra. }
    apply v3_eq; cbn [vx vy vz]; try lra. rewrite B, C. replace (x a) with (- x a') by lra. destruct (M 0%nat); unfold Rdiv; ring.
  - replace (x a + 0 + (x a' + 0)) with (x a + x a') in N1 by ring. replace (z c + 0 + (z c' + 0)) with (z c + z c') in N3 by ring.
    specialize (Y1 ltac:(lra)). specialize (Y3 ltac:(lra)).
    assert (B : x a = - x a') by lra. assert (C : z c = - z c') by lra. rewrite S, !Rmult_0_l in *.
    assert (X : y b + y b' = 0). { apply Y2. destruct (M 1%nat) as [m|]; [|replace (y b + 0 + (y b' + 0)) with (y b + y b') in N2 by ring; lra].
      rewrite B, C in N2. match type of N2 with Rabs ?u <= _ => replace u with (y b + y b') in N2 by (unfold Rdiv; ring) end. lra. }
    apply v3_eq; cbn [vx vy vz]; try lra. rewrite B, C. replace (y b) with (- y b') by lra. destruct (M 1%nat); unfold Rdiv; ring.
  - replace (x a + 0 + (x a' + 0)) with (x a + x a') in N1 by ring. replace (y b + 0 + (y b' + 0)) with (y b + y b') in N2 by ring.
    specialize (Y1 ltac:(lra)). specialize (Y2 ltac:(lra)).
    assert (B : x a = - x a') by lra. assert (C : y b = - y b') by lra. rewrite S, !Rmult_0_l in *.
    assert (X : z c + z c' = 0). { apply Y3. destruct (M 2%nat) as [m|]; [|replace (z c + 0 + (z c' + 0)) with (z c + z c') in N3 by ring; lra].
      rewrite B, C in N3. match type of N3 with Rabs ?u <= _ => replace u with (z c + z c') in N3 by (unfold Rdiv; ring) end. lra. }
    apply v3_eq; cbn [vx vy vz]; try lra. rewrite B, C. replace (z c) with (- z c') by lra. destruct (M 2%nat); unfold Rdiv; ring.
  - rewrite !Rplus_0_r in *. specialize (Y1 ltac:(lra)). specialize (Y2 ltac:(lra)). specialize (Y3 ltac:(lra)).
    apply v3_eq; cbn [vx vy vz]; lra.
Qed.

Definition inds := indices (Z.to_nat n1) (Z.to_nat n2) (Z.to_nat n3).
Lemma in_inds i : In i inds <-> in_mesh n1 n2 n3 i.
Proof.
  destruct i as [[a b] c]. unfold inds, indices, in_mesh. rewrite in_flat_map. split.
  - intros (x & Hx & H). apply in_flat_map in H. destruct H as (y & Hy & H). apply in_map_iff in H. destruct H as (z & E & Hz).
    rewrite in_seq in *. injection E as -> -> ->. lia.
  - intros (A & B & C). exists a. split; [apply in_seq; lia|]. apply in_flat_map. exists b. split; [apply in_seq; lia|].
    apply in_map, in_seq. lia.
Qed.
Lemma NoDup_flat_map {A B} (f : A -> list B) l : NoDup l -> (forall x, In x l -> NoDup (f x)) ->
  (forall x y b, In x l -> In y l -> In b (f x) -> In b (f y) -> x = y) -> NoDup (flat_map f l).
Proof.
  induction l as [|x l IH]; cbn; intros N Hf Hd; [constructor|]. inversion N as [|? ? N1 N2]; subst.
  assert (G : forall l1 l2 : list B, NoDup l1 -> NoDup l2 -> (forall b, In b l1 -> ~ In b l2) -> NoDup (l1 ++ l2)).
  { induction l1 as [|u l1 IH1]; cbn; intros l2 M1 M2 Hb; [exact M2|]. inversion M1; subst. constructor.
    - rewrite in_app_iff. intros [Q|Q]; [contradiction|]. apply (Hb u); auto.
    - apply IH1; auto. }
  apply G; [apply Hf; auto|apply IH; auto; intros; eapply Hd; eauto|].
  intros b Hb Q. apply in_flat_map in Q. destruct Q as (y & Hy & Q). assert (x = y) by (eapply Hd; eauto). subst. contradiction.
Qed.
Lemma inds_nodup : NoDup inds.
Proof.
  unfold inds, indices. apply NoDup_flat_map; [apply seq_NoDup| |].
  - intros a _. apply NoDup_flat_map; [apply seq_NoDup| |].
    + intros b _. apply Injective_map_NoDup; [intros u v E; congruence|apply seq_NoDup].
    + intros x y [[p q] r] _ _ Hx Hy. apply in_map_iff in Hx, Hy. destruct Hx as (? & Hx & _), Hy as (? & Hy & _). congruence.
  - intros x y [[p q] r] _ _ Hx Hy. apply in_flat_map in Hx, Hy. destruct Hx as (? & _ & Hx), Hy as (? & _ & Hy).
    apply in_map_iff in Hx, Hy. destruct Hx as (? & Hx & _), Hy as (? & Hy & _). congruence.
Qed.
Lemma lsum_seq f n s : lsum f (seq s n) = rsum n (fun i => f (s + i)%nat).
Proof.
  revert s. induction n as [|n IH]; intros s; [reflexivity|]. cbn [seq lsum]. rewrite IH.
  change (S n) with (1 + n)%nat. rewrite (rsum_split 1 n). cbn [rsum]. rewrite Nat.add_0_r, Rplus_0_l. f_equal.
  apply rsum_ext. intros i _. f_equal. lia.
Qed.
Lemma lsum_flat_map {A B} (f : B -> R) (g : A -> list B) l : lsum f (flat_map g l) = lsum (fun a => lsum f (g a)) l.
Proof. induction l as [|x l IH]; cbn; [reflexivity|]. rewrite lsum_app, IH. reflexivity. Qed.
Lemma lsum_inds g : lsum g inds = rsum (Z.to_nat n1) (fun a => rsum (Z.to_nat n2) (fun b => rsum (Z.to_nat n3) (fun c => g (a, b, c)))).
Proof.
  unfold inds, indices. rewrite lsum_flat_map, lsum_seq. apply rsum_ext. intros a _.
  rewrite lsum_flat_map, lsum_seq. apply rsum_ext. intros b _. rewrite lsum_map, lsum_seq. reflexivity.
Qed.
Lemma inds_nonempty : inds <> [].
Proof. intros E. assert (Q : In (0, 0, 0)%nat inds) by (apply in_inds; cbn; lia). rewrite E in Q. destruct Q. Qed.

Definition pts := map (fun i => (mp i, i)) inds.

Lemma sample_fold nk0 f1 f2 f3 l acc res :
  (forall i, In i l -> let '(a, b, c) := i in
     f1 a = mesh_coordinate (M 0%nat) n1 a /\ f2 b = mesh_coordinate (M 1%nat) n2 b /\ f3 c = mesh_coordinate (M 2%nat) n3 c) ->
  sample M table nk0 f1 f2 f3 l acc = Some res ->
  (l <> [] -> shear_ok table) /\ res = fold_left (add nk0) (map (fun i => (mp i, i)) l) acc.
Proof.
  revert acc. induction l as [|[[a b] c] l IH]; intros acc Hf; cbn [sample map fold_left].
  - intros E. split; [congruence|congruence].
  - destruct (Hf (a, b, c) (or_introl eq_refl)) as (E1 & E2 & E3).
    destruct (shear _ _ _ _ _) as [p|] eqn:S; [|discriminate]. apply shear_spec in S. destruct S as [Sok Ep].
    intros H. apply IH in H; [|intros; apply Hf; right; assumption]. destruct H as [_ H]. split; [intros; exact Sok|].
    rewrite H. f_equal. unfold add. cbn [fst snd]. f_equal. rewrite Ep, E1, E2, E3. reflexivity.
Qed.
End MeshP.

Lemma setup_mesh_reduced M table pbc width physical n1 n2 n3 l :
  setup_mesh M table pbc width physical n1 n2 n3 = Some l ->
  (1 <= n1)%Z /\ (1 <= n2)%Z /\ (1 <= n3)%Z /\ shear_ok table /\
  l = fold_left (add (IZR (n1 * n2 * n3))) (pts M table n1 n2 n3) [].
Proof.
  unfold setup_mesh. destruct (_ && ltb width e10); [discriminate|]. destruct (_ || _); [discriminate|].
  destruct (kline M physical 0 n1) as [f1|] eqn:K1; [|discriminate]. destruct (kline M physical 1 n2) as [f2|] eqn:K2; [|discriminate].
  destruct (kline M physical 2 n3) as [f3|] eqn:K3; [|discriminate].
  apply kline_spec in K1. apply kline_spec in K2. apply kline_spec in K3. destruct K1 as [H1 K1], K2 as [H2 K2], K3 as [H3 K3].
  destruct (sample _ _ _ _ _ _ _ _) as [r|] eqn:S; [|discriminate]. destruct (periodic_ok _ _); [|discriminate]. intros E.
  assert (Er : l = r) by congruence. rewrite Er.
  apply (sample_fold M table n1 n2 n3) in S.
  - destruct S as [S1 S2]. split; [exact H1|]. split; [exact H2|]. split; [exact H3|]. split; [|exact S2].
    apply S1. apply (inds_nonempty n1 n2 n3 H1 H2 H3).
  - intros [[a b] c] Hi. apply (in_inds n1 n2 n3 H1 H2 H3) in Hi. cbn in Hi. split; [apply K1; lia|]. split; [apply K2; lia|apply K3; lia].
Qed.

Lemma mesh_reduced M table pbc width physical n1 n2 n3 l :
  e10 < 2 * PI / IZR n1 -> e10 < 2 * PI / IZR n2 -> e10 < 2 * PI / IZR n3 ->
  setup_mesh M table pbc width physical n1 n2 n3 = Some l ->
  let N := IZR (n1 * n2 * n3) in
  0 < N /\ shear_ok table /\ (1 <= n1)%Z /\ (1 <= n2)%Z /\ (1 <= n3)%Z /\
  reduced N (pts M table n1 n2 n3) l /\
  forall g, (forall k, g (vneg k) = g k) ->
    lsum (fun o => wgt o * g (kpt o)) l = lsum (fun x => g (fst x)) (pts M table n1 n2 n3) / N.
Proof.
  intros S1 S2 S3 H. apply setup_mesh_reduced in H. destruct H as (H1 & H2 & H3 & Sok & E). cbn zeta.
  assert (HN : 0 < IZR (n1 * n2 * n3)) by (apply IZR_lt; nia). set (N := IZR (n1 * n2 * n3)) in *. 
  set (D := fun p => exists i, p = mesh_point M table n1 n2 n3 i).
  assert (HD : forall p q, D p -> D q -> vnorm (vadd p q) < e10 -> p = vneg q).
  { intros p q [i ->] [j ->]. apply mesh_near_inverse; assumption. }
  assert (FD : Forall D (map fst (pts M table n1 n2 n3))).
  { apply Forall_forall. intros p Hp. apply in_map_iff in Hp. destruct Hp as (x & <- & Hx). apply in_map_iff in Hx.
    destruct Hx as (i & <- & Hi). exists i. reflexivity. }
  assert (ND : NoDup (map fst (pts M table n1 n2 n3))).
  { unfold pts. rewrite map_map. cbn. apply Injective_map_NoDup; [|apply inds_nodup].
    intros i j Q. apply (mesh_injective M table n1 n2 n3) in Q; assumption. }
  split; [exact HN|]. split; [exact Sok|]. split; [exact H1|]. split; [exact H2|]. split; [exact H3|]. split.
  - rewrite E. apply (fold_reduced N HN D HD _ [] []); [constructor|exact FD|exact ND|apply reduced_nil].
  - intros g Hg. rewrite E. rewrite (fold_sum N HN D HD g _ Hg [] []); [|constructor|exact FD|exact ND|apply reduced_nil].
    cbn. ring.
Qed.
