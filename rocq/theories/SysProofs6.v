From Coq Require Import FinFun Reals ZArith Znumtheory String List Bool Arith Lia Lra Psatz.
From Verif Require Import GeomModel GeomProofs GeomProofs2 UtilModel UtilProofs SysModel SysSpec SysProofs SysProofs2 SysProofs3 SysProofs4 SysProofs5.
Import ListNotations.
Open Scope R_scope.

Lemma IZR_eq_lt1 (k : Z) x y : x = y + IZR k -> 0 <= x < 1 -> 0 <= y < 1 -> k = 0%Z.
Proof. intros E Hx Hy. assert (-1 < k < 1)%Z; [|lia]. split; apply lt_IZR; [change (IZR (-1)) with (-1)|]; lra. Qed.
Lemma flat_map_nodup1 {A B} (f : A -> list B) l : NoDup l -> (forall a, In a l -> NoDup (f a)) -> (forall a b x, In a l -> In b l -> In x (f a) -> In x (f b) -> a = b) -> NoDup (flat_map f l).
Proof. apply NoDup_flat_map. Qed.
(** ** nanotube *)
Section Nt.
Variables (n m : nat) (Rb : R).
Hypothesis HR : 0 < Rb.
Hypothesis Hnm : (1 <= n + m)%nat.
Let zn := Z.of_nat n.
Let zm := Z.of_nat m.
Definition ng : Z := Z.gcd (2 * Z.of_nat n + Z.of_nat m) (2 * Z.of_nat m + Z.of_nat n).
Let e1 := nt_a1 Rb.
Let e2 := nt_a2 Rb.
Let C := chiral_vector e1 e2 n m.
Let NR := INR n ^ 2 + INR n * INR m + INR m ^ 2.
Lemma nt_basis : hex_basis Rb (nt_a1 Rb) (nt_a2 Rb).
Proof.
  pose proof sqrt3_sq as S. unfold hex_basis, nt_a1, nt_a2, vdot. cbn [vx vy vz]. repeat split; try reflexivity.
  - replace (_ + 0 * 0) with ((sqrt 3 * sqrt 3) * (sqrt 3 * sqrt 3) / 4 * Rb ^ 2 + (sqrt 3 * sqrt 3) / 4 * Rb ^ 2) by field. rewrite S. field.
  - replace (_ + 0 * 0) with ((sqrt 3 * sqrt 3) * (sqrt 3 * sqrt 3) / 4 * Rb ^ 2 + (sqrt 3 * sqrt 3) / 4 * Rb ^ 2) by field. rewrite S. field.
  - replace (_ + 0 * 0) with ((sqrt 3 * sqrt 3) * (sqrt 3 * sqrt 3) / 4 * Rb ^ 2 - (sqrt 3 * sqrt 3) / 4 * Rb ^ 2) by field. rewrite S. field.
Qed.
Let Nz : 0 < NR := nr_pos n m Hnm.
Lemma ng_pos : (0 < ng)%Z.
Proof. apply (g_pos (Z.of_nat n) (Z.of_nat m)); lia. Qed.
Lemma nt_AB : exists A B : Z, (2 * zn + zm = ng * A /\ 2 * zm + zn = ng * B)%Z.
Proof. destruct (perp_multiple zn zm) as (A & B & K & _); try (unfold zn, zm; lia). exists A, B. exact K. Qed.
Definition sA (x y : R) : R := (y * INR n - x * INR m) * IZR ng / (2 * (INR n ^ 2 + INR n * INR m + INR m ^ 2)).
Definition sC (x y : R) : R := (x * (2 * INR n + INR m) + y * (2 * INR m + INR n)) / (2 * (INR n ^ 2 + INR n * INR m + INR m ^ 2)).
Definition bt (b : bool) : R := if b then 2 / 3 - / 100 else 1 / 3 - / 100.
Lemma bt_third b : bt b = 97 / 300 + (if b then 1 / 3 else 0).
Proof. destruct b; unfold bt; lra. Qed.
Definition filt (x y : R) : bool := leb 0 (sA x y) && ltb (sA x y) (1 - / 100000) && leb 0 (sC x y) && ltb (sC x y) (1 - / 100000).
Definition elem (x y : R) : v3 := wrap (chiral_vector (nt_a1 Rb) (nt_a2 Rb) n m) (pt (nt_a1 Rb) (nt_a2 Rb) x y).
Definition nxy : nat := (Nat.max n m + 100)%nat.
Definition AT : list v3 := flat_map (fun x => flat_map (fun y => flat_map (fun b => if filt (IZR x + bt b) (IZR y + bt b) then [elem (IZR x + bt b) (IZR y + bt b)] else []) [false; true]) (zrange nxy)) (zrange nxy).
Definition LT : R := 3 * Rb * sqrt (INR n ^ 2 + INR n * INR m + INR m ^ 2) / IZR ng.
Lemma LT_pos : 0 < LT.
Proof. unfold LT. fold NR. pose proof (IZR_lt _ _ ng_pos). pose proof (sqrt_lt_R0 _ Nz). apply Rmult_lt_0_compat; [nra|]. apply Rinv_0_lt_compat. exact H. Qed.
Lemma norm_c : vnorm C = sqrt 3 * Rb * sqrt NR.
Proof.
  unfold vnorm. unfold C. rewrite (C_sq Rb e1 e2 n m nt_basis). fold NR. replace (3 * Rb ^ 2 * NR) with (3 * (Rb * Rb) * NR) by ring. rewrite sqrt_mult by nra. rewrite sqrt_mult by nra. rewrite sqrt_square by lra. reflexivity.
Qed.
Section AB.
Variables A B : Z.
Hypothesis EA : (2 * zn + zm = ng * A)%Z.
Hypothesis EB : (2 * zm + zn = ng * B)%Z.
Let EAr : 2 * INR n + INR m = IZR ng * IZR A.
Proof. rewrite (INR_IZR_INZ n), (INR_IZR_INZ m), <- !mult_IZR, <- plus_IZR. apply f_equal. exact EA. Qed.
Let EBr : 2 * INR m + INR n = IZR ng * IZR B.
Proof. rewrite (INR_IZR_INZ n), (INR_IZR_INZ m), <- !mult_IZR, <- plus_IZR. apply f_equal. exact EB. Qed.
Let gp : 0 < IZR ng := IZR_lt _ _ ng_pos.
Let av := pt e1 e2 (- IZR B) (IZR A).
Lemma av_dot x y : vdot (pt e1 e2 x y) av = 9 / 2 * Rb ^ 2 * (y * INR n - x * INR m) / IZR ng.
Proof.
  unfold av. rewrite (pt_dot Rb e1 e2 nt_basis). apply (Rmult_eq_reg_r (IZR ng)); [|lra].
  replace (9 / 2 * Rb ^ 2 * (y * INR n - x * INR m) / IZR ng * IZR ng) with (9 / 2 * Rb ^ 2 * (y * INR n - x * INR m)) by (field; lra).
  replace (3 / 2 * Rb ^ 2 * (x * (2 * - IZR B + IZR A) + y * (2 * IZR A + - IZR B)) * IZR ng) with (3 / 2 * Rb ^ 2 * (x * (- 2 * (IZR ng * IZR B) + IZR ng * IZR A) + y * (2 * (IZR ng * IZR A) - IZR ng * IZR B))) by ring.
  rewrite <- EAr, <- EBr. field.
Qed.
Lemma av_sq : vdot av av = LT * LT.
Proof.
  unfold av at 1. rewrite av_dot. unfold LT. fold NR. assert (S : sqrt NR * sqrt NR = NR) by (apply sqrt_sqrt; lra).
  replace (3 * Rb * sqrt NR / IZR ng * (3 * Rb * sqrt NR / IZR ng)) with (9 * Rb ^ 2 * (sqrt NR * sqrt NR) / (IZR ng * IZR ng)) by (field; lra). rewrite S.
  assert (E : IZR ng * (IZR A * INR n - - IZR B * INR m) = 2 * NR).
  { replace (IZR ng * (IZR A * INR n - - IZR B * INR m)) with ((IZR ng * IZR A) * INR n + (IZR ng * IZR B) * INR m) by ring. rewrite <- EAr, <- EBr. unfold NR. ring. }
  replace (IZR A * INR n - - IZR B * INR m) with (2 * NR / IZR ng) by (rewrite <- E; field; lra). field. lra.
Qed.
Lemma abs_a : sqrt (vdot av av) = LT.
Proof. rewrite av_sq. apply sqrt_square. left. exact LT_pos. Qed.
Lemma sa_eq x y : vdot (pt e1 e2 x y) av / LT ^ 2 = sA x y.
Proof.
  rewrite av_dot. unfold LT, sA. fold NR. assert (S : sqrt NR * sqrt NR = NR) by (apply sqrt_sqrt; lra). pose proof (sqrt_lt_R0 _ Nz).
  replace ((3 * Rb * sqrt NR / IZR ng) ^ 2) with (9 * Rb ^ 2 * (sqrt NR * sqrt NR) / (IZR ng * IZR ng)) by (field; lra). rewrite S. field. repeat split; lra.
Qed.
Lemma D_nt : vx e1 * vy e2 - vy e1 * vx e2 = - (3 / 2 * sqrt 3 * Rb ^ 2).
Proof. unfold e1, e2, nt_a1, nt_a2. cbn [vx vy]. replace (_ - _) with (- (/ 2 * (sqrt 3 * sqrt 3) * sqrt 3 * Rb ^ 2)) by field. rewrite sqrt3_sq. field. Qed.
Lemma z_eq x y : (x * INR m - y * INR n) * (vx e1 * vy e2 - vy e1 * vx e2) / vnorm C = sA x y * LT.
Proof.
  rewrite D_nt, norm_c. unfold sA, LT. fold NR. assert (S : sqrt NR * sqrt NR = NR) by (apply sqrt_sqrt; lra). pose proof (sqrt_lt_R0 _ Nz). pose proof sqrt3_lt2.
  replace (2 * NR) with (2 * (sqrt NR * sqrt NR)) by (rewrite S; reflexivity). field. repeat split; lra.
Qed.
Lemma elem_eq x y : V3 (cos (2 * PI * sC x y) * vnorm C / (2 * PI)) (sin (2 * PI * sC x y) * vnorm C / (2 * PI)) (sA x y * LT) = elem x y.
Proof.
  unfold elem. rewrite (wrap_pt Rb (nt_a1 Rb) (nt_a2 Rb) n m HR nt_basis Hnm). fold e1 e2 C. rewrite z_eq. fold (sC x y). apply v3_eq; cbn [vx vy vz]; unfold Rdiv; ring.
Qed.
Lemma elem_up x y (k : Z) : vadd (elem x y) (V3 0 0 (IZR k * LT)) = elem (x - IZR k * IZR B) (y + IZR k * IZR A).
Proof.
  unfold elem. replace (x - IZR k * IZR B) with (x + - (IZR k * IZR B)) by ring. rewrite (wrap_add Rb (nt_a1 Rb) (nt_a2 Rb) n m HR nt_basis Hnm). fold e1 e2 C. fold NR.
  assert (E0 : - (IZR k * IZR B) * (2 * INR n + INR m) + IZR k * IZR A * (2 * INR m + INR n) = 0) by (rewrite EAr, EBr; ring).
  rewrite E0. replace (2 * PI * (0 / (2 * NR))) with 0 by (field; lra). rewrite z_eq.
  assert (EL : sA (- (IZR k * IZR B)) (IZR k * IZR A) = IZR k).
  { unfold sA. fold NR. replace ((IZR k * IZR A * INR n - - (IZR k * IZR B) * INR m) * IZR ng) with (IZR k * ((IZR ng * IZR A) * INR n + (IZR ng * IZR B) * INR m)) by ring. rewrite <- EAr, <- EBr.
    replace ((2 * INR n + INR m) * INR n + (2 * INR m + INR n) * INR m) with (2 * NR) by (unfold NR; ring). field. lra. }
  rewrite EL. unfold vadd, mv, rotz, vdot. cbn [row1 row2 row3 vx vy vz]. rewrite cos_0, sin_0. apply v3_eq; cbn [vx vy vz]; ring.
Qed.
Lemma sA_up x y k : sA (x - k * IZR B) (y + k * IZR A) = sA x y + k.
Proof.
  unfold sA. fold NR. replace (((y + k * IZR A) * INR n - (x - k * IZR B) * INR m) * IZR ng) with ((y * INR n - x * INR m) * IZR ng + k * ((IZR ng * IZR A) * INR n + (IZR ng * IZR B) * INR m)) by ring. rewrite <- EAr, <- EBr.
  replace ((2 * INR n + INR m) * INR n + (2 * INR m + INR n) * INR m) with (2 * NR) by (unfold NR; ring). field. lra.
Qed.
Lemma sC_up x y k : sC (x - k * IZR B) (y + k * IZR A) = sC x y.
Proof. unfold sC. f_equal. rewrite EAr, EBr. ring. Qed.
Lemma sA_round x y k : sA (x + k * INR n) (y + k * INR m) = sA x y.
Proof. unfold sA. f_equal. ring. Qed.
Lemma sC_round x y k : sC (x + k * INR n) (y + k * INR m) = sC x y + k.
Proof. unfold sC. fold NR. replace (_ + _) with (x * (2 * INR n + INR m) + y * (2 * INR m + INR n) + k * (2 * NR)) at 1 by (unfold NR; ring). field. lra. Qed.
Lemma filt_true x y : filt x y = true <-> 0 <= sA x y < 1 - / 100000 /\ 0 <= sC x y < 1 - / 100000.
Proof. unfold filt. rewrite !andb_true_iff, !leb_true, !ltb_true. tauto. Qed.
(** an atom fixes its place in the honeycomb *)
Lemma place P Q b k P' Q' b' k' : filt (IZR P + bt b) (IZR Q + bt b) = true -> filt (IZR P' + bt b') (IZR Q' + bt b') = true ->
  vadd (elem (IZR P + bt b) (IZR Q + bt b)) (V3 0 0 (IZR k * LT)) = vadd (elem (IZR P' + bt b') (IZR Q' + bt b')) (V3 0 0 (IZR k' * LT)) -> P = P' /\ Q = Q' /\ b = b' /\ k = k'.
Proof.
  intros F F' E. apply filt_true in F, F'. rewrite !elem_up in E. apply (wrap_eq Rb _ _ n m HR nt_basis Hnm) in E. destruct E as (j & E1 & E2).
  assert (SC : sC (IZR P + bt b) (IZR Q + bt b) = sC (IZR P' + bt b') (IZR Q' + bt b') + IZR j) by (rewrite <- (sC_up _ _ (IZR k)), E1, E2, sC_round, sC_up; reflexivity).
  assert (SA : sA (IZR P + bt b) (IZR Q + bt b) + IZR k = sA (IZR P' + bt b') (IZR Q' + bt b') + IZR k') by (rewrite <- !sA_up, E1, E2, sA_round, sA_up; reflexivity).
  assert (j = 0)%Z by (apply (IZR_eq_lt1 _ _ _ SC); lra). subst j.
  assert (k' - k = 0)%Z by (apply (IZR_eq_lt1 _ (sA (IZR P + bt b) (IZR Q + bt b)) (sA (IZR P' + bt b') (IZR Q' + bt b'))); [rewrite minus_IZR|..]; lra).
  assert (k = k') by lia. subst k'. rewrite !bt_third in E1, E2.
  destruct (third_int P P' b b' ltac:(lra)) as [-> ->]. destruct (third_int Q Q' b' b' ltac:(lra)) as [-> _]. repeat split; reflexivity.
Qed.
End AB.
Lemma in_zrange k x : In x (zrange k) <-> (- Z.of_nat k <= x < Z.of_nat k)%Z.
Proof.
  unfold zrange. rewrite in_map_iff. split; [intros (i & <- & Hi); apply in_seq in Hi; lia|]. intros Hx. exists (Z.to_nat (x + Z.of_nat k)). split; [lia|apply in_seq; lia].
Qed.
Lemma zrange_nodup k : NoDup (zrange k).
Proof. unfold zrange. apply NoDup_map_in; [intros; lia|apply seq_NoDup]. Qed.
Lemma in_AT q : In q AT <-> exists P Q b, (- Z.of_nat nxy <= P < Z.of_nat nxy)%Z /\ (- Z.of_nat nxy <= Q < Z.of_nat nxy)%Z /\ filt (IZR P + bt b) (IZR Q + bt b) = true /\ q = elem (IZR P + bt b) (IZR Q + bt b).
Proof.
  unfold AT. rewrite in_flat_map. split.
  - intros (P & HP & K). apply in_flat_map in K. destruct K as (Q & HQ & K). apply in_flat_map in K. destruct K as (b & _ & K). apply in_zrange in HP, HQ. destruct (filt (IZR P + bt b) (IZR Q + bt b)) eqn:F; [|destruct K]. destruct K as [<-|[]]. exists P, Q, b. auto.
  - intros (P & Q & b & HP & HQ & F & ->). exists P. split; [apply in_zrange; exact HP|]. apply in_flat_map. exists Q. split; [apply in_zrange; exact HQ|]. apply in_flat_map. exists b. split; [destruct b; cbn [In]; auto|]. rewrite F. left. reflexivity.
Qed.
Lemma elem_0 x y : elem x y = vadd (elem x y) (V3 0 0 (IZR 0 * LT)).
Proof. apply v3_eq; unfold vadd; cbn [vx vy vz]; ring. Qed.
Lemma AT_nodup : NoDup AT.
Proof.
  destruct nt_AB as (A & B & EA & EB). pose proof (place A B EA EB) as PL.
  assert (PL0 : forall P Q b P' Q' b', filt (IZR P + bt b) (IZR Q + bt b) = true -> filt (IZR P' + bt b') (IZR Q' + bt b') = true -> elem (IZR P + bt b) (IZR Q + bt b) = elem (IZR P' + bt b') (IZR Q' + bt b') -> P = P' /\ Q = Q' /\ b = b').
  { intros P Q b P' Q' b' F F' E. rewrite (elem_0 (IZR P + bt b)), (elem_0 (IZR P' + bt b')) in E. destruct (PL _ _ _ _ _ _ _ _ F F' E) as (? & ? & ? & _). auto. }
  unfold AT. apply NoDup_flat_map; [apply zrange_nodup| |].
  - intros P _. apply NoDup_flat_map; [apply zrange_nodup| |].
    + intros Q _. apply NoDup_flat_map; [repeat constructor; cbn; intuition discriminate| |].
      * intros b _. destruct (filt _ _); repeat constructor. intros [].
      * intros b b' x _ _ K K'. destruct (filt (IZR P + bt b) _) eqn:F; [|destruct K]. destruct (filt (IZR P + bt b') _) eqn:F'; [|destruct K']. destruct K as [<-|[]], K' as [E|[]]. destruct (PL0 _ _ _ _ _ _ F' F E) as (_ & _ & ->). reflexivity.
    + intros Q Q' x _ _ K K'. apply in_flat_map in K, K'. destruct K as (b & _ & K), K' as (b' & _ & K'). destruct (filt (IZR P + bt b) _) eqn:F; [|destruct K]. destruct (filt (IZR P + bt b') _) eqn:F'; [|destruct K']. destruct K as [<-|[]], K' as [E|[]]. destruct (PL0 _ _ _ _ _ _ F' F E) as (_ & -> & _). reflexivity.
  - intros P P' x _ _ K K'. apply in_flat_map in K, K'. destruct K as (Q & _ & K), K' as (Q' & _ & K'). apply in_flat_map in K, K'. destruct K as (b & _ & K), K' as (b' & _ & K'). destruct (filt (IZR P + bt b) _) eqn:F; [|destruct K]. destruct (filt (IZR P' + bt b') _) eqn:F'; [|destruct K']. destruct K as [<-|[]], K' as [E|[]]. destruct (PL0 _ _ _ _ _ _ F' F E) as (-> & _ & _). reflexivity.
Qed.
Lemma nt_unfold len : nanotube n m Rb len = Some (AT ++ flat_map (fun i => translate (V3 0 0 ((INR i + 1) * LT)) AT) (seq 0 (len - 1)), INR len * LT).
Proof.
  destruct nt_AB as (A & B & EA & EB). unfold nanotube. cbv zeta. fold zn zm. rewrite nt_step_spec by (unfold zn, zm; lia). change (Z.gcd (2 * zn + zm) (2 * zm + zn)) with ng.
  fold e1 e2. change (vadd (vscale (INR n) e1) (vscale (INR m) e2)) with C. pose proof (IZR_lt _ _ ng_pos) as gp.
  assert (Ea : vscale (/ IZR ng) (vadd (vscale (- IZR (2 * zm + zn)) e1) (vscale (IZR (2 * zn + zm)) e2)) = pt e1 e2 (- IZR B) (IZR A)).
  { rewrite EA, EB, !mult_IZR. apply v3_eq; unfold pt, vadd, vscale; cbn [vx vy vz]; field; lra. }
  rewrite Ea, (abs_a A B EA EB). change (sqrt (vdot C C)) with (vnorm C).
  assert (EAT : flat_map (fun x => flat_map (fun y => flat_map (fun b =>
          let p := vadd (vscale (IZR x + b) e1) (vscale (IZR y + b) e2) in
          let sa := vdot p (pt e1 e2 (- IZR B) (IZR A)) / LT ^ 2 in
          let sc := vdot p C / vnorm C ^ 2 in
          if leb 0 sa && ltb sa (1 - / 100000) && leb 0 sc && ltb sc (1 - / 100000)
          then [V3 (cos (2 * PI * sc) * vnorm C / (2 * PI)) (sin (2 * PI * sc) * vnorm C / (2 * PI)) (sa * LT)] else [])
          [1 / 3 - / 100; 2 / 3 - / 100]) (zrange nxy)) (zrange nxy) = AT).
  { unfold AT. apply flat_map_ext'. intros P _. apply flat_map_ext'. intros Q _. change [1 / 3 - / 100; 2 / 3 - / 100] with (map bt [false; true]). rewrite flat_map_concat_map, map_map, <- flat_map_concat_map. apply flat_map_ext'. intros b _. cbv zeta.
    change (vadd (vscale (IZR P + bt b) e1) (vscale (IZR Q + bt b) e2)) with (pt e1 e2 (IZR P + bt b) (IZR Q + bt b)). rewrite (sa_eq A B EA EB).
    replace (vnorm C ^ 2) with (vdot C C) by (symmetry; rewrite <- Rsqr_pow2; apply Rsqr_sqrt; left; apply (C_sq_pos Rb e1 e2 n m HR nt_basis Hnm)).
    assert (Esc : vdot (pt e1 e2 (IZR P + bt b) (IZR Q + bt b)) C / vdot C C = sC (IZR P + bt b) (IZR Q + bt b)) by apply (pt_turn Rb e1 e2 n m HR nt_basis Hnm). rewrite !Esc. fold (filt (IZR P + bt b) (IZR Q + bt b)). destruct (filt _ _); [|reflexivity]. rewrite <- elem_eq. reflexivity. }
  cbv zeta in EAT. change (Nat.max n m + 100)%nat with nxy. rewrite EAT. reflexivity.
Qed.
End Nt.
