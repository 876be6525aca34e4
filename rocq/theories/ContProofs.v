From Coq Require Import Reals Lra Lia ZArith List Bool FunctionalExtensionality Floats.SpecFloat.
From Verif Require Import GeomModel GeomSpec GeomProofs GeomProofs2 GeomProofs3 ContModel ContSpec.
Import ListNotations.
Require Import ZifyBool.
Open Scope R_scope.

(** ** magic numbers *)
Lemma Int_part_bounds x z : IZR z <= x < IZR z + 1 -> Int_part x = z.
Proof.
  intros [H1 H2]. destruct (base_Int_part x) as [B1 B2].
  assert (IZR z < IZR (Int_part x + 1)) by (rewrite plus_IZR; lra).
  assert (IZR (Int_part x) < IZR (z + 1)) by (rewrite plus_IZR; lra).
  apply lt_IZR in H, H0. lia.
Qed.
Lemma trunc_IZR z : trunc (IZR z) = z.
Proof.
  unfold trunc. destruct (Rle_dec 0 (IZR z)).
  - apply Int_part_bounds. lra.
  - rewrite <- opp_IZR. rewrite (Int_part_bounds _ (- z)) by lra. lia.
Qed.
Lemma magic_neg : magic < 0.
Proof. unfold magic. lra. Qed.
Lemma e10_pos : 0 < e10 < 1.
Proof. unfold e10. split; [lra|]. lra. Qed.

Lemma magic_get_int k c00 : c00 = IZR k * magic -> k <> 0%Z -> magic_get c00 = py_nth names (k - 1).
Proof.
  intros -> Hk. unfold magic_get. pose proof magic_neg. pose proof e10_pos.
  replace (IZR k * magic / magic) with (IZR k) by (field; lra).
  rewrite pyround_IZR. replace (IZR k - IZR k) with 0 by ring. rewrite Rabs_R0.
  rewrite (proj2 (ltb_true 0 e10)) by lra.
  assert (1 <= Rabs (IZR k)).
  { rewrite <- abs_IZR. apply IZR_le. lia. }
  rewrite (proj2 (ltb_true e10 _)) by lra. cbn [andb].
  rewrite <- minus_IZR, trunc_IZR. reflexivity.
Qed.

Lemma magic_roundtrip c a : c <> Bravais -> magic_get (cell (magic_set c a) 0 0) = Some c.
Proof.
  intros Hc. rewrite (magic_get_int (magic_number c)).
  - destruct c; try contradiction; reflexivity.
  - destruct c; try contradiction; reflexivity.
  - destruct c; try contradiction; cbn; discriminate.
Qed.

Lemma magic_roundtrip_float c : c <> Bravais -> fmagic_get (fmagic_set c) = Some c.
Proof. intros Hc. destruct c; try contradiction; vm_compute; reflexivity. Qed.

(** ordinary cells *)
Lemma magic_bravais c00 : (forall k, k <> 0%Z -> e10 <= Rabs (IZR k - c00 / magic)) -> magic_get c00 = Some Bravais.
Proof.
  intros H. unfold magic_get. destruct (Z.eq_dec (pyround (c00 / magic)) 0) as [E|E].
  - rewrite E. replace (0 - c00 / magic) with (- (c00 / magic)) by ring. rewrite Rabs_Ropp.
    destruct (ltb e10 (Rabs (c00 / magic))) eqn:L; [|reflexivity]. apply ltb_true in L.
    rewrite (proj2 (ltb_false _ _)) by lra. reflexivity.
  - specialize (H _ E). rewrite (proj2 (ltb_false _ e10)) by lra. rewrite andb_false_r. reflexivity.
Qed.

Lemma magic_crash : exists c00, 12 < c00 < 13 /\ magic_get c00 = None.
Proof.
  exists (123454321 / 10 ^ 7). split; [lra|]. rewrite (magic_get_int (-1000)); [reflexivity| |lia].
  unfold magic. lra.
Qed.
Lemma magic_mistaken : exists c00, 0 < c00 /\ magic_get c00 = Some Slab.
Proof.
  exists (4 * (123454321 / 10 ^ 10)). split; [lra|]. rewrite (magic_get_int (-4)); [reflexivity| |lia].
  unfold magic. lra.
Qed.

Lemma pyround_near x k : Rabs (x - IZR k) < / 2 -> pyround x = k.
Proof.
  intros H. apply Rabs_def2 in H. destruct H as [H1 H2]. unfold pyround.
  destruct (Rle_dec (IZR k) x) as [L|L].
  - rewrite (Int_part_bounds x k) by lra. cbv zeta. rewrite (proj2 (ltb_true _ _)) by lra. reflexivity.
  - assert (E : Int_part x = (k - 1)%Z) by (apply Int_part_bounds; rewrite minus_IZR; lra).
    rewrite E. cbv zeta. rewrite minus_IZR. rewrite (proj2 (ltb_false _ _)) by lra.
    rewrite (proj2 (ltb_true _ _)) by lra. lia.
Qed.

(** a cell within the tolerance of the Chiral code is taken for a Wedge *)
Lemma magic_tolerance : exists c00, Rabs (c00 - 2 * magic) < e10 /\ c00 / magic <> 2 /\
  Rabs (c00 / magic - 2) < e10 /\ magic_get c00 = Some Wedge.
Proof.
  exists ((2 - / 10 ^ 11) * magic). pose proof magic_neg as Hm.
  assert (E : (2 - / 10 ^ 11) * magic / magic = 2 - / 10 ^ 11) by (field; lra).
  split; [|split; [|split]].
  - unfold magic, e10. apply Rabs_def1; lra.
  - rewrite E. lra.
  - rewrite E. unfold e10. apply Rabs_def1; lra.
  - unfold magic_get. rewrite E. rewrite (pyround_near _ 2) by (apply Rabs_def1; lra).
    rewrite (proj2 (ltb_true e10 _)) by (rewrite Rabs_right; unfold e10; lra).
    rewrite (proj2 (ltb_true _ e10)) by (unfold e10; apply Rabs_def1; lra). cbn [andb].
    unfold trunc. destruct (Rle_dec 0 (2 - / 10 ^ 11 - 1)); [|exfalso; lra].
    rewrite (Int_part_bounds _ 0) by lra. reflexivity.
Qed.

(** ** copies *)
Lemma setc_same f i j : setc f i j (f i j) = f.
Proof.
  extensionality x. extensionality y. unfold setc. destruct (Nat.eqb_spec x i), (Nat.eqb_spec y j); cbn; congruence.
Qed.
Lemma setc_other f i j v x y : (x, y) <> (i, j) -> setc f i j v x y = f x y.
Proof.
  intros H. unfold setc. destruct (Nat.eqb_spec x i), (Nat.eqb_spec y j); cbn; try reflexivity. subst. contradiction.
Qed.
Lemma setc_eq f i j v : setc f i j v i j = v.
Proof. unfold setc. rewrite !Nat.eqb_refl. reflexivity. Qed.

(** what stays true of atoms with a container *)
Definition stable (c : ctype) (a : atoms) : Prop :=
  match c with
  | Bravais => True
  | Slab => pbc a = (true, true, true)
  | _ => cell a 0%nat 0%nat = IZR (magic_number c) * magic /\
    match c with
    | Wedge => pbc1 a = true /\ pbc2 a = false
    | Chiral | TwistAndTurn => pbc a = (false, false, true)
    | DoubleChiral | ChiralWedge => pbc a = (true, false, true)
    | ChiralGeneral => pbc a = (true, true, false)
    | _ => True
    end
  end.

Lemma stable_make c a : stable c (make c a).
Proof. destruct c; cbn; auto; unfold pbc1, pbc2; cbn; auto. Qed.

Lemma setcell_00 a i j v : (i, j) <> (0, 0)%nat -> cell (setcell a i j v) 0%nat 0%nat = cell a 0%nat 0%nat.
Proof. intros H. apply setc_other. congruence. Qed.
Lemma opt_cell_00 a i j v : (i, j) <> (0, 0)%nat -> cell (opt_cell a i j v) 0%nat 0%nat = cell a 0%nat 0%nat.
Proof. intros H. destruct v; [apply setcell_00, H|reflexivity]. Qed.
Lemma opt_cell_pbc a i j v : pbc (opt_cell a i j v) = pbc a.
Proof. destruct v; reflexivity. Qed.

Lemma wedge_angle_frame a g ph sc :
  let b := state (wedge_set_angle a g ph sc) in
  cell b 0%nat 0%nat = cell a 0%nat 0%nat /\ cell b 1%nat 0%nat = cell a 1%nat 0%nat /\ pbc b = pbc a /\ slabx b = slabx a.
Proof.
  cbv zeta. unfold wedge_set_angle. destruct g; try (cbn; auto; fail).
  - destruct (Req_EM_T g 0); [cbn; auto|]. destruct (ltb _ e6); [cbn; auto|]. destruct (ltb PI _); [cbn; auto|].
    destruct (_ && _)%bool; [cbn; auto|]. destruct sc; [|cbn; auto]. destruct (ltb _ e10); cbn; auto.
  - destruct (M =? 0)%Z; [cbn; auto|]. destruct (ltb _ e6); [cbn; auto|]. destruct (ltb PI _); [cbn; auto|].
    destruct (_ && _)%bool; [cbn; auto|]. destruct sc; [|cbn; auto]. destruct (ltb _ e10); cbn; auto.
Qed.

Lemma wedge_frame a g h ph pz sc :
  let b := state (wedge_set a g h ph pz sc) in
  cell b 0%nat 0%nat = cell a 0%nat 0%nat /\ (pbc b = pbc a \/ exists z, pbc b = (true, false, z)).
Proof.
  cbv zeta. pose proof (wedge_angle_frame a g ph sc) as (E1 & _ & E2 & _). unfold wedge_set.
  destruct (wedge_set_angle a g ph sc) as [b|b]; cbn [bind state] in *; [|auto].
  destruct h, pz, sc; cbn; unfold setc; cbn; rewrite ?E1; split; eauto.
Qed.

Lemma stable_step c a b : stable c a -> step c a b -> stable c b.
Proof.
  intros Hs Hst. destruct Hst.
  - destruct c; exact Hs.
  - destruct Hs as (H1 & H2 & H3). pose proof (wedge_frame a g h ph pz sc) as (E1 & E2). cbn [stable].
    split; [congruence|]. unfold pbc1, pbc2 in *. destruct E2 as [-> |[z ->]]; auto.
  - destruct Hs as (H1 & H2). cbn [stable]. unfold chiral_set. destruct sc; cbn [negb state with_pos cell pbc];
    rewrite !opt_cell_00, !opt_cell_pbc by discriminate; auto.
  - destruct Hs as (H1 & H2). cbn [stable]. unfold doublechiral_set.
    destruct (match x with Some _ => _ | None => _ end); [cbn; auto|].
    destruct sc; cbn [negb state]; [destruct x|]; cbn [state with_pos cell pbc];
    rewrite ?opt_cell_00, ?opt_cell_pbc by discriminate; auto.
  - destruct c; cbn in H; try (exfalso; intuition discriminate); cbn [stable] in *; rewrite setcell_00 by assumption; cbn [pbc setcell with_cell]; auto.
  - cbn in *. auto.
  - cbn in *. auto.
  - exact Logic.I.
  - cbn in *. auto.
Qed.
Lemma stable_reachable c a : reachable c a -> stable c a.
Proof. induction 1; [apply stable_make|eapply stable_step; eauto]. Qed.

Lemma same_slabx c a s : c <> Slab ->
  same_system c {| cell := cell a; pbc := pbc a; pos := pos a; slabx := s |} a.
Proof. intros H. destruct c; try contradiction; repeat split; reflexivity. Qed.

Lemma copy_eq c a : stable c a -> c <> Slab -> c <> WedgeYAxis ->
  copy c a = {| cell := cell a; pbc := pbc a; pos := pos a; slabx := (0, 0) |}.
Proof.
  intros Hs H1 H2. unfold copy, make.
  destruct c; try contradiction; cbn [stable construct magic_set with_cell with_pbc cell pbc pos slabx pbc1 pbc2 pbc3 fst snd] in *;
   try reflexivity; destruct Hs as [E1 E2]; rewrite <- E1, setc_same; unfold pbc1, pbc2, pbc3 in *; cbn [pbc fst snd];
   try (rewrite E2; reflexivity); try reflexivity.
  destruct (pbc a) as [[p q] w]. cbn in *. destruct E2 as [-> ->]. reflexivity.
Qed.

Lemma copy_same c a : reachable c a -> c <> Slab -> c <> WedgeYAxis -> same_system c (copy c a) a.
Proof. intros H H1 H2. rewrite copy_eq; auto using stable_reachable. apply same_slabx, H1. Qed.

Lemma auto_same c a : reachable c a -> c <> Slab -> c <> WedgeYAxis -> c <> Bravais ->
  exists b, make_auto a = Some (c, b) /\ same_system c b a.
Proof.
  intros H H1 H2 H3. exists (copy c a). split; [|apply copy_same; auto].
  apply stable_reachable in H. unfold make_auto.
  assert (E : cell a 0%nat 0%nat = IZR (magic_number c) * magic).
  { destruct c; try contradiction; apply H. }
  pose proof (magic_roundtrip c a H3) as R. 
  assert (E2 : cell (magic_set c a) 0%nat 0%nat = cell a 0%nat 0%nat).
  { rewrite E. destruct c; try contradiction; reflexivity. }
  rewrite <- E2, R. reflexivity.
Qed.

(** a slab with a lattice vector along x *)
Definition slab_cell : nat -> nat -> R := fun i j => if Nat.eqb i j then 3 else 0.
Definition slab0 : atoms := {| cell := fun _ _ => 0; pbc := (false, false, false); pos := []; slabx := (0, 0) |}.
Lemma copy_slab_differs : exists a r n, reachable Slab a /\ transform Slab (copy Slab a) r n <> transform Slab a r n.
Proof.
  exists (with_cell (make Slab slab0) slab_cell), vzero, (1, 0, 0)%Z. split.
  - eapply r_step; [apply r_make|apply s_slab].
  - intros E. apply (f_equal vx) in E. revert E. unfold transform, o1, o2, o3, cellv. cbn [fst snd Z.eqb].
    cbn [copy make magic_set construct with_cell cell setc Nat.eqb andb slab_cell magic_number]. unfold slab_cell, setc, magic.
    cbn [Nat.eqb andb]. vunf. lra.
Qed.
Lemma copy_wedgey_differs : exists a, reachable WedgeYAxis a /\ pbc2 a = true /\ pbc2 (copy WedgeYAxis a) = false.
Proof.
  exists (with_pbc (make WedgeYAxis slab0) (true, true, false)). split.
  - eapply r_step; [apply r_make|apply s_wedgey].
  - split; reflexivity.
Qed.
(** making a slab overwrites a component of the first lattice vector *)
Lemma make_slab_cell : exists a, cell (make Slab a) 0%nat 0%nat <> cell a 0%nat 0%nat.
Proof.
  exists (with_cell slab0 slab_cell). cbn. unfold setc, slab_cell, magic. cbn. lra.
Qed.

(** ** set(container=...) *)
Lemma set_container_py3 c dst src : exists a, set_container true c dst src = Exc a.
Proof. eexists. reflexivity. Qed.

Lemma pyround_0 : pyround 0 = 0%Z. Proof. exact (pyround_IZR 0). Qed.
Lemma pyround_1 : pyround 1 = 1%Z. Proof. exact (pyround_IZR 1). Qed.
Lemma physical_stored b : negb (pyround (if b : bool then 1 else 0) =? 0)%Z = b.
Proof. destruct b; [rewrite pyround_1|rewrite pyround_0]; reflexivity. Qed.

Lemma set_container_py2 c dst src : valid_source c src ->
  exists a, set_container false c dst src = Ok a /\ pos a = pos dst /\
  (forall r n, transform c a r n = transform c src r n) /\
  (forall n, rotation c a n = rotation c src n) /\ ranges c a = ranges c src.
Proof.
  intros Hv. destruct c; try contradiction; cbn [set_container].
  - destruct Hv as [Ha Hp]. pose proof PI_RGT_0 as HP.
    assert (e6 > 0) by (unfold e6; lra).
    unfold wedge_set, wedge_set_angle. destruct (Req_EM_T (w_angle src) 0); [lra|].
    set (a1 := setcell (setcell dst 2 0 (w_angle src)) 1 1 (if w_physical src then 1 else 0)).
    assert (A1 : w_angle a1 = w_angle src) by reflexivity.
    assert (A2 : w_physical a1 = w_physical src) by (unfold w_physical at 1; cbn; apply physical_stored).
    rewrite A1, A2. rewrite (proj2 (ltb_false _ _)) by lra. rewrite (proj2 (ltb_false _ _)) by lra.
    assert (C : (ltb e12 (Rabs (IZR (pyround (2 * PI / w_angle src)) - 2 * PI / w_angle src)) && w_physical src)%bool = false).
    { destruct (w_physical src); [|apply andb_false_r]. rewrite (proj2 (ltb_false _ _)); [reflexivity|]. apply Hp. reflexivity. }
    rewrite C. cbn [bind]. eexists. split; [reflexivity|]. split; [reflexivity|]. split; [|split].
    + intros r m. reflexivity.
    + intros m. reflexivity.
    + reflexivity.
  - unfold chiral_set. cbn [negb opt_cell]. eexists. split; [reflexivity|]. split; [reflexivity|]. split; [|split]; reflexivity.
  - unfold doublechiral_set. cbn in Hv. rewrite (proj2 (ltb_true _ _) Hv). cbn [negb opt_cell].
    eexists. split; [reflexivity|]. split; [reflexivity|]. split; [|split]; reflexivity.
Qed.

(** ** scaling of the atoms *)
Lemma get_phi_polar x y : resolved x -> resolved y -> rad x y * cos (get_phi x y) = x /\ rad x y * sin (get_phi x y) = y.
Proof.
  intros Hx Hy. destruct (phival_polar x y Hx Hy) as (t & E & _ & H1 & H2). unfold get_phi, rad. rewrite E. auto.
Qed.
Lemma twist_scale_screw da h0 h1 r : clear r ->
  twist_scale da h0 h1 r = V3 (vx (mv (rotz (vz r / h0 * da)) r)) (vy (mv (rotz (vz r / h0 * da)) r)) (vz r / h0 * h1).
Proof.
  intros [Hx Hy]. unfold twist_scale. destruct (get_phi_polar _ _ Hx Hy) as [E1 E2].
  set (q := rad (vx r) (vy r)) in *. set (p := get_phi (vx r) (vy r)) in *. set (f := vz r / h0).
  unfold rotz. vunf. apply v3_eq; cbn [vx vy vz].
  - rewrite cos_plus. rewrite <- E1, <- E2. ring.
  - rewrite sin_plus. rewrite <- E1 at 1. rewrite <- E2 at 1. ring.
  - reflexivity.
Qed.

Lemma screw_twist t k da h0 h1 r : h0 <> 0 -> clear r -> clear (screw t (k * h0) r) ->
  twist_scale da h0 h1 (screw t (k * h0) r) = screw (t + k * da) (k * h1) (twist_scale da h0 h1 r).
Proof.
  intros H0 Hr Hs. rewrite !twist_scale_screw by assumption.
  assert (Ez : vz (screw t (k * h0) r) / h0 = vz r / h0 + k).
  { unfold screw, rotz. vunf. field. exact H0. }
  rewrite Ez. unfold screw, rotz. vunf. rewrite !Rmult_plus_distr_r, !cos_plus, !sin_plus.
  apply v3_eq; cbn [vx vy vz]; ring.
Qed.

Lemma chiral_scaling a angle height a' r n : c_height a <> 0 -> chiral_set a angle height true = Ok a' ->
  clear r -> clear (transform Chiral a r n) ->
  let move := twist_scale (c_angle a' - c_angle a) (c_height a) (c_height a') in
  pos a' = map move (pos a) /\
  move (transform Chiral a r n) = transform Chiral a' (move r) n.
Proof.
  intros Hh Hset Hr Hs. cbv zeta. unfold chiral_set in Hset. cbn [negb] in Hset.
  assert (E : a' = with_pos (opt_cell (opt_cell a 2 0 angle) 1 0 height)
     (map (twist_scale (match angle with None => 0 | Some g => g - c_angle a end) (c_height (opt_cell a 2 0 angle))
        (c_height (opt_cell (opt_cell a 2 0 angle) 1 0 height))) (pos (opt_cell (opt_cell a 2 0 angle) 1 0 height)))) by congruence.
  assert (Ea : c_angle a' = match angle with None => c_angle a | Some g => g end).
  { rewrite E. destruct angle, height; reflexivity. }
  assert (Eh : c_height a' = match height with None => c_height a | Some g => g end).
  { rewrite E. destruct angle, height; reflexivity. }
  split.
  - rewrite E at 1. cbn [pos with_pos].
    replace (pos (opt_cell (opt_cell a 2 0 angle) 1 0 height)) with (pos a) by (destruct angle, height; reflexivity).
    rewrite Ea, Eh. replace (c_height (opt_cell a 2 0 angle)) with (c_height a) by (destruct angle; reflexivity).
    replace (c_height (opt_cell (opt_cell a 2 0 angle) 1 0 height)) with (match height with Some g => g | None => c_height a end)
      by (destruct angle, height; reflexivity).
    destruct angle; [reflexivity|]. replace (c_angle a - c_angle a) with 0 by ring. reflexivity.
  - pose proof (screw_twist (IZR (o3 n) * c_angle a) (IZR (o3 n)) (c_angle a' - c_angle a) (c_height a) (c_height a') r Hh Hr Hs) as S.
    unfold transform, rotation, screw in *. rewrite S. do 2 f_equal. f_equal. ring.
Qed.

Lemma doublechiral_scaling a angle height a' r n : d_height a <> 0 -> doublechiral_set a angle height None true = Ok a' ->
  clear r -> clear (transform DoubleChiral a r n) ->
  let move := twist_scale (d_angle a' - d_angle a) (d_height a) (d_height a') in
  pos a' = map move (pos a) /\
  move (transform DoubleChiral a r n) = transform DoubleChiral a' (move r) n.
Proof.
  intros Hh Hset Hr Hs. cbv zeta. unfold doublechiral_set in Hset. cbn [negb] in Hset.
  assert (E : a' = with_pos (opt_cell (opt_cell a 1 0 angle) 2 0 height)
     (map (twist_scale (match angle with None => 0 | Some g => g - d_angle a end) (d_height (opt_cell a 1 0 angle))
        (d_height (opt_cell (opt_cell a 1 0 angle) 2 0 height))) (pos (opt_cell (opt_cell a 1 0 angle) 2 0 height)))) by congruence.
  assert (Ea : d_angle a' = match angle with None => d_angle a | Some g => g end).
  { rewrite E. destruct angle, height; reflexivity. }
  assert (Eh : d_height a' = match height with None => d_height a | Some g => g end).
  { rewrite E. destruct angle, height; reflexivity. }
  assert (Ex : d_x a' = d_x a).
  { rewrite E. destruct angle, height; reflexivity. }
  split.
  - rewrite E at 1. cbn [pos with_pos].
    replace (pos (opt_cell (opt_cell a 1 0 angle) 2 0 height)) with (pos a) by (destruct angle, height; reflexivity).
    rewrite Ea, Eh. replace (d_height (opt_cell a 1 0 angle)) with (d_height a) by (destruct angle; reflexivity).
    replace (d_height (opt_cell (opt_cell a 1 0 angle) 2 0 height)) with (match height with Some g => g | None => d_height a end)
      by (destruct angle, height; reflexivity).
    destruct angle; [reflexivity|]. replace (d_angle a - d_angle a) with 0 by ring. reflexivity.
  - pose proof (screw_twist (IZR (o3 n) * d_angle a + IZR (o1 n) * (PI + d_angle a * d_x a)) (IZR (o3 n) + IZR (o1 n) * d_x a)
      (d_angle a' - d_angle a) (d_height a) (d_height a') r Hh Hr Hs) as S.
    unfold transform, rotation, screw in *. rewrite S, Ex. do 2 f_equal. f_equal. ring.
Qed.
