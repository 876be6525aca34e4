From Coq Require Import Reals ZArith List Bool Arith Lia Lra Psatz.
From Verif Require Import GeomModel GeomProofs SplModel SplProofs2 AidModel AidSpec.
Import ListNotations.
Open Scope R_scope.

(** ** values along z *)
Definition layer (a : nat -> nat -> nat -> R) (n1 n2 : nat) (d : v3) (x y : R) (k : nat) : R :=
  let i := Z.to_nat (SplModel.cell n1 (vx d) x) in let j := Z.to_nat (SplModel.cell n2 (vy d) y) in
  let tx := x / vx d - INR i in let ty := y / vy d - INR j in
  lin1 (lin1 (a i j k) (a i (S j) k) ty) (lin1 (a (S i) j k) (a (S i) (S j) k) ty) tx.
Lemma trilinear_layers a n1 n2 n3 d x y z : (1 < n1)%nat -> (1 < n2)%nat -> (1 < n3)%nat -> 0 < vx d -> 0 < vy d -> 0 < vz d ->
  inside n1 0 (vx d) x = true -> inside n2 0 (vy d) y = true -> inside n3 0 (vz d) z = true ->
  exists k, (S k < n3)%nat /\ INR k * vz d <= z <= (INR k + 1) * vz d /\
    trilinear a n1 n2 n3 vzero d (V3 x y z) = Some (lin1 (layer a n1 n2 d x y k) (layer a n1 n2 d x y (S k)) (z / vz d - INR k)).
Proof.
  intros H1 H2 H3 D1 D2 D3 I1 I2 I3.
  destruct (cell_ok _ _ _ H1 D1 I1) as (A1 & B1 & C1). destruct (cell_ok _ _ _ H2 D2 I2) as (A2 & B2 & C2). destruct (cell_ok _ _ _ H3 D3 I3) as (A3 & B3 & C3).
  unfold trilinear, layer. cbn [vx vy vz]. replace (vx vzero) with 0 by reflexivity. replace (vy vzero) with 0 by reflexivity. replace (vz vzero) with 0 by reflexivity.
  rewrite I1, I2, I3. cbn [andb]. cbv zeta.
  set (ci := SplModel.cell n1 (vx d) x) in *. set (cj := SplModel.cell n2 (vy d) y) in *. set (ck := SplModel.cell n3 (vz d) z) in *.
  exists (Z.to_nat ck).
  assert (E3 : INR (Z.to_nat ck) = IZR ck) by (rewrite INR_IZR_INZ, Z2Nat.id by exact A3; reflexivity).
  assert (F : forall c r d, 0 < d -> c <= r / d <= c + 1 -> c * d <= r <= (c + 1) * d).
  { intros c r0 d0 P [L1 L2]. apply (Rmult_le_compat_r d0) in L1; [|lra]. apply (Rmult_le_compat_r d0) in L2; [|lra].
    replace (r0 / d0 * d0) with r0 in * by (field; lra). lra. }
  split; [lia|]. split; [rewrite E3; apply F; assumption|].
  unfold gridpoint, get3. rewrite !pyindex_ok by lia.
  replace (Z.to_nat (ci + 1)) with (S (Z.to_nat ci)) by lia. replace (Z.to_nat (cj + 1)) with (S (Z.to_nat cj)) by lia. replace (Z.to_nat (ck + 1)) with (S (Z.to_nat ck)) by lia.
  unfold lin1. f_equal.
  replace ((x - (0 + INR (Z.to_nat ci) * vx d)) / vx d) with (x / vx d - INR (Z.to_nat ci)) by (field; lra).
  replace ((y - (0 + INR (Z.to_nat cj) * vy d)) / vy d) with (y / vy d - INR (Z.to_nat cj)) by (field; lra).
  replace ((z - (0 + INR (Z.to_nat ck) * vz d)) / vz d) with (z / vz d - INR (Z.to_nat ck)) by (field; lra).
  ring.
Qed.
Lemma inside_lin n L x : (2 <= n)%nat -> 0 < L -> 0 <= x <= L -> inside n 0 (L / INR (n - 1)) x = true.
Proof.
  intros Hn HL Hx. unfold inside. assert (0 < INR (n - 1)) by (apply lt_0_INR; lia). apply andb_true_intro. split; apply leb_true; [lra|].
  replace (0 + INR (n - 1) * (L / INR (n - 1))) with L by (field; lra). lra.
Qed.
Lemma step_pos n L : (2 <= n)%nat -> 0 < L -> 0 < L / INR (n - 1).
Proof. intros Hn HL. apply Rdiv_lt_0_compat; [exact HL|apply lt_0_INR; lia]. Qed.
Lemma lin0_top L n : (2 <= n)%nat -> lin0 L n (n - 1) = L.
Proof. intros H. unfold lin0. field. apply not_0_INR. lia. Qed.
Lemma lin0_S L n k : lin0 L n (S k) = lin0 L n k + L / INR (n - 1).
Proof. unfold lin0. rewrite S_INR. ring. Qed.
Lemma lin0_range L n k : (2 <= n)%nat -> 0 < L -> (k < n)%nat -> 0 <= lin0 L n k <= L.
Proof.
  intros Hn HL Hk. pose proof (step_pos n L Hn HL). pose proof (lin0_top L n Hn) as T. unfold lin0 in *. pose proof (pos_INR k). assert (INR k <= INR (n - 1)) by (apply le_INR; lia). split; [nra|]. nra.
Qed.
Section Column.
Variable g : grid.
Hypothesis G : good g.
Variables x y : R.
Hypothesis B : in_box g x y.
Let dz := vz (g_axes g) / INR (g_nz g - 1).
Definition lay (k : nat) : R := layer (g_data g) (g_nx g) (g_ny g) (V3 (vx (g_axes g) / INR (g_nx g - 1)) (vy (g_axes g) / INR (g_ny g - 1)) dz) x y k.
Lemma dz_pos : 0 < dz. Proof. destruct G as (_ & _ & Hz & _ & _ & Lz). apply step_pos; assumption. Qed.
Lemma call_layers z : 0 <= z <= vz (g_axes g) -> exists k, (S k < g_nz g)%nat /\ INR k * dz <= z <= (INR k + 1) * dz /\ g_call g x y z = Some (lin1 (lay k) (lay (S k)) (z / dz - INR k)).
Proof.
  intros Hz. destruct G as (Gx & Gy & Gz & Lx & Ly & Lz). destruct B as [Bx By].
  apply (trilinear_layers (g_data g) (g_nx g) (g_ny g) (g_nz g) (V3 (vx (g_axes g) / INR (g_nx g - 1)) (vy (g_axes g) / INR (g_ny g - 1)) dz) x y z); try lia; cbn [vx vy vz]; try (apply step_pos; assumption); apply inside_lin; assumption.
Qed.
Lemma call_in_cell k z : (S k < g_nz g)%nat -> g_z g k <= z <= g_z g (S k) -> g_call g x y z = Some (lin1 (lay k) (lay (S k)) (z / dz - INR k)).
Proof.
  intros Hk [Z1 Z2]. pose proof dz_pos as D. destruct G as (Gx & Gy & Gz & Lx & Ly & Lz).
  destruct (call_layers z) as (k' & Hk' & [R1 R2] & E).
  { pose proof (lin0_range (vz (g_axes g)) (g_nz g) k Gz Lz ltac:(lia)). pose proof (lin0_range (vz (g_axes g)) (g_nz g) (S k) Gz Lz ltac:(lia)). unfold g_z in *. lra. }
  rewrite E. f_equal. change (g_z g k) with (INR k * dz) in Z1. unfold g_z in Z2. rewrite lin0_S in Z2. change (lin0 (vz (g_axes g)) (g_nz g) k) with (INR k * dz) in Z2. fold dz in Z2.
  assert (A1 : INR k' <= INR k + 1) by (apply (Rmult_le_reg_r dz); [exact D|]; nra). assert (A2 : INR k <= INR k' + 1) by (apply (Rmult_le_reg_r dz); [exact D|]; nra).
  rewrite <- S_INR in A1, A2. apply INR_le in A1. apply INR_le in A2.
  assert (k' = k \/ k' = S k \/ k = S k')%nat as [->|[->| ->]] by lia; [reflexivity| |]; rewrite S_INR in *.
  - assert (z = (INR k + 1) * dz) as -> by nra. unfold lin1. replace ((INR k + 1) * dz / dz) with (INR k + 1) by (field; lra). ring.
  - assert (z = (INR k' + 1) * dz) as -> by nra. unfold lin1. replace ((INR k' + 1) * dz / dz) with (INR k' + 1) by (field; lra). ring.
Qed.
Lemma g_z_S k : g_z g (S k) = g_z g k + dz. Proof. apply lin0_S. Qed.
Lemma g_z_k k : g_z g k = INR k * dz. Proof. reflexivity. Qed.
Lemma call_node k : (k < g_nz g)%nat -> g_call g x y (g_z g k) = Some (lay k).
Proof.
  intros Hk. pose proof dz_pos as D. destruct G as (_ & _ & Gz & _ & _ & _). destruct k as [|k].
  - rewrite (call_in_cell 0) by (try lia; rewrite g_z_S; lra). f_equal. rewrite g_z_k. unfold lin1. cbn [INR]. replace (0 * dz / dz - 0) with 0 by (field; lra). ring.
  - rewrite (call_in_cell k) by (try lia; rewrite g_z_S; lra). f_equal. rewrite g_z_k, S_INR. unfold lin1. replace ((INR k + 1) * dz / dz - INR k) with 1 by (field; lra). ring.
Qed.
(** ** bisection *)
Lemma find_height_n_spec thr k : (S k < g_nz g)%nat -> lay (S k) <= thr <= lay k ->
  forall fuel zmin zmax, g_z g k <= zmin -> zmax <= g_z g (S k) -> zmin <= zmax -> zmax - zmin < INR (S fuel) * ztol ->
  thr <= lin1 (lay k) (lay (S k)) (zmin / dz - INR k) -> lin1 (lay k) (lay (S k)) (zmax / dz - INR k) <= thr ->
  exists h z, find_height_n g thr x y (S fuel) zmin zmax = Some h /\ zmin <= z <= zmax /\ Rabs (h - z) <= ztol / 2 /\ lin1 (lay k) (lay (S k)) (z / dz - INR k) = thr.
Proof.
  intros Hk Hl. assert (Tp : 0 < ztol) by (unfold ztol; lra).
  induction fuel as [|fuel IH]; intros zmin zmax L1 L2 L3 Hw V1 V2; cbn [find_height_n].
  - cbn [INR] in Hw. rewrite (proj2 (ltb_true (zmax - zmin) ztol)) by lra.
    assert (Z : exists z, zmin <= z <= zmax /\ lin1 (lay k) (lay (S k)) (z / dz - INR k) = thr).
    { pose proof dz_pos as D. unfold lin1 in *. destruct (Req_dec (lay k) (lay (S k))) as [E|N].
      - exists zmin. rewrite E in *. split; [lra|]. lra.
      - exists (dz * (INR k + (lay k - thr) / (lay k - lay (S k)))). set (s := (lay k - thr) / (lay k - lay (S k))).
        assert (Hs : s * (lay k - lay (S k)) = lay k - thr) by (unfold s; field; lra).
        assert (Zs : dz * (INR k + s) / dz = INR k + s) by (field; lra). rewrite Zs. split; [|lra].
        assert (C : 0 < lay k - lay (S k)) by lra.
        assert (X1 : zmin / dz - INR k <= s) by (apply (Rmult_le_reg_r (lay k - lay (S k))); [exact C|]; lra).
        assert (X2 : s <= zmax / dz - INR k) by (apply (Rmult_le_reg_r (lay k - lay (S k))); [exact C|]; lra).
        split; apply (Rmult_le_reg_l (/ dz)); try (apply Rinv_0_lt_compat; exact D); rewrite <- Rmult_assoc, Rinv_l, Rmult_1_l by lra; unfold Rdiv in *; lra. }
    destruct Z as (z & Hz & Ez). exists (/ 2 * (zmax + zmin)), z. split; [reflexivity|]. split; [exact Hz|]. split; [|exact Ez]. apply Rabs_le. lra.
  - destruct (ltb (zmax - zmin) ztol) eqn:W.
    + apply ltb_true in W. destruct (IH zmin zmax L1 L2 L3) as (h & z & Eh & Hz & Dz & Ez); try assumption.
      { rewrite S_INR. pose proof (pos_INR fuel). nra. }
      cbn [find_height_n] in Eh. rewrite (proj2 (ltb_true _ _) W) in Eh. exists h, z. repeat split; try assumption; apply Hz.
    + apply ltb_false in W. set (zm := / 2 * (zmax + zmin)). rewrite (call_in_cell k) by (assumption || (unfold zm; lra)).
      destruct (leb thr (lin1 (lay k) (lay (S k)) (zm / dz - INR k))) eqn:C.
      * apply leb_true in C. destruct (IH zm zmax) as (h & z & Eh & Hz & Dz & Ez); try assumption; try (unfold zm; lra).
        { rewrite !S_INR in *. unfold zm. pose proof (pos_INR fuel). nra. }
        exists h, z. repeat split; try assumption; unfold zm in *; lra.
      * assert (C' : lin1 (lay k) (lay (S k)) (zm / dz - INR k) <= thr).
        { destruct (Rle_dec (lin1 (lay k) (lay (S k)) (zm / dz - INR k)) thr) as [Q|Q]; [exact Q|]. exfalso. rewrite (proj2 (leb_true thr _)) in C by lra. discriminate. }
        destruct (IH zmin zm) as (h & z & Eh & Hz & Dz & Ez); try assumption; try (unfold zm; lra).
        { rewrite !S_INR in *. unfold zm. pose proof (pos_INR fuel). nra. }
        exists h, z. repeat split; try assumption; unfold zm in *; lra.
Qed.
Lemma find_height_spec thr k : (S k < g_nz g)%nat -> lay (S k) <= thr <= lay k ->
  exists h z, find_height g thr x y (g_z g k) (g_z g (S k)) = Some h /\ g_z g k <= z <= g_z g (S k) /\ Rabs (h - z) <= ztol / 2 /\ lin1 (lay k) (lay (S k)) (z / dz - INR k) = thr.
Proof.
  intros Hk Hl. pose proof dz_pos as D. unfold find_height. apply (find_height_n_spec thr k Hk Hl); try lra.
  - rewrite g_z_S. lra.
  - rewrite S_INR, INR_IZR_INZ. assert (Tp : 0 < ztol) by (unfold ztol; lra). set (w := (g_z g (S k) - g_z g k) / ztol). destruct (archimed w) as [A1 A2].
    assert (W0 : 0 <= w). { unfold w. rewrite g_z_S. replace (g_z g k + dz - g_z g k) with dz by ring. apply Rlt_le, Rdiv_lt_0_compat; assumption. }
    assert (U : (0 <= up w)%Z) by (apply le_IZR; lra). rewrite Z2Nat.id by exact U.
    replace (g_z g (S k) - g_z g k) with (w * ztol) by (unfold w; field; lra). nra.
  - rewrite g_z_k. unfold lin1. replace (INR k * dz / dz - INR k) with 0 by (field; lra). lra.
  - rewrite g_z_k, S_INR. unfold lin1. replace ((INR k + 1) * dz / dz - INR k) with 1 by (field; lra). lra.
Qed.
(** ** the search from the top *)
Lemma crossing_spec vals thr : forall n, match crossing vals thr n with
  | None => forall k, (k < n)%nat -> ~ (vals (S k) <= thr <= vals k)
  | Some k => (0 < k <= n)%nat /\ vals k <= thr <= vals (k - 1)%nat /\ forall j, (k <= j < n)%nat -> ~ (vals (S j) <= thr <= vals j) end.
Proof.
  induction n as [|n IH]; cbn [crossing]; [intros; lia|]. destruct (leb (vals (S n)) thr && leb thr (vals n)) eqn:C.
  - apply andb_prop in C as [C1 C2]. apply leb_true in C1. apply leb_true in C2. split; [lia|]. replace (S n - 1)%nat with n by lia. split; [lra|]. intros; lia.
  - assert (N : ~ (vals (S n) <= thr <= vals n)).
    { intros [Q1 Q2]. apply leb_true in Q1. apply leb_true in Q2. rewrite Q1, Q2 in C. discriminate. }
    destruct (crossing vals thr n) as [k|].
    + destruct IH as (A1 & A2 & A3). split; [lia|]. split; [exact A2|]. intros j Hj. destruct (Nat.eq_dec j n) as [->|]; [exact N|apply A3; lia].
    + intros k Hk. destruct (Nat.eq_dec k n) as [->|]; [exact N|apply IH; lia].
Qed.
Lemma crossing_ext v w thr : forall n, (forall k, (k <= n)%nat -> v k = w k) -> crossing v thr n = crossing w thr n.
Proof.
  induction n as [|n IH]; intros H; [reflexivity|]. cbn [crossing]. rewrite (H (S n)), (H n) by lia. rewrite IH by (intros; apply H; lia). reflexivity.
Qed.
Lemma g_z_top : g_z g (g_nz g - 1) = vz (g_axes g).
Proof. apply lin0_top. apply G. Qed.
(** the result of a column *)
Lemma column_spec vals thr bottom : (forall k, (k < g_nz g)%nat -> vals k = lay k) ->
  exists h, column g vals thr x y bottom = Some h /\ (no_contour g thr x y /\ h = bottom \/ ~ no_contour g thr x y /\ contour g thr x y h).
Proof.
  intros Hv. unfold column. rewrite (crossing_ext vals lay) by (intros k Hk; apply Hv; destruct G as (_ & _ & Gz & _); lia).
  pose proof (crossing_spec lay thr (g_nz g - 1)) as C. destruct (crossing lay thr (g_nz g - 1)) as [k|].
  - destruct C as (C1 & C2 & C3). destruct k as [|k]; [lia|]. replace (S k - 1)%nat with k in * by lia. assert (Hk : (S k < g_nz g)%nat) by lia.
    destruct (find_height_spec thr k Hk) as (h & z & Eh & Hz & Dz & Ez); [lra|].
    exists h. split; [exact Eh|]. right. split; [intros N; apply (N k (lay k) (lay (S k)) Hk); [apply call_node; lia|apply call_node; lia|lra]|].
    pose proof dz_pos as D. pose proof g_z_top as Top. destruct G as (_ & _ & Gz & _ & _ & Lz).
    assert (Rg : forall j, (j < g_nz g)%nat -> 0 <= g_z g j <= vz (g_axes g)) by (intros j Hj; apply lin0_range; assumption).
    exists z. pose proof (Rg k ltac:(lia)). pose proof (Rg (S k) Hk). split; [lra|]. split; [exact Dz|]. split; [rewrite (call_in_cell k) by assumption; rewrite Ez; reflexivity|].
    intros w Ew Hw z' w' Hz' Ew'.
    assert (Nodes : forall j, (S k <= j <= g_nz g - 1)%nat -> lay j <= thr).
    { assert (Q : forall i j, (S k <= j)%nat -> (j + i = g_nz g - 1)%nat -> lay j <= thr).
      { induction i as [|i IHi]; intros j Hj Hi.
        - replace j with (g_nz g - 1)%nat by lia. rewrite <- Top, call_node in Ew by lia. assert (lay (g_nz g - 1) = w) as -> by congruence. exact Hw.
        - pose proof (IHi (S j) ltac:(lia) ltac:(lia)). pose proof (C3 j ltac:(lia)) as N. destruct (Rle_dec (lay j) thr) as [Y|Y]; [exact Y|]. exfalso. apply N. lra. }
      intros j Hj. apply (Q (g_nz g - 1 - j)%nat j); lia. }
    destruct (Req_dec z' z) as [->|Nz]; [rewrite (call_in_cell k) in Ew' by assumption; rewrite Ez in Ew'; assert (thr = w') by congruence; lra|].
    destruct (call_layers z') as (k' & Hk' & R' & E'); [lra|]. rewrite E' in Ew'. assert (lin1 (lay k') (lay (S k')) (z' / dz - INR k') = w') as <- by congruence.
    pose proof (frac_ok z' dz k' D R') as T. set (t := z' / dz - INR k') in *.
    destruct (le_lt_dec (S k) k') as [Q|Q].
    + pose proof (Nodes k' ltac:(lia)). pose proof (Nodes (S k') ltac:(lia)). unfold lin1. nra.
    + destruct (le_lt_dec k k') as [Q'|Q'].
      * assert (k' = k) as -> by lia. pose proof (Nodes (S k) ltac:(lia)). set (s := z / dz - INR k) in *.
        assert (Ts : s <= t). { unfold s, t. apply Rplus_le_compat_r. unfold Rdiv. apply Rmult_le_compat_r; [apply Rlt_le, Rinv_0_lt_compat; exact D|lra]. }
        rewrite <- Ez. unfold lin1. nra.
      * exfalso. destruct R' as [_ R']. rewrite g_z_k in Hz. assert (INR k' + 1 <= INR k) by (rewrite <- S_INR; apply le_INR; lia). nra.
  - exists bottom. split; [reflexivity|]. left. split; [|reflexivity]. intros k w w' Hk E1 E2. rewrite call_node in E1 by lia. rewrite call_node in E2 by lia.
    assert (lay k = w) as <- by congruence. assert (lay (S k) = w') as <- by congruence. apply C. lia.
Qed.
End Column.

Lemma scan_spec g thr bottom i j : good g -> (i < g_nx g)%nat -> (j < g_ny g)%nat -> let x := g_x g i in let y := g_y g j in
  exists h, scan g thr bottom i j = Some h /\ (no_contour g thr x y /\ h = bottom \/ ~ no_contour g thr x y /\ contour g thr x y h).
Proof.
  intros G Hi Hj x y. pose proof G as (Gx & Gy & Gz & Lx & Ly & Lz).
  assert (B : in_box g x y) by (split; apply lin0_range; assumption).
  apply (column_spec g G x y B). intros k Hk.
  pose proof (call_node g G x y B k Hk) as C.
  pose proof (trilinear_grid (g_data g) (g_nx g) (g_ny g) (g_nz g) (V3 (vx (g_axes g) / INR (g_nx g - 1)) (vy (g_axes g) / INR (g_ny g - 1)) (vz (g_axes g) / INR (g_nz g - 1))) i j k ltac:(lia) ltac:(lia) ltac:(lia)) as T.
  cbn [vx vy vz] in T. specialize (T ltac:(apply step_pos; assumption) ltac:(apply step_pos; assumption) ltac:(apply step_pos; assumption) Hi Hj Hk).
  change (g_call g x y (g_z g k) = Some (g_data g i j k)) in T. congruence.
Qed.
Lemma line_height_spec g r1 r2 thr points bottom i : good g -> let r := line_point r1 r2 points i in in_box g (vx r) (vy r) ->
  exists h, line_height g r1 r2 thr points bottom i = Some h /\ (no_contour g thr (vx r) (vy r) /\ h = bottom \/ ~ no_contour g thr (vx r) (vy r) /\ contour g thr (vx r) (vy r) h).
Proof.
  intros G r B. unfold line_height. fold r. cbv zeta.
  assert (A : all_some (map (fun k => g_call g (vx r) (vy r) (g_z g k)) (seq 0 (g_nz g))) = true).
  { apply forallb_forall. intros o Ho. apply in_map_iff in Ho as (k & <- & Hk). apply in_seq in Hk. rewrite (call_node g G _ _ B) by lia. reflexivity. }
  rewrite A. apply (column_spec g G _ _ B). intros k Hk. rewrite (call_node g G _ _ B) by lia. reflexivity.
Qed.
(** distances along the line *)
Lemma line_distance_spec r1 r2 points i : (2 <= points)%nat -> vz r1 = vz r2 -> line_distance r1 r2 points i = in_plane (line_point r1 r2 points i) r1.
Proof.
  intros Hp Hz. assert (P : 0 < INR points - 1) by (assert (INR 2 <= INR points) by (apply le_INR; exact Hp); cbn [INR] in *; lra).
  unfold line_distance, in_plane, line_point, vnorm, vdot, vsub, vadd, vscale. cbn [vx vy vz]. rewrite <- Hz.
  set (s := INR i / (INR points - 1)). assert (S0 : 0 <= s) by (apply Rmult_le_pos; [apply pos_INR|apply Rlt_le, Rinv_0_lt_compat; exact P]).
  replace ((vx r1 + s * (vx r2 - vx r1) - vx r1) ^ 2 + (vy r1 + s * (vy r2 - vy r1) - vy r1) ^ 2) with (s * s * ((vx r2 - vx r1) * (vx r2 - vx r1) + (vy r2 - vy r1) * (vy r2 - vy r1) + (vz r1 - vz r1) * (vz r1 - vz r1))) by ring.
  rewrite sqrt_mult_alt by nra. rewrite sqrt_square by exact S0. unfold s. field. lra.
Qed.
Lemma line_distance_refuted : exists r1 r2 r1' r2' points i, (2 <= points)%nat /\ vx r1 = vx r1' /\ vy r1 = vy r1' /\ vx r2 = vx r2' /\ vy r2 = vy r2' /\ line_distance r1 r2 points i <> line_distance r1' r2' points i.
Proof.
  exists (V3 0 0 0), (V3 3 0 0), (V3 0 0 0), (V3 3 0 4), 2%nat, 1%nat. repeat split; try lia. unfold line_distance, vnorm, vdot, vsub. cbn [vx vy vz INR].
  replace ((3 - 0) * (3 - 0) + (0 - 0) * (0 - 0) + (0 - 0) * (0 - 0)) with (3 * 3) by ring. replace ((3 - 0) * (3 - 0) + (0 - 0) * (0 - 0) + (4 - 0) * (4 - 0)) with (5 * 5) by ring.
  rewrite !sqrt_square by lra. lra.
Qed.
(** the parallel lines *)
Lemma broad_line_spec r1 r2 width nwidth s points i : (2 <= nwidth)%nat -> 0 < in_plane r1 r2 ->
  let '(a, b) := broad_line r1 r2 width nwidth s in
  let off := - width / 2 + INR s * width / INR (nwidth - 1) in
  line_point a b points i = vadd (line_point r1 r2 points i) (vscale off (broad_normal r1 r2)) /\
  vnorm (broad_normal r1 r2) = 1 /\ vz (broad_normal r1 r2) = 0 /\ vdot (broad_normal r1 r2) (vsub r2 r1) = 0.
Proof.
  intros Hw Hp. unfold broad_line. cbv zeta. set (n := broad_normal r1 r2).
  assert (Hn : INR (nwidth - 1) <> 0) by (apply not_0_INR; lia).
  assert (V : vnorm (vcross (vsub r2 r1) (V3 0 0 1)) = in_plane r1 r2).
  { unfold vnorm, in_plane, vdot, vcross, vsub. cbn [vx vy vz]. f_equal. ring. }
  split; [|split; [|split]].
  - unfold line_point, lin0. generalize (INR i / (INR points - 1)). intros q. apply v3_eq; unfold vadd, vsub, vscale; cbn [vx vy vz]; field; exact Hn.
  - unfold n, broad_normal. cbv zeta. rewrite V. unfold vnorm in *. set (m := vcross (vsub r2 r1) (V3 0 0 1)) in *. set (L := in_plane r1 r2) in *.
    replace (vdot (vscale (/ L) m) (vscale (/ L) m)) with (/ L * / L * vdot m m) by (unfold vdot, vscale; cbn [vx vy vz]; ring).
    assert (Q : vdot m m = L * L) by (rewrite <- V; symmetry; apply sqrt_sqrt; unfold vdot; nra). rewrite Q. replace (/ L * / L * (L * L)) with 1 by (field; lra). apply sqrt_1.
  - unfold n, broad_normal, vscale, vcross. cbn [vx vy vz]. ring.
  - unfold n, broad_normal, vscale, vcross, vdot. cbn [vx vy vz]. ring.
Qed.
Lemma maximum_spec : forall l, l <> [] -> (forall o, In o l -> o <> None) -> exists m, maximum l = Some m /\ In (Some m) l /\ forall w, In (Some w) l -> w <= m.
Proof.
  induction l as [|o l IH]; intros N A; [contradiction|]. destruct l as [|o' l].
  - destruct o as [w|]; [|exfalso; apply (A None); [left; reflexivity|reflexivity]]. exists w. split; [reflexivity|]. split; [left; reflexivity|]. intros v [E|[]]. assert (w = v) by congruence. lra.
  - destruct IH as (m & E & I & M); [discriminate|intros o'' Ho; apply A; right; exact Ho|].
    destruct o as [w|]; [|exfalso; apply (A None); [left; reflexivity|reflexivity]].
    change (maximum (Some w :: o' :: l)) with (match maximum (o' :: l) with Some b => Some (Rmax w b) | None => None end). rewrite E. exists (Rmax w m). split; [reflexivity|]. split.
    + unfold Rmax. destruct (Rle_dec w m); [right; exact I|left; reflexivity].
    + intros v [Ev|Hv]; [assert (w = v) as <- by congruence; apply Rmax_l|]. pose proof (M v Hv). pose proof (Rmax_r w m). lra.
Qed.
Lemma broad_height_spec g r1 r2 width thr points nwidth bottom i : good g -> (2 <= nwidth)%nat -> 0 < in_plane r1 r2 ->
  (forall s, (s < nwidth)%nat -> let p := vadd (line_point r1 r2 points i) (vscale (- width / 2 + INR s * width / INR (nwidth - 1)) (broad_normal r1 r2)) in in_box g (vx p) (vy p)) ->
  exists m, broad_height g r1 r2 width thr points nwidth bottom i = Some m /\
    (exists s, (s < nwidth)%nat /\ let '(a, b) := broad_line r1 r2 width nwidth s in line_height g a b thr points bottom i = Some m) /\
    (forall s w, (s < nwidth)%nat -> (let '(a, b) := broad_line r1 r2 width nwidth s in line_height g a b thr points bottom i = Some w) -> w <= m).
Proof.
  intros G Hw Hp B. unfold broad_height.
  set (F := fun s => let '(a, b) := broad_line r1 r2 width nwidth s in line_height g a b thr points bottom i).
  assert (D : forall s, (s < nwidth)%nat -> F s <> None).
  { intros s Hs. unfold F. pose proof (broad_line_spec r1 r2 width nwidth s points i Hw Hp) as S. destruct (broad_line r1 r2 width nwidth s) as [a b]. cbv zeta in S. destruct S as (S & _).
    destruct (line_height_spec g a b thr points bottom i G) as (h & E & _); [rewrite S; exact (B s Hs)|]. rewrite E. discriminate. }
  destruct (maximum_spec (map F (seq 0 nwidth))) as (m & E & I & M).
  - destruct nwidth; [lia|discriminate].
  - intros o Ho. apply in_map_iff in Ho as (s & <- & Hs). apply in_seq in Hs. apply D. lia.
  - exists m. split; [exact E|]. split.
    + apply in_map_iff in I as (s & Es & Hs). apply in_seq in Hs. exists s. split; [lia|]. unfold F in Es. destruct (broad_line r1 r2 width nwidth s). exact Es.
    + intros s w Hs Ew. apply M. apply in_map_iff. exists s. split; [|apply in_seq; lia]. unfold F. destruct (broad_line r1 r2 width nwidth s). exact Ew.
Qed.
(** ** maximum over a plane *)
Lemma max_fold g z (V : nat * nat -> R) : forall l m, (forall ij, In ij l -> g_call g (g_x g (fst ij)) (g_y g (snd ij)) z = Some (V ij)) ->
  fold_left (max_step g z) l (Some m) = Some (fold_left Rmax (map V l) m).
Proof.
  induction l as [|ij l IH]; intros m H; [reflexivity|]. cbn [fold_left map]. unfold max_step at 2. rewrite (H ij) by (left; reflexivity). apply IH. intros; apply H; right; assumption.
Qed.
Lemma fold_max_ge : forall l m v, (In v l \/ v <= m) -> v <= fold_left Rmax l m.
Proof.
  induction l as [|y l IH]; intros m v H; cbn [fold_left].
  - destruct H as [[]|H]; exact H.
  - apply IH. destruct H as [[->|H]|H]; [right; apply Rmax_r|left; exact H|right]. pose proof (Rmax_l m y). lra.
Qed.
Lemma fold_max_in : forall l m, fold_left Rmax l m = m \/ In (fold_left Rmax l m) l.
Proof.
  induction l as [|y l IH]; intros m; cbn [fold_left]; [left; reflexivity|].
  destruct (IH (Rmax m y)) as [E|E]; [|right; right; exact E]. rewrite E. unfold Rmax. destruct (Rle_dec m y); [right; left; reflexivity|left; reflexivity].
Qed.
Lemma get_max_spec g z : good g -> 0 <= z <= vz (g_axes g) ->
  exists m, get_max_over_xy g z = Some m /\ 0 <= m /\
    (forall i j w, (i < g_nx g)%nat -> (j < g_ny g)%nat -> g_call g (g_x g i) (g_y g j) z = Some w -> w <= m) /\
    (m = 0 \/ exists i j, (i < g_nx g)%nat /\ (j < g_ny g)%nat /\ g_call g (g_x g i) (g_y g j) z = Some m).
Proof.
  intros G Hz. pose proof G as (Gx & Gy & Gz & Lx & Ly & Lz). set (V := fun ij => opt (g_call g (g_x g (fst ij)) (g_y g (snd ij)) z)).
  set (l := flat_map (fun i => map (fun j => (i, j)) (seq 0 (g_ny g))) (seq 0 (g_nx g))).
  assert (L : forall i j, In (i, j) l <-> (i < g_nx g)%nat /\ (j < g_ny g)%nat).
  { intros i j. unfold l. rewrite in_flat_map. split.
    - intros (i' & Hi & Hj). apply in_map_iff in Hj as (j' & E & Hj). apply in_seq in Hi. apply in_seq in Hj. assert (i' = i /\ j' = j) as [-> ->] by (split; congruence). lia.
    - intros [Hi Hj]. exists i. split; [apply in_seq; lia|]. apply in_map_iff. exists j. split; [reflexivity|apply in_seq; lia]. }
  assert (C : forall ij, In ij l -> g_call g (g_x g (fst ij)) (g_y g (snd ij)) z = Some (V ij)).
  { intros [i j] H. apply L in H as [Hi Hj]. unfold V. cbn [fst snd].
    destruct (call_layers g G (g_x g i) (g_y g j)) with (z := z) as (k & _ & _ & E); [split; apply lin0_range; assumption|exact Hz|]. rewrite E. reflexivity. }
  exists (fold_left Rmax (map V l) 0). split; [exact (max_fold g z V l 0 C)|]. split; [apply fold_max_ge; right; lra|]. split.
  - intros i j w Hi Hj E. apply fold_max_ge. left. apply in_map_iff. exists (i, j). split; [|apply L; split; assumption]. unfold V. cbn [fst snd]. rewrite E. reflexivity.
  - destruct (fold_max_in (map V l) 0) as [E|E]; [left; exact E|right]. apply in_map_iff in E as ([i j] & E & H). pose proof (C _ H) as Cij. apply L in H as [Hi Hj]. exists i, j. split; [exact Hi|]. split; [exact Hj|]. cbn [fst snd] in Cij. rewrite Cij, E. reflexivity.
Qed.
(** for negative data the maximum is wrong *)
Lemma get_max_refuted : exists g z m, good g /\ 0 <= z <= vz (g_axes g) /\ get_max_over_xy g z = Some m /\ forall i j w, (i < g_nx g)%nat -> (j < g_ny g)%nat -> g_call g (g_x g i) (g_y g j) z = Some w -> w < m.
Proof.
  set (g := Grid (fun _ _ _ => -1) 2 2 2 (V3 1 1 1)). assert (G : good g) by (unfold good, g; cbn [g_nx g_ny g_nz g_axes vx vy vz]; repeat split; try lia; lra).
  exists g, 0. destruct (get_max_spec g 0 G) as (m & E & M0 & _ & _); [unfold g; cbn [g_axes vz]; lra|]. exists m. split; [exact G|]. split; [unfold g; cbn [g_axes vz]; lra|]. split; [exact E|].
  intros i j w Hi Hj Ew. destruct (call_layers g G (g_x g i) (g_y g j)) with (z := 0) as (k & _ & _ & E2); [split; apply lin0_range; try assumption; unfold g; cbn [g_nx g_ny g_axes vx vy]; try lia; lra|unfold g; cbn [g_axes vz]; lra|].
  rewrite Ew in E2. assert (W : w = lin1 (lay g (g_x g i) (g_y g j) k) (lay g (g_x g i) (g_y g j) (S k)) (0 / (vz (g_axes g) / INR (g_nz g - 1)) - INR k)) by congruence.
  assert (A : forall k, lay g (g_x g i) (g_y g j) k = -1) by (intros; unfold lay, layer, lin1, g; cbn [g_data]; ring). rewrite !A in W. unfold lin1 in W. lra.
Qed.
