(** Bonds, names, displacements, moments of inertia, energy conservation. *)
From Coq Require Import Reals ZArith List Bool Arith Lia Lra Psatz FunctionalExtensionality String.
From Verif Require Import Vec GeomModel GeomProofs BoxModel BoxSpec BoxProofs.
Import ListNotations.
Open Scope R_scope.

Lemma in_pairs N i j : In (i, j) (pairs N) <-> (i < j < N)%nat.
Proof.
  unfold pairs. rewrite in_flat_map. split.
  - intros (k & Hk & H). apply in_map_iff in H. destruct H as (l & E & Hl). apply in_seq in Hk, Hl. assert (k = i) by congruence. assert (l = j) by congruence. lia.
  - intros H. exists i. split; [apply in_seq; lia|]. apply in_map_iff. exists j. split; [reflexivity|apply in_seq; lia].
Qed.
Lemma nodup_app {A} (l m : list A) : NoDup l -> NoDup m -> (forall x, In x l -> ~ In x m) -> NoDup (l ++ m).
Proof.
  intros Hl Hm H. induction l as [|x l IH]; [exact Hm|]. inversion Hl; subst. cbn. constructor.
  - rewrite in_app_iff. intros [K|K]; [contradiction|]. apply (H x); [left; reflexivity|exact K].
  - apply IH; [assumption|]. intros y Hy. apply H. right. exact Hy.
Qed.
Lemma nodup_pairs N : NoDup (pairs N).
Proof.
  unfold pairs. assert (G : forall l, NoDup l -> NoDup (flat_map (fun i => map (fun j => (i, j)) (seq (S i) (N - S i))) l)); [|apply G, seq_NoDup].
  induction l as [|i l IH]; intros H; [constructor|]. inversion H; subst. cbn [flat_map]. apply nodup_app.
  - apply FinFun.Injective_map_NoDup; [intros x y E; congruence|apply seq_NoDup].
  - apply IH. assumption.
  - intros [p q] K1 K2. apply in_map_iff in K1. destruct K1 as (j & E & _). apply in_flat_map in K2. destruct K2 as (k & Hk & K2). apply in_map_iff in K2. destruct K2 as (j' & E' & _). assert (k = i) by congruence. subst. contradiction.
Qed.
Definition bond_of (b : batoms) (rc : nat -> R) (p : nat * nat) : list bond :=
  match distance false b (Index (fst p)) (Point (Index (snd p))) true with inl _ => [] | inr d => if ltb d ((rc (fst p) + rc (snd p)) * 1.4) then [(fst p, snd p, d)] else [] end.
Lemma bonds_list b rc : construct_bonds false b rc = inr (flat_map (bond_of b rc) (pairs (b_N b))).
Proof.
  unfold construct_bonds. match goal with |- fold_left ?f _ _ = _ => assert (G : forall ps l, fold_left f ps (inr l) = inr (l ++ flat_map (bond_of b rc) ps)) end.
  { induction ps as [|p ps IH]; intros l; cbn [fold_left flat_map]; [rewrite app_nil_r; reflexivity|]. unfold bond_of at 1. unfold distance. cbn [vector negb]. destruct (ltb _ _); rewrite IH; [rewrite <- app_assoc; reflexivity|reflexivity]. }
  apply G.
Qed.
Lemma bonds_exact b rc : exists l, construct_bonds false b rc = inr l /\ (forall i j d, In (i, j, d) l <-> bonded b rc i j d) /\ NoDup (map fst l).
Proof.
  rewrite bonds_list. eexists. split; [reflexivity|]. split.
  - intros i j d. rewrite in_flat_map. unfold bonded. split.
    + intros ([p q] & Hp & H). unfold bond_of in H. cbn [fst snd] in H. destruct (distance false b (Index p) (Point (Index q)) true) as [e|x] eqn:E; [contradiction|]. destruct (ltb x _) eqn:L; [|contradiction]. destruct H as [H|[]]. assert (p = i) by congruence. assert (q = j) by congruence. assert (x = d) by congruence. subst.
      split; [apply in_pairs; exact Hp|]. split; [exact E|apply ltb_true; exact L].
    + intros (H1 & H2 & H3). exists (i, j). split; [apply in_pairs; exact H1|]. unfold bond_of. cbn [fst snd]. rewrite H2, (proj2 (ltb_true _ _) H3). left. reflexivity.
  - generalize (nodup_pairs (b_N b)). generalize (pairs (b_N b)). induction l as [|p l IH]; intros H; [constructor|]. inversion H; subst. cbn [flat_map]. rewrite map_app. apply nodup_app.
    + unfold bond_of. destruct (distance _ _ _ _ _); [constructor|]. destruct (ltb _ _); cbn; repeat constructor. intros [].
    + apply IH. assumption.
    + intros x K1 K2. assert (E1 : x = p). { unfold bond_of in K1. destruct (distance _ _ _ _ _); [contradiction|]. destruct (ltb _ _); [|contradiction]. cbn in K1. destruct K1 as [K1|[]]. rewrite <- K1. symmetry. apply surjective_pairing. }
      apply in_map_iff in K2. destruct K2 as ([[i j] d] & E2 & K2). apply in_flat_map in K2. destruct K2 as (q & Hq & K2). unfold bond_of in K2. destruct (distance _ _ _ _ _); [contradiction|]. destruct (ltb _ _); [|contradiction]. destruct K2 as [K2|[]].
      cbn in E2. assert (q = p). { rewrite <- E1, <- E2. rewrite (surjective_pairing q). congruence. } subst q. contradiction.
Qed.
Lemma bonds_new_numpy b rc : (2 <= b_N b)%nat -> construct_bonds true b rc = inl ValueError.
Proof.
  intros H. unfold construct_bonds. destruct (pairs (b_N b)) as [|p ps] eqn:E.
  - exfalso. assert (K : In (0%nat, 1%nat) (pairs (b_N b))) by (apply in_pairs; lia). rewrite E in K. contradiction.
  - cbn [fold_left]. cbn [distance vector negb]. clear. induction ps as [|q ps IH]; [reflexivity|]. cbn [fold_left]. exact IH.
Qed.
Lemma first_write b rc : exists l, write_vtk false b rc None = inr (l, Some l) /\ (forall i j d, In (i, j, d) l <-> bonded b rc i j d).
Proof. destruct (bonds_exact b rc) as (l & E & H & _). exists l. unfold write_vtk. rewrite E. split; [reflexivity|exact H]. Qed.
(** after the atoms have been moved apart, the old bonds are written *)
Lemma stale_bonds_refuted : exists b b' rc l, b_N b' = b_N b /\ b_cell b' = b_cell b /\ b_pbc b' = b_pbc b /\ write_vtk false b rc None = inr (l, Some l) /\ write_vtk false b' rc (Some l) = inr (l, Some l) /\
  In (0%nat, 1%nat, 1) l /\ ~ exists d, bonded b' rc 0 1 d.
Proof.
  set (bx := fun x => Batoms 2 (fun i => if (i =? 0)%nat then vzero else V3 x 0 0) (M3 (V3 20 0 0) (V3 0 20 0) (V3 0 0 20)) (fun _ => false)).
  assert (D : forall x, 0 <= x -> distance false (bx x) (Index 0) (Point (Index 1)) true = inr x).
  { intros x Hx. unfold distance, vector, wrap, each, bx. cbn [negb coordinates b_pos b_pbc Nat.eqb]. f_equal. unfold vnorm. transitivity (sqrt (x * x)); [f_equal; vunf; ring|apply sqrt_square; exact Hx]. }
  destruct (first_write (bx 1) (fun _ => 1)) as (l & E & H). exists (bx 1), (bx 9), (fun _ => 1), l.
  split; [reflexivity|]. split; [reflexivity|]. split; [reflexivity|]. split; [exact E|]. split; [reflexivity|]. split.
  - apply H. split; [cbn; lia|]. split; [apply D; lra|lra].
  - intros (d & _ & E2 & L). rewrite (D 9) in E2 by lra. assert (d = 9) by congruence. lra.
Qed.
(** ** Names *)
Lemma dict_in d s n t k : NoDup (map fst d) -> (In (t, k) (dict_update d s n) <-> (t = s /\ k = n) \/ (t <> s /\ In (t, k) d)) /\ NoDup (map fst (dict_update d s n)) /\ (forall x, In x (map fst (dict_update d s n)) <-> x = s \/ In x (map fst d)).
Proof.
  induction d as [|[u m] d IH]; intros H; cbn [dict_update].
  - split; [|split].
    + cbn. split; [intros [E|[]]; left; split; congruence|intros [[-> ->]|[_ []]]; left; reflexivity].
    + repeat constructor. intros [].
    + intros x. cbn. intuition congruence.
  - cbn [map fst] in H. inversion H as [|? ? H1 H2]; subst. specialize (IH H2). destruct IH as (I1 & I2 & I3). destruct (String.eqb s u) eqn:E; [apply String.eqb_eq in E; subst u|apply String.eqb_neq in E].
    + split; [|split].
      * cbn [In]. split.
        -- intros [K|K]; [left; split; congruence|]. right. split; [|right; exact K]. intros ->. apply H1. apply in_map_iff. exists (s, k). split; [reflexivity|exact K].
        -- intros [[-> ->]|[N [K|K]]]; [left; reflexivity| |right; exact K]. exfalso. apply N. congruence.
      * cbn [map fst]. constructor; assumption.
      * intros x. cbn [map fst In]. intuition congruence.
    + split; [|split].
      * cbn [In]. rewrite I1. split.
        -- intros [K|[K|[N K]]]; [right; split; [congruence|left; exact K]|left; exact K|right; split; [exact N|right; exact K]].
        -- intros [K|[N [K|K]]]; [right; left; exact K|left; exact K|right; right; split; assumption].
      * cbn [map fst]. constructor; [|exact I2]. rewrite I3. intros [K|K]; [congruence|contradiction].
      * intros x. cbn [map fst In]. rewrite I3. intuition congruence.
Qed.
Lemma composition_exact symbols : NoDup (map fst (composition symbols)) /\ forall s n, In (s, n) (composition symbols) <-> In s symbols /\ n = count s symbols.
Proof.
  unfold composition.
  assert (G : forall l d, NoDup (map fst d) -> (forall s n, In (s, n) d -> n = count s symbols) ->
    NoDup (map fst (fold_left (fun d s => dict_update d s (count s symbols)) l d)) /\ forall s n, In (s, n) (fold_left (fun d s => dict_update d s (count s symbols)) l d) <-> (In s l \/ In s (map fst d)) /\ n = count s symbols).
  { induction l as [|x l IH]; intros d Hd Hc; cbn [fold_left].
    - split; [exact Hd|]. intros s n. split.
      + intros K. split; [right; apply in_map_iff; exists (s, n); split; [reflexivity|exact K]|apply Hc; exact K].
      + intros ([[]|K] & ->). apply in_map_iff in K. destruct K as ([t m] & E & K). cbn in E. subst t. rewrite <- (Hc s m K). exact K.
    - destruct (IH (dict_update d x (count x symbols))) as [A B].
      + apply (dict_in d x (count x symbols) x 0%nat Hd).
      + intros s n K. apply (proj1 (dict_in d x (count x symbols) s n Hd)) in K. destruct K as [[-> ->]|[_ K]]; [reflexivity|apply Hc; exact K].
      + split; [exact A|]. intros s n. rewrite B. rewrite (proj2 (proj2 (dict_in d x (count x symbols) x 0%nat Hd)) s). cbn [In]. intuition congruence. }
  destruct (G symbols [] ltac:(constructor) ltac:(intros s n [])) as [A B]. split; [exact A|]. intros s n. rewrite B. cbn [map In]. intuition.
Qed.
Lemma name_first s : n_data s = None -> fst (get_name s) = composition (n_symbols s).
Proof. intros H. unfold get_name. rewrite H. reflexivity. Qed.
Lemma set_name_refuted s x : fst (get_name (set_name s x)) = fst (get_name s).
Proof. unfold get_name, set_name. cbn [n_data n_symbols]. destruct (n_data s); reflexivity. Qed.
Lemma append_refuted s x : fst (get_name (append_symbol (snd (get_name s)) x)) = fst (get_name s).
Proof. unfold get_name, append_symbol. destruct (n_data s) eqn:E; cbn [snd n_data fst]; [rewrite E|]; reflexivity. Qed.
(** ** Random displacements *)
Lemma shift_norm dR xi phi theta r i : vnorm (vsub (random_shift dR xi phi theta r i) (r i)) = Rabs (Rmin (dR i / 2 * xi i) (dR i)).
Proof.
  unfold random_shift. set (k := Rmin _ _). unfold vnorm. rewrite <- (sqrt_Rsqr_abs k). f_equal. unfold Rsqr. pose proof (sin2_cos2 (theta i)) as A. pose proof (sin2_cos2 (phi i)) as B. unfold Rsqr in *. vunf.
  set (st := sin (theta i)) in *. set (ct := cos (theta i)) in *. set (sp := sin (phi i)) in *. set (cp := cos (phi i)) in *.
  transitivity (k * k * (st * st * (sp * sp + cp * cp) + ct * ct)); [ring|]. rewrite B. rewrite Rmult_1_r, A. ring.
Qed.
Lemma shift_bound dR xi phi theta r i : 0 <= dR i -> - 2 <= xi i -> vnorm (vsub (random_shift dR xi phi theta r i) (r i)) <= dR i.
Proof. intros H X. rewrite shift_norm. apply Rabs_le. split; [apply Rmin_glb; nra|apply Rmin_r]. Qed.
Lemma shift_refuted dR phi theta r i : 0 < dR i -> forall K, exists xi, K < vnorm (vsub (random_shift dR xi phi theta r i) (r i)).
Proof.
  intros H K. exists (fun _ => - (2 * (Rabs K + 1) / dR i)). rewrite shift_norm. pose proof (Rle_abs K). pose proof (Rabs_pos K). assert (E : dR i / 2 * - (2 * (Rabs K + 1) / dR i) = - (Rabs K + 1)) by (field; lra).
  rewrite E, Rmin_left by lra. rewrite Rabs_left by lra. lra.
Qed.
(** ** Moments of inertia *)
Lemma norm2 v : vnorm v ^ 2 = vdot v v.
Proof. unfold vnorm. rewrite <- Rsqr_pow2. apply Rsqr_sqrt. unfold vdot. nra. Qed.
Lemma inertia_symmetric N m r i j : inertia N m r i j = inertia N m r j i.
Proof. unfold inertia. rewrite (Nat.eqb_sym j i). f_equal. apply rsum_ext. intros; ring. Qed.
Lemma inertia_form N m r u : rsum 3 (fun i => rsum 3 (fun j => coord u i * inertia N m r i j * coord u j)) = moment N m r u.
Proof.
  unfold moment, inertia. cbn zeta. cbn [rsum Nat.eqb coord]. induction N as [|N IH]; cbn [rsum]; [ring|]. rewrite <- IH. rewrite norm2. cbn [coord]. vunf. ring.
Qed.
Section Gram.
Variables u v w : v3.
Lemma gram r : vdot (vcross u v) r * vdot (vcross u v) w = 
  vdot u u * (vdot v v * vdot r w - vdot v w * vdot r v) - vdot u v * (vdot v u * vdot r w - vdot v w * vdot r u) + vdot u w * (vdot v u * vdot r v - vdot v v * vdot r u).
Proof. vunf. ring. Qed.
End Gram.
Lemma parseval u v w r : vdot u u = 1 -> vdot v v = 1 -> vdot w w = 1 -> vdot u v = 0 -> vdot u w = 0 -> vdot v w = 0 -> vdot u r ^ 2 + vdot v r ^ 2 + vdot w r ^ 2 = vdot r r.
Proof.
  intros U V W A B C. pose proof (gram u v w w) as G1. pose proof (gram u v w r) as G2. pose proof (gram u v r r) as G3.
  assert (S1 : forall a b, vdot a b = vdot b a) by (intros; vunf; ring).
  rewrite (S1 v u), (S1 w v) in G1. rewrite (S1 v u) in G2, G3. rewrite U, V, W, A, B, C in G1. rewrite U, V, A, B, C in G2. rewrite U, V, A in G3. 
  set (x := vdot (vcross u v) r) in *. set (y := vdot (vcross u v) w) in *. rewrite (S1 r w) in G2. rewrite (S1 r v), (S1 r u) in G3. assert (x * y = vdot w r) by lra. assert (y * y = 1) by lra. assert (x * x = vdot r r - vdot v r ^ 2 - vdot u r ^ 2) by lra. 
  assert (vdot w r ^ 2 = x * x); [|lra]. replace (vdot w r ^ 2) with ((x * y) ^ 2) by (rewrite H; reflexivity). transitivity (x * x * (y * y)); [ring|rewrite H0; ring].
Qed.
Section Eigh.
Context (eigh : (nat -> nat -> R) -> (nat -> R) * (nat -> nat -> R)) (N : nat) (m : nat -> R) (r : nat -> v3) (rcm : bool).
Notation q := (seen rcm N m r).
Context (HE : eigh_contract eigh (inertia N m q)).
Notation res := (moments_of_inertia eigh N m r rcm).
Lemma eigh_at : (forall k l, (k < 3)%nat -> (l < 3)%nat -> vdot (column (snd res) k) (column (snd res) l) = if (k =? l)%nat then 1 else 0) /\
  (forall k i, (k < 3)%nat -> (i < 3)%nat -> rsum 3 (fun j => inertia N m q i j * snd res j k) = fst res k * snd res i k).
Proof. change (moments_of_inertia eigh N m r rcm) with (eigh (inertia N m q)). apply HE. intros i j _ _. apply inertia_symmetric. Qed.
Lemma moments_are k : (k < 3)%nat -> fst res k = moment N m q (column (snd res) k).
Proof.
  intros Hk. destruct eigh_at as [O V]. rewrite <- inertia_form. 
  assert (E : forall i, (i < 3)%nat -> coord (column (snd res) k) i = snd res i k) by (intros i Hi; three i; reflexivity).
  transitivity (rsum 3 (fun i => snd res i k * (fst res k * snd res i k))).
  - pose proof (O k k Hk Hk) as Q. rewrite Nat.eqb_refl in Q. unfold vdot, column in Q. cbn [vx vy vz] in Q. cbn [rsum]. transitivity (fst res k * (snd res 0%nat k * snd res 0%nat k + snd res 1%nat k * snd res 1%nat k + snd res 2%nat k * snd res 2%nat k)); [rewrite Q; ring|ring].
  - apply rsum_ext. intros i Hi. rewrite <- (V k i Hk Hi). rewrite E by exact Hi. rewrite <- rsum_scal. apply rsum_ext. intros j Hj. rewrite E by exact Hj. ring.
Qed.
Lemma moment_pos u : (forall k, (k < N)%nat -> 0 <= m k) -> 0 <= moment N m q u.
Proof. intros H. unfold moment. apply rsum_nonneg. intros k Hk. apply Rmult_le_pos; [apply H; exact Hk|apply pow2_ge_0]. Qed.
Lemma axes_unit k l : (k < 3)%nat -> (l < 3)%nat -> vdot (column (snd res) k) (column (snd res) l) = if (k =? l)%nat then 1 else 0.
Proof. apply eigh_at. Qed.
Lemma cross2 u s : vdot u u = 1 -> vnorm (vcross u s) ^ 2 = vdot s s - vdot u s ^ 2.
Proof. intros H. rewrite norm2. transitivity (vdot u u * vdot s s - vdot u s ^ 2); [vunf; ring|rewrite H; ring]. Qed.
Lemma sum_moments : fst res 0%nat + fst res 1%nat + fst res 2%nat = 2 * rsum N (fun k => m k * vnorm (q k) ^ 2).
Proof.
  rewrite !moments_are by lia. unfold moment. rewrite <- !rsum_plus, <- rsum_scal. apply rsum_ext. intros k _. 
  pose proof (axes_unit 0 0 ltac:(lia) ltac:(lia)) as A. pose proof (axes_unit 1 1 ltac:(lia) ltac:(lia)) as B. pose proof (axes_unit 2 2 ltac:(lia) ltac:(lia)) as C. cbn [Nat.eqb] in A, B, C.
  rewrite !cross2 by assumption. pose proof (parseval _ _ _ (q k) A B C (axes_unit 0 1 ltac:(lia) ltac:(lia)) (axes_unit 0 2 ltac:(lia) ltac:(lia)) (axes_unit 1 2 ltac:(lia) ltac:(lia))) as P. rewrite norm2. nra.
Qed.
Lemma triangle_moments a b c : (a < 3)%nat -> (b < 3)%nat -> (c < 3)%nat -> a <> b -> b <> c -> a <> c -> (forall k, (k < N)%nat -> 0 <= m k) -> fst res a <= fst res b + fst res c.
Proof.
  intros Ha Hb Hc N1 N2 N3 Hm. rewrite !moments_are by assumption. unfold moment. rewrite <- rsum_plus. apply rsum_le. intros k Hk. rewrite <- Rmult_plus_distr_l. apply Rmult_le_compat_l; [apply Hm; exact Hk|].
  pose proof (axes_unit a a Ha Ha) as A. pose proof (axes_unit b b Hb Hb) as B. pose proof (axes_unit c c Hc Hc) as C. rewrite Nat.eqb_refl in A, B, C. rewrite !cross2 by assumption.
  pose proof (axes_unit a b Ha Hb) as X. pose proof (axes_unit a c Ha Hc) as Y. pose proof (axes_unit b c Hb Hc) as Z. rewrite (proj2 (Nat.eqb_neq _ _) N1) in X. rewrite (proj2 (Nat.eqb_neq _ _) N3) in Y. rewrite (proj2 (Nat.eqb_neq _ _) N2) in Z.
  pose proof (parseval _ _ _ (q k) A B C X Y Z) as P. nra.
Qed.
End Eigh.
(** Steiner: the moment about an axis through the centre of mass, and translations *)
Lemma centre_sum N m r : rsum N m <> 0 -> let c := centre N m r in rsum N (fun k => m k * vx (r k)) = rsum N m * vx c /\ rsum N (fun k => m k * vy (r k)) = rsum N m * vy c /\ rsum N (fun k => m k * vz (r k)) = rsum N m * vz c.
Proof. intros H c. unfold c, centre. cbn [vx vy vz]. repeat split; field; exact H. Qed.
Lemma moment_expand N m r d u : moment N m (fun k => vsub (r k) d) u = moment N m r u
  - 2 * vdot (vcross u (V3 (rsum N (fun k => m k * vx (r k))) (rsum N (fun k => m k * vy (r k))) (rsum N (fun k => m k * vz (r k))))) (vcross u d) + rsum N m * vdot (vcross u d) (vcross u d).
Proof.
  unfold moment. induction N as [|N IH]; cbn [rsum]; [vunf; ring|]. rewrite IH, !norm2. vunf. ring.
Qed.
Lemma steiner N m r u : rsum N m <> 0 -> moment N m r u = moment N m (fun k => vsub (r k) (centre N m r)) u + rsum N m * vnorm (vcross u (centre N m r)) ^ 2.
Proof.
  intros H. destruct (centre_sum N m r H) as (A & B & C). rewrite (moment_expand N m r (centre N m r) u), A, B, C, norm2. vunf. ring.
Qed.
Lemma inertia_translated N m r d i j : rsum N m <> 0 -> inertia N m (fun k => vsub (vadd (r k) d) (centre N m (fun k => vadd (r k) d))) i j = inertia N m (fun k => vsub (r k) (centre N m r)) i j.
Proof.
  intros H. assert (E : forall k, vsub (vadd (r k) d) (centre N m (fun k => vadd (r k) d)) = vsub (r k) (centre N m r)); [|unfold inertia; cbn zeta; f_equal; [destruct (i =? j)%nat; [|reflexivity]|]; apply rsum_ext; intros k _; rewrite E; reflexivity].
  intros k. assert (S3 : forall f x, rsum N (fun k => m k * (f k + x)) = rsum N (fun k => m k * f k) + rsum N m * x).
  { intros f x. rewrite <- rsum_scal_r, <- rsum_plus. apply rsum_ext. intros; ring. }
  unfold centre. cbn [vadd vx vy vz]. rewrite !S3. apply v3_eq; cbn [vsub vadd vx vy vz]; field; exact H.
Qed.
(** ** Energy conservation *)
Lemma rsum_nonneg_0 n f : (forall i, (i < n)%nat -> 0 <= f i) -> rsum n f = 0 -> forall i, (i < n)%nat -> f i = 0.
Proof.
  induction n as [|n IH]; intros P Z i Hi; [lia|]. cbn [rsum] in Z. pose proof (rsum_nonneg n f (fun j Hj => P j ltac:(lia))) as Q. pose proof (P n ltac:(lia)) as T.
  destruct (Nat.eq_dec i n) as [->|E]; [lra|]. apply IH; [intros; apply P; lia|lra|lia].
Qed.
Lemma variance_nonneg n x : 0 <= variance n x.
Proof. unfold variance. destruct n as [|n]; [cbn; unfold Rdiv; rewrite Rmult_0_l; lra|]. unfold Rdiv. apply Rmult_le_pos; [apply rsum_nonneg; intros; apply pow2_ge_0|]. left. apply Rinv_0_lt_compat. apply lt_0_INR. lia. Qed.
Lemma check_iff n tol epot ekin : 0 <= tol -> check_energy_conservation n tol epot ekin = true <-> variance n (fun i => epot i + ekin i) < tol ^ 2 * variance n epot.
Proof.
  intros Ht. unfold check_energy_conservation. rewrite ltb_true. pose proof (variance_nonneg n epot) as P. pose proof (variance_nonneg n (fun i => epot i + ekin i)) as Q.
  assert (E : tol * sqrt (variance n epot) = sqrt (tol ^ 2 * variance n epot)) by (rewrite sqrt_mult by (try apply pow2_ge_0; assumption); rewrite sqrt_pow2 by exact Ht; reflexivity). rewrite E. split.
  - intros H. apply sqrt_lt_0_alt. exact H.
  - intros H. apply sqrt_lt_1_alt. split; assumption.
Qed.
Lemma variance_const n x : (0 < n)%nat -> all_equal n x -> variance n x = 0.
Proof.
  intros Hn H. unfold variance. assert (K : forall i, (i < n)%nat -> x i = x 0%nat) by (intros; apply H; lia). assert (Nz : INR n <> 0) by (apply not_0_INR; lia).
  rewrite (rsum_ext n x (fun _ => x 0%nat)) by exact K. rewrite rsum_const. rewrite rsum_eq0; [unfold Rdiv; ring|]. intros i Hi. rewrite (K i Hi). field. exact Nz.
Qed.
(** atoms that do not feel forces: the total energy is constant and the answer is no *)
Lemma conserved_refuted n tol epot ekin : (0 < n)%nat -> all_equal n epot -> all_equal n (fun i => epot i + ekin i) -> check_energy_conservation n tol epot ekin = false.
Proof.
  intros Hn A B. unfold check_energy_conservation. apply ltb_false. rewrite !variance_const by assumption. rewrite sqrt_0. lra.
Qed.
Lemma check_shift n tol epot ekin c : (0 < n)%nat -> check_energy_conservation n tol (fun i => epot i + c) ekin = check_energy_conservation n tol epot ekin.
Proof.
  intros Hn. unfold check_energy_conservation. assert (Nz : INR n <> 0) by (apply not_0_INR; lia).
  assert (V : forall x, variance n (fun i => x i + c) = variance n x). { intros x. unfold variance. f_equal. apply rsum_ext. intros i _. rewrite rsum_plus, rsum_const. f_equal. field. exact Nz. }
  rewrite V. f_equal. f_equal. rewrite <- (V (fun i => epot i + ekin i)). f_equal. apply functional_extensionality. intros; ring.
Qed.
Lemma check_conserved n tol epot ekin : (0 < n)%nat -> 0 < tol -> all_equal n (fun i => epot i + ekin i) -> ~ all_equal n epot -> check_energy_conservation n tol epot ekin = true.
Proof.
  intros Hn Ht A B. apply check_iff; [lra|]. rewrite (variance_const n _ Hn A). apply Rmult_lt_0_compat; [apply pow_lt; exact Ht|]. destruct (Rle_lt_or_eq_dec 0 _ (variance_nonneg n epot)) as [H|H]; [exact H|]. exfalso. apply B.
  assert (Nz : 0 < INR n) by (apply lt_0_INR; lia). unfold variance in H. set (mu := rsum n epot / INR n) in *.
  assert (Z : rsum n (fun i => (epot i - mu) ^ 2) = 0). { apply Rmult_eq_reg_r with (/ INR n); [|apply Rinv_neq_0_compat; lra]. rewrite Rmult_0_l. symmetry. exact H. }
  assert (K : forall i, (i < n)%nat -> epot i = mu). { intros i Hi. pose proof (rsum_nonneg_0 n (fun i => (epot i - mu) ^ 2) (fun j _ => pow2_ge_0 _) Z i Hi) as Q. cbn beta in Q. nra. }
  intros i j Hi Hj. rewrite !K by assumption. reflexivity.
Qed.
