From Coq Require Import Reals ZArith String List Bool Arith Lia Lra Psatz.
From Verif Require Import GeomModel BzpModel BzpSpec.
Import ListNotations.
Open Scope R_scope.

Lemma v3_eq a b c a' b' c' : a = a' -> b = b' -> c = c' -> V3 a b c = V3 a' b' c'. Proof. congruence. Qed.
Lemma dual i j : (i < 3)%nat -> (j < 3)%nat -> vdot (direct i) (recip j) = if (i =? j)%nat then 1 else 0.
Proof. intros hi hj. destruct i as [|[|[|i]]]; try lia; destruct j as [|[|[|j]]]; try lia; unfold vdot, direct, recip; cbn [nth vx vy vz Nat.eqb]; lra. Qed.
Lemma wave_dot v : wave (mv fcc_A v) = v.
Proof. destruct v as [x y z]. unfold wave, mv, fcc_A, vdot, recip. cbn [nth vx vy vz row1 row2 row3]. apply v3_eq; lra. Qed.
(** the points are the textbook ones *)
Lemma points name s : find name fcc_points = ZOk s <-> exists k, textbook name = Some k /\ wave s = k /\ s = V3 (vdot (direct 0) k) (vdot (direct 1) k) (vdot (direct 2) k).
Proof.
  unfold fcc_points, textbook. cbn [find].
  assert (D : forall v, mv fcc_A v = V3 (vdot (direct 0) v) (vdot (direct 1) v) (vdot (direct 2) v)).
  { intros [x y z]. unfold mv, fcc_A, vdot, direct. cbn [nth vx vy vz row1 row2 row3]. apply v3_eq; lra. }
  assert (P : forall v k, v = k -> ZOk (mv fcc_A v) = ZOk s <-> exists k', Some k = Some k' /\ wave s = k' /\ s = V3 (vdot (direct 0) k') (vdot (direct 1) k') (vdot (direct 2) k')).
  { intros v k <-. split.
    - intros H. injection H as <-. exists v. split; [reflexivity|]. split; [apply wave_dot|apply D].
    - intros [k' [e [h1 h2]]]. injection e as <-. rewrite h2, <- D. reflexivity. }
  destruct (String.eqb name "Gamma"); [apply P; reflexivity|].
  destruct (String.eqb name "X"); [apply P; reflexivity|].
  destruct (String.eqb name "W"); [apply P; unfold W; apply v3_eq; lra|].
  destruct (String.eqb name "K"); [apply P; unfold K; apply v3_eq; lra|].
  destruct (String.eqb name "L"); [apply P; unfold L; apply v3_eq; lra|].
  split; [discriminate|]. intros [k [H _]]. discriminate.
Qed.
(** four times the difference of squared distances of (x,y,z)/4 *)
Definition gap (x y z : Z) (m : Z * Z * Z) : Z :=
  match m with (a, b, c) => let h := (- a + b + c)%Z in let k := (a - b + c)%Z in let l := (a + b - c)%Z in (2 * (h * h + k * k + l * l) - (x * h + y * k + z * l))%Z end.
Lemma gap_dist x y z m : dist2 (V3 (IZR x / 4) (IZR y / 4) (IZR z / 4)) (node m) - dist2 (V3 (IZR x / 4) (IZR y / 4) (IZR z / 4)) (V3 0 0 0) = IZR (gap x y z m) / 2.
Proof.
  destruct m as [[a b] c]. unfold gap, dist2, node, wave, recip. cbn [nth vx vy vz].
  rewrite minus_IZR, mult_IZR, !plus_IZR, !mult_IZR, !plus_IZR, !minus_IZR, !plus_IZR, opp_IZR. field.
Qed.
Lemma zone_of x y z : (forall m, (0 <= gap x y z m)%Z) -> first_zone (V3 (IZR x / 4) (IZR y / 4) (IZR z / 4)).
Proof. intros h m. pose proof (gap_dist x y z m) as E. specialize (h m). apply IZR_le in h. lra. Qed.
Lemma shared_of x y z l : (forall m, gap x y z m = 0%Z <-> In m l) -> shared_by (V3 (IZR x / 4) (IZR y / 4) (IZR z / 4)) l.
Proof.
  intros h m. rewrite <- h. pose proof (gap_dist x y z m) as E. split; intros H.
  - apply eq_IZR. lra.
  - rewrite H in E. lra.
Qed.
Lemma term_low x h : (0 <= x <= 4 -> -2 <= 2 * (h * h) - x * h)%Z.
Proof. intros hx. destruct (Z.le_gt_cases h 0); nia. Qed.
Lemma term_bound x h : (0 <= x <= 4 -> 2 * (h * h) - x * h <= 4 -> -1 <= h <= 3)%Z.
Proof. intros hx hh. destruct (Z.le_gt_cases h 0); nia. Qed.
Lemma gap_bound x y z a b c : (0 <= x <= 4 -> 0 <= y <= 4 -> 0 <= z <= 4 -> gap x y z (a, b, c) <= 0 -> -1 <= a <= 3 /\ -1 <= b <= 3 /\ -1 <= c <= 3)%Z.
Proof.
  intros hx hy hz. unfold gap. set (h := (- a + b + c)%Z). set (k := (a - b + c)%Z). set (l := (a + b - c)%Z). intros hg.
  pose proof (term_low x h hx). pose proof (term_low y k hy). pose proof (term_low z l hz).
  assert (-1 <= h <= 3)%Z by (apply (term_bound x); lia). assert (-1 <= k <= 3)%Z by (apply (term_bound y); lia). assert (-1 <= l <= 3)%Z by (apply (term_bound z); lia).
  unfold h, k, l in *. lia.
Qed.
Definition small : list Z := [-1; 0; 1; 2; 3]%Z.
Definition cells : list (Z * Z * Z) := flat_map (fun a => flat_map (fun b => map (fun c => (a, b, c)) small) small) small.
Definition same (m n : Z * Z * Z) : bool := match m, n with (a, b, c), (a', b', c') => (a =? a')%Z && (b =? b')%Z && (c =? c')%Z end.
Lemma same_eq m n : same m n = true <-> m = n.
Proof.
  destruct m as [[a b] c], n as [[a' b'] c']. unfold same. rewrite !andb_true_iff, !Z.eqb_eq. split; [intros [[-> ->] ->]; reflexivity|]. intros H. injection H as -> -> ->. auto.
Qed.
Definition check (x y z : Z) (l : list (Z * Z * Z)) : bool :=
  forallb (fun m => (0 <=? gap x y z m)%Z && Bool.eqb (gap x y z m =? 0)%Z (existsb (same m) l)) cells && forallb (fun m => existsb (same m) cells) l.
Lemma in_small a : (-1 <= a <= 3)%Z -> In a small. Proof. intros h. unfold small. cbn. lia. Qed.
Lemma in_cells a b c : In a small -> In b small -> In c small -> In (a, b, c) cells.
Proof.
  intros ha hb hc. unfold cells. apply in_flat_map. exists a. split; [exact ha|]. apply in_flat_map. exists b. split; [exact hb|].
  apply in_map_iff. exists c. auto.
Qed.
Lemma checked x y z l : (0 <= x <= 4)%Z -> (0 <= y <= 4)%Z -> (0 <= z <= 4)%Z -> check x y z l = true ->
  first_zone (V3 (IZR x / 4) (IZR y / 4) (IZR z / 4)) /\ shared_by (V3 (IZR x / 4) (IZR y / 4) (IZR z / 4)) l.
Proof.
  intros hx hy hz h. unfold check in h. apply andb_true_iff in h. destruct h as [h hl]. rewrite forallb_forall in h. rewrite forallb_forall in hl.
  assert (N : forall m, (gap x y z m <= 0)%Z -> In m cells).
  { intros [[a b] c] hg. destruct (gap_bound x y z a b c hx hy hz hg) as [ha [hb hc]]. apply in_cells; auto using in_small. }
  assert (E : forall m, In m l <-> existsb (same m) l = true).
  { intros m. rewrite existsb_exists. split; [intros hi; exists m; split; [exact hi|apply same_eq; reflexivity]|]. intros [n [hn e]]. apply same_eq in e. congruence. }
  split.
  - apply zone_of. intros m. destruct (Z.le_gt_cases (gap x y z m) 0) as [g|g]; [|lia].
    specialize (h m (N m g)). apply andb_true_iff in h. destruct h as [h _]. apply Z.leb_le in h. exact h.
  - apply shared_of. intros m. rewrite E. split.
    + intros g. assert (hm : In m cells) by (apply N; lia). specialize (h m hm). apply andb_true_iff in h. destruct h as [_ h]. apply Bool.eqb_prop in h. rewrite <- h. apply Z.eqb_eq, g.
    + intros hi. assert (hm : In m cells). { apply E in hi. specialize (hl m hi). apply existsb_exists in hl. destruct hl as [n [hn e]]. apply same_eq in e. congruence. }
      specialize (h m hm). apply andb_true_iff in h. destruct h as [_ h]. apply Bool.eqb_prop in h. rewrite hi in h. apply Z.eqb_eq, h.
Qed.
(** corners, edges and faces of the zone *)
Lemma corner k x y z l : k = V3 (IZR x / 4) (IZR y / 4) (IZR z / 4) -> (0 <= x <= 4)%Z -> (0 <= y <= 4)%Z -> (0 <= z <= 4)%Z -> check x y z l = true -> first_zone k /\ shared_by k l.
Proof. intros ->. apply checked. Qed.
Lemma textbook_zone name k : textbook name = Some k -> first_zone k /\ shared_by k (sharing name).
Proof.
  unfold textbook.
  destruct (String.eqb_spec name "Gamma") as [->|]; [intros h; injection h as <-; apply (corner _ 0 0 0); [apply v3_eq; lra|lia|lia|lia|reflexivity]|].
  destruct (String.eqb_spec name "X") as [->|]; [intros h; injection h as <-; apply (corner _ 4 0 0); [apply v3_eq; lra|lia|lia|lia|reflexivity]|].
  destruct (String.eqb_spec name "W") as [->|]; [intros h; injection h as <-; apply (corner _ 4 2 0); [apply v3_eq; lra|lia|lia|lia|reflexivity]|].
  destruct (String.eqb_spec name "K") as [->|]; [intros h; injection h as <-; apply (corner _ 3 3 0); [apply v3_eq; lra|lia|lia|lia|reflexivity]|].
  destruct (String.eqb_spec name "L") as [->|]; [intros h; injection h as <-; apply (corner _ 2 2 2); [apply v3_eq; lra|lia|lia|lia|reflexivity]|].
  discriminate.
Qed.
Lemma zone_points name s : find name fcc_points = ZOk s -> first_zone (wave s) /\ shared_by (wave s) (sharing name).
Proof. intros h. apply points in h. destruct h as [k [h1 [h2 _]]]. rewrite h2. apply textbook_zone, h1. Qed.
(** the zone is convex *)
Lemma zone_convex a b t : first_zone a -> first_zone b -> 0 <= t <= 1 -> first_zone (between a b t).
Proof.
  intros ha hb ht m. specialize (ha m). specialize (hb m). destruct a as [a1 a2 a3], b as [b1 b2 b3], (node m) as [g1 g2 g3].
  unfold dist2, between in *. cbn [vx vy vz] in *.
  assert (Ha : 0 <= g1 ^ 2 + g2 ^ 2 + g3 ^ 2 - 2 * (a1 * g1 + a2 * g2 + a3 * g3)) by lra.
  assert (Hb : 0 <= g1 ^ 2 + g2 ^ 2 + g3 ^ 2 - 2 * (b1 * g1 + b2 * g2 + b3 * g3)) by lra.
  assert (0 <= (1 - t) * (g1 ^ 2 + g2 ^ 2 + g3 ^ 2 - 2 * (a1 * g1 + a2 * g2 + a3 * g3))) by (apply Rmult_le_pos; lra).
  assert (0 <= t * (g1 ^ 2 + g2 ^ 2 + g3 ^ 2 - 2 * (b1 * g1 + b2 * g2 + b3 * g3))) by (apply Rmult_le_pos; lra).
  lra.
Qed.
Lemma wave_between a b t : wave (between a b t) = between (wave a) (wave b) t.
Proof. destruct a as [a1 a2 a3], b as [b1 b2 b3]. unfold wave, between, recip. cbn [nth vx vy vz]. apply v3_eq; ring. Qed.
(** the points handed to ASE: both ends of every section, in order *)
Lemma path {Cell Out} (ase : list v3 -> Cell -> nat -> Out) cell n : exists pts, get_bandpath ase "fcc" cell n = ZOk (ase pts cell n) /\
  length pts = (2 * (length stations - 1))%nat /\
  forall i a b, nth_error stations i = Some a -> nth_error stations (S i) = Some b ->
    exists p q, nth_error pts (2 * i) = Some p /\ nth_error pts (2 * i + 1) = Some q /\ textbook a = Some (wave p) /\ textbook b = Some (wave q).
Proof.
  eexists. split; [reflexivity|]. split; [reflexivity|]. intros i a b ha hb.
  assert (T : forall v name, textbook name = Some v -> forall u, v = u -> textbook name = Some (wave (mv fcc_A u))) by (intros v name h u <-; rewrite wave_dot; exact h).
  assert (hW : V3 1 (/ 2) 0 = W) by (unfold W; apply v3_eq; lra). assert (hK : V3 (3 * / 4) (3 * / 4) 0 = K) by (unfold K; apply v3_eq; lra). assert (hL : V3 (/ 2) (/ 2) (/ 2) = L) by (unfold L; apply v3_eq; lra).
  do 6 (destruct i as [|i]; [cbn in ha, hb; injection ha as <-; injection hb as <-; eexists; eexists; split; [reflexivity|]; split; [reflexivity|]; split; (eapply T; [reflexivity|first [reflexivity|exact hW|exact hK|exact hL]])|]).
  destruct i; discriminate.
Qed.
Lemma path_error {Cell Out} (ase : list v3 -> Cell -> nat -> Out) crystal cell n : get_bandpath ase crystal cell n = ZKeyError <-> crystal <> "fcc"%string.
Proof.
  unfold get_bandpath. cbn [find band_structures symmetry_points]. destruct (String.eqb_spec crystal "fcc") as [->|h].
  - split; [discriminate|congruence].
  - split; [auto|reflexivity].
Qed.
(** the whole path stays in the first zone *)
Lemma path_inside {Cell} (ase : list v3 -> Cell -> nat -> list v3) cell n ks :
  (forall pts cell n k, In k (ase pts cell n) -> on_section pts k) -> get_bandpath ase "fcc" cell n = ZOk ks -> forall k, In k ks -> first_zone (wave k).
Proof.
  intros ha h k hk. pose (pts := map (mv fcc_A) [Gamma; X; X; W; W; K; K; Gamma; Gamma; L; L; W]).
  assert (E : get_bandpath ase "fcc" cell n = ZOk (ase pts cell n)) by reflexivity. rewrite E in h. injection h as <-.
  apply ha in hk. destruct hk as [i [p [q [t [hp [hq [ht ->]]]]]]]. rewrite wave_between.
  assert (P : forall r, In r pts -> first_zone (wave r)).
  { intros r hr. unfold pts in hr. cbn [map In] in hr.
    assert (Q : forall name u, find name fcc_points = ZOk (mv fcc_A u) -> first_zone (wave (mv fcc_A u))) by (intros name u e; apply (zone_points name), e).
    repeat (destruct hr as [<-|hr]; [first [apply (Q "Gamma"%string); reflexivity|apply (Q "X"%string); reflexivity|apply (Q "W"%string); reflexivity|apply (Q "K"%string); reflexivity|apply (Q "L"%string); reflexivity]|]). destruct hr. }
  apply zone_convex; [apply P; eapply nth_error_In; exact hp|apply P; eapply nth_error_In; exact hq|exact ht].
Qed.
(** the inside is not everything *)
Example ex_outside : ~ first_zone (V3 2 0 0).
Proof. intros h. specialize (h (0, 1, 1)%Z). unfold dist2, node, wave, recip in h. cbn [nth vx vy vz] in h. lra. Qed.
Example ex_ase : forall pts (cell : unit) (n : nat) k, In k (match pts with p :: q :: _ => [between p q (/ 2)] | _ => [] end) -> on_section pts k.
Proof. intros [|p [|q l]] cell n k h; cbn in h; try contradiction. destruct h as [<-|[]]. exists 0%nat, p, q, (/ 2). repeat split; try reflexivity; lra. Qed.
