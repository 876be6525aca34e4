(** Clusters, files, tests *)
From Coquelicot Require Import Coquelicot.
From Coq Require Import Reals ZArith String List Bool Arith Lia Lra Psatz Sorting.Permutation Sorting.Sorted.
From Verif Require Import Vec GeomModel GeomProofs ContProofs PairModel FitModel FitSpec FitProofs FitProofs2 FitProofs3 FitProofs4 FitProofs5.
Import ListNotations.
Open Scope R_scope.

(** the ninth system without a colour *)
Lemma nine_systems : forall wtext slope sort splfit quad interp, exists l,
  forallb auto l = true /\
  snd (run wtext slope sort splfit quad interp (new_fitting 3 None 3 (5 / 1000)) l) = repeat (FOk tt) 8 ++ [FErr TypeError].
Proof. intros. exists (repeat (OpCluster 1 [2] (0, 0) "x" "x" None) 9). split; reflexivity. Qed.

(** ** Closeness, calls, dimers *)
(** points that are merged differ by less than 0.0001 *)
Lemma merged_close a b : 0 <= dx a -> 0 <= dx b -> pseudo a = pseudo b -> Rabs (dx a - dx b) < 1 / 10000.
Proof.
  unfold pseudo, trunc. intros ha hb h. destruct (Rle_dec 0 (dx a * 10 ^ 4)) as [h1|h1]; [|lra]. destruct (Rle_dec 0 (dx b * 10 ^ 4)) as [h2|h2]; [|lra].
  destruct (base_Int_part (dx a * 10 ^ 4)) as [a1 a2]. destruct (base_Int_part (dx b * 10 ^ 4)) as [b1 b2]. rewrite h in *. apply Rabs_def1; lra.
Qed.
(** points that have the same distance up to four decimals are merged *)
Lemma same_decimals a b n : INR n <= dx a * 10 ^ 4 < INR n + 1 -> INR n <= dx b * 10 ^ 4 < INR n + 1 -> pseudo a = pseudo b.
Proof.
  intros ha hb. pose proof (pos_INR n) as hn. unfold pseudo, trunc. destruct (Rle_dec 0 (dx a * 10 ^ 4)) as [h1|h1]; [|lra]. destruct (Rle_dec 0 (dx b * 10 ^ 4)) as [h2|h2]; [|lra].
  rewrite INR_IZR_INZ in *. rewrite (Int_part_bounds _ (Z.of_nat n) ha), (Int_part_bounds _ (Z.of_nat n) hb). reflexivity.
Qed.
(** values and derivatives after a fit *)
Lemma fit_calls sort splfit quad interp f f' : fit sort splfit quad interp f = (f', FOk tt) ->
  exists dv, (forall r, call f' r 0 = FOk (integrate_vrep quad interp dv (r_cut f) r)) /\ (forall r, call f' r 1 = FOk (dv r)).
Proof.
  unfold fit. cbv zeta. cbn [r_cut smooth with_fit deriv]. destruct (fit_data _ _) as [d|e]; [|discriminate].
  destruct (splrep_check _ _); [discriminate|]. intros h. injection h as <-. eexists. split; intros r; reflexivity.
Qed.
(** a dimer gives a point at its bond length, below the cutoff *)
Lemma dimer_slope wtext f w r E dE comment label color f' :
  1 < scale f -> 0 < r -> (forall x, r <= x <= scale f * r -> is_derive E x (dE x)) ->
  append_dimer wtext f w r (fun x => E (x * r)) comment label color = (f', FOk tt) ->
  r <= r_cut f /\ exists x col lab, r < x < scale f * r /\ deriv f' = deriv f ++ [Point r (- dE x) w col lab].
Proof.
  intros hs hr hE. unfold append_dimer. pose proof (get_color_same (with_dimer f r) color) as hg. destruct (get_color (with_dimer f r) color) as [g [col|e]]; [|discriminate].
  cbn [fst] in hg. destruct hg as ((h1 & h2) & _ & h3 & _). destruct (leb r (r_cut g)) eqn:E1.
  - intros h. change (r_cut (with_dimer f r)) with (r_cut f) in *. apply leb_true in E1.
    assert (hsc : scale g = scale f) by (cbn in h2; intuition congruence).
    apply (scalable_slope wtext g w E dE [r] r) in h; [| |exact hr|discriminate| |].
    + destruct h as (x & c & lab & hx & hd). cbn [r_cut with_dimer] in h1. split; [lra|]. exists x, c, lab. rewrite hsc in hx. split; [exact hx|]. rewrite hd, h3. cbn [deriv with_dimer length INR].
      f_equal. f_equal. f_equal. field.
    + rewrite hsc. exact hs.
    + intros x [<-|[]]. reflexivity.
    + rewrite hsc. exact hE.
  - discriminate.
Qed.
(** ** Clusters *)
Lemma vnorm_sq v : vnorm v ^ 2 = vx v ^ 2 + vy v ^ 2 + vz v ^ 2.
Proof.
  unfold vnorm, vdot. simpl. rewrite !Rmult_1_r. rewrite sqrt_sqrt; [reflexivity|]. pose proof (Rle_0_sqr (vx v)). pose proof (Rle_0_sqr (vy v)). pose proof (Rle_0_sqr (vz v)). unfold Rsqr in *. lra.
Qed.
Lemma vsum_ext n (f g : nat -> v3) : (forall i, (i < n)%nat -> f i = g i) -> vsum n f = vsum n g.
Proof. intros h. unfold vsum. f_equal; apply rsum_ext; intros i hi; rewrite (h i hi); reflexivity. Qed.
Section Cluster.
Variables (n : nat) (pos : nat -> v3) (rc : R).
(** the forces of the cluster are those of a repulsion with the derivative a + b(r - r_cut) *)
Lemma cluster_forces p i : (forall j, (j < n)%nat -> j <> i -> vnorm (vsub (pos j) (pos i)) <> rc) ->
  frep n pos rc p i = force n 1 (fun _ => pos) (fun _ _ => dvlin rc p) rc i.
Proof.
  intros h. unfold frep, force. apply vsum_ext. intros j hj. unfold vsum at 1. cbn [rsum]. rewrite !Rplus_0_l.
  unfold pair_force, self_pair. cbn [Nat.eqb]. rewrite andb_true_r. destruct (i =? j)%nat eqn:E; [reflexivity|].
  apply Nat.eqb_neq in E. cbv zeta. change (dist (fun _ => pos) 0 i j) with (vnorm (vsub (pos j) (pos i))). change (rijn (fun _ => pos) 0 i j) with (vsub (pos j) (pos i)).
  specialize (h j hj (fun e => E (eq_sym e))). set (d := vnorm _) in *. destruct (ltb rc d) eqn:E1.
  - apply ltb_true in E1. replace (ltb d rc) with false by (symmetry; apply ltb_false; lra). reflexivity.
  - apply ltb_false in E1. replace (ltb d rc) with true by (symmetry; apply ltb_true; lra).
    destruct (vscale _ _) as [x y z]. reflexivity.
Qed.
Variables fdft fwr : nat -> v3.
Notation objective := (to_minimize n pos rc fdft fwr).
Lemma objective_nonneg p : 0 <= objective p.
Proof. unfold to_minimize. apply rsum_nonneg. intros i _. apply pow2_ge_0. Qed.
Lemma rsum_nonneg_zero f : forall m, (forall i, (i < m)%nat -> 0 <= f i) -> rsum m f = 0 -> forall i, (i < m)%nat -> f i = 0.
Proof.
  induction m as [|m IH]; intros h e i hi; [lia|]. cbn [rsum] in e.
  assert (h1 : 0 <= rsum m f) by (apply rsum_nonneg; intros k hk; apply h; lia). assert (h2 : 0 <= f m) by (apply h; lia).
  destruct (Nat.eq_dec i m) as [->|hne]; [lra|]. apply IH; [intros k hk; apply h; lia|lra|lia].
Qed.
(** the objective is zero exactly if the repulsion makes up for the difference of the forces *)
Lemma objective_zero p : objective p = 0 <-> forall i, (i < n)%nat -> fdft i = vadd (fwr i) (frep n pos rc p i).
Proof.
  unfold to_minimize. split.
  - intros h i hi. apply (rsum_nonneg_zero _ n) with (i := i) in h; [|intros k _; apply pow2_ge_0|exact hi].
    rewrite vnorm_sq in h. destruct (fdft i) as [a b c], (vadd (fwr i) (frep n pos rc p i)) as [x y z]. unfold vsub in h. cbn [vx vy vz] in h.
    assert (hz : forall s t u, s ^ 2 + t ^ 2 + u ^ 2 = 0 -> s = 0 /\ t = 0 /\ u = 0).
    { intros s t u e. pose proof (pow2_ge_0 s). pose proof (pow2_ge_0 t). pose proof (pow2_ge_0 u).
      repeat split; apply Rsqr_0_uniq; unfold Rsqr; simpl in *; lra. }
    destruct (hz _ _ _ h) as (e1 & e2 & e3). apply v3_eq; cbn [vx vy vz]; lra.
  - intros h. transitivity (rsum n (fun _ => 0)); [|apply rsum_zero]. apply rsum_ext. intros i hi. rewrite <- (h i hi), vnorm_sq. unfold vsub. cbn [vx vy vz]. ring.
Qed.
Lemma frep_mid p q i : frep n pos rc (mid p q) i = vscale (/ 2) (vadd (frep n pos rc p i) (frep n pos rc q i)).
Proof.
  unfold frep, vsum, vscale, vadd. cbn [vx vy vz].
  f_equal; (rewrite <- rsum_plus, <- rsum_scal; apply rsum_ext; intros j _; destruct (i =? j)%nat; [cbn; ring|]; cbv zeta; 
    destruct (ltb _ _); [cbn; ring|]; unfold vscale, dvlin, mid; cbn [vx vy vz fst snd]; unfold Rdiv; ring).
Qed.
(** the objective is convex: a minimum is the global one *)
Lemma objective_convex p q : objective (mid p q) <= (objective p + objective q) / 2.
Proof.
  unfold to_minimize, Rdiv. rewrite <- rsum_plus, <- rsum_scal_r. apply rsum_le. intros i _. rewrite frep_mid, !vnorm_sq.
  destruct (fdft i) as [a b c], (fwr i) as [d e g], (frep n pos rc p i) as [x y z], (frep n pos rc q i) as [u v w].
  unfold vsub, vadd, vscale. cbn [vx vy vz].
  assert (h : forall s t u v, (s - (t + / 2 * (u + v))) ^ 2 <= ((s - (t + u)) ^ 2 + (s - (t + v)) ^ 2) * / 2).
  { intros s t u0 v0. pose proof (pow2_ge_0 (u0 - v0)). nra. }
  pose proof (h a d x u). pose proof (h b e y v). pose proof (h c g z w). lra.
Qed.
End Cluster.
(** the points of a cluster *)
Lemma lmin_le l : forall a y, In y (a :: l) -> lmin a l <= y.
Proof.
  induction l as [|b l IH]; intros a y; cbn [lmin].
  - intros [<-|[]]. lra.
  - intros [<-|[<-|hy]].
    + apply Rle_trans with (Rmin a b); [apply IH; left; reflexivity|apply Rmin_l].
    + apply Rle_trans with (Rmin a b); [apply IH; left; reflexivity|apply Rmin_r].
    + apply IH. right. exact hy.
Qed.
Lemma lmax_ge l : forall a y, In y (a :: l) -> y <= lmax a l.
Proof.
  induction l as [|b l IH]; intros a y; cbn [lmax].
  - intros [<-|[]]. lra.
  - intros [<-|[<-|hy]].
    + apply Rle_trans with (Rmax a b); [apply Rmax_l|apply IH; left; reflexivity].
    + apply Rle_trans with (Rmax a b); [apply Rmax_r|apply IH; left; reflexivity].
    + apply IH. right. exact hy.
Qed.
Lemma lmax_in l : forall a, In (lmax a l) (a :: l).
Proof.
  induction l as [|b l IH]; intros a; cbn [lmax]; [left; reflexivity|]. destruct (IH (Rmax a b)) as [h|h]; [|right; right; exact h].
  rewrite <- h. unfold Rmax. destruct (Rle_dec a b); [right; left; reflexivity|left; reflexivity].
Qed.
Lemma cluster_points wtext f w d p comment label color f' : append_cluster wtext f w d p comment label color = (f', FOk tt) ->
  exists new, deriv f' = deriv f ++ new /\ length new = 6%nat /\ lsum (map (fun p => p_w p ^ 2) new) = w ^ 2 /\
   Forall (fun q => p_dv q = fst p + snd p * (p_r q - r_cut f)) new /\
   (forall q, In q new -> exists a b, In a d /\ In b d /\ a <= p_r q <= b).
Proof.
  unfold append_cluster. destruct d as [|a l]; [discriminate|]. destruct (get_color f color) as [g [col|e]] eqn:E; [|discriminate].
  intros h. apply (f_equal fst) in h. cbn [fst] in h. rewrite <- h. clear h. pose proof (get_color_same f color) as hg. rewrite E in hg. cbn [fst] in hg. destruct hg as ((hr & _) & _ & hg & _).
  match goal with |- context [curve_points ?a ?b ?c ?d ?e ?f] => destruct (curve_points_deriv b f c a d e) as (new & h1 & h2 & h3) end.
  exists new. assert (hlen : length new = 6%nat).
  { rewrite <- (map_length (fun p => (p_r p, p_dv p)) new), h2. reflexivity. }
  split; [rewrite h1, hg; reflexivity|]. split; [exact hlen|]. split.
  { rewrite (weights_squared _ _ h3), hlen. replace (INR 6) with 6 by (rewrite INR_IZR_INZ; reflexivity).
    unfold Rdiv. rewrite Rpow_mult_distr, pow_inv. assert (hs : sqrt 6 ^ 2 = 6) by (simpl; rewrite Rmult_1_r; apply sqrt_sqrt; lra).
    rewrite hs. field. }
  assert (hin : forall q, In q new -> exists i, (i < 6)%nat /\ p_r q = linspace (lmin a l) (lmax a l) 6 i /\ p_dv q = dvlin (r_cut f) p (p_r q)).
  { intros q hq. apply (in_map (fun p => (p_r p, p_dv p))) in hq. rewrite h2 in hq. apply in_map_iff in hq. destruct hq as (i & e & hi).
    apply in_seq in hi. exists i. split; [lia|]. cbv zeta in e. rewrite <- hr in e. injection e as e1 e2. split; [symmetry; exact e1|]. rewrite <- e2, <- e1. reflexivity. }
  split.
  - rewrite Forall_forall. intros q hq. destruct (hin q hq) as (i & _ & _ & e). exact e.
  - intros q hq. destruct (hin q hq) as (i & hi & e & _).
    exists (lmin a l), (lmax a l).
    assert (hmin : In (lmin a l) (a :: l)).
    { clear. revert a. induction l as [|b l IH]; intros a; cbn [lmin]; [left; reflexivity|]. destruct (IH (Rmin a b)) as [h|h]; [|right; right; exact h].
      rewrite <- h. unfold Rmin. destruct (Rle_dec a b); [left; reflexivity|right; left; reflexivity]. }
    split; [exact hmin|]. split; [apply lmax_in|]. rewrite e. unfold linspace. change (INR (6 - 1)) with (INR 5). replace (INR 5) with 5 by (rewrite INR_IZR_INZ; reflexivity).
    pose proof (lmax_ge l a _ hmin). pose proof (pos_INR i). assert (INR i <= 5).
    { replace 5 with (INR 5) by (rewrite INR_IZR_INZ; reflexivity). apply le_INR. lia. }
    split; [assert (0 <= INR i * ((lmax a l - lmin a l) / 5)) by (apply Rmult_le_pos; lra); lra|].
    assert (INR i * ((lmax a l - lmin a l) / 5) <= 5 * ((lmax a l - lmin a l) / 5)) by (apply Rmult_le_compat_r; lra). lra.
Qed.

(** ** Parameter files *)
Lemma rows_app a b : rows (a ++ b) = rows a ++ rows b.
Proof. apply flat_map_app. Qed.
Lemma rows_map {A} (r v : A -> R) l : rows (map (fun i => Row (r i) (v i)) l) = map (fun i => (r i, v i)) l.
Proof. induction l as [|a l IH]; [reflexivity|]. cbn. f_equal. exact IH. Qed.
(** the table that is written *)
Lemma par_table Bohr Hartree f v dv s : pot f = Some (v, dv) -> smooth f = Some s -> (forall x, In x (structures f) -> st_file x <> None) ->
  snd (write_par Bohr Hartree f) = FOk tt /\
  rows (fst (write_par Bohr Hartree f)) = map (fun i => (linspace (1 / 10) (r_cut f) 100 i / Bohr, v (linspace (1 / 10) (r_cut f) 100 i) / Hartree)) (seq 0 100).
Proof.
  intros h1 h2 h3. unfold write_par. rewrite h2, h1.
  replace (existsb (fun x => match st_file x with None => true | _ => false end) (structures f)) with false.
  - rewrite andb_false_r. cbv zeta. cbn [fst snd]. split; [reflexivity|]. rewrite !rows_app.
    replace (rows (if (1 <? length (structures f))%nat then [Systems (structures f)] else [])) with (@nil (R * R)) by (destruct (_ <? _)%nat; reflexivity).
    replace (rows (if (0 <? String.length (comments f))%nat then [Comments (comments f)] else [])) with (@nil (R * R)) by (destruct (_ <? _)%nat; reflexivity).
    cbn [rows flat_map app]. apply rows_map.
  - symmetry. destruct (existsb _ _) eqn:E; [|reflexivity]. apply existsb_exists in E. destruct E as (x & hx & e). specialize (h3 x hx). destruct (st_file x); [discriminate e|contradiction].
Qed.
Lemma linspace_lt a b i j : a < b -> (i < j)%nat -> linspace a b 100 i < linspace a b 100 j.
Proof.
  intros h hij. unfold linspace. replace (INR (100 - 1)) with 99 by (rewrite INR_IZR_INZ; reflexivity). apply lt_INR in hij.
  apply Rplus_lt_compat_l, Rmult_lt_compat_r; lra.
Qed.
Lemma linspace_end a b : linspace a b 100 99 = b.
Proof. unfold linspace. change (100 - 1)%nat with 99%nat. replace (INR 99) with 99 by (rewrite INR_IZR_INZ; reflexivity). field. Qed.
(** it increases, and ends with zero at the cutoff *)
Lemma par_written sort splfit quad interp Bohr Hartree f f' : sorts sort -> interpolates interp -> 0 < Bohr -> 0 < Hartree -> 1 / 10 < r_cut f ->
  (forall x, In x (structures f) -> st_file x <> None) ->
  fit sort splfit quad interp f = (f', FOk tt) ->
  let t := rows (fst (write_par Bohr Hartree f')) in
  snd (write_par Bohr Hartree f') = FOk tt /\ length t = 100%nat /\ StronglySorted Rlt (map fst t) /\ fst (hd (0, 1) t) = 1 / 10 / Bohr /\ last t (0, 1) = (r_cut f / Bohr, 0) /\
  forall r v, In (r, v) t -> call f' (r * Bohr) 0 = FOk (v * Hartree).
Proof.
  intros hs hi hB hH hr hst hf. unfold fit in hf. cbv zeta in hf. cbn [r_cut smooth with_fit deriv] in hf. destruct (fit_data _ _) as [d|e]; [|discriminate hf].
  destruct (splrep_check _ _); [discriminate hf|]. injection hf as <-.
  match goal with |- context [write_par Bohr Hartree ?g] => set (g0 := g) end.
  set (v := integrate_vrep quad interp _ (r_cut f)) in g0.
  destruct (par_table Bohr Hartree g0 v _ _ eq_refl eq_refl hst) as [h1 h2]. cbv zeta. rewrite h2. change (r_cut g0) with (r_cut f).
  split; [exact h1|]. split; [rewrite map_length, seq_length; reflexivity|]. split; [|split; [|split]].
  - rewrite map_map. cbn [fst].
    assert (hg : forall m k, StronglySorted Rlt (map (fun i => linspace (1 / 10) (r_cut f) 100 i / Bohr) (seq k m))).
    { induction m as [|m IH]; intros k; cbn [seq map]; [constructor|]. constructor; [apply IH|]. rewrite Forall_forall. intros x hx. apply in_map_iff in hx.
      destruct hx as (j & <- & hj). apply in_seq in hj. apply Rmult_lt_compat_r; [apply Rinv_0_lt_compat, hB|]. apply linspace_lt; [exact hr|lia]. }
    apply hg.
  - cbn [seq map hd fst]. unfold linspace. cbn [INR]. rewrite Rmult_0_l, Rplus_0_r. reflexivity.
  - rewrite <- (app_nil_r (seq 0 100)). replace (seq 0 100) with (seq 0 99 ++ [99%nat]) by reflexivity. rewrite app_nil_r, map_app. cbn [map]. rewrite last_last.
    rewrite linspace_end. f_equal. unfold v. rewrite potential_cutoff; [unfold Rdiv; ring|lra|exact hi|lra].
  - intros r x hx. apply in_map_iff in hx. destruct hx as (i & e & _). injection e as <- <-. unfold call. 
    replace (linspace (1 / 10) (r_cut f) 100 i / Bohr * Bohr) with (linspace (1 / 10) (r_cut f) 100 i) by (field; lra). unfold g0. cbn [pot with_fit]. f_equal. field. lra.
Qed.
(** without a fit a file is left that has a heading for the repulsion but no table *)
Lemma par_unfitted : exists f Bohr Hartree, write_par Bohr Hartree f = ([CommentHeader; Parameters 3 1 3; RepulsionHeader], FErr AssertionError).
Proof. exists (new_fitting 3 (Some 1) 3 (5 / 1000)), 1, 1. reflexivity. Qed.
Lemma par_no_fit Bohr Hartree f : pot f = None -> rows (fst (write_par Bohr Hartree f)) = [] /\ snd (write_par Bohr Hartree f) <> FOk tt.
Proof.
  intros h. unfold write_par. rewrite h. destruct (smooth f) as [s|]; [|split; [reflexivity|discriminate]]. cbv zeta.
  destruct (_ && _); [split; [reflexivity|discriminate]|]. split; [|discriminate]. cbn [fst]. rewrite !rows_app. destruct (1 <? _)%nat, (0 <? _)%nat; reflexivity.
Qed.
(** ** Fitting data *)
Lemma data_saved f g : let (x, r) := write_fitting_data f true in let (h, s) := load_fitting_data g x in
  r = FOk tt /\ s = FOk tt /\ deriv h = deriv f /\ comments h = comments f /\ structures h = structures f /\
  r_cut h = r_cut g /\ smooth h = smooth g /\ order h = order g.
Proof. cbn. repeat split. Qed.
Lemma data_plain f g : let (x, r) := write_fitting_data f false in r = FErr TypeError /\ snd (load_fitting_data g x) = FErr EOFError.
Proof. cbn. split; reflexivity. Qed.
(** a fit of data that were loaded is the fit of the data that were saved *)
Lemma fit_loaded sort splfit quad interp f g : r_cut f = r_cut g -> smooth f = smooth g -> order f = order g ->
  let h := fst (load_fitting_data g (fst (write_fitting_data f true))) in
  let (f', a) := fit sort splfit quad interp f in let (h', b) := fit sort splfit quad interp h in
  a = b /\ (a = FOk tt -> pot f' = pot h').
Proof.
  intros h1 h2 h3. cbn [write_fitting_data load_fitting_data fst]. unfold fit. cbv zeta. cbn [r_cut smooth order deriv with_fit with_structures].
  rewrite <- h1, <- h2, <- h3. destruct (fit_data _ _) as [d|e]; [|split; [reflexivity|intros e2; discriminate e2]].
  destruct (splrep_check _ _); [split; [reflexivity|intros e2; discriminate e2]|]. split; reflexivity.
Qed.
(** ** Tests of a parametrization *)
Lemma take_files_ok l : (forall x, In x l -> st_file x <> None) ->
  exists ns, snd (take_files l) = FOk ns /\ map Some ns = map st_file l /\ Forall (fun x => st_file x = None) (fst (take_files l)) /\ length (fst (take_files l)) = length l.
Proof.
  induction l as [|x l IH]; intros h; cbn [take_files].
  - exists []. repeat split. constructor.
  - destruct IH as (ns & h1 & h2 & h3 & h4); [intros y hy; apply h; right; exact hy|]. destruct (st_file x) as [n|] eqn:E; [|destruct (h x (or_introl eq_refl) E)].
    destruct (take_files l) as [t r]. cbn [fst snd] in *. rewrite h1. exists (n :: ns). split; [reflexivity|]. split; [cbn [map]; rewrite h2, E; reflexivity|].
    split; [constructor; [reflexivity|exact h3]|cbn [length]; rewrite h4; reflexivity].
Qed.
(** a test can be made once, with all the files *)
Lemma test_once f : (forall x, In x (structures f) -> st_file x <> None) ->
  exists ns, snd (new_test f) = FOk ns /\ map Some ns = map st_file (structures f) /\
   (structures f <> [] -> snd (new_test (fst (new_test f))) = FErr KeyError).
Proof.
  intros h. destruct (take_files_ok _ h) as (ns & h1 & h2 & h3 & h4). exists ns. unfold new_test. destruct (take_files (structures f)) as [l r] eqn:E. cbn [fst snd] in *.
  split; [exact h1|]. split; [exact h2|]. intros hn. cbn [structures with_structures]. destruct l as [|x l]; [destruct (structures f); [contradiction|discriminate h4]|].
  inversion h3 as [|y z hx hl]; subst. cbn [take_files]. rewrite hx. reflexivity.
Qed.
Lemma test_twice : exists f, (forall x, In x (structures f) -> st_file x <> None) /\ snd (new_test f) = FOk ["a.traj"%string; "b.traj"%string] /\
  snd (new_test (fst (new_test f))) = FErr KeyError.
Proof.
  exists (with_structures (new_fitting 3 None 3 1) [] [Structure (Some "a.traj"%string) "0"; Structure (Some "b.traj"%string) "0"] ""). split; [|split; reflexivity].
  intros x [<-|[<-|[]]]; discriminate.
Qed.

(** ** Cases *)
(** data of three systems below a cutoff of 3, two of them at almost the same distance *)
Definition ex_fit : fitting := with_points (new_fitting 3 None 2 (5 / 1000)) [Point 2 (-1) 1 "r" None; Point (5 / 2) (- (1 / 2)) 2 "g" None; Point 1 (-3) 1 "b" None] "".
Example ex_distinct : deriv ex_fit <> [] /\ (1 <= order ex_fit <= 5)%Z /\ Forall (fun p => p_r p < r_cut ex_fit /\ 0 < p_w p) (deriv ex_fit) /\ NoDup (map pseudo (data ex_fit)).
Proof.
  split; [discriminate|]. split; [cbn; lia|]. split; [repeat constructor; cbn; lra|]. cbn [ex_fit data with_points deriv map p_r p_dv p_w].
  assert (h1 : pseudo (2, -1, 1) = 20000%Z) by (unfold pseudo, trunc, dx; cbn [fst]; destruct (Rle_dec _ _); [apply Int_part_bounds; split; lra|lra]).
  assert (h2 : pseudo (5 / 2, - (1 / 2), 2) = 25000%Z) by (unfold pseudo, trunc, dx; cbn [fst]; destruct (Rle_dec _ _); [apply Int_part_bounds; split; lra|lra]).
  assert (h3 : pseudo (1, -3, 1) = 10000%Z) by (unfold pseudo, trunc, dx; cbn [fst]; destruct (Rle_dec _ _); [apply Int_part_bounds; split; lra|lra]).
  rewrite h1, h2, h3. repeat constructor; cbn; intuition discriminate.
Qed.
(** reading the table back interpolates *)
Definition lookup (l : list (R * R)) (x : R) : R := match find (fun p => if Req_EM_T (fst p) x then true else false) l with Some p => snd p | None => 0 end.
Example ex_interpolates : interpolates lookup.
Proof.
  intros l x y. unfold lookup. induction l as [|[a b] l IH]; cbn [map fst find In]; intros hn h; [contradiction|]. inversion hn as [|z t hz ht]; subst.
  destruct (Req_EM_T a x) as [->|hne].
  - destruct h as [h|h]; [injection h as <-; reflexivity|]. elim hz. apply (in_map fst) in h. exact h.
  - destruct h as [h|h]; [injection h as h1 h2; contradiction|]. apply IH; assumption.
Qed.
(** two atoms and the parameters of their exact repulsion *)
Example ex_cluster : exists n pos rc fdft fwr p, n = 2%nat /\ to_minimize n pos rc fdft fwr p = 0 /\ fdft 0%nat <> fwr 0%nat.
Proof.
  exists 2%nat, (fun i => V3 (INR i) 0 0), 2. exists (fun i => vadd vzero (frep 2 (fun i => V3 (INR i) 0 0) 2 (-1, 0) i)), (fun _ => vzero), (-1, 0).
  split; [reflexivity|]. split; [apply objective_zero; reflexivity|]. intros h. apply (f_equal vx) in h.
  unfold frep, vsum, vadd, vzero in h. cbn [vx vy vz rsum Nat.eqb] in h. cbv zeta in h. unfold vsub in h. cbn [vx vy vz INR] in h.
  replace (vnorm _) with 1 in h.
  - replace (ltb 2 1) with false in h by (symmetry; apply ltb_false; lra). unfold vscale, dvlin in h. cbn [vx vy vz fst snd] in h. lra.
  - unfold vnorm, vdot. cbn [vx vy vz]. transitivity (sqrt 1); [symmetry; apply sqrt_1|f_equal; ring].
Qed.
