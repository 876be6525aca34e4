(** Merging of close points *)
From Coquelicot Require Import Coquelicot.
From Coq Require Import Reals ZArith String List Bool Arith Lia Lra Psatz Sorting.Permutation Sorting.Sorted.
From Verif Require Import Vec GeomModel GeomProofs ContProofs PairModel FitModel FitSpec.
Import ListNotations.
Open Scope R_scope.

Lemma Int_part_mono x y : x <= y -> (Int_part x <= Int_part y)%Z.
Proof.
  intros h. destruct (base_Int_part x) as [a b]. destruct (base_Int_part y) as [c d].
  apply Z.lt_succ_r. apply lt_IZR. rewrite succ_IZR. lra.
Qed.
Lemma Int_part_ge0 x : 0 <= x -> (0 <= Int_part x)%Z.
Proof. intros h. destruct (base_Int_part x) as [a b]. apply Z.lt_succ_r. apply lt_IZR. rewrite succ_IZR. lra. Qed.
Lemma trunc_mono x y : x <= y -> (trunc x <= trunc y)%Z.
Proof.
  intros h. unfold trunc. destruct (Rle_dec 0 x) as [hx|hx], (Rle_dec 0 y) as [hy|hy].
  - apply Int_part_mono, h.
  - lra.
  - pose proof (Int_part_ge0 y hy). pose proof (Int_part_ge0 (- x) ltac:(lra)). lia.
  - pose proof (Int_part_mono (- y) (- x) ltac:(lra)). lia.
Qed.
Lemma pseudo_mono a b : dx a <= dx b -> (pseudo a <= pseudo b)%Z.
Proof. intros h. apply trunc_mono. assert (0 < 10 ^ 4) by (simpl; lra). nra. Qed.
Lemma pseudo_lt a b : (pseudo a < pseudo b)%Z -> dx a < dx b.
Proof. intros h. destruct (Rlt_le_dec (dx a) (dx b)) as [g|g]; [exact g|]. apply pseudo_mono in g. lia. Qed.

(** ** The groups *)
Definition zsorted (l : list datum) : Prop := StronglySorted Z.le (map pseudo l).
Lemma ascending_z l : ascending l -> zsorted l.
Proof.
  unfold ascending, zsorted. induction l as [|a t IH]; cbn [map]; intros h; [constructor|].
  inversion h as [|? ? h1 h2]; subst. constructor; [apply IH, h1|].
  rewrite Forall_forall in *. intros z hz. apply in_map_iff in hz. destruct hz as (d & <- & hd).
  apply pseudo_mono, h2, in_map, hd.
Qed.
Lemma forallb_filter_nil {A} (p : A -> bool) l : forallb (fun x => negb (p x)) l = true -> filter p l = [].
Proof. induction l as [|a t IH]; cbn; [reflexivity|]. rewrite andb_true_iff. intros [h1 h2]. apply negb_true_iff in h1. rewrite h1. apply IH, h2. Qed.
Lemma groups_nil l : groups l = [] -> l = [].
Proof. destruct l as [|a t]; [reflexivity|]. cbn [groups]. destruct (groups t) as [|[|b g] gs]; try discriminate. destruct (_ =? _)%Z; discriminate. Qed.
Lemma groups_sharing l : zsorted l ->
  exists zs, StronglySorted Z.lt zs /\ (forall z, In z zs <-> In z (map pseudo l)) /\ groups l = map (fun z => sharing z l) zs.
Proof.
  induction l as [|a t IH]; intros h.
  - exists []. split; [constructor|]. split; [tauto|reflexivity].
  - inversion h as [|x y h1 h2]; subst. destruct (IH h1) as (zs & hs & hin & hg). cbn [groups]. rewrite hg.
    rewrite Forall_forall in h2.
    destruct zs as [|z0 zs].
    + cbn [map]. assert (t = []) by (apply groups_nil; rewrite hg; reflexivity). subst t.
      exists [pseudo a]. split; [constructor; constructor|]. split; [cbn; tauto|].
      cbn [map sharing filter]. unfold sharing. cbn [filter]. rewrite Z.eqb_refl. reflexivity.
    + cbn [map].
      assert (hz0 : In z0 (map pseudo t)) by (apply hin; left; reflexivity).
      inversion hs as [|x y hs1 hs2]; subst. rewrite Forall_forall in hs2.
      assert (hb : exists b g, sharing z0 t = b :: g /\ pseudo b = z0).
      { apply in_map_iff in hz0. destruct hz0 as (d & hd & hdt).
        assert (hdi : In d (sharing z0 t)) by (apply filter_In; split; [exact hdt|rewrite hd; apply Z.eqb_refl]).
        destruct (sharing z0 t) as [|b g] eqn:E; [destruct hdi|]. exists b, g. split; [reflexivity|].
        assert (hbi : In b (sharing z0 t)) by (rewrite E; left; reflexivity).
        apply filter_In in hbi. destruct hbi as [_ hbi]. apply Z.eqb_eq, hbi. }
      destruct hb as (b & g & hb & hbz). rewrite hb. rewrite hbz.
      destruct (pseudo a =? z0)%Z eqn:E.
      * apply Z.eqb_eq in E. exists (z0 :: zs). split; [constructor; [exact hs1|rewrite Forall_forall; exact hs2]|].
        split.
        { intros z. cbn [map]. split.
          - intros hz. right. apply hin, hz.
          - intros [<-|hz]; [left; symmetry; exact E|]. apply hin, hz. }
        cbn [map]. unfold sharing at 2. cbn [filter]. rewrite E, Z.eqb_refl. fold (sharing z0 t). rewrite hb. f_equal.
        apply map_ext_in. intros z hz. unfold sharing. cbn [filter].
        destruct (pseudo a =? z)%Z eqn:E2; [|reflexivity]. apply Z.eqb_eq in E2. specialize (hs2 z hz). lia.
      * apply Z.eqb_neq in E. pose proof (h2 z0 hz0) as hle.
        assert (hlt : forall z, In z (z0 :: zs) -> (pseudo a < z)%Z).
        { intros z [<-|hz]; [lia|]. specialize (hs2 z hz). lia. }
        exists (pseudo a :: z0 :: zs). split.
        { constructor; [exact hs|]. rewrite Forall_forall. exact hlt. }
        split.
        { intros z. cbn [map]. split.
          - intros [<-|hz]; [left; reflexivity|right; apply hin, hz].
          - intros [<-|hz]; [left; reflexivity|right; apply hin, hz]. }
        cbn [map]. f_equal.
        { unfold sharing. cbn [filter]. rewrite Z.eqb_refl. f_equal. symmetry.
          apply forallb_filter_nil. rewrite forallb_forall. intros d hd. apply negb_true_iff, Z.eqb_neq.
          assert (hp : In (pseudo d) (z0 :: zs)) by (apply hin, in_map, hd). specialize (hlt _ hp). lia. }
        f_equal.
        { unfold sharing at 1. cbn [filter]. destruct (pseudo a =? z0)%Z eqn:E2; [apply Z.eqb_eq in E2; lia|]. fold (sharing z0 t). symmetry. exact hb. }
        apply map_ext_in. intros z hz. unfold sharing. cbn [filter].
        destruct (pseudo a =? z)%Z eqn:E2; [|reflexivity]. apply Z.eqb_eq in E2. specialize (hlt z (or_intror hz)). lia.
Qed.

Lemma group_points_spec l g : group_points l = FOk g <-> l <> [] /\ g = map average (groups l).
Proof.
  unfold group_points. destruct (groups l) as [|x gs] eqn:E.
  - apply groups_nil in E. split; [discriminate|]. intros [h _]. contradiction.
  - split; [intros h; injection h as h|intros [_ h]; rewrite h; reflexivity]. split; [|symmetry; exact h].
    intros ->. discriminate E.
Qed.
(** which points are merged *)
Lemma merge_groups l g : ascending l -> group_points l = FOk g ->
  exists zs, StronglySorted Z.lt zs /\ (forall z, In z zs <-> In z (map pseudo l)) /\ g = map (fun z => average (sharing z l)) zs.
Proof.
  intros h hg. apply group_points_spec in hg. destruct hg as [_ ->].
  destruct (groups_sharing l (ascending_z l h)) as (zs & h1 & h2 & h3). exists zs. split; [exact h1|]. split; [exact h2|].
  rewrite h3, map_map. reflexivity.
Qed.
Lemma merge_spec l g : ascending l -> group_points l = FOk g ->
  exists zs, StronglySorted Z.lt zs /\ (forall z, In z zs <-> In z (map pseudo l)) /\ 
    g = map (fun z => let s := sharing z l in (lsum (map dx s) / INR (length s), weighted_sum s / total_weight s, total_weight s)) zs.
Proof.
  intros h hg. apply group_points_spec in hg. destruct hg as [_ ->].
  destruct (groups_sharing l (ascending_z l h)) as (zs & h1 & h2 & h3). exists zs. split; [exact h1|]. split; [exact h2|].
  rewrite h3, map_map. apply map_ext. intros z. unfold average, mean. rewrite map_length. reflexivity.
Qed.
Lemma groups_concat l : concat (groups l) = l.
Proof.
  induction l as [|a t IH]; [reflexivity|]. cbn [groups]. destruct (groups t) as [|[|b g] gs]; cbn in *.
  - rewrite <- IH. reflexivity.
  - rewrite <- IH. reflexivity.
  - destruct (_ =? _)%Z; cbn; rewrite <- IH; reflexivity.
Qed.
Lemma groups_nonempty l : ~ In [] (groups l).
Proof.
  induction l as [|a t IH]; [intros []|]. cbn [groups]. destruct (groups t) as [|[|b g] gs]; cbn in *.
  - intros [h|[]]; discriminate.
  - tauto.
  - destruct (_ =? _)%Z; intros [h|h]; try discriminate; tauto.
Qed.
Lemma lsum_app l m : lsum (l ++ m) = lsum l + lsum m.
Proof. unfold lsum. induction l as [|a l IH]; cbn [app fold_right]; [lra|]. rewrite IH. lra. Qed.
Lemma lsum_perm l m : Permutation l m -> lsum l = lsum m.
Proof. intros p. unfold lsum. induction p as [|x l m p IH|x y l|l m n p1 IH1 p2 IH2]; cbn [fold_right]; [reflexivity|rewrite IH; reflexivity|ring|congruence]. Qed.
Lemma lsum_pos l : l <> [] -> Forall (fun x => 0 < x) l -> 0 < lsum l.
Proof.
  intros h1 h. induction h as [|a l ha hl IH]; [contradiction|]. change (lsum (a :: l)) with (a + lsum l). destruct l as [|b l]; [unfold lsum; cbn [fold_right]; lra|].
  specialize (IH ltac:(discriminate)). lra.
Qed.
Lemma average_moment g : g <> [] -> Forall (fun d => 0 < dw d) g ->
  dy (average g) * dw (average g) = weighted_sum g.
Proof.
  intros h1 h2. assert (h : 0 < lsum (map dw g)).
  { apply lsum_pos; [destruct g; [contradiction|discriminate]|]. rewrite Forall_map. exact h2. }
  unfold average, dy at 1, dw at 3. cbn [fst snd]. unfold weighted_sum, Rdiv. rewrite Rmult_assoc, Rinv_l; [ring|apply Rgt_not_eq, h].
Qed.
(** the total weight and the weighted sum of the values do not change *)
Lemma merge_conserves l g : group_points l = FOk g ->
  total_weight g = total_weight l /\ (Forall (fun d => 0 < dw d) l -> weighted_sum g = weighted_sum l).
Proof.
  intros hg. apply group_points_spec in hg. destruct hg as [_ ->]. 
  cut (total_weight (map average (groups l)) = total_weight (concat (groups l)) /\
      (Forall (fun d => 0 < dw d) (concat (groups l)) -> weighted_sum (map average (groups l)) = weighted_sum (concat (groups l))));
    [rewrite (groups_concat l); tauto|].
  pose proof (groups_nonempty l) as hn. induction (groups l) as [|x gs IH]; cbn [map concat].
  - split; [reflexivity|intros _; reflexivity].
  - destruct IH as [I1 I2]; [intros h; apply hn; right; exact h|]. split.
    + unfold total_weight in *. cbn [map]. rewrite map_app, lsum_app, <- I1. reflexivity.
    + intros h. apply Forall_app in h. destruct h as [h1 h2]. unfold weighted_sum. cbn [map]. rewrite map_app, lsum_app.
      fold (weighted_sum x) (weighted_sum (concat gs)). rewrite <- (I2 h2), <- (average_moment x); [reflexivity| |exact h1].
      intros ->. apply hn. left. reflexivity.
Qed.
Lemma mean_upper l c : l <> [] -> (forall x, In x l -> x <= c) -> mean l <= c.
Proof.
  intros h1 h2. unfold mean. assert (hl : lsum l <= c * INR (length l)).
  { clear h1. induction l as [|a l IH]; [unfold lsum; cbn; lra|]. change (lsum (a :: l)) with (a + lsum l). change (length (a :: l)) with (S (length l)).
    rewrite S_INR. specialize (h2 a (or_introl eq_refl)) as ha. assert (lsum l <= c * INR (length l)) by (apply IH; intros x hx; apply h2; right; exact hx). lra. }
  assert (hp : 0 < INR (length l)) by (apply lt_0_INR; destruct l; [contradiction|cbn; lia]).
  apply (Rmult_le_reg_r (INR (length l)) _ _ hp). unfold Rdiv. rewrite Rmult_assoc, Rinv_l by lra. lra.
Qed.
Lemma lsum_opp l : lsum (map Ropp l) = - lsum l.
Proof. unfold lsum. induction l as [|a l IH]; cbn [map fold_right]; lra. Qed.
Lemma mean_opp l : mean (map Ropp l) = - mean l.
Proof. unfold mean. rewrite lsum_opp, map_length. unfold Rdiv. lra. Qed.
Lemma mean_lower l c : l <> [] -> (forall x, In x l -> c <= x) -> c <= mean l.
Proof.
  intros h1 h2. assert (h : mean (map Ropp l) <= - c).
  { apply mean_upper; [destruct l; [contradiction|discriminate]|]. intros x hx. apply in_map_iff in hx. destruct hx as (y & <- & hy).
    specialize (h2 y hy). lra. }
  rewrite mean_opp in h. lra.
Qed.
Lemma has_max l : l <> [] -> exists m, In m l /\ forall x, In x l -> x <= m.
Proof.
  induction l as [|a l IH]; [intros h; contradiction|]. intros _. destruct l as [|b l].
  - exists a. split; [left; reflexivity|]. intros x [<-|[]]. lra.
  - destruct IH as (m & h1 & h2); [discriminate|]. destruct (Rle_dec a m) as [h|h].
    + exists m. split; [right; exact h1|]. intros x [<-|hx]; [exact h|apply h2, hx].
    + exists a. split; [left; reflexivity|]. intros x [<-|hx]; [lra|specialize (h2 x hx); lra].
Qed.
Lemma has_min l : l <> [] -> exists m, In m l /\ forall x, In x l -> m <= x.
Proof.
  intros h. destruct (has_max (map Ropp l)) as (m & h1 & h2); [destruct l; [contradiction|discriminate]|].
  apply in_map_iff in h1. destruct h1 as (y & <- & hy). exists y. split; [exact hy|]. intros x hx. specialize (h2 (- x) (in_map Ropp l x hx)). lra.
Qed.
Lemma mean_between l m : l <> [] -> m <> [] -> (forall x y, In x l -> In y m -> x < y) -> mean l < mean m.
Proof.
  intros h1 h2 h. destruct (has_max l h1) as (a & ha & hal). destruct (has_min m h2) as (b & hb & hbm).
  pose proof (mean_upper l a h1 hal). pose proof (mean_lower m b h2 hbm). specialize (h a b ha hb). lra.
Qed.
Lemma sharing_nonempty z l : In z (map pseudo l) -> map dx (sharing z l) <> [].
Proof.
  intros h. apply in_map_iff in h. destruct h as (d & h1 & h2). intros h.
  assert (hd : In d (sharing z l)) by (apply filter_In; split; [exact h2|apply Z.eqb_eq, h1]). apply (in_map dx) in hd. rewrite h in hd. exact hd.
Qed.
(** the merged points increase, as the spline needs *)
Lemma merge_increasing l g : ascending l -> group_points l = FOk g -> StronglySorted Rlt (map dx g).
Proof.
  intros h hg. destruct (merge_groups l g h hg) as (zs & h1 & h2 & ->). rewrite map_map.
  assert (hz : forall z, In z zs -> In z (map pseudo l)) by (intros z; apply h2). clear h2 hg.
  induction h1 as [|z zs hs IH hf]; cbn [map]; [constructor|]. constructor; [apply IH; intros y hy; apply hz; right; exact hy|].
  rewrite Forall_forall in *. intros x hx. apply in_map_iff in hx. destruct hx as (y & <- & hy).
  unfold average, dx. cbn [fst]. change (fun d : datum => fst (fst d)) with dx. apply mean_between.
  - apply sharing_nonempty, hz. left. reflexivity.
  - apply sharing_nonempty, hz. right. exact hy.
  - intros u v hu hv. apply in_map_iff in hu. destruct hu as (d & <- & hd). apply in_map_iff in hv. destruct hv as (e & <- & he).
    apply filter_In in hd. apply filter_In in he. destruct hd as [_ hd]. destruct he as [_ he]. apply Z.eqb_eq in hd. apply Z.eqb_eq in he.
    apply pseudo_lt. specialize (hf y hy). lia.
Qed.
(** a merged point lies between points that were merged *)
Lemma merge_between l g d : ascending l -> group_points l = FOk g -> In d g ->
  exists a b, In a l /\ In b l /\ pseudo a = pseudo b /\ dx a <= dx d <= dx b.
Proof.
  intros h hg hd. destruct (merge_groups l g h hg) as (zs & _ & h2 & ->). apply in_map_iff in hd. destruct hd as (z & <- & hz).
  apply h2 in hz. pose proof (sharing_nonempty z l hz) as hn.
  destruct (has_max _ hn) as (u & hu & hu2). destruct (has_min _ hn) as (v & hv & hv2).
  apply in_map_iff in hu. destruct hu as (b & <- & hb). apply in_map_iff in hv. destruct hv as (a & <- & ha).
  apply filter_In in ha. apply filter_In in hb. destruct ha as [ha ha2]. destruct hb as [hb hb2]. apply Z.eqb_eq in ha2. apply Z.eqb_eq in hb2.
  exists a, b. split; [exact ha|]. split; [exact hb|]. split; [congruence|].
  unfold average at 1 2, dx at 2 4. cbn [fst]. change (fun d : datum => fst (fst d)) with dx. split; [apply mean_lower; assumption|apply mean_upper; assumption].
Qed.
Lemma filter_perm {A} (p : A -> bool) l m : Permutation l m -> Permutation (filter p l) (filter p m).
Proof.
  induction 1 as [|x l m h IH|x y l|l m n h1 IH1 h2 IH2]; cbn; try constructor.
  - destruct (p x); [constructor|]; exact IH.
  - destruct (p x), (p y); try reflexivity. constructor.
  - transitivity (filter p m); assumption.
Qed.
Lemma average_perm g h : Permutation g h -> average g = average h.
Proof.
  intros p. unfold average. f_equal; [f_equal|].
  - unfold mean. rewrite (lsum_perm _ _ (Permutation_map dx p)). rewrite !map_length, (Permutation_length p). reflexivity.
  - rewrite (lsum_perm _ _ (Permutation_map _ p)), (lsum_perm _ _ (Permutation_map dw p)). reflexivity.
  - apply lsum_perm, Permutation_map, p.
Qed.
Lemma zlt_unique zs : forall ys, StronglySorted Z.lt zs -> StronglySorted Z.lt ys -> (forall z, In z zs <-> In z ys) -> zs = ys.
Proof.
  induction zs as [|z zs IH]; intros [|y ys] h1 h2 h; [reflexivity| | |].
  - destruct (proj2 (h y) (or_introl eq_refl)).
  - destruct (proj1 (h z) (or_introl eq_refl)).
  - inversion h1 as [|a b hs1 hf1]; subst. inversion h2 as [|a b hs2 hf2]; subst. rewrite Forall_forall in *.
    assert (z = y).
    { destruct (proj1 (h z) (or_introl eq_refl)) as [e|e]; [symmetry; exact e|]. destruct (proj2 (h y) (or_introl eq_refl)) as [e2|e2]; [exact e2|].
      specialize (hf2 z e). specialize (hf1 y e2). lia. }
    subst y. f_equal. apply IH; [exact hs1|exact hs2|]. intros x. split; intros hx.
    + destruct (proj1 (h x) (or_intror hx)) as [e|e]; [|exact e]. subst x. specialize (hf1 z hx). lia.
    + destruct (proj2 (h x) (or_intror hx)) as [e|e]; [|exact e]. subst x. specialize (hf2 z hx). lia.
Qed.
Lemma group_perm l m : ascending l -> ascending m -> Permutation l m -> group_points l = group_points m.
Proof.
  intros hl hm p. destruct (group_points l) as [g|e] eqn:E.
  - destruct (merge_groups l g hl E) as (zs & h1 & h2 & ->).
    assert (hm0 : m <> []).
    { intros ->. apply Permutation_sym, Permutation_nil in p. subst l. discriminate E. }
    assert (E2 : group_points m = FOk (map average (groups m))) by (apply group_points_spec; split; [exact hm0|reflexivity]).
    rewrite E2. f_equal. destruct (merge_groups m _ hm E2) as (ys & g1 & g2 & ->).
    replace ys with zs.
    + apply map_ext_in. intros z _. apply average_perm, filter_perm, p.
    + apply zlt_unique; [exact h1|exact g1|]. intros z. rewrite h2, g2. split; apply Permutation_in, Permutation_map; [exact p|apply Permutation_sym, p].
  - unfold group_points in *. destruct (groups l) as [|x gs] eqn:E2; [|discriminate E]. apply groups_nil in E2. subst l.
    apply Permutation_nil in p. subst m. symmetry. exact E.
Qed.
(** points closer than any distance may be kept apart *)
Lemma close_kept eps : 0 < eps -> exists a b g,
  dx a < dx b < dx a + eps /\ ascending [a; b] /\ group_points [a; b] = FOk g /\ length g = 2%nat.
Proof.
  intros h. set (e := Rmin eps (1 / 10 ^ 4)). assert (he : 0 < e) by (apply Rmin_glb_lt; [exact h|simpl; lra]).
  assert (he1 : e <= eps) by apply Rmin_l. assert (he2 : e <= 1 / 10 ^ 4) by apply Rmin_r.
  exists (1 - e / 2, 0, 1), (1, 0, 1). exists [average [(1 - e / 2, 0, 1)]; average [(1, 0, 1)]].
  split; [unfold dx; cbn [fst]; lra|]. split.
  { unfold ascending. cbn [map]. unfold dx. cbn [fst]. repeat constructor. lra. }
  split; [|reflexivity]. unfold group_points. cbn [groups].
  assert (p1 : pseudo (1 - e / 2, 0, 1) = 9999%Z).
  { unfold pseudo, dx, trunc. cbn [fst]. destruct (Rle_dec 0 ((1 - e / 2) * 10 ^ 4)) as [g|g]; [|exfalso; apply g; simpl in *; nra].
    apply Int_part_bounds. simpl in *; lra. }
  assert (p2 : pseudo (1, 0, 1) = 10000%Z).
  { unfold pseudo, dx, trunc. cbn [fst]. destruct (Rle_dec 0 (1 * 10 ^ 4)) as [g|g]; [|exfalso; apply g; simpl in *; lra].
    apply Int_part_bounds. simpl in *; lra. }
  rewrite p1, p2. reflexivity.
Qed.
