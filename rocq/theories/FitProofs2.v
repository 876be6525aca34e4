(** The fit: order of the data, what is fitted, repeated fits *)
From Coquelicot Require Import Coquelicot.
From Coq Require Import Reals ZArith String List Bool Arith Lia Lra Psatz Sorting.Permutation Sorting.Sorted.
From Verif Require Import Vec GeomModel GeomProofs ContProofs PairModel FitModel FitSpec FitProofs.
Import ListNotations.
Open Scope R_scope.

Lemma increasing_sorted l : StronglySorted Rlt l -> increasing l = true.
Proof.
  induction 1 as [|a l hs IH hf]; [reflexivity|]. cbn [increasing]. destruct l as [|b l]; [reflexivity|].
  apply andb_true_iff. split; [|exact IH]. inversion hf; subst. apply ltb_true. assumption.
Qed.
Lemma ss_app_end l a : StronglySorted Rlt l -> Forall (fun x => x < a) l -> StronglySorted Rlt (l ++ [a]).
Proof.
  induction 1 as [|b l hs IH hf]; intros h; cbn [app]; [constructor; constructor|]. inversion h; subst. constructor; [apply IH; assumption|].
  apply Forall_app. split; [exact hf|constructor; [assumption|constructor]].
Qed.
Lemma ss_filter (p : datum -> bool) l : StronglySorted Rlt (map dx l) -> StronglySorted Rlt (map dx (filter p l)).
Proof.
  induction l as [|a l IH]; cbn [map filter]; intros h; [constructor|]. inversion h as [|x y hs hf]; subst. destruct (p a); [|apply IH, hs].
  cbn [map]. constructor; [apply IH, hs|]. rewrite Forall_forall in *. intros x hx. apply hf. apply in_map_iff in hx. destruct hx as (d & <- & hd).
  apply filter_In in hd. apply in_map, hd.
Qed.
Lemma fit_data_spec rc l d : fit_data rc l = FOk d -> exists g a t,
  group_points l = FOk g /\ filter (fun d => ltb (dx d) rc) g = a :: t /\ d = (a :: t) ++ [(rc, 0, 1000 * lmax (dw a) (map dw t))].
Proof.
  unfold fit_data. destruct (group_points l) as [g|e]; [|discriminate]. destruct (filter _ g) as [|a t] eqn:E; [discriminate|].
  intros h. injection h as <-. exists g, a, t. split; [reflexivity|]. split; [exact E|reflexivity].
Qed.
(** what is given to the spline: increasing distances below the cutoff, then the zero at the cutoff *)
Lemma fit_data_shape rc l d : ascending l -> fit_data rc l = FOk d ->
  exists below w, d = below ++ [(rc, 0, w)] /\ below <> [] /\ Forall (fun x => dx x < rc) below /\
    StronglySorted Rlt (map dx d) /\ (forall x, In x below -> 1000 * dw x <= w).
Proof.
  intros hl hd. destruct (fit_data_spec rc l d hd) as (g & a & t & h1 & h2 & ->). 
  exists (a :: t), (1000 * lmax (dw a) (map dw t)). split; [reflexivity|]. split; [discriminate|].
  assert (hb : Forall (fun x => dx x < rc) (a :: t)).
  { rewrite <- h2, Forall_forall. intros x hx. apply filter_In in hx. apply ltb_true, hx. }
  split; [exact hb|]. split.
  - rewrite map_app. apply ss_app_end; [rewrite <- h2; apply ss_filter, (merge_increasing l g hl h1)|]. rewrite Forall_map. exact hb.
  - intros x hx. assert (hm : dw x <= lmax (dw a) (map dw t)).
    { assert (hm : forall l a y, In y (a :: l) -> y <= lmax a l).
      { clear. induction l as [|b l IH]; intros a y; cbn [lmax].
        - intros [<-|[]]. lra.
        - intros [<-|[<-|hy]].
          + apply Rle_trans with (Rmax a b); [apply Rmax_l|apply IH; left; reflexivity].
          + apply Rle_trans with (Rmax a b); [apply Rmax_r|apply IH; left; reflexivity].
          + apply IH. right. exact hy. }
      apply hm. change (dw a :: map dw t) with (map dw (a :: t)). apply in_map, hx. }
    lra.
Qed.
Section Fits.
Variables (sort : list datum -> list datum) (splfit : list datum -> R -> Z -> R -> R)
  (quad : (R -> R) -> R -> R -> R) (interp : list (R * R) -> R -> R).
Hypothesis Hsort : sorts sort.
Notation fit := (fit sort splfit quad interp).
Lemma sort_ascending l : ascending (sort l). Proof. apply Hsort. Qed.
Lemma sort_perm l m : Permutation l m -> Permutation (sort l) (sort m).
Proof.
  intros p. transitivity l; [apply Permutation_sym, Hsort|]. transitivity m; [exact p|apply Hsort].
Qed.
(** the order in which the points were added does not matter *)
Lemma fit_any_order f g : Permutation (data f) (data g) -> r_cut f = r_cut g -> smooth f = smooth g -> order f = order g ->
  let (f', a) := fit f in let (g', b) := fit g in
  a = b /\ smooth f' = smooth g' /\ order f' = order g' /\ (a = FOk tt -> pot f' = pot g').
Proof.
  intros p h1 h2 h3. unfold FitModel.fit. cbn [r_cut smooth order with_fit deriv].
  assert (hl : length (deriv f) = length (deriv g)).
  { apply Permutation_length in p. unfold data in p. rewrite !map_length in p. exact p. }
  assert (hd : forall rc, fit_data rc (sort (data f)) = fit_data rc (sort (data g))).
  { intros rc. unfold fit_data. rewrite (group_perm _ (sort (data g)) (sort_ascending _) (sort_ascending _) (sort_perm _ _ p)). reflexivity. }
  fold (data f) (data g). rewrite hl, <- h1, <- h2, <- h3, <- hd. destruct (fit_data _ _) as [d|e].
  - destruct (splrep_check _ _) as [e|]; cbn [smooth order pot with_fit].
    + repeat split. intros h. discriminate h.
    + repeat split.
  - cbn [smooth order pot with_fit]. repeat split. intros h. discriminate h.
Qed.
(** a second fit of the same data changes nothing *)
Lemma fit_twice f f' : fit f = (f', FOk tt) -> fit f' = (f', FOk tt).
Proof.
  unfold FitModel.fit. cbn [r_cut smooth order with_fit deriv]. fold (data f). destruct (fit_data _ _) as [d|e] eqn:E; [|discriminate].
  destruct (splrep_check _ _) as [e|] eqn:E2; [discriminate|]. intros h. injection h as <-. cbn [r_cut smooth order pot with_fit deriv].
  fold (data f).
  replace (Z.min (Z.of_nat (length (deriv f))) (Z.min (Z.of_nat (length (deriv f))) (order f))) with (Z.min (Z.of_nat (length (deriv f))) (order f)) by lia.
  rewrite E, E2. reflexivity.
Qed.
(** no points below the cutoff: an error, and the potential of an earlier fit stays *)
Lemma fit_beyond f : Forall (fun p => r_cut f <= p_r p) (deriv f) -> snd (fit f) = FErr ValueError /\ pot (fst (fit f)) = pot f.
Proof.
  intros h. assert (E : fit_data (r_cut f) (sort (data f)) = FErr ValueError).
  { unfold fit_data. destruct (group_points (sort (data f))) as [g|e] eqn:E.
    - assert (hf : filter (fun d => ltb (dx d) (r_cut f)) g = []); [|rewrite hf; reflexivity].
      apply forallb_filter_nil. rewrite forallb_forall. intros d hd. apply negb_true_iff, ltb_false.
      destruct (merge_between _ _ d (sort_ascending _) E hd) as (a & b & ha & _ & _ & hab & _).
      apply (Permutation_in _ (Permutation_sym (proj1 (Hsort (data f))))) in ha. unfold data in ha. apply in_map_iff in ha. destruct ha as (p & <- & hp).
      rewrite Forall_forall in h. specialize (h p hp). unfold dx in hab. cbn [fst] in hab. unfold dx. lra.
    - unfold group_points in E. destruct (groups _); [injection E as <-; reflexivity|discriminate E]. }
  unfold FitModel.fit. cbn [r_cut with_fit deriv]. fold (data f). rewrite E. split; reflexivity.
Qed.
Lemma groups_single l : zsorted l -> NoDup (map pseudo l) -> groups l = map (fun d => [d]) l.
Proof.
  induction l as [|a l IH]; [reflexivity|]. intros h1 h2. inversion h1; subst. inversion h2 as [|x y hn hd]; subst. cbn [groups map].
  rewrite IH; [|assumption|exact hd]. destruct l as [|b l]; [reflexivity|]. cbn [map].
  destruct (pseudo a =? pseudo b)%Z eqn:E; [|reflexivity]. exfalso. apply hn. left. symmetry. apply Z.eqb_eq, E.
Qed.
Lemma average_single d : 0 < dw d -> average [d] = d.
Proof.
  intros h. destruct d as [[x y] w]. unfold average, mean, lsum, dx, dy, dw in *. cbn [map fold_right length fst snd] in *. 
  change (INR 1) with 1. rewrite !Rplus_0_r. replace (x / 1) with x by field. replace (y * w / w) with y by (field; apply Rgt_not_eq, h). reflexivity.
Qed.
Lemma filter_all {A} (p : A -> bool) l : Forall (fun x => p x = true) l -> filter p l = l.
Proof. induction 1 as [|a l ha hl IH]; [reflexivity|]. cbn. rewrite ha, IH. reflexivity. Qed.
(** distinct points below the cutoff are all fitted, with the order reduced to their number *)
Lemma fit_distinct f : deriv f <> [] -> (1 <= order f <= 5)%Z -> Forall (fun p => p_r p < r_cut f /\ 0 < p_w p) (deriv f) ->
  NoDup (map pseudo (data f)) ->
  exists w s, let k := Z.min (Z.of_nat (length (deriv f))) (order f) in
    let used := sort (data f) ++ [(r_cut f, 0, w)] in
    fit f = (with_fit f (Some s) k (Some (integrate_vrep quad interp (splfit used s k) (r_cut f), splfit used s k)), FOk tt) /\
    (smooth f = None -> s = INR (length (deriv f) + 1) - sqrt (2 * INR (length (deriv f) + 1))) /\
    (forall s', smooth f = Some s' -> s = s').
Proof.
  intros h1 hk h2 h3.
  destruct (Hsort (data f)) as [hp hs].
  assert (hc : Forall (fun d => dx d < r_cut f /\ 0 < dw d) (sort (data f))).
  { rewrite Forall_forall. intros d hd. apply (Permutation_in _ (Permutation_sym hp)) in hd. unfold data in hd. apply in_map_iff in hd.
    destruct hd as (q & <- & hq). rewrite Forall_forall in h2. apply (h2 q hq). }
  assert (hn : sort (data f) <> []).
  { intros e. rewrite e in hp. apply Permutation_sym, Permutation_nil in hp. unfold data in hp. destruct (deriv f); [contradiction|discriminate]. }
  assert (hg : group_points (sort (data f)) = FOk (sort (data f))).
  { apply group_points_spec. split; [exact hn|]. rewrite groups_single; [|apply ascending_z, hs|].
    - rewrite map_map. rewrite <- map_id at 1. apply map_ext_in. intros d hd. symmetry. apply average_single. rewrite Forall_forall in hc. apply (hc d hd).
    - apply (Permutation_NoDup (Permutation_map pseudo hp)), h3. }
  assert (hlen : length (sort (data f)) = length (deriv f)).
  { rewrite <- (Permutation_length hp). unfold data. apply map_length. }
  destruct (sort (data f)) as [|a t] eqn:E; [contradiction|].
  exists (1000 * lmax (dw a) (map dw t)). 
  assert (hf : fit_data (r_cut f) (a :: t) = FOk ((a :: t) ++ [(r_cut f, 0, 1000 * lmax (dw a) (map dw t))])).
  { unfold fit_data. rewrite hg. rewrite filter_all; [reflexivity|]. apply (Forall_impl _ (fun d (h : dx d < r_cut f /\ 0 < dw d) => proj2 (ltb_true _ _) (proj1 h)) hc). }
  exists (match smooth f with None => INR (length (deriv f) + 1) - sqrt (2 * INR (length (deriv f) + 1)) | Some s => s end).
  cbv zeta. split; [|split; [intros ->; reflexivity|intros s' ->; reflexivity]].
  unfold FitModel.fit. cbn [r_cut smooth with_fit deriv]. fold (data f). rewrite E, hf.
  assert (hl2 : length ((a :: t) ++ [(r_cut f, 0, 1000 * lmax (dw a) (map dw t))]) = (length (deriv f) + 1)%nat).
  { rewrite app_length, hlen. reflexivity. }
  assert (hx : splrep_check (map dx ((a :: t) ++ [(r_cut f, 0, 1000 * lmax (dw a) (map dw t))])) (Z.min (Z.of_nat (length (deriv f))) (order f)) = None).
  { destruct (fit_data_shape _ _ _ hs hf) as (_ & _ & _ & _ & _ & hi & _). unfold splrep_check. rewrite map_length, hl2.
    assert (hd : (0 < length (deriv f))%nat) by (destruct (deriv f); [contradiction|cbn; lia]).
    replace ((1 <=? Z.min (Z.of_nat (length (deriv f))) (order f)) && (Z.min (Z.of_nat (length (deriv f))) (order f) <=? 5))%Z with true by (symmetry; apply andb_true_iff; split; apply Z.leb_le; lia).
    cbn [negb]. replace (Z.of_nat (length (deriv f) + 1) <=? Z.min (Z.of_nat (length (deriv f))) (order f))%Z with false by (symmetry; apply Z.leb_gt; lia).
    rewrite (increasing_sorted _ hi). reflexivity. }
  rewrite hx, hl2. reflexivity.
Qed.
(** once fit() has been called without points, no fit succeeds any more *)
Lemma fit_too_early f d c : deriv f = [] -> (0 <= order f)%Z -> 
  snd (fit f) = FErr ValueError /\ snd (fit (with_points (fst (fit f)) d c)) <> FOk tt.
Proof.
  intros h1 h2.
  assert (E : fit f = (with_fit f (smooth f) 0 (pot f), FErr ValueError)).
  { unfold FitModel.fit. cbn [r_cut with_fit smooth deriv pot order]. rewrite h1. cbn [length].
    replace (Z.min (Z.of_nat 0) (order f)) with 0%Z by (cbn; lia).
    assert (hn : sort (map (fun p : point => (p_r p, p_dv p, p_w p)) []) = []).
    { destruct (Hsort []) as [hp _]. apply Permutation_nil in hp. exact hp. }
    rewrite hn. reflexivity. }
  rewrite E. split; [reflexivity|]. unfold FitModel.fit. cbn [fst with_fit with_points deriv order r_cut smooth].
  replace (Z.min (Z.of_nat (length d)) 0) with 0%Z by lia.
  destruct (fit_data _ _); [|discriminate]. cbn [snd splrep_check Z.leb Z.compare andb negb]. discriminate.
Qed.
End Fits.
