(** Bonds, scalable systems, energy curves, clusters *)
From Coquelicot Require Import Coquelicot.
From Coq Require Import Reals ZArith String List Bool Arith Lia Lra Psatz Sorting.Permutation Sorting.Sorted.
From Verif Require Import Vec GeomModel GeomProofs ContProofs PairModel FitModel FitSpec FitProofs FitProofs2 FitProofs3.
Import ListNotations.
Open Scope R_scope.

(** ** Bonds and energy *)
Lemma lsum_flat_map {A B} (h : B -> R) (g : A -> list B) l : lsum (map h (flat_map g l)) = lsum (map (fun a => lsum (map h (g a))) l).
Proof. induction l as [|a l IH]; [reflexivity|]. cbn [flat_map map]. rewrite map_app, lsum_app, IH. reflexivity. Qed.
Lemma lsum_seq f n : forall k, lsum (map f (seq k n)) = rsum n (fun i => f (k + i)%nat).
Proof.
  induction n as [|n IH]; intros k; [reflexivity|]. cbn [seq map]. change (lsum (?a :: ?l)) with (a + lsum l). rewrite IH.
  rewrite rsum_shift. rewrite Nat.add_0_r. f_equal. apply rsum_ext. intros i _. f_equal. lia.
Qed.
Lemma lsum_seq0 f n : lsum (map f (seq 0 n)) = rsum n f.
Proof. rewrite lsum_seq. reflexivity. Qed.
Section Bonds.
Variables (N nimg : nat) (Rn : nat -> nat -> v3) (sym : nat -> string) (ela elb : string) (V : R -> R) (rc Bohr : R).
Hypothesis HB : 0 < Bohr.
(** the repulsive energy is the sum over the bonds, if no atom is bonded to its own image *)
Lemma bond_energy : 
  (forall i n, (i < N)%nat -> (n < nimg)%nat -> n <> 0%nat -> sym i = ela -> sym i = elb -> rc / Bohr < dist Rn n i i) ->
  total_energy N nimg Rn (pair_potential sym ela elb V Bohr) (rc / Bohr) = lsum (map V (bond_list N nimg Rn sym ela elb rc Bohr)).
Proof.
  intros h. unfold total_energy, bond_list. rewrite lsum_flat_map, lsum_seq0. apply rsum_ext. intros i hi.
  rewrite lsum_flat_map, lsum_seq0. apply rsum_ext. intros j' hj. cbv zeta. set (j := (i + j')%nat).
  unfold pair_energy, pair_potential.
  destruct (((sym i =? ela)%string && (sym j =? elb)%string) || ((sym j =? ela)%string && (sym i =? elb)%string)) eqn:E.
  - rewrite lsum_flat_map, lsum_seq0. apply rsum_ext. intros n hn. destruct (self_pair n i j) eqn:E1; [reflexivity|].
    destruct (leb (dist Rn n i j) (rc / Bohr)) eqn:E2.
    + apply leb_true in E2. replace (ltb (rc / Bohr) (dist Rn n i j)) with false by (symmetry; apply ltb_false; lra).
      destruct (i =? j)%nat eqn:E3; [|cbn; lra]. exfalso. apply Nat.eqb_eq in E3. rewrite <- E3 in *.
      unfold self_pair in E1. rewrite Nat.eqb_refl in E1. cbn in E1. apply Nat.eqb_neq in E1.
      assert (hs : sym i = ela /\ sym i = elb).
      { apply orb_true_iff in E. destruct E as [E|E]; apply andb_true_iff in E; destruct E as [a b]; apply String.eqb_eq in a; apply String.eqb_eq in b; tauto. }
      specialize (h i n hi hn E1 (proj1 hs) (proj2 hs)). lra.
    + assert (E4 : ltb (rc / Bohr) (dist Rn n i j) = true).
      { apply ltb_true. unfold leb in E2. destruct (Rle_dec (dist Rn n i j) (rc / Bohr)); [discriminate|lra]. }
      rewrite E4. reflexivity.
  - cbn [map]. transitivity (rsum nimg (fun _ => 0)).
    + apply rsum_ext. intros n _. destruct (self_pair n i j); [reflexivity|]. destruct (ltb _ _); [reflexivity|]. destruct (i =? j)%nat; lra.
    + rewrite rsum_zero. reflexivity.
Qed.
Lemma lsum_same (f : R -> R) l r : (forall d, In d l -> d = r) -> lsum (map f l) = INR (length l) * f r.
Proof.
  induction l as [|a l IH]; intros h; [cbn; unfold lsum; cbn; lra|]. cbn [map]. change (lsum (?a :: ?l)) with (a + lsum l). 
  rewrite IH by (intros d hd; apply h; right; exact hd). rewrite (h a (or_introl eq_refl)). change (length (?x :: ?y)) with (S (length y)). rewrite S_INR. lra.
Qed.
Lemma bond_count r : 
  (forall i n, (i < N)%nat -> (n < nimg)%nat -> n <> 0%nat -> sym i = ela -> sym i = elb -> rc / Bohr < dist Rn n i i) ->
  (forall d, In d (bond_list N nimg Rn sym ela elb rc Bohr) -> d = r) ->
  total_energy N nimg Rn (pair_potential sym ela elb V Bohr) (rc / Bohr) = INR (length (bond_list N nimg Rn sym ela elb rc Bohr)) * V r.
Proof. intros h1 h2. rewrite bond_energy by exact h1. apply lsum_same, h2. Qed.
End Bonds.
(** a chain of one atom per cell: two bonds are counted for the energy of one *)
Definition chain_Rn (n j : nat) : v3 := match n with 0%nat => vzero | 1%nat => V3 2 0 0 | _ => V3 (-2) 0 0 end.
Lemma chain_dist n : (0 < n)%nat -> dist chain_Rn n 0 0 = 2.
Proof.
  intros h. unfold dist, rijn, chain_Rn, vnorm, vsub, vzero. destruct n as [|[|n]]; [lia| |]; cbn [vx vy vz vdot].
  - apply sqrt_lem_1; [|lra|]; unfold vdot; cbn [vx vy vz]; lra.
  - apply sqrt_lem_1; [|lra|]; unfold vdot; cbn [vx vy vz]; lra.
Qed.
Lemma own_bonds : exists N nimg Rn sym ela elb rc Bohr, 0 < Bohr /\ forall V,
  let d := bond_list N nimg Rn sym ela elb rc Bohr in
  length d = 2%nat /\ (forall x, In x d -> x = 2) /\
  total_energy N nimg Rn (pair_potential sym ela elb V Bohr) (rc / Bohr) = V 2.
Proof.
  exists 1%nat, 3%nat, chain_Rn, (fun _ => "C"%string), "C"%string, "C"%string, 3, 1. split; [lra|]. intros V.
  assert (hd : bond_list 1 3 chain_Rn (fun _ => "C"%string) "C" "C" 3 1 = [2; 2]).
  { unfold bond_list. cbn [seq flat_map Nat.sub app]. cbn [Nat.add].
    replace (("C" =? "C")%string) with true by reflexivity. cbn [andb orb].
    unfold self_pair. cbn [Nat.eqb andb]. rewrite !chain_dist by lia.
    replace (leb 2 (3 / 1)) with true by (symmetry; apply leb_true; lra). cbn [app]. rewrite !Rmult_1_r. reflexivity. }
  cbv zeta. rewrite hd. split; [reflexivity|]. split; [intros x [<-|[<-|[]]]; reflexivity|].
  unfold total_energy, pair_energy, pair_potential. cbn [rsum Nat.sub Nat.add].
  unfold self_pair. cbn [Nat.eqb andb]. rewrite !chain_dist by lia. 
  replace (ltb (3 / 1) 2) with false by (symmetry; apply ltb_false; lra). replace (("C" =? "C")%string) with true by reflexivity. cbn [andb orb].
  rewrite Rmult_1_r. lra.
Qed.

(** ** Scalable systems *)
Lemma add_comment_points f s : deriv (add_comment f s) = deriv f /\ colors (add_comment f s) = colors f /\ colori (add_comment f s) = colori f.
Proof. destruct s as [[|c s]|]; repeat split; reflexivity. Qed.
Lemma append_point_deriv f w r dv c l col : exists lab, deriv (append_point f w r dv c l col) = deriv f ++ [Point r dv w col lab].
Proof.
  unfold append_point. destruct (match c with None => l | Some _ => c end) as [s|] eqn:E; eexists.
  - destruct (s =? "_nolegend_")%string; [reflexivity|]. rewrite (proj1 (add_comment_points _ _)). reflexivity.
  - rewrite (proj1 (add_comment_points _ _)). reflexivity.
Qed.
Lemma get_color_points f c : let g := fst (get_color f c) in
  deriv g = deriv f /\ comments g = comments f /\ r_cut g = r_cut f /\ tol g = tol f /\ scale g = scale f.
Proof.
  unfold get_color. destruct c as [c|]; [cbn; tauto|]. destruct (colors f) as [l|]; [|cbn; tauto].
  destruct (_ =? _)%nat; cbn; tauto.
Qed.
Section Systems.
Variable wtext : R -> string.
(** the point that is added: with the energy a function of the bond length, the slope at some length between r and scale*r *)
Lemma scalable_slope f w E dE d r comment label color f' :
  1 < scale f -> 0 < r -> d <> [] -> (forall x, In x d -> x = r) -> 
  (forall x, r <= x <= scale f * r -> is_derive E x (dE x)) ->
  append_scalable wtext f w (fun x => E (x * r)) d comment label color = (f', FOk tt) ->
  exists x col lab, r < x < scale f * r /\ deriv f' = deriv f ++ [Point r (- dE x / INR (length d)) w col lab].
Proof.
  intros hs hr hd hall hE. unfold append_scalable.
  assert (hb : bonds (tol f) d = FErr AssertionError \/ bonds (tol f) d = FOk (r, Some (length d))).
  { destruct d as [|a l]; [contradiction|]. unfold bonds. destruct (ltb _ _); [left; reflexivity|right].
    f_equal. f_equal. unfold mean. rewrite <- (map_id (a :: l)) at 1. rewrite (lsum_same _ (a :: l) r hall). field.
    apply not_0_INR. discriminate. }
  destruct hb as [hb|hb]; rewrite hb; [discriminate|].
  destruct (get_color f color) as [g [col|e]] eqn:E1; [|discriminate]. destruct (or_else comment label) as [c|]; [|discriminate].
  intros h. injection h as <-.
  assert (hm : exists x, r < x < scale f * r /\ E (scale f * r) - E r = dE x * (scale f * r - r)).
  { destruct (MVT_cor2 E dE r (scale f * r)) as (y & h1 & h2); [nra| |exists y; split; [exact h2|exact h1]].
    intros y hy. apply is_derive_Reals, hE, hy. }
  destruct hm as (x & hx & hv).
  pose proof (get_color_points f color) as hg. rewrite E1 in hg. cbn [fst] in hg. destruct hg as (hg & _).
  match goal with |- context [append_point ?g ?a ?b ?c ?d ?e ?f] => destruct (append_point_deriv g a b c d e f) as (lab & hl) end.
  exists x, col, lab. split; [exact hx|]. rewrite hl, hg. f_equal. f_equal. f_equal.
  rewrite Rmult_1_l, hv. field. split; [apply not_0_INR; destruct d; [contradiction|discriminate]|nra].
Qed.
(** a parabola: the slope is not that at the bond length *)
Lemma scalable_inexact : exists f w E dE r f' v col lab,
  (forall x, is_derive E x (dE x)) /\ append_scalable wtext f w (fun x => E (x * r)) [r] (Some "Au2"%string) None None = (f', FOk tt) /\
  deriv f' = [Point r v w col lab] /\ v <> - dE r.
Proof.
  exists (new_fitting 3 None 3 (5 / 1000)), 1, (fun x => x ^ 2), (fun x => 2 * x), 1. do 4 eexists. split; [|split; [|split]].
  - intros x. auto_derive; [exact I|ring].
  - unfold append_scalable. cbn [bonds new_fitting tol lmax lmin]. replace (ltb (5 / 1000) (1 - 1)) with false by (symmetry; apply ltb_false; lra).
    assert (hm : mean [1] = 1) by (unfold mean, lsum; cbn; field). rewrite hm. cbn [get_color or_else colors colori with_colors all_colors length Nat.eqb nth_error]. reflexivity.
  - cbn [append_point]. unfold append_point. destruct (_ =? _)%string; [reflexivity|]. rewrite (proj1 (add_comment_points _ _)). reflexivity.
  - cbn [scale with_colors new_fitting length INR]. intros h.
    assert (e : - (((1025 / 1000 * 1) ^ 2 - (1 * 1) ^ 2) / (1025 / 1000 * 1 - 1)) / 1 = - (2025 / 1000)) by field.
    rewrite e in h. lra.
Qed.
(** with the default arguments no system can be added *)
Lemma scalable_default f w e d color : snd (append_scalable wtext f w e d None None color) <> FOk tt.
Proof.
  unfold append_scalable. destruct (bonds _ _) as [[r [n|]]|x]; try discriminate. destruct (get_color f color) as [g [c|x]]; discriminate.
Qed.
Lemma curve_default slope f w fr color : snd (append_curve wtext slope f w fr None None color) <> FOk tt.
Proof.
  unfold append_curve. destruct (_ <? _)%nat; [discriminate|]. destruct (collect _ _ _) as [[|[[[r a] b] n] t]|x]; try discriminate.
  destruct (existsb _ _); [discriminate|]. cbv zeta. destruct (splrep_check _ _); [discriminate|]. destruct (get_color f color) as [g [c|x]]; discriminate.
Qed.

(** ** Energy curves *)
Lemma curve_points_deriv w col : forall l f com label, exists new, deriv (curve_points f w l com label col) = deriv f ++ new /\
  map (fun p => (p_r p, p_dv p)) new = l /\ Forall (fun p => p_w p = w) new.
Proof.
  induction l as [|[r dv] l IH]; intros f com label; cbn [curve_points].
  - exists []. rewrite app_nil_r. repeat split. constructor.
  - destruct (IH (append_point f w r dv com label col) None (Some "_nolegend_"%string)) as (new & h1 & h2 & h3).
    destruct (append_point_deriv f w r dv com label col) as (lab & h4). exists (Point r dv w col lab :: new).
    split; [rewrite h1, h4, <- app_assoc; reflexivity|]. split; [cbn [map p_r p_dv]; rewrite h2; reflexivity|]. constructor; [reflexivity|exact h3].
Qed.
Lemma weights_squared w l : Forall (fun p => p_w p = w) l -> lsum (map (fun p => p_w p ^ 2) l) = INR (length l) * w ^ 2.
Proof.
  induction 1 as [|p l hp hl IH]; [cbn; unfold lsum; cbn; lra|]. cbn [map]. change (lsum (?a :: ?l)) with (a + lsum l). rewrite IH, hp.
  change (length (?x :: ?y)) with (S (length y)). rewrite S_INR. ring.
Qed.
Lemma collect_in rc tl : forall fr l, collect rc tl fr = FOk l -> forall r a b n, In (r, a, b, n) l ->
  r < rc /\ exists x, In x fr /\ bonds tl (fr_dist x) = FOk (r, Some n) /\ fr_ref x = a /\ fr_calc x = b.
Proof.
  induction fr as [|x fr IH]; cbn [collect]; intros l h r a b n hin.
  - injection h as <-. destruct hin.
  - destruct (bonds tl (fr_dist x)) as [[r0 n0]|e] eqn:E; [|discriminate]. destruct (collect rc tl fr) as [t|e]; [|discriminate].
    injection h as <-. destruct n0 as [n0|].
    + destruct (ltb r0 rc) eqn:E2.
      * destruct hin as [h|hin].
        -- injection h as -> <- <- ->. split; [apply ltb_true, E2|]. exists x. repeat split; [left; reflexivity|exact E].
        -- destruct (IH t eq_refl r a b n hin) as (h1 & y & h2 & h3). split; [exact h1|]. exists y. split; [right; exact h2|exact h3].
      * destruct (IH t eq_refl r a b n hin) as (h1 & y & h2 & h3). split; [exact h1|]. exists y. split; [right; exact h2|exact h3].
    + destruct (IH t eq_refl r a b n hin) as (h1 & y & h2 & h3). split; [exact h1|]. exists y. split; [right; exact h2|exact h3].
Qed.
Lemma increasing_ss l : increasing l = true -> StronglySorted Rlt l.
Proof.
  intros h. apply Sorted_StronglySorted; [intros x y z; apply Rlt_trans|]. induction l as [|a l IH]; [constructor|].
  cbn [increasing] in h. destruct l as [|b l]; [repeat constructor|]. apply andb_true_iff in h. destruct h as [h1 h2].
  constructor; [apply IH, h2|constructor; apply ltb_true, h1].
Qed.
Lemma curve_shape slope f w fr comment label color f' :
  append_curve wtext slope f w fr comment label color = (f', FOk tt) ->
  exists l n new xy, collect (r_cut f) (tol f) fr = FOk l /\ (forall r a b m, In (r, a, b, m) l -> m = n) /\
    xy = map (fun '(r, a, b, m) => (r, (a - b) / INR m)) (sort_by (fun '(r, _, _, _) => r) l) /\
    (3 <= length l)%nat /\ StronglySorted Rlt (map fst xy) /\
    deriv f' = deriv f ++ new /\ map (fun p => (p_r p, p_dv p)) new = map (fun x => (fst x, slope xy (Z.min (Z.of_nat (length l) - 2) 3) (fst x))) xy /\
    Forall (fun p => p_w p = w / sqrt (INR (length l))) new.
Proof.
  unfold append_curve. destruct (_ <? _)%nat; [discriminate|]. destruct (collect _ _ _) as [l|x] eqn:E0; [|discriminate].
  destruct l as [|h t]; [discriminate|]. destruct h as [[[r0 a0] b0] n0].
  destruct (existsb _ t) eqn:E1; [discriminate|]. cbv zeta. set (l := (r0, a0, b0, n0) :: t) in *.
  set (xy := map _ (sort_by _ l)).
  assert (hlen : length (sort_by (fun '(r, _, _, _) => r) l) = length l) by (symmetry; apply Permutation_length, sort_by_perm).
  rewrite hlen. destruct (splrep_check _ _) as [e|] eqn:E2; [discriminate|].
  destruct (get_color f color) as [g [col|e]] eqn:E3; [|discriminate]. destruct (or_else comment label) as [c|]; [|discriminate].
  intros h. injection h as <-.
  pose proof (get_color_points f color) as hg. rewrite E3 in hg. cbn [fst] in hg. destruct hg as (hg & _).
  match goal with |- context [curve_points ?a ?b ?c ?d ?e ?f] => destruct (curve_points_deriv b f c a d e) as (new & h1 & h2 & h3) end.
  exists l, n0, new, xy. split; [reflexivity|]. split; [|split; [reflexivity|]].
  { intros r a b m [h|h]; [injection h as _ _ _ <-; reflexivity|]. destruct (Nat.eq_dec m n0) as [e|e]; [exact e|]. exfalso.
    assert (ht : existsb (fun '(_, _, _, m0) => negb (m0 =? n0)%nat) t = true).
    { apply existsb_exists. exists (r, a, b, m). split; [exact h|]. apply negb_true_iff, Nat.eqb_neq, e. }
    congruence. }
  unfold splrep_check in E2. 
  destruct (negb _) eqn:E4 in E2; [discriminate|]. destruct (_ <=? _)%Z in E2; [discriminate|]. destruct (increasing _) eqn:E5 in E2; [|discriminate].
  apply negb_false_iff, andb_true_iff in E4. destruct E4 as [E4 _]. apply Z.leb_le in E4.
  split; [lia|]. split; [apply increasing_ss, E5|]. split; [rewrite h1, hg; reflexivity|]. split; [exact h2|exact h3].
Qed.
(** the points of a curve: at least three, of increasing length below the cutoff, with the given weight altogether *)
Lemma curve_weight slope f w fr comment label color f' :
  append_curve wtext slope f w fr comment label color = (f', FOk tt) ->
  exists new, deriv f' = deriv f ++ new /\ (3 <= length new)%nat /\ StronglySorted Rlt (map p_r new) /\
    Forall (fun p => p_r p < r_cut f) new /\ lsum (map (fun p => p_w p ^ 2) new) = w ^ 2.
Proof.
  intros h. destruct (curve_shape _ _ _ _ _ _ _ _ h) as (l & n & new & xy & h1 & h2 & h3 & h4 & h5 & h6 & h7 & h8).
  exists new. assert (hr : map p_r new = map fst xy).
  { transitivity (map fst (map (fun p => (p_r p, p_dv p)) new)); [rewrite map_map; reflexivity|]. rewrite h7, map_map. reflexivity. }
  assert (hl : length new = length l).
  { rewrite <- (map_length p_r new), hr, map_length, h3, map_length. symmetry. apply Permutation_length, sort_by_perm. }
  split; [exact h6|]. split; [lia|]. split; [rewrite hr; exact h5|]. split.
  - rewrite <- (Forall_map p_r (fun r => r < r_cut f)), hr, h3, map_map, Forall_map, Forall_forall.
    intros [[[r a] b] m] hin. cbn [fst]. apply (Permutation_in _ (Permutation_sym (sort_by_perm _ l))) in hin. apply (collect_in _ _ _ _ h1 _ _ _ _ hin).
  - rewrite (weights_squared _ _ h8), hl. assert (hp : 0 < INR (length l)) by (apply lt_0_INR; lia).
    unfold Rdiv. rewrite Rpow_mult_distr, pow_inv. assert (hs : sqrt (INR (length l)) ^ 2 = INR (length l)) by (simpl; rewrite Rmult_1_r; apply sqrt_sqrt; lra).
    rewrite hs. field. lra.
Qed.
(** with at least five points the slopes are exact for a cubic polynomial *)
Lemma curve_exact slope f w fr comment label color f' c0 c1 c2 c3 :
  reproduces_cubics slope -> append_curve wtext slope f w fr comment label color = (f', FOk tt) ->
  (forall x r n, In x fr -> bonds (tol f) (fr_dist x) = FOk (r, Some n) ->
     (0 < n)%nat /\ fr_ref x = fr_calc x + INR n * (c0 + c1 * r + c2 * r ^ 2 + c3 * r ^ 3)) ->
  exists new, deriv f' = deriv f ++ new /\
    ((5 <= length new)%nat -> Forall (fun p => p_dv p = c1 + 2 * c2 * p_r p + 3 * c3 * p_r p ^ 2) new).
Proof.
  intros hs h hV. destruct (curve_shape _ _ _ _ _ _ _ _ h) as (l & n & new & xy & h1 & h2 & h3 & h4 & h5 & h6 & h7 & h8).
  exists new. split; [exact h6|]. intros h9.
  assert (hl : length xy = length l) by (rewrite h3, map_length; symmetry; apply Permutation_length, sort_by_perm).
  assert (hn : length new = length l).
  { rewrite <- (map_length (fun p => (p_r p, p_dv p)) new), h7, map_length. exact hl. }
  replace (Z.min (Z.of_nat (length l) - 2) 3) with 3%Z in h7 by lia.
  rewrite Forall_forall. intros p hp. assert (hin : In (p_r p, p_dv p) (map (fun x => (fst x, slope xy 3%Z (fst x))) xy)).
  { rewrite <- h7. apply (in_map (fun p => (p_r p, p_dv p))), hp. }
  apply in_map_iff in hin. destruct hin as ([x y] & hx & hin). cbn [fst] in hx. injection hx as e1 e2. rewrite <- e1, <- e2.
  apply (hs xy c0 c1 c2 c3); [lia| |apply (in_map fst _ _ hin)].
  intros u v huv. rewrite h3 in huv. apply in_map_iff in huv. destruct huv as ([[[r a] b] m] & e & hr). injection e as <- <-.
  apply (Permutation_in _ (Permutation_sym (sort_by_perm _ l))) in hr. destruct (collect_in _ _ _ _ h1 _ _ _ _ hr) as (_ & z & hz & hb & <- & <-).
  destruct (hV z r m hz hb) as [hm e]. rewrite e. field. apply not_0_INR. lia.
Qed.
End Systems.
