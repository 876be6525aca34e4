From Coquelicot Require Import Coquelicot.
From Coq Require Import Reals ZArith String List Bool Arith Sorting.Permutation Sorting.Sorted.
From Verif Require Import Vec GeomModel PairModel FitModel FitSpec FitProofs FitProofs2 FitProofs3 FitProofs4 FitProofs5 FitProofs6.
Import ListNotations.
Open Scope R_scope.

(** C110: merging of close points before the fit. *)
Theorem C110_merged :
  forall l g : list datum,
  ascending l ->
  group_points l = FOk g ->
  exists zs : list Z,
    StronglySorted Z.lt zs /\
    (forall z : Z, In z zs <-> In z (map pseudo l)) /\
    g =
    map (fun z : Z => let s := sharing z l in (lsum (map dx s) / INR (length s), weighted_sum s / total_weight s, total_weight s)) zs.
Proof. exact merge_spec. Qed.
Theorem C110_conserved :
  forall l g : list datum,
  group_points l = FOk g -> total_weight g = total_weight l /\ (Forall (fun d : datum => 0 < dw d) l -> weighted_sum g = weighted_sum l).
Proof. exact merge_conserves. Qed.
Theorem C110_increasing :
  forall l g : list datum, ascending l -> group_points l = FOk g -> StronglySorted Rlt (map dx g).
Proof. exact merge_increasing. Qed.
Theorem C110_between :
  forall (l g : list datum) (d : datum),
  ascending l -> group_points l = FOk g -> In d g -> exists a b : datum, In a l /\ In b l /\ pseudo a = pseudo b /\ dx a <= dx d <= dx b.
Proof. exact merge_between. Qed.
Theorem C110_order :
  forall l m : list datum, ascending l -> ascending m -> Permutation l m -> group_points l = group_points m.
Proof. exact group_perm. Qed.
Theorem C110_close :
  forall a b : datum, 0 <= dx a -> 0 <= dx b -> pseudo a = pseudo b -> Rabs (dx a - dx b) < 1 / 10000.
Proof. exact merged_close. Qed.
Theorem C110_same_decimals :
  forall (a b : datum) (n : nat), INR n <= dx a * 10 ^ 4 < INR n + 1 -> INR n <= dx b * 10 ^ 4 < INR n + 1 -> pseudo a = pseudo b.
Proof. exact same_decimals. Qed.
(** ... but points arbitrarily close may be kept apart *)
Theorem C110_close_refuted :
  forall eps : R,
  0 < eps ->
  exists (a b : datum) (g : list datum),
    dx a < dx b < dx a + eps /\ ascending [a; b] /\ group_points [a; b] = FOk g /\ length g = 2%nat.
Proof. exact close_kept. Qed.
(** C111: what is fitted.  A case: ex_distinct, insertion_sorts *)
Theorem C111_data :
  forall (rc : R) (l d : list datum),
  ascending l ->
  fit_data rc l = FOk d ->
  exists (below : list (R * R * R)) (w : R),
    d = below ++ [(rc, 0, w)] /\
    below <> [] /\
    Forall (fun x : datum => dx x < rc) below /\ StronglySorted Rlt (map dx d) /\ (forall x : R * R * R, In x below -> 1000 * dw x <= w).
Proof. exact fit_data_shape. Qed.
Theorem C111_any_order :
  forall (sort : list datum -> list datum) (splfit : list datum -> R -> Z -> R -> R) (quad : (R -> R) -> R -> R -> R)
    (interp : list (R * R) -> R -> R),
  sorts sort ->
  forall f g : fitting,
  Permutation (data f) (data g) ->
  r_cut f = r_cut g ->
  smooth f = smooth g ->
  order f = order g ->
  let (f', a) := fit sort splfit quad interp f in
  let (g', b) := fit sort splfit quad interp g in a = b /\ smooth f' = smooth g' /\ order f' = order g' /\ (a = FOk tt -> pot f' = pot g').
Proof. exact fit_any_order. Qed.
Theorem C111_repeated :
  forall (sort : list datum -> list datum) (splfit : list datum -> R -> Z -> R -> R) (quad : (R -> R) -> R -> R -> R)
    (interp : list (R * R) -> R -> R) (f f' : fitting),
  fit sort splfit quad interp f = (f', FOk tt) -> fit sort splfit quad interp f' = (f', FOk tt).
Proof. exact fit_twice. Qed.
Theorem C111_distinct_partial :
  forall (sort : list datum -> list datum) (splfit : list datum -> R -> Z -> R -> R) (quad : (R -> R) -> R -> R -> R)
    (interp : list (R * R) -> R -> R),
  sorts sort ->
  forall f : fitting,
  deriv f <> [] ->
  (1 <= order f <= 5)%Z ->
  Forall (fun p : point => p_r p < r_cut f /\ 0 < p_w p) (deriv f) ->
  NoDup (map pseudo (data f)) ->
  exists w s : R,
    let k := Z.min (Z.of_nat (length (deriv f))) (order f) in
    let used := sort (data f) ++ [(r_cut f, 0, w)] in
    fit sort splfit quad interp f =
    (with_fit f (Some s) k (Some (integrate_vrep quad interp (splfit used s k) (r_cut f), splfit used s k)), FOk tt) /\
    (smooth f = None -> s = INR (length (deriv f) + 1) - sqrt (2 * INR (length (deriv f) + 1))) /\
    (forall s' : R, smooth f = Some s' -> s = s').
Proof. exact fit_distinct. Qed.
Theorem C111_nothing_below_cutoff :
  forall (sort : list datum -> list datum) (splfit : list datum -> R -> Z -> R -> R) (quad : (R -> R) -> R -> R -> R)
    (interp : list (R * R) -> R -> R),
  sorts sort ->
  forall f : fitting,
  Forall (fun p : point => r_cut f <= p_r p) (deriv f) ->
  snd (fit sort splfit quad interp f) = FErr ValueError /\ pot (fst (fit sort splfit quad interp f)) = pot f.
Proof. exact fit_beyond. Qed.
Theorem C111_too_early :
  forall (sort : list datum -> list datum) (splfit : list datum -> R -> Z -> R -> R) (quad : (R -> R) -> R -> R -> R)
    (interp : list (R * R) -> R -> R),
  sorts sort ->
  forall (f : fitting) (d : list point) (c : string),
  deriv f = [] ->
  (0 <= order f)%Z ->
  snd (fit sort splfit quad interp f) = FErr ValueError /\
  snd (fit sort splfit quad interp (with_points (fst (fit sort splfit quad interp f)) d c)) <> FOk tt.
Proof. exact fit_too_early. Qed.
Theorem C111_order_refuted :
  exists f : fitting,
    length (deriv f) = 4%nat /\
    Forall (fun p : point => p_r p < r_cut f /\ 0 < p_w p) (deriv f) /\
    order f = 3%Z /\
    (forall (sort : list datum -> list datum) (splfit : list datum -> R -> Z -> R -> R) (quad : (R -> R) -> R -> R -> R)
       (interp : list (R * R) -> R -> R),
     sorts sort ->
     snd (fit sort splfit quad interp f) = FErr TypeError /\
     (exists used : list datum, fit_data (r_cut f) (sort (data f)) = FOk used /\ splrep_check (map dx used) 2 = None)).
Proof. exact order_kept. Qed.
Theorem C111_settings_refuted :
  forall (sort : list datum -> list datum) (splfit : list datum -> R -> Z -> R -> R) (quad : (R -> R) -> R -> R -> R)
    (interp : list (R * R) -> R -> R),
  sorts sort ->
  exists (f : fitting) (p q : point),
    let fit := fit sort splfit quad interp in
    let add := fun (f0 : fitting) (p0 : point) => with_points f0 (deriv f0 ++ [p0]) (comments f0) in
    let at_once := fit (add (add f p) q) in
    let first := fit (add f p) in
    let second := fit (add (fst first) q) in
    snd at_once = FOk tt /\
    snd first = FOk tt /\
    snd second = FOk tt /\
    smooth (fst at_once) = Some (3 - sqrt 6) /\
    smooth (fst second) = Some 0 /\ 0 < 3 - sqrt 6 /\ order (fst at_once) = 2%Z /\ order (fst second) = 1%Z.
Proof. exact settings_kept. Qed.
Theorem C111_early_fit_refuted :
  forall (sort : list datum -> list datum) (splfit : list datum -> R -> Z -> R -> R) (quad : (R -> R) -> R -> R -> R)
    (interp : list (R * R) -> R -> R),
  sorts sort ->
  exists (f : fitting) (p : point),
    let fit := fit sort splfit quad interp in
    let add := fun (f0 : fitting) (p0 : point) => with_points f0 (deriv f0 ++ [p0]) (comments f0) in
    snd (fit (add f p)) = FOk tt /\ snd (fit f) = FErr ValueError /\ snd (fit (add (fst (fit f)) p)) <> FOk tt.
Proof. exact early_fit. Qed.
(** C112: the potential that is fitted.  A case: ex_interpolates *)
Theorem C112_integral :
  forall (quad : (R -> R) -> R -> R -> R) (interp : list (R * R) -> R -> R) (dv : R -> R) (rc : R),
  0 < rc ->
  forall i : nat,
  interpolates interp ->
  exact_quadrature quad dv -> (i < 100)%nat -> is_RInt dv rc (fit_grid rc i) (integrate_vrep quad interp dv rc (fit_grid rc i)).
Proof. exact potential_integral. Qed.
Theorem C112_nodes :
  forall (quad : (R -> R) -> R -> R -> R) (interp : list (R * R) -> R -> R) (dv : R -> R) (rc : R),
  0 < rc -> forall i : nat, interpolates interp -> (i < 100)%nat -> integrate_vrep quad interp dv rc (fit_grid rc i) = fit_value quad dv rc i.
Proof. exact potential_node. Qed.
Theorem C112_calls :
  forall (sort : list datum -> list datum) (splfit : list datum -> R -> Z -> R -> R) (quad : (R -> R) -> R -> R -> R)
    (interp : list (R * R) -> R -> R) (f f' : fitting),
  fit sort splfit quad interp f = (f', FOk tt) ->
  exists dv : R -> R, (forall r : R, call f' r 0 = FOk (integrate_vrep quad interp dv (r_cut f) r)) /\ (forall r : R, call f' r 1 = FOk (dv r)).
Proof. exact fit_calls. Qed.
Theorem C112_cutoff :
  forall (quad : (R -> R) -> R -> R -> R) (interp : list (R * R) -> R -> R) (dv : R -> R) (rc : R),
  0 < rc -> forall r : R, interpolates interp -> rc <= r -> integrate_vrep quad interp dv rc r = 0.
Proof. exact potential_cutoff. Qed.
Theorem C112_decreasing :
  forall (quad : (R -> R) -> R -> R -> R) (interp : list (R * R) -> R -> R) (dv : R -> R) (rc : R),
  0 < rc ->
  forall i j : nat,
  interpolates interp ->
  exact_quadrature quad dv ->
  (i < j < 100)%nat ->
  (forall r : R, continuous dv r) ->
  (forall r : R, 0 < r < rc -> dv r < 0) -> integrate_vrep quad interp dv rc (fit_grid rc i) < integrate_vrep quad interp dv rc (fit_grid rc j).
Proof. exact potential_decreasing. Qed.
Theorem C112_derivative_refuted :
  forall (quad : (R -> R) -> R -> R -> R) (interp : list (R * R) -> R -> R) (rc : R),
  0 < rc ->
  let dv := fun r : R => (r - rc) ^ 3 in
  let V := integrate_vrep quad interp dv rc in
  cubic_between (interp (fit_table quad dv rc)) (fit_grid rc 1) (fit_grid rc 0) -> exists r : R, 0 < r < rc /\ ~ is_derive V r (dv r).
Proof. exact derivative_differs. Qed.
(** C113: systems with one bond length. *)
Theorem C113_slope_partial :
  forall (wtext : R -> string) (f : fitting) (w : R) (E : R -> R) (dE : R -> R) (d : list R) 
    (r : R) (comment label color : option string) (f' : fitting),
  1 < scale f ->
  0 < r ->
  d <> [] ->
  (forall x : R, In x d -> x = r) ->
  (forall x : R, r <= x <= scale f * r -> is_derive E x (dE x)) ->
  append_scalable wtext f w (fun x : R => E (x * r)) d comment label color = (f', FOk tt) ->
  exists (x : R) (col : string) (lab : option string),
    r < x < scale f * r /\
    deriv f' = deriv f ++ [{| p_r := r; p_dv := - dE x / INR (length d); p_w := w; p_color := col; p_label := lab |}].
Proof. exact scalable_slope. Qed.
Theorem C113_dimer_partial :
  forall (wtext : R -> string) (f : fitting) (w r : R) (E : R -> R) (dE : R -> R) 
    (comment : option string) (label : string) (color : option string) (f' : fitting),
  1 < scale f ->
  0 < r ->
  (forall x : R, r <= x <= scale f * r -> is_derive E x (dE x)) ->
  append_dimer wtext f w r (fun x : R => E (x * r)) comment label color = (f', FOk tt) ->
  r <= r_cut f /\
  (exists (x : R) (col : string) (lab : option string),
     r < x < scale f * r /\ deriv f' = deriv f ++ [{| p_r := r; p_dv := - dE x; p_w := w; p_color := col; p_label := lab |}]).
Proof. exact dimer_slope. Qed.
Theorem C113_slope_refuted :
  forall wtext : R -> string,
  exists (f : fitting) (w : R) (E dE : R -> R) (r : R) (f' : fitting) (v : R) (col : string) (lab : option string),
    (forall x : R, is_derive E x (dE x)) /\
    append_scalable wtext f w (fun x : R => E (x * r)) [r] (Some "Au2"%string) None None = (f', FOk tt) /\
    deriv f' = [{| p_r := r; p_dv := v; p_w := w; p_color := col; p_label := lab |}] /\ v <> - dE r.
Proof. exact scalable_inexact. Qed.
Theorem C113_default_refuted :
  forall (wtext : R -> string) (f : fitting) (w : R) (e : R -> R) (d : list R) (color : option string),
  snd (append_scalable wtext f w e d None None color) <> FOk tt.
Proof. exact scalable_default. Qed.
(** C114: the number of bonds that the energy is divided by. *)
Theorem C114_energy_partial :
  forall (N nimg : nat) (Rn : nat -> nat -> v3) (sym : nat -> string) (ela elb : string) (V : R -> R) (rc Bohr : R),
  (forall i n : nat, (i < N)%nat -> (n < nimg)%nat -> n <> 0%nat -> sym i = ela -> sym i = elb -> rc / Bohr < dist Rn n i i) ->
  total_energy N nimg Rn (pair_potential sym ela elb V Bohr) (rc / Bohr) = lsum (map V (bond_list N nimg Rn sym ela elb rc Bohr)).
Proof. exact bond_energy. Qed.
Theorem C114_count_partial :
  forall (N nimg : nat) (Rn : nat -> nat -> v3) (sym : nat -> string) (ela elb : string) (V : R -> R) (rc Bohr r : R),
  (forall i n : nat, (i < N)%nat -> (n < nimg)%nat -> n <> 0%nat -> sym i = ela -> sym i = elb -> rc / Bohr < dist Rn n i i) ->
  (forall d : R, In d (bond_list N nimg Rn sym ela elb rc Bohr) -> d = r) ->
  total_energy N nimg Rn (pair_potential sym ela elb V Bohr) (rc / Bohr) =
  INR (length (bond_list N nimg Rn sym ela elb rc Bohr)) * V r.
Proof. exact bond_count. Qed.
Theorem C114_own_images_refuted :
  exists (N nimg : nat) (Rn : nat -> nat -> v3) (sym : nat -> string) (ela elb : string) (rc Bohr : R),
    0 < Bohr /\
    (forall V : R -> R,
     let d := bond_list N nimg Rn sym ela elb rc Bohr in
     length d = 2%nat /\
     (forall x : R, In x d -> x = 2) /\ total_energy N nimg Rn (pair_potential sym ela elb V Bohr) (rc / Bohr) = V 2).
Proof. exact own_bonds. Qed.
(** C115: energy curves. *)
Theorem C115_points :
  forall (wtext : R -> string) (slope : list (R * R) -> Z -> R -> R) (f : fitting) (w : R) (fr : list frame)
    (comment label color : option string) (f' : fitting),
  append_curve wtext slope f w fr comment label color = (f', FOk tt) ->
  exists (l : list (R * R * R * nat)) (n : nat) (new : list point) (xy : list (R * R)),
    collect (r_cut f) (tol f) fr = FOk l /\
    (forall (r a b : R) (m : nat), In (r, a, b, m) l -> m = n) /\
    xy = map (fun '(r, a, b, m) => (r, (a - b) / INR m)) (sort_by (fun '(r, _, _, _) => r) l) /\
    (3 <= length l)%nat /\
    StronglySorted Rlt (map fst xy) /\
    deriv f' = deriv f ++ new /\
    map (fun p : point => (p_r p, p_dv p)) new =
    map (fun x : R * R => (fst x, slope xy (Z.min (Z.of_nat (length l) - 2) 3) (fst x))) xy /\
    Forall (fun p : point => p_w p = w / sqrt (INR (length l))) new.
Proof. exact curve_shape. Qed.
Theorem C115_weights :
  forall (wtext : R -> string) (slope : list (R * R) -> Z -> R -> R) (f : fitting) (w : R) (fr : list frame)
    (comment label color : option string) (f' : fitting),
  append_curve wtext slope f w fr comment label color = (f', FOk tt) ->
  exists new : list point,
    deriv f' = deriv f ++ new /\
    (3 <= length new)%nat /\
    StronglySorted Rlt (map p_r new) /\ Forall (fun p : point => p_r p < r_cut f) new /\ lsum (map (fun p : point => p_w p ^ 2) new) = w ^ 2.
Proof. exact curve_weight. Qed.
Theorem C115_cubic :
  forall (wtext : R -> string) (slope : list (R * R) -> Z -> R -> R) (f : fitting) (w : R) (fr : list frame)
    (comment label color : option string) (f' : fitting) (c0 c1 c2 c3 : R),
  reproduces_cubics slope ->
  append_curve wtext slope f w fr comment label color = (f', FOk tt) ->
  (forall (x : frame) (r : R) (n : nat),
   In x fr ->
   bonds (tol f) (fr_dist x) = FOk (r, Some n) -> (0 < n)%nat /\ fr_ref x = fr_calc x + INR n * (c0 + c1 * r + c2 * r ^ 2 + c3 * r ^ 3)) ->
  exists new : list point,
    deriv f' = deriv f ++ new /\
    ((5 <= length new)%nat -> Forall (fun p : point => p_dv p = c1 + 2 * c2 * p_r p + 3 * c3 * p_r p ^ 2) new).
Proof. exact curve_exact. Qed.
Theorem C115_default_refuted :
  forall (wtext : R -> string) (slope : list (R * R) -> Z -> R -> R) (f : fitting) (w : R) (fr : list frame) (color : option string),
  snd (append_curve wtext slope f w fr None None color) <> FOk tt.
Proof. exact curve_default. Qed.
(** C116: histories. *)
Theorem C116_failed_call :
  forall (wtext : R -> string) (slope : list (R * R) -> Z -> R -> R) (sort : list datum -> list datum) (splfit : list datum -> R -> Z -> R -> R)
    (quad : (R -> R) -> R -> R -> R) (interp : list (R * R) -> R -> R) (f : fitting) (o : op) (g : fitting) (e : ferr),
  step wtext slope sort splfit quad interp f o = (g, FErr e) -> deriv g = deriv f /\ comments g = comments f /\ pot g = pot f.
Proof. exact failed_call. Qed.
Theorem C116_points_kept :
  forall (wtext : R -> string) (slope : list (R * R) -> Z -> R -> R) (sort : list datum -> list datum) (splfit : list datum -> R -> Z -> R -> R)
    (quad : (R -> R) -> R -> R -> R) (interp : list (R * R) -> R -> R) (l : list op) (f g : fitting) (rs : list (fres unit)),
  run wtext slope sort splfit quad interp f l = (g, rs) -> exists new : list point, deriv g = deriv f ++ new.
Proof. exact points_kept. Qed.
Theorem C116_comments :
  forall (wtext : R -> string) (slope : list (R * R) -> Z -> R -> R) (sort : list datum -> list datum) (splfit : list datum -> R -> Z -> R -> R)
    (quad : (R -> R) -> R -> R -> R) (interp : list (R * R) -> R -> R) (rc : R) (s : option R) (k : Z) (t : R) (l : list op) 
    (g : fitting) (rs : list (fres unit)),
  run wtext slope sort splfit quad interp (new_fitting rc s k t) l = (g, rs) -> comments g = join (comments_of wtext l rs).
Proof. exact comments_joined. Qed.
(** C117: colours. *)
Theorem C117_eight :
  forall (wtext : R -> string) (slope : list (R * R) -> Z -> R -> R) (sort : list datum -> list datum) (splfit : list datum -> R -> Z -> R -> R)
    (quad : (R -> R) -> R -> R -> R) (interp : list (R * R) -> R -> R) (rc : R) (s : option R) (k : Z) (t : R) (l : list op) 
    (g : fitting) (rs : list (fres unit)),
  run wtext slope sort splfit quad interp (new_fitting rc s k t) l = (g, rs) -> (auto_done l rs <= 8)%nat.
Proof. exact eight_colors. Qed.
Theorem C117_refuted :
  forall (wtext : R -> string) (slope : list (R * R) -> Z -> R -> R) (sort : list datum -> list datum) (splfit : list datum -> R -> Z -> R -> R)
    (quad : (R -> R) -> R -> R -> R) (interp : list (R * R) -> R -> R),
  exists l : list op,
    forallb auto l = true /\
    snd (run wtext slope sort splfit quad interp (new_fitting 3 None 3 (5 / 1000)) l) = repeat (FOk tt) 8 ++ [FErr TypeError].
Proof. exact nine_systems. Qed.
(** C118: clusters.  A case: ex_cluster *)
Theorem C118_forces :
  forall (n : nat) (pos : nat -> v3) (rc : R) (p : R * R) (i : nat),
  (forall j : nat, (j < n)%nat -> j <> i -> vnorm (vsub (pos j) (pos i)) <> rc) ->
  frep n pos rc p i = force n 1 (fun _ : nat => pos) (fun _ _ : nat => dvlin rc p) rc i.
Proof. exact cluster_forces. Qed.
Theorem C118_zero :
  forall (n : nat) (pos : nat -> v3) (rc : R) (fdft fwr : nat -> v3) (p : R * R),
  to_minimize n pos rc fdft fwr p = 0 <-> (forall i : nat, (i < n)%nat -> fdft i = vadd (fwr i) (frep n pos rc p i)).
Proof. exact objective_zero. Qed.
Theorem C118_nonnegative :
  forall (n : nat) (pos : nat -> v3) (rc : R) (fdft fwr : nat -> v3) (p : R * R), 0 <= to_minimize n pos rc fdft fwr p.
Proof. exact objective_nonneg. Qed.
Theorem C118_convex :
  forall (n : nat) (pos : nat -> v3) (rc : R) (fdft fwr : nat -> v3) (p q : R * R),
  to_minimize n pos rc fdft fwr (mid p q) <= (to_minimize n pos rc fdft fwr p + to_minimize n pos rc fdft fwr q) / 2.
Proof. exact objective_convex. Qed.
Theorem C118_points :
  forall (wtext : R -> string) (f : fitting) (w : R) (d : list R) (p : R * R) (comment label : string) (color : option string) (f' : fitting),
  append_cluster wtext f w d p comment label color = (f', FOk tt) ->
  exists new : list point,
    deriv f' = deriv f ++ new /\
    length new = 6%nat /\
    lsum (map (fun p0 : point => p_w p0 ^ 2) new) = w ^ 2 /\
    Forall (fun q : point => p_dv q = fst p + snd p * (p_r q - r_cut f)) new /\
    (forall q : point, In q new -> exists a b : R, In a d /\ In b d /\ a <= p_r q <= b).
Proof. exact cluster_points. Qed.
(** C119: files. *)
Theorem C119_table :
  forall (sort : list datum -> list datum) (splfit : list datum -> R -> Z -> R -> R) (quad : (R -> R) -> R -> R -> R)
    (interp : list (R * R) -> R -> R) (Bohr Hartree : R) (f f' : fitting),
  sorts sort ->
  interpolates interp ->
  0 < Bohr ->
  0 < Hartree ->
  1 / 10 < r_cut f ->
  (forall x : structure, In x (structures f) -> st_file x <> None) ->
  fit sort splfit quad interp f = (f', FOk tt) ->
  let t := rows (fst (write_par Bohr Hartree f')) in
  snd (write_par Bohr Hartree f') = FOk tt /\
  length t = 100%nat /\
  StronglySorted Rlt (map fst t) /\
  fst (hd (0, 1) t) = 1 / 10 / Bohr /\
  last t (0, 1) = (r_cut f / Bohr, 0) /\ (forall r v : R, In (r, v) t -> call f' (r * Bohr) 0 = FOk (v * Hartree)).
Proof. exact par_written. Qed.
Theorem C119_unfitted :
  forall (Bohr Hartree : R) (f : fitting),
  pot f = None -> rows (fst (write_par Bohr Hartree f)) = [] /\ snd (write_par Bohr Hartree f) <> FOk tt.
Proof. exact par_no_fit. Qed.
Theorem C119_unfitted_refuted :
  exists (f : fitting) (Bohr Hartree : R), write_par Bohr Hartree f = ([CommentHeader; Parameters 3 1 3; RepulsionHeader], FErr AssertionError).
Proof. exact par_unfitted. Qed.
Theorem C119_saved :
  forall f g : fitting,
  let (x, r) := write_fitting_data f true in
  let (h, s) := load_fitting_data g x in
  r = FOk tt /\
  s = FOk tt /\
  deriv h = deriv f /\ comments h = comments f /\ structures h = structures f /\ r_cut h = r_cut g /\ smooth h = smooth g /\ order h = order g.
Proof. exact data_saved. Qed.
Theorem C119_fit_loaded :
  forall (sort : list datum -> list datum) (splfit : list datum -> R -> Z -> R -> R) (quad : (R -> R) -> R -> R -> R)
    (interp : list (R * R) -> R -> R) (f g : fitting),
  r_cut f = r_cut g ->
  smooth f = smooth g ->
  order f = order g ->
  let h := fst (load_fitting_data g (fst (write_fitting_data f true))) in
  let (f', a) := fit sort splfit quad interp f in let (h', b) := fit sort splfit quad interp h in a = b /\ (a = FOk tt -> pot f' = pot h').
Proof. exact fit_loaded. Qed.
Theorem C119_plain_refuted :
  forall f g : fitting, let (x, r) := write_fitting_data f false in r = FErr TypeError /\ snd (load_fitting_data g x) = FErr EOFError.
Proof. exact data_plain. Qed.
(** C120: tests of a parametrization. *)
Theorem C120_once :
  forall f : fitting,
  (forall x : structure, In x (structures f) -> st_file x <> None) ->
  exists ns : list string,
    snd (new_test f) = FOk ns /\
    map Some ns = map st_file (structures f) /\ (structures f <> [] -> snd (new_test (fst (new_test f))) = FErr KeyError).
Proof. exact test_once. Qed.
Theorem C120_refuted :
  exists f : fitting,
    (forall x : structure, In x (structures f) -> st_file x <> None) /\
    snd (new_test f) = FOk ["a.traj"%string; "b.traj"%string] /\ snd (new_test (fst (new_test f))) = FErr KeyError.
Proof. exact test_twice. Qed.
Print Assumptions C110_merged.
Print Assumptions C110_conserved.
Print Assumptions C110_increasing.
Print Assumptions C110_between.
Print Assumptions C110_order.
Print Assumptions C110_close.
Print Assumptions C110_same_decimals.
Print Assumptions C110_close_refuted.
Print Assumptions C111_data.
Print Assumptions C111_any_order.
Print Assumptions C111_repeated.
Print Assumptions C111_distinct_partial.
Print Assumptions C111_nothing_below_cutoff.
Print Assumptions C111_too_early.
Print Assumptions C111_order_refuted.
Print Assumptions C111_settings_refuted.
Print Assumptions C111_early_fit_refuted.
Print Assumptions C112_integral.
Print Assumptions C112_nodes.
Print Assumptions C112_calls.
Print Assumptions C112_cutoff.
Print Assumptions C112_decreasing.
Print Assumptions C112_derivative_refuted.
Print Assumptions C113_slope_partial.
Print Assumptions C113_dimer_partial.
Print Assumptions C113_slope_refuted.
Print Assumptions C113_default_refuted.
Print Assumptions C114_energy_partial.
Print Assumptions C114_count_partial.
Print Assumptions C114_own_images_refuted.
Print Assumptions C115_points.
Print Assumptions C115_weights.
Print Assumptions C115_cubic.
Print Assumptions C115_default_refuted.
Print Assumptions C116_failed_call.
Print Assumptions C116_points_kept.
Print Assumptions C116_comments.
Print Assumptions C117_eight.
Print Assumptions C117_refuted.
Print Assumptions C118_forces.
Print Assumptions C118_zero.
Print Assumptions C118_nonnegative.
Print Assumptions C118_convex.
Print Assumptions C118_points.
Print Assumptions C119_table.
Print Assumptions C119_unfitted.
Print Assumptions C119_unfitted_refuted.
Print Assumptions C119_saved.
Print Assumptions C119_fit_loaded.
Print Assumptions C119_plain_refuted.
Print Assumptions C120_once.
Print Assumptions C120_refuted.
