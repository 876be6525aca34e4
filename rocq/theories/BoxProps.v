From Coq Require Import Reals ZArith List Bool Arith String.
From Coquelicot Require Import Coquelicot.
From Verif Require Import Vec GeomModel BoxModel BoxSpec BoxProofs BoxProofs2 BoxProofs3 BoxProofs4 BoxProofs5.
Import ListNotations.
Open Scope R_scope.

(** C164: vectors and distances with the nearest images.  Cases: ex_cube *)
Theorem C164_vector :
  forall (b : batoms) (p q : point),
  orthogonal b -> positive_axes b -> exists d : v3, vector false b p (Point q) true = inr d /\ shortest_image b (difference b p q) d.
Proof. exact vector_shortest. Qed.
Theorem C164_vector_of_point :
  forall (b : batoms) (p : point) (e : bool),
  orthogonal b -> positive_axes b -> exists d : v3, vector e b p Nothing true = inr d /\ shortest_image b (coordinates b p) d.
Proof. exact vector_of_point. Qed.
Theorem C164_distance :
  forall (b : batoms) (p q : point),
  orthogonal b ->
  positive_axes b ->
  exists d : R,
    distance false b p (Point q) true = inr d /\
    (exists n : nat -> Z, d = vnorm (image b n (difference b p q))) /\ (forall m : nat -> Z, d <= vnorm (image b m (difference b p q))).
Proof. exact distance_least. Qed.
Theorem C164_symmetric :
  forall (b : batoms) (p q : point), orthogonal b -> positive_axes b -> distance false b p (Point q) true = distance false b q (Point p) true.
Proof. exact distance_symmetric. Qed.
Theorem C164_triangle :
  forall (b : batoms) (p q s : point) (x y z : R),
  orthogonal b ->
  positive_axes b ->
  distance false b p (Point q) true = inr x ->
  distance false b q (Point s) true = inr y -> distance false b p (Point s) true = inr z -> z <= x + y.
Proof. exact distance_triangle. Qed.
Theorem C164_zero :
  forall (b : batoms) (p q : point),
  orthogonal b -> positive_axes b -> distance false b p (Point q) true = inr 0 <-> (exists n : nat -> Z, image b n (difference b p q) = vzero).
Proof. exact distance_zero. Qed.
Theorem C164_unique :
  forall (b : batoms) (p q : point) (d : R),
  orthogonal b ->
  positive_axes b ->
  (exists n : nat -> Z, d = vnorm (image b n (difference b p q))) ->
  (forall m : nat -> Z, d <= vnorm (image b m (difference b p q))) -> distance false b p (Point q) true = inr d.
Proof. exact distance_unique. Qed.
Theorem C164_numpy_refuted :
  forall (b : batoms) (p q : point) (mic : bool),
  (exists e : error, vector true b p (Point q) mic = inl e) /\
  (exists e : error, distance true b p (Point q) mic = inl e) /\
  vector true b p (Point q) true = inl ValueError /\ distance true b p (Point q) true = inl ValueError.
Proof. exact new_numpy. Qed.
Theorem C164_length_refuted :
  forall e : bool,
  exists (b : batoms) (p : point), orthogonal b /\ positive_axes b /\ coordinates b p = vzero /\ distance e b p Nothing true = inr (sqrt 3).
Proof. exact length_refuted. Qed.
Theorem C164_oblique_refuted :
  orthogonal_check oblique = true /\
  positive_axes oblique /\
  (exists n : nat -> Z, image oblique n (difference oblique (Index 0) (Index 1)) = vzero) /\
  distance false oblique (Index 0) (Point (Index 1)) true = inr 1.
Proof. exact oblique_refuted. Qed.
(** C165: atoms are moved into the cell.  Cases: molecule_checks *)
Theorem C165_reduce :
  forall b b' : batoms, orthogonal b -> reduce b = inr b' -> placed b b'.
Proof. exact reduce_placed. Qed.
Theorem C165_rejects :
  forall (b : batoms) (e : error),
  reduce b = inl e ->
  e = ValueError /\
  ((exists a : nat, (a < 3)%nat /\ axis_length b a < 1.1) \/
   (exists i a : nat, (i < b_N b)%nat /\ (a < 3)%nat /\ b_pbc b a = false /\ (coord (b_pos b i) a < 0 \/ axis_length b a < coord (b_pos b i) a))).
Proof. exact reduce_rejects. Qed.
Theorem C165_accepts :
  forall b : batoms,
  (forall a : nat, (a < 3)%nat -> 1.1 <= axis_length b a) ->
  (forall i a : nat, (i < b_N b)%nat -> (a < 3)%nat -> b_pbc b a = false -> 0 <= coord (b_pos b i) a <= axis_length b a) ->
  exists b' : batoms, reduce b = inr b'.
Proof. exact reduce_accepts. Qed.
Theorem C165_set_positions_accepts :
  forall (w : world) (o : nat) (r : nat -> v3),
  let b := with_pos (data_of w o) r in
  orthogonal b ->
  (forall a : nat, (a < 3)%nat -> 1.1 <= axis_length b a) ->
  (forall i a : nat, (i < b_N b)%nat -> (a < 3)%nat -> b_pbc b a = false -> 0 <= coord (r i) a <= axis_length b a) ->
  snd (step w (SetPositions o r)) = None.
Proof. exact set_positions_accepts. Qed.
Theorem C165_distances :
  forall (b b' : batoms) (i j : nat),
  orthogonal b ->
  positive_axes b ->
  placed b b' ->
  (i < b_N b)%nat -> (j < b_N b)%nat -> distance false b' (Index i) (Point (Index j)) true = distance false b (Index i) (Point (Index j)) true.
Proof. exact placed_same. Qed.
Theorem C165_fixed :
  forall b b' : batoms,
  reduce b = inr b' -> (forall i : nat, (i < b_N b)%nat -> inside b (b_pos b i)) -> forall i : nat, (i < b_N b)%nat -> b_pos b' i = b_pos b i.
Proof. exact inside_fixed. Qed.
Theorem C165_set_positions :
  forall (w : world) (o : nat) (r : nat -> v3),
  orthogonal (data_of w o) ->
  snd (obj w o) = true ->
  snd (step w (SetPositions o r)) = None -> placed (with_pos (data_of w o) r) (data_of (fst (step w (SetPositions o r))) o).
Proof. exact set_positions_placed. Qed.
Theorem C165_set_calculator :
  forall (w : world) (o : nat),
  exists_obj w o ->
  orthogonal (data_of w o) ->
  snd (step w (SetCalculator o true)) = None -> placed (data_of w o) (data_of (fst (step w (SetCalculator o true))) o).
Proof. exact set_calculator_placed. Qed.
Theorem C165_rejected :
  forall (w : world) (o : nat) (r : nat -> v3) (e : error),
  snd (step w (SetPositions o r)) = Some e -> b_pos (data_of (fst (step w (SetPositions o r))) o) = r.
Proof. exact rejected_kept. Qed.
Theorem C165_rejected_refuted :
  exists (w : world) (r : nat -> v3),
    exists_obj w 0 /\
    inside (data_of w 0) (b_pos (data_of w 0) 0) /\
    snd (step w (SetPositions 0 r)) = Some ValueError /\ ~ inside (data_of w 0) (b_pos (data_of (fst (step w (SetPositions 0 r))) 0) 0).
Proof. exact rejected_refuted. Qed.
Theorem C165_set_cell_refuted :
  exists (w : world) (m : m3),
    exists_obj w 0 /\
    snd (obj w 0) = true /\
    inside (data_of w 0) (b_pos (data_of w 0) 0) /\
    orthogonal (data_of (fst (step w (SetCell 0 m))) 0) /\
    snd (step w (SetCell 0 m)) = None /\
    b_pbc (data_of w 0) 0 = true /\ ~ inside (data_of (fst (step w (SetCell 0 m))) 0) (b_pos (data_of (fst (step w (SetCell 0 m))) 0) 0).
Proof. exact set_cell_refuted. Qed.
Theorem C165_scale :
  forall (w : world) (o : nat) (x : R) (i j : nat) (d : R),
  orthogonal (data_of w o) ->
  positive_axes (data_of w o) ->
  0 < x ->
  snd (step w (ScalePositions o x)) = None ->
  (i < b_N (data_of w o))%nat ->
  (j < b_N (data_of w o))%nat ->
  distance false (data_of w o) (Index i) (Point (Index j)) true = inr d ->
  distance false (data_of (fst (step w (ScalePositions o x))) o) (Index i) (Point (Index j)) true = inr (x * d).
Proof. exact scale_distances. Qed.
(** C166: copies *)
Theorem C166_shared :
  forall (w : world) (o : nat) (l : list op),
  exists_obj w o -> data_of (run (fst (step w (Copy o))) l) (List.length (w_objs w)) = data_of (run (fst (step w (Copy o))) l) o.
Proof. exact copy_shares. Qed.
Theorem C166_copy_refuted :
  forall (w : world) (o : nat) (r : nat -> v3),
  exists_obj w o ->
  snd (obj w o) = false ->
  let w1 := fst (step w (Copy o)) in
  b_pos (data_of w1 o) = b_pos (data_of w o) /\ b_pos (data_of (fst (step w1 (SetPositions (List.length (w_objs w)) r))) o) = r.
Proof. exact copy_refuted. Qed.
(** C167: bonds.  Cases: ex_bonded *)
Theorem C167_bonds :
  forall (b : batoms) (rc : nat -> R),
  exists l : list bond,
    construct_bonds false b rc = inr l /\ (forall (i j : nat) (d : R), In (i, j, d) l <-> bonded b rc i j d) /\ NoDup (map fst l).
Proof. exact bonds_exact. Qed.
Theorem C167_first_write :
  forall (b : batoms) (rc : nat -> R),
  exists l : list bond, write_vtk false b rc None = inr (l, Some l) /\ (forall (i j : nat) (d : R), In (i, j, d) l <-> bonded b rc i j d).
Proof. exact first_write. Qed.
Theorem C167_stale_refuted :
  exists (b b' : batoms) (rc : nat -> R) (l : list bond),
    b_N b' = b_N b /\
    b_cell b' = b_cell b /\
    b_pbc b' = b_pbc b /\
    write_vtk false b rc None = inr (l, Some l) /\
    write_vtk false b' rc (Some l) = inr (l, Some l) /\ In (0%nat, 1%nat, 1) l /\ ~ (exists d : R, bonded b' rc 0 1 d).
Proof. exact stale_bonds_refuted. Qed.
Theorem C167_numpy_refuted :
  forall (b : batoms) (rc : nat -> R), (2 <= b_N b)%nat -> construct_bonds true b rc = inl ValueError.
Proof. exact bonds_new_numpy. Qed.
(** C168: moments of inertia.  Cases: ex_eigh *)
Theorem C168_symmetric :
  forall (N : nat) (m : nat -> R) (r : nat -> v3) (i j : nat), inertia N m r i j = inertia N m r j i.
Proof. exact inertia_symmetric. Qed.
Theorem C168_form :
  forall (N : nat) (m : nat -> R) (r : nat -> v3) (u : v3),
  rsum 3 (fun i : nat => rsum 3 (fun j : nat => coord u i * inertia N m r i j * coord u j)) = moment N m r u.
Proof. exact inertia_form. Qed.
Theorem C168_moments :
  forall (eigh : (nat -> nat -> R) -> (nat -> R) * (nat -> nat -> R)) (N : nat) (m : nat -> R) (r : nat -> v3) (rcm : bool),
  eigh_contract eigh (inertia N m (seen rcm N m r)) ->
  forall k : nat,
  (k < 3)%nat -> fst (moments_of_inertia eigh N m r rcm) k = moment N m (seen rcm N m r) (column (snd (moments_of_inertia eigh N m r rcm)) k).
Proof. exact moments_are. Qed.
Theorem C168_positive :
  forall (N : nat) (m : nat -> R) (r : nat -> v3) (rcm : bool) (u : v3),
  (forall k : nat, (k < N)%nat -> 0 <= m k) -> 0 <= moment N m (seen rcm N m r) u.
Proof. exact moment_pos. Qed.
Theorem C168_sum :
  forall (eigh : (nat -> nat -> R) -> (nat -> R) * (nat -> nat -> R)) (N : nat) (m : nat -> R) (r : nat -> v3) (rcm : bool),
  eigh_contract eigh (inertia N m (seen rcm N m r)) ->
  fst (moments_of_inertia eigh N m r rcm) 0%nat + fst (moments_of_inertia eigh N m r rcm) 1%nat + fst (moments_of_inertia eigh N m r rcm) 2%nat =
  2 * rsum N (fun k : nat => m k * vnorm (seen rcm N m r k) ^ 2).
Proof. exact sum_moments. Qed.
Theorem C168_triangle :
  forall (eigh : (nat -> nat -> R) -> (nat -> R) * (nat -> nat -> R)) (N : nat) (m : nat -> R) (r : nat -> v3) (rcm : bool),
  eigh_contract eigh (inertia N m (seen rcm N m r)) ->
  forall a b c : nat,
  (a < 3)%nat ->
  (b < 3)%nat ->
  (c < 3)%nat ->
  a <> b ->
  b <> c ->
  a <> c ->
  (forall k : nat, (k < N)%nat -> 0 <= m k) ->
  fst (moments_of_inertia eigh N m r rcm) a <= fst (moments_of_inertia eigh N m r rcm) b + fst (moments_of_inertia eigh N m r rcm) c.
Proof. exact triangle_moments. Qed.
Theorem C168_steiner :
  forall (N : nat) (m : vec) (r : nat -> v3) (u : v3),
  rsum N m <> 0 -> moment N m r u = moment N m (fun k : nat => vsub (r k) (centre N m r)) u + rsum N m * vnorm (vcross u (centre N m r)) ^ 2.
Proof. exact steiner. Qed.
Theorem C168_translated :
  forall (N : nat) (m : vec) (r : nat -> v3) (d : v3) (i j : nat),
  rsum N m <> 0 ->
  inertia N m (fun k : nat => vsub (vadd (r k) d) (centre N m (fun k0 : nat => vadd (r k0) d))) i j =
  inertia N m (fun k : nat => vsub (r k) (centre N m r)) i j.
Proof. exact inertia_translated. Qed.
(** C169: paths of images.  Cases: ex_separate, ex_force, ex_copied *)
Theorem C169_interpolate :
  forall (p : path) (i : nat),
  separate p ->
  (2 <= h_M p)%nat ->
  (i < h_M p)%nat ->
  forall c : nat, positions (interpolate p) i c = positions p 0 c + INR i / (INR (h_M p) - 1) * (positions p (h_M p - 1) c - positions p 0 c).
Proof. exact interpolate_at. Qed.
Theorem C169_segments :
  forall (n : nat) (p : path) (i : nat),
  separate p -> (2 <= h_M p)%nat -> (i < h_M p - 1)%nat -> segment n (positions (interpolate p)) i = span n p / INR (h_M p - 1).
Proof. exact interpolate_segments. Qed.
Theorem C169_set :
  forall (p : path) (r : nat -> vec) (i : nat), separate p -> h_lock p = false -> (i < h_M p)%nat -> positions (set_path p r) i = r i.
Proof. exact set_path_at. Qed.
Theorem C169_locked :
  forall (n : nat) (p : path) (r : nat -> vec),
  h_lock p = true ->
  (forall i : nat, positions (set_path p r) i = positions p i) /\
  (forall E : vec -> R, path_energy E (set_path p r) = path_energy E p) /\
  (forall (F : vec -> vec) (k : nat), path_force F n (set_path p r) k = path_force F n p k) /\
  (forall i : nat, deviations n (set_path p r) i = segment n r i - rsum (h_M p - 1) (segment n r) / INR (h_M p - 1)).
Proof. exact set_path_locked. Qed.
Theorem C169_sum :
  forall (n : nat) (p : path), (2 <= h_M p)%nat -> rsum (h_M p - 1) (deviations n p) = 0.
Proof. exact deviations_sum. Qed.
Theorem C169_zero :
  forall (n : nat) (p : path),
  (2 <= h_M p)%nat ->
  h_pos2 p = None -> (forall i : nat, (i < h_M p - 1)%nat -> deviations n p i = 0) <-> all_equal (h_M p - 1) (segment n (positions p)).
Proof. exact deviations_zero. Qed.
Theorem C169_constraint :
  forall (n : nat) (p : path) (l : vec) (k : nat) (u : vec),
  (0 < k < h_M p - 1)%nat ->
  segment n (positions p) (k - 1) <> 0 ->
  segment n (positions p) k <> 0 ->
  is_derive (fun t : R => constraint_energy n (h_M p) l (path_moved p k u t)) 0
    (rsum n (fun c : nat => constraint_force n p l k c * u c)).
Proof. exact D_constraint. Qed.
Theorem C169_shift :
  forall (n : nat) (p : path) (l : nat -> R) (a : R) (k c : nat),
  (2 <= h_M p)%nat -> constraint_force n p (fun i : nat => l i + a) k c = constraint_force n p l k c.
Proof. exact constraint_shift. Qed.
Theorem C169_forces :
  forall (n : nat) (E : vec -> R) (F : vec -> vec) (p : path) (l : vec) (k : nat) (u : vec),
  separate p ->
  h_lock p = false ->
  h_lambdas p = Some l ->
  (0 < k < h_M p - 1)%nat ->
  force_of n E F (positions p k) ->
  segment n (positions p) (k - 1) <> 0 ->
  segment n (positions p) k <> 0 ->
  exists f : vec,
    path_force F n p k = Some f /\
    is_derive (fun t : R => path_energy E (set_path p (path_moved p k u t)) - constraint_energy n (h_M p) l (path_moved p k u t)) 0
      (- rsum n (fun c : nat => f c * u c)).
Proof. exact path_force_gradient. Qed.
Theorem C169_ends :
  forall (n : nat) (F : vec -> vec) (p : path) (l : vec) (k : nat) (f : vec),
  h_lambdas p = Some l -> k = 0%nat \/ k = (h_M p - 1)%nat -> path_force F n p k = Some f -> forall c : nat, f c = 0.
Proof. exact ends_fixed. Qed.
Theorem C169_copied :
  forall (p : path) (i c : nat),
  copied p ->
  (3 <= h_M p)%nat ->
  (i < h_M p - 1)%nat ->
  positions (interpolate p) i c = positions p 0 c + INR (h_M p - 2) / INR (h_M p - 1) * (positions p (h_M p - 1) c - positions p 0 c).
Proof. exact interpolate_copied. Qed.
Theorem C169_copied_refuted :
  exists (p : path) (i : nat),
    copied p /\
    h_M p = 3%nat /\
    positions p 0 0%nat = 0 /\
    positions p 2 0%nat = 1 /\
    (i < h_M p)%nat /\ i = 0%nat /\ positions (interpolate p) i 0%nat = 1 / 2 /\ ~ all_equal 2 (segment 1 (positions (interpolate p))).
Proof. exact copied_refuted. Qed.
Theorem C169_stale :
  forall (n : nat) (p : path) (r r' : nat -> vec) (i : nat),
  deviations n (set_path (lock_path false (set_path (lock_path true p) r)) r') i =
  segment n r i - rsum (h_M p - 1) (segment n r) / INR (h_M p - 1).
Proof. exact stale_deviations. Qed.
Theorem C169_stale_refuted :
  exists (p : path) (r r' : nat -> vec),
    separate p /\
    (forall i : nat, (i < h_M p)%nat -> positions (set_path (lock_path false (set_path (lock_path true p) r)) r') i = r' i) /\
    all_equal (h_M p - 1) (segment 1 r') /\ deviations 1 (set_path (lock_path false (set_path (lock_path true p) r)) r') 0%nat <> 0.
Proof. exact stale_refuted. Qed.
(** C170: the LEPS potential.  Cases: ex_leps *)
Theorem C170_root :
  forall a b : R, 0 <= leps_root a b.
Proof. exact leps_root_nonneg. Qed.
Theorem C170_smooth :
  forall a : R, 0 <= a <= 1.871 -> 0 < leps_root a (3.742 - a).
Proof. exact leps_root_pos. Qed.
Theorem C170_force_x :
  forall r : v3,
  (forall t : R, vx r <= t <= vx r + / 10 ^ 6 -> 0 < leps_root t (3.742 - t)) ->
  exists c : R,
    vx r <= c <= vx r + / 10 ^ 6 /\ is_derive (fun t : R => leps_energy {| vx := t; vy := vy r; vz := vz r |}) c (- vx (leps_force r)).
Proof. exact leps_force_x. Qed.
Theorem C170_force_y :
  forall r : v3, is_derive (fun t : R => leps_energy {| vx := vx r; vy := t; vz := vz r |}) (vy r + / 10 ^ 6 / 2) (- vy (leps_force r)).
Proof. exact leps_force_y. Qed.
(** C171: the check of energy conservation.  Cases: ex_check, ex_conserved *)
Theorem C171_criterion :
  forall (n : nat) (tol : R) (epot ekin : vec),
  0 <= tol -> check_energy_conservation n tol epot ekin = true <-> variance n (fun i : nat => epot i + ekin i) < tol ^ 2 * variance n epot.
Proof. exact check_iff. Qed.
Theorem C171_conserved :
  forall (n : nat) (tol : R) (epot ekin : nat -> R),
  (0 < n)%nat ->
  0 < tol -> all_equal n (fun i : nat => epot i + ekin i) -> ~ all_equal n epot -> check_energy_conservation n tol epot ekin = true.
Proof. exact check_conserved. Qed.
Theorem C171_shift :
  forall (n : nat) (tol : R) (epot : nat -> R) (ekin : vec) (c : R),
  (0 < n)%nat -> check_energy_conservation n tol (fun i : nat => epot i + c) ekin = check_energy_conservation n tol epot ekin.
Proof. exact check_shift. Qed.
Theorem C171_constant_refuted :
  forall (n : nat) (tol : R) (epot : vec) (ekin : nat -> R),
  (0 < n)%nat -> all_equal n epot -> all_equal n (fun i : nat => epot i + ekin i) -> check_energy_conservation n tol epot ekin = false.
Proof. exact conserved_refuted. Qed.
(** C172: random displacements *)
Theorem C172_length :
  forall (dR xi phi theta : nat -> R) (r : nat -> v3) (i : nat),
  vnorm (vsub (random_shift dR xi phi theta r i) (r i)) = Rabs (Rmin (dR i / 2 * xi i) (dR i)).
Proof. exact shift_norm. Qed.
Theorem C172_bound_partial :
  forall (dR xi phi theta : nat -> R) (r : nat -> v3) (i : nat),
  0 <= dR i -> -2 <= xi i -> vnorm (vsub (random_shift dR xi phi theta r i) (r i)) <= dR i.
Proof. exact shift_bound. Qed.
Theorem C172_refuted :
  forall (dR phi theta : nat -> R) (r : nat -> v3) (i : nat),
  0 < dR i -> forall K : R, exists xi : nat -> R, K < vnorm (vsub (random_shift dR xi phi theta r i) (r i)).
Proof. exact shift_refuted. Qed.
(** C173: names.  Cases: name_text *)
Theorem C173_composition :
  forall symbols : list string,
  NoDup (map fst (composition symbols)) /\
  (forall (s : string) (n : nat), In (s, n) (composition symbols) <-> In s symbols /\ n = count s symbols).
Proof. exact composition_exact. Qed.
Theorem C173_first :
  forall s : named, n_data s = None -> fst (get_name s) = composition (n_symbols s).
Proof. exact name_first. Qed.
Theorem C173_set_name_refuted :
  forall (s : named) (x : string), fst (get_name (set_name s x)) = fst (get_name s).
Proof. exact set_name_refuted. Qed.
Theorem C173_append_refuted :
  forall (s : named) (x : string), fst (get_name (append_symbol (snd (get_name s)) x)) = fst (get_name s).
Proof. exact append_refuted. Qed.
Print Assumptions C164_vector.
Print Assumptions C164_vector_of_point.
Print Assumptions C164_distance.
Print Assumptions C164_symmetric.
Print Assumptions C164_triangle.
Print Assumptions C164_zero.
Print Assumptions C164_unique.
Print Assumptions C164_numpy_refuted.
Print Assumptions C164_length_refuted.
Print Assumptions C164_oblique_refuted.
Print Assumptions C165_reduce.
Print Assumptions C165_rejects.
Print Assumptions C165_accepts.
Print Assumptions C165_set_positions_accepts.
Print Assumptions C165_distances.
Print Assumptions C165_fixed.
Print Assumptions C165_set_positions.
Print Assumptions C165_set_calculator.
Print Assumptions C165_rejected.
Print Assumptions C165_rejected_refuted.
Print Assumptions C165_set_cell_refuted.
Print Assumptions C165_scale.
Print Assumptions C166_shared.
Print Assumptions C166_copy_refuted.
Print Assumptions C167_bonds.
Print Assumptions C167_first_write.
Print Assumptions C167_stale_refuted.
Print Assumptions C167_numpy_refuted.
Print Assumptions C168_symmetric.
Print Assumptions C168_form.
Print Assumptions C168_moments.
Print Assumptions C168_positive.
Print Assumptions C168_sum.
Print Assumptions C168_triangle.
Print Assumptions C168_steiner.
Print Assumptions C168_translated.
Print Assumptions C169_interpolate.
Print Assumptions C169_segments.
Print Assumptions C169_set.
Print Assumptions C169_locked.
Print Assumptions C169_sum.
Print Assumptions C169_zero.
Print Assumptions C169_constraint.
Print Assumptions C169_shift.
Print Assumptions C169_forces.
Print Assumptions C169_ends.
Print Assumptions C169_copied.
Print Assumptions C169_copied_refuted.
Print Assumptions C169_stale.
Print Assumptions C169_stale_refuted.
Print Assumptions C170_root.
Print Assumptions C170_smooth.
Print Assumptions C170_force_x.
Print Assumptions C170_force_y.
Print Assumptions C171_criterion.
Print Assumptions C171_conserved.
Print Assumptions C171_shift.
Print Assumptions C171_constant_refuted.
Print Assumptions C172_length.
Print Assumptions C172_bound_partial.
Print Assumptions C172_refuted.
Print Assumptions C173_composition.
Print Assumptions C173_first.
Print Assumptions C173_set_name_refuted.
Print Assumptions C173_append_refuted.
