(** set() of ChiralWedge, WedgeYAxis, TwistAndTurn, ChiralGeneral and Sphere
    (hotbit/containers), and Atoms.set_container (hotbit/atoms.py). *)
From Coq Require Import Reals ZArith List Bool.
From Verif Require Import GeomModel ContModel.
Import ListNotations.
Open Scope R_scope.

(** ** ChiralWedge *)
(** scaling of the polar angle, radii kept; chiralwedge.py 106-115 *)
Definition turn_scale (old new : R) (r : v3) : v3 :=
  let newphi := get_phi (vx r) (vy r) * (new / old) in
  V3 (rad (vx r) (vy r) * cos newphi) (rad (vx r) (vy r) * sin newphi) (vz r).
(** the angle part; chiralwedge.py 84-115.  Both angle and M, angle=0 and M=0 raise before
    anything is stored.  The warning for large unphysical angles is not modelled. *)
Definition cw_set_angle (a : atoms) (g : angle_arg) (physical scale : bool) : res :=
  let go (M : Z) (angle : R) :=
    let old := cw_angle a in
    let a := setcell a 2 0 angle in
    let a := setcell a 1 1 (if physical then 1 else 0) in
    if ltb (Rabs (cw_angle a)) e6 then Exc a
    else if ltb PI (cw_angle a) then Exc a
    else if ltb e12 (Rabs (IZR M - 2 * PI / Rabs (cw_angle a))) && w_physical a then Exc a
    else if scale
         then if ltb (Rabs old) e10 then Exc a
              else Ok (with_pos a (map (turn_scale old (cw_angle a)) (pos a)))
         else Ok a in
  match g with
  | NoAngle => Ok a
  | Both => Exc a
  | Fold M => if (M =? 0)%Z then Exc a else go M (2 * PI / IZR M)
  | Angle g => if Req_EM_T g 0 then Exc a else go (Z.abs (pyround (2 * PI / g))) g
  end.
(** ChiralWedge.set; chiralwedge.py 65-129, without the keyword container *)
Definition chiralwedge_set (a : atoms) (g : angle_arg) (height : option R) (physical : bool) (twist : option R)
    (scale : bool) : res :=
  bind (cw_set_angle a g physical scale) (fun a =>
  let a := match height with
           | None => a
           | Some h =>
               let a := if scale
                        then with_pos a (map (fun r => V3 (vx r) (vy r) (vz r * h / cw_height a)) (pos a)) else a in
               setcell a 1 0 h
           end in
  match twist with
  | None => Ok a
  | Some t => if scale then Exc a else Ok (setcell a 0 1 t)
  end).

(** ** WedgeYAxis *)
(** scaling of the angle about y, radii kept; wedgeyaxis.py 128-137 *)
Definition turny_scale (old new : R) (r : v3) : v3 :=
  let newphi := get_phi (vz r) (vx r) * (new / old) in
  V3 (rad (vz r) (vx r) * sin newphi) (vy r) (rad (vz r) (vx r) * cos newphi).
(** the angle part; wedgeyaxis.py 106-137 *)
Definition wy_set_angle (a : atoms) (g : angle_arg) (physical scale : bool) : res :=
  let go (M : Z) (angle : R) :=
    let old := w_angle a in
    let a := setcell a 2 0 angle in
    let a := setcell a 1 1 (if physical then 1 else 0) in
    if ltb (w_angle a) e6 then Exc a
    else if ltb PI (w_angle a) then Exc a
    else if ltb e12 (Rabs (IZR M - 2 * PI / w_angle a)) && w_physical a then Exc a
    else if scale
         then if ltb (Rabs old) e10 then Exc a
              else Ok (with_pos a (map (turny_scale old (w_angle a)) (pos a)))
         else Ok a in
  match g with
  | NoAngle => Ok a
  | Both => Exc a
  | Fold M => if (M =? 0)%Z then Exc a else go M (2 * PI / IZR M)
  | Angle g => if Req_EM_T g 0 then Exc a else go (pyround (2 * PI / g)) g
  end.
(** WedgeYAxis.set; wedgeyaxis.py 87-147, without the keyword container *)
Definition wedgey_set (a : atoms) (g : angle_arg) (height : option R) (physical : bool) (per : option bool)
    (scale : bool) : res :=
  bind (wy_set_angle a g physical scale) (fun a =>
  let a := match height with
           | None => a
           | Some h =>
               let a := if scale
                        then with_pos a (map (fun r => V3 (vx r) (vy r * h / w_height a) (vz r)) (pos a)) else a in
               setcell a 1 0 h
           end in
  Ok (match per with None => a | Some b => with_pbc a (true, b, false) end)).

(** ** TwistAndTurn *)
(** np.arctan2(y,x); arguments in this order.  The sign of zero is not modelled: y = -0.0
    with x < 0 gives -pi in numpy. *)
Definition atan2 (y x : R) : R :=
  if ltb 0 x then atan (y / x)
  else if ltb x 0 then if leb 0 y then atan (y / x) + PI else atan (y / x) - PI
  else if ltb 0 y then PI / 2 else if ltb y 0 then - (PI / 2) else 0.
(** twistandturn.py 92-101 *)
Definition bend_scale (old new : R) (r : v3) : v3 :=
  let angle2 := new / old * atan2 (vy r) (vx r) in
  V3 (rad (vx r) (vy r) * cos angle2) (rad (vx r) (vy r) * sin angle2) (vz r).
(** twistandturn.py 102-110: [a] before the change *)
Definition twistturn_scale (a : atoms) (new : R) (r : v3) : v3 :=
  let x := atan2 (vy r) (vx r) / t_bend a in
  tat_arbitrary a r 0 ((new - t_twist a) * x).
(** twistandturn.py 111-120 *)
Definition radius_scale (old new : R) (r : v3) : v3 :=
  let angle := atan2 (vy r) (vx r) in
  V3 ((rad (vx r) (vy r) + (new - old)) * cos angle) ((rad (vx r) (vy r) + (new - old)) * sin angle) (vz r).
(** TwistAndTurn.set; twistandturn.py 72-124, without the keyword container.  A mode raises
    KeyError (no such parameter) after everything else is stored and before set_pbc. *)
Definition tat_set (a : atoms) (bend twist radius : option R) (mode scale : bool) : res :=
  let a := match bend with
           | None => a
           | Some g =>
               let b := if scale then with_pos a (map (bend_scale (t_bend a) g) (pos a)) else a in
               setcell b 0 1 g
           end in
  let a := match twist with
           | None => a
           | Some g =>
               let b := if scale then with_pos a (map (twistturn_scale a g) (pos a)) else a in
               setcell b 0 2 g
           end in
  let a := match radius with
           | None => a
           | Some g =>
               let b := if scale then with_pos a (map (radius_scale (t_R a) g) (pos a)) else a in
               setcell b 1 2 g
           end in
  if mode then Exc a else Ok (with_pbc a (false, false, true)).

(** ** ChiralGeneral.set; chiralgeneral.py 63-90, without the keyword container *)
Definition cg_set (a : atoms) (t1 g1 t2 g2 : option R) (physical scale : bool) : res :=
  let a := opt_cell (opt_cell (opt_cell (opt_cell a 1 0 t1) 2 0 g1) 0 1 t2) 1 1 g2 in
  if physical then Exc a
  else let a := setcell a 2 1 0 in if scale then Exc a else Ok a.

(** ** Sphere.set; sphere.py 81-112, without the keyword container.  The axes are lists or
    tuples (comparing an array with None raises ValueError).  self.n1 and self.n2 stay None
    (lines 34-35), so the checks in lines 97 and 102 and lines 108-111 are never reached.
    A failed assertion leaves what is stored before it. *)
Definition opt_axis (a : atoms) (i : nat) (n : option v3) : res :=
  match n with
  | None => Ok a
  | Some v => if ltb (Rabs (vz v)) e10 then Ok (setcell (setcell a i 0 (vx v)) i 1 (vy v)) else Exc a
  end.
Definition sphere_set (a : atoms) (g1 g2 : option R) (n1 n2 : option v3) (mode : option R) : res :=
  let a := opt_cell (opt_cell a 0 1 g1) 0 2 g2 in
  bind (opt_axis a 1 n1) (fun a =>
  bind (opt_axis a 2 n2) (fun a =>
  Ok (with_pbc (opt_cell a 1 2 mode) (true, true, false)))).

(** ** set(container=other) in Python 2 for these containers (in Python 3 it raises, see
    ContModel.set_container): chiralwedge.py 79-82, wedgeyaxis.py 101-104 (the third entry of
    pbc), twistandturn.py 82-91 (unknown keywords: TypeError), chiralgeneral.py 77-81
    (NameError), sphere.py 86-89 (attributes that stay None, and mode 4). *)
Definition set_container2 (c : ctype) (dst src : atoms) : res :=
  match c with
  | ChiralWedge => chiralwedge_set dst (Angle (cw_angle src)) (Some (cw_height src)) (w_physical src) (Some (cw_twist src)) false
  | WedgeYAxis => wedgey_set dst (Angle (w_angle src)) (Some (w_height src)) (w_physical src) (Some (pbc3 src)) false
  | Sphere => sphere_set dst None None None None (Some 4)
  | _ => Exc dst
  end.

(** ** Atoms.set_container; atoms.py 102-112.  [ty]: the keyword type, if given; it is handed
    on to set(), which has no such keyword (TypeError). [set]: container.set with the other
    keywords. *)
Definition ctype_eqb (c d : ctype) : bool := (magic_number c =? magic_number d)%Z.
Definition set_container_call (c : ctype) (ty : option ctype) (set : atoms -> res) (a : atoms) : res :=
  match ty with
  | Some t => if ctype_eqb t c then Exc a else Exc a
  | None => set a
  end.
