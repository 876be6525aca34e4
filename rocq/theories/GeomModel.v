(** Rotations, polar angles and the symmetry containers
    (box/mix.py, hotbit/containers, hotbit/atoms.py). *)
From Coq Require Import Reals ZArith List Bool.
Import ListNotations.
Open Scope R_scope.

(** ** Vectors and matrices of length 3 *)
Record v3 := V3 { vx : R; vy : R; vz : R }.
Record m3 := M3 { row1 : v3; row2 : v3; row3 : v3 }.

Definition vadd a b := V3 (vx a + vx b) (vy a + vy b) (vz a + vz b).
Definition vsub a b := V3 (vx a - vx b) (vy a - vy b) (vz a - vz b).
Definition vscale k a := V3 (k * vx a) (k * vy a) (k * vz a).
Definition vdot a b := vx a * vx b + vy a * vy b + vz a * vz b.
Definition vnorm a := sqrt (vdot a a).
Definition vcross a b :=
  V3 (vy a * vz b - vz a * vy b) (vz a * vx b - vx a * vz b) (vx a * vy b - vy a * vx b).
Definition vzero := V3 0 0 0.
Definition mv (m : m3) (a : v3) := V3 (vdot (row1 m) a) (vdot (row2 m) a) (vdot (row3 m) a).
Definition tr (m : m3) : m3 :=
  M3 (V3 (vx (row1 m)) (vx (row2 m)) (vx (row3 m)))
     (V3 (vy (row1 m)) (vy (row2 m)) (vy (row3 m)))
     (V3 (vz (row1 m)) (vz (row2 m)) (vz (row3 m))).
Definition mm (a b : m3) : m3 :=
  let c := tr b in
  M3 (V3 (vdot (row1 a) (row1 c)) (vdot (row1 a) (row2 c)) (vdot (row1 a) (row3 c)))
     (V3 (vdot (row2 a) (row1 c)) (vdot (row2 a) (row2 c)) (vdot (row2 a) (row3 c)))
     (V3 (vdot (row3 a) (row1 c)) (vdot (row3 a) (row2 c)) (vdot (row3 a) (row3 c))).
Definition det (m : m3) := vdot (row1 m) (vcross (row2 m) (row3 m)).
Definition eye := M3 (V3 1 0 0) (V3 0 1 0) (V3 0 0 1).

(** ** rotation_matrix; box/mix.py 221-229 (axis <> 0; numpy gives nan otherwise) *)
Definition rotation_matrix (axis : v3) (angle : R) : m3 :=
  let n := vscale (/ vnorm axis) axis in
  let n1 := vx n in let n2 := vy n in let n3 := vz n in
  let c := cos angle in let s := sin angle in
  let cc := 1 - c in
  M3 (V3 (n1^2*cc + c) (n1*n2*cc - n3*s) (n1*n3*cc + n2*s))
     (V3 (n1*n2*cc + n3*s) (n2^2*cc + c) (n2*n3*cc - n1*s))
     (V3 (n1*n3*cc - n2*s) (n2*n3*cc + n1*s) (n3^2*cc + c)).

(** ** phival; box/mix.py 257-280.  None: RuntimeError *)
Definition e16 : R := / 10 ^ 16.
Definition ltb (a b : R) : bool := if Rlt_dec a b then true else false.
Definition leb (a b : R) : bool := if Rle_dec a b then true else false.
Definition phival (x y : R) : option R :=
  if ltb e16 x && ltb e16 y then Some (atan (y / x))
  else if ltb x (- e16) && ltb e16 y then Some (atan (y / x) + PI)
  else if ltb x (- e16) && ltb y (- e16) then Some (atan (y / x) + PI)
  else if ltb e16 x && ltb y (- e16) then Some (atan (y / x) + 2 * PI)
  else if leb (Rabs x) e16 && leb (Rabs y) e16 then Some 0
  else if ltb e16 x && leb (Rabs y) e16 then Some 0
  else if ltb e16 y && leb (Rabs x) e16 then Some (PI / 2)
  else if ltb x (- e16) && leb (Rabs y) e16 then Some PI
  else if ltb y (- e16) && leb (Rabs x) e16 then Some (3 * PI / 2)
  else None.

(** ** Python's round() and np.round on one number: halves to even *)
Definition pyround (x : R) : Z :=
  let f := Int_part x in
  let d := x - IZR f in
  if ltb d (/ 2) then f
  else if ltb (/ 2) d then (f + 1)%Z
  else if Z.even f then f else (f + 1)%Z.

(** ** Containers *)
Inductive ctype := Bravais | Wedge | Chiral | DoubleChiral | Sphere | Slab
                 | ChiralWedge | WedgeYAxis | TwistAndTurn | ChiralGeneral.

(** What a container reads: the cell and the periodicity of its Atoms object, the
    positions (TwistAndTurn 'R' only), and Slab.x, the only parameter kept in the
    container object itself (slab.py 27). *)
Record atoms := Atoms {
  cell : nat -> nat -> R;
  pbc : bool * bool * bool;
  pos : list v3;
  slabx : R * R
}.
Definition pbc1 a := fst (fst (pbc a)).
Definition pbc2 a := snd (fst (pbc a)).
Definition pbc3 a := snd (pbc a).

Definition op := (Z * Z * Z)%type.
Definition o1 (n : op) := fst (fst n).
Definition o2 (n : op) := snd (fst n).
Definition o3 (n : op) := snd n.

(** parameters: the par dictionaries; wedge.py 30, 59-72, chiral.py 21, 42-55,
    doublechiral.py 43, 66-74, chiralwedge.py 23, 45-55, chiralgeneral.py 23,
    wedgeyaxis.py 32, sphere.py 40, twistandturn.py 24 *)
Definition w_height a := cell a 1%nat 0%nat.
Definition w_angle a := cell a 2%nat 0%nat.
(** bool(np.round(x)) *)
Definition w_physical a := negb (pyround (cell a 1%nat 1%nat) =? 0)%Z.
Definition c_height a := cell a 1%nat 0%nat.
Definition c_angle a := cell a 2%nat 0%nat.
Definition d_angle a := cell a 1%nat 0%nat.
Definition d_height a := cell a 2%nat 0%nat.
Definition d_x a := cell a 0%nat 1%nat.
Definition cw_height a := cell a 1%nat 0%nat.
Definition cw_twist a := cell a 0%nat 1%nat.
Definition cw_angle a := cell a 2%nat 0%nat.
Definition cg_trans1 a := cell a 1%nat 0%nat.
Definition cg_angle1 a := cell a 2%nat 0%nat.
Definition cg_trans2 a := cell a 0%nat 1%nat.
Definition cg_angle2 a := cell a 1%nat 1%nat.
Definition s_angle1 a := cell a 0%nat 1%nat.
Definition s_angle2 a := cell a 0%nat 2%nat.
Definition s_n1 a := V3 (cell a 1%nat 0%nat) (cell a 1%nat 1%nat) 0.
Definition s_n2 a := V3 (cell a 2%nat 0%nat) (cell a 2%nat 1%nat) 0.
(** int(x) truncates; [s_mode] is only compared with 3 *)
Definition s_mode a : Z :=
  let x := cell a 1%nat 2%nat in
  if Rle_dec 0 x then Int_part x else (- Int_part (- x))%Z.
Definition t_bend a := cell a 0%nat 1%nat.
Definition t_twist a := cell a 0%nat 2%nat.
Definition mean (l : list R) : R := fold_right Rplus 0 l / INR (length l).
(** twistandturn.py 53-58 *)
Definition t_R a :=
  let x := cell a 1%nat 2%nat in
  if ltb (Rabs x) e16
  then mean (map (fun r => sqrt (vx r ^ 2 + vy r ^ 2)) (pos a)) else x.

(** rotations about z and y *)
Definition rotz (t : R) : m3 := M3 (V3 (cos t) (- sin t) 0) (V3 (sin t) (cos t) 0) (V3 0 0 1).
Definition roty (t : R) : m3 := M3 (V3 (cos t) 0 (sin t)) (V3 0 1 0) (V3 (- sin t) 0 (cos t)).

Fixpoint mpow (m : m3) (k : nat) (acc : m3) : m3 :=   (* acc := np.dot(m,acc), k times *)
  match k with O => acc | S k' => mpow m k' (mm m acc) end.
Fixpoint mpow_r (m : m3) (k : nat) (acc : m3) : m3 := (* acc := np.dot(acc,m), k times *)
  match k with O => acc | S k' => mpow_r m k' (mm acc m) end.

Definition zsign (z : Z) : R := if (z =? 0)%Z then 0 else if (z <? 0)%Z then -1 else 1.

(** Sphere.rotation with angles=False; sphere.py 149-189.  self.mode is always 4
    (line 39), so the branch for modes 1 and 2 is never entered. *)
Definition sphere_rotation (a : atoms) (n : op) : m3 :=
  if ((o1 n =? o2 n)%Z && (o2 n =? 0)%Z)%bool then eye
  else
    let a1 := s_angle1 a in let a2 := s_angle2 a in
    let n1 := s_n1 a in let n2 := s_n2 a in
    if (s_mode a =? 3)%Z then
      let na1 := Z.abs (o1 n) in let na2 := Z.abs (o2 n) in
      let m := Z.min na1 na2 in
      let R1 := rotation_matrix n1 (zsign (o1 n) * a1) in
      let R2 := rotation_matrix n2 (zsign (o2 n) * a2) in
      let R21 := mm R2 R1 in
      let R := mpow_r R21 (Z.to_nat m) eye in
      let R := mpow R1 (Z.to_nat (na1 - m)) R in
      mpow R2 (Z.to_nat (na2 - m)) R
    else
      let axis := vadd (vscale (a1 * IZR (o1 n)) n1) (vscale (a2 * IZR (o2 n)) n2) in
      let b1 := a1 * IZR (o1 n) in let b2 := a2 * IZR (o2 n) in
      let angle := sqrt (b1 ^ 2 + b2 ^ 2 + 2 * b1 * b2 * vdot n1 n2) in
      rotation_matrix axis angle.

(** TwistAndTurn.transform_arbitrary; twistandturn.py 136-147 *)
Definition tat_arbitrary (a : atoms) (r : v3) (bend twist : R) : v3 :=
  let R := t_R a in
  let Rp := V3 (vx r) (vy r) 0 in
  let Rv := vscale (R / vnorm Rp) Rp in
  let rho := vsub r Rv in
  let t := vcross (V3 0 0 1) r in
  mv (rotation_matrix (V3 0 0 1) bend) (vadd Rv (mv (rotation_matrix t twist) rho)).

(** Container.rotation(n); bravais.py 82-84, wedge.py 180-187, chiral.py 112-116,
    doublechiral.py 143-147, slab.py 113-120, chiralwedge.py 155-162,
    chiralgeneral.py 111-118, wedgeyaxis.py 176-184, twistandturn.py 157-188 *)
Definition rotation (c : ctype) (a : atoms) (n : op) : m3 :=
  match c with
  | Bravais => eye
  | Wedge => rotz (IZR (o1 n) * w_angle a)
  | Chiral => rotz (IZR (o3 n) * c_angle a)
  | DoubleChiral => rotz (IZR (o3 n) * d_angle a + IZR (o1 n) * (PI + d_angle a * d_x a))
  | Sphere => sphere_rotation a n
  | Slab => if (o3 n =? 0)%Z then eye else M3 (V3 1 0 0) (V3 0 1 0) (V3 0 0 (-1))
  | ChiralWedge => rotz (IZR (o1 n) * cw_angle a + IZR (o3 n) * cw_twist a)
  | WedgeYAxis => roty (IZR (o1 n) * w_angle a)
  | TwistAndTurn =>
      if (o3 n =? 0)%Z then eye
      else let b := t_bend a in
           mm (rotation_matrix (V3 (- sin (b / 2)) (cos (b / 2)) 0) (IZR (o3 n) * t_twist a))
              (rotation_matrix (V3 0 0 1) (IZR (o3 n) * b))
  | ChiralGeneral => rotz (IZR (o1 n) * cg_angle1 a + IZR (o2 n) * cg_angle2 a)
  end.

Definition cellv (a : atoms) (i : nat) : v3 := V3 (cell a i 0%nat) (cell a i 1%nat) (cell a i 2%nat).

(** Container.transform(r,n); bravais.py 74-80, wedge.py 172-178, chiral.py 107-110,
    doublechiral.py 137-140, sphere.py 145-147, slab.py 101-111, chiralwedge.py 148-153,
    wedgeyaxis.py 168-174, twistandturn.py 149-155, chiralgeneral.py 104-109 *)
Definition transform (c : ctype) (a : atoms) (r : v3) (n : op) : v3 :=
  match c with
  | Bravais =>
      vadd (vadd (vadd r (vscale (IZR (o1 n)) (cellv a 0))) (vscale (IZR (o2 n)) (cellv a 1)))
           (vscale (IZR (o3 n)) (cellv a 2))
  | Wedge => vadd (mv (rotation Wedge a n) r)
                  (if pbc3 a then V3 0 0 (IZR (o3 n) * w_height a) else vzero)
  | Chiral => vadd (mv (rotation Chiral a n) r) (V3 0 0 (IZR (o3 n) * c_height a))
  | DoubleChiral => vadd (mv (rotation DoubleChiral a n) r)
                         (V3 0 0 ((IZR (o3 n) + IZR (o1 n) * d_x a) * d_height a))
  | Sphere => mv (rotation Sphere a n) r
  | Slab =>
      let r := vadd r (vscale (IZR (o1 n)) (cellv a 0)) in
      let r := if (o3 n =? 1)%Z then vadd r (vscale (fst (slabx a)) (cellv a 0)) else r in
      let r := vadd r (vscale (IZR (o2 n)) (cellv a 1)) in
      let r := if (o3 n =? 1)%Z then vadd r (vscale (snd (slabx a)) (cellv a 1)) else r in
      if (o3 n =? 1)%Z then V3 (vx r) (vy r) (- vz r) else r
  | ChiralWedge => vadd (mv (rotation ChiralWedge a n) r) (V3 0 0 (IZR (o3 n) * cw_height a))
  | WedgeYAxis => vadd (mv (rotation WedgeYAxis a n) r)
                       (if pbc2 a then V3 0 (IZR (o2 n) * w_height a) 0 else vzero)
  | TwistAndTurn => if (o3 n =? 0)%Z then r
                    else tat_arbitrary a r (IZR (o3 n) * t_bend a) (IZR (o3 n) * t_twist a)
  | ChiralGeneral => vadd (mv (rotation ChiralGeneral a n) r)
                          (V3 0 0 (IZR (o1 n) * cg_trans1 a + IZR (o2 n) * cg_trans2 a))
  end.

(** Ranges: finite [lo,hi] or [-Inf,Inf] *)
Inductive range := Full | Fin (lo hi : Z).

Definition wedge_range (M : Z) : range :=
  let i := (M / 2)%Z in
  if (M mod 2 =? 1)%Z then Fin (- i) i else Fin (- i + 1) i.

(** get_symmetry_operation_ranges; bravais.py 61-71, wedge.py 158-169, chiral.py 103-105,
    doublechiral.py 133-135, sphere.py 140-143, slab.py 96-98, chiralwedge.py 136-145,
    wedgeyaxis.py 154-165, twistandturn.py 131-134, chiralgeneral.py 97-101 *)
Definition ranges (c : ctype) (a : atoms) : range * range * range :=
  let per (b : bool) := if b then Full else Fin 0 0 in
  match c with
  | Bravais => (per (pbc1 a), per (pbc2 a), per (pbc3 a))
  | Wedge => (wedge_range (pyround (2 * PI / w_angle a)), Fin 0 0, per (pbc3 a))
  | Chiral | TwistAndTurn => (Fin 0 0, Fin 0 0, Full)
  | DoubleChiral => (Fin 0 1, Fin 0 0, Full)
  | Sphere | ChiralGeneral => (Full, Full, Fin 0 0)
  | Slab => (Full, Full, Fin 0 1)
  | ChiralWedge => (wedge_range (pyround (2 * PI / Rabs (cw_angle a))), Fin 0 0, Full)
  | WedgeYAxis => (wedge_range (pyround (2 * PI / w_angle a)), per (pbc2 a), Fin 0 0)
  end.

Definition in_range (r : range) (k : Z) : bool :=
  match r with Full => true | Fin lo hi => ((lo <=? k) && (k <=? hi))%Z end.

(** Atoms._check_symmetry_operation; atoms.py 128-138 *)
Definition allowed (c : ctype) (a : atoms) (n : op) : bool :=
  let '(ra, rb, rc) := ranges c a in
  in_range ra (o1 n) && in_range rb (o2 n) && in_range rc (o3 n).

(** Atoms.transform; atoms.py 141-149.  None: ValueError *)
Definition atoms_transform (c : ctype) (a : atoms) (r : v3) (n : op) : option v3 :=
  if allowed c a n then Some (transform c a r n) else None.

(** ** extended_copy; atoms.py 185-238 *)
Fixpoint zrange (start : Z) (k : nat) : list Z :=
  match k with O => [] | S k' => start :: zrange (start + 1) k' end.

(** one entry of the 3-tuple: a pair (lo,hi) or a count; lines 204-216 *)
Inductive spec := Pair (lo hi : Z) | Count (k : Z).
Definition ops_of (r : range) (s : spec) : option (list Z) :=
  match s with
  | Pair lo hi => Some (zrange lo (Z.to_nat (hi + 1 - lo)))
  | Count k =>
      if (0 <? k)%Z then
        match r with
        | Full => Some (zrange 0 (Z.to_nat k))
        | Fin lo _ => let start := Z.max lo ((- k) / 2) in Some (zrange start (Z.to_nat k))
        end
      else None
  end.

Definition all_ops (l1 l2 l3 : list Z) : list op :=
  flat_map (fun n1 => flat_map (fun n2 => map (fun n3 => (n1, n2, n3)) l3) l2) l1.

(** the positions of the copy; None: an exception.  With no operation at all the
    code fails too (atoms2 stays None, line 236). *)
Definition copies (c : ctype) (a : atoms) (l : list op) : option (list v3) :=
  match l with
  | [] => None
  | _ => if forallb (allowed c a) l
         then Some (flat_map (fun n => map (fun r => transform c a r n) (pos a)) l) else None
  end.

Definition extended_copy (c : ctype) (a : atoms) (n : spec * spec * spec) : option (list v3) :=
  let '(ra, rb, rc) := ranges c a in
  let '(sa, sb, sc) := n in
  match ops_of ra sa, ops_of rb sb, ops_of rc sc with
  | Some l1, Some l2, Some l3 => copies c a (all_ops l1 l2 l3)
  | _, _, _ => None
  end.
