(** Construction of graphene, ribbons and nanotubes: box/systems.py *)
From Coq Require Import Reals ZArith String List Bool Arith.
From Verif Require Import GeomModel UtilModel.
Import ListNotations.
Open Scope R_scope.

(** a structure: positions and the vectors of periodic directions.  center() and translations of all atoms are left out: they move
    the structure as a whole.  Cell vectors of directions that are not periodic are left out. *)
Definition translate (d : v3) (ps : list v3) : list v3 := map (fun p => vadd p d) ps.

(** graphene, lines 18-47; Rb a number *)
Definition gr_a1 (Rb : R) : v3 := V3 (Rb * cos (PI / 6) * 2) 0 0.
Definition gr_a2 (Rb : R) : v3 := vadd (vscale (/ 2) (gr_a1 Rb)) (V3 0 (3 / 2 * Rb) 0).
Definition graphene (n1 n2 : nat) (Rb : R) : list v3 * v3 * v3 :=
  (flat_map (fun i1 => flat_map (fun i2 =>
      let corner := vadd (vscale (INR i1) (gr_a1 Rb)) (vscale (INR i2) (gr_a2 Rb)) in
      [corner; vadd (vadd corner (gr_a1 Rb)) (V3 0 Rb 0)]) (seq 0 n2)) (seq 0 n1),
   V3 (INR n1 * vx (gr_a1 Rb)) 0 0, V3 (INR n2 * vx (gr_a2 Rb)) (INR n2 * vy (gr_a2 Rb)) 0).

(** pbc='x' or pbc='z' *)
Inductive dir := DirX | DirZ.
(** atoms.rotate('z',pi/2); atoms.rotate('x',pi/2) *)
Definition stand_up (p : v3) : v3 := V3 (- vy p) (- vz p) (vx p).
Definition orient (d : dir) (ps : list v3) : list v3 := match d with DirX => ps | DirZ => map stand_up ps end.
Definition along (d : dir) (L : R) : v3 := match d with DirX => V3 L 0 0 | DirZ => V3 0 0 L end.

(** copies of a cell; lines 71-75, 108-112 *)
Definition repeat_cell (cell : list v3) (units : nat) (L : R) : list v3 :=
  cell ++ flat_map (fun i => translate (V3 ((INR i + 1) * L) 0 0) cell) (seq 0 (units - 1)).
(** ZGNR, lines 49-88 *)
Definition ZGNR (n units : nat) (d : dir) (Rb : R) : list v3 * v3 :=
  let a0 := Rb * sqrt 3 in
  let cell := flat_map (fun i =>
      let x := if Nat.odd i then -1 else 1 in
      [V3 0 (3 * Rb * INR i / 2 + 3 * Rb / 4 - x * Rb / 4) 0; V3 (a0 / 2) (3 * Rb * INR i / 2 + 3 * Rb / 4 + x * Rb / 4) 0]) (seq 0 n) in
  (orient d (repeat_cell cell units a0), along d (INR units * a0)).
(** AGNR, lines 92-125 *)
Definition AGNR (n units : nat) (d : dir) (Rb : R) : list v3 * v3 :=
  let a := Rb * sqrt 3 in
  let cell := flat_map (fun i =>
      let x0 := if Nat.odd i then 3 / 2 * Rb else 0 in
      [V3 (x0 + 0) (INR i * a / 2) 0; V3 (x0 + Rb) (INR i * a / 2) 0]) (seq 0 n) in
  (orient d (repeat_cell cell units (3 * Rb)), along d (INR units * 3 * Rb)).
(** armchair_ribbon, lines 127-171 *)
Definition armchair_ribbon (n1 n2 : nat) (Rb : R) (d : dir) : list v3 * v3 :=
  (orient d (flat_map (fun i1 => flat_map (fun i2 =>
      let corner := V3 (INR i1 * (3 * Rb)) (INR i2 * (2 * Rb * cos (PI / 6))) 0 in
      [corner; vadd corner (V3 Rb 0 0); vadd corner (V3 (3 / 2 * Rb) (Rb * cos (PI / 6)) 0); vadd corner (V3 (5 / 2 * Rb) (Rb * cos (PI / 6)) 0)])
      (seq 0 n2)) (seq 0 n1)), along d (INR n1 * 3 * Rb)).
(** zigzag_ribbon, lines 178-212 *)
Definition zigzag_ribbon (n1 n2 : nat) (Rb : R) (d : dir) : list v3 * v3 :=
  (orient d (flat_map (fun i1 => flat_map (fun i2 =>
      let corner := V3 (INR i1 * (2 * Rb * cos (PI / 6))) (INR i2 * (3 * Rb)) 0 in
      [vadd corner (V3 (Rb * cos (PI / 6)) (Rb / 2) 0); vadd corner (V3 0 Rb 0); vadd corner (V3 0 (2 * Rb) 0);
       vadd corner (V3 (Rb * cos (PI / 6)) (5 / 2 * Rb) 0)])
      (seq 0 n2)) (seq 0 n1)), along d (match d with DirX => 2 * Rb * cos (PI / 6) | DirZ => INR n1 * 3 * Rb end)).

(** nanotube_data, lines 216-249; None: ZeroDivisionError *)
Record tube := Tube { t_a : R; t_diameter : R; t_radius : R; t_C : R; t_T : R; t_metallic : bool; t_semiconducting : bool;
  t_angle : R; t_hexagons : Z; t_type : string }.
Definition tube_dR (n m : Z) : option Z :=
  if (n =? m)%Z then Some (3 * n)%Z else
  match gcd n m with None => None | Some d => if ((n - m) mod (3 * d) =? 0)%Z then Some (3 * d)%Z else Some d end.
Definition nanotube_data (n m : Z) (Rb : R) : option tube :=
  let a := sqrt 3 * Rb in
  let N := (n ^ 2 + m ^ 2 + n * m)%Z in
  let diameter := a / PI * sqrt (IZR N) in
  match tube_dR n m with
  | None => None
  | Some dR =>
      if (dR =? 0)%Z || (m + 2 * n =? 0)%Z then None else
      let metallic := ((n - m) mod 3 =? 0)%Z in
      Some (Tube a diameter (diameter / 2) (diameter * PI) (3 * Rb * sqrt (IZR N) / IZR dR) metallic (negb metallic)
        (atan (sqrt 3 * IZR m / IZR (m + 2 * n))) (pyround (2 * IZR N / IZR dR))
        (if (n =? m)%Z then "armchair" else if (n =? 0)%Z || (m =? 0)%Z then "zigzag" else "chiral")%string)
  end.

(** chiral_nanotube, lines 253-302: positions, height and angle of the container (n+m>0) *)
Definition ch_a1 (Rb : R) : v3 := V3 (sqrt 3 * Rb) 0 0.
Definition ch_a2 (Rb : R) : v3 := V3 (/ 2 * (sqrt 3 * Rb)) (- (3 / 2) * Rb) 0.
Definition ch_shift (Rb : R) : v3 := V3 (sqrt 3 * Rb / 2) (- (/ 2) * Rb) 0.
Definition chiral_nanotube (n m : nat) (Rb : R) : list v3 * R * R :=
  let a1 := ch_a1 Rb in let a2 := ch_a2 Rb in
  let rl := flat_map (fun i => let origin := vscale (INR i) a1 in [origin; vadd origin (ch_shift Rb)]) (seq 0 n) ++
            flat_map (fun j => let origin := vadd (vscale (INR n - 1) a1) (vscale (INR j + 1) a1) in [origin; vadd origin (ch_shift Rb)]) (seq 0 m) in
  let C := vadd (vscale (INR n) a1) (vscale (INR m) a2) in
  let Cn := vnorm C in
  let T := V3 (vy C) (- vx C) 0 in
  let t := vscale (/ vnorm T) T in
  let radius := Cn / (2 * PI) in
  (map (fun r => let phi := vdot r C / Cn ^ 2 * 2 * PI in V3 (radius * cos phi) (radius * sin phi) (vdot r t)) rl,
   Rabs (vdot (vsub a1 a2) t), - vdot (vsub a1 a2) C / Cn ^ 2 * 2 * PI).

(** nanotube, lines 306-367: positions and length of the cell; vectors of the plane have z = 0.  None: ZeroDivisionError *)
Definition nt_a1 (Rb : R) : v3 := V3 (sqrt 3 / 2 * Rb * sqrt 3) (/ 2 * Rb * sqrt 3) 0.
Definition nt_a2 (Rb : R) : v3 := V3 (sqrt 3 / 2 * Rb * sqrt 3) (- / 2 * Rb * sqrt 3) 0.
(** range(-k,k) *)
Definition zrange (k : nat) : list Z := map (fun i => (Z.of_nat i - Z.of_nat k)%Z) (seq 0 (2 * k)).
(** gcd and RR; h-int(h)==0 *)
Definition nt_step (n m : Z) : option Z :=
  match gcd n m with
  | None => None
  | Some g => if (g =? 0)%Z then None else Some (g * (if ((n - m) mod (3 * g) =? 0)%Z then 3 else 1))%Z
  end.
Definition nanotube (n m : nat) (Rb : R) (length : nat) : option (list v3 * R) :=
  let zn := Z.of_nat n in let zm := Z.of_nat m in
  match nt_step zn zm with
  | None => None
  | Some g =>
      let a1 := nt_a1 Rb in let a2 := nt_a2 Rb in
      let c := vadd (vscale (INR n) a1) (vscale (INR m) a2) in
      let abs_c := sqrt (vdot c c) in
      let a := vscale (/ IZR g) (vadd (vscale (- IZR (2 * zm + zn)) a1) (vscale (IZR (2 * zn + zm)) a2)) in
      let abs_a := sqrt (vdot a a) in
      let nxy := (Nat.max n m + 100)%nat in
      let eps := / 100000 in
      let at0 := flat_map (fun x => flat_map (fun y => flat_map (fun b =>
          let p := vadd (vscale (IZR x + b) a1) (vscale (IZR y + b) a2) in
          let sa := vdot p a / abs_a ^ 2 in
          let sc := vdot p c / abs_c ^ 2 in
          if leb 0 sa && ltb sa (1 - eps) && leb 0 sc && ltb sc (1 - eps)
          then [V3 (cos (2 * PI * sc) * abs_c / (2 * PI)) (sin (2 * PI * sc) * abs_c / (2 * PI)) (sa * abs_a)] else [])
          [1 / 3 - / 100; 2 / 3 - / 100]) (zrange nxy)) (zrange nxy) in
      Some (at0 ++ flat_map (fun i => translate (V3 0 0 ((INR i + 1) * abs_a)) at0) (seq 0 (length - 1)), INR length * abs_a)
  end.
(** the data attached to it, line 366 *)
Definition nanotube_attached (n m : nat) (Rb : R) : option tube := nanotube_data (Z.of_nat n) (Z.of_nat m) (142 / 100).

(** CNT_list, lines 371-415, with the sort of Python 2 (with Python 3 sort(comp) raises TypeError): the tubes before sorting *)
Definition cnt_tubes : list (Z * Z) :=
  let d n m := match nanotube_data n m (142 / 100) with Some t => t_diameter t | None => 0 end in
  flat_map (fun n => let n := Z.of_nat n in
    (fix row (k : nat) (m : Z) : list (Z * Z) :=
       match k with O => [] | S k => if ltb (d n m) 2 then [] else (n, m) :: row k (m + 1)%Z end) (Z.to_nat (n + 1)) 0%Z) (seq 1 19).
