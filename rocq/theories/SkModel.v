(** Slater-Koster transformations, orbital rotations and the matrices H0 and S.
    hotbit/c/slako.c, hotbit/interactions.py *)
From Coq Require Import Reals List Bool Arith.
From Verif Require Import Vec GeomModel.
Import ListNotations.
Open Scope R_scope.

(** ** fast_slako_transformations; slako.c 28-595.
    Orbital ordering 0..8: s, px, py, pz, dxy, dyz, dzx, dx2-y2, d3z2-r2 *)
Definition s3 : R := sqrt 3.

(** mat[a][b][0..cnt-1] for a <= b, slako.c 99-522 *)
Definition mat_upper (l m n : R) (a b : nat) : list R :=
  let ll := l * l in let mm := m * m in let nn := n * n in
  match a, b with
  | 0, 0 => [1]
  | 0, 1 => [l]
  | 0, 2 => [m]
  | 0, 3 => [n]
  | 0, 4 => [s3 * l * m]
  | 0, 5 => [s3 * m * n]
  | 0, 6 => [s3 * n * l]
  | 0, 7 => [(1 / 2) * s3 * (ll - mm)]
  | 0, 8 => [nn - (1 / 2) * (ll + mm)]
  | 1, 1 => [ll; 1 - ll]
  | 1, 2 => [l * m; - l * m]
  | 1, 3 => [l * n; - l * n]
  | 1, 4 => [s3 * ll * m; m * (1 - 2 * ll)]
  | 1, 5 => [s3 * l * m * n; -2 * l * m * n]
  | 1, 6 => [s3 * ll * n; n * (1 - 2 * ll)]
  | 1, 7 => [(1 / 2) * s3 * l * (ll - mm); l * (1 - ll + mm)]
  | 1, 8 => [l * (nn - (1 / 2) * (ll + mm)); - s3 * l * nn]
  | 2, 2 => [mm; 1 - mm]
  | 2, 3 => [m * n; - m * n]
  | 2, 4 => [s3 * mm * l; l * (1 - 2 * mm)]
  | 2, 5 => [s3 * mm * n; n * (1 - 2 * mm)]
  | 2, 6 => [s3 * m * n * l; -2 * m * n * l]
  | 2, 7 => [(1 / 2) * s3 * m * (ll - mm); - m * (1 + ll - mm)]
  | 2, 8 => [m * (nn - (1 / 2) * (ll + mm)); - s3 * m * nn]
  | 3, 3 => [nn; 1 - nn]
  | 3, 4 => [s3 * l * m * n; -2 * m * n * l]
  | 3, 5 => [s3 * nn * m; m * (1 - 2 * nn)]
  | 3, 6 => [s3 * nn * l; l * (1 - 2 * nn)]
  | 3, 7 => [(1 / 2) * s3 * n * (ll - mm); - n * (ll - mm)]
  | 3, 8 => [n * (nn - (1 / 2) * (ll + mm)); s3 * n * (ll + mm)]
  | 4, 4 => [3 * ll * mm; ll + mm - 4 * ll * mm; nn + ll * mm]
  | 4, 5 => [3 * l * mm * n; l * n * (1 - 4 * mm); l * n * (mm - 1)]
  | 4, 6 => [3 * ll * m * n; m * n * (1 - 4 * ll); m * n * (ll - 1)]
  | 4, 7 => [(3 / 2) * l * m * (ll - mm); 2 * l * m * (mm - ll); (1 / 2) * l * m * (ll - mm)]
  | 4, 8 => [s3 * l * m * (nn - (1 / 2) * (ll + mm)); -2 * s3 * l * m * nn; (1 / 2) * s3 * l * m * (1 + nn)]
  | 5, 5 => [3 * mm * nn; (mm + nn - 4 * mm * nn); (ll + mm * nn)]
  | 5, 6 => [3 * m * nn * l; m * l * (1 - 4 * nn); m * l * (nn - 1)]
  | 5, 7 => [(3 / 2) * m * n * (ll - mm); - m * n * (1 + 2 * (ll - mm)); m * n * (1 + (1 / 2) * (ll - mm))]
  | 5, 8 => [s3 * m * n * (nn - (1 / 2) * (ll + mm)); s3 * m * n * (ll + mm - nn); - (1 / 2) * s3 * m * n * (ll + mm)]
  | 6, 6 => [3 * nn * ll; (nn + ll - 4 * nn * ll); (mm + nn * ll)]
  | 6, 7 => [(3 / 2) * n * l * (ll - mm); n * l * (1 - 2 * (ll - mm)); - n * l * (1 - (1 / 2) * (ll - mm))]
  | 6, 8 => [s3 * l * n * (nn - (1 / 2) * (ll + mm)); s3 * l * n * (ll + mm - nn); - (1 / 2) * s3 * l * n * (ll + mm)]
  | 7, 7 => [(3 / 4) * (ll - mm) ^ 2; (ll + mm - (ll - mm) ^ 2); (nn + (1 / 4) * (ll - mm) ^ 2)]
  | 7, 8 => [(1 / 2) * s3 * (ll - mm) * (nn - (1 / 2) * (ll + mm)); s3 * nn * (mm - ll); (1 / 4) * s3 * (1 + nn) * (ll - mm)]
  | 8, 8 => [(nn - (1 / 2) * (ll + mm)) ^ 2; 3 * nn * (ll + mm); (3 / 4) * (ll + mm) ^ 2]
  | _, _ => []
  end.

(** der[a][b][0..cnt-1][i] for a <= b with dl[i], dm[i], dn[i] given, slako.c 99-522;
    dll[i] = 2*l*dl[i] etc. from lines 73-75 *)
Definition der_upper (l m n dl dm dn : R) (a b : nat) : list R :=
  let ll := l * l in let mm := m * m in let nn := n * n in
  let dll := 2 * l * dl in let dmm := 2 * m * dm in let dnn := 2 * n * dn in
  match a, b with
  | 0, 0 => [0]
  | 0, 1 => [dl]
  | 0, 2 => [dm]
  | 0, 3 => [dn]
  | 0, 4 => [s3 * (dl * m + l * dm)]
  | 0, 5 => [s3 * (dm * n + m * dn)]
  | 0, 6 => [s3 * (dn * l + n * dl)]
  | 0, 7 => [(1 / 2) * s3 * (dll - dmm)]
  | 0, 8 => [dnn - (1 / 2) * (dll + dmm)]
  | 1, 1 => [dll; - dll]
  | 1, 2 => [dl * m + l * dm; - (dl * m + l * dm)]
  | 1, 3 => [dl * n + l * dn; - (dl * n + l * dn)]
  | 1, 4 => [s3 * (dll * m + ll * dm); dm * (1 - 2 * ll) + m * (-2 * dll)]
  | 1, 5 => [s3 * (dl * m * n + l * dm * n + l * m * dn); -2 * (dl * m * n + l * dm * n + l * m * dn)]
  | 1, 6 => [s3 * (dll * n + ll * dn); dn * (1 - 2 * ll) + n * (-2 * dll)]
  | 1, 7 => [(1 / 2) * s3 * (dl * (ll - mm) + l * (dll - dmm)); dl * (1 - ll + mm) + l * (- dll + dmm)]
  | 1, 8 => [dl * (nn - (1 / 2) * (ll + mm)) + l * (dnn - (1 / 2) * (dll + dmm)); - s3 * (dl * nn + l * dnn)]
  | 2, 2 => [dmm; - dmm]
  | 2, 3 => [dm * n + m * dn; - (dm * n + m * dn)]
  | 2, 4 => [s3 * (dmm * l + mm * dl); dl * (1 - 2 * mm) + l * (-2 * dmm)]
  | 2, 5 => [s3 * (dmm * n + mm * dn); dn * (1 - 2 * mm) + n * (-2 * dmm)]
  | 2, 6 => [s3 * (dm * n * l + m * dn * l + m * n * dl); -2 * (dm * n * l + m * dn * l + m * n * dl)]
  | 2, 7 => [(1 / 2) * s3 * (dm * (ll - mm) + m * (dll - dmm)); - (dm * (1 + ll - mm) + m * (dll - dmm))]
  | 2, 8 => [dm * (nn - (1 / 2) * (ll + mm)) + m * (dnn - (1 / 2) * (dll + dmm)); - s3 * (dm * nn + m * dnn)]
  | 3, 3 => [dnn; - dnn]
  | 3, 4 => [s3 * (dl * m * n + l * dm * n + l * m * dn); -2 * (dm * n * l + m * dn * l + m * n * dl)]
  | 3, 5 => [s3 * (dnn * m + nn * dm); dm * (1 - 2 * nn) + m * (-2 * dnn)]
  | 3, 6 => [s3 * (dnn * l + nn * dl); dl * (1 - 2 * nn) + l * (-2 * dnn)]
  | 3, 7 => [(1 / 2) * s3 * (dn * (ll - mm) + n * (dll - dmm)); - (dn * (ll - mm) + n * (dll - dmm))]
  | 3, 8 => [dn * (nn - (1 / 2) * (ll + mm)) + n * (dnn - (1 / 2) * (dll + dmm)); s3 * (dn * (ll + mm) + n * (dll + dmm))]
  | 4, 4 => [3 * (dll * mm + ll * dmm); dll + dmm - 4 * (dll * mm + ll * dmm); dnn + (dll * mm + ll * dmm)]
  | 4, 5 => [3 * (dl * mm * n + l * dmm * n + l * mm * dn); dl * n * (1 - 4 * mm) + l * dn * (1 - 4 * mm) + l * n * (-4 * dmm); dl * n * (mm - 1) + l * dn * (mm - 1) + l * n * (dmm)]
  | 4, 6 => [3 * (dll * m * n + ll * dm * n + ll * m * dn); dm * n * (1 - 4 * ll) + m * dn * (1 - 4 * ll) + m * n * (-4 * dll); dm * n * (ll - 1) + m * dn * (ll - 1) + m * n * (dll)]
  | 4, 7 => [(3 / 2) * (dl * m * (ll - mm) + l * dm * (ll - mm) + l * m * (dll - dmm)); 2 * (dl * m * (mm - ll) + l * dm * (mm - ll) + l * m * (dmm - dll)); (1 / 2) * (dl * m * (ll - mm) + l * dm * (ll - mm) + l * m * (dll - dmm))]
  | 4, 8 => [s3 * (dl * m * (nn - (1 / 2) * (ll + mm)) + l * dm * (nn - (1 / 2) * (ll + mm)) + l * m * (dnn - (1 / 2) * (dll + dmm))); -2 * s3 * (dl * m * nn + l * dm * nn + l * m * dnn); (1 / 2) * s3 * (dl * m * (1 + nn) + l * dm * (1 + nn) + l * m * (dnn))]
  | 5, 5 => [3 * (dmm * nn + mm * dnn); (dmm + dnn - 4 * (dmm * nn + mm * dnn)); (dll + dmm * nn + mm * dnn)]
  | 5, 6 => [3 * (dm * nn * l + m * dnn * l + m * nn * dl); dm * l * (1 - 4 * nn) + m * dl * (1 - 4 * nn) + m * l * (-4 * dnn); dm * l * (nn - 1) + m * dl * (nn - 1) + m * l * (dnn)]
  | 5, 7 => [(3 / 2) * (dm * n * (ll - mm) + m * dn * (ll - mm) + m * n * (dll - dmm)); - (dm * n * (1 + 2 * (ll - mm)) + m * dn * (1 + 2 * (ll - mm)) + m * n * (2 * dll - 2 * dmm)); dm * n * (1 + (1 / 2) * (ll - mm)) + m * dn * (1 + (1 / 2) * (ll - mm)) + m * n * ((1 / 2) * (dll - dmm))]
  | 5, 8 => [s3 * (dm * n * (nn - (1 / 2) * (ll + mm)) + m * dn * (nn - (1 / 2) * (ll + mm)) + m * n * (dnn - (1 / 2) * (dll + dmm))); s3 * (dm * n * (ll + mm - nn) + m * dn * (ll + mm - nn) + m * n * (dll + dmm - dnn)); - (1 / 2) * s3 * (dm * n * (ll + mm) + m * dn * (ll + mm) + m * n * (dll + dmm))]
  | 6, 6 => [3 * (dnn * ll + nn * dll); dnn + dll - 4 * (dnn * ll + nn * dll); (dmm + dnn * ll + nn * dll)]
  | 6, 7 => [(3 / 2) * (dn * l * (ll - mm) + n * dl * (ll - mm) + n * l * (dll - dmm)); dn * l * (1 - 2 * (ll - mm)) + n * dl * (1 - 2 * (ll - mm)) + n * l * (-2 * (dll - dmm)); - (dn * l * (1 - (1 / 2) * (ll - mm)) + n * dl * (1 - (1 / 2) * (ll - mm)) + n * l * (- (1 / 2) * (dll - dmm)))]
  | 6, 8 => [s3 * (dl * n * (nn - (1 / 2) * (ll + mm)) + l * dn * (nn - (1 / 2) * (ll + mm)) + l * n * (dnn - (1 / 2) * (dll + dmm))); s3 * (dl * n * (ll + mm - nn) + l * dn * (ll + mm - nn) + l * n * (dll + dmm - dnn)); - (1 / 2) * s3 * (dl * n * (ll + mm) + l * dn * (ll + mm) + l * n * (dll + dmm))]
  | 7, 7 => [(3 / 4) * 2 * (ll - mm) * (dll - dmm); (dll + dmm - 2 * (ll - mm) * (dll - dmm)); (dnn + (1 / 4) * 2 * (ll - mm) * (dll - dmm))]
  | 7, 8 => [(1 / 2) * s3 * ((dll - dmm) * (nn - (1 / 2) * (ll + mm)) + (ll - mm) * (dnn - (1 / 2) * (dll + dmm))); s3 * (dnn * (mm - ll) + nn * (dmm - dll)); (1 / 4) * s3 * (dnn * (ll - mm) + (1 + nn) * (dll - dmm))]
  | 8, 8 => [2 * (nn - (1 / 2) * (ll + mm)) * (dnn - (1 / 2) * (dll + dmm)); 3 * (dnn * (ll + mm) + nn * (dll + dmm)); (3 / 4) * 2 * (ll + mm) * (dll + dmm)]
  | _, _ => []
  end.

(** ind[a][b][0..cnt-1] for a <= b, slako.c 99-522 *)
Definition ind_upper (a b : nat) : list nat :=
  match a, b with
  | 0, 0 => [9]
  | 0, 1 => [8]
  | 0, 2 => [8]
  | 0, 3 => [8]
  | 0, 4 => [7]
  | 0, 5 => [7]
  | 0, 6 => [7]
  | 0, 7 => [7]
  | 0, 8 => [7]
  | 1, 1 => [5; 6]
  | 1, 2 => [5; 6]
  | 1, 3 => [5; 6]
  | 1, 4 => [3; 4]
  | 1, 5 => [3; 4]
  | 1, 6 => [3; 4]
  | 1, 7 => [3; 4]
  | 1, 8 => [3; 4]
  | 2, 2 => [5; 6]
  | 2, 3 => [5; 6]
  | 2, 4 => [3; 4]
  | 2, 5 => [3; 4]
  | 2, 6 => [3; 4]
  | 2, 7 => [3; 4]
  | 2, 8 => [3; 4]
  | 3, 3 => [5; 6]
  | 3, 4 => [3; 4]
  | 3, 5 => [3; 4]
  | 3, 6 => [3; 4]
  | 3, 7 => [3; 4]
  | 3, 8 => [3; 4]
  | 4, 4 => [0; 1; 2]
  | 4, 5 => [0; 1; 2]
  | 4, 6 => [0; 1; 2]
  | 4, 7 => [0; 1; 2]
  | 4, 8 => [0; 1; 2]
  | 5, 5 => [0; 1; 2]
  | 5, 6 => [0; 1; 2]
  | 5, 7 => [0; 1; 2]
  | 5, 8 => [0; 1; 2]
  | 6, 6 => [0; 1; 2]
  | 6, 7 => [0; 1; 2]
  | 6, 8 => [0; 1; 2]
  | 7, 7 => [0; 1; 2]
  | 7, 8 => [0; 1; 2]
  | 8, 8 => [0; 1; 2]
  | _, _ => []
  end%nat.

(** cnt, slako.c 78-90 *)
Definition cnt (i j : nat) : nat :=
  if (4 <=? i)%nat && (4 <=? j)%nat then 3 else if (1 <=? i)%nat && (1 <=? j)%nat then 2 else 1.

(** the copy loop for reversed orbitals, slako.c 524-535 *)
Definition mat (l m n : R) (a b : nat) : list R := if (a <=? b)%nat then mat_upper l m n a b else mat_upper l m n b a.
Definition der (l m n dl dm dn : R) (a b : nat) : list R :=
  if (a <=? b)%nat then der_upper l m n dl dm dn a b else der_upper l m n dl dm dn b a.
(** slako.c 532, the different indices of lines 537-568 *)
Definition ind (a b : nat) : list nat :=
  if (a <=? b)%nat then ind_upper a b
  else match b with
  | 0 => if (a <=? 3)%nat then [13] else [12]
  | 1 | 2 | 3 => if (a <=? 3)%nat then ind_upper b a else [10; 11]
  | _ => ind_upper b a
  end%nat.

(** ht[i][j], slako.c 570-584; rhat = (l,m,n) *)
Definition ht (r : v3) (h : nat -> R) (i j : nat) : R :=
  rsum (cnt i j) (fun b => nth b (mat (vx r) (vy r) (vz r) i j) 0 * h (nth b (ind i j) 0%nat)).
Definition comp (k : nat) (v : v3) : R := match k with 0 => vx v | 1 => vy v | _ => vz v end%nat.
(** dl[i], dm[i], dn[i], slako.c 69-71 *)
Definition dl (r : v3) (dist : R) (k : nat) : R := (comp k (V3 1 0 0) - vx r * comp k r) / dist.
Definition dm (r : v3) (dist : R) (k : nat) : R := (comp k (V3 0 1 0) - vy r * comp k r) / dist.
Definition dn (r : v3) (dist : R) (k : nat) : R := (comp k (V3 0 0 1) - vz r * comp k r) / dist.
(** dht[i][j][a], slako.c 586-589; dh has shape [14,3] *)
Definition dht (r : v3) (dist : R) (h : nat -> R) (dh : nat -> nat -> R) (i j k : nat) : R :=
  rsum (cnt i j) (fun b =>
    nth b (mat (vx r) (vy r) (vz r) i j) 0 * dh (nth b (ind i j) 0%nat) k +
    nth b (der (vx r) (vy r) (vz r) (dl r dist k) (dm r dist k) (dn r dist k) i j) 0 * h (nth b (ind i j) 0%nat)).

(** ** Reading of the tables, interactions.py 18-26 and 133-183: the tabulated values at one distance.
    tij and tji are the columns of the tables of (si,sj) and (sj,si); the integrals dps, dpp, dss and pss are
    taken from the other table with parity (-1)^(li+lj).  Simplified: the interpolation in between is not part of this
    definition, and the integrals absent for the valence orbitals of the elements are not set to zero. *)
Definition read_integral (tij tji : nat -> R) (c : nat) : R :=
  match c with
  | 10%nat => (-1) ^ (2 + 1) * tji 3%nat
  | 11%nat => (-1) ^ (2 + 1) * tji 4%nat
  | 12%nat => (-1) ^ (2 + 0) * tji 7%nat
  | 13%nat => (-1) ^ (1 + 0) * tji 8%nat
  | _ => tij c
  end.

(** ** orbital_transformations_from_angles; interactions.py 429-483 *)
Definition orbital_transformations_from_angles (theta phi angle : R) (a b : nat) : R :=
  let pi := PI in
  let ca := cos angle in let sa := sin angle in let ct := cos theta in let st := sin theta in
  let cp := cos phi in let sp := sin phi in
  let ca2 := ca ^ 2 in let sa2 := sa ^ 2 in let ct2 := ct ^ 2 in let st2 := st ^ 2 in
  let cp2 := cp ^ 2 in let sp2 := sp ^ 2 in
  let ca1 := 1 - ca in
  match a, b with
  | 0, 0 => 1
  | 1, 1 => (ca1 * st2 * cp2 + ca)
  | 1, 2 => (ca1 * sp * st2 * cp + sa * ct)
  | 1, 3 => (ca1 * cp * ct - sa * sp) * st
  | 2, 1 => (ca1 * sp * st2 * cp - sa * ct)
  | 2, 2 => (ca1 * sp2 * st2 + ca)
  | 2, 3 => (ca1 * sp * ct + sa * cp) * st
  | 3, 1 => (ca1 * cp * ct + sa * sp) * st
  | 3, 2 => (ca1 * sp * ct - sa * cp) * st
  | 3, 3 => (ca1 * ct2 + ca)
  | 4, 4 => (2 * (pi + pi * ca2 - 2 * pi * ca) * sp2 * st ^ 4 * cp2 - pi * sa2 * ct2 - ((pi * ca2 - pi * ca) * sp2 + (pi * ca2 - pi * ca) * cp2) * st2 + pi * ca2) / pi
  | 4, 5 => - (((pi - pi * ca) * sa * sp ^ 3 - (pi - pi * ca) * sa * sp * cp2 - 2 * (pi + pi * ca2 - 2 * pi * ca) * sp2 * cp * ct) * st ^ 3 - ((pi - pi * ca) * sa * sp * ct2 - pi * sa * sp * ca + (pi * sa2 - pi * ca2 + pi * ca) * cp * ct) * st) / pi
  | 4, 6 => - (((pi - pi * ca) * sa * sp2 * cp - (pi - pi * ca) * sa * cp ^ 3 - 2 * (pi + pi * ca2 - 2 * pi * ca) * sp * cp2 * ct) * st ^ 3 + ((pi - pi * ca) * sa * cp * ct2 - pi * sa * ca * cp - (pi * sa2 - pi * ca2 + pi * ca) * sp * ct) * st) / pi
  | 4, 7 => - (((pi + pi * ca2 - 2 * pi * ca) * sp ^ 3 * cp - (pi + pi * ca2 - 2 * pi * ca) * sp * cp ^ 3) * st ^ 4 + ((pi - pi * ca) * sa * sp2 + (pi - pi * ca) * sa * cp2) * st2 * ct + 2 * pi * sa * ca * ct) / pi
  | 4, 8 => - (1 / 3) * (((pi + pi * ca2 - 2 * pi * ca) * sp ^ 3 * cp + (pi + pi * ca2 - 2 * pi * ca) * sp * cp ^ 3) * st ^ 4 - (2 * (pi + pi * ca2 - 2 * pi * ca) * sp * cp * ct2 - 2 * (pi * sa2 - pi * ca2 + pi * ca) * sp * cp - 3 * ((pi - pi * ca) * sa * sp2 - (pi - pi * ca) * sa * cp2) * ct) * st2) * s3 / pi
  | 5, 4 => (((pi - pi * ca) * sa * sp ^ 3 - (pi - pi * ca) * sa * sp * cp2 + 2 * (pi + pi * ca2 - 2 * pi * ca) * sp2 * cp * ct) * st ^ 3 - ((pi - pi * ca) * sa * sp * ct2 - pi * sa * sp * ca - (pi * sa2 - pi * ca2 + pi * ca) * cp * ct) * st) / pi
  | 5, 5 => - ((pi * ca2 - pi * ca) * ct2 - (2 * (pi + pi * ca2 - 2 * pi * ca) * sp2 * ct2 - pi * sa2 * cp2 - (pi * ca2 - pi * ca) * sp2) * st2 - pi * ca2) / pi
  | 5, 6 => - ((pi - pi * ca) * sa * ct ^ 3 + pi * sa * ca * ct - (2 * (pi + pi * ca2 - 2 * pi * ca) * sp * cp * ct2 + (pi * sa2 - pi * ca2 + pi * ca) * sp * cp + ((pi - pi * ca) * sa * sp2 + (pi - pi * ca) * sa * cp2) * ct) * st2) / pi
  | 5, 7 => ((2 * (pi - pi * ca) * sa * sp2 * cp - ((pi + pi * ca2 - 2 * pi * ca) * sp ^ 3 - (pi + pi * ca2 - 2 * pi * ca) * sp * cp2) * ct) * st ^ 3 - ((pi - pi * ca) * sa * cp * ct2 - pi * sa * ca * cp + (pi * sa2 - pi * ca2 + pi * ca) * sp * ct) * st) / pi
  | 5, 8 => - (1 / 3) * (((pi + pi * ca2 - 2 * pi * ca) * sp ^ 3 + (pi + pi * ca2 - 2 * pi * ca) * sp * cp2) * st ^ 3 * ct - (3 * (pi - pi * ca) * sa * cp * ct2 + 2 * (pi + pi * ca2 - 2 * pi * ca) * sp * ct ^ 3 + 3 * pi * sa * ca * cp + (pi * sa2 - pi * ca2 + pi * ca) * sp * ct) * st) * s3 / pi
  | 6, 4 => (((pi - pi * ca) * sa * sp2 * cp - (pi - pi * ca) * sa * cp ^ 3 + 2 * (pi + pi * ca2 - 2 * pi * ca) * sp * cp2 * ct) * st ^ 3 + ((pi - pi * ca) * sa * cp * ct2 - pi * sa * ca * cp + (pi * sa2 - pi * ca2 + pi * ca) * sp * ct) * st) / pi
  | 6, 5 => ((pi - pi * ca) * sa * ct ^ 3 + pi * sa * ca * ct + (2 * (pi + pi * ca2 - 2 * pi * ca) * sp * cp * ct2 + (pi * sa2 - pi * ca2 + pi * ca) * sp * cp - ((pi - pi * ca) * sa * sp2 + (pi - pi * ca) * sa * cp2) * ct) * st2) / pi
  | 6, 6 => - ((pi * ca2 - pi * ca) * ct2 - (2 * (pi + pi * ca2 - 2 * pi * ca) * cp2 * ct2 - pi * sa2 * sp2 - (pi * ca2 - pi * ca) * cp2) * st2 - pi * ca2) / pi
  | 6, 7 => ((2 * (pi - pi * ca) * sa * sp * cp2 - ((pi + pi * ca2 - 2 * pi * ca) * sp2 * cp - (pi + pi * ca2 - 2 * pi * ca) * cp ^ 3) * ct) * st ^ 3 - ((pi - pi * ca) * sa * sp * ct2 - pi * sa * sp * ca - (pi * sa2 - pi * ca2 + pi * ca) * cp * ct) * st) / pi
  | 6, 8 => - (1 / 3) * (((pi + pi * ca2 - 2 * pi * ca) * sp2 * cp + (pi + pi * ca2 - 2 * pi * ca) * cp ^ 3) * st ^ 3 * ct + (3 * (pi - pi * ca) * sa * sp * ct2 - 2 * (pi + pi * ca2 - 2 * pi * ca) * cp * ct ^ 3 + 3 * pi * sa * sp * ca - (pi * sa2 - pi * ca2 + pi * ca) * cp * ct) * st) * s3 / pi
  | 7, 4 => - (((pi + pi * ca2 - 2 * pi * ca) * sp ^ 3 * cp - (pi + pi * ca2 - 2 * pi * ca) * sp * cp ^ 3) * st ^ 4 - ((pi - pi * ca) * sa * sp2 + (pi - pi * ca) * sa * cp2) * st2 * ct - 2 * pi * sa * ca * ct) / pi
  | 7, 5 => - ((2 * (pi - pi * ca) * sa * sp2 * cp + ((pi + pi * ca2 - 2 * pi * ca) * sp ^ 3 - (pi + pi * ca2 - 2 * pi * ca) * sp * cp2) * ct) * st ^ 3 - ((pi - pi * ca) * sa * cp * ct2 - pi * sa * ca * cp - (pi * sa2 - pi * ca2 + pi * ca) * sp * ct) * st) / pi
  | 7, 6 => - ((2 * (pi - pi * ca) * sa * sp * cp2 + ((pi + pi * ca2 - 2 * pi * ca) * sp2 * cp - (pi + pi * ca2 - 2 * pi * ca) * cp ^ 3) * ct) * st ^ 3 - ((pi - pi * ca) * sa * sp * ct2 - pi * sa * sp * ca + (pi * sa2 - pi * ca2 + pi * ca) * cp * ct) * st) / pi
  | 7, 7 => (1 / 2) * (((pi + pi * ca2 - 2 * pi * ca) * sp ^ 4 - 2 * (pi + pi * ca2 - 2 * pi * ca) * sp2 * cp2 + (pi + pi * ca2 - 2 * pi * ca) * cp ^ 4) * st ^ 4 - 2 * pi * sa2 * ct2 - 2 * ((pi * ca2 - pi * ca) * sp2 + (pi * ca2 - pi * ca) * cp2) * st2 + 2 * pi * ca2) / pi
  | 7, 8 => (1 / 6) * (((pi + pi * ca2 - 2 * pi * ca) * sp ^ 4 - (pi + pi * ca2 - 2 * pi * ca) * cp ^ 4) * st ^ 4 - 2 * (6 * (pi - pi * ca) * sa * sp * cp * ct + ((pi + pi * ca2 - 2 * pi * ca) * sp2 - (pi + pi * ca2 - 2 * pi * ca) * cp2) * ct2 - (pi * sa2 - pi * ca2 + pi * ca) * sp2 + (pi * sa2 - pi * ca2 + pi * ca) * cp2) * st2) * s3 / pi
  | 8, 4 => - (1 / 3) * (((pi + pi * ca2 - 2 * pi * ca) * sp ^ 3 * cp + (pi + pi * ca2 - 2 * pi * ca) * sp * cp ^ 3) * st ^ 4 - (2 * (pi + pi * ca2 - 2 * pi * ca) * sp * cp * ct2 - 2 * (pi * sa2 - pi * ca2 + pi * ca) * sp * cp + 3 * ((pi - pi * ca) * sa * sp2 - (pi - pi * ca) * sa * cp2) * ct) * st2) * s3 / pi
  | 8, 5 => - (1 / 3) * (((pi + pi * ca2 - 2 * pi * ca) * sp ^ 3 + (pi + pi * ca2 - 2 * pi * ca) * sp * cp2) * st ^ 3 * ct + (3 * (pi - pi * ca) * sa * cp * ct2 - 2 * (pi + pi * ca2 - 2 * pi * ca) * sp * ct ^ 3 + 3 * pi * sa * ca * cp - (pi * sa2 - pi * ca2 + pi * ca) * sp * ct) * st) * s3 / pi
  | 8, 6 => - (1 / 3) * (((pi + pi * ca2 - 2 * pi * ca) * sp2 * cp + (pi + pi * ca2 - 2 * pi * ca) * cp ^ 3) * st ^ 3 * ct - (3 * (pi - pi * ca) * sa * sp * ct2 + 2 * (pi + pi * ca2 - 2 * pi * ca) * cp * ct ^ 3 + 3 * pi * sa * sp * ca + (pi * sa2 - pi * ca2 + pi * ca) * cp * ct) * st) * s3 / pi
  | 8, 7 => (1 / 6) * (((pi + pi * ca2 - 2 * pi * ca) * sp ^ 4 - (pi + pi * ca2 - 2 * pi * ca) * cp ^ 4) * st ^ 4 + 2 * (6 * (pi - pi * ca) * sa * sp * cp * ct - ((pi + pi * ca2 - 2 * pi * ca) * sp2 - (pi + pi * ca2 - 2 * pi * ca) * cp2) * ct2 + (pi * sa2 - pi * ca2 + pi * ca) * sp2 - (pi * sa2 - pi * ca2 + pi * ca) * cp2) * st2) * s3 / pi
  | 8, 8 => (1 / 6) * (((pi + pi * ca2 - 2 * pi * ca) * sp ^ 4 + 2 * (pi + pi * ca2 - 2 * pi * ca) * sp2 * cp2 + (pi + pi * ca2 - 2 * pi * ca) * cp ^ 4) * st ^ 4 + 4 * (pi + pi * ca2 - 2 * pi * ca) * ct ^ 4 + 2 * (pi * sa2 - 4 * pi * ca2 + 4 * pi * ca) * ct2 - 2 * (2 * ((pi + pi * ca2 - 2 * pi * ca) * sp2 + (pi + pi * ca2 - 2 * pi * ca) * cp2) * ct2 + (2 * pi * sa2 + pi * ca2 - pi * ca) * sp2 + (2 * pi * sa2 + pi * ca2 - pi * ca) * cp2) * st2 + 6 * pi * ca2) / pi
  | _, _ => 0
  end.

(** ** rotation_transformation; interactions.py 206-268.
    R: the rotation of the symmetry operation; dorb: some element has more than four orbitals;
    (theta, phi, angle): what el.rotation(n,angles=True) returns *)
Definition eps12 : R := / 10 ^ 12.
Definition diag9 (d : nat -> R) (a b : nat) : R := if (a =? b)%nat then d a else 0.
Definition m3e (m : m3) (i j : nat) : R := comp j (match i with 0 => row1 m | 1 => row2 m | _ => row3 m end%nat).
(** lines 251-268 *)
Definition z_transformation (R0 : m3) (b a : nat) : R :=
  let ca := m3e R0 0 0 in let sa := - m3e R0 0 1 in
  let c2a := 2 * ca ^ 2 - 1 in let s2a := 2 * sa * ca in
  match a, b with
  | O, O => 1
  | S i, S j => if (i <? 3)%nat && (j <? 3)%nat then m3e R0 j i else
      match a, b with
      | 4, 4 => c2a | 5, 5 => ca | 6, 6 => ca | 7, 7 => c2a | 8, 8 => 1
      | 5, 6 => - sa | 6, 5 => sa | 4, 7 => - s2a | 7, 4 => s2a
      | _, _ => 0
      end
  | _, _ => 0
  end.
Definition rotation_transformation (R0 : m3) (dorb : bool) (theta phi angle : R) (a b : nat) : R :=
  if ltb (Rabs (m3e R0 0 0 - 1)) eps12 && ltb (Rabs (m3e R0 1 1 - 1)) eps12 && ltb (Rabs (m3e R0 2 2 - 1)) eps12
  then diag9 (fun _ => 1) a b
  else if dorb && ltb eps12 (Rabs (m3e R0 2 2 - 1)) then
    if ltb (Rabs (m3e R0 2 2 + 1)) eps12
    then diag9 (fun i => match i with 3%nat | 5%nat | 6%nat => -1 | _ => 1 end) a b
    else orbital_transformations_from_angles theta phi angle b a
  else z_transformation R0 a b.

(** ** get_matrices; interactions.py 279-408, for one k-point.  Complex numbers are pairs. *)
Definition cplx := (R * R)%type.
Definition cadd (x y : cplx) : cplx := (fst x + fst y, snd x + snd y).
Definition cscale (k : R) (x : cplx) : cplx := (k * fst x, k * snd x).
Definition cconj (x : cplx) : cplx := (fst x, - snd x).
Definition csum (n : nat) (f : nat -> cplx) : cplx := (rsum n (fun i => fst (f i)), rsum n (fun i => snd (f i))).

Section Matrices.
(** number of atoms and of symmetry images (image 0 is the identity), orbitals per atom *)
Variables (N nimg : nat) (no : nat -> nat).
(** Rn[n][i], line 318; el.Rot[n] *)
Variables (Rn : nat -> nat -> v3) (Rot : nat -> m3).
(** DTn[n] and phases[n] for the k-point *)
Variables (DT : nat -> nat -> nat -> R) (phase : nat -> cplx).
(** on-site energies; H tables of the pair of atoms: 14 integrals and their derivatives at a distance; the range *)
Variables (onsite : nat -> nat -> R) (tab dtab : nat -> nat -> R -> nat -> R) (r1 r2 : nat -> nat -> R).

Definition mrij (n i j : nat) : v3 := vsub (Rn n j) (Rn 0%nat i).
Definition mdist (n i j : nat) : R := vnorm (mrij n i j).
Definition rijh (n i j : nat) : v3 := vscale (/ mdist n i j) (mrij n i j).
(** "i==j and n==0: continue" and "not r1<=dij<=r2: continue", lines 331-345 *)
Definition skipped (n i j : nat) : bool :=
  (i =? j)%nat && (n =? 0)%nat || negb (leb (r1 i j) (mdist n i j) && leb (mdist n i j) (r2 i j)).
(** the assertion of lines 339-342 *)
Definition too_close : bool :=
  existsb (fun i => existsb (fun j => existsb (fun n =>
    (i <=? j)%nat && negb ((i =? j)%nat && (n =? 0)%nat) && negb (ltb (/ 10) (mdist n i j)))
    (seq 0 nimg)) (seq 0 N)) (seq 0 N).
(** ht after lines 363-368 *)
Definition ht_image (n i j a b : nat) : R :=
  rsum (no j) (fun k => ht (rijh n i j) (tab i j (mdist n i j)) a k * DT n k b).
(** the block H0[a:b,c:d] of atoms i <= j, lines 378-380 *)
Definition block (i j a b : nat) : cplx :=
  csum nimg (fun n => if skipped n i j then (0, 0) else cscale (ht_image n i j a b) (phase n)).
(** H0 (or S with onsite = 1 + sepsilon): element of orbital a of atom i and orbital b of atom j;
    lines 322-326 and 404-406.  None: AssertionError *)
Definition matrix (i a j b : nat) : cplx :=
  if (i <? j)%nat then block i j a b
  else if (j <? i)%nat then cconj (block j i b a)
  else cadd (if (a =? b)%nat then (onsite i a, 0) else (0, 0)) (block i i a b).
Definition get_matrix : option (nat -> nat -> nat -> nat -> cplx) := if too_close then None else Some matrix.

(** dht after lines 369-370, component k; dh = outer(dhij,rijh), line 358 *)
Definition dht_image (n i j a b k : nat) : R :=
  rsum (no j) (fun c => dht (rijh n i j) (mdist n i j) (tab i j (mdist n i j))
     (fun q k => dtab i j (mdist n i j) q * comp k (rijh n i j)) a c k * DT n c b).
(** dH0 for i < j: derivative with respect to atom i (lines 381-384) and to atom j (lines 388-397);
    the second is the element (j b, i a) *)
Definition dblock (i j a b k : nat) : cplx :=
  csum nimg (fun n => if skipped n i j then (0, 0) else cscale (- dht_image n i j a b k) (phase n)).
Definition dblock2 (i j a b k : nat) : cplx :=
  cconj (csum nimg (fun n => if skipped n i j then (0, 0) else
    cscale (rsum 3 (fun q => dht_image n i j a b q * m3e (Rot n) q k)) (phase n))).
End Matrices.
