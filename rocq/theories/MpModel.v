(** Multipole expansions.  hotbit/c/spherical.c, hotbit/c/multipole.c, hotbit/coulomb/multipole.py and
    the telescoping loop of hotbit/coulomb/multipole_expansion.py.
    Arrays with an index l, or lm2index(l,m), are modelled as functions of l, or of l and m; that lm2index is one-to-one
    and in bounds is proved in CoulProps.  Entries beyond l_max are never stored, so a claim on results is a claim on l <= l_max. *)
From Coq Require Import Reals ZArith List Bool Arith.
From Coquelicot Require Import Coquelicot.
From Verif Require Import Vec GeomModel ScaModel.
Import ListNotations.
Open Scope R_scope.

(** ** Sums and signs *)
Fixpoint csum (n : nat) (f : nat -> C) : C := match n with O => RtoC 0 | S n => Cplus (csum n f) (f n) end.
(** for (mu = lo; mu <= hi; ++mu) *)
Definition zsum (lo hi : Z) (f : Z -> C) : C := csum (Z.to_nat (hi - lo + 1)) (fun i => f (lo + Z.of_nat i)%Z).
(** pow(-1, n) *)
Definition sgn (n : nat) : R := (-1) ^ n.
(** cexp(I*x) *)
Definition cis (x : R) : C := (cos x, sin x).

(** ** Solid harmonics *)
(** a pair of arrays: l0 for m = 0, lm for 1 <= m <= l *)
Record moments : Type := Moments { ml0 : nat -> R; mlm : nat -> nat -> C }.
(** cartesian_to_spherical, spherical.c 31-40 *)
Definition to_spherical (r : v3) : R * R * R := (vnorm r, vz r / vnorm r, atan2 (vy r) (vx r)).
Section Harmonics.
Variables costh sinth : R.
(** solid_harmonic_R, the rows l = 0 and l = 1 of Pl0 and Plm, spherical.c 68-70 *)
Definition rrow0 (m : nat) : R := match m with O => 1 | _ => 0 end.
Definition rrow1 (m : nat) : R := match m with O => costh | S O => - sinth / 2 | _ => 0 end.
(** row l >= 2 from rows l-2 and l-1, lines 72-87 *)
Definition rrow (l : nat) (p2 p1 : nat -> R) (m : nat) : R :=
  if (m =? l)%nat then - (sinth / (2 * INR l)) * p1 (l - 1)%nat
  else if (m =? 0)%nat then ((2 * INR l - 1) * costh * p1 0%nat - p2 0%nat) / (INR l * INR l)
  else if (m =? l - 1)%nat then costh * p1 (l - 1)%nat
  else ((2 * INR l - 1) * costh * p1 m - p2 m) / ((INR l + INR m) * (INR l - INR m)).
(** rows n and n+1 *)
Fixpoint rrows (n : nat) : (nat -> R) * (nat -> R) :=
  match n with
  | O => (rrow0, rrow1)
  | S n => let (p2, p1) := rrows n in (p1, rrow (S (S n)) p2 p1)
  end.
Definition legendre_R (l : nat) : nat -> R := fst (rrows l).
(** solid_harmonic_I, lines 160-181: for m > 0 divided by sinth *)
Definition irow0 (m : nat) : R := match m with O => 1 | _ => 0 end.
Definition irow1 (m : nat) : R := match m with O => costh | S O => - 1 | _ => 0 end.
Definition irow (l : nat) (p2 p1 : nat -> R) (m : nat) : R :=
  let h := 2 * INR l - 1 in
  if (m =? l)%nat then - (h * sinth) * p1 (l - 1)%nat
  else if (m =? 0)%nat then h * costh * p1 0%nat - (INR l - 1) * (INR l - 1) * p2 0%nat
  else if (m =? l - 1)%nat then h * costh * p1 (l - 1)%nat
  else h * costh * p1 m - (INR l - INR m - 1) * (INR l + INR m - 1) * p2 m.
Fixpoint irows (n : nat) : (nat -> R) * (nat -> R) :=
  match n with
  | O => (irow0, irow1)
  | S n => let (p2, p1) := irows n in (p1, irow (S (S n)) p2 p1)
  end.
Definition legendre_I (l : nat) : nat -> R := fst (irows l).
End Harmonics.
(** solid_harmonic_R 50-118 *)
Definition solid_R (x costh phi : R) : moments :=
  let sinth := sqrt (1 - costh * costh) in
  Moments (fun l => x ^ l * legendre_R costh sinth l 0)
          (fun l m => Cmult (RtoC (x ^ l * legendre_R costh sinth l m)) (cis (INR m * phi))).
(** solid_harmonic_I 129-209 *)
Definition solid_I (x costh phi : R) : moments :=
  let sinth := sqrt (1 - costh * costh) in
  Moments (fun l => legendre_I costh sinth l 0 * (1 / x) ^ (l + 1))
          (fun l m => Cmult (RtoC (sinth * legendre_I costh sinth l m * (1 / x) ^ (l + 1))) (cis (INR m * phi))).
(** the harmonics of a vector *)
Definition harm_R (r : v3) : moments := let '(x, c, p) := to_spherical r in solid_R x c p.
Definition harm_I (r : v3) : moments := let '(x, c, p) := to_spherical r in solid_I x c p.
Definition is_zero (r : v3) : bool :=
  (if Req_EM_T (vx r) 0 then true else false) && (if Req_EM_T (vy r) 0 then true else false) && (if Req_EM_T (vz r) 0 then true else false).
(** py_solid_harmonic_R without output arrays, 245-315 *)
Definition py_solid_R (r : v3) : moments :=
  if is_zero r then Moments (fun l => match l with O => 1 | _ => 0 end) (fun _ _ => RtoC 0) else harm_R r.

(** ** Moments *)
(** the if-chains of multipole.c 91-113, 193-213 and 316-336: the element with any m, from those with m >= 0 *)
Definition at_m (M : moments) (l : nat) (m : Z) : C :=
  if (m <? 0)%Z then Cmult (RtoC (sgn (Z.to_nat (- m)))) (Cconj (mlm M l (Z.to_nat (- m))))
  else if (m =? 0)%Z then RtoC (ml0 M l) else mlm M l (Z.to_nat m).
Definition zero_moments : moments := Moments (fun _ => 0) (fun _ _ => RtoC 0).
(** += *)
Definition add_moments (a b : moments) : moments := Moments (fun l => ml0 a l + ml0 b l) (fun l m => Cplus (mlm a l m) (mlm b l m)).
(** get_moments, multipole.py 42-62 *)
Definition get_moments (l : list (v3 * R)) (r0 : v3) : moments :=
  let S := fold_left (fun M p => let H := py_solid_R (vsub (fst p) r0) in
     add_moments M (Moments (fun l => snd p * ml0 H l) (fun l m => Cmult (RtoC (snd p)) (mlm H l m)))) l zero_moments in
  Moments (ml0 S) (fun l m => Cconj (mlm S l m)).
(** multipole_to_multipole, multipole.c 34-129: adds to M *)
Definition m2m (dr : v3) (child M : moments) : moments :=
  if is_zero dr then add_moments M child else
  let H := harm_R dr in
  Moments
    (fun l => ml0 M l + rsum (S l) (fun la => ml0 child (l - la)%nat * ml0 H la +
       rsum (Nat.min la (l - la)) (fun i => let mu := S i in 2 * sgn mu * Re (Cmult (mlm child (l - la)%nat mu) (mlm H la mu)))))
    (fun l m => Cplus (mlm M l m) (csum (S l) (fun la =>
       let z := Z.of_nat in
       zsum (Z.max (- z la) (z la - z l + z m)) (Z.min (z la) (- z la + z l + z m)) (fun mu =>
         Cmult (at_m child (l - la) (z m - mu)) (Cconj (at_m H la mu)))))).
(** multipole_to_local, multipole.c 137-234: adds to L *)
Definition m2l (dr : v3) (lmax : nat) (M L : moments) : moments :=
  let H := harm_I dr in
  Moments
    (fun l => ml0 L l + rsum (S lmax) (fun la => ml0 M la * ml0 H (l + la)%nat +
       rsum la (fun i => let mu := S i in 2 * Re (Cmult (mlm M la mu) (mlm H (l + la)%nat mu)))))
    (fun l m => Cplus (mlm L l m) (csum (S lmax) (fun la =>
       let z := Z.of_nat in
       zsum (- z la) (z la) (fun mu => Cmult (at_m M la mu) (at_m H (l + la) (z m + mu)))))).
(** local_to_local, multipole.c 240-360: the harmonics of -dr; adds to L'.  The sums run over la <= l_max_in - l *)
Definition l2l (dr : v3) (lin lout : nat) (L L' : moments) : moments :=
  if is_zero dr then
    let m := Nat.min lin lout in
    Moments (fun l => if (l <=? m)%nat then ml0 L' l + ml0 L l else ml0 L' l)
            (fun l k => if (l <=? m)%nat then Cplus (mlm L' l k) (mlm L l k) else mlm L' l k)
  else
  let H := let '(x, c, p) := to_spherical dr in solid_R x (- c) (PI + p) in
  Moments
    (fun l => ml0 L' l + rsum (S lin - l) (fun la => ml0 L (l + la)%nat * ml0 H la +
       rsum la (fun i => let mu := S i in 2 * Re (Cmult (mlm L (l + la)%nat mu) (Cconj (mlm H la mu))))))
    (fun l m => Cplus (mlm L' l m) (csum (S lin - l) (fun la =>
       let z := Z.of_nat in
       zsum (- z la) (z la) (fun mu => Cmult (at_m L (l + la) (z m + mu)) (Cconj (at_m H la mu)))))).

(** ** Rotations: transform_multipole, multipole.c 443-559 *)
(** the macros a, b, c *)
Definition ca (l m : Z) : R := IZR (l - m + 1) * IZR (l - m) / 2.
Definition cb (l m : Z) : R := IZR (l + m) * IZR (l - m).
Definition cc (l m : Z) : R := IZR (l + m + 1) * IZR (l + m) / 2.
(** D1, lines 501-511; zero outside, lines 493-495 *)
Definition D1 (T : m3) (i j : Z) : C :=
  let xx := vx (row1 T) in let xy := vy (row1 T) in let xz := vz (row1 T) in
  let yx := vx (row2 T) in let yy := vy (row2 T) in let yz := vz (row2 T) in
  let zx := vx (row3 T) in let zy := vy (row3 T) in let zz := vz (row3 T) in
  match i, j with
  | (-1)%Z, (-1)%Z => Cdiv (Cconj (yy + xx, xy - yx)) (RtoC 2)
  | (-1)%Z, 0%Z => Cdiv (Cconj (xz, - yz)) (RtoC 2)
  | (-1)%Z, 1%Z => Cdiv (Cconj (yy - xx, xy + yx)) (RtoC 2)
  | 0%Z, (-1)%Z => Cconj (zx, zy)
  | 0%Z, 0%Z => Cconj (zz, 0)
  | 0%Z, 1%Z => Cconj (- zx, zy)
  | 1%Z, (-1)%Z => Cdiv (Cconj (- xx + yy, - (xy + yx))) (RtoC 2)
  | 1%Z, 0%Z => Cdiv (Cconj (- xz, - yz)) (RtoC 2)
  | 1%Z, 1%Z => Cdiv (Cconj (xx + yy, - (xy - yx))) (RtoC 2)
  | _, _ => RtoC 0
  end.
(** one step of the recurrence, lines 520-551; Dl is the matrix of l-1 *)
Definition next_D (T : m3) (l : Z) (Dl : Z -> Z -> C) (m n : Z) : C :=
  let go (i m' : Z) (d : R) := Cdiv (Cplus (Cplus
      (Cmult (RtoC (ca l (n + 1))) (Cmult (D1 T i (-1)) (Dl m' (n + 1)%Z)))
      (Cmult (RtoC (cb l n)) (Cmult (D1 T i 0) (Dl m' n))))
      (Cmult (RtoC (cc l (n - 1))) (Cmult (D1 T i 1) (Dl m' (n - 1)%Z)))) (RtoC d) in
  if ((- l <=? n) && (n <=? l))%Z then
    if (m =? - l)%Z then go (-1)%Z (- l + 1)%Z (ca l (- l + 1))
    else if (m =? l)%Z then go 1%Z (l - 1)%Z (cc l (l - 1))
    else if ((- l <? m) && (m <? l))%Z then go 0%Z m (cb l m)
    else RtoC 0
  else RtoC 0.
(** the matrix of l = k + 1 *)
Fixpoint Dmat (T : m3) (k : nat) : Z -> Z -> C :=
  match k with O => D1 T | S k => next_D T (Z.of_nat (S (S k))) (Dmat T k) end.
(** matrix_dot_multipole, multipole.c 374-428 *)
Definition dot_l0 (l : nat) (D : Z -> Z -> C) (M : moments) : R :=
  Re (D 0%Z 0%Z) * ml0 M l + rsum l (fun i => let m := S i in
    Re (Cplus (Cmult (D 0%Z (Z.of_nat m)) (mlm M l m)) (Cmult (Cmult (D 0%Z (- Z.of_nat m)%Z) (RtoC (sgn m))) (Cconj (mlm M l m))))).
Definition dot_lm (l : nat) (D : Z -> Z -> C) (M : moments) (n : nat) : C :=
  let n := Z.of_nat n in
  Cplus (Cmult (D n 0%Z) (RtoC (ml0 M l))) (csum l (fun i => let m := S i in
    Cplus (Cmult (D n (Z.of_nat m)) (mlm M l m)) (Cmult (Cmult (D n (- Z.of_nat m)%Z) (RtoC (sgn m))) (Cconj (mlm M l m))))).
Definition transform_multipole (T : m3) (M : moments) : moments :=
  Moments (fun l => match l with O => ml0 M 0 | S k => dot_l0 l (Dmat T k) M end)
          (fun l n => match l with O => RtoC 0 | S k => dot_lm l (Dmat T k) M n end).

(** ** Telescoping: multipole_expansion.py 160-216 *)
(** one level: ops are the multiples x*level of the loops; the new origin is the mean of the images of the old one,
    the moments of each image are rotated, and shifted by the distance to the old origin self.r0[k] *)
Definition next_origin (transform : Z * Z * Z -> v3 -> v3) (ops : list (Z * Z * Z)) (r0 : v3) : v3 :=
  vscale (/ INR (length ops)) (fold_left (fun s x => vadd s (transform x r0)) ops vzero).
Definition telescope (transform : Z * Z * Z -> v3 -> v3) (rotation : Z * Z * Z -> m3) (ops : list (Z * Z * Z)) (r0 : v3) (M : moments) : moments :=
  fold_left (fun T x => m2m (vsub (transform x r0) r0) (transform_multipole (rotation x) M) T) ops zero_moments.
(** all levels, lines 159-216: pairs (self.r0[k], self.M[k]); the new pair uses both of the last one *)
Definition levels (transform : Z * Z * Z -> v3 -> v3) (rotation : Z * Z * Z -> m3) (ls : list (list (Z * Z * Z))) (s : v3 * moments) : v3 * moments :=
  fold_left (fun s ops => (next_origin transform ops (fst s), telescope transform rotation ops (fst s) (snd s))) ls s.
(** range(-h, h+1) *)
Definition zrange (h : nat) : list Z := map (fun i => (Z.of_nat i - Z.of_nat h)%Z) (seq 0 (2 * h + 1)).
(** the loops over x1, x2, x3 with x*level; n = 2h+1 odd in each direction, level = n^k (line 216) *)
Definition level_ops (h : nat * nat * nat) (k : nat) : list (Z * Z * Z) :=
  let lv h := (Z.of_nat (2 * h + 1) ^ Z.of_nat k)%Z in
  flat_map (fun x1 => flat_map (fun x2 => map (fun x3 =>
    ((x1 * lv (fst (fst h)))%Z, (x2 * lv (snd (fst h)))%Z, (x3 * lv (snd h))%Z)) (zrange (snd h))) (zrange (snd (fst h)))) (zrange (fst (fst h))).
(** the dipole used by the correction for three-dimensional sums, line 354, before scaling *)
Definition dipole (M : moments) : v3 := V3 (- 2 * Re (mlm M 1 1)) (2 * Im (mlm M 1 1)) (ml0 M 1).
(** potential and field on an atom, lines 273-280 *)
Definition local_phi (L : moments) (lmax : nat) (dr : v3) : R := ml0 (l2l dr lmax 1 L zero_moments) 0.
Definition local_field (L : moments) (lmax : nat) (dr : v3) : v3 :=
  let K := l2l dr lmax 1 L zero_moments in V3 (- Re (mlm K 1 1)) (- Im (mlm K 1 1)) (ml0 K 1).
(** ** The potential: multipole_expansion.py 128-357 for odd n, all k equal *)
(** range(-h, h+1) in three directions, lines 156 and 294-296 *)
Definition box (h : nat * nat * nat) : list (Z * Z * Z) :=
  flat_map (fun x1 => flat_map (fun x2 => map (fun x3 => (x1, x2, x3)) (zrange (snd h))) (zrange (snd (fst h)))) (zrange (fst (fst h))).
(** self.m2 = n**2//2, lines 80-82 *)
Definition wide (h : nat * nat * nat) : nat * nat * nat := let w h := (2 * h * h + 2 * h)%nat in (w (fst (fst h)), w (snd (fst h)), w (snd h)).
(** np.any(x < self.n1) or np.any(x > self.n2), line 256 *)
Definition outside (h : nat * nat * nat) (x : Z * Z * Z) : bool :=
  let out h x := ((x <? - Z.of_nat h) || (Z.of_nat h <? x))%Z in out (fst (fst h)) (o1 x) || out (snd (fst h)) (o2 x) || out (snd h) (o3 x).
(** x*level for the x that enter the local expansion with multipoles M[i], lines 248-264 *)
Definition far_ops (h : nat * nat * nat) (i : nat) : list (Z * Z * Z) :=
  let lv h := (Z.of_nat (2 * h + 1) ^ Z.of_nat i)%Z in
  map (fun x => ((o1 x * lv (fst (fst h)))%Z, (o2 x * lv (snd (fst h)))%Z, (o3 x * lv (snd h))%Z)) (filter (outside h) (box (wide h))).
(** one level of the local expansion, lines 257-262 *)
Definition add_far (transform : Z * Z * Z -> v3 -> v3) (rotation : Z * Z * Z -> m3) (lmax : nat) (ops : list (Z * Z * Z)) (s : v3 * moments) (L : moments) : moments :=
  fold_left (fun L x => m2l (vsub (fst s) (transform x (fst s))) lmax (transform_multipole (rotation x) (snd s)) L) ops L.
(** lines 159-267: M[0..K-2] and the local expansion, farthest level first *)
Definition local_expansion (transform : Z * Z * Z -> v3 -> v3) (rotation : Z * Z * Z -> m3) (lmax : nat) (h : nat * nat * nat) (K : nat) (s : v3 * moments) : moments :=
  fold_left (fun L i => add_far transform rotation lmax (far_ops h i) (levels transform rotation (map (level_ops h) (seq 0 i)) s) L)
    (rev (seq 0 (K - 1))) zero_moments.
Definition is_000 (x : Z * Z * Z) : bool := ((o1 x =? 0) && (o2 x =? 0) && (o3 x =? 0))%Z.
(** sum of q/abs_dr over all atoms of the image x, lines 300-313 *)
Definition near_cell (transform : Z * Z * Z -> v3 -> v3) (rotation : Z * Z * Z -> m3) (qs : list (v3 * R)) (r0 r : v3) (x : Z * Z * Z) : R :=
  fold_right (fun p s => snd p / vnorm (vsub r (vadd (transform x r0) (mv (rotation x) (vsub (fst p) r0)))) + s) 0 qs.
(** the atoms of the cell itself except i, lines 318-331 *)
Definition self_cell (qs : list (v3 * R)) (i : nat) (r : v3) : R :=
  rsum (length qs) (fun j => if (i =? j)%nat then 0 else let p := nth j qs (vzero, 0) in snd p / vnorm (vsub r (fst p))).
(** phi_a[i]; vol is the volume of a cell periodic in three directions, lines 334-343 *)
Definition mp_phi (transform : Z * Z * Z -> v3 -> v3) (rotation : Z * Z * Z -> m3) (lmax : nat) (h : nat * nat * nat) (K : nat) (vol : option R) (qs : list (v3 * R)) (r0 : v3) (i : nat) : R :=
  let r := fst (nth i qs (vzero, 0)) in
  let M := get_moments qs r0 in
  let L := local_expansion transform rotation lmax h K (r0, M) in
  local_phi L lmax (vsub r r0)
  + fold_right (fun x s => near_cell transform rotation qs r0 r x + s) 0 (filter (fun x => negb (is_000 x)) (box h))
  + self_cell qs i r
  - match vol with None => 0 | Some v => vdot (vsub r r0) (vscale (4 * PI / (3 * v)) (dipole M)) end.
