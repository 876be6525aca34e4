(** Spherical harmonics, spherical coordinates and the weights of angular momenta
    (hotbit/analysis/wavefunctions.py). *)
From Coq Require Import Reals ZArith List Bool.
From Verif Require Import Vec GeomModel SkModel Cpx.
Import ListNotations.
Open Scope R_scope.

(** ** to_spherical_coordinates; wavefunctions.py 22-37.  None: phival raises or an assertion fails *)
Definition to_spherical_coordinates (v : v3) : option (R * R * R) :=
  let r := vnorm v in
  if ltb r (/ 10 ^ 6) then Some (0, 0, 0)
  else match phival (vx v) (vy v) with
       | None => None
       | Some phi =>
           let theta := acos (vz v / r) in
           if (leb 0 theta && leb theta PI) && (leb 0 phi && leb phi (2 * PI)) then Some (r, theta, phi) else None
       end.

(** ** Ylm; wavefunctions.py 47-192.  exp(1j*m*phi) *)
Definition phase (m : Z) (phi : R) : cplx := (cos (IZR m * phi), sin (IZR m * phi)).
Definition times (a : R) (z : cplx) : cplx := cscale a z.
(** np.sign(-m) *)
Definition nsign (m : Z) : R := if (m <? 0)%Z then 1 else if (0 <? m)%Z then -1 else 0.
(** the function returned; None: the name ret is not defined (UnboundLocalError) *)
Definition Ylm (l : nat) (m : Z) : option (R -> R -> cplx) :=
  let s := sin in let c := cos in let pi := PI in
  match l with
  | 0%nat =>
      if (m =? 0)%Z then Some (fun t p => rc (/ 2 * sqrt (1 / pi))) else None
  | 1%nat =>
      if (m =? -1)%Z then Some (fun t p => times (/ 2 * sqrt (3 / (2 * pi)) * s t) (phase m p))
      else if (m =? 0)%Z then Some (fun t p => rc (/ 2 * sqrt (3 / pi) * c t))
      else if (m =? 1)%Z then Some (fun t p => times (- / 2 * sqrt (3 / (2 * pi)) * s t) (phase m p))
      else None
  | 2%nat =>
      if (m =? -2)%Z then Some (fun t p => times (/ 4 * sqrt (15 / (2 * pi)) * s t ^ 2) (phase m p))
      else if (m =? -1)%Z then Some (fun t p => times (/ 2 * sqrt (15 / (2 * pi)) * s t * c t) (phase m p))
      else if (m =? 0)%Z then Some (fun t p => rc (/ 4 * sqrt (5 / pi) * (3 * c t ^ 2 - 1)))
      else if (m =? 1)%Z then Some (fun t p => times (- / 2 * sqrt (15 / (2 * pi)) * s t * c t) (phase m p))
      else if (m =? 2)%Z then Some (fun t p => times (/ 4 * sqrt (15 / (2 * pi)) * s t ^ 2) (phase m p))
      else None
  | 3%nat =>
      if (m =? -3)%Z then Some (fun t p => times (/ 8 * sqrt (35 / pi) * s t ^ 3) (phase m p))
      else if (m =? -2)%Z then Some (fun t p => times (/ 4 * sqrt (105 / (2 * pi)) * s t ^ 2 * c t) (phase m p))
      else if (m =? -1)%Z then Some (fun t p => times (/ 8 * sqrt (21 / pi) * s t * (5 * c t ^ 2 - 1)) (phase m p))
      else if (m =? 0)%Z then Some (fun t p => rc (/ 4 * sqrt (7 / pi) * (5 * c t ^ 3 - 3 * c t)))
      else if (m =? 1)%Z then Some (fun t p => times (- / 8 * sqrt (21 / pi) * s t * (5 * c t ^ 2 - 1)) (phase m p))
      else if (m =? 2)%Z then Some (fun t p => times (/ 4 * sqrt (105 / (2 * pi)) * s t ^ 2 * c t) (phase m p))
      else if (m =? 3)%Z then Some (fun t p => times (- / 8 * sqrt (35 / pi) * s t ^ 3) (phase m p))
      else None
  | 4%nat =>
      if (Z.abs m =? 4)%Z then Some (fun t p => times (3 / 16 * sqrt (35 / (2 * pi)) * s t ^ 4) (phase m p))
      else if (Z.abs m =? 3)%Z then Some (fun t p => times (nsign m * (3 / 8) * sqrt (35 / pi) * s t ^ 3 * c t) (phase m p))
      else if (Z.abs m =? 2)%Z then Some (fun t p => times (3 / 8 * sqrt (5 / (2 * pi)) * s t ^ 2 * (7 * c t ^ 2 - 1)) (phase m p))
      else if (Z.abs m =? 1)%Z then Some (fun t p => times (nsign m * (3 / 8) * sqrt (5 / pi) * s t * (7 * c t ^ 3 - 3 * c t)) (phase m p))
      else if (m =? 0)%Z then Some (fun t p => rc (3 / 16 * sqrt (1 / pi) * (35 * c t ^ 4 - 30 * c t ^ 2 + 3)))
      else None
  | 5%nat =>
      if (Z.abs m =? 5)%Z then Some (fun t p => times (nsign m * (3 / 32) * sqrt (77 / pi) * s t ^ 5) (phase m p))
      else if (Z.abs m =? 4)%Z then Some (fun t p => times (3 / 16 * sqrt (385 / (2 * pi)) * s t ^ 4 * c t) (phase m p))
      else if (Z.abs m =? 3)%Z then Some (fun t p => times (nsign m * (1 / 32) * sqrt (385 / pi) * s t ^ 3 * (9 * c t ^ 2 - 1)) (phase m p))
      else if (Z.abs m =? 2)%Z then Some (fun t p => times (/ 8 * sqrt (1155 / (2 * pi)) * s t ^ 2 * (3 * c t ^ 3 - c t)) (phase m p))
      else if (Z.abs m =? 1)%Z then Some (fun t p => times (nsign m * (1 / 16) * sqrt (165 / (2 * pi)) * s t * (21 * c t ^ 4 - 14 * c t ^ 2 + 1)) (phase m p))
      else if (m =? 0)%Z then Some (fun t p => rc (1 / 16 * sqrt (11 / pi) * (63 * c t ^ 5 - 70 * c t ^ 3 + 15 * c t)))
      else None
  | 6%nat =>
      if (Z.abs m =? 6)%Z then Some (fun t p => times (1 / 64 * sqrt (3003 / pi) * s t ^ 6) (phase m p))
      else if (Z.abs m =? 5)%Z then Some (fun t p => times (nsign m * (3 / 32) * sqrt (1001 / pi) * s t ^ 5 * c t) (phase m p))
      else if (Z.abs m =? 4)%Z then Some (fun t p => times (3 / 32 * sqrt (91 / (2 * pi)) * s t ^ 4 * (11 * c t ^ 2 - 1)) (phase m p))
      else if (Z.abs m =? 3)%Z then Some (fun t p => times (nsign m * (1 / 32) * sqrt (1365 / pi) * s t ^ 3 * (11 * c t ^ 3 - 3 * c t)) (phase m p))
      else if (Z.abs m =? 2)%Z then Some (fun t p => times (1 / 64 * sqrt (1365 / pi) * s t ^ 2 * (33 * c t ^ 4 - 18 * c t ^ 2 + 1)) (phase m p))
      else if (Z.abs m =? 1)%Z then Some (fun t p => times (nsign m * (1 / 16) * sqrt (273 / (2 * pi)) * s t * (33 * c t ^ 5 - 30 * c t ^ 3 + 5 * c t)) (phase m p))
      else if (m =? 0)%Z then Some (fun t p => rc (1 / 32 * sqrt (13 / pi) * (231 * c t ^ 6 - 315 * c t ^ 4 + 105 * c t ^ 2 - 5)))
      else None
  | _ => None
  end.

(** ** The analysis of angular momenta; wavefunctions.py 394-413, 505-546.
    npts: number of points of the grid; index g: shell of a point, 0 outside the sphere (line 412);
    theta, phi: to_spherical_coordinates of the point (lines 452-453) *)
Section Analysis.
Variables (npts : nat) (index : nat -> nat) (theta phi : nat -> R) (dV : R).
(** keys of the dictionary self.shells in the order of insertion, lines 401-411 *)
Fixpoint keys (n : nat) : list nat :=
  match n with
  | O => []
  | S n => if (index n =? 0)%nat || existsb (Nat.eqb (index n)) (keys n) then keys n else keys n ++ [index n]
  end.
(** self.shells[i] *)
Definition count (i : nat) : R := rsum npts (fun g => if (index g =? i)%nat then 1 else 0).
(** get_ylm of a known l and m *)
Definition ylm_grid (l : nat) (m : Z) (g : nat) : cplx := match Ylm l m with Some f => f (theta g) (phi g) | None => c0 end.
Variable state : nat -> R.
(** line 541 *)
Definition phi_nlm (l : nat) (m : Z) (i : nat) : cplx :=
  csum npts (fun g => cscale ((if (index g =? i)%nat then 1 else 0) * state g) (cconj (ylm_grid l m g))).
Definition total_of (l : list R) : R := fold_right Rplus 0 l.
(** analyse_state, lines 528-543; conj(phi)*phi is real *)
Definition analyse_state (l : nat) : R :=
  rsum (2 * l + 1) (fun j => let m := (Z.of_nat j - Z.of_nat l)%Z in
    total_of (map (fun i => (fst (phi_nlm l m i) ^ 2 + snd (phi_nlm l m i) ^ 2) * 4 * PI * dV / count i) (keys npts))).
(** self.weights[n], lines 514-515 *)
Definition weight : R := rsum npts (fun g => state g ^ 2 * (if (index g =? 0)%nat then 0 else 1)) * dV.
(** self.c_nl[n,:] in the end, lines 516-524 *)
Definition characters (ls : list nat) : list R :=
  let c := map (fun l => weight * analyse_state l) ls in
  if ltb (/ 100) (total_of c) then map (fun x => x / total_of c) c else c.
End Analysis.
