(** What the theorems on fitting say *)
From Coquelicot Require Import Coquelicot.
From Coq Require Import Reals ZArith String List Bool Arith Sorting.Permutation Sorting.Sorted.
From Verif Require Import Vec GeomModel PairModel FitModel.
Import ListNotations.
Open Scope R_scope.

(** ** Data *)
Definition ascending (l : list datum) : Prop := StronglySorted Rle (map dx l).
Definition total_weight (l : list datum) : R := lsum (map dw l).
Definition weighted_sum (l : list datum) : R := lsum (map (fun d => dy d * dw d) l).
(** the points that share the decimals z *)
Definition sharing (z : Z) (l : list datum) : list datum := filter (fun d => (pseudo d =? z)%Z) l.
(** any implementation of argsort *)
Definition sorts (sort : list datum -> list datum) : Prop := forall l, Permutation l (sort l) /\ ascending (sort l).
(** the numbers of the fitting points *)
Definition data (f : fitting) : list datum := map (fun p => (p_r p, p_dv p, p_w p)) (deriv f).
(** any implementation of exact quadrature, and of interpolation *)
Definition exact_quadrature (quad : (R -> R) -> R -> R -> R) (dv : R -> R) : Prop := forall a b, is_RInt dv a b (quad dv a b).
Definition interpolates (interp : list (R * R) -> R -> R) : Prop :=
  forall l x y, NoDup (map fst l) -> In (x, y) l -> interp l x = y.
(** the table that is interpolated *)
Definition fit_table (quad : (R -> R) -> R -> R -> R) (dv : R -> R) (rc : R) : list (R * R) :=
  map (fun i => (fit_grid rc i, fit_value quad dv rc i)) (rev (seq 0 100)).
(** between consecutive grid points a spline of order 3 is a cubic polynomial *)
Definition cubic_between (v : R -> R) (a b : R) : Prop :=
  exists c0 c1 c2 c3, forall r, a < r < b -> v r = c0 + c1 * r + c2 * r ^ 2 + c3 * r ^ 3.

(** ** Histories: what a user may call *)
Inductive op : Type :=
| OpPoint (w r dv : R) (comment label : option string) (color : string)
| OpScalable (w : R) (energy : R -> R) (d : list R) (comment label color : option string)
| OpDimer (w r : R) (energy : R -> R) (comment : option string) (label : string) (color : option string)
| OpCurve (w : R) (frames : list frame) (comment label color : option string)
| OpEquilibrium (w : R) (frames : list frame) (comment label color : option string)
| OpCluster (w : R) (d : list R) (p : R * R) (comment label : string) (color : option string)
| OpFit.
Section Run.
Variables (wtext : R -> string) (slope : list (R * R) -> Z -> R -> R) (sort : list datum -> list datum)
  (splfit : list datum -> R -> Z -> R -> R) (quad : (R -> R) -> R -> R -> R) (interp : list (R * R) -> R -> R).
Definition step (f : fitting) (o : op) : fitting * fres unit :=
  match o with
  | OpPoint w r dv c l col => (append_point f w r dv c l col, FOk tt)
  | OpScalable w e d c l col => append_scalable wtext f w e d c l col
  | OpDimer w r e c l col => append_dimer wtext f w r e c l col
  | OpCurve w fr c l col => append_curve wtext slope f w fr c l col
  | OpEquilibrium w fr c l col => append_equilibrium wtext slope f w fr c l col
  | OpCluster w d p c l col => append_cluster wtext f w d p c l col
  | OpFit => fit sort splfit quad interp f
  end.
Fixpoint run (f : fitting) (l : list op) : fitting * list (fres unit) :=
  match l with
  | [] => (f, [])
  | o :: l => let (f, r) := step f o in let (f, rs) := run f l in (f, r :: rs)
  end.
End Run.
(** the calls that leave the colour to the program *)
Definition auto (o : op) : bool :=
  match o with
  | OpScalable _ _ _ _ _ None | OpDimer _ _ _ _ _ None | OpCurve _ _ _ _ None | OpEquilibrium _ _ _ _ None | OpCluster _ _ _ _ _ None => true
  | _ => false
  end.
Definition succeeded (r : fres unit) : bool := match r with FOk _ => true | FErr _ => false end.
(** automatic colours given out *)
Definition auto_done (l : list op) (rs : list (fres unit)) : nat :=
  length (filter (fun x => auto (fst x) && succeeded (snd x)) (combine l rs)).
(** '|'.join *)
Fixpoint join (l : list string) : string :=
  match l with [] => "" | a :: t => match t with [] => a | _ => (a ++ "|" ++ join t)%string end end.
(** the comment of a call that adds points: its own, or else its label; nothing for None, '' and '_nolegend_' *)
Definition shown (c : option string) : list string :=
  match c with None => [] | Some s => if (s =? "")%string || (s =? "_nolegend_")%string then [] else [s] end.

Definition op_comment (wtext : R -> string) (o : op) : option string :=
  let mark w c := match c with None => None | Some s => Some (s ++ wtext w)%string end in
  match o with
  | OpPoint _ _ _ c l _ => or_else c l
  | OpScalable w _ _ c l _ | OpCurve w _ c l _ | OpEquilibrium w _ c l _ => mark w (or_else c l)
  | OpDimer w _ _ c l _ => mark w (or_else c (Some l))
  | OpCluster w _ _ c _ _ => mark w (Some c)
  | OpFit => None
  end.
(** the comments of the calls that succeeded *)
Definition comments_of (wtext : R -> string) (l : list op) (rs : list (fres unit)) : list string :=
  flat_map (fun x => if succeeded (snd x) then shown (op_comment wtext (fst x)) else []) (combine l rs).
(** the derivative of a spline of order 3 through points of a cubic polynomial is that of the polynomial *)
Definition reproduces_cubics (slope : list (R * R) -> Z -> R -> R) : Prop :=
  forall l c0 c1 c2 c3, (4 <= length l)%nat -> (forall x y, In (x, y) l -> y = c0 + c1 * x + c2 * x ^ 2 + c3 * x ^ 3) ->
    forall x, In x (map fst l) -> slope l 3%Z x = c1 + 2 * c2 * x + 3 * c3 * x ^ 2.

(** ** Bonds *)
(** the repulsive energy of a potential between elements ela and elb alone, in eV with distances in Angstrom *)
Definition pair_potential (sym : nat -> string) (ela elb : string) (V : R -> R) (Bohr : R) (i j : nat) (d : R) : R :=
  if ((sym i =? ela)%string && (sym j =? elb)%string) || ((sym j =? ela)%string && (sym i =? elb)%string) then V (d * Bohr) else 0.
(** the middle of two pairs of parameters *)
Definition mid (p q : R * R) : R * R := ((fst p + fst q) / 2, (snd p + snd q) / 2).
(** the rows of the table in a parameter file *)
Definition rows (l : list item) : list (R * R) := flat_map (fun x => match x with Row r v => [(r, v)] | _ => [] end) l.
