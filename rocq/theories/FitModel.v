(** Fitting of repulsive potentials.  hotbit/parametrization/fitting.py and hotbit/repulsion.py 51-82 *)
From Coq Require Import Reals ZArith String List Bool Arith.
From Verif Require Import Vec GeomModel PairModel.
Import ListNotations.
Open Scope R_scope.

Inductive ferr : Type :=
| TypeError | ValueError | IndexError | KeyError | AssertionError | RuntimeError | EOFError
| NoBonds. (* division by the float 0.0: ZeroDivisionError, or an infinite numpy number *)
Inductive fres (A : Type) : Type := FOk (a : A) | FErr (e : ferr).
Arguments FOk {A} a.
Arguments FErr {A} e.

(** ** State *)
(** one entry of self.deriv; append_point 363 *)
Record point : Type := Point { p_r : R; p_dv : R; p_w : R; p_color : string; p_label : option string }.
(** one entry of self.structures: a dictionary, of which only 'filename' is looked at; None: deleted *)
Record structure : Type := Structure { st_file : option string; st_charge : string }.
(** the attributes of RepulsiveFitting that change, and r_cut, tol, scale; __init__ 68-90.  colors: None is the integer 0.
    pot: the function potential of fit(), values and derivatives *)
Record fitting : Type := Fitting {
  r_cut : R; smooth : option R; order : Z; tol : R; scale : R;
  deriv : list point; comments : string; structures : list structure;
  colors : option (list string); colori : nat; r_dimer : option R; pot : option ((R -> R) * (R -> R)) }.
(** __init__ 68-90 *)
Definition all_colors : list string :=
  ["red"; "green"; "blue"; "cyan"; "yellow"; "orange"; "magenta"; "pink"; "black"]%string.
Definition new_fitting (rc : R) (s : option R) (k : Z) (t : R) : fitting :=
  Fitting rc s k t (1025 / 1000) [] "" [] (Some all_colors) 0 None None.
Definition with_colors (f : fitting) c i := 
  Fitting (r_cut f) (smooth f) (order f) (tol f) (scale f) (deriv f) (comments f) (structures f) c i (r_dimer f) (pot f).
Definition with_points (f : fitting) d c :=
  Fitting (r_cut f) (smooth f) (order f) (tol f) (scale f) d c (structures f) (colors f) (colori f) (r_dimer f) (pot f).
Definition with_fit (f : fitting) s k p :=
  Fitting (r_cut f) s k (tol f) (scale f) (deriv f) (comments f) (structures f) (colors f) (colori f) (r_dimer f) p.
Definition with_structures (f : fitting) d st c :=
  Fitting (r_cut f) (smooth f) (order f) (tol f) (scale f) d c st (colors f) (colori f) (r_dimer f) (pot f).
Definition with_dimer (f : fitting) r :=
  Fitting (r_cut f) (smooth f) (order f) (tol f) (scale f) (deriv f) (comments f) (structures f) (colors f) (colori f) (Some r) (pot f).

(** add_comment 182-199 *)
Definition add_comment (f : fitting) (s : option string) : fitting :=
  match s with
  | None | Some EmptyString => f
  | Some t => with_points f (deriv f)
      (comments f ++ (if (String.length (comments f) =? 0)%nat then "" else "|") ++ t)%string
  end.
(** _get_color 336-344: line 341 overwrites the list of colours with the integer 0 *)
Definition get_color (f : fitting) (c : option string) : fitting * fres string :=
  match c with
  | Some c => (f, FOk c)
  | None =>
    let index := colori f in
    match colors f with
    | None => (with_colors f None (S index), FErr TypeError)
    | Some l =>
      if (S index =? length l)%nat then (with_colors f None (S index), FErr TypeError)
      else (with_colors f (Some l) (S index),
            match nth_error l index with Some c => FOk c | None => FErr IndexError end)
    end
  end.
(** append_point 349-366 *)
Definition append_point (f : fitting) (w r dv : R) (comment label : option string) (color : string) : fitting :=
  let comment := match comment with None => label | Some _ => comment end in
  let label := match label with None => comment | Some _ => label end in
  let f := with_points f (deriv f ++ [Point r dv w color label]) (comments f) in
  match comment with
  | Some c => if (c =? "_nolegend_")%string then f else add_comment f comment
  | None => add_comment f comment
  end.

(** ** Bonds *)
(** Repulsion.get_repulsion_distances, repulsion.py 51-82: Rn in Bohr, the distances in Angstrom *)
Definition bond_list (N nimg : nat) (Rn : nat -> nat -> v3) (sym : nat -> string) (ela elb : string) (rc Bohr : R) : list R :=
  flat_map (fun i => flat_map (fun j' => let j := (i + j')%nat in
    if ((sym i =? ela)%string && (sym j =? elb)%string) || ((sym j =? ela)%string && (sym i =? elb)%string) then
      flat_map (fun n => if self_pair n i j then [] else
        if leb (dist Rn n i j) (rc / Bohr) then [dist Rn n i j * Bohr] else []) (seq 0 nimg)
    else []) (seq 0 (N - i))) (seq 0 N).
Definition lsum (l : list R) : R := fold_right Rplus 0 l.
Definition mean (l : list R) : R := lsum l / INR (length l).
Fixpoint lmin (a : R) (l : list R) : R := match l with [] => a | b :: l => lmin (Rmin a b) l end.
Fixpoint lmax (a : R) (l : list R) : R := match l with [] => a | b :: l => lmax (Rmax a b) l end.
(** _get_repulsion_distances 681-699.  For no bonds N is an empty array: None *)
Definition bonds (tl : R) (d : list R) : fres (R * option nat) :=
  match d with
  | [] => FOk (0, None)
  | a :: l => if ltb tl (lmax a l - lmin a l) then FErr AssertionError else FOk (mean d, Some (length d))
  end.

(** ** Scalable systems *)
Section Append.
(** ';w=%.1f' % weight *)
Variable wtext : R -> string.
Definition or_else (a b : option string) : option string := match a with None => b | Some _ => a end.
(** append_scalable_system 369-407.  d: the distances, energy x: the energy of the system with cell and atoms scaled by x *)
Definition append_scalable (f : fitting) (w : R) (energy : R -> R) (d : list R) (comment label color : option string) : fitting * fres unit :=
  let comment := or_else comment label in
  let label := or_else label comment in
  let e1 := energy 1 in
  match bonds (tol f) d with
  | FErr e => (f, FErr e)
  | FOk (_, None) => (f, FErr NoBonds)
  | FOk (r, Some n) =>
    let e2 := energy (scale f) in
    let de := (e2 - e1) / (scale f * r - r) in
    match get_color f color with
    | (f, FErr e) => (f, FErr e)
    | (f, FOk color) =>
      match comment with
      | None => (f, FErr TypeError)
      | Some c => (append_point f w r (- de / INR n) (Some (c ++ wtext w)%string) label color, FOk tt)
      end
    end
  end.
(** append_dimer 410-429.  energy x: the energy at bond length x * R; the label is 'dimer' unless given *)
Definition append_dimer (f : fitting) (w r : R) (energy : R -> R) (comment : option string) (label : string) (color : option string) : fitting * fres unit :=
  let comment := or_else comment (Some label) in
  let f := with_dimer f r in
  match get_color f color with
  | (f, FErr e) => (f, FErr e)
  | (f, FOk color) => append_scalable f w energy (if leb r (r_cut f) then [r] else []) comment (Some label) (Some color)
  end.

(** ** Energy curves *)
(** a frame: the energy given with it, the energy calculated, the distances *)
Record frame : Type := Frame { fr_ref : R; fr_calc : R; fr_dist : list R }.
(** the loop of lines 559-567 *)
Fixpoint collect (rc tl : R) (l : list frame) : fres (list (R * R * R * nat)) :=
  match l with
  | [] => FOk []
  | x :: l =>
    match bonds tl (fr_dist x) with
    | FErr e => FErr e
    | FOk (r, n) =>
      match collect rc tl l with
      | FErr e => FErr e
      | FOk t => FOk (match n with Some n => if ltb r rc then (r, fr_ref x, fr_calc x, n) :: t else t | None => t end)
      end
    end
  end.
(** argsort *)
Fixpoint insert {A} (key : A -> R) (x : A) (l : list A) : list A :=
  match l with [] => [x] | y :: t => if leb (key x) (key y) then x :: l else y :: insert key x t end.
Definition sort_by {A} (key : A -> R) (l : list A) : list A := fold_right (insert key) [] l.
Fixpoint increasing (l : list R) : bool :=
  match l with [] => true | a :: t => match t with [] => true | b :: _ => ltb a b && increasing t end end.
(** scipy's splrep: the order has to be between 1 and 5, and less than the number of points, else TypeError; the points have
    to increase, else ValueError.  spline: the result, as a function, or its derivative *)
Definition splrep_check (xs : list R) (k : Z) : option ferr :=
  if negb ((1 <=? k) && (k <=? 5))%Z then Some TypeError
  else if (Z.of_nat (length xs) <=? k)%Z then Some TypeError
  else if increasing xs then None else Some ValueError.
(** the loop of lines 586-592 *)
Fixpoint curve_points (f : fitting) (w : R) (l : list (R * R)) (com label : option string) (color : string) : fitting :=
  match l with
  | [] => f
  | (r, dv) :: l => curve_points (append_point f w r dv com label color) w l None (Some "_nolegend_"%string) color
  end.
(** append_energy_curve 521-593 for a list of frames.  slope l k: the derivative of the interpolating spline of order k.
    argsort is modelled as a stable sort; equal distances are refused by splrep anyway *)
Definition append_curve (slope : list (R * R) -> Z -> R -> R) (f : fitting) (w : R) (frames : list frame)
    (comment label color : option string) : fitting * fres unit :=
  let comment := or_else comment label in
  let label := or_else label comment in
  if (length frames <? 3)%nat then (f, FErr AssertionError) else
  match collect (r_cut f) (tol f) frames with
  | FErr e => (f, FErr e)
  | FOk [] => (f, FErr IndexError)
  | FOk ((_, _, _, n) as h :: t) =>
    if existsb (fun '(_, _, _, m) => negb (m =? n)%nat) t then (f, FErr RuntimeError) else
    let l := sort_by (fun '(r, _, _, _) => r) (h :: t) in
    let xy := map (fun '(r, a, b, m) => (r, (a - b) / INR m)) l in
    let k := Z.min (Z.of_nat (length l) - 2) 3 in
    match splrep_check (map fst xy) k with
    | Some e => (f, FErr e)
    | None =>
      match get_color f color with
      | (f, FErr e) => (f, FErr e)
      | (f, FOk color) =>
        match comment with
        | None => (f, FErr TypeError)
        | Some c => (curve_points f (w / sqrt (INR (length l))) (map (fun x => (fst x, slope xy k (fst x))) xy)
                      (Some (c ++ wtext w)%string) label color, FOk tt)
        end
      end
    end
  end.
(** append_equilibrium_trajectory 432-470: the energies of all frames are zero (box/calculator NullCalculator) *)
Definition append_equilibrium slope f w (frames : list frame) comment label color :=
  append_curve slope f w (map (fun x => Frame 0 (fr_calc x) (fr_dist x)) frames) comment label color.

(** ** Homogeneous clusters; append_homogeneous_cluster 596-678 *)
Section Cluster.
Variables (n : nat) (pos : nat -> v3) (rc : R).
(** dvrep 641-643 *)
Definition dvlin (p : R * R) (r : R) : R := fst p + snd p * (r - rc).
(** the loop of lines 652-661; rij is pos[j]-pos[i] *)
Definition frep (p : R * R) (i : nat) : v3 :=
  vsum n (fun j => if (i =? j)%nat then vzero else
    let rij := vsub (pos j) (pos i) in let d := vnorm rij in
    if ltb rc d then vzero else vscale (dvlin p d / d) rij).
(** to_minimize 646-663 *)
Definition to_minimize (fdft fwr : nat -> v3) (p : R * R) : R :=
  rsum n (fun i => vnorm (vsub (fdft i) (vadd (fwr i) (frep p i))) ^ 2).
End Cluster.
(** linspace *)
Definition linspace (a b : R) (m : nat) (i : nat) : R := a + INR i * ((b - a) / INR (m - 1)).
(** lines 638-639 and 666-678.  d: the distances, p: the result of fmin *)
Definition append_cluster (f : fitting) (w : R) (d : list R) (p : R * R) (comment label : string) (color : option string) : fitting * fres unit :=
  match d with
  | [] => (f, FErr ValueError)
  | a :: l =>
    let rmin := lmin a l in let rmax := lmax a l in
    match get_color f color with
    | (f, FErr e) => (f, FErr e)
    | (f, FOk color) =>
      (curve_points f (w / sqrt 6) (map (fun i => let r := linspace rmin rmax 6 i in (r, dvlin (r_cut f) p r)) (seq 0 6))
        (Some (comment ++ wtext w)%string) (Some label) color, FOk tt)
    end
  end.
End Append.

(** ** The fit *)
Definition datum : Type := R * R * R.
Definition dx (d : datum) : R := fst (fst d).
Definition dy (d : datum) : R := snd (fst d).
Definition dw (d : datum) : R := snd d.
(** line 255: truncation towards zero *)
Definition trunc (x : R) : Z := if Rle_dec 0 x then Int_part x else (- Int_part (- x))%Z.
Definition pseudo (d : datum) : Z := trunc (dx d * 10 ^ 4).
(** lines 256-262 and 267: the points with the same group number *)
Fixpoint groups (l : list datum) : list (list datum) :=
  match l with
  | [] => []
  | a :: t =>
    match groups t with
    | [] => [[a]]
    | g :: gs => match g with
                 | [] => [a] :: g :: gs
                 | b :: _ => if (pseudo a =? pseudo b)%Z then (a :: g) :: gs else [a] :: g :: gs
                 end
    end
  end.
(** lines 268-270 *)
Definition average (g : list datum) : datum :=
  (mean (map dx g), lsum (map (fun d => dy d * dw d) g) / lsum (map dw g), lsum (map dw g)).
(** _group_closeby_points 246-271.  max of no groups raises *)
Definition group_points (l : list datum) : fres (list datum) :=
  match groups l with [] => FErr ValueError | gs => FOk (map average gs) end.
(** fit 209-224: the points given to splrep.  sorted: the points in an order of argsort *)
Definition fit_data (rc : R) (sorted : list datum) : fres (list datum) :=
  match group_points sorted with
  | FErr e => FErr e
  | FOk l => match filter (fun d => ltb (dx d) rc) l with
             | [] => FErr ValueError
             | a :: t => FOk ((a :: t) ++ [(rc, 0, 1000 * lmax (dw a) (map dw t))])
             end
  end.
Section Fit.
(** np.argsort, splrep with splev, quadrature, the spline of SplineFunction *)
Variable sort : list datum -> list datum.
Variable splfit : list datum -> R -> Z -> R -> R.
Variable quad : (R -> R) -> R -> R -> R.
Variable interp : list (R * R) -> R -> R.
(** _integrate_vrep 306-321 with N = 100, the grid from r_cut down to zero *)
Definition fit_grid (rc : R) (i : nat) : R := linspace rc 0 100 i.
Fixpoint fit_value (dv : R -> R) (rc : R) (i : nat) : R :=
  match i with O => 0 | S j => fit_value dv rc j + quad dv (fit_grid rc j) (fit_grid rc i) end.
Definition integrate_vrep (dv : R -> R) (rc : R) (r : R) : R :=
  if ltb r 0 || ltb rc r then 0
  else interp (map (fun i => (fit_grid rc i, fit_value dv rc i)) (rev (seq 0 100))) r.
(** fit 202-243 *)
Definition fit (f : fitting) : fitting * fres unit :=
  let k := Z.min (Z.of_nat (length (deriv f))) (order f) in
  let f := with_fit f (smooth f) k (pot f) in
  match fit_data (r_cut f) (sort (map (fun p => (p_r p, p_dv p, p_w p)) (deriv f))) with
  | FErr e => (f, FErr e)
  | FOk l =>
    let m := INR (length l) in
    let s := match smooth f with None => m - sqrt (2 * m) | Some s => s end in
    let f := with_fit f (Some s) k (pot f) in
    match splrep_check (map dx l) k with
    | Some e => (f, FErr e)
    | None => let dv := splfit l s k in
              (with_fit f (Some s) k (Some (integrate_vrep dv (r_cut f), dv)), FOk tt)
    end
  end.
End Fit.
(** __call__ 93-107 *)
Definition call (f : fitting) (r : R) (der : nat) : fres R :=
  match pot f with
  | None => FErr AssertionError
  | Some (v, dv) => match der with O => FOk (v r) | S O => FOk (dv r) | _ => FErr RuntimeError end (* NotImplementedError *)
  end.

(** ** Files *)
(** write_par 274-303.  The items appended to the copy of the parameter file *)
Inductive item : Type :=
| CommentHeader | Parameters (rc s : R) (k : Z) | Systems (l : list structure) | Comments (c : string) | RepulsionHeader | Row (r v : R).
(** print of a structure without 'filename' raises *)
Definition write_par (Bohr Hartree : R) (f : fitting) : list item * fres unit :=
  match smooth f with
  | None => ([CommentHeader], FErr TypeError)
  | Some s =>
    let head := [CommentHeader; Parameters (r_cut f) s (order f)] in
    if (1 <? length (structures f))%nat && existsb (fun x => match st_file x with None => true | _ => false end) (structures f)
    then (head, FErr KeyError) else
    let head := head ++ (if (1 <? length (structures f))%nat then [Systems (structures f)] else [])
       ++ (if (0 <? String.length (comments f))%nat then [Comments (comments f)] else []) ++ [RepulsionHeader] in
    match pot f with
    | None => (head, FErr AssertionError)
    | Some (v, _) => (head ++ map (fun i => let r := linspace (1 / 10) (r_cut f) 100 i in Row (r / Bohr) (v r / Hartree)) (seq 0 100), FOk tt)
    end
  end.
(** write_fitting_data 702-713 and load_fitting_data 716-722.  A file holds what has been pickled or nothing; in Python 3
    print to a binary file raises TypeError *)
Inductive datafile : Type := Empty | Pickled (d : list point) (st : list structure) (c : string).
Definition write_fitting_data (f : fitting) (pickle : bool) : datafile * fres unit :=
  if pickle then (Pickled (deriv f) (structures f) (comments f), FOk tt) else (Empty, FErr TypeError).
Definition load_fitting_data (f : fitting) (x : datafile) : fitting * fres unit :=
  match x with
  | Empty => (f, FErr EOFError)
  | Pickled d st c => (with_structures f d st c, FOk tt)
  end.

(** ** ParametrizationTest.__init__ 739-754: the file names are taken out of the dictionaries *)
Fixpoint take_files (l : list structure) : list structure * fres (list string) :=
  match l with
  | [] => ([], FOk [])
  | x :: t =>
    match st_file x with
    | None => (x :: t, FErr KeyError)
    | Some n => let (t', r) := take_files t in
        (Structure None (st_charge x) :: t', match r with FOk ns => FOk (n :: ns) | FErr e => FErr e end)
    end
  end.
Definition new_test (f : fitting) : fitting * fres (list string) :=
  let (l, r) := take_files (structures f) in (with_structures f (deriv f) l (comments f), r).
