(** Which parameter files are used and how the tables are read.  hotbit/interactions.py, hotbit/elements.py *)
From Coq Require Import Reals List Bool Arith String.
From Verif Require Import Vec SkModel SplModel.
Import ListNotations.
Open Scope string_scope.

Definition symbol : Type := string.
(** Simplified: the key 'CH' of the dictionaries is the pair of symbols (separate_symbols is modelled in PairModel);
    path.abspath is the identity *)
Definition key : Type := (symbol * symbol)%type.
Definition key_eqb (a b : key) : bool := (String.eqb (fst a) (fst b) && String.eqb (snd a) (snd b))%bool.
Definition files : Type := key -> option string.
Definition set_file (f : files) (k : key) (v : string) : files := fun q => if key_eqb q k then Some v else f q.
Definition join (d n : string) : string := d ++ "/" ++ n.
Definition par (a b : symbol) : string := a ++ "_" ++ b ++ ".par".

Section Interactions.
Variable isfile : string -> bool.
(** ** Interactions.__init__ 43-96 *)
Variable dir : string. (* HOTBIT_PARAMETERS; unset: path.join raises before anything else *)
(** lines 54-71.  tables: the dictionary without the key 'rest', in its order; a None value is the null table *)
Fixpoint custom (all tables : list (key * option string)) (f : files) : option files :=
  match tables with
  | [] => Some f
  | ((e1, e2), file) :: tables =>
      let file := match file with None => join dir "null.par" | Some x => x end in
      if isfile file then
        let f := set_file f (e1, e2) file in
        let f := if existsb (fun t => key_eqb (fst t) (e2, e1)) all then f else set_file f (e2, e1) file in
        custom all tables f
      else None
  end.
(** lines 77-92 *)
Definition default_pair (f : files) (k : key) : option files :=
  let '(e1, e2) := k in
  match f (e1, e2) with
  | Some _ => Some f
  | None =>
      let def12 := join dir (par e1 e2) in let def21 := join dir (par e2 e1) in
      if isfile def12 then Some (set_file (set_file f (e1, e2) def12) (e2, e1) def12)
      else if isfile def21 then Some (set_file (set_file f (e1, e2) def21) (e2, e1) def21)
      else None
  end.
Fixpoint defaults (l : list key) (f : files) : option files :=
  match l with
  | [] => Some f
  | k :: l => match default_pair f k with None => None | Some f => defaults l f end
  end.
Definition pairs (present : list symbol) : list key := flat_map (fun a => map (fun b => (a, b)) present) present.
(** tables=None or tables with or without rest='default' (line 75) *)
Inductive tables_arg : Type := NoTables | Tables (l : list (key * option string)) (rest_default : bool).
Definition interaction_files (present : list symbol) (t : tables_arg) : option files :=
  let f0 : files := fun _ => None in
  match t with
  | NoTables => defaults (pairs present) f0
  | Tables l rest =>
      match custom l l f0 with
      | None => None
      | Some f => if rest then defaults (pairs present) f else Some f
      end
  end.
(** read_tables 138-145 raises if a file is missing *)
Definition use_files (present : list symbol) (t : tables_arg) : option files :=
  match interaction_files present t with
  | None => None
  | Some f => if forallb (fun k => match f k with Some _ => true | None => false end) (pairs present) then Some f else None
  end.

(** ** Elements.__init__ 51-73 and _elements_initialization 365-370 *)
Fixpoint element_custom (l : list (symbol * string)) (f : symbol -> option string) : option (symbol -> option string) :=
  match l with
  | [] => Some f
  | (s, file) :: l => if isfile file then element_custom l (fun q => if String.eqb q s then Some file else f q) else None
  end.
Fixpoint element_defaults (l : list symbol) (f : symbol -> option string) : option (symbol -> option string) :=
  match l with
  | [] => Some f
  | s :: l =>
      match f s with
      | Some _ => element_defaults l f
      | None => let file := join dir (s ++ ".elm") in
          if isfile file then element_defaults l (fun q => if String.eqb q s then Some file else f q) else None
      end
  end.
Inductive elements_arg : Type := NoElements | Elems (l : list (symbol * string)) (rest_default : bool).
Definition element_files (symbols : list symbol) (t : elements_arg) : option (symbol -> option string) :=
  let f0 := fun _ : symbol => None in
  let r := match t with
    | NoElements => element_defaults symbols f0
    | Elems l rest => match element_custom l f0 with None => None | Some f => if rest then element_defaults symbols f else Some f end
    end in
  match r with
  | None => None
  | Some f => if forallb (fun s => match f s with Some _ => true | None => false end) symbols then Some f else None
  end.
End Interactions.

(** ** read_tables 146-176: the table of a file for an ordered pair: distances and twenty columns *)
Open Scope R_scope.
Record table : Type := { rows : nat; grid : nat -> R; col : nat -> nat -> R }.
(** MultipleSplineFunction with one function; None: the RuntimeError for different lengths *)
Definition spline (n : nat) (x : nat -> R) (m : nat) (y : nat -> R) (v : R) : option R :=
  if (n =? m)%nat then Some (msf x y n v) else None.
(** number of rows of the column read for integral q *)
Definition source (tij tji : table) (q : nat) : table := if (10 <=? q)%nat then tji else tij.
Definition htab (tij tji : table) (q : nat) (v : R) : option R :=
  spline (rows tij) (grid tij) (rows (source tij tji q)) (fun i => read_integral (fun c => col tij c i) (fun c => col tji c i) q) v.
(** the overlap spline is built on the distances x_ji (line 158) *)
Definition stab (tij tji : table) (q : nat) (v : R) : option R :=
  spline (rows tji) (grid tji) (rows (source tij tji q)) (fun i => read_integral (fun c => col tij (c + 10)%nat i) (fun c => col tji (c + 10)%nat i) q) v.
