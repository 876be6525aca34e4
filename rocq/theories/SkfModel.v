(** Element data and DFTB-style .skf files: hotbit/io/dftb.py, hotbit/io/hb2skf.py,
    read_element_from_elm of hotbit/io/native.py and the valence orbitals of box/data.py. *)
From Coq Require Import Reals ZArith List Arith Bool Ascii String.
From Verif Require Import Vec UtilModel GeomModel ElemModel IoModel.
Import ListNotations.
Open Scope list_scope.

(** ** Valence orbitals; box/data.py 49-77 *)
Definition valence_table : list (string * list string) :=
  [("H", ["1s"]); ("He", ["1s"]); ("Li", ["2s"; "2p"]); ("Be", ["2s"; "2p"]); ("B", ["2s"; "2p"]);
   ("C", ["2s"; "2p"]); ("N", ["2s"; "2p"]); ("O", ["2s"; "2p"]); ("F", ["2s"; "2p"]); ("Ne", ["2s"; "2p"]);
   ("Na", ["3s"; "3p"]); ("Mg", ["3s"; "3p"]); ("Si", ["3s"; "3p"]); ("P", ["3s"; "3p"]); ("S", ["3s"; "3p"]);
   ("Cl", ["3s"; "3p"]); ("Ar", []); ("K", ["4s"; "4p"]); ("Ti", ["3d"; "4s"; "4p"]); ("Fe", ["3d"; "4s"; "4p"]);
   ("Ni", ["3d"; "4s"; "4p"]); ("Kr", []); ("Sr", ["5s"; "5p"; "4d"]); ("Mo", ["5s"; "5p"; "4d"]);
   ("Pd", ["5s"; "5p"; "4d"]); ("Sn", ["5s"; "5p"]); ("Xe", []); ("Pt", ["6s"; "6p"; "5d"]);
   ("Au", ["6s"; "6p"; "5d"])]%string.
Definition valence (symbol : string) : option (list text) :=
  option_map (fun p => map txt (snd p)) (find (fun p => String.eqb (fst p) symbol) valence_table).

(** 's' in orbital, 'p' in orbital, 'd' in orbital, in that order; native.py 48-50 *)
Definition has (c : ascii) (o : text) : bool := existsb (Ascii.eqb c) o.
Definition shell_of (o : text) : option shell :=
  if has "s" o then Some Sh_s else if has "p" o then Some Sh_p else if has "d" o then Some Sh_d else None.
Definition degeneracy (s : shell) : nat := match s with Sh_s => 1 | Sh_p => 3 | Sh_d => 5 end.

(** the loop 46-51 of native.py: the energies in the order of the valence orbitals.  An
    orbital with none of the letters leaves n as it was; that is an error for the first *)
Fixpoint elm_energies (n : option nat) (l : list (text * R)) : res (list R) :=
  match l with
  | [] => Ok []
  | (o, eps) :: l =>
      let n' := match shell_of o with Some s => Some (degeneracy s) | None => n end in
      match n' with
      | None => Raise RuntimeError
      | Some k => bind (elm_energies n' l) (fun r => Ok (repeat eps k ++ r))
      end
  end.

(** dftb.py 57-64: the last energy of every kind, in the order s, p, d *)
Fixpoint last_of (s : shell) (l : list (text * R)) (acc : list R) : list R :=
  match l with
  | [] => acc
  | (o, eps) :: l =>
      last_of s l (match shell_of o, s with
                   | Some Sh_s, Sh_s | Some Sh_p, Sh_p | Some Sh_d, Sh_d => repeat eps (degeneracy s)
                   | _, _ => acc
                   end)
  end.
Definition skf_energies (l : list (text * R)) : list R :=
  last_of Sh_s l [] ++ last_of Sh_p l [] ++ last_of Sh_d l [].

Record element : Type := { el_U : R; el_epsilon : list (text * R); el_energies : list R }.
(** element.py 122-125 *)
Definition orbital_types (e : element) : list shell := firstn (List.length (el_energies e)) orbital_list.

Section Numbers.
Variable parse : text -> option R.

(** read_element_from_elm; native.py 14-61.  FWHM, the comment, the radial functions and
    the van der Waals parameters are left out. *)
Definition number (f : file) (key : text) : res R :=
  bind (find_value parse f key VDefault None)
       (fun v => match v with
                 | Word w => match parse w with Some x => Ok x | None => Raise ValueError end
                 | _ => Raise TypeError
                 end).
Fixpoint epsilons (f : file) (l : list text) : res (list (text * R)) :=
  match l with
  | [] => Ok []
  | o :: l => bind (number f (txt "epsilon_" ++ o)) (fun e => bind (epsilons f l) (fun r => Ok ((o, e) :: r)))
  end.
Definition read_element_from_elm (f : file) (symbol : string) : res element :=
  bind (find_value parse f (txt "symbol") VDefault None) (fun s =>
  match s with
  | Word w =>
      if text_eqb (strip w) (txt symbol) then
        match valence symbol with
        | None => Raise KeyError
        | Some orbs =>
            bind (number f (txt "U")) (fun u =>
            bind (epsilons f orbs) (fun eps =>
            bind (elm_energies None eps) (fun en =>
            Ok {| el_U := u; el_epsilon := eps; el_energies := en |})))
        end
      else Raise AssertionError
  | _ => Raise TypeError
  end).

(** readline at a file position *)
Definition readline (f : file) : line * file := match f with [] => ([], []) | l :: f => (l, f) end.
Definition fortran (f : file) : res (list R * file) :=
  bind (fortran_readline parse (fst (readline f))) (fun l => Ok (l, snd (readline f))).

(** read_element_from_skf; dftb.py 17-71.  data['FWHM'] = sqrt(8*log(2)/pi)/U left out. *)
Definition skf_epsilon (ed ep es : R) (o : text) : list (text * R) :=
  match shell_of o with Some Sh_s => [(o, es)] | Some Sh_p => [(o, ep)] | Some Sh_d => [(o, ed)] | None => [] end.
Definition read_element_from_skf (f : file) (symbol : string) : res element :=
  bind (fortran (snd (readline f))) (fun p =>
  match fst p with
  | [ed; ep; es; _; _; _; us; _; _; _] =>
      match valence symbol with
      | None => Raise KeyError
      | Some orbs =>
          let eps := flat_map (skf_epsilon ed ep es) orbs in
          Ok {| el_U := us; el_epsilon := eps; el_energies := skf_energies eps |}
      end
  | _ => Raise ValueError
  end).

(** ** read_HS_from_skf; dftb.py 74-127 *)
Definition is_spline (l : line) : bool := text_eqb (strip l) (txt "Spline").
Fixpoint table_rows (f : file) : res (list (list R)) :=
  match f with
  | [] => Ok []
  | l :: f => if is_spline l then Ok []
              else bind (fortran_readline parse l) (fun r => bind (table_rows f) (fun t => Ok (r :: t)))
  end.
(** int() of a float truncates towards zero *)
Definition trunc (x : R) : Z := if Rlt_dec x 0 then (- Int_part (- x))%Z else Int_part x.
(** HS.shape[0] and the rows; ragged rows are an error as in [read_array] *)
Definition read_HS_from_skf (f : file) (homo : bool) : res (list R * list (list R)) :=
  bind (fortran f) (fun p =>
  bind (if homo then match fst p with dx :: _ :: _ => Ok (dx, snd (readline (snd p))) | _ => Raise IndexError end
        else match fst p with [dx; _] => Ok (dx, snd p) | _ => Raise ValueError end) (fun q =>
  bind (table_rows (snd q)) (fun t =>
  if rect t then Ok (map (fun i => (fst q * INR i)%R) (seq 0 (List.length t)), t) else Raise ValueError))).

(** ** read_repulsion_from_skf; dftb.py 131-216 *)
(** np.linspace(a, b, n) *)
Definition linspace (a b : R) (n : nat) : list R :=
  map (fun i => (a + INR i * ((b - a) / INR (n - 1)))%R) (seq 0 n).
(** the table's distances; a negative number of points is a ValueError of linspace *)
Definition rep_grid (x0 dx cutoff : R) : res (list R) :=
  let n := (trunc ((cutoff - x0) / dx) + 1)%Z in
  if (n <? 0)%Z then Raise ValueError else Ok (linspace x0 cutoff (Z.to_nat n)).
(** np.searchsorted(x, v) for ascending x: the number of entries below v *)
Fixpoint searchsorted (x : list R) (v : R) : nat :=
  match x with [] => 0%nat | a :: x => if Rlt_dec a v then S (searchsorted x v) else 0%nat end.
(** a piece: where it starts and ends, and its coefficients *)
Record piece : Type := { p_from : R; p_to : R; p_coef : list R }.
Fixpoint powers (c : list R) (t : R) : R := match c with [] => 0%R | a :: c => (a + t * powers c t)%R end.
Definition piece_at (p : piece) (x : R) : R := powers (p_coef p) (x - p_from p).
(** y[i0:i1] = piece(x[i0:i1]) *)
Definition assign (i0 i1 : nat) (x : list R) (g : R -> R) (y : list R) : list R :=
  map (fun q => if ((i0 <=? fst q) && (fst q <? i1))%nat%bool then g (fst (snd q)) else snd (snd q))
      (combine (seq 0 (List.length y)) (combine x y)).
(** the loop 180-192 and the last piece 194-210: every piece from the index after the
    start of the piece to the index after its end *)
Fixpoint assign_pieces (x : list R) (i0 : nat) (ps : list piece) (y : list R) : list R :=
  match ps with
  | [] => y
  | p :: ps => let i1 := S (searchsorted x (p_to p)) in
               assign_pieces x i1 ps (assign i0 i1 x (piece_at p) y)
  end.
Definition piece_of (n : nat) (l : list R) : res piece :=
  match l with
  | x1 :: x2 :: c => if (List.length c =? n)%nat then Ok {| p_from := x1; p_to := x2; p_coef := c |} else Raise ValueError
  | _ => Raise ValueError
  end.
(** reading the pieces: [k] more cubic pieces, then one of fifth order; every piece must
    start where the one before ended *)
Fixpoint more_pieces (k : nat) (last : R) (f : file) : res (list piece) :=
  bind (fortran f) (fun p =>
  bind (piece_of (match k with O => 6%nat | S _ => 4%nat end) (fst p)) (fun q =>
  if Req_EM_T (p_from q) last then
    match k with O => Ok [q] | S k => bind (more_pieces k (p_to q) (snd p)) (fun r => Ok (q :: r)) end
  else Raise AssertionError)).
(** the first piece is read as a cubic before the loop, which then reads n-2 more and the
    last; for n of at most 1 the loop does not run, and the first piece, although read, is
    not put in the table *)
Definition spline_table (x0 dx : R) (f : file) : res (list R * list R) :=
  bind (fortran f) (fun p =>
  match fst p with
  | [n; cutoff] =>
      bind (fortran (snd p)) (fun q =>
      match fst q with
      | [c1; c2; c3] =>
          bind (fortran (snd q)) (fun r =>
          bind (piece_of 4 (fst r)) (fun first =>
          bind (rep_grid x0 dx cutoff) (fun x =>
          let y := map (fun v => (c3 + exp (c2 - c1 * v))%R) x in
          let i0 := S (searchsorted x (p_from first)) in
          let k := Z.to_nat (trunc n - 1) in
          bind (more_pieces (k - 1) (p_to first) (snd r)) (fun ps =>
          Ok (x, assign_pieces x i0 (match k with O => ps | S _ => first :: ps end) y)))))
      | _ => Raise ValueError
      end)
  | _ => Raise ValueError
  end).
(** 160-171: without the keyword, a polynomial in the distance from the cutoff *)
Definition poly_rep (c : list R) (cutoff x : R) : R :=
  fold_left (fun s i => (s + nth i c 0 * (cutoff - x) ^ i)%R) (seq 2 8) 0%R.
Definition poly_table (x0 dx : R) (f : file) : res (list R * list R) :=
  bind (fortran f) (fun p =>
  match fst p with
  | [_; _] =>
      bind (fortran (snd p)) (fun q =>
      bind (if (List.length (fst q) <? 20)%nat then fortran (snd q) else Ok q) (fun q =>
      match nth_error (fst q) 9 with
      | None => Raise IndexError
      | Some cutoff =>
          bind (rep_grid x0 dx cutoff) (fun x =>
          Ok (x, map (poly_rep ([0; 0]%R ++ firstn 8 (skipn 1 (fst q))) cutoff) x))
      end))
  | _ => Raise ValueError
  end).
Fixpoint after_spline (f : file) : option file :=
  match f with [] => None | l :: f => if is_spline l then Some f else after_spline f end.
Definition read_repulsion_from_skf (f : file) (x0 dx : R) : res (list R * list R) :=
  match after_spline f with None => poly_table x0 dx f | Some f' => spline_table x0 dx f' end.
End Numbers.

(** ** Writing .skf files: generate_DFTBplus_header; hb2skf.py 149-249.
    The formattings of numbers are parameters: '%.12f', '%.8f', '%.6f', '%.1f', '%.2f' and
    '{0: 1.12e}'. *)
Record formats : Type := { f12 : R -> text; f8 : R -> text; f6 : R -> text; f1 : R -> text; f2 : R -> text; e12 : R -> text }.
Section Writing.
Variable fm : formats.
Variable is0 : R -> bool.   (** pardat[1][i][j] == 0 *)
(** the table rows 235-247: runs of zeros are written as 'ct*0.0 ' when a non-zero number
    follows; at the end of the row the pending run is written, and then the last number *)
Fixpoint table_row (ct : nat) (theader header : text) (row : list R) : nat * text * text :=
  match row with
  | [] => (ct, theader, header)
  | v :: row =>
      if is0 v then table_row (S ct) (str (S ct) ++ txt "*0.0 ") header row
      else table_row 0 [] (header ++ theader ++ e12 fm v ++ txt "  ") row
  end.
Definition row_line (row : list R) : line :=
  match table_row 0 [] [] row with
  | (_, theader, header) =>
      match theader with
      | [] => header
      | _ => header ++ theader ++ e12 fm (last row 0%R) ++ txt "  "
      end ++ [nl_char]
  end.
(** sorted(d.keys()) of a dictionary with its values: strings in character order *)
Definition text_leb (a b : text) : bool := String.leb (string_of_list_ascii a) (string_of_list_ascii b).
Fixpoint insert_key (p : text * R) (l : list (text * R)) : list (text * R) :=
  match l with [] => [p] | q :: r => if text_leb (fst p) (fst q) then p :: l else q :: insert_key p r end.
Definition sorted_keys (l : list (text * R)) : list (text * R) := fold_right insert_key [] l.
(** the header 160-233.  [eps] and [config] are the dictionaries 'epsilon' and
    'configuration', [orbs] is 'valence_orbitals'; [n] is the number of keys counted for the
    padding.  The first distance x0 is taken not to be negative. *)
Definition padded (n : nat) (fmt : R -> text) (l : list R) : text :=
  flat_map (fun _ => txt "0.0 ") (seq 0 (3 - n)) ++ flat_map (fun v => fmt v ++ txt " ") l.
Definition element_line (eps config : list (text * R)) (orbs : list text) (u : R) : line :=
  padded (List.length eps) (f8 fm) (map snd (sorted_keys eps)) ++ txt ", 0.0, "
  ++ flat_map (fun _ => f6 fm u ++ txt " ") (seq 0 3)
  ++ padded (List.length orbs) (f1 fm) (map snd (filter (fun p => existsb (text_eqb (fst p)) orbs) (sorted_keys config))) ++ [nl_char].
Definition skf_header (homo : bool) (x0 x1 : R) (rows : list (list R)) (eps config : list (text * R)) (orbs : list text) (u mass : R) : file :=
  let k := Z.to_nat (trunc (x0 / (x1 - x0))) in
  [f12 fm (x1 - x0) ++ txt ", " ++ str (List.length rows + k) ++ [nl_char]]
  ++ (if homo then [element_line eps config orbs u] else [])
  ++ [f2 fm mass ++ txt ", 19*1.0," ++ [nl_char]]
  ++ (if Req_EM_T x0 0 then [] else map (fun _ => str (List.length (hd [] rows)) ++ txt "*1.0," ++ [nl_char]) (seq 0 k))
  ++ map row_line rows.
End Writing.
