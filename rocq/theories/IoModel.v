(** Reading and writing parameter files: box/mix.py (find_value, read, write,
    true_false), hotbit/io/fortran.py, hotbit/io/__init__.py, hotbit/io/native.py.

    Text is a list of ASCII characters.  A file is the list of the strings that
    successive calls of readline return (each a line with its line feed, the last
    possibly without); after the list is exhausted readline returns the empty string.
    A file position is the list of lines still to be read. *)
From Coq Require Import Reals ZArith List Arith Bool Ascii String.
From Coq Require DecimalString.
From Verif Require Import Vec UtilModel.
Import ListNotations.
Open Scope list_scope.

Definition txt (s : string) : text := list_ascii_of_string s.
Definition line : Type := text.
Definition file : Type := list line.

(** Python exceptions that the modelled code can raise *)
Inductive exn : Type := ValueError | RuntimeError | AttributeError | TypeError | IndexError | AssertionError | KeyError.
Inductive res (A : Type) : Type := Ok (x : A) | Raise (e : exn).
Arguments Ok {A}. Arguments Raise {A}.
Definition bind {A B : Type} (r : res A) (f : A -> res B) : res B :=
  match r with Ok x => f x | Raise e => Raise e end.

(** ** String methods (restricted to ASCII) *)
(** str.isspace of one character: tab, line feed, vertical tab, form feed, carriage
    return, the separators 28-31 and space *)
Definition is_space (c : ascii) : bool :=
  let n := nat_of_ascii c in ((9 <=? n) && (n <=? 13) || (28 <=? n) && (n <=? 32))%nat%bool.
(** str.lower *)
Definition lower_char (c : ascii) : ascii :=
  let n := nat_of_ascii c in if ((65 <=? n) && (n <=? 90))%nat%bool then ascii_of_nat (n + 32) else c.
Definition lower (s : text) : text := map lower_char s.
(** str.lstrip() and str.strip() *)
Fixpoint lstrip (s : text) : text :=
  match s with [] => [] | c :: r => if is_space c then lstrip r else s end.
Definition strip (s : text) : text := rev (lstrip (rev (lstrip s))).
(** str.split(): the maximal pieces without white space *)
Fixpoint words (s : text) : list text :=
  match s with
  | [] => []
  | c :: r =>
      if is_space c then words r
      else match r with
           | [] => [[c]]
           | d :: _ => if is_space d then [c] :: words r
                       else match words r with w :: ws => (c :: w) :: ws | [] => [[c]] end
           end
  end.
(** str.replace(a, b) for single characters *)
Definition replace (a b : ascii) (s : text) : text := map (fun c => if Ascii.eqb c a then b else c) s.
(** s[:i], s[i+1:] for i = s.find(c); None when c does not occur *)
Fixpoint cut (c : ascii) (s : text) : option (text * text) :=
  match s with
  | [] => None
  | d :: r => if Ascii.eqb d c then Some ([], r)
              else match cut c r with Some (a, b) => Some (d :: a, b) | None => None end
  end.
(** str.endswith *)
Definition text_eqb (a b : text) : bool := if list_eq_dec ascii_dec a b then true else false.
Definition endswith (s e : text) : bool := text_eqb (skipn (List.length s - List.length e) s) e.
(** int() of a word, for words that are an optional minus sign and decimal digits (the
    plus sign and underscores that Python also accepts are not used by any file) *)
Definition int_of (s : text) : option Z :=
  match DecimalString.NilZero.int_of_string (string_of_list_ascii s) with Some d => Some (Z.of_int d) | None => None end.
(** str() of a natural number *)
Definition str (n : nat) : text := txt (DecimalString.NilZero.string_of_int (Z.to_int (Z.of_nat n))).

(** ** true_false; box/mix.py 516-526 *)
Definition true_false (s : text) : res bool :=
  let s2 := strip (lower s) in
  if existsb (text_eqb s2) [txt "true"; txt "t"; txt "yes"; txt "y"] then Ok true
  else if existsb (text_eqb s2) [txt "false"; txt "f"; txt "no"; txt "n"] then Ok false
  else Raise RuntimeError.

Section Numbers.
(** float() of a word; None when it raises ValueError *)
Variable parse : text -> option R.

(** ** fortran_readline; hotbit/io/fortran.py 5-33, applied to a line *)
Fixpoint items (l : list text) : res (list R) :=
  match l with
  | [] => Ok []
  | e :: l =>
      bind (match cut "*"%char e with
            | None => match parse e with Some v => Ok [v] | None => Raise ValueError end
            | Some (a, b) =>
                match int_of a with
                | None => Raise ValueError
                | Some n => match parse b with Some v => Ok (repeat v (Z.to_nat n)) | None => Raise ValueError end
                end
            end)
           (fun r => bind (items l) (fun s => Ok (r ++ s)))
  end.
Definition fortran_readline (l : line) : res (list R) :=
  items (words (replace ","%char " "%char (replace "d"%char "e"%char l))).

(** ** read; box/mix.py 691-736, on a file object.  The commentchar argument is not used
    by the code.  [sep] is "start": no data line has been seen yet.  Returns the rows
    and the position after the call. *)
Inductive rfmt : Type := FArray | FString | FLines.
Fixpoint floats (l : list text) : res (list R) :=
  match l with
  | [] => Ok []
  | w :: l => match parse w with None => Raise ValueError | Some v => bind (floats l) (fun r => Ok (v :: r)) end
  end.
Inductive row : Type := RNum (l : list R) | RStr (s : text).
Fixpoint read_rows (fmt : rfmt) (start : bool) (f : file) : res (list row * file) :=
  match f with
  | [] => Ok ([], [])
  | l :: f' =>
      let s := strip l in
      match s with
      | [] => if start then read_rows fmt start f' else Ok ([], f')
      | c :: _ =>
          if Ascii.eqb c "#"%char then read_rows fmt start f'
          else bind (match fmt with
                     | FArray => bind (floats (words s)) (fun r => Ok (RNum r))
                     | FString => Ok (RStr s)
                     | FLines => Raise AssertionError
                     end)
                    (fun r => bind (read_rows fmt false f') (fun p => Ok (r :: fst p, snd p)))
      end
  end.
(** array(r): the rows must have the same length (numpy 1.24 and later raise
    ValueError, earlier versions return an array of lists that no caller can index) *)
Definition nums (r : row) : list R := match r with RNum l => l | RStr _ => [] end.
Definition strs (r : row) : text := match r with RNum _ => [] | RStr s => s end.
Definition rect (m : list (list R)) : bool :=
  match m with [] => true | a :: m => forallb (fun b => (List.length b =? List.length a)%nat) m end.
Definition read_array (f : file) : res (option (list (list R)) * file) :=
  bind (read_rows FArray true f)
       (fun p => match fst p with
                 | [] => Ok (None, snd p)
                 | rs => if rect (map nums rs) then Ok (Some (map nums rs), snd p) else Raise ValueError
                 end).
Definition read_strings (f : file) : res (option (list text) * file) :=
  bind (read_rows FString true f)
       (fun p => match fst p with [] => Ok (None, snd p) | rs => Ok (Some (map strs rs), snd p) end).
(** fmt='lines'; 734: '\n'.join of the rows.  Every data line has raised before *)
Definition read_lines (f : file) : res (option (list text) * file) :=
  bind (read_rows FLines true f)
       (fun p => match fst p with [] => Ok (None, snd p) | rs => Ok (Some (map strs rs), snd p) end).

(** ** find_value; box/mix.py 543-603.  [f] is what is to be searched: the whole file
    for position='start', the rest of it for 'current'.  The search gives up after 1001
    empty strings from readline, that is after the last line. *)
Inductive vfmt : Type := VDefault | VAll | VOnestr | VMatrix | VStrings | VBool | VTest.
Inductive value : Type :=
  | Word (s : text) | Words (l : list text) | OneStr (s : text) | Matrix (m : list (list R))
  | Strings (l : list text) | Boolean (b : bool).
(** the lines from the first one whose part before '=' is the key: the line's value
    part (up to a second '=') and the lines after it *)
Definition eq_char : ascii := "="%char.
Definition key_value (l : line) : option (text * text) :=
  match cut eq_char l with
  | None => None
  | Some (a, b) => Some (a, match cut eq_char b with Some (v, _) => v | None => b end)
  end.
Fixpoint find_key (key : text) (f : file) : option (text * file) :=
  match f with
  | [] => None
  | l :: f' => match key_value l with
               | Some (a, v) => if text_eqb (strip a) (strip key) then Some (v, f') else find_key key f'
               | None => find_key key f'
               end
  end.
Definition find_value (f : file) (key : text) (fmt : vfmt) (default : option value) : res value :=
  bind (match find_key key f with
        | None => Ok None
        | Some (v, f') =>
            match fmt with
            | VTest => Ok (Some (Boolean true))
            | VBool => bind (true_false v) (fun b => Ok (Some (Boolean b)))
            | VMatrix => bind (read_array f') (fun p => Ok (option_map Matrix (fst p)))
            | VStrings => bind (read_strings f') (fun p => Ok (option_map Strings (fst p)))
            | VDefault => match words v with [] => Raise IndexError | w :: _ => Ok (Some (Word w)) end
            | VOnestr => Ok (Some (OneStr (removelast v)))
            | VAll => Ok (Some (Words (words v)))
            end
        end)
       (fun ret => match ret, fmt, default with
                   | Some v, _, _ => Ok v
                   | None, VTest, _ => Ok (Boolean false)
                   | None, _, Some d => Ok d
                   | None, _, None => Raise RuntimeError
                   end).

(** ** write; box/mix.py 739-757: every entry followed by a tab, every row by a line
    feed.  [fmt] is the formatting of one number. *)
Definition tab_char : ascii := ascii_of_nat 9.
Definition nl_char : ascii := ascii_of_nat 10.
Definition write_row (fmt : R -> text) (r : list R) : line :=
  flat_map (fun v => fmt v ++ [tab_char]) r ++ [nl_char].
Definition write (fmt : R -> text) (a : list (list R)) : file := map (write_row fmt) a.

(** ** native.py *)
(** columns of a rectangular table; table[:, k] raises IndexError beyond the last column *)
Definition column (m : list (list R)) (k : nat) : res (list R) :=
  if forallb (fun r => (k <? List.length r)%nat) m then Ok (map (fun r => nth k r 0%R) m) else Raise IndexError.
(** read_HS_from_par; native.py 92-114.  If the file has an X_X_table, the format
    operation 'X_X_table' % (symboli, symbolj) raises TypeError before any look-up. *)
Definition read_HS_from_par (f : file) (si sj : text) : res (list R * list (list R)) :=
  bind (find_value f (txt "X_X_table") VTest None)
       (fun t => match t with
                 | Boolean true => Raise TypeError
                 | _ => bind (find_value f (si ++ txt "_" ++ sj ++ txt "_table") VMatrix None)
                             (fun m => match m with
                                       | Matrix m => bind (column m 0) (fun x => Ok (x, map (@tl R) m))
                                       | _ => Raise TypeError
                                       end)
                 end).
(** read_repulsion_from_par; native.py 118-132.  The bare except catches every error. *)
Definition zero_repulsion : list (list R) := [[0; 0]; [1; 0]; [2; 0]; [3; 0]]%R.
Definition read_repulsion_from_par (f : file) : res (list R * list R) :=
  let v := match find_value f (txt "repulsion") VMatrix None with
           | Ok (Matrix m) => m
           | _ => zero_repulsion
           end in
  bind (column v 0) (fun x => bind (column v 1) (fun y => Ok (x, y))).
End Numbers.

(** ** filetype and the dispatch on it; hotbit/io/__init__.py 6-91 *)
Inductive format : Type := Elm | Par | Skf | OtherFormat (s : text).
Inductive reader : Type := ElmElement | SkfElement | ParHS | SkfHS | ParRepulsion | SkfRepulsion.
(** 82-91.  filename.lower.endswith, without the call, is an AttributeError *)
Definition filetype (name : text) : res format :=
  if endswith (lower name) (txt ".elm") then Ok Elm
  else if endswith (lower name) (txt ".par") then Ok Par
  else if endswith (lower name) (txt ".skf") then Ok Skf
  else Raise AttributeError.
Definition format_of (name : text) (fmt : option format) : res format :=
  match fmt with Some f => Ok f | None => filetype name end.
Definition read_element (name : text) (fmt : option format) : res reader :=
  bind (format_of name fmt) (fun f => match f with Elm => Ok ElmElement | Skf => Ok SkfElement | _ => Raise RuntimeError end).
Definition read_HS (name : text) (fmt : option format) : res reader :=
  bind (format_of name fmt) (fun f => match f with Par => Ok ParHS | Skf => Ok SkfHS | _ => Raise RuntimeError end).
Definition read_repulsion (name : text) (fmt : option format) : res reader :=
  bind (format_of name fmt) (fun f => match f with Par => Ok ParRepulsion | Skf => Ok SkfRepulsion | _ => Raise RuntimeError end).
