(** Specification of the text files. *)
From Coq Require Import Reals ZArith List Arith Bool Ascii String.
From Verif Require Import Vec UtilModel IoModel.
Import ListNotations.
Open Scope list_scope.

Section Numbers.
Variable parse : text -> option R.

(** ** Fortran number lists *)
(** the exponent letter d is read as e *)
Definition plain_exponent (w : text) : text := map (fun c => if ascii_dec c "d" then "e"%char else c) w.
(** a word that denotes a number: no blank, comma or star, and readable by float() *)
Definition numeral (w : text) (v : R) : Prop :=
  w <> [] /\ Forall (fun c => is_space c = false /\ c <> ","%char /\ c <> "*"%char) w /\ parse (plain_exponent w) = Some v.
(** an item is a number or a repeated number, n*value *)
Inductive item : Type := One (w : text) | Times (n : nat) (w : text).
Definition item_text (i : item) : text := match i with One w => w | Times n w => str n ++ "*"%char :: w end.
Inductive item_value : item -> list R -> Prop :=
  | one_value : forall w v, numeral w v -> item_value (One w) [v]
  | times_value : forall n w v, numeral w v -> item_value (Times n w) (repeat v n).
(** blanks and commas separate *)
Definition separator (s : text) : Prop := Forall (fun c => is_space c = true \/ c = ","%char) s.
(** a line: items, each with what stands before it *)
Fixpoint line_of (l : list (text * item)) (trail : text) : line :=
  match l with [] => trail | (s, i) :: l => s ++ item_text i ++ line_of l trail end.
Definition separated (l : list (text * item)) : Prop :=
  Forall (fun p => separator (fst p)) l /\ Forall (fun p => fst p <> []) (tl l).

(** ** Data sets *)
(** the content of a line: what remains without the blanks around it *)
Definition content (l : line) (s : text) : Prop :=
  exists a b, l = a ++ s ++ b /\ Forall (fun c => is_space c = true) (a ++ b) /\
    (forall c r, s = c :: r -> is_space c = false) /\ (forall c r, s = r ++ [c] -> is_space c = false).
Definition blank (l : line) : Prop := content l [].
Definition comment (l : line) : Prop := exists s, content l ("#"%char :: s).
Definition data (l : line) (s : text) : Prop := content l s /\ exists c r, s = c :: r /\ c <> "#"%char.
(** a row of numbers: the words of the line *)
Definition numbers (s : text) (r : list R) : Prop := map parse (words s) = map Some r.
(** the data lines [rows] among comments *)
Inductive data_set : file -> list text -> Prop :=
  | ds_nil : data_set [] []
  | ds_comment : forall l f rows, comment l -> data_set f rows -> data_set (l :: f) rows
  | ds_data : forall l s f rows, data l s -> data_set f rows -> data_set (l :: f) (s :: rows).
(** a number as written by a format: a word without blanks that reads back *)
Definition written (fmt : R -> text) (rnd : R -> R) (v : R) : Prop :=
  exists a w b, fmt v = a ++ w ++ b /\ Forall (fun c => is_space c = true) (a ++ b) /\ w <> [] /\
    Forall (fun c => is_space c = false) w /\ hd "0"%char w <> "#"%char /\ parse w = Some (rnd v).

(** ** Keys *)
(** the line names the key: what stands before the first '=' is the key, blanks apart *)
Definition names (key : text) (l : line) : Prop :=
  exists a b, l = a ++ "="%char :: b /\ ~ In "="%char a /\ strip a = strip key.
(** the text between the first '=' and the second one or the end of the line *)
Definition value_part (l : line) (v : text) : Prop :=
  exists a, ~ In "="%char a /\ ~ In "="%char v /\ (l = a ++ "="%char :: v \/ exists c, l = a ++ "="%char :: v ++ "="%char :: c).
End Numbers.

(** ** File types: the reader that a name calls for *)
Definition ends_with (name e : text) : Prop := exists b, lower name = b ++ e.
Inductive extension : Type := ExtElm | ExtPar | ExtSkf | ExtSpl | ExtOther.
Definition has_extension (name : text) (e : extension) : Prop :=
  match e with
  | ExtElm => ends_with name (txt ".elm")
  | ExtPar => ends_with name (txt ".par")
  | ExtSkf => ends_with name (txt ".skf")
  | ExtSpl => ends_with name (txt ".spl")
  | ExtOther => forall x, In x [".elm"; ".par"; ".skf"; ".spl"]%string -> ~ ends_with name (txt x)
  end.
(** the format that an extension stands for *)
Definition wanted_type (e : extension) : res format :=
  match e with ExtElm => Ok Elm | ExtPar => Ok Par | ExtSkf => Ok Skf | _ => Raise AttributeError end.
