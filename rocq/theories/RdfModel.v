(** Lines and comments of files.  box/mix.py *)
From Coq Require Import Ascii List Bool Arith.
Import ListNotations.

(** whitespace of str.lstrip among the ASCII characters: tab to carriage return, file to unit separator, space *)
Definition white (c : ascii) : bool := let n := nat_of_ascii c in ((9 <=? n) && (n <=? 13)) || ((28 <=? n) && (n <=? 32)).
Fixpoint lstrip (l : list ascii) : list ascii := match l with c :: l' => if white c then lstrip l' else l | [] => [] end.
Inductive rmode := RAll | RComments | RNocomments | ROther.
(** line[0]==commentchar, a string *)
Definition is_char (c : ascii) (commentchar : list ascii) : bool := match commentchar with [d] => Ascii.eqb c d | _ => false end.
(** one pass of the loop of read_file 630-634 *)
Definition keep (mode : rmode) (commentchar line : list ascii) (ret : list (list ascii)) : list (list ascii) :=
  let line := lstrip line in
  match line with
  | [] => ret
  | c :: _ =>
    let ret := if is_char c commentchar && (match mode with RComments => true | _ => false end) then ret ++ [line] else ret in
    if negb (is_char c commentchar) && (match mode with RNocomments => true | _ => false end) then ret ++ [line] else ret
  end.
(** read_file 606-636 of an existing file: lines is f.readlines() *)
Definition read_file (mode : rmode) (commentchar : list ascii) (lines : list (list ascii)) : list (list ascii) :=
  match mode with RAll => lines | _ => fold_left (fun ret line => keep mode commentchar line ret) lines [] end.
