(** Independent stop-watches, one per label, and strict nesting. *)
From Coq Require Import Reals List Arith Bool String.
From Verif Require Import TimerModel.
Import ListNotations.
Open Scope R_scope.

(** A watch: the completed intervals (newest first) and, if it runs, when it
    was started. *)
Record watch := mkwatch { done_intervals : list (R * R); since : option R }.

(** The main label and the watches that exist. *)
Record board := mkboard { main : string; watches : string -> option watch }.

Definition set_watch (b : board) (l : string) (w : watch) : board :=
  mkboard (main b) (fun x => if string_dec x l then Some w else watches b x).

Definition is_running (b : board) (l : string) : bool :=
  match watches b l with Some (mkwatch _ (Some _)) => true | _ => false end.

Definition start_watch (b : board) (l : string) (now : R) : board * bool :=
  match watches b l with
  | Some (mkwatch _ (Some _)) => (b, false)
  | Some (mkwatch d None) => (set_watch b l (mkwatch d (Some now)), true)
  | None => (set_watch b l (mkwatch [] (Some now)), true)
  end.

Definition stop_watch (b : board) (l : string) (now : R) : board * bool :=
  match watches b l with
  | Some (mkwatch d (Some s)) => (set_watch b l (mkwatch ((s, now) :: d) None), true)
  | _ => (b, false)
  end.

(** start(l) needs the main watch to run; a summary stops all watches. *)
Definition bstep (b : board) (c : call) : board * bool :=
  match c with
  | Start l now => if is_running b (main b) then start_watch b l now else (b, false)
  | Stop l now => stop_watch b l now
  | StartMain now => start_watch b (main b) now
  | StopMain now => stop_watch b (main b) now
  | Summary now =>
      (mkboard (main b) (fun l => match watches b l with
                                  | Some (mkwatch d (Some s)) => Some (mkwatch ((s, now) :: d) None)
                                  | o => o end), true)
  end.

Fixpoint brun (b : board) (cs : list call) : board * list bool :=
  match cs with
  | [] => (b, [])
  | c :: r => let '(b', x) := bstep b c in
              let '(b'', xs) := brun b' r in (b'', x :: xs)
  end.

Definition new_board (l : string) (now : R) : board :=
  mkboard l (fun x => if string_dec x l then Some (mkwatch [] (Some now)) else None).

(** what a timer shows is what the watch recorded *)
Definition shows (i : tinfo) (w : watch) : Prop :=
  calls i = List.length (done_intervals w) /\
  elapsed i = fold_right (fun p acc => (snd p - fst p) + acc) 0 (done_intervals w) /\
  match since w with
  | Some s => running i = true /\ t1 i = s
  | None => running i = false
  end.

(** Strictly nested sequences of start/stop (the stack holds the open labels):
    a stop closes the innermost open label. *)
Fixpoint nested (stack : list string) (cs : list call) : Prop :=
  match cs with
  | [] => True
  | Start l _ :: r => nested (l :: stack) r
  | Stop l _ :: r => match stack with
                     | x :: s => x = l /\ nested s r
                     | [] => False
                     end
  | _ :: r => nested stack r
  end.

(** Strictly hierarchical use of distinct labels, below the main label. *)
Fixpoint hierarchical (main : string) (stack : list string) (cs : list call) : Prop :=
  match cs with
  | [] => True
  | Start l _ :: r => l <> main /\ ~ In l stack /\ hierarchical main (l :: stack) r
  | Stop l _ :: r => match stack with
                     | x :: s => x = l /\ hierarchical main s r
                     | [] => False
                     end
  | _ :: _ => False
  end.
