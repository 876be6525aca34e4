(** The nested timer of box/timing.py. *)
From Coq Require Import Reals List Arith Bool String.
Import ListNotations.
Open Scope R_scope.

(** attributes running, nr_of_calls, t1, elapsed_time of one timer *)
Record tinfo := mkinfo { running : bool; calls : nat; t1 : R; elapsed : R }.

(** A Timer object: label, attributes, level, child timers; box/timing.py 45-61.
    (first, last, txt, smry only concern the printed summary.) *)
Inductive timer := Node (label : string) (i : tinfo) (level : nat) (timers : list timer).

Definition t_label (t : timer) := match t with Node l _ _ _ => l end.
Definition t_info (t : timer) := match t with Node _ i _ _ => i end.
Definition t_level (t : timer) := match t with Node _ _ v _ => v end.
Definition t_children (t : timer) := match t with Node _ _ _ c => c end.

(** start() and stop() without label on one timer at clock reading [now];
    box/timing.py 114-118, 133-139.  None: AssertionError. *)
Definition start_self (now : R) (i : tinfo) : option tinfo :=
  if running i then None else Some (mkinfo true (calls i) now (elapsed i)).
Definition stop_self (now : R) (i : tinfo) : option tinfo :=
  if running i then Some (mkinfo false (S (calls i)) (t1 i) (elapsed i + (now - t1 i))) else None.

(** Timer.get_timer (the attributes of the first timer with this label in
    depth-first order); box/timing.py 77-88 *)
Fixpoint get_timer (l : string) (t : timer) : option tinfo :=
  match t with
  | Node lb i _ ch =>
      if string_dec lb l then Some i
      else (fix go (ts : list timer) : option tinfo :=
              match ts with
              | [] => None
              | c :: r => match get_timer l c with Some x => Some x | None => go r end
              end) ch
  end.

(** Assigning new attributes to the timer that get_timer returned (the object is
    shared, so the tree changes in place). *)
Fixpoint put_timer (l : string) (i' : tinfo) (t : timer) : timer :=
  match t with
  | Node lb i v ch =>
      if string_dec lb l then Node lb i' v ch
      else Node lb i v
            ((fix go (ts : list timer) : list timer :=
              match ts with
              | [] => []
              | c :: r => match get_timer l c with
                          | Some _ => put_timer l i' c :: r
                          | None => c :: go r
                          end
              end) ch)
  end.

(** get_outmost_running().add_subtimer(Timer(label, level+1)) with the attributes
    [i'] given to the new timer; box/timing.py 93-109, 124-126.  The timer
    itself must be running (checked by the caller). *)
Fixpoint add_outmost (l : string) (i' : tinfo) (t : timer) : timer :=
  match t with
  | Node lb i v ch =>
      Node lb i v
        (if existsb (fun c => running (t_info c)) ch
         then (fix go (ts : list timer) : list timer :=
                 match ts with
                 | [] => []
                 | c :: r => if running (t_info c) then add_outmost l i' c :: r else c :: go r
                 end) ch
         else ch ++ [Node l i' (S v) []])
  end.

Definition fresh_info : tinfo := mkinfo false 0 0 0.

(** Timer(label): the main timer starts itself; box/timing.py 31-61 *)
Definition new_timer (l : string) (now : R) : timer := Node l (mkinfo true 0 now 0) 0 [].

(** get_summary: every timer that runs is stopped by get_time; box/timing.py 67-75,
    146-152.  One clock reading is used for the whole summary (simplified). *)
Fixpoint stop_all (now : R) (t : timer) : timer :=
  match t with
  | Node lb i v ch =>
      Node lb (match stop_self now i with Some i' => i' | None => i end) v
        ((fix go (ts : list timer) : list timer :=
            match ts with [] => [] | c :: r => stop_all now c :: go r end) ch)
  end.

(** Calls made on the main timer, each with the clock reading. *)
Inductive call :=
| Start (l : string) (now : R)    (** start(l) *)
| Stop (l : string) (now : R)     (** stop(l) *)
| StartMain (now : R)             (** start() *)
| StopMain (now : R)              (** stop() *)
| Summary (now : R).              (** summary() *)

(** start / stop / summary of an enabled timer; box/timing.py 111-144, 180-195.
    The boolean tells whether the call returned (true) or raised. *)
Definition tstep (t : timer) (c : call) : timer * bool :=
  match c with
  | Start l now =>
      let tr := get_timer l t in
      if running (t_info t) then
        match tr with
        | None => match start_self now fresh_info with
                  | Some i' => (add_outmost l i' t, true)
                  | None => (t, false)
                  end
        | Some i => if running i then (t, false)
                    else match start_self now i with
                         | Some i' => (put_timer l i' t, true)
                         | None => (t, false)
                         end
        end
      else (t, false)
  | Stop l now =>
      match get_timer l t with
      | None => (t, false)
      | Some i => match stop_self now i with
                  | Some i' => (put_timer l i' t, true)
                  | None => (t, false)
                  end
      end
  | StartMain now =>
      match start_self now (t_info t) with
      | Some i' => (Node (t_label t) i' (t_level t) (t_children t), true)
      | None => (t, false)
      end
  | StopMain now =>
      match stop_self now (t_info t) with
      | Some i' => (Node (t_label t) i' (t_level t) (t_children t), true)
      | None => (t, false)
      end
  | Summary now => (stop_all now t, true)
  end.

Fixpoint trun (t : timer) (cs : list call) : timer * list bool :=
  match cs with
  | [] => (t, [])
  | c :: r => let '(t', b) := tstep t c in
              let '(t'', bs) := trun t' r in (t'', b :: bs)
  end.

(** Timer.human_readable_time; box/timing.py 198-204.  [/] is the true division of
    Python 3, "%i" truncates.  The argument is the rounded number of seconds. *)
Definition human_readable (seconds : R) : Z * Z * Z :=
  let hours := seconds / 3600 in
  let seconds := seconds - hours * 3600 in
  let mins := seconds / 60 in
  let seconds := seconds - mins * 60 in
  (Int_part hours, Int_part mins, Int_part seconds).  (* non-negative numbers *)
