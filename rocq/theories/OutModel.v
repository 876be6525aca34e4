(** Text output of a calculator.  hotbit/output.py, hotbit/aseinterface.py 336-348 (class Hotbit(Output) has a set_text of its own) *)
From Coq Require Import Ascii String List Bool Arith.
Import ListNotations.

Definition otext := list ascii.
(** self.txt: None before set_text, sys.stdout, a file opened for appending with what is in its buffer, or a closed file *)
Inductive stream := ONone | OStdout | OFile (name : string) (buffer : otext) | OClosed.
Record ostate := OState { files : string -> otext; stdout : otext; txt : stream }.
Inductive oerror := OAttribute | OValue.
Definition append (fs : string -> otext) (f : string) (s : otext) : string -> otext := fun g => if String.eqb g f then fs g ++ s else fs g.
(** the buffer of a file goes to its end *)
Definition written (s : ostate) : ostate := match txt s with OFile f b => OState (append (files s) f b) (stdout s) (OFile f []) | _ => s end.
(** set_text of aseinterface.py 336-345, which is that of output.py 10-15 but for '-' and 'null'; what goes to /dev/null is kept here under that name.
    Objects that have write are not modelled, nor is the timer, which gets the same stream.  The file used before is no longer referred to, so Python writes its buffer and closes it *)
Definition set_text (s : ostate) (name : option string) : ostate :=
  let s := written s in
  match name with None => OState (files s) (stdout s) OStdout
  | Some f => OState (files s) (stdout s) (OFile (if String.eqb f "-" || String.eqb f "null" then "/dev/null" else f)%string []) end.
(** print(text, file=calc.get_output()), e.g. states.py 221; file=None is sys.stdout *)
Definition print (s : ostate) (t : otext) : ostate * option oerror :=
  match txt s with
  | ONone | OStdout => (OState (files s) (stdout s ++ t) (txt s), None)
  | OFile f b => (OState (files s) (stdout s) (OFile f (b ++ t)), None)
  | OClosed => (s, Some OValue)
  end.
(** flush 25-26 *)
Definition flush (s : ostate) : ostate * option oerror :=
  match txt s with ONone => (s, Some OAttribute) | OClosed => (s, Some OValue) | _ => (written s, None) end.
(** close_output 17-20 *)
Definition close_output (s : ostate) : ostate * option oerror :=
  match flush s with
  | (s, None) => (match txt s with OStdout => s | _ => OState (files s) (stdout s) OClosed end, None)
  | r => r
  end.
(** Python writes the first k characters of a buffer whenever it likes *)
Definition spill (s : ostate) (k : nat) : ostate :=
  match txt s with OFile f b => OState (append (files s) f (firstn k b)) (stdout s) (OFile f (skipn k b)) | _ => s end.
Inductive oop := OSet (name : option string) | OPrint (t : otext) | OFlush | OClose | OSpill (k : nat).
(** a history of calls; a call that raises leaves the state as it was *)
Definition step (s : ostate) (o : oop) : ostate :=
  match o with OSet n => set_text s n | OPrint t => fst (print s t) | OFlush => fst (flush s) | OClose => fst (close_output s) | OSpill k => spill s k end.
Definition run (s : ostate) (l : list oop) : ostate := fold_left step l s.
Definition start (fs : string -> otext) : ostate := OState fs [] ONone.
