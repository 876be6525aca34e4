(** Energy gap, frontier orbitals and excitations of the dielectric function.  hotbit/aseinterface.py, hotbit/states.py *)
From Coq Require Import Reals List Bool Arith.
From Verif Require Import Vec GeomModel.
Import ListNotations.
Open Scope R_scope.

(** nk x norb arrays, flattened row by row (numpy flatten) *)
Definition flat {A} (nk norb : nat) (x : nat -> nat -> A) : list A := map (fun n => x (n / norb)%nat (n mod norb)%nat) (seq 0 (nk * norb)).

(** ** get_energy_gap, aseinterface.py 536-555.  ehi, elo with the occupations assigned so far *)
Record gapst := GS { elo : R; flo : option R; ehi : R; fhi : option R }.
Definition big : R := 10 ^ 10.
Definition gap_step (s : gapst) (x : R * R) : gapst :=
  let '(e, f) := x in
  if ltb (elo s) e && leb e 0 then GS e (Some f) (ehi s) (fhi s)
  else if ltb 0 e && ltb e (ehi s) then GS (elo s) (flo s) e (Some f) else s.
(** None: UnboundLocalError in line 555 *)
Definition energy_gap (l : list (R * R)) : option (R * R) :=
  let s := fold_left gap_step l (GS (- big) None big None) in
  match flo s, fhi s with Some a, Some b => Some (ehi s - elo s, (a - b) / 2) | _, _ => None end.
Definition get_energy_gap (nk norb : nat) (e f : nat -> nat -> R) (mu : R) : option (R * R) :=
  energy_gap (combine (flat nk norb (fun k a => e k a - mu)) (flat nk norb f)).

(** ** get_state_indices, aseinterface.py 558-574.  A masked element (None) counts as -inf for argmax and as inf for argmin *)
Definition above (x y : option R) : bool := match x, y with Some a, Some b => ltb b a | Some _, None => true | None, _ => false end.
Definition below (x y : option R) : bool := match x, y with Some a, Some b => ltb a b | Some _, None => true | None, _ => false end.
(** numpy argmax and argmin: the first best element; argbest better l i bi bx continues at index i with the best so far *)
Fixpoint argbest (better : option R -> option R -> bool) (l : list (option R)) (i bi : nat) (bx : option R) : nat :=
  match l with [] => bi | x :: l => if better x bx then argbest better l (S i) i x else argbest better l (S i) bi bx end.
Definition arg (better : option R -> option R -> bool) (l : list (option R)) : nat := match l with [] => 0%nat | x :: l => argbest better l 1 0 x end.
Inductive which := HOMO | LUMO.
Definition get_state_indices (nk norb : nat) (e : nat -> nat -> R) (mu : R) (w : which) : nat * nat :=
  let n := match w with
    | HOMO => arg above (flat nk norb (fun k a => let x := e k a - mu in if ltb 0 x then None else Some x))
    | LUMO => arg below (flat nk norb (fun k a => let x := e k a - mu in if ltb x 0 then None else Some x)) end in
  ((n / norb)%nat, (n mod norb)%nat).

(** ** get_homo and get_lumo, states.py 289-305.  None: no such orbital *)
Definition any (n : nat) (p : nat -> bool) : bool := existsb p (seq 0 n).
Definition get_homo (nk norb : nat) (f : nat -> nat -> R) (occu : R) : option nat :=
  find (fun i => any nk (fun k => ltb occu (f k i))) (rev (seq 0 norb)).
Definition get_lumo (nk norb : nat) (f : nat -> nat -> R) (occu : R) : option nat :=
  find (fun i => any nk (fun k => ltb (f k i) occu)) (seq 0 norb).

(** ** The excitations of get_dielectric_function, aseinterface.py 656-692.  list(...).index(True): None is ValueError *)
Definition index_true (n : nat) (p : nat -> bool) : option nat := find p (seq 0 n).
Definition otol : R := 5 / 100.
Definition prange (a b : nat) : list nat := seq a (b - a).
(** lines 680-689 for one a *)
Definition transitions_from (norb : nat) (e f : nat -> R) (cutoff : R) (bmin a : nat) : option (list (nat * nat)) :=
  match index_true norb (fun i => ltb (e a + cutoff) (e i)) with
  | None => None
  | Some bmax => Some (map (fun b => (a, b)) (filter (fun b => negb (ltb (f a - f b) otol)) (prange (Nat.max (a + 1) bmin) (bmax + 1))))
  end.
Fixpoint collect {A} (l : list (option (list A))) : option (list A) :=
  match l with
  | [] => Some []
  | None :: _ => None
  | Some x :: l => match collect l with None => None | Some y => Some (x ++ y) end
  end.
Definition transitions (norb : nat) (e f : nat -> R) (cutoff : R) : option (list (nat * nat)) :=
  match index_true norb (fun i => ltb (f i) (2 - otol)) with None => None | Some bmin =>
  match index_true norb (fun i => ltb (e bmin - cutoff) (e i)) with None => None | Some amin =>
  match index_true norb (fun i => ltb (f i) otol) with None => None | Some amax =>
  collect (map (transitions_from norb e f cutoff bmin) (prange amin (amax + 1))) end end end.
(** all k-points; ex.max() of an empty array is a ValueError too.  Lines 660-663: the default cutoff *)
Definition dielectric_transitions (nk norb : nat) (e f : nat -> nat -> R) (cutoff : option R) : option (list (nat * (nat * nat))) :=
  let c := match cutoff with None => big | Some c => c end in
  match collect (map (fun k => match transitions norb (e k) (f k) c with None => None | Some l => Some (map (fun x => (k, x)) l) end) (seq 0 nk)) with
  | None => None
  | Some [] => None
  | Some l => Some l
  end.
