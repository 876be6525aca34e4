(** Charge mixers (box/misc.py, box/pulay.py, box/dummymixer.py,
    box/buildmixer.py) and the self-consistency loop (hotbit/solver.py). *)
From Coq Require Import Reals List Arith Bool String Ascii.
From Verif Require Import Vec.
Import ListNotations.
Open Scope R_scope.

(** Parameters of a mixer object; box/misc.py 18-22, box/pulay.py 9-16.
    [chop = None] is the default (no limit). *)
Record params := mkparams {
  beta : R;
  memory : nat;
  convergence : R;
  chop : option R }.

(** np.dot of two vectors of length n *)
Definition dot (n : nat) (u v : vec) : R := rsum n (fun k => u k * v k).

(** The last stretch of both __call__ methods: maxdev=max(abs(xb-xi)) and the
    chop; box/misc.py 68-71 and box/pulay.py 56-59.  [max] of an empty array
    raises in Python, so n is the positive length. *)
Definition chopped (p : params) (n : nat) (xi xb : vec) : vec :=
  let maxdev := maxabs n (fun k => xb k - xi k) in
  match chop p with
  | None => xb
  | Some c => if Rlt_dec c maxdev
              then (fun k => xi k + c / maxdev * (xb k - xi k))
              else xb
  end.

(** self.beta-mixing; box/misc.py 57, box/pulay.py 46 *)
Definition simple_mix (p : params) (xi yi : vec) : vec :=
  fun k => (1 - beta p) * xi k + beta p * yi k.

(** ** Anderson mixer *)

(** The attributes it, F, x, fmax; F and x are arrays of memory+1 rows.
    fmax is kept newest first (Python appends). *)
Record astate := mkastate {
  a_it : nat;
  a_F : nat -> vec;
  a_x : nat -> vec;
  a_fmax : list R }.

Definition zero_rows : nat -> vec := fun _ _ => 0.

(** arr[1:m+1,:] = arr[0:m,:] (numpy copies overlapping slices safely);
    box/misc.py 74-75 *)
Definition shift_rows (m : nat) (a : nat -> vec) : nat -> vec :=
  fun i => if andb (1 <=? i) (i <=? m) then a (i - 1)%nat else a i.

(** arr[0,:] = v; box/misc.py 36-37 *)
Definition set_row0 (v : vec) (a : nat -> vec) : nat -> vec :=
  fun i => match i with O => v | S _ => a i end.

(** the linear system of box/misc.py 41-47 *)
Definition a_mat (n : nat) (F : nat -> vec) (i j : nat) : R :=
  dot n (fun k => F O k - F (S i) k) (fun k => F O k - F (S j) k).
Definition a_rhs (n : nat) (F : nat -> vec) (i : nat) : R :=
  dot n (fun k => F O k - F (S i) k) (F O).

(** scipy.linalg.solve on an M x M system; None when it raises.  An arbitrary
    function: nothing is assumed about its answers. *)
Definition solver := nat -> (nat -> nat -> R) -> vec -> option vec.

(** box/misc.py 60-65: xb=xi.copy(); Fb=F[0]; the loop over j; xb+beta*Fb *)
Fixpoint a_sum (M : nat) (c : vec) (base : vec) (rows : nat -> vec) : vec :=
  match M with
  | O => base
  | S m => fun k => a_sum m c base rows k + c m * (rows (S m) k - base k)
  end.

Definition a_combine (p : params) (M : nat) (c xi : vec) (F x : nat -> vec) : vec :=
  let xb := a_sum M c xi x in
  let Fb := a_sum M c (F O) F in
  fun k => xb k + beta p * Fb k.

(** AndersonMixer.__call__; box/misc.py 30-83; n = len(xi) >= 1 *)
Definition anderson (sv : solver) (p : params) (n : nat) (s : astate) (xi yi : vec)
  : astate * (bool * vec) :=
  let F1 := if a_it s =? 0 then zero_rows else a_F s in
  let x1 := if a_it s =? 0 then zero_rows else a_x s in
  let it := S (a_it s) in
  let M := Nat.min (it - 1) (memory p) in
  let F := set_row0 (fun k => yi k - xi k) F1 in
  let x := set_row0 xi x1 in
  let c := if M <=? 1 then None else sv M (a_mat n F) (a_rhs n F) in
  let xb := match c with
            | None => simple_mix p xi yi
            | Some c => a_combine p M c xi F x
            end in
  let xb := chopped p n xi xb in
  let F' := shift_rows (memory p) F in
  let x' := shift_rows (memory p) x in
  let fmax := maxabs n (F' O) in
  (mkastate it F' x' (fmax :: a_fmax s),
   (if Rlt_dec fmax (convergence p) then true else false, xb)).

(** AndersonMixer() / reset(); box/misc.py 18-22, box/dummymixer.py 7-16.
    A new object has no F and x yet; any value will do as they are
    allocated at the first call. *)
Definition anderson_new : astate := mkastate 0 zero_rows zero_rows [].
Definition anderson_reset (s : astate) : astate := mkastate 0 (a_F s) (a_x s) [].

(** ** Pulay mixer *)

(** The attributes it, R, rho, fmax (newest first), A and alfa *)
Record pstate := mkpstate {
  p_it : nat;
  p_R : nat -> vec;
  p_rho : nat -> vec;
  p_A : nat -> nat -> R;
  p_alfa : vec;
  p_fmax : list R }.

(** arr[1:lim] = arr[0:lim-1]; arr[0] = v; box/pulay.py 32-35 *)
Definition push_row (lim : nat) (v : vec) (a : nat -> vec) : nat -> vec :=
  fun i => match i with
           | O => v
           | S j => if i <? lim then a j else a i
           end.

(** np.linalg.inv; None when it raises *)
Definition inverter := nat -> (nat -> nat -> R) -> option (nat -> nat -> R).

(** PulayMixer.__call__; box/pulay.py 26-66.  [lim] is at least 1 for
    memory >= 1 (with memory = 0 the assignment rho[0]=xi raises). *)
Definition pulay (iv : inverter) (p : params) (n : nat) (s : pstate) (xi yi : vec)
  : pstate * (bool * vec) :=
  let R0 := if p_it s =? 0 then zero_rows else p_R s in
  let rho0 := if p_it s =? 0 then zero_rows else p_rho s in
  let it := S (p_it s) in
  let lim := Nat.min it (memory p) in
  let rho := push_row lim xi rho0 in
  let R' := push_row lim (fun k => yi k - xi k) R0 in
  let A := fun i j => if andb (i <? lim) (j <? lim) then dot n (R' j) (R' i) else p_A s i j in
  let '(alfa, xb) :=
    match iv lim A with
    | None => (p_alfa s, simple_mix p xi yi)
    | Some B =>
        let down := rsum lim (fun i => rsum lim (fun j => B i j)) in
        let alfa := fun i => if i <? lim then rsum lim (fun j => B j i) / down
                             else p_alfa s i in
        (alfa, fun k => rsum lim (fun i => alfa i * (rho i k + beta p * R' i k)))
    end in
  let xb := chopped p n xi xb in
  let fmax := maxabs n (R' O) in
  let fm := fmax :: p_fmax s in
  (mkpstate it R' rho A alfa fm,
   (andb (3 <? it)
      (forallb (fun f => if Rlt_dec f (convergence p) then true else false) (firstn 3 fm)),
    xb)).

(** PulayMixer() and reset(); box/pulay.py 9-16, box/dummymixer.py 14-16 *)
Definition pulay_new : pstate :=
  mkpstate 0 zero_rows zero_rows (fun _ _ => 0) (fun _ => 0) [].
Definition pulay_reset (s : pstate) : pstate :=
  mkpstate 0 (p_R s) (p_rho s) (p_A s) (p_alfa s) [].

(** A mixer object as a state machine: reset and call. *)
Record mixer := mkmixer {
  mst : Type;
  m_reset : mst -> mst;
  m_call : mst -> vec -> vec -> mst * (bool * vec) }.

Definition anderson_mixer sv p n : mixer := mkmixer astate anderson_reset (anderson sv p n).
Definition pulay_mixer iv p n : mixer := mkmixer pstate pulay_reset (pulay iv p n).
(** DummyMixer.__call__; box/dummymixer.py 19-20 *)
Definition dummy_mixer : mixer := mkmixer unit (fun s => s) (fun s _ yi => (s, (false, yi))).

(** Answers of a mixer to a list of (xi,yi). *)
Fixpoint answers_of (m : mixer) (s : mst m) (ins : list (vec * vec)) : list (bool * vec) :=
  match ins with
  | [] => []
  | (xi, yi) :: r => let '(s', o) := m_call m s xi yi in o :: answers_of m s' r
  end.

(** ** The loop of Solver.get_states; hotbit/solver.py 61-100

    The physics of one pass is the oracle: [eigen dq] is construct_h1 followed by the
    diagonalisation for these charges (None: it raised, solver.py 103-143), [occupy e]
    is st.update(e,wf); st.get_dq() (None: it raised).  Without SCC the
    Hamiltonian does not depend on dq: [eigen0].  Result values: *)
Section Loop.
  Variable states : Type.
  Variable eigen : vec -> option states.
  Variable eigen0 : option states.
  Variable occupy : states -> option vec.
  Variable m : mixer.

  Inductive outcome :=
  | Returned (e : states) (recorded : option nat)  (** normal return; [recorded] is what
        goes into self.iterations and iter_history *)
  | OutOfIterations                                 (** RuntimeError *)
  | Raised                                          (** exception inside eigen or occupy *)
  | NeverSolved.                                    (** loop body not executed: st.e of before *)

  (** One call of the loop with [todo] passes left at index i; the second
      component counts the diagonalisations.  The test i==maxiter-1 of line 93 is
      todo = 1. *)
  Fixpoint scc_loop (todo i : nat) (s : mst m) (dq : vec) : outcome * nat :=
    match todo with
    | O => (NeverSolved, O)
    | S todo' =>
        match eigen dq with
        | None => (Raised, 1%nat)
        | Some e =>
            match occupy e with
            | None => (Raised, 1%nat)
            | Some out =>
                let '(s', (done, dq')) := m_call m s dq out in
                if done then (Returned e (Some i), 1%nat)
                else match todo' with
                     | O => (OutOfIterations, 1%nat)
                     | S _ => let '(r, k) := scc_loop todo' (S i) s' dq' in (r, S k)
                     end
            end
        end
    end.

  (** get_states: reset the mixer, then loop *)
  Definition get_states (scc : bool) (maxiter : nat) (s : mst m) (dq : vec) : outcome * nat :=
    let s := m_reset m s in
    if scc then scc_loop maxiter 0 s dq
    else match maxiter with
         | O => (NeverSolved, O)
         | S _ => match eigen0 with
                  | None => (Raised, 1%nat)
                  | Some e => match occupy e with
                              | None => (Raised, 1%nat)
                              | Some _ => (Returned e None, 1%nat)
                              end
                  end
         end.
End Loop.
Arguments Returned {states}. Arguments OutOfIterations {states}.
Arguments Raised {states}. Arguments NeverSolved {states}.
Arguments scc_loop {states}. Arguments get_states {states}.

(** States.guess_dq; hotbit/states.py 178-187: zero extra charge spread evenly at
    first, afterwards linear extrapolation of the two previous solutions. *)
Definition guess_dq (n : nat) (charge : R) (prev : list vec) : vec :=
  match prev with
  | [] => fun _ => 0 - charge / INR n
  | [p0] => p0
  | p0 :: p1 :: _ => fun k => p0 k + (p0 k - p1 k)
  end.

(** Solver.get_iteration_info; hotbit/solver.py 31-38.  The text is represented by
    the numbers printed; [Many times total shown_max shown_min] with the average =
    total/times. *)
Inductive info :=
| ZeroTimes
| OneTime (it : nat)
| Many (times total shown_max shown_min : nat).

Definition iteration_info (h : list nat) : info :=
  match h with
  | [] => ZeroTimes
  | [a] => OneTime a
  | a :: r =>
      let mx := fold_left Nat.min r a in   (** avg, mx, mn = mean, np.min, np.max *)
      let mn := fold_left Nat.max r a in
      Many (List.length h) (fold_right plus O h) mx mn
  end.

(** ** BuildMixer; box/buildmixer.py 1-18 *)

(** str.lower on 8-bit text (ASCII letters; other characters unchanged) *)
Definition lower_ascii (c : ascii) : ascii :=
  let k := nat_of_ascii c in
  if andb (65 <=? k) (k <=? 90) then ascii_of_nat (k + 32) else c.
Fixpoint lower (s : string) : string :=
  match s with
  | EmptyString => EmptyString
  | String c r => String (lower_ascii c) (lower r)
  end.

(** Values of the dictionary: a string, a number, or None. *)
Inductive value := VStr (s : string) | VNum (r : R) | VNone.

(** What can be passed as params. *)
Inductive spec :=
| SNone | SStr (s : string) | SDict (d : list (string * value)) | SOther.

Inductive mixer_name := Anderson | Pulay.
Inductive built :=
| Built (m : mixer_name) (given : list (string * value))
| KeyErr | TypeErr | AttrErr | NoName.

(** the table [mixers]; line 4 *)
Definition mixer_table (s : string) : option mixer_name :=
  if string_dec s "pulay" then Some Pulay
  else if string_dec s "anderson" then Some Anderson else None.

(** keyword arguments accepted by both constructors; misc.py 18, pulay.py 9 *)
Definition accepted (k : string) : bool :=
  existsb (String.eqb k) ["mixing_constant"; "memory"; "convergence"; "chop"]%string.

Definition lookup (k : string) (d : list (string * value)) : option value :=
  option_map snd (find (fun e => String.eqb (fst e) k) d).
Definition pop (k : string) (d : list (string * value)) : list (string * value) :=
  filter (fun e => negb (String.eqb (fst e) k)) d.

Definition construct (name : string) (kw : list (string * value)) : built :=
  match mixer_table name with
  | None => KeyErr
  | Some m => if forallb (fun e => accepted (fst e)) kw then Built m kw else TypeErr
  end.

(** Dictionaries have distinct keys. *)
Definition build_mixer (sp : spec) : built :=
  match sp with
  | SNone => construct "anderson" []
  | SStr s => construct (lower s) []
  | SDict d =>
      match lookup "name" d with
      | None => NoName
      | Some (VStr s) => construct (lower s) (pop "name" d)
      | Some _ => AttrErr
      end
  | SOther => NoName
  end.
