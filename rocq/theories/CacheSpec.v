(** What a user of the calculator expects of each call: specification,
    written without reference to the machine's state. *)
From Coq Require Import List Bool.
Import ListNotations.
From Verif Require Import CacheModel.

Section Spec.
Variable w : world.

(** [x] is what solving exactly the atoms [a] gives, with total charge [c],
    [a]'s own symmetry ranges and [a]'s own k-points.  With SCC the starting
    charges of the iteration may be any; without SCC they are zero. *)
Definition solution (c : chg w) (a : atoms w) (x : sol w) : Prop :=
  exists k g, kpts_of w a = Some k /\ (scc w = false -> g = zeros w) /\
              solve w c (a, rng_of w a) k g = Some x.

(** The atoms a call is about. *)
Definition about (o : op w) : option (atoms w) :=
  match o with
  | GetE a | GetF a | GetEbs a | GetEcoul a | Solve a | GetStress a | GetDq a
  | SetAtoms a => Some a
  | _ => None
  end.

(** A call that only asks. *)
Definition query (o : op w) : Prop :=
  match o with SetAtoms _ | SetCharge _ => False | _ => True end.

(** The value [r] returned by call [o] belongs to the atoms of the call. *)
Definition answers (c : chg w) (o : op w) (r : out w) : Prop :=
  match o with
  | GetE a => exists x y, solution c a x /\ solution c a y /\
      r = OVal (etot w (ebs_of w x) (ecoul_of w y)
                     (erep_of w (a, rng_of w a)) (epp_of w (a, rng_of w a)))
  | GetF a => exists x, solution c a x /\ r = OFor (ftot w x (a, rng_of w a))
  | GetEbs a => exists x, solution c a x /\ r = OVal (ebs_of w x)
  | GetEcoul a => exists x, solution c a x /\ r = OVal (ecoul_of w x)
  | GetDq a => exists x, solution c a x /\ r = ODq (dq_of w x)
  | Solve a | GetStress a => (exists x, solution c a x) /\ r = OUnit
  | _ => True
  end.

(** The exception of call [o] has its cause in the atoms of the call:
    its k-points cannot be set up, or solving exactly these atoms raises, or
    charges are asked of a non-SCC calculation. *)
Definition excused (c : chg w) (o : op w) (e : err) : Prop :=
  match about o with
  | None => True
  | Some a =>
      (e = EKpoints /\ kpts_of w a = None) \/
      (e = ESolve /\ exists k g, kpts_of w a = Some k /\ (scc w = false -> g = zeros w) /\
         match solve w c (a, rng_of w a) k g with
         | None => True | Some x => mull_ok w c x = false end) \/
      (e = ENoDq /\ scc w = false /\ o = GetDq a)
  end.

(** Did the call end in an exception from solving? *)
Definition solve_failed (r : out w) : Prop :=
  r = OErr EKpoints \/ r = OErr ESolve \/ r = OErr ETimer.

(** Same symmetry ranges and same k-points. *)
Definition same_setting (a b : atoms w) : Prop :=
  rng_of w a = rng_of w b /\ kpts_of w a = kpts_of w b.

(** Atoms.__eq__ compares faithfully. *)
Definition eq_faithful : Prop :=
  forall a b : atoms w, atoms_eqb w a b = true <-> a = b.

(** The atoms of the last energy call of a history that returned a value. *)
Fixpoint last_energy (h : list (op w)) (rs : list (out w)) (acc : option (atoms w))
  : option (atoms w) :=
  match h, rs with
  | GetE a :: h', OVal _ :: rs' => last_energy h' rs' (Some a)
  | _ :: h', _ :: rs' => last_energy h' rs' acc
  | _, _ => acc
  end.

(** What a fresh calculator returns, without SCC. *)
Definition fresh_sol (c : chg w) (a : atoms w) : option (sol w) :=
  match kpts_of w a with
  | Some k => solve w c (a, rng_of w a) k (zeros w)
  | None => None
  end.

Definition fresh_energy (c : chg w) (a : atoms w) : option (val w) :=
  option_map (fun x => etot w (ebs_of w x) (ecoul_of w x)
                            (erep_of w (a, rng_of w a)) (epp_of w (a, rng_of w a)))
             (fresh_sol c a).

Definition fresh_forces (c : chg w) (a : atoms w) : option (fvec w) :=
  option_map (fun x => ftot w x (a, rng_of w a)) (fresh_sol c a).

End Spec.

Arguments about {w}. Arguments query {w}. Arguments answers {w}. Arguments excused {w}.
Arguments solve_failed {w}. Arguments same_setting {w}. Arguments last_energy {w}.
Arguments solution {w}.
