(** Model of the result cache of the calculator:
    hotbit/aseinterface.py (class Hotbit), hotbit/elements.py (class Elements)
    and the driver part of hotbit/states.py (class States). *)
From Coq Require Import List Bool Arith Lia String.
Import ListNotations.

(** What the cache logic calls but does not look into.  Every theorem is
    proved for an arbitrary [world]; nothing is assumed about its members
    except where a theorem says so. *)
Record world := World {
  atoms   : Type;                       (* an ase / hotbit Atoms object *)
  rng     : Type;                       (* Elements.ranges *)
  kset    : Type;                       (* States.k, States.wk *)
  qvec    : Type;                       (* a vector of excess charges dq *)
  sol     : Type;                       (* States: e, wf, rho, S, H0, dq, es... *)
  val     : Type;                       (* an energy *)
  fvec    : Type;                       (* an array of forces *)
  chg     : Type;                       (* total charge *)
  ana     : Type;                       (* result of an analysis method *)

  atoms_eqb : atoms -> atoms -> bool;   (* Atoms.__eq__, hotbit/atoms.py:243-244 *)
  same_symbols : atoms -> atoms -> bool;
  rng_of  : atoms -> rng;               (* elements.py:113-129 *)
  kpts_of : atoms -> option kset;       (* states.py:79-175; None: it raises *)
  init_ok : chg -> atoms -> bool;       (* aseinterface.py:410-435 does not raise *)
  scc     : bool;                       (* the SCC parameter *)
  zeros   : qvec;                       (* states.py:181 *)
  guess0  : chg -> qvec;                (* states.py:183 *)
  extrap  : qvec -> qvec -> qvec;       (* states.py:187, p0 + (p0-p1) *)

  (* States.solve, states.py:198-212: [None] is "an exception was raised".
     Arguments: Elements.charge (hence the number of electrons), geometry,
     k-points, starting charges. *)
  solve   : chg -> atoms * rng -> kset -> qvec -> option sol;
  mull_ok : chg -> sol -> bool;         (* states.py:329-331 with calc.charge *)
  wreck   : option sol -> atoms * rng -> sol; (* States after a raising solve *)

  dq_of   : sol -> qvec;
  ebs_of  : sol -> val;                 (* states.py:335-349 *)
  ecoul_of: sol -> val;                 (* electrostatics.py:185-194 *)
  erep_of : atoms * rng -> val;         (* repulsion.py:86-107 *)
  epp_of  : atoms * rng -> val;         (* pairpotential.py:97-121 *)
  etot    : val -> val -> val -> val -> val; (* ebs+ecoul+erep+epp-efree, aseinterface.py:463 *)
  ftot    : sol -> atoms * rng -> fvec; (* aseinterface.py:478-483 *)
  analyse : sol -> ana;                 (* analysis/mulliken.py *)
  gridres : nat -> atoms * rng -> sol -> ana  (* grids.py: spacing, box geometry, states *)
}.

Inductive err :=
| ENoElements    (* AttributeError: self.el before initialisation *)
| EInit          (* _initialize raised *)
| ESymbols       (* RuntimeError in set_atoms *)
| EKpoints       (* setup_k_sampling raised *)
| ETimer         (* AssertionError 'Timer solve is already running!' *)
| ESolve         (* an exception inside States.solve *)
| ENoDq          (* AttributeError: no dq without SCC *)
| ENotSolved     (* AssertionError 'Electronic structure is not solved yet!' *)
| ENoGrid        (* AssertionError 'Grid needs to be set first' *)
| EAttr.         (* AttributeError on a value never computed *)

Section Machine.
Variable w : world.

Definition geom := (atoms w * rng w)%type.

(** The fields of Hotbit, Elements and States the cache logic uses. *)
Record state := St {
  el_atoms  : atoms w;                  (* Elements.atoms *)
  el_ranges : rng w;                    (* Elements.ranges: set by set_atoms only *)
  el_geom   : option geom;              (* Elements.Rn/rijn/..., set by update_geometry *)
  el_charge : chg w;                    (* Elements.charge, elements.py:38-39 *)
  c_charge  : chg w;                    (* Hotbit.charge *)
  st_k      : option (kset w);          (* States.nk/k/wk *)
  st_sol    : option (sol w);           (* States.rho/e/wf/... *)
  st_prev   : list (qvec w);            (* States.prev_dq with States.count entries (at most 2) *)
  timer_on  : bool;                     (* is the timer 'solve' left running? *)
  s_gs      : option (atoms w);         (* solved['ground state'] *)
  s_energy  : option (atoms w);         (* solved['energy'] *)
  s_forces  : option (atoms w);         (* solved['forces'] *)
  s_ebs     : option (atoms w);         (* solved['ebs'] *)
  v_epot    : option (val w);           (* Hotbit.epot *)
  v_f       : option (fvec w);          (* Hotbit.f *)
  v_ebs     : option (val w);           (* Hotbit.ebs *)
  a_mull    : option (sol w);           (* flags['Mulliken'] and the object built *)
  a_grid    : option (nat * geom);      (* flags['grid'] and the object built *)
  n_solves  : nat                       (* ghost: how often States.solve ran *)
}.

(** aseinterface.py:407-439 for a calculator not yet initialised, and
    elements.py:38-39, 77, 108-130, states.py:70-76.
    Simplification: initialisation failures are one error and leave the
    calculator uninitialised. *)
Definition fresh_state (c : chg w) (a : atoms w) : state :=
  {| el_atoms := a; el_ranges := rng_of w a; el_geom := None; el_charge := c;
     c_charge := c; st_k := None; st_sol := None; st_prev := []; timer_on := false;
     s_gs := None; s_energy := None; s_forces := None; s_ebs := None;
     v_epot := None; v_f := None; v_ebs := None;
     a_mull := None; a_grid := None; n_solves := 0 |}.

(** elements.py:134-153 for one quantity. *)
Definition required (s : state) (q : option (atoms w)) (a : atoms w) : bool :=
  match s_gs s with
  | None => true
  | Some _ => match q with
              | None => true
              | Some b => negb (atoms_eqb w b a)
              end
  end.

(** states.py:178-187. *)
Definition guess (s : state) : qvec w :=
  if scc w then
    match st_prev s with
    | [] => guess0 w (c_charge s)
    | [p] => p
    | p0 :: p1 :: _ => extrap w p0 p1
    end
  else zeros w.

(** elements.py:176-244: the atoms and all data derived from them; the
    symmetry ranges are those of the last set_atoms. *)
Definition update_geometry (s : state) (a : atoms w) : state :=
  {| el_atoms := a; el_ranges := el_ranges s; el_geom := Some (a, el_ranges s);
     el_charge := el_charge s; c_charge := c_charge s; st_k := st_k s;
     st_sol := st_sol s; st_prev := st_prev s; timer_on := timer_on s;
     s_gs := s_gs s; s_energy := s_energy s; s_forces := s_forces s; s_ebs := s_ebs s;
     v_epot := v_epot s; v_f := v_f s; v_ebs := v_ebs s;
     a_mull := a_mull s; a_grid := a_grid s; n_solves := n_solves s |}.

Definition set_k (s : state) (k : kset w) : state :=
  {| el_atoms := el_atoms s; el_ranges := el_ranges s; el_geom := el_geom s;
     el_charge := el_charge s; c_charge := c_charge s; st_k := Some k;
     st_sol := st_sol s; st_prev := st_prev s; timer_on := timer_on s;
     s_gs := s_gs s; s_energy := s_energy s; s_forces := s_forces s; s_ebs := s_ebs s;
     v_epot := v_epot s; v_f := v_f s; v_ebs := v_ebs s;
     a_mull := a_mull s; a_grid := a_grid s; n_solves := n_solves s |}.

Definition put_sol (s : state) (x : sol w) (prev : list (qvec w)) (t : bool) : state :=
  {| el_atoms := el_atoms s; el_ranges := el_ranges s; el_geom := el_geom s;
     el_charge := el_charge s; c_charge := c_charge s; st_k := st_k s;
     st_sol := Some x; st_prev := prev; timer_on := t;
     s_gs := s_gs s; s_energy := s_energy s; s_forces := s_forces s; s_ebs := s_ebs s;
     v_epot := v_epot s; v_f := v_f s; v_ebs := v_ebs s;
     a_mull := a_mull s; a_grid := a_grid s; n_solves := S (n_solves s) |}.

(** set_solved('ground state') and the flags reset after a solve,
    aseinterface.py:394-398: the grid flag is not reset. *)
Definition mark_gs (s : state) : state :=
  {| el_atoms := el_atoms s; el_ranges := el_ranges s; el_geom := el_geom s;
     el_charge := el_charge s; c_charge := c_charge s; st_k := st_k s;
     st_sol := st_sol s; st_prev := st_prev s; timer_on := timer_on s;
     s_gs := Some (el_atoms s); s_energy := s_energy s; s_forces := s_forces s;
     s_ebs := s_ebs s; v_epot := v_epot s; v_f := v_f s; v_ebs := v_ebs s;
     a_mull := None; a_grid := a_grid s; n_solves := n_solves s |}.

(** States.solve, states.py:190-212, after update_geometry.  The timer
    'solve' is started at line 196 and stopped at line 212 only if nothing
    raised in between (box/timing.py:111-129 refuses to start a running
    timer).  prev_dq is kept for SCC only (lines 251-252). *)
Definition st_solve (s : state) : state * option err :=
  let go (s : state) (k : kset w) :=
    if timer_on s then (s, Some ETimer)
    else match el_geom s with
         | None => (s, Some EAttr)
         | Some g =>
             match solve w (el_charge s) g k (guess s) with
             | None => (put_sol s (wreck w (st_sol s) g) (st_prev s) true, Some ESolve)
             | Some x =>
                 if mull_ok w (c_charge s) x then
                   (put_sol s x (if scc w then dq_of w x :: firstn 1 (st_prev s)
                                 else st_prev s) false, None)
                 else (put_sol s (wreck w (st_sol s) g) (st_prev s) true, Some ESolve)
             end
         end in
  match st_k s with
  | Some k => go s k
  | None => match kpts_of w (el_atoms s) with
            | None => (s, Some EKpoints)
            | Some k => go (set_k s k) k
            end
  end.

(** aseinterface.py:383-404 for an initialised calculator and atoms given. *)
Definition solve_ground_state (s : state) (a : atoms w) : state * option err :=
  if required s (s_gs s) a then
    match st_solve (update_geometry s a) with
    | (s1, Some e) => (s1, Some e)
    | (s1, None) => (mark_gs s1, None)
    end
  else (s, None).

Inductive out :=
| OVal (v : val w) | OFor (f : fvec w) | ODq (q : qvec w) | OAna (x : ana w)
| OUnit | OErr (e : err).

(** aseinterface.py:582-587 *)
Definition get_ebs (s : state) (a : atoms w) : state * out :=
  if required s (s_ebs s) a then
    match solve_ground_state s a with
    | (s1, Some e) => (s1, OErr e)
    | (s1, None) =>
        match st_sol s1 with
        | None => (s1, OErr EAttr)
        | Some x =>
            let v := ebs_of w x in
            ({| el_atoms := el_atoms s1; el_ranges := el_ranges s1; el_geom := el_geom s1;
                el_charge := el_charge s1; c_charge := c_charge s1; st_k := st_k s1;
                st_sol := st_sol s1; st_prev := st_prev s1; timer_on := timer_on s1;
                s_gs := s_gs s1; s_energy := s_energy s1; s_forces := s_forces s1;
                s_ebs := Some (el_atoms s1);
                v_epot := v_epot s1; v_f := v_f s1; v_ebs := Some v;
                a_mull := a_mull s1; a_grid := a_grid s1; n_solves := n_solves s1 |},
             OVal v)
        end
    end
  else match v_ebs s with Some v => (s, OVal v) | None => (s, OErr EAttr) end.

(** aseinterface.py:590-595: 'ecoul' is never marked solved, so it is always
    required and always evaluated again. *)
Definition get_ecoul (s : state) (a : atoms w) : state * out :=
  match solve_ground_state s a with
  | (s1, Some e) => (s1, OErr e)
  | (s1, None) => match st_sol s1 with
                  | None => (s1, OErr EAttr)
                  | Some x => (s1, OVal (ecoul_of w x))
                  end
  end.

Definition store_epot (s : state) (v : val w) : state :=
  {| el_atoms := el_atoms s; el_ranges := el_ranges s; el_geom := el_geom s;
     el_charge := el_charge s; c_charge := c_charge s; st_k := st_k s;
     st_sol := st_sol s; st_prev := st_prev s; timer_on := timer_on s;
     s_gs := s_gs s; s_energy := Some (el_atoms s); s_forces := s_forces s; s_ebs := s_ebs s;
     v_epot := Some v; v_f := v_f s; v_ebs := v_ebs s;
     a_mull := a_mull s; a_grid := a_grid s; n_solves := n_solves s |}.

Definition store_f (s : state) (f : fvec w) : state :=
  {| el_atoms := el_atoms s; el_ranges := el_ranges s; el_geom := el_geom s;
     el_charge := el_charge s; c_charge := c_charge s; st_k := st_k s;
     st_sol := st_sol s; st_prev := st_prev s; timer_on := timer_on s;
     s_gs := s_gs s; s_energy := s_energy s; s_forces := Some (el_atoms s); s_ebs := s_ebs s;
     v_epot := v_epot s; v_f := Some f; v_ebs := v_ebs s;
     a_mull := a_mull s; a_grid := a_grid s; n_solves := n_solves s |}.

(** aseinterface.py:452-466 (force_consistent=False) *)
Definition get_potential_energy (s : state) (a : atoms w) : state * out :=
  if required s (s_energy s) a then
    match solve_ground_state s a with
    | (s1, Some e) => (s1, OErr e)
    | (s1, None) =>
        match get_ebs s1 a with
        | (s2, OVal ebs) =>
            match get_ecoul s2 a with
            | (s3, OVal ecoul) =>
                match el_geom s3 with
                | None => (s3, OErr EAttr)
                | Some g =>
                    let v := etot w ebs ecoul (erep_of w g) (epp_of w g) in
                    (store_epot s3 v, OVal v)
                end
            | r => r
            end
        | r => r
        end
    end
  else match v_epot s with Some v => (s, OVal v) | None => (s, OErr EAttr) end.

(** aseinterface.py:469-485 *)
Definition get_forces (s : state) (a : atoms w) : state * out :=
  if required s (s_forces s) a then
    match solve_ground_state s a with
    | (s1, Some e) => (s1, OErr e)
    | (s1, None) =>
        match st_sol s1, el_geom s1 with
        | Some x, Some g => let f := ftot w x g in (store_f s1 f, OFor f)
        | _, _ => (s1, OErr EAttr)
        end
    end
  else match v_f s with Some f => (s, OFor f) | None => (s, OErr EAttr) end.

(** aseinterface.py:806-814 with atoms given; States.dq exists with SCC only
    (states.py:240-241). *)
Definition get_dq (s : state) (a : atoms w) : state * out :=
  match solve_ground_state s a with
  | (s1, Some e) => (s1, OErr e)
  | (s1, None) =>
      if scc w then
        match st_sol s1 with
        | Some x => (s1, ODq (dq_of w x))
        | None => (s1, OErr EAttr)
        end
      else (s1, OErr ENoDq)
  end.

(** aseinterface.py:606-612 and 436 (initialised), elements.py:108-130 *)
Definition set_atoms (s : state) (a : atoms w) : state * out :=
  if same_symbols w a (el_atoms s) then
    ({| el_atoms := a; el_ranges := rng_of w a; el_geom := el_geom s;
        el_charge := el_charge s; c_charge := c_charge s; st_k := st_k s;
        st_sol := st_sol s; st_prev := st_prev s; timer_on := timer_on s;
        s_gs := s_gs s; s_energy := s_energy s; s_forces := s_forces s; s_ebs := s_ebs s;
        v_epot := v_epot s; v_f := v_f s; v_ebs := v_ebs s;
        a_mull := a_mull s; a_grid := a_grid s; n_solves := n_solves s |}, OUnit)
  else (s, OErr ESymbols).

(** set('charge', c) after initialisation, aseinterface.py:267-273 *)
Definition set_charge (s : state) (c : chg w) : state * out :=
  ({| el_atoms := el_atoms s; el_ranges := el_ranges s; el_geom := el_geom s;
      el_charge := el_charge s; c_charge := c; st_k := st_k s;
      st_sol := st_sol s; st_prev := st_prev s; timer_on := timer_on s;
      s_gs := s_gs s; s_energy := s_energy s; s_forces := s_forces s; s_ebs := s_ebs s;
      v_epot := v_epot s; v_f := v_f s; v_ebs := v_ebs s;
      a_mull := a_mull s; a_grid := a_grid s; n_solves := n_solves s |}, OUnit).

(** _init_mulliken and the Mulliken getters, aseinterface.py:798-804, 821-906:
    the populations are computed when the object is built (analysis/mulliken.py:38-57).
    _init_DOS (912-918) and _init_bonds (976-982) have the same form. *)
Definition get_mulliken (s : state) : state * out :=
  if required s (s_energy s) (el_atoms s) then (s, OErr ENotSolved)
  else match a_mull s with
       | Some x => (s, OAna (analyse w x))
       | None =>
           match st_sol s with
           | None => (s, OErr EAttr)
           | Some x =>
               ({| el_atoms := el_atoms s; el_ranges := el_ranges s; el_geom := el_geom s;
                   el_charge := el_charge s; c_charge := c_charge s; st_k := st_k s;
                   st_sol := st_sol s; st_prev := st_prev s; timer_on := timer_on s;
                   s_gs := s_gs s; s_energy := s_energy s; s_forces := s_forces s;
                   s_ebs := s_ebs s; v_epot := v_epot s; v_f := v_f s; v_ebs := v_ebs s;
                   a_mull := Some x; a_grid := a_grid s; n_solves := n_solves s |},
                OAna (analyse w x))
           end
       end.

(** aseinterface.py:705-710, grids.py:10-58: box and spacing are fixed when
    the object is built. *)
Definition set_grid (s : state) (h : nat) : state * out :=
  if required s (s_energy s) (el_atoms s) then (s, OErr ENotSolved)
  else match a_grid s with
       | Some _ => (s, OUnit)
       | None =>
           match el_geom s with
           | None => (s, OErr EAttr)
           | Some g =>
               ({| el_atoms := el_atoms s; el_ranges := el_ranges s; el_geom := el_geom s;
                   el_charge := el_charge s; c_charge := c_charge s; st_k := st_k s;
                   st_sol := st_sol s; st_prev := st_prev s; timer_on := timer_on s;
                   s_gs := s_gs s; s_energy := s_energy s; s_forces := s_forces s;
                   s_ebs := s_ebs s; v_epot := v_epot s; v_f := v_f s; v_ebs := v_ebs s;
                   a_mull := a_mull s; a_grid := Some (h, g); n_solves := n_solves s |},
                OUnit)
           end
       end.

(** aseinterface.py:713-792 *)
Definition get_grid (s : state) : state * out :=
  match a_grid s with
  | None => (s, OErr ENoGrid)
  | Some (h, g) => match st_sol s with
                   | None => (s, OErr EAttr)
                   | Some x => (s, OAna (gridres w h g x))
                   end
  end.

Inductive op :=
| GetE (a : atoms w) | GetF (a : atoms w) | GetEbs (a : atoms w) | GetEcoul (a : atoms w)
| Solve (a : atoms w) | GetStress (a : atoms w) | GetDq (a : atoms w)
| SetAtoms (a : atoms w) | SetCharge (c : chg w)
| Mull | SetGrid (h : nat) | GetGrid.

(** One public call on an initialised calculator. *)
Definition step (s : state) (o : op) : state * out :=
  match o with
  | GetE a => get_potential_energy s a
  | GetF a => get_forces s a
  | GetEbs a => get_ebs s a
  | GetEcoul a => get_ecoul s a
  | Solve a | GetStress a =>
      match solve_ground_state s a with
      | (s1, Some e) => (s1, OErr e)
      | (s1, None) => (s1, OUnit)
      end
  | GetDq a => get_dq s a
  | SetAtoms a => set_atoms s a
  | SetCharge c => set_charge s c
  | Mull => get_mulliken s
  | SetGrid h => set_grid s h
  | GetGrid => get_grid s
  end.

(** The calculator object: [inl c] is a calculator not yet initialised with
    charge parameter [c]. *)
Definition calc := (chg w + state)%type.

(** One public call on any calculator.  Before initialisation every getter
    that looks at self.el first fails (aseinterface.py:449, 456, 475, 583, 591),
    solve_ground_state, get_stress, get_dq and set_atoms initialise. *)
Definition cstep (c : calc) (o : op) : calc * out :=
  match c with
  | inr s => let (s1, r) := step s o in (inr s1, r)
  | inl q =>
      match o with
      | Solve a | GetStress a | GetDq a =>
          if init_ok w q a then let (s1, r) := step (fresh_state q a) o in (inr s1, r)
          else (c, OErr EInit)
      | SetAtoms a =>
          if init_ok w q a then (inr (fresh_state q a), OUnit) else (c, OErr EInit)
      | SetCharge q' => (inl q', OUnit)
      | _ => (c, OErr ENoElements)
      end
  end.

(** A history of calls and the answers given. *)
Fixpoint run (c : calc) (h : list op) : calc * list out :=
  match h with
  | [] => (c, [])
  | o :: h' => let (c1, r) := cstep c o in
               let (c2, rs) := run c1 h' in (c2, r :: rs)
  end.

End Machine.

Arguments OVal {w}. Arguments OFor {w}. Arguments ODq {w}. Arguments OAna {w}.
Arguments OUnit {w}. Arguments OErr {w}.
Arguments GetE {w}. Arguments GetF {w}. Arguments GetEbs {w}. Arguments GetEcoul {w}.
Arguments Solve {w}. Arguments GetStress {w}. Arguments GetDq {w}. Arguments SetAtoms {w}.
Arguments SetCharge {w}. Arguments Mull {w}. Arguments SetGrid {w}. Arguments GetGrid {w}.
Arguments run {w}. Arguments cstep {w}. Arguments step {w}.
Arguments el_atoms {w}. Arguments el_ranges {w}. Arguments el_geom {w}.
Arguments el_charge {w}. Arguments c_charge {w}. Arguments st_k {w}. Arguments st_sol {w}.
Arguments st_prev {w}. Arguments timer_on {w}. Arguments s_gs {w}. Arguments s_energy {w}.
Arguments s_forces {w}. Arguments s_ebs {w}. Arguments v_epot {w}. Arguments v_f {w}.
Arguments v_ebs {w}. Arguments a_mull {w}. Arguments a_grid {w}. Arguments n_solves {w}.

(** The set() decision, aseinterface.py:267-273.  [init] is Hotbit.init. *)
Inductive set_res := SetText | SetRaises | SetStores.
Definition set_param (init : bool) (key : string) : set_res :=
  if String.eqb key "txt" then SetText
  else if init && negb (String.eqb key "charge") then SetRaises
  else SetStores.

