(** Self-consistent calculation of an atom.  hotbit/parametrization/atom.py, class KSAllElectron, with the functional PW92. *)
From Coq Require Import Reals ZArith String Ascii List Bool Arith.
From Verif Require Import Vec GeomModel AtomModel.
Import ListNotations.
Open Scope R_scope.

(** ** Orbitals *)
(** angular_momenta, line 896 *)
Definition letters : list ascii := ["s"; "p"; "d"; "f"; "g"; "h"; "i"; "j"; "k"; "l"]%char.
(** '%i' of n = 1..9 *)
Definition digit (n : nat) : ascii := ascii_of_nat (48 + n).
(** '%i' of a natural number *)
Fixpoint dec (fuel n : nat) : string :=
  match fuel with
  | O => EmptyString
  | S f => if (n <? 10)%nat then String (digit n) EmptyString else (dec f (n / 10) ++ String (digit (n mod 10)) EmptyString)%string
  end.
(** orbit_transform((n,l),string=True), lines 897-902; None: IndexError *)
Definition to_name (n l : nat) : option string :=
  match nth_error letters l with Some c => Some (dec (S n) n ++ String c EmptyString)%string | None => None end.
Definition digit_value (c : ascii) : option nat :=
  let k := nat_of_ascii c in if (48 <=? k)%nat && (k <=? 57)%nat then Some (k - 48)%nat else None.
Fixpoint char_index (c : ascii) (l : list ascii) (i : nat) : option nat :=
  match l with [] => None | x :: l => if (x =? c)%char then Some i else char_index c l (S i) end.
(** orbit_transform('2p',string=False), lines 905-908; None: ValueError or IndexError *)
Definition of_name (s : string) : option (nat * nat) :=
  match String.get 1 s, String.get 0 s with
  | Some b, Some a => match char_index b letters 0, digit_value a with Some l, Some n => Some (n, l) | _, _ => None end
  | _, _ => None
  end.
(** '2p' in self.occu *)
Definition lookup {A} (s : string) (d : list (string * A)) : option A :=
  match find (fun p => (fst p =? s)%string) d with Some p => Some (snd p) | None => None end.
(** list_states, lines 545-553, with maxl = maxn = 9: (n, l, 'nl') *)
Definition list_states (occu : list (string * R)) : list (nat * nat * string) :=
  flat_map (fun l => flat_map (fun n =>
    match to_name n l with
    | Some nl => match lookup nl occu with Some _ => [(n, l, nl)] | None => [] end
    | None => []
    end) (seq 1 9)) (seq 0 10).
(** self.occu.update(configuration), line 104: keys keep their place, new ones are added *)
Definition set_key (d : list (string * R)) (k : string) (x : R) : list (string * R) :=
  match lookup k d with
  | Some _ => map (fun p => if (fst p =? k)%string then (k, x) else p) d
  | None => d ++ [(k, x)]
  end.
Definition update (d c : list (string * R)) : list (string * R) := fold_left (fun d p => set_key d (fst p) (snd p)) c d.
Definition electrons (d : list (string * R)) : R := fold_left (fun s p => s + snd p) d 0.

(** ** Confinement *)
(** ConfinementPotential, lines 778-819; (r/r0)**s for positive r/r0 is Rpower.  mode.lower() for three spellings of Woods-Saxon *)
Inductive confinement := CNone | CQuadratic (r0 : R) | CGeneral (r0 s : R) | CWoodsSaxon (r0 a W : R).
Definition confine (c : confinement) (r : R) : R :=
  match c with
  | CNone => 0
  | CQuadratic r0 => (r / r0) ^ 2
  | CGeneral r0 s => Rpower (r / r0) s
  | CWoodsSaxon r0 a W => W / (1 + exp (- a * (r - r0)))
  end.
Inductive kerr := KAssertion | KUnbound | KRuntime | KAttribute | KKey | KNotImplemented.
Inductive kres (A : Type) := KOk (a : A) | KErr (e : kerr).
Arguments KOk {A} a. Arguments KErr {A} e.
Definition lower_ascii (c : ascii) : ascii := let k := nat_of_ascii c in if (65 <=? k)%nat && (k <=? 90)%nat then ascii_of_nat (k + 32) else c.
Fixpoint lower (s : string) : string := match s with EmptyString => EmptyString | String c s => String (lower_ascii c) (lower s) end.
Definition make_confinement (mode : string) (kw : list (string * R)) : kres confinement :=
  if (mode =? "none")%string then KOk CNone
  else if (mode =? "quadratic")%string then match lookup "r0"%string kw with Some r0 => KOk (CQuadratic r0) | None => KErr KKey end
  else if (mode =? "general")%string then
    match lookup "r0"%string kw with
    | None => KErr KKey
    | Some r0 => match lookup "s"%string kw with Some s => KOk (CGeneral r0 s) | None => KErr KKey end
    end
  else if existsb (String.eqb (lower mode)) ["woods-saxon"; "woods_saxon"; "woodssaxon"]%string then
    match lookup "r0"%string kw with
    | None => KErr KKey
    | Some r0 => match lookup "a"%string kw with
        | None => KErr KKey
        | Some a => match lookup "W"%string kw with Some W => KOk (CWoodsSaxon r0 a W) | None => KErr KKey end
        end
    end
  else KErr KNotImplemented.

(** ** Eigenstates *)
Section Eig.
Variables (N : nat) (rgrid : nat -> R) (dx : R).
Variable coefs : R -> (nat -> R) * (nat -> R) * (nat -> R).   (** construct_coefficients(l, eps) *)
Variables (l : nat) (nodes_nl : Z) (epsmax : R).
Inductive direction := DNone | Up | Down.
Record eig := Eig { e_u : nat -> R; e_eps : R; e_nodes : Z; e_it : nat }.
(** the loop of lines 406-451; fuel: iterations left of 101.  If c0 is not negative at the end, pylab plots before the assertion fails.
    If shoot cannot scale (division by zero), u is nan in the code and 0 here: no nodes are counted in either, and the assertions fail *)
Fixpoint eig_loop (fuel : nat) (u : nat -> R) (eps delta : R) (dir : direction) : kres eig :=
  match fuel with
  | O => KErr KRuntime
  | S f =>
      let '(c0, c1, c2) := coefs eps in
      let u0 := fun i => if (i <? 2)%nat then rgrid i ^ (l + 1) else u i in
      if negb (ltb (c0 (N - 2)%nat) 0 && ltb (c0 (N - 1)%nat) 0) then KErr KAssertion else
      match shoot dx c2 c1 c0 N u0 with
      | None => KErr KUnbound
      | Some s =>
          let norm := g_integrate N rgrid (fun i => sh_u s i ^ 2) false in
          let u' := fun i => sh_u s i / sqrt norm in
          let nodes := Z.of_nat (sh_nodes s) in
          let next e d dr := eig_loop f u' (if ltb epsmax e then / 2 * (epsmax + eps) else e) d dr in
          if (nodes_nl <? nodes)%Z then
            let d := match dir with Up => delta / 2 | _ => delta end in next (eps - d) d Down
          else if (nodes <? nodes_nl)%Z then
            let d := match dir with Down => delta / 2 | _ => delta end in next (eps + d) d Up
          else
            let shift := - (/ 2) * sh_A s / (rgrid (sh_ctp s) * norm) in
            if ltb (Rabs shift) (/ 10 ^ 8) then KOk (Eig u' eps nodes (102 - fuel))
            else next (eps + shift) delta (if ltb 0 shift then Up else if ltb shift 0 then Down else dir)
      end
  end.
End Eig.

(** ** The atom *)
(** what the calculation depends on; deriv: derivative of the spline through the values of an array (scalar relativistic only) *)
Record params := Params {
  p_Z : R; p_occu : list (string * R); p_conf : confinement; p_scalarrel : bool; p_rmax : R; p_nodegpts : nat;
  p_mix : R; p_itmax : nat; p_tol_density : R; p_tol_energies : R; p_deriv : (nat -> R) -> (nat -> R) }.
Section Atom.
Variable P : params.
(** lines 101-140; the minimum of n - l - 1 is -9 *)
Definition nel : R := electrons (p_occu P).
Definition charge : R := p_Z P - nel.
Definition states : list (nat * nat * string) := list_states (p_occu P).
Definition nodes_of (n l : nat) : Z := (Z.of_nat n - Z.of_nat l - 1)%Z.
Definition maxnodes : Z := fold_left (fun m s => Z.max m (nodes_of (fst (fst s)) (snd (fst s)))) states (-10)%Z.
Definition gN : nat := Z.to_nat ((maxnodes + 1) * Z.of_nat (p_nodegpts P)).
Definition g_rmin : R := / 100 / p_Z P.
Definition xgrid (i : nat) : R := INR i * (ln (p_rmax P / g_rmin) / INR (gN - 1)).
Definition rgrid (i : nat) : R := g_rmin * exp (xgrid i).
(** construct_coefficients, lines 472-483 *)
Definition coefs (veff : nat -> R) (l : nat) (eps : R) : (nat -> R) * (nat -> R) * (nat -> R) :=
  if p_scalarrel P then
    let c := 137036 / 1000 in
    let dveff := p_deriv P veff in
    let mass := fun i => 1 + / 2 * (eps - veff i) / c ^ 2 in
    (fun i => - INR l * (INR l + 1) - 2 * mass i * rgrid i ^ 2 * (veff i - eps) - dveff i * rgrid i / (2 * mass i * c ^ 2),
     fun i => rgrid i * dveff i / (2 * mass i * c ^ 2) - 1, fun _ => 1)
  else (fun i => coef0 l (rgrid i) (veff i) eps, fun _ => coef1, fun _ => coef2).
Definition dx : R := xgrid 1 - xgrid 0.
(** dictionaries enl, d_enl and unlg, for names of states *)
Record orbitals := Orbitals { o_enl : string -> R; o_denl : string -> R; o_unl : string -> nat -> R }.
Definition set_str {A} (f : string -> A) (k : string) (x : A) : string -> A := fun s => if (s =? k)%string then x else f s.
(** one state of solve_eigenstates, lines 383-467; returns the number of shots as well *)
Definition solve_state (iteration : nat) (veff : nat -> R) (n l : nat) (nl : string) (o : orbitals) : kres (orbitals * nat) :=
  let eps := match iteration with O => - (p_Z P ^ 2 / INR n ^ 2) | _ => o_enl o nl end in
  let delta := if (iteration <=? 3)%nat then / 2 * p_Z P ^ 2 / INR n ^ 2 else o_denl o nl in
  let epsmax := veff (gN - 1)%nat - INR l * (INR l + 1) / (2 * rgrid (gN - 1) ^ 2) in
  match eig_loop gN rgrid dx (coefs veff l) l (nodes_of n l) epsmax 101 (fun _ => 0) eps delta DNone with
  | KErr e => KErr e
  | KOk r =>
      if ltb 0 (e_u r 1%nat) then
        KOk (Orbitals (set_str (o_enl o) nl (e_eps r)) (set_str (o_denl o) nl (Rabs (e_eps r - o_enl o nl))) (set_str (o_unl o) nl (e_u r)), e_it r)
      else KErr KAssertion
  end.
(** solve_eigenstates: d_enl_max and the orbitals *)
Fixpoint solve_states (iteration : nat) (veff : nat -> R) (ss : list (nat * nat * string)) (o : orbitals) (dmax : R) : kres (orbitals * R) :=
  match ss with
  | [] => KOk (o, dmax)
  | (n, l, nl) :: ss =>
      match solve_state iteration veff n l nl o with
      | KErr e => KErr e
      | KOk (o', _) => solve_states iteration veff ss o' (if ltb dmax (o_denl o' nl) then o_denl o' nl else dmax)
      end
  end.
(** calculate_density, lines 208-221 *)
Definition occ_of (nl : string) : R := match lookup nl (p_occu P) with Some x => x | None => 0 end.
Definition density (o : orbitals) : kres (nat -> R) :=
  let occ := map (fun s => occ_of (snd s)) states in
  let unl := fun a => o_unl o (snd (nth a states (0%nat, 0%nat, EmptyString))) in
  match calculate_density gN rgrid nel occ unl 0 with
  | None => KErr KRuntime
  | Some _ => KOk (fun i => match calculate_density gN rgrid nel occ unl i with Some x => x | None => 0 end)
  end.
Definition conf_at (i : nat) : R := confine (p_conf P) (rgrid i).
Definition nucl_at (i : nat) : R := - p_Z P / rgrid i.
(** calculate_veff, lines 258-265 *)
Definition calc_veff (hart dens : nat -> R) (i : nat) : R := nucl_at i + hart i + pw_vxc (dens i) + conf_at i.
Record scf := Scf { s_veff : nat -> R; s_dens : nat -> R; s_hart : nat -> R; s_vxc : nat -> R; s_orb : orbitals; s_it : nat }.
(** one pass of the loop of run, lines 325-345; s_vxc is the potential of the density before *)
Definition scf_step (it : nat) (s : scf) : kres (scf * bool) :=
  let veff := fun i => p_mix P * calc_veff (s_hart s) (s_dens s) i + (1 - p_mix P) * s_veff s i in
  match solve_states it veff states (s_orb s) 0 with
  | KErr e => KErr e
  | KOk (o, dmax) =>
      match density o with
      | KErr e => KErr e
      | KOk dens =>
          let diff := g_integrate gN rgrid (fun i => Rabs (dens i - s_dens s i)) true in
          let conv := ltb diff (p_tol_density P) && ltb dmax (p_tol_energies P) && (5 <? it)%nat in
          KOk (Scf veff dens (if conv then s_hart s else hartree gN rgrid nel dens) (fun i => pw_vxc (s_dens s i)) o it, conv)
      end
  end.
Fixpoint scf_loop (fuel it : nat) (s : scf) : kres scf :=
  match fuel with
  | O => KErr KAttribute
  | S f =>
      match scf_step it s with
      | KErr e => KErr e
      | KOk (s', true) => KOk s'
      | KOk (s', false) => if (it =? p_itmax P - 1)%nat then KErr KRuntime else scf_loop f (S it) s'
      end
  end.
(** get_veff_and_dens, lines 277-301: the data of the restart file interpolated on the grid, if it can be read *)
Definition start (restart : option ((nat -> R) * (nat -> R))) : scf :=
  let '(veff, dens) := match restart with
    | Some p => p
    | None => (fun i => nucl_at i + conf_at i, guess_density gN rgrid (p_Z P) nel)
    end in
  Scf veff dens (hartree gN rgrid nel dens) (fun _ => 0) (Orbitals (fun _ => 0) (fun _ => 0) (fun _ _ => 0)) 0.
(** run, lines 304-362.  itmax = 0: the energies need self.vxc, which is not set *)
Definition run (restart : option ((nat -> R) * (nat -> R))) : kres scf := scf_loop (p_itmax P) 0 (start restart).
(** calculate_energies, lines 166-183 *)
Definition integ (f : nat -> R) : R := g_integrate gN rgrid f true.
Definition bs_energy (s : scf) : R := fold_left (fun e st => e + occ_of (snd st) * o_enl (s_orb s) (snd st)) states 0.
Definition hartree_energy (s : scf) : R := integ (fun i => s_hart s i * s_dens s i) / 2.
Definition vxc_energy (s : scf) : R := integ (fun i => s_vxc s i * s_dens s i).
Definition exc_energy (s : scf) : R := integ (fun i => pw_exc (s_dens s i) false * s_dens s i).
Definition total_energy (s : scf) : R := bs_energy s - hartree_energy s - vxc_energy s + exc_energy s.
End Atom.

(** ** The object *)
(** calls made by a user: run with the restart file as it is at that time, effective_potential(r), Rnl(r,nl), get_energy(), get_epsilon(nl) *)
Inductive kcall := Run (restart : option ((nat -> R) * (nat -> R))) | Veff (r : R) | Rnl (r : R) (nl : string) | Energy | Epsilon (nl : string).
(** spline: Function('spline', rgrid, values) evaluated at r *)
Section Object.
Variable P : params.
Variable spline : (nat -> R) -> R -> R.
(** k_veff: self.veff; k_fct: the values from which veff_fct was made; k_last: results of the last successful run *)
Record kobj := KObj { k_veff : option (nat -> R); k_fct : option (nat -> R); k_last : option scf }.
Definition new_obj : kobj := KObj None None None.
(** one call and its answer; the object after a failed run is not modelled, see kruns *)
Definition kstep (o : kobj) (c : kcall) : kobj * kres (option R) :=
  match c with
  | Run rs => match run P rs with
      | KErr e => (o, KErr e)
      | KOk s => (KObj (Some (s_veff s)) (k_fct o) (Some s), KOk None)
      end
  | Veff r =>
      match k_fct o with
      | Some v => (o, KOk (Some (spline v r)))
      | None => match k_veff o with
          | None => (o, KErr KAttribute)
          | Some v => (KObj (k_veff o) (Some v) (k_last o), KOk (Some (spline v r)))
          end
      end
  | Rnl r nl => match k_last o with
      | None => (o, KErr KKey)
      | Some s => match find (fun st => (snd st =? nl)%string) (states P) with
          | None => (o, KErr KKey)
          | Some _ => (o, KOk (Some (spline (fun i => o_unl (s_orb s) nl i / rgrid P i) r)))
          end
      end
  | Energy => (o, KOk (Some (match k_last o with None => 0 | Some s => total_energy P s end)))
  | Epsilon nl => match k_last o with
      | None => (o, KErr KAssertion)
      | Some s => match find (fun st => (snd st =? nl)%string) (states P) with
          | None => (o, KErr KKey)
          | Some _ => (o, KOk (Some (o_enl (s_orb s) nl)))
          end
      end
  end.
(** the calls of a script; it ends at the first run that fails *)
Fixpoint kruns (o : kobj) (cs : list kcall) : kobj * list (kres (option R)) :=
  match cs with
  | [] => (o, [])
  | c :: cs =>
      match c, kstep o c with
      | Run _, (o', KErr e) => (o', [KErr e])
      | _, (o', a) => let '(o'', l) := kruns o' cs in (o'', a :: l)
      end
  end.
End Object.
