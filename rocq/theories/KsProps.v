From Coq Require Import Reals ZArith String Ascii List Bool Arith.
From Verif Require Import Vec GeomModel AtomModel AtomSpec KsModel KsSpec KsProofs KsProofs2 KsProofs3 KsProofs4 KsProofs5.
Import ListNotations.
Open Scope R_scope.

(** C135: states of the atom.  Cases: ex_eigenstate, ex_stuck *)
Theorem C135_state :
  forall (P : params) (it : nat) (veff : nat -> R) (n l : nat) (nl : string) (o o' : orbitals) (k : nat),
  fine_grid P ->
  solve_state P it veff n l nl o = KOk (o', k) ->
  solves P n l veff (o_enl o' nl) (o_unl o' nl) /\
  o_denl o' nl = Rabs (o_enl o' nl - o_enl o nl) /\
  (forall s : string, s <> nl -> o_enl o' s = o_enl o s /\ o_denl o' s = o_denl o s /\ o_unl o' s = o_unl o s) /\
  (1 <= k <= 101)%nat /\
  o_enl o' nl <=
  Rmax match it with
       | 0%nat => - (p_Z P ^ 2 / INR n ^ 2)
       | S _ => o_enl o nl
       end (veff (gN P - 1)%nat - INR l * (INR l + 1) / (2 * rgrid P (gN P - 1) ^ 2)).
Proof. exact solve_found. Qed.
Theorem C135_no_step :
  forall (N : nat) (r : nat -> R) (dx : R) (coefs : R -> (nat -> R) * (nat -> R) * (nat -> R)) (l : nat) (nn : Z) (epsmax : R) 
    (fuel : nat) (u : nat -> R) (eps : R) (dir : direction) (c0 c1 c2 : nat -> R),
  coefs eps = (c0, c1, c2) ->
  eps <= epsmax ->
  (forall v : nat -> R,
   (forall i : nat, (i < 2)%nat -> v i = r i ^ (l + 1)) -> exists s : shot, shoot dx c2 c1 c0 N v = Some s /\ Z.of_nat (sh_nodes s) <> nn) ->
  c0 (N - 2)%nat < 0 -> c0 (N - 1)%nat < 0 -> eig_loop N r dx coefs l nn epsmax fuel u eps 0 dir = KErr KRuntime.
Proof. exact eig_stuck. Qed.
(** C136, C137: what a run that succeeds guarantees, and its total energy.  Cases: ex_run *)
Theorem C136_result :
  forall (P : params) (rs : option ((nat -> R) * (nat -> R))) (s : scf),
  fine_grid P ->
  run P rs = KOk s ->
  exists (m : nat) (t : trace),
    (7 <= m <= p_itmax P)%nat /\
    s_it s = (m - 1)%nat /\
    scf_trace P rs m t /\
    converged P t (m - 1) /\
    (forall k : nat, (k < m - 1)%nat -> ~ converged P t k) /\
    s_veff s = t_v t m /\ s_dens s = t_n t m /\ o_enl (s_orb s) = t_e t m /\ o_unl (s_orb s) = t_u t m.
Proof. exact run_result. Qed.
Theorem C136_few_iterations :
  forall (P : params) (rs : option ((nat -> R) * (nat -> R))) (s : scf), (p_itmax P <= 6)%nat -> run P rs <> KOk s.
Proof. exact run_few. Qed.
Theorem C136_no_iterations :
  forall (P : params) (rs : option ((nat -> R) * (nat -> R))), run P rs = KErr KAttribute <-> p_itmax P = 0%nat.
Proof. exact run_attribute. Qed.
Theorem C136_selfconsistent_refuted :
  forall K : R,
  0 < K ->
  exists (P : params) (rs : option ((nat -> R) * (nat -> R))) (s : scf),
    fine_grid P /\
    p_tol_density P = / 10 ^ 7 /\
    p_tol_energies P = / 10 ^ 7 /\ run P rs = KOk s /\ (exists i : nat, (i < gN P)%nat /\ K <= Rabs (s_veff s i - ks_potential P (s_dens s) i)).
Proof. exact tiny_far. Qed.
Theorem C137_energy :
  forall (P : params) (rs : option ((nat -> R) * (nat -> R))) (s : scf),
  fine_grid P ->
  run P rs = KOk s ->
  exists (m : nat) (t : trace),
    (1 <= m)%nat /\
    scf_trace P rs m t /\
    s_veff s = t_v t m /\
    s_dens s = t_n t m /\
    o_enl (s_orb s) = t_e t m /\
    total_energy P s =
    kinetic P (t_e t m) (t_v t m) (t_n t m) + external P (t_n t m) + hartree_int P (t_n t (m - 1)) (t_n t m) + xc_int P (t_n t m) +
    g_integrate (gN P) (rgrid P) (fun i : nat => (t_v t m i - ks_potential P (t_n t (m - 1)) i) * t_n t m i) true.
Proof. exact run_total. Qed.
(** C138: electrons.  Cases: ex_run, ex_tenth, ex_update *)
Theorem C138_electrons :
  forall (P : params) (rs : option ((nat -> R) * (nat -> R))) (s : scf),
  fine_grid P ->
  NoDup (map fst (p_occu P)) ->
  run P rs = KOk s ->
  g_integrate (gN P) (rgrid P) (fun i : nat => 4 * PI * rgrid P i ^ 2 * s_dens s i) false = calculated (p_occu P) /\
  Rabs (calculated (p_occu P) - total snd (p_occu P)) <= / 10 ^ 10.
Proof. exact run_electrons. Qed.
Theorem C138_configuration :
  forall c d : list (string * R),
  NoDup (map fst d) ->
  NoDup (map fst c) -> electrons (update d c) = electrons d + total (fun p : string * R => snd p - val (lookup (fst p) d)) c.
Proof. exact update_electrons. Qed.
(** C139: names of orbitals.  A case: ex_names *)
Theorem C139_states :
  forall (occu : list (string * R)) (n l : nat) (nl : string),
  In (n, l, nl) (list_states occu) <-> (1 <= n <= 9)%nat /\ (l <= 9)%nat /\ to_name n l = Some nl /\ lookup nl occu <> None.
Proof. exact in_states. Qed.
Theorem C139_once :
  forall occu : list (string * R), NoDup (map snd (list_states occu)).
Proof. exact states_nodup. Qed.
Theorem C139_round_trip :
  forall (n l : nat) (s : string), (n <= 9)%nat -> to_name n l = Some s -> of_name s = Some (n, l).
Proof. exact name_round_trip. Qed.
Theorem C139_tenth_refuted :
  forall (n l : nat) (s : string), (10 <= n)%nat -> to_name n l = Some s -> of_name s = None.
Proof. exact name_long. Qed.
(** C140: histories of calls.  Cases: ex_run, veff_stale *)
Theorem C140_results :
  forall (P : params) (spline : (nat -> R) -> R -> R) (cs : list kcall) (c : kcall) (rs : option ((nat -> R) * (nat -> R))),
  runs_succeed P cs ->
  asks_result c = true ->
  last_run cs None = Some rs -> last_answer (snd (kruns P spline new_obj (cs ++ [c]))) = last_answer (snd (kruns P spline new_obj [Run rs; c])).
Proof. exact results_last. Qed.
Theorem C140_before :
  forall (P : params) (spline : (nat -> R) -> R -> R) (cs : list kcall) (c : kcall),
  (forall rs : option ((nat -> R) * (nat -> R)), ~ In (Run rs) cs) ->
  snd (kstep P spline (fst (kruns P spline new_obj cs)) c) =
  match c with
  | Run rs => match run P rs with
              | KOk _ => KOk None
              | KErr e => KErr e
              end
  | Veff _ => KErr KAttribute
  | Rnl _ _ => KErr KKey
  | Energy => KOk (Some 0)
  | Epsilon _ => KErr KAssertion
  end.
Proof. exact before_run. Qed.
Theorem C140_frozen :
  forall (P : params) (spline : (nat -> R) -> R -> R) (o : kobj) (r x : R) (o1 : kobj) (cs : list kcall),
  kstep P spline o (Veff r) = (o1, KOk (Some x)) -> snd (kstep P spline (fst (kruns P spline o1 cs)) (Veff r)) = KOk (Some x).
Proof. exact veff_frozen. Qed.
Theorem C140_potential_refuted :
  forall spline : (nat -> R) -> R -> R,
  exists P : params,
    (forall (f : nat -> R) (i : nat), (i < gN P)%nat -> spline f (rgrid P i) = f i) ->
    exists (rs1 rs2 : option ((nat -> R) * (nat -> R))) (r : R),
      runs_succeed P [Run rs1; Run rs2] /\
      last_answer (snd (kruns P spline new_obj [Run rs1; Veff r; Run rs2; Veff r])) <>
      last_answer (snd (kruns P spline new_obj [Run rs2; Veff r])).
Proof. exact veff_stale. Qed.
(** C141: confinement potentials. *)
Theorem C141_errors :
  forall (mode : string) (kw : list (string * R)),
  (make_confinement mode kw = KErr KNotImplemented <->
   mode <> "none"%string /\
   mode <> "quadratic"%string /\ mode <> "general"%string /\ ~ In (lower mode) ["woods-saxon"%string; "woods_saxon"%string; "woodssaxon"%string]) /\
  (forall e : kerr, make_confinement mode kw = KErr e -> e = KNotImplemented \/ e = KKey).
Proof. exact confine_errors. Qed.
Theorem C141_made :
  forall (mode : string) (kw : list (string * R)) (r0 a s W : R),
  lookup "r0" kw = Some r0 ->
  lookup "a" kw = Some a ->
  lookup "s" kw = Some s ->
  lookup "W" kw = Some W ->
  make_confinement "none" kw = KOk CNone /\
  make_confinement "quadratic" kw = KOk (CQuadratic r0) /\
  make_confinement "general" kw = KOk (CGeneral r0 s) /\
  (In (lower mode) ["woods-saxon"%string; "woods_saxon"%string; "woodssaxon"%string] -> make_confinement mode kw = KOk (CWoodsSaxon r0 a W)).
Proof. exact confine_made. Qed.
Theorem C141_at_r0 :
  forall r0 s a W : R, 0 < r0 -> confine (CQuadratic r0) r0 = 1 /\ confine (CGeneral r0 s) r0 = 1 /\ confine (CWoodsSaxon r0 a W) r0 = W / 2.
Proof. exact at_r0. Qed.
Theorem C141_quadratic :
  forall r0 r r' : R, r0 <> 0 -> 0 <= r < r' -> confine (CQuadratic r0) r < confine (CQuadratic r0) r'.
Proof. exact quadratic_increasing. Qed.
Theorem C141_general :
  forall r0 s r r' : R, 0 < r0 -> 0 < s -> 0 < r < r' -> confine (CGeneral r0 s) r < confine (CGeneral r0 s) r'.
Proof. exact general_increasing. Qed.
Theorem C141_general_2 :
  forall r0 r : R, 0 < r0 -> 0 < r -> confine (CGeneral r0 2) r = confine (CQuadratic r0) r.
Proof. exact general_quadratic. Qed.
Theorem C141_general_refuted :
  forall r0 s r r' : R, 0 < r0 -> s < 0 -> 0 < r < r' -> confine (CGeneral r0 s) r' < confine (CGeneral r0 s) r.
Proof. exact general_decreasing. Qed.
Theorem C141_woods_bounds :
  forall r0 a W r : R, 0 < W -> 0 < confine (CWoodsSaxon r0 a W) r < W.
Proof. exact woods_bounds. Qed.
Theorem C141_woods_increasing :
  forall r0 a W r r' : R, 0 < W -> 0 < a -> r < r' -> confine (CWoodsSaxon r0 a W) r < confine (CWoodsSaxon r0 a W) r'.
Proof. exact woods_increasing. Qed.
Theorem C141_woods_limit :
  forall r0 a W d : R, 0 < W -> 0 < a -> 0 < d -> exists R0 : R, forall r : R, R0 < r -> W - d < confine (CWoodsSaxon r0 a W) r.
Proof. exact woods_limit. Qed.
Theorem C141_capitals_refuted :
  make_confinement "Woods-Saxon" [("r0"%string, 1); ("a"%string, 1); ("W"%string, 1)] = KOk (CWoodsSaxon 1 1 1) /\
  make_confinement "Quadratic" [("r0"%string, 1)] = KErr KNotImplemented.
Proof. exact confine_capitals. Qed.
Print Assumptions C135_state.
Print Assumptions C135_no_step.
Print Assumptions C136_result.
Print Assumptions C136_few_iterations.
Print Assumptions C136_no_iterations.
Print Assumptions C136_selfconsistent_refuted.
Print Assumptions C137_energy.
Print Assumptions C138_electrons.
Print Assumptions C138_configuration.
Print Assumptions C139_states.
Print Assumptions C139_once.
Print Assumptions C139_round_trip.
Print Assumptions C139_tenth_refuted.
Print Assumptions C140_results.
Print Assumptions C140_before.
Print Assumptions C140_frozen.
Print Assumptions C140_potential_refuted.
Print Assumptions C141_errors.
Print Assumptions C141_made.
Print Assumptions C141_at_r0.
Print Assumptions C141_quadratic.
Print Assumptions C141_general.
Print Assumptions C141_general_2.
Print Assumptions C141_general_refuted.
Print Assumptions C141_woods_bounds.
Print Assumptions C141_woods_increasing.
Print Assumptions C141_woods_limit.
Print Assumptions C141_capitals_refuted.
