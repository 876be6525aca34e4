(** Calculator cache: properties C01-C05, C51. *)
From Coq Require Import List Bool String.
Import ListNotations.
From Verif Require Import CacheModel CacheSpec CacheProofs CacheProofs2.

(** C01.  A calculator initialised with [a0] and charge [c0], any history [h]
    of questions in which no solve raised, any further question [o], all about
    atoms with the symmetry ranges and k-points of [a0]: the answer belongs to
    the atoms asked about, or the call raises because these atoms themselves
    cannot be solved.  Case meeting the hypotheses: [toy_hist_ok]. *)
Theorem C01_answers_belong_to_atoms : forall (w : world) (c0 : chg w) (a0 : atoms w) h o,
  eq_faithful w ->
  Forall query (h ++ [o]) ->
  Forall (fun o' => forall a, about o' = Some a -> same_setting a a0) (h ++ [o]) ->
  Forall (fun r => ~ solve_failed r) (snd (run (inr (fresh_state w c0 a0)) h)) ->
  let r := snd (cstep (fst (run (inr (fresh_state w c0 a0)) h)) o) in
  answers c0 o r \/ exists e, r = OErr e /\ excused c0 o e.
Proof. intros w c0 a0 h o Heq H1 H2. exact (history_answers w Heq c0 a0 h o (conj H1 H2)). Qed.
Print Assumptions C01_answers_belong_to_atoms.

(** C01, without SCC: the energy is the one a fresh calculator gives. *)
Theorem C01_energy_is_fresh : forall (w : world) (c0 : chg w) (a0 : atoms w) h a v,
  eq_faithful w -> scc w = false ->
  Forall query h ->
  Forall (fun o' => forall a, about o' = Some a -> same_setting a a0) (h ++ [GetE a]) ->
  Forall (fun r => ~ solve_failed r) (snd (run (inr (fresh_state w c0 a0)) h)) ->
  snd (cstep (fst (run (inr (fresh_state w c0 a0)) h)) (GetE a)) = OVal v ->
  fresh_energy w c0 a = Some v.
Proof.
  intros w c0 a0 h a v Heq Hs H1 H2. apply (nonscc_energy w Heq c0 a0 h a v Hs). split; [|exact H2].
  apply Forall_app. split; [exact H1|]. constructor; [exact I|constructor].
Qed.
Print Assumptions C01_energy_is_fresh.

Theorem C01_forces_are_fresh : forall (w : world) (c0 : chg w) (a0 : atoms w) h a f,
  eq_faithful w -> scc w = false ->
  Forall query h ->
  Forall (fun o' => forall a, about o' = Some a -> same_setting a a0) (h ++ [GetF a]) ->
  Forall (fun r => ~ solve_failed r) (snd (run (inr (fresh_state w c0 a0)) h)) ->
  snd (cstep (fst (run (inr (fresh_state w c0 a0)) h)) (GetF a)) = OFor f ->
  fresh_forces w c0 a = Some f.
Proof.
  intros w c0 a0 h a f Heq Hs H1 H2. apply (nonscc_forces w Heq c0 a0 h a f Hs). split; [|exact H2].
  apply Forall_app. split; [exact H1|]. constructor; [exact I|constructor].
Qed.
Print Assumptions C01_forces_are_fresh.

(** C01: any further call about atoms just solved does not solve again. *)
Theorem C01_no_repeated_solve : forall (w : world) (c0 : chg w) (a0 : atoms w) h a o,
  eq_faithful w ->
  Forall query (h ++ [Solve a]) ->
  Forall (fun o' => forall a, about o' = Some a -> same_setting a a0) (h ++ [Solve a]) ->
  about o = Some a ->
  Forall (fun r => ~ solve_failed r) (snd (run (inr (fresh_state w c0 a0)) (h ++ [Solve a]))) ->
  exists s s1, fst (run (inr (fresh_state w c0 a0)) (h ++ [Solve a])) = inr s /\
    fst (cstep (inr s) o) = inr s1 /\ n_solves s1 = n_solves s.
Proof. intros w c0 a0 h a o Heq H1 H2. exact (repeat_no_solve w Heq c0 a0 h a o (conj H1 H2)). Qed.
Print Assumptions C01_no_repeated_solve.

(** C51: atoms whose symmetry ranges differ from those at set_atoms. *)
Theorem C51_symmetry_change_refuted : exists (w : world) (c0 : chg w) (a b : atoms w),
  eq_faithful w /\ scc w = false /\ kpts_of w a <> None /\ kpts_of w b <> None /\
  let h := [SetAtoms a; GetE a] in
  Forall (fun r => forall e, r <> OErr e) (snd (run (inl c0) h)) /\
  exists v, snd (cstep (fst (run (inl c0) h)) (GetE b)) = OVal v /\
            fresh_energy w c0 b <> Some v.
Proof. exact ranges_refuted. Qed.
Print Assumptions C51_symmetry_change_refuted.

(** C02 as stated is false: get_forces(a); set_atoms(b); get_potential_energy(a);
    get_potential_energy(b) returns the energy of a. *)
Theorem C02_set_atoms_refuted : exists (w : world) (c0 : chg w) (a b : atoms w),
  eq_faithful w /\ scc w = false /\ same_setting a b /\
  let h := [SetAtoms a; GetF a; SetAtoms b; GetE a] in
  Forall (fun r => ~ solve_failed r) (snd (run (inl c0) h)) /\
  exists v, snd (cstep (fst (run (inl c0) h)) (GetE b)) = OVal v /\
            fresh_energy w c0 b <> Some v /\ fresh_energy w c0 a = Some v.
Proof. exact set_atoms_refuted. Qed.
Print Assumptions C02_set_atoms_refuted.

(** C02, the part that holds: if every set_atoms(a) is followed at once by
    solve_ground_state(a).  Case meeting the hypotheses: [toy_disciplined]. *)
Theorem C02_set_atoms_partial : forall (w : world) (c0 : chg w) (a0 : atoms w) h o,
  eq_faithful w -> disciplined w h -> query o ->
  Forall (fun o' => forall a, about o' = Some a -> same_setting a a0) (h ++ [o]) ->
  Forall (fun r => ~ solve_failed r) (snd (run (inr (fresh_state w c0 a0)) h)) ->
  let r := snd (cstep (fst (run (inr (fresh_state w c0 a0)) h)) o) in
  answers c0 o r \/ exists e, r = OErr e /\ excused c0 o e.
Proof. intros w c0 a0 h o Heq. exact (disciplined_answers w Heq c0 a0 h o). Qed.
Print Assumptions C02_set_atoms_partial.

(** C03 as stated is false. *)
Theorem C03_failed_solve_refuted : exists (w : world) (c0 : chg w) (a b : atoms w),
  eq_faithful w /\ scc w = false /\ same_setting a b /\
  let h := [SetAtoms a; GetF a; GetE b] in
  snd (run (inl c0) h) = [OUnit; snd (cstep (fst (run (inl c0) [SetAtoms a])) (GetF a)); OErr ESolve] /\
  exists v, snd (cstep (fst (run (inl c0) h)) (GetE a)) = OVal v /\
            fresh_energy w c0 a <> Some v.
Proof. exact failed_solve_refuted. Qed.
Print Assumptions C03_failed_solve_refuted.

(** C03, what does happen: after a call [o] raised from within the solve, no
    continuation of any kind makes the calculator solve again; at most one
    atoms object [g] is still accepted.  Case: [dead_calculator]. *)
Theorem C03_failure_is_permanent : forall (w : world) (s : state w) o,
  eq_faithful w -> snd (step s o) = OErr ESolve ->
  exists g : option (atoms w), forall h2 b,
    let c2 := fst (run (inr (fst (step s o))) h2) in
    let r := snd (cstep c2 (Solve b)) in
    r = OErr ETimer \/ (r = OUnit /\ g = Some b).
Proof. intros w s o Heq. exact (failure_permanent w Heq s o). Qed.
Print Assumptions C03_failure_is_permanent.

(** C04: every key but 'txt' and 'charge' raises after initialisation ... *)
Theorem C04_parameters_frozen : forall key, key <> "txt"%string -> key <> "charge"%string ->
  set_param true key = SetRaises.
Proof. exact set_frozen. Qed.
Print Assumptions C04_parameters_frozen.

(** ... but 'charge' is accepted and ignored: the property is false. *)
Theorem C04_charge_refuted : exists (w : world) (c0 c1 : chg w) (a b : atoms w),
  eq_faithful w /\ scc w = false /\ same_setting a b /\
  let h := [SetAtoms a; GetE a; SetCharge c1] in
  (exists v v1, snd (cstep (fst (run (inl c0) h)) (GetE a)) = OVal v /\
                fresh_energy w c0 a = Some v /\
                fresh_energy w c1 a = Some v1 /\ v <> v1) /\
  snd (cstep (fst (run (inl c0) h)) (GetE b)) = OErr ESolve /\
  fresh_energy w c1 b <> None.
Proof. exact charge_refuted. Qed.
Print Assumptions C04_charge_refuted.

(** The charge entering the electron number never changes after initialisation. *)
Theorem C04_charge_never_takes_effect : forall (w : world) (s : state w) h,
  exists s1, fst (run (inr s) h) = inr s1 /\ el_charge s1 = el_charge s.
Proof. intros w s h. exact (run_charge w s h). Qed.
Print Assumptions C04_charge_never_takes_effect.

(** C05, Mulliken populations (DOS and bond analysis have the same guards):
    whatever was asked before, the analysis is that of a solution of the atoms
    of the last successful energy call, or the call raises. *)
Theorem C05_analysis_follows_geometry : forall (w : world) (c0 : chg w) (a0 : atoms w) h,
  eq_faithful w ->
  Forall query h ->
  Forall (fun o' => forall a, about o' = Some a -> same_setting a a0) h ->
  Forall (fun r => ~ solve_failed r) (snd (run (inr (fresh_state w c0 a0)) h)) ->
  let r := snd (cstep (fst (run (inr (fresh_state w c0 a0)) h)) Mull) in
  r = OErr ENotSolved \/
  exists a x, last_energy h (snd (run (inr (fresh_state w c0 a0)) h)) None = Some a /\
              solution c0 a x /\ r = OAna (analyse w x).
Proof. intros w c0 a0 h Heq H1 H2. exact (mulliken_current w Heq c0 a0 h (conj H1 H2)). Qed.
Print Assumptions C05_analysis_follows_geometry.

(** C05 is false for grids: the box of the first geometry and the first
    spacing are used for ever, even after set_grid is called again. *)
Theorem C05_grid_refuted : exists (w : world) (c0 : chg w) (a b : atoms w),
  eq_faithful w /\ same_setting a b /\
  let h := [SetAtoms a; GetE a; SetGrid 2; GetE b; SetGrid 1] in
  Forall (fun r => forall e, r <> OErr e) (snd (run (inl c0) h)) /\
  exists x, solution c0 b x /\
    snd (cstep (fst (run (inl c0) h)) GetGrid) <> OAna (gridres w 1 (b, rng_of w b) x) /\
    snd (cstep (fst (run (inl c0) h)) GetGrid) = OAna (gridres w 2 (a, rng_of w a) x).
Proof. exact grid_refuted. Qed.
Print Assumptions C05_grid_refuted.
