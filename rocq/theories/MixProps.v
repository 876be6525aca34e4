(** Statements about the SCC loop and the mixers. *)
From Coq Require Import Reals List Arith Bool String Ascii.
From Verif Require Import Vec MixModel MixSpec MixProofs MixProofs2 MixProofs3.
Import ListNotations.
Open Scope R_scope.

(** C06: an SCC solve with maxiter >= 1 passes either returns at the first
    acceptance (recording its index, after one diagonalisation per pass), or
    raises "Out of iterations" after exactly maxiter passes without acceptance, or passes on
    an exception of a pass; it never makes more than maxiter diagonalisations. *)
Theorem C06_scc_loop_outcomes :
  forall (states : Type) (eigen : vec -> option states) eigen0 occupy (m : mixer) s0 dq0 maxiter r k,
  (1 <= maxiter)%nat ->
  get_states eigen eigen0 occupy m true maxiter s0 dq0 = (r, k) ->
  (k <= maxiter)%nat /\
  (forall e rec, r = Returned e rec <->
     exists i, rec = Some i /\ (i < maxiter)%nat /\ accepted_at eigen occupy m s0 dq0 i e) /\
  (forall e i, r = Returned e (Some i) -> k = S i) /\
  (r = OutOfIterations <-> exists s dq, at_pass eigen occupy m s0 dq0 maxiter s dq) /\
  (r = OutOfIterations -> k = maxiter) /\
  (r = Raised <-> exists i, (i < maxiter)%nat /\ breaks_at eigen occupy m s0 dq0 i) /\
  r <> NeverSolved.
Proof. exact @scc_complete. Qed.
Print Assumptions C06_scc_loop_outcomes.

(** C06: without SCC there is exactly one diagonalisation. *)
Theorem C06_nonscc_single :
  forall (states : Type) (eigen : vec -> option states) eigen0 occupy (m : mixer) s0 dq0 maxiter,
  (1 <= maxiter)%nat ->
  snd (get_states eigen eigen0 occupy m false maxiter s0 dq0) = 1%nat /\
  (forall e, fst (get_states eigen eigen0 occupy m false maxiter s0 dq0) = Returned e None <->
     eigen0 = Some e /\ exists out, occupy e = Some out) /\
  (fst (get_states eigen eigen0 occupy m false maxiter s0 dq0) = Raised <->
     eigen0 = None \/ exists e, eigen0 = Some e /\ occupy e = None).
Proof. exact @nonscc_once. Qed.
Print Assumptions C06_nonscc_single.

(** C06: the states returned with the Anderson (default) mixer are self-consistent:
    they belong to charges that differ from the charges they produce by less than the
    convergence limit on every atom. *)
Theorem C06_anderson_self_consistent :
  forall states (eigen : vec -> option states) eigen0 occupy sv p n s0 dq0 maxiter e i k,
  (1 <= maxiter)%nat -> (0 < n)%nat ->
  get_states eigen eigen0 occupy (anderson_mixer sv p n) true maxiter s0 dq0 = (Returned e (Some i), k) ->
  exists dq out, eigen dq = Some e /\ occupy e = Some out /\
    forall j, (j < n)%nat -> Rabs (out j - dq j) < convergence p.
Proof. exact anderson_consistent. Qed.
Print Assumptions C06_anderson_self_consistent.

(** C06: same for the Pulay mixer, which makes at least four passes. *)
Theorem C06_pulay_self_consistent :
  forall states (eigen : vec -> option states) eigen0 occupy iv p n s0 dq0 maxiter e i k,
  (1 <= maxiter)%nat -> (0 < n)%nat ->
  get_states eigen eigen0 occupy (pulay_mixer iv p n) true maxiter s0 dq0 = (Returned e (Some i), k) ->
  (3 <= i)%nat /\ exists dq out, eigen dq = Some e /\ occupy e = Some out /\
    forall j, (j < n)%nat -> Rabs (out j - dq j) < convergence p.
Proof. exact pulay_consistent. Qed.
Print Assumptions C06_pulay_self_consistent.

(** C07 is false: the number printed as max is not the maximum and the one printed
    as min not the minimum. *)
Theorem C07_iteration_info_refuted : exists h t s mx mn,
  iteration_info h = Many t s mx mn /\ ~ is_max mx h /\ ~ is_min mn h.
Proof. exact info_refuted. Qed.
Print Assumptions C07_iteration_info_refuted.

(** C07: what is printed, for every history of two or more solves. *)
Theorem C07_iteration_info_swapped : forall h t s mx mn, iteration_info h = Many t s mx mn ->
  t = List.length h /\ s = fold_right plus O h /\ is_min mx h /\ is_max mn h.
Proof. exact info_swapped. Qed.
Print Assumptions C07_iteration_info_swapped.

(** C08: the Anderson mixer, whatever its past before the reset and whatever the
    linear solver answers. *)
Theorem C08_anderson_conserves : forall sv p n Q s ins,
  (forall io, In io ins -> total n Q (fst io) /\ total n Q (snd io)) ->
  forall o, In o (answers_of (anderson_mixer sv p n) (anderson_reset s) ins) -> total n Q (snd o).
Proof.
  exact (fun sv p n Q s ins => anderson_conserves sv p n Q ins (anderson_reset s)
           (anderson_fresh_inv p n Q (anderson_reset s) eq_refl)).
Qed.
Print Assumptions C08_anderson_conserves.

(** C08: the Pulay mixer with an inverter that returns inverses or raises. *)
Theorem C08_pulay_conserves : forall iv p n Q s ins,
  inverts iv -> (1 <= memory p)%nat ->
  (forall io, In io ins -> total n Q (fst io) /\ total n Q (snd io)) ->
  forall o, In o (answers_of (pulay_mixer iv p n) (pulay_reset s) ins) -> total n Q (snd o).
Proof.
  exact (fun iv p n Q s ins Hi Hm => pulay_conserves iv p n Q ins Hi Hm (pulay_reset s)
           (pulay_fresh_inv p n Q (pulay_reset s) eq_refl)).
Qed.
Print Assumptions C08_pulay_conserves.

(** C08: hence all charges met in an SCC cycle have the total of the first guess and of
    the output charges. *)
Theorem C08_anderson_cycle :
  forall states (eigen : vec -> option states) occupy sv p n Q s0 dq0,
  total n Q dq0 -> (forall e out, occupy e = Some out -> total n Q out) ->
  forall i s dq, at_pass eigen occupy (anderson_mixer sv p n) s0 dq0 i s dq -> total n Q dq.
Proof. exact anderson_cycle. Qed.
Print Assumptions C08_anderson_cycle.

Theorem C08_pulay_cycle :
  forall states (eigen : vec -> option states) occupy iv p n Q s0 dq0,
  inverts iv -> (1 <= memory p)%nat ->
  total n Q dq0 -> (forall e out, occupy e = Some out -> total n Q out) ->
  forall i s dq, at_pass eigen occupy (pulay_mixer iv p n) s0 dq0 i s dq -> total n Q dq.
Proof. exact pulay_cycle. Qed.
Print Assumptions C08_pulay_cycle.

(** C08: and the first guess carries the charge of the system. *)
Theorem C08_guess_total : forall n charge prev, (0 < n)%nat ->
  Forall (total n (- charge)) prev -> total n (- charge) (guess_dq n charge prev).
Proof. exact guess_total. Qed.
Print Assumptions C08_guess_total.

(** C09: with chop = c the answer is the input plus a fraction t of the step of the
    same mixer without chop; no component moves more than c; and steps
    within the limit are not shortened. *)
Theorem C09_anderson_chop : forall sv p n s xi yi c, chop p = Some c -> 0 < c ->
  let xb := snd (snd (anderson sv p n s xi yi)) in
  let free := snd (snd (anderson sv (mkparams (beta p) (memory p) (convergence p) None) n s xi yi)) in
  exists t, 0 < t <= 1 /\ (forall k, xb k = xi k + t * (free k - xi k)) /\
  (forall k, (k < n)%nat -> Rabs (xb k - xi k) <= c) /\
  ((forall k, (k < n)%nat -> Rabs (free k - xi k) <= c) -> t = 1).
Proof. exact (fun sv p n s xi yi c Hc Hp => chop_bound p n xi _ c Hc Hp). Qed.
Print Assumptions C09_anderson_chop.

Theorem C09_pulay_chop : forall iv p n s xi yi c, chop p = Some c -> 0 < c ->
  let xb := snd (snd (pulay iv p n s xi yi)) in
  let free := snd (snd (pulay iv (mkparams (beta p) (memory p) (convergence p) None) n s xi yi)) in
  exists t, 0 < t <= 1 /\ (forall k, xb k = xi k + t * (free k - xi k)) /\
  (forall k, (k < n)%nat -> Rabs (xb k - xi k) <= c) /\
  ((forall k, (k < n)%nat -> Rabs (free k - xi k) <= c) -> t = 1).
Proof.
  exact (fun iv p n s xi yi c Hc Hp =>
    eq_ind_r (fun x => exists t, 0 < t <= 1 /\ (forall k, x k = xi k + t * (_ k - xi k)) /\
      (forall k, (k < n)%nat -> Rabs (x k - xi k) <= c) /\
      ((forall k, (k < n)%nat -> Rabs (_ k - xi k) <= c) -> t = 1))
      (chop_bound p n xi _ c Hc Hp) (pulay_unlimited iv p n s xi yi)).
Qed.
Print Assumptions C09_pulay_chop.

(** C10: acceptance. *)
Theorem C10_anderson_accepts : forall sv p n s xi yi, (0 < n)%nat ->
  fst (snd (anderson sv p n s xi yi)) = true <->
  (forall k, (k < n)%nat -> Rabs (yi k - xi k) < convergence p).
Proof. exact anderson_done. Qed.
Print Assumptions C10_anderson_accepts.

(** C10: fixed points are kept, for every solver that returns the unique
    solution or raises. *)
Theorem C10_anderson_keeps_fixed_points : forall sv p n s xi yi, solves sv ->
  (forall k, (k < n)%nat -> yi k = xi k) ->
  forall k, (k < n)%nat -> snd (snd (anderson sv p n s xi yi)) k = xi k.
Proof. exact anderson_fixed. Qed.
Print Assumptions C10_anderson_keeps_fixed_points.

(** C11 *)
Theorem C11_anderson_reset : forall sv p n s ins,
  answers_of (anderson_mixer sv p n) (anderson_reset s) ins =
  answers_of (anderson_mixer sv p n) anderson_new ins.
Proof. exact anderson_reset_forgets. Qed.
Print Assumptions C11_anderson_reset.

(** C11 for the Pulay mixer; the inverter looks only at the block it is handed. *)
Theorem C11_pulay_reset : forall iv p n s ins, reads_block iv ->
  Forall2 (fun a b => fst a = fst b /\ forall k, snd a k = snd b k)
    (answers_of (pulay_mixer iv p n) (pulay_reset s) ins)
    (answers_of (pulay_mixer iv p n) pulay_new ins).
Proof. exact pulay_reset_forgets. Qed.
Print Assumptions C11_pulay_reset.

(** C52: without chop, after any calls since the reset the Anderson mixer with
    at least two remembered iterations returns x + beta F combined with the weights that
    minimise the combined residual; with fewer, or if the solver raised, it
    mixes linearly. *)
Theorem C52_anderson_least_squares : forall sv p n s ins xi yi,
  solves_system sv -> chop p = None ->
  let t := after (anderson_mixer sv p n) (anderson_reset s) ins in
  let M := Nat.min (List.length ins) (memory p) in
  let xb := snd (snd (anderson sv p n t xi yi)) in
  let G := set_row0 (fun k => yi k - xi k) (a_F t) in
  ((M <= 1)%nat \/ sv M (a_mat n G) (a_rhs n G) = None ->
     forall k, xb k = xi k + beta p * (yi k - xi k)) /\
  ((2 <= M)%nat -> sv M (a_mat n G) (a_rhs n G) <> None ->
     optimal_mix (beta p) n (S M) ((xi, yi) :: rev ins) xb).
Proof. exact anderson_optimal. Qed.
Print Assumptions C52_anderson_least_squares.

(** C52: the Pulay mixer; linear mixing when the inverse cannot be taken. *)
Theorem C52_pulay_least_squares : forall iv p n s ins xi yi,
  inverts iv -> chop p = None -> (1 <= memory p)%nat ->
  let t := after (pulay_mixer iv p n) (pulay_reset s) ins in
  let L := Nat.min (S (List.length ins)) (memory p) in
  let xb := snd (snd (pulay iv p n t xi yi)) in
  (iv L (p_A (fst (pulay iv p n t xi yi))) = None ->
     forall k, xb k = xi k + beta p * (yi k - xi k)) /\
  (iv L (p_A (fst (pulay iv p n t xi yi))) <> None ->
     optimal_mix (beta p) n L ((xi, yi) :: rev ins) xb).
Proof. exact pulay_optimal. Qed.
Print Assumptions C52_pulay_least_squares.

(** C12 *)
Theorem C12_default : build_mixer SNone = Built Anderson [].
Proof. exact eq_refl. Qed.
Print Assumptions C12_default.

Theorem C12_by_name : forall s m kw,
  build_mixer (SStr s) = Built m kw <->
  kw = [] /\ same_name s (match m with Anderson => "anderson" | Pulay => "pulay" end)%string.
Proof. exact build_str. Qed.
Print Assumptions C12_by_name.

Theorem C12_unknown_name : forall s,
  ~ same_name s "anderson" -> ~ same_name s "pulay" -> build_mixer (SStr s) = KeyErr.
Proof.
  exact (fun s Ha Hp => build_str_bad s
    (fun m => match m with Anderson => Ha | Pulay => Hp end)).
Qed.
Print Assumptions C12_unknown_name.

Theorem C12_by_dictionary : forall d m kw,
  build_mixer (SDict d) = Built m kw <->
  exists s, lookup "name" d = Some (VStr s) /\
    same_name s (match m with Anderson => "anderson" | Pulay => "pulay" end)%string /\
    kw = pop "name" d /\
    (forall k v, In (k, v) kw -> In k ["mixing_constant"; "memory"; "convergence"; "chop"]%string).
Proof. exact build_dict. Qed.
Print Assumptions C12_by_dictionary.
