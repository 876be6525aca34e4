From Coq Require Import Reals ZArith List Bool Arith.
From Coquelicot Require Import Coquelicot.
From Verif Require Import Vec GeomModel GeomSpec ScaModel MpModel MpSpec MpProofs MpProofs2 MpProofs3 MpProofs4 MpProofs5 MpProofs6 MpProofs9 MpProofs10 MpProofs11.
Import ListNotations.
Open Scope R_scope.

(** C121: solid harmonics. *)
Theorem C121_regular :
  forall r : v3, holds (py_solid_R r) (solid r).
Proof. exact py_solid_R_holds. Qed.
Theorem C121_regular_nonzero :
  forall r : v3, is_zero r = false -> holds (harm_R r) (solid r).
Proof. exact harm_R_holds. Qed.
Theorem C121_irregular :
  forall r : v3,
  is_zero r = false ->
  holds (harm_I r)
    (fun (l : nat) (m : Z) =>
     ((INR (fact (Z.to_nat (Z.of_nat l + m))) * INR (fact (Z.to_nat (Z.of_nat l - m))) / vnorm r ^ (2 * l + 1))%R * solid r l m)%C).
Proof. exact harm_I_holds. Qed.
Theorem C121_addition :
  forall (a b : v3) (l : nat) (m : Z),
  solid (vadd a b) l m =
  csum (S l) (fun la : nat => zsum (- Z.of_nat la) (Z.of_nat la) (fun mu : Z => (solid a (l - la) (m - mu) * solid b la mu)%C)).
Proof. exact solid_add. Qed.
(** C122: multipole moments. *)
Theorem C122_moments :
  forall (qs : list (v3 * R)) (r0 : v3), holds (get_moments qs r0) (moment qs r0).
Proof. exact get_moments_holds. Qed.
Theorem C122_shift :
  forall (lmax : nat) (dr : v3) (child M : moments) (qs ps : list (v3 * R)) (r0 : v3),
  holds_to lmax child (moment qs r0) ->
  holds_to lmax M (moment ps (vsub r0 dr)) -> holds_to lmax (m2m dr child M) (moment (ps ++ qs) (vsub r0 dr)).
Proof. exact m2m_exact. Qed.
(** C123: rotated moments.  A case: ex_rotation *)
Theorem C123_rotation :
  forall T : m3,
  is_orthogonal T ->
  forall (lmax : nat) (M : moments) (qs : list (v3 * R)) (r0 : v3),
  holds_to lmax M (moment qs r0) -> holds_to lmax (transform_multipole T M) (moment (map (turned T r0) qs) r0).
Proof. exact transform_exact. Qed.
(** C124: telescoping.  Cases: ex_even, helix_charges *)
Theorem C124_old_origin :
  forall (c : ctype) (a : atoms) (ops : list op) (lmax : nat) (M : moments) (qs : list (v3 * R)) (r0 : v3),
  (forall x : op, In x ops -> rigid_container c a x) ->
  holds_to lmax M (moment qs r0) ->
  holds_to lmax (telescope (fun (n : Z * Z * Z) (r : v3) => transform c a r n) (rotation c a) ops r0 M)
    (moment (images (fun (n : Z * Z * Z) (r : v3) => transform c a r n) ops qs) r0).
Proof. exact telescope_exact. Qed.
Theorem C124_translations_partial :
  forall (a : atoms) (h : nat * nat * nat) (k lmax : nat) (M : moments) (qs : list (v3 * R)) (r0 : v3),
  holds_to lmax M (moment qs r0) ->
  let s := levels (fun (n : Z * Z * Z) (r : v3) => transform Bravais a r n) (rotation Bravais a) (map (level_ops h) (seq 0 k)) (r0, M) in
  exists cs : list (Z * Z * Z),
    NoDup cs /\
    (forall z : Z * Z * Z, In z cs <-> in_block h k z) /\
    fst s = r0 /\ holds_to lmax (snd s) (moment (images (fun (n : Z * Z * Z) (r : v3) => transform Bravais a r n) cs qs) r0).
Proof. exact levels_exact. Qed.
Theorem C124_charged_refuted :
  forall (c : ctype) (a : atoms) (ops : list op) (qs : list (v3 * R)) (r0 : v3) (M : moments),
  (forall x : op, In x ops -> rigid_container c a x) ->
  holds_to 1 M (moment qs r0) ->
  total_charge (images (fun (n : Z * Z * Z) (r : v3) => transform c a r n) ops qs) <> 0 ->
  next_origin (fun (n : Z * Z * Z) (r : v3) => transform c a r n) ops r0 <> r0 ->
  ~
  holds_to 1 (telescope (fun (n : Z * Z * Z) (r : v3) => transform c a r n) (rotation c a) ops r0 M)
    (moment (images (fun (n : Z * Z * Z) (r : v3) => transform c a r n) ops qs)
       (next_origin (fun (n : Z * Z * Z) (r : v3) => transform c a r n) ops r0)).
Proof. exact telescope_old_origin. Qed.
Theorem C124_helix_refuted :
  forall h : R,
  let f := fun (n : op) (r : v3) => transform Chiral (helix h) r n in
  let r0 := mean_position helix_charges in
  total_charge helix_charges = 0 /\
  ~
  holds_to 2 (telescope f (rotation Chiral (helix h)) helix_ops r0 (get_moments helix_charges r0))
    (moment (images f helix_ops helix_charges) (next_origin f helix_ops r0)).
Proof. exact telescope_helix. Qed.
(** C125: local expansions. *)
Theorem C125_shift :
  forall (n : nat) (dr : v3) (L L' : moments) (s : v3), local_value n (l2l dr n n L L') s = local_value n L' s + local_value n L (vadd s dr).
Proof. exact l2l_exact. Qed.
Theorem C125_potential :
  forall (L : moments) (n : nat) (dr : v3), local_phi L n dr = local_value n L dr.
Proof. exact local_phi_exact. Qed.
Theorem C125_field :
  forall (L : moments) (n : nat) (dr e : v3),
  is_derive (fun t : R => local_value n L (vadd dr (vscale t e))) 0 (- vdot (local_field L n dr) e).
Proof. exact local_field_exact. Qed.
(** C126: local expansion of a multipole expansion.  A case: ex_m2l *)
Theorem C126_error :
  forall (lmax : nat) (M L : moments) (qs : list (v3 * R)) (r0 c x : v3),
  holds_to lmax M (moment qs r0) ->
  c <> r0 ->
  (forall p : v3 * R, In p qs -> vnorm (vsub (fst p) r0) + vnorm (vsub x c) < vnorm (vsub c r0)) ->
  Rabs (local_value lmax (m2l (vsub c r0) lmax M L) (vsub x c) - (local_value lmax L (vsub x c) + potential qs x)) <= m2l_bound lmax qs r0 c x.
Proof. exact m2l_error. Qed.
Theorem C126_converges :
  forall (M L : moments) (qs : list (v3 * R)) (r0 c x : v3),
  holds M (moment qs r0) ->
  c <> r0 ->
  (forall p : v3 * R, In p qs -> vnorm (vsub (fst p) r0) + vnorm (vsub x c) < vnorm (vsub c r0)) ->
  is_lim_seq (fun lmax : nat => local_value lmax (m2l (vsub c r0) lmax M L) (vsub x c) - local_value lmax L (vsub x c)) (potential qs x).
Proof. exact m2l_converges. Qed.
(** C127: charge and dipole. *)
Theorem C127_charge :
  forall (lmax : nat) (M : moments) (qs : list (v3 * R)) (r0 : v3), holds_to lmax M (moment qs r0) -> ml0 M 0 = total_charge qs.
Proof. exact charge_exact. Qed.
Theorem C127_dipole :
  forall (lmax : nat) (M : moments) (qs : list (v3 * R)) (r0 : v3),
  (1 <= lmax)%nat -> holds_to lmax M (moment qs r0) -> dipole M = total_dipole qs r0.
Proof. exact dipole_exact. Qed.
(** C128: the potential of an atom.  Cases: ex_separated, ex_chain, cells_exist *)
Theorem C128_error :
  forall (a : atoms) (h : nat * nat * nat) (K lmax : nat) (vol : option R) (qs : list (v3 * R)) (r0 : v3) (i : nat) 
    (t d : R) (cs : list (Z * Z * Z)),
  (1 <= K)%nat ->
  (1 <= lmax)%nat ->
  (i < length qs)%nat ->
  0 <= t < 1 ->
  0 < d ->
  let f := fun (n : Z * Z * Z) (r : v3) => transform Bravais a r n in
  let x := fst (nth i qs (vzero, 0)) in
  separated a h K qs r0 x t d ->
  NoDup cs ->
  (forall z : Z * Z * Z, In z cs <-> in_block h K z) ->
  Rabs
    (mp_phi f (rotation Bravais a) lmax h K vol qs r0 i -
     (lattice_potential f cs qs i - match vol with
                                    | Some v => 4 * PI / (3 * v) * vdot (vsub x r0) (total_dipole qs r0)
                                    | None => 0
                                    end)) <= INR (length cs) * absolute_charge qs * (INR (S lmax) * (t ^ S lmax / ((1 - t) * d))).
Proof. exact mp_phi_bound. Qed.
Theorem C128_converges :
  forall (a : atoms) (h : nat * nat * nat) (K : nat) (vol : option R) (qs : list (v3 * R)) (r0 : v3) (i : nat) (t d : R) (cs : list (Z * Z * Z)),
  (1 <= K)%nat ->
  (i < length qs)%nat ->
  0 <= t < 1 ->
  0 < d ->
  let f := fun (n : Z * Z * Z) (r : v3) => transform Bravais a r n in
  let x := fst (nth i qs (vzero, 0)) in
  separated a h K qs r0 x t d ->
  NoDup cs ->
  (forall z : Z * Z * Z, In z cs <-> in_block h K z) ->
  is_lim_seq (fun lmax : nat => mp_phi f (rotation Bravais a) lmax h K vol qs r0 i)
    (lattice_potential f cs qs i - match vol with
                                   | Some v => 4 * PI / (3 * v) * vdot (vsub x r0) (total_dipole qs r0)
                                   | None => 0
                                   end).
Proof. exact mp_phi_converges. Qed.
Print Assumptions C121_regular.
Print Assumptions C121_regular_nonzero.
Print Assumptions C121_irregular.
Print Assumptions C121_addition.
Print Assumptions C122_moments.
Print Assumptions C122_shift.
Print Assumptions C123_rotation.
Print Assumptions C124_old_origin.
Print Assumptions C124_translations_partial.
Print Assumptions C124_charged_refuted.
Print Assumptions C124_helix_refuted.
Print Assumptions C125_shift.
Print Assumptions C125_potential.
Print Assumptions C125_field.
Print Assumptions C126_error.
Print Assumptions C126_converges.
Print Assumptions C127_charge.
Print Assumptions C127_dipole.
Print Assumptions C128_error.
Print Assumptions C128_converges.
