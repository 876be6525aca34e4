From Coq Require Import Reals String Ascii List Bool Arith.
From Coquelicot Require Import Coquelicot.
From Verif Require Import GeomModel UtilModel IoModel XcfModel XcfSpec XcfProofs.
Import ListNotations.
Open Scope R_scope.

(** C196: functionals of libxc.  Case: ex_gradient *)
Theorem C196_potential :
  forall (N : nat) (g : grid) (n dn : R -> R) (rho : nat -> R) (F : libxc) (v : nat -> R) (dh : functional -> R -> R) 
    (eta : R -> R) (deta : R) (i : nat),
  (forall j : nat, (j < N)%nat -> rho j = n (g_r g j)) ->
  (forall j : nat, (j < N)%nat -> mini <= n (g_r g j)) ->
  differentiates N g n dn ->
  (forall P : functional, In P (parts F) -> contract P /\ (is_gga P = false -> forall m s s' : R, 0 < m -> zk P m s = zk P m s')) ->
  (forall P : functional, In P (parts F) -> is_gga P = true -> differentiates N g (flux P n dn) (dh P)) ->
  vxc F (Some g) rho = XOk v ->
  (i < N)%nat ->
  let r := g_r g i in
  mini <= r ->
  (forall P : functional, In P (parts F) -> derivable_pt_lim (flux P n dn) r (dh P r)) ->
  derivable_pt_lim eta r deta ->
  exists D B : R,
    derivable_pt_lim (fun t : R => r ^ 2 * energy_density F (n r + t * eta r) ((dn r + t * deta) ^ 2)) 0 D /\
    derivable_pt_lim (fun s : R => s ^ 2 * (add (map (fun P : functional => flux P n dn s) (parts F)) * eta s)) r B /\
    D = r ^ 2 * v i * eta r + B.
Proof. exact potential. Qed.
Theorem C196_energy :
  forall (N : nat) (g : grid) (n dn : R -> R) (rho : nat -> R),
  (forall j : nat, (j < N)%nat -> rho j = n (g_r g j)) ->
  (forall j : nat, (j < N)%nat -> mini <= n (g_r g j)) ->
  differentiates N g n dn ->
  forall (F : libxc) (e : nat -> R) (i : nat),
  exc F (Some g) rho = XOk e ->
  (i < N)%nat ->
  (any_gga F = false -> forall P : functional, In P (parts F) -> forall m s s' : R, 0 < m -> zk P m s = zk P m s') ->
  rho i * e i = energy_density F (n (g_r g i)) (dn (g_r g i) ^ 2).
Proof. exact energy. Qed.
Theorem C196_grid :
  forall (F : libxc) (g : option grid) (rho : nat -> R),
  (vxc F g rho = XFail XValueError <-> any_gga F = true /\ g = None) /\
  (exc F g rho = XFail XValueError <-> any_gga F = true /\ g = None) /\ (forall e : xerror, vxc F g rho = XFail e -> e = XValueError).
Proof. exact grid_needed. Qed.
Theorem C196_names :
  forall (load : string -> functional) (name : text),
  (exists F : libxc, init load name = XOk F) <-> In (lower name) (map txt (joint ++ separate)).
Proof. exact known_names. Qed.
Theorem C196_case :
  forall (load : string -> functional) (name name' : text), lower name = lower name' -> init load name = init load name'.
Proof. exact any_case. Qed.
Theorem C196_energies :
  forall (pw92 : (nat -> R) -> nat -> R) (load : string -> functional) (name : text) (g : grid) (dens : nat -> R),
  name <> txt "PW92" ->
  match ks_exc pw92 load name g dens with
  | XOk _ => In (lower name) (map txt joint)
  | XFail XValueError => ~ In (lower name) (map txt (joint ++ separate))
  | XFail XNameError => In (lower name) (map txt separate)
  end.
Proof. exact energies. Qed.
Theorem C196_separate_fails :
  forall (x c : functional) (g : option grid) (rho : nat -> R),
  exc (Sep x c) g rho = XFail (if no_grid (Sep x c) g then XValueError else XNameError).
Proof. exact separate_fails. Qed.
Theorem C196_energy_refuted :
  forall (pw92 : (nat -> R) -> nat -> R) (load : string -> functional) (g : grid) (dens : nat -> R),
  ks_exc pw92 load (txt "PBE") g dens = XFail XNameError /\ ks_exc pw92 load (txt "pw92") g dens = XFail XNameError.
Proof. exact pbe_refuted. Qed.
Print Assumptions C196_potential.
Print Assumptions C196_energy.
Print Assumptions C196_grid.
Print Assumptions C196_names.
Print Assumptions C196_case.
Print Assumptions C196_energies.
Print Assumptions C196_separate_fails.
Print Assumptions C196_energy_refuted.
