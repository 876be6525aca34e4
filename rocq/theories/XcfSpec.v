From Coq Require Import Reals String Ascii List Bool Arith.
From Coquelicot Require Import Coquelicot.
From Verif Require Import GeomModel UtilModel IoModel XcfModel.
Import ListNotations.
Open Scope R_scope.

Definition parts (F : libxc) : list functional := match F with Sep x c => [x; c] | One xc => [xc] end.
Fixpoint add (l : list R) : R := match l with [] => 0 | x :: l => x + add l end.
(** energy per volume of density n with squared gradient s, as libxc gives it *)
Definition energy_density (F : libxc) (n s : R) : R := n * add (map (fun P => zk P n s) (parts F)).
(** what libxc promises: vrho and vsigma are the derivatives of the energy density; an LDA does not depend on the gradient *)
Definition contract (P : functional) : Prop :=
  forall n s, 0 < n -> 0 <= s -> differentiable_pt_lim (fun n s => n * zk P n s) n s (vrho P n s) (if is_gga P then vsigma P n s else 0).
(** the derivative by the gradient of the density, along a density n(r) with derivative dn(r) *)
Definition flux (P : functional) (n dn : R -> R) (r : R) : R := if is_gga P then 2 * vsigma P (n r) (dn r ^ 2) * dn r else 0.
(** the derivative of arrays is exact for the values of f at the N grid points *)
Definition differentiates (N : nat) (g : grid) (f df : R -> R) : Prop :=
  forall a, (forall j, (j < N)%nat -> a j = f (g_r g j)) -> forall i, (i < N)%nat -> g_der g a i = df (g_r g i).
(** names of functionals that libxc has as one *)
Definition joint : list string := ["teter93"; "zlp"; "beefvdw"; "vv10"; "xlyp"]%string.
Definition separate : list string := ["gl"; "hl"; "pw92"; "pz"; "svwn"; "b96pbe"; "blyp"; "bp86"; "gam"; "pbe"; "pbeint"; "pw86pbe"; "pw91"; "revpbe"; "rpbe"; "sogga"; "sogga11"]%string.
