From Coq Require Import Reals ZArith String List Bool Arith.
From Verif Require Import GeomModel BzpModel BzpSpec BzpProofs.
Import ListNotations.
Open Scope R_scope.

(** C195: symmetry points and band paths of the fcc lattice.  Cases: ex_outside, ex_ase *)
Theorem C195_dual :
  forall i j : nat, (i < 3)%nat -> (j < 3)%nat -> vdot (direct i) (recip j) = (if (i =? j)%nat then 1 else 0).
Proof. exact dual. Qed.
Theorem C195_points :
  forall (name : string) (s : v3),
  find name fcc_points = ZOk s <->
  (exists k : v3, textbook name = Some k /\ wave s = k /\ s = {| vx := vdot (direct 0) k; vy := vdot (direct 1) k; vz := vdot (direct 2) k |}).
Proof. exact points. Qed.
Theorem C195_zone :
  forall (name : string) (s : v3), find name fcc_points = ZOk s -> first_zone (wave s) /\ shared_by (wave s) (sharing name).
Proof. exact zone_points. Qed.
Theorem C195_path :
  forall (Cell Out : Type) (ase : list v3 -> Cell -> nat -> Out) (cell : Cell) (n : nat),
  exists pts : list v3,
    get_bandpath ase "fcc" cell n = ZOk (ase pts cell n) /\
    length pts = (2 * (length stations - 1))%nat /\
    (forall (i : nat) (a b : string),
     nth_error stations i = Some a ->
     nth_error stations (S i) = Some b ->
     exists p q : v3,
       nth_error pts (2 * i) = Some p /\ nth_error pts (2 * i + 1) = Some q /\ textbook a = Some (wave p) /\ textbook b = Some (wave q)).
Proof. intros Cell Out. exact path. Qed.
Theorem C195_error :
  forall (Cell Out : Type) (ase : list v3 -> Cell -> nat -> Out) (crystal : string) (cell : Cell) (n : nat),
  get_bandpath ase crystal cell n = ZKeyError <-> crystal <> "fcc"%string.
Proof. intros Cell Out. exact path_error. Qed.
Theorem C195_inside :
  forall (Cell : Type) (ase : list v3 -> Cell -> nat -> list v3) (cell : Cell) (n : nat) (ks : list v3),
  (forall (pts : list v3) (cell0 : Cell) (n0 : nat) (k : v3), In k (ase pts cell0 n0) -> on_section pts k) ->
  get_bandpath ase "fcc" cell n = ZOk ks -> forall k : v3, In k ks -> first_zone (wave k).
Proof. intros Cell. exact path_inside. Qed.
Print Assumptions C195_dual.
Print Assumptions C195_points.
Print Assumptions C195_zone.
Print Assumptions C195_path.
Print Assumptions C195_error.
Print Assumptions C195_inside.
