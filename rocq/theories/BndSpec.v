(** Calculations with different sets of k-points. *)
From Coq Require Import Reals ZArith String List Bool Arith.
From Verif Require Import Vec GeomModel UtilModel KptModel KptSpec CoulModel MixModel PairModel PairSpec SkModel SkSpec Cpx RhoModel RhoSpec EigModel EigSpec GamModel InvModel InvSpec BndModel.
Import ListNotations.
Open Scope R_scope.

(** z or its conjugate *)
Definition mirrored (b : bool) (z : cplx) : cplx := if b then cconj z else z.
(** Y is X with other k-points: point k of X is point c k of Y, or its inverse if b k; the weights of the points that stand for j add up to that of j *)
Record stands_for (c : nat -> nat) (b : nat -> bool) (X Y : system) : Prop := {
  v_in : forall k, (k < s_nk X)%nat -> (c k < s_nk Y)%nat;
  v_onto : forall j, (j < s_nk Y)%nat -> exists k, (k < s_nk X)%nat /\ c k = j;
  v_wk : forall j, (j < s_nk Y)%nat -> s_wk Y j = rsum (s_nk X) (fun k => if (c k =? j)%nat then s_wk X k else 0);
  v_H0 : forall k i l, (k < s_nk X)%nat -> (i < s_norb X)%nat -> (l < s_norb X)%nat -> s_H0 X k i l = mirrored (b k) (s_H0 Y (c k) i l);
  v_S : forall k i l, (k < s_nk X)%nat -> (i < s_norb X)%nat -> (l < s_norb X)%nat -> s_S X k i l = mirrored (b k) (s_S Y (c k) i l);
  v_dH0 : forall d k i l, (k < s_nk X)%nat -> (i < s_norb X)%nat -> (l < s_norb X)%nat -> s_dH0 X d k i l = mirrored (b k) (s_dH0 Y d (c k) i l);
  v_dS : forall d k i l, (k < s_nk X)%nat -> (i < s_norb X)%nat -> (l < s_norb X)%nat -> s_dS X d k i l = mirrored (b k) (s_dS Y d (c k) i l);
  v_norb : s_norb Y = s_norb X; v_N : s_N Y = s_N X; v_o1 : s_o1 Y = s_o1 X; v_no : s_no Y = s_no X; v_val : s_val Y = s_val X; v_Z : s_Z Y = s_Z X;
  v_nel : s_nel Y = s_nel X; v_width : s_width Y = s_width X; v_charge : s_charge Y = s_charge X;
  v_G : s_G Y = s_G X; v_dG : s_dG Y = s_dG X; v_phi : s_phi Y = s_phi X; v_field : s_field Y = s_field X; v_ext : s_ext Y = s_ext X;
  v_erep : s_erep Y = s_erep X; v_epp : s_epp Y = s_epp X; v_efree : s_efree Y = s_efree X; v_frep : s_frep Y = s_frep X; v_fpp : s_fpp Y = s_fpp X }.
(** equal energies, charges and forces; eigenvalues, occupations and density matrices of point k of X are those of point c k of Y *)
Record same_observables (c : nat -> nat) (b : nat -> bool) (X : system) (x y : result) : Prop := {
  o_e : forall k a, (k < s_nk X)%nat -> (a < s_norb X)%nat -> r_e x k a = r_e y (c k) a;
  o_f : forall k a, (k < s_nk X)%nat -> (a < s_norb X)%nat -> r_f x k a = r_f y (c k) a;
  o_dq : forall I, (I < s_N X)%nat -> r_dq y I = r_dq x I;
  o_rho : forall k i l, (k < s_nk X)%nat -> (i < s_norb X)%nat -> (l < s_norb X)%nat -> r_rho x k i l = mirrored (b k) (r_rho y (c k) i l);
  o_rhoe : forall k i l, (k < s_nk X)%nat -> (i < s_norb X)%nat -> (l < s_norb X)%nat -> r_rhoe x k i l = mirrored (b k) (r_rhoe y (c k) i l);
  o_ebs : r_ebs y = r_ebs x; o_ecoul : r_ecoul y = r_ecoul x; o_epot : r_epot y = r_epot x;
  o_force : forall d I, (I < s_N X)%nat -> r_force y d I = r_force x d I }.
Definition same_observation (c : nat -> nat) (b : nat -> bool) (X : system) (x y : answer) : Prop :=
  match x, y with
  | Solved rx ix nx, Solved ry iy ny => same_observables c b X rx ry /\ ix = iy /\ nx = ny
  | NotConverged nx, NotConverged ny => nx = ny
  | Exception, Exception => True
  | _, _ => False
  end.
(** ** points *)
Definition opposite (n : ntuple) : ntuple := let '(a, b, c) := n in (- a, - b, - c)%Z.
(** image inv n is the inverse of image n *)
Definition paired (nimg : nat) (nt : nat -> ntuple) (inv : nat -> nat) : Prop := forall n, (n < nimg)%nat -> nt (inv n) = opposite (nt n).
(** k' is k or -k up to 2 PI *)
Definition same_point (k k' : v3) : Prop := exists (b : bool) (m : ntuple), k' = vadd (if b then vneg k else k) (vscale (2 * PI) (real_tuple m)).
(** point k of l is point c k of l', or its inverse if b k, up to 2 PI, and the weights add up *)
Record covers (c : nat -> nat) (b : nat -> bool) (l l' : list (v3 * R)) : Prop := {
  w_in : forall k, (k < List.length l)%nat -> (c k < List.length l')%nat;
  w_onto : forall j, (j < List.length l')%nat -> exists k, (k < List.length l)%nat /\ c k = j;
  w_point : forall k, (k < List.length l)%nat -> exists m : ntuple,
    fst (nth k l (vzero, 0)) = vadd (if b k then vneg (fst (nth (c k) l' (vzero, 0))) else fst (nth (c k) l' (vzero, 0))) (vscale (2 * PI) (real_tuple m));
  w_wk : forall j, (j < List.length l')%nat -> snd (nth j l' (vzero, 0)) = rsum (List.length l) (fun k => if (c k =? j)%nat then snd (nth k l (vzero, 0)) else 0) }.
(** the images contain the inverse of each, and everything else is sound *)
Definition sound_images (D : database) (g : structure) (nt : nat -> ntuple) (inv : nat -> nat) : Prop :=
  sound D (at_kpoints g nt [] []) inv /\ paired (g_nimg g) nt inv.
(** all points of the mesh, with equal weights *)
Definition full_mesh (M : nat -> option Z) (table : nat -> option v3) (n1 n2 n3 : Z) : list v3 :=
  map (mesh_point M table n1 n2 n3) (indices (Z.to_nat n1) (Z.to_nat n2) (Z.to_nat n3)).
Definition full_sampling (M : nat -> option Z) (table : nat -> option v3) (n1 n2 n3 : Z) : list (v3 * R) :=
  map (fun p => (p, / IZR (n1 * n2 * n3))) (full_mesh M table n1 n2 n3).
(** exp(i k.T) for the translation T = n1 a1 + n2 a2 + n3 a3 of a lattice with the rows of L *)
Definition bloch_factor (L : m3) (n : ntuple) (k : v3) : cplx :=
  let '(a, b, c) := n in
  let T := vadd (vadd (vscale (IZR a) (mv (tr L) (V3 1 0 0))) (vscale (IZR b) (mv (tr L) (V3 0 1 0)))) (vscale (IZR c) (mv (tr L) (V3 0 0 1))) in
  (cos (vdot k T), sin (vdot k T)).
