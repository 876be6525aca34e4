(** When two calculations describe the same physical system. *)
From Coq Require Import Reals ZArith List Bool Arith.
From Verif Require Import Vec GeomModel CoulModel MixModel PairModel PairSpec SkModel SkSpec Cpx RhoModel RhoSpec EigModel EigSpec GamModel InvModel.
Import ListNotations.
Open Scope R_scope.

(** a permutation of the first n numbers *)
Definition permutes (n : nat) (s : nat -> nat) : Prop :=
  (forall i, (i < n)%nat -> (s i < n)%nat) /\ forall i j, (i < n)%nat -> (j < n)%nat -> s i = s j -> i = j.
(** T A T^+ *)
Definition transported (n : nat) (T A : nat -> nat -> cplx) (i l : nat) : cplx :=
  csum n (fun j => csum n (fun m => cmul (cmul (T i j) (A j m)) (cconj (T l m)))).
Definition unitary (n : nat) (T : nat -> nat -> cplx) : Prop :=
  (forall i l, (i < n)%nat -> (l < n)%nat -> csum n (fun j => cmul (T i j) (cconj (T l j))) = if (i =? l)%nat then c1 else c0) /\
  (forall j m, (j < n)%nat -> (m < n)%nat -> csum n (fun i => cmul (cconj (T i j)) (T i m)) = if (j =? m)%nat then c1 else c0).
(** the charges v of the second system are the charges u of the first *)
Definition carried (n : nat) (s : nat -> nat) (u v : vec) : Prop := forall i, (i < n)%nat -> v (s i) = u i.
(** the vectors v of the second system are the rotated vectors u of the first *)
Definition turned (n : nat) (s : nat -> nat) (Q : nat -> nat -> R) (u v : nat -> vec) : Prop :=
  forall c i, (c < 3)%nat -> (i < n)%nat -> v c (s i) = rsum 3 (fun d => Q c d * u d i).
(** atom I of X is atom s I of Y; T(k) expresses the orbitals of Y in those of X, without mixing atoms; Q rotates vectors *)
Record equivalent (s : nat -> nat) (T : nat -> nat -> nat -> cplx) (Q : nat -> nat -> R) (X Y : system) : Prop := {
  q_norb : s_norb Y = s_norb X; q_N : s_N Y = s_N X; q_nk : s_nk Y = s_nk X;
  q_perm : permutes (s_N X) s;
  q_layX : layout (s_norb X) (s_N X) (s_o1 X) (s_no X); q_layY : layout (s_norb Y) (s_N Y) (s_o1 Y) (s_no Y);
  q_T : forall k, (k < s_nk X)%nat -> unitary (s_norb X) (T k);
  q_atoms : forall k i j I J, (k < s_nk X)%nat -> (I < s_N X)%nat -> (J < s_N X)%nat -> belongs (s_o1 Y) (s_no Y) i J -> belongs (s_o1 X) (s_no X) j I -> J <> s I -> T k i j = c0;
  q_H0 : forall k i l, (k < s_nk X)%nat -> (i < s_norb X)%nat -> (l < s_norb X)%nat -> s_H0 Y k i l = transported (s_norb X) (T k) (s_H0 X k) i l;
  q_S : forall k i l, (k < s_nk X)%nat -> (i < s_norb X)%nat -> (l < s_norb X)%nat -> s_S Y k i l = transported (s_norb X) (T k) (s_S X k) i l;
  q_dH0 : forall c k i l, (c < 3)%nat -> (k < s_nk X)%nat -> (i < s_norb X)%nat -> (l < s_norb X)%nat ->
    s_dH0 Y c k i l = csum 3 (fun d => cscale (Q c d) (transported (s_norb X) (T k) (s_dH0 X d k) i l));
  q_dS : forall c k i l, (c < 3)%nat -> (k < s_nk X)%nat -> (i < s_norb X)%nat -> (l < s_norb X)%nat ->
    s_dS Y c k i l = csum 3 (fun d => cscale (Q c d) (transported (s_norb X) (T k) (s_dS X d k) i l));
  q_val : carried (s_N X) s (s_val X) (s_val Y); q_Z : carried (s_N X) s (s_Z X) (s_Z Y); q_ext : carried (s_N X) s (s_ext X) (s_ext Y);
  q_wk : forall k, (k < s_nk X)%nat -> s_wk Y k = s_wk X k; q_nel : s_nel Y = s_nel X; q_width : s_width Y = s_width X; q_charge : s_charge Y = s_charge X;
  q_G : forall I J, (I < s_N X)%nat -> (J < s_N X)%nat -> s_G Y (s I) (s J) = s_G X I J;
  q_dG : forall c I J, (c < 3)%nat -> (I < s_N X)%nat -> (J < s_N X)%nat -> s_dG Y c (s I) (s J) = rsum 3 (fun d => Q c d * s_dG X d I J);
  q_phi : forall u v, carried (s_N X) s u v -> carried (s_N X) s (s_phi X u) (s_phi Y v);
  q_field : forall u v, carried (s_N X) s u v -> turned (s_N X) s Q (s_field X u) (s_field Y v);
  q_erep : s_erep Y = s_erep X; q_epp : s_epp Y = s_epp X; q_efree : s_efree Y = s_efree X;
  q_frep : turned (s_N X) s Q (s_frep X) (s_frep Y); q_fpp : turned (s_N X) s Q (s_fpp X) (s_fpp Y) }.
(** equal eigenvalues, occupations and energies; corresponding charges, forces and density matrices *)
Record same_result (s : nat -> nat) (T : nat -> nat -> nat -> cplx) (Q : nat -> nat -> R) (X : system) (x y : result) : Prop := {
  a_e : forall k a, (k < s_nk X)%nat -> (a < s_norb X)%nat -> r_e y k a = r_e x k a;
  a_f : forall k a, (k < s_nk X)%nat -> (a < s_norb X)%nat -> r_f y k a = r_f x k a;
  a_dq : carried (s_N X) s (r_dq x) (r_dq y);
  a_rho : forall k i l, (k < s_nk X)%nat -> (i < s_norb X)%nat -> (l < s_norb X)%nat -> r_rho y k i l = transported (s_norb X) (T k) (r_rho x k) i l;
  a_rhoe : forall k i l, (k < s_nk X)%nat -> (i < s_norb X)%nat -> (l < s_norb X)%nat -> r_rhoe y k i l = transported (s_norb X) (T k) (r_rhoe x k) i l;
  a_ebs : r_ebs y = r_ebs x; a_ecoul : r_ecoul y = r_ecoul x; a_epot : r_epot y = r_epot x;
  a_force : turned (s_N X) s Q (r_force x) (r_force y) }.
(** the same outcome after the same number of iterations *)
Definition same_answer (s : nat -> nat) (T : nat -> nat -> nat -> cplx) (Q : nat -> nat -> R) (X : system) (x y : answer) : Prop :=
  match x, y with
  | Solved rx ix nx, Solved ry iy ny => same_result s T Q X rx ry /\ ix = iy /\ nx = ny
  | NotConverged nx, NotConverged ny => nx = ny
  | Exception, Exception => True
  | _, _ => False
  end.
(** a new mixer object for n atoms *)
Inductive fresh (n : nat) : forall m : mixer, mst m -> Prop :=
| fresh_anderson sv p : fresh n (anderson_mixer sv p n) anderson_new
| fresh_pulay iv p : fresh n (pulay_mixer iv p n) pulay_new
| fresh_dummy : fresh n dummy_mixer tt.
(** the matrices of a system are Hermitian, and LAPACK solves its eigenvalue problem for every potential *)
Definition proper (X : system) : Prop := khermitian (s_norb X) (s_nk X) (s_H0 X) /\ khermitian (s_norb X) (s_nk X) (s_S X).
Definition lapack := nat -> (nat -> cplx) -> (nat -> cplx) -> (nat -> R) -> Z * (nat -> cplx) * (nat -> R).
Definition reliable (z : lapack) (w0 : nat -> nat -> R) (X : system) : Prop :=
  lapack_contract z /\ forall k H, (k < s_nk X)%nat -> hermitian (s_norb X) H -> succeeds z (s_norb X) H (s_S X k) (w0 k).
(** no transformation *)
Definition same_orbitals (k i j : nat) : cplx := if (i =? j)%nat then c1 else c0.
Definition same_axes (c d : nat) : R := if (c =? d)%nat then 1 else 0.
(** ** Moving a structure *)
(** the orbitals of atom s I of h in terms of those of atom I of g *)
Definition orbital_map (D : database) (g h : structure) (s : nat -> nat) (P : m3) (k i j : nat) : cplx :=
  let J := atom_of D h (g_N h) i in let I := atom_of D g (g_N g) j in
  if (J =? s I)%nat then rc (Drep P (i - first_orbital (g_no D h) J) (j - first_orbital (g_no D g) I)) else c0.
(** h is g with atom I called s I and everything (positions, images, cells) mapped by p |-> P p + v *)
Record rigid_motion (s : nat -> nat) (P : m3) (v : v3) (g h : structure) : Prop := {
  j_N : g_N h = g_N g; j_some : (0 < g_N g)%nat; j_perm : permutes (g_N g) s; j_P : orthogonal P;
  j_kind : forall I, (I < g_N g)%nat -> g_kind h (s I) = g_kind g I;
  j_r : forall I, (I < g_N g)%nat -> g_r h (s I) = vadd (mv P (g_r g I)) v;
  j_nimg : g_nimg h = g_nimg g;
  j_O : forall n, (n < g_nimg g)%nat -> g_O h n = mm (mm P (g_O g n)) (tr P);
  j_t : forall n, (n < g_nimg g)%nat -> g_t h n = vsub (vadd (mv P (g_t g n)) v) (mv (g_O h n) v);
  j_nk : g_nk h = g_nk g; j_phase : forall k n, (k < g_nk g)%nat -> (n < g_nimg g)%nat -> g_phase h k n = g_phase g k n;
  j_wk : forall k, (k < g_nk g)%nat -> g_wk h k = g_wk g k;
  j_ranges : g_ranges h = g_ranges g;
  j_rot : forall c, g_rot h c = mm (mm P (g_rot g c)) (tr P);
  j_tr0 : forall c, g_tr0 h c = vsub (vadd (mv P (g_tr0 g c)) v) (mv (g_rot h c) v);
  j_pp : forall I J d, (I < g_N g)%nat -> (J < g_N g)%nat -> g_pp h (s I) (s J) d = g_pp g I J d;
  j_dpp : forall I J d, (I < g_N g)%nat -> (J < g_N g)%nat -> g_dpp h (s I) (s J) d = g_dpp g I J d;
  j_rc : g_rc h = g_rc g; j_ext : carried (g_N g) s (g_ext g) (g_ext h); j_charge : g_charge h = g_charge g }.
(** the symmetry operations and the rotation of the orbitals by them (C61), complete shells, on-site energies of the shells *)
Record sound (D : database) (g : structure) (inv : nat -> nat) : Prop := {
  u_images : images (g_nimg g) (g_O g) (g_t g) inv;
  u_DT : forall n a b, (n < g_nimg g)%nat -> (a < 9)%nat -> (b < 9)%nat -> g_DT g n a b = Drep (g_O g n) a b;
  u_phase : forall k n, (k < g_nk g)%nat -> (n < g_nimg g)%nat -> g_phase g k (inv n) = cconj (g_phase g k n);
  u_no : forall K, In (d_no D K) [1; 4; 9]%nat;
  u_H : forall K d, exists T, forall c, (c < 14)%nat -> d_H D K K d c = read_integral T T c;
  u_S : forall K d, exists T, forall c, (c < 14)%nat -> d_S D K K d c = read_integral T T c;
  u_onsite : forall K a b, shell a = shell b -> d_onsite D K a = d_onsite D K b;
  u_pp : forall I J d, (I < g_N g)%nat -> (J < g_N g)%nat -> g_pp g I J d = g_pp g J I d;
  u_dpp : forall I J d, (I < g_N g)%nat -> (J < g_N g)%nat -> g_dpp g I J d = g_dpp g J I d }.
(** the tables of (si,sj) and (sj,si) come from one pair of files (interactions.py 133-183) and agree where both give an integral *)
Record one_table (D : database) : Prop := {
  o_H : forall K L d, exists tij tji, same_integrals tij tji /\ (forall c, (c < 14)%nat -> d_H D K L d c = read_integral tij tji c) /\ forall c, (c < 14)%nat -> d_H D L K d c = read_integral tji tij c;
  o_dH : forall K L d, exists tij tji, same_integrals tij tji /\ (forall c, (c < 14)%nat -> d_dH D K L d c = read_integral tij tji c) /\ forall c, (c < 14)%nat -> d_dH D L K d c = read_integral tji tij c;
  o_S : forall K L d, exists tij tji, same_integrals tij tji /\ (forall c, (c < 14)%nat -> d_S D K L d c = read_integral tij tji c) /\ forall c, (c < 14)%nat -> d_S D L K d c = read_integral tji tij c;
  o_dS : forall K L d, exists tij tji, same_integrals tij tji /\ (forall c, (c < 14)%nat -> d_dS D K L d c = read_integral tij tji c) /\ forall c, (c < 14)%nat -> d_dS D L K d c = read_integral tji tij c;
  o_r1 : forall K L, d_r1 D K L = d_r1 D L K; o_r2 : forall K L, d_r2 D K L = d_r2 D L K;
  o_vrep : forall K L d, d_vrep D K L d = d_vrep D L K d; o_dvrep : forall K L d, d_dvrep D K L d = d_dvrep D L K d }.
(** what s_phi and s_field give for the atoms depends only on the charges of the atoms *)
Record well_formed (X : system) : Prop := {
  f_layout : layout (s_norb X) (s_N X) (s_o1 X) (s_no X);
  f_phi : forall u v, carried (s_N X) (fun i => i) u v -> carried (s_N X) (fun i => i) (s_phi X u) (s_phi X v);
  f_field : forall u v c I, carried (s_N X) (fun i => i) u v -> (I < s_N X)%nat -> s_field X v c I = s_field X u c I }.
(** everything that is returned is equal *)
Record equal_result (X : system) (x y : result) : Prop := {
  e_e : forall k a, (k < s_nk X)%nat -> (a < s_norb X)%nat -> r_e y k a = r_e x k a;
  e_f : forall k a, (k < s_nk X)%nat -> (a < s_norb X)%nat -> r_f y k a = r_f x k a;
  e_dq : forall I, (I < s_N X)%nat -> r_dq y I = r_dq x I;
  e_rho : forall k i l, (k < s_nk X)%nat -> (i < s_norb X)%nat -> (l < s_norb X)%nat -> r_rho y k i l = r_rho x k i l;
  e_rhoe : forall k i l, (k < s_nk X)%nat -> (i < s_norb X)%nat -> (l < s_norb X)%nat -> r_rhoe y k i l = r_rhoe x k i l;
  e_ebs : r_ebs y = r_ebs x; e_ecoul : r_ecoul y = r_ecoul x; e_epot : r_epot y = r_epot x;
  e_force : forall c I, (c < 3)%nat -> (I < s_N X)%nat -> r_force y c I = r_force x c I }.
Definition equal_answer (X : system) (x y : answer) : Prop :=
  match x, y with
  | Solved rx ix nx, Solved ry iy ny => equal_result X rx ry /\ ix = iy /\ nx = ny
  | NotConverged nx, NotConverged ny => nx = ny
  | Exception, Exception => True
  | _, _ => False
  end.
(** the tables of a pair are read from one pair of files *)
Definition from_files (t : nat -> nat -> R -> nat -> R) (file : nat -> nat -> R -> nat -> R) : Prop :=
  forall K L d c, (c < 14)%nat -> t K L d c = read_integral (file K L d) (file L K d) c.
