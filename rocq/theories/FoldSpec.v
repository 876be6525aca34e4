(** A structure and the structure of several copies of it: supercells, rings made of wedges, isolated copies. *)
From Coq Require Import Reals ZArith List Bool Arith.
From Verif Require Import Vec GeomModel CoulModel MixModel PairModel PairSpec SkModel SkSpec Cpx RhoModel RhoSpec EigModel EigSpec GamModel InvModel InvSpec.
Import ListNotations.
Open Scope R_scope.

(** entry i of copy c is entry c*n+i; all copies have the values u *)
Definition repeated (m n : nat) (u v : vec) : Prop := forall c i, (c < m)%nat -> (i < n)%nat -> v (c * n + i)%nat = u i.
(** all copies have the vectors u, those of copy c turned by Q c *)
Definition repeated_turned (m n : nat) (Q : nat -> nat -> nat -> R) (u v : nat -> vec) : Prop :=
  forall d c i, (d < 3)%nat -> (c < m)%nat -> (i < n)%nat -> v d (c * n + i)%nat = rsum 3 (fun e => Q c d e * u e i).
(** matrix element of orbital mu of copy c and nu of copy c' from the matrices A j of m Bloch states: average over j of p(j,c) p*(j,c') (D(c) A(j) D(c')^T) *)
Definition unfolded (m n : nat) (p : nat -> nat -> cplx) (D : nat -> nat -> nat -> R) (A : nat -> nat -> nat -> cplx) (c mu c' nu : nat) : cplx :=
  csum m (fun j => csum n (fun a => csum n (fun b => cmul (cmul (p j c) (cconj (p j c'))) (cscale (D c mu a * D c' nu b / INR m) (A j a b))))).
(** phases of m copies in m Bloch states *)
Record characters (m : nat) (p : nat -> nat -> cplx) : Prop := {
  h_unit : forall j c, (j < m)%nat -> (c < m)%nat -> cmul (p j c) (cconj (p j c)) = c1;
  h_rows : forall c c', (c < m)%nat -> (c' < m)%nat -> csum m (fun j => cmul (p j c) (cconj (p j c'))) = if (c =? c')%nat then rc (INR m) else c0;
  h_cols : forall j j', (j < m)%nat -> (j' < m)%nat -> csum m (fun c => cmul (cconj (p j c)) (p j' c)) = if (j =? j')%nat then rc (INR m) else c0 }.
(** real orthogonal and not mixing the orbitals of different atoms *)
Record turns_orbitals (X : system) (D : nat -> nat -> R) : Prop := {
  d_rows : forall a b, (a < s_norb X)%nat -> (b < s_norb X)%nat -> rsum (s_norb X) (fun i => D a i * D b i) = if (a =? b)%nat then 1 else 0;
  d_cols : forall a b, (a < s_norb X)%nat -> (b < s_norb X)%nat -> rsum (s_norb X) (fun i => D i a * D i b) = if (a =? b)%nat then 1 else 0;
  d_atoms : forall i j I J, (I < s_N X)%nat -> (J < s_N X)%nat -> belongs (s_o1 X) (s_no X) i I -> belongs (s_o1 X) (s_no X) j J -> I <> J -> D i j = 0 }.
(** Y consists of m copies of X; point k of Y corresponds to the points k*m ... k*m+m-1 of X; p k j c: phase of copy c at point k*m+j; D c, Q c: how orbitals and vectors of copy c are turned *)
Record unfolds (m : nat) (p : nat -> nat -> nat -> cplx) (D : nat -> nat -> nat -> R) (Q : nat -> nat -> nat -> R) (X Y : system) : Prop := {
  y_m : (0 < m)%nat; y_N : s_N Y = (m * s_N X)%nat; y_norb : s_norb Y = (m * s_norb X)%nat; y_nk : s_nk X = (s_nk Y * m)%nat;
  y_p : forall k, (k < s_nk Y)%nat -> characters m (p k); y_D : forall c, (c < m)%nat -> turns_orbitals X (D c);
  y_o1 : forall c I, (c < m)%nat -> (I < s_N X)%nat -> s_o1 Y (c * s_N X + I)%nat = (c * s_norb X + s_o1 X I)%nat;
  y_no : forall c I, (c < m)%nat -> (I < s_N X)%nat -> s_no Y (c * s_N X + I)%nat = s_no X I;
  y_lay : layout (s_norb Y) (s_N Y) (s_o1 Y) (s_no Y);
  y_val : repeated m (s_N X) (s_val X) (s_val Y); y_Z : repeated m (s_N X) (s_Z X) (s_Z Y); y_ext : repeated m (s_N X) (s_ext X) (s_ext Y);
  y_wk : forall k j, (k < s_nk Y)%nat -> (j < m)%nat -> s_wk X (k * m + j)%nat = s_wk Y k / INR m;
  y_nel : s_nel Y = INR m * s_nel X; y_width : s_width Y = s_width X; y_charge : s_charge Y = INR m * s_charge X;
  y_H0 : forall k c a c' b, (k < s_nk Y)%nat -> (c < m)%nat -> (c' < m)%nat -> (a < s_norb X)%nat -> (b < s_norb X)%nat ->
    s_H0 Y k (c * s_norb X + a)%nat (c' * s_norb X + b)%nat = unfolded m (s_norb X) (p k) D (fun j => s_H0 X (k * m + j)%nat) c a c' b;
  y_S : forall k c a c' b, (k < s_nk Y)%nat -> (c < m)%nat -> (c' < m)%nat -> (a < s_norb X)%nat -> (b < s_norb X)%nat ->
    s_S Y k (c * s_norb X + a)%nat (c' * s_norb X + b)%nat = unfolded m (s_norb X) (p k) D (fun j => s_S X (k * m + j)%nat) c a c' b;
  y_dH0 : forall d k c a c' b, (d < 3)%nat -> (k < s_nk Y)%nat -> (c < m)%nat -> (c' < m)%nat -> (a < s_norb X)%nat -> (b < s_norb X)%nat ->
    s_dH0 Y d k (c * s_norb X + a)%nat (c' * s_norb X + b)%nat = csum 3 (fun e => cscale (Q c d e) (unfolded m (s_norb X) (p k) D (fun j => s_dH0 X e (k * m + j)%nat) c a c' b));
  y_dS : forall d k c a c' b, (d < 3)%nat -> (k < s_nk Y)%nat -> (c < m)%nat -> (c' < m)%nat -> (a < s_norb X)%nat -> (b < s_norb X)%nat ->
    s_dS Y d k (c * s_norb X + a)%nat (c' * s_norb X + b)%nat = csum 3 (fun e => cscale (Q c d e) (unfolded m (s_norb X) (p k) D (fun j => s_dS X e (k * m + j)%nat) c a c' b));
  y_eps : forall u v, repeated m (s_N X) u v -> repeated m (s_N X) (epsilon (s_N X) (s_G X) (s_phi X u) u) (epsilon (s_N Y) (s_G Y) (s_phi Y v) v);
  y_gamma : forall u v, repeated m (s_N X) u v ->
    repeated_turned m (s_N X) Q (fun d I => rsum (s_N X) (fun J => u J * s_dG X d I J) + s_field X u d I) (fun d I => rsum (s_N Y) (fun J => v J * s_dG Y d I J) + s_field Y v d I);
  y_erep : s_erep Y = option_map (Rmult (INR m)) (s_erep X); y_epp : s_epp Y = INR m * s_epp X; y_efree : s_efree Y = INR m * s_efree X;
  y_frep : repeated_turned m (s_N X) Q (s_frep X) (s_frep Y); y_fpp : repeated_turned m (s_N X) Q (s_fpp X) (s_fpp Y) }.
(** the levels of Y at point k are those of X at the m points: any property holds for equally many; occupations are those of the levels of equal energy in X;
    charges are repeated, energies multiplied, forces turned *)
Record multiplied (m : nat) (p : nat -> nat -> nat -> cplx) (D : nat -> nat -> nat -> R) (Q : nat -> nat -> nat -> R) (X Y : system) (x y : result) : Prop := {
  l_e : forall (f : R -> R) k, (k < s_nk Y)%nat -> rsum (s_norb Y) (fun a => f (r_e y k a)) = rsum m (fun j => rsum (s_norb X) (fun a => f (r_e x (k * m + j)%nat a)));
  l_f : forall k a k' a', (k < s_nk Y)%nat -> (a < s_norb Y)%nat -> (k' < s_nk X)%nat -> (a' < s_norb X)%nat -> r_e y k a = r_e x k' a' -> r_f y k a = r_f x k' a';
  l_rho : forall k c a c' b, (k < s_nk Y)%nat -> (c < m)%nat -> (c' < m)%nat -> (a < s_norb X)%nat -> (b < s_norb X)%nat ->
    r_rho y k (c * s_norb X + a)%nat (c' * s_norb X + b)%nat = unfolded m (s_norb X) (p k) D (fun j => r_rho x (k * m + j)%nat) c a c' b;
  l_dq : repeated m (s_N X) (r_dq x) (r_dq y);
  l_ebs : r_ebs y = INR m * r_ebs x; l_ecoul : r_ecoul y = INR m * r_ecoul x; l_epot : r_epot y = INR m * r_epot x;
  l_force : repeated_turned m (s_N X) Q (r_force x) (r_force y) }.
(** the checks of Y (the number of electrons and the sum of charges, with an error m times larger) may fail although those of X do not *)
Definition multiple_answer (m : nat) (p : nat -> nat -> nat -> cplx) (D : nat -> nat -> nat -> R) (Q : nat -> nat -> nat -> R) (X Y : system) (x y : answer) : Prop :=
  match x, y with
  | Solved rx ix nx, Solved ry iy ny => multiplied m p D Q X Y rx ry /\ ix = iy /\ nx = ny
  | NotConverged nx, NotConverged ny => nx = ny
  | _, Exception => True
  | _, _ => False
  end.
(** the same with the same exceptions *)
Definition exact_multiple (m : nat) (p : nat -> nat -> nat -> cplx) (D : nat -> nat -> nat -> R) (Q : nat -> nat -> nat -> R) (X Y : system) (x y : answer) : Prop :=
  match x, y with
  | Solved rx ix nx, Solved ry iy ny => multiplied m p D Q X Y rx ry /\ ix = iy /\ nx = ny
  | NotConverged nx, NotConverged ny => nx = ny
  | Exception, Exception => True
  | _, _ => False
  end.
(** ** external programs do not depend on the units *)
(** the root of c f is found like that of f *)
Definition scale_free (brentq : (R -> R) -> R -> R -> R -> option R) : Prop := forall c f a b t, 0 < c -> brentq (fun x => c * f x) a b t = brentq f a b t.
Definition exact_roots (brentq : (R -> R) -> R -> R -> R -> option R) : Prop := forall f a b t x, brentq f a b t = Some x -> f x = 0.
(** new mixers for n and n' atoms.  scipy.linalg.solve of c A x = c b gives what it gives for A x = b; np.linalg.inv of c A gives the inverse of A divided by c.  Both look only at the
    first q rows and columns *)
Definition scaled_solver (sv : solver) : Prop := forall c q A b A' b', 0 < c -> (forall i j, (i < q)%nat -> (j < q)%nat -> A' i j = c * A i j) -> (forall i, (i < q)%nat -> b' i = c * b i) -> sv q A' b' = sv q A b.
Definition scaled_inverter (iv : inverter) : Prop := forall c q A A', 0 < c -> (forall i j, (i < q)%nat -> (j < q)%nat -> A' i j = c * A i j) ->
  match iv q A, iv q A' with
  | Some B, Some B' => forall i j, (i < q)%nat -> (j < q)%nat -> B i j = c * B' i j
  | None, None => True
  | _, _ => False
  end.
Inductive fresh_pair (n n' : nat) : forall m m' : mixer, mst m -> mst m' -> Prop :=
| pair_anderson sv p : scaled_solver sv -> fresh_pair n n' (anderson_mixer sv p n) (anderson_mixer sv p n') anderson_new anderson_new
| pair_pulay iv p : scaled_inverter iv -> fresh_pair n n' (pulay_mixer iv p n) (pulay_mixer iv p n') pulay_new pulay_new
| pair_dummy : fresh_pair n n' dummy_mixer dummy_mixer tt tt.
(** ** Structures *)
(** no table, potential or test reaches so far (in Bohr) *)
Definition beyond (D : database) (rc : R) (K L : nat) (d : R) : Prop := / 10 < d /\ d_r2 D K L < d /\ d_rmax D < d /\ rc < d.
(** the orbitals of g turned by W *)
Definition turned_orbitals (D : database) (g : structure) (W : m3) (mu nu : nat) : R :=
  let I := atom_of D g (g_N g) mu in let J := atom_of D g (g_N g) nu in
  if (I =? J)%nat then Drep W (mu - first_orbital (g_no D g) I) (nu - first_orbital (g_no D g) J) else 0.
(** h consists of m copies of g; copy c is placed by x |-> W(c) x + v(c).  Image P of copy c', seen from copy c, is image n of g: w c c' P = Some n; the rest is out of reach (None).
    The phases of the images of g at the points k*m ... k*m+m-1 are those of h at point k and those of the copies *)
Record copies (m : nat) (p : nat -> nat -> nat -> cplx) (W : nat -> m3) (v : nat -> v3) (w : nat -> nat -> nat -> option nat) (D : database) (Bohr : R) (g h : structure) : Prop := {
  q_m : (0 < m)%nat; q_some : (0 < g_N g)%nat; q_N : g_N h = (m * g_N g)%nat; q_W : forall c, (c < m)%nat -> orthogonal (W c);
  q_kind : forall c I, (c < m)%nat -> (I < g_N g)%nat -> g_kind h (c * g_N g + I)%nat = g_kind g I;
  q_r : forall c I, (c < m)%nat -> (I < g_N g)%nat -> g_r h (c * g_N g + I)%nat = vadd (mv (W c) (g_r g I)) (v c);
  q_nk : g_nk g = (g_nk h * m)%nat; q_p : forall k, (k < g_nk h)%nat -> characters m (p k);
  q_wk : forall k j, (k < g_nk h)%nat -> (j < m)%nat -> g_wk g (k * m + j)%nat = g_wk h k / INR m;
  q_pp : forall c I c' J d, (c < m)%nat -> (I < g_N g)%nat -> (c' < m)%nat -> (J < g_N g)%nat -> g_pp h (c * g_N g + I)%nat (c' * g_N g + J)%nat d = g_pp g I J d;
  q_dpp : forall c I c' J d, (c < m)%nat -> (I < g_N g)%nat -> (c' < m)%nat -> (J < g_N g)%nat -> g_dpp h (c * g_N g + I)%nat (c' * g_N g + J)%nat d = g_dpp g I J d;
  q_rc : g_rc h = g_rc g; q_ext : repeated m (g_N g) (g_ext g) (g_ext h); q_charge : g_charge h = INR m * g_charge g;
  q_image : forall c c' P n, (c < m)%nat -> (c' < m)%nat -> (P < g_nimg h)%nat -> w c c' P = Some n ->
    (n < g_nimg g)%nat /\ mm (g_O h P) (W c') = mm (W c) (g_O g n) /\ vadd (mv (g_O h P) (v c')) (g_t h P) = vadd (mv (W c) (g_t g n)) (v c) /\
    forall k j, (k < g_nk h)%nat -> (j < m)%nat -> g_phase g (k * m + j)%nat n = cmul (g_phase h k P) (cmul (p k j c') (cconj (p k j c)));
  q_once : forall c c1 P1 c2 P2 n, (c < m)%nat -> w c c1 P1 = Some n -> w c c2 P2 = Some n -> c1 = c2 /\ P1 = P2;
  q_home : forall c, (c < m)%nat -> w c c 0%nat = Some 0%nat;
  q_rest : forall c c' P I J, (c < m)%nat -> (c' < m)%nat -> (P < g_nimg h)%nat -> w c c' P = None -> (I < g_N g)%nat -> (J < g_N g)%nat ->
    beyond D (g_rc g) (g_kind g I) (g_kind g J) (dist (g_Rn Bohr h) P (c * g_N g + I)%nat (c' * g_N g + J)%nat);
  q_rest' : forall c n I J, (c < m)%nat -> (n < g_nimg g)%nat -> (forall c' P, (c' < m)%nat -> (P < g_nimg h)%nat -> w c c' P <> Some n) -> (I < g_N g)%nat -> (J < g_N g)%nat ->
    beyond D (g_rc g) (g_kind g I) (g_kind g J) (dist (g_Rn Bohr g) n I J) }.
(** the same for the cells visited by the Coulomb solver; without a cutoff all of them must correspond *)
Definition cut_off (cut : option R) (d : R) : Prop := match cut with None => False | Some k => k <= d end.
Record copied_cells (m : nat) (W : nat -> m3) (v : nat -> v3) (w : nat -> nat -> cell -> option cell) (cut : option R) (g h : structure) (cs cs' : list cell) : Prop := {
  t_scan : scan cut (g_ranges g) = Some cs; t_scan' : scan cut (g_ranges h) = Some cs';
  t_cell : forall c c' P n, (c < m)%nat -> (c' < m)%nat -> In P cs' -> w c c' P = Some n ->
    In n cs /\ mm (g_rot h P) (W c') = mm (W c) (g_rot g n) /\ vadd (mv (g_rot h P) (v c')) (g_tr0 h P) = vadd (mv (W c) (g_tr0 g n)) (v c);
  t_once : forall c c1 P1 c2 P2 n, (c < m)%nat -> w c c1 P1 = Some n -> w c c2 P2 = Some n -> c1 = c2 /\ P1 = P2;
  t_home : forall c, (c < m)%nat -> w c c (0, 0, 0)%Z = Some (0, 0, 0)%Z;
  t_rest : forall c c' P I J, (c < m)%nat -> (c' < m)%nat -> In P cs' -> w c c' P = None -> (I < g_N g)%nat -> (J < g_N g)%nat ->
    cut_off cut (vnorm (drv (g_r h) (g_tr0 h) (g_rot h) P (c * g_N g + I)%nat (c' * g_N g + J)%nat));
  t_rest' : forall c n I J, (c < m)%nat -> In n cs -> (forall c' P, (c' < m)%nat -> In P cs' -> w c c' P <> Some n) -> (I < g_N g)%nat -> (J < g_N g)%nat ->
    cut_off cut (vnorm (drv (g_r g) (g_tr0 g) (g_rot g) n I J)) }.
(** ** Wedges and rings, chains and longer chains *)
Definition cis (x : R) : cplx := (cos x, sin x).
(** Wedge (containers/wedge.py) of angle 2 pi/M, not periodic along z, with all M points (states.py 109-120); image n is number z n *)
Record wedge (M : nat) (z : nat -> Z) (g : structure) : Prop := {
  e_M : (0 < M)%nat; e_nimg : g_nimg g = M; e_first : z 0%nat = 0%Z;
  e_all : forall n n', (n < M)%nat -> (n' < M)%nat -> (z n mod Z.of_nat M = z n' mod Z.of_nat M)%Z -> n = n';
  e_O : forall n, (n < M)%nat -> g_O g n = rotz (IZR (z n) * (2 * PI / INR M)); e_t : forall n, (n < M)%nat -> g_t g n = vzero;
  e_nk : g_nk g = M; e_wk : forall k, (k < M)%nat -> g_wk g k = 1 / INR M;
  e_phase : forall k n, (k < M)%nat -> (n < M)%nat -> g_phase g k n = cis (2 * PI * INR k / INR M * IZR (z n));
  e_ranges : g_ranges g = ((Some (- (Z.of_nat (M - 1) / 2)), Some (Z.of_nat M / 2)), (Some 0, Some 0), (Some 0, Some 0))%Z;
  e_rot : forall n, g_rot g n = rotz (IZR (t1 n) * (2 * PI / INR M)); e_tr0 : forall n, g_tr0 g n = vzero }.
(** a molecule without symmetry *)
Record molecule (h : structure) : Prop := {
  b_nimg : g_nimg h = 1%nat; b_O : g_O h 0%nat = eye; b_t : g_t h 0%nat = vzero; b_nk : g_nk h = 1%nat; b_wk : g_wk h 0%nat = 1; b_phase : g_phase h 0%nat 0%nat = c1;
  b_ranges : g_ranges h = ((Some 0, Some 0), (Some 0, Some 0), (Some 0, Some 0))%Z; b_rot : g_rot h (0, 0, 0)%Z = eye; b_tr0 : g_tr0 h (0, 0, 0)%Z = vzero }.
(** the atoms of h are m copies of those of g, turned and shifted *)
Record placed (m : nat) (W : nat -> m3) (v : nat -> v3) (g h : structure) : Prop := {
  a_some : (0 < g_N g)%nat; a_N : g_N h = (m * g_N g)%nat;
  a_kind : forall c I, (c < m)%nat -> (I < g_N g)%nat -> g_kind h (c * g_N g + I)%nat = g_kind g I;
  a_r : forall c I, (c < m)%nat -> (I < g_N g)%nat -> g_r h (c * g_N g + I)%nat = vadd (mv (W c) (g_r g I)) (v c);
  a_pp : forall c I c' J d, (c < m)%nat -> (I < g_N g)%nat -> (c' < m)%nat -> (J < g_N g)%nat -> g_pp h (c * g_N g + I)%nat (c' * g_N g + J)%nat d = g_pp g I J d;
  a_dpp : forall c I c' J d, (c < m)%nat -> (I < g_N g)%nat -> (c' < m)%nat -> (J < g_N g)%nat -> g_dpp h (c * g_N g + I)%nat (c' * g_N g + J)%nat d = g_dpp g I J d;
  a_rc : g_rc h = g_rc g; a_ext : repeated m (g_N g) (g_ext g) (g_ext h); a_charge : g_charge h = INR m * g_charge g }.
Definition wedge_turn (M c : nat) : m3 := rotz (INR c * (2 * PI / INR M)).
Definition wedge_phase (M : nat) (k j c : nat) : cplx := cis (2 * PI * INR j / INR M * INR c).
(** a chain: image n is repetition z n of the cell, turned by beta and shifted by a each time (Bravais in one direction: beta = 0; Chiral: a along z); point k has the phase kappa k per cell *)
Record chain (z : nat -> Z) (beta : R) (a : v3) (kappa : nat -> R) (g : structure) : Prop := {
  n_some : (0 < g_nimg g)%nat; n_first : z 0%nat = 0%Z; n_once : forall n n', (n < g_nimg g)%nat -> (n' < g_nimg g)%nat -> z n = z n' -> n = n';
  n_O : forall n, (n < g_nimg g)%nat -> g_O g n = rotz (IZR (z n) * beta); n_t : forall n, (n < g_nimg g)%nat -> g_t g n = vscale (IZR (z n)) a;
  n_axis : forall l, mv (rotz (IZR l * beta)) a = a;
  n_phase : forall k n, (k < g_nk g)%nat -> (n < g_nimg g)%nat -> g_phase g k n = cis (kappa k * IZR (z n));
  n_ranges : g_ranges g = ((Some 0, Some 0), (Some 0, Some 0), (None, None))%Z;
  n_rot : forall n, g_rot g n = rotz (IZR (t3 n) * beta); n_tr0 : forall n, g_tr0 g n = vscale (IZR (t3 n)) a }.
(** from atom I to atom J of repetition l *)
Definition reach (g : structure) (beta : R) (a : v3) (l : Z) (I J : nat) : v3 := vsub (g_r g I) (vadd (mv (rotz (IZR l * beta)) (g_r g J)) (vscale (IZR l) a)).
(** h is the chain with a cell m times longer; each of its points stands for m points of g *)
Record longer (m : nat) (z z' : nat -> Z) (beta : R) (a : v3) (kappa kappa' : nat -> R) (D : database) (Bohr : R) (g h : structure) : Prop := {
  i_m : (0 < m)%nat; i_g : chain z beta a kappa g; i_h : chain z' (INR m * beta) (vscale (INR m) a) kappa' h;
  i_placed : placed m (fun c => rotz (INR c * beta)) (fun c => vscale (INR c) a) g h;
  i_nk : g_nk g = (g_nk h * m)%nat; i_kappa : forall k j, (k < g_nk h)%nat -> (j < m)%nat -> kappa (k * m + j)%nat = (kappa' k + 2 * PI * INR j) / INR m;
  i_wk : forall k j, (k < g_nk h)%nat -> (j < m)%nat -> g_wk g (k * m + j)%nat = g_wk h k / INR m;
  (* a repetition within reach is among the images of both *)
  i_reach : forall l I J, (I < g_N g)%nat -> (J < g_N g)%nat ->
    ((exists n, (n < g_nimg g)%nat /\ z n = l) /\ forall c, (c < m)%nat -> exists c' P, (c' < m)%nat /\ (P < g_nimg h)%nat /\ (l = Z.of_nat m * z' P + Z.of_nat c' - Z.of_nat c)%Z) \/
    beyond D (g_rc g) (g_kind g I) (g_kind g J) (vnorm (vscale (/ Bohr) (reach g beta a l I J))) }.
Definition chain_phase (m : nat) (kappa : nat -> R) (k j c : nat) : cplx := cis (kappa (k * m + j)%nat * INR c).
(** the Coulomb solver visits five cells to each side; cut: not longer than the distance to the others *)
Definition visited (cut : option R) (beta : R) (a : v3) (g : structure) : Prop :=
  match cut with None => False | Some k => forall l I J, (5 < Z.abs l)%Z -> (I < g_N g)%nat -> (J < g_N g)%nat -> k <= vnorm (reach g beta a l I J) end.
