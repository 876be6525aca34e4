From Coq Require Import Reals ZArith List Bool Arith Permutation.
From Verif Require Import Vec GeomModel PairModel PairSpec CoulModel GamModel.
Import ListNotations.
Open Scope R_scope.

Definition origin_cell : cell := (0, 0, 0)%Z.
(** the pair of atom i and image c of atom j is wanted: not an atom with itself, closer than the cutoff *)
Definition wanted (N : nat) (r : nat -> v3) tr0 rot (cutoff : option R) (cs : list cell) (x : cell * nat * nat) : Prop :=
  let '(c, i, j) := x in In c cs /\ (i < N)%nat /\ (j < N)%nat /\ ~ (c = origin_cell /\ i = j) /\
  match cutoff with None => True | Some k => vnorm (vsub (r i) (vadd (tr0 c) (mv (rot c) (r j)))) < k end.
(** the entry of the list for this pair *)
Definition entry_of (r : nat -> v3) (tr0 : cell -> v3) (rot : cell -> m3) (x : cell * nat * nat) (b : neighbour) : Prop :=
  let '(c, i, j) := x in let v := vsub (r i) (vadd (tr0 c) (mv (rot c) (r j))) in
  nb_i b = i /\ nb_j b = j /\ nb_d b = vnorm v /\ (vnorm v <> 0 -> vscale (nb_d b) (nb_n b) = v /\ vnorm (nb_n b) = 1).
(** sum over a list *)
Fixpoint lsum {A} (l : list A) (f : A -> R) : R := match l with [] => 0 | a :: l => f a + lsum l f end.
(** the cells form a set of rigid motions closed under inversion *)
Record closed_images (cs : list cell) (tr0 : cell -> v3) (rot : cell -> m3) (inv : cell -> cell) : Prop := {
  ci_perm : Permutation (map inv cs) cs;
  ci_origin : tr0 origin_cell = vzero /\ rot origin_cell = eye /\ inv origin_cell = origin_cell;
  ci_inv : forall c, inv (inv c) = c;
  ci_rigid : forall c p q, vdot (mv (rot c) p) (mv (rot c) q) = vdot p q;
  ci_back : forall c p, mv (rot (inv c)) (mv (rot c) p) = p;
  ci_shift : forall c, tr0 (inv c) = vscale (-1) (mv (rot (inv c)) (tr0 c)) }.
(** energy and forces of charges q with the correction *)
Definition correction_energy (N : nat) (q : nat -> R) (G : nat -> nat -> R) : R := / 2 * rsum N (fun i => rsum N (fun j => q i * G i j * q j)).
Definition correction_force (N : nat) (q : nat -> R) (dG : nat -> nat -> v3) (i : nat) : v3 := vscale (q i) (vsum N (fun j => vscale (q j) (dG i j))).
(** two functions of the distance: symmetric, the second minus the derivative of the first *)
Definition consistent_term (N : nat) (term : nat -> nat -> R -> R * R) : Prop :=
  (forall i j d, (i < N)%nat -> (j < N)%nat -> term i j d = term j i d) /\
  forall i j d, (i < N)%nat -> (j < N)%nat -> 0 < d -> derivable_pt_lim (fun t => fst (term i j t)) d (- snd (term i j d)).
(** scipy's erfc *)
Definition is_erfc (erfc : R -> R) : Prop := erfc 0 = 1 /\ forall x, derivable_pt_lim erfc x (- (2 / sqrt PI) * exp (- x ^ 2)).
(** f tends to l at 0 from the right *)
Definition tends_at_0 (f : R -> R) (l : R) : Prop := forall eps, 0 < eps -> exists del, 0 < del /\ forall d, 0 < d < del -> Rabs (f d - l) < eps.
(** three lattice vectors *)
Definition lattice (a1 a2 a3 : v3) (c : cell) : v3 :=
  vadd (vadd (vscale (IZR (t1 c)) a1) (vscale (IZR (t2 c)) a2)) (vscale (IZR (t3 c)) a3).
(** bounds of one direction as the code visits it: an infinite end becomes -5 or 5 *)
Definition in_scan (s : option Z * option Z) (z : Z) : Prop :=
  (match fst s with Some a => a | None => -5 end <= z <= match snd s with Some b => b | None => 5 end)%Z.
Definition scanned (s : ranges) (c : cell) : Prop := let '(s1, s2, s3) := s in in_scan s1 (t1 c) /\ in_scan s2 (t2 c) /\ in_scan s3 (t3 c).
(** bounds of one direction as the container gives them *)
Definition in_bounds (s : option Z * option Z) (z : Z) : Prop :=
  match fst s with Some a => (a <= z)%Z | None => True end /\ match snd s with Some b => (z <= b)%Z | None => True end.
Definition is_image (s : ranges) (c : cell) : Prop := let '(s1, s2, s3) := s in in_bounds s1 (t1 c) /\ in_bounds s2 (t2 c) /\ in_bounds s3 (t3 c).
(** a pair of an atom and an image closer than the cutoff *)
Definition close_pair (N : nat) (r : nat -> v3) (tr0 : cell -> v3) (rot : cell -> m3) (cutoff : option R) (x : cell * nat * nat) : Prop :=
  let '(c, i, j) := x in (i < N)%nat /\ (j < N)%nat /\ ~ (c = origin_cell /\ i = j) /\
  match cutoff with None => True | Some k => vnorm (vsub (r i) (vadd (tr0 c) (mv (rot c) (r j)))) < k end.
(** the reciprocal vectors of a lattice *)
Definition dual (a1 a2 a3 b1 b2 b3 : v3) : Prop :=
  vdot b1 a1 = 1 /\ vdot b1 a2 = 0 /\ vdot b1 a3 = 0 /\ vdot b2 a1 = 0 /\ vdot b2 a2 = 1 /\ vdot b2 a3 = 0 /\ vdot b3 a1 = 0 /\ vdot b3 a2 = 0 /\ vdot b3 a3 = 1.
(** directions of a Bravais container: periodic, or one cell only *)
Definition bravais_range (s : option Z * option Z) : Prop := s = (None, None) \/ s = (Some 0%Z, Some 0%Z).
Definition bravais_ranges (s : ranges) : Prop := let '(s1, s2, s3) := s in bravais_range s1 /\ bravais_range s2 /\ bravais_range s3.
Definition G_of (x : gresult) : nat -> nat -> R := match x with GOk G _ => G | _ => fun _ _ => 0 end.
Definition dG_of (x : gresult) : nat -> nat -> v3 := match x with GOk _ dG => dG | _ => fun _ _ => vzero end.
Definition succeeds (x : gresult) : Prop := match x with GOk _ _ => True | _ => False end.
(** the cutoff in use *)
Definition used_cutoff (s : ranges) (cutoff : option R) (estimate : R) : option R :=
  match cutoff with Some c => Some c | None => if is_cluster s then None else Some estimate end.
(** no pair of the visited cells coincides or lies on the cutoff sphere *)
Definition regular (N : nat) (r : nat -> v3) (tr0 : cell -> v3) (rot : cell -> m3) (s : ranges) (cutoff : option R) : Prop :=
  forall c i j, scanned s c -> (i < N)%nat -> (j < N)%nat -> ~ (c = origin_cell /\ i = j) ->
  0 < vnorm (vsub (r i) (vadd (tr0 c) (mv (rot c) (r j)))) /\ match cutoff with None => True | Some k => vnorm (vsub (r i) (vadd (tr0 c) (mv (rot c) (r j)))) <> k end.
(** value of the interaction of two Slater charges at zero distance *)
Definition contact (ti tj : R) : R := / 2 * (ti * tj / (ti + tj) + (ti * tj) ^ 2 / (ti + tj) ^ 3).
(** the cell is at least a fifth of the cutoff wide in this direction *)
Definition narrow (s : option Z * option Z) (b : v3) (k : R) : Prop := infinite s = true -> vnorm b * k <= 5.
(** a molecule, a chain; unit vectors *)
Definition one_cell : ranges := ((Some 0%Z, Some 0%Z), (Some 0%Z, Some 0%Z), (Some 0%Z, Some 0%Z)).
Definition along_x : ranges := ((None, None), (Some 0%Z, Some 0%Z), (Some 0%Z, Some 0%Z)).
Definition e1 : v3 := V3 1 0 0. Definition e2 : v3 := V3 0 1 0. Definition e3 : v3 := V3 0 0 1.
