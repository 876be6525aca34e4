From Coq Require Import Reals List Bool Arith.
From Verif Require Import Vec GeomModel GeomSpec PairModel PairSpec SkModel SkSpec SkProofs3 SkProofs4 SkProofs5 SkProofs6 SkProofs7 SkProofs8.
Import ListNotations.
Open Scope R_scope.

(** C24.  Every matrix element is what the orbitals give when expanded in the frame of the bond (any frame Q whose third
    axis is the bond), where only the tabulated integrals between orbitals of equal symmetry around the bond remain. *)
Theorem C24_bond_frame h Q a b : orthogonal Q -> (a < 9)%nat -> (b < 9)%nat -> ht (mv Q ez) h a b = bond_frame h Q a b.
Proof. exact (slater_koster h Q a b). Qed.
Print Assumptions C24_bond_frame.
(** every unit vector is the third axis of some frame *)
Theorem C24_frame r : vdot r r = 1 -> exists Q, orthogonal Q /\ mv Q ez = r.
Proof. exact (frame_exists r). Qed.
Print Assumptions C24_frame.
(** rotating the bond rotates the block *)
Theorem C24_rotated h P r a b : orthogonal P -> vdot r r = 1 -> (a < 9)%nat -> (b < 9)%nat ->
  ht (mv P r) h a b = rsum 9 (fun c => rsum 9 (fun c' => Drep P a c * ht r h c c' * Drep P b c')).
Proof. exact (covariant h P r a b). Qed.
Print Assumptions C24_rotated.
(** the coefficients of the channels of one shell sum to the identity *)
Theorem C24_channels_sum r a b : vdot r r = 1 -> (a < 9)%nat -> (b < 9)%nat -> shell a = shell b ->
  ht r (fun _ => 1) a b = if (a =? b)%nat then 1 else 0.
Proof. exact (channel_sum r a b). Qed.
Print Assumptions C24_channels_sum.
(** and are orthogonal projectors *)
Theorem C24_channels_projectors r l m m' a b : vdot r r = 1 -> (l < 3)%nat -> (m <= l)%nat -> (m' <= l)%nat ->
  (a < 9)%nat -> (b < 9)%nat -> shell a = l -> shell b = l ->
  rsum 9 (fun c => if (shell c =? l)%nat then ht r (channel l m) a c * ht r (channel l m') c b else 0) =
  if (m =? m')%nat then ht r (channel l m) a b else 0.
Proof. exact (channel_product r l m m' a b). Qed.
Print Assumptions C24_channels_projectors.
(** sigma coefficients factorise into those of the s row *)
Theorem C24_sigma r a b : vdot r r = 1 -> (a < 9)%nat -> (b < 9)%nat ->
  ht r (fun c => if (c =? integral (shell a) (shell b) 0)%nat then 1 else 0) a b = ht r (fun _ => 1) 0 a * ht r (fun _ => 1) 0 b.
Proof. exact (sigma_factor r a b). Qed.
Print Assumptions C24_sigma.
(** the summations stay within the lists of coefficients and the 14 integrals *)
Theorem C24_lengths l m n dl dm dn a b : (a < 9)%nat -> (b < 9)%nat ->
  length (mat l m n a b) = cnt a b /\ length (der l m n dl dm dn a b) = cnt a b /\ length (ind a b) = cnt a b /\
  Forall (fun c => (c < 14)%nat) (ind a b).
Proof. exact (lengths l m n dl dm dn a b). Qed.
Print Assumptions C24_lengths.

(** C25.  The derivative block is the derivative of the block when the bond vector p moves along u. *)
Theorem C25_gradient T T' p u a b : p <> vzero ->
  (forall c, (c < 14)%nat -> derivable_pt_lim (T c) (vnorm p) (T' c)) -> (a < 9)%nat -> (b < 9)%nat ->
  derivable_pt_lim (fun t => bond T (vadd p (vscale t u)) a b) 0
    (rsum 3 (fun k => comp k u * dht (vscale (/ vnorm p) p) (vnorm p) (fun c => T c (vnorm p))
       (fun c k => T' c * comp k (vscale (/ vnorm p) p)) a b k)).
Proof. exact (sk_derivative T T' p u a b). Qed.
Print Assumptions C25_gradient.

(** C26.  Reversing the bond and exchanging the tables transposes the block, if the two tables agree on the integrals
    of orbitals of equal angular momentum (they are read independently and this is not checked). *)
Theorem C26_reversed_partial tij tji r a b : same_integrals tij tji -> (a < 9)%nat -> (b < 9)%nat ->
  ht (vscale (-1) r) (read_integral tji tij) b a = ht r (read_integral tij tji) a b.
Proof. exact (reversed tij tji r a b). Qed.
Print Assumptions C26_reversed_partial.
Theorem C26_reversed_refuted : exists tij tji r, vdot r r = 1 /\
  ht (vscale (-1) r) (read_integral tji tij) 0 0 <> ht r (read_integral tij tji) 0 0.
Proof. exact reversal_needs_same. Qed.
Print Assumptions C26_reversed_refuted.

(** C61.  Orbital b rotated by R0 is the combination of orbitals with the coefficients the code computes.  The exceptions:
    R0[2,2] = -1 (see below), and rotations by less than the tolerance. *)
Theorem C61_orbitals_partial R0 dorb th ph an b x :
  R0 = rotation_matrix (direction th ph) an -> clear_cut R0 ->
  (dorb = true -> eps12 <= Rabs (m3e R0 2 2 + 1)) -> (b < (if dorb then 9 else 4))%nat ->
  orbital b (mv (tr R0) x) = rsum (if dorb then 9 else 4) (fun a => orbital a x * rotation_transformation R0 dorb th ph an a b).
Proof. exact (orbitals_rotated R0 dorb th ph an b x). Qed.
Print Assumptions C61_orbitals_partial.
(** the matrix Drep used above is the rotation of orbitals, for every orthogonal matrix *)
Theorem C61_Drep Q b x : orthogonal Q -> (b < 9)%nat -> orbital b (mv (tr Q) x) = rsum 9 (fun a => orbital a x * Drep Q a b).
Proof. exact (orbital_rotated Q b x). Qed.
Print Assumptions C61_Drep.
(** the branch R0[2,2] = -1 is right for the reflection of the xy-plane *)
Theorem C61_mirror th ph an a b : (a < 9)%nat -> (b < 9)%nat ->
  rotation_transformation mirror_xy true th ph an a b = Drep mirror_xy a b.
Proof. exact (mirror_exact th ph an a b). Qed.
Print Assumptions C61_mirror.
(** but wrong for a half turn about y (WedgeYAxis with angle pi, which gives the angles (pi/2, pi/2, pi)) *)
Theorem C61_half_turn_refuted : exists x, forall an, an = PI ->
  orbital 1 (mv (tr (roty PI)) x) <> rsum 9 (fun a => orbital a x * rotation_transformation (roty PI) true (PI / 2) (PI / 2) an a 1).
Proof. exact half_turn_orbitals. Qed.
Print Assumptions C61_half_turn_refuted.
(** and d orbitals are wrong for a reflection of x *)
Theorem C61_mirror_x_refuted th ph an : exists x,
  orbital 5 (mv (tr mirror_x) x) <> rsum 9 (fun a => orbital a x * rotation_transformation mirror_x true th ph an a 5).
Proof. exact (mirror_x_wrong th ph an). Qed.
Print Assumptions C61_mirror_x_refuted.

(** C62.  H0(k) and S(k) are Hermitian for every structure and set of symmetry operations closed under inverses, when
    the orbitals are rotated correctly (C61) and each element has one table for itself. *)
Theorem C62_hermitian N nimg no O t inv r DT phase onsite tab r1 r2 :
  images nimg O t inv ->
  (forall i, (i < N)%nat -> In (no i) [1; 4; 9]%nat) ->
  (forall n a b i, (n < nimg)%nat -> (i < N)%nat -> (a < no i)%nat -> (b < no i)%nat -> DT n a b = Drep (O n) a b) ->
  (forall n, (n < nimg)%nat -> phase (inv n) = cconj (phase n)) ->
  (forall i d, (i < N)%nat -> exists T, forall c, (c < 14)%nat -> tab i i d c = read_integral T T c) ->
  forall M i a j b, get_matrix N nimg no (place O t r) DT phase onsite tab r1 r2 = Some M ->
  (i < N)%nat -> (j < N)%nat -> (a < no i)%nat -> (b < no j)%nat -> M i a j b = cconj (M j b i a).
Proof. exact (hermitian N nimg no O t inv r DT phase onsite tab r1 r2). Qed.
Print Assumptions C62_hermitian.

(** C63.  dH0 and dS are the derivatives of H0 and S: the block (i,j) with respect to the position of atom i ... *)
Theorem C63_first nimg no O t r DT phase tab dtab r1 r2 i j :
  i <> j -> O 0%nat = eye /\ t 0%nat = vzero -> (no i <= 9)%nat /\ (no j <= 9)%nat ->
  smooth_pair nimg (place O t r) tab dtab r1 r2 i j ->
  forall a b k, (a < no i)%nat -> (b < no j)%nat -> (k < 3)%nat ->
  cderivative (fun s => block nimg no (place O t (moved r (one i (axis k)) s)) DT phase tab r1 r2 i j a b) 0
    (dblock nimg no (place O t r) DT phase tab dtab r1 r2 i j a b k).
Proof. exact (wrt_i nimg no O t r DT phase tab dtab r1 r2 i j). Qed.
Print Assumptions C63_first.
(** ... and the conjugate block (j,i) with respect to the position of atom j *)
Theorem C63_second nimg no O t r DT phase tab dtab r1 r2 i j :
  i <> j -> O 0%nat = eye /\ t 0%nat = vzero -> (no i <= 9)%nat /\ (no j <= 9)%nat ->
  smooth_pair nimg (place O t r) tab dtab r1 r2 i j ->
  forall a b k, (a < no i)%nat -> (b < no j)%nat -> (k < 3)%nat ->
  cderivative (fun s => cconj (block nimg no (place O t (moved r (one j (axis k)) s)) DT phase tab r1 r2 i j a b)) 0
    (dblock2 nimg no (place O t r) O DT phase tab dtab r1 r2 i j a b k).
Proof. exact (wrt_j nimg no O t r DT phase tab dtab r1 r2 i j). Qed.
Print Assumptions C63_second.
