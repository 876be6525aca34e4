From Coq Require Import Reals ZArith List Bool Arith Lia Lra.
From Verif Require Import Vec GeomModel GeomSpec GeomProofs CoulModel MixModel PairModel PairSpec PairProofs SkModel SkSpec SkProofs SkProofs2 SkProofs6 SkProofs7 Cpx RhoModel RhoSpec RhoProofs EigModel EigSpec EigProofs2 GamModel InvModel InvSpec InvLin InvProofs InvProofs2 InvProofs3 InvProofs4 InvProofs5 InvProofs6 InvProofs7 InvProofs8 InvProofs9 InvProofs10 InvProofs11 InvProofs12.
Import ListNotations.
Open Scope R_scope.

(** ** one system, two solvers *)
Lemma cconj_if (b : bool) : cconj (if b then c1 else c0) = if b then c1 else c0.
Proof. destruct b; apply cplx_eq; cbn; ring. Qed.
Lemma same_transported n k A i l : (i < n)%nat -> (l < n)%nat -> transported n (same_orbitals k) A i l = A i l.
Proof.
  intros Hi Hl. unfold transported, same_orbitals. rewrite (csum_ext' n _ (fun j => cmul (A j l) (if (i =? j)%nat then c1 else c0))).
  - apply (csum_delta n i (fun j => A j l) Hi).
  - intros j Hj. rewrite (csum_ext' n _ (fun m => cmul (cmul (if (i =? j)%nat then c1 else c0) (A j m)) (if (l =? m)%nat then c1 else c0))) by (intros m _; rewrite cconj_if; reflexivity).
    rewrite (csum_delta n l (fun m => cmul (if (i =? j)%nat then c1 else c0) (A j m)) Hl). ring.
Qed.
Lemma same_unitary n k : unitary n (same_orbitals k).
Proof.
  unfold same_orbitals. split; intros i l Hi Hl.
  - rewrite (csum_ext' n _ (fun j => cmul (if (i =? j)%nat then c1 else c0) (if (l =? j)%nat then c1 else c0))) by (intros m _; rewrite cconj_if; reflexivity).
    apply (csum_delta n l (fun j => if (i =? j)%nat then c1 else c0) Hl).
  - rewrite (csum_ext' n _ (fun j => cmul (if (l =? j)%nat then c1 else c0) (if (i =? j)%nat then c1 else c0))) by (intros m _; rewrite cconj_if, (Nat.eqb_sym m i), (Nat.eqb_sym m l); ring).
    rewrite (csum_delta n i (fun j => if (l =? j)%nat then c1 else c0) Hi), (Nat.eqb_sym l i). reflexivity.
Qed.
Lemma same_axes_sum c x : (c < 3)%nat -> rsum 3 (fun d => same_axes c d * x d) = x c.
Proof. intros Hc. unfold same_axes. destruct c as [|[|[|c]]]; [| | |lia]; cbn; ring. Qed.
Lemma same_axes_csum c x : (c < 3)%nat -> csum 3 (fun d => cscale (same_axes c d) (x d)) = x c.
Proof. intros Hc. unfold same_axes. destruct c as [|[|[|c]]]; [| | |lia]; apply cplx_eq; unfold csum, cscale, rsum; cbn; ring. Qed.
Lemma self_equivalent X : well_formed X -> equivalent (fun i => i) same_orbitals same_axes X X.
Proof.
  intros W. constructor; try (intros ?; reflexivity); try apply W; try reflexivity.
  - split; auto.
  - intros k _. apply same_unitary.
  - intros k i j I J _ HI HJ Bi Bj Ne. unfold same_orbitals. destruct (Nat.eqb_spec i j) as [->|_]; [|reflexivity]. exfalso. apply Ne. apply (belongs_unique _ _ _ _ j J I (f_layout _ W)); assumption.
  - intros k i l _ Hi Hl. symmetry. apply same_transported; assumption.
  - intros k i l _ Hi Hl. symmetry. apply same_transported; assumption.
  - intros c k i l Hc _ Hi Hl. rewrite (same_axes_csum c (fun d => transported (s_norb X) (same_orbitals k) (s_dH0 X d k) i l) Hc). symmetry. apply same_transported; assumption.
  - intros c k i l Hc _ Hi Hl. rewrite (same_axes_csum c (fun d => transported (s_norb X) (same_orbitals k) (s_dS X d k) i l) Hc). symmetry. apply same_transported; assumption.
  - intros c I J Hc _ _. symmetry. apply (same_axes_sum c (fun d => s_dG X d I J) Hc).
  - intros u v C c I Hc HI. rewrite (same_axes_sum c (fun d => s_field X u d I) Hc). apply (f_field _ W); assumption.
  - intros c I Hc HI. rewrite (same_axes_sum c (fun d => s_frep X d I) Hc). reflexivity.
  - intros c I Hc HI. rewrite (same_axes_sum c (fun d => s_fpp X d I) Hc). reflexivity.
Qed.
Lemma solver_irrelevant X z z' w0 w0' evmin evmin' MAXE brentq m tol_norm tol_mull tol_im Hartree Bohr scc maxiter ms u v :
  well_formed X -> proper X -> reliable z w0 X -> reliable z' w0' X -> 0 <= tol_norm -> fresh (s_N X) m ms -> (forall I, (I < s_N X)%nat -> v I = u I) ->
  equal_answer X (calculate z evmin w0 MAXE brentq m tol_norm tol_mull tol_im Hartree Bohr scc maxiter X ms u)
                 (calculate z' evmin' w0' MAXE brentq m tol_norm tol_mull tol_im Hartree Bohr scc maxiter X ms v).
Proof.
  intros W PX RX RY Ht F C. pose proof (same_physics (fun i => i) same_orbitals same_axes X X z z' w0 w0' evmin evmin' MAXE brentq m tol_norm tol_mull tol_im Hartree Bohr scc maxiter ms u v (self_equivalent X W) PX RX RY Ht F C) as A.
  destruct (calculate z evmin w0 MAXE brentq m tol_norm tol_mull tol_im Hartree Bohr scc maxiter X ms u) as [rx ix nx| |], (calculate z' evmin' w0' MAXE brentq m tol_norm tol_mull tol_im Hartree Bohr scc maxiter X ms v) as [ry iy ny| |]; try exact A.
  destruct A as [A B]. split; [|exact B]. constructor; try apply A.
  - intros k i l Hk Hi Hl. rewrite (a_rho _ _ _ _ _ _ A k i l Hk Hi Hl). apply same_transported; assumption.
  - intros k i l Hk Hi Hl. rewrite (a_rhoe _ _ _ _ _ _ A k i l Hk Hi Hl). apply same_transported; assumption.
  - intros c I Hc HI. rewrite (a_force _ _ _ _ _ _ A c I Hc HI). apply (same_axes_sum c (fun d => r_force rx d I) Hc).
Qed.
(** the systems made of structures are of this kind *)
Lemma lsum_nb N r tr0 rot cut cs (F F' : neighbour -> R) : (forall b, (nb_i b < N)%nat -> (nb_j b < N)%nat -> F' b = F b) -> lsum F' (flat_map (cell_neighbours N r tr0 rot cut) cs) = lsum F (flat_map (cell_neighbours N r tr0 rot cut) cs).
Proof.
  intros H. rewrite !lsum_flat. apply lsum_ext. intros c. rewrite !cell_sum. apply rsum_ext. intros i Hi. apply rsum_ext. intros j Hj. destruct (mask r tr0 rot cut c i j); [|reflexivity]. apply H; assumption.
Qed.
Lemma assembled_well erfc Bohr Hartree gaussian gamma_cut goal width sepsilon scc D g X : assemble erfc Bohr Hartree gaussian gamma_cut goal width sepsilon scc D g = Some X -> well_formed X.
Proof.
  unfold assemble. destruct (too_close _ _ _); [discriminate|]. destruct scc.
  - destruct (g_gamma _ _ _ _ _ _ _); try discriminate. unfold get_neighbours. destruct (scan _ _) as [cs|]; try discriminate. intros E. injection E as <-. constructor; cbn [s_norb s_N s_o1 s_no s_phi s_field].
    + apply orbital_layout.
    + intros u v C i Hi. f_equal. apply lsum_nb. intros b _ Hj. destruct (nb_i b =? i)%nat; [|reflexivity]. rewrite (C (nb_j b) Hj). reflexivity.
    + intros u v c i C Hi. f_equal. apply lsum_nb. intros b _ Hj. destruct (nb_i b =? i)%nat; [|reflexivity]. rewrite (C (nb_j b) Hj). reflexivity.
  - intros E. injection E as <-. constructor; cbn [s_norb s_N s_o1 s_no s_phi s_field].
    + apply orbital_layout.
    + intros u v _ i _. reflexivity.
    + reflexivity.
Qed.
Lemma assembled_proper erfc Bohr Hartree gaussian gamma_cut goal width sepsilon scc D g inv X : sound D g inv -> assemble erfc Bohr Hartree gaussian gamma_cut goal width sepsilon scc D g = Some X -> proper X.
Proof.
  intros Sg. unfold assemble. destruct (too_close _ _ _) eqn:HC; [discriminate|].
  destruct scc; [destruct (g_gamma _ _ _ _ _ _ _); try discriminate; destruct (get_neighbours _ _ _ _ _ _); try discriminate|]; intros E; injection E as <-.
  all: split; intros k Hk; cbn [s_norb s_nk s_H0 s_S] in *; apply (H_hermitian D g inv Bohr Sg HC); try exact Hk; apply (u_H _ _ _ Sg) || apply (u_S _ _ _ Sg).
Qed.
