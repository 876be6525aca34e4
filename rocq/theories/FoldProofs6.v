From Coq Require Import Reals ZArith List Bool Arith Lia Lra FunctionalExtensionality.
From Verif Require Import Vec GeomModel GeomSpec GeomProofs CoulModel PairModel PairSpec PairProofs SkModel SkSpec SkProofs SkProofs2 SkProofs3 SkProofs4 SkProofs5 SkProofs6 SkProofs7 Cpx RhoModel RhoSpec RhoProofs InvModel InvSpec InvLin InvProofs InvProofs5 InvProofs6 InvProofs7 InvProofs8 GamModel InvProofs9 InvProofs10 InvProofs11 FoldSpec FoldProofs FoldProofs5.
Import ListNotations.
Open Scope R_scope.

(** ** pair energies, forces and tests of copies *)
Section Pairs.
Context (D : database) (g : structure) (inv : nat -> nat) (Bohr : R) (Sg : sound D g inv).
Let Rn := g_Rn Bohr g.
Definition image_energy (R0 : nat -> nat -> v3) (V : nat -> nat -> R -> R) (rmax : R) (n i j : nat) : R :=
  if self_pair n i j then 0 else if ltb rmax (dist R0 n i j) then 0 else V i j (dist R0 n i j).
Lemma total_all V rmax : (forall i j d, (i < g_N g)%nat -> (j < g_N g)%nat -> V i j d = V j i d) ->
  total_energy (g_N g) (g_nimg g) Rn V rmax = / 2 * rsum (g_N g) (fun i => rsum (g_N g) (fun j => rsum (g_nimg g) (fun n => image_energy Rn V rmax n i j))).
Proof.
  intros Hsym. pose proof (u_images _ _ _ Sg) as Him. set (N := g_N g). set (nimg := g_nimg g).
  assert (S : forall i j, (i < N)%nat -> (j < N)%nat -> pair_energy nimg Rn V rmax i j = pair_energy nimg Rn V rmax j i).
  { intros i j Hi Hj. unfold pair_energy. rewrite <- (rsum_perm nimg inv _ (inv_permutes _ _ _ _ Him)). apply rsum_ext. intros n Hn.
    unfold Rn. rewrite (self_swap g inv Him), (dist_swap g Bohr inv Him), (Hsym i j), (Nat.eqb_sym i j) by assumption. reflexivity. }
  change (upper N (pair_energy nimg Rn V rmax) = / 2 * rsum N (fun i => rsum N (fun j => rsum nimg (fun n => image_energy Rn V rmax n i j)))). rewrite (upper_sym N _ S). f_equal.
  rewrite <- rsum_plus. apply rsum_ext. intros i Hi.
  assert (E : forall j, pair_energy nimg Rn V rmax i j = if (i =? j)%nat then / 2 * rsum nimg (fun n => image_energy Rn V rmax n i j) else rsum nimg (fun n => image_energy Rn V rmax n i j)).
  { intros j. unfold pair_energy, image_energy. destruct (i =? j)%nat; [rewrite <- rsum_scal|]; apply rsum_ext; intros n _; destruct (self_pair n i j); try ring; destruct (ltb rmax (dist Rn n i j)); ring. }
  rewrite (rsum_ext N _ (fun j => rsum nimg (fun n => image_energy Rn V rmax n i j) - (if (i =? j)%nat then / 2 * rsum nimg (fun n => image_energy Rn V rmax n i i) else 0))).
  - rewrite rsum_minus, (rsum_single N i (fun j => if (i =? j)%nat then _ else 0) Hi), E, !Nat.eqb_refl; [ring|]. intros j _ Ne. destruct (Nat.eqb_spec i j); [congruence|reflexivity].
  - intros j _. rewrite E. destruct (Nat.eqb_spec i j) as [<-|]; [field|ring].
Qed.
Lemma tested_all (q : nat -> nat -> nat -> bool) : (forall n i j, (n < g_nimg g)%nat -> (i < g_N g)%nat -> (j < g_N g)%nat -> q (inv n) i j = q n j i) ->
  tested (g_N g) (g_nimg g) q <-> forall i j n, (i < g_N g)%nat -> (j < g_N g)%nat -> (n < g_nimg g)%nat -> q n i j = true.
Proof.
  intros Q. split; intros A; [|intros i j n Hi Hj Hn _; apply A; assumption]. intros i j n Hi Hj Hn. destruct (le_ge_dec i j) as [L|L]; [apply A; assumption|].
  rewrite <- Q by assumption. apply A; try assumption. apply (im_inv _ _ _ _ (u_images _ _ _ Sg)). exact Hn.
Qed.
End Pairs.
Lemma ltb_beyond a b : a < b -> ltb a b = true. Proof. intros H. apply ltb_true. exact H. Qed.
Section Fold.
Context (m : nat) (p : nat -> nat -> nat -> cplx) (W : nat -> m3) (v : nat -> v3) (w : nat -> nat -> nat -> option nat) (D : database) (Bohr : R) (g h : structure).
Context (C : copies m p W v w D Bohr g h) (inv inv' : nat -> nat) (Sg : sound D g inv) (Sh : sound D h inv').
Let N := g_N g.
Let Rn := g_Rn Bohr g.
Let Rn' := g_Rn Bohr h.
Lemma energy_copy V V' rmax : (rmax = d_rmax D \/ rmax = g_rc g) -> (forall c I c' J d, (c < m)%nat -> (I < N)%nat -> (c' < m)%nat -> (J < N)%nat -> V' (c * N + I)%nat (c' * N + J)%nat d = V I J d) ->
  (forall i j d, (i < N)%nat -> (j < N)%nat -> V i j d = V j i d) -> total_energy (g_N h) (g_nimg h) Rn' V' rmax = INR m * total_energy (g_N g) (g_nimg g) Rn V rmax.
Proof.
  intros Hr HV Hsym. unfold Rn, Rn'. rewrite (total_all D g inv Bohr Sg V rmax Hsym), (total_all D h inv' Bohr Sh V' rmax).
  2: { intros i j d Hi Hj. rewrite (q_N _ _ _ _ _ _ _ _ _ C) in Hi, Hj. destruct (pair_inv m (g_N g) i Hi) as (c & I & Hc & HI & ->). destruct (pair_inv m (g_N g) j Hj) as (c' & J & Hc' & HJ & ->). fold N. rewrite !HV by assumption. apply Hsym; assumption. }
  rewrite (q_N _ _ _ _ _ _ _ _ _ C), rsum_pairs. fold N.
  rewrite (rsum_ext m _ (fun _ => rsum N (fun i => rsum N (fun j => rsum (g_nimg g) (fun n => image_energy Rn V rmax n i j))))); [rewrite rsum_const; unfold Rn; ring|].
  intros c Hc. apply rsum_ext. intros I HI. rewrite rsum_pairs. fold N. rewrite rsum_swap. apply rsum_ext. intros J HJ.
  rewrite <- (images_sum m p W v w D Bohr g h C c (fun n => image_energy Rn V rmax n I J) Hc).
  - apply rsum_ext. intros c' Hc'. apply rsum_ext. intros P HP. destruct (w c c' P) as [n|] eqn:E; unfold image_energy.
    + unfold N, Rn. rewrite (self_copy m p W v w D Bohr g h C c P n c' I J), (dist_copy m p W v w D Bohr g h C inv' Sh c P n c' I J) by assumption. fold N. rewrite HV by assumption. reflexivity.
    + unfold N. rewrite (self_none m p W v w D Bohr g h C c P c' I J) by assumption. pose proof (q_rest _ _ _ _ _ _ _ _ _ C c c' P I J Hc Hc' HP E HI HJ) as (_ & _ & B1 & B2).
      destruct Hr as [-> | ->]; [rewrite (ltb_beyond _ _ B1)|rewrite (ltb_beyond _ _ B2)]; reflexivity.
  - intros n Hn H. pose proof (q_rest' _ _ _ _ _ _ _ _ _ C c n I J Hc Hn H HI HJ) as (_ & _ & B1 & B2). unfold image_energy, Rn. destruct Hr as [-> | ->]; [rewrite (ltb_beyond _ _ B1)|rewrite (ltb_beyond _ _ B2)]; destruct (self_pair n I J); reflexivity.
Qed.
Lemma mv_vzero A : mv A vzero = vzero. Proof. destruct A as [[a b e] [d f k] [x y z]]. apply v3_eq; vunf; ring. Qed.
Lemma force_copy dV dV' rmax d c I : (rmax = d_rmax D \/ rmax = g_rc g) -> (forall c I c' J d, (c < m)%nat -> (I < N)%nat -> (c' < m)%nat -> (J < N)%nat -> dV' (c * N + I)%nat (c' * N + J)%nat d = dV I J d) ->
  (d < 3)%nat -> (c < m)%nat -> (I < N)%nat ->
  comp d (force (g_N h) (g_nimg h) Rn' dV' rmax (c * N + I)%nat) = rsum 3 (fun e => m3e (W c) d e * comp e (force (g_N g) (g_nimg g) Rn dV rmax I)).
Proof.
  intros Hr HV Hd Hc HI. unfold force. rewrite (q_N _ _ _ _ _ _ _ _ _ C). fold N. rewrite comp_vsum, rsum_pairs, rsum_swap.
  rewrite (rsum_ext 3 _ (fun e => rsum N (fun J => rsum (g_nimg g) (fun n => m3e (W c) d e * comp e (pair_force Rn dV rmax I J n))))).
  2: { intros e _. rewrite comp_vsum, <- rsum_scal. apply rsum_ext. intros J _. rewrite comp_vsum, rsum_scal. reflexivity. }
  rewrite (rsum_swap 3 N). apply rsum_ext. intros J HJ. rewrite (rsum_swap 3 (g_nimg g)).
  rewrite (rsum_ext (g_nimg g) _ (fun n => comp d (mv (W c) (pair_force Rn dV rmax I J n)))) by (intros; symmetry; apply comp_mv; exact Hd).
  rewrite <- (images_sum m p W v w D Bohr g h C c (fun n => comp d (mv (W c) (pair_force Rn dV rmax I J n))) Hc).
  - apply rsum_ext. intros c' Hc'. rewrite comp_vsum. apply rsum_ext. intros P HP. destruct (w c c' P) as [n|] eqn:E; unfold pair_force.
    + f_equal. unfold N, Rn, Rn'. rewrite (self_copy m p W v w D Bohr g h C c P n c' I J), (dist_copy m p W v w D Bohr g h C inv' Sh c P n c' I J), (rijn_copy m p W v w D Bohr g h C inv' Sh c P n c' I J) by assumption. fold N. rewrite HV by assumption.
      destruct (self_pair n I J); [symmetry; apply mv_vzero|]. destruct (ltb _ _); symmetry; [apply mv_scale|apply mv_vzero].
    + unfold N. rewrite (self_none m p W v w D Bohr g h C c P c' I J) by assumption. pose proof (q_rest _ _ _ _ _ _ _ _ _ C c c' P I J Hc Hc' HP E HI HJ) as (_ & _ & B1 & B2). unfold Rn'.
      assert (B : rmax < dist (g_Rn Bohr h) P (c * g_N g + I)%nat (c' * g_N g + J)%nat) by (destruct Hr as [-> | ->]; assumption). rewrite (proj2 (ltb_false _ _)) by lra. destruct d as [|[|d]]; reflexivity.
  - intros n Hn H. pose proof (q_rest' _ _ _ _ _ _ _ _ _ C c n I J Hc Hn H HI HJ) as (_ & _ & B1 & B2). unfold pair_force, Rn.
    assert (B : rmax < dist (g_Rn Bohr g) n I J) by (destruct Hr as [-> | ->]; assumption). rewrite (proj2 (ltb_false _ _)) by lra. destruct (self_pair n I J); rewrite mv_vzero; destruct d as [|[|d]]; reflexivity.
Qed.
Lemma tested_copy (q q' : nat -> nat -> nat -> bool) : (forall n i j, (n < g_nimg g)%nat -> (i < g_N g)%nat -> (j < g_N g)%nat -> q (inv n) i j = q n j i) ->
  (forall n i j, (n < g_nimg h)%nat -> (i < g_N h)%nat -> (j < g_N h)%nat -> q' (inv' n) i j = q' n j i) ->
  (forall c P n c' I J, (c < m)%nat -> (c' < m)%nat -> (P < g_nimg h)%nat -> w c c' P = Some n -> (I < N)%nat -> (J < N)%nat -> q' P (c * N + I)%nat (c' * N + J)%nat = q n I J) ->
  (forall c P c' I J, (c < m)%nat -> (c' < m)%nat -> (P < g_nimg h)%nat -> w c c' P = None -> (I < N)%nat -> (J < N)%nat -> q' P (c * N + I)%nat (c' * N + J)%nat = true) ->
  (forall c n I J, (c < m)%nat -> (n < g_nimg g)%nat -> (forall c' P, (c' < m)%nat -> (P < g_nimg h)%nat -> w c c' P <> Some n) -> (I < N)%nat -> (J < N)%nat -> q n I J = true) ->
  tested (g_N h) (g_nimg h) q' <-> tested (g_N g) (g_nimg g) q.
Proof.
  intros Q Q' HS HN HR. rewrite (tested_all D g inv Sg q Q), (tested_all D h inv' Sh q' Q'). split; intros A.
  - intros I J n HI HJ Hn. pose proof (q_m _ _ _ _ _ _ _ _ _ C) as Hm.
    destruct (in_dec Nat.eq_dec n (flat_map (fun c' => flat_map (fun P => match w 0%nat c' P with Some n => [n] | None => [] end) (seq 0 (g_nimg h))) (seq 0 m))) as [F|F].
    + apply in_flat_map in F. destruct F as (c' & Hc' & F). apply in_flat_map in F. destruct F as (P & HP & F). apply in_seq in Hc', HP. destruct (w 0%nat c' P) as [n'|] eqn:E; [|destruct F]. destruct F as [<-|[]].
      rewrite <- (HS 0%nat P n' c' I J) by (assumption || lia). apply A; [rewrite (q_N _ _ _ _ _ _ _ _ _ C); apply pair_lt; assumption|rewrite (q_N _ _ _ _ _ _ _ _ _ C); apply pair_lt; [lia|assumption]|lia].
    + apply (HR 0%nat n I J Hm Hn); [|exact HI|exact HJ]. intros c' P Hc' HP E. apply F. apply in_flat_map. exists c'. split; [apply in_seq; lia|]. apply in_flat_map. exists P. split; [apply in_seq; lia|]. rewrite E. left. reflexivity.
  - intros i j P Hi Hj HP. rewrite (q_N _ _ _ _ _ _ _ _ _ C) in Hi, Hj. destruct (pair_inv m (g_N g) i Hi) as (c & I & Hc & HI & ->). destruct (pair_inv m (g_N g) j Hj) as (c' & J & Hc' & HJ & ->).
    destruct (w c c' P) as [n|] eqn:E; fold N; [rewrite (HS c P n c' I J) by assumption; apply A; try assumption|apply HN; assumption]. apply (q_image _ _ _ _ _ _ _ _ _ C c c' P n Hc Hc' HP E).
Qed.
Lemma ok_copy : distances_ok (g_N h) (g_nimg h) Rn' (d_rmax D) = distances_ok (g_N g) (g_nimg g) Rn (d_rmax D).
Proof.
  apply eq_iff_eq_true. rewrite !distances_tested. unfold Rn, Rn'. apply tested_copy.
  - intros n i j Hn Hi Hj. rewrite (self_swap g inv (u_images _ _ _ Sg)), (dist_swap g Bohr inv (u_images _ _ _ Sg)) by assumption. reflexivity.
  - intros n i j Hn Hi Hj. rewrite (self_swap h inv' (u_images _ _ _ Sh)), (dist_swap h Bohr inv' (u_images _ _ _ Sh)) by assumption. reflexivity.
  - intros c P n c' I J Hc Hc' HP E HI HJ. unfold N. rewrite (self_copy m p W v w D Bohr g h C c P n c' I J), (dist_copy m p W v w D Bohr g h C inv' Sh c P n c' I J) by assumption. reflexivity.
  - intros c P c' I J Hc Hc' HP E HI HJ. pose proof (q_rest _ _ _ _ _ _ _ _ _ C c c' P I J Hc Hc' HP E HI HJ) as (_ & _ & B1 & _). unfold N. rewrite (ltb_beyond _ _ B1), orb_true_r. reflexivity.
  - intros c n I J Hc Hn H HI HJ. pose proof (q_rest' _ _ _ _ _ _ _ _ _ C c n I J Hc Hn H HI HJ) as (_ & _ & B1 & _). rewrite (ltb_beyond _ _ B1), orb_true_r. reflexivity.
Qed.
Lemma close_copy : too_close (g_N h) (g_nimg h) Rn' = too_close (g_N g) (g_nimg g) Rn.
Proof.
  assert (A : too_close (g_N h) (g_nimg h) Rn' = false <-> too_close (g_N g) (g_nimg g) Rn = false).
  { rewrite !too_close_tested. unfold Rn, Rn'. change (@mdist) with (@dist). apply tested_copy.
    - intros n i j Hn Hi Hj. rewrite (self_swap g inv (u_images _ _ _ Sg)), (dist_swap g Bohr inv (u_images _ _ _ Sg)) by assumption. reflexivity.
    - intros n i j Hn Hi Hj. rewrite (self_swap h inv' (u_images _ _ _ Sh)), (dist_swap h Bohr inv' (u_images _ _ _ Sh)) by assumption. reflexivity.
    - intros c P n c' I J Hc Hc' HP E HI HJ. unfold N. rewrite (self_copy m p W v w D Bohr g h C c P n c' I J), (dist_copy m p W v w D Bohr g h C inv' Sh c P n c' I J) by assumption. reflexivity.
    - intros c P c' I J Hc Hc' HP E HI HJ. pose proof (q_rest _ _ _ _ _ _ _ _ _ C c c' P I J Hc Hc' HP E HI HJ) as (B1 & _). unfold N. rewrite (ltb_beyond _ _ B1), orb_true_r. reflexivity.
    - intros c n I J Hc Hn H HI HJ. pose proof (q_rest' _ _ _ _ _ _ _ _ _ C c n I J Hc Hn H HI HJ) as (B1 & _). rewrite (ltb_beyond _ _ B1), orb_true_r. reflexivity. }
  destruct (too_close (g_N h) (g_nimg h) Rn'), (too_close (g_N g) (g_nimg g) Rn); try reflexivity; destruct A as [A B]; [apply B|symmetry; apply A]; reflexivity.
Qed.
End Fold.
