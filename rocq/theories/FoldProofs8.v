From Coq Require Import Reals ZArith List Bool Arith Lia Lra FunctionalExtensionality.
From Verif Require Import Vec GeomModel GeomSpec GeomProofs CoulModel PairModel PairSpec PairProofs SkModel SkSpec SkProofs SkProofs2 SkProofs3 SkProofs4 SkProofs5 SkProofs6 SkProofs7 Cpx RhoModel RhoSpec RhoProofs InvModel InvSpec InvLin InvProofs InvProofs5 InvProofs6 InvProofs7 InvProofs8 GamModel InvProofs9 InvProofs10 InvProofs11 FoldSpec FoldProofs FoldProofs5 FoldProofs6 FoldProofs7.
Import ListNotations.
Open Scope R_scope.

Lemma cscale_sums n n' nimg (q : nat -> nat -> R) (A : nat -> nat -> nat -> R) (ph : nat -> cplx) :
  csum n (fun a => csum n' (fun b => cscale (q a b) (csum nimg (fun x => cscale (A x a b) (ph x))))) = csum nimg (fun x => cscale (rsum n (fun a => rsum n' (fun b => q a b * A x a b))) (ph x)).
Proof.
  apply cplx_eq; unfold csum, cscale; cbn [fst snd].
  - rewrite (rsum_ext nimg _ (fun x => rsum n (fun a => rsum n' (fun b => q a b * A x a b * fst (ph x))))) by (intros; rewrite <- rsum_scal_r; apply rsum_ext; intros; rewrite <- rsum_scal_r; reflexivity).
    rewrite (rsum_swap nimg n). apply rsum_ext. intros a _. rewrite (rsum_swap nimg n'). apply rsum_ext. intros b _. rewrite <- rsum_scal. apply rsum_ext. intros; ring.
  - rewrite (rsum_ext nimg _ (fun x => rsum n (fun a => rsum n' (fun b => q a b * A x a b * snd (ph x))))) by (intros; rewrite <- rsum_scal_r; apply rsum_ext; intros; rewrite <- rsum_scal_r; reflexivity).
    rewrite (rsum_swap nimg n). apply rsum_ext. intros a _. rewrite (rsum_swap nimg n'). apply rsum_ext. intros b _. rewrite <- rsum_scal. apply rsum_ext. intros; ring.
Qed.
Section Fold.
Context (m : nat) (p : nat -> nat -> nat -> cplx) (W : nat -> m3) (v : nat -> v3) (w : nat -> nat -> nat -> option nat) (D : database) (Bohr : R) (g h : structure).
Context (C : copies m p W v w D Bohr g h) (inv inv' : nat -> nat) (Sg : sound D g inv) (Sh : sound D h inv') (OT : one_table D).
Context (HC : too_close (g_N g) (g_nimg g) (g_Rn Bohr g) = false).
Let N := g_N g.
Let no := g_no D g.
Let no' := g_no D h.
Let o1 := first_orbital no.
Let o1' := first_orbital no'.
Let n := o1 N.
Lemma no_copy c I : (c < m)%nat -> (I < N)%nat -> no' (c * N + I)%nat = no I.
Proof. intros Hc HI. unfold no, no', g_no, N. rewrite (q_kind _ _ _ _ _ _ _ _ _ C c I Hc HI). reflexivity. Qed.
Lemma o1_copy c : (c <= m)%nat -> o1' (c * N)%nat = (c * n)%nat /\ forall I, (c < m)%nat -> (I <= N)%nat -> o1' (c * N + I)%nat = (c * n + o1 I)%nat.
Proof.
  assert (S : forall c, (c < m)%nat -> o1' (c * N)%nat = (c * n)%nat -> forall I, (I <= N)%nat -> o1' (c * N + I)%nat = (c * n + o1 I)%nat).
  { intros c' Hc E I. induction I as [|I IH]; intros HI; [rewrite Nat.add_0_r, E; unfold o1; cbn; lia|]. rewrite Nat.add_succ_r. unfold o1', o1 in *. cbn [first_orbital]. rewrite IH by lia. rewrite no_copy by lia. lia. }
  induction c as [|c IH]; intros Hc; [split; [reflexivity|intros I H HI; apply (S 0%nat); [exact H|reflexivity|exact HI]]|].
  destruct (IH ltac:(lia)) as [E F]. assert (E' : o1' (Datatypes.S c * N)%nat = (Datatypes.S c * n)%nat) by (replace (Datatypes.S c * N)%nat with (c * N + N)%nat by lia; rewrite (F N) by lia; fold n; lia).
  split; [exact E'|]. intros I H HI. apply S; assumption.
Qed.
Lemma pair_copy {A} (t : nat -> nat -> A) c I c' J : (c < m)%nat -> (I < N)%nat -> (c' < m)%nat -> (J < N)%nat -> pairwise h t (c * N + I)%nat (c' * N + J)%nat = pairwise g t I J.
Proof. intros. unfold pairwise, N. rewrite !(q_kind _ _ _ _ _ _ _ _ _ C) by assumption. reflexivity. Qed.
Lemma skipped_copy c P n0 c' I J : (c < m)%nat -> (c' < m)%nat -> (P < g_nimg h)%nat -> w c c' P = Some n0 -> (I < N)%nat -> (J < N)%nat ->
  skipped (g_Rn Bohr h) (pairwise h (d_r1 D)) (pairwise h (d_r2 D)) P (c * N + I)%nat (c' * N + J)%nat = skipped (g_Rn Bohr g) (pairwise g (d_r1 D)) (pairwise g (d_r2 D)) n0 I J.
Proof.
  intros Hc Hc' HP E HI HJ. unfold skipped. rewrite !pair_copy by assumption. pose proof (self_copy m p W v w D Bohr g h C c P n0 c' I J Hc Hc' HP E HI HJ) as E1. unfold self_pair in E1. fold N in E1. rewrite E1.
  pose proof (dist_copy m p W v w D Bohr g h C inv' Sh c P n0 c' I J Hc Hc' HP E HI HJ) as E2. fold N in E2. change (mdist (g_Rn Bohr h) P (c * N + I)%nat (c' * N + J)%nat = mdist (g_Rn Bohr g) n0 I J) in E2. rewrite E2. reflexivity.
Qed.
Lemma skipped_none c P c' I J : (c < m)%nat -> (c' < m)%nat -> (P < g_nimg h)%nat -> w c c' P = None -> (I < N)%nat -> (J < N)%nat ->
  skipped (g_Rn Bohr h) (pairwise h (d_r1 D)) (pairwise h (d_r2 D)) P (c * N + I)%nat (c' * N + J)%nat = true.
Proof.
  intros Hc Hc' HP E HI HJ. unfold skipped. pose proof (q_rest _ _ _ _ _ _ _ _ _ C c c' P I J Hc Hc' HP E HI HJ) as (_ & B & _ & _). rewrite !pair_copy by assumption. fold N in B.
  change (mdist (g_Rn Bohr h) P (c * N + I)%nat (c' * N + J)%nat) with (dist (g_Rn Bohr h) P (c * N + I)%nat (c' * N + J)%nat). unfold pairwise. rewrite (proj2 (leb_false _ (d_r2 D (g_kind g I) (g_kind g J))) B). rewrite andb_false_r, orb_true_r. reflexivity.
Qed.
Lemma skipped_none' c n0 I J : (c < m)%nat -> (n0 < g_nimg g)%nat -> (forall c' P, (c' < m)%nat -> (P < g_nimg h)%nat -> w c c' P <> Some n0) -> (I < N)%nat -> (J < N)%nat ->
  skipped (g_Rn Bohr g) (pairwise g (d_r1 D)) (pairwise g (d_r2 D)) n0 I J = true.
Proof.
  intros Hc Hn E HI HJ. unfold skipped. pose proof (q_rest' _ _ _ _ _ _ _ _ _ C c n0 I J Hc Hn E HI HJ) as (_ & B & _ & _). 
  change (mdist (g_Rn Bohr g) n0 I J) with (dist (g_Rn Bohr g) n0 I J). unfold pairwise. rewrite (proj2 (leb_false _ (d_r2 D (g_kind g I) (g_kind g J))) B). rewrite andb_false_r, orb_true_r. reflexivity.
Qed.
Lemma O_orth n0 : (n0 < g_nimg g)%nat -> orthogonal (g_O g n0).
Proof. apply (orthogonal_n _ _ _ _ (u_images _ _ _ Sg)). Qed.
Lemma ht_copy tab c P n0 c' I J a b : (c < m)%nat -> (c' < m)%nat -> (P < g_nimg h)%nat -> w c c' P = Some n0 -> (I < N)%nat -> (J < N)%nat -> (a < no I)%nat -> (b < no J)%nat ->
  image_ht D h Bohr tab P (c * N + I)%nat (c' * N + J)%nat a b = rsum (no I) (fun a' => rsum (no J) (fun b' => Drep (W c) a a' * Drep (W c') b b' * image_ht D g Bohr tab n0 I J a' b')).
Proof.
  intros Hc Hc' HP E HI HJ Ha Hb. unfold image_ht. rewrite (skipped_copy c P n0 c' I J) by assumption. destruct (skipped (g_Rn Bohr g) _ _ n0 I J) eqn:Sk.
  - symmetry. apply rsum_eq0. intros a' _. apply rsum_eq0. intros b' _. ring.
  - destruct (q_image _ _ _ _ _ _ _ _ _ C c c' P n0 Hc Hc' HP E) as (Hn & EO & _ & _). unfold ht_image. fold no no'. rewrite no_copy by assumption. rewrite pair_copy by assumption. unfold rijh.
    pose proof (dist_copy m p W v w D Bohr g h C inv' Sh c P n0 c' I J Hc Hc' HP E HI HJ) as E2. fold N in E2. change (mdist (g_Rn Bohr h) P (c * N + I)%nat (c' * N + J)%nat = mdist (g_Rn Bohr g) n0 I J) in E2.
    pose proof (two_ht (no I) (no J) (g_O g n0) (g_O h P) (W c) (W c') (g_DT g n0) (g_DT h P) ltac:(apply (u_no _ _ _ Sg)) ltac:(apply (u_no _ _ _ Sg)) ltac:(apply (q_W _ _ _ _ _ _ _ _ _ C); assumption) ltac:(apply (q_W _ _ _ _ _ _ _ _ _ C); assumption) (O_orth n0 Hn) EO
      ltac:(intros; apply (u_DT _ _ _ Sg); assumption) ltac:(intros; apply (u_DT _ _ _ Sh); assumption) (mrij (g_Rn Bohr g) n0 I J) (mrij (g_Rn Bohr h) P (c * N + I)%nat (c' * N + J)%nat)
      (rijn_copy m p W v w D Bohr g h C inv' Sh c P n0 c' I J Hc Hc' HP E HI HJ) ltac:(apply (apart D g inv Bohr Sg HC); try assumption; apply (not_skipped _ _ _ _ _ _ Sk))
      (pairwise g tab I J (mdist (g_Rn Bohr g) n0 I J)) a b Ha Hb) as K.
    change (vnorm (mrij (g_Rn Bohr h) P (c * N + I)%nat (c' * N + J)%nat)) with (mdist (g_Rn Bohr h) P (c * N + I)%nat (c' * N + J)%nat) in K. change (vnorm (mrij (g_Rn Bohr g) n0 I J)) with (mdist (g_Rn Bohr g) n0 I J) in K.
    rewrite E2 in *. exact K.
Qed.
Lemma dht_copy tab dtab d c P n0 c' I J a b : (d < 3)%nat -> (c < m)%nat -> (c' < m)%nat -> (P < g_nimg h)%nat -> w c c' P = Some n0 -> (I < N)%nat -> (J < N)%nat -> (a < no I)%nat -> (b < no J)%nat ->
  image_dht D h Bohr tab dtab d P (c * N + I)%nat (c' * N + J)%nat a b = rsum 3 (fun e => m3e (W c) d e * rsum (no I) (fun a' => rsum (no J) (fun b' => Drep (W c) a a' * Drep (W c') b b' * image_dht D g Bohr tab dtab e n0 I J a' b'))).
Proof.
  intros Hd Hc Hc' HP E HI HJ Ha Hb. unfold image_dht. rewrite (skipped_copy c P n0 c' I J) by assumption. destruct (skipped (g_Rn Bohr g) _ _ n0 I J) eqn:Sk.
  - symmetry. apply rsum_eq0. intros e _. rewrite (rsum_eq0 (no I)); [ring|]. intros a' _. apply rsum_eq0. intros b' _. ring.
  - destruct (q_image _ _ _ _ _ _ _ _ _ C c c' P n0 Hc Hc' HP E) as (Hn & EO & _ & _). unfold dht_image. fold no no'. rewrite no_copy by assumption. rewrite !pair_copy by assumption. unfold rijh.
    pose proof (dist_copy m p W v w D Bohr g h C inv' Sh c P n0 c' I J Hc Hc' HP E HI HJ) as E2. fold N in E2. change (mdist (g_Rn Bohr h) P (c * N + I)%nat (c' * N + J)%nat = mdist (g_Rn Bohr g) n0 I J) in E2.
    pose proof (two_dht (no I) (no J) (g_O g n0) (g_O h P) (W c) (W c') (g_DT g n0) (g_DT h P) ltac:(apply (u_no _ _ _ Sg)) ltac:(apply (u_no _ _ _ Sg)) ltac:(apply (q_W _ _ _ _ _ _ _ _ _ C); assumption) ltac:(apply (q_W _ _ _ _ _ _ _ _ _ C); assumption) (O_orth n0 Hn) EO
      ltac:(intros; apply (u_DT _ _ _ Sg); assumption) ltac:(intros; apply (u_DT _ _ _ Sh); assumption) (mrij (g_Rn Bohr g) n0 I J) (mrij (g_Rn Bohr h) P (c * N + I)%nat (c' * N + J)%nat)
      (rijn_copy m p W v w D Bohr g h C inv' Sh c P n0 c' I J Hc Hc' HP E HI HJ) ltac:(apply (apart D g inv Bohr Sg HC); try assumption; apply (not_skipped _ _ _ _ _ _ Sk))
      (pairwise g tab I J (mdist (g_Rn Bohr g) n0 I J)) (pairwise g dtab I J (mdist (g_Rn Bohr g) n0 I J)) a b d Ha Hb Hd) as K.
    change (vnorm (mrij (g_Rn Bohr h) P (c * N + I)%nat (c' * N + J)%nat)) with (mdist (g_Rn Bohr h) P (c * N + I)%nat (c' * N + J)%nat) in K. change (vnorm (mrij (g_Rn Bohr g) n0 I J)) with (mdist (g_Rn Bohr g) n0 I J) in K.
    rewrite E2 in *. rewrite K. rewrite <- (Ropp_involutive (rsum 3 (fun e => m3e (W c) d e * rsum (no I) (fun a' => rsum (no J) (fun b' => Drep (W c) a a' * Drep (W c') b b' * - _))))). f_equal. rewrite <- rsum_opp. apply rsum_ext. intros e _.
    transitivity (m3e (W c) d e * - rsum (no I) (fun a' => rsum (no J) (fun b' => Drep (W c) a a' * Drep (W c') b b' * - rsum (no J) (fun k => dht (vscale (/ mdist (g_Rn Bohr g) n0 I J) (mrij (g_Rn Bohr g) n0 I J)) (mdist (g_Rn Bohr g) n0 I J) (pairwise g tab I J (mdist (g_Rn Bohr g) n0 I J)) (fun q e => pairwise g dtab I J (mdist (g_Rn Bohr g) n0 I J) q * comp e (vscale (/ mdist (g_Rn Bohr g) n0 I J) (mrij (g_Rn Bohr g) n0 I J))) a' k e * g_DT g n0 k b')))); [|ring].
    f_equal. rewrite <- rsum_opp. apply rsum_ext. intros a' _. rewrite <- rsum_opp. apply rsum_ext. intros b' _. ring.
Qed.
(** ** orbitals *)
Lemma turned_at c I a J b : (I < N)%nat -> (J < N)%nat -> (a < no I)%nat -> (b < no J)%nat -> turned_orbitals D g (W c) (o1 I + a)%nat (o1 J + b)%nat = if (I =? J)%nat then Drep (W c) a b else 0.
Proof.
  intros HI HJ Ha Hb. unfold turned_orbitals. rewrite (atom_of_spec D g (g_N g) I (o1 I + a)%nat HI (belongs_first no I a Ha)), (atom_of_spec D g (g_N g) J (o1 J + b)%nat HJ (belongs_first no J b Hb)).
  fold no. fold o1. replace (o1 I + a - o1 I)%nat with a by lia. replace (o1 J + b - o1 J)%nat with b by lia. reflexivity.
Qed.
Lemma turned_sum c I a (F : nat -> cplx) : (I < N)%nat -> (a < no I)%nat -> csum n (fun x => cscale (turned_orbitals D g (W c) (o1 I + a)%nat x) (F x)) = csum (no I) (fun a' => cscale (Drep (W c) a a') (F (o1 I + a')%nat)).
Proof.
  intros HI Ha. rewrite <- (csum_atoms n N o1 no _ (orbital_layout no N)). rewrite (csum_single N I); [|exact HI|].
  - apply csum_ext'. intros a' Ha'. rewrite turned_at, Nat.eqb_refl by assumption. reflexivity.
  - intros J HJ Ne. apply csum_all0. intros b Hb. rewrite turned_at by assumption. destruct (Nat.eqb_spec I J); [congruence|]. apply cplx_eq; cbn; ring.
Qed.
Lemma unfolded_at (P : nat -> nat -> cplx) (A : nat -> nat -> nat -> cplx) c I a c' J b : (I < N)%nat -> (J < N)%nat -> (a < no I)%nat -> (b < no J)%nat ->
  unfolded m n P (fun c => turned_orbitals D g (W c)) A c (o1 I + a)%nat c' (o1 J + b)%nat =
  csum m (fun j => cmul (cmul (P j c) (cconj (P j c'))) (cscale (/ INR m) (csum (no I) (fun a' => csum (no J) (fun b' => cscale (Drep (W c) a a' * Drep (W c') b b') (A j (o1 I + a')%nat (o1 J + b')%nat)))))).
Proof.
  intros HI HJ Ha Hb. unfold unfolded. apply csum_ext'. intros j _.
  rewrite (csum_ext' n _ (fun x => cmul (cmul (P j c) (cconj (P j c'))) (cmul (rc (/ INR m)) (cscale (turned_orbitals D g (W c) (o1 I + a)%nat x) (csum n (fun y => cscale (turned_orbitals D g (W c') (o1 J + b)%nat y) (A j x y))))))).
  2: { intros x _. rewrite !cscale_rc, <- !csum_mul. apply csum_ext'. intros y _. rewrite !cscale_rc. unfold Rdiv.
    replace (rc (turned_orbitals D g (W c) (o1 I + a) x * turned_orbitals D g (W c') (o1 J + b) y * / INR m)) with (cmul (rc (/ INR m)) (cmul (rc (turned_orbitals D g (W c) (o1 I + a) x)) (rc (turned_orbitals D g (W c') (o1 J + b) y)))) by (apply cplx_eq; cbn; ring). ring. }
  rewrite !csum_mul, <- cscale_rc, (turned_sum c I a _ HI Ha). f_equal. f_equal. apply csum_ext'. intros a' _. rewrite (turned_sum c' J b _ HJ Hb), cscale_rc, <- csum_mul. apply csum_ext'. intros b' _. rewrite !cscale_rc.
  replace (rc (Drep (W c) a a' * Drep (W c') b b')) with (cmul (rc (Drep (W c) a a')) (rc (Drep (W c') b b'))) by (apply cplx_eq; cbn; ring). ring.
Qed.
Lemma HC_copy : too_close (g_N h) (g_nimg h) (g_Rn Bohr h) = false.
Proof. rewrite (close_copy m p W v w D Bohr g h C inv inv' Sg Sh). exact HC. Qed.
Lemma folded_images k c c' (T' : nat -> R) (T : nat -> R) : (k < g_nk h)%nat -> (c < m)%nat -> (c' < m)%nat ->
  (forall P, (P < g_nimg h)%nat -> T' P = match w c c' P with Some n0 => T n0 | None => 0 end) ->
  (forall n0, (n0 < g_nimg g)%nat -> (forall c' P, (c' < m)%nat -> (P < g_nimg h)%nat -> w c c' P <> Some n0) -> T n0 = 0) ->
  csum (g_nimg h) (fun P => cscale (T' P) (g_phase h k P)) =
  csum m (fun j => cmul (cmul (p k j c) (cconj (p k j c'))) (cscale (/ INR m) (csum (g_nimg g) (fun n => cscale (T n) (g_phase g (k * m + j)%nat n))))).
Proof.
  intros Hk Hc Hc' HT HZ. rewrite <- (phase_fold m p W v w D Bohr g h C k c c' T Hk Hc Hc' HZ). apply csum_ext'. intros P HP. rewrite (HT P HP). destruct (w c c' P); [reflexivity|]. apply cplx_eq; cbn; ring.
Qed.
Lemma k_copy k j : (k < g_nk h)%nat -> (j < m)%nat -> (k * m + j < g_nk g)%nat.
Proof. intros. rewrite (q_nk _ _ _ _ _ _ _ _ _ C). nia. Qed.
Lemma matrix_copy onsite onsite' tab k c I a c' J b : (k < g_nk h)%nat -> good_table tab -> (forall c I x, (c < m)%nat -> (I < N)%nat -> onsite' (c * N + I)%nat x = onsite I x) ->
  (forall i a b, (i < N)%nat -> shell a = shell b -> onsite i a = onsite i b) ->
  (c < m)%nat -> (c' < m)%nat -> (I < N)%nat -> (J < N)%nat -> (a < no I)%nat -> (b < no J)%nat ->
  g_matrix Bohr D h onsite' tab k (c * N + I)%nat a (c' * N + J)%nat b =
  csum m (fun j => cmul (cmul (p k j c) (cconj (p k j c'))) (cscale (/ INR m) (csum (no I) (fun a' => csum (no J) (fun b' => cscale (Drep (W c) a a' * Drep (W c') b b') (g_matrix Bohr D g onsite tab (k * m + j)%nat I a' J b')))))).
Proof.
  intros Hk HT Hon Hsh Hc Hc' HI HJ Ha Hb.
  rewrite (whole_matrix D h inv' Bohr Sh OT HC_copy onsite' tab k (c * N + I)%nat a (c' * N + J)%nat b Hk HT).
  2,3: rewrite (q_N _ _ _ _ _ _ _ _ _ C); apply pair_lt; assumption.
  2,3: fold no'; rewrite no_copy by assumption; assumption.
  set (Z := csum (no I) (fun a' => csum (no J) (fun b' => cscale (Drep (W c) a a' * Drep (W c') b b') (if ((I =? J) && (a' =? b'))%nat then rc (onsite I a') else c0)))).
  rewrite (csum_ext' m _ (fun j => cadd (cmul (cmul (cmul (p k j c) (cconj (p k j c'))) (rc (/ INR m))) Z) (cmul (cmul (p k j c) (cconj (p k j c'))) (cscale (/ INR m) (csum (g_nimg g) (fun n0 => cscale (rsum (no I) (fun a' => rsum (no J) (fun b' => Drep (W c) a a' * Drep (W c') b b' * image_ht D g Bohr tab n0 I J a' b'))) (g_phase g (k * m + j)%nat n0))))))).
  2: { intros j Hj. rewrite <- cscale_sums. unfold Z.
    assert (E : csum (no I) (fun a' => csum (no J) (fun b' => cscale (Drep (W c) a a' * Drep (W c') b b') (g_matrix Bohr D g onsite tab (k * m + j)%nat I a' J b'))) =
      cadd (csum (no I) (fun a' => csum (no J) (fun b' => cscale (Drep (W c) a a' * Drep (W c') b b') (if ((I =? J) && (a' =? b'))%nat then rc (onsite I a') else c0))))
           (csum (no I) (fun a' => csum (no J) (fun b' => cscale (Drep (W c) a a' * Drep (W c') b b') (csum (g_nimg g) (fun n0 => cscale (image_ht D g Bohr tab n0 I J a' b') (g_phase g (k * m + j)%nat n0))))))).
    { rewrite <- csum_add. apply csum_ext'. intros a' Ha'. rewrite <- csum_add. apply csum_ext'. intros b' Hb'. rewrite (whole_matrix D g inv Bohr Sg OT HC onsite tab (k * m + j)%nat I a' J b' (k_copy k j Hk Hj) HT HI HJ Ha' Hb'). rewrite !cscale_rc. ring. }
    rewrite E. rewrite !cscale_rc. ring. }
  rewrite csum_add, csum_mul_r. rewrite (weights_fold m p W v w D Bohr g h C k c c' Hk Hc Hc'). f_equal.
  - rewrite pair_eqb by assumption. unfold Z. destruct (Nat.eqb_spec c c') as [<-|Nc].
    + cbn [andb]. destruct (Nat.eqb_spec I J) as [<-|NI].
      * rewrite Hon by assumption. cbn [andb]. transitivity (csum (no I) (fun a' => csum (no I) (fun b' => cscale (Drep (W c) a a' * Drep (W c) b b') (if (a' =? b')%nat then (onsite I a', 0) else (0, 0))))).
        -- symmetry. etransitivity; [apply (turned2_onsite (W c) (no I) (onsite I) a b)|unfold rc, c0; reflexivity]; [apply (u_no _ _ _ Sg)|apply (q_W _ _ _ _ _ _ _ _ _ C); assumption|intros; apply Hsh; assumption|assumption|assumption].
        -- unfold rc, c0. transitivity (cmul c1 (csum (no I) (fun a' => csum (no I) (fun b' => cscale (Drep (W c) a a' * Drep (W c) b b') (if (a' =? b')%nat then (onsite I a', 0) else (0, 0)))))); [|reflexivity]. set (q := csum _ _). apply cplx_eq; cbn; ring.
      * cbn [andb]. symmetry. apply cplx_eq; rewrite csum_all0; try (cbn; ring); intros a' _; apply csum_all0; intros b' _; apply cplx_eq; cbn; ring.
    + cbn [andb]. apply cplx_eq; cbn; ring.
  - apply folded_images; try assumption.
    + intros P HP. destruct (w c c' P) as [n0|] eqn:E; [apply ht_copy; assumption|]. unfold image_ht. rewrite (skipped_none c P c' I J) by assumption. reflexivity.
    + intros n0 Hn H. unfold image_ht. rewrite (skipped_none' c n0 I J) by assumption. apply rsum_eq0. intros a' _. apply rsum_eq0. intros b' _. ring.
Qed.
Lemma dmatrix_copy tab dtab d k c I a c' J b : (d < 3)%nat -> (k < g_nk h)%nat -> good_table tab -> good_table dtab ->
  (c < m)%nat -> (c' < m)%nat -> (I < N)%nat -> (J < N)%nat -> (a < no I)%nat -> (b < no J)%nat ->
  g_dmatrix Bohr D h tab dtab d k (c * N + I)%nat a (c' * N + J)%nat b =
  csum 3 (fun e => cscale (m3e (W c) d e) (csum m (fun j => cmul (cmul (p k j c) (cconj (p k j c'))) (cscale (/ INR m) (csum (no I) (fun a' => csum (no J) (fun b' => cscale (Drep (W c) a a' * Drep (W c') b b') (g_dmatrix Bohr D g tab dtab e (k * m + j)%nat I a' J b')))))))).
Proof.
  intros Hd Hk HT HT' Hc Hc' HI HJ Ha Hb.
  rewrite (whole_dmatrix D h inv' Bohr Sh OT HC_copy tab dtab d k (c * N + I)%nat a (c' * N + J)%nat b Hd Hk HT HT').
  2,3: rewrite (q_N _ _ _ _ _ _ _ _ _ C); apply pair_lt; assumption.
  2,3: fold no'; rewrite no_copy by assumption; assumption.
  rewrite (csum_ext' 3 _ (fun e => cscale (m3e (W c) d e) (csum (g_nimg h) (fun P => cscale (match w c c' P with Some n0 => rsum (no I) (fun a' => rsum (no J) (fun b' => Drep (W c) a a' * Drep (W c') b b' * image_dht D g Bohr tab dtab e n0 I J a' b')) | None => 0 end) (g_phase h k P))))).
  - rewrite (csum_ext' (g_nimg h) _ (fun P => csum 3 (fun e => cscale (m3e (W c) d e) (cscale (match w c c' P with Some n0 => rsum (no I) (fun a' => rsum (no J) (fun b' => Drep (W c) a a' * Drep (W c') b b' * image_dht D g Bohr tab dtab e n0 I J a' b')) | None => 0 end) (g_phase h k P))))).
    + rewrite csum_swap. apply csum_ext'. intros e _. rewrite cscale_rc, <- csum_mul. apply csum_ext'. intros P _. rewrite cscale_rc. reflexivity.
    + intros P HP. destruct (w c c' P) as [n0|] eqn:E.
      * rewrite (dht_copy tab dtab d c P n0 c' I J a b) by assumption. rewrite cscale_sum3. apply csum_ext'. intros e _. apply cplx_eq; cbn; ring.
      * unfold image_dht. rewrite (skipped_none c P c' I J) by assumption. symmetry. rewrite csum_all0; [apply cplx_eq; cbn; ring|]. intros e _. apply cplx_eq; cbn; ring.
  - intros e He. f_equal. rewrite (folded_images k c c' _ (fun n0 => rsum (no I) (fun a' => rsum (no J) (fun b' => Drep (W c) a a' * Drep (W c') b b' * image_dht D g Bohr tab dtab e n0 I J a' b'))) Hk Hc Hc').
    + apply csum_ext'. intros j Hj. f_equal. f_equal. rewrite <- cscale_sums. apply csum_ext'. intros a' Ha'. apply csum_ext'. intros b' Hb'. rewrite (whole_dmatrix D g inv Bohr Sg OT HC tab dtab e (k * m + j)%nat I a' J b' He (k_copy k j Hk Hj) HT HT' HI HJ Ha' Hb'). reflexivity.
    + intros P _. destruct (w c c' P); reflexivity.
    + intros n0 Hn H. unfold image_dht. rewrite (skipped_none' c n0 I J) by assumption. apply rsum_eq0. intros a' _. apply rsum_eq0. intros b' _. ring.
Qed.
End Fold.
