From Coq Require Import Reals List Bool Arith Lia Lra.
From Verif Require Import Vec GeomModel GeomProofs PairProofs SkModel SkSpec Cpx RhoModel RhoSpec RhoProofs RhoProofs2.
Import ListNotations.
Open Scope R_scope.

Lemma D_rsum n (F : nat -> R -> R) t D : (forall i, (i < n)%nat -> derivable_pt_lim (F i) t (D i)) ->
  derivable_pt_lim (fun s => rsum n (fun i => F i s)) t (rsum n D).
Proof.
  induction n as [|n IH]; intros H; [apply derivable_pt_lim_const|].
  cbn [rsum]. apply (derivable_pt_lim_plus (fun s => rsum n (fun i => F i s)) (F n)); [apply IH; intros; apply H; lia|apply H; lia].
Qed.
Lemma D_scal (F : R -> R) t d c : derivable_pt_lim F t d -> derivable_pt_lim (fun s => c * F s) t (c * d).
Proof. intros H. apply derivable_pt_lim_scal. exact H. Qed.
Lemma D_ext (F G : R -> R) t d : (forall s, F s = G s) -> derivable_pt_lim F t d -> derivable_pt_lim G t d.
Proof. intros H D. eapply derivable_pt_lim_ext; [exact H|exact D]. Qed.
Lemma D_rew (F : R -> R) t d d' : derivable_pt_lim F t d -> d = d' -> derivable_pt_lim F t d'. Proof. intros H <-. exact H. Qed.
Lemma D_state_sum norb nk wk f (x : R -> nat -> nat -> R) t x' :
  (forall k a, (k < nk)%nat -> (a < norb)%nat -> derivable_pt_lim (fun s => x s k a) t (x' k a)) ->
  derivable_pt_lim (fun s => state_sum norb nk wk f (x s)) t (state_sum norb nk wk f x').
Proof.
  intros H. unfold state_sum. apply (D_rsum nk (fun k s => wk k * rsum norb (fun a => f k a * x s k a))). intros k Hk.
  apply D_scal. apply (D_rsum norb (fun a s => f k a * x s k a)). intros a Ha. apply D_scal. apply H; assumption.
Qed.
(** sums over the orbitals of one atom *)
Lemma csum_owned norb N o1 no I F : layout norb N o1 no -> (I < N)%nat ->
  csum norb (fun i => if owns o1 no I i then F i else c0) = csum (no I) (fun m => F (o1 I + m)%nat).
Proof.
  intros [H E] HI. pose proof (nsum_le (S I) N no HI) as L. cbn [nsum] in L. rewrite <- (H I HI) in L.
  replace norb with (o1 I + (no I + (norb - o1 I - no I)))%nat by lia. rewrite !csum_split.
  rewrite (csum_zero (o1 I)), (csum_zero (norb - o1 I - no I)).
  - replace (csum (no I) (fun i => if owns o1 no I (o1 I + i)%nat then F (o1 I + i)%nat else c0)) with (csum (no I) (fun m => F (o1 I + m)%nat)); [ring|].
    apply csum_ext'. intros m Hm. unfold owns. replace (o1 I <=? o1 I + m)%nat with true by (symmetry; apply Nat.leb_le; lia).
    replace (o1 I + m <? o1 I + no I)%nat with true by (symmetry; apply Nat.ltb_lt; lia). reflexivity.
  - intros i _. unfold owns. replace (o1 I + (no I + i) <? o1 I + no I)%nat with false by (symmetry; apply Nat.ltb_ge; lia).
    rewrite andb_false_r. reflexivity.
  - intros i Hi. unfold owns. replace (o1 I <=? i)%nat with false by (symmetry; apply Nat.leb_gt; lia). reflexivity.
Qed.
Lemma fst_double z : fst (cadd z (cconj z)) = 2 * fst z. Proof. cbn [cadd cconj fst]. ring. Qed.
Lemma bracket_moved norb N o1 no I dA v : layout norb N o1 no -> (I < N)%nat ->
  fst (bracket norb (moved_matrix o1 no I dA) v v) =
  2 * rsum (no I) (fun m => let i := (o1 I + m)%nat in fst (csum norb (fun j => cmul (dA i j) (cmul (v j) (cconj (v i)))))).
Proof.
  intros L HI. set (z := csum norb (fun i => if owns o1 no I i then csum norb (fun j => cmul (dA i j) (cmul (v j) (cconj (v i)))) else c0)).
  assert (E : bracket norb (moved_matrix o1 no I dA) v v = cadd z (cconj z)).
  { unfold bracket, moved_matrix.
    transitivity (cadd (csum norb (fun i => csum norb (fun j => if owns o1 no I i then cmul (dA i j) (cmul (v j) (cconj (v i))) else c0)))
                       (csum norb (fun i => csum norb (fun j => if owns o1 no I j then cmul (cconj (dA j i)) (cmul (v j) (cconj (v i))) else c0)))).
    { rewrite <- csum_add. apply csum_ext'; intros i _. rewrite <- csum_add. apply csum_ext'; intros j _.
      destruct (owns o1 no I i), (owns o1 no I j); ring. }
    f_equal.
    - unfold z. apply csum_ext'; intros i _. destruct (owns o1 no I i); [reflexivity|apply csum_zero; reflexivity].
    - unfold z. rewrite csum_conj, csum_swap. apply csum_ext'; intros i _. destruct (owns o1 no I i).
      + rewrite csum_conj. apply csum_ext'; intros j _. rewrite !cconj_mul, cconj_conj. ring.
      + rewrite csum_zero by reflexivity. apply cplx_eq; cbn; ring. }
  rewrite E, fst_double. f_equal. unfold z. rewrite (csum_owned norb N o1 no I _ L HI), csum_fst. reflexivity.
Qed.
Lemma csum_lin n c e x y : csum n (fun j => cscale c (csub (x j) (cscale e (y j)))) = cscale c (csub (csum n x) (cscale e (csum n y))).
Proof. induction n as [|n IH]; [apply cplx_eq; cbn; ring|]. rewrite !csum_S, IH, !cscale_rc. ring. Qed.
(** the force of one k-point, summed over the states *)
Lemma force_states norb N nk o1 no wk wf f e I dA dS : layout norb N o1 no -> (I < N)%nat ->
  band_structure_force norb nk o1 no wk dA dS (krho norb wf f) (krhoe norb wf f e) I =
  - state_sum norb nk wk f (fun k a => fst (bracket norb (moved_matrix o1 no I (dA k)) (wf k a) (wf k a))
                                       - e k a * fst (bracket norb (moved_matrix o1 no I (dS k)) (wf k a) (wf k a))).
Proof.
  intros L HI. unfold band_structure_force, fdiag, state_sum.
  transitivity (rsum nk (fun k => - (wk k * rsum norb (fun a => f k a * (2 * rsum (no I) (fun m => let i := (o1 I + m)%nat in
     fst (csum norb (fun j => cmul (dA k i j) (cmul (wf k a j) (cconj (wf k a i))))) - e k a * fst (csum norb (fun j => cmul (dS k i j) (cmul (wf k a j) (cconj (wf k a i))))))))))).
  2:{ rewrite <- rsum_opp. apply rsum_ext. intros k _. f_equal. f_equal. apply rsum_ext. intros a _. f_equal.
      rewrite !(bracket_moved norb N o1 no I _ _ L HI). cbv zeta. rewrite rsum_minus, rsum_scal. ring. }
  transitivity (2 * rsum (no I) (fun m => rsum nk (fun k => - wk k * rsum norb (fun a => f k a * (let i := (o1 I + m)%nat in
     fst (csum norb (fun j => cmul (dA k i j) (cmul (wf k a j) (cconj (wf k a i))))) - e k a * fst (csum norb (fun j => cmul (dS k i j) (cmul (wf k a j) (cconj (wf k a i)))))))))).
  - f_equal. apply rsum_ext. intros m _. cbv zeta. set (i := (o1 I + m)%nat). rewrite csum_fst. apply rsum_ext. intros k _.
    cbn [cscale fst]. f_equal.
    transitivity (fst (csum norb (fun a => cscale (f k a) (csub (csum norb (fun j => cmul (dA k i j) (cmul (wf k a j) (cconj (wf k a i)))))
        (cscale (e k a) (csum norb (fun j => cmul (dS k i j) (cmul (wf k a j) (cconj (wf k a i)))))))))).
    + f_equal. unfold krho, krhoe, compute_rho, compute_rhoe.
      transitivity (csum norb (fun j => csum norb (fun a => cscale (f k a) (csub (cmul (dA k i j) (cmul (wf k a j) (cconj (wf k a i))))
        (cscale (e k a) (cmul (dS k i j) (cmul (wf k a j) (cconj (wf k a i))))))))).
      { apply csum_ext'; intros j _. rewrite <- !csum_mul. unfold csub.
        replace (copp (csum norb (fun a => cmul (dS k i j) (cmul (wf k a j) (cscale (e k a * f k a) (cconj (wf k a i)))))))
          with (csum norb (fun a => cmul (copp c1) (cmul (dS k i j) (cmul (wf k a j) (cscale (e k a * f k a) (cconj (wf k a i))))))) by (rewrite csum_mul; ring).
        rewrite <- csum_add. apply csum_ext'; intros a _. rewrite !cscale_rc, rc_mul. ring. }
      rewrite csum_swap. apply csum_ext'; intros a _. apply csum_lin.
    + rewrite csum_fst. apply rsum_ext. intros a _. cbn [cscale fst csub cadd copp]. ring.
  - rewrite rsum_swap, <- rsum_scal. apply rsum_ext. intros k _. rewrite rsum_scal.
    rewrite rsum_swap. cbv zeta.
    replace (rsum norb (fun a => f k a * (2 * rsum (no I) (fun m => fst (csum norb (fun j => cmul (dA k (o1 I + m)%nat j) (cmul (wf k a j) (cconj (wf k a (o1 I + m)%nat))))) - e k a * fst (csum norb (fun j => cmul (dS k (o1 I + m)%nat j) (cmul (wf k a j) (cconj (wf k a (o1 I + m)%nat)))))))))
      with (2 * rsum norb (fun a => rsum (no I) (fun m => f k a * (fst (csum norb (fun j => cmul (dA k (o1 I + m)%nat j) (cmul (wf k a j) (cconj (wf k a (o1 I + m)%nat))))) - e k a * fst (csum norb (fun j => cmul (dS k (o1 I + m)%nat j) (cmul (wf k a j) (cconj (wf k a (o1 I + m)%nat)))))))));
      [ring|]. rewrite <- rsum_scal. apply rsum_ext. intros a _. rewrite rsum_scal. ring.
Qed.
(** populations are differentiable *)
Lemma CD_scal c f t x : cderivative f t x -> cderivative (fun s => cscale c (f s)) t (cscale c x).
Proof. intros [A B]. split; cbn [cscale fst snd]; apply D_scal; assumption. Qed.
Lemma D_population norb nk o1 no wk (wf : R -> nat -> nat -> nat -> cplx) f (S : R -> kmatrix) t wf' S' I :
  (forall m, (m < no I)%nat -> (o1 I + m < norb)%nat) ->
  (forall k a, (k < nk)%nat -> (a < norb)%nat -> vector_derivative norb (fun s => wf s k a) t (wf' k a)) ->
  (forall k, (k < nk)%nat -> matrix_derivative norb (fun s => S s k) t (S' k)) ->
  exists d, derivable_pt_lim (fun s => atom_mulliken norb nk o1 no wk (krho norb (wf s) f) (S s) I) t d.
Proof.
  intros HI Dw DS. eexists. unfold atom_mulliken, atom_sum, diag.
  apply (D_rsum (no I) (fun m s => rsum nk (fun k => wk k * diag_k norb (krho norb (wf s) f k) (S s k) (o1 I + m)%nat))). intros m Hm.
  apply (D_rsum nk (fun k s => wk k * diag_k norb (krho norb (wf s) f k) (S s k) (o1 I + m)%nat)). intros k Hk. apply D_scal.
  unfold diag_k. refine (CD_fst (fun s => csum norb (fun j => cmul (krho norb (wf s) f k (o1 I + m)%nat j) (S s k j (o1 I + m)%nat))) t _ _).
  apply (CD_sum norb (fun j s => cmul (krho norb (wf s) f k (o1 I + m)%nat j) (S s k j (o1 I + m)%nat))). intros j Hj.
  apply (CD_mul (fun s => krho norb (wf s) f k (o1 I + m)%nat j) (fun s => S s k j (o1 I + m)%nat)).
  2:{ apply (DS k Hk); [exact Hj|apply HI; exact Hm]. }
  unfold krho, compute_rho. apply (CD_sum norb (fun a s => cmul (wf s k a (o1 I + m)%nat) (cscale (f k a) (cconj (wf s k a j))))). intros a Ha.
  apply (CD_mul (fun s => wf s k a (o1 I + m)%nat) (fun s => cscale (f k a) (cconj (wf s k a j)))).
  - apply (Dw k a Hk Ha). apply HI. exact Hm.
  - apply (CD_scal (f k a) (fun s => cconj (wf s k a j))). apply (CD_conj (fun s => wf s k a j)). apply (Dw k a Hk Ha). exact Hj.
Qed.
(** ** quadratic form of the charges *)
Lemma D_quadratic N (q : R -> nat -> R) (W : R -> nat -> nat -> R) t q' W' :
  (forall I, (I < N)%nat -> derivable_pt_lim (fun s => q s I) t (q' I)) ->
  (forall I J, (I < N)%nat -> (J < N)%nat -> derivable_pt_lim (fun s => W s I J) t (W' I J)) ->
  (forall I J, (I < N)%nat -> (J < N)%nat -> W t I J = W t J I) ->
  derivable_pt_lim (fun s => / 2 * rsum N (fun I => q s I * rsum N (fun J => W s I J * q s J))) t
    (rsum N (fun I => rsum N (fun J => W t I J * q t J) * q' I) + / 2 * rsum N (fun I => q t I * rsum N (fun J => W' I J * q t J))).
Proof.
  intros Dq DW Hs.
  eapply D_rew.
  - apply D_scal. apply (D_rsum N (fun I s => q s I * rsum N (fun J => W s I J * q s J))). intros I HI.
    apply (derivable_pt_lim_mult (fun s => q s I) (fun s => rsum N (fun J => W s I J * q s J))); [apply Dq; exact HI|].
    apply (D_rsum N (fun J s => W s I J * q s J)). intros J HJ.
    apply (derivable_pt_lim_mult (fun s => W s I J) (fun s => q s J)); [apply DW; assumption|apply Dq; exact HJ].
  - cbv beta.
    assert (A : rsum N (fun I => q t I * rsum N (fun J => W' I J * q t J + W t I J * q' J)) =
      rsum N (fun I => q t I * rsum N (fun J => W' I J * q t J)) + rsum N (fun I => rsum N (fun J => W t I J * q t J) * q' I)).
    { transitivity (rsum N (fun I => q t I * rsum N (fun J => W' I J * q t J)) + rsum N (fun I => rsum N (fun J => q t I * (W t I J * q' J)))).
      { rewrite <- rsum_plus. apply rsum_ext. intros I _. rewrite rsum_plus, rsum_scal. ring. }
      f_equal. rewrite rsum_swap. apply rsum_ext. intros I HI. rewrite <- rsum_scal_r. apply rsum_ext. intros J HJ. rewrite (Hs J I HJ HI). ring. }
    rewrite rsum_plus, A. 
    replace (rsum N (fun i => q' i * rsum N (fun J => W t i J * q t J))) with (rsum N (fun I => rsum N (fun J => W t I J * q t J) * q' I)); [lra|].
    apply rsum_ext. intros; ring.
Qed.
Lemma gamma_moved N (q : nat -> R) dG I : (I < N)%nat ->
  / 2 * rsum N (fun J => q J * rsum N (fun K => moved_gamma I dG J K * q K)) = - (q I * rsum N (fun K => q K * dG I K)).
Proof.
  intros HI. set (X := rsum N (fun K => q K * dG I K)).
  assert (A : forall J, (J < N)%nat -> rsum N (fun K => moved_gamma I dG J K * q K) = - ((if (J =? I)%nat then X else 0) + dG I J * q I)).
  { intros J HJ. unfold moved_gamma.
    transitivity (- (rsum N (fun K => (if (J =? I)%nat then dG I K else 0) * q K) + rsum N (fun K => (if (K =? I)%nat then dG I J else 0) * q K))).
    { rewrite <- rsum_plus, <- rsum_opp. apply rsum_ext. intros; ring. }
    f_equal. f_equal.
    - destruct (J =? I)%nat; [apply rsum_ext; intros; ring|]. apply rsum_eq0. intros; ring.
    - rewrite (rsum_single N I); [rewrite Nat.eqb_refl; reflexivity|exact HI|]. intros K _ HK.
      replace (K =? I)%nat with false by (symmetry; apply Nat.eqb_neq; exact HK). ring. }
  transitivity (/ 2 * rsum N (fun J => - ((if (J =? I)%nat then q J * X else 0) + q I * (q J * dG I J)))).
  { f_equal. apply rsum_ext. intros J HJ. rewrite (A J HJ). destruct (J =? I)%nat; ring. }
  rewrite rsum_opp, rsum_plus, rsum_scal. fold X.
  rewrite (rsum_single N I); [rewrite Nat.eqb_refl; lra|exact HI|]. intros K _ HK.
  replace (K =? I)%nat with false by (symmetry; apply Nat.eqb_neq; exact HK). reflexivity.
Qed.
Lemma h1_sym N o1 no eps ext i j : construct_h1 N o1 no eps ext i j = construct_h1 N o1 no eps ext j i.
Proof. unfold construct_h1. destruct (existsb _ _); ring. Qed.

Lemma owned_in norb N o1 no I m : layout norb N o1 no -> (I < N)%nat -> (m < no I)%nat -> (o1 I + m < norb)%nat.
Proof. intros L HI Hm. apply (belongs_lt norb N o1 no _ I L HI). split; lia. Qed.

(** derivative of the frozen-potential energy *)
Lemma D_frozen norb nk wk (wf : R -> nat -> nat -> nat -> cplx) f e (H0 S : R -> kmatrix) h1 H' S' wf' t :
  (forall i j, h1 i j = h1 j i) -> khermitian norb nk (H0 t) -> khermitian norb nk (S t) -> (forall s, normalised norb nk (S s) (wf s)) ->
  (forall k a, (k < nk)%nat -> (a < norb)%nat -> vector_derivative norb (fun s => wf s k a) t (wf' k a)) ->
  (forall k, (k < nk)%nat -> matrix_derivative norb (fun s => H0 s k) t (H' k)) ->
  (forall k, (k < nk)%nat -> matrix_derivative norb (fun s => S s k) t (S' k)) ->
  (forall k a, (k < nk)%nat -> (a < norb)%nat -> eigenstate norb (H0 t k) (S t k) h1 (wf t k a) (e k a)) ->
  derivable_pt_lim (fun s => state_sum norb nk wk f (fun k a => fst (bracket norb (fun i j => cadd (H0 s k i j) (cscale (h1 i j) (S s k i j))) (wf s k a) (wf s k a)))) t
    (state_sum norb nk wk f (fun k a => fst (bracket norb (fun i j => cadd (H' k i j) (cscale (h1 i j) (S' k i j))) (wf t k a) (wf t k a))
       - e k a * fst (bracket norb (S' k) (wf t k a) (wf t k a)))).
Proof.
  intros Hh HH HS Hn Dw DH DS HE.
  apply (D_state_sum norb nk wk f (fun s k a => fst (bracket norb (fun i j => cadd (H0 s k i j) (cscale (h1 i j) (S s k i j))) (wf s k a) (wf s k a)))).
  intros k a Hk Ha.
  assert (K := hellmann_feynman norb (fun s => H0 s k) (fun s => S s k) h1 (fun s => wf s k a) t (H' k) (S' k) (wf' k a) (e k a)
     (HH k Hk) (HS k Hk) Hh (DH k Hk) (DS k Hk) (Dw k a Hk Ha) (fun s => Hn s k a Hk Ha) (HE k a Hk Ha)).
  apply CD_fst in K. eapply D_rew; [exact K|]. cbn [csub cadd copp cscale fst]. ring.
Qed.
Lemma moved_scc norb N (o1 no : nat -> nat) I eps ext (dH0 dS : kmatrix) k v : 
  bracket norb (fun i j => cadd (moved_matrix o1 no I (dH0 k) i j) (cscale (construct_h1 N o1 no eps ext i j) (moved_matrix o1 no I (dS k) i j))) v v
  = bracket norb (moved_matrix o1 no I (dH_scc true (construct_h1 N o1 no eps ext) dH0 dS k)) v v.
Proof.
  unfold bracket. apply csum_ext'; intros i _. apply csum_ext'; intros j _. f_equal. f_equal. unfold moved_matrix, dH_scc.
  destruct (owns o1 no I i), (owns o1 no I j); rewrite ?cconj_add, ?cscale_rc, ?cconj_mul, ?cconj_rc, ?(h1_sym N o1 no eps ext j i); ring.
Qed.

Lemma aux_minus o1 no n v w mu : aux_rows o1 no n (fun J => v J - w J) mu = aux_rows o1 no n v mu - aux_rows o1 no n w mu.
Proof. induction n as [|n IH]; cbn [aux_rows]; [ring|]. destruct (_ && _)%bool; [reflexivity|exact IH]. Qed.
Lemma aux_zero o1 no n v mu : (forall J, (J < n)%nat -> v J = 0) -> aux_rows o1 no n v mu = 0.
Proof. induction n as [|n IH]; intros H; cbn [aux_rows]; [reflexivity|]. destruct (_ && _)%bool; [apply H; lia|apply IH; intros; apply H; lia]. Qed.
Lemma with_ext N (o1 no : nat -> nat) eps ext mu nu :
  ((forall J, (J < N)%nat -> ext J = 0) \/ exists J, (J < N)%nat /\ / 10 ^ 12 < Rabs (ext J)) ->
  construct_h1 N o1 no eps ext mu nu = / 2 * (aux_rows o1 no N (fun J => eps J - ext J) mu + aux_rows o1 no N (fun J => eps J - ext J) nu).
Proof.
  intros [H|[J [HJ H]]].
  - rewrite (no_ext N o1 no eps ext mu nu H), !aux_minus, !(aux_zero o1 no N ext) by exact H. ring.
  - unfold construct_h1. assert (E : existsb (fun I => ltb (/ 10 ^ 12) (Rabs (ext I))) (seq 0 N) = true).
    { apply existsb_exists. exists J. split; [apply in_seq; lia|]. apply ltb_true. exact H. }
    rewrite E, !aux_minus. ring.
Qed.
Lemma scc_force_ext norb N nk o1 no val wk (wf : R -> nat -> nat -> nat -> cplx) f e (H0 S : R -> kmatrix) (G P : R -> nat -> nat -> R) ext wf' dH0 dS dG dP I :
  layout norb N o1 no -> (I < N)%nat ->
  (forall s, khermitian norb nk (H0 s)) -> (forall s, khermitian norb nk (S s)) -> (forall s, normalised norb nk (S s) (wf s)) ->
  (forall J K, (J < N)%nat -> (K < N)%nat -> G 0 J K = G 0 K J /\ P 0 J K = P 0 K J) -> ((forall J, (J < N)%nat -> ext J = 0) \/ exists J, (J < N)%nat /\ / 10 ^ 12 < Rabs (ext J)) ->
  (forall k a, (k < nk)%nat -> (a < norb)%nat -> vector_derivative norb (fun s => wf s k a) 0 (wf' k a)) ->
  (forall k, (k < nk)%nat -> matrix_derivative norb (fun s => H0 s k) 0 (moved_matrix o1 no I (dH0 k))) ->
  (forall k, (k < nk)%nat -> matrix_derivative norb (fun s => S s k) 0 (moved_matrix o1 no I (dS k))) ->
  (forall J K, (J < N)%nat -> (K < N)%nat -> derivable_pt_lim (fun s => G s J K) 0 (moved_gamma I dG J K)) ->
  (forall J K, (J < N)%nat -> (K < N)%nat -> derivable_pt_lim (fun s => P s J K) 0 (moved_gamma I dP J K)) ->
  let dq := dq_states norb nk o1 no val wk (wf 0) f (S 0) in
  let h1 := construct_h1 N o1 no (eps_states norb N nk o1 no val wk (wf 0) f (S 0) (G 0) (P 0)) ext in
  (forall k a, (k < nk)%nat -> (a < norb)%nat -> eigenstate norb (H0 0 k) (S 0 k) h1 (wf 0 k a) (e k a)) ->
  derivable_pt_lim (fun s => scc_energy norb N nk o1 no val wk (wf s) f (H0 s) (S s) (G s) (P s)
      - rsum N (fun J => ext J * atom_mulliken norb nk o1 no wk (krho norb (wf s) f) (S s) J)) 0
    (- (band_structure_force norb nk o1 no wk (dH_scc true h1 dH0 dS) dS (krho norb (wf 0) f) (krhoe norb (wf 0) f e) I
        + gamma_force N true dq dG (fun J => rsum N (fun K => dq K * dP J K)) I)).
Proof.
  intros L HI HH HS Hn Hsym Hext Dw DH DS DG DP dq h1 HE.
  set (eps := eps_states norb N nk o1 no val wk (wf 0) f (S 0) (G 0) (P 0)) in *.
  (* populations *)
  set (q := fun s J => dq_states norb nk o1 no val wk (wf s) f (S s) J).
  assert (DQ : forall n, (n <= N)%nat -> exists q', forall J, (J < n)%nat -> derivable_pt_lim (fun s => atom_mulliken norb nk o1 no wk (krho norb (wf s) f) (S s) J) 0 (q' J)).
  { induction n as [|n IH]; intros Hle; [exists (fun _ => 0); intros; lia|].
    destruct (IH ltac:(lia)) as [q' Hq]. 
    destruct (D_population norb nk o1 no wk wf f S 0 wf' (fun k => moved_matrix o1 no I (dS k)) n) as [d Hd]; try assumption.
    { intros m Hm. apply (owned_in norb N o1 no n m L); [lia|exact Hm]. }
    exists (fun J => if (J =? n)%nat then d else q' J). intros J HJ. destruct (Nat.eqb_spec J n) as [->|Hne]; [exact Hd|apply Hq; lia]. }
  destruct (DQ N ltac:(lia)) as [q' Hq'].
  assert (Hq : forall J, (J < N)%nat -> derivable_pt_lim (fun s => q s J) 0 (q' J)).
  { intros J HJ. unfold q, dq_states, dq_of. eapply D_rew.
    - apply (derivable_pt_lim_minus (fun s => atom_sum o1 no (diag norb nk wk (krho norb (wf s) f) (S s)) J) (fun _ => val J)); [apply Hq'; exact HJ|apply derivable_pt_lim_const].
    - ring. }
  (* frozen potential *)
  assert (F := D_frozen norb nk wk wf f e H0 S h1 (fun k => moved_matrix o1 no I (dH0 k)) (fun k => moved_matrix o1 no I (dS k)) wf' 0
     (fun i j => h1_sym N o1 no eps ext i j) (HH 0) (HS 0) Hn Dw DH DS HE).
  assert (FE : forall s, state_sum norb nk wk f (fun k a => fst (bracket norb (fun i j => cadd (H0 s k i j) (cscale (h1 i j) (S s k i j))) (wf s k a) (wf s k a)))
     = fst (ebs_c norb nk wk (krho norb (wf s) f) (H0 s)) + rsum N (fun J => (eps J - ext J) * atom_mulliken norb nk o1 no wk (krho norb (wf s) f) (S s) J)).
  { intros s. rewrite <- (shift_energy norb N nk o1 no wk (wf s) f (S s) (fun J => eps J - ext J) L (HS s)).
    rewrite ebs_states. change (fst (csum nk (fun k => cscale (wk k) (csum norb (fun a => cscale (f k a) (bracket norb (H0 s k) (wf s k a) (wf s k a)))))))
      with (state_sum norb nk wk f (fun k a => fst (bracket norb (H0 s k) (wf s k a) (wf s k a)))).
    rewrite <- state_sum_plus. apply state_sum_ext. intros k a Hk Ha. rewrite bracket_add, fst_add. f_equal. f_equal.
    unfold bracket. apply csum_ext'; intros i _. apply csum_ext'; intros j _. unfold h1. rewrite (with_ext N o1 no eps ext i j Hext). reflexivity. }
  assert (D1 : derivable_pt_lim (fun s => fst (ebs_c norb nk wk (krho norb (wf s) f) (H0 s))) 0
     (state_sum norb nk wk f (fun k a => fst (bracket norb (moved_matrix o1 no I (dH_scc true h1 dH0 dS k)) (wf 0 k a) (wf 0 k a))
       - e k a * fst (bracket norb (moved_matrix o1 no I (dS k)) (wf 0 k a) (wf 0 k a))) - rsum N (fun J => (eps J - ext J) * q' J))).
  { eapply D_ext; [|eapply D_rew].
    2:{ apply (derivable_pt_lim_minus _ (fun s => rsum N (fun J => (eps J - ext J) * atom_mulliken norb nk o1 no wk (krho norb (wf s) f) (S s) J)) _ _ (rsum N (fun J => (eps J - ext J) * q' J)) F).
        apply (D_rsum N (fun J s => (eps J - ext J) * atom_mulliken norb nk o1 no wk (krho norb (wf s) f) (S s) J)). intros J HJ. apply D_scal. apply Hq'. exact HJ. }
    - intros s. unfold minus_fct. rewrite FE. ring.
    - f_equal. apply state_sum_ext. intros k a _ _. unfold h1. rewrite moved_scc. reflexivity. }
  (* Coulomb energy *)
  assert (D2 := D_quadratic N q (fun s J K => G s J K + P s J K) 0 q' (fun J K => moved_gamma I dG J K + moved_gamma I dP J K) Hq).
  specialize (D2 (fun J K HJ HK => derivable_pt_lim_plus (fun s => G s J K) (fun s => P s J K) _ _ _ (DG J K HJ HK) (DP J K HJ HK))).
  cbv beta in D2. specialize (D2 (fun J K HJ HK => f_equal2 Rplus (proj1 (Hsym J K HJ HK)) (proj2 (Hsym J K HJ HK)))).
  assert (Q2 : forall s, / 2 * rsum N (fun J => q s J * rsum N (fun K => (G s J K + P s J K) * q s K)) =
     coulomb_energy N true (dq_states norb nk o1 no val wk (wf s) f (S s)) (eps_states norb N nk o1 no val wk (wf s) f (S s) (G s) (P s))).
  { intros s. unfold coulomb_energy, eps_states, epsilon. cbv zeta. f_equal. apply rsum_ext. intros J _. unfold q. f_equal.
    rewrite <- rsum_plus. apply rsum_ext. intros; ring. }
  assert (D3 : derivable_pt_lim (fun s => rsum N (fun J => ext J * atom_mulliken norb nk o1 no wk (krho norb (wf s) f) (S s) J)) 0 (rsum N (fun J => ext J * q' J))).
  { apply (D_rsum N (fun J s => ext J * atom_mulliken norb nk o1 no wk (krho norb (wf s) f) (S s) J)). intros J HJ. apply D_scal. apply Hq'. exact HJ. }
  unfold scc_energy. eapply D_rew.
  - refine (derivable_pt_lim_minus _ (fun s => rsum N (fun J => ext J * atom_mulliken norb nk o1 no wk (krho norb (wf s) f) (S s) J)) 0 _ _ _ D3).
    apply (derivable_pt_lim_plus (fun s => fst (ebs_c norb nk wk (krho norb (wf s) f) (H0 s)))
      (fun s => coulomb_energy N true (dq_states norb nk o1 no val wk (wf s) f (S s)) (eps_states norb N nk o1 no val wk (wf s) f (S s) (G s) (P s))) 0 _ _ D1 (D_ext _ _ _ _ Q2 D2)).
  - rewrite (force_states norb N nk o1 no wk (wf 0) f e I _ _ L HI).
    assert (E1 : rsum N (fun J => rsum N (fun K => (G 0 J K + P 0 J K) * q 0 K) * q' J) = rsum N (fun J => eps J * q' J)).
    { apply rsum_ext. intros J _. f_equal. unfold eps, eps_states, epsilon. cbv zeta. rewrite <- rsum_plus. apply rsum_ext. intros K _. unfold q. ring. }
    rewrite E1.
    assert (E2 : / 2 * rsum N (fun J => q 0 J * rsum N (fun K => (moved_gamma I dG J K + moved_gamma I dP J K) * q 0 K)) =
       - gamma_force N true dq dG (fun J => rsum N (fun K => dq K * dP J K)) I).
    { unfold gamma_force. transitivity (/ 2 * rsum N (fun J => q 0 J * rsum N (fun K => moved_gamma I dG J K * q 0 K)) + / 2 * rsum N (fun J => q 0 J * rsum N (fun K => moved_gamma I dP J K * q 0 K))).
      - rewrite <- Rmult_plus_distr_l, <- rsum_plus. f_equal. apply rsum_ext. intros J _. rewrite <- Rmult_plus_distr_l, <- rsum_plus. f_equal. apply rsum_ext. intros; ring.
      - rewrite !(gamma_moved N (q 0) _ I HI). unfold dq, q. ring. }
    assert (E3 : rsum N (fun J => (eps J - ext J) * q' J) = rsum N (fun J => eps J * q' J) - rsum N (fun J => ext J * q' J)).
    { rewrite <- rsum_minus. apply rsum_ext. intros; ring. }
    rewrite E2, E3. ring.
Qed.
Lemma scc_force norb N nk o1 no val wk (wf : R -> nat -> nat -> nat -> cplx) f e (H0 S : R -> kmatrix) (G P : R -> nat -> nat -> R) wf' dH0 dS dG dP I :
  layout norb N o1 no -> (I < N)%nat ->
  (forall s, khermitian norb nk (H0 s)) -> (forall s, khermitian norb nk (S s)) -> (forall s, normalised norb nk (S s) (wf s)) ->
  (forall J K, (J < N)%nat -> (K < N)%nat -> G 0 J K = G 0 K J /\ P 0 J K = P 0 K J) ->
  (forall k a, (k < nk)%nat -> (a < norb)%nat -> vector_derivative norb (fun s => wf s k a) 0 (wf' k a)) ->
  (forall k, (k < nk)%nat -> matrix_derivative norb (fun s => H0 s k) 0 (moved_matrix o1 no I (dH0 k))) ->
  (forall k, (k < nk)%nat -> matrix_derivative norb (fun s => S s k) 0 (moved_matrix o1 no I (dS k))) ->
  (forall J K, (J < N)%nat -> (K < N)%nat -> derivable_pt_lim (fun s => G s J K) 0 (moved_gamma I dG J K)) ->
  (forall J K, (J < N)%nat -> (K < N)%nat -> derivable_pt_lim (fun s => P s J K) 0 (moved_gamma I dP J K)) ->
  let dq := dq_states norb nk o1 no val wk (wf 0) f (S 0) in
  let h1 := construct_h1 N o1 no (eps_states norb N nk o1 no val wk (wf 0) f (S 0) (G 0) (P 0)) (fun _ => 0) in
  (forall k a, (k < nk)%nat -> (a < norb)%nat -> eigenstate norb (H0 0 k) (S 0 k) h1 (wf 0 k a) (e k a)) ->
  derivable_pt_lim (fun s => scc_energy norb N nk o1 no val wk (wf s) f (H0 s) (S s) (G s) (P s)) 0
    (- (band_structure_force norb nk o1 no wk (dH_scc true h1 dH0 dS) dS (krho norb (wf 0) f) (krhoe norb (wf 0) f e) I
        + gamma_force N true dq dG (fun J => rsum N (fun K => dq K * dP J K)) I)).
Proof.
  intros L HI HH HS Hn Hsym Dw DH DS DG DP dq h1 HE.
  eapply D_ext; [|apply (scc_force_ext norb N nk o1 no val wk wf f e H0 S G P (fun _ => 0) wf' dH0 dS dG dP I L HI HH HS Hn Hsym (or_introl (fun _ _ => eq_refl)) Dw DH DS DG DP HE)].
  intros s. cbv beta. rewrite (rsum_eq0 N); [ring|]. intros; ring.
Qed.
Lemma nonscc_force norb N nk o1 no wk (wf : R -> nat -> nat -> nat -> cplx) f e (H0 S : R -> kmatrix) wf' dH0 dS I :
  layout norb N o1 no -> (I < N)%nat ->
  khermitian norb nk (H0 0) -> khermitian norb nk (S 0) -> (forall s, normalised norb nk (S s) (wf s)) ->
  (forall k a, (k < nk)%nat -> (a < norb)%nat -> vector_derivative norb (fun s => wf s k a) 0 (wf' k a)) ->
  (forall k, (k < nk)%nat -> matrix_derivative norb (fun s => H0 s k) 0 (moved_matrix o1 no I (dH0 k))) ->
  (forall k, (k < nk)%nat -> matrix_derivative norb (fun s => S s k) 0 (moved_matrix o1 no I (dS k))) ->
  (forall k a, (k < nk)%nat -> (a < norb)%nat -> eigenstate norb (H0 0 k) (S 0 k) (fun _ _ => 0) (wf 0 k a) (e k a)) ->
  derivable_pt_lim (fun s => fst (ebs_c norb nk wk (krho norb (wf s) f) (H0 s))) 0
    (- band_structure_force norb nk o1 no wk (dH_scc false (fun _ _ => 0) dH0 dS) dS (krho norb (wf 0) f) (krhoe norb (wf 0) f e) I).
Proof.
  intros L HI HH HS Hn Dw DH DS HE.
  assert (F := D_frozen norb nk wk wf f e H0 S (fun _ _ => 0) (fun k => moved_matrix o1 no I (dH0 k)) (fun k => moved_matrix o1 no I (dS k)) wf' 0
     (fun i j => eq_refl) HH HS Hn Dw DH DS HE).
  assert (Z : forall A B v, bracket norb (fun i j => cadd (A i j) (cscale 0 (B i j))) v v = bracket norb A v v).
  { intros A B v. unfold bracket. apply csum_ext'; intros i _. apply csum_ext'; intros j _. f_equal. f_equal. apply cplx_eq; cbn [cadd cscale fst snd]; ring. }
  eapply D_ext; [|eapply D_rew; [exact F|]].
  - intros s. cbv beta. rewrite ebs_states. 
    transitivity (state_sum norb nk wk f (fun k a => fst (bracket norb (H0 s k) (wf s k a) (wf s k a)))); [|reflexivity].
    apply state_sum_ext. intros k a _ _. rewrite Z. reflexivity.
  - cbv beta. rewrite (force_states norb N nk o1 no wk (wf 0) f e I _ _ L HI). rewrite Ropp_involutive.
    apply state_sum_ext. intros k a _ _. rewrite Z. reflexivity.
Qed.
