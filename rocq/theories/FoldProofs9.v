From Coq Require Import Reals ZArith List Bool Arith Lia Lra FunctionalExtensionality.
From Verif Require Import Vec GeomModel GeomSpec GeomProofs CoulModel PairModel PairSpec PairProofs SkModel SkSpec SkProofs SkProofs2 SkProofs3 SkProofs4 SkProofs5 SkProofs6 SkProofs7 Cpx RhoModel RhoSpec RhoProofs InvModel InvSpec InvLin InvProofs InvProofs5 InvProofs6 InvProofs7 InvProofs8 GamModel InvProofs9 InvProofs10 InvProofs11 FoldSpec FoldProofs FoldProofs5 FoldProofs6.
Import ListNotations.
Open Scope R_scope.

Lemma zrange_NoDup a b : NoDup (zrange a b).
Proof. unfold zrange. apply NoDup_map'; [intros x y E; lia|apply seq_NoDup]. Qed.
Lemma flat_map_NoDup {A B} (f : A -> list B) l : NoDup l -> (forall x, In x l -> NoDup (f x)) -> (forall x y b, In b (f x) -> In b (f y) -> x = y) -> NoDup (flat_map f l).
Proof.
  intros N H K. induction N as [|a l Ha N IH]; [constructor|]. cbn [flat_map]. apply NoDup_app'; [apply H; left; reflexivity|apply IH; intros x Hx; apply H; right; exact Hx|].
  intros b Hb I. apply in_flat_map in I. destruct I as (y & Hy & I). rewrite (K a y b Hb I) in Ha. contradiction.
Qed.
Lemma triples_NoDup l1 l2 l3 : NoDup l1 -> NoDup l2 -> NoDup l3 -> NoDup (triples l1 l2 l3).
Proof.
  intros N1 N2 N3. unfold triples. apply flat_map_NoDup; [exact N1| |].
  - intros a _. apply flat_map_NoDup; [exact N2| |].
    + intros b _. apply NoDup_map'; [intros x y E; congruence|exact N3].
    + intros x y b I J. apply in_map_iff in I, J. destruct I as (z & E & _), J as (z' & E' & _). congruence.
  - intros x y b I J. apply in_flat_map in I, J. destruct I as (z & _ & I), J as (z' & _ & J). apply in_map_iff in I, J. destruct I as (u & E & _), J as (u' & E' & _). congruence.
Qed.
Lemma scan_NoDup cut s cs : scan cut s = Some cs -> NoDup cs.
Proof.
  unfold scan. destruct s as [[s1 s2] s3]. destruct cut as [k|].
  - intros E. injection E as <-. destruct s1 as [[?|] [?|]], s2 as [[?|] [?|]], s3 as [[?|] [?|]]; cbn [n_from_range fst snd]; apply triples_NoDup; apply zrange_NoDup.
  - destruct (is_cluster _); [|discriminate]. intros E. injection E as <-. destruct s1 as [[?|] [?|]], s2 as [[?|] [?|]], s3 as [[?|] [?|]]; cbn [n_from_range fst snd]; apply triples_NoDup; apply zrange_NoDup.
Qed.
Definition nbs (g : structure) (cut : option R) (cs : list cell) : list neighbour := flat_map (cell_neighbours (g_N g) (g_r g) (g_tr0 g) (g_rot g) cut) cs.
(** the neighbours of one atom *)
Lemma row_sum g cut cs i (F : neighbour -> R) : (i < g_N g)%nat -> lsum (fun b => if (nb_i b =? i)%nat then F b else 0) (nbs g cut cs) =
  lsum (fun cl => rsum (g_N g) (fun j => if mask (g_r g) (g_tr0 g) (g_rot g) cut cl i j then F (listed (g_r g) (g_tr0 g) (g_rot g) cl i j) else 0)) cs.
Proof.
  intros Hi. unfold nbs. rewrite lsum_flat. apply lsum_ext. intros cl. rewrite cell_sum. rewrite (rsum_single (g_N g) i); [|exact Hi|].
  - apply rsum_ext. intros j _. cbn [nb_i]. rewrite Nat.eqb_refl. reflexivity.
  - intros i' _ Ne. apply rsum_eq0. intros j _. cbn [nb_i]. destruct (Nat.eqb_spec i' i); [contradiction|]. destruct (mask _ _ _ _ _ _ _); reflexivity.
Qed.
Lemma pick_sum N (l : list neighbour) i (A : neighbour -> R) (u : vec) : (forall b, In b l -> (nb_j b < N)%nat) ->
  rsum N (fun J => lsum (fun b => if ((i =? nb_i b) && (J =? nb_j b))%nat then A b else 0) l * u J) = lsum (fun b => if (nb_i b =? i)%nat then A b * u (nb_j b) else 0) l.
Proof.
  induction l as [|b l IH]; intros H; cbn [lsum]; [apply rsum_eq0; intros; ring|]. rewrite <- IH by (intros; apply H; right; assumption).
  rewrite (rsum_ext N _ (fun J => (if ((i =? nb_i b) && (J =? nb_j b))%nat then A b else 0) * u J + lsum (fun b => if ((i =? nb_i b) && (J =? nb_j b))%nat then A b else 0) l * u J)) by (intros; ring).
  rewrite rsum_plus. f_equal. rewrite (Nat.eqb_sym (nb_i b) i). destruct (i =? nb_i b)%nat; cbn [andb]; [|apply rsum_eq0; intros; ring].
  rewrite (rsum_single N (nb_j b)); [rewrite Nat.eqb_refl; reflexivity|apply H; left; reflexivity|]. intros J _ Ne. destruct (Nat.eqb_spec J (nb_j b)); [contradiction|]. ring.
Qed.
Lemma nbs_atoms g cut cs b : In b (nbs g cut cs) -> (nb_i b < g_N g)%nat /\ (nb_j b < g_N g)%nat.
Proof. intros H. apply in_neighbours in H. destruct H as (c & i & j & _ & Hi & Hj & _ & ->). cbn [nb_i nb_j]. auto. Qed.
Lemma rmin_repeated m N u v : (0 < m)%nat -> (0 < N)%nat -> repeated m N u v -> rmin (m * N - 1) v = rmin (N - 1) u.
Proof.
  intros Hm HN H. apply Rle_antisym.
  - destruct (rmin_in (N - 1) u) as (i & Hi & ->). rewrite <- (H 0%nat i) by lia. apply rmin_le. nia.
  - destruct (rmin_in (m * N - 1) v) as (q & Hq & ->). destruct (pair_inv m N q ltac:(nia)) as (c & i & Hc & Hi & ->). rewrite H by assumption. apply rmin_le. lia.
Qed.
Lemma rmax_repeated m N u v : (0 < m)%nat -> (0 < N)%nat -> repeated m N u v -> rmaxn (m * N - 1) v = rmaxn (N - 1) u.
Proof.
  intros Hm HN H. apply Rle_antisym.
  - destruct (rmax_in (m * N - 1) v) as (q & Hq & ->). destruct (pair_inv m N q ltac:(nia)) as (c & i & Hc & Hi & ->). rewrite H by assumption. apply rmax_le. lia.
  - destruct (rmax_in (N - 1) u) as (i & Hi & ->). rewrite <- (H 0%nat i) by lia. apply rmax_le. nia.
Qed.
Section Cells.
Context (m : nat) (W : nat -> m3) (v : nat -> v3) (w : nat -> nat -> cell -> option cell) (cut : option R) (g h : structure) (cs cs' : list cell).
Context (T : copied_cells m W v w cut g h cs cs') (Hm : (0 < m)%nat) (HN : (0 < g_N g)%nat) (HNh : g_N h = (m * g_N g)%nat) (HW : forall c, (c < m)%nat -> orthogonal (W c)).
Context (Hr : forall c I, (c < m)%nat -> (I < g_N g)%nat -> g_r h (c * g_N g + I)%nat = vadd (mv (W c) (g_r g I)) (v c)).
Let N := g_N g.
Lemma drv_copy c P n c' I J : (c < m)%nat -> (c' < m)%nat -> In P cs' -> w c c' P = Some n -> (I < N)%nat -> (J < N)%nat ->
  drv (g_r h) (g_tr0 h) (g_rot h) P (c * N + I)%nat (c' * N + J)%nat = mv (W c) (drv (g_r g) (g_tr0 g) (g_rot g) n I J).
Proof.
  intros Hc Hc' HP E HI HJ. destruct (t_cell _ _ _ _ _ _ _ _ _ T c c' P n Hc Hc' HP E) as (_ & EO & Et). unfold drv, GamModel.image, N. rewrite (Hr c I Hc HI), (Hr c' J Hc' HJ). rewrite mv_sub, !mv_add.
  rewrite <- (mv_mm (g_rot h P)), EO, mv_mm. set (A := mv (W c) (mv (g_rot g n) (g_r g J))). set (B := mv (g_rot h P) (v c')) in *. set (B' := mv (W c) (g_tr0 g n)) in *. set (A' := mv (W c) (g_r g I)).
  assert (Ex : vx B + vx (g_tr0 h P) = vx B' + vx (v c)) by (apply (f_equal vx) in Et; exact Et). assert (Ey : vy B + vy (g_tr0 h P) = vy B' + vy (v c)) by (apply (f_equal vy) in Et; exact Et). assert (Ez : vz B + vz (g_tr0 h P) = vz B' + vz (v c)) by (apply (f_equal vz) in Et; exact Et).
  apply v3_eq; cbn [vadd vsub vx vy vz]; lra.
Qed.
Lemma zero_is P : zero_cell P = true <-> P = (0, 0, 0)%Z.
Proof. unfold zero_cell, t1, t2, t3. destruct P as [[a b] c]. cbn [fst snd]. rewrite !andb_true_iff, !Z.eqb_eq. split; [intros [[-> ->] ->]; reflexivity|intros E; injection E as -> -> ->; auto]. Qed.
Lemma mask_copy c P n c' I J : (c < m)%nat -> (c' < m)%nat -> In P cs' -> w c c' P = Some n -> (I < N)%nat -> (J < N)%nat ->
  mask (g_r h) (g_tr0 h) (g_rot h) cut P (c * N + I)%nat (c' * N + J)%nat = mask (g_r g) (g_tr0 g) (g_rot g) cut n I J.
Proof.
  intros Hc Hc' HP E HI HJ. unfold mask. rewrite (drv_copy c P n c' I J), mv_norm by (assumption || apply HW; assumption). f_equal. f_equal. rewrite pair_eqb by assumption. pose proof (t_home _ _ _ _ _ _ _ _ _ T c Hc) as H0.
  destruct (zero_cell n) eqn:Zn.
  - apply zero_is in Zn. subst n. destruct (t_once _ _ _ _ _ _ _ _ _ T c c' P c _ _ Hc E H0) as [-> ->]. rewrite Nat.eqb_refl. reflexivity.
  - destruct (zero_cell P) eqn:ZP; [|reflexivity]. apply zero_is in ZP. subst P. destruct (Nat.eqb_spec c c') as [<-|]; [|reflexivity]. rewrite H0 in E. injection E as <-. cbn in Zn. discriminate.
Qed.
Lemma mask_cut r tr0 rot P i j : cut_off cut (vnorm (drv r tr0 rot P i j)) -> mask r tr0 rot cut P i j = false.
Proof. unfold cut_off, mask. destruct cut as [k|]; [|intros []]. intros H. rewrite (proj2 (ltb_false _ _)) by lra. reflexivity. Qed.
Lemma listed_copy c P n c' I J : (c < m)%nat -> (c' < m)%nat -> In P cs' -> w c c' P = Some n -> (I < N)%nat -> (J < N)%nat ->
  listed (g_r h) (g_tr0 h) (g_rot h) P (c * N + I)%nat (c' * N + J)%nat = Nb (c * N + I)%nat (c' * N + J)%nat (nb_d (listed (g_r g) (g_tr0 g) (g_rot g) n I J)) (mv (W c) (nb_n (listed (g_r g) (g_tr0 g) (g_rot g) n I J))).
Proof. intros Hc Hc' HP E HI HJ. unfold listed. cbn [nb_d nb_n]. rewrite (drv_copy c P n c' I J), mv_norm, mv_scale by (assumption || apply HW; assumption). reflexivity. Qed.
Lemma row_copy c I (F F' : neighbour -> R) : (c < m)%nat -> (I < N)%nat -> (forall c' J d x, (c' < m)%nat -> (J < N)%nat -> F' (Nb (c * N + I)%nat (c' * N + J)%nat d (mv (W c) x)) = F (Nb I J d x)) ->
  lsum (fun b => if (nb_i b =? c * N + I)%nat then F' b else 0) (nbs h cut cs') = lsum (fun b => if (nb_i b =? I)%nat then F b else 0) (nbs g cut cs).
Proof.
  intros Hc HI HF. rewrite (row_sum h) by (rewrite HNh; apply pair_lt; assumption). rewrite (row_sum g) by exact HI. fold N.
  set (Phi := fun cl => rsum N (fun j => if mask (g_r g) (g_tr0 g) (g_rot g) cut cl I j then F (listed (g_r g) (g_tr0 g) (g_rot g) cl I j) else 0)).
  rewrite <- (matched_sum (list_prod (seq 0 m) cs') cs (fun a => w c (fst a) (snd a)) Phi).
  - rewrite (lsum_prod m cs' (fun c' P => match w c c' P with Some n => Phi n | None => 0 end)). rewrite HNh. fold N.
    rewrite (lsum_ext _ (fun P => rsum m (fun c' => rsum N (fun J => if mask (g_r h) (g_tr0 h) (g_rot h) cut P (c * N + I)%nat (c' * N + J)%nat then F' (listed (g_r h) (g_tr0 h) (g_rot h) P (c * N + I)%nat (c' * N + J)%nat) else 0)))) by (intros P; apply rsum_pairs).
    transitivity (rsum m (fun c' => lsum (fun P => rsum N (fun J => if mask (g_r h) (g_tr0 h) (g_rot h) cut P (c * N + I)%nat (c' * N + J)%nat then F' (listed (g_r h) (g_tr0 h) (g_rot h) P (c * N + I)%nat (c' * N + J)%nat) else 0)) cs')).
    { pose proof (lsum_lin (fun _ => 1) (fun c' P => rsum N (fun J => if mask (g_r h) (g_tr0 h) (g_rot h) cut P (c * N + I)%nat (c' * N + J)%nat then F' (listed (g_r h) (g_tr0 h) (g_rot h) P (c * N + I)%nat (c' * N + J)%nat) else 0)) m cs') as L.
      etransitivity; [|etransitivity; [exact L|]]; [apply lsum_ext; intros P; apply rsum_ext; intros; ring|apply rsum_ext; intros; ring]. }
    apply rsum_ext. intros c' Hc'. apply lsum_ext_in. intros P HP. destruct (w c c' P) as [n|] eqn:E.
    + unfold Phi. apply rsum_ext. intros J HJ. rewrite (mask_copy c P n c' I J), (listed_copy c P n c' I J), HF by assumption. unfold listed. reflexivity.
    + apply rsum_eq0. intros J HJ. rewrite mask_cut; [reflexivity|]. apply (t_rest _ _ _ _ _ _ _ _ _ T c c' P I J); assumption.
  - apply NoDup_prod; [apply seq_NoDup|apply (scan_NoDup cut (g_ranges h)), (t_scan' _ _ _ _ _ _ _ _ _ T)].
  - apply (scan_NoDup cut (g_ranges g)), (t_scan _ _ _ _ _ _ _ _ _ T).
  - intros [c' P] n I' E. apply in_prod_iff in I'. rewrite in_seq in I'. apply (t_cell _ _ _ _ _ _ _ _ _ T c c' P n Hc ltac:(lia) (proj2 I') E).
  - intros [c1 P1] [c2 P2] n _ _ E1 E2. destruct (t_once _ _ _ _ _ _ _ _ _ T c c1 P1 c2 P2 n Hc E1 E2) as [-> ->]. reflexivity.
  - intros n Hn H. unfold Phi. apply rsum_eq0. intros J HJ. rewrite mask_cut; [reflexivity|]. apply (t_rest' _ _ _ _ _ _ _ _ _ T c n I J Hc Hn); try assumption.
    intros c' P Hc' HP. apply (H (c', P)). apply in_prod_iff. rewrite in_seq. split; [lia|exact HP].
Qed.
Lemma exists_copy (q q' : neighbour -> bool) : (forall c c' I J d x y, (c < m)%nat -> (c' < m)%nat -> (I < N)%nat -> (J < N)%nat -> q' (Nb (c * N + I)%nat (c' * N + J)%nat d y) = q (Nb I J d x)) ->
  existsb q' (nbs h cut cs') = existsb q (nbs g cut cs).
Proof.
  intros Hq. apply eq_iff_eq_true. rewrite !existsb_exists. split; intros (b & Hb & E).
  - apply in_neighbours in Hb. destruct Hb as (P & i & j & HP & Hi & Hj & M & ->). rewrite HNh in Hi, Hj. destruct (pair_inv m N i Hi) as (c & I & Hc & HI & ->). destruct (pair_inv m N j Hj) as (c' & J & Hc' & HJ & ->).
    destruct (w c c' P) as [n|] eqn:Ew.
    + exists (listed (g_r g) (g_tr0 g) (g_rot g) n I J). split.
      * apply in_neighbours. exists n, I, J. split; [apply (t_cell _ _ _ _ _ _ _ _ _ T c c' P n Hc Hc' HP Ew)|]. rewrite (mask_copy c P n c' I J) in M by assumption. repeat split; assumption.
      * unfold listed. erewrite <- Hq; [|exact Hc|exact Hc'|exact HI|exact HJ]. pose proof (listed_copy c P n c' I J Hc Hc' HP Ew HI HJ) as L. unfold listed in L. injection L as L1 L2. rewrite <- L1. exact E.
    + rewrite mask_cut in M; [discriminate|]. apply (t_rest _ _ _ _ _ _ _ _ _ T c c' P I J); assumption.
  - apply in_neighbours in Hb. destruct Hb as (n & I & J & Hn & HI & HJ & M & ->).
    destruct (existsb (fun a => match w 0%nat (fst a) (snd a) with Some n' => if (t1 n =? t1 n')%Z then if (t2 n =? t2 n')%Z then (t3 n =? t3 n')%Z else false else false | None => false end) (list_prod (seq 0 m) cs')) eqn:X.
    + apply existsb_exists in X. destruct X as ([c' P] & HP & X). apply in_prod_iff in HP. destruct HP as [Hc' HP]. apply in_seq in Hc'. cbn [fst snd] in X. destruct (w 0%nat c' P) as [n'|] eqn:Ew; [|discriminate].
      assert (n' = n). { destruct n as [[a1 a2] a3], n' as [[b1 b2] b3]. unfold t1, t2, t3 in X. cbn [fst snd] in X. destruct (Z.eqb_spec a1 b1); [|discriminate]. destruct (Z.eqb_spec a2 b2); [|discriminate]. apply Z.eqb_eq in X. subst. reflexivity. } subst n'.
      exists (listed (g_r h) (g_tr0 h) (g_rot h) P (0 * N + I)%nat (c' * N + J)%nat). split.
      * apply in_neighbours. exists P, (0 * N + I)%nat, (c' * N + J)%nat. rewrite HNh. split; [exact HP|]. split; [apply pair_lt; assumption|]. split; [apply pair_lt; [lia|assumption]|]. split; [|reflexivity]. rewrite (mask_copy 0%nat P n c' I J) by (assumption || lia). exact M.
      * rewrite (listed_copy 0%nat P n c' I J) by (assumption || lia). erewrite Hq by (assumption || lia). exact E.
    + exfalso. rewrite mask_cut in M; [discriminate|]. apply (t_rest' _ _ _ _ _ _ _ _ _ T 0%nat n I J Hm Hn); try assumption. intros c' P Hc' HP E'. apply not_true_iff_false in X. apply X. apply existsb_exists. exists (c', P). split; [apply in_prod_iff; rewrite in_seq; split; [lia|exact HP]|].
      cbn [fst snd]. rewrite E', !Z.eqb_refl. reflexivity.
Qed.
(** ** potentials and fields *)
Context (Bohr : R) (U U' : vec) (HU : repeated m N U U') (t t' : nat -> nat -> R -> R * R) (Ht : forall c I c' J d, (c < m)%nat -> (I < N)%nat -> (c' < m)%nat -> (J < N)%nat -> t' (c * N + I)%nat (c' * N + J)%nat d = t I J d).
Context (q q' : vec) (Hq : repeated m N q q').
Lemma G_copy c I : (c < m)%nat -> (I < N)%nat -> rsum (g_N h) (fun J => gamma_G Bohr U' t' (nbs h cut cs') (c * N + I)%nat J * q' J) = rsum N (fun J => gamma_G Bohr U t (nbs g cut cs) I J * q J).
Proof.
  intros Hc HI.
  assert (A : forall g0 (U0 : vec) t0 i (q0 : vec) l, (i < g_N g0)%nat -> (forall b, In b l -> (nb_j b < g_N g0)%nat) -> rsum (g_N g0) (fun J => gamma_G Bohr U0 t0 l i J * q0 J) =
    U0 i * q0 i + lsum (fun b => if (nb_i b =? i)%nat then fst (t0 (nb_i b) (nb_j b) (nb_d b / Bohr)) * q0 (nb_j b) else 0) l).
  { intros g0 U0 t0 i q0 l Hi Hl. rewrite <- (pick_sum (g_N g0) l i (fun b => fst (t0 (nb_i b) (nb_j b) (nb_d b / Bohr))) q0 Hl).
    rewrite (rsum_ext (g_N g0) _ (fun J => (if (i =? J)%nat then U0 i * q0 i else 0) + lsum (fun b => if ((i =? nb_i b) && (J =? nb_j b))%nat then fst (t0 (nb_i b) (nb_j b) (nb_d b / Bohr)) else 0) l * q0 J)).
    - rewrite rsum_plus. f_equal. rewrite (rsum_single (g_N g0) i); [rewrite Nat.eqb_refl; reflexivity|exact Hi|]. intros J _ Ne. destruct (Nat.eqb_spec i J); [congruence|reflexivity].
    - intros J _. rewrite gamma_G_sum. destruct (Nat.eqb_spec i J) as [<-|]; ring. }
  unfold N. rewrite (A h U' t') by (try (intros; eapply nbs_atoms; eassumption); rewrite HNh; apply pair_lt; assumption). rewrite (A g U t) by (try (intros; eapply nbs_atoms; eassumption); exact HI). fold N.
  rewrite (HU c I Hc HI), (Hq c I Hc HI). f_equal. apply (row_copy c I (fun b => fst (t (nb_i b) (nb_j b) (nb_d b / Bohr)) * q (nb_j b)) (fun b => fst (t' (nb_i b) (nb_j b) (nb_d b / Bohr)) * q' (nb_j b)) Hc HI).
  intros c' J d x Hc' HJ. cbn [nb_i nb_j nb_d]. rewrite (Ht c I c' J) by assumption. rewrite (Hq c' J Hc' HJ). reflexivity.
Qed.
Lemma dG_copy c I d : (d < 3)%nat -> (c < m)%nat -> (I < N)%nat -> rsum (g_N h) (fun J => q' J * comp d (gamma_dG Bohr t' (nbs h cut cs') (c * N + I)%nat J)) = rsum 3 (fun e => m3e (W c) d e * rsum N (fun J => q J * comp e (gamma_dG Bohr t (nbs g cut cs) I J))).
Proof.
  intros Hd Hc HI.
  assert (A : forall g0 t0 i (q0 : vec) l d, (forall b, In b l -> (nb_j b < g_N g0)%nat) -> rsum (g_N g0) (fun J => q0 J * comp d (gamma_dG Bohr t0 l i J)) =
    lsum (fun b => if (nb_i b =? i)%nat then snd (t0 (nb_i b) (nb_j b) (nb_d b / Bohr)) * comp d (nb_n b) * q0 (nb_j b) else 0) l).
  { intros g0 t0 i q0 l e Hl. rewrite <- (pick_sum (g_N g0) l i (fun b => snd (t0 (nb_i b) (nb_j b) (nb_d b / Bohr)) * comp e (nb_n b)) q0 Hl). apply rsum_ext. intros J _. rewrite gamma_dG_sum. ring. }
  rewrite (A h t') by (intros; eapply nbs_atoms; eassumption). rewrite (rsum_ext 3 _ (fun e => m3e (W c) d e * lsum (fun b => if (nb_i b =? I)%nat then snd (t (nb_i b) (nb_j b) (nb_d b / Bohr)) * comp e (nb_n b) * q (nb_j b) else 0) (nbs g cut cs))).
  2: { intros e _. f_equal. apply (A g t). intros; eapply nbs_atoms; eassumption. }
  rewrite <- lsum_lin. rewrite (lsum_ext _ (fun b => if (nb_i b =? I)%nat then rsum 3 (fun e => m3e (W c) d e * comp e (nb_n b)) * (snd (t (nb_i b) (nb_j b) (nb_d b / Bohr)) * q (nb_j b)) else 0) (nbs g cut cs)).
  - apply (row_copy c I (fun b => rsum 3 (fun e => m3e (W c) d e * comp e (nb_n b)) * (snd (t (nb_i b) (nb_j b) (nb_d b / Bohr)) * q (nb_j b))) (fun b => snd (t' (nb_i b) (nb_j b) (nb_d b / Bohr)) * comp d (nb_n b) * q' (nb_j b)) Hc HI).
    intros c' J d0 x Hc' HJ. cbn [nb_i nb_j nb_d nb_n]. rewrite (Ht c I c' J) by assumption. rewrite (Hq c' J Hc' HJ). rewrite comp_mv by exact Hd. ring.
  - intros b. destruct (nb_i b =? I)%nat; [rewrite <- rsum_scal_r; apply rsum_ext; intros; ring|apply rsum_eq0; intros; ring].
Qed.
Lemma phi_copy erfc dcut c I : (c < m)%nat -> (I < N)%nat -> direct_phi erfc dcut (nbs h cut cs') q' (c * N + I)%nat = direct_phi erfc dcut (nbs g cut cs) q I.
Proof.
  intros Hc HI. unfold direct_phi. apply (row_copy c I (fun b => q (nb_j b) * direct_f erfc dcut (nb_d b)) (fun b => q' (nb_j b) * direct_f erfc dcut (nb_d b)) Hc HI).
  intros c' J d x Hc' HJ. cbn [nb_j nb_d]. rewrite (Hq c' J Hc' HJ). reflexivity.
Qed.
Lemma E_copy erfc dcut d c I : (d < 3)%nat -> (c < m)%nat -> (I < N)%nat -> direct_E erfc dcut (nbs h cut cs') q' d (c * N + I)%nat = rsum 3 (fun e => m3e (W c) d e * direct_E erfc dcut (nbs g cut cs) q e I).
Proof.
  intros Hd Hc HI. unfold direct_E. rewrite <- lsum_lin. rewrite (lsum_ext _ (fun b => if (nb_i b =? I)%nat then q (nb_j b) * direct_df erfc dcut (nb_d b) * rsum 3 (fun e => m3e (W c) d e * comp e (nb_n b)) else 0) (nbs g cut cs)).
  - apply (row_copy c I (fun b => q (nb_j b) * direct_df erfc dcut (nb_d b) * rsum 3 (fun e => m3e (W c) d e * comp e (nb_n b))) (fun b => q' (nb_j b) * direct_df erfc dcut (nb_d b) * comp d (nb_n b)) Hc HI).
    intros c' J d0 x Hc' HJ. cbn [nb_j nb_d nb_n]. rewrite (Hq c' J Hc' HJ), comp_mv by exact Hd. reflexivity.
  - intros b. destruct (nb_i b =? I)%nat; [rewrite <- rsum_scal; apply rsum_ext; intros; ring|apply rsum_eq0; intros; ring].
Qed.
End Cells.
