From Coq Require Import Reals ZArith List Bool Arith Lia Lra.
From Verif Require Import Vec GeomModel GeomSpec GeomProofs CoulModel PairModel PairSpec SkModel SkSpec SkProofs SkProofs2 Cpx GamModel InvModel InvSpec InvLin InvProofs InvProofs5 InvProofs6.
Import ListNotations.
Open Scope R_scope.

Lemma lsum_ext {A} (f g : A -> R) l : (forall x, f x = g x) -> lsum f l = lsum g l.
Proof. intros H. induction l as [|x l IH]; [reflexivity|]. cbn [lsum]. rewrite H, IH. reflexivity. Qed.
Lemma lsum_app {A} (f : A -> R) l l' : lsum f (l ++ l') = lsum f l + lsum f l'.
Proof. induction l as [|x l IH]; cbn [lsum app]; [ring|]. rewrite IH. ring. Qed.
Lemma lsum_flat {A B} (f : B -> R) (h : A -> list B) l : lsum f (flat_map h l) = lsum (fun x => lsum f (h x)) l.
Proof. induction l as [|x l IH]; [reflexivity|]. cbn [flat_map lsum]. rewrite lsum_app, IH. reflexivity. Qed.
Lemma lsum_map {A B} (f : B -> R) (h : A -> B) l : lsum f (map h l) = lsum (fun x => f (h x)) l.
Proof. induction l as [|x l IH]; [reflexivity|]. cbn [map lsum]. rewrite IH. reflexivity. Qed.
Lemma lsum_filter {A} (f : A -> R) p l : lsum f (filter p l) = lsum (fun x => if p x then f x else 0) l.
Proof. induction l as [|x l IH]; [reflexivity|]. cbn [filter lsum]. destruct (p x); cbn [lsum]; rewrite IH; ring. Qed.
Lemma lsum_seq f n : lsum f (seq 0 n) = rsum n f.
Proof. induction n as [|n IH]; [reflexivity|]. rewrite seq_S, lsum_app, IH. cbn. ring. Qed.
Lemma lsum_lin {A} (q : nat -> R) (f : nat -> A -> R) m l : lsum (fun x => rsum m (fun d => q d * f d x)) l = rsum m (fun d => q d * lsum (f d) l).
Proof.
  induction l as [|x l IH]; cbn [lsum]; [symmetry; rewrite (rsum_ext m _ (fun _ => 0)) by (intros; ring); apply rsum_zero|].
  rewrite IH, <- rsum_plus. apply rsum_ext. intros; ring.
Qed.
Lemma lsum_scal {A} k (f : A -> R) l : lsum (fun x => k * f x) l = k * lsum f l.
Proof. induction l as [|x l IH]; cbn [lsum]; [ring|]. rewrite IH. ring. Qed.
(** ** neighbour lists of the two structures *)
Lemma cell_sum N r tr0 rot cut c (F : neighbour -> R) : lsum F (cell_neighbours N r tr0 rot cut c) =
  rsum N (fun i => rsum N (fun j => if mask r tr0 rot cut c i j then F (Nb i j (vnorm (drv r tr0 rot c i j)) (vscale (/ vnorm (drv r tr0 rot c i j)) (drv r tr0 rot c i j))) else 0)).
Proof.
  unfold cell_neighbours. rewrite lsum_flat, lsum_seq. apply rsum_ext. intros i _. rewrite lsum_map, lsum_filter, lsum_seq. reflexivity.
Qed.
Lemma in_neighbours N r tr0 rot cut cs b : In b (flat_map (cell_neighbours N r tr0 rot cut) cs) <->
  exists c i j, In c cs /\ (i < N)%nat /\ (j < N)%nat /\ mask r tr0 rot cut c i j = true /\ b = Nb i j (vnorm (drv r tr0 rot c i j)) (vscale (/ vnorm (drv r tr0 rot c i j)) (drv r tr0 rot c i j)).
Proof.
  rewrite in_flat_map. unfold cell_neighbours. split.
  - intros (c & Hc & Hb). rewrite in_flat_map in Hb. destruct Hb as (i & Hi & Hb). rewrite in_map_iff in Hb. destruct Hb as (j & <- & Hj). apply filter_In in Hj. rewrite in_seq in Hi, Hj. exists c, i, j. repeat split; try tauto; lia.
  - intros (c & i & j & Hc & Hi & Hj & Hm & ->). exists c. split; [exact Hc|]. rewrite in_flat_map. exists i. split; [apply in_seq; lia|]. rewrite in_map_iff. exists j. split; [reflexivity|]. apply filter_In. split; [apply in_seq; lia|exact Hm].
Qed.
Section Moved.
Context (s : nat -> nat) (P : m3) (v : v3) (g h : structure) (M : rigid_motion s P v g h).
Let N := g_N g.
Lemma drv_moved c i j : (i < N)%nat -> (j < N)%nat -> drv (g_r h) (g_tr0 h) (g_rot h) c (s i) (s j) = mv P (drv (g_r g) (g_tr0 g) (g_rot g) c i j).
Proof.
  intros Hi Hj. unfold drv, image. rewrite (j_tr0 _ _ _ _ _ M), (j_r _ _ _ _ _ M i Hi), (j_r _ _ _ _ _ M j Hj), (j_rot _ _ _ _ _ M). pose proof (j_P _ _ _ _ _ M) as HP.
  pose proof (orthogonal_tr P HP) as HT. unfold orthogonal in HT. rewrite tr_tr in HT.
  assert (E : mv (mm (mm P (g_rot g c)) (tr P)) (vadd (mv P (g_r g j)) v) = vadd (mv P (mv (g_rot g c) (g_r g j))) (mv (mm (mm P (g_rot g c)) (tr P)) v)).
  { transitivity (vadd (mv (mm (mm P (g_rot g c)) (tr P)) (mv P (g_r g j))) (mv (mm (mm P (g_rot g c)) (tr P)) v)).
    - generalize (mm (mm P (g_rot g c)) (tr P)). intros [[a b e] [d f k] [p q w]]. destruct (mv P (g_r g j)), v. vring.
    - f_equal. transitivity (mv P (mv (g_rot g c) (mv (mm (tr P) P) (g_r g j)))); [|rewrite HT, mv_eye; reflexivity].
      destruct P as [[a b e] [d f k] [p q w]], (g_rot g c) as [[a' b' e'] [d' f' k'] [p' q' w']], (g_r g j) as [x y z]. vring. }
  rewrite E. generalize (mv (mm (mm P (g_rot g c)) (tr P)) v). intros u. destruct P as [[a b e] [d f k] [p q w]], (g_r g i), (g_tr0 g c), (mv (g_rot g c) (g_r g j)), u, v. vring.
Qed.
Lemma mask_moved cut c i j : (i < N)%nat -> (j < N)%nat -> mask (g_r h) (g_tr0 h) (g_rot h) cut c (s i) (s j) = mask (g_r g) (g_tr0 g) (g_rot g) cut c i j.
Proof.
  intros Hi Hj. unfold mask. rewrite drv_moved, (mv_norm P) by (assumption || apply (j_P _ _ _ _ _ M)). f_equal. f_equal. f_equal.
  destruct (Nat.eqb_spec i j) as [->|Ne]; [apply Nat.eqb_refl|]. apply Nat.eqb_neq. intros E. apply Ne. apply (proj2 (j_perm _ _ _ _ _ M)); assumption.
Qed.
Definition listed (r : nat -> v3) (tr0 : cell -> v3) (rot : cell -> m3) (c : cell) (i j : nat) : neighbour := Nb i j (vnorm (drv r tr0 rot c i j)) (vscale (/ vnorm (drv r tr0 rot c i j)) (drv r tr0 rot c i j)).
Lemma listed_moved c i j : (i < N)%nat -> (j < N)%nat -> listed (g_r h) (g_tr0 h) (g_rot h) c (s i) (s j) =
  Nb (s i) (s j) (nb_d (listed (g_r g) (g_tr0 g) (g_rot g) c i j)) (mv P (nb_n (listed (g_r g) (g_tr0 g) (g_rot g) c i j))).
Proof. intros Hi Hj. unfold listed. cbn [nb_d nb_n]. rewrite drv_moved, (mv_norm P), mv_scale by (assumption || apply (j_P _ _ _ _ _ M)). reflexivity. Qed.
Lemma neighbours_sum cut cs (F F' : neighbour -> R) : (forall b, (nb_i b < N)%nat -> (nb_j b < N)%nat -> F' (Nb (s (nb_i b)) (s (nb_j b)) (nb_d b) (mv P (nb_n b))) = F b) ->
  lsum F' (flat_map (cell_neighbours (g_N h) (g_r h) (g_tr0 h) (g_rot h) cut) cs) = lsum F (flat_map (cell_neighbours (g_N g) (g_r g) (g_tr0 g) (g_rot g) cut) cs).
Proof.
  intros HF. rewrite !lsum_flat. apply lsum_ext. intros c. rewrite !cell_sum, (j_N _ _ _ _ _ M). pose proof (j_perm _ _ _ _ _ M) as Hs. fold N. fold N in Hs.
  rewrite <- (rsum_perm N s _ Hs). apply rsum_ext. intros i Hi. rewrite <- (rsum_perm N s _ Hs). apply rsum_ext. intros j Hj.
  rewrite mask_moved by assumption. destruct (mask (g_r g) (g_tr0 g) (g_rot g) cut c i j); [|reflexivity].
  change (F' (listed (g_r h) (g_tr0 h) (g_rot h) c (s i) (s j)) = F (listed (g_r g) (g_tr0 g) (g_rot g) c i j)). rewrite listed_moved by assumption.
  rewrite <- HF by assumption. reflexivity.
Qed.
Lemma neighbours_exist cut cs (p p' : neighbour -> bool) : (forall b, (nb_i b < N)%nat -> (nb_j b < N)%nat -> p' (Nb (s (nb_i b)) (s (nb_j b)) (nb_d b) (mv P (nb_n b))) = p b) ->
  existsb p' (flat_map (cell_neighbours (g_N h) (g_r h) (g_tr0 h) (g_rot h) cut) cs) = existsb p (flat_map (cell_neighbours (g_N g) (g_r g) (g_tr0 g) (g_rot g) cut) cs).
Proof.
  intros Hp. pose proof (j_perm _ _ _ _ _ M) as Hs. fold N in Hs. apply eq_iff_eq_true. rewrite !existsb_exists. split.
  - intros (b & Hb & E). rewrite in_neighbours, (j_N _ _ _ _ _ M) in Hb. destruct Hb as (c & i & j & Hc & Hi & Hj & Hm & ->). fold N in Hi, Hj. destruct (permutes_onto N s i Hs Hi) as (i0 & Hi0 & <-). destruct (permutes_onto N s j Hs Hj) as (j0 & Hj0 & <-).
    exists (listed (g_r g) (g_tr0 g) (g_rot g) c i0 j0). split.
    + rewrite in_neighbours. exists c, i0, j0. rewrite mask_moved in Hm by assumption. tauto.
    + rewrite <- Hp by assumption. change (p' (listed (g_r h) (g_tr0 h) (g_rot h) c (s i0) (s j0)) = true) in E. rewrite listed_moved in E by assumption. exact E.
  - intros (b & Hb & E). rewrite in_neighbours in Hb. destruct Hb as (c & i & j & Hc & Hi & Hj & Hm & ->). fold N in Hi, Hj. exists (listed (g_r h) (g_tr0 h) (g_rot h) c (s i) (s j)). split.
    + rewrite in_neighbours, (j_N _ _ _ _ _ M). exists c, (s i), (s j). rewrite mask_moved by assumption. pose proof (proj1 Hs i Hi). pose proof (proj1 Hs j Hj). tauto.
    + rewrite listed_moved by assumption. change (p (listed (g_r g) (g_tr0 g) (g_rot g) c i j) = true) in E. rewrite <- E, <- Hp by assumption. reflexivity.
Qed.
Lemma s_eqb i j : (i < N)%nat -> (j < N)%nat -> (s i =? s j)%nat = (i =? j)%nat.
Proof. intros Hi Hj. destruct (Nat.eqb_spec i j) as [->|Ne]; [apply Nat.eqb_refl|]. apply Nat.eqb_neq. intros E. apply Ne. apply (proj2 (j_perm _ _ _ _ _ M)); assumption. Qed.
(** ** the gamma matrix *)
Lemma gamma_G_sum Bohr U t l i j : gamma_G Bohr U t l i j = (if (i =? j)%nat then U i else 0) + lsum (fun b => if ((i =? nb_i b) && (j =? nb_j b))%nat then fst (t (nb_i b) (nb_j b) (nb_d b / Bohr)) else 0) l.
Proof.
  unfold gamma_G. assert (A : forall (f : nat -> nat -> R), fold_left (add_G Bohr t) l f i j = f i j + lsum (fun b => if ((i =? nb_i b) && (j =? nb_j b))%nat then fst (t (nb_i b) (nb_j b) (nb_d b / Bohr)) else 0) l).
  { induction l as [|b l IH]; intros f; cbn [fold_left lsum]; [ring|]. rewrite IH. unfold add_G. destruct ((i =? nb_i b) && (j =? nb_j b))%nat; ring. }
  apply A.
Qed.
Lemma comp_vadd c x y : comp c (vadd x y) = comp c x + comp c y.
Proof. destruct x, y. unfold comp. destruct c as [|[|c]]; reflexivity. Qed.
Lemma comp_vscale c k x : comp c (vscale k x) = k * comp c x.
Proof. destruct x. unfold comp. destruct c as [|[|c]]; reflexivity. Qed.
Lemma comp_vzero c : comp c vzero = 0. Proof. unfold comp. destruct c as [|[|c]]; reflexivity. Qed.
Lemma gamma_dG_sum Bohr t l i j c : comp c (gamma_dG Bohr t l i j) = lsum (fun b => if ((i =? nb_i b) && (j =? nb_j b))%nat then snd (t (nb_i b) (nb_j b) (nb_d b / Bohr)) * comp c (nb_n b) else 0) l.
Proof.
  unfold gamma_dG. assert (A : forall (f : nat -> nat -> v3), comp c (fold_left (add_dG Bohr t) l f i j) = comp c (f i j) + lsum (fun b => if ((i =? nb_i b) && (j =? nb_j b))%nat then snd (t (nb_i b) (nb_j b) (nb_d b / Bohr)) * comp c (nb_n b) else 0) l).
  { induction l as [|b l IH]; intros f; cbn [fold_left lsum]; [ring|]. rewrite IH. unfold add_dG. destruct ((i =? nb_i b) && (j =? nb_j b))%nat; [rewrite comp_vadd, comp_vscale|]; ring. }
  rewrite A, comp_vzero. ring.
Qed.
Context (U U' : nat -> R) (HU : carried N s U U') (t t' : nat -> nat -> R -> R * R) (Ht : forall i j d, (i < N)%nat -> (j < N)%nat -> t' (s i) (s j) d = t i j d).
Let nb (cut : option R) cs := flat_map (cell_neighbours (g_N g) (g_r g) (g_tr0 g) (g_rot g) cut) cs.
Let nb' (cut : option R) cs := flat_map (cell_neighbours (g_N h) (g_r h) (g_tr0 h) (g_rot h) cut) cs.
Lemma gamma_G_moved Bohr cut cs i j : (i < N)%nat -> (j < N)%nat -> gamma_G Bohr U' t' (nb' cut cs) (s i) (s j) = gamma_G Bohr U t (nb cut cs) i j.
Proof.
  intros Hi Hj. rewrite !gamma_G_sum, s_eqb by assumption. f_equal; [destruct (i =? j)%nat; [apply HU; exact Hi|reflexivity]|]. apply neighbours_sum. intros b Hbi Hbj. cbn [nb_i nb_j nb_d nb_n]. rewrite !s_eqb, Ht by assumption. reflexivity.
Qed.
Lemma gamma_dG_moved Bohr cut cs i j c : (c < 3)%nat -> (i < N)%nat -> (j < N)%nat -> comp c (gamma_dG Bohr t' (nb' cut cs) (s i) (s j)) = rsum 3 (fun d => m3e P c d * comp d (gamma_dG Bohr t (nb cut cs) i j)).
Proof.
  intros Hc Hi Hj. rewrite gamma_dG_sum. rewrite (rsum_ext 3 _ (fun d => m3e P c d * lsum (fun b => if ((i =? nb_i b) && (j =? nb_j b))%nat then snd (t (nb_i b) (nb_j b) (nb_d b / Bohr)) * comp d (nb_n b) else 0) (nb cut cs))) by (intros d _; rewrite gamma_dG_sum; reflexivity).
  rewrite <- lsum_lin. apply neighbours_sum. intros b Hbi Hbj. cbn [nb_i nb_j nb_d nb_n]. rewrite !s_eqb, Ht by assumption. destruct ((i =? nb_i b) && (j =? nb_j b))%nat.
  - rewrite comp_mv by exact Hc. rewrite <- rsum_scal. apply rsum_ext. intros; ring.
  - symmetry. rewrite (rsum_ext 3 _ (fun _ => 0)) by (intros; ring). apply rsum_zero.
Qed.
(** ** DirectCoulomb *)
Context (erfc : R -> R).
Lemma direct_phi_moved dcut cut cs q q' i : carried N s q q' -> (i < N)%nat -> direct_phi erfc dcut (nb' cut cs) q' (s i) = direct_phi erfc dcut (nb cut cs) q i.
Proof. intros Hq Hi. unfold direct_phi. apply neighbours_sum. intros b Hbi Hbj. cbn [nb_i nb_j nb_d nb_n]. rewrite s_eqb, Hq by assumption. reflexivity. Qed.
Lemma direct_E_moved dcut cut cs q q' c i : carried N s q q' -> (c < 3)%nat -> (i < N)%nat -> direct_E erfc dcut (nb' cut cs) q' c (s i) = rsum 3 (fun d => m3e P c d * direct_E erfc dcut (nb cut cs) q d i).
Proof.
  intros Hq Hc Hi. unfold direct_E. rewrite <- lsum_lin. apply neighbours_sum. intros b Hbi Hbj. cbn [nb_i nb_j nb_d nb_n]. rewrite s_eqb, Hq by assumption. destruct (nb_i b =? i)%nat.
  - rewrite comp_mv by exact Hc. rewrite <- rsum_scal. apply rsum_ext. intros; ring.
  - symmetry. rewrite (rsum_ext 3 _ (fun _ => 0)) by (intros; ring). apply rsum_zero.
Qed.
End Moved.
(** ** minimum and maximum *)
Lemma rmin_le n f i : (i <= n)%nat -> rmin n f <= f i.
Proof. induction n as [|n IH]; intros H; [assert (i = 0%nat) by lia; subst; cbn; lra|]. cbn [rmin]. destruct (Nat.eq_dec i (S n)) as [->|Ne]; [apply Rmin_r|]. eapply Rle_trans; [apply Rmin_l|apply IH; lia]. Qed.
Lemma rmin_in n f : exists i, (i <= n)%nat /\ rmin n f = f i.
Proof. induction n as [|n (i & Hi & E)]; [exists 0%nat; split; [lia|reflexivity]|]. cbn [rmin]. unfold Rmin. destruct (Rle_dec (rmin n f) (f (S n))); [exists i; split; [lia|exact E]|exists (S n); split; [lia|reflexivity]]. Qed.
Lemma rmax_le n f i : (i <= n)%nat -> f i <= rmaxn n f.
Proof. induction n as [|n IH]; intros H; [assert (i = 0%nat) by lia; subst; cbn; lra|]. cbn [rmaxn]. destruct (Nat.eq_dec i (S n)) as [->|Ne]; [apply Rmax_r|]. eapply Rle_trans; [apply IH; lia|apply Rmax_l]. Qed.
Lemma rmax_in n f : exists i, (i <= n)%nat /\ rmaxn n f = f i.
Proof. induction n as [|n (i & Hi & E)]; [exists 0%nat; split; [lia|reflexivity]|]. cbn [rmaxn]. unfold Rmax. destruct (Rle_dec (rmaxn n f) (f (S n))); [exists (S n); split; [lia|reflexivity]|exists i; split; [lia|exact E]]. Qed.
Lemma rmin_perm N s f f' : (0 < N)%nat -> permutes N s -> carried N s f f' -> rmin (N - 1) f' = rmin (N - 1) f.
Proof.
  intros H0 Hs Hf. apply Rle_antisym.
  - destruct (rmin_in (N - 1) f) as (i & Hi & ->). rewrite <- (Hf i) by lia. apply rmin_le. pose proof (proj1 Hs i ltac:(lia)). lia.
  - destruct (rmin_in (N - 1) f') as (i & Hi & ->). destruct (permutes_onto N s i Hs ltac:(lia)) as (i0 & Hi0 & <-). rewrite Hf by exact Hi0. apply rmin_le. lia.
Qed.
Lemma rmax_perm N s f f' : (0 < N)%nat -> permutes N s -> carried N s f f' -> rmaxn (N - 1) f' = rmaxn (N - 1) f.
Proof.
  intros H0 Hs Hf. apply Rle_antisym.
  - destruct (rmax_in (N - 1) f') as (i & Hi & ->). destruct (permutes_onto N s i Hs ltac:(lia)) as (i0 & Hi0 & <-). rewrite Hf by exact Hi0. apply rmax_le. lia.
  - destruct (rmax_in (N - 1) f) as (i & Hi & ->). rewrite <- (Hf i) by lia. apply rmax_le. pose proof (proj1 Hs i ltac:(lia)). lia.
Qed.
(** both calculations of the gamma matrix fail, or both give the same matrix *)
Definition gamma_alike (N : nat) (s : nat -> nat) (P : m3) (x y : gresult) : Prop :=
  match x, y with
  | GOk G dG, GOk G' dG' => (forall I J, (I < N)%nat -> (J < N)%nat -> G' (s I) (s J) = G I J) /\
      forall c I J, (c < 3)%nat -> (I < N)%nat -> (J < N)%nat -> comp c (dG' (s I) (s J)) = rsum 3 (fun d => m3e P c d * comp d (dG I J))
  | GOk _ _, _ | _, GOk _ _ => False
  | _, _ => True
  end.
Lemma gamma_moved erfc Bohr gaussian cut goal D s P v g h : rigid_motion s P v g h ->
  gamma_alike (g_N g) s P (g_gamma erfc Bohr gaussian cut goal D g) (g_gamma erfc Bohr gaussian cut goal D h).
Proof.
  intros M. unfold g_gamma. assert (HU : carried (g_N g) s (fun I => d_U D (g_kind g I)) (fun I => d_U D (g_kind h I))) by (intros i Hi; rewrite (j_kind _ _ _ _ _ M i Hi); reflexivity).
  assert (HF : carried (g_N g) s (fun I => d_FWHM D (g_kind g I)) (fun I => d_FWHM D (g_kind h I))) by (intros i Hi; rewrite (j_kind _ _ _ _ _ M i Hi); reflexivity).
  pose proof (j_some _ _ _ _ _ M) as H0. pose proof (j_perm _ _ _ _ _ M) as Hs. destruct gaussian.
  - assert (EN : rmaxn (g_N h - 1) (fun I => d_FWHM D (g_kind h I)) = rmaxn (g_N g - 1) (fun I => d_FWHM D (g_kind g I))) by (rewrite (j_N _ _ _ _ _ M); apply (rmax_perm (g_N g) s _ _ H0 Hs HF)). unfold gauss_gamma. cbv zeta. rewrite EN. destruct (leb (rmaxn (g_N g - 1) (fun I => d_FWHM D (g_kind g I))) 0); [exact I|].
    rewrite (j_ranges _ _ _ _ _ M). set (cut' := match cut with Some c => Some c | None => _ end). unfold get_neighbours. destruct (scan cut' (g_ranges g)) as [cs|]; [|exact I].
    rewrite (neighbours_exist s P v g h M cut' cs (fun b => if Req_EM_T (d_FWHM D (g_kind g (nb_i b)) ^ 2 + d_FWHM D (g_kind g (nb_j b)) ^ 2) 0 then true else false)).
    + destruct (existsb _ _); [exact I|]. split; [intros I J HI HJ; apply (gamma_G_moved s P v g h M); try assumption|intros c I J Hc HI HJ; apply (gamma_dG_moved s P v g h M); try assumption].
      all: intros i j d Hi Hj; rewrite (HF i Hi), (HF j Hj); reflexivity.
    + intros b Hbi Hbj. cbn [nb_i nb_j]. rewrite (HF _ Hbi), (HF _ Hbj). reflexivity.
  - assert (EN : rmin (g_N h - 1) (fun I => d_U D (g_kind h I)) = rmin (g_N g - 1) (fun I => d_U D (g_kind g I))) by (rewrite (j_N _ _ _ _ _ M); apply (rmin_perm (g_N g) s _ _ H0 Hs HU)). unfold slater_gamma. cbv zeta. rewrite EN. destruct (leb (rmin (g_N g - 1) (fun I => d_U D (g_kind g I))) 0); [exact I|].
    rewrite (j_ranges _ _ _ _ _ M). set (cut' := match cut with Some c => Some c | None => _ end). unfold get_neighbours. destruct (scan cut' (g_ranges g)) as [cs|]; [|exact I].
    split; [intros I J HI HJ; apply (gamma_G_moved s P v g h M); try assumption|intros c I J Hc HI HJ; apply (gamma_dG_moved s P v g h M); try assumption].
    all: intros i j d Hi Hj; rewrite (HU i Hi), (HU j Hj); reflexivity.
Qed.
