From Coq Require Import Reals ZArith List Bool Arith Lia Lra.
From Verif Require Import Vec GeomModel GeomSpec GeomProofs PairModel PairSpec PairProofs SkModel SkSpec SkProofs SkProofs2 SkProofs3 SkProofs4 SkProofs5 SkProofs6 SkProofs7 Cpx InvSpec InvProofs5.
Import ListNotations.
Open Scope R_scope.

(** ** elements with s, sp or spd orbitals *)
Lemma whole_shells n a b : In n [1; 4; 9]%nat -> (a < n)%nat -> (n <= b < 9)%nat -> shell a <> shell b.
Proof.
  intros [E|[E|[E|[]]]] Ha Hb; subst n.
  - assert (a = 0)%nat by lia. subst a. nine b; try (exfalso; lia); discriminate.
  - destruct a as [|[|[|[|a]]]]; try lia; nine b; try (exfalso; lia); discriminate.
  - lia.
Qed.
Lemma at_most_nine n : In n [1; 4; 9]%nat -> (n <= 9)%nat.
Proof. intros [E|[E|[E|[]]]]; subst n; lia. Qed.
Lemma rsum_whole n Q f a : In n [1; 4; 9]%nat -> (a < n)%nat -> rsum 9 (fun c => Drep Q a c * f c) = rsum n (fun c => Drep Q a c * f c).
Proof.
  intros H Ha. pose proof (at_most_nine n H). replace 9%nat with (n + (9 - n))%nat by lia. rewrite rsum_split, (rsum_eq0 (9 - n)); [ring|].
  intros k Hk. rewrite Drep_off; [ring|]. apply (whole_shells n); [exact H|exact Ha|lia].
Qed.
Lemma rsum_whole_r n Q f b : In n [1; 4; 9]%nat -> (b < n)%nat -> rsum 9 (fun c => f c * Drep Q c b) = rsum n (fun c => f c * Drep Q c b).
Proof.
  intros H Ha. pose proof (at_most_nine n H). replace 9%nat with (n + (9 - n))%nat by lia. rewrite rsum_split, (rsum_eq0 (9 - n)); [ring|].
  intros k Hk. rewrite Drep_off; [ring|]. intros E. apply (whole_shells n b (n + k) H Ha); [lia|congruence].
Qed.
Lemma csum_all0 n f : (forall i, (i < n)%nat -> f i = c0) -> csum n f = c0.
Proof. apply csum_zero. Qed.
(** the block M between atoms with n and m orbitals, rotated *)
Definition turned2 (P : m3) (n m : nat) (M : nat -> nat -> cplx) (a b : nat) : cplx := csum n (fun c => csum m (fun f => cscale (Drep P a c * Drep P b f) (M c f))).
Definition turned2r (P : m3) (n m : nat) (M : nat -> nat -> R) (a b : nat) : R := rsum n (fun c => rsum m (fun f => Drep P a c * Drep P b f * M c f)).
Lemma turned2_conj P n m M a b : cconj (turned2 P n m M a b) = turned2 P m n (fun f c => cconj (M c f)) b a.
Proof.
  unfold turned2. rewrite csum_conj, (csum_ext' n _ (fun c => csum m (fun f => cscale (Drep P b f * Drep P a c) (cconj (M c f))))).
  - apply csum_swap.
  - intros c _. rewrite csum_conj. apply csum_ext'. intros f _. rewrite !cscale_rc, cconj_mul, cconj_rc. f_equal. f_equal. ring.
Qed.
Lemma turned2_images P n m nimg (sk : nat -> bool) A phase a b :
  csum nimg (fun x => if sk x then (0, 0) else cscale (turned2r P n m (A x) a b) (phase x)) = turned2 P n m (fun c f => csum nimg (fun x => if sk x then (0, 0) else cscale (A x c f) (phase x))) a b.
Proof.
  unfold turned2. rewrite (csum_ext' nimg _ (fun x => csum n (fun c => csum m (fun f => cscale (Drep P a c * Drep P b f) (if sk x then (0, 0) else cscale (A x c f) (phase x)))))).
  - rewrite csum_swap. apply csum_ext'. intros c _. rewrite csum_swap. apply csum_ext'. intros f _. rewrite cscale_rc, <- csum_mul. apply csum_ext'. intros x _. rewrite cscale_rc. reflexivity.
  - intros x _. destruct (sk x).
    + symmetry. apply csum_all0. intros c _. apply csum_all0. intros f _. unfold cscale, c0. cbn. f_equal; ring.
    + unfold turned2r, csum, cscale. cbn [fst snd]. f_equal; rewrite <- rsum_scal_r; apply rsum_ext; intros c _; rewrite <- rsum_scal_r; apply rsum_ext; intros; ring.
Qed.
Lemma turned2_ext P n m M M' a b : (forall c f, (c < n)%nat -> (f < m)%nat -> M c f = M' c f) -> turned2 P n m M a b = turned2 P n m M' a b.
Proof. intros H. unfold turned2. apply csum_ext'. intros c Hc. apply csum_ext'. intros f Hf. rewrite H by assumption. reflexivity. Qed.
Lemma turned2_add P n m M M' a b : turned2 P n m (fun c f => cadd (M c f) (M' c f)) a b = cadd (turned2 P n m M a b) (turned2 P n m M' a b).
Proof. unfold turned2. rewrite <- csum_add. apply csum_ext'. intros c _. rewrite <- csum_add. apply csum_ext'. intros f _. rewrite !cscale_rc. ring. Qed.
Lemma turned2_lin P n m q (M : nat -> nat -> nat -> cplx) a b : turned2 P n m (fun c f => csum 3 (fun d => cscale (q d) (M d c f))) a b = csum 3 (fun d => cscale (q d) (turned2 P n m (M d) a b)).
Proof.
  unfold turned2. rewrite (csum_ext' 3 _ (fun d => csum n (fun c => csum m (fun f => cscale (Drep P a c * Drep P b f) (cscale (q d) (M d c f)))))).
  - rewrite (csum_swap 3 n). apply csum_ext'. intros c _. rewrite (csum_swap 3 m). apply csum_ext'. intros f _. rewrite cscale_rc, <- csum_mul. apply csum_ext'. intros d _. rewrite (cscale_rc (Drep P a c * Drep P b f)). reflexivity.
  - intros d _. rewrite cscale_rc, <- csum_mul. apply csum_ext'. intros c _. rewrite <- csum_mul. apply csum_ext'. intros f _. rewrite !cscale_rc. ring.
Qed.
Lemma turned2_eye n m M a b : (n <= 9)%nat -> (m <= 9)%nat -> (a < n)%nat -> (b < m)%nat -> turned2 eye n m M a b = M a b.
Proof.
  intros Hn Hm Ha Hb. unfold turned2. rewrite (csum_single n a); [|exact Ha|].
  - rewrite (csum_single m b); [|exact Hb|].
    + rewrite !Drep_eye by lia. unfold dlt. rewrite !Nat.eqb_refl. unfold cscale. destruct (M a b) as [x y]. cbn. f_equal; ring.
    + intros f Hf N. rewrite (Drep_eye b f) by lia. unfold dlt. replace (b =? f)%nat with false by (symmetry; apply Nat.eqb_neq; auto). unfold cscale, c0. cbn. f_equal; ring.
  - intros c Hc N. apply csum_all0. intros f Hf. rewrite (Drep_eye a c) by lia. unfold dlt. replace (a =? c)%nat with false by (symmetry; apply Nat.eqb_neq; auto). unfold cscale, c0. cbn. f_equal; ring.
Qed.
Lemma turned2_onsite P n (on : nat -> R) a b : In n [1; 4; 9]%nat -> orthogonal P -> (forall a b, shell a = shell b -> on a = on b) -> (a < n)%nat -> (b < n)%nat ->
  turned2 P n n (fun c f => if (c =? f)%nat then (on c, 0) else (0, 0)) a b = if (a =? b)%nat then (on a, 0) else (0, 0).
Proof.
  intros Hn HP Hon Ha Hb. pose proof (at_most_nine n Hn) as H9. unfold turned2.
  rewrite (csum_ext' n _ (fun c => cscale (Drep P a c * Drep P b c * on a) c1)).
  - unfold csum, cscale, c1. cbn [fst snd]. rewrite (rsum_ext n (fun i => Drep P a i * Drep P b i * on a * 0) (fun _ => 0)) by (intros; ring). rewrite rsum_zero.
    rewrite (rsum_ext n _ (fun c => on a * (Drep P a c * Drep P b c))) by (intros; ring). rewrite rsum_scal, <- (rsum_whole n P (fun c => Drep P b c) a Hn Ha), Drep_orth by (assumption || lia).
    unfold dlt. destruct (a =? b)%nat; f_equal; ring.
  - intros c Hc. rewrite (csum_single n c); [|exact Hc|].
    + rewrite Nat.eqb_refl. destruct (Nat.eq_dec (shell a) (shell c)) as [E|E]; [rewrite <- (Hon a c E); unfold cscale, c1; cbn; f_equal; ring|rewrite (Drep_off P a c E); unfold cscale, c1; cbn; f_equal; ring].
    + intros f Hf N. replace (c =? f)%nat with false by (symmetry; apply Nat.eqb_neq; auto). unfold cscale, c0. cbn. f_equal; ring.
Qed.

(** ** all atoms and operations rotated by P *)
Section Rotated.
Context (N nimg : nat) (no : nat -> nat) (Rn Rn' : nat -> nat -> v3) (O O' : nat -> m3) (DT DT' : nat -> nat -> nat -> R) (phase : nat -> cplx).
Context (onsite : nat -> nat -> R) (tab dtab : nat -> nat -> R -> nat -> R) (r1 r2 : nat -> nat -> R) (P : m3).
Context (HP : orthogonal P) (Hno : forall i, (i < N)%nat -> In (no i) [1; 4; 9]%nat).
Context (HR : forall n i j, (n < nimg)%nat -> (i < N)%nat -> (j < N)%nat -> mrij Rn' n i j = mv P (mrij Rn n i j)).
Context (HO : forall n, (n < nimg)%nat -> orthogonal (O n)) (HO' : forall n, (n < nimg)%nat -> O' n = mm (mm P (O n)) (tr P)).
Context (HD : forall n a b, (n < nimg)%nat -> (a < 9)%nat -> (b < 9)%nat -> DT n a b = Drep (O n) a b).
Context (HD' : forall n a b, (n < nimg)%nat -> (a < 9)%nat -> (b < 9)%nat -> DT' n a b = Drep (O' n) a b).
Context (Hz : forall n i j, (n < nimg)%nat -> (i < N)%nat -> (j < N)%nat -> (i <= j)%nat -> ~ (i = j /\ n = 0%nat) -> mrij Rn n i j <> vzero).
Context (Hon : forall i a b, (i < N)%nat -> shell a = shell b -> onsite i a = onsite i b).
Lemma mdist_rot n i j : (n < nimg)%nat -> (i < N)%nat -> (j < N)%nat -> mdist Rn' n i j = mdist Rn n i j.
Proof. intros Hn Hi Hj. unfold mdist. rewrite HR by assumption. apply mv_norm. exact HP. Qed.
Lemma skipped_rot n i j : (n < nimg)%nat -> (i < N)%nat -> (j < N)%nat -> skipped Rn' r1 r2 n i j = skipped Rn r1 r2 n i j.
Proof. intros Hn Hi Hj. unfold skipped. rewrite mdist_rot by assumption. reflexivity. Qed.
Lemma not_skipped n i j : skipped Rn r1 r2 n i j = false -> ~ (i = j /\ n = 0%nat).
Proof. unfold skipped. intros H [-> ->]. rewrite !Nat.eqb_refl in H. discriminate. Qed.
Lemma block_algebra A n i j a b : (n < nimg)%nat -> (i < N)%nat -> (j < N)%nat -> (a < no i)%nat -> (b < no j)%nat ->
  rsum (no j) (fun k => rsum 9 (fun c => rsum 9 (fun c' => Drep P a c * A c c' * Drep P k c')) * DT' n k b) =
  turned2r P (no i) (no j) (fun c f => rsum (no j) (fun k => A c k * DT n k f)) a b.
Proof.
  intros Hn Hi Hj Ha Hb. pose proof (at_most_nine _ (Hno i Hi)). pose proof (at_most_nine _ (Hno j Hj)).
  rewrite (rsum_ext (no j) _ (fun k => rsum 9 (fun c => rsum 9 (fun c' => Drep P a c * A c c' * Drep P k c')) * Drep (mm (mm P (O n)) (tr P)) k b)) by (intros k Hk; rewrite HD', HO' by (assumption || lia); reflexivity).
  rewrite <- (rsum_whole_r (no j) _ (fun k => rsum 9 (fun c => rsum 9 (fun c' => Drep P a c * A c c' * Drep P k c'))) b (Hno j Hj) Hb).
  rewrite rotated_product by (try apply HO; assumption || lia). unfold turned2r.
  rewrite (rsum_ext 9 _ (fun c => Drep P a c * rsum 9 (fun f => Drep P b f * rsum 9 (fun c' => A c c' * Drep (O n) c' f)))).
  2: { intros c _. rewrite <- rsum_scal. apply rsum_ext. intros; ring. }
  rewrite (rsum_whole (no i) P _ a (Hno i Hi) Ha). apply rsum_ext. intros c Hc. rewrite (rsum_whole (no j) P _ b (Hno j Hj) Hb), <- rsum_scal. apply rsum_ext. intros f Hf.
  rewrite (rsum_whole_r (no j) (O n) (A c) f (Hno j Hj) Hf). rewrite (rsum_ext (no j) (fun k => A c k * DT n k f) (fun k => A c k * Drep (O n) k f)) by (intros k Hk; rewrite HD by (assumption || lia); reflexivity). ring.
Qed.
Lemma ht_image_rot n i j a b : (n < nimg)%nat -> (i < N)%nat -> (j < N)%nat -> mrij Rn n i j <> vzero -> (a < no i)%nat -> (b < no j)%nat ->
  ht_image no Rn' DT' tab n i j a b = turned2r P (no i) (no j) (ht_image no Rn DT tab n i j) a b.
Proof.
  intros Hn Hi Hj Z Ha Hb. pose proof (at_most_nine _ (Hno i Hi)). pose proof (at_most_nine _ (Hno j Hj)).
  unfold ht_image. rewrite <- (block_algebra (ht (rijh Rn n i j) (tab i j (mdist Rn n i j))) n i j a b) by assumption.
  apply rsum_ext. intros k Hk. f_equal. rewrite mdist_rot by assumption. unfold rijh. rewrite mdist_rot, HR by assumption. rewrite <- mv_scale. apply covariant; try assumption; try lia. apply unit_vec. exact Z.
Qed.
Lemma dht_image_rot n i j a b k : (n < nimg)%nat -> (i < N)%nat -> (j < N)%nat -> mrij Rn n i j <> vzero -> (a < no i)%nat -> (b < no j)%nat -> (k < 3)%nat ->
  dht_image no Rn' DT' tab dtab n i j a b k = rsum 3 (fun q => m3e P k q * turned2r P (no i) (no j) (fun c f => dht_image no Rn DT tab dtab n i j c f q) a b).
Proof.
  intros Hn Hi Hj Z Ha Hb Hk. pose proof (at_most_nine _ (Hno i Hi)). pose proof (at_most_nine _ (Hno j Hj)).
  rewrite (rsum_ext 3 _ (fun q => rsum (no j) (fun c0 => m3e P k q * (rsum 9 (fun c => rsum 9 (fun c' => Drep P a c * dht (rijh Rn n i j) (mdist Rn n i j) (tab i j (mdist Rn n i j))
     (fun q k => dtab i j (mdist Rn n i j) q * comp k (rijh Rn n i j)) c c' q * Drep P c0 c')) * DT' n c0 b)))).
  2: { intros q Hq. rewrite rsum_scal. f_equal. unfold dht_image. symmetry. apply (block_algebra (fun c c' => dht (rijh Rn n i j) (mdist Rn n i j) (tab i j (mdist Rn n i j))
     (fun q k => dtab i j (mdist Rn n i j) q * comp k (rijh Rn n i j)) c c' q) n i j a b); assumption. }
  rewrite rsum_swap. unfold dht_image. apply rsum_ext. intros c Hc. rewrite (rsum_ext 3 _ (fun q => m3e P k q * rsum 9 (fun c1 => rsum 9 (fun c' => Drep P a c1 * dht (rijh Rn n i j) (mdist Rn n i j) (tab i j (mdist Rn n i j))
     (fun q k => dtab i j (mdist Rn n i j) q * comp k (rijh Rn n i j)) c1 c' q * Drep P c c')) * DT' n c b)) by (intros; ring).
  rewrite rsum_scal_r. f_equal. unfold rijh. rewrite mdist_rot, HR by assumption. apply (dht_rotated P (mrij Rn n i j)); (assumption || lia).
Qed.
Lemma block_rot i j a b : (i <= j)%nat -> (i < N)%nat -> (j < N)%nat -> (a < no i)%nat -> (b < no j)%nat ->
  block nimg no Rn' DT' phase tab r1 r2 i j a b = turned2 P (no i) (no j) (block nimg no Rn DT phase tab r1 r2 i j) a b.
Proof.
  intros L Hi Hj Ha Hb. unfold block. rewrite <- (turned2_images P (no i) (no j) nimg (fun n => skipped Rn r1 r2 n i j) (fun n => ht_image no Rn DT tab n i j)).
  apply csum_ext'. intros n Hn. rewrite skipped_rot by assumption. destruct (skipped Rn r1 r2 n i j) eqn:S; [reflexivity|]. rewrite ht_image_rot; try assumption; [reflexivity|]. apply Hz; try assumption. apply not_skipped. exact S.
Qed.
Lemma matrix_rot i a j b : (i < N)%nat -> (j < N)%nat -> (a < no i)%nat -> (b < no j)%nat ->
  SkModel.matrix nimg no Rn' DT' phase onsite tab r1 r2 i a j b = turned2 P (no i) (no j) (fun c f => SkModel.matrix nimg no Rn DT phase onsite tab r1 r2 i c j f) a b.
Proof.
  intros Hi Hj Ha Hb. unfold SkModel.matrix. destruct (Nat.ltb_spec i j) as [L|L]; [apply block_rot; (assumption || lia)|]. destruct (Nat.ltb_spec j i) as [L'|L'].
  - rewrite block_rot by (assumption || lia). apply turned2_conj.
  - assert (i = j) by lia. subst j. rewrite turned2_add, block_rot by (assumption || lia). f_equal. symmetry. apply turned2_onsite; try assumption; [apply Hno; exact Hi|]. intros; apply Hon; assumption.
Qed.
Lemma cscale_sum3 (f : nat -> R) z : cscale (rsum 3 f) z = csum 3 (fun q => cscale (f q) z).
Proof. unfold cscale, csum. cbn [fst snd]. f_equal; rewrite <- rsum_scal_r; reflexivity. Qed.
Lemma images_lin (w : nat -> R) (A : nat -> nat -> R) sk : csum nimg (fun n => if (sk n : bool) then (0, 0) else cscale (rsum 3 (fun q => w q * A q n)) (phase n)) =
  csum 3 (fun q => cscale (w q) (csum nimg (fun n => if sk n then (0, 0) else cscale (A q n) (phase n)))).
Proof.
  rewrite (csum_ext' nimg _ (fun n => csum 3 (fun q => cscale (w q) (if sk n then (0, 0) else cscale (A q n) (phase n))))).
  - rewrite csum_swap. apply csum_ext'. intros q _. rewrite cscale_rc, <- csum_mul. apply csum_ext'. intros n _. rewrite (cscale_rc (w q)). reflexivity.
  - intros n _. destruct (sk n).
    + symmetry. apply csum_all0. intros q _. unfold cscale, c0. cbn. f_equal; ring.
    + rewrite cscale_sum3. apply csum_ext'. intros q _. unfold cscale. cbn [fst snd]. f_equal; ring.
Qed.
Lemma dblock_rot i j a b k : (i <= j)%nat -> (i < N)%nat -> (j < N)%nat -> (a < no i)%nat -> (b < no j)%nat -> (k < 3)%nat ->
  dblock nimg no Rn' DT' phase tab dtab r1 r2 i j a b k = csum 3 (fun q => cscale (m3e P k q) (turned2 P (no i) (no j) (fun c f => dblock nimg no Rn DT phase tab dtab r1 r2 i j c f q) a b)).
Proof.
  intros L Hi Hj Ha Hb Hk. unfold dblock at 1. rewrite (csum_ext' nimg _ (fun n => if skipped Rn r1 r2 n i j then (0, 0) else cscale (rsum 3 (fun q => m3e P k q * turned2r P (no i) (no j) (fun c f => - dht_image no Rn DT tab dtab n i j c f q) a b)) (phase n))).
  - rewrite (images_lin (m3e P k) (fun q n => turned2r P (no i) (no j) (fun c f => - dht_image no Rn DT tab dtab n i j c f q) a b) (fun n => skipped Rn r1 r2 n i j)). apply csum_ext'. intros q Hq. f_equal.
    apply (turned2_images P (no i) (no j) nimg (fun n => skipped Rn r1 r2 n i j) (fun n c f => - dht_image no Rn DT tab dtab n i j c f q)).
  - intros n Hn. rewrite skipped_rot by assumption. destruct (skipped Rn r1 r2 n i j) eqn:S; [reflexivity|]. f_equal. rewrite dht_image_rot; try assumption; [|apply Hz; try assumption; apply not_skipped; exact S].
    rewrite <- Ropp_mult_1_l, <- rsum_scal || (replace (- rsum 3 (fun q => m3e P k q * turned2r P (no i) (no j) (fun c f => dht_image no Rn DT tab dtab n i j c f q) a b)) with (-1 * rsum 3 (fun q => m3e P k q * turned2r P (no i) (no j) (fun c f => dht_image no Rn DT tab dtab n i j c f q) a b)) by ring; rewrite <- rsum_scal).
    apply rsum_ext. intros q _. unfold turned2r. rewrite (rsum_ext (no i) (fun c => rsum (no j) (fun f => Drep P a c * Drep P b f * - dht_image no Rn DT tab dtab n i j c f q)) (fun c => -1 * rsum (no j) (fun f => Drep P a c * Drep P b f * dht_image no Rn DT tab dtab n i j c f q))).
    + rewrite rsum_scal. ring.
    + intros c _. rewrite <- rsum_scal. apply rsum_ext. intros; ring.
Qed.
Lemma m3e_conj Q q k : (q < 3)%nat -> (k < 3)%nat -> m3e (mm (mm P Q) (tr P)) q k = rsum 3 (fun q' => rsum 3 (fun e => m3e P q q' * m3e Q q' e * m3e P k e)).
Proof. intros Hq Hk. destruct P as [[a b c] [d e f] [g h i]], Q as [[a' b' c'] [d' e' f'] [g' h' i']]. destruct q as [|[|[|q]]]; try lia; destruct k as [|[|[|k]]]; try lia; unfold m3e, comp; cbn [rsum]; vunf; ring. Qed.
Lemma m3e_orth q q' : (q < 3)%nat -> (q' < 3)%nat -> rsum 3 (fun k => m3e P k q * m3e P k q') = if (q =? q')%nat then 1 else 0.
Proof.
  intros Hq Hq'. pose proof (orthogonal_tr P HP) as H. unfold orthogonal in H. rewrite tr_tr in H. transitivity (m3e (mm (tr P) P) q q').
  - destruct P as [[a b c] [d e f] [g h i]]. destruct q as [|[|[|q]]]; try lia; destruct q' as [|[|[|q']]]; try lia; unfold m3e, comp; cbn [rsum]; vunf; ring.
  - rewrite H. destruct q as [|[|[|q]]]; try lia; destruct q' as [|[|[|q']]]; try lia; reflexivity.
Qed.
Lemma rotate_back (x : nat -> R) Q k : (k < 3)%nat -> rsum 3 (fun q => rsum 3 (fun q' => m3e P q q' * x q') * m3e (mm (mm P Q) (tr P)) q k) = rsum 3 (fun e => m3e P k e * rsum 3 (fun q => x q * m3e Q q e)).
Proof.
  intros Hk.
  rewrite (rsum_ext 3 _ (fun q => rsum 3 (fun q' => rsum 3 (fun q2 => m3e P q q' * m3e P q q2 * (x q' * rsum 3 (fun e => m3e Q q2 e * m3e P k e)))))).
  2: { intros q Hq. rewrite (m3e_conj Q q k Hq Hk), <- rsum_scal_r. apply rsum_ext. intros q' _. rewrite <- rsum_scal. apply rsum_ext. intros q2 _. rewrite (rsum_ext 3 (fun e => m3e P q q2 * m3e Q q2 e * m3e P k e) (fun e => m3e P q q2 * (m3e Q q2 e * m3e P k e))) by (intros; ring). rewrite rsum_scal. ring. }
  rewrite rsum_swap. rewrite (rsum_ext 3 _ (fun q' => x q' * rsum 3 (fun e => m3e Q q' e * m3e P k e))).
  - rewrite (rsum_ext 3 _ (fun q' => rsum 3 (fun e => m3e P k e * (x q' * m3e Q q' e)))) by (intros q' _; rewrite <- rsum_scal; apply rsum_ext; intros; ring). rewrite rsum_swap. apply rsum_ext. intros e _. apply rsum_scal.
  - intros q' Hq'. rewrite rsum_swap. rewrite (rsum_single 3 q'); [rewrite rsum_scal_r, m3e_orth, Nat.eqb_refl by assumption; ring|exact Hq'|]. intros q2 Hq2 Ne. rewrite rsum_scal_r, m3e_orth by assumption. replace (q' =? q2)%nat with false by (symmetry; apply Nat.eqb_neq; auto). ring.
Qed.
Lemma dblock2_rot i j a b k : (i <= j)%nat -> (i < N)%nat -> (j < N)%nat -> (a < no i)%nat -> (b < no j)%nat -> (k < 3)%nat ->
  dblock2 nimg no Rn' O' DT' phase tab dtab r1 r2 i j a b k = csum 3 (fun q => cscale (m3e P k q) (turned2 P (no j) (no i) (fun f c => dblock2 nimg no Rn O DT phase tab dtab r1 r2 i j c f q) b a)).
Proof.
  intros L Hi Hj Ha Hb Hk. unfold dblock2 at 1. set (dh := fun n c f q => rsum 3 (fun q' => dht_image no Rn DT tab dtab n i j c f q' * m3e (O n) q' q)).
  rewrite (csum_ext' nimg _ (fun n => if skipped Rn r1 r2 n i j then (0, 0) else cscale (rsum 3 (fun q => m3e P k q * turned2r P (no i) (no j) (fun c f => dh n c f q) a b)) (phase n))).
  - rewrite (images_lin (m3e P k) (fun q n => turned2r P (no i) (no j) (fun c f => dh n c f q) a b) (fun n => skipped Rn r1 r2 n i j)). rewrite csum_conj. apply csum_ext'. intros q Hq.
    rewrite !cscale_rc, cconj_mul, cconj_rc. f_equal. rewrite (turned2_images P (no i) (no j) nimg (fun n => skipped Rn r1 r2 n i j) (fun n c f => dh n c f q)), turned2_conj. reflexivity.
  - intros n Hn. rewrite skipped_rot by assumption. destruct (skipped Rn r1 r2 n i j) eqn:S; [reflexivity|]. f_equal. rewrite HO' by exact Hn.
    rewrite (rsum_ext 3 _ (fun q => rsum 3 (fun q' => m3e P q q' * turned2r P (no i) (no j) (fun c f => dht_image no Rn DT tab dtab n i j c f q') a b) * m3e (mm (mm P (O n)) (tr P)) q k)).
    2: { intros q Hq. rewrite dht_image_rot; try assumption; [reflexivity|]. apply Hz; try assumption. apply not_skipped. exact S. }
    rewrite rotate_back by exact Hk. apply rsum_ext. intros e _. f_equal. unfold turned2r, dh. rewrite (rsum_ext 3 _ (fun q => rsum (no i) (fun c => rsum (no j) (fun f => Drep P a c * Drep P b f * (dht_image no Rn DT tab dtab n i j c f q * m3e (O n) q e))))).
    + rewrite rsum_swap. apply rsum_ext. intros c _. rewrite rsum_swap. apply rsum_ext. intros f _. apply rsum_scal.
    + intros q _. rewrite <- rsum_scal_r. apply rsum_ext. intros c _. rewrite <- rsum_scal_r. apply rsum_ext. intros; ring.
Qed.
End Rotated.
