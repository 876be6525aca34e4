(** Telescoping and the dipole *)
From Coq Require Import Reals ZArith List Bool Arith Lia Lra Psatz.
From Coquelicot Require Import Coquelicot.
From Verif Require Import Vec GeomModel GeomSpec GeomProofs GeomProofs2 ScaModel MpModel MpSpec MpProofs MpProofs2 MpProofs3 MpProofs4 MpProofs5.
Import ListNotations.
Open Scope C_scope.

Definition affine (transform : Z * Z * Z -> v3 -> v3) (rotation : Z * Z * Z -> m3) (x : Z * Z * Z) : Prop :=
  is_orthogonal (rotation x) /\ forall r s, vsub (transform x r) (transform x s) = mv (rotation x) (vsub r s).
Lemma moment_same qs ps r0 r1 l m : Forall2 (fun p p' => vsub (fst p) r0 = vsub (fst p') r1 /\ snd p = snd p') qs ps -> moment qs r0 l m = moment ps r1 l m.
Proof.
  intros h. induction h as [|[r q] [r' q'] qs ps [e1 e2] h IH]; cbn [moment]; [reflexivity|]. cbn [fst snd] in *. rewrite e1, e2, IH. reflexivity.
Qed.
Section Tele.
Variables (transform : Z * Z * Z -> v3 -> v3) (rotation : Z * Z * Z -> m3).
Lemma telescope_gen lmax ops qs r0 M : (forall x, In x ops -> affine transform rotation x) -> holds_to lmax M (moment qs r0) ->
  holds_to lmax (telescope transform rotation ops r0 M) (moment (images transform ops qs) r0).
Proof.
  intros ha hM. unfold telescope.
  assert (key : forall ops A ps, (forall x, In x ops -> affine transform rotation x) -> holds_to lmax A (moment ps r0) ->
    holds_to lmax (fold_left (fun T x => m2m (vsub (transform x r0) r0) (transform_multipole (rotation x) M) T) ops A) (moment (ps ++ images transform ops qs) r0)).
  { clear ops ha. induction ops as [|x ops IH]; intros A ps ha hA; cbn [fold_left images flat_map]; [rewrite app_nil_r; exact hA|]. rewrite app_assoc. apply IH; [intros y hy; apply ha; right; exact hy|].
    destruct (ha x (or_introl eq_refl)) as [ho hx]. set (dr := vsub (transform x r0) r0). pose proof (transform_exact (rotation x) ho lmax M qs r0 hM) as ht. 
    assert (hr : vsub (transform x r0) dr = r0) by (unfold dr; apply v3_eq; cbn; ring).
    pose proof (m2m_exact lmax dr (transform_multipole (rotation x) M) A (map (fun p => (transform x (fst p), snd p)) qs) ps (transform x r0)) as g. rewrite hr in g. apply g; [|exact hA].
    eapply holds_to_ext; [exact ht|]. intros l m _ _. apply moment_same. clear -hx. induction qs as [|[r q] qs IH]; cbn [map]; constructor; [|exact IH]. unfold turned. cbn [fst snd]. split; [|reflexivity]. rewrite hx. apply v3_eq; cbn; ring. }
  apply (key ops zero_moments []); [exact ha|]. split; reflexivity.
Qed.
Lemma images_length ops qs : length (images transform ops qs) = (length ops * length qs)%nat.
Proof. induction ops as [|x ops IH]; [reflexivity|]. cbn [images flat_map length Nat.mul]. rewrite app_length, map_length. f_equal. exact IH. Qed.
End Tele.
Lemma container_affine c a x : rigid_container c a x -> affine (fun n r => transform c a r n) (rotation c a) x.
Proof. intros h. split; [apply rotation_orthogonal, h|]. intros r s. apply rotation_of_transform, h. Qed.
Theorem telescope_exact c a ops lmax M qs r0 : (forall x, In x ops -> rigid_container c a x) -> holds_to lmax M (moment qs r0) ->
  holds_to lmax (telescope (fun n r => transform c a r n) (rotation c a) ops r0 M) (moment (images (fun n r => transform c a r n) ops qs) r0).
Proof. intros h. apply telescope_gen. intros x hx. apply container_affine, h, hx. Qed.
(** ** Translations *)
Lemma pair3 (a b c a' b' c' : Z) : a = a' -> b = b' -> c = c' -> (a, b, c) = (a', b', c').
Proof. intros -> -> ->. reflexivity. Qed.
Definition zadd3 (x y : Z * Z * Z) : Z * Z * Z := ((o1 x + o1 y)%Z, (o2 x + o2 y)%Z, (o3 x + o3 y)%Z).
Lemma bravais_comp a x y r : transform Bravais a (transform Bravais a r y) x = transform Bravais a r (zadd3 x y).
Proof. unfold transform, zadd3, o1, o2, o3. cbn [fst snd]. rewrite !plus_IZR. apply v3_eq; cbn; ring. Qed.
Definition zsum3 (ops : list (Z * Z * Z)) : Z * Z * Z := fold_right zadd3 (0%Z, 0%Z, 0%Z) ops.
Lemma bravais_sum a (ops : list (Z * Z * Z)) r0 acc : fold_left (fun s x => vadd s (transform Bravais a r0 x)) ops acc = vadd acc (vadd (vscale (INR (length ops)) r0) (vsub (transform Bravais a r0 (zsum3 ops)) r0)).
Proof.
  revert acc. induction ops as [|x ops IH]; intros acc; cbn [fold_left length zsum3 fold_right].
  - unfold transform, o1, o2, o3. cbn [fst snd INR]. apply v3_eq; cbn; ring.
  - rewrite IH. fold (zsum3 ops). rewrite S_INR. unfold transform, zadd3, o1, o2, o3. cbn [fst snd]. rewrite !plus_IZR. apply v3_eq; cbn; ring.
Qed.
Lemma bravais_origin a (ops : list (Z * Z * Z)) r0 : ops <> [] -> zsum3 ops = (0%Z, 0%Z, 0%Z) -> next_origin (fun n r => transform Bravais a r n) ops r0 = r0.
Proof.
  intros h e. unfold next_origin. rewrite bravais_sum, e. assert (hn : INR (length ops) <> 0%R) by (apply not_0_INR; destruct ops; [congruence|discriminate]).
  unfold transform, o1, o2, o3. cbn [fst snd]. apply v3_eq; cbn; field; exact hn.
Qed.
Lemma zsum3_app a b : zsum3 (a ++ b) = zadd3 (zsum3 a) (zsum3 b).
Proof.
  induction a as [|x a IH]; cbn [app]; [unfold zsum3 at 2; cbn [fold_right]; unfold zadd3; destruct (zsum3 b) as [[x y] z]; reflexivity|]. change (zsum3 (x :: a ++ b)) with (zadd3 x (zsum3 (a ++ b))). change (zsum3 (x :: a)) with (zadd3 x (zsum3 a)). rewrite IH.
  unfold zadd3, o1, o2, o3. cbn [fst snd]. rewrite !Z.add_assoc. reflexivity.
Qed.
Lemma zsum3_flat {A} (f : A -> list (Z * Z * Z)) l : zsum3 (flat_map f l) = fold_right (fun x s => zadd3 (zsum3 (f x)) s) (0%Z, 0%Z, 0%Z) l.
Proof. induction l as [|x l IH]; [reflexivity|]. cbn [flat_map fold_right]. rewrite zsum3_app, IH. reflexivity. Qed.
Definition zlsum (l : list Z) : Z := fold_right Z.add 0%Z l.
Lemma zlsum_app a b : zlsum (a ++ b) = (zlsum a + zlsum b)%Z.
Proof. induction a as [|x a IH]; [reflexivity|]. cbn [app]. change (zlsum (x :: a ++ b)) with (x + zlsum (a ++ b))%Z. rewrite IH. change (zlsum (x :: a)) with (x + zlsum a)%Z. ring. Qed.
Lemma zrange_sum h : zlsum (zrange h) = 0%Z.
Proof.
  unfold zrange. assert (g : forall n, (2 * zlsum (map (fun i => (Z.of_nat i - Z.of_nat h)%Z) (seq 0 n)) = Z.of_nat n * (Z.of_nat n - 1 - 2 * Z.of_nat h))%Z).
  { induction n as [|n IH]; [reflexivity|]. rewrite seq_S, map_app, zlsum_app. cbn [map Nat.add]. unfold zlsum at 2. cbn [fold_right]. rewrite Z.mul_add_distr_l, IH. lia. }
  specialize (g (2 * h + 1)%nat). lia.
Qed.
Lemma zrange_length h : length (zrange h) = (2 * h + 1)%nat. Proof. unfold zrange. rewrite map_length, seq_length. reflexivity. Qed.
Lemma level_ops_sum h k : zsum3 (level_ops h k) = (0%Z, 0%Z, 0%Z).
Proof.
  destruct h as [[h1 h2] h3]. unfold level_ops. cbn [fst snd]. set (a := (Z.of_nat (2 * h1 + 1) ^ Z.of_nat k)%Z). set (b := (Z.of_nat (2 * h2 + 1) ^ Z.of_nat k)%Z). set (c := (Z.of_nat (2 * h3 + 1) ^ Z.of_nat k)%Z). clearbody a b c.
  assert (h3' : forall l y1 y2, zsum3 (map (fun x3 => (y1, y2, (x3 * c)%Z)) l) = ((Z.of_nat (length l) * y1)%Z, (Z.of_nat (length l) * y2)%Z, (zlsum l * c)%Z)).
  { clear. induction l as [|x l IH]; intros y1 y2; [reflexivity|]. cbn [map]. change (zsum3 ((y1, y2, (x * c)%Z) :: map (fun x3 => (y1, y2, (x3 * c)%Z)) l)) with (zadd3 (y1, y2, (x * c)%Z) (zsum3 (map (fun x3 => (y1, y2, (x3 * c)%Z)) l))). rewrite IH.
    unfold zadd3, o1, o2, o3. cbn [fst snd length]. change (zlsum (x :: l)) with (x + zlsum l)%Z. apply pair3; lia. }
  rewrite zsum3_flat.
  assert (g2 : forall y1 l, zsum3 (flat_map (fun x2 => map (fun x3 => (y1, (x2 * b)%Z, (x3 * c)%Z)) (zrange h3)) l) = ((Z.of_nat (length l) * Z.of_nat (2 * h3 + 1) * y1)%Z, (Z.of_nat (2 * h3 + 1) * zlsum l * b)%Z, 0%Z)).
  { intros y1 l. rewrite zsum3_flat. induction l as [|x l IH]; cbn [fold_right]; [unfold zlsum; cbn [fold_right length]; apply pair3; ring|]. rewrite IH, h3', zrange_sum, zrange_length. unfold zadd3, o1, o2, o3. cbn [fst snd length]. change (zlsum (x :: l)) with (x + zlsum l)%Z. apply pair3; lia. }
  assert (g1 : forall l, fold_right (fun x s => zadd3 (zsum3 (flat_map (fun x2 => map (fun x3 => ((x * a)%Z, (x2 * b)%Z, (x3 * c)%Z)) (zrange h3)) (zrange h2))) s) (0%Z, 0%Z, 0%Z) l = ((Z.of_nat (2 * h2 + 1) * Z.of_nat (2 * h3 + 1) * zlsum l * a)%Z, 0%Z, 0%Z)).
  { induction l as [|x l IH]; cbn [fold_right]; [unfold zlsum; cbn [fold_right]; apply pair3; ring|]. rewrite IH, g2, zrange_sum, zrange_length. unfold zadd3, o1, o2, o3. cbn [fst snd]. change (zlsum (x :: l)) with (x + zlsum l)%Z. apply pair3; lia. }
  rewrite g1, zrange_sum. apply pair3; ring.
Qed.
Lemma level_ops_nonempty h k : level_ops h k <> [].
Proof.
  destruct h as [[h1 h2] h3]. unfold level_ops. cbn [fst snd].
  assert (hz : forall h, exists x l, zrange h = x :: l). { intros h. unfold zrange. replace (2 * h + 1)%nat with (S (2 * h)) by lia. cbn [seq map]. eexists. eexists. reflexivity. }
  destruct (hz h1) as [x1 [l1 ->]], (hz h2) as [x2 [l2 ->]], (hz h3) as [x3 [l3 ->]]. cbn. discriminate.
Qed.
(** ** The cells of all levels *)
Fixpoint cells (h : nat * nat * nat) (k : nat) : list (Z * Z * Z) :=
  match k with O => [(0%Z, 0%Z, 0%Z)] | S k => flat_map (fun x => map (zadd3 x) (cells h k)) (level_ops h k) end.
Lemma images_cells a h k qs : images (fun n r => transform Bravais a r n) (level_ops h k) (images (fun n r => transform Bravais a r n) (cells h k) qs) = images (fun n r => transform Bravais a r n) (cells h (S k)) qs.
Proof.
  cbn [cells]. unfold images. generalize (level_ops h k). induction l as [|x l IH]; [reflexivity|]. cbn [flat_map]. rewrite IH, flat_map_app. f_equal. clear. induction (cells h k) as [|y c IH]; [reflexivity|]. cbn [flat_map map]. rewrite map_app, IH. f_equal.
  rewrite map_map. apply map_ext. intros [r q]. cbn [fst snd]. rewrite bravais_comp. reflexivity.
Qed.
Lemma levels_S f g ls x s : levels f g (ls ++ [x]) s = let s' := levels f g ls s in (next_origin f x (fst s'), telescope f g x (fst s') (snd s')).
Proof. unfold levels. rewrite fold_left_app. reflexivity. Qed.
Lemma levels_cells a h k lmax M qs r0 : holds_to lmax M (moment qs r0) ->
  let s := levels (fun n r => transform Bravais a r n) (rotation Bravais a) (map (level_ops h) (seq 0 k)) (r0, M) in
  fst s = r0 /\ holds_to lmax (snd s) (moment (images (fun n r => transform Bravais a r n) (cells h k) qs) r0).
Proof.
  intros hM. induction k as [|k IH].
  - cbn [seq map levels fold_left fst snd cells]. split; [reflexivity|]. eapply holds_to_ext; [exact hM|]. intros l m _ _. unfold images. cbn [flat_map]. rewrite app_nil_r. apply moment_same. clear. induction qs as [|[r q] qs IH]; constructor; [|exact IH].
    cbn [fst snd]. split; [|reflexivity]. unfold transform, o1, o2, o3. cbn [fst snd]. apply v3_eq; cbn; ring.
  - rewrite seq_S, map_app. cbn [map Nat.add]. rewrite levels_S. cbn zeta in *. destruct IH as [e1 h2]. set (s := levels _ _ _ _) in *. cbn [fst snd]. rewrite e1. split.
    + apply bravais_origin; [apply level_ops_nonempty|apply level_ops_sum].
    + rewrite <- images_cells. apply telescope_exact; [intros x _; exact I|exact h2].
Qed.
(** each cell of the block occurs exactly once *)
Lemma in_zrange h z : In z (zrange h) <-> (- Z.of_nat h <= z <= Z.of_nat h)%Z.
Proof.
  unfold zrange. rewrite in_map_iff. split.
  - intros [i [e hi]]. apply in_seq in hi. lia.
  - intros hz. exists (Z.to_nat (z + Z.of_nat h)). split; [lia|]. apply in_seq. lia.
Qed.
Lemma in_level_ops h k z : In z (level_ops h k) <-> exists x1 x2 x3, In x1 (zrange (fst (fst h))) /\ In x2 (zrange (snd (fst h))) /\ In x3 (zrange (snd h)) /\
  z = ((x1 * Z.of_nat (2 * fst (fst h) + 1) ^ Z.of_nat k)%Z, (x2 * Z.of_nat (2 * snd (fst h) + 1) ^ Z.of_nat k)%Z, (x3 * Z.of_nat (2 * snd h + 1) ^ Z.of_nat k)%Z).
Proof.
  unfold level_ops. rewrite in_flat_map. split.
  - intros [x1 [h1 h2]]. apply in_flat_map in h2. destruct h2 as [x2 [h2 h3]]. apply in_map_iff in h3. destruct h3 as [x3 [e h3]]. exists x1, x2, x3. auto.
  - intros (x1 & x2 & x3 & h1 & h2 & h3 & e). exists x1. split; [exact h1|]. apply in_flat_map. exists x2. split; [exact h2|]. apply in_map_iff. exists x3. auto.
Qed.
Lemma digit h k z : in_range h (S k) z <-> exists x y, In x (zrange h) /\ in_range h k y /\ (z = x * Z.of_nat (2 * h + 1) ^ Z.of_nat k + y)%Z.
Proof.
  unfold in_range. set (n := Z.of_nat (2 * h + 1)). rewrite Nat2Z.inj_succ, Z.pow_succ_r by lia. set (p := (n ^ Z.of_nat k)%Z).
  assert (hp : (0 < p)%Z) by (apply Z.pow_pos_nonneg; unfold n; lia). assert (hodd : exists j, p = (2 * j + 1)%Z).
  { unfold p. clear -n. induction k as [|k IH]; [exists 0%Z; reflexivity|]. destruct IH as [j e]. rewrite Nat2Z.inj_succ, Z.pow_succ_r, e by lia. exists ((2 * Z.of_nat h + 1) * j + Z.of_nat h)%Z. unfold n. lia. }
  destruct hodd as [j hj]. split.
  - intros hz. exists ((z + j) / p)%Z, ((z + j) mod p - j)%Z. pose proof (Z.div_mod (z + j) p ltac:(lia)) as e. pose proof (Z.mod_pos_bound (z + j) p hp) as hb. split; [|split; [lia|lia]].
    apply in_zrange. split; [apply Z.div_le_lower_bound; [lia|]|]; unfold n in hz; [nia|]. apply Z.lt_succ_r. apply Z.div_lt_upper_bound; [lia|]. nia.
  - intros (x & y & hx & hy & ->). apply in_zrange in hx. unfold n. nia.
Qed.
Lemma digit_unique h k x y x' y' : in_range h k y -> in_range h k y' -> (x * Z.of_nat (2 * h + 1) ^ Z.of_nat k + y = x' * Z.of_nat (2 * h + 1) ^ Z.of_nat k + y')%Z -> x = x' /\ y = y'.
Proof.
  unfold in_range. set (p := (Z.of_nat (2 * h + 1) ^ Z.of_nat k)%Z). assert (hp : (0 < p)%Z) by (apply Z.pow_pos_nonneg; lia). intros hy hy' e.
  assert (hx : x = x') by nia. subst x'. lia.
Qed.
Lemma in_cells h k z : In z (cells h k) <-> in_block h k z.
Proof.
  revert z. induction k as [|k IH]; intros z; cbn [cells].
  - unfold in_block, in_range. change (Z.of_nat 0) with 0%Z. rewrite !Z.pow_0_r. destruct z as [[a b] c]. unfold o1, o2, o3. cbn [fst snd In]. split.
    + intros [e|[]]. injection e as <- <- <-. lia.
    + intros (h1 & h2 & h3). left. apply pair3; lia.
  - rewrite in_flat_map. unfold in_block. rewrite !digit. split.
    + intros [x [hx hz]]. apply in_map_iff in hz. destruct hz as [y [<- hy]]. apply IH in hy. apply in_level_ops in hx. destruct hx as (x1 & x2 & x3 & h1 & h2 & h3 & ->). destruct hy as (y1 & y2 & y3). unfold zadd3, o1, o2, o3. cbn [fst snd].
      split; [|split]; eexists; eexists; (split; [|split; [|reflexivity]]); eassumption.
    + intros [(x1 & y1 & a1 & b1 & e1) [(x2 & y2 & a2 & b2 & e2) (x3 & y3 & a3 & b3 & e3)]]. eexists. split; [apply in_level_ops; exists x1, x2, x3; repeat split; eassumption|]. apply in_map_iff. exists (y1, y2, y3). split.
      * destruct z as [[z1 z2] z3]. unfold zadd3, o1, o2, o3 in *. cbn [fst snd] in *. rewrite e1, e2, e3. reflexivity.
      * apply IH. unfold in_block, o1, o2, o3. cbn [fst snd]. auto.
Qed.
Lemma nodup_flat {A B} (f : A -> list B) l : NoDup l -> (forall x, In x l -> NoDup (f x)) -> (forall x y b, In x l -> In y l -> In b (f x) -> In b (f y) -> x = y) -> NoDup (flat_map f l).
Proof.
  intros h. induction h as [|x l hx h IH]; intros h1 h2; cbn [flat_map]; [constructor|].
  assert (happ : forall (a b : list B), NoDup a -> NoDup b -> (forall z, In z a -> In z b -> False) -> NoDup (a ++ b)).
  { clear. induction a as [|u a IH]; intros b ha hb hd; [exact hb|]. inversion ha; subst. cbn. constructor; [|apply IH; [assumption|assumption|intros z hz1 hz2; apply (hd z); [right|]; assumption]].
    intros hin. apply in_app_or in hin. destruct hin as [hin|hin]; [contradiction|]. apply (hd u); [left; reflexivity|exact hin]. }
  apply happ.
  - apply h1. left. reflexivity.
  - apply IH; [intros y hy; apply h1; right; exact hy|]. intros y z b hy hz. apply h2; right; assumption.
  - intros b hb hb'. apply in_flat_map in hb'. destruct hb' as [y [hy hby]]. assert (x = y) by (apply (h2 x y b); [left; reflexivity|right; exact hy|exact hb|exact hby]). subst y. contradiction.
Qed.
Lemma nodup_map {A B} (f : A -> B) l : NoDup l -> (forall x y, f x = f y -> x = y) -> NoDup (map f l).
Proof. intros h hf. induction h as [|x l hx h IH]; cbn; constructor; [|exact IH]. intros hin. apply in_map_iff in hin. destruct hin as [y [e hy]]. apply hf in e. subst y. contradiction. Qed.
Lemma zrange_nodup h : NoDup (zrange h).
Proof. apply nodup_map; [apply seq_NoDup|]. intros x y e. lia. Qed.
Lemma level_ops_nodup h k : NoDup (level_ops h k).
Proof.
  unfold level_ops. assert (hp : forall n, (0 < Z.of_nat (2 * n + 1) ^ Z.of_nat k)%Z) by (intros n; apply Z.pow_pos_nonneg; lia).
  apply nodup_flat; [apply zrange_nodup| |].
  - intros x1 _. apply nodup_flat; [apply zrange_nodup| |].
    + intros x2 _. apply nodup_map; [apply zrange_nodup|]. intros x y e. injection e as e. specialize (hp (snd h)). nia.
    + intros x y b _ _ h1 h2. apply in_map_iff in h1. apply in_map_iff in h2. destruct h1 as [u [<- _]], h2 as [w [e _]]. injection e as e _. specialize (hp (snd (fst h))). nia.
  - intros x y b _ _ h1 h2. apply in_flat_map in h1. apply in_flat_map in h2. destruct h1 as [u [_ h1]], h2 as [w [_ h2]]. apply in_map_iff in h1. apply in_map_iff in h2. destruct h1 as [u' [<- _]], h2 as [w' [e _]]. injection e as e _ _. specialize (hp (fst (fst h))). nia.
Qed.
Lemma cells_nodup h k : NoDup (cells h k).
Proof.
  induction k as [|k IH]; cbn [cells]; [constructor; [intros []|constructor]|]. apply nodup_flat; [apply level_ops_nodup| |].
  - intros x _. apply nodup_map; [exact IH|]. intros [[a b] c] [[a' b'] c'] e. unfold zadd3, o1, o2, o3 in e. cbn [fst snd] in e. injection e as e1 e2 e3. apply pair3; lia.
  - intros x y b hx hy hb hb'. apply in_level_ops in hx. apply in_level_ops in hy. destruct hx as (x1 & x2 & x3 & _ & _ & _ & ->). destruct hy as (y1 & y2 & y3 & _ & _ & _ & ->).
    apply in_map_iff in hb. apply in_map_iff in hb'. destruct hb as [u [<- hu]], hb' as [w [e hw]]. apply in_cells in hu. apply in_cells in hw. destruct hu as (u1 & u2 & u3), hw as (w1 & w2 & w3). unfold zadd3, o1, o2, o3 in *. cbn [fst snd] in *. injection e as e1 e2 e3.
    destruct (digit_unique _ _ _ _ _ _ w1 u1 e1) as [-> _], (digit_unique _ _ _ _ _ _ w2 u2 e2) as [-> _], (digit_unique _ _ _ _ _ _ w3 u3 e3) as [-> _]. reflexivity.
Qed.
Theorem levels_exact a h k lmax M qs r0 : holds_to lmax M (moment qs r0) ->
  let s := levels (fun n r => transform Bravais a r n) (rotation Bravais a) (map (level_ops h) (seq 0 k)) (r0, M) in
  exists cs, NoDup cs /\ (forall z, In z cs <-> in_block h k z) /\ fst s = r0 /\ holds_to lmax (snd s) (moment (images (fun n r => transform Bravais a r n) cs qs) r0).
Proof.
  intros hM s. exists (cells h k). destruct (levels_cells a h k lmax M qs r0 hM) as [h1 h2]. split; [apply cells_nodup|]. split; [apply in_cells|]. split; [exact h1|exact h2].
Qed.
(** ** The dipole *)
Lemma moment_dipole qs r0 : moment qs r0 1 0 = RtoC (vz (total_dipole qs r0)) /\ moment qs r0 1 1 = (- vx (total_dipole qs r0) / 2, vy (total_dipole qs r0) / 2)%R.
Proof.
  induction qs as [|[r q] qs [IH0 IH1]]; cbn [moment total_dipole fold_right]; [split; [reflexivity|apply c_eq; cbn; field]|]. fold (total_dipole qs r0). rewrite IH0, IH1. destruct (solid_1 (vsub r r0)) as [_ [-> ->]].
  split; apply c_eq; cbn; field.
Qed.
Theorem dipole_exact lmax M qs r0 : (1 <= lmax)%nat -> holds_to lmax M (moment qs r0) -> dipole M = total_dipole qs r0.
Proof.
  intros hl [h0 hm]. destruct (moment_dipole qs r0) as [e0 e1]. specialize (h0 1%nat hl). specialize (hm 1%nat 1%nat hl ltac:(lia)). change (Z.of_nat 1) with 1%Z in hm. rewrite e0 in h0. rewrite e1 in hm. apply (f_equal fst) in h0. cbn [fst RtoC] in h0.
  unfold dipole. rewrite h0, hm. apply v3_eq; cbn; field.
Qed.
Lemma moment_0 qs r0 : moment qs r0 0 0 = RtoC (total_charge qs).
Proof. induction qs as [|[r q] qs IH]; cbn [moment total_charge fold_right]; [reflexivity|]. fold (total_charge qs). rewrite IH, solid_00, conj_R, RtoC_plus. cbn [snd]. ring. Qed.
Theorem charge_exact lmax M qs r0 : holds_to lmax M (moment qs r0) -> ml0 M 0 = total_charge qs.
Proof. intros [h0 _]. specialize (h0 0%nat ltac:(lia)). rewrite moment_0 in h0. apply (f_equal fst) in h0. exact h0. Qed.
(** ** Wrong origins *)
(** a charged system: the moments are about the old origin, and not about any other *)
Theorem telescope_old_origin c a ops qs r0 M : (forall x, In x ops -> rigid_container c a x) -> holds_to 1 M (moment qs r0) ->
  (total_charge (images (fun n r => transform c a r n) ops qs) <> 0)%R -> next_origin (fun n r => transform c a r n) ops r0 <> r0 ->
  ~ holds_to 1 (telescope (fun n r => transform c a r n) (rotation c a) ops r0 M) (moment (images (fun n r => transform c a r n) ops qs) (next_origin (fun n r => transform c a r n) ops r0)).
Proof.
  intros hc hM hq hne h. pose proof (telescope_exact c a ops 1 M qs r0 hc hM) as h'. set (r1 := next_origin _ ops r0) in *. set (ps := images _ ops qs) in *.
  pose proof (dipole_exact 1 _ _ _ (le_n 1) h) as d1. pose proof (dipole_exact 1 _ _ _ (le_n 1) h') as d0. rewrite d0 in d1.
  assert (g : forall ps r0 r1, vsub (total_dipole ps r0) (total_dipole ps r1) = vscale (total_charge ps) (vsub r1 r0)).
  { clear. induction ps as [|[r q] ps IH]; intros r0 r1; cbn [total_dipole total_charge fold_right]; [apply v3_eq; cbn; ring|]. fold (total_dipole ps r0) (total_dipole ps r1) (total_charge ps). specialize (IH r0 r1).
    assert (e1 := f_equal vx IH). assert (e2 := f_equal vy IH). assert (e3 := f_equal vz IH). cbn in *. apply v3_eq; cbn; nra. }
  specialize (g ps r0 r1). rewrite d1 in g. assert (e1 := f_equal vx g). assert (e2 := f_equal vy g). assert (e3 := f_equal vz g). cbn [vsub vscale vx vy vz] in e1, e2, e3. apply hne. clear -e1 e2 e3 hq. clearbody r1 ps. generalize dependent (total_charge ps). intros Q hq e1 e2 e3.
  assert (z : forall k : R, (Q * k = 0 -> k = 0)%R). { intros k e. apply Rmult_integral in e. destruct e; [contradiction|assumption]. }
  apply v3_eq; [assert (e : (vx r1 - vx r0 = 0)%R)|assert (e : (vy r1 - vy r0 = 0)%R)|assert (e : (vz r1 - vz r0 = 0)%R)]; try (apply z; lra); lra.
Qed.
(** a neutral helix *)
Definition helix (h : R) : atoms := Atoms (fun i j => match i, j with 1%nat, 0%nat => h | 2%nat, 0%nat => PI | _, _ => 0%R end) (false, false, true) [] (0, 0)%R.
Definition helix_ops : list (Z * Z * Z) := [(0, 0, -1)%Z; (0, 0, 0)%Z; (0, 0, 1)%Z].
Definition helix_charges : list (v3 * R) := [(V3 1 0 1, 1%R); (V3 1 0 (-1), (-1)%R)].
Lemma chiral_helix h r x : (x = -1 \/ x = 1)%Z -> transform Chiral (helix h) r (0, 0, x)%Z = V3 (- vx r) (- vy r) (vz r + IZR x * h).
Proof.
  intros hx. unfold transform, rotation, c_angle, c_height, helix, o3. cbn [cell snd fst]. assert (hc : cos (IZR x * PI) = (-1)%R) by (destruct hx as [->| ->]; [replace (-1 * PI)%R with (- PI)%R by ring; rewrite cos_neg|rewrite Rmult_1_l]; apply cos_PI).
  assert (hs : sin (IZR x * PI) = 0%R) by (destruct hx as [->| ->]; [replace (-1 * PI)%R with (- PI)%R by ring; rewrite sin_neg, sin_PI; ring|rewrite Rmult_1_l; apply sin_PI]).
  unfold rotz, mv, vdot. cbn [row1 row2 row3 vx vy vz]. rewrite hc, hs. apply v3_eq; cbn; ring.
Qed.
Lemma chiral_helix0 h r : transform Chiral (helix h) r (0, 0, 0)%Z = r.
Proof. unfold transform, rotation, c_angle, c_height, helix, o3. cbn [cell snd fst]. unfold rotz, mv, vdot. cbn [row1 row2 row3 vx vy vz]. rewrite Rmult_0_l, cos_0, sin_0. apply v3_eq; cbn; ring. Qed.
Lemma solid_21 r : solid r 2 1 = xi r * RtoC (vz r).
Proof. unfold solid, ediv. cbn. apply c_eq; cbn; field. Qed.
Lemma moment_neutral h : 
  let qs := helix_charges in let f := fun n r => transform Chiral (helix h) r n in
  moment (images f helix_ops qs) (V3 1 0 0) 2 1 = RtoC 4 /\ moment (images f helix_ops qs) (V3 (-1/3) 0 0) 2 1 = RtoC 0.
Proof.
  cbn zeta. unfold images, helix_ops, helix_charges. cbn [flat_map map app fst snd]. rewrite !(chiral_helix h _ (-1)) by lia. rewrite !(chiral_helix h _ 1) by lia. rewrite !chiral_helix0. cbn [moment]. rewrite !solid_21. cbn [vsub vx vy vz xi]. split; apply c_eq; cbn; field.
Qed.
Lemma helix_origin h : next_origin (fun n r => transform Chiral (helix h) r n) helix_ops (V3 1 0 0) = V3 (-1/3) 0 0.
Proof. unfold next_origin, helix_ops. cbn [fold_left length]. rewrite !(chiral_helix h _ (-1)) by lia. rewrite !(chiral_helix h _ 1) by lia. rewrite chiral_helix0. apply v3_eq; cbn; field. Qed.
Theorem telescope_helix h : let f := fun n r => transform Chiral (helix h) r n in let r0 := mean_position helix_charges in
  total_charge helix_charges = 0%R /\
  ~ holds_to 2 (telescope f (rotation Chiral (helix h)) helix_ops r0 (get_moments helix_charges r0)) (moment (images f helix_ops helix_charges) (next_origin f helix_ops r0)).
Proof.
  cbn zeta. assert (e : mean_position helix_charges = V3 1 0 0) by (apply v3_eq; cbn; field). rewrite e. split; [cbn; ring|]. rewrite helix_origin. intros h2.
  pose proof (telescope_exact Chiral (helix h) helix_ops 2 (get_moments helix_charges (V3 1 0 0)) helix_charges (V3 1 0 0) ltac:(intros; exact I) (proj1 (holds_to_all _ _) (get_moments_holds _ _) 2%nat)) as h1.
  destruct (moment_neutral h) as [m1 m2]. pose proof (proj2 h1 2%nat 1%nat ltac:(lia) ltac:(lia)) as a1. pose proof (proj2 h2 2%nat 1%nat ltac:(lia) ltac:(lia)) as a2. change (Z.of_nat 1) with 1%Z in *.
  assert (b1 := eq_trans a1 m1). assert (b2 := eq_trans a2 m2). clear a2. assert (a2 := eq_trans (eq_sym b1) b2). apply (f_equal fst) in a2. cbn in a2. lra.
Qed.
