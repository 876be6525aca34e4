(** Moving the origin of multipole moments and of local expansions *)
From Coq Require Import Reals ZArith List Bool Arith Lia Lra Psatz.
From Coquelicot Require Import Coquelicot.
From Verif Require Import Vec GeomModel GeomProofs ScaModel MpModel MpSpec MpProofs MpProofs2.
Import ListNotations.
Open Scope C_scope.

(** ** Sums over a range of integers *)
Lemma zsum_ext lo hi (f g : Z -> C) : (forall i, (lo <= i <= hi)%Z -> f i = g i) -> zsum lo hi f = zsum lo hi g.
Proof. intros h. apply csum_ext. intros i hi'. apply h. lia. Qed.
Lemma zsum_zero lo hi (f : Z -> C) : (forall i, (lo <= i <= hi)%Z -> f i = 0) -> zsum lo hi f = 0.
Proof. intros h. apply csum_zero. intros i hi'. apply h. lia. Qed.
Lemma zsum_plus lo hi f g : zsum lo hi (fun i => f i + g i) = zsum lo hi f + zsum lo hi g. Proof. apply csum_plus. Qed.
Lemma zsum_scal lo hi c f : zsum lo hi (fun i => c * f i) = c * zsum lo hi f. Proof. apply csum_scal. Qed.
Lemma zsum_scal_r lo hi c f : zsum lo hi (fun i => f i * c) = zsum lo hi f * c. Proof. apply csum_scal_r. Qed.
Lemma zsum_conj lo hi f : Cconj (zsum lo hi f) = zsum lo hi (fun i => Cconj (f i)). Proof. apply csum_conj. Qed.
Lemma zsum_swap lo hi lo' hi' (f : Z -> Z -> C) : zsum lo hi (fun i => zsum lo' hi' (f i)) = zsum lo' hi' (fun j => zsum lo hi (fun i => f i j)).
Proof. apply (csum_swap _ _ (fun i j => f (lo + Z.of_nat i)%Z (lo' + Z.of_nat j)%Z)). Qed.
Lemma zsum_split lo k hi (f : Z -> C) : (lo <= k + 1)%Z -> (k <= hi)%Z -> zsum lo hi f = zsum lo k f + zsum (k + 1) hi f.
Proof.
  intros h1 h2. unfold zsum. replace (Z.to_nat (hi - lo + 1)) with (Z.to_nat (k - lo + 1) + Z.to_nat (hi - (k + 1) + 1))%nat by lia.
  rewrite csum_app. f_equal. apply csum_ext. intros i hi'. replace (lo + Z.of_nat (Z.to_nat (k - lo + 1) + i))%Z with (k + 1 + Z.of_nat i)%Z by lia. reflexivity.
Qed.
Lemma zsum_narrow lo hi lo' hi' (f : Z -> C) : (lo <= lo')%Z -> (hi' <= hi)%Z -> (forall i, (lo <= i <= hi)%Z -> (i < lo' \/ hi' < i)%Z -> f i = 0) -> zsum lo hi f = zsum lo' hi' f.
Proof.
  intros h1 h2 h. destruct (Z_lt_le_dec hi' lo') as [he|he].
  - rewrite (zsum_zero lo hi), (zsum_zero lo' hi'); [reflexivity| |]; intros i hi''; [lia|]. apply h; lia.
  - rewrite (zsum_split lo (lo' - 1) hi) by lia. rewrite (zsum_zero lo (lo' - 1)) by (intros i hi''; apply h; lia). replace (lo' - 1 + 1)%Z with lo' by ring.
    rewrite (zsum_split lo' hi' hi) by lia. rewrite (zsum_zero (hi' + 1) hi) by (intros i hi''; apply h; lia). ring.
Qed.
Lemma zsum_single lo hi k (f : Z -> C) : (lo <= k <= hi)%Z -> (forall i, (lo <= i <= hi)%Z -> i <> k -> f i = 0) -> zsum lo hi f = f k.
Proof.
  intros hk h. unfold zsum. rewrite (csum_single _ (Z.to_nat (k - lo))); [|lia|].
  - replace (lo + Z.of_nat (Z.to_nat (k - lo)))%Z with k by lia. reflexivity.
  - intros i hi' hne. apply h; lia.
Qed.
Lemma zsum_shift lo hi k (f : Z -> C) : zsum lo hi f = zsum (lo - k) (hi - k) (fun i => f (i + k)%Z).
Proof.
  unfold zsum. replace (hi - k - (lo - k) + 1)%Z with (hi - lo + 1)%Z by ring. apply csum_ext. intros i _. replace (lo - k + Z.of_nat i + k)%Z with (lo + Z.of_nat i)%Z by ring. reflexivity.
Qed.
Lemma zsum_sym k (f : Z -> C) : zsum (- Z.of_nat k) (Z.of_nat k) f = f 0%Z + csum k (fun i => f (Z.of_nat (S i)) + f (- Z.of_nat (S i))%Z).
Proof.
  induction k as [|k IH]; [cbn [csum]; rewrite (zsum_single _ _ 0); [ring|lia|intros; lia]|]. cbn [csum]. rewrite Cplus_assoc, <- IH.
  rewrite (zsum_split _ (Z.of_nat k) (Z.of_nat (S k))) by lia. rewrite (zsum_split _ (- Z.of_nat (S k)) (Z.of_nat k)) by lia.
  rewrite (zsum_single (- Z.of_nat (S k)) (- Z.of_nat (S k)) (- Z.of_nat (S k))) by (intros; lia). rewrite (zsum_single (Z.of_nat k + 1) (Z.of_nat (S k)) (Z.of_nat (S k))) by (intros; lia).
  replace (- Z.of_nat (S k) + 1)%Z with (- Z.of_nat k)%Z by lia. ring.
Qed.
Lemma zsum_rev k (f : Z -> C) : zsum (- Z.of_nat k) (Z.of_nat k) f = zsum (- Z.of_nat k) (Z.of_nat k) (fun i => f (- i)%Z).
Proof. rewrite !zsum_sym. f_equal. apply csum_ext. intros i _. rewrite Z.opp_involutive. ring. Qed.
(** pairs (i, j) with an even sum *)
Lemma pairs N (F : Z -> Z -> C) : (forall i j, Z.odd (i + j) = true -> F i j = 0) ->
  (forall i j, (i < 0 \/ j < 0 \/ Z.of_nat N <= i \/ Z.of_nat N <= j)%Z -> F i j = 0) ->
  S_ N (fun i => S_ N (fun j => F i j)) = S_ N (fun la => zsum (- Z.of_nat N) (Z.of_nat N) (fun mu => F (la + mu)%Z (la - mu)%Z)).
Proof.
  intros hodd hout. set (d := fun (b : bool) => if b then RtoC 1 else RtoC 0). set (M := Z.of_nat N).
  transitivity (S_ N (fun i => S_ N (fun j => S_ N (fun la => zsum (- M) M (fun mu => d ((la + mu =? i) && (la - mu =? j))%Z * F i j))))).
  - apply S_ext. intros i hi. apply S_ext. intros j hj. destruct (Z.odd (i + j)) eqn:E.
    + rewrite hodd by exact E. symmetry. apply S_zero. intros la _. apply zsum_zero. intros mu _. ring.
    + assert (hk : exists k, (i + j = 2 * k)%Z) by (rewrite <- Z.negb_even in E; apply negb_false_iff in E; apply Z.even_spec in E; exact E). destruct hk as [k hk].
      symmetry. transitivity (zsum (- M) M (fun mu => d ((k + mu =? i) && (k - mu =? j))%Z * F i j)).
      * unfold S_. rewrite (csum_single N (Z.to_nat k)).
        -- rewrite Z2Nat.id by lia. reflexivity.
        -- lia.
        -- intros a ha hne. apply zsum_zero. intros mu _. destruct (Z.eqb_spec (Z.of_nat a + mu) i) as [e1|e1]; cbn [andb d]; [|ring]. destruct (Z.eqb_spec (Z.of_nat a - mu) j) as [e3|e3]; cbn [d]; [lia|ring].
      * rewrite (zsum_single (- M) M (i - k)%Z).
        -- replace (k + (i - k) =? i)%Z with true by (symmetry; apply Z.eqb_eq; ring). replace (k - (i - k) =? j)%Z with true by (symmetry; apply Z.eqb_eq; lia). cbn. ring.
        -- unfold M. lia.
        -- intros mu _ hne. replace (k + mu =? i)%Z with false by (symmetry; apply Z.eqb_neq; lia). cbn. ring.
  - transitivity (S_ N (fun la => zsum (- M) M (fun mu => S_ N (fun i => S_ N (fun j => d ((la + mu =? i) && (la - mu =? j))%Z * F i j))))).
    + unfold S_. transitivity (csum N (fun i => csum N (fun la => csum N (fun j => zsum (- M) M (fun mu => d ((Z.of_nat la + mu =? Z.of_nat i) && (Z.of_nat la - mu =? Z.of_nat j))%Z * F (Z.of_nat i) (Z.of_nat j)))))).
      { apply csum_ext. intros i _. apply csum_swap. }
      rewrite csum_swap. apply csum_ext. intros la _. unfold zsum. 
      transitivity (csum N (fun i => csum (Z.to_nat (M - - M + 1)) (fun k => csum N (fun j => d ((Z.of_nat la + (- M + Z.of_nat k) =? Z.of_nat i) && (Z.of_nat la - (- M + Z.of_nat k) =? Z.of_nat j))%Z * F (Z.of_nat i) (Z.of_nat j))))).
      { apply csum_ext. intros i _. apply csum_swap. }
      apply csum_swap.
    + apply S_ext. intros la hla. apply zsum_ext. intros mu hmu.
      destruct (Z_lt_le_dec (la + mu) 0) as [h1|h1]; [rewrite hout by lia; apply S_zero; intros i hi; apply S_zero; intros j hj; replace (la + mu =? i)%Z with false by (symmetry; apply Z.eqb_neq; lia); cbn; ring|].
      destruct (Z_lt_le_dec (la - mu) 0) as [h2|h2]; [rewrite hout by lia; apply S_zero; intros i hi; apply S_zero; intros j hj; replace (la - mu =? j)%Z with false by (symmetry; apply Z.eqb_neq; lia); rewrite andb_false_r; cbn; ring|].
      destruct (Z_lt_le_dec (la + mu) M) as [h3|h3]; [|rewrite hout by lia; apply S_zero; intros i hi; apply S_zero; intros j hj; replace (la + mu =? i)%Z with false by (symmetry; apply Z.eqb_neq; lia); cbn; ring].
      destruct (Z_lt_le_dec (la - mu) M) as [h4|h4]; [|rewrite hout by lia; apply S_zero; intros i hi; apply S_zero; intros j hj; replace (la - mu =? j)%Z with false by (symmetry; apply Z.eqb_neq; lia); rewrite andb_false_r; cbn; ring].
      unfold S_. rewrite (csum_single N (Z.to_nat (la + mu))); [|lia|].
      * rewrite (csum_single N (Z.to_nat (la - mu))); [|lia|].
        -- rewrite !Z2Nat.id by lia. rewrite !Z.eqb_refl. cbn. ring.
        -- intros j hj hne. replace (la - mu =? Z.of_nat j)%Z with false by (symmetry; apply Z.eqb_neq; lia). rewrite andb_false_r. cbn. ring.
      * intros i hi hne. apply csum_zero. intros j _. replace (la + mu =? Z.of_nat i)%Z with false by (symmetry; apply Z.eqb_neq; lia). cbn. ring.
Qed.
Lemma h_odd x e z u v : Z.odd (u + v) = true -> hc x e z u v = 0.
Proof.
  intros ho. apply S_zero. intros s _. unfold e2. destruct (Z.even (u - s)) eqn:E1; [|ring]. destruct (Z.even (v - s)) eqn:E2; [|ring]. exfalso.
  rewrite Z.odd_add in ho. rewrite <- !Z.negb_odd, Z.odd_sub in E1, E2. destruct (Z.odd u), (Z.odd v), (Z.odd s); discriminate.
Qed.
(** ** The addition theorem *)
Lemma xi_add a b : xi (vadd a b) = xi a + xi b. Proof. apply c_eq; cbn; field. Qed.
Lemma eta_add a b : eta (vadd a b) = eta a + eta b. Proof. apply c_eq; cbn; field. Qed.
Lemma solid_nat (r : v3) (l m : Z) : (0 <= l)%Z -> hr r (l + m) (l - m) = solid r (Z.to_nat l) m.
Proof. intros h. rewrite solid_hc, Z2Nat.id by exact h. reflexivity. Qed.
Theorem solid_add a b l m : solid (vadd a b) l m =
  csum (S l) (fun la => zsum (- Z.of_nat la) (Z.of_nat la) (fun mu => solid a (l - la) (m - mu) * solid b la mu)).
Proof.
  rewrite solid_hc. unfold hr. rewrite xi_add, eta_add. replace (RtoC (vz (vadd a b))) with (RtoC (vz b) + RtoC (vz a)) by (rewrite <- RtoC_plus; f_equal; cbn; ring).
  rewrite (Cplus_comm (xi a)), (Cplus_comm (eta a)). set (N := Z.to_nat (2 * Z.of_nat l + Z.abs m + 1)). rewrite (addition _ _ _ _ _ _ N) by (unfold N; lia). unfold conv.
  fold (hr a) (hr b). rewrite (pairs N (fun i j => hr b i j * hr a (Z.of_nat l + m - i) (Z.of_nat l - m - j))).
  - transitivity (S_ (S l) (fun la => zsum (- Z.of_nat N) (Z.of_nat N) (fun mu => hr b (la + mu) (la - mu) * hr a (Z.of_nat l + m - (la + mu)) (Z.of_nat l - m - (la - mu))))).
    + apply S_longer; [unfold N; lia|]. intros la hla. apply zsum_zero. intros mu _. unfold hr at 2. rewrite (h_neg (xi a)) by lia. ring.
    + apply csum_ext. intros la hla. transitivity (zsum (- Z.of_nat N) (Z.of_nat N) (fun mu => solid a (l - la) (m - mu) * solid b la mu)).
      * apply zsum_ext. intros mu _. rewrite solid_nat by lia. rewrite Nat2Z.id. replace (Z.of_nat l + m - (Z.of_nat la + mu))%Z with (Z.of_nat (l - la) + (m - mu))%Z by lia.
        replace (Z.of_nat l - m - (Z.of_nat la - mu))%Z with (Z.of_nat (l - la) - (m - mu))%Z by lia. rewrite solid_nat by lia. rewrite Nat2Z.id. ring.
      * apply zsum_narrow; [unfold N; lia|unfold N; lia|]. intros mu _ hmu. rewrite (solid_out b) by lia. ring.
  - intros i j hij. unfold hr at 1. rewrite h_odd by exact hij. ring.
  - intros i j hij. destruct hij as [h|[h|h]]; [unfold hr at 1; rewrite h_neg by lia; ring|unfold hr at 1; rewrite h_neg by lia; ring|].
    unfold hr at 2. rewrite (h_neg (xi a)) by (unfold N in h; lia). ring.
Qed.
(** ** Arrays *)
Definition symm (f : nat -> Z -> C) : Prop := forall l m, f l (- m)%Z = sg m * Cconj (f l m).
Lemma sg_opp m : sg (- m) = sg m. Proof. unfold sg. replace (Z.abs_nat (- m)) with (Z.abs_nat m) by lia. reflexivity. Qed.
Lemma sg_sq m : sg m * sg m = 1. Proof. unfold sg. rewrite <- RtoC_mult, sgn_sq. reflexivity. Qed.
Lemma sg_conj m : Cconj (sg m) = sg m. Proof. apply conj_R. Qed.
Lemma sgn_parity a b : Nat.even a = Nat.even b -> sgn a = sgn b.
Proof.
  assert (h : forall n, sgn n = if Nat.even n then 1%R else (-1)%R).
  { intros n. induction n as [|n IH]; [reflexivity|]. unfold sgn in *. cbn [pow]. rewrite IH, Nat.even_succ, <- Nat.negb_even. destruct (Nat.even n); cbn; ring. }
  intros e. rewrite !h, e. reflexivity.
Qed.
Lemma sg_add a b : sg (a + b) = sg a * sg b.
Proof.
  unfold sg. rewrite <- RtoC_mult, sgn_mul. f_equal. apply sgn_parity. 
  assert (hz : forall n, Nat.even (Z.abs_nat n) = Z.even n).
  { intros n. transitivity (Z.even (Z.of_nat (Z.abs_nat n))).
    - destruct (Nat.Even_or_Odd (Z.abs_nat n)) as [[k ->]|[k ->]].
      + rewrite Nat2Z.inj_mul. change (Z.of_nat 2) with 2%Z. rewrite Z.even_mul, Nat.even_mul. reflexivity.
      + rewrite Nat2Z.inj_add, Nat2Z.inj_mul. change (Z.of_nat 2) with 2%Z. change (Z.of_nat 1) with 1%Z. rewrite Z.even_add, Z.even_mul, Nat.even_add, Nat.even_mul. reflexivity.
    - rewrite Zabs2Nat.id_abs. destruct (Z.abs_eq_or_opp n) as [->| ->]; [reflexivity|apply Z.even_opp]. }
  rewrite Nat.even_add, !hz, Z.even_add. reflexivity.
Qed.
Lemma symm_conj f : symm f -> symm (fun l m => Cconj (f l m)).
Proof. intros h l m. rewrite h, conj_mult, sg_conj. reflexivity. Qed.
Lemma symm_solid r : symm (solid r).
Proof. intros l m. rewrite solid_conj, Cmult_assoc, sg_sq. ring. Qed.
Lemma symm_moment qs r0 : symm (moment qs r0).
Proof.
  intros l m. induction qs as [|[r q] qs IH]; cbn [moment]; [rewrite conj_R; ring|]. rewrite conj_plus, conj_mult, conj_R, IH. rewrite (symm_conj _ (symm_solid (vsub r r0)) l m). ring.
Qed.
Lemma symm_0 f l : symm f -> f l 0%Z = RtoC (Re (f l 0%Z)).
Proof.
  intros h. specialize (h l 0%Z). change (- 0)%Z with 0%Z in h. change (sg 0) with (RtoC 1) in h. apply (f_equal snd) in h. cbn in h. apply c_eq; [reflexivity|]. cbn. cbn in h. lra.
Qed.
Lemma at_m_holds lmax M f l m : holds_to lmax M f -> symm f -> (l <= lmax)%nat -> (- Z.of_nat l <= m <= Z.of_nat l)%Z -> at_m M l m = f l m.
Proof.
  intros [h0 hm] hs hl hr. unfold at_m. destruct (m <? 0)%Z eqn:E1; [apply Z.ltb_lt in E1|apply Z.ltb_ge in E1].
  - rewrite hm by lia. rewrite Z2Nat.id by lia. replace m with (- (- m))%Z at 3 by ring. rewrite (hs l (- m)%Z). unfold sg. replace (Z.abs_nat (- m)) with (Z.to_nat (- m)) by lia. reflexivity.
  - destruct (m =? 0)%Z eqn:E2; [apply Z.eqb_eq in E2; subst m; apply h0; exact hl|apply Z.eqb_neq in E2]. rewrite hm by lia. rewrite Z2Nat.id by lia. reflexivity.
Qed.
Lemma holds_to_all M f : holds M f <-> forall lmax, holds_to lmax M f.
Proof.
  split; [intros [h1 h2] lmax; split; [intros l _; apply h1|intros l m _; apply h2]|]. intros h. split; [intros l; apply (proj1 (h l)); lia|]. intros l m hm. apply (proj2 (h l)); lia.
Qed.
Lemma holds_to_ext lmax M f g : holds_to lmax M f -> (forall l m, (l <= lmax)%nat -> (0 <= m <= Z.of_nat l)%Z -> f l m = g l m) -> holds_to lmax M g.
Proof. intros [h0 hm] h. split; intros; [rewrite h0 by assumption|rewrite hm by assumption]; apply h; lia. Qed.
(** ** multipole_to_multipole *)
Definition shifted (f : nat -> Z -> C) (dr : v3) (l : nat) (m : Z) : C :=
  csum (S l) (fun la => zsum (- Z.of_nat la) (Z.of_nat la) (fun mu => (if (Z.abs (m - mu) <=? Z.of_nat (l - la))%Z then f (l - la)%nat (m - mu)%Z else 0) * Cconj (solid dr la mu))).
Lemma m2m_gen lmax dr child M f g : is_zero dr = false -> symm f -> holds_to lmax child f -> holds_to lmax M g ->
  holds_to lmax (m2m dr child M) (fun l m => g l m + shifted f dr l m).
Proof.
  intros hz hs hc hM. unfold m2m. rewrite hz. pose proof (proj1 (holds_to_all _ _) (harm_R_holds dr hz)) as hH. split; cbn [ml0 mlm].
  - intros l hl. rewrite RtoC_plus, (proj1 hM l hl). f_equal. unfold shifted. rewrite csum_R. apply csum_ext. intros la hla.
    rewrite (zsum_narrow _ _ (- Z.of_nat (Nat.min la (l - la))) (Z.of_nat (Nat.min la (l - la)))); [|lia|lia|].
    2: { intros mu h1 h2. replace (Z.abs (0 - mu) <=? Z.of_nat (l - la))%Z with false by (symmetry; apply Z.leb_gt; lia). ring. }
    rewrite zsum_sym. rewrite RtoC_plus, csum_R. f_equal.
    + change (0 - 0)%Z with 0%Z. cbn [Z.abs]. replace (0 <=? Z.of_nat (l - la))%Z with true by (symmetry; apply Z.leb_le; lia). rewrite RtoC_mult, (proj1 hc) by lia. rewrite (proj1 (hH la)) by lia.
      f_equal. rewrite solid_conj. change (sg 0) with (RtoC 1). change (- 0)%Z with 0%Z. ring.
    + apply csum_ext. intros i hi. set (mu := S i). replace (Z.abs (0 - Z.of_nat mu) <=? Z.of_nat (l - la))%Z with true by (symmetry; apply Z.leb_le; unfold mu; lia).
      replace (Z.abs (0 - - Z.of_nat mu) <=? Z.of_nat (l - la))%Z with true by (symmetry; apply Z.leb_le; unfold mu; lia).
      rewrite (proj2 hc) by (unfold mu; lia). rewrite (proj2 (hH la)) by (unfold mu; lia). replace (0 - Z.of_nat mu)%Z with (- Z.of_nat mu)%Z by ring. replace (0 - - Z.of_nat mu)%Z with (Z.of_nat mu) by ring.
      rewrite (hs (l - la)%nat (Z.of_nat mu)). rewrite (symm_solid dr la (Z.of_nat mu)). rewrite conj_mult, conj_conj, sg_conj. unfold sg. replace (Z.abs_nat (Z.of_nat mu)) with mu by lia.
      apply c_eq; cbn; ring.
  - intros l m hl hm. rewrite (proj2 hM l m hl hm). f_equal. unfold shifted. apply csum_ext. intros la hla.
    rewrite (zsum_narrow (- Z.of_nat la) (Z.of_nat la) (Z.max (- Z.of_nat la) (Z.of_nat la - Z.of_nat l + Z.of_nat m)) (Z.min (Z.of_nat la) (- Z.of_nat la + Z.of_nat l + Z.of_nat m))); [|lia|lia|].
    2: { intros mu h1 h2. replace (Z.abs (Z.of_nat m - mu) <=? Z.of_nat (l - la))%Z with false by (symmetry; apply Z.leb_gt; lia). ring. }
    apply zsum_ext. intros mu hmu. replace (Z.abs (Z.of_nat m - mu) <=? Z.of_nat (l - la))%Z with true by (symmetry; apply Z.leb_le; lia).
    rewrite (at_m_holds lmax child f) by (assumption || lia). rewrite (at_m_holds la _ (solid dr) la mu (hH la) (symm_solid dr)) by lia. reflexivity.
Qed.
Lemma shifted_moment qs r0 dr l m : shifted (moment qs r0) dr l m = moment qs (vsub r0 dr) l m.
Proof.
  induction qs as [|[r q] qs IH]; cbn [moment].
  - apply csum_zero. intros la _. apply zsum_zero. intros mu _. destruct (_ <=? _)%Z; ring.
  - rewrite <- IH. replace (vsub r (vsub r0 dr)) with (vadd (vsub r r0) dr) by (apply v3_eq; cbn; ring). rewrite solid_add, csum_conj, <- csum_scal. unfold shifted. rewrite <- csum_plus.
    apply csum_ext. intros la _. rewrite zsum_conj, <- zsum_scal, <- zsum_plus. apply zsum_ext. intros mu _. destruct (Z.leb_spec (Z.abs (m - mu)) (Z.of_nat (l - la))) as [h|h].
    + rewrite conj_mult. ring.
    + rewrite (solid_out (vsub r r0)) by lia. rewrite conj_mult, conj_R. ring.
Qed.
Lemma moment_app a b r0 l m : moment (a ++ b) r0 l m = moment a r0 l m + moment b r0 l m.
Proof. induction a as [|[r q] a IH]; cbn [moment app]; [ring|]. rewrite IH. ring. Qed.
Theorem m2m_exact lmax dr child M qs ps r0 : holds_to lmax child (moment qs r0) -> holds_to lmax M (moment ps (vsub r0 dr)) ->
  holds_to lmax (m2m dr child M) (moment (ps ++ qs) (vsub r0 dr)).
Proof.
  intros hc hM. destruct (is_zero dr) eqn:E.
  - unfold m2m. rewrite E. apply is_zero_true in E. subst dr. assert (e : vsub r0 vzero = r0) by (apply v3_eq; cbn; ring). rewrite e in *.
    split; cbn [ml0 mlm add_moments]; intros; rewrite moment_app.
    + rewrite RtoC_plus, (proj1 hM), (proj1 hc) by assumption. reflexivity.
    + rewrite (proj2 hM), (proj2 hc) by assumption. reflexivity.
  - eapply holds_to_ext; [apply m2m_gen; [exact E|apply symm_moment|exact hc|exact hM]|]. intros l m _ _. cbn beta. rewrite shifted_moment, moment_app. reflexivity.
Qed.
(** ** get_moments *)
Theorem get_moments_holds qs r0 : holds (get_moments qs r0) (moment qs r0).
Proof.
  unfold get_moments. set (step := fun (M : moments) (p : v3 * R) => _).
  assert (h : forall qs M g, holds M (fun l m => Cconj (g l m)) -> holds (fold_left step qs M) (fun l m => Cconj (g l m + moment qs r0 l m))).
  { clear qs. induction qs as [|[r q] qs IH]; intros M g hM; cbn [fold_left].
    - destruct hM as [h0 hm]. split; intros; cbn [moment]; rewrite Cplus_0_r; [apply h0|apply hm; assumption].
    - specialize (IH (step M (r, q)) (fun l m => g l m + RtoC q * Cconj (solid (vsub r r0) l m))). cbn [moment].
      destruct IH as [h0 hm].
      + destruct (py_solid_R_holds (vsub r r0)) as [s0 sm]. destruct hM as [m0 mm]. split; intros; unfold step; cbn [fst snd add_moments ml0 mlm]; rewrite conj_plus, conj_mult, conj_R, conj_conj.
        * rewrite RtoC_plus, RtoC_mult, m0, s0. reflexivity.
        * rewrite mm, sm by assumption. reflexivity.
      + split; intros; [rewrite h0|rewrite hm by assumption]; rewrite Cplus_assoc; reflexivity. }
  specialize (h qs zero_moments (fun _ _ => 0)). destruct h as [h0 hm]; [split; intros; cbn; rewrite conj_R; reflexivity|].
  split; cbn [ml0 mlm].
  - intros l. rewrite h0, Cplus_0_l. pose proof (symm_moment qs r0 l 0%Z) as e. change (- 0)%Z with 0%Z in e. change (sg 0) with (RtoC 1) in e. rewrite e at 2. ring.
  - intros l m h. rewrite hm by assumption. rewrite conj_conj. ring.
Qed.
