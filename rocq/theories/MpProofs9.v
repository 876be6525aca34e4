(** multipole_to_local: the error of the local expansion *)
From Coq Require Import Reals ZArith List Bool Arith Lia Lra Psatz.
From Coquelicot Require Import Coquelicot.
From Verif Require Import Vec GeomModel GeomSpec GeomProofs ScaModel MpModel MpSpec MpProofs MpProofs2 MpProofs3 MpProofs4 MpProofs5 MpProofs7 MpProofs8.
Import ListNotations.
Open Scope R_scope.

(** ** Binomial coefficients *)
Fixpoint bn (n k : nat) : R := match n, k with _, O => 1 | O, S _ => 0 | S n, S k => bn n k + bn n (S k) end.
Lemma bn_0 n : bn n 0 = 1. Proof. destruct n; reflexivity. Qed.
Lemma bn_SS n k : bn (S n) (S k) = bn n k + bn n (S k). Proof. reflexivity. Qed.
Lemma bn_pos n k : 0 <= bn n k.
Proof. revert k. induction n as [|n IH]; intros [|k]; cbn [bn]; try lra. pose proof (IH k). pose proof (IH (S k)). lra. Qed.
Lemma bn_out n k : (n < k)%nat -> bn n k = 0.
Proof. revert k. induction n as [|n IH]; intros [|k] h; cbn [bn]; try lia; try lra. rewrite !IH by lia. lra. Qed.
Lemma bn_diag n : bn n n = 1.
Proof. induction n as [|n IH]; [reflexivity|]. rewrite bn_SS, IH, bn_out by lia. lra. Qed.
Lemma bn_fact p q : bn (p + q) p * (INR (fact p) * INR (fact q)) = INR (fact (p + q)).
Proof.
  revert q. induction p as [|p IHp]; intros q; [rewrite bn_0; change (INR (fact 0)) with 1; cbn [Nat.add]; ring|]. induction q as [|q IHq].
  - rewrite Nat.add_0_r, bn_diag. change (INR (fact 0)) with 1. ring.
  - replace (S p + S q)%nat with (S (p + S q)) by lia. rewrite bn_SS. specialize (IHp (S q)). replace (p + S q)%nat with (S p + q)%nat in * by lia.
    rewrite Rmult_plus_distr_r. rewrite (fact_simpl (S p + q)), mult_INR.
    transitivity (INR (S p) * (bn (S p + q) p * (INR (fact p) * INR (fact (S q)))) + INR (S q) * (bn (S p + q) (S p) * (INR (fact (S p)) * INR (fact q)))).
    + rewrite (fact_simpl p), (fact_simpl q), !mult_INR. ring.
    + rewrite IHp, IHq. rewrite <- Rmult_plus_distr_r. f_equal. rewrite <- plus_INR. f_equal. lia.
Qed.
Lemma vandermonde m n k : rsum (S k) (fun i => bn m i * bn n (k - i)) = bn (m + n) k.
Proof.
  revert k. induction m as [|m IH]; intros k.
  - rewrite rsum_shift. rewrite rsum_eq0; [rewrite bn_0, Nat.sub_0_r; cbn [Nat.add]; ring|]. intros i _. cbn [bn]. ring.
  - destruct k as [|k]; [cbn [rsum]; rewrite Nat.sub_0_r, !bn_0; ring|]. cbn [Nat.add]. rewrite bn_SS, <- (IH k), <- (IH (S k)). rewrite (rsum_shift (S k) (fun i => bn (S m) i * bn n (S k - i))), (rsum_shift (S k) (fun i => bn m i * bn n (S k - i))).
    rewrite !bn_0. cbn [Nat.sub]. rewrite (rsum_ext (S k) (fun i => bn (S m) (S i) * bn n (k - i)) (fun i => bn m i * bn n (k - i) + bn m (S i) * bn n (k - i))); [rewrite rsum_plus; ring|]. intros i _. rewrite bn_SS. ring.
Qed.
Lemma bn_term n k x y : 0 <= x -> 0 <= y -> (k <= n)%nat -> bn n k * (x ^ k * y ^ (n - k)) <= (x + y) ^ n.
Proof.
  intros hx hy. revert k. induction n as [|n IH]; intros k hk; [replace k with 0%nat by lia; cbn; lra|].
  assert (hp : forall j, 0 <= x ^ j) by (intros; apply pow_le; lra). assert (hp' : forall j, 0 <= y ^ j) by (intros; apply pow_le; lra).
  destruct k as [|k].
  - rewrite bn_0. cbn [pow Nat.sub]. pose proof (IH 0%nat ltac:(lia)) as h. rewrite bn_0, Nat.sub_0_r in h. cbn [pow] in h. pose proof (hp' n). pose proof (pow_le (x + y) n ltac:(lra)). nra.
  - rewrite bn_SS. cbn [Nat.sub]. pose proof (IH k ltac:(lia)) as h1. destruct (Nat.eq_dec k n) as [->|hne].
    + rewrite (bn_out n (S n)) by lia. rewrite Nat.sub_diag in *. cbn [pow] in *. pose proof (pow_le (x + y) n ltac:(lra)). nra.
    + pose proof (IH (S k) ltac:(lia)) as h2. replace (n - k)%nat with (S (n - S k)) in * by lia. cbn [pow] in *. nra.
Qed.
(** ** Sums over pairs *)
Lemma rsum_longer n m f : (n <= m)%nat -> (forall i, (n <= i < m)%nat -> f i = 0) -> rsum m f = rsum n f.
Proof. intros hnm h. replace m with (n + (m - n))%nat by lia. rewrite rsum_split, (rsum_eq0 (m - n)); [ring|]. intros i hi. apply h. lia. Qed.
Lemma rsum_diag a b (F : nat -> nat -> R) : rsum a (fun i => rsum b (fun j => F i j)) = rsum (a + b) (fun k => rsum a (fun i => if ((i <=? k) && (k - i <? b))%nat%bool then F i (k - i)%nat else 0)).
Proof.
  rewrite rsum_swap. rewrite (rsum_swap (a + b)). rewrite (rsum_swap b). apply rsum_ext. intros i hi.
  replace (a + b)%nat with (i + (b + (a - i)))%nat by lia. rewrite rsum_split, rsum_split. rewrite (rsum_eq0 i), (rsum_eq0 (a - i)).
  - rewrite Rplus_0_l, Rplus_0_r. apply rsum_ext. intros j hj. replace (i <=? i + j)%nat with true by (symmetry; apply Nat.leb_le; lia). replace (i + j - i)%nat with j by lia. replace (j <? b)%nat with true by (symmetry; apply Nat.ltb_lt; lia). reflexivity.
  - intros j hj. replace (i + (b + j) - i)%nat with (b + j)%nat by lia. replace (b + j <? b)%nat with false by (symmetry; apply Nat.ltb_ge; lia). rewrite andb_false_r. reflexivity.
  - intros j hj. replace (i <=? j)%nat with false by (symmetry; apply Nat.leb_gt; lia). reflexivity.
Qed.
(** ** Products of sequences *)
Definition fsq (N : nat) (f : nat -> R) : R := rsum (S N) (fun i => INR (fact i) * INR (fact (N - i)) * (f i * f i)).
Lemma fact_pos i : 0 < INR (fact i). Proof. apply lt_0_INR, lt_O_fact. Qed.
Lemma product_bound p q (f g D : nat -> R) (t : R) : 0 < t -> 
  rsum (S p) (fun i => rsum (S q) (fun j => f i * g j * (INR (fact (i + j)) * INR (fact (p + q - (i + j))) * D (i + j)%nat))) <=
  (t * (fsq p f * fsq q g) + / t * (bn (p + q) p * fsq (p + q) D)) / 2.
Proof.
  intros ht. set (w := fun i j => INR (fact i) * INR (fact (p - i)) * (INR (fact j) * INR (fact (q - j)))). set (v := fun k => INR (fact k) * INR (fact (p + q - k))).
  assert (hw : forall i j, 0 < w i j) by (intros; unfold w; repeat apply Rmult_lt_0_compat; apply fact_pos). assert (hv : forall k, 0 < v k) by (intros; unfold v; apply Rmult_lt_0_compat; apply fact_pos).
  assert (it : 0 < / t) by (apply Rinv_0_lt_compat; exact ht).
  apply Rle_trans with (rsum (S p) (fun i => rsum (S q) (fun j => t / 2 * (w i j * (f i * g j * (f i * g j))) + / t / 2 * (v (i + j)%nat * v (i + j)%nat * (D (i + j)%nat * D (i + j)%nat) / w i j)))).
  { apply rsum_le. intros i _. apply rsum_le. intros j _. fold (v (i + j)%nat). specialize (hw i j). set (x := f i * g j). set (y := v (i + j)%nat * D (i + j)%nat). set (W := w i j) in *.
    assert (e : t / 2 * (W * (x * x)) + / t / 2 * (v (i + j)%nat * v (i + j)%nat * (D (i + j)%nat * D (i + j)%nat) / W) - x * y = / (2 * t * W) * ((t * W * x - y) * (t * W * x - y))) by (unfold y; field; lra).
    assert (h0 : 0 <= / (2 * t * W) * ((t * W * x - y) * (t * W * x - y))). { apply Rmult_le_pos; [apply Rlt_le, Rinv_0_lt_compat; nra|apply Rle_0_sqr]. } lra. }
  rewrite (rsum_ext (S p) _ (fun i => t / 2 * (INR (fact i) * INR (fact (p - i)) * (f i * f i)) * fsq q g + / t / 2 * rsum (S q) (fun j => v (i + j)%nat * v (i + j)%nat * (D (i + j)%nat * D (i + j)%nat) / w i j))).
  2: { intros i _. rewrite rsum_plus, (rsum_scal (S q) (/ t / 2)). f_equal. unfold fsq. rewrite <- rsum_scal. apply rsum_ext. intros j _. unfold w. ring. }
  rewrite rsum_plus, rsum_scal_r, !rsum_scal. fold (fsq p f).
  assert (h2 : rsum (S p) (fun i => rsum (S q) (fun j => v (i + j)%nat * v (i + j)%nat * (D (i + j)%nat * D (i + j)%nat) / w i j)) <= bn (p + q) p * fsq (p + q) D).
  { rewrite (rsum_diag (S p) (S q) (fun i j => v (i + j)%nat * v (i + j)%nat * (D (i + j)%nat * D (i + j)%nat) / w i j)).
    rewrite (rsum_longer (S (p + q))); [|lia|]. 2: { intros k hk. apply rsum_eq0. intros i hi. replace (k - i <? S q)%nat with false by (symmetry; apply Nat.ltb_ge; lia). rewrite andb_false_r. reflexivity. }
    unfold fsq. rewrite <- rsum_scal. apply rsum_le. intros k hk. fold (v k).
    apply Rle_trans with (rsum (S p) (fun i => v k * (D k * D k) * (bn k i * bn (p + q - k) (p - i)))).
    - apply rsum_le. intros i hi. destruct ((i <=? k) && (k - i <? S q))%nat%bool eqn:E.
      + apply andb_true_iff in E. destruct E as [E1 E2]. apply Nat.leb_le in E1. apply Nat.ltb_lt in E2. replace (i + (k - i))%nat with k by lia.
        pose proof (bn_fact i (k - i)) as b1. replace (i + (k - i))%nat with k in b1 by lia. pose proof (bn_fact (p - i) (q - (k - i))) as b2. replace (p - i + (q - (k - i)))%nat with (p + q - k)%nat in b2 by lia.
        apply Req_le. assert (ev : v k = bn k i * bn (p + q - k) (p - i) * w i (k - i)%nat). { unfold v, w. rewrite <- b1, <- b2. ring. } specialize (hw i (k - i)%nat). rewrite ev at 2. field. lra.
      + apply Rmult_le_pos; [apply Rmult_le_pos; [apply Rlt_le, hv|apply Rle_0_sqr]|apply Rmult_le_pos; apply bn_pos].
    - rewrite rsum_scal, vandermonde. replace (k + (p + q - k))%nat with (p + q)%nat by lia. apply Req_le. ring. }
  assert (h3 := Rmult_le_compat_l (/ t / 2) _ _ ltac:(lra) h2). lra.
Qed.
Lemma amgm X F G : 0 <= F -> 0 < G -> (forall t, 0 < t -> X <= (t * (F * F) + / t * (G * G)) / 2) -> X <= F * G.
Proof.
  intros hF hG h. destruct (Req_dec F 0) as [->|hne].
  - rewrite Rmult_0_l. destruct (Rle_lt_dec X 0) as [hx|hx]; [exact hx|]. specialize (h (G * G / X) ltac:(apply Rdiv_lt_0_compat; nra)). replace (G * G / X * (0 * 0) + / (G * G / X) * (G * G)) with X in h by (field; lra). lra.
  - specialize (h (G / F) ltac:(apply Rdiv_lt_0_compat; lra)). replace ((G / F * (F * F) + / (G / F) * (G * G)) / 2) with (F * G) in h by (field; lra). exact h.
Qed.
Lemma csum_mod n (f : nat -> C) : Cmod (csum n f) <= rsum n (fun i => Cmod (f i)).
Proof. induction n as [|n IH]; [change (csum 0 f) with (RtoC 0); rewrite Cmod_0; cbn; lra|]. cbn [csum rsum]. eapply Rle_trans; [apply Cmod_triangle|]. lra. Qed.
Lemma cmod_conj z : Cmod (Cconj z) = Cmod z. Proof. unfold Cmod, Cconj. f_equal. cbn [fst snd]. ring. Qed.
Definition smod (r : v3) (l i : nat) : R := Cmod (solid r l (- Z.of_nat l + Z.of_nat i)).
Lemma smod_sq r l : fsq (2 * l) (smod r l) = vnorm r ^ l * vnorm r ^ l.
Proof.
  rewrite <- Rpow_mult_distr, <- dot_norm, <- leg_square. pose proof (kern_leg r r l) as e. apply (f_equal Re) in e. unfold kern in e. rewrite zsum_re in e. cbn [Re fst RtoC] in e. rewrite <- e. unfold fsq. replace (Z.to_nat (Z.of_nat l - - Z.of_nat l + 1)) with (S (2 * l)) by lia.
  apply rsum_ext. intros i hi. replace (Z.to_nat (Z.of_nat l + (- Z.of_nat l + Z.of_nat i))) with i by lia. replace (Z.to_nat (Z.of_nat l - (- Z.of_nat l + Z.of_nat i))) with (2 * l - i)%nat by lia.
  unfold smod. set (z := solid r l _). unfold Cmod. rewrite sqrt_def by (apply Rplus_le_le_0_compat; apply pow2_ge_0). destruct z as [x y]. unfold Re, Cmult, Cconj, RtoC. cbn [fst snd]. ring.
Qed.
(** ** The terms of the local expansion *)
Lemma pow_double x k : x ^ (2 * k) = x ^ k * x ^ k. Proof. rewrite <- pow_add. f_equal. lia. Qed.
Definition irr (d : v3) (n : nat) (m : Z) : C := Cmult (RtoC (INR (fact (Z.to_nat (Z.of_nat n + m))) * INR (fact (Z.to_nat (Z.of_nat n - m))) / vnorm d ^ (2 * n + 1))) (solid d n m).
Definition term (a b d : v3) (l la : nat) : C := zsum (- Z.of_nat l) (Z.of_nat l) (fun m => zsum (- Z.of_nat la) (Z.of_nat la) (fun mu => Cmult (Cmult (Cconj (solid a la mu)) (irr d (l + la) (m + mu))) (Cconj (solid b l m)))).
Lemma term_bound a b d l la : 0 < vnorm d -> Cmod (term a b d l la) <= (vnorm a + vnorm b) ^ (l + la) / vnorm d ^ (l + la + 1).
Proof.
  intros hd. set (n := (l + la)%nat). assert (hD : 0 < vnorm d ^ (2 * n + 1)) by (apply pow_lt, hd).
  set (X := rsum (S (2 * la)) (fun i => rsum (S (2 * l)) (fun j => smod a la i * smod b l j * (INR (fact (i + j)) * INR (fact (2 * la + 2 * l - (i + j))) * smod d n (i + j)%nat)))).
  assert (h1 : Cmod (term a b d l la) <= X / vnorm d ^ (2 * n + 1)).
  { unfold term. rewrite zsum_swap. unfold zsum. replace (Z.to_nat (Z.of_nat la - - Z.of_nat la + 1)) with (S (2 * la)) by lia. replace (Z.to_nat (Z.of_nat l - - Z.of_nat l + 1)) with (S (2 * l)) by lia.
    eapply Rle_trans; [apply csum_mod|]. unfold X, Rdiv. rewrite <- rsum_scal_r. apply rsum_le. intros i hi. eapply Rle_trans; [apply csum_mod|]. rewrite <- rsum_scal_r. apply rsum_le. intros j hj. rewrite !Cmod_mult, !cmod_conj. fold (smod a la i) (smod b l j). unfold irr. rewrite Cmod_mult, Cmod_R. fold n.
    replace (- Z.of_nat l + Z.of_nat j + (- Z.of_nat la + Z.of_nat i))%Z with (- Z.of_nat n + Z.of_nat (i + j))%Z by (unfold n; lia). fold (smod d n (i + j)).
    replace (Z.to_nat (Z.of_nat n + (- Z.of_nat n + Z.of_nat (i + j)))) with (i + j)%nat by lia. replace (Z.to_nat (Z.of_nat n - (- Z.of_nat n + Z.of_nat (i + j)))) with (2 * la + 2 * l - (i + j))%nat by (unfold n; lia).
    rewrite Rabs_right. { apply Req_le. unfold Rdiv. ring. } apply Rle_ge. apply Rmult_le_pos; [apply Rmult_le_pos; apply pos_INR|apply Rlt_le, Rinv_0_lt_compat, hD]. }
  assert (h2 : X <= vnorm a ^ la * vnorm b ^ l * (sqrt (bn (2 * la + 2 * l) (2 * la)) * vnorm d ^ n)).
  { assert (hb : 0 < bn (2 * la + 2 * l) (2 * la)). { pose proof (bn_pos (2 * la + 2 * l) (2 * la)) as h0. pose proof (bn_fact (2 * la) (2 * l)) as e. pose proof (fact_pos (2 * la + 2 * l)) as h3. destruct h0 as [h0|h0]; [exact h0|]. rewrite <- h0 in e. rewrite Rmult_0_l in e. lra. }
    apply amgm; [apply Rmult_le_pos; apply pow_le, norm_nonneg|apply Rmult_lt_0_compat; [apply sqrt_lt_R0, hb|apply pow_lt, hd]|]. intros t ht. eapply Rle_trans; [apply (product_bound (2 * la) (2 * l) (smod a la) (smod b l) (smod d n) t ht)|]. replace (2 * la + 2 * l)%nat with (2 * n)%nat in * by (unfold n; lia). rewrite !smod_sq. apply Req_le.
    replace (sqrt (bn (2 * n) (2 * la)) * vnorm d ^ n * (sqrt (bn (2 * n) (2 * la)) * vnorm d ^ n)) with (sqrt (bn (2 * n) (2 * la)) * sqrt (bn (2 * n) (2 * la)) * (vnorm d ^ n * vnorm d ^ n)) by ring. rewrite sqrt_def by lra. field. lra. }
  assert (h3 : vnorm a ^ la * vnorm b ^ l * sqrt (bn (2 * la + 2 * l) (2 * la)) <= (vnorm a + vnorm b) ^ n).
  { pose proof (norm_nonneg a) as ha. pose proof (norm_nonneg b) as hb. assert (hA : 0 <= vnorm a ^ la * vnorm b ^ l) by (apply Rmult_le_pos; apply pow_le; assumption). assert (hS : 0 <= (vnorm a + vnorm b) ^ n) by (apply pow_le; lra).
    apply Rsqr_incr_0; [|apply Rmult_le_pos; [exact hA|apply sqrt_pos]|exact hS]. unfold Rsqr.
    replace (vnorm a ^ la * vnorm b ^ l * sqrt (bn (2 * la + 2 * l) (2 * la)) * (vnorm a ^ la * vnorm b ^ l * sqrt (bn (2 * la + 2 * l) (2 * la)))) with (sqrt (bn (2 * la + 2 * l) (2 * la)) * sqrt (bn (2 * la + 2 * l) (2 * la)) * (vnorm a ^ la * vnorm b ^ l * (vnorm a ^ la * vnorm b ^ l))) by ring. rewrite sqrt_def by apply bn_pos.
    pose proof (bn_term (2 * la + 2 * l) (2 * la) (vnorm a) (vnorm b) ha hb ltac:(lia)) as h. replace (2 * la + 2 * l - 2 * la)%nat with (2 * l)%nat in h by lia. eapply Rle_trans; [|eapply Rle_trans; [exact h|]]; apply Req_le.
    - rewrite !pow_double. ring.
    - rewrite <- pow_add. f_equal. unfold n. lia. }
  eapply Rle_trans; [exact h1|]. apply Rle_trans with ((vnorm a + vnorm b) ^ n * vnorm d ^ n / vnorm d ^ (2 * n + 1)).
  - unfold Rdiv. apply Rmult_le_compat_r; [apply Rlt_le, Rinv_0_lt_compat, hD|]. eapply Rle_trans; [exact h2|]. rewrite <- Rmult_assoc. apply Rmult_le_compat_r; [apply pow_le, norm_nonneg|exact h3].
  - apply Req_le. replace (2 * n + 1)%nat with (n + (n + 1))%nat by lia. rewrite (pow_add (vnorm d) n (n + 1)). field. split; apply pow_nonzero; lra.
Qed.
(** ** multipole_to_local *)
Lemma symm_irr d : symm (irr d).
Proof.
  intros l m. unfold irr. rewrite (symm_solid d l m), conj_mult, conj_R. replace (Z.of_nat l + - m)%Z with (Z.of_nat l - m)%Z by ring. replace (Z.of_nat l - - m)%Z with (Z.of_nat l + m)%Z by ring. rewrite (Rmult_comm (INR (fact (Z.to_nat (Z.of_nat l - m))))).
  set (k := RtoC _). ring.
Qed.
Definition m2l_sum (lmax : nat) (f : nat -> Z -> C) (d : v3) (l : nat) (m : Z) : C :=
  csum (S lmax) (fun la => zsum (- Z.of_nat la) (Z.of_nat la) (fun mu => Cmult (f la mu) (irr d (l + la) (m + mu)))).
Lemma m2l_gen d lmax M L f : is_zero d = false -> symm f -> holds_to lmax M f -> holds (m2l d lmax M L) (fun l m => Cplus (at_m L l m) (m2l_sum lmax f d l m)).
Proof.
  intros hd hs hM. pose proof (harm_I_holds d hd) as hI. fold (irr d) in hI. pose proof (proj1 (holds_to_all _ _) hI) as hI'. destruct (holds_at L) as [b0 bm]. unfold m2l. set (H := harm_I d) in *. split; cbn [ml0 mlm].
  - intros l. rewrite RtoC_plus, b0. f_equal. unfold m2l_sum. rewrite csum_R. apply csum_ext. intros la hla. rewrite zsum_sym, RtoC_plus, csum_R. rewrite RtoC_mult, (proj1 hM), (proj1 hI) by lia. f_equal.
    apply csum_ext. intros i hi. rewrite (proj2 hM), (proj2 hI) by lia. rewrite !Z.add_0_l. rewrite (hs la), (symm_irr d (l + la)%nat).
    set (a := f la (Z.of_nat (S i))). set (b := irr d (l + la) (Z.of_nat (S i))). transitivity (Cplus (Cmult a b) (Cmult (Cconj a) (Cconj b))); [apply c_eq; cbn; ring|].
    transitivity (Cplus (Cmult a b) (Cmult (Cmult (sg (Z.of_nat (S i))) (sg (Z.of_nat (S i)))) (Cmult (Cconj a) (Cconj b)))); [rewrite sg_sq; ring|ring].
  - intros l m hm. rewrite bm by exact hm. f_equal. unfold m2l_sum. apply csum_ext. intros la hla. apply zsum_ext. intros mu hmu. f_equal; [apply (at_m_holds lmax _ _ la mu hM hs); lia|apply (at_m_holds (l + la) _ _ (l + la) _ (hI' _) (symm_irr d)); lia].
Qed.
Lemma symm_m2l lmax f d : symm f -> symm (m2l_sum lmax f d).
Proof.
  intros hs l m. unfold m2l_sum. rewrite csum_conj, <- csum_scal. apply csum_ext. intros la _. rewrite zsum_conj, <- zsum_scal. rewrite zsum_rev. apply zsum_ext. intros mu _.
  replace (- m + - mu)%Z with (- (m + mu))%Z by ring. rewrite (symm_irr d), (hs la mu), conj_mult, sg_add. transitivity (Cmult (Cmult (sg mu) (sg mu)) (Cmult (sg m) (Cmult (Cconj (f la mu)) (Cconj (irr d (l + la) (m + mu)))))); [ring|]. rewrite sg_sq. ring.
Qed.
Definition m2l_value (lmax : nat) (f : nat -> Z -> C) (d b : v3) : C :=
  csum (S lmax) (fun l => zsum (- Z.of_nat l) (Z.of_nat l) (fun m => Cmult (m2l_sum lmax f d l m) (Cconj (solid b l m)))).
Lemma m2l_local d lmax M L f s : is_zero d = false -> symm f -> holds_to lmax M f ->
  local_value lmax (m2l d lmax M L) s = local_value lmax L s + Re (m2l_value lmax f d (vscale (-1) s)).
Proof.
  intros hd hs hM. unfold local_value, m2l_value. match goal with |- _ = (Re ?a + Re ?b)%R => change (Re a + Re b)%R with (Re (Cplus a b)) end. f_equal. rewrite <- csum_plus. apply csum_ext. intros l hl. rewrite <- zsum_plus. apply zsum_ext. intros m hm.
  rewrite (at_m_holds l _ _ l m (proj1 (holds_to_all _ _) (m2l_gen d lmax M L f hd hs hM) l)); [ring| |lia|lia]. intros l' m'. rewrite conj_plus, (symm_at L l' m'), (symm_m2l lmax f d hs l' m'). ring.
Qed.
(** one unit charge *)
Lemma csum_zsum n lo hi (F : nat -> Z -> C) : csum n (fun la => zsum lo hi (fun m => F la m)) = zsum lo hi (fun m => csum n (fun la => F la m)).
Proof. unfold zsum. apply csum_swap. Qed.
Lemma value_terms lmax a d b : m2l_value lmax (fun l m => Cconj (solid a l m)) d b = csum (S lmax) (fun l => csum (S lmax) (fun la => term a b d l la)).
Proof.
  unfold m2l_value. apply csum_ext. intros l _. unfold term. rewrite (csum_zsum (S lmax)). apply zsum_ext. intros m _. unfold m2l_sum. rewrite <- csum_scal_r. apply csum_ext. intros la _. rewrite <- zsum_scal_r. reflexivity.
Qed.
Theorem unit_error lmax a d b : vnorm a + vnorm b < vnorm d ->
  Rabs (Re (m2l_value lmax (fun l m => Cconj (solid a l m)) d b) - / vnorm (vsub d (vadd b a))) <= INR (S lmax) * (((vnorm a + vnorm b) / vnorm d) ^ S lmax / (vnorm d - (vnorm a + vnorm b))).
Proof.
  intros hlt. pose proof (norm_nonneg a) as ha. pose proof (norm_nonneg b) as hb. set (D := vnorm d) in *. assert (hD : 0 < D) by lra. set (A := vnorm a + vnorm b) in *. assert (hA : 0 <= A) by (unfold A; lra). set (tau := A / D).
  assert (ht : 0 <= tau < 1). { unfold tau. split; [apply Rmult_le_pos; [exact hA|apply Rlt_le, Rinv_0_lt_compat, hD]|]. apply Rmult_lt_reg_r with D; [exact hD|]. replace (A / D * D) with A by (field; lra). lra. }
  set (P := csum (S lmax) (fun l => zsum (- Z.of_nat l) (Z.of_nat l) (fun m => Cmult (irr d l m) (Cconj (solid (vadd b a) l m))))).
  set (Q := csum (S lmax) (fun l => csum l (fun i => term a b d l (S lmax - l + i)))).
  assert (e1 : m2l_value lmax (fun l m => Cconj (solid a l m)) d b = Cplus P Q).
  { rewrite value_terms. unfold P, Q. set (dr := vscale (-1) a). assert (edr : vscale (-1) dr = a) by (apply v3_eq; cbn; ring).
    pose proof (lshift_value lmax (irr d) dr b) as e. rewrite edr in e. rewrite <- e. rewrite <- csum_plus. apply csum_ext. intros l hl. replace (S lmax) with (S lmax - l + l)%nat at 1 by lia. rewrite csum_app. f_equal.
    unfold lshift, term. rewrite edr. rewrite csum_zsum. apply zsum_ext. intros m _. rewrite <- csum_scal_r. apply csum_ext. intros la _. rewrite <- zsum_scal_r. apply zsum_ext. intros mu _. ring. }
  assert (e2 : Re P = rsum (S lmax) (fun l => leg (vdot (vadd b a) d) (vdot (vadd b a) (vadd b a) * vdot d d) l / vnorm d ^ (2 * l + 1))).
  { unfold P. rewrite csum_re. apply rsum_ext. intros l _. pose proof (kern_leg (vadd b a) d l) as e. transitivity (Re (Cmult (RtoC (/ vnorm d ^ (2 * l + 1))) (kern (vadd b a) d l))).
    - f_equal. unfold kern. rewrite <- zsum_scal. apply zsum_ext. intros m _. unfold irr, Rdiv. rewrite !RtoC_mult. ring.
    - rewrite e, re_scal. cbn [Re fst RtoC]. unfold Rdiv. ring. }
  assert (tri : vnorm (vadd b a) <= A).
  { unfold A. apply Rsqr_incr_0; [|apply norm_nonneg|lra]. unfold Rsqr. rewrite <- dot_norm. pose proof (cauchy b a) as hc. apply Rabs_le_between in hc. replace (vdot (vadd b a) (vadd b a)) with (vdot b b + 2 * vdot b a + vdot a a) by (unfold vadd, vdot; cbn; ring). rewrite (dot_norm a), (dot_norm b). nra. }
  pose proof (coulomb_series (vadd b a) d lmax ltac:(fold D; lra)) as h1. rewrite <- e2 in h1. fold D in h1.
  assert (h1' : Rabs (Re P - / vnorm (vsub d (vadd b a))) <= tau ^ S lmax / (D - A)).
  { rewrite Rabs_minus_sym. eapply Rle_trans; [exact h1|]. pose proof (norm_nonneg (vadd b a)) as hn. set (x := vnorm (vadd b a)) in *. unfold Rdiv at 1 3. apply Rmult_le_compat.
    - apply pow_le. apply Rmult_le_pos; [exact hn|apply Rlt_le, Rinv_0_lt_compat, hD].
    - apply Rlt_le, Rinv_0_lt_compat. lra.
    - apply pow_incr. split; [apply Rmult_le_pos; [exact hn|apply Rlt_le, Rinv_0_lt_compat, hD]|]. unfold tau, Rdiv. apply Rmult_le_compat_r; [apply Rlt_le, Rinv_0_lt_compat, hD|exact tri].
    - apply Rinv_le_contravar; lra. }
  assert (h2 : Rabs (Re Q) <= INR lmax * (tau ^ S lmax / (D - A))).
  { assert (hg : forall n, rsum n (fun i => tau ^ i) <= / (1 - tau)).
    { intros n. assert (e : rsum n (fun i => tau ^ i) * (1 - tau) = 1 - tau ^ n). { induction n as [|n IH]; [cbn; ring|]. cbn [rsum]. rewrite Rmult_plus_distr_r, IH. cbn [pow]. ring. } apply Rmult_le_reg_r with (1 - tau); [lra|]. rewrite e, Rinv_l by lra. pose proof (pow_le tau n (proj1 ht)). lra. }
    apply Rle_trans with (Cmod Q); [eapply Rle_trans; [apply Rmax_l|apply Rmax_Cmod]|]. unfold Q. rewrite csum_first. change (csum 0 (fun i => term a b d 0 (S lmax - 0 + i))) with (RtoC 0). rewrite Cplus_0_l. eapply Rle_trans; [apply csum_mod|]. rewrite <- rsum_const. apply rsum_le. intros l hl. eapply Rle_trans; [apply csum_mod|].
    apply Rle_trans with (rsum (S l) (fun i => tau ^ S lmax / D * tau ^ i)).
    - apply rsum_le. intros i hi. eapply Rle_trans; [apply term_bound; exact hD|]. fold D A. replace (S l + (S lmax - S l + i))%nat with (S lmax + i)%nat by lia. apply Req_le. unfold tau, Rdiv. rewrite !Rpow_mult_distr, !pow_inv. rewrite !pow_add, pow_1. field. repeat split; try (apply pow_nonzero); lra.
    - rewrite rsum_scal. apply Rle_trans with (tau ^ S lmax / D * / (1 - tau)); [apply Rmult_le_compat_l; [apply Rmult_le_pos; [apply pow_le, ht|apply Rlt_le, Rinv_0_lt_compat, hD]|apply hg]|]. apply Req_le. unfold tau at 2. field. repeat split; lra. }
  rewrite e1. replace (Re (Cplus P Q)) with (Re P + Re Q) by reflexivity. rewrite S_INR. replace (Re P + Re Q - / vnorm (vsub d (vadd b a))) with (Re P - / vnorm (vsub d (vadd b a)) + Re Q) by ring. eapply Rle_trans; [apply Rabs_triang|]. lra.
Qed.
(** ** Charges *)
Lemma value_linear lmax f g k d b : m2l_value lmax (fun l m => Cplus (Cmult (RtoC k) (f l m)) (g l m)) d b = Cplus (Cmult (RtoC k) (m2l_value lmax f d b)) (m2l_value lmax g d b).
Proof.
  unfold m2l_value. rewrite <- csum_scal, <- csum_plus. apply csum_ext. intros l _. rewrite <- zsum_scal, <- zsum_plus. apply zsum_ext. intros m _.
  assert (e : m2l_sum lmax (fun l m => Cplus (Cmult (RtoC k) (f l m)) (g l m)) d l m = Cplus (Cmult (RtoC k) (m2l_sum lmax f d l m)) (m2l_sum lmax g d l m)).
  { unfold m2l_sum. rewrite <- csum_scal, <- csum_plus. apply csum_ext. intros la _. rewrite <- zsum_scal, <- zsum_plus. apply zsum_ext. intros mu _. ring. }
  rewrite e. ring.
Qed.
Lemma value_zero lmax d b : m2l_value lmax (fun _ _ => RtoC 0) d b = RtoC 0.
Proof.
  unfold m2l_value. apply csum_zero. intros l _. apply zsum_zero. intros m _. replace (m2l_sum lmax (fun _ _ => RtoC 0) d l m) with (RtoC 0); [ring|]. symmetry. unfold m2l_sum. apply csum_zero. intros la _. apply zsum_zero. intros mu _. ring.
Qed.
Theorem m2l_error lmax M L qs r0 c x : holds_to lmax M (moment qs r0) -> c <> r0 -> (forall p, In p qs -> vnorm (vsub (fst p) r0) + vnorm (vsub x c) < vnorm (vsub c r0)) ->
  Rabs (local_value lmax (m2l (vsub c r0) lmax M L) (vsub x c) - (local_value lmax L (vsub x c) + potential qs x)) <= m2l_bound lmax qs r0 c x.
Proof.
  intros hM hne hq. assert (hz : is_zero (vsub c r0) = false).
  { destruct (is_zero (vsub c r0)) eqn:E; [|reflexivity]. exfalso. apply hne. apply is_zero_true in E. apply v3_eq; [apply (f_equal vx) in E|apply (f_equal vy) in E|apply (f_equal vz) in E]; cbn in E; lra. }
  rewrite (m2l_local _ lmax M L (moment qs r0) _ hz (symm_moment qs r0) hM). set (d := vsub c r0) in *. set (b := vscale (-1) (vsub x c)).
  assert (hb : vnorm b = vnorm (vsub x c)) by (unfold b, vnorm; f_equal; unfold vdot; cbn; ring).
  replace (local_value lmax L (vsub x c) + Re (m2l_value lmax (moment qs r0) d b) - (local_value lmax L (vsub x c) + potential qs x)) with (Re (m2l_value lmax (moment qs r0) d b) - potential qs x) by ring.
  clear hM. induction qs as [|[r q] qs IH].
  - cbn [potential m2l_bound fold_right]. change (moment [] r0) with (fun (_ : nat) (_ : Z) => RtoC 0). rewrite value_zero. cbn [Re fst RtoC]. rewrite Rminus_0_r, Rabs_R0. lra.
  - specialize (IH (fun p hp => hq p (or_intror hp))). pose proof (hq (r, q) (or_introl eq_refl)) as h. cbn [fst] in h.
    change (moment ((r, q) :: qs) r0) with (fun l m => Cplus (Cmult (RtoC q) (Cconj (solid (vsub r r0) l m))) (moment qs r0 l m)). rewrite (value_linear lmax (fun l m => Cconj (solid (vsub r r0) l m)) (moment qs r0)). unfold potential, m2l_bound in *. cbn [fold_right fst snd].
    set (u := m2l_value lmax (fun l m => Cconj (solid (vsub r r0) l m)) d b). set (v := m2l_value lmax (moment qs r0) d b) in *. match goal with |- Rabs (_ - (_ + ?p)) <= _ + ?e => set (pt := p) in *; set (eb := e) in * end.
    replace (Re (Cplus (Cmult (RtoC q) u) v)) with (q * Re u + Re v) by (rewrite <- re_scal; reflexivity).
    pose proof (unit_error lmax (vsub r r0) d b ltac:(rewrite hb; exact h)) as hu. fold u in hu. replace (vsub d (vadd b (vsub r r0))) with (vsub x r) in hu by (unfold d, b; apply v3_eq; cbn; ring). rewrite hb in hu.
    replace (q * Re u + Re v - (q / vnorm (vsub x r) + pt)) with (q * (Re u - / vnorm (vsub x r)) + (Re v - pt)) by (unfold Rdiv; ring).
    eapply Rle_trans; [apply Rabs_triang|]. apply Rplus_le_compat; [|exact IH]. rewrite Rabs_mult. apply Rmult_le_compat_l; [apply Rabs_pos|exact hu].
Qed.
