(** Rotating multipole moments *)
From Coq Require Import Reals ZArith List Bool Arith Lia Lra Psatz.
From Coquelicot Require Import Coquelicot.
From Verif Require Import Vec GeomModel GeomSpec GeomProofs ScaModel MpModel MpSpec MpProofs MpProofs2 MpProofs3 MpProofs4.
Import ListNotations.

Lemma orth_right T : is_orthogonal T -> mm T (tr T) = eye.
Proof.
  unfold is_orthogonal. intros h. set (A := tr (M3 (vcross (row2 T) (row3 T)) (vcross (row3 T) (row1 T)) (vcross (row1 T) (row2 T)))).
  assert (hd : (det T * det T = 1)%R). { transitivity (det (mm (tr T) T)); [rewrite det_mm; vunf; ring|]. rewrite h. vunf. ring. }
  set (dI := M3 (V3 (det T) 0 0) (V3 0 (det T) 0) (V3 0 0 (det T))). assert (hA : mm T A = dI) by (unfold A, dI; vunf; apply m3_eq; apply v3_eq; cbn; ring).
  assert (h2 : mm (tr T) dI = A). { rewrite <- hA, <- mm_assoc, h. apply mm_eye_l. }
  assert (h3 : mm (mm T (tr T)) dI = dI). { rewrite mm_assoc, h2. exact hA. }
  transitivity (mm (mm T (tr T)) (mm dI dI)).
  - replace (mm dI dI) with eye; [rewrite mm_eye_r; reflexivity|]. unfold dI. clear -hd. set (d := det T) in *. clearbody d. vunf. apply m3_eq; apply v3_eq; cbn; nra.
  - rewrite <- mm_assoc, h3. unfold dI. clear -hd. set (d := det T) in *. clearbody d. vunf. apply m3_eq; apply v3_eq; cbn; nra.
Qed.
Open Scope C_scope.
(** equal polynomials have equal linear coefficients *)
Lemma poly_linear n (c d : nat -> C) : (forall t, csum (S (S n)) (fun l => RtoC (t ^ l) * c l) = csum (S (S n)) (fun l => RtoC (t ^ l) * d l)) -> c 1%nat = d 1%nat.
Proof.
  intros h.
  assert (key : forall f g : nat -> R, (forall t, rsum (S (S n)) (fun l => t ^ l * f l)%R = rsum (S (S n)) (fun l => t ^ l * g l)%R) -> f 1%nat = g 1%nat).
  { intros f g hh. pose proof (poly_derive (S n) f) as h1. pose proof (poly_derive (S n) g) as h2. apply is_derive_unique in h1. apply is_derive_unique in h2. cbn iota in h1, h2. rewrite <- h1, <- h2. apply Derive_ext. exact hh. }
  assert (him : forall n f, snd (csum n f) = rsum n (fun i => snd (f i))). { clear. induction n as [|n IH]; intros f; cbn [csum rsum]; [reflexivity|]. rewrite <- IH. reflexivity. }
  apply c_eq.
  - apply (key (fun l => fst (c l)) (fun l => fst (d l))). intros t. specialize (h t). apply (f_equal Re) in h. rewrite !csum_re in h.
    transitivity (rsum (S (S n)) (fun l => Re (RtoC (t ^ l) * c l))); [apply rsum_ext; intros l _; rewrite re_scal; reflexivity|]. rewrite h. apply rsum_ext. intros l _. rewrite re_scal. reflexivity.
  - apply (key (fun l => snd (c l)) (fun l => snd (d l))). intros t. specialize (h t). apply (f_equal snd) in h. rewrite !him in h.
    transitivity (rsum (S (S n)) (fun l => snd (RtoC (t ^ l) * c l))); [apply rsum_ext; intros l _; cbn -[pow]; ring|]. rewrite h. apply rsum_ext. intros l _. cbn -[pow]. ring.
Qed.
Definition grad (r a : v3) (L : nat) (m : Z) : C := zsum (-1) 1 (fun mu => solid r L (m - mu) * solid a 1 mu).
Lemma solid_line r a t L m : solid (vadd r (vscale t a)) (S L) m = csum (S (S L)) (fun la => RtoC (t ^ la) * zsum (- Z.of_nat la) (Z.of_nat la) (fun mu => solid r (S L - la) (m - mu) * solid a la mu)).
Proof. rewrite solid_add. apply csum_ext. intros la _. rewrite <- zsum_scal. apply zsum_ext. intros mu _. rewrite solid_scale. ring. Qed.
Lemma lower T L m (E : Z -> C) : (forall r, solid (mv T r) (S L) m = zsum (- Z.of_nat (S L)) (Z.of_nat (S L)) (fun n => E n * solid r (S L) n)) ->
  forall r a, grad (mv T r) (mv T a) L m = zsum (- Z.of_nat (S L)) (Z.of_nat (S L)) (fun n => E n * grad r a L n).
Proof.
  intros h r a. pose proof (poly_linear L
    (fun la => zsum (- Z.of_nat la) (Z.of_nat la) (fun mu => solid (mv T r) (S L - la) (m - mu) * solid (mv T a) la mu))
    (fun la => zsum (- Z.of_nat (S L)) (Z.of_nat (S L)) (fun n => E n * zsum (- Z.of_nat la) (Z.of_nat la) (fun mu => solid r (S L - la) (n - mu) * solid a la mu)))) as e.
  cbn beta in e. replace (S L - 1)%nat with L in e by lia. change (- Z.of_nat 1)%Z with (-1)%Z in e. change (Z.of_nat 1) with 1%Z in e. unfold grad. apply e. clear e. intros t.
  rewrite <- solid_line. replace (vadd (mv T r) (vscale t (mv T a))) with (mv T (vadd r (vscale t a))) by (vunf; apply v3_eq; cbn; ring). rewrite h.
  transitivity (zsum (- Z.of_nat (S L)) (Z.of_nat (S L)) (fun n => csum (S (S L)) (fun la => RtoC (t ^ la) * (E n * zsum (- Z.of_nat la) (Z.of_nat la) (fun mu => solid r (S L - la) (n - mu) * solid a la mu))))).
  - apply zsum_ext. intros n _. rewrite solid_line, <- csum_scal. apply csum_ext. intros la _. ring.
  - unfold zsum at 1. rewrite csum_swap. apply csum_ext. intros la _. rewrite csum_scal. reflexivity.
Qed.
Lemma solid_1 a : solid a 1 (-1) = eta a /\ solid a 1 0 = RtoC (vz a) /\ solid a 1 1 = xi a.
Proof. unfold solid, ediv. cbn. repeat split; apply c_eq; cbn; field. Qed.
Lemma solid_00 r : solid r 0 0 = 1.
Proof. rewrite solid_hc. apply h_00. Qed.
Lemma zsum3 (f : Z -> C) : zsum (-1) 1 f = f (-1)%Z + f 0%Z + f 1%Z.
Proof. unfold zsum. change (Z.to_nat (1 - -1 + 1)) with 3%nat. cbn [csum]. change (-1 + Z.of_nat 0)%Z with (-1)%Z. change (-1 + Z.of_nat 1)%Z with 0%Z. change (-1 + Z.of_nat 2)%Z with 1%Z. ring. Qed.
Lemma grad_expand r a L m : grad r a L m = solid r L (m + 1) * eta a + solid r L m * RtoC (vz a) + solid r L (m - 1) * xi a.
Proof.
  unfold grad. rewrite zsum3. destruct (solid_1 a) as [-> [-> ->]]. replace (m - -1)%Z with (m + 1)%Z by ring. rewrite Z.sub_0_r. reflexivity.
Qed.
(** ** Products with harmonics of degree one *)
Lemma half_c : RtoC 2 <> 0. Proof. apply RtoC_neq. lra. Qed.
Lemma zz_c (a b : Z) : zc a * zc b = RtoC (IZR a * IZR b). Proof. unfold zc. rewrite RtoC_mult. reflexivity. Qed.
Definition rho2 (r : v3) : C := RtoC (vnorm r * vnorm r).
Section Prod.
Variables (r : v3) (k : nat).
Notation l := (Z.of_nat (S (S k))).
Lemma prod0 n : zc (2 * l - 1) * RtoC (vz r) * solid r (S k) n = RtoC (cb l n) * solid r (S (S k)) n + rho2 r * solid r k n.
Proof.
  rewrite !solid_hc. unfold hr. pose proof (h_three (xi r) (eta r) (RtoC (vz r)) (l + n) (l - n)) as E. rewrite <- rho_r in E. fold (rho2 r) in E.
  replace (l + n - 2)%Z with (Z.of_nat k + n)%Z in E by lia. replace (l - n - 2)%Z with (Z.of_nat k - n)%Z in E by lia. replace (l + n - 1)%Z with (Z.of_nat (S k) + n)%Z in E by lia. replace (l - n - 1)%Z with (Z.of_nat (S k) - n)%Z in E by lia.
  replace (l + n + (l - n) - 1)%Z with (2 * l - 1)%Z in E by ring. rewrite zz_c in E. unfold cb. rewrite E. ring.
Qed.
Lemma prod1 n : zc (2 * l - 1) * xi r * solid r (S k) n = RtoC (cc l n) * solid r (S (S k)) (n + 1) - rho2 r / 2 * solid r k (n + 1).
Proof.
  rewrite !solid_hc. unfold hr. pose proof (h_up1 (xi r) (eta r) (RtoC (vz r)) (l + (n + 1)) (l - (n + 1))) as E. rewrite <- rho_r in E. fold (rho2 r) in E.
  replace (l + (n + 1) + (l - (n + 1)) - 1)%Z with (2 * l - 1)%Z in E by ring. rewrite zz_c in E.
  replace (hc (xi r) (eta r) (RtoC (vz r)) (l + (n + 1) - 2) (l - (n + 1))) with (hc (xi r) (eta r) (RtoC (vz r)) (Z.of_nat (S k) + n) (Z.of_nat (S k) - n)) in E by (f_equal; lia).
  replace (l + (n + 1) - 2)%Z with (Z.of_nat k + (n + 1))%Z in E by lia. replace (l - (n + 1) - 2)%Z with (Z.of_nat k - (n + 1))%Z in E by lia. 
  unfold cc. replace (l + (n + 1) - 1)%Z with (l + n)%Z in E by ring. replace (l + (n + 1))%Z with (l + n + 1)%Z in * by ring. 
  unfold Rdiv. rewrite RtoC_mult, RtoC_inv by lra. set (h2 := hc _ _ _ (l + n + 1) _) in *. set (hb := hc _ _ _ (Z.of_nat (S k) + n) _) in *. set (h0 := hc _ _ _ (Z.of_nat k + (n + 1)) _) in *.
  transitivity (/ 2 * (RtoC (IZR (l + n + 1) * IZR (l + n)) * h2) - rho2 r / 2 * h0); [|field; exact half_c]. rewrite E. field. exact half_c.
Qed.
Lemma prod_1 n : zc (2 * l - 1) * eta r * solid r (S k) n = RtoC (ca l n) * solid r (S (S k)) (n - 1) - rho2 r / 2 * solid r k (n - 1).
Proof.
  rewrite !solid_hc. unfold hr. pose proof (h_up2 (xi r) (eta r) (RtoC (vz r)) (l + (n - 1)) (l - (n - 1))) as E. rewrite <- rho_r in E. fold (rho2 r) in E.
  replace (l + (n - 1) + (l - (n - 1)) - 1)%Z with (2 * l - 1)%Z in E by ring. rewrite zz_c in E.
  replace (hc (xi r) (eta r) (RtoC (vz r)) (l + (n - 1)) (l - (n - 1) - 2)) with (hc (xi r) (eta r) (RtoC (vz r)) (Z.of_nat (S k) + n) (Z.of_nat (S k) - n)) in E by (f_equal; lia).
  replace (l + (n - 1) - 2)%Z with (Z.of_nat k + (n - 1))%Z in E by lia. replace (l - (n - 1) - 2)%Z with (Z.of_nat k - (n - 1))%Z in E by lia. 
  unfold ca. replace (l - (n - 1) - 1)%Z with (l - n)%Z in E by ring. replace (l - (n - 1))%Z with (l - n + 1)%Z in * by ring. 
  unfold Rdiv. rewrite RtoC_mult, RtoC_inv by lra. set (h2 := hc _ _ _ (l + (n - 1)) _) in *. set (hb := hc _ _ _ (Z.of_nat (S k) + n) _) in *. set (h0 := hc _ _ _ (Z.of_nat k + (n - 1)) _) in *.
  transitivity (/ 2 * (RtoC (IZR (l - n + 1) * IZR (l - n)) * h2) - rho2 r / 2 * h0); [|field; exact half_c]. rewrite E. field. exact half_c.
Qed.
(** the sum over n of E_n times (e1 xi + e0 z + e_1 eta) times the harmonic of degree k + 1 *)
Lemma prod_sum (E : Z -> C) (e_1 e0 e1 : C) : (forall n, (n < - Z.of_nat (S k) \/ Z.of_nat (S k) < n)%Z -> E n = 0) ->
  zc (2 * l - 1) * (e_1 * eta r + e0 * RtoC (vz r) + e1 * xi r) * zsum (- Z.of_nat (S k)) (Z.of_nat (S k)) (fun n => E n * solid r (S k) n) =
  zsum (- l) l (fun n => (RtoC (ca l (n + 1)) * (e_1 * E (n + 1)%Z) + RtoC (cb l n) * (e0 * E n) + RtoC (cc l (n - 1)) * (e1 * E (n - 1)%Z)) * solid r (S (S k)) n) +
  rho2 r * zsum (- Z.of_nat (S k)) (Z.of_nat (S k)) (fun n => E n * (e0 * solid r k n - e1 / 2 * solid r k (n + 1) - e_1 / 2 * solid r k (n - 1))).
Proof.
  intros hE. rewrite <- !zsum_scal.
  transitivity (zsum (- Z.of_nat (S k)) (Z.of_nat (S k)) (fun n => RtoC (ca l n) * (e_1 * E n) * solid r (S (S k)) (n - 1)) +
                zsum (- Z.of_nat (S k)) (Z.of_nat (S k)) (fun n => RtoC (cb l n) * (e0 * E n) * solid r (S (S k)) n) +
                zsum (- Z.of_nat (S k)) (Z.of_nat (S k)) (fun n => RtoC (cc l n) * (e1 * E n) * solid r (S (S k)) (n + 1)) +
                zsum (- Z.of_nat (S k)) (Z.of_nat (S k)) (fun n => rho2 r * (E n * (e0 * solid r k n - e1 / 2 * solid r k (n + 1) - e_1 / 2 * solid r k (n - 1))))).
  - rewrite <- !zsum_plus. apply zsum_ext. intros n _.
    transitivity (e_1 * E n * (zc (2 * l - 1) * eta r * solid r (S k) n) + e0 * E n * (zc (2 * l - 1) * RtoC (vz r) * solid r (S k) n) + e1 * E n * (zc (2 * l - 1) * xi r * solid r (S k) n)); [ring|].
    rewrite prod0, prod1, prod_1. field. exact half_c.
  - f_equal.
    assert (g_1 : zsum (- Z.of_nat (S k)) (Z.of_nat (S k)) (fun n => RtoC (ca l n) * (e_1 * E n) * solid r (S (S k)) (n - 1)) = zsum (- l) l (fun n => RtoC (ca l (n + 1)) * (e_1 * E (n + 1)%Z) * solid r (S (S k)) n)).
    { rewrite (zsum_shift _ _ 1). symmetry. rewrite (zsum_narrow _ _ (- Z.of_nat (S k) - 1) (Z.of_nat (S k) - 1)); [|lia|lia|].
      - apply zsum_ext. intros n _. replace (n + 1 - 1)%Z with n by ring. reflexivity.
      - intros n h1 h2. rewrite hE by lia. ring. }
    assert (g0 : zsum (- Z.of_nat (S k)) (Z.of_nat (S k)) (fun n => RtoC (cb l n) * (e0 * E n) * solid r (S (S k)) n) = zsum (- l) l (fun n => RtoC (cb l n) * (e0 * E n) * solid r (S (S k)) n)).
    { symmetry. apply zsum_narrow; [lia|lia|]. intros n h1 h2. rewrite hE by lia. ring. }
    assert (g1 : zsum (- Z.of_nat (S k)) (Z.of_nat (S k)) (fun n => RtoC (cc l n) * (e1 * E n) * solid r (S (S k)) (n + 1)) = zsum (- l) l (fun n => RtoC (cc l (n - 1)) * (e1 * E (n - 1)%Z) * solid r (S (S k)) n)).
    { rewrite (zsum_shift _ _ (-1)). symmetry. rewrite (zsum_narrow _ _ (- Z.of_nat (S k) - -1) (Z.of_nat (S k) - -1)); [|lia|lia|].
      - apply zsum_ext. intros n _. replace (n + -1 + 1)%Z with n by ring. replace (n + -1)%Z with (n - 1)%Z by ring. reflexivity.
      - intros n h1 h2. rewrite hE by lia. ring. }
    rewrite g_1, g0, g1, <- !zsum_plus. apply zsum_ext. intros n _. ring.
Qed.
End Prod.
(** ** The matrices *)
Section Rot.
Variable T : m3.
Hypothesis HT : is_orthogonal T.
Definition e_ (i j : Z) : C := Cconj (D1 T i j).
Lemma deg1 r : eta (mv T r) = e_ (-1) (-1) * eta r + e_ (-1) 0 * RtoC (vz r) + e_ (-1) 1 * xi r /\
  RtoC (vz (mv T r)) = e_ 0 (-1) * eta r + e_ 0 0 * RtoC (vz r) + e_ 0 1 * xi r /\
  xi (mv T r) = e_ 1 (-1) * eta r + e_ 1 0 * RtoC (vz r) + e_ 1 1 * xi r.
Proof. unfold e_, D1, mv, vdot. repeat split; apply c_eq; cbn; field. Qed.
Lemma rows : mv T (row1 T) = V3 1 0 0 /\ mv T (row2 T) = V3 0 1 0 /\ mv T (row3 T) = V3 0 0 1.
Proof.
  pose proof (orth_right T HT) as h. unfold eye in h. unfold mm in h. destruct T as [[a b c] [d e f] [g h' i]]. unfold tr, mv, vdot in *. cbn [row1 row2 row3 vx vy vz] in *. injection h as h1 h2 h3 h4 h5 h6 h7 h8 h9.
  repeat split; apply v3_eq; cbn; assumption.
Qed.
Lemma D1_out i j : (j < -1 \/ 1 < j)%Z -> D1 T i j = 0.
Proof. intros h. unfold D1. destruct i as [|[p|p|]|[p|p|]]; try reflexivity; destruct j as [|[q|q|]|[q|q|]]; try reflexivity; lia. Qed.
Lemma Dmat_out k m n : (n < - Z.of_nat (S k) \/ Z.of_nat (S k) < n)%Z -> Dmat T k m n = 0.
Proof.
  intros h. destruct k as [|k]; cbn [Dmat]; [apply D1_out; lia|]. unfold next_D. destruct ((_ && _)%bool) eqn:E; [|reflexivity]. apply andb_prop in E. destruct E as [E1 E2]. apply Z.leb_le in E1. apply Z.leb_le in E2. lia.
Qed.
Lemma rho_T r : rho2 (mv T r) = rho2 r.
Proof. unfold rho2. rewrite orth_norm by exact HT. reflexivity. Qed.
Definition rotates (k : nat) : Prop := forall m, (- Z.of_nat (S k) <= m <= Z.of_nat (S k))%Z -> forall r,
  solid (mv T r) (S k) m = zsum (- Z.of_nat (S k)) (Z.of_nat (S k)) (fun n => Cconj (Dmat T k m n) * solid r (S k) n).
Lemma conj_div a b : b <> 0%R -> Cconj (a / RtoC b) = Cconj a / RtoC b.
Proof. intros h. unfold Cdiv. rewrite conj_mult. f_equal. rewrite <- RtoC_inv by exact h. apply conj_R. Qed.
(** one row of the next matrix *)
Lemma next_row k m' (d : R) (tgt : v3 -> C) i : rotates k -> (- Z.of_nat (S k) <= m' <= Z.of_nat (S k))%Z -> d <> 0%R ->
  (forall r, zc (2 * Z.of_nat (S (S k)) - 1) * (e_ i (-1) * eta r + e_ i 0 * RtoC (vz r) + e_ i 1 * xi r) * solid (mv T r) (S k) m' =
     RtoC d * tgt r + rho2 r * zsum (- Z.of_nat (S k)) (Z.of_nat (S k)) (fun n => Cconj (Dmat T k m' n) * (e_ i 0 * solid r k n - e_ i 1 / 2 * solid r k (n + 1) - e_ i (-1) / 2 * solid r k (n - 1)))) ->
  forall r, tgt r = zsum (- Z.of_nat (S (S k))) (Z.of_nat (S (S k))) (fun n => Cconj (
      Cdiv (Cplus (Cplus
      (Cmult (RtoC (ca (Z.of_nat (S (S k))) (n + 1))) (Cmult (D1 T i (-1)) (Dmat T k m' (n + 1)%Z)))
      (Cmult (RtoC (cb (Z.of_nat (S (S k))) n)) (Cmult (D1 T i 0) (Dmat T k m' n))))
      (Cmult (RtoC (cc (Z.of_nat (S (S k))) (n - 1))) (Cmult (D1 T i 1) (Dmat T k m' (n - 1)%Z)))) (RtoC d)) * solid r (S (S k)) n).
Proof.
  intros hk hm' hd h r. specialize (h r). rewrite (hk m' hm' r) in h. rewrite (prod_sum r k (fun n => Cconj (Dmat T k m' n))) in h.
  2: { intros n hn. rewrite Dmat_out by exact hn. apply conj_R. }
  apply (cmult_cancel (RtoC d)); [apply RtoC_neq, hd|].
  match type of h with ?a + ?b = ?c + ?b => assert (h' : a = c) by (replace a with (a + b - b) by ring; rewrite h; ring) end. rewrite <- h', <- zsum_scal. apply zsum_ext. intros n _.
  rewrite conj_div by exact hd. rewrite !conj_plus, !conj_mult, !conj_R. unfold e_. field. apply RtoC_neq, hd.
Qed.
Lemma lower_rows k m' r : rotates k -> (- Z.of_nat (S k) <= m' <= Z.of_nat (S k))%Z ->
  let Sm := fun i => zsum (- Z.of_nat (S k)) (Z.of_nat (S k)) (fun n => Cconj (Dmat T k m' n) * (e_ i 0 * solid r k n - e_ i 1 / 2 * solid r k (n + 1) - e_ i (-1) / 2 * solid r k (n - 1))) in
  Sm 0%Z = solid (mv T r) k m' /\ Sm 1%Z = - (solid (mv T r) k (m' + 1) / 2) /\ Sm (-1)%Z = - (solid (mv T r) k (m' - 1) / 2).
Proof.
  intros hk hm' Sm. pose proof (lower T k m' (fun n => Cconj (Dmat T k m' n)) (hk m' hm') r) as g.
  destruct rows as [r1 [r2 r3]]. pose proof (g (row1 T)) as g1. pose proof (g (row2 T)) as g2. pose proof (g (row3 T)) as g3. rewrite r1 in g1. rewrite r2 in g2. rewrite r3 in g3. rewrite grad_expand in g1, g2, g3. unfold eta, xi in g1, g2, g3. cbn [vx vy vz] in g1, g2, g3.
  set (h0 := solid (mv T r) k m') in *. set (h1 := solid (mv T r) k (m' + 1)) in *. set (h_1 := solid (mv T r) k (m' - 1)) in *.
  split; [|split].
  - transitivity (zsum (- Z.of_nat (S k)) (Z.of_nat (S k)) (fun n => Cconj (Dmat T k m' n) * grad r (row3 T) k n)).
    + apply zsum_ext. intros n _. f_equal. rewrite grad_expand. unfold e_, D1, eta, xi. apply c_eq; cbn -[solid]; field.
    + rewrite <- g3. apply c_eq; cbn -[solid]; field.
  - transitivity (RtoC (- (1/2)) * zsum (- Z.of_nat (S k)) (Z.of_nat (S k)) (fun n => Cconj (Dmat T k m' n) * grad r (row1 T) k n) + (0, - (1/2))%R * zsum (- Z.of_nat (S k)) (Z.of_nat (S k)) (fun n => Cconj (Dmat T k m' n) * grad r (row2 T) k n)).
    + rewrite <- !zsum_scal, <- zsum_plus. apply zsum_ext. intros n _. rewrite !grad_expand. generalize (Cconj (Dmat T k m' n)) (solid r k n) (solid r k (n + 1)) (solid r k (n - 1)). intros D a b c. unfold e_, D1, eta, xi. apply c_eq; cbn; field.
    + rewrite <- g1, <- g2. clearbody h0 h1 h_1. clear. apply c_eq; cbn; field.
  - transitivity (RtoC (1/2) * zsum (- Z.of_nat (S k)) (Z.of_nat (S k)) (fun n => Cconj (Dmat T k m' n) * grad r (row1 T) k n) + (0, - (1/2))%R * zsum (- Z.of_nat (S k)) (Z.of_nat (S k)) (fun n => Cconj (Dmat T k m' n) * grad r (row2 T) k n)).
    + rewrite <- !zsum_scal, <- zsum_plus. apply zsum_ext. intros n _. rewrite !grad_expand. generalize (Cconj (Dmat T k m' n)) (solid r k n) (solid r k (n + 1)) (solid r k (n - 1)). intros D a b c. unfold e_, D1, eta, xi. apply c_eq; cbn; field.
    + rewrite <- g1, <- g2. clearbody h0 h1 h_1. clear. apply c_eq; cbn; field.
Qed.
Lemma rotates_all k : rotates k.
Proof.
  induction k as [|k IH]; intros m hm r.
  - change (- Z.of_nat 1)%Z with (-1)%Z in *. change (Z.of_nat 1) with 1%Z in *. rewrite zsum3. destruct (solid_1 r) as [-> [-> ->]]. destruct (deg1 r) as [d_1 [d0 d1]]. destruct (solid_1 (mv T r)) as [s_1 [s0 s1]].
    assert (hm' : (m = -1 \/ m = 0 \/ m = 1)%Z) by lia. destruct hm' as [->|[->| ->]]; [rewrite s_1, d_1|rewrite s0, d0|rewrite s1, d1]; reflexivity.
  - cbn [Dmat]. set (l := Z.of_nat (S (S k))) in *.
    assert (hden : forall a b : Z, (a <> 0)%Z -> (b <> 0)%Z -> (IZR a * IZR b <> 0)%R). { intros a b ha hb. apply Rmult_integral_contrapositive. split; intros e; [apply ha|apply hb]; apply eq_IZR; exact e. }
    destruct (Z.eq_dec m (- l)) as [->|hne1]; [|destruct (Z.eq_dec m l) as [->|hne2]].
    + rewrite (next_row k (- l + 1) (ca l (- l + 1)) (fun r => solid (mv T r) (S (S k)) (- l)) (-1) IH); [|unfold l; lia| |].
      * apply zsum_ext. intros n hn. f_equal. f_equal. unfold next_D. replace ((- l <=? n) && (n <=? l))%Z%bool with true by (symmetry; apply andb_true_intro; split; apply Z.leb_le; lia). rewrite Z.eqb_refl. reflexivity.
      * unfold ca. specialize (hden (l - (- l + 1) + 1)%Z (l - (- l + 1))%Z ltac:(unfold l; lia) ltac:(unfold l; lia)). lra.
      * clear r. intros r. destruct (lower_rows k (- l + 1) r IH ltac:(unfold l; lia)) as [_ [_ g]]. rewrite g. destruct (deg1 r) as [d_1 _]. rewrite <- d_1.
        pose proof (prod_1 (mv T r) k (- l + 1)) as E. fold l in E. rewrite rho_T in E. replace (- l + 1 - 1)%Z with (- l)%Z in * by ring. fold l. rewrite E. field. exact half_c.
    + rewrite (next_row k (l - 1) (cc l (l - 1)) (fun r => solid (mv T r) (S (S k)) l) 1 IH); [|unfold l; lia| |].
      * apply zsum_ext. intros n hn. f_equal. f_equal. unfold next_D. replace ((- l <=? n) && (n <=? l))%Z%bool with true by (symmetry; apply andb_true_intro; split; apply Z.leb_le; lia). replace (l =? - l)%Z with false by (symmetry; apply Z.eqb_neq; unfold l; lia). rewrite Z.eqb_refl. reflexivity.
      * unfold cc. specialize (hden (l + (l - 1) + 1)%Z (l + (l - 1))%Z ltac:(unfold l; lia) ltac:(unfold l; lia)). lra.
      * clear r. intros r. destruct (lower_rows k (l - 1) r IH ltac:(unfold l; lia)) as [_ [g _]]. rewrite g. destruct (deg1 r) as [_ [_ d1]]. rewrite <- d1.
        pose proof (prod1 (mv T r) k (l - 1)) as E. fold l in E. rewrite rho_T in E. replace (l - 1 + 1)%Z with l in * by ring. fold l. rewrite E. field. exact half_c.
    + rewrite (next_row k m (cb l m) (fun r => solid (mv T r) (S (S k)) m) 0 IH); [|unfold l in *; lia| |].
      * apply zsum_ext. intros n hn. f_equal. f_equal. unfold next_D. replace ((- l <=? n) && (n <=? l))%Z%bool with true by (symmetry; apply andb_true_intro; split; apply Z.leb_le; lia). replace (m =? - l)%Z with false by (symmetry; apply Z.eqb_neq; lia). replace (m =? l)%Z with false by (symmetry; apply Z.eqb_neq; lia).
        replace ((- l <? m) && (m <? l))%Z%bool with true by (symmetry; apply andb_true_intro; split; apply Z.ltb_lt; lia). reflexivity.
      * unfold cb. apply hden; lia.
      * clear r. intros r. destruct (lower_rows k m r IH ltac:(unfold l in *; lia)) as [g _]. rewrite g. destruct (deg1 r) as [_ [d0 _]]. rewrite <- d0.
        pose proof (prod0 (mv T r) k m) as E. fold l in E. rewrite rho_T in E. fold l. rewrite E. ring.
Qed.
(** ** transform_multipole *)
Lemma turned_moment qs r0 k m : (- Z.of_nat (S k) <= m <= Z.of_nat (S k))%Z ->
  moment (map (turned T r0) qs) r0 (S k) m = zsum (- Z.of_nat (S k)) (Z.of_nat (S k)) (fun n => Dmat T k m n * moment qs r0 (S k) n).
Proof.
  intros hm. induction qs as [|[r q] qs IH]; cbn [map moment].
  - symmetry. apply zsum_zero. intros n _. ring.
  - unfold turned at 1. cbn [fst snd]. rewrite IH. replace (vsub (vadd r0 (mv T (vsub r r0))) r0) with (mv T (vsub r r0)) by (apply v3_eq; cbn; ring). rewrite (rotates_all k m hm), zsum_conj, <- zsum_scal, <- zsum_plus.
    apply zsum_ext. intros n _. rewrite conj_mult, conj_conj. ring.
Qed.
Lemma dot_sum (l : nat) (D : Z -> C) (M : moments) f lmax : holds_to lmax M f -> symm f -> (l <= lmax)%nat ->
  zsum (- Z.of_nat l) (Z.of_nat l) (fun n => D n * f l n) = D 0%Z * RtoC (ml0 M l) + csum l (fun i => D (Z.of_nat (S i)) * mlm M l (S i) + D (- Z.of_nat (S i))%Z * RtoC (sgn (S i)) * Cconj (mlm M l (S i))).
Proof.
  intros [h0 hm] hs hl. rewrite zsum_sym. rewrite h0 by exact hl. f_equal. apply csum_ext. intros i hi. rewrite hm by lia. rewrite (hs l (Z.of_nat (S i))). unfold sg. replace (Z.abs_nat (Z.of_nat (S i))) with (S i) by lia. ring.
Qed.
Theorem transform_exact lmax M qs r0 : holds_to lmax M (moment qs r0) -> holds_to lmax (transform_multipole T M) (moment (map (turned T r0) qs) r0).
Proof.
  intros hM. split; unfold transform_multipole; cbn [ml0 mlm].
  - intros l hl. destruct l as [|k].
    + rewrite (proj1 hM) by lia. clear. induction qs as [|[r q] qs IH]; cbn [map moment]; [reflexivity|]. rewrite IH. unfold turned at 2. cbn [fst snd]. rewrite !solid_00. reflexivity.
    + transitivity (RtoC (Re (moment (map (turned T r0) qs) r0 (S k) 0))); [|symmetry; apply symm_0, symm_moment]. f_equal. rewrite turned_moment by lia. rewrite (dot_sum (S k) (Dmat T k 0) M _ lmax hM (symm_moment qs r0) hl).
      set (cs := csum _ _). transitivity (Re (Dmat T k 0 0) * ml0 M (S k) + Re cs)%R; [|unfold cs, Re; cbn [fst snd Cplus Cmult RtoC]; ring]. unfold dot_l0. f_equal. unfold cs. rewrite csum_re. reflexivity.
  - intros l n hl hn. destruct l as [|k]; [lia|]. rewrite turned_moment by lia. rewrite (dot_sum (S k) (Dmat T k (Z.of_nat n)) M _ lmax hM (symm_moment qs r0) hl). reflexivity.
Qed.
End Rot.
