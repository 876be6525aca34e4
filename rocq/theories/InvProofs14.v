From Coq Require Import Reals ZArith List Bool Arith Lia Lra Psatz.
From Verif Require Import Vec GeomModel GeomSpec GeomProofs CoulModel MixModel PairModel PairSpec PairProofs SkModel SkSpec SkProofs SkProofs2 SkProofs6 SkProofs7 Cpx RhoModel RhoSpec RhoProofs EigModel EigSpec EigProofs2 GamModel InvModel InvSpec InvLin InvProofs InvProofs2 InvProofs5 InvProofs6 InvProofs7 InvProofs8 InvProofs9 InvProofs10 InvProofs11 InvProofs12 InvProofs13.
Import ListNotations.
Open Scope R_scope.

(** ** a solver of 2x2 matrices with unit overlap *)
Section Two.
Context (a b x y : R).
Definition half_gap : R := sqrt (((a - b) / 2) ^ 2 + (x ^ 2 + y ^ 2)).
Definition level2 (k : nat) : R := (a + b) / 2 + (if (k =? 0)%nat then - half_gap else half_gap).
Definition size2 (k : nat) : R := sqrt (x ^ 2 + y ^ 2 + (level2 k - a) ^ 2).
(** column k: conj(z), level-a over the norm *)
Definition column2 (k i : nat) : cplx := if (i =? 0)%nat then (x / size2 k, - y / size2 k) else (rc ((level2 k - a) / size2 k)).
Lemma gap_sq : half_gap * half_gap = ((a - b) / 2) ^ 2 + (x ^ 2 + y ^ 2).
Proof. apply sqrt_sqrt. pose proof (pow2_ge_0 ((a - b) / 2)). pose proof (pow2_ge_0 x). pose proof (pow2_ge_0 y). lra. Qed.
Lemma level_root k : (level2 k - a) * (level2 k - b) = x ^ 2 + y ^ 2.
Proof. pose proof gap_sq as H. unfold level2. destruct (k =? 0)%nat; [|]; replace (x ^ 2 + y ^ 2) with (half_gap * half_gap - ((a - b) / 2) ^ 2) by lra; field. Qed.
Lemma level_prod : (level2 0 - a) * (level2 1 - a) = - (x ^ 2 + y ^ 2).
Proof. pose proof gap_sq as H. unfold level2. cbn [Nat.eqb]. replace (- (x ^ 2 + y ^ 2)) with (- (half_gap * half_gap - ((a - b) / 2) ^ 2)) by lra. field. Qed.
Context (Hz : 0 < x ^ 2 + y ^ 2).
Lemma size_pos k : 0 < size2 k. Proof. apply sqrt_lt_R0. pose proof (pow2_ge_0 (level2 k - a)). lra. Qed.
Lemma size_sq k : size2 k * size2 k = x ^ 2 + y ^ 2 + (level2 k - a) ^ 2.
Proof. apply sqrt_sqrt. pose proof (pow2_ge_0 (level2 k - a)). lra. Qed.
End Two.
Definition unit2 (B : nat -> cplx) : bool := if Req_EM_T (fst (B 0%nat)) 1 then if Req_EM_T (fst (B 3%nat)) 1 then if Req_EM_T (fst (B 1%nat)) 0 then if Req_EM_T (snd (B 1%nat)) 0 then true else false else false else false else false.
Definition z2 (N : nat) (A B : nat -> cplx) (w : nat -> R) : Z * (nat -> cplx) * (nat -> R) :=
  if (N =? 2)%nat && unit2 B then
    let a := fst (A 0%nat) in let b := fst (A 3%nat) in let x := fst (A 1%nat) in let y := snd (A 1%nat) in
    if ltb 0 (x ^ 2 + y ^ 2) then (0%Z, fun q => column2 a b x y (q / 2) (q mod 2), level2 a b x y)
    else if leb a b then (0%Z, fun q => if (q / 2 =? q mod 2)%nat then c1 else c0, fun k => if (k =? 0)%nat then a else b)
    else (0%Z, fun q => if (q / 2 =? q mod 2)%nat then c0 else c1, fun k => if (k =? 0)%nat then b else a)
  else (Z.of_nat N + 1, A, w)%Z.
Lemma unit2_true B : unit2 B = true -> fst (B 0%nat) = 1 /\ fst (B 3%nat) = 1 /\ B 1%nat = c0.
Proof. unfold unit2. destruct (Req_EM_T (fst (B 0%nat)) 1), (Req_EM_T (fst (B 3%nat)) 1), (Req_EM_T (fst (B 1%nat)) 0), (Req_EM_T (snd (B 1%nat)) 0); try discriminate. intros _. repeat split; try assumption. apply cplx_eq; assumption. Qed.
Ltac two a := destruct a as [|[|a]]; [| |exfalso; lia].
Lemma lower2 A i j : (i < 2)%nat -> (j < 2)%nat -> lower_matrix 2 A i j = match i, j with O, O => rc (fst (A 0%nat)) | O, _ => cconj (A 1%nat) | _, O => A 1%nat | _, _ => rc (fst (A 3%nat)) end.
Proof. intros Hi Hj. two i; two j; reflexivity. Qed.
Example z2_contract : lapack_contract z2.
Proof.
  intros N A B w info A' w' E. unfold z2 in E. cbv zeta in E. destruct ((N =? 2)%nat && unit2 B) eqn:C.
  2: { injection E as <- <- <-. split; [intros K; exfalso; lia|]. intros _. split; [lia|]. split; reflexivity. }
  apply andb_prop in C. destruct C as [C1 C2]. apply Nat.eqb_eq in C1. subst N. destruct (unit2_true B C2) as (B0 & B3 & B1).
  set (a := fst (A 0%nat)) in *. set (b := fst (A 3%nat)) in *. set (x := fst (A 1%nat)) in *. set (y := snd (A 1%nat)) in *.
  split.
  2: { intros Hn. exfalso. apply Hn. intros v (i & Hi & Hv). unfold bracket. assert (EV : fst (csum 2 (fun i => csum 2 (fun j => cmul (cmul (cconj (v i)) (lower_matrix 2 B i j)) (v j)))) = (fst (v 0%nat) ^ 2 + snd (v 0%nat) ^ 2) + (fst (v 1%nat) ^ 2 + snd (v 1%nat) ^ 2)).
    { unfold csum, rsum. rewrite !lower2 by lia. rewrite B0, B3, B1. unfold cmul, cconj, c0, rc. cbn [fst snd]. ring. }
    rewrite EV. assert (Hne : 0 < fst (v i) ^ 2 + snd (v i) ^ 2).
    { destruct (v i) as [p q]. cbn [fst snd]. destruct (Req_dec p 0) as [->|]; [destruct (Req_dec q 0) as [->|]; [exfalso; apply Hv; reflexivity|nra]|nra]. }
    assert (forall p q : R, 0 <= p ^ 2 + q ^ 2) by (intros; nra). pose proof (H (fst (v 0%nat)) (snd (v 0%nat))). pose proof (H (fst (v 1%nat)) (snd (v 1%nat))). two i; lra. }
  intros _. assert (HB : forall (f : nat -> cplx) i, (i < 2)%nat -> csum 2 (fun j => cmul (lower_matrix 2 B i j) (f j)) = f i).
  { intros f i Hi. unfold csum, rsum. rewrite !lower2 by lia. rewrite B0, B3, B1. two i; unfold cmul, cconj, c0, rc; cbn [fst snd]; apply cplx_eq; cbn [fst snd]; ring. }
  assert (HB2 : forall (f g : nat -> cplx), bracket 2 (lower_matrix 2 B) f g = csum 2 (fun j => cmul (cconj (f j)) (g j))).
  { intros f g. unfold bracket, csum, rsum. rewrite !lower2 by lia. rewrite B0, B3, B1. unfold cmul, cconj, c0, rc; cbn [fst snd]; apply cplx_eq; cbn [fst snd]; ring. }
  destruct (ltb 0 (x ^ 2 + y ^ 2)) eqn:Z.
  - apply ltb_true in Z. pose proof (f_equal (fun t => snd (fst t)) E) as EA; pose proof (f_equal snd E) as EW; cbn [fst snd] in EA, EW; subst A' w'; clear E. pose proof (size_pos a b x y Z) as SP. pose proof (size_sq a b x y Z) as SQ. pose proof (level_root a b x y) as LR. pose proof (level_prod a b x y) as LP.
    assert (col : forall k j, (k < 2)%nat -> (j < 2)%nat -> column2 a b x y ((j + 2 * k) / 2) ((j + 2 * k) mod 2) = column2 a b x y k j) by (intros k j Hk Hj; two k; two j; reflexivity).
    split; [|split].
    + intros k i Hk Hi. rewrite (csum_ext' 2 _ (fun j => cmul (lower_matrix 2 A i j) (column2 a b x y k j))) by (intros j Hj; cbv beta; rewrite col by assumption; reflexivity).
      rewrite (csum_ext' 2 (fun j => cmul (lower_matrix 2 B i j) _) (fun j => cmul (lower_matrix 2 B i j) (column2 a b x y k j))) by (intros j Hj; cbv beta; rewrite col by assumption; reflexivity).
      rewrite HB by exact Hi. unfold csum, rsum. rewrite !lower2 by lia. fold a b. specialize (SP k). specialize (LR k). unfold column2. set (l := level2 a b x y k) in *. set (n := size2 a b x y k) in *.
      two i; unfold cmul, cconj, cscale, rc; cbn [fst snd Nat.eqb]; fold x y; apply cplx_eq; cbn [fst snd]; try (field; lra).
      apply (Rmult_eq_reg_r n); [|lra]. transitivity (x ^ 2 + y ^ 2 + b * (l - a)); [field; lra|]. rewrite <- LR. field. lra.
    + intros k k' Hk Hk'. rewrite HB2. rewrite (csum_ext' 2 _ (fun j => cmul (cconj (column2 a b x y k j)) (column2 a b x y k' j))) by (intros j Hj; cbv beta; rewrite !col by assumption; reflexivity).
      pose proof (SP k) as Sk. pose proof (SP k') as Sk'. unfold csum, rsum, column2. cbn [Nat.eqb]. unfold cmul, cconj, rc. cbn [fst snd].
      destruct (Nat.eqb_spec k k') as [->|Ne].
      * specialize (SQ k'). apply cplx_eq; cbn [fst snd c1]; [|field; lra]. set (l := level2 a b x y k') in *. set (n := size2 a b x y k') in *.
        apply (Rmult_eq_reg_r (n * n)); [|apply Rgt_not_eq; apply Rmult_lt_0_compat; lra]. transitivity (x ^ 2 + y ^ 2 + (l - a) ^ 2); [field; lra|]. unfold c1. cbn [fst]. lra.
      * assert (LL : (level2 a b x y k - a) * (level2 a b x y k' - a) = - (x ^ 2 + y ^ 2)) by (two k; two k'; try (exfalso; lia); rewrite <- LP; ring).
        apply cplx_eq; cbn [fst snd]; unfold c0; cbn [fst snd]; [|field; lra]. set (l := level2 a b x y k) in *. set (l' := level2 a b x y k') in *. set (n := size2 a b x y k) in *. set (n' := size2 a b x y k') in *.
        apply (Rmult_eq_reg_r (n * n')); [|apply Rgt_not_eq; apply Rmult_lt_0_compat; lra]. transitivity (x ^ 2 + y ^ 2 + (l - a) * (l' - a)); [field; lra|]. rewrite LL. ring.
    + intros k k' H1 H2. unfold level2. assert (0 <= half_gap a b x y) by apply sqrt_pos. two k'; two k; try (exfalso; lia); cbn [Nat.eqb]; lra.
  - apply ltb_false in Z. pose proof (pow2_ge_0 x) as X2. pose proof (pow2_ge_0 y) as Y2. assert (x = 0) by (apply Rsqr_0_uniq; unfold Rsqr; lra). assert (y = 0) by (apply Rsqr_0_uniq; unfold Rsqr; lra).
    assert (A1 : A 1%nat = c0) by (apply cplx_eq; assumption).
    destruct (leb a b) eqn:L.
    + apply leb_true in L. pose proof (f_equal (fun t => snd (fst t)) E) as EA; pose proof (f_equal snd E) as EW; cbn [fst snd] in EA, EW; subst A' w'; clear E. split; [|split].
      * intros k i Hk Hi. rewrite (HB (fun j => _) i Hi). unfold csum, rsum. rewrite !lower2 by lia. rewrite A1. fold a b. two i; two k; cbn; unfold cmul, cconj, cscale, rc, c0, c1; cbn [fst snd]; apply cplx_eq; cbn [fst snd]; ring.
      * intros k k' Hk Hk'. rewrite HB2. unfold csum, rsum. two k; two k'; cbn; unfold cmul, cconj, c0, c1; cbn [fst snd]; apply cplx_eq; cbn [fst snd]; ring.
      * intros k k' H1 H2. two k'; two k; try (exfalso; lia); cbn [Nat.eqb]; lra.
    + apply leb_false in L. pose proof (f_equal (fun t => snd (fst t)) E) as EA; pose proof (f_equal snd E) as EW; cbn [fst snd] in EA, EW; subst A' w'; clear E. split; [|split].
      * intros k i Hk Hi. rewrite (HB (fun j => _) i Hi). unfold csum, rsum. rewrite !lower2 by lia. rewrite A1. fold a b. two i; two k; cbn; unfold cmul, cconj, cscale, rc, c0, c1; cbn [fst snd]; apply cplx_eq; cbn [fst snd]; ring.
      * intros k k' Hk Hk'. rewrite HB2. unfold csum, rsum. two k; two k'; cbn; unfold cmul, cconj, c0, c1; cbn [fst snd]; apply cplx_eq; cbn [fst snd]; ring.
      * intros k k' H1 H2. two k'; two k; try (exfalso; lia); cbn [Nat.eqb]; lra.
Qed.
Lemma z2_reliable w0 X : s_norb X = 2%nat -> (forall k i j, (k < s_nk X)%nat -> (i < 2)%nat -> (j < 2)%nat -> s_S X k i j = if (i =? j)%nat then c1 else c0) -> reliable z2 w0 X.
Proof.
  intros En HS. split; [exact z2_contract|]. intros k H Hk _. rewrite En. unfold succeeds, z2. cbn [Nat.eqb andb].
  assert (U : unit2 (fmem 2 (s_S X k)) = true).
  { unfold unit2, fmem. cbn [Nat.modulo Nat.div Nat.divmod fst snd Nat.sub]. rewrite !HS by (assumption || lia). cbn [Nat.eqb fst snd c1 c0]. unfold c1, c0, rc. cbn [fst snd].
    destruct (Req_EM_T 1 1); [|lra]. destruct (Req_EM_T 0 0); [|lra]. reflexivity. }
  rewrite U. destruct (ltb _ _); [reflexivity|]. destruct (leb _ _); reflexivity.
Qed.
(** ** two atoms of different elements with one orbital each, as a molecule *)
Definition D2 : database := {| d_no := fun _ => 1%nat; d_onsite := fun K _ => - INR (S K); d_val := fun _ => 1; d_Z := fun K => INR (S K); d_U := fun K => INR (S K); d_FWHM := fun _ => 2; d_efree := fun _ => -1;
  d_H := fun _ _ d c => if (c =? 9)%nat then - exp (- d) else 0; d_dH := fun _ _ d c => if (c =? 9)%nat then exp (- d) else 0; d_S := fun _ _ _ _ => 0; d_dS := fun _ _ _ _ => 0;
  d_r1 := fun _ _ => 0; d_r2 := fun _ _ => 10; d_vrep := fun _ _ d => exp (- d); d_dvrep := fun _ _ d => - exp (- d); d_rmax := 5 |}.
Definition g2 (r : nat -> v3) (kind : nat -> nat) : structure := {| g_N := 2; g_r := r; g_kind := kind; g_nimg := 1; g_O := fun _ => eye; g_t := fun _ => vzero; g_DT := fun _ => Drep eye; g_nk := 1; g_phase := fun _ _ => c1; g_wk := fun _ => 1;
  g_ranges := ((Some 0%Z, Some 0%Z), (Some 0%Z, Some 0%Z), (Some 0%Z, Some 0%Z)); g_tr0 := fun _ => vzero; g_rot := fun _ => eye; g_pp := fun _ _ _ => 0; g_dpp := fun _ _ _ => 0; g_rc := 0; g_ext := fun _ => 0; g_charge := 0 |}.
Definition swap2 (i : nat) : nat := match i with 0 => 1 | 1 => 0 | i => i end%nat.
(** a quarter turn about z *)
Definition P2 : m3 := M3 (V3 0 (-1) 0) (V3 1 0 0) (V3 0 0 1).
Definition v2 : v3 := V3 1 2 3.
Definition ga : structure := g2 (fun i => if (i =? 0)%nat then vzero else V3 1 0 0) (fun i => i).
Definition gb : structure := g2 (fun i => vadd (mv P2 (g_r ga (swap2 i))) v2) swap2.
Definition gc : structure := g2 (fun i => vadd (mv P2 (g_r ga i)) v2) (fun i => i).
Lemma swap2_permutes : permutes 2 swap2.
Proof. split; [intros i Hi; two i; cbn; lia|]. intros i j Hi Hj. two i; two j; cbn; lia. Qed.
Lemma P2_orthogonal : orthogonal P2. Proof. unfold orthogonal, P2. apply m3_eq; apply v3_eq; vunf; ring. Qed.
Lemma eye_conj : eye = mm (mm P2 eye) (tr P2). Proof. unfold P2, eye. apply m3_eq; apply v3_eq; vunf; ring. Qed.
Lemma no_shift : vzero = vsub (vadd (mv P2 vzero) v2) (mv eye v2). Proof. unfold P2, v2, eye. apply v3_eq; vunf; ring. Qed.
Example ex_swapped : rigid_motion swap2 P2 v2 ga gb.
Proof.
  constructor; try reflexivity; cbn [gb ga g2 g_N g_r g_kind g_nimg g_O g_t g_nk g_phase g_wk g_ranges g_tr0 g_rot g_pp g_dpp g_rc g_ext g_charge].
  - lia.
  - exact swap2_permutes.
  - exact P2_orthogonal.
  - intros i Hi. two i; reflexivity.
  - intros i Hi. two i; reflexivity.
  - intros _ _. exact eye_conj.
  - intros _ _. exact no_shift.
  - intros _. exact eye_conj.
  - intros _. exact no_shift.
  - intros i _. reflexivity.
Qed.
Example ex_moved : rigid_motion (fun i => i) P2 v2 ga gc.
Proof.
  constructor; try reflexivity; cbn [gc ga g2 g_N g_r g_kind g_nimg g_O g_t g_nk g_phase g_wk g_ranges g_tr0 g_rot g_pp g_dpp g_rc g_ext g_charge].
  - lia.
  - split; auto.
  - exact P2_orthogonal.
  - intros _ _. exact eye_conj.
  - intros _ _. exact no_shift.
  - intros _. exact eye_conj.
  - intros _. exact no_shift.
  - intros i _. reflexivity.
Qed.
Lemma one_image : images 1 (fun _ => eye) (fun _ => vzero) (fun i => i).
Proof.
  constructor; try lia; try reflexivity; try (split; reflexivity).
  - intros n p q _. rewrite !mv_eye. reflexivity.
  - intros n p _. rewrite !mv_eye. destruct p. vring.
Qed.
Lemma D2_H d : forall c, (c < 14)%nat -> (if (c =? 9)%nat then d else 0) = read_integral (fun c => if (c =? 9)%nat then d else 0) (fun c => if (c =? 9)%nat then d else 0) c.
Proof. intros c Hc. do 14 (destruct c as [|c]; [cbn; ring|]). lia. Qed.
Lemma D2_0 : forall c, (c < 14)%nat -> 0 = read_integral (fun _ => 0) (fun _ => 0) c.
Proof. intros c Hc. do 14 (destruct c as [|c]; [cbn; ring|]). lia. Qed.
Example ex_sound r kind : sound D2 (g2 r kind) (fun i => i).
Proof.
  constructor; cbn [g2 g_N g_nimg g_O g_t g_DT g_phase g_nk g_pp g_dpp D2 d_no d_H d_S d_onsite]; try reflexivity.
  - exact one_image.
  - intros k n _ _. apply cplx_eq; cbn; ring.
  - intros _. left. reflexivity.
  - intros K d. exists (fun c => if (c =? 9)%nat then - exp (- d) else 0). apply D2_H.
  - intros K d. exists (fun _ => 0). apply D2_0.
Qed.
Example ex_one_table : one_table D2.
Proof.
  constructor; cbn [D2 d_H d_dH d_S d_dS d_r1 d_r2 d_vrep d_dvrep]; try reflexivity; intros K L d.
  - exists (fun c => if (c =? 9)%nat then - exp (- d) else 0), (fun c => if (c =? 9)%nat then - exp (- d) else 0). split; [intros c _; reflexivity|]. split; apply D2_H.
  - exists (fun c => if (c =? 9)%nat then exp (- d) else 0), (fun c => if (c =? 9)%nat then exp (- d) else 0). split; [intros c _; reflexivity|]. split; apply D2_H.
  - exists (fun _ => 0), (fun _ => 0). split; [intros c _; reflexivity|]. split; apply D2_0.
  - exists (fun _ => 0), (fun _ => 0). split; [intros c _; reflexivity|]. split; apply D2_0.
Qed.
Lemma apart2 r kind : vnorm (vsub (r 1%nat) (r 0%nat)) = 1 -> too_close (g_N (g2 r kind)) (g_nimg (g2 r kind)) (g_Rn 1 (g2 r kind)) = false.
Proof.
  intros H1. apply too_close_tested. intros i j n Hi Hj Hn L. cbn in Hi, Hj, Hn. assert (n = 0%nat) by lia. subst n. assert (E : forall a b, mdist (g_Rn 1 (g2 r kind)) 0 a b = vnorm (vsub (r b) (r a))).
  { intros a b. unfold mdist, mrij, g_Rn. cbn [g2 g_O g_t g_r]. rewrite !mv_eye. f_equal. destruct (r a), (r b). apply v3_eq; vunf; field. }
  rewrite E. two i; two j; cbn [self_pair Nat.eqb andb orb]; try reflexivity; try (exfalso; lia). rewrite H1. apply ltb_true. lra.
Qed.
Lemma flat2 r kind (M : nat -> nat -> nat -> nat -> cplx) i j : (i < 2)%nat -> (j < 2)%nat -> flat D2 (g2 r kind) M i j = M i 0%nat j 0%nat.
Proof. intros Hi Hj. two i; two j; reflexivity. Qed.
Lemma no_overlap r kind k i j : (i < 2)%nat -> (j < 2)%nat -> flat D2 (g2 r kind) (g_matrix 1 D2 (g2 r kind) (fun _ _ => 1 + 0) (d_S D2) k) i j = if (i =? j)%nat then c1 else c0.
Proof.
  intros Hi Hj. rewrite flat2 by assumption. unfold g_matrix, SkModel.matrix. set (G := g2 r kind) in *.
  assert (B : forall i j a b, block (g_nimg G) (g_no D2 G) (g_Rn 1 G) (g_DT G) (g_phase G k) (pairwise G (d_S D2)) (pairwise G (d_r1 D2)) (pairwise G (d_r2 D2)) i j a b = c0).
  { intros i0 j0 a b. unfold block. apply csum_all0. intros n Hn. destruct (skipped _ _ _ n i0 j0); [reflexivity|]. unfold ht_image. rewrite (rsum_ext _ _ (fun _ => 0)); [rewrite rsum_zero; unfold cscale; apply cplx_eq; cbn; ring|].
    intros q _. unfold ht. rewrite (rsum_ext _ _ (fun _ => 0)); [rewrite rsum_zero; ring|]. intros e _. unfold pairwise, D2. cbn [d_S]. ring. }
  rewrite !B. two i; two j; cbn [Nat.ltb Nat.leb Nat.eqb]; apply cplx_eq; cbn; ring.
Qed.
(** a molecule of this kind gives a system, and the solver is reliable for it *)
Example ex_assembled erfc goal r kind : vnorm (vsub (r 1%nat) (r 0%nat)) = 1 -> exists X, assemble erfc 1 1 true None goal (/ 10) 0 true D2 (g2 r kind) = Some X /\ forall w0, reliable z2 w0 X.
Proof.
  intros H1. unfold assemble. rewrite (apart2 r kind H1). unfold g_gamma, gauss_gamma, get_neighbours. cbn [g2 g_N g_kind g_ranges scan is_cluster infinite negb orb].
  assert (L : leb (rmaxn (2 - 1) (fun I => d_FWHM D2 (kind I))) 0 = false) by (apply leb_false; unfold D2; cbn; rewrite Rmax_left by lra; lra).
  rewrite L. cbn [negb orb andb].
  match goal with |- context [existsb ?p ?l] => assert (Z : existsb p l = false) end.
  { apply not_true_iff_false. intros E. apply existsb_exists in E. destruct E as (b & _ & E). unfold D2 in E. cbn [d_FWHM] in E. destruct (Req_EM_T (2 ^ 2 + 2 ^ 2) 0); [lra|discriminate]. }
  rewrite Z. eexists. split; [reflexivity|]. intros w0. apply z2_reliable; [reflexivity|]. intros k i j _ Hi Hj. cbn [s_S]. apply (no_overlap r kind k i j Hi Hj).
Qed.
Example ex_distances : vnorm (vsub (g_r ga 1%nat) (g_r ga 0%nat)) = 1 /\ vnorm (vsub (g_r gb 1%nat) (g_r gb 0%nat)) = 1 /\ vnorm (vsub (g_r gc 1%nat) (g_r gc 0%nat)) = 1.
Proof.
  assert (E : forall p, vdot p p = 1 -> vnorm p = 1) by (intros p H; unfold vnorm; rewrite H; apply sqrt_1).
  repeat split; apply E; unfold gb, gc, ga, g2, P2, v2, swap2; cbn [g_r Nat.eqb]; vunf; ring.
Qed.
(** ** files that disagree *)
Definition D3 : database := {| d_no := fun _ => 1%nat; d_onsite := fun K _ => - INR (S K); d_val := fun _ => 1; d_Z := fun K => INR (S K); d_U := fun K => INR (S K); d_FWHM := fun _ => 1; d_efree := fun _ => -1;
  d_H := fun K _ d c => if (c =? 9)%nat then INR (S K) else 0; d_dH := fun _ _ d c => 0; d_S := fun _ _ _ _ => 0; d_dS := fun _ _ _ _ => 0;
  d_r1 := fun _ _ => 0; d_r2 := fun _ _ => 10; d_vrep := fun K _ d => INR K; d_dvrep := fun _ _ d => 0; d_rmax := 5 |}.
Lemma sound3 r kind : sound D3 (g2 r kind) (fun i => i).
Proof.
  constructor; cbn [g2 g_N g_nimg g_O g_t g_DT g_phase g_nk g_pp g_dpp D3 d_no d_H d_S d_onsite]; try reflexivity.
  - exact one_image.
  - intros k n _ _. apply cplx_eq; cbn; ring.
  - intros _. left. reflexivity.
  - intros K d. exists (fun c => if (c =? 9)%nat then INR (S K) else 0). apply D2_H.
  - intros K d. exists (fun _ => 0). apply D2_0.
Qed.
Definition swapped_ga : structure := g2 (fun i => g_r ga (swap2 i)) swap2.
Lemma swapped_motion : rigid_motion swap2 eye vzero ga swapped_ga.
Proof.
  constructor; try reflexivity; cbn [swapped_ga ga g2 g_N g_r g_kind g_nimg g_O g_t g_nk g_phase g_wk g_ranges g_tr0 g_rot g_pp g_dpp g_rc g_ext g_charge].
  - lia.
  - exact swap2_permutes.
  - apply m3_eq; apply v3_eq; vunf; ring.
  - intros i Hi. two i; reflexivity.
  - intros i Hi. two i; unfold swap2; cbn [Nat.eqb]; apply v3_eq; vunf; ring.
  - intros _ _. apply m3_eq; apply v3_eq; vunf; ring.
  - intros _ _. apply v3_eq; vunf; ring.
  - intros _. apply m3_eq; apply v3_eq; vunf; ring.
  - intros _. apply v3_eq; vunf; ring.
  - intros i _. reflexivity.
Qed.
Lemma dist1 r kind n a b : dist (g_Rn 1 (g2 r kind)) n a b = vnorm (vsub (r b) (r a)).
Proof. unfold dist, rijn, g_Rn. cbn [g2 g_O g_t g_r]. rewrite !mv_eye. f_equal. destruct (r a), (r b). apply v3_eq; vunf; field. Qed.
Lemma system3 r kind : vnorm (vsub (r 1%nat) (r 0%nat)) = 1 -> exists X, assemble (fun _ => 0) 1 1 true None 1 (/ 10) 0 false D3 (g2 r kind) = Some X /\
  s_erep X = Some (INR (kind 0%nat)) /\ s_H0 X 0%nat 0%nat 1%nat = rc (INR (S (kind 0%nat))) /\ s_H0 X 0%nat 1%nat 0%nat = rc (INR (S (kind 0%nat))) /\ reliable z2 (fun _ _ => 0) X.
Proof.
  intros H1. unfold assemble. rewrite (apart2 r kind H1). eexists. split; [reflexivity|]. cbn [s_erep s_H0].
  assert (ok : distances_ok 2 1 (g_Rn 1 (g2 r kind)) 5 = true).
  { apply distances_tested. intros i j n Hi Hj Hn L. rewrite dist1. assert (n = 0%nat) by lia. subst n. two i; two j; cbn [self_pair Nat.eqb andb orb]; try reflexivity; try (exfalso; lia). rewrite H1.
    apply orb_true_iff. right. apply ltb_true. apply (Rlt_le_trans _ (/ 1)); [|lra]. apply Rinv_lt_contravar; [rewrite Rmult_1_l; apply pow_lt; lra|]. apply Rlt_pow_R1; [lra|lia]. }
  assert (en : total_energy 2 1 (g_Rn 1 (g2 r kind)) (pairwise (g2 r kind) (d_vrep D3)) 5 = INR (kind 0%nat)).
  { unfold total_energy, pair_energy. cbn [rsum Nat.sub Nat.add self_pair Nat.eqb andb]. rewrite !dist1. rewrite H1. replace (ltb 5 1) with false by (symmetry; apply ltb_false; lra). unfold pairwise, D3. cbn [d_vrep g2 g_kind]. ring. }
  assert (hop : block 1 (g_no D3 (g2 r kind)) (g_Rn 1 (g2 r kind)) (fun _ => Drep eye) (fun _ => c1) (pairwise (g2 r kind) (d_H D3)) (pairwise (g2 r kind) (d_r1 D3)) (pairwise (g2 r kind) (d_r2 D3)) 0 1 0 0 = rc (INR (S (kind 0%nat)))).
  { unfold block, csum. cbn [rsum].
    assert (M1 : mdist (g_Rn 1 (g2 r kind)) 0 0 1 = 1) by (change (dist (g_Rn 1 (g2 r kind)) 0 0 1 = 1); rewrite dist1; exact H1).
    assert (SK : skipped (g_Rn 1 (g2 r kind)) (pairwise (g2 r kind) (d_r1 D3)) (pairwise (g2 r kind) (d_r2 D3)) 0 0 1 = false).
    { unfold skipped. rewrite M1. cbn [Nat.eqb andb orb]. unfold pairwise, D3. cbn [d_r1 d_r2]. rewrite (proj2 (leb_true 0 1)) by lra. rewrite (proj2 (leb_true 1 10)) by lra. reflexivity. }
    rewrite SK. assert (HI : ht_image (g_no D3 (g2 r kind)) (g_Rn 1 (g2 r kind)) (fun _ => Drep eye) (pairwise (g2 r kind) (d_H D3)) 0 0 1 0 0 = INR (S (kind 0%nat))).
    { unfold ht_image. change (g_no D3 (g2 r kind) 1) with 1%nat. cbn [rsum]. rewrite M1. unfold ht, cnt, mat, ind. cbn [Nat.leb andb rsum mat_upper ind_upper nth]. rewrite Drep_eye by lia. unfold dlt. cbn [Nat.eqb]. unfold pairwise, D3. cbn [d_H Nat.eqb g2 g_kind]. ring. }
    rewrite HI. apply cplx_eq; cbn [fst snd]; unfold cscale, rc, c1; cbn [fst snd]; ring. }
  split; [|split; [|split]].
  - change (g_N (g2 r kind)) with 2%nat. change (g_nimg (g2 r kind)) with 1%nat. change (d_rmax D3) with 5. rewrite ok, en. f_equal. ring.
  - exact hop.
  - transitivity (cconj (block 1 (g_no D3 (g2 r kind)) (g_Rn 1 (g2 r kind)) (fun _ => Drep eye) (fun _ => c1) (pairwise (g2 r kind) (d_H D3)) (pairwise (g2 r kind) (d_r1 D3)) (pairwise (g2 r kind) (d_r2 D3)) 0 1 0 0)); [reflexivity|]. rewrite hop. apply cconj_rc.
  - apply z2_reliable; [reflexivity|]. intros k i j _ Hi Hj. cbn [s_S]. apply (no_overlap r kind k i j Hi Hj).
Qed.
Lemma renumbering_refuted : exists D g h s inv file X Y, rigid_motion s eye vzero g h /\ sound D g inv /\ sound D h inv /\ from_files (d_H D) file /\
  assemble (fun _ => 0) 1 1 true None 1 (/ 10) 0 false D g = Some X /\ assemble (fun _ => 0) 1 1 true None 1 (/ 10) 0 false D h = Some Y /\
  (exists z w0, reliable z w0 X /\ reliable z w0 Y) /\ s_erep X <> s_erep Y /\ cabs (s_H0 X 0%nat 0%nat 1%nat) <> cabs (s_H0 Y 0%nat (s 0%nat) (s 1%nat)).
Proof.
  destruct ex_distances as [da _].
  assert (db : vnorm (vsub (g_r ga (swap2 1)) (g_r ga (swap2 0))) = 1).
  { rewrite <- da. unfold ga, g2, swap2. cbn [g_r Nat.eqb]. unfold vnorm. f_equal. vunf. ring. }
  destruct (system3 (g_r ga) (fun i => i) da) as (X & EX & RX & HX & _ & ZX). destruct (system3 (fun i => g_r ga (swap2 i)) swap2 db) as (Y & EY & RY & _ & HY & ZY).
  exists D3, ga, swapped_ga, swap2, (fun i => i), (fun K _ _ c => if (c =? 9)%nat then INR (S K) else 0), X, Y.
  split; [exact swapped_motion|]. split; [apply sound3|]. split; [apply sound3|]. split.
  { intros K L d c Hc. do 14 (destruct c as [|c]; [cbn; ring|]). lia. }
  split; [exact EX|]. split; [exact EY|]. split; [exists z2, (fun _ _ => 0); split; assumption|]. split.
  - rewrite RX, RY. cbn [swap2 INR]. intros E. injection E. lra.
  - change (swap2 0) with 1%nat. change (swap2 1) with 0%nat. rewrite HX, HY. cbn [swap2 INR]. unfold cabs, rc. cbn [fst snd]. intros E. apply sqrt_inj in E; lra.
Qed.
