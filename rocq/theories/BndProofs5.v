From Coq Require Import Reals ZArith String List Bool Arith Lia Lra FunctionalExtensionality.
From Verif Require Import Vec GeomModel GeomProofs UtilModel KptModel KptSpec KptProofs KptProofs2 CoulModel MixModel OccModel PairModel PairSpec SkModel SkSpec SkProofs Cpx RhoModel RhoSpec EigModel EigSpec InvModel InvSpec InvLin InvProofs3 InvProofs6 InvProofs10 InvProofs13 GamModel InvProofs14 BndModel BndSpec BndProofs BndProofs2 BndProofs3 BndProofs4.
Import ListNotations.
Open Scope R_scope.

(** ** a solver for one orbital *)
Definition z1 (N : nat) (A B : nat -> cplx) (w : nat -> R) : Z * (nat -> cplx) * (nat -> R) :=
  if (N =? 1)%nat && ltb 0 (fst (B 0%nat)) then (0%Z, fun _ => rc (/ sqrt (fst (B 0%nat))), fun _ => fst (A 0%nat) / fst (B 0%nat)) else (Z.of_nat N + 1, A, w)%Z.
Ltac one a := destruct a as [|a]; [|exfalso; lia].
Lemma z1_contract : lapack_contract z1.
Proof.
  intros N A B w info A' w' E. unfold z1 in E. destruct ((N =? 1)%nat && ltb 0 (fst (B 0%nat))) eqn:C.
  2: { injection E as <- <- <-. split; [intros K; exfalso; lia|]. intros _. split; [lia|]. split; reflexivity. }
  apply andb_prop in C. destruct C as [C1 C2]. apply Nat.eqb_eq in C1. subst N. apply ltb_true in C2. set (a := fst (A 0%nat)) in *. set (b := fst (B 0%nat)) in *.
  pose proof (f_equal (fun t => snd (fst t)) E) as EA; pose proof (f_equal snd E) as EW; cbn [fst snd] in EA, EW; subst A' w'; clear E.
  assert (SB : sqrt b * sqrt b = b) by (apply sqrt_sqrt; lra). assert (SP : 0 < sqrt b) by (apply sqrt_lt_R0; lra).
  assert (LA : forall M : nat -> cplx, lower_matrix 1 M 0 0 = rc (fst (M 0%nat))) by reflexivity.
  split.
  - intros _. split; [|split].
    + intros k i Hk Hi. one k. one i. unfold csum, rsum. rewrite !LA. fold a b. unfold cmul, cscale, rc. cbn [fst snd]. apply cplx_eq; cbn [fst snd]; field; lra.
    + intros k k' Hk Hk'. one k. one k'. unfold bracket, csum, rsum. rewrite !LA. fold b. cbn [Nat.eqb]. unfold cmul, cconj, rc, c1. cbn [fst snd]. apply cplx_eq; cbn [fst snd]; [|ring]. transitivity (b / (sqrt b * sqrt b)); [field; lra|]. rewrite SB. field. lra.
    + intros k k' H1 H2. one k'. one k. lra.
  - intros Hn. exfalso. apply Hn. intros v (i & Hi & Hv). one i. unfold bracket, csum, rsum. rewrite !LA. fold b. unfold cmul, cconj, rc. cbn [fst snd].
    assert (0 < fst (v 0%nat) ^ 2 + snd (v 0%nat) ^ 2). { destruct (v 0%nat) as [p q]. cbn [fst snd]. destruct (Req_dec p 0) as [->|]; [destruct (Req_dec q 0) as [->|]; [exfalso; apply Hv; reflexivity|nra]|nra]. }
    nra.
Qed.
Lemma z1_reliable w0 X : s_norb X = 1%nat -> (forall k, s_S X k 0%nat 0%nat = c1) -> reliable z1 w0 X.
Proof.
  intros En HS. split; [exact z1_contract|]. intros k H Hk _. rewrite En. unfold succeeds, z1. cbn [Nat.eqb andb]. unfold fmem. cbn [Nat.modulo Nat.div Nat.divmod fst snd Nat.sub]. rewrite HS.
  rewrite (proj2 (ltb_true 0 (fst c1))) by (unfold c1; cbn [fst]; lra). reflexivity.
Qed.
(** ** one level *)
Definition midpoint (f : R -> R) (a b tol : R) : option R := Some ((a + b) / 2).
Record one_level (X : system) : Prop := {
  l_norb : s_norb X = 1%nat; l_N : s_N X = 1%nat; l_nk : s_nk X = 1%nat; l_o1 : s_o1 X 0%nat = 0%nat; l_no : s_no X 0%nat = 1%nat; l_val : s_val X 0%nat = 1; l_wk : s_wk X 0%nat = 1;
  l_nel : s_nel X = 1; l_charge : s_charge X = 0; l_S : forall k, s_S X k 0%nat 0%nat = c1; l_proper : proper X }.
Section OneLevel.
Context (X : system) (L : one_level X) (evmin : (nat -> nat -> cplx) -> R) (w0 : nat -> nat -> R) (tol_norm : R) (Ht : 0 <= tol_norm).
Lemma level_pass H1 : (forall h, H1 = Some h -> forall i j, h i j = h j i) -> exists e wf, pass z1 evmin w0 tol_norm X H1 = Some (match H1 with Some h => h | None => fun _ _ => 0 end, e, wf) /\
  all_k z1 (s_norb X) (s_nk X) tol_norm evmin w0 (s_H0 X) (s_S X) H1 = inr (e, wf) /\
  e 0%nat 0%nat = fst (s_H0 X 0%nat 0%nat 0%nat) + match H1 with Some h => h 0%nat 0%nat | None => 0 end /\ fst (wf 0 0 0)%nat ^ 2 + snd (wf 0 0 0)%nat ^ 2 = 1.
Proof.
  intros Sym. destruct (solve_system X z1 w0 evmin tol_norm H1 Ht (l_proper _ L) (z1_reliable w0 X (l_norb _ L) (l_S _ L)) Sym) as (e & wf & E & O & W & _).
  exists e, wf. unfold pass. rewrite E. split; [reflexivity|]. split; [reflexivity|]. rewrite (l_norb _ L) in O, W. rewrite (l_nk _ L) in O, W.
  specialize (O 0%nat 0%nat 0%nat ltac:(lia) ltac:(lia) ltac:(lia)). specialize (W 0%nat ltac:(lia) 0%nat 0%nat ltac:(lia) ltac:(lia)).
  unfold bracket, csum, rsum in O. unfold csum, rsum in W. rewrite (l_S _ L) in O, W. cbn [Nat.eqb] in O. set (p := wf 0%nat 0%nat 0%nat) in *. set (h := match H1 with Some h => h | None => fun _ _ => 0 end) in *.
  replace (match H1 with Some h0 => h0 0%nat 0%nat | None => 0 end) with (h 0%nat 0%nat) by (unfold h; destruct H1; reflexivity).
  destruct p as [x y]. destruct (s_H0 X 0%nat 0%nat 0%nat) as [a d]. unfold cmul, cadd, cscale, cconj, c1 in *. cbn [fst snd] in *.
  assert (O1 := f_equal fst O). assert (W1 := f_equal fst W). assert (W2 := f_equal snd W). cbn [fst snd] in O1, W1, W2.
  assert (N : x ^ 2 + y ^ 2 = 1) by lra. split; [|exact N]. set (g := h 0%nat 0%nat) in *. set (e0 := e 0%nat 0%nat) in *.
  assert (Q : (a + g - e0) * (x ^ 2 + y ^ 2) = 0); [|rewrite N in Q; lra].
  assert (W1' : (a + g) * x - d * y = e0 * x) by lra. assert (W2' : (a + g) * y + d * x = e0 * y) by lra.
  replace ((a + g - e0) * (x ^ 2 + y ^ 2)) with (x * ((a + g) * x - d * y - e0 * x) + y * ((a + g) * y + d * x - e0 * y)) by ring. rewrite W1', W2'. ring.
Qed.
Context (MAXE : R) (HM : 0 < MAXE) (tol_mull : R) (Hm : 0 <= tol_mull).
Lemma level_charges h e wf : fst (wf 0 0 0)%nat ^ 2 + snd (wf 0 0 0)%nat ^ 2 = 1 -> exists dq, charges MAXE midpoint tol_mull X (h, e, wf) = Some dq /\ dq 0%nat = 0.
Proof.
  intros N. unfold charges, occupations, occupy. rewrite (l_norb _ L), (l_nk _ L). unfold emin, emax, eflat. cbn [seq flat_map map app fold_left]. unfold midpoint.
  replace ((e 0%nat 0%nat - s_width X + (e 0%nat 0%nat + s_width X)) / 2) with (e 0%nat 0%nat) by field.
  assert (F : fermi MAXE (s_width X) (e 0%nat 0%nat) (e 0%nat 0%nat) = 1).
  { unfold fermi. replace ((e 0%nat 0%nat - e 0%nat 0%nat) / s_width X) with 0 by (unfold Rdiv; ring). unfold rlt. destruct (Rlt_dec 0 MAXE); [|contradiction]. rewrite exp_0. field. }
  assert (G : root_function MAXE 1 1 (s_wk X) (s_width X) (s_nel X) e (e 0%nat 0%nat) = 0).
  { unfold root_function, electrons, rsum. rewrite F, (l_wk _ L), (l_nel _ L). ring. }
  rewrite G, Rabs_R0. unfold rlt. destruct (Rlt_dec tol 0) as [K|_]; [exfalso; revert K; apply Rle_not_lt; unfold tol; apply Rlt_le, Rinv_0_lt_compat; lra|].
  assert (Q : dq_of 1 1 (s_o1 X) (s_no X) (s_val X) (s_wk X) (density X wf (fun k a => fermi MAXE (s_width X) (e k a) (e 0%nat 0%nat))) (s_S X) 0 = 0).
  { unfold dq_of, atom_sum. rewrite (l_no _ L), (l_o1 _ L), (l_val _ L). unfold rsum, diag, diag_k, rsum, csum, rsum. cbn [Nat.add]. rewrite (l_wk _ L), (l_S _ L). unfold density, compute_rho. rewrite (l_norb _ L). unfold csum, rsum. rewrite F.
    destruct (wf 0%nat 0%nat 0%nat) as [x y]. unfold cmul, cscale, cconj, c1. cbn [fst snd] in *. lra. }
  exists (dq_of 1 1 (s_o1 X) (s_no X) (s_val X) (s_wk X) (density X wf (fun k a => fermi MAXE (s_width X) (e k a) (e 0%nat 0%nat))) (s_S X)). split; [|exact Q].
  unfold mulliken. cbv zeta. rewrite (l_N _ L). cbn [snd]. match goal with |- context [ltb tol_mull ?x] => replace x with 0 end; [rewrite (proj2 (ltb_false _ _)) by exact Hm; reflexivity|].
  unfold rsum at 1. rewrite Q, (l_charge _ L). replace (0 + - 0 - 0) with 0 by ring. symmetry. apply Rabs_R0.
Qed.
(** with or without SCC the calculation succeeds at once *)
Definition no_solver : solver := fun _ _ _ => None.
Definition usual : params := mkparams (3 / 10) 8 (/ 1000) None.
Lemma level_states scc n : exists p it e, get_states (fun dq => pass z1 evmin w0 tol_norm X (Some (h1_of X dq))) (pass z1 evmin w0 tol_norm X None) (charges MAXE midpoint tol_mull X) (anderson_mixer no_solver usual 1) scc (S n) anderson_new (fun _ => 0) = (Returned p it, 1%nat) /\
  (exists wf, p = ((if scc then h1_of X (fun _ => 0) else fun _ _ => 0), e, wf)) /\ e 0%nat 0%nat = fst (s_H0 X 0%nat 0%nat 0%nat) + (if scc then h1_of X (fun _ => 0) 0%nat 0%nat else 0).
Proof.
  unfold get_states. destruct scc.
  - destruct (level_pass (Some (h1_of X (fun _ => 0)))) as (e & wf & E & _ & V & N). { intros h Eh. replace h with (h1_of X (fun _ => 0)) by congruence. apply h1_sym. }
    destruct (level_charges (h1_of X (fun _ => 0)) e wf N) as (dq & C & Q). cbv beta iota in E. cbn [scc_loop]. rewrite E. cbv beta iota. match goal with |- context [charges ?a ?b ?c ?d ?q] => replace (charges a b c d q) with (Some dq) by (symmetry; exact C) end. unfold anderson_mixer. cbn [m_call m_reset].
    unfold anderson. cbv zeta. match goal with |- context [Rlt_dec ?a ?b] => destruct (Rlt_dec a b) as [_|K] end.
    + eexists _, _, e. split; [reflexivity|]. split; [exists wf; reflexivity|exact V].
    + exfalso. apply K. unfold usual. cbn. rewrite Q. replace (0 - 0) with 0 by ring. rewrite Rabs_R0. try (rewrite Rmax_left by lra). lra.
  - destruct (level_pass None) as (e & wf & E & _ & V & N); [discriminate|]. destruct (level_charges (fun _ _ => 0) e wf N) as (dq & C & Q). cbv beta iota in E. rewrite E. cbv beta iota. match goal with |- context [charges ?a ?b ?c ?d ?q] => replace (charges a b c d q) with (Some dq) by (symmetry; exact C) end. eexists _, _, e. split; [reflexivity|]. split; [exists wf; reflexivity|exact V].
Qed.
End OneLevel.
(** ** one atom, alone or in a chain along x *)
Definition chain_t (n : nat) : v3 := match n with 0%nat => vzero | 1%nat => V3 2 0 0 | _ => V3 (-2) 0 0 end.
Definition chain_nt (n : nat) : ntuple := match n with 0%nat => (0, 0, 0)%Z | 1%nat => (1, 0, 0)%Z | _ => (-1, 0, 0)%Z end.
Definition chain_inv (n : nat) : nat := match n with 0%nat => 0%nat | 1%nat => 2%nat | 2%nat => 1%nat | n => n end.
Definition atom1 (nimg : nat) (V : R) : structure := {| g_N := 1; g_r := fun _ => vzero; g_kind := fun _ => 0%nat; g_nimg := nimg; g_O := fun _ => eye; g_t := chain_t; g_DT := fun _ => Drep eye; g_nk := 0; g_phase := fun _ _ => c1; g_wk := fun _ => 1;
  g_ranges := ((Some 0%Z, Some 0%Z), (Some 0%Z, Some 0%Z), (Some 0%Z, Some 0%Z)); g_tr0 := fun _ => vzero; g_rot := fun _ => eye; g_pp := fun _ _ _ => 0; g_dpp := fun _ _ _ => 0; g_rc := 0; g_ext := fun _ => V; g_charge := 0 |}.
Definition inv1 (nimg : nat) (n : nat) : nat := if (nimg =? 1)%nat then n else chain_inv n.
Lemma images1 : images 1 (fun _ => eye) chain_t (fun n => n).
Proof.
  constructor; try lia; try (split; reflexivity); try reflexivity.
  - intros n p q _. rewrite !mv_eye. reflexivity.
  - intros n p Hn. one n. rewrite !mv_eye. destruct p. unfold chain_t. apply v3_eq; vunf; ring.
Qed.
Lemma images3 : images 3 (fun _ => eye) chain_t chain_inv.
Proof.
  constructor; try lia; try (split; reflexivity); try reflexivity.
  - intros n p q _. rewrite !mv_eye. reflexivity.
  - intros n Hn. destruct n as [|[|[|n]]]; [| | |exfalso; lia]; cbn; split; lia.
  - intros n p Hn. rewrite !mv_eye. destruct p. destruct n as [|[|[|n]]]; [| | |exfalso; lia]; unfold chain_t, chain_inv; apply v3_eq; vunf; ring.
Qed.
Lemma sound1 nimg V : nimg = 1%nat \/ nimg = 3%nat -> sound_images D2 (atom1 nimg V) chain_nt (inv1 nimg).
Proof.
  intros Hn. split.
  - constructor; cbn [atom1 at_kpoints g_N g_nimg g_O g_t g_DT g_phase g_nk g_pp g_dpp D2 d_no d_H d_S d_onsite List.length]; try reflexivity.
    + destruct Hn as [->| ->]; [exact images1|exact images3].
    + intros k n Hk. exfalso. lia.
    + intros _. left. reflexivity.
    + intros K d. exists (fun c => if (c =? 9)%nat then - exp (- d) else 0). apply D2_H.
    + intros K d. exists (fun _ => 0). apply D2_0.
  - intros n Hn'. cbn [atom1 g_nimg] in Hn'. unfold inv1. destruct Hn as [->| ->]; cbn [Nat.eqb]; [one n; reflexivity|]. destruct n as [|[|[|n]]]; [| | |exfalso; lia]; reflexivity.
Qed.
Lemma apart1 nimg V ks wk : (nimg <= 3)%nat -> too_close (g_N (at_kpoints (atom1 nimg V) chain_nt ks wk)) (g_nimg (at_kpoints (atom1 nimg V) chain_nt ks wk)) (g_Rn 1 (at_kpoints (atom1 nimg V) chain_nt ks wk)) = false.
Proof.
  intros H3. apply too_close_tested. intros i j n Hi Hj Hn _. cbn [atom1 at_kpoints g_N g_nimg] in Hi, Hj, Hn. one i. one j. destruct n as [|n]; [reflexivity|]. cbn [self_pair Nat.eqb andb orb].
  assert (E : mdist (g_Rn 1 (at_kpoints (atom1 nimg V) chain_nt ks wk)) (S n) 0 0 = 2).
  { unfold mdist, mrij, g_Rn. cbn [atom1 at_kpoints g_O g_t g_r]. rewrite !mv_eye. unfold vnorm. replace 2 with (sqrt (2 * 2)) by (apply sqrt_square; lra). f_equal. destruct n as [|[|n]]; [| |exfalso; lia]; unfold chain_t; vunf; field. }
  rewrite ?E. unfold self_pair. cbn [Nat.eqb andb orb]. rewrite ?E. apply ltb_true. lra.
Qed.
Lemma overlap1 nimg V ks wk k : flat D2 (at_kpoints (atom1 nimg V) chain_nt ks wk) (g_matrix 1 D2 (at_kpoints (atom1 nimg V) chain_nt ks wk) (fun _ _ => 1 + 0) (d_S D2) k) 0%nat 0%nat = c1.
Proof.
  change (flat D2 (at_kpoints (atom1 nimg V) chain_nt ks wk) (g_matrix 1 D2 (at_kpoints (atom1 nimg V) chain_nt ks wk) (fun _ _ => 1 + 0) (d_S D2) k) 0%nat 0%nat) with (g_matrix 1 D2 (at_kpoints (atom1 nimg V) chain_nt ks wk) (fun _ _ => 1 + 0) (d_S D2) k 0%nat 0%nat 0%nat 0%nat).
  unfold g_matrix, SkModel.matrix. cbn [Nat.ltb Nat.leb Nat.eqb]. unfold SkModel.block.
  rewrite csum_all0; [apply cplx_eq; cbn; ring|]. intros n _. destruct (skipped _ _ _ n 0 0); [reflexivity|]. unfold ht_image. rewrite (rsum_ext _ _ (fun _ => 0)); [rewrite rsum_zero; unfold cscale; apply cplx_eq; cbn; ring|].
  intros q _. unfold ht. rewrite (rsum_ext _ _ (fun _ => 0)); [rewrite rsum_zero; ring|]. intros e _. unfold pairwise, D2. cbn [d_S]. ring.
Qed.
Lemma system1 erfc goal nimg V ks wk scc : (nimg <= 3)%nat -> exists X, assemble erfc 1 1 true None goal (/ 10) 0 scc D2 (at_kpoints (atom1 nimg V) chain_nt ks wk) = Some X /\
  (forall w0, reliable z1 w0 X) /\ s_ext X = (fun _ => V) /\ (forall I, s_phi X (fun _ => 0) I = 0) /\ s_N X = 1%nat /\ s_norb X = 1%nat /\ s_nk X = List.length ks /\ s_o1 X = first_orbital (fun _ => 1%nat) /\ s_no X = (fun _ => 1%nat) /\
  (s_val X = fun _ => 1) /\ (s_wk X = fun k => nth k wk 0) /\ s_nel X = 1 /\ s_charge X = 0 /\ (forall k, s_S X k 0%nat 0%nat = c1).
Proof.
  intros H3. unfold assemble. rewrite (apart1 nimg V ks wk H3). assert (NE : rsum 1 (fun I => d_val D2 0) - 0 = 1) by (unfold rsum; cbn; ring). destruct scc.
  - unfold g_gamma, gauss_gamma, get_neighbours. cbn [atom1 at_kpoints g_N g_kind g_ranges scan is_cluster infinite negb orb].
    assert (L : leb (rmaxn (1 - 1) (fun I => d_FWHM D2 0)) 0 = false) by (apply leb_false; unfold D2; cbn; lra).
    rewrite L. cbn [negb orb andb].
    match goal with |- context [existsb ?p ?l] => assert (Z : existsb p l = false) end.
    { apply not_true_iff_false. intros E. apply existsb_exists in E. destruct E as (b & _ & E). unfold D2 in E. cbn [d_FWHM] in E. destruct (Req_EM_T (2 ^ 2 + 2 ^ 2) 0); [lra|discriminate]. }
    rewrite Z. eexists. split; [reflexivity|]. split; [intros w0; apply z1_reliable; [reflexivity|]; intros k; apply overlap1|]. cbn [s_ext s_phi s_N s_norb s_nk s_o1 s_no s_val s_wk s_nel s_charge s_S].
    split; [reflexivity|]. split. { intros I. unfold direct_phi. rewrite Rmult_1_r. match goal with |- InvModel.lsum ?f ?l = 0 => generalize l end. intros l. induction l as [|x l IH]; [reflexivity|]. cbn [InvModel.lsum]. rewrite IH. destruct (nb_i x =? I)%nat; ring. }
    repeat (split; [reflexivity|]). split; [exact NE|]. split; [reflexivity|]. intros k. apply overlap1.
  - eexists. split; [reflexivity|]. split; [intros w0; apply z1_reliable; [reflexivity|]; intros k; apply overlap1|]. cbn [s_ext s_phi s_N s_norb s_nk s_o1 s_no s_val s_wk s_nel s_charge s_S].
    repeat (split; [reflexivity|]). split; [exact NE|]. split; [reflexivity|]. intros k. apply overlap1.
Qed.
