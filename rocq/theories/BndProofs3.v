From Coq Require Import Reals ZArith List Bool Arith Lia Lra.
From Verif Require Import Vec GeomModel GeomProofs UtilModel KptModel KptSpec KptProofs KptProofs2 CoulModel MixModel OccModel PairModel PairSpec SkModel SkSpec Cpx RhoModel RhoSpec EigModel EigSpec GamModel InvModel InvSpec InvProofs13 BndModel BndSpec BndProofs BndProofs2.
Import ListNotations.
Open Scope R_scope.

(** ** phases *)
Lemma phase_neg n k : phase_at n (vneg k) = cconj (phase_at n k).
Proof. unfold phase_at, cconj. cbn [fst snd]. replace (vdot (real_tuple n) (vneg k)) with (- vdot (real_tuple n) k) by (unfold vneg; vunf; ring). rewrite cos_neg, sin_neg. reflexivity. Qed.
Lemma phase_opposite n k : phase_at (opposite n) k = cconj (phase_at n k).
Proof. rewrite <- phase_neg. destruct n as [[a b] c]. unfold phase_at, opposite, real_tuple. rewrite !opp_IZR. replace (vdot (V3 (- IZR a) (- IZR b) (- IZR c)) k) with (vdot (V3 (IZR a) (IZR b) (IZR c)) (vneg k)) by (unfold vneg; vunf; ring). reflexivity. Qed.
Lemma period_Z (f : R -> R) (P : forall x, f (x + 2 * PI) = f x) (z : Z) x : f (x + 2 * PI * IZR z) = f x.
Proof.
  assert (N : forall n x, f (x + 2 * PI * INR n) = f x).
  { induction n as [|n IH]; intros y; [cbn [INR]; f_equal; ring|]. rewrite S_INR. replace (y + 2 * PI * (INR n + 1)) with ((y + 2 * PI * INR n) + 2 * PI) by ring. rewrite P. apply IH. }
  destruct (Z_le_gt_dec 0 z) as [H|H].
  - rewrite <- (Z2Nat.id z H), <- INR_IZR_INZ. apply N.
  - replace z with (- Z.of_nat (Z.to_nat (- z)))%Z by lia. rewrite opp_IZR, <- INR_IZR_INZ. rewrite <- (N (Z.to_nat (- z)) (x + 2 * PI * - INR (Z.to_nat (- z)))). f_equal. ring.
Qed.
Lemma phase_period n m k : phase_at n (vadd k (vscale (2 * PI) (real_tuple m))) = phase_at n k.
Proof.
  destruct n as [[a b] c], m as [[x y] t]. unfold phase_at, real_tuple.
  replace (vdot (V3 (IZR a) (IZR b) (IZR c)) (vadd k (vscale (2 * PI) (V3 (IZR x) (IZR y) (IZR t))))) with (vdot (V3 (IZR a) (IZR b) (IZR c)) k + 2 * PI * IZR (a * x + b * y + c * t)) by (rewrite !plus_IZR, !mult_IZR; vunf; ring).
  f_equal; apply period_Z; intros u; [rewrite cos_plus, cos_2PI, sin_2PI|rewrite sin_plus, cos_2PI, sin_2PI]; ring.
Qed.
Lemma phase_same n (b : bool) m k : phase_at n (vadd (if b then vneg k else k) (vscale (2 * PI) (real_tuple m))) = mirrored b (phase_at n k).
Proof. rewrite phase_period. destruct b; [apply phase_neg|reflexivity]. Qed.
Lemma sound_at D g nt inv ks wk : sound_images D g nt inv -> sound D (at_kpoints g nt ks wk) inv.
Proof.
  intros [S P]. destruct S. constructor; try assumption. cbn [at_kpoints g_nk g_nimg g_phase] in *. intros k n _ Hn. rewrite (P n Hn). apply phase_opposite.
Qed.
(** ** matrices *)
Lemma mir_zero b : mirrored b (0, 0) = (0, 0).
Proof. destruct b; [unfold mirrored, cconj; cbn [fst snd]; f_equal; ring|reflexivity]. Qed.
Lemma mir_real' b x : mirrored b (x, 0) = (x, 0).
Proof. destruct b; [unfold mirrored, cconj; cbn [fst snd]; f_equal; ring|reflexivity]. Qed.
Lemma mir_cconj b z : mirrored b (cconj z) = cconj (mirrored b z).
Proof. destruct b; reflexivity. Qed.
Section Mirrored.
Context (b : bool) (nimg : nat) (no : nat -> nat) (Rn : nat -> nat -> v3) (Rot : nat -> m3) (DT : nat -> nat -> nat -> R) (ph ph' : nat -> cplx) (onsite : nat -> nat -> R) (tab dtab : nat -> nat -> R -> nat -> R) (r1 r2 : nat -> nat -> R).
Context (PH : forall n, (n < nimg)%nat -> ph n = mirrored b (ph' n)).
Lemma image_sum f (s : nat -> bool) : csum nimg (fun n => if s n then (0, 0) else cscale (f n) (ph n)) = mirrored b (csum nimg (fun n => if s n then (0, 0) else cscale (f n) (ph' n))).
Proof. rewrite mir_sum. apply csum_ext'. intros n Hn. destruct (s n); [rewrite mir_zero; reflexivity|]. rewrite mir_scale, (PH n Hn). reflexivity. Qed.
Lemma block_mirrored i j a c : SkModel.block nimg no Rn DT ph tab r1 r2 i j a c = mirrored b (SkModel.block nimg no Rn DT ph' tab r1 r2 i j a c).
Proof. apply image_sum. Qed.
Lemma matrix_mirrored i a j c : SkModel.matrix nimg no Rn DT ph onsite tab r1 r2 i a j c = mirrored b (SkModel.matrix nimg no Rn DT ph' onsite tab r1 r2 i a j c).
Proof.
  unfold SkModel.matrix. rewrite !block_mirrored. destruct (i <? j)%nat; [reflexivity|]. destruct (j <? i)%nat; [rewrite mir_cconj; reflexivity|]. rewrite mir_add. f_equal. destruct (a =? c)%nat; symmetry; [apply mir_real'|apply mir_zero].
Qed.
Lemma dblock_mirrored i j a c k : dblock nimg no Rn DT ph tab dtab r1 r2 i j a c k = mirrored b (dblock nimg no Rn DT ph' tab dtab r1 r2 i j a c k).
Proof. apply image_sum. Qed.
Lemma dblock2_mirrored i j a c k : dblock2 nimg no Rn Rot DT ph tab dtab r1 r2 i j a c k = mirrored b (dblock2 nimg no Rn Rot DT ph' tab dtab r1 r2 i j a c k).
Proof. unfold dblock2. rewrite mir_cconj. f_equal. apply image_sum. Qed.
End Mirrored.
Lemma nth_fst (l : list (v3 * R)) k : nth k (map fst l) vzero = fst (nth k l (vzero, 0)).
Proof. apply (map_nth fst l (vzero, 0)). Qed.
Lemma nth_snd (l : list (v3 * R)) k : nth k (map snd l) 0 = snd (nth k l (vzero, 0)).
Proof. apply (map_nth snd l (vzero, 0)). Qed.
Section Systems.
Context (erfc : R -> R) (Bohr Hartree : R) (gaussian : bool) (gamma_cut : option R) (goal width sepsilon : R) (scc : bool) (D : database) (g : structure) (nt : nat -> ntuple).
Let at' := system_at erfc Bohr Hartree gaussian gamma_cut goal width sepsilon scc D g nt.
Context (c : nat -> nat) (b : nat -> bool) (l l' : list (v3 * R)) (CV : covers c b l l').
Lemma phases_mirrored k n : (k < List.length l)%nat -> phase_at (nt n) (nth k (map fst l) vzero) = mirrored (b k) (phase_at (nt n) (nth (c k) (map fst l') vzero)).
Proof. intros Hk. destruct (w_point _ _ _ _ CV k Hk) as [m E]. rewrite !nth_fst, E. apply phase_same. Qed.
Lemma g_matrix_mirrored k onsite tab i a j e : (k < List.length l)%nat ->
  g_matrix Bohr D (at_kpoints g nt (map fst l) (map snd l)) onsite tab k i a j e = mirrored (b k) (g_matrix Bohr D (at_kpoints g nt (map fst l') (map snd l')) onsite tab (c k) i a j e).
Proof. intros Hk. unfold g_matrix. apply matrix_mirrored. intros n _. cbn [at_kpoints g_phase]. apply phases_mirrored. exact Hk. Qed.
Lemma g_dmatrix_mirrored k tab dtab d i a j e : (k < List.length l)%nat ->
  g_dmatrix Bohr D (at_kpoints g nt (map fst l) (map snd l)) tab dtab d k i a j e = mirrored (b k) (g_dmatrix Bohr D (at_kpoints g nt (map fst l') (map snd l')) tab dtab d (c k) i a j e).
Proof.
  intros Hk. unfold g_dmatrix. destruct (j <? i)%nat; [apply dblock2_mirrored|apply dblock_mirrored]; intros n _; cbn [at_kpoints g_phase]; apply phases_mirrored; exact Hk.
Qed.
Lemma assembled_stand : match at' l, at' l' with Some X, Some Y => stands_for c b X Y | None, None => True | _, _ => False end.
Proof.
  unfold at', system_at, assemble.
  change (too_close (g_N (at_kpoints g nt (map fst l) (map snd l))) (g_nimg (at_kpoints g nt (map fst l) (map snd l))) (g_Rn Bohr (at_kpoints g nt (map fst l) (map snd l))))
    with (too_close (g_N (at_kpoints g nt (map fst l') (map snd l'))) (g_nimg (at_kpoints g nt (map fst l') (map snd l'))) (g_Rn Bohr (at_kpoints g nt (map fst l') (map snd l')))).
  destruct (too_close _ _ _); [exact I|].
  change (g_gamma erfc Bohr gaussian gamma_cut goal D (at_kpoints g nt (map fst l) (map snd l))) with (g_gamma erfc Bohr gaussian gamma_cut goal D (at_kpoints g nt (map fst l') (map snd l'))).
  cbv zeta. destruct scc; [destruct (g_gamma _ _ _ _ _ _ _); try exact I; cbn [at_kpoints g_N g_r g_tr0 g_rot g_ranges]; destruct (get_neighbours _ _ _ _ _ _); try exact I|].
  all: constructor; cbn [s_norb s_N s_nk s_o1 s_no s_val s_Z s_wk s_nel s_width s_charge s_H0 s_S s_dH0 s_dS s_G s_dG s_phi s_field s_ext s_erep s_epp s_efree s_frep s_fpp]; try reflexivity.
  all: cbn [at_kpoints g_nk g_wk]; rewrite ?map_length.
  all: try (exact (w_in _ _ _ _ CV)); try (exact (w_onto _ _ _ _ CV)).
  all: try (intros j Hj; rewrite nth_snd, (w_wk _ _ _ _ CV j Hj); apply rsum_ext; intros k _; rewrite nth_snd; reflexivity).
  all: intros; unfold flat; apply g_matrix_mirrored || apply g_dmatrix_mirrored; assumption.
Qed.
End Systems.
Lemma s_N_assembled erfc Bohr Hartree gaussian gamma_cut goal width sepsilon scc D g X : assemble erfc Bohr Hartree gaussian gamma_cut goal width sepsilon scc D g = Some X -> s_N X = g_N g /\ s_nk X = g_nk g /\ s_norb X = first_orbital (g_no D g) (g_N g).
Proof.
  unfold assemble. destruct (too_close _ _ _); [discriminate|]. destruct scc.
  - destruct (g_gamma _ _ _ _ _ _ _); try discriminate. destruct (get_neighbours _ _ _ _ _ _); try discriminate. intros E. injection E as <-. repeat split.
  - intros E. injection E as <-. repeat split.
Qed.
(** calculations with covering lists agree *)
Lemma runs_alike erfc Bohr Hartree gaussian gamma_cut goal width sepsilon scc D g nt inv z z' w0 w0' evmin evmin' MAXE brentq m tol_norm tol_mull tol_im maxiter ms u v c b l l' :
  covers c b l l' -> sound_images D g nt inv -> 0 <= tol_norm -> fresh (g_N g) m ms -> (forall I, (I < g_N g)%nat -> v I = u I) ->
  (forall X, system_at erfc Bohr Hartree gaussian gamma_cut goal width sepsilon scc D g nt l = Some X -> reliable z w0 X) ->
  (forall Y, system_at erfc Bohr Hartree gaussian gamma_cut goal width sepsilon scc D g nt l' = Some Y -> reliable z' w0' Y) ->
  let run := run_at erfc Bohr Hartree gaussian gamma_cut goal width sepsilon scc D g nt in
  let x := run z evmin w0 MAXE brentq m tol_norm tol_mull tol_im maxiter ms u (Some l) in
  let y := run z' evmin' w0' MAXE brentq m tol_norm tol_mull tol_im maxiter ms v (Some l') in
  match system_at erfc Bohr Hartree gaussian gamma_cut goal width sepsilon scc D g nt l with Some X => same_observation c b X x y | None => x = Exception /\ y = Exception end.
Proof.
  intros CV SI Ht F C RX RY run x y. unfold x, y, run, run_at. pose proof (assembled_stand erfc Bohr Hartree gaussian gamma_cut goal width sepsilon scc D g nt c b l l' CV) as ST.
  destruct (system_at _ _ _ _ _ _ _ _ _ _ _ _ l) as [X|] eqn:EX; destruct (system_at _ _ _ _ _ _ _ _ _ _ _ _ l') as [Y|] eqn:EY; try contradiction; [|split; reflexivity].
  unfold system_at in EX, EY. pose proof (s_N_assembled _ _ _ _ _ _ _ _ _ _ _ _ EX) as [HN _]. cbn [at_kpoints g_N] in HN.
  apply reduction_exact; try assumption.
  - exact (assembled_well _ _ _ _ _ _ _ _ _ _ _ _ EX).
  - exact (assembled_proper _ _ _ _ _ _ _ _ _ _ _ _ _ (sound_at D g nt inv _ _ SI) EX).
  - exact (assembled_proper _ _ _ _ _ _ _ _ _ _ _ _ _ (sound_at D g nt inv _ _ SI) EY).
  - apply RX. reflexivity.
  - apply RY. reflexivity.
  - rewrite HN. exact F.
  - rewrite HN. exact C.
Qed.
(** ** the mesh covers *)
Lemma finite_choice {A : Type} (a0 : A) n (P : nat -> A -> Prop) : (forall k, (k < n)%nat -> exists x, P k x) -> exists f, forall k, (k < n)%nat -> P k (f k).
Proof.
  induction n as [|n IH]; intros H; [exists (fun _ => a0); intros k Hk; lia|]. destruct (IH (fun k Hk => H k ltac:(lia))) as [f Hf]. destruct (H n ltac:(lia)) as [x Hx].
  exists (fun k => if (k =? n)%nat then x else f k). intros k Hk. destruct (Nat.eqb_spec k n) as [->|N]; [exact Hx|apply Hf; lia].
Qed.
Lemma lsum_nth {A : Type} (f : A -> R) (d : A) l : KptSpec.lsum f l = rsum (List.length l) (fun k => f (nth k l d)).
Proof.
  induction l as [|x l IH]; [reflexivity|]. cbn [KptSpec.lsum List.length]. change (S (List.length l)) with (1 + List.length l)%nat. rewrite (rsum_split 1). cbn [rsum nth]. rewrite IH. ring_simplify. f_equal.
Qed.
Definition v3_eqb (p q : v3) : bool := if Req_EM_T (vx p) (vx q) then if Req_EM_T (vy p) (vy q) then if Req_EM_T (vz p) (vz q) then true else false else false else false.
Lemma v3_eqb_spec p q : v3_eqb p q = true <-> p = q.
Proof.
  unfold v3_eqb. split.
  - destruct (Req_EM_T (vx p) (vx q)); [|discriminate]. destruct (Req_EM_T (vy p) (vy q)); [|discriminate]. destruct (Req_EM_T (vz p) (vz q)); [|discriminate]. intros _. apply v3_eq; assumption.
  - intros ->. destruct (Req_EM_T (vx q) (vx q)); [|contradiction]. destruct (Req_EM_T (vy q) (vy q)); [|contradiction]. destruct (Req_EM_T (vz q) (vz q)); [reflexivity|contradiction].
Qed.
Lemma mesh_covers M table pbc width physical n1 n2 n3 l :
  e10 < 2 * PI / IZR n1 -> e10 < 2 * PI / IZR n2 -> e10 < 2 * PI / IZR n3 ->
  setup_mesh M table pbc width physical n1 n2 n3 = Some l ->
  exists c b, covers c b (full_sampling M table n1 n2 n3) (map (fun o => (kpt o, wgt o)) l) /\
    forall k, (k < List.length (full_mesh M table n1 n2 n3))%nat -> (c k < List.length l)%nat /\
      nth k (full_mesh M table n1 n2 n3) vzero = (if b k : bool then vneg (nth (c k) (map kpt l) vzero) else nth (c k) (map kpt l) vzero).
Proof.
  intros S1 S2 S3 HS. set (o0 := {| kpt := vzero; wgt := 0; kind := (0, 0, 0)%nat |}). set (P := full_mesh M table n1 n2 n3).
  destruct (mesh_reduced M table pbc width physical n1 n2 n3 l S1 S2 S3 HS) as (HN & _ & H1 & H2 & H3 & RED & _).
  assert (OM : forall p, In p P <-> on_mesh M table n1 n2 n3 p).
  { intros p. rewrite <- (in_pts M table pbc width physical n1 n2 n3 l S1 S2 S3 HS p). unfold P, full_mesh, pts, inds. rewrite map_map. cbn [fst]. reflexivity. }
  assert (ND : NoDup (map kpt l)) by apply RED.
  assert (Q : forall k, (k < List.length P)%nat -> exists jb : nat * bool, (fst jb < List.length l)%nat /\ nth k P vzero = (if snd jb then vneg (kpt (nth (fst jb) l o0)) else kpt (nth (fst jb) l o0)) /\
     forall o', In o' l -> (nth k P vzero = kpt o' \/ nth k P vzero = vneg (kpt o')) -> o' = nth (fst jb) l o0).
  { intros k Hk. destruct (mesh_covered M table pbc width physical n1 n2 n3 l S1 S2 S3 HS (nth k P vzero)) as (o & Ho & So & U); [apply OM, nth_In; exact Hk|].
    destruct (In_nth l o o0 Ho) as (j & Hj & Ej). destruct So as [So|So]; [exists (j, false)|exists (j, true)]; cbn [fst snd]; rewrite Ej; repeat split; assumption. }
  destruct (finite_choice (0%nat, false) _ _ Q) as [f Hf]. exists (fun k => fst (f k)), (fun k => snd (f k)).
  assert (LF : List.length (full_sampling M table n1 n2 n3) = List.length P) by (unfold full_sampling; apply map_length).
  assert (EF : forall k, (k < List.length P)%nat -> nth k (full_sampling M table n1 n2 n3) (vzero, 0) = (nth k P vzero, / IZR (n1 * n2 * n3))).
  { intros k Hk. unfold full_sampling. fold P. rewrite (nth_indep _ _ ((fun p => (p, / IZR (n1 * n2 * n3))) vzero)) by (rewrite map_length; exact Hk). apply (map_nth (fun p => (p, / IZR (n1 * n2 * n3))) P vzero k). }
  assert (EL : forall j, (j < List.length l)%nat -> nth j (map (fun o => (kpt o, wgt o)) l) (vzero, 0) = (kpt (nth j l o0), wgt (nth j l o0))).
  { intros j Hj. apply (map_nth (fun o => (kpt o, wgt o)) l o0 j). }
  split; [constructor; rewrite ?LF, ?map_length|].
  - intros k Hk. apply Hf. exact Hk.
  - intros j Hj. set (o := nth j l o0). assert (Ho : In o l) by (apply nth_In; exact Hj).
    assert (IP : In (kpt o) P). { apply OM. destruct (mesh_entries M table pbc width physical n1 n2 n3 l S1 S2 S3 HS o Ho) as [A B]. exists (kind o). split; assumption. }
    destruct (In_nth P (kpt o) vzero IP) as (k & Hk & Ek). exists k. split; [exact Hk|]. destruct (Hf k Hk) as (A & _ & U). specialize (U o Ho (or_introl Ek)).
    assert (E : nth (fst (f k)) (map kpt l) vzero = nth j (map kpt l) vzero). { change vzero with (kpt o0). rewrite !map_nth. fold o. rewrite U. reflexivity. }
    apply (proj1 (NoDup_nth (map kpt l) vzero) ND); [rewrite map_length; exact A|rewrite map_length; exact Hj|exact E].
  - intros k Hk. destruct (Hf k Hk) as (A & B & _). exists (0, 0, 0)%Z. rewrite (EF k Hk), (EL _ A). cbn [fst]. rewrite B. unfold real_tuple. destruct (snd (f k)); apply v3_eq; unfold vneg; vunf; cbn [vx vy vz]; ring.
  - intros j Hj. rewrite (EL j Hj). cbn [snd]. set (o := nth j l o0).
    set (h := fun p : v3 => if (v3_eqb p (kpt o) || v3_eqb p (vneg (kpt o)))%bool then 1 else 0).
    assert (Hh : forall p, (p = kpt o \/ p = vneg (kpt o)) -> h p = 1). { intros p Hp. unfold h. rewrite (proj2 (orb_true_iff _ _)); [reflexivity|]. rewrite !v3_eqb_spec. exact Hp. }
    assert (Hn : forall p, ~ (p = kpt o \/ p = vneg (kpt o)) -> h p = 0). { intros p Hp. unfold h. destruct (_ || _)%bool eqn:E; [|reflexivity]. exfalso. apply Hp. apply orb_true_iff in E. rewrite !v3_eqb_spec in E. exact E. }
    assert (Hd : forall p, (p = kpt o \/ p = vneg (kpt o)) \/ ~ (p = kpt o \/ p = vneg (kpt o))).
    { intros p. destruct (v3_eqb p (kpt o) || v3_eqb p (vneg (kpt o)))%bool eqn:E; [left|right; intros F]; [apply orb_true_iff in E; rewrite !v3_eqb_spec in E; exact E|]. rewrite <- !v3_eqb_spec in F. apply orb_true_iff in F. congruence. }
    assert (Ho : In o l) by (apply nth_In; exact Hj).
    assert (Same : forall i, (i < List.length l)%nat -> nth i l o0 = o -> i = j).
    { intros i Hi E. apply (proj1 (NoDup_nth (map kpt l) vzero) ND); rewrite ?map_length; try assumption. change vzero with (kpt o0). rewrite !map_nth, E. reflexivity. }
    pose proof (mesh_average M table pbc width physical n1 n2 n3 l S1 S2 S3 HS h) as AV.
    rewrite <- (lsum_inds n1 n2 n3 (fun i => h (mesh_point M table n1 n2 n3 i))) in AV. rewrite <- lsum_map in AV. change (map (mesh_point M table n1 n2 n3) (inds n1 n2 n3)) with P in AV.
    rewrite (lsum_nth _ o0), (lsum_nth _ vzero) in AV. rewrite (rsum_single _ j) in AV.
    + fold o in AV. rewrite (Hh (kpt o) (or_introl eq_refl)), Rmult_1_r in AV. rewrite AV.
      * unfold Rdiv. rewrite Rmult_comm, <- rsum_scal. apply rsum_ext. intros k Hk. rewrite (EF k Hk). cbn [snd]. destruct (Hf k Hk) as (A & B & U).
        destruct (Nat.eqb_spec (fst (f k)) j) as [E|NE].
        -- rewrite Hh; [ring|]. rewrite B, E. fold o. destruct (snd (f k)); [right|left]; reflexivity.
        -- rewrite Hn; [ring|]. intros F. apply NE. apply Same; [exact A|]. symmetry. apply U; assumption.
      * intros p. destruct (Hd p) as [G|G].
        -- rewrite (Hh p G). apply Hh. destruct G as [->| ->]; [right; reflexivity|left; apply vneg_invol].
        -- rewrite (Hn p G). apply Hn. intros [E|E]; apply G; apply (f_equal vneg) in E; rewrite vneg_invol in E; [right; exact E|left; rewrite E; apply vneg_invol].
    + exact Hj.
    + intros i Hi Hne. rewrite Hn; [ring|]. intros G. apply Hne. apply Same; [exact Hi|]. assert (Hoi : In (nth i l o0) l) by (apply nth_In; exact Hi).
      destruct G as [G|G]; [apply (NoDup_kpt_eq l); assumption|]. apply (red_one _ _ _ RED); assumption.
  - intros k Hk. destruct (Hf k Hk) as (A & B & _). split; [exact A|]. change vzero with (kpt o0). rewrite map_nth. change (kpt o0) with vzero. exact B.
Qed.
Lemma mesh_length M table n1 n2 n3 : (1 <= n1)%Z -> (1 <= n2)%Z -> (1 <= n3)%Z -> INR (List.length (full_mesh M table n1 n2 n3)) = IZR (n1 * n2 * n3).
Proof.
  intros H1 H2 H3. rewrite <- lsum_one. unfold full_mesh. change (indices (Z.to_nat n1) (Z.to_nat n2) (Z.to_nat n3)) with (inds n1 n2 n3). rewrite lsum_map, lsum_inds, !rsum_const, Rmult_1_r. rewrite !INR_IZR_INZ, !Z2Nat.id, !mult_IZR by lia. ring.
Qed.
Lemma list_sampling M table pbc width physical bravais n1 n2 n3 l l' : setup_mesh M table pbc width physical n1 n2 n3 = Some l ->
  setup_list pbc width false bravais (full_mesh M table n1 n2 n3) = Some l' -> l' = full_sampling M table n1 n2 n3.
Proof.
  intros HS. destruct (setup_mesh_reduced _ _ _ _ _ _ _ _ _ HS) as (H1 & H2 & H3 & _). unfold setup_list. destruct (_ && _); [discriminate|]. destruct (periodic_ok _ _); [|discriminate]. intros E. assert (E' : forall x y : list (v3 * R), Some x = Some y -> y = x) by congruence. rewrite (E' _ _ E).
  unfold full_sampling. rewrite mesh_length by assumption. apply map_ext. intros p. f_equal. unfold Rdiv. ring.
Qed.
Lemma mesh_or_list erfc Bohr Hartree gaussian gamma_cut goal width sepsilon scc D g nt inv z z' w0 w0' evmin evmin' MAXE brentq m tol_norm tol_mull tol_im maxiter ms u v M table pbc physical bravais n1 n2 n3 lm ll :
  e10 < 2 * PI / IZR n1 -> e10 < 2 * PI / IZR n2 -> e10 < 2 * PI / IZR n3 ->
  k_sampling M table pbc width physical false bravais (KMesh n1 n2 n3) = Some lm ->
  k_sampling M table pbc width physical false bravais (KList (full_mesh M table n1 n2 n3)) = Some ll ->
  sound_images D g nt inv -> 0 <= tol_norm -> fresh (g_N g) m ms -> (forall I, (I < g_N g)%nat -> v I = u I) ->
  (forall X, system_at erfc Bohr Hartree gaussian gamma_cut goal width sepsilon scc D g nt ll = Some X -> reliable z w0 X) ->
  (forall Y, system_at erfc Bohr Hartree gaussian gamma_cut goal width sepsilon scc D g nt lm = Some Y -> reliable z' w0' Y) ->
  let run := run_at erfc Bohr Hartree gaussian gamma_cut goal width sepsilon scc D g nt in
  let x := run z evmin w0 MAXE brentq m tol_norm tol_mull tol_im maxiter ms u (Some ll) in
  let y := run z' evmin' w0' MAXE brentq m tol_norm tol_mull tol_im maxiter ms v (Some lm) in
  exists c b, (forall k, (k < List.length ll)%nat -> (c k < List.length lm)%nat /\
      nth k (map fst ll) vzero = (if b k : bool then vneg (nth (c k) (map fst lm) vzero) else nth (c k) (map fst lm) vzero)) /\
    match system_at erfc Bohr Hartree gaussian gamma_cut goal width sepsilon scc D g nt ll with Some X => same_observation c b X x y | None => x = Exception /\ y = Exception end.
Proof.
  intros S1 S2 S3. unfold k_sampling. destruct (setup_mesh _ _ _ _ _ _ _ _) as [l|] eqn:HS; [|discriminate]. intros EM EL SI Ht F C RX RY.
  pose proof (list_sampling _ _ _ _ _ _ _ _ _ _ _ HS EL) as ->. assert (EM' : lm = map (fun o => (kpt o, wgt o)) l) by congruence. subst lm.
  destruct (mesh_covers M table pbc width physical n1 n2 n3 l S1 S2 S3 HS) as (c & b & CV & Q). exists c, b. split.
  - intros k Hk. unfold full_sampling in *. rewrite map_length in *. rewrite !map_map. cbn [fst]. rewrite map_id. exact (Q k Hk).
  - apply runs_alike with (inv := inv); assumption.
Qed.
