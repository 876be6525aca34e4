From Coq Require Import Reals ZArith String Ascii List Bool Arith Lra Lia FunctionalExtensionality.
From Verif Require Import Vec GeomModel GeomProofs AtomModel AtomSpec AtomProofs AtomProofs2 AtomProofs3 AtomProofs5 SkProofs6 KsModel KsSpec KsProofs KsProofs2 KsProofs3.
Import ListNotations.
Open Scope R_scope.

(** ** a converged run may be far from self-consistency *)
Section Same.
Variables (W W' tol : R) (m : nat).
Notation T := (tiny W tol m). Notation T' := (tiny W' tol m).
Lemma same_x : xgrid T = xgrid T'. Proof. apply functional_extensionality. intros i. unfold xgrid. rewrite !tiny_N. reflexivity. Qed.
Lemma same_r : rgrid T = rgrid T'. Proof. apply functional_extensionality. intros i. unfold rgrid. rewrite same_x. reflexivity. Qed.
Lemma same_state it v n l nl o : solve_state T it v n l nl o = solve_state T' it v n l nl o.
Proof. unfold solve_state, coefs, dx. rewrite !tiny_N, same_x, same_r. cbn [p_scalarrel p_Z tiny]. reflexivity. Qed.
Lemma same_states it v ss o d : solve_states T it v ss o d = solve_states T' it v ss o d.
Proof. revert o d. induction ss as [|[[n l] nl] ss IH]; intros o d; [reflexivity|]. cbn [solve_states]. rewrite same_state. destruct (solve_state T' it v n l nl o) as [[o' k]|]; [apply IH|reflexivity]. Qed.
Lemma same_density o : density T o = density T' o.
Proof. unfold density. rewrite !tiny_states, !tiny_N, !tiny_nel, same_r. reflexivity. Qed.
Lemma same_step it s : scf_step T it s = scf_step T' it s.
Proof.
  unfold scf_step.
  assert (EV : (fun i => p_mix T * calc_veff T (s_hart s) (s_dens s) i + (1 - p_mix T) * s_veff s i) = (fun i => p_mix T' * calc_veff T' (s_hart s) (s_dens s) i + (1 - p_mix T') * s_veff s i)).
  { apply functional_extensionality. intros i. cbn [p_mix tiny]. ring. }
  rewrite EV, !tiny_states, same_states. destruct (solve_states T' _ _ _ _ _) as [[o d]|]; [|reflexivity]. rewrite same_density. destruct (density T' o); [|reflexivity].
  rewrite !tiny_N, !tiny_nel, same_r. reflexivity.
Qed.
Lemma same_loop f it s : scf_loop T f it s = scf_loop T' f it s.
Proof. revert it s. induction f as [|f IH]; intros it s; [reflexivity|]. rewrite !loop_S, same_step. destruct (scf_step T' it s) as [[s' [|]]|]; try reflexivity. rewrite IH. reflexivity. Qed.
Lemma same_run v d : run T (Some (v, d)) = run T' (Some (v, d)).
Proof. unfold run. rewrite same_loop. cbn [p_itmax tiny]. unfold start. rewrite !tiny_N, !tiny_nel, same_r. reflexivity. Qed.
Lemma same_potential n i : ks_potential T' n i = ks_potential T n i + (W' - W) / 2.
Proof. unfold ks_potential. rewrite !tiny_N, !tiny_nel, <- same_r. cbn [p_Z p_conf confine tiny]. replace (- 0 * (rgrid T i - 1)) with 0 by ring. rewrite exp_0. field. pose proof (g_pos T (tiny_fine W tol m) i). lra. Qed.
End Same.
Lemma tiny_far K : 0 < K -> exists P rs s, fine_grid P /\ p_tol_density P = / 10 ^ 7 /\ p_tol_energies P = / 10 ^ 7 /\ run P rs = KOk s /\
  exists i, (i < gN P)%nat /\ K <= Rabs (s_veff s i - ks_potential P (s_dens s) i).
Proof.
  intros HK. assert (Ht : 0 < / 10 ^ 7) by (apply Rinv_0_lt_compat; apply pow_lt; lra).
  set (V := fun _ : nat => 0). assert (HV : forall i, (i < 3)%nat -> -1 < V i) by (intros; unfold V; lra).
  assert (Run : forall W, exists s, run (tiny W (/ 10 ^ 7) 7) (Some (V, V)) = KOk s /\ s_veff s = V).
  { intros W. destruct (tiny_run W (/ 10 ^ 7) 7 Ht V V ltac:(lia) HV) as (s & A & B & _). exists s. split; assumption. }
  destruct (Run 0) as (s1 & R1 & _). pose proof R1 as R2. rewrite (same_run 0 (4 * K)) in R2.
  assert (FS : forall W, fine_grid (tiny W (/ 10 ^ 7) 7)) by (intros W; apply tiny_fine).
  pose proof (same_potential 0 (4 * K) (/ 10 ^ 7) 7 (s_dens s1) 0) as D. replace ((4 * K - 0) / 2) with (2 * K) in D by field.
  destruct (Rle_lt_dec K (Rabs (s_veff s1 0 - ks_potential (tiny 0 (/ 10 ^ 7) 7) (s_dens s1) 0))) as [h|h].
  - exists (tiny 0 (/ 10 ^ 7) 7), (Some (V, V)), s1. split; [apply FS|]. split; [reflexivity|]. split; [reflexivity|]. split; [exact R1|]. exists 0%nat. split; [rewrite tiny_N; lia|exact h].
  - exists (tiny (4 * K) (/ 10 ^ 7) 7), (Some (V, V)), s1. split; [apply FS|]. split; [reflexivity|]. split; [reflexivity|]. split; [exact R2|]. exists 0%nat. split; [rewrite tiny_N; lia|].
    rewrite D. apply Rabs_def2 in h. rewrite Rabs_left by lra. lra.
Qed.

(** ** configuration *)
Lemma lookup_none {A} k (d : list (string * A)) : lookup k d = None <-> ~ In k (map fst d).
Proof.
  induction d as [|p d IH]; [cbn; tauto|]. rewrite lookup_cons. cbn [map In]. destruct (fst p =? k)%string eqn:E.
  - apply String.eqb_eq in E. split; [discriminate|]. intros H. exfalso. apply H. left. exact E.
  - apply String.eqb_neq in E. rewrite IH. tauto.
Qed.
Lemma lookup_app {A} k (d d' : list (string * A)) : lookup k (d ++ d') = match lookup k d with Some x => Some x | None => lookup k d' end.
Proof. induction d as [|p d IH]; [reflexivity|]. cbn [app]. rewrite !lookup_cons. destruct (fst p =? k)%string; [reflexivity|exact IH]. Qed.
Lemma map_key d k x : map fst (map (fun p : string * R => if (fst p =? k)%string then (k, x) else p) d) = map fst d.
Proof. induction d as [|p d IH]; [reflexivity|]. cbn [map]. rewrite IH. f_equal. destruct (fst p =? k)%string eqn:E; [apply String.eqb_eq in E; cbn [fst]; congruence|reflexivity]. Qed.
Lemma set_key_nodup d k x : NoDup (map fst d) -> NoDup (map fst (set_key d k x)).
Proof.
  intros H. unfold set_key. destruct (lookup k d) eqn:L; [rewrite map_key; exact H|]. rewrite map_app. cbn [map fst].
  apply lookup_none in L. apply NoDup_Add with (a := k) (l := map fst d); [|split; [exact H|exact L]].
  replace (map fst d) with (map fst d ++ []) at 1 by apply app_nil_r. apply Add_app.
Qed.
Lemma map_same d k x : ~ In k (map fst d) -> map (fun p : string * R => if (fst p =? k)%string then (k, x) else p) d = d.
Proof. intros H. induction d as [|p d IH]; [reflexivity|]. cbn [map In] in *. rewrite IH by tauto. destruct (fst p =? k)%string eqn:E; [apply String.eqb_eq in E; tauto|reflexivity]. Qed.
Lemma electrons_total d : electrons d = total snd d. Proof. unfold electrons. rewrite fold_total. ring. Qed.
Lemma total_app {A} (f : A -> R) l l' : total f (l ++ l') = total f l + total f l'.
Proof. induction l as [|a l IH]; unfold total in *; cbn [app fold_right]; [ring|]. rewrite IH. ring. Qed.
Lemma set_key_electrons d k x : NoDup (map fst d) -> electrons (set_key d k x) = electrons d + (x - val (lookup k d)).
Proof.
  intros H. rewrite !electrons_total. unfold set_key. destruct (lookup k d) as [y|] eqn:L.
  - revert L. induction d as [|p d IH]; [discriminate|]. rewrite lookup_cons. cbn [map] in *. inversion H as [|? ? H1 H2]. subst. unfold total in *. cbn [fold_right]. destruct (fst p =? k)%string eqn:E.
    + intros L. injection L as <-. apply String.eqb_eq in E. rewrite map_same by congruence. cbn [snd val]. ring.
    + intros L. rewrite (IH H2 L). ring.
  - rewrite total_app. unfold total at 2. cbn [fold_right snd val]. ring.
Qed.
Lemma set_key_lookup d k x k' : lookup k' (set_key d k x) = if (k =? k')%string then Some x else lookup k' d.
Proof.
  unfold set_key. destruct (lookup k d) as [y|] eqn:L.
  - revert L. induction d as [|p d IH]; [discriminate|]. intros L. cbn [map]. rewrite !lookup_cons. rewrite lookup_cons in L. destruct (fst p =? k)%string eqn:E.
    + apply String.eqb_eq in E. cbn [fst snd]. destruct (k =? k')%string eqn:E'; [reflexivity|]. rewrite E, E'. clear -E'. induction d as [|q d IH]; [reflexivity|]. cbn [map]. rewrite !lookup_cons.
      destruct (fst q =? k)%string eqn:F; [apply String.eqb_eq in F; cbn [fst]; rewrite F, E'; exact IH|]. destruct (fst q =? k')%string; [reflexivity|exact IH].
    + destruct (fst p =? k')%string eqn:F; [|apply IH; exact L]. apply String.eqb_eq in F. subst k'. rewrite String.eqb_sym, E. reflexivity.
  - rewrite lookup_app. rewrite lookup_cons. cbn [fst snd]. destruct (k =? k')%string eqn:E; [apply String.eqb_eq in E; subst k'; rewrite L; reflexivity|]. destruct (lookup k' d); reflexivity.
Qed.
Lemma update_electrons c d : NoDup (map fst d) -> NoDup (map fst c) -> electrons (update d c) = electrons d + total (fun p => snd p - val (lookup (fst p) d)) c.
Proof.
  revert d. induction c as [|p c IH]; intros d Hd Hc; [unfold update, total; cbn [fold_left fold_right]; ring|]. cbn [map] in Hc. inversion Hc as [|? ? H1 H2]. subst.
  unfold update in *. cbn [fold_left]. rewrite IH by (first [apply set_key_nodup; exact Hd|exact H2]). rewrite set_key_electrons by exact Hd. unfold total. cbn [fold_right]. fold (total (fun p => snd p - val (lookup (fst p) d)) c). fold (total (fun p0 => snd p0 - val (lookup (fst p0) (set_key d (fst p) (snd p)))) c).
  rewrite (total_ext (fun p0 => snd p0 - val (lookup (fst p0) (set_key d (fst p) (snd p)))) (fun p => snd p - val (lookup (fst p) d))); [ring|].
  intros q Hq. rewrite set_key_lookup. destruct (fst p =? fst q)%string eqn:E; [|reflexivity]. apply String.eqb_eq in E. exfalso. apply H1. rewrite E. apply in_map. exact Hq.
Qed.

(** ** histories *)
Section Obj.
Variables (P : params) (spline : (nat -> R) -> R -> R).
Notation ks := (kruns P spline).
Definition result (rs : option ((nat -> R) * (nat -> R))) : option scf := match run P rs with KOk s => Some s | KErr _ => None end.
Notation fine := (runs_succeed P).
Lemma kruns_cons o c cs : fine (c :: cs) -> ks o (c :: cs) = let '(o', a) := kstep P spline o c in let '(o'', l) := ks o' cs in (o'', a :: l).
Proof.
  intros H. cbn [kruns]. destruct c as [rs| | | |]; try (destruct (kstep P spline o _); reflexivity).
  destruct (H rs (or_introl eq_refl)) as (s & E). cbn [kstep]. rewrite E. reflexivity.
Qed.
Lemma fine_tail c cs : fine (c :: cs) -> fine cs. Proof. intros H rs Hin. apply H. right. exact Hin. Qed.
Lemma kruns_snoc cs o c : fine cs -> asks_result c = true \/ (exists r, c = Veff r) -> ks o (cs ++ [c]) = (fst (kstep P spline (fst (ks o cs)) c), snd (ks o cs) ++ [snd (kstep P spline (fst (ks o cs)) c)]).
Proof.
  revert o. induction cs as [|c' cs IH]; intros o Hf Hc.
  - cbn [app kruns fst snd]. destruct c; try (destruct Hc as [Hc|[r Hc]]; discriminate); destruct (kstep P spline o _); reflexivity.
  - cbn [app]. rewrite !kruns_cons; [|exact Hf|].
    + destruct (kstep P spline o c') as [o' a]. rewrite (IH o' (fine_tail _ _ Hf) Hc). destruct (ks o' cs) as [o'' l]. reflexivity.
    + intros rs [Hin|Hin]; [apply Hf; left; exact Hin|]. apply in_app_or in Hin. destruct Hin as [Hin|[Hin|[]]]; [apply Hf; right; exact Hin|]. subst c. destruct Hc as [Hc|[r Hc]]; discriminate.
Qed.
Lemma step_last o c : (forall rs, c = Run rs -> exists s, run P rs = KOk s) -> k_last (fst (kstep P spline o c)) = match c with Run rs => result rs | _ => k_last o end.
Proof.
  intros H. destruct c as [rs|r|r nl| |nl]; cbn [kstep]; try reflexivity.
  - destruct (H rs eq_refl) as (s & E). unfold result. rewrite E. reflexivity.
  - destruct (k_fct o); [reflexivity|]. destruct (k_veff o); reflexivity.
  - destruct (k_last o) eqn:L; [|exact L]. destruct (find _ _); exact L.
  - destruct (k_last o) eqn:L; [|exact L]. destruct (find _ _); exact L.
Qed.
Lemma runs_last cs o d : fine cs -> k_last o = match d with Some rs => result rs | None => None end ->
  k_last (fst (ks o cs)) = match last_run cs d with Some rs => result rs | None => None end.
Proof.
  revert o d. induction cs as [|c cs IH]; intros o d Hf H; [exact H|]. rewrite kruns_cons by exact Hf.
  pose proof (step_last o c (fun rs E => Hf rs (or_introl E))) as Hl. destruct (kstep P spline o c) as [o' a]. cbn [fst] in Hl. destruct (ks o' cs) as [o'' l] eqn:K. cbn [fst].
  replace o'' with (fst (ks o' cs)) by (rewrite K; reflexivity).
  destruct c as [rs|r|r nl| |nl]; cbn [last_run]; apply IH; try (apply (fine_tail _ _ Hf)); rewrite Hl; try exact H; reflexivity.
Qed.
Lemma answer_last o o' c : asks_result c = true -> k_last o = k_last o' -> snd (kstep P spline o c) = snd (kstep P spline o' c).
Proof.
  intros A H. destruct c as [rs|r|r nl| |nl]; try discriminate; cbn [kstep]; rewrite H; [| reflexivity|]; destruct (k_last o'); try reflexivity; destruct (find _ _); reflexivity.
Qed.
Lemma last_snoc l (a : kres (option R)) : last_answer (l ++ [a]) = Some a.
Proof. unfold last_answer. rewrite rev_app_distr. reflexivity. Qed.
Lemma results_last cs c rs : fine cs -> asks_result c = true -> last_run cs None = Some rs ->
  last_answer (snd (ks new_obj (cs ++ [c]))) = last_answer (snd (ks new_obj [Run rs; c])).
Proof.
  intros Hf Ha Hl. rewrite kruns_snoc by (first [exact Hf|left; exact Ha]). change [Run rs; c] with ([Run rs] ++ [c]).
  assert (In (Run rs) cs).
  { clear Hf. assert (G : forall cs d, last_run cs d = Some rs -> In (Run rs) cs \/ d = Some rs).
    { induction cs0 as [|c0 cs0 IH]; intros d H; [right; exact H|]. destruct c0; cbn [last_run] in H; destruct (IH _ H) as [G|G]; try (left; right; exact G); try (right; exact G). injection G as ->. left. left. reflexivity. }
    destruct (G cs None Hl) as [G'|G']; [exact G'|discriminate]. }
  assert (Hf1 : fine [Run rs]). { intros rs' [E|[]]. injection E as <-. apply Hf. exact H. }
  rewrite (kruns_snoc [Run rs]) by (first [exact Hf1|left; exact Ha]). cbn [snd]. rewrite !last_snoc. f_equal. apply answer_last; [exact Ha|].
  rewrite (runs_last cs new_obj None Hf eq_refl), Hl. rewrite (runs_last [Run rs] new_obj None Hf1 eq_refl). reflexivity.
Qed.
Lemma fct_kept cs o v : k_fct o = Some v -> k_fct (fst (ks o cs)) = Some v.
Proof.
  revert o. induction cs as [|c cs IH]; intros o H; [exact H|].
  assert (Hs : k_fct (fst (kstep P spline o c)) = Some v).
  { destruct c as [rs|r|r nl| |nl]; cbn [kstep]; [destruct (run P rs); exact H|rewrite H; exact H| |exact H|]; destruct (k_last o); try exact H; destruct (find _ _); exact H. }
  destruct (kstep P spline o c) as [o' a] eqn:K. cbn [fst] in Hs. pose proof (IH o' Hs) as Hi.
  destruct c; cbn [kruns]; rewrite K; [destruct a|..]; destruct (ks o' cs) as [o'' l]; assumption.
Qed.
(** the first answer of effective_potential stays *)
Lemma veff_frozen o r x o1 cs : kstep P spline o (Veff r) = (o1, KOk (Some x)) -> snd (kstep P spline (fst (ks o1 cs)) (Veff r)) = KOk (Some x).
Proof.
  intros H. assert (F : exists v, k_fct o1 = Some v /\ spline v r = x).
  { cbn [kstep] in H. destruct (k_fct o) as [v|] eqn:E; [|destruct (k_veff o) as [v|]].
    - injection H as <- <-. exists v. split; [exact E|reflexivity].
    - injection H as <- <-. exists v. split; reflexivity.
    - discriminate. }
  destruct F as (v & F & <-). pose proof (fct_kept cs o1 v F) as G. cbn [kstep]. rewrite G. reflexivity.
Qed.
End Obj.
Lemma veff_stale (spline : (nat -> R) -> R -> R) : exists P, (forall f i, (i < gN P)%nat -> spline f (rgrid P i) = f i) ->
  exists rs1 rs2 r, runs_succeed P [Run rs1; Run rs2] /\
  last_answer (snd (kruns P spline new_obj [Run rs1; Veff r; Run rs2; Veff r])) <> last_answer (snd (kruns P spline new_obj [Run rs2; Veff r])).
Proof.
  set (T := tiny 0 1 7). exists T. intros Hs. assert (H1 : 0 < 1) by lra.
  destruct (tiny_run 0 1 7 H1 (fun _ => 0) (fun _ => 1) ltac:(lia) ltac:(intros; lra)) as (s1 & R1 & V1 & _).
  destruct (tiny_run 0 1 7 H1 (fun _ => 1) (fun _ => 1) ltac:(lia) ltac:(intros; lra)) as (s2 & R2 & V2 & _). fold T in R1, R2.
  exists (Some (fun _ => 0, fun _ => 1)), (Some (fun _ => 1, fun _ => 1)), (rgrid T 0). split.
  { intros rs [E|[E|[]]]; injection E as <-; eexists; eassumption. }
  assert (N0 : (0 < gN T)%nat) by (unfold T; rewrite tiny_N; lia).
  cbn [kruns kstep]. rewrite R1, R2. cbn [k_fct k_veff k_last new_obj]. unfold last_answer. cbn [snd rev app nth_error]. rewrite V1, V2, !Hs by exact N0. intros H. injection H. lra.
Qed.

(** ** confinement *)
Lemma woods_bounds r0 a W r : 0 < W -> 0 < confine (CWoodsSaxon r0 a W) r < W.
Proof.
  intros H. cbn [confine]. pose proof (exp_pos (- a * (r - r0))). set (e := exp _) in *. clearbody e. split; [apply Rdiv_lt_0_compat; lra|].
  apply Rmult_lt_reg_r with (1 + e); [lra|]. unfold Rdiv. rewrite Rmult_assoc, Rinv_l by lra. nra.
Qed.
Lemma woods_increasing r0 a W r r' : 0 < W -> 0 < a -> r < r' -> confine (CWoodsSaxon r0 a W) r < confine (CWoodsSaxon r0 a W) r'.
Proof.
  intros HW Ha H. cbn [confine]. apply Rmult_lt_compat_l; [exact HW|]. pose proof (exp_pos (- a * (r - r0))). pose proof (exp_pos (- a * (r' - r0))).
  apply Rinv_lt_contravar; [nra|]. apply Rplus_lt_compat_l. apply exp_increasing. nra.
Qed.
Lemma woods_limit r0 a W d : 0 < W -> 0 < a -> 0 < d -> exists R, forall r, R < r -> W - d < confine (CWoodsSaxon r0 a W) r.
Proof.
  intros HW Ha Hd. exists (r0 + W / d / a). intros r Hr. cbn [confine].
  assert (X : W / d < a * (r - r0)). { apply Rmult_lt_reg_r with (/ a); [apply Rinv_0_lt_compat; exact Ha|]. replace (a * (r - r0) * / a) with (r - r0) by (field; lra). unfold Rdiv in *. lra. }
  pose proof (exp_ineq1_le (a * (r - r0))) as E. replace (- a * (r - r0)) with (- (a * (r - r0))) by ring. rewrite exp_Ropp. set (t := exp (a * (r - r0))) in *.
  assert (Q : 0 < W / d) by (apply Rdiv_lt_0_compat; lra). assert (T : W / d < t) by lra. clearbody t.
  apply Rmult_lt_reg_r with (1 + / t); [assert (0 < / t) by (apply Rinv_0_lt_compat; lra); lra|].
  unfold Rdiv at 1. rewrite Rmult_assoc, Rinv_l; [|assert (0 < / t) by (apply Rinv_0_lt_compat; lra); lra].
  assert (It : 0 < / t) by (apply Rinv_0_lt_compat; lra).
  assert (Y : W * / t < d). { apply Rmult_lt_reg_r with t; [lra|]. rewrite Rmult_assoc, Rinv_l by lra. assert (W = W / d * d) by (field; lra). nra. }
  nra.
Qed.
Lemma general_quadratic r0 r : 0 < r0 -> 0 < r -> confine (CGeneral r0 2) r = confine (CQuadratic r0) r.
Proof. intros H0 H. cbn [confine]. assert (0 < r / r0) by (apply Rdiv_lt_0_compat; assumption). rewrite <- Rpower_pow by assumption. reflexivity. Qed.
Lemma general_increasing r0 s r r' : 0 < r0 -> 0 < s -> 0 < r < r' -> confine (CGeneral r0 s) r < confine (CGeneral r0 s) r'.
Proof.
  intros H0 Hs H. cbn [confine]. unfold Rpower. apply exp_increasing. apply Rmult_lt_compat_l; [exact Hs|]. apply ln_increasing; [apply Rdiv_lt_0_compat; lra|].
  apply Rmult_lt_compat_r; [apply Rinv_0_lt_compat; exact H0|lra].
Qed.
Lemma general_decreasing r0 s r r' : 0 < r0 -> s < 0 -> 0 < r < r' -> confine (CGeneral r0 s) r' < confine (CGeneral r0 s) r.
Proof.
  intros H0 Hs H. cbn [confine]. unfold Rpower. apply exp_increasing. assert (ln (r / r0) < ln (r' / r0)); [|nra]. apply ln_increasing; [apply Rdiv_lt_0_compat; lra|].
  apply Rmult_lt_compat_r; [apply Rinv_0_lt_compat; exact H0|lra].
Qed.
Lemma quadratic_increasing r0 r r' : r0 <> 0 -> 0 <= r < r' -> confine (CQuadratic r0) r < confine (CQuadratic r0) r'.
Proof.
  intros H0 H. cbn [confine]. replace ((r / r0) ^ 2) with (r ^ 2 * (/ r0 * / r0)) by (field; exact H0). replace ((r' / r0) ^ 2) with (r' ^ 2 * (/ r0 * / r0)) by (field; exact H0).
  assert (0 < / r0 * / r0). { apply Rsqr_pos_lt. apply Rinv_neq_0_compat. exact H0. } apply Rmult_lt_compat_r; [assumption|nra].
Qed.
Definition scale_of (c : confinement) : option R := match c with CNone => None | CQuadratic r0 | CGeneral r0 _ => Some r0 | CWoodsSaxon r0 _ _ => Some r0 end.
Lemma at_r0 r0 s a W : 0 < r0 -> confine (CQuadratic r0) r0 = 1 /\ confine (CGeneral r0 s) r0 = 1 /\ confine (CWoodsSaxon r0 a W) r0 = W / 2.
Proof.
  intros H. cbn [confine]. replace (r0 / r0) with 1 by (field; lra). split; [ring|]. split; [unfold Rpower; rewrite ln_1, Rmult_0_r, exp_0; reflexivity|].
  replace (- a * (r0 - r0)) with 0 by ring. rewrite exp_0. field.
Qed.
