From Coq Require Import Reals ZArith String Ascii List Bool Arith Lra Lia FunctionalExtensionality.
From Verif Require Import Vec GeomModel GeomProofs AtomModel AtomSpec AtomProofs AtomProofs2 AtomProofs3 AtomProofs5 SkProofs6 KsModel KsSpec KsProofs KsProofs2 KsProofs3 KsProofs4.
Import ListNotations.
Open Scope R_scope.

(** ** eigenstates *)
Lemma solve_found P it veff n l nl o o' k : fine_grid P -> solve_state P it veff n l nl o = KOk (o', k) ->
  solves P n l veff (o_enl o' nl) (o_unl o' nl) /\ o_denl o' nl = Rabs (o_enl o' nl - o_enl o nl) /\
  (forall s, s <> nl -> o_enl o' s = o_enl o s /\ o_denl o' s = o_denl o s /\ o_unl o' s = o_unl o s) /\ (1 <= k <= 101)%nat /\
  o_enl o' nl <= Rmax (match it with O => - (p_Z P ^ 2 / INR n ^ 2) | _ => o_enl o nl end) (veff (gN P - 1)%nat - INR l * (INR l + 1) / (2 * rgrid P (gN P - 1) ^ 2)).
Proof. exact (fun H1 => solve_state_spec P H1 it veff n l nl o o' k). Qed.
(** ** runs *)
Lemma run_few P rs s : (p_itmax P <= 6)%nat -> run P rs <> KOk s.
Proof.
  intros Hi. unfold run. assert (G : forall f it s0, (it + f <= 6)%nat -> scf_loop P f it s0 <> KOk s).
  { induction f as [|f IH]; intros it s0 H; [discriminate|]. rewrite loop_S. unfold scf_step. destruct (solve_states _ _ _ _ _ _) as [[o d]|]; [|discriminate]. destruct (density P o); [|discriminate].
    assert (L : (5 <? it)%nat = false) by (apply Nat.ltb_ge; lia). rewrite L, andb_false_r. destruct (it =? p_itmax P - 1)%nat; [discriminate|]. apply IH. lia. }
  apply G. lia.
Qed.
Lemma run_attribute P rs : run P rs = KErr KAttribute <-> p_itmax P = 0%nat.
Proof.
  unfold run. split.
  - intros H. destruct (p_itmax P) as [|m] eqn:E; [reflexivity|]. exfalso. refine (attr_loop P (S m) 0 _ _ _ H); [rewrite E; reflexivity|lia].
  - intros ->. reflexivity.
Qed.
Lemma run_result P rs s : fine_grid P -> run P rs = KOk s -> exists m t, (7 <= m <= p_itmax P)%nat /\ s_it s = (m - 1)%nat /\
  scf_trace P rs m t /\ converged P t (m - 1) /\ (forall k, (k < m - 1)%nat -> ~ converged P t k) /\
  s_veff s = t_v t m /\ s_dens s = t_n t m /\ o_enl (s_orb s) = t_e t m /\ o_unl (s_orb s) = t_u t m.
Proof.
  intros Hg H. destruct (run_spec P Hg rs s H) as (m & A & B & C & D & E & F & G & I & J & K & L & _). exists m, (the_trace P rs).
  repeat (split; [assumption|]). assumption.
Qed.
Lemma run_total P rs s : fine_grid P -> run P rs = KOk s -> exists m t, (1 <= m)%nat /\ scf_trace P rs m t /\
  s_veff s = t_v t m /\ s_dens s = t_n t m /\ o_enl (s_orb s) = t_e t m /\
  total_energy P s = kinetic P (t_e t m) (t_v t m) (t_n t m) + external P (t_n t m) + hartree_int P (t_n t (m - 1)%nat) (t_n t m) + xc_int P (t_n t m)
    + g_integrate (gN P) (rgrid P) (fun i => (t_v t m i - ks_potential P (t_n t (m - 1)%nat) i) * t_n t m i) true.
Proof.
  intros Hg H. destruct (run_spec P Hg rs s H) as (m & A & B & C & D & E & F & G & I & J & K & L & _). exists m, (the_trace P rs).
  split; [lia|]. repeat (split; [assumption|]). rewrite <- F, <- G, <- I. apply run_energy; assumption.
Qed.
(** ** electrons *)
Lemma run_electrons P rs s : fine_grid P -> NoDup (map fst (p_occu P)) -> run P rs = KOk s ->
  g_integrate (gN P) (rgrid P) (fun i => 4 * PI * rgrid P i ^ 2 * s_dens s i) false = calculated (p_occu P) /\
  Rabs (calculated (p_occu P) - total snd (p_occu P)) <= / 10 ^ 10.
Proof.
  intros Hg Hd H. destruct (run_spec P Hg rs s H) as (m & A & _ & [_ C] & _ & _ & F & G & I & J & _ & _ & L).
  rewrite (states_electrons P Hd), nel_total in L. split; [|exact L].
  destruct (C (m - 1)%nat ltac:(lia)) as (_ & C2 & C3). replace (m - 1 + 1)%nat with m in C2, C3 by lia. rewrite <- G in C3. rewrite <- I, <- J in C2. 
  rewrite (integrate_ext (gN P) (rgrid P) (g_N P Hg) _ (dens_sum P (s_orb s))).
  - rewrite (dens_electrons P Hg _ (s_orb s) C2). apply states_electrons. exact Hd.
  - intros i _. rewrite C3. rewrite <- J. unfold dens_sum. pose proof (g_pos P Hg i). pose proof PI_RGT_0. field. split; lra.
Qed.
(** ** names *)
Lemma digit_get d : (d < 10)%nat -> char_index (digit d) letters 0 = None.
Proof. intros H. do 10 (destruct d as [|d]; [reflexivity|]). lia. Qed.
Lemma get_app1 s t k : (k < String.length s)%nat -> String.get k (s ++ t) = String.get k s.
Proof. revert k. induction s as [|c s IH]; intros k H; cbn [String.length] in H; [lia|]. destruct k; [reflexivity|]. cbn [String.append String.get]. apply IH. lia. Qed.
Lemma length_app s t : String.length (s ++ t) = (String.length s + String.length t)%nat.
Proof. induction s as [|c s IH]; [reflexivity|]. cbn [String.append String.length]. rewrite IH. reflexivity. Qed.
Lemma get_last s c : String.get (String.length s) (s ++ String c EmptyString) = Some c.
Proof. induction s as [|x s IH]; [reflexivity|exact IH]. Qed.
Lemma dec_spec f n : (n < f)%nat -> (1 <= String.length (dec f n))%nat /\ (10 <= n -> 2 <= String.length (dec f n))%nat /\
  forall k, (k < String.length (dec f n))%nat -> exists d, (d < 10)%nat /\ String.get k (dec f n) = Some (digit d).
Proof.
  revert n. induction f as [|f IH]; intros n H; [lia|]. cbn [dec]. destruct (n <? 10)%nat eqn:E.
  - apply Nat.ltb_lt in E. cbn [String.length]. split; [lia|]. split; [lia|]. intros k Hk. exists n. split; [exact E|]. assert (k = 0%nat) by lia. subst k. reflexivity.
  - apply Nat.ltb_ge in E. assert (D : (n / 10 < n)%nat) by (apply Nat.div_lt; lia). destruct (IH (n / 10)%nat ltac:(lia)) as (A & _ & B).
    rewrite length_app. cbn [String.length]. split; [lia|]. split; [lia|]. intros k Hk. destruct (lt_dec k (String.length (dec f (n / 10)))) as [h|h].
    + rewrite get_app1 by exact h. apply B. exact h.
    + assert (k = String.length (dec f (n / 10))) by lia. subst k. exists (n mod 10)%nat. split; [apply Nat.mod_upper_bound; lia|apply get_last].
Qed.
Lemma name_long n l s : (10 <= n)%nat -> to_name n l = Some s -> of_name s = None.
Proof.
  intros Hn H. unfold to_name in H. destruct (nth_error letters l) as [c|]; [|discriminate]. injection H as <-.
  destruct (dec_spec (S n) n ltac:(lia)) as (_ & A & B). specialize (A Hn). unfold of_name.
  destruct (B 1%nat A) as (d & Hd & G). rewrite (get_app1 (dec (S n) n) _ 1 A). rewrite G. rewrite digit_get by exact Hd.
  destruct (String.get 0 _); reflexivity.
Qed.
(** ** before the first run *)
Lemma before_run P spline cs c : (forall rs, ~ In (Run rs) cs) -> snd (kstep P spline (fst (kruns P spline new_obj cs)) c) =
  match c with Run rs => match run P rs with KOk _ => KOk None | KErr e => KErr e end | Veff _ => KErr KAttribute | Rnl _ _ => KErr KKey | Energy => KOk (Some 0) | Epsilon _ => KErr KAssertion end.
Proof.
  intros H. assert (G : forall cs, (forall rs, ~ In (Run rs) cs) -> fst (kruns P spline new_obj cs) = new_obj).
  { clear. induction cs as [|c cs IH]; intros H; [reflexivity|]. assert (T : forall rs, ~ In (Run rs) cs) by (intros rs h; apply (H rs); right; exact h). specialize (IH T).
    destruct c as [rs|r|r nl| |nl]; [exfalso; apply (H rs); left; reflexivity|..]; cbn [kruns kstep k_last k_fct k_veff new_obj] in *; fold new_obj; destruct (kruns P spline new_obj cs); exact IH. }
  rewrite (G cs H). destruct c; try reflexivity. cbn [kstep]. destruct (run P restart); reflexivity.
Qed.
(** ** confinement *)
Lemma confine_errors mode kw : 
  (make_confinement mode kw = KErr KNotImplemented <-> mode <> "none"%string /\ mode <> "quadratic"%string /\ mode <> "general"%string /\ ~ In (lower mode) ["woods-saxon"; "woods_saxon"; "woodssaxon"]%string) /\
  (forall e, make_confinement mode kw = KErr e -> e = KNotImplemented \/ e = KKey).
Proof.
  unfold make_confinement. destruct (mode =? "none")%string eqn:E1; [apply String.eqb_eq in E1; subst; split; [split; [discriminate|intros (h & _); congruence]|discriminate]|]. apply String.eqb_neq in E1.
  destruct (mode =? "quadratic")%string eqn:E2.
  { apply String.eqb_eq in E2; subst; destruct (lookup "r0"%string kw); (split; [split; [discriminate|intros (_ & h & _); congruence]|intros e H; inversion H; tauto]). }
  apply String.eqb_neq in E2. destruct (mode =? "general")%string eqn:E3.
  { apply String.eqb_eq in E3; subst; destruct (lookup "r0"%string kw); [destruct (lookup "s"%string kw)|]; (split; [split; [discriminate|intros (_ & _ & h & _); congruence]|intros e H; inversion H; tauto]). }
  apply String.eqb_neq in E3.
  destruct (existsb (String.eqb (lower mode)) _) eqn:E4.
  - assert (I : In (lower mode) ["woods-saxon"; "woods_saxon"; "woodssaxon"]%string). { apply existsb_exists in E4. destruct E4 as (x & h & g). apply String.eqb_eq in g. rewrite g. exact h. }
    destruct (lookup "r0"%string kw); [destruct (lookup "a"%string kw); [destruct (lookup "W"%string kw)|]|]; (split; [split; [discriminate|intros (_ & _ & _ & h); contradiction]|intros e H; inversion H; tauto]).
  - split; [|intros e H; inversion H; tauto]. split; [intros _|reflexivity]. repeat (split; [assumption|]). intros I. rewrite <- Bool.not_true_iff_false in E4. apply E4. apply existsb_exists. exists (lower mode). split; [exact I|apply String.eqb_refl].
Qed.
Lemma confine_made mode kw r0 a s W : lookup "r0"%string kw = Some r0 -> lookup "a"%string kw = Some a -> lookup "s"%string kw = Some s -> lookup "W"%string kw = Some W ->
  make_confinement "none" kw = KOk CNone /\ make_confinement "quadratic" kw = KOk (CQuadratic r0) /\ make_confinement "general" kw = KOk (CGeneral r0 s) /\
  (In (lower mode) ["woods-saxon"; "woods_saxon"; "woodssaxon"]%string -> make_confinement mode kw = KOk (CWoodsSaxon r0 a W)).
Proof.
  intros H1 H2 H3 H4. split; [reflexivity|]. split; [unfold make_confinement; cbn [String.eqb Ascii.eqb Bool.eqb]; rewrite H1; reflexivity|].
  split; [unfold make_confinement; cbn [String.eqb Ascii.eqb Bool.eqb]; rewrite H1, H3; reflexivity|].
  intros I. unfold make_confinement.
  assert (N : forall x, lower x = x -> ~ In x ["woods-saxon"; "woods_saxon"; "woodssaxon"]%string -> (mode =? x)%string = false).
  { intros x L h. apply String.eqb_neq. intros ->. rewrite L in I. contradiction. }
  rewrite (N "none"%string eq_refl) by (cbn [In]; intuition discriminate). rewrite (N "quadratic"%string eq_refl) by (cbn [In]; intuition discriminate). rewrite (N "general"%string eq_refl) by (cbn [In]; intuition discriminate).
  replace (existsb (String.eqb (lower mode)) _) with true; [rewrite H1, H2, H4; reflexivity|]. symmetry. apply existsb_exists. exists (lower mode). split; [exact I|apply String.eqb_refl].
Qed.
Lemma confine_capitals : make_confinement "Woods-Saxon" [("r0", 1); ("a", 1); ("W", 1)]%string = KOk (CWoodsSaxon 1 1 1) /\ make_confinement "Quadratic" [("r0", 1)]%string = KErr KNotImplemented.
Proof. split; reflexivity. Qed.
(** ** cases *)
Example ex_eigenstate W tol m V : 0 < tol -> (forall i, (i < 3)%nat -> -1 < V i) -> fine_grid (tiny W tol m) /\ p_scalarrel (tiny W tol m) = false /\
  exists o' k, solve_state (tiny W tol m) 0 V 1 0 "1s" (Orbitals (fun _ => 0) (fun _ => 0) (fun _ _ => 0)) = KOk (o', k).
Proof. intros Ht HV. split; [apply tiny_fine|]. split; [reflexivity|]. destruct (tiny_solve W tol m V HV) as (U & H & _). destruct (H 0%nat (Orbitals (fun _ => 0) (fun _ => 0) (fun _ _ => 0)) (or_introl eq_refl)) as (k & E). eexists. exists k. exact E. Qed.
Example ex_run : exists s, run (tiny 400 (/ 10 ^ 7) 200) None = KOk s /\ s_it s = 6%nat.
Proof. apply tiny_run_none; [apply Rinv_0_lt_compat; apply pow_lt; lra|lia|lra]. Qed.
Example ex_stuck u : eig_loop 3 (fun i => 1 + INR i) 1 (fun e => (fun i => coef0 0 (1 + INR i) 0 e, fun _ => coef1, fun _ => coef2)) 0 1 0 101 u (-1) 0 DNone = KErr KRuntime.
Proof.
  apply (eig_stuck 3 (fun i => 1 + INR i) 1 _ 0 1 0 101 u (-1) DNone _ _ _ eq_refl); [lra| | |]; [|unfold coef0; cbn; lra|unfold coef0; cbn; lra].
  intros v _. destruct (shoot3 1 (fun i => coef0 0 (1 + INR i) 0 (-1)) v ltac:(lra)) as (s & A & _ & B & _).
  - intros i _. unfold coef0. cbn [INR]. pose proof (pos_INR i). assert (0 < (1 + INR i) ^ 2) by nra. nra.
  - exists s. split; [exact A|]. rewrite B. discriminate.
Qed.
(** an electron in 10s is not calculated *)
Example ex_tenth : calculated [("1s", 2); ("10s", 1)]%string = 2 /\ total snd [("1s", 2); ("10s", 1)]%string = 3.
Proof. split; unfold calculated, total; cbn [fold_right snd fst]; [change (existsb (String.eqb "1s") orbital_names) with true; change (existsb (String.eqb "10s") orbital_names) with false|]; cbn iota; ring. Qed.
Example ex_update : electrons (update [("1s", 2); ("2s", 2)]%string [("2s", 1); ("2p", 0)]%string) = 3.
Proof. unfold electrons, update. cbn. ring. Qed.
Example ex_names : to_name 2 1 = Some "2p"%string /\ of_name "2p" = Some (2%nat, 1%nat) /\ to_name 10 0 = Some "10s"%string.
Proof. repeat split. Qed.
