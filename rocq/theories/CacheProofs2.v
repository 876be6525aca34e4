From Coq Require Import List Bool Arith Lia String.
Import ListNotations.
From Verif Require Import CacheModel CacheSpec CacheProofs.

Section More.
Variable w : world.

(** Without SCC a solution is the solution of a fresh calculator. *)
Lemma solution_fresh c a x : scc w = false -> solution c a x -> fresh_sol w c a = Some x.
Proof.
  intros Hs (k & g & Hk & Hg & Hx). unfold fresh_sol. rewrite Hk.
  rewrite <- (Hg Hs). exact Hx.
Qed.

Lemma answers_fresh_energy c a v : scc w = false -> answers c (GetE a) (OVal v) ->
  fresh_energy w c a = Some v.
Proof.
  intros Hs (x & y & Hx & Hy & Ev). apply solution_fresh in Hx; auto.
  apply solution_fresh in Hy; auto. rewrite Hx in Hy. injection Hy as <-.
  unfold fresh_energy. rewrite Hx. injection Ev as ->. reflexivity.
Qed.

Lemma answers_fresh_forces c a f : scc w = false -> answers c (GetF a) (OFor f) ->
  fresh_forces w c a = Some f.
Proof.
  intros Hs (x & Hx & Ev). apply solution_fresh in Hx; auto.
  unfold fresh_forces. rewrite Hx. injection Ev as ->. reflexivity.
Qed.

Hypothesis Heq : eq_faithful w.

Lemma nonscc_energy c0 a0 h a v : scc w = false ->
  hist_ok w a0 (h ++ [GetE a]) ->
  Forall (fun r => ~ solve_failed r) (snd (run (inr (fresh_state w c0 a0)) h)) ->
  snd (cstep (fst (run (inr (fresh_state w c0 a0)) h)) (GetE a)) = OVal v ->
  fresh_energy w c0 a = Some v.
Proof.
  intros Hs Hok Hf Er. pose proof (history_answers w Heq c0 a0 h (GetE a) Hok Hf) as H.
  cbv zeta in H. rewrite Er in H. destruct H as [H|(e & H & _)]; [|discriminate].
  apply answers_fresh_energy; assumption.
Qed.

Lemma nonscc_forces c0 a0 h a f : scc w = false ->
  hist_ok w a0 (h ++ [GetF a]) ->
  Forall (fun r => ~ solve_failed r) (snd (run (inr (fresh_state w c0 a0)) h)) ->
  snd (cstep (fst (run (inr (fresh_state w c0 a0)) h)) (GetF a)) = OFor f ->
  fresh_forces w c0 a = Some f.
Proof.
  intros Hs Hok Hf Er. pose proof (history_answers w Heq c0 a0 h (GetF a) Hok Hf) as H.
  cbv zeta in H. rewrite Er in H. destruct H as [H|(e & H & _)]; [|discriminate].
  apply answers_fresh_forces; assumption.
Qed.

(** set_atoms followed at once by solve_ground_state of the same atoms. *)
Inductive disciplined : list (op w) -> Prop :=
| d_nil : disciplined []
| d_query o h : query o -> disciplined h -> disciplined (o :: h)
| d_set a h : disciplined h -> disciplined (SetAtoms a :: Solve a :: h).

Lemma set_then_solve c0 a0 s b : Inv w c0 a0 s -> same_setting b a0 ->
  same_symbols w b (el_atoms s) = true ->
  step (fst (set_atoms w s b)) (Solve b) = step s (Solve b).
Proof.
  intros I [Hr Hk] Hsym. unfold set_atoms. rewrite Hsym. cbn [fst step].
  unfold solve_ground_state. unfold required. cbn [s_gs].
  destruct (s_gs s) as [a|] eqn:Eg.
  - destruct (atoms_eqb w a b) eqn:Eab; cbn [negb].
    + apply Heq in Eab. subst a. destruct (i_gs _ _ _ _ I b Eg) as (Ea & _ & _ & _).
      pose proof (i_rng _ _ _ _ I) as Hrg.
      destruct s. simpl in *. subst. rewrite Hr. reflexivity.
    + unfold update_geometry. cbn [el_ranges el_charge c_charge st_k st_sol st_prev timer_on
        s_gs s_energy s_forces s_ebs v_epot v_f v_ebs a_mull a_grid n_solves].
      rewrite (i_rng _ _ _ _ I), <- Hr, Eg. reflexivity.
  - unfold update_geometry. cbn [el_ranges el_charge c_charge st_k st_sol st_prev timer_on
        s_gs s_energy s_forces s_ebs v_epot v_f v_ebs a_mull a_grid n_solves].
      rewrite (i_rng _ _ _ _ I), <- Hr, Eg. reflexivity.
Qed.

Lemma disciplined_inv c0 a0 h : disciplined h -> forall s, Inv w c0 a0 s ->
  Forall (fun o => forall a, about o = Some a -> same_setting a a0) h ->
  Forall (fun r => ~ solve_failed r) (snd (run (inr s) h)) ->
  exists s1, fst (run (inr s) h) = inr s1 /\ Inv w c0 a0 s1.
Proof.
  intros D. induction D as [|o h Hq D IH|b h D IH]; intros s I Hs Hf.
  - exists s. auto.
  - cbn [run cstep] in *. pose proof (step_good w Heq c0 a0 s o I Hq (Forall_inv Hs)) as G.
    destruct (step s o) as [s1 r]. cbn [fst snd] in G.
    specialize (IH s1). destruct (run (inr s1) h) as [c2 rs] eqn:Er. cbn [fst snd] in *.
    inversion Hf as [|? ? Hf1 Hf2]; subst. inversion Hs as [|? ? Hs1 Hs2]; subst.
    destruct G as [[I1 _]|(e & _ & _ & Hsf)]; [|contradiction]. auto.
  - inversion Hs as [|? ? Hs1 Hs2]; subst. inversion Hs2 as [|? ? Hs3 Hs4]; subst.
    assert (Hset : same_setting b a0) by (apply Hs1; reflexivity).
    cbn [run cstep] in *. change (step s (SetAtoms b)) with (set_atoms w s b) in *.
    assert (Hkey : step (fst (set_atoms w s b)) (Solve b) = step s (Solve b)).
    { destruct (same_symbols w b (el_atoms s)) eqn:Hsym.
      - eapply set_then_solve; eauto.
      - unfold set_atoms. rewrite Hsym. reflexivity. }
    destruct (set_atoms w s b) as [s0 r0]. cbn [fst] in Hkey. cbn [run cstep] in Hf |- *. rewrite Hkey in Hf. rewrite Hkey.
    pose proof (step_good w Heq c0 a0 s (Solve b) I Logic.I) as G.
    assert (Hab : forall a, about (Solve b) = Some a -> same_setting a a0)
      by (intros a Ea; cbn in Ea; injection Ea as <-; exact Hset).
    specialize (G Hab).
    destruct (step s (Solve b)) as [s1 r]. cbn [fst snd] in G.
    specialize (IH s1). destruct (run (inr s1) h) as [c2 rs] eqn:Er. cbn [fst snd] in *.
    inversion Hf as [|? ? Hf1 Hf2]; subst. inversion Hf2 as [|? ? Hf3 Hf4]; subst.
    destruct G as [[I1 _]|(e & _ & _ & Hsf)]; [|contradiction]. auto.
Qed.

Lemma disciplined_answers c0 a0 h o : disciplined h -> query o ->
  Forall (fun o => forall a, about o = Some a -> same_setting a a0) (h ++ [o]) ->
  Forall (fun r => ~ solve_failed r) (snd (run (inr (fresh_state w c0 a0)) h)) ->
  let r := snd (cstep (fst (run (inr (fresh_state w c0 a0)) h)) o) in
  answers c0 o r \/ exists e, r = OErr e /\ excused c0 o e.
Proof.
  intros D Hq Hs Hf. apply Forall_app in Hs. destruct Hs as [Hs1 Hs2].
  destruct (disciplined_inv c0 a0 h D _ (fresh_inv w c0 a0) Hs1 Hf) as (s1 & E & I1).
  rewrite E. cbn [cstep].
  pose proof (step_good w Heq c0 a0 s1 o I1 Hq (Forall_inv Hs2)) as G.
  destruct (step s1 o) as [s2 r]. cbn [fst snd] in *.
  destruct G as [[_ [G|(e & G1 & G2 & _)]]|(e & G1 & G2 & _)]; eauto.
Qed.

(** After a failed solve. *)
Definition dead (g : option (atoms w)) (n : nat) (s : state w) : Prop :=
  timer_on s = true /\ s_gs s = g /\ st_k s <> None /\ n_solves s = n.

Lemma sgs_dead g n s a : dead g n s ->
  let r := solve_ground_state w s a in
  dead g n (fst r) /\ (snd r = None -> g = Some a) /\
  (snd r = None \/ snd r = Some ETimer).
Proof.
  intros (Ht & Hg & Hk & Hn). unfold solve_ground_state.
  destruct (required w s (s_gs s) a) eqn:Hreq.
  - unfold st_solve. cbn [update_geometry st_k timer_on].
    destruct (st_k s) as [k|] eqn:Ek; [|congruence]. rewrite Ht. cbn [fst snd].
    split; [|split; [discriminate|auto]].
    split; [simpl; exact Ht|]. split; [exact Hg|]. split; [simpl; congruence|exact Hn].
  - cbn [fst snd]. split; [split; auto|]. split; [|auto].
    intros _. unfold required in Hreq. rewrite Hg in Hreq.
    destruct g as [b|]; [|discriminate]. apply negb_false_iff in Hreq. apply Heq in Hreq.
    congruence.
Qed.

Lemma step_dead g n s o : dead g n s -> dead g n (fst (step s o)).
Proof.
  intros D. destruct o as [a|a|a|a|a|a|a|a|c| |h|]; cbn [step].
  - unfold get_potential_energy. destruct (required w s (s_energy s) a).
    2:{ destruct (v_epot s); exact D. }
    pose proof (sgs_dead g n s a D) as (D1 & _). destruct (solve_ground_state w s a) as [s1 [e|]];
      cbn [fst snd] in *; [exact D1|].
    assert (D2 : dead g n (fst (get_ebs w s1 a))).
    { unfold get_ebs. destruct (required w s1 (s_ebs s1) a).
      2:{ destruct (v_ebs s1); exact D1. }
      pose proof (sgs_dead g n s1 a D1) as (D2 & _).
      destruct (solve_ground_state w s1 a) as [s2 [e|]]; cbn [fst snd] in *; [exact D2|].
      destruct (st_sol s2); exact D2. }
    destruct (get_ebs w s1 a) as [s2 r2]. cbn [fst] in D2.
    destruct r2; try exact D2.
    assert (D3 : dead g n (fst (get_ecoul w s2 a))).
    { unfold get_ecoul. pose proof (sgs_dead g n s2 a D2) as (D3 & _).
      destruct (solve_ground_state w s2 a) as [s3 [e|]]; cbn [fst snd] in *; [exact D3|].
      destruct (st_sol s3); exact D3. }
    destruct (get_ecoul w s2 a) as [s3 r3]. cbn [fst] in D3.
    destruct r3; try exact D3. destruct (el_geom s3); exact D3.
  - unfold get_forces. destruct (required w s (s_forces s) a).
    2:{ destruct (v_f s); exact D. }
    pose proof (sgs_dead g n s a D) as (D1 & _). destruct (solve_ground_state w s a) as [s1 [e|]];
      cbn [fst snd] in *; [exact D1|]. destruct (st_sol s1), (el_geom s1); exact D1.
  - unfold get_ebs. destruct (required w s (s_ebs s) a).
    2:{ destruct (v_ebs s); exact D. }
    pose proof (sgs_dead g n s a D) as (D1 & _). destruct (solve_ground_state w s a) as [s1 [e|]];
      cbn [fst snd] in *; [exact D1|]. destruct (st_sol s1); exact D1.
  - unfold get_ecoul.
    pose proof (sgs_dead g n s a D) as (D1 & _). destruct (solve_ground_state w s a) as [s1 [e|]];
      cbn [fst snd] in *; [exact D1|]. destruct (st_sol s1); exact D1.
  - pose proof (sgs_dead g n s a D) as (D1 & _). destruct (solve_ground_state w s a) as [s1 [e|]];
      cbn [fst snd] in *; exact D1.
  - pose proof (sgs_dead g n s a D) as (D1 & _). destruct (solve_ground_state w s a) as [s1 [e|]];
      cbn [fst snd] in *; exact D1.
  - unfold get_dq. pose proof (sgs_dead g n s a D) as (D1 & _).
    destruct (solve_ground_state w s a) as [s1 [e|]]; cbn [fst snd] in *; [exact D1|].
    destruct (scc w); [destruct (st_sol s1)|]; exact D1.
  - unfold set_atoms. destruct (same_symbols w a (el_atoms s)); exact D.
  - exact D.
  - unfold get_mulliken. destruct (required w s (s_energy s) (el_atoms s)); [exact D|].
    destruct (a_mull s); [exact D|]. destruct (st_sol s); exact D.
  - unfold set_grid. destruct (required w s (s_energy s) (el_atoms s)); [exact D|].
    destruct (a_grid s); [exact D|]. destruct (el_geom s); exact D.
  - unfold get_grid. destruct (a_grid s) as [[hh gg]|]; [|exact D]. destruct (st_sol s); exact D.
Qed.

Lemma sgs_fails (s : state w) a (e : state w) : solve_ground_state w s a = (e, Some ESolve) ->
  timer_on e = true /\ st_k e <> None.
Proof.
  unfold solve_ground_state. destruct (required w s (s_gs s) a); [|discriminate].
  unfold st_solve. cbn [update_geometry st_k el_atoms].
  assert (HH : forall s1 k, st_k s1 <> None ->
    match
      (if timer_on s1 then (s1, Some ETimer)
    else match el_geom s1 with
         | None => (s1, Some EAttr)
         | Some g =>
             match solve w (el_charge s1) g k (guess w s1) with
             | None => (put_sol w s1 (wreck w (st_sol s1) g) (st_prev s1) true, Some ESolve)
             | Some x =>
                 if mull_ok w (c_charge s1) x then
                   (put_sol w s1 x (if scc w then dq_of w x :: firstn 1 (st_prev s1)
                                 else st_prev s1) false, None)
                 else (put_sol w s1 (wreck w (st_sol s1) g) (st_prev s1) true, Some ESolve)
             end
         end) with
    | (s2, Some e0) => (s2, Some e0)
    | (s2, None) => (mark_gs w s2, None)
    end = (e, Some ESolve) -> timer_on e = true /\ st_k e <> None).
  { intros s1 k Hk. destruct (timer_on s1); [discriminate|].
    destruct (el_geom s1) as [g|]; [|discriminate].
    destruct (solve w (el_charge s1) g k (guess w s1)) as [x|].
    - destruct (mull_ok w (c_charge s1) x); [discriminate|].
      intros E. injection E as <-. auto.
    - intros E. injection E as <-. auto. }
  destruct (st_k s) as [k|] eqn:Ek.
  - intros E. eapply (HH (update_geometry w s a) k); [simpl; congruence|exact E].
  - destruct (kpts_of w a) as [k|]; [|discriminate].
    intros E. eapply (HH (set_k w (update_geometry w s a) k) k); [simpl; congruence|exact E].
Qed.

Lemma step_fails (s : state w) o : snd (step s o) = OErr ESolve ->
  timer_on (fst (step s o)) = true /\ st_k (fst (step s o)) <> None.
Proof.
  assert (Hb : forall s a, snd (get_ebs w s a) = OErr ESolve ->
      timer_on (fst (get_ebs w s a)) = true /\ st_k (fst (get_ebs w s a)) <> None).
  { intros s' a. unfold get_ebs. destruct (required w s' (s_ebs s') a).
    2:{ destruct (v_ebs s'); discriminate. }
    destruct (solve_ground_state w s' a) as [s1 [e|]] eqn:E; cbn [fst snd].
    - intros F. injection F as ->. eapply sgs_fails; eauto.
    - destruct (st_sol s1); discriminate. }
  assert (Hc : forall s a, snd (get_ecoul w s a) = OErr ESolve ->
      timer_on (fst (get_ecoul w s a)) = true /\ st_k (fst (get_ecoul w s a)) <> None).
  { intros s' a. unfold get_ecoul.
    destruct (solve_ground_state w s' a) as [s1 [e|]] eqn:E; cbn [fst snd].
    - intros F. injection F as ->. eapply sgs_fails; eauto.
    - destruct (st_sol s1); discriminate. }
  destruct o as [a|a|a|a|a|a|a|a|c| |h|]; cbn [step].
  - unfold get_potential_energy. destruct (required w s (s_energy s) a).
    2:{ destruct (v_epot s); discriminate. }
    destruct (solve_ground_state w s a) as [s1 [e|]] eqn:E; cbn [fst snd].
    + intros F. injection F as ->. eapply sgs_fails; eauto.
    + specialize (Hb s1 a). destruct (get_ebs w s1 a) as [s2 r2]. cbn [fst snd] in Hb.
      destruct r2; try exact Hb.
      specialize (Hc s2 a). destruct (get_ecoul w s2 a) as [s3 r3]. cbn [fst snd] in Hc.
      destruct r3; try exact Hc. destruct (el_geom s3); discriminate.
  - unfold get_forces. destruct (required w s (s_forces s) a).
    2:{ destruct (v_f s); discriminate. }
    destruct (solve_ground_state w s a) as [s1 [e|]] eqn:E; cbn [fst snd].
    + intros F. injection F as ->. eapply sgs_fails; eauto.
    + destruct (st_sol s1), (el_geom s1); discriminate.
  - apply Hb.
  - apply Hc.
  - destruct (solve_ground_state w s a) as [s1 [e|]] eqn:E; cbn [fst snd]; [|discriminate].
    intros F. injection F as ->. eapply sgs_fails; eauto.
  - destruct (solve_ground_state w s a) as [s1 [e|]] eqn:E; cbn [fst snd]; [|discriminate].
    intros F. injection F as ->. eapply sgs_fails; eauto.
  - unfold get_dq. destruct (solve_ground_state w s a) as [s1 [e|]] eqn:E; cbn [fst snd].
    + intros F. injection F as ->. eapply sgs_fails; eauto.
    + destruct (scc w); [destruct (st_sol s1)|]; discriminate.
  - unfold set_atoms. destruct (same_symbols w a (el_atoms s)); discriminate.
  - discriminate.
  - unfold get_mulliken. destruct (required w s (s_energy s) (el_atoms s)); [discriminate|].
    destruct (a_mull s); [discriminate|]. destruct (st_sol s); discriminate.
  - unfold set_grid. destruct (required w s (s_energy s) (el_atoms s)); [discriminate|].
    destruct (a_grid s); [discriminate|]. destruct (el_geom s); discriminate.
  - unfold get_grid. destruct (a_grid s) as [[hh gg]|]; [|discriminate].
    destruct (st_sol s); discriminate.
Qed.

Lemma run_dead g n s h : dead g n s -> exists s1, fst (run (inr s) h) = inr s1 /\ dead g n s1.
Proof.
  revert s. induction h as [|o h IH]; intros s D; [exists s; auto|].
  cbn [run cstep]. pose proof (step_dead g n s o D) as D1.
  destruct (step s o) as [s1 r]. cbn [fst] in D1. destruct (IH s1 D1) as (s2 & E & D2).
  destruct (run (inr s1) h) as [c2 rs]. exists s2. auto.
Qed.

(** Once a solve has raised, the calculator never solves again: there is at
    most one atoms object solve_ground_state still accepts. *)
Lemma failure_permanent s o : snd (step s o) = OErr ESolve ->
  exists g : option (atoms w), forall h2 b,
    let c2 := fst (run (inr (fst (step s o))) h2) in
    let r := snd (cstep c2 (Solve b)) in
    r = OErr ETimer \/ (r = OUnit /\ g = Some b).
Proof.
  intros Hf. destruct (step_fails s o Hf) as [Ht Hk].
  exists (s_gs (fst (step s o))). intros h2 b. cbv zeta.
  assert (D : dead (s_gs (fst (step s o))) (n_solves (fst (step s o))) (fst (step s o))).
  { repeat split; auto. }
  destruct (run_dead _ _ _ h2 D) as (s2 & E & D2). rewrite E. cbn [cstep step].
  pose proof (sgs_dead _ _ s2 b D2) as (_ & H1 & H2).
  destruct (solve_ground_state w s2 b) as [s3 r3]. cbn [fst snd] in *.
  destruct H2 as [->| ->]; cbn [snd]; auto.
Qed.

(** The charge used for solving is the one at initialisation, for ever. *)
Lemma sgs_charge s a : el_charge (fst (solve_ground_state w s a)) = el_charge s.
Proof.
  unfold solve_ground_state. destruct (required w s (s_gs s) a); [|reflexivity].
  unfold st_solve. cbn [update_geometry st_k el_atoms].
  destruct (st_k s) as [k|].
  - cbn [update_geometry timer_on el_geom el_charge c_charge]. destruct (timer_on s); [reflexivity|].
    destruct (solve w _ _ _ _) as [x|]; [|reflexivity]. destruct (mull_ok w _ x); reflexivity.
  - destruct (kpts_of w a) as [k|]; [|reflexivity].
    cbn [update_geometry timer_on el_geom el_charge c_charge set_k]. destruct (timer_on s); [reflexivity|].
    destruct (solve w _ _ _ _) as [x|]; [|reflexivity]. destruct (mull_ok w _ x); reflexivity.
Qed.

Lemma step_charge (s : state w) o : el_charge (fst (step s o)) = el_charge s.
Proof.
  assert (Hb : forall s a, el_charge (fst (get_ebs w s a)) = el_charge s).
  { intros s' a. unfold get_ebs. destruct (required w s' (s_ebs s') a).
    2:{ destruct (v_ebs s'); reflexivity. }
    pose proof (sgs_charge s' a) as H. destruct (solve_ground_state w s' a) as [s1 [e|]];
    cbn [fst snd] in *; [exact H|]. destruct (st_sol s1); exact H. }
  assert (Hc : forall s a, el_charge (fst (get_ecoul w s a)) = el_charge s).
  { intros s' a. unfold get_ecoul. pose proof (sgs_charge s' a) as H.
    destruct (solve_ground_state w s' a) as [s1 [e|]];
    cbn [fst snd] in *; [exact H|]. destruct (st_sol s1); exact H. }
  destruct o as [a|a|a|a|a|a|a|a|c| |h|]; cbn [step].
  - unfold get_potential_energy. destruct (required w s (s_energy s) a).
    2:{ destruct (v_epot s); reflexivity. }
    pose proof (sgs_charge s a) as H. destruct (solve_ground_state w s a) as [s1 [e|]];
    cbn [fst snd] in *; [exact H|].
    specialize (Hb s1 a). destruct (get_ebs w s1 a) as [s2 r2]. cbn [fst snd] in Hb.
    destruct r2; cbn [fst]; try congruence.
    specialize (Hc s2 a). destruct (get_ecoul w s2 a) as [s3 r3]. cbn [fst snd] in Hc.
    destruct r3; cbn [fst]; try congruence. destruct (el_geom s3); cbn [fst]; simpl; congruence.
  - unfold get_forces. destruct (required w s (s_forces s) a).
    2:{ destruct (v_f s); reflexivity. }
    pose proof (sgs_charge s a) as H. destruct (solve_ground_state w s a) as [s1 [e|]];
    cbn [fst snd] in *; [exact H|]. destruct (st_sol s1), (el_geom s1); exact H.
  - apply Hb.
  - apply Hc.
  - pose proof (sgs_charge s a) as H. destruct (solve_ground_state w s a) as [s1 [e|]]; exact H.
  - pose proof (sgs_charge s a) as H. destruct (solve_ground_state w s a) as [s1 [e|]]; exact H.
  - unfold get_dq. pose proof (sgs_charge s a) as H.
    destruct (solve_ground_state w s a) as [s1 [e|]]; [exact H|].
    destruct (scc w); [destruct (st_sol s1)|]; exact H.
  - unfold set_atoms. destruct (same_symbols w a (el_atoms s)); reflexivity.
  - reflexivity.
  - unfold get_mulliken. destruct (required w s (s_energy s) (el_atoms s)); [reflexivity|].
    destruct (a_mull s); [reflexivity|]. destruct (st_sol s); reflexivity.
  - unfold set_grid. destruct (required w s (s_energy s) (el_atoms s)); [reflexivity|].
    destruct (a_grid s); [reflexivity|]. destruct (el_geom s); reflexivity.
  - unfold get_grid. destruct (a_grid s) as [[hh gg]|]; [|reflexivity]. destruct (st_sol s); reflexivity.
Qed.

Lemma run_charge (s : state w) h : exists s1, fst (run (inr s) h) = inr s1 /\ el_charge s1 = el_charge s.
Proof.
  revert s. induction h as [|o h IH]; intros s; [exists s; auto|].
  cbn [run cstep]. pose proof (step_charge s o) as D1.
  destruct (step s o) as [s1 r]. cbn [fst] in D1. destruct (IH s1) as (s2 & E & D2).
  destruct (run (inr s1) h) as [c2 rs]. exists s2. split; [exact E|congruence].
Qed.

(** Setting the charge after initialisation and then asking again about
    solved atoms returns exactly the same answers as without setting it. *)
Lemma charge_ignored_energy (s : state w) a c : s_gs s = Some a -> s_energy s = Some a ->
  snd (step (fst (step s (SetCharge c))) (GetE a)) = snd (step s (GetE a)).
Proof.
  intros Hg He. cbn [step set_charge fst]. unfold get_potential_energy, required.
  cbn [s_gs s_energy v_epot]. rewrite Hg, He.
  assert (E : atoms_eqb w a a = true) by (apply Heq; reflexivity). rewrite E. cbn [negb].
  destruct (v_epot s); reflexivity.
Qed.

End More.

(** ** Refutations: a concrete world, atoms numbered by naturals.
    Ranges and k-points are those of the number divided by ten, so that
    atoms 1..9 share them. *)
Definition toy (scc_on : bool) (bad : nat) : world := {|
  atoms := nat; rng := nat; kset := nat; qvec := nat; sol := nat * nat; val := nat * nat;
  fvec := nat * nat; chg := nat; ana := nat * nat;
  atoms_eqb := Nat.eqb; same_symbols := fun _ _ => true;
  rng_of := fun a => a / 10; kpts_of := fun a => Some (a / 10);
  init_ok := fun _ _ => true; scc := scc_on; zeros := 0; guess0 := fun c => c;
  extrap := fun p _ => p;
  solve := fun c g k q => if fst g =? bad then None else Some (fst g, c);
  mull_ok := fun c x => snd x =? c;
  wreck := fun _ g => (fst g, 99);
  dq_of := fun x => fst x; ebs_of := fun x => x; ecoul_of := fun x => x;
  erep_of := fun g => g; epp_of := fun g => g;
  etot := fun e _ _ _ => e; ftot := fun x g => x;
  analyse := fun x => x; gridres := fun h g x => (h, fst g) |}.

Lemma toy_eq b n : eq_faithful (toy b n).
Proof. intros a c. apply Nat.eqb_eq. Qed.

Lemma toy_solution b n c a x : @solution (toy b n) c a x -> fst x = a /\ snd x = c.
Proof.
  intros (k & g & _ & _ & H). simpl in H. destruct (a =? n); [discriminate|].
  injection H as <-. auto.
Qed.

(** C02: forces of 1, set_atoms(2), energy of 1, energy of 2. *)
Example set_atoms_breaks :
  snd (run (inl 0 : calc (toy false 0))
           [@SetAtoms (toy false 0) 1; @GetF (toy false 0) 1; @SetAtoms (toy false 0) 2;
            @GetE (toy false 0) 1; @GetE (toy false 0) 2])
  = [OUnit; @OFor (toy false 0) (1, 0); OUnit; @OVal (toy false 0) (1, 0);
     @OVal (toy false 0) (1, 0)].
Proof. vm_compute. reflexivity. Qed.

Lemma set_atoms_refuted : exists (w : world) (c0 : chg w) (a b : atoms w),
  eq_faithful w /\ scc w = false /\ same_setting a b /\
  let h := [SetAtoms a; GetF a; SetAtoms b; GetE a] in
  Forall (fun r => ~ solve_failed r) (snd (run (inl c0) h)) /\
  exists v, snd (cstep (fst (run (inl c0) h)) (GetE b)) = OVal v /\
            fresh_energy w c0 b <> Some v /\ fresh_energy w c0 a = Some v.
Proof.
  exists (toy false 0), 0, 1, 2. split; [apply toy_eq|]. split; [reflexivity|].
  split; [split; reflexivity|]. cbv zeta. split.
  - vm_compute. repeat constructor; intros [H|[H|H]]; discriminate.
  - exists (1, 0). split; [reflexivity|]. split; [discriminate|reflexivity].
Qed.

(** C03: the solve of 2 raises; the energy asked afterwards for 1 is computed
    from the half-finished solution of 2. *)
Lemma failed_solve_refuted : exists (w : world) (c0 : chg w) (a b : atoms w),
  eq_faithful w /\ scc w = false /\ same_setting a b /\
  let h := [SetAtoms a; GetF a; GetE b] in
  snd (run (inl c0) h) = [OUnit; snd (cstep (fst (run (inl c0) [SetAtoms a])) (GetF a)); OErr ESolve] /\
  exists v, snd (cstep (fst (run (inl c0) h)) (GetE a)) = OVal v /\
            fresh_energy w c0 a <> Some v.
Proof.
  exists (toy false 2), 0, 1, 2. split; [apply toy_eq|]. split; [reflexivity|].
  split; [split; reflexivity|]. cbv zeta. split; [reflexivity|].
  exists (2, 99). split; [reflexivity|discriminate].
Qed.

(** A failed solve makes every later solve of new atoms raise. *)
Example dead_calculator :
  snd (run (inl 0 : calc (toy true 2))
      [@SetAtoms (toy true 2) 1; @GetE (toy true 2) 1; @GetE (toy true 2) 2; @GetE (toy true 2) 3;
       @GetE (toy true 2) 3])
  = [OUnit; @OVal (toy true 2) (1,0); OErr ESolve; OErr ETimer; OErr ETimer].
Proof. vm_compute. reflexivity. Qed.

(** C04: set('charge',1) after an energy: the old energy is returned again,
    and any new geometry raises. *)
Lemma charge_refuted : exists (w : world) (c0 c1 : chg w) (a b : atoms w),
  eq_faithful w /\ scc w = false /\ same_setting a b /\
  let h := [SetAtoms a; GetE a; SetCharge c1] in
  (exists v v1, snd (cstep (fst (run (inl c0) h)) (GetE a)) = OVal v /\
                fresh_energy w c0 a = Some v /\
                fresh_energy w c1 a = Some v1 /\ v <> v1) /\
  snd (cstep (fst (run (inl c0) h)) (GetE b)) = OErr ESolve /\
  fresh_energy w c1 b <> None.
Proof.
  exists (toy false 0), 0, 1, 1, 2. split; [apply toy_eq|]. split; [reflexivity|].
  split; [split; reflexivity|]. cbv zeta. split.
  - exists (1,0), (1,1). repeat split; discriminate.
  - split; [reflexivity|discriminate].
Qed.

(** C05: the grid of the first geometry, and of the first spacing, is kept. *)
Lemma grid_refuted : exists (w : world) (c0 : chg w) (a b : atoms w),
  eq_faithful w /\ same_setting a b /\
  let h := [SetAtoms a; GetE a; SetGrid 2; GetE b; SetGrid 1] in
  Forall (fun r => forall e, r <> OErr e) (snd (run (inl c0) h)) /\
  exists x, solution c0 b x /\
    snd (cstep (fst (run (inl c0) h)) GetGrid) <> OAna (gridres w 1 (b, rng_of w b) x) /\
    snd (cstep (fst (run (inl c0) h)) GetGrid) = OAna (gridres w 2 (a, rng_of w a) x).
Proof.
  exists (toy false 0), 0, 1, 2. split; [apply toy_eq|]. split; [split; reflexivity|].
  cbv zeta. split.
  - vm_compute. repeat constructor; intros; discriminate.
  - exists (2, 0). split; [exists 0, 0; repeat split|]. split; [discriminate|reflexivity].
Qed.

(** C51: atoms with another symmetry range are solved with the old one. *)
Definition toy_rng : world := {|
  atoms := nat; rng := nat; kset := nat; qvec := nat; sol := nat * nat; val := nat * nat;
  fvec := nat * nat; chg := nat; ana := nat * nat;
  atoms_eqb := Nat.eqb; same_symbols := fun _ _ => true;
  rng_of := fun a => a / 10; kpts_of := fun a => Some (a / 10);
  init_ok := fun _ _ => true; scc := false; zeros := 0; guess0 := fun c => c;
  extrap := fun p _ => p;
  solve := fun c g k q => Some g;
  mull_ok := fun c x => true;
  wreck := fun _ g => g;
  dq_of := fun x => fst x; ebs_of := fun x => x; ecoul_of := fun x => x;
  erep_of := fun g => g; epp_of := fun g => g;
  etot := fun e _ _ _ => e; ftot := fun x g => x;
  analyse := fun x => x; gridres := fun h g x => (h, fst g) |}.

Lemma ranges_refuted : exists (w : world) (c0 : chg w) (a b : atoms w),
  eq_faithful w /\ scc w = false /\ kpts_of w a <> None /\ kpts_of w b <> None /\
  let h := [SetAtoms a; GetE a] in
  Forall (fun r => forall e, r <> OErr e) (snd (run (inl c0) h)) /\
  exists v, snd (cstep (fst (run (inl c0) h)) (GetE b)) = OVal v /\
            fresh_energy w c0 b <> Some v.
Proof.
  exists toy_rng, 0, 1, 12. split; [intros a c; apply Nat.eqb_eq|].
  split; [reflexivity|]. split; [discriminate|]. split; [discriminate|].
  cbv zeta. split.
  - vm_compute. repeat constructor; intros; discriminate.
  - exists (12, 0). split; [reflexivity|discriminate].
Qed.

(** Non-vacuity of the positive theorems: a history mixing calls and atoms. *)
Definition toy_hist : list (op (toy true 7)) :=
  [@GetF (toy true 7) 1; @GetE (toy true 7) 2; @GetEbs (toy true 7) 1; Mull; @GetE (toy true 7) 1;
   Mull; SetGrid 3; GetGrid; @GetDq (toy true 7) 3; @GetStress (toy true 7) 3].

Example toy_hist_ok : hist_ok (toy true 7) 1 toy_hist /\
  Forall (fun r => ~ solve_failed r) (snd (run (inr (fresh_state (toy true 7) 0 1)) toy_hist)).
Proof.
  split.
  - split.
    + unfold toy_hist. repeat (apply Forall_cons; [exact Logic.I|]). apply Forall_nil.
    + unfold toy_hist. repeat (apply Forall_cons; [cbn; intros a E; try discriminate;
        injection E as <-; split; reflexivity|]). apply Forall_nil.
  - vm_compute. repeat constructor; intros [H|[H|H]]; discriminate.
Qed.

Example toy_disciplined : disciplined (toy true 7)
  [@GetE (toy true 7) 1; @SetAtoms (toy true 7) 2; @Solve (toy true 7) 2; @GetF (toy true 7) 1].
Proof.
  apply d_query; [exact Logic.I|]. apply d_set. apply d_query; [exact Logic.I|]. apply d_nil.
Qed.

Lemma set_frozen key : key <> "txt"%string -> key <> "charge"%string ->
  set_param true key = SetRaises.
Proof.
  intros H1 H2. unfold set_param. apply String.eqb_neq in H1, H2. rewrite H1, H2. reflexivity.
Qed.
