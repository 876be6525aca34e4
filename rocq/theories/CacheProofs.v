From Coq Require Import List Bool Arith Lia.
Import ListNotations.
From Verif Require Import CacheModel CacheSpec.

Section Proofs.
Variable w : world.
Hypothesis Heq : eq_faithful w.
Variable c0 : chg w.
Variable a0 : atoms w.

Definition cached_e (s : state w) :=
  forall a, s_energy s = Some a -> exists v, v_epot s = Some v /\ answers c0 (GetE a) (OVal v).
Definition cached_f (s : state w) :=
  forall a, s_forces s = Some a -> exists v, v_f s = Some v /\ answers c0 (GetF a) (OFor v).
Definition cached_b (s : state w) :=
  forall a, s_ebs s = Some a -> exists v, v_ebs s = Some v /\ answers c0 (GetEbs a) (OVal v).

(** States a calculator initialised with [a0] and charge [c0] goes through. *)
Record Inv (s : state w) : Prop := {
  i_rng : el_ranges s = rng_of w a0;
  i_chg : el_charge s = c0;
  i_cc  : c_charge s = c0;
  i_tm  : timer_on s = false;
  i_k   : st_k s = None \/ st_k s = kpts_of w a0;
  i_gs  : forall a, s_gs s = Some a ->
            el_atoms s = a /\ same_setting a a0 /\ el_geom s = Some (a, rng_of w a) /\
            exists x, st_sol s = Some x /\ solution c0 a x;
  i_e   : cached_e s;
  i_f   : cached_f s;
  i_b   : cached_b s;
  i_m   : forall x, a_mull s = Some x -> st_sol s = Some x
}.

Lemma eqb_refl a : atoms_eqb w a a = true.
Proof. apply Heq; reflexivity. Qed.

Lemma required_false s q a :
  required w s q a = false -> q = Some a /\ s_gs s <> None.
Proof.
  unfold required. destruct (s_gs s); [|discriminate].
  destruct q as [b|]; [|discriminate]. intros H.
  apply negb_false_iff in H. apply Heq in H. subst. split; congruence.
Qed.

Lemma required_solved s a : s_gs s <> None -> required w s (Some a) a = false.
Proof.
  unfold required. destruct (s_gs s); [|congruence]. intros _. rewrite eqb_refl. reflexivity.
Qed.

Lemma fresh_inv : Inv (fresh_state w c0 a0).
Proof.
  constructor; simpl; auto; try (intros; discriminate);
  unfold cached_e, cached_f, cached_b; simpl; intros; discriminate.
Qed.

Lemma guess_admissible s : scc w = false -> guess w s = zeros w.
Proof. unfold guess. intros ->. reflexivity. Qed.

(** What one successful or failed solve_ground_state does. *)
Lemma sgs_spec s a :
  Inv s -> same_setting a a0 ->
  let r := solve_ground_state w s a in
  match snd r with
  | None => Inv (fst r) /\ s_gs (fst r) = Some a /\ s_energy (fst r) = s_energy s
            /\ s_forces (fst r) = s_forces s /\ s_ebs (fst r) = s_ebs s
            /\ (s_gs s = Some a -> fst r = s)
  | Some e => (e = EKpoints /\ kpts_of w a = None) \/
      (e = ESolve /\ exists k g, kpts_of w a = Some k /\ (scc w = false -> g = zeros w) /\
         match solve w c0 (a, rng_of w a) k g with
         | None => True | Some x => mull_ok w c0 x = false end)
  end.
Proof.
  intros I Hset. unfold solve_ground_state.
  destruct (required w s (s_gs s) a) eqn:Hreq.
  2:{ apply required_false in Hreq. destruct Hreq as [Hg _]. simpl. auto 10. }
  assert (Hng : s_gs s <> Some a).
  { intros E. rewrite E in Hreq. rewrite required_solved in Hreq; congruence. }
  destruct I as [Hr Hc Hcc Ht Hk Hgs He Hf Hb Hm].
  destruct Hset as [Hs1 Hs2].
  assert (Hcore : forall s1 k, el_atoms s1 = a -> el_geom s1 = Some (a, rng_of w a) ->
     el_charge s1 = c0 -> c_charge s1 = c0 -> kpts_of w a = Some k ->
     match solve w (el_charge s1) (a, rng_of w a) k (guess w s1) with
     | None => True | Some x => mull_ok w (c_charge s1) x = false end ->
     exists k g, kpts_of w a = Some k /\ (scc w = false -> g = zeros w) /\
         match solve w c0 (a, rng_of w a) k g with
         | None => True | Some x => mull_ok w c0 x = false end).
  { intros s1 k _ _ H1 H2 H3 H4. exists k, (guess w s1). rewrite H1, H2 in H4.
    split; [exact H3|]. split; [apply guess_admissible | exact H4]. }
  assert (Hmain : forall s1 k, st_k s1 = Some k -> kpts_of w a = Some k ->
     el_atoms s1 = a -> el_geom s1 = Some (a, rng_of w a) -> el_ranges s1 = rng_of w a0 ->
     el_charge s1 = c0 -> c_charge s1 = c0 -> timer_on s1 = false ->
     s_energy s1 = s_energy s -> s_forces s1 = s_forces s -> s_ebs s1 = s_ebs s ->
     v_epot s1 = v_epot s -> v_f s1 = v_f s -> v_ebs s1 = v_ebs s ->
     forall x p, solve w c0 (a, rng_of w a) k (guess w s1) = Some x ->
     let s2 := mark_gs w (put_sol w s1 x p false) in
     Inv s2 /\ s_gs s2 = Some a /\ s_energy s2 = s_energy s
            /\ s_forces s2 = s_forces s /\ s_ebs s2 = s_ebs s
            /\ (s_gs s = Some a -> s2 = s)).
  { intros s1 k E1 E2 E3 E4 E5 E6 E7 E8 E9 E10 E11 E12 E13 E14 x p Hx. simpl.
    split; [|rewrite E3; repeat split; auto; intros E; congruence].
    constructor; simpl; auto; try (unfold cached_e, cached_f, cached_b; simpl;
      rewrite ?E9, ?E10, ?E11, ?E12, ?E13, ?E14; assumption).
    - right. congruence.
    - intros b Eb. injection Eb as <-. rewrite E3. split; [auto|]. split; [split; auto|].
      split; [exact E4|]. exists x. split; [reflexivity|]. exists k, (guess w s1).
      split; [exact E2|]. split; [apply guess_admissible | exact Hx].
    - intros x' Ex. discriminate. }
  unfold st_solve. simpl st_k. cbv beta zeta.
  destruct (st_k s) as [k|] eqn:Ek.
  - assert (Hka : kpts_of w a = Some k) by (destruct Hk as [Hk|Hk]; congruence).
    simpl timer_on. rewrite Ht. simpl el_geom. simpl el_charge. cbv iota.
    rewrite Hr, <- Hs1.
    destruct (solve w (el_charge s) (a, rng_of w a) k (guess w (update_geometry w s a)))
      as [x|] eqn:Ex.
    + simpl c_charge. destruct (mull_ok w (c_charge s) x) eqn:Em.
      * cbn [fst snd]. apply (Hmain (update_geometry w s a) k); simpl; auto; try congruence.
      * cbn [fst snd]. right. split; [reflexivity|]. apply (Hcore (update_geometry w s a) k);
        simpl; auto; try congruence. rewrite Ex. exact Em.
    + cbn [fst snd]. right. split; [reflexivity|]. apply (Hcore (update_geometry w s a) k);
      simpl; auto; try congruence. rewrite Ex. exact Logic.I.
  - simpl el_atoms. destruct (kpts_of w a) as [k|] eqn:Hka.
    2:{ cbn [fst snd]. left. auto. }
    simpl timer_on. rewrite Ht. simpl el_geom. simpl el_charge. cbv iota.
    rewrite Hr, <- Hs1.
    destruct (solve w (el_charge s) (a, rng_of w a) k (guess w (set_k w (update_geometry w s a) k)))
      as [x|] eqn:Ex.
    + simpl c_charge. destruct (mull_ok w (c_charge s) x) eqn:Em.
      * cbn [fst snd]. apply (Hmain (set_k w (update_geometry w s a) k) k); simpl; auto; try congruence.
      * cbn [fst snd]. right. split; [reflexivity|].
        apply (Hcore (set_k w (update_geometry w s a) k) k);
        simpl; auto; try congruence. rewrite Ex. exact Em.
    + cbn [fst snd]. right. split; [reflexivity|].
      apply (Hcore (set_k w (update_geometry w s a) k) k);
      simpl; auto; try congruence. rewrite Ex. exact Logic.I.
Qed.

Lemma excused_of (o : op w) a e : about o = Some a ->
  (e = EKpoints /\ kpts_of w a = None) \/
  (e = ESolve /\ exists k g, kpts_of w a = Some k /\ (scc w = false -> g = zeros w) /\
         match solve w c0 (a, rng_of w a) k g with
         | None => True | Some x => mull_ok w c0 x = false end) ->
  excused c0 o e.
Proof. intros Ho H. unfold excused. rewrite Ho. tauto. Qed.

Definition good (s : state w) (o : op w) (s1 : state w) (r : out w) : Prop :=
  (Inv s1 /\ (answers c0 o r \/ exists e, r = OErr e /\ excused c0 o e /\ ~ solve_failed r)) \/
  (exists e, r = OErr e /\ excused c0 o e /\ solve_failed r).

Lemma sf_of e a : (e = EKpoints /\ kpts_of w a = None) \/
  (e = ESolve /\ exists k g, kpts_of w a = Some k /\ (scc w = false -> g = zeros w) /\
         match solve w c0 (a, rng_of w a) k g with
         | None => True | Some x => mull_ok w c0 x = false end) ->
  @solve_failed w (OErr e).
Proof. unfold solve_failed. intros [[-> _]|[-> _]]; auto. Qed.

Ltac sgs s a Hs Hset s1 e H :=
  pose proof (sgs_spec s a Hs Hset) as H; cbv zeta in H;
  destruct (solve_ground_state w s a) as [s1 [e|]]; cbn [fst snd] in H.

Lemma ebs_spec s a : Inv s -> same_setting a a0 ->
  let r := get_ebs w s a in
  match snd r with
  | OVal v => Inv (fst r) /\ answers c0 (GetEbs a) (OVal v)
              /\ (s_gs s = Some a -> s_gs (fst r) = Some a /\ n_solves (fst r) = n_solves s)
              /\ s_energy (fst r) = s_energy s
  | OErr e => (e = EKpoints /\ kpts_of w a = None) \/
      (e = ESolve /\ exists k g, kpts_of w a = Some k /\ (scc w = false -> g = zeros w) /\
         match solve w c0 (a, rng_of w a) k g with
         | None => True | Some x => mull_ok w c0 x = false end)
  | _ => False
  end.
Proof.
  intros I Hset. unfold get_ebs. destruct (required w s (s_ebs s) a) eqn:Hreq.
  - sgs s a I Hset s1 e H; [exact H|].
    destruct H as (I1 & Hg1 & He1 & Hf1 & Hb1 & Hsame).
    destruct (i_gs _ I1 a Hg1) as (Ha1 & Hs1 & Hgeo & x & Hx & Hsol).
    rewrite Hx. cbn [fst snd]. split; [|split; [|split]].
    + destruct I1; constructor; simpl; auto; try assumption.
      * intros b Eb. specialize (i_gs0 b Eb). rewrite Hx in i_gs0. exact i_gs0.
      * intros b Eb. simpl in Eb. injection Eb as <-. exists (ebs_of w x).
        split; [reflexivity|]. exists x. rewrite Ha1. auto.
      * rewrite <- Hx. auto.
    + exists x. auto.
    + intros E. simpl. rewrite (Hsame E). auto.
    + simpl. congruence.
  - apply required_false in Hreq. destruct Hreq as [Hq Hg].
    destruct (i_b _ I a Hq) as (v & Hv & Hans). rewrite Hv. cbn [fst snd]. auto.
Qed.

Lemma ecoul_spec s a : Inv s -> same_setting a a0 ->
  let r := get_ecoul w s a in
  match snd r with
  | OVal v => Inv (fst r) /\ answers c0 (GetEcoul a) (OVal v) /\ s_gs (fst r) = Some a
              /\ (s_gs s = Some a -> fst r = s)
  | OErr e => (e = EKpoints /\ kpts_of w a = None) \/
      (e = ESolve /\ exists k g, kpts_of w a = Some k /\ (scc w = false -> g = zeros w) /\
         match solve w c0 (a, rng_of w a) k g with
         | None => True | Some x => mull_ok w c0 x = false end)
  | _ => False
  end.
Proof.
  intros I Hset. unfold get_ecoul. sgs s a I Hset s1 e H; [exact H|].
  destruct H as (I1 & Hg1 & He1 & Hf1 & Hb1 & Hsame).
  destruct (i_gs _ I1 a Hg1) as (Ha1 & Hs1 & Hgeo & x & Hx & Hsol).
  rewrite Hx. cbn [fst snd]. split; [exact I1|]. split; [exists x; auto|]. auto.
Qed.

Lemma energy_spec s a : Inv s -> same_setting a a0 ->
  let r := get_potential_energy w s a in
  match snd r with
  | OVal v => Inv (fst r) /\ answers c0 (GetE a) (OVal v) /\ s_energy (fst r) = Some a
  | OErr e => (e = EKpoints /\ kpts_of w a = None) \/
      (e = ESolve /\ exists k g, kpts_of w a = Some k /\ (scc w = false -> g = zeros w) /\
         match solve w c0 (a, rng_of w a) k g with
         | None => True | Some x => mull_ok w c0 x = false end)
  | _ => False
  end.
Proof.
  intros I Hset. unfold get_potential_energy. destruct (required w s (s_energy s) a) eqn:Hreq.
  - sgs s a I Hset s1 e H; [exact H|].
    destruct H as (I1 & Hg1 & _ & _ & _ & _).
    pose proof (ebs_spec s1 a I1 Hset) as HB. cbv zeta in HB.
    destruct (get_ebs w s1 a) as [s2 r2]. cbn [fst snd] in HB.
    destruct r2 as [v| | | | |e]; try contradiction; [|exact HB].
    destruct HB as (I2 & (x & Hx & Ev) & Hg2 & _). specialize (Hg2 Hg1). destruct Hg2 as [Hg2 _].
    pose proof (ecoul_spec s2 a I2 Hset) as HC. cbv zeta in HC.
    destruct (get_ecoul w s2 a) as [s3 r3]. cbn [fst snd] in HC.
    destruct r3 as [u| | | | |e]; try contradiction; [|exact HC].
    destruct HC as (I3 & (y & Hy & Eu) & Hg3 & _).
    destruct (i_gs _ I3 a Hg3) as (Ha3 & _ & Hgeo & _).
    rewrite Hgeo. cbn [fst snd]. injection Ev as ->. injection Eu as ->.
    split; [|split].
    + destruct I3; constructor; simpl; auto; try assumption.
      intros b Eb. simpl in Eb. injection Eb as <-. eexists. split; [reflexivity|].
      rewrite Ha3. exists x, y. auto.
    + exists x, y. auto.
    + simpl. congruence.
  - apply required_false in Hreq. destruct Hreq as [Hq Hg].
    destruct (i_e _ I a Hq) as (v & Hv & Hans). rewrite Hv. cbn [fst snd]. auto.
Qed.

Lemma step_good s o : Inv s -> query o -> (forall a, about o = Some a -> same_setting a a0) ->
  good s o (fst (step s o)) (snd (step s o)).
Proof.
  intros I Hq Hset. destruct o as [a|a|a|a|a|a|a|a|c| |h|]; try contradiction; cbn [step];
    try specialize (Hset a eq_refl).
  - pose proof (energy_spec s a I Hset) as H. cbv zeta in H.
    destruct (get_potential_energy w s a) as [s1 r]; cbn [fst snd] in *.
    destruct r; try contradiction.
    + left. tauto.
    + right. eexists. split; [reflexivity|]. split; [eapply excused_of; eauto; reflexivity|].
      eapply sf_of; eauto.
  - unfold get_forces. destruct (required w s (s_forces s) a) eqn:Hreq.
    + sgs s a I Hset s1 e H.
      * right. eexists. split; [reflexivity|]. split; [eapply excused_of; eauto; reflexivity|].
        eapply sf_of; eauto.
      * destruct H as (I1 & Hg1 & He1 & Hf1 & Hb1 & Hsame).
        destruct (i_gs _ I1 a Hg1) as (Ha1 & Hs1 & Hgeo & x & Hx & Hsol).
        rewrite Hx, Hgeo. cbn [fst snd]. left. split.
        -- destruct I1; constructor; simpl; auto; try assumption.
           intros b Eb. simpl in Eb. injection Eb as <-. eexists. split; [reflexivity|].
           exists x. rewrite Ha1. auto.
        -- left. exists x. auto.
    + apply required_false in Hreq. destruct Hreq as [Hq' Hg].
      destruct (i_f _ I a Hq') as (v & Hv & Hans). rewrite Hv. cbn [fst snd]. left. auto.
  - pose proof (ebs_spec s a I Hset) as H. cbv zeta in H.
    destruct (get_ebs w s a) as [s1 r]; cbn [fst snd] in *. destruct r; try contradiction.
    + left. tauto.
    + right. eexists. split; [reflexivity|]. split; [eapply excused_of; eauto; reflexivity|].
      eapply sf_of; eauto.
  - pose proof (ecoul_spec s a I Hset) as H. cbv zeta in H.
    destruct (get_ecoul w s a) as [s1 r]; cbn [fst snd] in *. destruct r; try contradiction.
    + left. tauto.
    + right. eexists. split; [reflexivity|]. split; [eapply excused_of; eauto; reflexivity|].
      eapply sf_of; eauto.
  - sgs s a I Hset s1 e H; cbn [fst snd].
    + right. eexists. split; [reflexivity|]. split; [eapply excused_of; eauto; reflexivity|].
      eapply sf_of; eauto.
    + destruct H as (I1 & Hg1 & _). destruct (i_gs _ I1 a Hg1) as (_ & _ & _ & x & _ & Hsol).
      left. split; [exact I1|]. left. split; [exists x; exact Hsol|reflexivity].
  - sgs s a I Hset s1 e H; cbn [fst snd].
    + right. eexists. split; [reflexivity|]. split; [eapply excused_of; eauto; reflexivity|].
      eapply sf_of; eauto.
    + destruct H as (I1 & Hg1 & _). destruct (i_gs _ I1 a Hg1) as (_ & _ & _ & x & _ & Hsol).
      left. split; [exact I1|]. left. split; [exists x; exact Hsol|reflexivity].
  - unfold get_dq. sgs s a I Hset s1 e H.
    + right. eexists. split; [reflexivity|]. split; [eapply excused_of; eauto; reflexivity|].
      eapply sf_of; eauto.
    + destruct H as (I1 & Hg1 & _). destruct (i_gs _ I1 a Hg1) as (_ & _ & _ & x & Hx & Hsol).
      destruct (scc w) eqn:Hscc.
      * rewrite Hx. cbn [fst snd]. left. split; [exact I1|]. left. exists x. auto.
      * cbn [fst snd]. left. split; [exact I1|]. right. exists ENoDq.
        split; [reflexivity|]. split; [|unfold solve_failed; intros [E|[E|E]]; discriminate].
        unfold excused. cbn [about]. right. right. auto.
  - left. split; [|left; exact Logic.I].
    unfold get_mulliken. destruct (required w s (s_energy s) (el_atoms s)); [exact I|].
    destruct (a_mull s) eqn:Em; [exact I|]. destruct (st_sol s) as [x|] eqn:Ex; [|exact I].
    cbn [fst]. destruct I; constructor; simpl; auto; try assumption.
    + intros b Eb. specialize (i_gs0 b Eb). rewrite Ex in i_gs0. exact i_gs0.
    
  - left. split; [|left; exact Logic.I].
    unfold set_grid. destruct (required w s (s_energy s) (el_atoms s)); [exact I|].
    destruct (a_grid s); [exact I|]. destruct (el_geom s) eqn:Eg; [|exact I].
    cbn [fst]. destruct I; constructor; simpl; auto; try assumption.
    intros b Eb. specialize (i_gs0 b Eb). rewrite Eg in i_gs0. exact i_gs0.
  - left. split; [|left; exact Logic.I].
    unfold get_grid. destruct (a_grid s) as [[h g]|]; [|exact I].
    destruct (st_sol s); exact I.
Qed.

(** Running a history of queries, nothing failing. *)
Definition hist_ok (h : list (op w)) : Prop :=
  Forall query h /\ Forall (fun o => forall a, about o = Some a -> same_setting a a0) h.

Lemma run_inv s h : Inv s -> hist_ok h -> Forall (fun r => ~ solve_failed r) (snd (run (inr s) h)) ->
  exists s1, fst (run (inr s) h) = inr s1 /\ Inv s1.
Proof.
  revert s. induction h as [|o h IH]; intros s I [Hq Hs] Hf.
  - exists s. auto.
  - inversion Hq as [|? ? Hq1 Hq2]; subst. inversion Hs as [|? ? Hs1 Hs2]; subst.
    cbn [run cstep] in *. pose proof (step_good s o I Hq1 Hs1) as G.
    destruct (step s o) as [s1 r]. cbn [fst snd] in G.
    specialize (IH s1). destruct (run (inr s1) h) as [c2 rs] eqn:Er. cbn [fst snd] in *.
    inversion Hf as [|? ? Hf1 Hf2]; subst.
    destruct G as [[I1 _]|(e & _ & _ & Hsf)]; [|contradiction].
    apply IH; auto. split; assumption.
Qed.

Theorem history_answers h o :
  hist_ok (h ++ [o]) ->
  Forall (fun r => ~ solve_failed r) (snd (run (inr (fresh_state w c0 a0)) h)) ->
  let r := snd (cstep (fst (run (inr (fresh_state w c0 a0)) h)) o) in
  answers c0 o r \/ exists e, r = OErr e /\ excused c0 o e.
Proof.
  intros [Hq Hs] Hf. apply Forall_app in Hq. apply Forall_app in Hs.
  destruct Hq as [Hq1 Hq2], Hs as [Hs1 Hs2].
  destruct (run_inv _ h fresh_inv (conj Hq1 Hs1) Hf) as (s1 & E & I1).
  rewrite E. cbn [cstep].
  pose proof (step_good s1 o I1 (Forall_inv Hq2) (Forall_inv Hs2)) as G. destruct (step s1 o) as [s2 r]. cbn [fst snd] in *.
  destruct G as [[_ [G|(e & G1 & G2 & _)]]|(e & G1 & G2 & _)]; eauto.
Qed.

(** Repeating a question about the same atoms does not solve again. *)
Lemma sgs_again s a : Inv s -> s_gs s = Some a -> solve_ground_state w s a = (s, None).
Proof.
  intros I E. unfold solve_ground_state. rewrite E, required_solved; congruence.
Qed.

Lemma step_again s a o : Inv s -> s_gs s = Some a -> about o = Some a ->
  n_solves (fst (step s o)) = n_solves s.
Proof.
  intros I Hg Ho.
  assert (E := sgs_again s a I Hg).
  destruct o as [b|b|b|b|b|b|b|b|c| |h|]; cbn [about] in Ho; try discriminate;
    injection Ho as ->; cbn [step].
  - unfold get_potential_energy. destruct (required w s (s_energy s) a).
    2:{ destruct (v_epot s); reflexivity. }
    rewrite E.
    unfold get_ebs. destruct (required w s (s_ebs s) a).
    + rewrite E. destruct (st_sol s) eqn:Ex; [|reflexivity].
      unfold get_ecoul, solve_ground_state, required. cbn [s_gs].
      rewrite Hg, eqb_refl. cbn [negb]. cbv iota. cbn [st_sol]. try rewrite Ex.
      cbn [el_geom]. destruct (el_geom s); reflexivity.
    + destruct (v_ebs s); [|reflexivity]. unfold get_ecoul. rewrite E.
      destruct (st_sol s); [|reflexivity]. destruct (el_geom s); reflexivity.
  - unfold get_forces. destruct (required w s (s_forces s) a).
    + rewrite E. destruct (st_sol s), (el_geom s); reflexivity.
    + destruct (v_f s); reflexivity.
  - unfold get_ebs. destruct (required w s (s_ebs s) a).
    + rewrite E. destruct (st_sol s); reflexivity.
    + destruct (v_ebs s); reflexivity.
  - unfold get_ecoul. rewrite E. destruct (st_sol s); reflexivity.
  - rewrite E. reflexivity.
  - rewrite E. reflexivity.
  - unfold get_dq. rewrite E. destruct (scc w); [destruct (st_sol s)|]; reflexivity.
  - unfold set_atoms. destruct (same_symbols w a (el_atoms s)); reflexivity.
Qed.

(** solve_ground_state, get_dq and get_stress leave the atoms solved. *)
Lemma solve_sets_gs s a s1 r : Inv s -> same_setting a a0 ->
  step s (Solve a) = (s1, r) -> ~ solve_failed r -> Inv s1 /\ s_gs s1 = Some a.
Proof.
  intros I Hset E Hf. cbn [step] in E. sgs s a I Hset s2 e H.
  - injection E as <- <-. exfalso. apply Hf. eapply sf_of; eauto.
  - injection E as <- <-. tauto.
Qed.

Theorem repeat_no_solve h a o :
  hist_ok (h ++ [Solve a]) -> about o = Some a ->
  Forall (fun r => ~ solve_failed r) (snd (run (inr (fresh_state w c0 a0)) (h ++ [Solve a]))) ->
  exists s s1, fst (run (inr (fresh_state w c0 a0)) (h ++ [Solve a])) = inr s /\
    fst (cstep (inr s) o) = inr s1 /\ n_solves s1 = n_solves s.
Proof.
  intros Hok Ho Hf.
  assert (Happ : forall c l1 l2, fst (@run w c (l1 ++ l2)) = fst (run (fst (run c l1)) l2) /\
                 snd (run c (l1 ++ l2)) = snd (run c l1) ++ snd (run (fst (run c l1)) l2)).
  { intros c l1. revert c. induction l1 as [|x l1 IH]; intros c l2; [auto|].
    cbn [app run]. destruct (cstep c x) as [c1 r]. specialize (IH c1 l2).
    destruct (run c1 l1) as [c2 rs]. destruct (run c1 (l1 ++ l2)) as [c3 rs'].
    cbn [fst snd] in *. destruct IH as [-> ->]. auto. }
  destruct Hok as [Hq Hs]. apply Forall_app in Hq. apply Forall_app in Hs.
  destruct Hq as [Hq1 Hq2], Hs as [Hs1 Hs2].
  destruct (Happ (inr (fresh_state w c0 a0)) h [Solve a]) as [E1 E2].
  rewrite E2 in Hf. apply Forall_app in Hf. destruct Hf as [Hf1 Hf2].
  destruct (run_inv _ h fresh_inv (conj Hq1 Hs1) Hf1) as (s0 & E & I0).
  rewrite E in *. rewrite E1. cbn [run cstep] in *.
  assert (Hset : same_setting a a0).
  { apply (Forall_inv Hs2). reflexivity. }
  destruct (step s0 (Solve a)) as [s1 r] eqn:Es.
  cbn [fst snd] in *.
  destruct (solve_sets_gs s0 a s1 r I0 Hset Es (Forall_inv Hf2)) as [I1 Hg1].
  exists s1. pose proof (step_again s1 a o I1 Hg1 Ho) as Hn.
  destruct (step s1 o) as [s2 r2]. exists s2. auto.
Qed.

(** Mulliken (and DOS, bond) analysis. *)
Definition tracked (o : op w) (r : out w) (old : option (atoms w)) : option (atoms w) :=
  match o, r with GetE a, OVal _ => Some a | _, _ => old end.

Lemma energy_tracks s o : Inv s -> query o -> (forall a, about o = Some a -> same_setting a a0) ->
  ~ solve_failed (snd (step s o)) ->
  s_energy (fst (step s o)) = tracked o (snd (step s o)) (s_energy s).
Proof.
  intros I Hq Hset Hnf. unfold tracked.
  destruct o as [a|a|a|a|a|a|a|a|c| |h|]; try contradiction; cbn [step] in *;
    try specialize (Hset a eq_refl).
  - pose proof (energy_spec s a I Hset) as H. cbv zeta in H.
    destruct (get_potential_energy w s a) as [s1 r]; cbn [fst snd] in *.
    destruct r; try contradiction.
    + tauto.
    + exfalso. apply Hnf. eapply sf_of; eauto.
  - unfold get_forces in *. destruct (required w s (s_forces s) a).
    + sgs s a I Hset s1 e H.
      * exfalso. apply Hnf. eapply sf_of; eauto.
      * destruct (st_sol s1), (el_geom s1); cbn [fst snd]; simpl; tauto.
    + destruct (v_f s); reflexivity.
  - pose proof (ebs_spec s a I Hset) as H. cbv zeta in H.
    destruct (get_ebs w s a) as [s1 r]; cbn [fst snd] in *. destruct r; try contradiction.
    + tauto.
    + exfalso. apply Hnf. eapply sf_of; eauto.
  - unfold get_ecoul in *. sgs s a I Hset s1 e H.
    + exfalso. apply Hnf. eapply sf_of; eauto.
    + destruct (st_sol s1); cbn [fst snd]; tauto.
  - sgs s a I Hset s1 e H; cbn [fst snd] in *; [|tauto].
    exfalso. apply Hnf. eapply sf_of; eauto.
  - sgs s a I Hset s1 e H; cbn [fst snd] in *; [|tauto].
    exfalso. apply Hnf. eapply sf_of; eauto.
  - unfold get_dq in *. sgs s a I Hset s1 e H.
    + exfalso. apply Hnf. eapply sf_of; eauto.
    + destruct (scc w); [destruct (st_sol s1)|]; cbn [fst snd]; tauto.
  - unfold get_mulliken. destruct (required w s (s_energy s) (el_atoms s)); [reflexivity|].
    destruct (a_mull s); [reflexivity|]. destruct (st_sol s); reflexivity.
  - unfold set_grid. destruct (required w s (s_energy s) (el_atoms s)); [reflexivity|].
    destruct (a_grid s); [reflexivity|]. destruct (el_geom s); reflexivity.
  - unfold get_grid. destruct (a_grid s) as [[h g]|]; [|reflexivity].
    destruct (st_sol s); reflexivity.
Qed.

Lemma run_energy s h : Inv s -> hist_ok h ->
  Forall (fun r => ~ solve_failed r) (snd (run (inr s) h)) ->
  exists s1, fst (run (inr s) h) = inr s1 /\ Inv s1 /\
     s_energy s1 = last_energy h (snd (run (inr s) h)) (s_energy s).
Proof.
  revert s. induction h as [|o h IH]; intros s I [Hq Hs] Hf.
  - exists s. auto.
  - inversion Hq as [|? ? Hq1 Hq2]; subst. inversion Hs as [|? ? Hs1 Hs2]; subst.
    cbn [run cstep] in *. pose proof (step_good s o I Hq1 Hs1) as G.
    pose proof (energy_tracks s o I Hq1 Hs1) as T.
    destruct (step s o) as [s1 r]. cbn [fst snd] in G, T.
    specialize (IH s1). destruct (run (inr s1) h) as [c2 rs] eqn:Er. cbn [fst snd] in *.
    inversion Hf as [|? ? Hf1 Hf2]; subst.
    destruct G as [[I1 _]|(e & _ & _ & Hsf)]; [|contradiction].
    destruct (IH I1 (conj Hq2 Hs2) Hf2) as (s2 & E & I2 & El).
    exists s2. split; [exact E|]. split; [exact I2|].
    rewrite El, (T Hf1). destruct o; try reflexivity. destruct r; reflexivity.
Qed.

Theorem mulliken_current h :
  hist_ok h ->
  Forall (fun r => ~ solve_failed r) (snd (run (inr (fresh_state w c0 a0)) h)) ->
  let r := snd (cstep (fst (run (inr (fresh_state w c0 a0)) h)) Mull) in
  r = OErr ENotSolved \/
  exists a x, last_energy h (snd (run (inr (fresh_state w c0 a0)) h)) None = Some a /\
              solution c0 a x /\ r = OAna (analyse w x).
Proof.
  intros Hok Hf. destruct (run_energy _ h fresh_inv Hok Hf) as (s & E & I & El).
  rewrite E. cbn [cstep step]. unfold get_mulliken.
  destruct (required w s (s_energy s) (el_atoms s)) eqn:Hr; [left; reflexivity|].
  apply required_false in Hr. destruct Hr as [He Hg].
  destruct (s_gs s) as [a|] eqn:Eg; [|congruence].
  destruct (i_gs _ I a Eg) as (Ea & _ & _ & x & Hx & Hsol).
  right. exists a, x. simpl in El. rewrite <- El, He, Ea. split; [reflexivity|].
  split; [exact Hsol|].
  destruct (a_mull s) as [y|] eqn:Em.
  - pose proof (i_m _ I y Em) as Hy. rewrite Hx in Hy. injection Hy as <-. reflexivity.
  - rewrite Hx. reflexivity.
Qed.

End Proofs.
