(** Lemmas about the SCC loop, the statistics and BuildMixer; examples. *)
From Coq Require Import Reals Lra Lia List Arith Bool String Ascii.
From Verif Require Import Vec MixModel MixSpec MixProofs.
Import ListNotations.
Open Scope R_scope.

Section Loop.
  Context {states : Type}.
  Variable eigen : vec -> option states.
  Variable eigen0 : option states.
  Variable occupy : states -> option vec.
  Variable m : mixer.
  Variable s0 : mst m.
  Variable dq0 : vec.
  Notation at_pass := (at_pass eigen occupy m s0 dq0).
  Notation accepted_at := (accepted_at eigen occupy m s0 dq0).
  Notation breaks_at := (breaks_at eigen occupy m s0 dq0).

  Lemma loop_sound todo : forall i s dq, at_pass i s dq ->
    let '(r, k) := scc_loop eigen occupy m todo i s dq in
    match r with
    | Returned e rec => exists j, rec = Some j /\ (i <= j < i + todo)%nat /\ accepted_at j e /\ (k = S j - i)%nat
    | OutOfIterations => (1 <= todo)%nat /\ (exists s' dq', at_pass (i + todo) s' dq') /\ k = todo
    | Raised => exists j, (i <= j < i + todo)%nat /\ breaks_at j /\ (k = S j - i)%nat
    | NeverSolved => todo = O /\ k = O
    end.
  Proof.
    induction todo as [|todo IH]; intros i s dq H; cbn [scc_loop]; [split; reflexivity|].
    destruct (eigen dq) as [e|] eqn:Ee.
    2:{ exists i. split; [lia|split; [|lia]]. exists s, dq. auto. }
    destruct (occupy e) as [out|] eqn:Eo.
    2:{ exists i. split; [lia|split; [|lia]]. exists s, dq. split; [exact H|]. right. eauto. }
    destruct (m_call m s dq out) as [s' [done dq']] eqn:Em. destruct done.
    - exists i. repeat split; try lia. exists s, dq, out, s', dq'. auto.
    - assert (H' : at_pass (S i) s' dq') by (eapply pass_next; eauto).
      destruct todo as [|todo].
      + split; [lia|split; [|reflexivity]]. exists s', dq'.
        replace (i + 1)%nat with (S i) by lia. exact H'.
      + specialize (IH (S i) s' dq' H').
        destruct (scc_loop eigen occupy m (S todo) (S i) s' dq') as [r k].
        destruct r as [e' rec| | |].
        * destruct IH as (j & ? & ? & ? & ?). exists j. repeat split; auto; lia.
        * destruct IH as (_ & (s2 & dq2 & H2) & ->). split; [lia|split; [|reflexivity]].
          exists s2, dq2. replace (i + S (S todo))%nat with (S i + S todo)%nat by lia. exact H2.
        * destruct IH as (j & ? & ? & ?). exists j. repeat split; auto; lia.
        * destruct IH as [IH _]. lia.
  Qed.

  Lemma at_pass_det i s dq s' dq' : at_pass i s dq -> at_pass i s' dq' -> s = s' /\ dq = dq'.
  Proof.
    intros H; revert s' dq'; induction H as [|i s dq e out t dt H IH He Ho Hm]; intros s' dq' H'.
    - inversion H'; subst; auto.
    - inversion H' as [|i2 s2 dq2 e2 out2 t2 dt2 Ha He2 Ho2 Hm2]; subst.
      destruct (IH _ _ Ha) as [-> ->]. rewrite He in He2. injection He2 as <-.
      rewrite Ho in Ho2. injection Ho2 as <-. rewrite Hm in Hm2. injection Hm2 as <- <-. auto.
  Qed.

  Lemma at_pass_before j : forall i s dq, at_pass j s dq -> (i <= j)%nat ->
    exists s' dq', at_pass i s' dq'.
  Proof.
    induction j as [|j IH]; intros i s dq H Hi.
    - replace i with O by lia. eauto.
    - destruct (Nat.eq_dec i (S j)) as [->|Hne]; [eauto|].
      inversion H; subst. eapply IH; [eassumption|lia].
  Qed.

  Lemma accepted_excl i e : accepted_at i e -> ~ (exists s dq, at_pass (S i) s dq).
  Proof.
    intros (s & dq & out & s' & dq' & H & He & Ho & Hm) (t & dt & H').
    inversion H' as [|i2 s2 dq2 e2 out2 t2 dt2 Ha He2 Ho2 Hm2]; subst.
    destruct (at_pass_det _ _ _ _ _ H Ha) as [<- <-].
    rewrite He in He2. injection He2 as <-. rewrite Ho in Ho2. injection Ho2 as <-.
    rewrite Hm in Hm2. discriminate.
  Qed.

  Lemma breaks_excl i : breaks_at i -> ~ (exists s dq, at_pass (S i) s dq) /\ (forall e, ~ accepted_at i e).
  Proof.
    intros (s & dq & H & Hb). split.
    - intros (t & dt & H'). inversion H' as [|i2 s2 dq2 e2 out2 t2 dt2 Ha He2 Ho2 Hm2]; subst.
      destruct (at_pass_det _ _ _ _ _ H Ha) as [<- <-].
      destruct Hb as [Hb|(e & He & Ho)]; congruence.
    - intros e (t & dt & out & t' & dt' & Ha & He2 & Ho2 & _).
      destruct (at_pass_det _ _ _ _ _ H Ha) as [<- <-].
      destruct Hb as [Hb|(e' & He & Ho)]; congruence.
  Qed.

  (** the complete description of an SCC solve *)
  Lemma scc_complete maxiter r k : (1 <= maxiter)%nat ->
    get_states eigen eigen0 occupy m true maxiter s0 dq0 = (r, k) ->
    (k <= maxiter)%nat /\
    (forall e rec, r = Returned e rec <-> exists i, rec = Some i /\ (i < maxiter)%nat /\ accepted_at i e) /\
    (forall e i, r = Returned e (Some i) -> k = S i) /\
    (r = OutOfIterations <-> exists s dq, at_pass maxiter s dq) /\
    (r = OutOfIterations -> k = maxiter) /\
    (r = Raised <-> exists i, (i < maxiter)%nat /\ breaks_at i) /\
    r <> NeverSolved.
  Proof.
    intros Hm E. unfold get_states in E.
    pose proof (loop_sound maxiter 0 (m_reset m s0) dq0 (pass_first _ eigen occupy m s0 dq0)) as L.
    rewrite E in L. destruct r as [e rec| | |].
    - destruct L as (j & -> & Hj & Ha & ->). repeat split; try lia; try discriminate.
      + intros H. injection H as <- <-. exists j. repeat split; auto; lia.
      + intros (i & -> & Hi & Ha').
        assert (i = j).
        { destruct (lt_eq_lt_dec i j) as [[Hlt|]|Hgt]; [|assumption|].
          - exfalso. apply (accepted_excl _ _ Ha').
            destruct Ha as (s & dq & ? & ? & ? & H & _).
            destruct (at_pass_before j (S i) s dq H) as (a & b & ?); [lia|eauto].
          - exfalso. apply (accepted_excl _ _ Ha).
            destruct Ha' as (s & dq & ? & ? & ? & H & _).
            destruct (at_pass_before i (S j) s dq H) as (a & b & ?); [lia|eauto]. }
        subst i. destruct Ha as (s & dq & out & ? & ? & H & He & _).
        destruct Ha' as (s2 & dq2 & out2 & ? & ? & H2 & He2 & _).
        destruct (at_pass_det _ _ _ _ _ H H2) as [<- <-]. congruence.
      + intros e' i H. injection H as -> ->. lia.
      + intros (s & dq & H). exfalso. apply (accepted_excl _ _ Ha).
        destruct (at_pass_before maxiter (S j) s dq H) as (a & b & ?); [lia|eauto].
      + intros (i & Hi & Hb). exfalso. pose proof (breaks_excl _ Hb) as [X Y].
        destruct (lt_eq_lt_dec i j) as [[Hlt| ->]|Hgt].
        * apply X. destruct Ha as (s & dq & ? & ? & ? & H & _).
          destruct (at_pass_before j (S i) s dq H) as (a & b & ?); [lia|eauto].
        * exact (Y _ Ha).
        * apply (accepted_excl _ _ Ha). destruct Hb as (s & dq & H & _).
          destruct (at_pass_before i (S j) s dq H) as (a & b & ?); [lia|eauto].
    - destruct L as (_ & (s & dq & H) & ->). simpl in H. repeat split; try lia; try discriminate; eauto.
      + intros (i & -> & Hi & Ha). exfalso. apply (accepted_excl _ _ Ha).
        destruct (at_pass_before maxiter (S i) s dq H) as (a & b & ?); [lia|eauto].
      + intros (i & Hi & Hb). exfalso. apply (proj1 (breaks_excl _ Hb)).
        destruct (at_pass_before maxiter (S i) s dq H) as (a & b & ?); [lia|eauto].
    - destruct L as (j & Hj & Hb & ->). repeat split; try lia; try discriminate; eauto.
      + intros (i & -> & Hi & Ha). exfalso. pose proof (breaks_excl _ Hb) as [X Y].
        destruct (lt_eq_lt_dec i j) as [[Hlt| ->]|Hgt].
        * apply (accepted_excl _ _ Ha). destruct Hb as (s & dq & H & _).
          destruct (at_pass_before j (S i) s dq H) as (a & b & ?); [lia|eauto].
        * exact (Y _ Ha).
        * apply X. destruct Ha as (s & dq & ? & ? & ? & H & _).
          destruct (at_pass_before i (S j) s dq H) as (a & b & ?); [lia|eauto].
      + intros (s & dq & H). exfalso. apply (proj1 (breaks_excl _ Hb)).
        destruct (at_pass_before maxiter (S j) s dq H) as (a & b & ?); [lia|eauto].
      + intros _. exists j. split; [lia|exact Hb].
    - lia.
  Qed.

  Lemma nonscc_once maxiter : (1 <= maxiter)%nat ->
    snd (get_states eigen eigen0 occupy m false maxiter s0 dq0) = 1%nat /\
    (forall e, fst (get_states eigen eigen0 occupy m false maxiter s0 dq0) = Returned e None <->
       eigen0 = Some e /\ exists out, occupy e = Some out) /\
    (fst (get_states eigen eigen0 occupy m false maxiter s0 dq0) = Raised <->
       eigen0 = None \/ exists e, eigen0 = Some e /\ occupy e = None).
  Proof.
    destruct maxiter as [|k]; [lia|]. intros _. unfold get_states.
    destruct eigen0 as [e|]; [|cbn; split; [reflexivity|split]].
    - destruct (occupy e) as [out|] eqn:Eo; cbn; (split; [reflexivity|split]).
      + intros e'. split.
        * intros H. injection H as ->. eauto.
        * intros [H _]. injection H as ->. reflexivity.
      + split; [discriminate|]. intros [H|(e' & H & H')]; [discriminate|].
        injection H as ->. congruence.
      + intros e'. split; [discriminate|]. intros [H (out & H')]. injection H as ->. congruence.
      + split; [right; eauto|reflexivity].
    - intros e. split; [discriminate|]. intros [H _]; discriminate.
    - split; auto.
  Qed.
End Loop.

(** charges in the cycle keep their total *)
Lemma anderson_cycle states (eigen : vec -> option states) occupy sv p n Q s0 dq0 :
  total n Q dq0 -> (forall e out, occupy e = Some out -> total n Q out) ->
  forall i s dq, at_pass eigen occupy (anderson_mixer sv p n) s0 dq0 i s dq -> total n Q dq.
Proof.
  intros H0 Ho.
  assert (G : forall i s dq, at_pass eigen occupy (anderson_mixer sv p n) s0 dq0 i s dq ->
     a_inv p n Q s /\ total n Q dq).
  { intros i s dq H. induction H as [|i s dq e out s' dq' H [I T] He Hoe Hm].
    - split; [apply anderson_fresh_inv; reflexivity|exact H0].
    - cbn [anderson_mixer m_call] in Hm.
      pose proof (anderson_inv sv p n Q s dq out I T (Ho _ _ Hoe)) as X.
      rewrite Hm in X. exact X. }
  intros i s dq H. apply (G i s dq H).
Qed.

Lemma pulay_cycle states (eigen : vec -> option states) occupy iv p n Q s0 dq0 :
  inverts iv -> (1 <= memory p)%nat ->
  total n Q dq0 -> (forall e out, occupy e = Some out -> total n Q out) ->
  forall i s dq, at_pass eigen occupy (pulay_mixer iv p n) s0 dq0 i s dq -> total n Q dq.
Proof.
  intros Hiv Hmem H0 Ho.
  assert (G : forall i s dq, at_pass eigen occupy (pulay_mixer iv p n) s0 dq0 i s dq ->
     p_inv p n Q s /\ total n Q dq).
  { intros i s dq H. induction H as [|i s dq e out s' dq' H [I T] He Hoe Hm].
    - split; [apply pulay_fresh_inv; reflexivity|exact H0].
    - cbn [pulay_mixer m_call] in Hm.
      pose proof (pulay_inv iv p n Q s dq out Hiv Hmem I T (Ho _ _ Hoe)) as X.
      rewrite Hm in X. exact X. }
  intros i s dq H. apply (G i s dq H).
Qed.

Lemma guess_total n charge prev : (0 < n)%nat ->
  Forall (total n (- charge)) prev -> total n (- charge) (guess_dq n charge prev).
Proof.
  intros Hn H. unfold total in *. destruct prev as [|p0 [|p1 r]]; simpl.
  - rewrite rsum_const. field. apply not_0_INR. lia.
  - exact (Forall_inv H).
  - pose proof (Forall_inv H). pose proof (Forall_inv (Forall_inv_tail H)).
    rewrite rsum_plus, rsum_minus. lra.
Qed.

(** a returned SCC solution is self-consistent to the convergence limit *)
Lemma anderson_consistent states (eigen : vec -> option states) eigen0 occupy sv p n s0 dq0 maxiter e i k :
  (1 <= maxiter)%nat -> (0 < n)%nat ->
  get_states eigen eigen0 occupy (anderson_mixer sv p n) true maxiter s0 dq0 = (Returned e (Some i), k) ->
  exists dq out, eigen dq = Some e /\ occupy e = Some out /\
    forall j, (j < n)%nat -> Rabs (out j - dq j) < convergence p.
Proof.
  intros Hm Hn H. apply scc_complete in H; [|exact Hm].
  destruct H as (_ & H & _). destruct (proj1 (H e (Some i)) eq_refl) as (i' & _ & _ & Ha).
  destruct Ha as (s & dq & out & s' & dq' & _ & He & Ho & Hc).
  exists dq, out. split; [exact He|split; [exact Ho|]].
  apply (anderson_done sv p n s dq out Hn).
  cbn [anderson_mixer m_call] in Hc. rewrite Hc. reflexivity.
Qed.

Lemma pulay_pass_it states (eigen : vec -> option states) occupy iv p n s0 dq0 i s dq :
  at_pass eigen occupy (pulay_mixer iv p n) s0 dq0 i s dq -> p_it s = i.
Proof.
  intros H. induction H as [|i s dq e out s' dq' H IH He Ho Hm]; [reflexivity|].
  cbn [pulay_mixer m_call] in Hm. pose proof (pulay_it iv p n s dq out) as E.
  rewrite Hm in E. cbn [fst] in E. congruence.
Qed.

Lemma pulay_consistent states (eigen : vec -> option states) eigen0 occupy iv p n s0 dq0 maxiter e i k :
  (1 <= maxiter)%nat -> (0 < n)%nat ->
  get_states eigen eigen0 occupy (pulay_mixer iv p n) true maxiter s0 dq0 = (Returned e (Some i), k) ->
  (3 <= i)%nat /\ exists dq out, eigen dq = Some e /\ occupy e = Some out /\
    forall j, (j < n)%nat -> Rabs (out j - dq j) < convergence p.
Proof.
  intros Hm Hn H. apply scc_complete in H; [|exact Hm].
  destruct H as (_ & H & _). destruct (proj1 (H e (Some i)) eq_refl) as (i' & Ei & _ & Ha).
  injection Ei as <-.
  destruct Ha as (s & dq & out & s' & dq' & Hp & He & Ho & Hc).
  cbn [pulay_mixer m_call] in Hc.
  assert (D : fst (snd (pulay iv p n s dq out)) = true) by (rewrite Hc; reflexivity).
  split.
  - pose proof (pulay_done_it _ _ _ _ _ _ D) as L. rewrite (pulay_pass_it _ _ _ _ _ _ _ _ _ _ _ Hp) in L. exact L.
  - exists dq, out. split; [exact He|split; [exact Ho|]]. exact (pulay_done _ _ _ _ _ _ D).
Qed.

(** ** statistics *)
Lemma fold_min_spec r : forall a, is_min (fold_left Nat.min r a) (a :: r).
Proof.
  induction r as [|b r IH]; intros a; simpl.
  - split; [left; reflexivity|]. intros y [<-|[]]. lia.
  - destruct (IH (Nat.min a b)) as [H1 H2]. split.
    + destruct H1 as [H1|H1]; [|right; right; exact H1].
      rewrite <- H1. destruct (Nat.min_dec a b) as [E|E]; rewrite E; [left|right; left]; reflexivity.
    + assert (X : (fold_left Nat.min r (Nat.min a b) <= Nat.min a b)%nat) by (apply H2; left; reflexivity).
      intros y [<-|[<-|Hy]]; [lia|lia|]. apply H2. right. exact Hy.
Qed.
Lemma fold_max_spec r : forall a, is_max (fold_left Nat.max r a) (a :: r).
Proof.
  induction r as [|b r IH]; intros a; simpl.
  - split; [left; reflexivity|]. intros y [<-|[]]. lia.
  - destruct (IH (Nat.max a b)) as [H1 H2]. split.
    + destruct H1 as [H1|H1]; [|right; right; exact H1].
      rewrite <- H1. destruct (Nat.max_dec a b) as [E|E]; rewrite E; [left|right; left]; reflexivity.
    + assert (X : (Nat.max a b <= fold_left Nat.max r (Nat.max a b))%nat) by (apply H2; left; reflexivity).
      intros y [<-|[<-|Hy]]; [lia|lia|]. apply H2. right. exact Hy.
Qed.

Lemma info_swapped h t s mx mn : iteration_info h = Many t s mx mn ->
  t = List.length h /\ s = fold_right plus O h /\ is_min mx h /\ is_max mn h.
Proof.
  destruct h as [|a [|b r]]; simpl; intros H; try discriminate. injection H as <- <- <- <-.
  repeat split; try apply (fold_min_spec (b :: r) a); try apply (fold_max_spec (b :: r) a).
Qed.

Lemma info_refuted : exists h t s mx mn, iteration_info h = Many t s mx mn /\
  ~ is_max mx h /\ ~ is_min mn h.
Proof.
  exists [3; 5]%nat, 2%nat, 8%nat, 3%nat, 5%nat. split; [reflexivity|split].
  - intros [_ H]. specialize (H 5%nat). simpl in H. lia.
  - intros [_ H]. specialize (H 3%nat). simpl in H. lia.
Qed.

(** ** BuildMixer *)
Lemma lower_ascii_cases c : 
  ((65 <= nat_of_ascii c <= 90)%nat /\ nat_of_ascii (lower_ascii c) = (nat_of_ascii c + 32)%nat) \/
  (~ (65 <= nat_of_ascii c <= 90)%nat /\ lower_ascii c = c).
Proof.
  unfold lower_ascii. destruct (Nat.leb_spec 65 (nat_of_ascii c)), (Nat.leb_spec (nat_of_ascii c) 90); simpl;
    try (right; split; [lia|reflexivity]).
  left. split; [lia|]. apply nat_ascii_embedding. lia.
Qed.

Lemma nat_of_ascii_inj a b : nat_of_ascii a = nat_of_ascii b -> a = b.
Proof. intros H. rewrite <- (ascii_nat_embedding a), <- (ascii_nat_embedding b), H. reflexivity. Qed.

Lemma same_letter_lower a b : same_letter a b <-> lower_ascii a = lower_ascii b.
Proof.
  split.
  - intros [->|(k & Hk & [[Ha Hb]|[Hb Ha]])]; [reflexivity| |];
      destruct (lower_ascii_cases a) as [[? E]|[? E]], (lower_ascii_cases b) as [[? E']|[? E']]; try lia.
    + rewrite E'. apply nat_of_ascii_inj. lia.
    + rewrite E. apply nat_of_ascii_inj. lia.
  - intros H. destruct (lower_ascii_cases a) as [[? E]|[? E]], (lower_ascii_cases b) as [[? E']|[? E']].
    + left. apply nat_of_ascii_inj. rewrite H in E. lia.
    + right. exists (nat_of_ascii a). split; [lia|]. left. split; [reflexivity|]. rewrite <- E', <- H. lia.
    + right. exists (nat_of_ascii b). split; [lia|]. right. split; [reflexivity|]. rewrite <- E, H. lia.
    + left. congruence.
Qed.

Lemma same_name_lower a : forall b, same_name a b <-> lower a = lower b.
Proof.
  induction a as [|x a IH]; intros [|y b]; simpl; split; intros H; try discriminate; try contradiction; auto.
  - destruct H as [H1 H2]. apply same_letter_lower in H1. apply IH in H2. congruence.
  - injection H as H1 H2. split; [apply same_letter_lower, H1|apply IH, H2].
Qed.

Lemma mixer_table_lower s m : mixer_table (lower s) = Some m <->
  match m with Anderson => same_name s "anderson" | Pulay => same_name s "pulay" end.
Proof.
  assert (P : same_name s "pulay" <-> lower s = "pulay"%string) by apply same_name_lower.
  assert (A : same_name s "anderson" <-> lower s = "anderson"%string) by apply same_name_lower.
  unfold mixer_table. destruct (string_dec (lower s) "pulay") as [E|E].
  - destruct m; split; intros H; try discriminate; try (apply P, E); [|reflexivity].
    apply A in H. rewrite H in E. discriminate.
  - destruct (string_dec (lower s) "anderson") as [E'|E'].
    + destruct m; split; intros H; try discriminate; try (apply A, E'); [reflexivity|].
      apply P in H. contradiction.
    + split; [discriminate|]. destruct m; intros H; [apply A in H|apply P in H]; contradiction.
Qed.

Definition names (m : mixer_name) : string :=
  match m with Anderson => "anderson" | Pulay => "pulay" end.

Lemma build_str s m kw : build_mixer (SStr s) = Built m kw <-> kw = [] /\ same_name s (names m).
Proof.
  simpl. unfold construct. destruct (mixer_table (lower s)) as [m'|] eqn:E.
  - simpl. split.
    + intros H. injection H as <- <-. split; [reflexivity|]. apply mixer_table_lower in E. destruct m'; exact E.
    + intros [-> H]. assert (X : mixer_table (lower s) = Some m) by (apply mixer_table_lower; destruct m; exact H).
      congruence.
  - split; [discriminate|]. intros [_ H].
    assert (X : mixer_table (lower s) = Some m) by (apply mixer_table_lower; destruct m; exact H). congruence.
Qed.

Lemma build_str_bad s : (forall m, ~ same_name s (names m)) -> build_mixer (SStr s) = KeyErr.
Proof.
  intros H. simpl. unfold construct. destruct (mixer_table (lower s)) as [m'|] eqn:E; [|reflexivity].
  exfalso. apply (H m'). apply mixer_table_lower in E. destruct m'; exact E.
Qed.

Lemma build_dict d m kw : build_mixer (SDict d) = Built m kw <->
  exists s, lookup "name" d = Some (VStr s) /\ same_name s (names m) /\
    kw = pop "name" d /\
    (forall k v, In (k, v) kw -> In k ["mixing_constant"; "memory"; "convergence"; "chop"]%string).
Proof.
  simpl. destruct (lookup "name" d) as [[s| |]|]; try (split; [discriminate|intros (? & ? & _); discriminate]).
  assert (F : forallb (fun e : string * value => accepted (fst e)) (pop "name" d) = true <->
    (forall k v, In (k, v) (pop "name" d) -> In k ["mixing_constant"; "memory"; "convergence"; "chop"]%string)).
  { rewrite forallb_forall. unfold accepted. split.
    - intros H k v Hin. specialize (H _ Hin). apply existsb_exists in H. destruct H as (x & Hx & E).
      apply String.eqb_eq in E. simpl in E. subst. exact Hx.
    - intros H [k v] Hin. apply existsb_exists. exists k. split; [apply (H k v Hin)|apply String.eqb_refl]. }
  unfold construct. destruct (mixer_table (lower s)) as [m'|] eqn:E.
  - destruct (forallb _ _) eqn:Ef.
    + split.
      * intros H. injection H as <- <-. exists s. repeat split; try tauto.
        apply mixer_table_lower in E. destruct m'; exact E.
      * intros (s' & Es & Hn & -> & _). injection Es as <-.
        assert (X : mixer_table (lower s) = Some m) by (apply mixer_table_lower; destruct m; exact Hn).
        congruence.
    + split; [discriminate|]. intros (s' & Es & Hn & -> & Hk). apply F in Hk. discriminate.
  - split; [discriminate|]. intros (s' & Es & Hn & _). injection Es as <-.
    assert (X : mixer_table (lower s) = Some m) by (apply mixer_table_lower; destruct m; exact Hn). congruence.
Qed.

(** ** Examples: the hypotheses can be met *)

(** Cramer's rule for 2 x 2 systems, refusing the others *)
Definition cramer2 : solver := fun M A b =>
  match M with
  | 2%nat => let d := A 0%nat 0%nat * A 1%nat 1%nat - A 0%nat 1%nat * A 1%nat 0%nat in
             if Req_EM_T d 0 then None
             else Some (fun i => match i with
               | O => (b 0%nat * A 1%nat 1%nat - A 0%nat 1%nat * b 1%nat) / d
               | _ => (A 0%nat 0%nat * b 1%nat - b 0%nat * A 1%nat 0%nat) / d end)
  | _ => None
  end.

Example cramer2_solves : solves cramer2.
Proof.
  intros M A b c H z Hz i Hi. unfold cramer2 in H.
  destruct M as [|[|[|M]]]; try discriminate. cbv zeta in H.
  destruct (Req_EM_T _ 0) as [|Hd]; [discriminate|]. injection H as <-.
  pose proof (Hz 0%nat ltac:(lia)) as E0. pose proof (Hz 1%nat ltac:(lia)) as E1. simpl in E0, E1.
  destruct i as [|[|i]]; [| |lia]; (apply Rmult_eq_reg_r with
    (A 0%nat 0%nat * A 1%nat 1%nat - A 0%nat 1%nat * A 1%nat 0%nat); [|exact Hd]);
    unfold Rdiv; rewrite Rmult_assoc, Rinv_l by exact Hd; rewrite <- E0, <- E1; ring.
Qed.

(** reciprocal for 1 x 1 matrices and the 2 x 2 adjugate *)
Definition inv12 : inverter := fun M A =>
  match M with
  | 1%nat => if Req_EM_T (A 0%nat 0%nat) 0 then None else Some (fun _ _ => / A 0%nat 0%nat)
  | 2%nat => let d := A 0%nat 0%nat * A 1%nat 1%nat - A 0%nat 1%nat * A 1%nat 0%nat in
             if Req_EM_T d 0 then None
             else Some (fun i j => match i, j with
               | 0%nat, 0%nat => A 1%nat 1%nat / d | 0%nat, _ => - A 0%nat 1%nat / d
               | _, 0%nat => - A 1%nat 0%nat / d | _, _ => A 0%nat 0%nat / d end)
  | _ => None
  end.

Example inv12_inverts : inverts inv12.
Proof.
  intros M A B H i k Hi Hk. unfold inv12 in H.
  destruct M as [|[|[|M]]]; try discriminate.
  - destruct (Req_EM_T _ 0) as [|Hd]; [discriminate|]. injection H as <-.
    destruct i; [|lia]. destruct k; [|lia]. simpl. field. exact Hd.
  - cbv zeta in H. destruct (Req_EM_T _ 0) as [|Hd]; [discriminate|]. injection H as <-.
    destruct i as [|[|i]]; [| |lia]; (destruct k as [|[|k]]; [| |lia]); simpl; field; exact Hd.
Qed.

Example inv12_reads : reads_block inv12.
Proof.
  intros [|[|[|L]]] A A' H; simpl; try reflexivity.
  - rewrite (H 0 0)%nat by lia. reflexivity.
  - rewrite (H 0 0)%nat, (H 0 1)%nat, (H 1 0)%nat, (H 1 1)%nat by lia. reflexivity.
Qed.

(** A cycle accepted at its second pass: one atom, the output charge is 0
    whatever the input, start from charge 1, limit 3/5, mixing constant 1/2. *)
Definition ex_par := mkparams (1/2) 3 (3/5) None.
Example ex_accepted :
  accepted_at (fun dq : vec => Some dq) (fun _ => Some (fun _ => 0))
    (anderson_mixer cramer2 ex_par 1) anderson_new (fun _ => 1) 1
    (simple_mix ex_par (fun _ => 1) (fun _ => 0)).
Proof.
  set (m := anderson_mixer cramer2 ex_par 1).
  destruct (m_call m (m_reset m anderson_new) (fun _ => 1) (fun _ => 0)) as [s1 [d1 q1]] eqn:E1.
  assert (D1 : d1 = false /\ q1 = simple_mix ex_par (fun _ => 1) (fun _ => 0)).
  { pose proof (anderson_done cramer2 ex_par 1 (anderson_reset anderson_new) (fun _ => 1) (fun _ => 0) ltac:(lia)) as A.
    cbn [m anderson_mixer m_call m_reset] in E1. rewrite E1 in A. cbn [fst snd] in A. split.
    - destruct d1; [|reflexivity]. exfalso. specialize (proj1 A eq_refl 0%nat ltac:(lia)). simpl.
      unfold Rabs. destruct (Rcase_abs (0 - 1)); lra.
    - unfold anderson in E1. cbv zeta in E1. injection E1 as _ _ <-. reflexivity. }
  destruct D1 as [-> ->].
  set (dq1 := simple_mix ex_par (fun _ => 1) (fun _ => 0)).
  destruct (m_call m s1 dq1 (fun _ => 0)) as [s2 [d2 q2]] eqn:E2.
  assert (D2 : d2 = true).
  { pose proof (anderson_done cramer2 ex_par 1 s1 dq1 (fun _ => 0) ltac:(lia)) as A.
    cbn [m anderson_mixer m_call] in E2. rewrite E2 in A. cbn [fst snd] in A. apply A.
    intros k _. unfold dq1, simple_mix. simpl. unfold Rabs. destruct (Rcase_abs _); lra. }
  subst d2. exists s1, dq1, (fun _ => 0), s2, q2. split; [|auto].
  eapply pass_next; [apply pass_first|reflexivity|reflexivity|exact E1].
Qed.

Example ex_total : total 2 0 (fun k => match k with O => 1/2 | _ => -1/2 end).
Proof. unfold total. simpl. lra. Qed.

Example ex_build : build_mixer (SDict [("name", VStr "AnDeRson"); ("memory", VNum 5)]%string) =
  Built Anderson [("memory", VNum 5)]%string.
Proof. reflexivity. Qed.
Example ex_build_bad : build_mixer (SStr "dummy") = KeyErr.
Proof. reflexivity. Qed.
