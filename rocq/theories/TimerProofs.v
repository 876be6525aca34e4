From Coq Require Import Reals Lra Lia List Arith Bool String.
From Verif Require Import TimerModel TimerSpec.
Import ListNotations.
Open Scope R_scope.

(** induction over the timer tree *)
Section Ind.
  Variable P : timer -> Prop.
  Hypothesis H : forall lb i v ch, Forall P ch -> P (Node lb i v ch).
  Fixpoint timer_ind' (t : timer) : P t :=
    match t with
    | Node lb i v ch => H lb i v ch
        ((fix go (ts : list timer) : Forall P ts :=
            match ts with [] => Forall_nil P | c :: r => Forall_cons c (timer_ind' c) (go r) end) ch)
    end.
End Ind.

(** the loops over child timers as list functions *)
Fixpoint get_in (l : string) (ts : list timer) : option tinfo :=
  match ts with
  | [] => None
  | c :: r => match get_timer l c with Some x => Some x | None => get_in l r end
  end.
Fixpoint put_in (l : string) (i' : tinfo) (ts : list timer) : list timer :=
  match ts with
  | [] => []
  | c :: r => match get_timer l c with Some _ => put_timer l i' c :: r | None => c :: put_in l i' r end
  end.
Fixpoint add_in (l : string) (i' : tinfo) (ts : list timer) : list timer :=
  match ts with
  | [] => []
  | c :: r => if running (t_info c) then add_outmost l i' c :: r else c :: add_in l i' r
  end.

Lemma get_timer_eq l lb i v ch :
  get_timer l (Node lb i v ch) = if string_dec lb l then Some i else get_in l ch.
Proof. simpl. destruct (string_dec lb l); [reflexivity|]. induction ch as [|c r IH]; simpl; [reflexivity|]. rewrite IH. reflexivity. Qed.
Lemma put_timer_eq l i' lb i v ch :
  put_timer l i' (Node lb i v ch) = if string_dec lb l then Node lb i' v ch else Node lb i v (put_in l i' ch).
Proof. simpl. destruct (string_dec lb l); [reflexivity|]. f_equal. induction ch as [|c r IH]; simpl; [reflexivity|]. rewrite IH. reflexivity. Qed.
Lemma add_outmost_eq l i' lb i v ch :
  add_outmost l i' (Node lb i v ch) =
  Node lb i v (if existsb (fun c => running (t_info c)) ch then add_in l i' ch else ch ++ [Node l i' (S v) []]).
Proof. simpl. f_equal. destruct (existsb _ ch); [|reflexivity]. induction ch as [|c r IH]; simpl; [reflexivity|]. rewrite IH. reflexivity. Qed.
Lemma stop_all_eq now lb i v ch :
  stop_all now (Node lb i v ch) =
  Node lb (match stop_self now i with Some i' => i' | None => i end) v (map (stop_all now) ch).
Proof. simpl. f_equal. Qed.

Lemma get_put l i' x t : (exists i, get_timer l t = Some i) ->
  get_timer x (put_timer l i' t) = if string_dec x l then Some i' else get_timer x t.
Proof.
  induction t as [lb i v ch IH] using timer_ind'. intros [j Hj]. rewrite get_timer_eq in Hj.
  rewrite put_timer_eq. destruct (string_dec lb l) as [->|Hne].
  - rewrite !get_timer_eq. destruct (string_dec l x), (string_dec x l); congruence.
  - rewrite !get_timer_eq. destruct (string_dec lb x) as [->|Hx].
    { destruct (string_dec x l); congruence. }
    revert Hj. induction ch as [|c r IHr]; simpl; [discriminate|]. intros Hj.
    pose proof (Forall_inv IH) as IHc. specialize (IHr (Forall_inv_tail IH)).
    destruct (get_timer l c) as [k|] eqn:Ec.
    + cbn [get_in]. rewrite IHc by eauto. destruct (string_dec x l) as [->|]; [reflexivity|reflexivity].
    + cbn [get_in]. rewrite (IHr Hj). destruct (string_dec x l) as [->|]; [rewrite Ec; reflexivity|reflexivity].
Qed.

Lemma get_add l i' x t : get_timer l t = None ->
  get_timer x (add_outmost l i' t) = if string_dec x l then Some i' else get_timer x t.
Proof.
  induction t as [lb i v ch IH] using timer_ind'. intros Hn. rewrite get_timer_eq in Hn.
  rewrite add_outmost_eq, !get_timer_eq.
  destruct (string_dec lb l) as [|Hne]; [discriminate|].
  destruct (string_dec lb x) as [->|Hx].
  { destruct (string_dec x l); congruence. }
  destruct (existsb (fun c => running (t_info c)) ch) eqn:Ex.
  - revert Hn Ex. induction ch as [|c r IHr]; simpl; [discriminate|]. intros Hn Ex.
    pose proof (Forall_inv IH) as IHc. specialize (IHr (Forall_inv_tail IH)).
    destruct (get_timer l c) as [k|] eqn:Ec; [discriminate|].
    destruct (running (t_info c)); simpl.
    + rewrite IHc by exact Ec. destruct (string_dec x l); reflexivity.
    + rewrite IHr by assumption. destruct (string_dec x l) as [->|]; [rewrite Ec; reflexivity|reflexivity].
  - clear Ex IH. revert Hn. induction ch as [|c r IHr]; intros Hn.
    + cbn [app get_in]. rewrite get_timer_eq. destruct (string_dec l x), (string_dec x l); congruence || reflexivity.
    + cbn [app get_in] in *. destruct (get_timer l c) as [k|] eqn:Ec; [discriminate|].
      rewrite IHr by exact Hn. destruct (string_dec x l) as [->|]; [rewrite Ec; reflexivity|reflexivity].
Qed.

Lemma get_stop_all now x t :
  get_timer x (stop_all now t) =
  option_map (fun i => match stop_self now i with Some i' => i' | None => i end) (get_timer x t).
Proof.
  induction t as [lb i v ch IH] using timer_ind'. rewrite stop_all_eq, !get_timer_eq.
  destruct (string_dec lb x); [reflexivity|].
  induction ch as [|c r IHr]; [reflexivity|]. simpl.
  rewrite (Forall_inv IH). destruct (get_timer x c); [reflexivity|]. apply IHr, (Forall_inv_tail IH).
Qed.

Lemma label_put l i t : t_label (put_timer l i t) = t_label t.
Proof. destruct t. rewrite put_timer_eq. destruct (string_dec _ _); reflexivity. Qed.
Lemma label_add l i t : t_label (add_outmost l i t) = t_label t.
Proof. destruct t. reflexivity. Qed.
Lemma get_main t : get_timer (t_label t) t = Some (t_info t).
Proof. destruct t. rewrite get_timer_eq. simpl. destruct (string_dec _ _); congruence. Qed.

(** the refinement *)
Definition agree (t : timer) (b : board) : Prop :=
  t_label t = main b /\
  forall l, match get_timer l t, watches b l with
            | Some i, Some w => shows i w
            | None, None => True
            | _, _ => False
            end.

Lemma shows_start now i w : shows i w -> since w = None ->
  running i = false /\ shows (mkinfo true (calls i) now (elapsed i)) (mkwatch (done_intervals w) (Some now)).
Proof.
  intros (H1 & H2 & H3) Hs. rewrite Hs in H3. split; [exact H3|]. repeat split; simpl; auto.
Qed.

Lemma shows_stop now i w s : shows i w -> since w = Some s ->
  running i = true /\
  shows (mkinfo false (S (calls i)) (t1 i) (elapsed i + (now - t1 i))) (mkwatch ((s, now) :: done_intervals w) None).
Proof.
  intros (H1 & H2 & H3) Hs. rewrite Hs in H3. destruct H3 as [H3 H4]. split; [exact H3|].
  repeat split; simpl; [congruence|]. rewrite H2, H4. simpl. lra.
Qed.

Lemma agree_put t b l i w : agree t b -> (exists j, get_timer l t = Some j) -> shows i w ->
  agree (put_timer l i t) (set_watch b l w).
Proof.
  intros [A1 A2] Hj Hs. split; [rewrite label_put; exact A1|]. intros x. rewrite get_put by exact Hj.
  simpl. destruct (string_dec x l); [exact Hs|apply A2].
Qed.

Lemma agree_add t b l i w : agree t b -> get_timer l t = None -> shows i w ->
  agree (add_outmost l i t) (set_watch b l w).
Proof.
  intros [A1 A2] Hj Hs. split; [rewrite label_add; exact A1|]. intros x. rewrite get_add by exact Hj.
  simpl. destruct (string_dec x l); [exact Hs|apply A2].
Qed.

Lemma main_is_put t i : Node (t_label t) i (t_level t) (t_children t) = put_timer (t_label t) i t.
Proof. destruct t. rewrite put_timer_eq. simpl. destruct (string_dec _ _); congruence. Qed.

Lemma agree_start_existing t b l now i : agree t b -> get_timer l t = Some i ->
  let r := match start_self now i with
           | Some i' => (put_timer l i' t, true) | None => (t, false) end in
  agree (fst r) (fst (start_watch b l now)) /\ snd r = snd (start_watch b l now).
Proof.
  intros A Hi. pose proof (proj2 A l) as H. rewrite Hi in H. unfold start_watch.
  destruct (watches b l) as [[d [s|]]|] eqn:Ew; [| |contradiction].
  - destruct H as (_ & _ & H & _). simpl in H. unfold start_self. rewrite H. simpl. split; [exact A|reflexivity].
  - destruct (shows_start now i _ H eq_refl) as [Hr Hs]. unfold start_self. rewrite Hr. simpl. split; [|reflexivity].
    apply agree_put; eauto.
Qed.

Lemma agree_stop_existing t b l now i : agree t b -> get_timer l t = Some i ->
  let r := match stop_self now i with
           | Some i' => (put_timer l i' t, true) | None => (t, false) end in
  agree (fst r) (fst (stop_watch b l now)) /\ snd r = snd (stop_watch b l now).
Proof.
  intros A Hi. pose proof (proj2 A l) as H. rewrite Hi in H. unfold stop_watch.
  destruct (watches b l) as [[d [s|]]|] eqn:Ew; [| |contradiction].
  - destruct (shows_stop now i _ s H eq_refl) as [Hr Hs]. unfold stop_self. rewrite Hr. simpl. split; [|reflexivity].
    apply agree_put; eauto.
  - destruct H as (_ & _ & H). simpl in H. unfold stop_self. rewrite H. simpl. split; [exact A|reflexivity].
Qed.

Lemma agree_running t b : agree t b -> running (t_info t) = is_running b (main b).
Proof.
  intros [A1 A2]. specialize (A2 (t_label t)). rewrite get_main, A1 in A2. unfold is_running.
  destruct (watches b (main b)) as [[d [s|]]|]; [| |contradiction]; destruct A2 as (_ & _ & H); simpl in H; tauto.
Qed.

Lemma agree_step t b c : agree t b ->
  agree (fst (tstep t c)) (fst (bstep b c)) /\ snd (tstep t c) = snd (bstep b c).
Proof.
  intros A. destruct c as [l now|l now|now|now|now]; cbn [tstep bstep].
  - rewrite (agree_running t b A). destruct (is_running b (main b)); [|split; [exact A|reflexivity]].
    destruct (get_timer l t) as [i|] eqn:Ei.
    + pose proof (agree_start_existing t b l now i A Ei) as X. cbv zeta in X. unfold start_self in *.
      destruct (running i); exact X.
    + pose proof (proj2 A l) as H. rewrite Ei in H. unfold start_watch.
      destruct (watches b l) eqn:Ew; [contradiction|]. cbn. split; [|reflexivity].
      apply agree_add; auto. repeat split; reflexivity.
  - destruct (get_timer l t) as [i|] eqn:Ei; [apply agree_stop_existing; assumption|].
    pose proof (proj2 A l) as H. rewrite Ei in H. unfold stop_watch. destruct (watches b l); [contradiction|].
    split; [exact A|reflexivity].
  - pose proof (agree_start_existing t b (t_label t) now (t_info t) A (get_main t)) as X. cbv zeta in X.
    rewrite <- (proj1 A). unfold start_self in *. destruct (running (t_info t)); [exact X|].
    rewrite main_is_put. exact X.
  - pose proof (agree_stop_existing t b (t_label t) now (t_info t) A (get_main t)) as X. cbv zeta in X.
    rewrite <- (proj1 A). unfold stop_self in *. destruct (running (t_info t)); [|exact X].
    rewrite main_is_put. exact X.
  - split; [|reflexivity]. cbn [fst]. split; [destruct t; exact (proj1 A)|]. intros l.
    rewrite get_stop_all. pose proof (proj2 A l) as H. simpl.
    destruct (get_timer l t) as [i|]; simpl; destruct (watches b l) as [[d [s|]]|]; try exact H.
    + destruct (shows_stop now i _ s H eq_refl) as [Hr Hs]. unfold stop_self. rewrite Hr. exact Hs.
    + pose proof H as (_ & _ & H3). simpl in H3. unfold stop_self. rewrite H3. exact H.
Qed.

Lemma agree_run cs : forall t b, agree t b ->
  agree (fst (trun t cs)) (fst (brun b cs)) /\ snd (trun t cs) = snd (brun b cs).
Proof.
  induction cs as [|c cs IH]; intros t b A; [split; [exact A|reflexivity]|]. cbn [trun brun].
  pose proof (agree_step t b c A) as [A1 A2].
  destruct (tstep t c) as [t' x], (bstep b c) as [b' y]. simpl in A1, A2. subst y.
  specialize (IH t' b' A1). destruct (trun t' cs) as [t'' xs], (brun b' cs) as [b'' ys].
  simpl in *. destruct IH as [I1 I2]. split; [exact I1|congruence].
Qed.

Lemma agree_new l now : agree (new_timer l now) (new_board l now).
Proof.
  split; [reflexivity|]. intros x. unfold new_timer, new_board. rewrite get_timer_eq. simpl.
  destruct (string_dec l x) as [->|H].
  - destruct (string_dec x x); [|congruence]. repeat split; reflexivity.
  - destruct (string_dec x l); [congruence|exact I].
Qed.

Lemma timer_refines l t0 cs :
  let '(t, oks) := trun (new_timer l t0) cs in
  let '(b, oks') := brun (new_board l t0) cs in
  oks = oks' /\
  forall x, match get_timer x t, watches b x with
            | Some i, Some w => shows i w
            | None, None => True
            | _, _ => False
            end.
Proof.
  pose proof (agree_run cs _ _ (agree_new l t0)) as [A E].
  destruct (trun (new_timer l t0) cs) as [t oks], (brun (new_board l t0) cs) as [b oks'].
  simpl in *. split; [exact E|]. exact (proj2 A).
Qed.

(** misnested sequences are accepted *)
Lemma nesting_refuted : exists l t0 cs,
  ~ nested [] cs /\ Forall (fun ok => ok = true) (snd (trun (new_timer l t0) cs)).
Proof.
  exists "main"%string, 0,
    [Start "a" 1; Start "b" 2; Stop "a" 3; Stop "b" 4]%string.
  split; [intros H; simpl in H; destruct H; discriminate|].
  repeat constructor.
Qed.

(** ... and also the time of a sub-timer may not be part of the time of the timer it is
    listed under: b is re-started outside a *)
Lemma outside_refuted : exists l t0 cs,
  nested [] cs /\
  match fst (trun (new_timer l t0) cs) with
  | Node _ _ _ [Node la ia _ [Node lb ib _ []]] => la = "a"%string /\ lb = "b"%string /\ elapsed ia < elapsed ib
  | _ => False
  end.
Proof.
  exists "main"%string, 0,
    [Start "a" 1; Start "b" 1; Stop "b" 2; Stop "a" 2; Start "b" 5; Stop "b" 10]%string.
  split; [repeat split|]. simpl. repeat split. lra.
Qed.

Lemma Forall_forallb_true xs : Forall (fun x => x = true) xs -> forallb (fun x => x) xs = true.
Proof. induction 1; simpl; subst; auto. Qed.

(** nested use with distinct open labels is accepted *)
Lemma brun_nested cs : forall b stack,
  is_running b (main b) = true ->
  (forall l, is_running b l = true <-> In l (main b :: stack)) -> NoDup (main b :: stack) ->
  hierarchical (main b) stack cs ->
  Forall (fun ok => ok = true) (snd (brun b cs)).
Proof.
  induction cs as [|c cs IH]; intros b stack Hm Hs Hd Hn; [constructor|].
  cbn [brun]. destruct c as [l now|l now|now|now|now]; try contradiction.
  - simpl in Hn. destruct Hn as (Hl1 & Hl2 & Hn).
    assert (Hl : is_running b l = false).
    { destruct (is_running b l) eqn:E; [|reflexivity]. apply Hs in E. destruct E; [congruence|contradiction]. }
    cbn [bstep]. rewrite Hm.
    assert (E : exists d, start_watch b l now = (set_watch b l (mkwatch d (Some now)), true)).
    { unfold start_watch. unfold is_running in Hl. destruct (watches b l) as [[d [s|]]|]; try discriminate; eauto. }
    destruct E as [d E]. rewrite E.
    assert (Hr : forall x, is_running (set_watch b l (mkwatch d (Some now))) x = true <-> In x (main b :: l :: stack)).
    { intros x. unfold is_running at 1. simpl. destruct (string_dec x l) as [->|Hx].
      - split; [intros _; right; left; reflexivity|reflexivity].
      - change (is_running b x = true <-> main b = x \/ l = x \/ In x stack). rewrite Hs. simpl.
        split; [intros [?|?]; tauto|intros [?|[?|?]]; [tauto|congruence|tauto]]. }
    specialize (IH (set_watch b l (mkwatch d (Some now))) (l :: stack)).
    destruct (brun (set_watch b l (mkwatch d (Some now))) cs) as [b'' xs] eqn:Er.
    constructor; [reflexivity|]. apply IH; simpl; auto.
    + apply Hr. left. reflexivity.
    + inversion Hd; subst. constructor.
      * intros [E'|?]; [congruence|contradiction].
      * constructor; assumption.
  - simpl in Hn. destruct stack as [|x stack]; [contradiction|]. destruct Hn as [-> Hn].
    cbn [bstep].
    assert (Hl : is_running b l = true) by (apply Hs; right; left; reflexivity).
    assert (E : exists d, stop_watch b l now = (set_watch b l (mkwatch d None), true)).
    { unfold stop_watch. unfold is_running in Hl. destruct (watches b l) as [[d [s|]]|]; try discriminate; eauto. }
    destruct E as [d E]. rewrite E.
    inversion Hd as [|? ? Hd1 Hd2]; subst. inversion Hd2 as [|? ? Hd3 Hd4]; subst.
    assert (Hr : forall y, is_running (set_watch b l (mkwatch d None)) y = true <-> In y (main b :: stack)).
    { intros y. unfold is_running at 1. simpl. destruct (string_dec y l) as [->|Hy].
      - split; [discriminate|]. intros [H|H]; [rewrite <- H in Hd1; contradiction Hd1; left; congruence|contradiction].
      - change (is_running b y = true <-> main b = y \/ In y stack). rewrite Hs. simpl.
        split; [intros [?|[?|?]]; [tauto|congruence|tauto]|tauto]. }
    specialize (IH (set_watch b l (mkwatch d None)) stack).
    destruct (brun (set_watch b l (mkwatch d None)) cs) as [b'' xs] eqn:Er.
    constructor; [reflexivity|]. apply IH; simpl; auto.
    + apply Hr. left. reflexivity.
    + constructor; [|exact Hd4]. intros Hin. apply Hd1. right. exact Hin.
Qed.

Lemma hierarchical_accepted l t0 cs : hierarchical l [] cs ->
  Forall (fun ok => ok = true) (snd (trun (new_timer l t0) cs)).
Proof.
  intros H. rewrite (proj2 (agree_run cs _ _ (agree_new l t0))).
  assert (R : forall x, is_running (new_board l t0) x = true <-> In x [l]).
  { intros x. unfold is_running. simpl. destruct (string_dec x l) as [->|]; split; auto; try discriminate.
    intros [?|[]]; congruence. }
  apply (brun_nested cs (new_board l t0) []); auto.
  - apply R. left. reflexivity.
  - constructor; [intros []|constructor].
Qed.

Example ex_hierarchical : hierarchical "main" []
  [Start "a" 1; Start "b" 2; Stop "b" 3; Stop "a" 4; Start "b" 5; Stop "b" 7]%string.
Proof. simpl. repeat split; try discriminate; intuition discriminate. Qed.

(** after a summary nothing runs and nothing can be started *)
Lemma summary_final b now l now' :
  let b' := fst (bstep b (Summary now)) in
  is_running b' l = false /\ bstep b' (Start l now') = (b', false).
Proof.
  cbn [bstep fst]. assert (E : forall x, is_running (mkboard (main b) (fun l0 => match watches b l0 with
      | Some (mkwatch d (Some s)) => Some (mkwatch ((s, now) :: d) None) | o => o end)) x = false).
  { intros x. unfold is_running. simpl. destruct (watches b x) as [[d [s|]]|]; reflexivity. }
  split; [apply E|]. simpl. rewrite E. reflexivity.
Qed.

Lemma timer_summary_final l t0 cs now x now' :
  let t := fst (tstep (fst (trun (new_timer l t0) cs)) (Summary now)) in
  (forall i, get_timer x t = Some i -> running i = false) /\ tstep t (Start x now') = (t, false).
Proof.
  pose proof (agree_run cs _ _ (agree_new l t0)) as [A _].
  set (t0' := fst (trun (new_timer l t0) cs)) in *. set (b0 := fst (brun (new_board l t0) cs)) in *.
  pose proof (agree_step t0' b0 (Summary now) A) as [A' _].
  cbv zeta. set (t := fst (tstep t0' (Summary now))) in *.
  pose proof (summary_final b0 now x now') as [S1 _]. cbv zeta in S1.
  pose proof (summary_final b0 now (main b0) now') as [S2 _]. cbv zeta in S2.
  set (b := fst (bstep b0 (Summary now))) in *. split.
  - intros i Hi. pose proof (proj2 A' x) as H. rewrite Hi in H. unfold is_running in S1.
    destruct (watches b x) as [[d [s|]]|]; [discriminate| |contradiction]. destruct H as (_ & _ & H). exact H.
  - cbn [tstep]. rewrite (agree_running t b A').
    change (main b) with (main b0). rewrite S2. reflexivity.
Qed.

(** ** human_readable_time *)
Lemma Int_part_IZR z : Int_part (IZR z) = z.
Proof.
  destruct (base_Int_part (IZR z)) as [H1 H2]. apply le_IZR in H1.
  assert (IZR z < IZR (Int_part (IZR z) + 1)) by (rewrite plus_IZR; lra). apply lt_IZR in H. lia.
Qed.

Lemma human_readable_value s : human_readable s = (Int_part (s / 3600), 0%Z, 0%Z).
Proof.
  unfold human_readable. cbv zeta.
  replace (s - s / 3600 * 3600) with 0 by field.
  replace (0 / 60) with 0 by field. replace (0 - 0 * 60) with 0 by ring.
  change 0 with (IZR 0). rewrite Int_part_IZR. reflexivity.
Qed.

Lemma human_readable_refuted : exists s, (0 <= s)%Z /\
  let '(h, m, sec) := human_readable (IZR s) in (3600 * h + 60 * m + sec <> s)%Z.
Proof.
  exists 65%Z. split; [lia|]. rewrite human_readable_value.
  assert (E : Int_part (65 / 3600) = 0%Z).
  { destruct (base_Int_part (65 / 3600)) as [H1 H2].
    assert (-1 < IZR (Int_part (65/3600)) < 1) by lra. destruct H as [Ha Hb].
    apply lt_IZR in Ha, Hb. lia. }
  rewrite E. lia.
Qed.

(** a non-trivial sequence with nested, repeated and rejected calls *)
Example ex_timer :
  snd (trun (new_timer "main" 0)
    [Start "a" 1; Start "b" 2; Start "b" 2; Stop "b" 3; Stop "c" 3; Stop "a" 4; Start "b" 5; Stop "b" 7; Summary 8; Start "a" 9]%string)
  = [true; true; false; true; false; true; true; true; true; false].
Proof. reflexivity. Qed.
