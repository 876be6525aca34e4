From Coq Require Import Reals Lra ZArith Lia List Arith Bool Ascii Permutation Sorted.
From Verif Require Import UtilModel.
Import ListNotations.
Open Scope Z_scope.
Require Import ZifyBool ZifyNat.
Ltac Zify.zify_post_hook ::= Z.div_mod_to_equations.

(** ** CPU load *)
Section Load.
  Context {A : Type}.
  Variable w : A -> Z.
  Notation sum := (fold_right (fun x s => w x + s) 0).

  Lemma sum_app a b : sum (a ++ b) = sum a + sum b.
  Proof. induction a as [|x a IH]; simpl; [lia|rewrite IH; lia]. Qed.

  Lemma fill_spec T n items : forall acc a b, fill w T n acc items = (a, b) ->
    items = a ++ b /\ (items <> [] -> a <> []) /\
    (b <> [] -> T < (acc + sum a) * n) /\
    (forall c x, a = c ++ [x] -> acc * n <= T -> (acc + sum c) * n <= T).
  Proof.
    induction items as [|x r IH]; intros acc a b H; simpl in H.
    - injection H as <- <-. repeat split; try congruence. intros c x E. destruct c; discriminate.
    - destruct (Z.ltb_spec T ((acc + w x) * n)) as [Hlt|Hge].
      + injection H as <- <-. repeat split; try discriminate.
        * simpl. intros _. replace (acc + (w x + 0)) with (acc + w x) by lia. exact Hlt.
        * intros c y E. destruct c as [|z c]; [|destruct c; discriminate]. simpl. intros. lia.
      + destruct (fill w T n (acc + w x) r) as [a' b'] eqn:E. injection H as <- <-.
        destruct (IH _ _ _ E) as (H1 & H2 & H3 & H4). repeat split.
        * simpl. rewrite H1 at 1. reflexivity.
        * discriminate.
        * intros Hb. specialize (H3 Hb). simpl. replace (acc + (w x + sum a')) with (acc + w x + sum a') by lia. exact H3.
        * intros c y Ec Hacc. destruct c as [|z c]; simpl; [lia|].
          simpl in Ec. injection Ec as <- Ec. specialize (H4 c y Ec Hge).
          replace (acc + (w x + sum c)) with (acc + w x + sum c) by lia. exact H4.
  Qed.

  Lemma concat_repeat_nil k : concat (repeat (@nil A) k) = [].
  Proof. induction k; simpl; auto. Qed.

  Lemma cpus_length T n k : forall items, length (cpus w T n k items) = k.
  Proof.
    induction k as [|k IH]; intros items; [reflexivity|]. destruct items as [|x r].
    - simpl. f_equal. apply repeat_length.
    - cbn [cpus]. destruct (fill w T n 0 (x :: r)) as [a b]. simpl. f_equal. apply IH.
  Qed.

  (** enough CPUs for what is left: everything gets assigned *)
  Lemma cpus_concat T n k : forall items, 0 < n -> (forall x, In x items -> 0 <= w x) ->
    n * sum items <= T * Z.of_nat k ->
    (k = O -> items = []) ->
    concat (cpus w T n k items) = items.
  Proof.
    induction k as [|k IH]; intros items Hn Hw Hs H0; [rewrite H0; reflexivity|].
    destruct items as [|x r]; [cbn [cpus]; apply concat_repeat_nil|].
    cbn [cpus]. destruct (fill w T n 0 (x :: r)) as [a b] eqn:E.
    destruct (fill_spec _ _ _ _ _ _ E) as (H1 & H2 & H3 & _).
    simpl. rewrite H1. f_equal. rewrite H1, sum_app in Hs.
    assert (Hb : forall y, In y b -> 0 <= w y) by (intros y Hy; apply Hw; rewrite H1; apply in_or_app; auto).
    assert (Sb : 0 <= sum b).
    { clear - Hb. induction b as [|y b IHb]; simpl; [lia|].
      assert (0 <= w y) by (apply Hb; left; reflexivity).
      assert (0 <= sum b) by (apply IHb; intros; apply Hb; right; assumption). lia. }
    destruct b as [|y b].
    - destruct k; [reflexivity|cbn [cpus]; apply concat_repeat_nil].
    - assert (H3' : T < (0 + sum a) * n) by (apply H3; discriminate).
      apply IH; auto; nia.
  Qed.

  Lemma even_cpu_load_all items ncpu res : even_cpu_load w items ncpu = Some res ->
    (forall x, In x items -> 0 <= w x) ->
    length res = ncpu /\ concat res = rev items.
  Proof.
    unfold even_cpu_load. destruct (Nat.ltb_spec (length (rev items)) ncpu) as [|Hge]; [discriminate|].
    destruct ncpu as [|k]; [discriminate|]. intros H Hw.
    assert (E : res = cpus w (sum (rev items)) (Z.of_nat (S k)) (S k) (rev items)) by congruence.
    rewrite E. split; [apply cpus_length|]. apply cpus_concat; try lia.
    intros x Hx. apply Hw. apply in_rev. exact Hx.
  Qed.

  (** no CPU gets more than the average plus its last item *)
  Lemma cpus_bound T n k : 0 < n -> 0 <= T -> forall items l c x, In l (cpus w T n k items) -> l = c ++ [x] ->
    sum c * n <= T.
  Proof.
    intros Hn HT. induction k as [|k IH]; intros items l c x Hin E; [contradiction|].
    destruct items as [|y r].
    - cbn [cpus] in Hin. apply repeat_spec in Hin. subst. destruct c; discriminate.
    - cbn [cpus] in Hin. destruct (fill w T n 0 (y :: r)) as [a b] eqn:Ef.
      destruct Hin as [<-|Hin]; [|eapply IH; eauto].
      destruct (fill_spec _ _ _ _ _ _ Ef) as (_ & _ & _ & H4).
      specialize (H4 c x E). lia.
  Qed.
End Load.

Lemma even_cpu_load_bound {A} (w : A -> Z) items ncpu res : even_cpu_load w items ncpu = Some res ->
  (forall x, In x items -> 0 <= w x) ->
  forall l c x, In l res -> l = c ++ [x] ->
  fold_right (fun x s => w x + s) 0 c * Z.of_nat ncpu <= fold_right (fun x s => w x + s) 0 items.
Proof.
  unfold even_cpu_load. destruct (Nat.ltb_spec (length (rev items)) ncpu) as [|Hge]; [discriminate|].
  destruct ncpu as [|k]; [discriminate|]. intros H Hw.
  assert (E0 : res = cpus w (fold_right (fun x s => w x + s) 0 (rev items)) (Z.of_nat (S k)) (S k) (rev items)) by congruence.
  rewrite E0. clear H E0.
  assert (S0 : fold_right (fun x s => w x + s) 0 (rev items) = fold_right (fun x s => w x + s) 0 items).
  { clear. induction items as [|x r IH]; [reflexivity|]. simpl. rewrite (sum_app w), IH. simpl. lia. }
  intros l c x Hl E. rewrite S0 in Hl.
  refine (cpus_bound w _ (Z.of_nat (S k)) _ _ _ _ _ _ _ Hl E); [lia|].
  clear - Hw. induction items as [|y r IH]; simpl; [lia|].
  assert (0 <= w y) by (apply Hw; left; reflexivity).
  assert (0 <= fold_right (fun x s => w x + s) 0 r) by (apply IH; intros; apply Hw; right; assumption). lia.
Qed.

Lemma even_cpu_load_raises {A} (w : A -> Z) items ncpu : even_cpu_load w items ncpu = None <->
  (length items < ncpu)%nat \/ ncpu = O.
Proof.
  unfold even_cpu_load. rewrite rev_length. destruct (Nat.ltb_spec (length items) ncpu).
  - split; auto.
  - destruct ncpu; split; try discriminate; auto. intros [?|?]; lia.
Qed.

Lemma combine_in_fst {A B} (l : list A) (m : list B) p : In p (combine l m) -> In (fst p) l.
Proof. destruct p. apply in_combine_l. Qed.
Lemma combine_snd {A B} (l : list A) (m : list B) : length l = length m -> map snd (combine l m) = m.
Proof. revert m. induction l; destruct m; simpl; intros; try discriminate; f_equal; auto. Qed.
Lemma combine_fst {A B} (l : list A) (m : list B) : length l = length m -> map fst (combine l m) = l.
Proof. revert m. induction l; destruct m; simpl; intros; try discriminate; f_equal; auto. Qed.

Lemma cpu_sizes_all N ncpu power res : cpu_sizes N ncpu power = Some res -> Forall (Z.le 0) N ->
  length res = ncpu /\ concat res = rev N.
Proof.
  intros H HN. apply (even_cpu_load_all _ _ _ _ H). intros x Hx.
  rewrite Forall_forall in HN. apply Z.pow_nonneg, HN, Hx.
Qed.

Lemma cpu_indices_all N ncpu power res : cpu_indices N ncpu power = Some res -> Forall (Z.le 0) N ->
  length res = ncpu /\ concat res = rev (seq 0 (length N)).
Proof.
  unfold cpu_indices. intros H HN.
  destruct (even_cpu_load _ _ _) as [r|] eqn:E; [|discriminate]. injection H as <-.
  apply even_cpu_load_all in E.
  - destruct E as [E1 E2]. rewrite map_length. split; [exact E1|].
    rewrite <- concat_map, E2, map_rev, combine_snd; [reflexivity|]. rewrite seq_length. reflexivity.
  - intros p Hp. rewrite Forall_forall in HN. apply Z.pow_nonneg, HN, (combine_in_fst _ _ _ Hp).
Qed.

(** the same distribution in both modes: the sizes at the returned positions *)
Lemma fill_map {A B} (f : A -> B) (w : B -> Z) T n items : forall acc,
  fill w T n acc (map f items) =
  (map f (fst (fill (fun x => w (f x)) T n acc items)), map f (snd (fill (fun x => w (f x)) T n acc items))).
Proof.
  induction items as [|x r IH]; intros acc; [reflexivity|]. cbn [fill map].
  destruct (T <? (acc + w (f x)) * n); [reflexivity|]. rewrite IH.
  destruct (fill (fun x0 => w (f x0)) T n (acc + w (f x)) r); reflexivity.
Qed.
Lemma cpus_map {A B} (f : A -> B) (w : B -> Z) T n k : forall items,
  cpus w T n k (map f items) = map (map f) (cpus (fun x => w (f x)) T n k items).
Proof.
  induction k as [|k IH]; intros items; [reflexivity|]. destruct items as [|x r].
  - cbn [cpus map]. clear. induction (S k); simpl; [reflexivity|]. f_equal. assumption.
  - cbn [cpus]. change (map f (x :: r)) with (f x :: map f r). cbn [cpus].
    change (f x :: map f r) with (map f (x :: r)). rewrite fill_map.
    destruct (fill (fun x0 => w (f x0)) T n 0 (x :: r)) as [a b]. cbn [fst snd map]. f_equal. apply IH.
Qed.

Lemma even_cpu_load_map {A B} (f : A -> B) (w : B -> Z) items ncpu :
  even_cpu_load w (map f items) ncpu =
  option_map (map (map f)) (even_cpu_load (fun x => w (f x)) items ncpu).
Proof.
  unfold even_cpu_load. rewrite <- map_rev, map_length.
  replace (fold_right (fun x s => w x + s) 0 (map f (rev items)))
    with (fold_right (fun x s => w (f x) + s) 0 (rev items))
    by (induction (rev items); simpl; congruence).
  destruct (_ <? _)%nat; [reflexivity|]. destruct ncpu; [reflexivity|].
  rewrite cpus_map. reflexivity.
Qed.

Lemma even_cpu_load_in {A} (w : A -> Z) items ncpu res :
  even_cpu_load w items ncpu = Some res -> forall l x, In l res -> In x l -> In x items.
Proof.
  unfold even_cpu_load. destruct (_ <? _)%nat; [discriminate|]. destruct ncpu as [|k]; [discriminate|].
  generalize (fold_right (fun x s => w x + s) 0 (rev items)) (Z.of_nat (S k)). intros T n H.
  assert (E0 : res = cpus w T n (S k) (rev items)) by congruence. rewrite E0. clear H E0.
  intros l x Hl Hx. apply in_rev. revert l Hl Hx. generalize (rev items). generalize (S k).
  clear. induction n0 as [|k IH]; intros items l Hl Hx; [contradiction|].
  destruct items as [|y r].
  - cbn [cpus] in Hl. apply repeat_spec in Hl. subst. contradiction.
  - cbn [cpus] in Hl. destruct (fill w T n 0 (y :: r)) as [a b] eqn:E.
    destruct (fill_spec _ _ _ _ _ _ _ E) as (H1 & _). rewrite H1. apply in_or_app.
    destruct Hl as [<-|Hl]; [left; assumption|right]. eapply IH; eauto.
Qed.

Lemma cpu_modes_agree N ncpu power :
  cpu_sizes N ncpu power =
  option_map (map (map (fun i => nth i N 0))) (cpu_indices N ncpu power).
Proof.
  unfold cpu_sizes, cpu_indices.
  rewrite <- (combine_fst N (seq 0 (length N))) at 1 by (rewrite seq_length; reflexivity).
  rewrite (even_cpu_load_map fst (fun n => n ^ Z.of_nat power)).
  destruct (even_cpu_load _ _ _) as [r|] eqn:E; [|reflexivity]. simpl. f_equal.
  rewrite map_map. apply map_ext_in. intros l Hl. rewrite map_map. apply map_ext_in. intros p Hp.
  pose proof (even_cpu_load_in _ _ _ _ E _ _ Hl Hp) as Hin. clear - Hin.
  destruct (In_nth _ _ (0, O) Hin) as (i & Hi & Ei).
  rewrite combine_length, seq_length, Nat.min_id in Hi.
  rewrite combine_nth in Ei by (rewrite seq_length; reflexivity).
  rewrite seq_nth in Ei by exact Hi. subst p. simpl. reflexivity.
Qed.

Example ex_load : even_cpu_load (fun n => n ^ 3) [3; 5; 2; 6; 4] 2 = Some [[4; 6]; [2; 5; 3]].
Proof. reflexivity. Qed.
Example ex_load_i : cpu_indices [3; 5; 2; 6; 4] 2 3 = Some [[4; 3]; [2; 1; 0]]%nat.
Proof. reflexivity. Qed.

(** ** divisors *)
Lemma down_spec k i : In i (down k) <-> 1 <= i <= Z.of_nat k.
Proof.
  induction k as [|k IH]; [simpl; lia|].
  cbn [down In]. rewrite IH. lia.
Qed.

Lemma down_sorted k : StronglySorted Z.gt (down k).
Proof.
  induction k as [|k IH]; [constructor|]. cbn [down]. constructor; [exact IH|].
  apply Forall_forall. intros i Hi. apply down_spec in Hi. lia.
Qed.

Lemma filter_sorted f l : StronglySorted Z.gt l -> StronglySorted Z.gt (filter f l).
Proof.
  induction 1 as [|a l H IH Hf]; simpl; [constructor|]. destruct (f a); [|exact IH].
  constructor; [exact IH|]. apply Forall_forall. intros x Hx. apply filter_In in Hx.
  rewrite Forall_forall in Hf. apply Hf, Hx.
Qed.

Lemma divisors_spec x : 0 < x -> (forall i, In i (divisors x) <-> 0 < i /\ (i | x)) /\
  StronglySorted Z.gt (divisors x).
Proof.
  intros Hx. unfold divisors. split.
  - intros i. cbn [In]. rewrite filter_In, down_spec, Z2Nat.id by lia. split.
    + intros [<-|[H1 H2]]; [split; [lia|apply Z.divide_refl]|]. split; [lia|].
      apply Z.mod_divide; lia.
    + intros [H1 H2]. pose proof (Z.divide_pos_le i x Hx H2) as H3.
      destruct (Z.eq_dec x i) as [|Hne]; [left; assumption|right].
      destruct H2 as [q Hq]. assert (2 <= q) by nia. split; [|apply Z.eqb_eq, Z.mod_divide; [lia|exists q; exact Hq]].
      split; [lia|]. apply Z.div_le_lower_bound; nia.
  - constructor; [apply filter_sorted, down_sorted|]. apply Forall_forall. intros i Hi.
    apply filter_In in Hi. destruct Hi as [Hi _]. apply down_spec in Hi.
    rewrite Z2Nat.id in Hi by lia. lia.
Qed.

(** ** gcd *)
Lemma gcd_loop_spec fuel : forall a b, Z.abs b < Z.of_nat fuel ->
  exists g, gcd_loop fuel a b = Some g /\ Z.abs g = Z.gcd a b /\ (0 <= a -> 0 <= b -> 0 <= g).
Proof.
  induction fuel as [|f IH]; intros a b Hf; [lia|]. cbn [gcd_loop].
  destruct (Z.eqb_spec b 0) as [->|Hb].
  - exists a. rewrite Z.gcd_0_r. auto.
  - destruct (IH b (a mod b)) as (g & H1 & H2 & H3).
    + destruct (Z.lt_trichotomy b 0) as [H|[H|H]]; [|lia|].
      * pose proof (Z.mod_neg_bound a b H). lia.
      * pose proof (Z.mod_pos_bound a b H). lia.
    + exists g. split; [exact H1|]. split.
      * rewrite H2, (Z.gcd_comm b), Z.gcd_mod by exact Hb. apply Z.gcd_comm.
      * intros Ha Hb'. apply H3; [exact Hb'|]. apply Z.mod_pos_bound. lia.
Qed.

Lemma gcd_spec a b : exists g, gcd a b = Some g /\ Z.abs g = Z.gcd a b /\ (0 <= a -> 0 <= b -> g = Z.gcd a b).
Proof.
  destruct (gcd_loop_spec (S (Z.to_nat (Z.abs b))) a b) as (g & H1 & H2 & H3); [lia|].
  exists g. split; [exact H1|]. split; [exact H2|]. intros Ha Hb. specialize (H3 Ha Hb). lia.
Qed.

(** ** sec_to_time *)
Lemma sec_to_time_int_spec secs :
  let '(d, h, m, s) := sec_to_time_int secs in
  secs = 86400 * d + 3600 * h + 60 * m + s /\ 0 <= h < 24 /\ 0 <= m < 60 /\ 0 <= s < 60.
Proof. unfold sec_to_time_int. cbv zeta. repeat split; lia. Qed.

Local Open Scope R_scope.
Lemma Int_part_bounds r : IZR (Int_part r) <= r < IZR (Int_part r) + 1.
Proof. destruct (base_Int_part r). lra. Qed.

Lemma Int_part_unique r z : IZR z <= r < IZR z + 1 -> Int_part r = z.
Proof.
  intros [H1 H2]. pose proof (Int_part_bounds r) as [H3 H4].
  assert (IZR z < IZR (Int_part r + 1)) by (rewrite plus_IZR; lra).
  assert (IZR (Int_part r) < IZR (z + 1)) by (rewrite plus_IZR; lra).
  apply lt_IZR in H, H0. lia.
Qed.

Lemma fdiv_bounds x k : 0 < k -> k * IZR (fdiv x k) <= x < k * IZR (fdiv x k) + k.
Proof.
  intros Hk. unfold fdiv. pose proof (Int_part_bounds (x / k)) as [H1 H2].
  assert (E : x = k * (x / k)) by (field; lra). split.
  - rewrite E at 2. apply Rmult_le_compat_l; lra.
  - rewrite E at 1. apply Rlt_le_trans with (k * (IZR (Int_part (x / k)) + 1)); [apply Rmult_lt_compat_l; lra|lra].
Qed.

Lemma sec_to_time_spec secs :
  let '(d, h, m, s) := sec_to_time secs in
  Rabs (secs - IZR (86400 * d + 3600 * h + 60 * m + s)) <= / 2 /\
  (0 <= h < 24)%Z /\ (0 <= m < 60)%Z /\ (0 <= s <= 60)%Z.
Proof.
  unfold sec_to_time. cbv zeta.
  pose proof (fdiv_bounds secs 86400 ltac:(lra)) as [A1 A2].
  pose proof (fdiv_bounds secs 3600 ltac:(lra)) as [B1 B2].
  pose proof (fdiv_bounds secs 60 ltac:(lra)) as [C1 C2].
  pose proof (fdiv_bounds (fmod secs 86400) 3600 ltac:(lra)) as [D1 D2].
  pose proof (fdiv_bounds (fmod secs 3600) 60 ltac:(lra)) as [E1 E2].
  unfold fmod in *. set (d := fdiv secs 86400) in *. set (H := fdiv secs 3600) in *. set (M := fdiv secs 60) in *.
  set (h := fdiv (secs - 86400 * IZR d) 3600) in *. set (m := fdiv (secs - 3600 * IZR H) 60) in *.
  (* H = 24 d + h, M = 60 H + m *)
  assert (EH : H = (24 * d + h)%Z).
  { apply Int_part_unique. rewrite plus_IZR, mult_IZR.
    assert (secs = 3600 * (secs / 3600)) by field. split; lra. }
  assert (EM : M = (60 * H + m)%Z).
  { apply Int_part_unique. rewrite plus_IZR, mult_IZR.
    assert (secs = 60 * (secs / 60)) by field. split; lra. }
  pose proof (Int_part_bounds (secs - 60 * IZR M + / 2)) as [F1 F2].
  set (s := Int_part (secs - 60 * IZR M + / 2)) in *.
  assert (EI : IZR (86400 * d + 3600 * h + 60 * m + s) = 60 * IZR M + IZR s).
  { rewrite EM, EH. rewrite !plus_IZR, !mult_IZR, !plus_IZR, !mult_IZR. ring. }
  repeat split.
  - rewrite EI. unfold Rabs. destruct (Rcase_abs _); lra.
  - assert (X : -1 < IZR h) by lra. apply (lt_IZR (-1)) in X. lia.
  - assert (X : IZR h < 24) by lra. apply lt_IZR in X. lia.
  - assert (X : -1 < IZR m) by lra. apply (lt_IZR (-1)) in X. lia.
  - assert (X : IZR m < 60) by lra. apply lt_IZR in X. lia.
  - assert (X : -1 < IZR s) by lra. apply (lt_IZR (-1)) in X. lia.
  - assert (X : IZR s < 61) by lra. apply lt_IZR in X. lia.
Qed.

Lemma sec_to_time_refuted : exists secs, 0 <= secs /\
  let '(d, h, m, s) := sec_to_time secs in (60 <= s)%Z.
Proof.
  exists (597/10). split; [lra|]. unfold sec_to_time. cbv zeta. unfold fmod.
  assert (E : fdiv (597/10) 60 = 0%Z) by (apply Int_part_unique; split; lra).
  rewrite E. replace (597 / 10 - 60 * 0 + / 2) with (602 / 10) by lra.
  rewrite (Int_part_unique (602/10) 60) by (split; lra). lia.
Qed.
Local Close Scope R_scope.

(** ** file names *)
Lemma rfind_some c s i : rfind c s = Some i ->
  s = firstn i s ++ c :: skipn (S i) s /\ ~ In c (skipn (S i) s).
Proof.
  revert i. induction s as [|x r IH]; intros i H; [discriminate|]. simpl in H.
  destruct (rfind c r) as [j|] eqn:E.
  - injection H as <-. destruct (IH j eq_refl) as [H1 H2]. split; [|exact H2].
    cbn [firstn skipn app]. f_equal. exact H1.
  - destruct (ascii_dec x c) as [->|]; [|discriminate]. injection H as <-. split; [reflexivity|].
    simpl. clear - E. induction r as [|y r IHr]; [intros []|]. simpl in E.
    destruct (rfind c r) eqn:E'; [discriminate|]. destruct (ascii_dec y c); [discriminate|].
    intros [H|H]; [contradiction|]. exact (IHr eq_refl H).
Qed.

Lemma rfind_none c s : rfind c s = None <-> ~ In c s.
Proof.
  induction s as [|x r IH]; simpl; [tauto|]. destruct (rfind c r) as [j|] eqn:E.
  - split; [discriminate|]. intros H. exfalso. apply H. right.
    destruct (in_dec ascii_dec c r) as [|N]; [assumption|]. apply IH in N. discriminate.
  - destruct (ascii_dec x c) as [->|]; split; try discriminate; try tauto.
Qed.

Lemma base_and_extension_spec f : In dot_char f ->
  let '(b, e) := base_and_extension f in f = b ++ dot_char :: e /\ ~ In dot_char e.
Proof.
  intros H. unfold base_and_extension. destruct (rfind dot_char f) as [i|] eqn:E.
  - apply rfind_some, E.
  - apply rfind_none in E. contradiction.
Qed.

(** without a dot the whole name is the "extension" and the base loses a letter *)
Lemma base_and_extension_refuted : exists f, f <> [] /\ ~ In dot_char f /\
  let '(b, e) := base_and_extension f in b <> f /\ e = f /\ b ++ e <> f.
Proof.
  exists ["a"; "b"]%char. split; [discriminate|]. split.
  - intros [H|[H|[]]]; discriminate.
  - vm_compute. repeat split; discriminate.
Qed.

Lemma add_file_appendix_spec file app :
  (~ In dot_char file -> add_file_appendix file app = file ++ "_"%char :: app) /\
  (forall b e, file = b ++ dot_char :: e -> ~ In dot_char e ->
     add_file_appendix file app = b ++ "_"%char :: app ++ dot_char :: e).
Proof.
  unfold add_file_appendix. split.
  - intros H. apply rfind_none in H. rewrite H. reflexivity.
  - intros b e E He.
    assert (R : rfind dot_char file = Some (length b)).
    { subst file. clear - He. induction b as [|x b IH]; simpl.
      - apply rfind_none in He. rewrite He. reflexivity.
      - rewrite IH. reflexivity. }
    rewrite R. subst file. rewrite firstn_app, Nat.sub_diag, firstn_all, firstn_O, app_nil_r.
    rewrite skipn_app, Nat.sub_diag, skipn_all. reflexivity.
Qed.

(** a dot in the directory part changes the directory *)
Lemma add_file_appendix_refuted : exists dir name app, ~ In "/"%char name /\ ~ In "/"%char app /\
  forall name', ~ In "/"%char name' ->
  add_file_appendix (dir ++ "/"%char :: name) app <> dir ++ "/"%char :: name'.
Proof.
  exists ["r"; "."; "d"]%char, ["a"]%char, ["1"]%char.
  split; [intros [H|[]]; discriminate|]. split; [intros [H|[]]; discriminate|].
  intros name' _. vm_compute. intros H. injection H as H. discriminate.
Qed.
