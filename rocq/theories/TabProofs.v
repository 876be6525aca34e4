From Coq Require Import Reals List Bool Arith String Lia Lra.
From Verif Require Import Vec SkModel SplModel SplSpec SplProofs TabModel TabSpec.
Import ListNotations.
Open Scope list_scope.

Lemma key_eqb_eq a b : key_eqb a b = true <-> a = b.
Proof.
  destruct a as [a1 a2], b as [b1 b2]. unfold key_eqb. cbn [fst snd]. rewrite andb_true_iff, !String.eqb_eq. split; [intros [-> ->]; reflexivity|intros [= -> ->]; auto].
Qed.
Lemma key_eqb_refl a : key_eqb a a = true.
Proof. apply key_eqb_eq. reflexivity. Qed.
Lemma key_eqb_neq a b : a <> b -> key_eqb a b = false.
Proof. intros H. destruct (key_eqb a b) eqn:E; [|reflexivity]. apply key_eqb_eq in E. contradiction. Qed.
Lemma key_dec (a b : key) : {a = b} + {a <> b}.
Proof. destruct (key_eqb a b) eqn:E; [left; apply key_eqb_eq; exact E|right; intros ->; rewrite key_eqb_refl in E; discriminate]. Qed.
Lemma set_same f k v : set_file f k v k = Some v.
Proof. unfold set_file. rewrite key_eqb_refl. reflexivity. Qed.
Lemma set_other f k v q : q <> k -> set_file f k v q = f q.
Proof. intros H. unfold set_file. rewrite key_eqb_neq by exact H. reflexivity. Qed.
Lemma lookup_app {V} (p l : list (key * V)) k : lookup (p ++ l) k = match lookup p k with Some v => Some v | None => lookup l k end.
Proof. induction p as [|[q v] p IH]; [reflexivity|]. cbn. destruct (key_eqb q k); [reflexivity|exact IH]. Qed.
Lemma lookup_In {V} (l : list (key * V)) k v : lookup l k = Some v -> In (k, v) l.
Proof. induction l as [|[q w] l IH]; cbn; [discriminate|]. destruct (key_eqb q k) eqn:E; [intros [= ->]; apply key_eqb_eq in E as ->; left; reflexivity|right; auto]. Qed.
Lemma lookup_None {V} (l : list (key * V)) k : lookup l k = None <-> ~ In k (map fst l).
Proof.
  induction l as [|[q w] l IH]; cbn; [tauto|]. destruct (key_eqb q k) eqn:E.
  - apply key_eqb_eq in E. split; [discriminate|]. intros H. exfalso. apply H. left. exact E.
  - rewrite IH. split; [intros H [G|G]; [rewrite G, key_eqb_refl in E; discriminate|contradiction]|tauto].
Qed.
Lemma existsb_lookup {V} (l : list (key * V)) k : existsb (fun t => key_eqb (fst t) k) l = match lookup l k with Some _ => true | None => false end.
Proof. induction l as [|[q w] l IH]; [reflexivity|]. cbn. destruct (key_eqb q k); [reflexivity|exact IH]. Qed.

Section Proofs.
Variables (isfile : string -> bool) (dir : string).
Notation custom := (custom isfile dir). Notation defaults := (defaults isfile dir).
Definition inv (all p : list (key * option string)) (f : files) : Prop := forall a b, f (a, b) =
  match lookup p (a, b) with
  | Some v => Some (chosen dir v)
  | None => match lookup all (a, b) with Some _ => None | None => option_map (chosen dir) (lookup p (b, a)) end
  end.
Lemma custom_step all : forall tables p f g, NoDup (map fst all) -> all = p ++ tables -> inv all p f -> custom all tables f = Some g -> inv all all g.
Proof.
  induction tables as [|[[e1 e2] v] tables IH]; intros p f g ND E I H; cbn [TabModel.custom] in H.
  - injection H as <-. rewrite app_nil_r in E. subst p. exact I.
  - fold (chosen dir v) in H. destruct (isfile (chosen dir v)); [|discriminate].
    apply (IH (p ++ [((e1, e2), v)]) _ g ND) in H; [exact H|rewrite <- app_assoc; exact E|].
    assert (L1 : lookup p (e1, e2) = None).
    { apply lookup_None. intros G. rewrite E, map_app in ND. cbn in ND. apply NoDup_remove_2 in ND. apply ND. apply in_or_app. left. exact G. }
    assert (LA : lookup all (e1, e2) = Some v) by (rewrite E, lookup_app, L1; cbn; rewrite key_eqb_refl; reflexivity).
    intros a b. rewrite !lookup_app. cbn [lookup]. rewrite existsb_lookup.
    destruct (key_dec (a, b) (e1, e2)) as [K|K].
    + injection K as -> ->. rewrite L1, key_eqb_refl. destruct (lookup all (e2, e1)) eqn:LB; [apply set_same|].
      destruct (key_dec (e1, e2) (e2, e1)) as [Q|Q]; [rewrite Q; apply set_same|]. rewrite set_other by exact Q. apply set_same.
    + rewrite (key_eqb_neq (e1, e2) (a, b)) by congruence. destruct (key_dec (a, b) (e2, e1)) as [M|M].
      * injection M as -> ->. rewrite L1, (key_eqb_refl (e1, e2)). destruct (lookup all (e2, e1)) as [w|] eqn:LB.
        { rewrite set_other by exact K. rewrite (I e2 e1), LB. destruct (lookup p (e2, e1)); reflexivity. }
        { rewrite set_same. assert (lookup p (e2, e1) = None) as ->; [|reflexivity]. rewrite E, lookup_app in LB. destruct (lookup p (e2, e1)); [discriminate|reflexivity]. }
      * rewrite (key_eqb_neq (e1, e2) (b, a)) by congruence.
        transitivity (f (a, b)); [destruct (lookup all (e2, e1)); [|rewrite set_other by exact M]; apply set_other; exact K|]. rewrite (I a b). destruct (lookup p (a, b)); [reflexivity|]. destruct (lookup all (a, b)); [reflexivity|]. destruct (lookup p (b, a)); reflexivity.
Qed.
Lemma custom_files l g : NoDup (map fst l) -> custom l l (fun _ => None) = Some g -> forall a b, g (a, b) = requested dir l a b.
Proof.
  intros ND H a b. pose proof (custom_step l l [] (fun _ => None) g ND eq_refl) as G. specialize (G ltac:(intros x y; cbn; destruct (lookup l (x, y)); reflexivity) H a b).
  rewrite G. unfold requested. destruct (lookup l (a, b)); [reflexivity|]. destruct (lookup l (b, a)); reflexivity.
Qed.
Lemma custom_error all : forall tables f, custom all tables f = None <-> exists k v, In (k, v) tables /\ isfile (chosen dir v) = false.
Proof.
  induction tables as [|[[e1 e2] v] tables IH]; intros f; cbn [TabModel.custom].
  - split; [discriminate|]. intros (k & v & [] & _).
  - fold (chosen dir v). destruct (isfile (chosen dir v)) eqn:E.
    + rewrite IH. split; [intros (k & w & H & G); exists k, w; split; [right; exact H|exact G]|]. intros (k & w & [H|H] & G); [injection H as <- <-; congruence|]. exists k, w. auto.
    + split; [|reflexivity]. intros _. exists (e1, e2), v. split; [left; reflexivity|exact E].
Qed.

Definition symdom (f : files) : Prop := forall a b, f (a, b) = None -> f (b, a) = None.
Definition isdef (a b : symbol) (v : string) : Prop := isfile v = true /\ (v = join dir (par a b) \/ v = join dir (par b a)).
Lemma default_pair_ok f e1 e2 g : symdom f -> default_pair isfile dir f (e1, e2) = Some g ->
  symdom g /\ (forall k v, f k = Some v -> g k = Some v) /\ g (e1, e2) <> None /\
  (forall a b, f (a, b) = None -> g (a, b) = None \/ g (a, b) = g (b, a) /\ exists v, g (a, b) = Some v /\ isdef a b v).
Proof.
  intros Sd H. unfold default_pair in H. destruct (f (e1, e2)) as [v|] eqn:F.
  - injection H as <-. split; [exact Sd|]. split; [auto|]. split; [congruence|]. intros a b E. left. exact E.
  - assert (G : exists w, isdef e1 e2 w /\ g = set_file (set_file f (e1, e2) w) (e2, e1) w).
    { destruct (isfile (join dir (par e1 e2))) eqn:E1; [injection H as <-; eexists; split; [|reflexivity]; split; auto|].
      destruct (isfile (join dir (par e2 e1))) eqn:E2; [injection H as <-; eexists; split; [|reflexivity]; split; auto|discriminate]. }
    destruct G as (w & W & ->). clear H.
    assert (V : forall a b, set_file (set_file f (e1, e2) w) (e2, e1) w (a, b) = if key_eqb (a, b) (e2, e1) || key_eqb (a, b) (e1, e2) then Some w else f (a, b)).
    { intros a b. unfold set_file. destruct (key_eqb (a, b) (e2, e1)); [reflexivity|]. destruct (key_eqb (a, b) (e1, e2)); reflexivity. }
    assert (Sw : forall a b, key_eqb (a, b) (e2, e1) || key_eqb (a, b) (e1, e2) = key_eqb (b, a) (e2, e1) || key_eqb (b, a) (e1, e2)).
    { intros a b. apply eq_true_iff_eq. rewrite !orb_true_iff, !key_eqb_eq. split; (intros [[= -> ->]|[= -> ->]]; auto). }
    repeat split.
    + intros a b. rewrite !V, (Sw a b). destruct (_ || _); [discriminate|]. apply Sd.
    + intros [a b] u E. rewrite V. destruct (_ || _) eqn:Q; [|exact E]. exfalso. apply orb_true_iff in Q as [Q|Q]; apply key_eqb_eq in Q; rewrite Q in E; [rewrite (Sd _ _ F) in E|rewrite F in E]; discriminate.
    + rewrite V, key_eqb_refl, orb_true_r. discriminate.
    + intros a b E. rewrite !V, <- (Sw a b). destruct (_ || _) eqn:Q; [|left; exact E]. right. split; [reflexivity|]. exists w. split; [reflexivity|].
      apply orb_true_iff in Q as [Q|Q]; apply key_eqb_eq in Q; injection Q as -> ->; destruct W as [W1 W2]; split; tauto.
Qed.
Lemma defaults_ok : forall l f g, symdom f -> defaults l f = Some g ->
  symdom g /\ (forall k v, f k = Some v -> g k = Some v) /\ (forall k, In k l -> g k <> None) /\
  (forall a b, f (a, b) = None -> g (a, b) = None \/ g (a, b) = g (b, a) /\ exists v, g (a, b) = Some v /\ isdef a b v).
Proof.
  induction l as [|[e1 e2] l IH]; intros f g Sd H; cbn [TabModel.defaults] in H.
  - injection H as <-. split; [exact Sd|]. split; [auto|]. split; [intros k []|]. intros a b E. left. exact E.
  - destruct (default_pair isfile dir f (e1, e2)) as [f'|] eqn:D; [|discriminate].
    destruct (default_pair_ok f e1 e2 f' Sd D) as (S' & K' & N' & Q'). destruct (IH f' g S' H) as (S2 & K2 & N2 & Q2).
    split; [exact S2|]. split; [auto|]. split.
    + intros k [<-|Hk]; [|apply N2; exact Hk]. destruct (f' (e1, e2)) as [v|] eqn:E; [|contradiction]. rewrite (K2 _ _ E). discriminate.
    + intros a b E. destruct (Q' a b E) as [Z|(Ea & v & Ev & W)]; [apply Q2; exact Z|]. right. rewrite (K2 _ _ Ev). rewrite Ea in Ev. rewrite (K2 _ _ Ev). split; [reflexivity|]. exists v. auto.
Qed.
Lemma defaults_error : forall l f, symdom f -> defaults l f = None <->
  exists a b, In (a, b) l /\ f (a, b) = None /\ isfile (join dir (par a b)) = false /\ isfile (join dir (par b a)) = false.
Proof.
  induction l as [|[e1 e2] l IH]; intros f Sd; cbn [TabModel.defaults].
  - split; [discriminate|]. intros (a & b & [] & _).
  - destruct (default_pair isfile dir f (e1, e2)) as [f'|] eqn:D.
    + destruct (default_pair_ok f e1 e2 f' Sd D) as (S' & K' & N' & Q'). rewrite (IH f' S'). split.
      * intros (a & b & Hl & E & X & Y). exists a, b. split; [right; exact Hl|]. split; [|auto]. destruct (f (a, b)) as [v|] eqn:F; [|reflexivity]. rewrite (K' _ _ F) in E. discriminate.
      * intros (a & b & Hl & E & X & Y). destruct (Q' a b E) as [Z|(Ea & v & Ev & W1 & W2)].
        { destruct Hl as [Hl|Hl]; [injection Hl as -> ->; contradiction|]. exists a, b. auto. }
        { exfalso. destruct W2 as [-> | ->]; congruence. }
    + split; [|reflexivity]. intros _. unfold default_pair in D. destruct (f (e1, e2)) eqn:F; [discriminate|].
      destruct (isfile (join dir (par e1 e2))) eqn:E1; [discriminate|]. destruct (isfile (join dir (par e2 e1))) eqn:E2; [discriminate|].
      exists e1, e2. split; [left; reflexivity|auto].
Qed.
Lemma symdom_none : symdom (fun _ => None).
Proof. intros a b _. reflexivity. Qed.
Lemma in_pairs p a b : In (a, b) (pairs p) <-> In a p /\ In b p.
Proof.
  unfold pairs. rewrite in_flat_map. split.
  - intros (x & Hx & H). apply in_map_iff in H as (y & [= -> ->] & Hy). auto.
  - intros [A B]. exists a. split; [exact A|]. apply in_map_iff. exists b. auto.
Qed.
Lemma requested_sym l a b : requested dir l a b = None -> requested dir l b a = None.
Proof. unfold requested. destruct (lookup l (a, b)), (lookup l (b, a)); congruence. Qed.
Lemma forallb_pairs p (f : files) : forallb (fun k => match f k with Some _ => true | None => false end) (pairs p) = true <-> forall a b, In a p -> In b p -> f (a, b) <> None.
Proof.
  rewrite forallb_forall. split.
  - intros H a b Ha Hb. specialize (H (a, b) ltac:(apply in_pairs; auto)). destruct (f (a, b)); [discriminate|discriminate H].
  - intros H [a b] Hk. apply in_pairs in Hk as [Ha Hb]. specialize (H a b Ha Hb). destruct (f (a, b)); [reflexivity|contradiction].
Qed.
Lemma requested_isfile l g a b v : custom l l (fun _ => None) = Some g -> requested dir l a b = Some v -> isfile v = true.
Proof.
  intros H R. destruct (isfile v) eqn:E; [reflexivity|exfalso]. assert (custom l l (fun _ => None) = None) as N; [|congruence]. apply custom_error.
  unfold requested in R. destruct (lookup l (a, b)) as [w|] eqn:L; [injection R as <-; exists (a, b), w; split; [apply lookup_In; exact L|exact E]|].
  destruct (lookup l (b, a)) as [w|] eqn:L2; [injection R as <-; exists (b, a), w; split; [apply lookup_In; exact L2|exact E]|discriminate].
Qed.
(** the files used *)
Lemma files_used present t f a b : NoDup (map fst (given t)) -> use_files isfile dir present t = Some f -> In a present -> In b present ->
  match requested dir (given t) a b with
  | Some v => f (a, b) = Some v /\ isfile v = true
  | None => rest t = true /\ f (a, b) = f (b, a) /\ exists v, f (a, b) = Some v /\ isfile v = true /\ (v = join dir (par a b) \/ v = join dir (par b a))
  end.
Proof.
  intros ND H Ha Hb. unfold use_files, interaction_files in H.
  destruct t as [|l r]; cbn [given rest] in *.
  - destruct (defaults (pairs present) (fun _ => None)) as [g|] eqn:D; [|discriminate]. destruct (forallb _ _) in H; [|discriminate]. injection H as <-.
    destruct (defaults_ok _ _ _ symdom_none D) as (_ & _ & N & Q). cbn [requested lookup].
    destruct (Q a b eq_refl) as [Z|(E & v & Ev & W)]; [exfalso; apply (N (a, b)); [apply in_pairs; auto|exact Z]|].
    split; [reflexivity|]. split; [exact E|]. exists v. split; [exact Ev|exact W].
  - destruct (custom l l (fun _ => None)) as [c|] eqn:C; [|discriminate]. pose proof (custom_files l c ND C) as R.
    destruct r.
    + destruct (defaults (pairs present) c) as [g|] eqn:D; [|discriminate]. destruct (forallb _ _) in H; [|discriminate]. injection H as <-.
      assert (Sd : symdom c) by (intros x y; rewrite !R; apply requested_sym). destruct (defaults_ok _ _ _ Sd D) as (_ & K & N & Q).
      destruct (requested dir l a b) as [v|] eqn:E.
      * split; [apply K; rewrite R; exact E|]. apply (requested_isfile l c a b v C E).
      * assert (EN : c (a, b) = None) by (rewrite R; exact E). destruct (Q a b EN) as [Z|(E' & v & Ev & W)]; [exfalso; apply (N (a, b)); [apply in_pairs; auto|exact Z]|].
        split; [reflexivity|]. split; [exact E'|]. exists v. split; [exact Ev|exact W].
    + destruct (forallb (fun k => match c k with Some _ => true | None => false end) (pairs present)) eqn:FB; [|discriminate]. injection H as <-.
      pose proof (proj1 (forallb_pairs present c) FB a b Ha Hb) as N. rewrite R in N.
      destruct (requested dir l a b) as [v|] eqn:E; [|contradiction]. split; [rewrite R; exact E|apply (requested_isfile l c a b v C E)].
Qed.
Lemma files_error present t : NoDup (map fst (given t)) -> use_files isfile dir present t = None <->
  (exists k v, In (k, v) (given t) /\ isfile (chosen dir v) = false) \/
  (exists a b, In a present /\ In b present /\ requested dir (given t) a b = None /\
    (rest t = false \/ isfile (join dir (par a b)) = false /\ isfile (join dir (par b a)) = false)).
Proof.
  intros ND. unfold use_files, interaction_files. destruct t as [|l r]; cbn [given rest] in *.
  - destruct (defaults (pairs present) (fun _ => None)) as [g|] eqn:D.
    + destruct (defaults_ok _ _ _ symdom_none D) as (_ & _ & N & _).
      assert (F : forallb (fun k => match g k with Some _ => true | None => false end) (pairs present) = true) by (apply forallb_pairs; intros a b Ha Hb; apply N; apply in_pairs; auto).
      rewrite F. split; [discriminate|]. intros [(k & v & [] & _)|(a & b & Ha & Hb & _ & [E|[E1 E2]])]; [discriminate|].
      exfalso. assert (defaults (pairs present) (fun _ => None) = None) as X; [|congruence]. apply defaults_error; [exact symdom_none|]. exists a, b. split; [apply in_pairs; auto|auto].
    + split; [|reflexivity]. intros _. right. apply defaults_error in D; [|exact symdom_none]. destruct D as (a & b & Hl & _ & E1 & E2). apply in_pairs in Hl as [Ha Hb]. exists a, b. auto 7.
  - destruct (custom l l (fun _ => None)) as [c|] eqn:C.
    + pose proof (custom_files l c ND C) as R. assert (Sd : symdom c) by (intros x y; rewrite !R; apply requested_sym).
      assert (NC : ~ exists k v, In (k, v) l /\ isfile (chosen dir v) = false) by (intros G; apply (custom_error l l (fun _ => None)) in G; congruence).
      destruct r.
      * destruct (defaults (pairs present) c) as [g|] eqn:D.
        { destruct (defaults_ok _ _ _ Sd D) as (_ & _ & N & _).
          assert (F : forallb (fun k => match g k with Some _ => true | None => false end) (pairs present) = true) by (apply forallb_pairs; intros a b Ha Hb; apply N; apply in_pairs; auto).
          rewrite F. split; [discriminate|]. intros [G|(a & b & Ha & Hb & E & [X|[E1 E2]])]; [contradiction|discriminate|].
          exfalso. assert (defaults (pairs present) c = None) as X; [|congruence]. apply defaults_error; [exact Sd|]. exists a, b. split; [apply in_pairs; auto|]. rewrite R. auto. }
        { split; [|reflexivity]. intros _. right. apply defaults_error in D; [|exact Sd]. destruct D as (a & b & Hl & E & E1 & E2). rewrite R in E. apply in_pairs in Hl as [Ha Hb]. exists a, b. auto 7. }
      * destruct (forallb (fun k => match c k with Some _ => true | None => false end) (pairs present)) eqn:F.
        { split; [discriminate|]. intros [G|(a & b & Ha & Hb & E & _)]; [contradiction|]. exfalso. apply (proj1 (forallb_pairs present c) F a b Ha Hb). rewrite R. exact E. }
        { split; [|reflexivity]. intros _. right.
          assert (X : exists k, In k (pairs present) /\ c k = None).
          { clear - F. induction (pairs present) as [|k ks IH]; cbn in F; [discriminate|]. destruct (c k) eqn:E; [destruct (IH F) as (q & Q & E'); exists q; split; [right; exact Q|exact E']|exists k; split; [left; reflexivity|exact E]]. }
          destruct X as ([a b] & Hk & E). apply in_pairs in Hk as [Ha Hb]. exists a, b. rewrite R in E. auto 6. }
    + split; [|reflexivity]. intros _. left. apply custom_error in C. exact C.
Qed.
(** ** element files *)
Lemma element_custom_ok : forall l f g, NoDup (map fst l) -> element_custom isfile l f = Some g ->
  forall s, g s = match slookup l s with Some v => Some v | None => f s end.
Proof.
  induction l as [|[q v] l IH]; intros f g ND H s; cbn [element_custom slookup] in *; [injection H as <-; reflexivity|].
  inversion ND as [|? ? N1 N2]; subst. destruct (isfile v); [|discriminate]. rewrite (IH _ _ N2 H s).
  destruct (String.eqb_spec q s) as [->|N]; [|destruct (slookup l s); [reflexivity|]; destruct (String.eqb_spec s q); [congruence|reflexivity]].
  assert (slookup l s = None) as ->.
  { clear - N1. cbn [fst] in N1. induction l as [|[q w] l IH]; [reflexivity|]. cbn in *. destruct (String.eqb_spec q s) as [->|]; [exfalso; apply N1; left; reflexivity|]. apply IH. tauto. }
  rewrite String.eqb_refl. reflexivity.
Qed.
Lemma element_custom_error : forall l f, element_custom isfile l f = None <-> exists s v, In (s, v) l /\ isfile v = false.
Proof.
  induction l as [|[q v] l IH]; intros f; cbn [element_custom].
  - split; [discriminate|intros (s & v & [] & _)].
  - destruct (isfile v) eqn:E; [rewrite IH; split; [intros (s & w & H & G); exists s, w; split; [right; exact H|exact G]|intros (s & w & [H|H] & G); [injection H as <- <-; congruence|exists s, w; auto]]|].
    split; [|reflexivity]. intros _. exists q, v. split; [left; reflexivity|exact E].
Qed.
Lemma element_defaults_ok : forall l f g, element_defaults isfile dir l f = Some g ->
  forall s, g s = match f s with Some v => Some v | None => if existsb (String.eqb s) l then Some (join dir (s ++ ".elm")%string) else None end /\
    (In s l -> f s = None -> isfile (join dir (s ++ ".elm")%string) = true).
Proof.
  induction l as [|q l IH]; intros f g H s; cbn [element_defaults existsb] in *; [injection H as <-; split; [destruct (f s); reflexivity|intros []]|].
  destruct (f q) as [w|] eqn:F.
  - destruct (IH _ _ H s) as [E W]. split.
    + rewrite E. destruct (String.eqb_spec s q) as [->|]; [rewrite F; reflexivity|reflexivity].
    + intros [<-|Hs] N; [congruence|auto].
  - destruct (isfile (join dir (q ++ ".elm")%string)) eqn:E; [|discriminate]. destruct (IH _ _ H s) as [G W]. split.
    + rewrite G. clear G W H. destruct (String.eqb_spec s q) as [Q|Q]; [rewrite Q, F; reflexivity|reflexivity].
    + intros [<-|Hs] N; [exact E|]. destruct (String.eqb_spec s q) as [Q|NE]; [rewrite Q; exact E|]. apply W; [exact Hs|]. destruct (String.eqb_spec s q); [contradiction|exact N].
Qed.
Lemma element_files_used symbols t f s : NoDup (map fst (egiven t)) -> element_files isfile dir symbols t = Some f -> In s symbols ->
  match slookup (egiven t) s with
  | Some v => f s = Some v /\ isfile v = true
  | None => erest t = true /\ f s = Some (join dir (s ++ ".elm")%string) /\ isfile (join dir (s ++ ".elm")%string) = true
  end.
Proof.
  intros ND H Hs. assert (M : existsb (String.eqb s) symbols = true) by (apply existsb_exists; exists s; split; [exact Hs|apply String.eqb_refl]).
  unfold element_files in H. destruct t as [|l r]; cbn [egiven erest] in *.
  - destruct (element_defaults isfile dir symbols (fun _ => None)) as [g|] eqn:D; [|discriminate]. destruct (forallb _ _) in H; [|discriminate]. injection H as <-.
    destruct (element_defaults_ok _ _ _ D s) as [E W]. cbn [slookup]. rewrite M in E. auto.
  - destruct (element_custom isfile l (fun _ => None)) as [c|] eqn:C; [|discriminate]. pose proof (element_custom_ok _ _ _ ND C) as R.
    assert (FI : forall v, slookup l s = Some v -> isfile v = true).
    { intros v L. destruct (isfile v) eqn:E; [reflexivity|exfalso]. assert (element_custom isfile l (fun _ => None) = None) as X; [|congruence]. apply element_custom_error. exists s, v. split; [|exact E].
      clear - L. induction l as [|[q w] l IH]; cbn in L; [discriminate|]. destruct (String.eqb_spec q s) as [->|]; [injection L as ->; left; reflexivity|right; auto]. }
    destruct r.
    + destruct (element_defaults isfile dir symbols c) as [g|] eqn:D; [|discriminate]. destruct (forallb _ _) in H; [|discriminate]. injection H as <-.
      destruct (element_defaults_ok _ _ _ D s) as [E W]. rewrite (R s) in E, W. destruct (slookup l s) as [v|]; [split; [exact E|auto]|]. rewrite M in E. auto.
    + destruct (forallb (fun s => match c s with Some _ => true | None => false end) symbols) eqn:F; [|discriminate]. injection H as <-.
      rewrite forallb_forall in F. specialize (F s Hs). rewrite (R s) in *. destruct (slookup l s) as [v|]; [split; [reflexivity|auto]|discriminate].
Qed.
End Proofs.

(** both default files exist: the order of the elements in the atoms object decides which one is used *)
Lemma order_refuted : exists isfile dir p1 p2 f1 f2 a b, (forall s, In s p1 <-> In s p2) /\ NoDup p1 /\ NoDup p2 /\
  use_files isfile dir p1 NoTables = Some f1 /\ use_files isfile dir p2 NoTables = Some f2 /\ In a p1 /\ In b p1 /\ f1 (a, b) <> f2 (a, b).
Proof.
  exists (fun _ => true), "d"%string, ["C"; "H"]%string, ["H"; "C"]%string.
  eexists. eexists. exists "C"%string, "H"%string.
  split; [intros s; cbn; tauto|]. split; [repeat constructor; cbn; intuition discriminate|]. split; [repeat constructor; cbn; intuition discriminate|].
  split; [reflexivity|]. split; [reflexivity|]. split; [left; reflexivity|]. split; [right; left; reflexivity|]. vm_compute. discriminate.
Qed.
Example files_example : exists f, use_files (fun s => String.eqb s "x.par" || String.eqb s "d/C_C.par" || String.eqb s "d/null.par")%string "d"%string
  ["C"; "H"]%string (Tables [(("C", "H"), Some "x.par"); (("H", "H"), None)]%string true) = Some f /\
  f ("H", "C")%string = Some "x.par"%string /\ f ("H", "H")%string = Some "d/null.par"%string /\ f ("C", "C")%string = Some "d/C_C.par"%string.
Proof. eexists. split; [reflexivity|]. split; [reflexivity|]. split; reflexivity. Qed.

(** ** C69: splines of the tables *)
Open Scope R_scope.
Lemma read_integral_column q f g : (q < 14)%nat -> read_integral f g q = flip q * (if (10 <=? q)%nat then g (column q) else f (column q)).
Proof. intros H. do 14 (destruct q as [|q]; [cbn; ring|]). lia. Qed.
Lemma linear_same a b h : same_grid a b -> linear (rows a) (grid a) h -> (0 < rows a)%nat -> linear (rows b) (grid b) h.
Proof. intros [E G] [Hh H] P. split; [exact Hh|]. intros i Hi. rewrite <- (G i), <- (G 0%nat) by lia. apply H. lia. Qed.
Lemma tables_ok tij tji h q i : same_grid tij tji -> linear (rows tij) (grid tij) h -> (q < 14)%nat -> (0 < i < rows tij)%nat ->
  htab tij tji q (grid tij i) = Some (flip q * col (source tij tji q) (column q) i) /\
  stab tij tji q (grid tij i) = Some (flip q * col (source tij tji q) (column q + 10) i).
Proof.
  intros S L Hq Hi. pose proof (linear_same _ _ _ S L ltac:(lia)) as L'. destruct S as [E G]. unfold htab, stab, spline, source.
  split.
  - replace (rows tij =? rows (if (10 <=? q)%nat then tji else tij))%nat with true by (symmetry; apply Nat.eqb_eq; destruct (10 <=? q)%nat; congruence).
    f_equal. rewrite (msf_grid (rows tij) (grid tij) _ h i L Hi). rewrite read_integral_column by exact Hq. destruct (10 <=? q)%nat; reflexivity.
  - replace (rows tji =? rows (if (10 <=? q)%nat then tji else tij))%nat with true by (symmetry; apply Nat.eqb_eq; destruct (10 <=? q)%nat; congruence).
    f_equal. rewrite (G i) by lia. rewrite (msf_grid (rows tji) (grid tji) _ h i L') by lia. rewrite read_integral_column by exact Hq. destruct (10 <=? q)%nat; reflexivity.
Qed.
Lemma own_grid_h tij tji h q i : linear (rows tij) (grid tij) h -> (q < 10)%nat -> (0 < i < rows tij)%nat -> htab tij tji q (grid tij i) = Some (col tij q i).
Proof.
  intros L Hq Hi. unfold htab, spline, source. replace (10 <=? q)%nat with false by (symmetry; apply Nat.leb_gt; lia). rewrite Nat.eqb_refl. f_equal.
  rewrite (msf_grid (rows tij) (grid tij) _ h i L Hi). rewrite read_integral_column by lia. replace (10 <=? q)%nat with false by (symmetry; apply Nat.leb_gt; lia).
  do 10 (destruct q as [|q]; [cbn; ring|]). lia.
Qed.
(** tables with the same number of rows but different spacing: the overlap of one pair is read at the distances of the other *)
Lemma tables_refuted : exists tij tji hi hj i, linear (rows tij) (grid tij) hi /\ linear (rows tji) (grid tji) hj /\ rows tij = rows tji /\ (0 < i < rows tij)%nat /\
  stab tij tji 9 (grid tij i) <> Some (col tij 19 i) /\ htab tij tji 13 (grid tji i) <> Some (- col tji 8 i).
Proof.
  set (tij := {| rows := 3; grid := fun i => INR i; col := fun _ i => INR i |}). set (tji := {| rows := 3; grid := fun i => INR i * 2; col := fun _ i => INR i |}).
  assert (L1 : linear 3 (fun i => INR i) 1) by (split; [lra|]; intros; cbn; ring).
  assert (L2 : linear 3 (fun i => INR i * 2) 2) by (split; [lra|]; intros; cbn; ring).
  exists tij, tji, 1, 2, 2%nat. split; [exact L1|]. split; [exact L2|]. split; [reflexivity|]. split; [cbn; lia|].
  unfold stab, htab, spline, source. cbn [Nat.leb rows grid col tij tji Nat.eqb].
  replace (INR 2) with (INR 1 * 2) by (cbn; ring). split.
  - change (INR 1 * 2) with ((fun i => INR i * 2) 1%nat). rewrite (msf_grid 3 (fun i => INR i * 2) _ 2 1 L2) by lia. cbn. intros E. injection E. lra.
  - destruct (msf_above 3 (fun i => INR i) (fun i => read_integral (fun _ => INR i) (fun _ => INR i) 13) (INR 1 * 2 * 2) (linear_increasing _ _ _ L1)) as [Z _]; [lia|cbn; lra|]. rewrite Z. intros E. injection E. cbn. lra.
Qed.
Example same_grid_example : same_grid {| rows := 3; grid := INR; col := fun _ i => INR i |} {| rows := 3; grid := INR; col := fun _ i => 2 * INR i |}
  /\ linear 3 INR 1.
Proof. split; [split; [reflexivity|intros; reflexivity]|]. split; [lra|]. intros. cbn. ring. Qed.
