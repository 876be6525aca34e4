From Coq Require Import Reals ZArith String List Bool Arith Lia Lra Psatz.
From Verif Require Import GeomModel UtilModel SysModel SysSpec.
Import ListNotations.
Open Scope R_scope.

(** ** points of a honeycomb on integers *)
Definition form (X Y : Z) : Z := (3 * X * X + Y * Y)%Z.
Lemma form_nonneg X Y : (0 <= form X Y)%Z.
Proof. unfold form. pose proof (Z.square_nonneg X). pose proof (Z.square_nonneg Y). lia. Qed.
Lemma form_small X Y : (form X Y < 4)%Z -> (X = 0 /\ -1 <= Y <= 1 \/ Y = 0 /\ -1 <= X <= 1)%Z.
Proof. unfold form. intros H. assert (-1 <= X <= 1)%Z by nia. assert (-1 <= Y <= 1)%Z by nia. nia. Qed.
Lemma form_4 X Y : form X Y = 4%Z <-> (X = 0 /\ (Y = 2 \/ Y = -2) \/ (X = 1 \/ X = -1) /\ (Y = 1 \/ Y = -1))%Z.
Proof.
  unfold form. split; [|lia]. intros H. assert (HX : (-1 <= X <= 1)%Z) by nia.
  assert (X = 0 \/ X = 1 \/ X = -1)%Z as [->|[->| ->]] by lia; [left; split; [reflexivity|nia]|right; split; [lia|nia]|right; split; [lia|nia]].
Qed.
Lemma v3_eq a b : vx a = vx b -> vy a = vy b -> vz a = vz b -> a = b.
Proof. destruct a, b. cbn. intros -> -> ->. reflexivity. Qed.
Section Embed.
Variables (Rb : R) (E : Z -> Z -> v3).
Hypothesis HR : 0 < Rb.
Hypothesis law : forall X Y X' Y', 4 * vdot (vsub (E X Y) (E X' Y')) (vsub (E X Y) (E X' Y')) = Rb ^ 2 * IZR (form (X - X') (Y - Y')).
Lemma E_dist X Y X' Y' : dist (E X Y) (E X' Y') = Rb / 2 * sqrt (IZR (form (X - X') (Y - Y'))).
Proof.
  unfold dist, vnorm. replace (vdot _ _) with ((Rb / 2) ^ 2 * IZR (form (X - X') (Y - Y'))) by (pose proof (law X Y X' Y'); lra).
  rewrite sqrt_mult; [|apply pow2_ge_0|apply IZR_le; apply form_nonneg]. rewrite sqrt_pow2 by lra. reflexivity.
Qed.
Lemma E_inj X Y X' Y' : E X Y = E X' Y' -> X = X' /\ Y = Y'.
Proof.
  intros H. pose proof (law X Y X' Y') as L. rewrite H in L. unfold vdot, vsub in L. cbn [vx vy vz] in L.
  assert (IZR (form (X - X') (Y - Y')) = 0). { apply (Rmult_eq_reg_l (Rb ^ 2)); [|nra]. lra. }
  apply eq_IZR in H0. assert (L4 : (form (X - X') (Y - Y') < 4)%Z) by lia. apply form_small in L4. unfold form in H0. nia.
Qed.
Lemma E_bond X Y X' Y' : dist (E X Y) (E X' Y') = Rb <-> form (X - X') (Y - Y') = 4%Z.
Proof.
  rewrite E_dist. split.
  - intros H. assert (sqrt (IZR (form (X - X') (Y - Y'))) = 2) by (apply (Rmult_eq_reg_l (Rb / 2)); lra).
    apply eq_IZR. rewrite <- (sqrt_sqrt (IZR _)) by (apply IZR_le; apply form_nonneg). rewrite H0. lra.
  - intros ->. replace 4 with (2 ^ 2) by ring. rewrite sqrt_pow2; lra.
Qed.
(** a structure given by the integer points H *)
Variable H : Z -> Z -> Prop.
Variable S : v3 -> Prop.
Hypothesis HS : forall p, S p <-> exists X Y, H X Y /\ p = E X Y.
Lemma E_apart : (forall X Y, H X Y -> ~ H (X + 1)%Z Y /\ ~ H X (Y + 1)%Z) -> apart S Rb.
Proof.
  intros Hh p q Hp Hq Hpq. apply HS in Hp, Hq. destruct Hp as (X & Y & Hp & ->), Hq as (X' & Y' & Hq & ->).
  rewrite E_dist. assert (F : (4 <= form (X - X') (Y - Y'))%Z).
  { destruct (Z_lt_le_dec (form (X - X') (Y - Y')) 4) as [L|L]; [exfalso|exact L].
    assert (N : forall A B, H A B -> ~ H (A + 1)%Z B /\ ~ H A (B + 1)%Z) by exact Hh.
    apply form_small in L.
    assert (D : ((X = X' /\ Y = Y') \/ (X' = X /\ Y' = Y + 1) \/ (X' = X /\ Y = Y' + 1) \/ (X' = X + 1 /\ Y' = Y) \/ (X = X' + 1 /\ Y' = Y))%Z) by lia.
    destruct D as [[-> ->]|[[-> ->]|[[-> ->]|[[-> ->]|[-> ->]]]]].
    - apply Hpq; reflexivity.
    - apply (proj2 (N _ _ Hp)); exact Hq.
    - apply (proj2 (N _ _ Hq)); exact Hp.
    - apply (proj1 (N _ _ Hp)); exact Hq.
    - apply (proj1 (N _ _ Hq)); exact Hp. }
  assert (2 <= sqrt (IZR (form (X - X') (Y - Y')))). { rewrite <- (sqrt_pow2 2) by lra. apply sqrt_le_1_alt. replace (2 ^ 2) with 4 by ring. apply IZR_le. exact F. }
  nra.
Qed.
Lemma E_neighbours X Y l : NoDup l -> (forall A B, In (A, B) l <-> H A B /\ form (X - A) (Y - B) = 4%Z) -> neighbours S Rb (E X Y) (length l).
Proof.
  intros Hn Hl. exists (map (fun c => E (fst c) (snd c)) l). split; [|split; [apply map_length|]].
  - clear Hl. induction Hn as [|c l Hc Hn IH]; [constructor|]. cbn [map]. constructor; [|exact IH]. intros Hi. apply in_map_iff in Hi. destruct Hi as ([A B] & Hi & Hin). apply E_inj in Hi.
    destruct c as [A' B']. cbn [fst snd] in Hi. destruct Hi as [-> ->]. apply Hc; exact Hin.
  - intros q. rewrite in_map_iff. split.
    + intros ([A B] & <- & Hin). cbn [fst snd]. apply Hl in Hin. split; [apply HS; exists A, B; tauto|apply E_bond; tauto].
    + intros [Hq Hd]. apply HS in Hq. destruct Hq as (A & B & HAB & ->). exists (A, B). split; [reflexivity|]. apply Hl. split; [exact HAB|]. apply E_bond; exact Hd.
Qed.
Lemma E_nodup l : NoDup l -> NoDup (map (fun c => E (fst c) (snd c)) l).
Proof.
  induction 1 as [|c l Hc Hn IH]; [constructor|]. cbn [map]. constructor; [|exact IH]. intros Hi. apply in_map_iff in Hi. destruct Hi as ([A B] & Hi & Hin). apply E_inj in Hi.
  destruct c as [A' B']. cbn [fst snd] in Hi. destruct Hi as [-> ->]. apply Hc; exact Hin.
Qed.
End Embed.

(** ** lists *)
Lemma NoDup_flat_map {A B} (g : A -> list B) l : NoDup l -> (forall a, In a l -> NoDup (g a)) -> (forall a b x, In a l -> In b l -> In x (g a) -> In x (g b) -> a = b) -> NoDup (flat_map g l).
Proof.
  induction 1 as [|a l Ha Hn IH]; intros Hg Hd; [constructor|]. cbn [flat_map].
  assert (D : forall x, In x (g a) -> ~ In x (flat_map g l)).
  { intros x Hx Hi. apply in_flat_map in Hi. destruct Hi as (b & Hb & Hxb). apply Ha. rewrite (Hd a b x (or_introl eq_refl) (or_intror Hb) Hx Hxb). exact Hb. }
  assert (F : NoDup (flat_map g l)). { apply IH; [intros; apply Hg; right; assumption|]. intros; apply (Hd a0 b x); try right; assumption. }
  generalize (Hg a (or_introl eq_refl)). revert D. generalize (g a). induction l0 as [|x l0 IHl]; intros D N; [exact F|]. inversion N as [|? ? N1 N2]; subst. cbn [app]. constructor.
  - rewrite in_app_iff. intros [K|K]; [apply N1; exact K|]. apply (D x (or_introl eq_refl)); exact K.
  - apply IHl; [|exact N2]. intros y Hy. apply D. right; exact Hy.
Qed.
Lemma length_flat_map {A B} (g : A -> list B) k l : (forall a, In a l -> length (g a) = k) -> length (flat_map g l) = (k * length l)%nat.
Proof. induction l as [|a l IH]; intros H; cbn [flat_map length]; [lia|]. rewrite app_length, IH, H; [lia|left; reflexivity|intros; apply H; right; assumption]. Qed.
Lemma map_flat_map {A B C} (f : B -> C) (g : A -> list B) l : map f (flat_map g l) = flat_map (fun a => map f (g a)) l.
Proof. induction l as [|a l IH]; [reflexivity|]. cbn [flat_map]. rewrite map_app, IH. reflexivity. Qed.
Lemma flat_map_ext' {A B} (g h : A -> list B) l : (forall a, In a l -> g a = h a) -> flat_map g l = flat_map h l.
Proof. induction l as [|a l IH]; intros H; [reflexivity|]. cbn [flat_map]. rewrite H, IH; [reflexivity|intros; apply H; right; assumption|left; reflexivity]. Qed.
Lemma sqrt3_sq : sqrt 3 * sqrt 3 = 3.
Proof. apply sqrt_sqrt. lra. Qed.

(** ** graphene *)
Section Graphene.
Variables (n1 n2 : nat) (Rb : R).
Hypotheses (H1 : (1 <= n1)%nat) (H2 : (1 <= n2)%nat) (HR : 0 < Rb).
Definition GE (Rb : R) (X Y : Z) : v3 := V3 (sqrt 3 / 2 * Rb * IZR X) (Rb / 2 * IZR Y) 0.
Lemma GE_law X Y X' Y' : 4 * vdot (vsub (GE Rb X Y) (GE Rb X' Y')) (vsub (GE Rb X Y) (GE Rb X' Y')) = Rb ^ 2 * IZR (form (X - X') (Y - Y')).
Proof.
  unfold vdot, vsub, GE, form. cbn [vx vy vz]. rewrite plus_IZR, !mult_IZR, !minus_IZR. pose proof sqrt3_sq as Q. set (s := sqrt 3) in *.
  replace (4 * _) with (Rb ^ 2 * ((s * s) * (IZR X - IZR X') ^ 2 + (IZR Y - IZR Y') ^ 2)) by field. rewrite Q. ring.
Qed.
Definition g_points (n1 n2 : nat) : list (Z * Z) :=
  flat_map (fun i1 => flat_map (fun i2 => [(2 * Z.of_nat i1 + Z.of_nat i2, 3 * Z.of_nat i2); (2 * Z.of_nat i1 + Z.of_nat i2 + 2, 3 * Z.of_nat i2 + 2)]%Z) (seq 0 n2)) (seq 0 n1).
Lemma g_positions : fst (fst (graphene n1 n2 Rb)) = map (fun c => GE Rb (fst c) (snd c)) (g_points n1 n2).
Proof.
  unfold graphene, g_points. cbn [fst snd]. rewrite map_flat_map. apply flat_map_ext'. intros i1 _. rewrite map_flat_map. apply flat_map_ext'. intros i2 _.
  cbv zeta. cbn [map fst snd]. unfold gr_a2, gr_a1. rewrite cos_PI6.
  f_equal; [|f_equal]; apply v3_eq; unfold vadd, vscale, GE; cbn [vx vy vz]; rewrite ?plus_IZR, ?mult_IZR, <- ?INR_IZR_INZ; try rewrite ?plus_IZR, ?mult_IZR, <- ?INR_IZR_INZ; field.
Qed.
Definition GH (X Y : Z) : Prop := exists Q w, (Y = 3 * Q \/ Y = 3 * Q + 2)%Z /\ X = (Q + 2 * w)%Z.
Lemma divmod k n : (1 <= n)%nat -> exists i (q : Z), (i < n)%nat /\ k = (Z.of_nat i + Z.of_nat n * q)%Z.
Proof.
  intros Hn. exists (Z.to_nat (k mod Z.of_nat n)), (k / Z.of_nat n)%Z. pose proof (Z.mod_pos_bound k (Z.of_nat n) ltac:(lia)). split; [lia|]. rewrite Z2Nat.id by lia. pose proof (Z.div_mod k (Z.of_nat n) ltac:(lia)). lia.
Qed.
Lemma g_crystal p : crystal2 (snd (fst (graphene n1 n2 Rb))) (snd (graphene n1 n2 Rb)) (fst (fst (graphene n1 n2 Rb))) p <-> exists X Y, GH X Y /\ p = GE Rb X Y.
Proof.
  assert (T : forall (k1 k2 : Z) X Y, vadd (GE Rb X Y) (vadd (vscale (IZR k1) (snd (fst (graphene n1 n2 Rb)))) (vscale (IZR k2) (snd (graphene n1 n2 Rb)))) =
     GE Rb (X + 2 * Z.of_nat n1 * k1 + Z.of_nat n2 * k2)%Z (Y + 3 * Z.of_nat n2 * k2)%Z).
  { intros. unfold graphene. cbn [fst snd]. unfold gr_a2, gr_a1. rewrite cos_PI6. apply v3_eq; unfold vadd, vscale, GE; cbn [vx vy vz]; rewrite ?plus_IZR, ?mult_IZR, <- ?INR_IZR_INZ; field. }
  unfold crystal2. rewrite g_positions. split.
  - intros (q & k1 & k2 & Hq & ->). apply in_map_iff in Hq. destruct Hq as ([X Y] & <- & Hq). cbn [fst snd]. rewrite T. do 2 eexists. split; [|reflexivity].
    unfold g_points in Hq. apply in_flat_map in Hq. destruct Hq as (i1 & _ & Hq). apply in_flat_map in Hq. destruct Hq as (i2 & _ & Hq). destruct Hq as [Hq|[Hq|[]]]; apply pair_equal_spec in Hq; destruct Hq as [<- <-].
    + exists (Z.of_nat i2 + Z.of_nat n2 * k2)%Z, (Z.of_nat i1 + Z.of_nat n1 * k1)%Z. split; [left; ring|ring].
    + exists (Z.of_nat i2 + Z.of_nat n2 * k2)%Z, (Z.of_nat i1 + Z.of_nat n1 * k1 + 1)%Z. split; [right; ring|ring].
  - intros (X & Y & (Q & w & HY & ->) & ->). destruct (divmod Q n2 H2) as (i2 & k2 & Hi2 & EQ).
    destruct HY as [->| ->].
    + destruct (divmod w n1 H1) as (i1 & k1 & Hi1 & Ew). exists (GE Rb (2 * Z.of_nat i1 + Z.of_nat i2) (3 * Z.of_nat i2)), k1, k2. split.
      * apply in_map_iff. exists (2 * Z.of_nat i1 + Z.of_nat i2, 3 * Z.of_nat i2)%Z. split; [reflexivity|]. apply in_flat_map. exists i1. split; [apply in_seq; lia|]. apply in_flat_map. exists i2. split; [apply in_seq; lia|]. left; reflexivity.
      * rewrite T. f_equal; rewrite EQ, ?Ew; ring.
    + destruct (divmod (w - 1) n1 H1) as (i1 & k1 & Hi1 & Ew). exists (GE Rb (2 * Z.of_nat i1 + Z.of_nat i2 + 2) (3 * Z.of_nat i2 + 2)), k1, k2. split.
      * apply in_map_iff. exists (2 * Z.of_nat i1 + Z.of_nat i2 + 2, 3 * Z.of_nat i2 + 2)%Z. split; [reflexivity|]. apply in_flat_map. exists i1. split; [apply in_seq; lia|]. apply in_flat_map. exists i2. split; [apply in_seq; lia|]. right; left; reflexivity.
      * rewrite T. f_equal; [replace w with (w - 1 + 1)%Z by ring; rewrite Ew, EQ; ring|rewrite EQ; ring].
Qed.
Lemma g_nodup : NoDup (g_points n1 n2).
Proof.
  unfold g_points. apply NoDup_flat_map; [apply seq_NoDup| |].
  - intros i1 _. apply NoDup_flat_map; [apply seq_NoDup| |].
    + intros i2 _. constructor; [|constructor; [intros []|constructor]]. intros [K|[]]. apply pair_equal_spec in K. lia.
    + intros a b [x y] _ _ [K|[K|[]]] [L|[L|[]]]; apply pair_equal_spec in K, L; lia.
  - intros a b [x y] _ _ K L. apply in_flat_map in K, L. destruct K as (i & _ & K), L as (j & _ & L).
    destruct K as [K|[K|[]]], L as [L|[L|[]]]; apply pair_equal_spec in K, L; lia.
Qed.
Lemma mod_unique i j n q : (i < n)%nat -> (j < n)%nat -> Z.of_nat i = (Z.of_nat j + Z.of_nat n * q)%Z -> i = j /\ q = 0%Z.
Proof. intros Hi Hj E. assert (q = 0)%Z by nia. subst q. lia. Qed.
Lemma graphene_spec :
  let '(ps, c1, c2) := graphene n1 n2 Rb in
  length ps = (2 * n1 * n2)%nat /\ distinct2 c1 c2 ps /\ apart (crystal2 c1 c2 ps) Rb /\
  forall p, crystal2 c1 c2 ps p -> neighbours (crystal2 c1 c2 ps) Rb p 3.
Proof.
  pose proof g_positions as P. pose proof g_crystal as C. destruct (graphene n1 n2 Rb) as [[ps c1] c2] eqn:EG. cbn [fst snd] in P, C. split; [|split; [|split]].
  - rewrite P, map_length. unfold g_points. rewrite (length_flat_map _ (2 * n2)) by (intros; rewrite (length_flat_map _ 2) by reflexivity; rewrite seq_length; reflexivity). rewrite seq_length. lia.
  - split; [rewrite P; apply (E_nodup Rb (GE Rb) HR GE_law); exact g_nodup|].
    assert (T : forall (k1 k2 : Z) X Y, vadd (GE Rb X Y) (vadd (vscale (IZR k1) c1) (vscale (IZR k2) c2)) = GE Rb (X + 2 * Z.of_nat n1 * k1 + Z.of_nat n2 * k2)%Z (Y + 3 * Z.of_nat n2 * k2)%Z).
    { intros. unfold graphene in EG. injection EG as <- <- <-. unfold gr_a2, gr_a1. rewrite cos_PI6. apply v3_eq; unfold vadd, vscale, GE; cbn [vx vy vz]; rewrite ?plus_IZR, ?mult_IZR, <- ?INR_IZR_INZ; field. }
    intros q1 q2 k1 k2 I1 I2 Heq. rewrite P in I1, I2. apply in_map_iff in I1, I2. destruct I1 as ([X Y] & <- & I1), I2 as ([X' Y'] & <- & I2). cbn [fst snd] in *. rewrite T in Heq. apply (E_inj Rb (GE Rb) HR GE_law) in Heq. destruct Heq as [EX EY].
    unfold g_points in I1, I2. apply in_flat_map in I1, I2. destruct I1 as (i & Hi & I1), I2 as (i' & Hi' & I2). apply in_flat_map in I1, I2. destruct I1 as (j & Hj & I1), I2 as (j' & Hj' & I2). apply in_seq in Hi, Hi', Hj, Hj'.
    assert (K : j = j' /\ k2 = 0%Z /\ ((X = 2 * Z.of_nat i + Z.of_nat j /\ X' = 2 * Z.of_nat i' + Z.of_nat j' \/ X = 2 * Z.of_nat i + Z.of_nat j + 2 /\ X' = 2 * Z.of_nat i' + Z.of_nat j' + 2) /\ (Y - Y' = 3 * (Z.of_nat j - Z.of_nat j')))%Z).
    { destruct I1 as [K|[K|[]]], I2 as [L|[L|[]]]; apply pair_equal_spec in K, L; destruct K as [<- <-], L as [<- <-]; try (exfalso; lia);
      (destruct (mod_unique j j' n2 k2 ltac:(lia) ltac:(lia) ltac:(lia)) as [-> ->]; split; [reflexivity|split; [reflexivity|]]; split; [tauto|lia]). }
    destruct K as (-> & -> & K & KY). destruct (mod_unique i i' n1 k1 ltac:(lia) ltac:(lia) ltac:(lia)) as [-> ->]. f_equal; lia.
  - apply (E_apart Rb (GE Rb) HR GE_law GH _ C). intros X Y (Q & w & HY & ->). split; intros (Q' & w' & HY' & HX'); lia.
  - intros p Hp. apply C in Hp. destruct Hp as (X & Y & (Q & w & HY & ->) & ->).
    destruct HY as [->| ->].
    + apply (E_neighbours Rb (GE Rb) HR GE_law GH _ C _ _ [(Q + 2 * w, 3 * Q + 2); (Q + 2 * w + 1, 3 * Q - 1); (Q + 2 * w - 1, 3 * Q - 1)]%Z).
      * repeat constructor; cbn [In]; intros K; repeat destruct K as [K|K]; try (apply pair_equal_spec in K; lia); try exact K.
      * intros A B. rewrite form_4. cbn [In]. rewrite !pair_equal_spec. split.
        -- intros [[<- <-]|[[<- <-]|[[<- <-]|[]]]]; (split; [|lia]); [exists Q, w|exists (Q - 1)%Z, (w + 1)%Z|exists (Q - 1)%Z, w]; lia.
        -- intros [(Q' & w' & HB & HA) K]. lia.
    + apply (E_neighbours Rb (GE Rb) HR GE_law GH _ C _ _ [(Q + 2 * w, 3 * Q); (Q + 2 * w + 1, 3 * Q + 3); (Q + 2 * w - 1, 3 * Q + 3)]%Z).
      * repeat constructor; cbn [In]; intros K; repeat destruct K as [K|K]; try (apply pair_equal_spec in K; lia); try exact K.
      * intros A B. rewrite form_4. cbn [In]. rewrite !pair_equal_spec. split.
        -- intros [[<- <-]|[[<- <-]|[[<- <-]|[]]]]; (split; [|lia]); [exists Q, w|exists (Q + 1)%Z, w|exists (Q + 1)%Z, (w - 1)%Z]; lia.
        -- intros [(Q' & w' & HB & HA) K]. lia.
Qed.
End Graphene.
