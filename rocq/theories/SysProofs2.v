From Coq Require Import FinFun Reals ZArith String List Bool Arith Lia Lra Psatz.
From Verif Require Import GeomModel UtilModel SysModel SysSpec SysProofs.
Import ListNotations.
Open Scope R_scope.

(** ** orientation *)
Definition turn (d : dir) (p : v3) : v3 := match d with DirX => p | DirZ => stand_up p end.
Lemma orient_map d ps : orient d ps = map (turn d) ps.
Proof. destruct d; cbn [orient]; [symmetry; apply map_id|reflexivity]. Qed.
Lemma turn_dot d p q : vdot (vsub (turn d p) (turn d q)) (vsub (turn d p) (turn d q)) = vdot (vsub p q) (vsub p q).
Proof. destruct d; [reflexivity|]. unfold turn, stand_up, vdot, vsub. cbn [vx vy vz]. ring. Qed.
Lemma turn_along d p x : vadd (turn d p) (along d x) = turn d (vadd p (V3 x 0 0)).
Proof. destruct d; [reflexivity|]. unfold turn, stand_up, along, vadd. cbn [vx vy vz]. apply v3_eq; cbn [vx vy vz]; ring. Qed.
Lemma scale_along d k x : vscale k (along d x) = along d (k * x).
Proof. destruct d; unfold along, vscale; cbn [vx vy vz]; apply v3_eq; cbn [vx vy vz]; ring. Qed.
Lemma across_turn d p : across d (turn d p) = vy p.
Proof. destruct d; [reflexivity|]. unfold across, turn, stand_up. cbn [vx]. ring. Qed.
(** two embeddings: zigzag and armchair directions along the ribbon *)
Definition ZE (d : dir) (Rb : R) (X Y : Z) : v3 := turn d (GE Rb X Y).
Definition AE (d : dir) (Rb : R) (X Y : Z) : v3 := turn d (V3 (Rb / 2 * IZR Y) (sqrt 3 / 2 * Rb * IZR X) 0).
Lemma ZE_law d Rb X Y X' Y' : 4 * vdot (vsub (ZE d Rb X Y) (ZE d Rb X' Y')) (vsub (ZE d Rb X Y) (ZE d Rb X' Y')) = Rb ^ 2 * IZR (form (X - X') (Y - Y')).
Proof. unfold ZE. rewrite turn_dot. apply GE_law. Qed.
Lemma AE_law d Rb X Y X' Y' : 4 * vdot (vsub (AE d Rb X Y) (AE d Rb X' Y')) (vsub (AE d Rb X Y) (AE d Rb X' Y')) = Rb ^ 2 * IZR (form (X - X') (Y - Y')).
Proof. unfold AE. rewrite turn_dot, <- GE_law. unfold vdot, vsub, GE. cbn [vx vy vz]. ring. Qed.
Lemma ZE_move d Rb X Y (k : Z) : vadd (ZE d Rb X Y) (along d (IZR k * (Rb * sqrt 3))) = ZE d Rb (X + 2 * k) Y.
Proof. unfold ZE. rewrite turn_along. f_equal. apply v3_eq; unfold vadd, GE; cbn [vx vy vz]; rewrite ?plus_IZR, ?mult_IZR; field. Qed.
Lemma AE_move d Rb X Y (k : Z) : vadd (AE d Rb X Y) (along d (IZR k * (3 * Rb))) = AE d Rb X (Y + 6 * k).
Proof. unfold AE. rewrite turn_along. f_equal. apply v3_eq; unfold vadd; cbn [vx vy vz]; rewrite ?plus_IZR, ?mult_IZR; field. Qed.
Lemma repeat_points (G : Z * Z -> v3) (sh : Z -> Z * Z -> Z * Z) L cell units : (forall k c, vadd (G c) (V3 (IZR k * L) 0 0) = G (sh k c)) -> (forall c, sh 0%Z c = c) -> (1 <= units)%nat ->
  repeat_cell (map G cell) units L = map G (flat_map (fun u => map (sh (Z.of_nat u)) cell) (seq 0 units)).
Proof.
  intros Hs H0 Hu. destruct units as [|u]; [lia|]. unfold repeat_cell. cbn [seq flat_map]. replace (S u - 1)%nat with u by lia. rewrite map_app. f_equal.
  - rewrite map_map. apply map_ext. intros c. rewrite H0. reflexivity.
  - rewrite <- seq_shift. rewrite (map_flat_map G). rewrite flat_map_concat_map, (flat_map_concat_map _ (map S (seq 0 u))), map_map. f_equal. apply map_ext. intros i. unfold translate. rewrite !map_map. apply map_ext. intros c.
    rewrite <- Hs. f_equal. rewrite <- INR_IZR_INZ, S_INR. reflexivity.
Qed.
Lemma neighbours_unique S d p k k' : neighbours S d p k -> neighbours S d p k' -> k = k'.
Proof.
  intros (l & N & <- & Hl) (l' & N' & <- & Hl'). apply Nat.le_antisymm; apply NoDup_incl_length; try assumption; intros q Hq; [apply Hl', Hl|apply Hl, Hl']; exact Hq.
Qed.

Lemma split_index (k : Z) n : (1 <= n)%nat -> exists i (q : Z), (i < n)%nat /\ k = (Z.of_nat i + Z.of_nat n * q)%Z.
Proof.
  intros Hn. exists (Z.to_nat (k mod Z.of_nat n)), (k / Z.of_nat n)%Z. pose proof (Z.div_mod k (Z.of_nat n) ltac:(lia)). pose proof (Z.mod_pos_bound k (Z.of_nat n) ltac:(lia)). split; lia.
Qed.

(** ** zigzag ribbons *)
Definition ZH (s : Z) (n : nat) (X Y : Z) : Prop :=
  exists i w : Z, (0 <= i < Z.of_nat n /\ (Y = 3 * i + 1 /\ X + i + s = 2 * w \/ Y = 3 * i + 2 /\ X + i + s = 2 * w + 1))%Z.
Section ZStructure.
Variables (n : nat) (d : dir) (Rb : R) (s : Z) (per : v3) (ps : list v3).
Hypothesis HR : 0 < Rb.
Hypothesis C : forall p, crystal1 per ps p <-> exists X Y, ZH s n X Y /\ p = ZE d Rb X Y.
Lemma z_apart : apart (crystal1 per ps) Rb.
Proof. apply (E_apart Rb (ZE d Rb) HR (ZE_law d Rb) (ZH s n) _ C). intros X Y (i & w & Hi & K). split; intros (i' & w' & Hi' & K'); lia. Qed.
Lemma z_neighbours p : crystal1 per ps p -> neighbours (crystal1 per ps) Rb p (if Req_EM_T (across d p) (Rb / 2) then 2 else if Req_EM_T (across d p) (Rb / 2 * (3 * INR n - 1)) then 2 else 3).
Proof.
  intros Hp. apply C in Hp. destruct Hp as (X & Y & (i & w & Hi & K) & ->).
  replace (across d (ZE d Rb X Y)) with (Rb / 2 * IZR Y) by (unfold ZE; rewrite across_turn; reflexivity).
  assert (E1 : Rb / 2 * IZR Y = Rb / 2 <-> Y = 1%Z). { split; [intros E; apply eq_IZR; apply (Rmult_eq_reg_l (Rb / 2)); lra|intros ->; ring]. }
  assert (E2 : Rb / 2 * IZR Y = Rb / 2 * (3 * INR n - 1) <-> Y = (3 * Z.of_nat n - 1)%Z).
  { split; [intros E; apply eq_IZR; rewrite minus_IZR, mult_IZR, <- INR_IZR_INZ; apply (Rmult_eq_reg_l (Rb / 2)); lra|intros ->; rewrite minus_IZR, mult_IZR, <- INR_IZR_INZ; ring]. }
  pose proof (E_neighbours Rb (ZE d Rb) HR (ZE_law d Rb) (ZH s n) _ C X Y) as N.
  destruct K as [[-> K]|[-> K]].
  - destruct (Z.eq_dec i 0) as [->|Hi0].
    + destruct (Req_EM_T _ (Rb / 2)) as [_|F]; [|exfalso; apply F; apply E1; ring]. apply (N [(X + 1, 2); (X - 1, 2)]%Z).
      * repeat constructor; cbn [In]; intros L; repeat destruct L as [L|L]; try (apply pair_equal_spec in L; lia); try exact L.
      * intros A B. rewrite form_4. cbn [In]. rewrite !pair_equal_spec. split.
        -- intros [[<- <-]|[[<- <-]|[]]]; (split; [|lia]); [exists 0%Z, w|exists 0%Z, (w - 1)%Z]; lia.
        -- intros [(i' & w' & Hi' & K') F]. lia.
    + destruct (Req_EM_T _ (Rb / 2)) as [F|_]; [exfalso; apply E1 in F; lia|]. destruct (Req_EM_T _ _) as [F|_]; [exfalso; apply E2 in F; lia|].
      apply (N [(X, 3 * i - 1); (X + 1, 3 * i + 2); (X - 1, 3 * i + 2)]%Z).
      * repeat constructor; cbn [In]; intros L; repeat destruct L as [L|L]; try (apply pair_equal_spec in L; lia); try exact L.
      * intros A B. rewrite form_4. cbn [In]. rewrite !pair_equal_spec. split.
        -- intros [[<- <-]|[[<- <-]|[[<- <-]|[]]]]; (split; [|lia]); [exists (i - 1)%Z, (w - 1)%Z|exists i, w|exists i, (w - 1)%Z]; lia.
        -- intros [(i' & w' & Hi' & K') F]. lia.
  - destruct (Req_EM_T _ (Rb / 2)) as [F|_]; [exfalso; apply E1 in F; lia|].
    destruct (Z.eq_dec i (Z.of_nat n - 1)) as [->|Hi0].
    + destruct (Req_EM_T _ _) as [_|F]; [|exfalso; apply F; apply E2; ring]. apply (N [(X + 1, 3 * (Z.of_nat n - 1) + 1); (X - 1, 3 * (Z.of_nat n - 1) + 1)]%Z).
      * repeat constructor; cbn [In]; intros L; repeat destruct L as [L|L]; try (apply pair_equal_spec in L; lia); try exact L.
      * intros A B. rewrite form_4. cbn [In]. rewrite !pair_equal_spec. split.
        -- intros [[<- <-]|[[<- <-]|[]]]; (split; [|lia]); [exists (Z.of_nat n - 1)%Z, (w + 1)%Z|exists (Z.of_nat n - 1)%Z, w]; lia.
        -- intros [(i' & w' & Hi' & K') F]. lia.
    + destruct (Req_EM_T _ _) as [F|_]; [exfalso; apply E2 in F; lia|].
      apply (N [(X, 3 * i + 4); (X + 1, 3 * i + 1); (X - 1, 3 * i + 1)]%Z).
      * repeat constructor; cbn [In]; intros L; repeat destruct L as [L|L]; try (apply pair_equal_spec in L; lia); try exact L.
      * intros A B. rewrite form_4. cbn [In]. rewrite !pair_equal_spec. split.
        -- intros [[<- <-]|[[<- <-]|[[<- <-]|[]]]]; (split; [|lia]); [exists (i + 1)%Z, (w + 1)%Z|exists i, (w + 1)%Z|exists i, w]; lia.
        -- intros [(i' & w' & Hi' & K') F]. lia.
Qed.
End ZStructure.

Definition zcell (n : nat) : list (Z * Z) := flat_map (fun i => if Nat.odd i then [(0, 3 * Z.of_nat i + 2); (1, 3 * Z.of_nat i + 1)]%Z else [(0, 3 * Z.of_nat i + 1); (1, 3 * Z.of_nat i + 2)]%Z) (seq 0 n).
Definition zmove (k : Z) (c : Z * Z) : Z * Z := (fst c + 2 * k, snd c)%Z.
Definition zpoints (n units : nat) : list (Z * Z) := flat_map (fun u => map (zmove (Z.of_nat u)) (zcell n)) (seq 0 units).
Lemma z_positions n units d Rb : (1 <= units)%nat -> fst (ZGNR n units d Rb) = map (fun c => ZE d Rb (fst c) (snd c)) (zpoints n units).
Proof.
  intros Hu. unfold ZGNR. cbv zeta. cbn [fst]. rewrite orient_map. unfold ZE. rewrite <- (map_map (fun c => GE Rb (fst c) (snd c)) (turn d)). f_equal.
  unfold zpoints. rewrite <- (repeat_points (fun c => GE Rb (fst c) (snd c)) zmove (Rb * sqrt 3)).
  - f_equal. unfold zcell. rewrite map_flat_map. apply flat_map_ext'. intros i _. destruct (Nat.odd i); cbn [map fst snd]; (f_equal; [|f_equal]); apply v3_eq; unfold GE; cbn [vx vy vz]; rewrite ?plus_IZR, ?mult_IZR, <- ?INR_IZR_INZ; field.
  - intros k c. apply (ZE_move DirX).
  - intros [x y]. unfold zmove. cbn [fst snd]. f_equal; ring.
  - exact Hu.
Qed.
Lemma in_zcell n x y : In (x, y) (zcell n) <-> (0 <= x < 2)%Z /\ ZH 0 n x y.
Proof.
  unfold zcell. rewrite in_flat_map. split.
  - intros (i & Hi & H). apply in_seq in Hi. destruct (Nat.odd i) eqn:O.
    + apply Nat.odd_spec in O. destruct O as [w ->]. destruct H as [H|[H|[]]]; apply pair_equal_spec in H; destruct H as [<- <-]; (split; [lia|]); exists (Z.of_nat (2 * w + 1)); [exists (Z.of_nat w)|exists (Z.of_nat w + 1)%Z]; lia.
    + assert (Ev : Nat.even i = true) by (rewrite <- Nat.negb_odd, O; reflexivity). apply Nat.even_spec in Ev. destruct Ev as [w ->].
      destruct H as [H|[H|[]]]; apply pair_equal_spec in H; destruct H as [<- <-]; (split; [lia|]); exists (Z.of_nat (2 * w)), (Z.of_nat w); lia.
  - intros [Hx (i & w & Hi & H)]. exists (Z.to_nat i). split; [apply in_seq; lia|]. rewrite Z2Nat.id by lia.
    assert (Px : (x = 0 \/ x = 1)%Z) by lia.
    destruct (Nat.odd (Z.to_nat i)) eqn:O.
    + apply Nat.odd_spec in O. destruct O as [v O]. assert (i = 2 * Z.of_nat v + 1)%Z by lia. cbn [In]. rewrite !pair_equal_spec. lia.
    + assert (Ev : Nat.even (Z.to_nat i) = true) by (rewrite <- Nat.negb_odd, O; reflexivity). apply Nat.even_spec in Ev. destruct Ev as [v Ev]. assert (i = 2 * Z.of_nat v)%Z by lia. cbn [In]. rewrite !pair_equal_spec. lia.
Qed.
Lemma in_zpoints n units X Y : In (X, Y) (zpoints n units) <-> (0 <= X < 2 * Z.of_nat units)%Z /\ ZH 0 n X Y.
Proof.
  unfold zpoints. rewrite in_flat_map. split.
  - intros (u & Hu & H). apply in_seq in Hu. apply in_map_iff in H. destruct H as ([x y] & H & Hin). unfold zmove in H. cbn [fst snd] in H. apply pair_equal_spec in H. destruct H as [<- <-].
    apply in_zcell in Hin. destruct Hin as [Hx (i & w & Hi & K)]. split; [lia|]. exists i, (w + Z.of_nat u)%Z. lia.
  - intros [HX (i & w & Hi & K)]. exists (Z.to_nat (X / 2)). pose proof (Z.div_mod X 2 ltac:(lia)). pose proof (Z.mod_pos_bound X 2 ltac:(lia)). split; [apply in_seq; lia|].
    apply in_map_iff. exists (X mod 2, Y)%Z. unfold zmove. cbn [fst snd]. split; [f_equal; lia|]. apply in_zcell. split; [lia|]. exists i, (w - X / 2)%Z. lia.
Qed.
Lemma zpoints_nodup n units : NoDup (zpoints n units).
Proof.
  unfold zpoints. apply NoDup_flat_map; [apply seq_NoDup| |].
  - intros u _. apply FinFun.Injective_map_NoDup; [intros [a b] [a' b'] E; unfold zmove in E; cbn [fst snd] in E; apply pair_equal_spec in E; f_equal; lia|].
    unfold zcell. apply NoDup_flat_map; [apply seq_NoDup| |].
    + intros i _. destruct (Nat.odd i); (constructor; [|constructor; [intros []|constructor]]); intros [K|[]]; apply pair_equal_spec in K; lia.
    + intros a b [x y] _ _ K L. destruct (Nat.odd a), (Nat.odd b); destruct K as [K|[K|[]]], L as [L|[L|[]]]; apply pair_equal_spec in K, L; lia.
  - intros a b [x y] _ _ K L. apply in_map_iff in K, L. destruct K as ([x1 y1] & K & K'), L as ([x2 y2] & L & L'). apply in_zcell in K', L'. unfold zmove in K, L. cbn [fst snd] in K, L. apply pair_equal_spec in K, L. lia.
Qed.
Lemma zpoints_length n units : length (zpoints n units) = (2 * n * units)%nat.
Proof.
  unfold zpoints. rewrite (length_flat_map _ (2 * n)); [rewrite seq_length; lia|]. intros. rewrite map_length. unfold zcell. rewrite (length_flat_map _ 2); [rewrite seq_length; lia|]. intros i _. destruct (Nat.odd i); reflexivity.
Qed.
Lemma z_period units d Rb (k : Z) : vscale (IZR k) (along d (INR units * (Rb * sqrt 3))) = along d (IZR (k * Z.of_nat units) * (Rb * sqrt 3)).
Proof. rewrite scale_along. f_equal. rewrite mult_IZR, <- INR_IZR_INZ. ring. Qed.
Lemma z_crystal n units d Rb p : (1 <= units)%nat -> crystal1 (snd (ZGNR n units d Rb)) (fst (ZGNR n units d Rb)) p <-> exists X Y, ZH 0 n X Y /\ p = ZE d Rb X Y.
Proof.
  intros Hu. unfold crystal1. rewrite z_positions by exact Hu. change (snd (ZGNR n units d Rb)) with (along d (INR units * (Rb * sqrt 3))). split.
  - intros (q & k & Hq & ->). apply in_map_iff in Hq. destruct Hq as ([X Y] & <- & Hq). cbn [fst snd]. rewrite z_period, ZE_move. apply in_zpoints in Hq. destruct Hq as [_ (i & w & Hi & K)].
    do 2 eexists. split; [|reflexivity]. exists i, (w + k * Z.of_nat units)%Z. lia.
  - intros (X & Y & (i & w & Hi & K) & ->). destruct (split_index (X / 2)%Z units Hu) as (u & k & Hk & E). pose proof (Z.div_mod X 2 ltac:(lia)). pose proof (Z.mod_pos_bound X 2 ltac:(lia)).
    exists (ZE d Rb (X - 2 * (k * Z.of_nat units)) Y), k. split.
    + apply in_map_iff. exists (X - 2 * (k * Z.of_nat units), Y)%Z. split; [reflexivity|]. apply in_zpoints. split; [lia|]. exists i, (w - k * Z.of_nat units)%Z. lia.
    + rewrite z_period, ZE_move. f_equal. ring.
Qed.
Lemma ZGNR_spec n units d Rb : (1 <= units)%nat -> 0 < Rb ->
  let '(ps, per) := ZGNR n units d Rb in
  length ps = (2 * n * units)%nat /\ distinct1 per ps /\ apart (crystal1 per ps) Rb /\
  forall p, crystal1 per ps p -> neighbours (crystal1 per ps) Rb p
    (if Req_EM_T (across d p) (Rb / 2) then 2 else if Req_EM_T (across d p) (Rb / 2 * (3 * INR n - 1)) then 2 else 3).
Proof.
  intros Hu HR. pose proof (fun p => z_crystal n units d Rb p Hu) as C. pose proof (z_positions n units d Rb Hu) as P. assert (S : snd (ZGNR n units d Rb) = along d (INR units * (Rb * sqrt 3))) by reflexivity.
  destruct (ZGNR n units d Rb) as [ps per]. cbn [fst snd] in C, P, S. split; [|split; [|split]].
  - rewrite P, map_length. apply zpoints_length.
  - split; [rewrite P; apply (E_nodup Rb (ZE d Rb) HR (ZE_law d Rb)); apply zpoints_nodup|]. intros q1 q2 k I1 I2 E. rewrite P in I1, I2. apply in_map_iff in I1, I2. destruct I1 as ([X Y] & <- & I1), I2 as ([X' Y'] & <- & I2). cbn [fst snd] in *.
    rewrite S, z_period, ZE_move in E. apply (E_inj Rb (ZE d Rb) HR (ZE_law d Rb)) in E. apply in_zpoints in I1, I2. destruct E as [EX EY]. assert (k = 0)%Z by nia. subst k. f_equal; lia.
  - apply (z_apart n d Rb 0 per ps HR C).
  - intros p. apply (z_neighbours n d Rb 0 per ps HR C).
Qed.

(** ** armchair ribbons *)
Definition AH (n : nat) (X Y : Z) : Prop :=
  exists k w b : Z, (0 <= X < Z.of_nat n /\ X = 2 * w + b /\ 0 <= b <= 1 /\ (Y = 6 * k + 3 * b \/ Y = 6 * k + 3 * b + 2))%Z.
Section AStructure.
Variables (n : nat) (d : dir) (Rb : R) (per : v3) (ps : list v3).
Hypothesis HR : 0 < Rb.
Hypothesis C : forall p, crystal1 per ps p <-> exists X Y, AH n X Y /\ p = AE d Rb X Y.
Lemma a_apart : apart (crystal1 per ps) Rb.
Proof. apply (E_apart Rb (AE d Rb) HR (AE_law d Rb) (AH n) _ C). intros X Y (k & w & b & Hi & K). split; intros (k' & w' & b' & Hi' & K'); lia. Qed.
Lemma a_neighbours p : crystal1 per ps p -> exists i, (i < n)%nat /\ across d p = INR i * (sqrt 3 / 2 * Rb) /\
  neighbours (crystal1 per ps) Rb p (1 + (if (i =? 0)%nat then 0 else 1) + (if (i =? n - 1)%nat then 0 else 1)).
Proof.
  intros Hp. apply C in Hp. destruct Hp as (X & Y & (k & w & b & HX & E & Hb & K) & ->). exists (Z.to_nat X). split; [lia|]. split.
  { unfold AE. rewrite across_turn. cbn [vy]. rewrite INR_IZR_INZ, Z2Nat.id by lia. ring. }
  pose proof (E_neighbours Rb (AE d Rb) HR (AE_law d Rb) (AH n) _ C X Y) as N.
  (** the neighbour in the same row and those in the next rows *)
  assert (M : exists y z : Z, ((y = Y + 2 /\ z = Y - 1 \/ y = Y - 2 /\ z = Y + 1) /\
     (forall B, (AH n X B /\ (B = Y + 2 \/ B = Y - 2) <-> B = y)) /\
     (forall A B, (A = X + 1 \/ A = X - 1) -> (AH n A B /\ (B = Y + 1 \/ B = Y - 1) <-> 0 <= A < Z.of_nat n /\ B = z)))%Z).
  { destruct K as [-> | ->]; [exists (6 * k + 3 * b + 2)%Z, (6 * k + 3 * b - 1)%Z|exists (6 * k + 3 * b)%Z, (6 * k + 3 * b + 3)%Z]; (split; [lia|split]).
    - intros B. split; [intros [(k' & w' & b' & K') L]; lia|]. intros ->. split; [exists k, w, b; lia|lia].
    - intros A B HA. split; [intros [(k' & w' & b' & K') L]; lia|]. intros [K' ->]. split; [|lia]. assert (b = 0 \/ b = 1)%Z as [->| ->] by lia; destruct HA as [->| ->];
        [exists (k - 1)%Z, w, 1%Z|exists (k - 1)%Z, (w - 1)%Z, 1%Z|exists k, (w + 1)%Z, 0%Z|exists k, w, 0%Z]; lia.
    - intros B. split; [intros [(k' & w' & b' & K') L]; lia|]. intros ->. split; [exists k, w, b; lia|lia].
    - intros A B HA. split; [intros [(k' & w' & b' & K') L]; lia|]. intros [K' ->]. split; [|lia]. assert (b = 0 \/ b = 1)%Z as [->| ->] by lia; destruct HA as [->| ->];
        [exists k, w, 1%Z|exists k, (w - 1)%Z, 1%Z|exists (k + 1)%Z, (w + 1)%Z, 0%Z|exists (k + 1)%Z, w, 0%Z]; lia. }
  destruct M as (y & z & Hyz & M1 & M2).
  set (l := ([(X, y)] ++ (if (Z.to_nat X =? 0)%nat then [] else [(X - 1, z)]) ++ (if (Z.to_nat X =? n - 1)%nat then [] else [(X + 1, z)]))%Z).
  replace (1 + _ + _)%nat with (length l). 2:{ unfold l. rewrite !app_length. destruct (Z.to_nat X =? 0)%nat, (Z.to_nat X =? n - 1)%nat; reflexivity. }
  apply N.
  - unfold l. destruct (Z.to_nat X =? 0)%nat, (Z.to_nat X =? n - 1)%nat; cbn [app]; repeat constructor; cbn [In]; intros L; repeat destruct L as [L|L]; try (apply pair_equal_spec in L; lia); try exact L.
  - intros A B. rewrite form_4.
    assert (LI : In (A, B) l <-> (A = X /\ B = y \/ A = X - 1 /\ B = z /\ 0 < X \/ A = X + 1 /\ B = z /\ X < Z.of_nat n - 1)%Z).
    { unfold l. destruct (Nat.eqb_spec (Z.to_nat X) 0) as [E0|E0], (Nat.eqb_spec (Z.to_nat X) (n - 1)) as [E1|E1]; cbn [app In]; rewrite !pair_equal_spec; lia. }
    rewrite LI. split.
    + intros [[-> ->]|[(-> & -> & HA)|(-> & -> & HA)]].
      * destruct (proj2 (M1 y) eq_refl) as [Q _]. split; [exact Q|lia].
      * destruct (proj2 (M2 (X - 1) z ltac:(lia))%Z ltac:(lia)) as [Q _]. split; [exact Q|lia].
      * destruct (proj2 (M2 (X + 1) z ltac:(lia))%Z ltac:(lia)) as [Q _]. split; [exact Q|lia].
    + intros [Q [[F1 F2]|[F1 F2]]].
      * left. assert (A = X) by lia. subst A. split; [reflexivity|]. apply M1. split; [exact Q|lia].
      * right. assert (HA : (A = X + 1 \/ A = X - 1)%Z) by lia. assert (HB : (B = Y + 1 \/ B = Y - 1)%Z) by lia. pose proof (proj1 (M2 A B HA) (conj Q HB)) as [R1 R2]. lia.
Qed.
End AStructure.
Definition acell (n : nat) : list (Z * Z) := flat_map (fun i => let x := if Nat.odd i then 3%Z else 0%Z in [(Z.of_nat i, x); (Z.of_nat i, x + 2)]%Z) (seq 0 n).
Definition amove (k : Z) (c : Z * Z) : Z * Z := (fst c, snd c + 6 * k)%Z.
Definition apoints (n units : nat) : list (Z * Z) := flat_map (fun u => map (amove (Z.of_nat u)) (acell n)) (seq 0 units).
Lemma a_positions n units d Rb : (1 <= units)%nat -> fst (AGNR n units d Rb) = map (fun c => AE d Rb (fst c) (snd c)) (apoints n units).
Proof.
  intros Hu. unfold AGNR. cbv zeta. cbn [fst]. rewrite orient_map. unfold AE. rewrite <- (map_map (fun c => V3 (Rb / 2 * IZR (snd c)) (sqrt 3 / 2 * Rb * IZR (fst c)) 0) (turn d)). f_equal.
  unfold apoints. rewrite <- (repeat_points (fun c => V3 (Rb / 2 * IZR (snd c)) (sqrt 3 / 2 * Rb * IZR (fst c)) 0) amove (3 * Rb)).
  - f_equal. unfold acell. rewrite map_flat_map. apply flat_map_ext'. intros i _. destruct (Nat.odd i); cbv zeta; cbn [map fst snd]; (f_equal; [|f_equal]); apply v3_eq; cbn [vx vy vz]; rewrite ?plus_IZR, ?mult_IZR, <- ?INR_IZR_INZ; field.
  - intros k c. unfold amove. cbn [fst snd]. apply v3_eq; unfold vadd; cbn [vx vy vz]; rewrite ?plus_IZR, ?mult_IZR; field.
  - intros [x y]. unfold amove. cbn [fst snd]. f_equal; ring.
  - exact Hu.
Qed.
Lemma in_acell n x y : In (x, y) (acell n) <-> (0 <= y < 6)%Z /\ AH n x y.
Proof.
  unfold acell. rewrite in_flat_map. split.
  - intros (i & Hi & H). apply in_seq in Hi. cbv zeta in H. destruct (Nat.odd i) eqn:O.
    + apply Nat.odd_spec in O. destruct O as [w ->]. destruct H as [H|[H|[]]]; apply pair_equal_spec in H; destruct H as [<- <-]; (split; [lia|]); exists 0%Z, (Z.of_nat w), 1%Z; lia.
    + assert (Ev : Nat.even i = true) by (rewrite <- Nat.negb_odd, O; reflexivity). apply Nat.even_spec in Ev. destruct Ev as [w ->].
      destruct H as [H|[H|[]]]; apply pair_equal_spec in H; destruct H as [<- <-]; (split; [lia|]); exists 0%Z, (Z.of_nat w), 0%Z; lia.
  - intros [Hy (k & w & b & Hi & H)]. exists (Z.to_nat x). split; [apply in_seq; lia|]. cbv zeta. rewrite Z2Nat.id by lia.
    destruct (Nat.odd (Z.to_nat x)) eqn:O.
    + apply Nat.odd_spec in O. destruct O as [v O]. assert (b = 1)%Z by lia. cbn [In]. rewrite !pair_equal_spec. lia.
    + assert (Ev : Nat.even (Z.to_nat x) = true) by (rewrite <- Nat.negb_odd, O; reflexivity). apply Nat.even_spec in Ev. destruct Ev as [v Ev]. assert (b = 0)%Z by lia. cbn [In]. rewrite !pair_equal_spec. lia.
Qed.
Lemma in_apoints n units X Y : In (X, Y) (apoints n units) <-> (0 <= Y < 6 * Z.of_nat units)%Z /\ AH n X Y.
Proof.
  unfold apoints. rewrite in_flat_map. split.
  - intros (u & Hu & H). apply in_seq in Hu. apply in_map_iff in H. destruct H as ([x y] & H & Hin). unfold amove in H. cbn [fst snd] in H. apply pair_equal_spec in H. destruct H as [<- <-].
    apply in_acell in Hin. destruct Hin as [Hx (k & w & b & Hi & K)]. split; [lia|]. exists (k + Z.of_nat u)%Z, w, b. lia.
  - intros [HX (k & w & b & Hi & K)]. exists (Z.to_nat (Y / 6)). pose proof (Z.div_mod Y 6 ltac:(lia)). pose proof (Z.mod_pos_bound Y 6 ltac:(lia)). split; [apply in_seq; lia|].
    apply in_map_iff. exists (X, Y mod 6)%Z. unfold amove. cbn [fst snd]. split; [f_equal; lia|]. apply in_acell. split; [lia|]. exists (k - Y / 6)%Z, w, b. lia.
Qed.
Lemma apoints_nodup n units : NoDup (apoints n units).
Proof.
  unfold apoints. apply NoDup_flat_map; [apply seq_NoDup| |].
  - intros u _. apply FinFun.Injective_map_NoDup; [intros [a b] [a' b'] E; unfold amove in E; cbn [fst snd] in E; apply pair_equal_spec in E; f_equal; lia|].
    unfold acell. apply NoDup_flat_map; [apply seq_NoDup| |].
    + intros i _. cbv zeta. (constructor; [|constructor; [intros []|constructor]]); intros [K|[]]; apply pair_equal_spec in K; lia.
    + intros a b [x y] _ _ K L. cbv zeta in K, L. destruct K as [K|[K|[]]], L as [L|[L|[]]]; apply pair_equal_spec in K, L; lia.
  - intros a b [x y] _ _ K L. apply in_map_iff in K, L. destruct K as ([x1 y1] & K & K'), L as ([x2 y2] & L & L'). apply in_acell in K', L'. unfold amove in K, L. cbn [fst snd] in K, L. apply pair_equal_spec in K, L. lia.
Qed.
Lemma apoints_length n units : length (apoints n units) = (2 * n * units)%nat.
Proof.
  unfold apoints. rewrite (length_flat_map _ (2 * n)); [rewrite seq_length; lia|]. intros. rewrite map_length. unfold acell. rewrite (length_flat_map _ 2); [rewrite seq_length; lia|]. reflexivity.
Qed.
Lemma a_period units d Rb (k : Z) : vscale (IZR k) (along d (INR units * 3 * Rb)) = along d (IZR (k * Z.of_nat units) * (3 * Rb)).
Proof. rewrite scale_along. f_equal. rewrite mult_IZR, <- INR_IZR_INZ. ring. Qed.
(** a list of the points of armchair rows *)
Lemma a_structure n units d Rb pts : (1 <= units)%nat -> 0 < Rb -> NoDup pts -> length pts = (2 * n * units)%nat ->
  (forall X Y, In (X, Y) pts <-> (0 <= Y < 6 * Z.of_nat units)%Z /\ AH n X Y) ->
  let ps := map (fun c => AE d Rb (fst c) (snd c)) pts in let per := along d (INR units * 3 * Rb) in
  length ps = (2 * n * units)%nat /\ distinct1 per ps /\ apart (crystal1 per ps) Rb /\
  forall p, crystal1 per ps p -> exists i, (i < n)%nat /\ across d p = INR i * (sqrt 3 / 2 * Rb) /\
    neighbours (crystal1 per ps) Rb p (1 + (if (i =? 0)%nat then 0 else 1) + (if (i =? n - 1)%nat then 0 else 1)).
Proof.
  intros Hu HR Hn Hl Hp ps per.
  assert (C : forall p, crystal1 per ps p <-> exists X Y, AH n X Y /\ p = AE d Rb X Y).
  { intros p. unfold crystal1, ps, per. split.
    - intros (q & k & Hq & ->). apply in_map_iff in Hq. destruct Hq as ([X Y] & <- & Hq). cbn [fst snd]. rewrite a_period, AE_move. apply Hp in Hq. destruct Hq as [_ (k' & w & b & Hi & K)].
      do 2 eexists. split; [|reflexivity]. exists (k' + k * Z.of_nat units)%Z, w, b. lia.
    - intros (X & Y & (k' & w & b & Hi & K) & ->). destruct (split_index (Y / 6)%Z units Hu) as (u & k & Hk & E). pose proof (Z.div_mod Y 6 ltac:(lia)). pose proof (Z.mod_pos_bound Y 6 ltac:(lia)).
      exists (AE d Rb X (Y - 6 * (k * Z.of_nat units))), k. split.
      + apply in_map_iff. exists (X, Y - 6 * (k * Z.of_nat units))%Z. split; [reflexivity|]. apply Hp. split; [lia|]. exists (k' - k * Z.of_nat units)%Z, w, b. lia.
      + rewrite a_period, AE_move. f_equal. ring. }
  split; [|split; [|split]].
  - unfold ps. rewrite map_length. exact Hl.
  - split; [unfold ps; apply (E_nodup Rb (AE d Rb) HR (AE_law d Rb)); exact Hn|]. intros q1 q2 k I1 I2 E. unfold ps in I1, I2. apply in_map_iff in I1, I2. destruct I1 as ([X Y] & <- & I1), I2 as ([X' Y'] & <- & I2). cbn [fst snd] in *.
    unfold per in E. rewrite a_period, AE_move in E. apply (E_inj Rb (AE d Rb) HR (AE_law d Rb)) in E. apply Hp in I1, I2. destruct E as [EX EY]. assert (k = 0)%Z by nia. subst k. f_equal; lia.
  - apply (a_apart n d Rb per ps HR C).
  - intros p. apply (a_neighbours n d Rb per ps HR C).
Qed.
Lemma AGNR_spec n units d Rb : (1 <= units)%nat -> 0 < Rb ->
  let '(ps, per) := AGNR n units d Rb in
  length ps = (2 * n * units)%nat /\ distinct1 per ps /\ apart (crystal1 per ps) Rb /\
  forall p, crystal1 per ps p -> exists i, (i < n)%nat /\ across d p = INR i * (sqrt 3 / 2 * Rb) /\
    neighbours (crystal1 per ps) Rb p (1 + (if (i =? 0)%nat then 0 else 1) + (if (i =? n - 1)%nat then 0 else 1)).
Proof.
  intros Hu HR. pose proof (a_structure n units d Rb (apoints n units) Hu HR (apoints_nodup n units) (apoints_length n units) (in_apoints n units)) as A. cbv zeta in A.
  pose proof (a_positions n units d Rb Hu) as P. assert (S : snd (AGNR n units d Rb) = along d (INR units * 3 * Rb)) by reflexivity.
  destruct (AGNR n units d Rb) as [ps per]. cbn [fst snd] in P, S. rewrite <- P, <- S in A. exact A.
Qed.
Definition arpoints (n1 n2 : nat) : list (Z * Z) := flat_map (fun i1 => flat_map (fun i2 =>
  [(2 * Z.of_nat i2, 6 * Z.of_nat i1); (2 * Z.of_nat i2, 6 * Z.of_nat i1 + 2); (2 * Z.of_nat i2 + 1, 6 * Z.of_nat i1 + 3); (2 * Z.of_nat i2 + 1, 6 * Z.of_nat i1 + 5)]%Z) (seq 0 n2)) (seq 0 n1).
Lemma armchair_spec n1 n2 d Rb : (1 <= n1)%nat -> 0 < Rb ->
  let '(ps, per) := armchair_ribbon n1 n2 Rb d in
  length ps = (4 * n1 * n2)%nat /\ distinct1 per ps /\ apart (crystal1 per ps) Rb /\
  forall p, crystal1 per ps p -> exists i, (i < 2 * n2)%nat /\ across d p = INR i * (sqrt 3 / 2 * Rb) /\
    neighbours (crystal1 per ps) Rb p (1 + (if (i =? 0)%nat then 0 else 1) + (if (i =? 2 * n2 - 1)%nat then 0 else 1)).
Proof.
  intros Hu HR.
  assert (P : fst (armchair_ribbon n1 n2 Rb d) = map (fun c => AE d Rb (fst c) (snd c)) (arpoints n1 n2)).
  { unfold armchair_ribbon, arpoints. cbn [fst]. rewrite orient_map. unfold AE. rewrite <- (map_map (fun c => V3 (Rb / 2 * IZR (snd c)) (sqrt 3 / 2 * Rb * IZR (fst c)) 0) (turn d)). f_equal.
    rewrite map_flat_map. apply flat_map_ext'. intros i1 _. rewrite map_flat_map. apply flat_map_ext'. intros i2 _. cbv zeta. rewrite cos_PI6. cbn [map fst snd].
    repeat (apply (f_equal2 (@cons v3)); [apply v3_eq; unfold vadd; cbn [vx vy vz]; rewrite ?plus_IZR, ?mult_IZR, <- ?INR_IZR_INZ; field|]). reflexivity. }
  assert (S : snd (armchair_ribbon n1 n2 Rb d) = along d (INR n1 * 3 * Rb)) by reflexivity.
  replace (4 * n1 * n2)%nat with (2 * (2 * n2) * n1)%nat by lia.
  destruct (armchair_ribbon n1 n2 Rb d) as [ps per]. cbn [fst snd] in P, S. rewrite P, S. apply (a_structure (2 * n2) n1 d Rb (arpoints n1 n2) Hu HR).
  - unfold arpoints. apply NoDup_flat_map; [apply seq_NoDup| |].
    + intros i1 _. apply NoDup_flat_map; [apply seq_NoDup| |].
      * intros i2 _. repeat constructor; cbn [In]; intros L; repeat destruct L as [L|L]; try (apply pair_equal_spec in L; lia); try exact L.
      * intros a b [x y] _ _ K L. cbn [In] in K, L. rewrite !pair_equal_spec in K, L. lia.
    + intros a b [x y] _ _ K L. apply in_flat_map in K, L. destruct K as (i & _ & K), L as (j & _ & L). cbn [In] in K, L. rewrite !pair_equal_spec in K, L. lia.
  - unfold arpoints. rewrite (length_flat_map _ (4 * n2)) by (intros; rewrite (length_flat_map _ 4) by reflexivity; rewrite seq_length; reflexivity). rewrite seq_length. lia.
  - intros X Y. unfold arpoints. rewrite in_flat_map. split.
    + intros (i1 & H1 & K). apply in_flat_map in K. destruct K as (i2 & H2 & K). apply in_seq in H1, H2. cbn [In] in K. rewrite !pair_equal_spec in K. split; [lia|].
      assert (E : (X = 2 * Z.of_nat i2 \/ X = 2 * Z.of_nat i2 + 1)%Z) by lia. destruct E as [E|E]; [exists (Z.of_nat i1), (Z.of_nat i2), 0%Z|exists (Z.of_nat i1), (Z.of_nat i2), 1%Z]; lia.
    + intros [HY (k & w & b & Hi & K)]. exists (Z.to_nat k). split; [apply in_seq; lia|]. apply in_flat_map. exists (Z.to_nat w). split; [apply in_seq; lia|]. rewrite !Z2Nat.id by lia. cbn [In]. rewrite !pair_equal_spec. lia.
Qed.
