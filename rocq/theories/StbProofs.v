(** Angular parts *)
From Coq Require Import Reals ZArith String Ascii List Bool Arith Lia Lra Psatz.
From Coquelicot Require Import Coquelicot.
From Verif Require Import Vec GeomModel StbModel StbSpec.
Import ListNotations.
Open Scope R_scope.

Lemma int_const c : is_RInt (fun _ => c) 0 (2 * PI) (2 * PI * c).
Proof. replace (2 * PI * c) with (scal (2 * PI - 0) c) by (unfold scal; cbn; unfold mult; cbn; ring). apply @is_RInt_const. Qed.
Lemma sin_2PI' : sin (2 * PI) = 0. Proof. apply sin_2PI. Qed.
Lemma int_cos2 c : is_RInt (fun p => c * (cos p * cos p)) 0 (2 * PI) (PI * c).
Proof.
  replace (PI * c) with (minus ((fun p => c * (p + sin p * cos p) / 2) (2 * PI)) ((fun p => c * (p + sin p * cos p) / 2) 0)).
  2: { cbn. unfold minus, plus, opp. cbn. rewrite sin_2PI, sin_0. field. }
  apply (is_RInt_derive (fun p => c * (p + sin p * cos p) / 2) (fun p => c * (cos p * cos p))).
  - intros x _. auto_derive; [exact I|]. pose proof (sin2_cos2 x) as h. unfold Rsqr in h. assert (e : cos x * cos x = (1 + (cos x * cos x - sin x * sin x)) / 2) by lra. rewrite e. field.
  - intros x _. apply (ex_derive_continuous (fun p => c * (cos p * cos p))). auto_derive. exact I.
Qed.
Lemma int_cos22 c : is_RInt (fun p => c * (cos (2 * p) * cos (2 * p))) 0 (2 * PI) (PI * c).
Proof.
  replace (PI * c) with (minus ((fun p => c * (p + sin (2 * p) * cos (2 * p) / 2) / 2) (2 * PI)) ((fun p => c * (p + sin (2 * p) * cos (2 * p) / 2) / 2) 0)).
  2: { cbn. unfold minus, plus, opp. cbn. replace (2 * (2 * PI)) with (0 + 2 * INR 2 * PI) by (cbn; ring). rewrite sin_period. rewrite Rmult_0_r, sin_0. field. }
  apply (is_RInt_derive (fun p => c * (p + sin (2 * p) * cos (2 * p) / 2) / 2) (fun p => c * (cos (2 * p) * cos (2 * p)))).
  - intros x _. auto_derive; [exact I|]. pose proof (sin2_cos2 (2 * x)) as h. unfold Rsqr in h. assert (e : cos (2 * x) * cos (2 * x) = (1 + (cos (2 * x) * cos (2 * x) - sin (2 * x) * sin (2 * x))) / 2) by lra. rewrite e. field.
  - intros x _. apply (ex_derive_continuous (fun p => c * (cos (2 * p) * cos (2 * p)))). auto_derive. exact I.
Qed.
Lemma sq_prod (a b c : R) : 0 <= a -> 0 <= b -> 0 <= c -> c * c = a * b -> sqrt a * sqrt b = c.
Proof. intros ha hb hc e. rewrite <- sqrt_mult by assumption. rewrite <- e. apply sqrt_square. exact hc. Qed.
Lemma pi_pos : 0 < PI. Proof. exact PI_RGT_0. Qed.
Lemma norm_sq2 a b : 0 <= a -> 0 <= b -> sqrt (a / (4 * PI)) * sqrt (b / (4 * PI)) = sqrt (a * b) / (4 * PI).
Proof.
  intros ha hb. pose proof pi_pos as hp. assert (h4 : 0 < 4 * PI) by lra. assert (0 <= / (4 * PI)) by (apply Rlt_le, Rinv_0_lt_compat, h4).
  apply sq_prod; try (apply Rmult_le_pos; [|assumption]; first [assumption|apply sqrt_pos]). replace (sqrt (a * b) / (4 * PI) * (sqrt (a * b) / (4 * PI))) with (sqrt (a * b) * sqrt (a * b) / (4 * PI * (4 * PI))) by (field; lra).
  rewrite sqrt_sqrt by (apply Rmult_le_pos; assumption). field. lra.
Qed.
Lemma q16 a : 0 <= a -> sqrt (a / (16 * PI)) = sqrt (a / (4 * PI)) / 2.
Proof.
  intros ha. pose proof pi_pos as hp. replace (a / (16 * PI)) with (a / (4 * PI) * (/ 2 * / 2)) by (field; lra). rewrite sqrt_mult; [|apply Rmult_le_pos; [exact ha|apply Rlt_le, Rinv_0_lt_compat; lra]|lra]. rewrite sqrt_square by lra. reflexivity.
Qed.
Lemma q0 : / sqrt (4 * PI) = sqrt (1 / (4 * PI)).
Proof. pose proof pi_pos. unfold Rdiv. rewrite Rmult_1_l. rewrite sqrt_inv. reflexivity. Qed.
Lemma sqrt_225 : sqrt 225 = 15. Proof. replace 225 with (15 * 15) by ring. apply sqrt_square. lra. Qed.
Lemma sqrt_25 : sqrt 25 = 5. Proof. replace 25 with (5 * 5) by ring. apply sqrt_square. lra. Qed.
Lemma sqrt_9 : sqrt 9 = 3. Proof. replace 9 with (3 * 3) by ring. apply sqrt_square. lra. Qed.
Ltac real := cbn beta; match goal with |- ?a = ?b => change (@eq R a b) end.
Theorem angular_integral i t1 t2 : (i < 10)%nat ->
  let '(l1, l2, m) := nth i lm_of (0, 0, 0)%nat in is_RInt (fun p => Y l1 m t1 p * Y l2 m t2 p) 0 (2 * PI) (nth i (gphi t1 t2) 0).
Proof.
  intros hi. pose proof pi_pos as hp. 
  destruct i as [|[|[|[|[|[|[|[|[|[|i]]]]]]]]]]; [..|lia]; cbn [nth lm_of]; unfold Y; rewrite ?q0, ?(q16 5), ?(q16 15) by lra; cbn [nth gphi].
  - apply (is_RInt_ext (fun _ => sqrt (5 / (4 * PI)) * sqrt (5 / (4 * PI)) * ((3 * cos t1 ^ 2 - 1) * (3 * cos t2 ^ 2 - 1) / 4))); [intros; real; field|]. evar_last; [apply int_const|].
    rewrite norm_sq2 by lra. replace (5 * 5) with 25 by ring. rewrite sqrt_25. field. lra.
  - apply (is_RInt_ext (fun p => sqrt (15 / (4 * PI)) * sqrt (15 / (4 * PI)) * (sin t1 * cos t1 * sin t2 * cos t2) * (cos p * cos p))); [intros; real; ring|]. evar_last; [apply int_cos2|].
    rewrite norm_sq2 by lra. replace (15 * 15) with 225 by ring. rewrite sqrt_225. field. lra.
  - apply (is_RInt_ext (fun p => sqrt (15 / (4 * PI)) * sqrt (15 / (4 * PI)) * (sin t1 ^ 2 * sin t2 ^ 2 / 4) * (cos (2 * p) * cos (2 * p)))); [intros; real; field|]. evar_last; [apply int_cos22|].
    rewrite norm_sq2 by lra. replace (15 * 15) with 225 by ring. rewrite sqrt_225. field. lra.
  - apply (is_RInt_ext (fun _ => sqrt (3 / (4 * PI)) * sqrt (5 / (4 * PI)) * (cos t1 * (3 * cos t2 ^ 2 - 1) / 2))); [intros; real; field|]. evar_last; [apply int_const|].
    rewrite norm_sq2 by lra. replace (3 * 5) with 15 by ring. field. lra.
  - apply (is_RInt_ext (fun p => sqrt (3 / (4 * PI)) * sqrt (15 / (4 * PI)) * (sin t1 * sin t2 * cos t2) * (cos p * cos p))); [intros; real; ring|]. evar_last; [apply int_cos2|].
    rewrite norm_sq2 by lra. replace (3 * 15) with 45 by ring. field. lra.
  - apply (is_RInt_ext (fun _ => sqrt (3 / (4 * PI)) * sqrt (3 / (4 * PI)) * (cos t1 * cos t2))); [intros; real; ring|]. evar_last; [apply int_const|].
    rewrite norm_sq2 by lra. replace (3 * 3) with 9 by ring. rewrite sqrt_9. field. lra.
  - apply (is_RInt_ext (fun p => sqrt (3 / (4 * PI)) * sqrt (3 / (4 * PI)) * (sin t1 * sin t2) * (cos p * cos p))); [intros; real; ring|]. evar_last; [apply int_cos2|].
    rewrite norm_sq2 by lra. replace (3 * 3) with 9 by ring. rewrite sqrt_9. field. lra.
  - apply (is_RInt_ext (fun _ => sqrt (1 / (4 * PI)) * sqrt (5 / (4 * PI)) * ((3 * cos t2 ^ 2 - 1) / 2))); [intros; real; field|]. evar_last; [apply int_const|].
    rewrite norm_sq2 by lra. replace (1 * 5) with 5 by ring. field. lra.
  - apply (is_RInt_ext (fun _ => sqrt (1 / (4 * PI)) * sqrt (3 / (4 * PI)) * cos t2)); [intros; real; ring|]. evar_last; [apply int_const|].
    rewrite norm_sq2 by lra. replace (1 * 3) with 3 by ring. field. lra.
  - evar_last; [apply int_const|]. rewrite norm_sq2 by lra. replace (1 * 1) with 1 by ring. rewrite sqrt_1. field. lra.
Qed.
(** ** Normalisation *)
Lemma cos_int (F f : R -> R) : (forall u, is_derive F u (f u)) -> (forall u, ex_derive f u) -> is_RInt (fun t => f (cos t) * sin t) 0 PI (F 1 - F (-1)).
Proof.
  intros hF hf. replace (F 1 - F (-1)) with (minus ((fun t => - F (cos t)) PI) ((fun t => - F (cos t)) 0)).
  2: { unfold minus, plus, opp. cbn. rewrite cos_PI, cos_0. ring. }
  apply (is_RInt_derive (fun t => - F (cos t)) (fun t => f (cos t) * sin t)).
  - intros x _. evar_last; [apply (is_derive_opp (fun t => F (cos t))); apply (is_derive_comp F cos); [apply hF|]; apply is_derive_cos|]. unfold scal, opp. cbn. unfold mult. cbn. ring.
  - intros x _. apply (ex_derive_continuous (fun t => f (cos t) * sin t)). apply (ex_derive_mult (fun t => f (cos t)) sin); [apply (ex_derive_comp f cos); [apply hf|]|]; eexists; [apply is_derive_cos|apply is_derive_sin].
Qed.
Theorem angular_normal i : (i < 10)%nat -> let '(l1, l2, m) := nth i lm_of (0, 0, 0)%nat in
  is_RInt (fun t => nth i (gphi t t) 0 * sin t) 0 PI (if (l1 =? l2)%nat then 1 else 0).
Proof.
  intros hi. assert (hs : forall t, sin t * sin t = 1 - cos t * cos t). { intros t. pose proof (sin2_cos2 t) as e. unfold Rsqr in e. lra. }
  assert (go : forall (F f : R -> R) (g : R -> R) v, (forall u, is_derive F u (f u)) -> (forall u, ex_derive f u) -> (forall t, g t = f (cos t)) -> F 1 - F (-1) = v -> is_RInt (fun t => g t * sin t) 0 PI v).
  { intros F f g v hF hf hg <-. apply (is_RInt_ext (fun t => f (cos t) * sin t)); [intros; rewrite hg; reflexivity|]. apply cos_int; assumption. }
  destruct i as [|[|[|[|[|[|[|[|[|[|i]]]]]]]]]]; [..|lia]; cbn [nth lm_of Nat.eqb].
  - apply (go (fun u => 5 / 8 * (9 * u ^ 5 / 5 - 2 * u ^ 3 + u)) (fun u => 5 / 8 * (9 * u ^ 4 - 6 * u ^ 2 + 1))); [intros; auto_derive; [exact I|field]|intros; auto_derive; exact I| |field]. intros t. cbn. ring.
  - apply (go (fun u => 15 / 4 * (u ^ 3 / 3 - u ^ 5 / 5)) (fun u => 15 / 4 * (u ^ 2 - u ^ 4))); [intros; auto_derive; [exact I|field]|intros; auto_derive; exact I| |field]. intros t. cbn [nth gphi]. replace (15 / 4 * sin t * cos t * sin t * cos t) with (15 / 4 * (sin t * sin t) * (cos t * cos t)) by ring. rewrite hs. ring.
  - apply (go (fun u => 15 / 16 * (u - 2 * u ^ 3 / 3 + u ^ 5 / 5)) (fun u => 15 / 16 * (1 - 2 * u ^ 2 + u ^ 4))); [intros; auto_derive; [exact I|field]|intros; auto_derive; exact I| |field]. intros t. cbn [nth gphi]. replace (15 / 16 * sin t ^ 2 * sin t ^ 2) with (15 / 16 * (sin t * sin t) * (sin t * sin t)) by ring. rewrite hs. ring.
  - apply (go (fun u => sqrt 15 / 4 * (3 * u ^ 4 / 4 - u ^ 2 / 2)) (fun u => sqrt 15 / 4 * (3 * u ^ 3 - u))); [intros; auto_derive; [exact I|field]|intros; auto_derive; exact I| |field]. intros t. cbn [nth gphi]. ring.
  - apply (go (fun u => sqrt 45 / 4 * (u ^ 2 / 2 - u ^ 4 / 4)) (fun u => sqrt 45 / 4 * (u - u ^ 3))); [intros; auto_derive; [exact I|field]|intros; auto_derive; exact I| |field]. intros t. cbn [nth gphi]. replace (sqrt 45 / 4 * sin t * sin t * cos t) with (sqrt 45 / 4 * (sin t * sin t) * cos t) by ring. rewrite hs. ring.
  - apply (go (fun u => 3 / 2 * (u ^ 3 / 3)) (fun u => 3 / 2 * u ^ 2)); [intros; auto_derive; [exact I|field]|intros; auto_derive; exact I| |field]. intros t. cbn [nth gphi]. ring.
  - apply (go (fun u => 3 / 4 * (u - u ^ 3 / 3)) (fun u => 3 / 4 * (1 - u ^ 2))); [intros; auto_derive; [exact I|field]|intros; auto_derive; exact I| |field]. intros t. cbn [nth gphi]. rewrite Rmult_assoc, hs. ring.
  - apply (go (fun u => sqrt 5 / 4 * (u ^ 3 - u)) (fun u => sqrt 5 / 4 * (3 * u ^ 2 - 1))); [intros; auto_derive; [exact I|field]|intros; auto_derive; exact I| |field]. intros t. cbn [nth gphi]. ring.
  - apply (go (fun u => sqrt 3 / 2 * (u ^ 2 / 2)) (fun u => sqrt 3 / 2 * u)); [intros; auto_derive; [exact I|field]|intros; auto_derive; exact I| |field]. intros t. cbn [nth gphi]. ring.
  - apply (go (fun u => 1 / 2 * u) (fun u => 1 / 2)); [intros; auto_derive; [exact I|field]|intros; auto_derive; exact I| |field]. intros t. cbn [nth gphi]. ring.
Qed.
