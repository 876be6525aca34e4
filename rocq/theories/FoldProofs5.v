From Coq Require Import Reals ZArith List Bool Arith Lia Lra FunctionalExtensionality.
From Verif Require Import Vec GeomModel GeomSpec GeomProofs CoulModel PairModel PairSpec PairProofs SkModel SkSpec SkProofs SkProofs2 SkProofs3 SkProofs4 SkProofs5 SkProofs6 SkProofs7 Cpx RhoModel RhoSpec RhoProofs InvModel InvSpec InvLin InvProofs InvProofs5 InvProofs6 InvProofs7 InvProofs8 GamModel InvProofs9 InvProofs10 InvProofs11 FoldSpec FoldProofs.
Import ListNotations.
Open Scope R_scope.

(** ** sums over things that correspond *)
Lemma lsum_zero {A} (f : A -> R) l : (forall x, In x l -> f x = 0) -> lsum f l = 0.
Proof. induction l as [|x l IH]; intros H; [reflexivity|]. cbn [lsum]. rewrite H, IH by (intros; try apply H; cbn; auto). ring. Qed.
Lemma lsum_ext_in {A} (f g : A -> R) l : (forall x, In x l -> f x = g x) -> lsum f l = lsum g l.
Proof. induction l as [|x l IH]; intros H; [reflexivity|]. cbn [lsum]. rewrite (H x (or_introl eq_refl)), IH by (intros y Hy; apply H; right; exact Hy). reflexivity. Qed.
Lemma matched_sum {A B} (la : list A) (lb : list B) (f : A -> option B) (F : B -> R) : NoDup la -> NoDup lb ->
  (forall a b, In a la -> f a = Some b -> In b lb) -> (forall a a' b, In a la -> In a' la -> f a = Some b -> f a' = Some b -> a = a') ->
  (forall b, In b lb -> (forall a, In a la -> f a <> Some b) -> F b = 0) ->
  lsum (fun a => match f a with Some b => F b | None => 0 end) la = lsum F lb.
Proof.
  revert lb. induction la as [|a la IH]; intros lb Na Nb Hin Hinj Hz.
  - cbn [lsum]. symmetry. apply lsum_zero. intros b Hb. apply Hz; [exact Hb|intros a []].
  - inversion Na as [|? ? Na1 Na2]; subst. cbn [lsum]. destruct (f a) as [b|] eqn:E.
    + assert (Hb : In b lb) by (apply (Hin a); [left; reflexivity|exact E]). destruct (in_split b lb Hb) as (l1 & l2 & ->). apply NoDup_remove in Nb. destruct Nb as [Nb Nn].
      rewrite (IH (l1 ++ l2)); try assumption.
      * rewrite !lsum_app. cbn [lsum]. ring.
      * intros a' b' Ha' E'. assert (I : In b' (l1 ++ b :: l2)) by (apply (Hin a'); [right; exact Ha'|exact E']). apply in_app_or in I. apply in_or_app. destruct I as [I|[I|I]]; [left; exact I| |right; exact I].
        subst b'. exfalso. apply Na1. rewrite (Hinj a a' b); [exact Ha'|left; reflexivity|right; exact Ha'|exact E|exact E'].
      * intros x y b' Hx Hy. apply Hinj; right; assumption.
      * intros b' Hb' H. apply Hz; [apply in_app_or in Hb'; apply in_or_app; cbn; tauto|]. intros x [<-|Hx]; [|apply H; exact Hx]. intros E'. rewrite E in E'. injection E' as ->. contradiction.
    + rewrite (IH lb); try assumption; [ring| | |].
      * intros a' b' Ha'. apply Hin. right. exact Ha'.
      * intros x y b' Hx Hy. apply Hinj; right; assumption.
      * intros b' Hb' H. apply Hz; [exact Hb'|]. intros x [<-|Hx]; [rewrite E; discriminate|apply H; exact Hx].
Qed.
Lemma lsum_prod {A} m (l : list A) (F : nat -> A -> R) : lsum (fun a => F (fst a) (snd a)) (list_prod (seq 0 m) l) = rsum m (fun c => lsum (F c) l).
Proof.
  rewrite <- lsum_seq. induction (seq 0 m) as [|c cs IH]; [reflexivity|]. cbn [list_prod lsum]. rewrite lsum_app, IH, lsum_map. cbn [fst snd]. reflexivity.
Qed.
Lemma NoDup_app' {A} (l l' : list A) : NoDup l -> NoDup l' -> (forall x, In x l -> ~ In x l') -> NoDup (l ++ l').
Proof.
  intros N N' H. induction N as [|a l Ha N IH]; [exact N'|]. cbn [app]. constructor; [|apply IH; intros x Hx; apply H; right; exact Hx].
  intros I. apply in_app_or in I. destruct I as [I|I]; [contradiction|]. apply (H a (or_introl eq_refl) I).
Qed.
Lemma NoDup_map' {A B} (f : A -> B) l : (forall x y, f x = f y -> x = y) -> NoDup l -> NoDup (map f l).
Proof. intros H N. induction N as [|a l Ha N IH]; [constructor|]. cbn [map]. constructor; [|exact IH]. intros I. apply in_map_iff in I. destruct I as (x & E & Hx). apply H in E. subst. contradiction. Qed.
Lemma NoDup_prod {A B} (la : list A) (lb : list B) : NoDup la -> NoDup lb -> NoDup (list_prod la lb).
Proof.
  intros Na Nb. induction Na as [|a la H Na IH]; [constructor|]. cbn [list_prod]. apply NoDup_app'; [|exact IH|].
  - apply NoDup_map'; [intros x y E; congruence|exact Nb].
  - intros [x y] I J. apply in_map_iff in I. destruct I as (z & E & _). injection E as <- <-. apply in_prod_iff in J. apply H, J.
Qed.
Section Images.
Context (m : nat) (p : nat -> nat -> nat -> cplx) (W : nat -> m3) (v : nat -> v3) (w : nat -> nat -> nat -> option nat) (D : database) (Bohr : R) (g h : structure).
Context (C : copies m p W v w D Bohr g h).
Lemma images_sum c (F : nat -> R) : (c < m)%nat -> (forall n, (n < g_nimg g)%nat -> (forall c' P, (c' < m)%nat -> (P < g_nimg h)%nat -> w c c' P <> Some n) -> F n = 0) ->
  rsum m (fun c' => rsum (g_nimg h) (fun P => match w c c' P with Some n => F n | None => 0 end)) = rsum (g_nimg g) F.
Proof.
  intros Hc Hz. rewrite <- (lsum_seq F). rewrite <- (matched_sum (list_prod (seq 0 m) (seq 0 (g_nimg h))) (seq 0 (g_nimg g)) (fun a => w c (fst a) (snd a)) F).
  - rewrite (lsum_prod m (seq 0 (g_nimg h)) (fun c' P => match w c c' P with Some n => F n | None => 0 end)). apply rsum_ext. intros c' _. symmetry. apply lsum_seq.
  - apply NoDup_prod; apply seq_NoDup.
  - apply seq_NoDup.
  - intros [c' P] n I E. apply in_prod_iff in I. rewrite !in_seq in I. apply in_seq. cbn [fst snd] in E. pose proof (q_image _ _ _ _ _ _ _ _ _ C c c' P n Hc ltac:(lia) ltac:(lia) E) as [H _]. lia.
  - intros [c1 P1] [c2 P2] n _ _ E1 E2. destruct (q_once _ _ _ _ _ _ _ _ _ C c c1 P1 c2 P2 n Hc E1 E2) as [-> ->]. reflexivity.
  - intros n I H. apply in_seq in I. apply Hz; [lia|]. intros c' P Hc' HP. apply (H (c', P)). apply in_prod_iff. rewrite !in_seq. lia.
Qed.
Lemma images_csum c (F : nat -> cplx) : (c < m)%nat -> (forall n, (n < g_nimg g)%nat -> (forall c' P, (c' < m)%nat -> (P < g_nimg h)%nat -> w c c' P <> Some n) -> F n = c0) ->
  csum m (fun c' => csum (g_nimg h) (fun P => match w c c' P with Some n => F n | None => c0 end)) = csum (g_nimg g) F.
Proof.
  intros Hc Hz. apply cplx_eq; unfold csum; cbn [fst snd].
  - rewrite <- (images_sum c (fun n => fst (F n)) Hc) by (intros n Hn H; rewrite (Hz n Hn H); reflexivity). apply rsum_ext. intros c' _. apply rsum_ext. intros P _. destruct (w c c' P); reflexivity.
  - rewrite <- (images_sum c (fun n => snd (F n)) Hc) by (intros n Hn H; rewrite (Hz n Hn H); reflexivity). apply rsum_ext. intros c' _. apply rsum_ext. intros P _. destruct (w c c' P); reflexivity.
Qed.
Lemma INRm : INR m <> 0. Proof. apply not_0_INR. pose proof (q_m _ _ _ _ _ _ _ _ _ C). lia. Qed.
(** what copy c sees of copy c' is the part of what g sees of itself *)
Lemma phase_fold k c c' (T : nat -> R) : (k < g_nk h)%nat -> (c < m)%nat -> (c' < m)%nat ->
  (forall n, (n < g_nimg g)%nat -> (forall c' P, (c' < m)%nat -> (P < g_nimg h)%nat -> w c c' P <> Some n) -> T n = 0) ->
  csum (g_nimg h) (fun P => match w c c' P with Some n => cscale (T n) (g_phase h k P) | None => c0 end) =
  csum m (fun j => cmul (cmul (p k j c) (cconj (p k j c'))) (cscale (/ INR m) (csum (g_nimg g) (fun n => cscale (T n) (g_phase g (k * m + j)%nat n))))).
Proof.
  intros Hk Hc Hc' Hz. pose proof (q_p _ _ _ _ _ _ _ _ _ C k Hk) as CH.
  rewrite (csum_ext' m _ (fun j => csum m (fun c2 => csum (g_nimg h) (fun P => match w c c2 P with Some n => cmul (cscale (T n / INR m) (g_phase h k P)) (cmul (p k j c2) (cconj (p k j c'))) | None => c0 end)))).
  2: { intros j Hj. rewrite <- (images_csum c (fun n => cscale (T n) (g_phase g (k * m + j)%nat n)) Hc).
    - rewrite cscale_rc, <- csum_mul, <- csum_mul. apply csum_ext'. intros c2 Hc2. rewrite <- csum_mul, <- csum_mul. apply csum_ext'. intros P HP. destruct (w c c2 P) as [n|] eqn:E; [|apply cplx_eq; cbn; ring].
      destruct (q_image _ _ _ _ _ _ _ _ _ C c c2 P n Hc Hc2 HP E) as (_ & _ & _ & Ph). rewrite (Ph k j Hk Hj). rewrite !cscale_rc.
      transitivity (cmul (cmul (p k j c) (cconj (p k j c))) (cmul (cmul (rc (/ INR m)) (rc (T n))) (cmul (g_phase h k P) (cmul (p k j c2) (cconj (p k j c')))))); [ring|].
      rewrite (h_unit _ _ CH j c Hj Hc). replace (cmul (rc (/ INR m)) (rc (T n))) with (rc (T n / INR m)) by (apply cplx_eq; cbn; unfold Rdiv; ring). ring.
    - intros n Hn H. rewrite (Hz n Hn H). apply cplx_eq; cbn; ring. }
  rewrite csum_swap. rewrite (csum_single m c'); [|exact Hc'|].
  - rewrite csum_swap. apply csum_ext'. intros P _. destruct (w c c' P) as [n|]; [|symmetry; apply csum_all0; reflexivity].
    rewrite csum_mul. rewrite (h_rows _ _ CH c' c' Hc' Hc'), Nat.eqb_refl. apply cplx_eq; cbn; field; apply INRm.
  - intros c2 Hc2 Ne. rewrite csum_swap. apply csum_all0. intros P _. destruct (w c c2 P) as [n|]; [|apply csum_all0; reflexivity]. rewrite csum_mul, (h_rows _ _ CH c2 c' Hc2 Hc').
    destruct (Nat.eqb_spec c2 c'); [contradiction|]. apply cplx_eq; cbn; ring.
Qed.
Lemma weights_fold k c c' : (k < g_nk h)%nat -> (c < m)%nat -> (c' < m)%nat -> csum m (fun j => cmul (cmul (p k j c) (cconj (p k j c'))) (rc (/ INR m))) = if (c =? c')%nat then c1 else c0.
Proof.
  intros Hk Hc Hc'. rewrite csum_mul_r, (h_rows _ _ (q_p _ _ _ _ _ _ _ _ _ C k Hk) c c' Hc Hc'). destruct (c =? c')%nat; apply cplx_eq; cbn; try ring; field; apply INRm.
Qed.
(** ** geometry *)
Let N := g_N g.
Lemma place_copy c P n c' J : (c < m)%nat -> (c' < m)%nat -> (P < g_nimg h)%nat -> w c c' P = Some n -> (J < N)%nat ->
  g_Rn Bohr h P (c' * N + J)%nat = vadd (mv (W c) (g_Rn Bohr g n J)) (vscale (/ Bohr) (v c)).
Proof.
  intros Hc Hc' HP E HJ. destruct (q_image _ _ _ _ _ _ _ _ _ C c c' P n Hc Hc' HP E) as (_ & EO & Et & _). unfold g_Rn. unfold N. rewrite (q_r _ _ _ _ _ _ _ _ _ C c' J Hc' HJ).
  rewrite mv_add. rewrite <- mv_mm, EO, mv_mm. rewrite mv_scale, mv_add.
  set (A := mv (W c) (mv (g_O g n) (g_r g J))). set (B := mv (g_O h P) (v c')) in *. set (B' := mv (W c) (g_t g n)) in *.
  assert (Ex : vx B + vx (g_t h P) = vx B' + vx (v c)) by (apply (f_equal vx) in Et; exact Et). assert (Ey : vy B + vy (g_t h P) = vy B' + vy (v c)) by (apply (f_equal vy) in Et; exact Et). assert (Ez : vz B + vz (g_t h P) = vz B' + vz (v c)) by (apply (f_equal vz) in Et; exact Et).
  apply v3_eq; cbn [vadd vscale vx vy vz]; [transitivity (/ Bohr * (vx A + (vx B + vx (g_t h P)))); [ring|rewrite Ex; ring]|transitivity (/ Bohr * (vy A + (vy B + vy (g_t h P)))); [ring|rewrite Ey; ring]|transitivity (/ Bohr * (vz A + (vz B + vz (g_t h P)))); [ring|rewrite Ez; ring]].
Qed.
Context (inv inv' : nat -> nat) (Sg : sound D g inv) (Sh : sound D h inv').
Lemma rijn_copy c P n c' I J : (c < m)%nat -> (c' < m)%nat -> (P < g_nimg h)%nat -> w c c' P = Some n -> (I < N)%nat -> (J < N)%nat ->
  rijn (g_Rn Bohr h) P (c * N + I)%nat (c' * N + J)%nat = mv (W c) (rijn (g_Rn Bohr g) n I J).
Proof.
  intros Hc Hc' HP E HI HJ. unfold rijn. rewrite (place_copy c P n c' J Hc Hc' HP E HJ), (place_copy c 0%nat 0%nat c I Hc Hc (im_some _ _ _ _ (u_images _ _ _ Sh)) (q_home _ _ _ _ _ _ _ _ _ C c Hc) HI).
  rewrite mv_sub. set (A := mv (W c) _). set (B := mv (W c) _). apply v3_eq; cbn [vsub vadd vx vy vz]; ring.
Qed.
Lemma dist_copy c P n c' I J : (c < m)%nat -> (c' < m)%nat -> (P < g_nimg h)%nat -> w c c' P = Some n -> (I < N)%nat -> (J < N)%nat ->
  dist (g_Rn Bohr h) P (c * N + I)%nat (c' * N + J)%nat = dist (g_Rn Bohr g) n I J.
Proof. intros. unfold dist. rewrite (rijn_copy c P n c' I J) by assumption. apply mv_norm. apply (q_W _ _ _ _ _ _ _ _ _ C). assumption. Qed.
Lemma self_copy c P n c' I J : (c < m)%nat -> (c' < m)%nat -> (P < g_nimg h)%nat -> w c c' P = Some n -> (I < N)%nat -> (J < N)%nat ->
  self_pair P (c * N + I)%nat (c' * N + J)%nat = self_pair n I J.
Proof.
  intros Hc Hc' HP E HI HJ. unfold self_pair. rewrite pair_eqb by assumption. pose proof (q_home _ _ _ _ _ _ _ _ _ C c Hc) as H0.
  destruct (Nat.eqb_spec n 0) as [->|Nn].
  - destruct (q_once _ _ _ _ _ _ _ _ _ C c c' P c 0%nat 0%nat Hc E H0) as [-> ->]. rewrite !Nat.eqb_refl. reflexivity.
  - rewrite andb_false_r. destruct (Nat.eqb_spec c c') as [<-|]; [|reflexivity]. destruct (Nat.eqb_spec P 0) as [->|]; [|apply andb_false_r]. congruence.
Qed.
Lemma self_none c P c' I J : (c < m)%nat -> w c c' P = None -> (I < N)%nat -> (J < N)%nat -> self_pair P (c * N + I)%nat (c' * N + J)%nat = false.
Proof.
  intros Hc E HI HJ. unfold self_pair. rewrite pair_eqb by assumption. destruct (Nat.eqb_spec c c') as [<-|]; [|reflexivity]. destruct (Nat.eqb_spec P 0) as [->|]; [|apply andb_false_r].
  rewrite (q_home _ _ _ _ _ _ _ _ _ C c Hc) in E. discriminate.
Qed.
End Images.
