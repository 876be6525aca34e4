(** Derivatives of the blocks of the matrices, including the blocks of an atom with its own images. *)
From Coq Require Import Reals List Bool Arith Lia Lra FunctionalExtensionality.
From Verif Require Import Vec GeomModel GeomSpec GeomProofs PairModel PairSpec PairProofs SkModel SkSpec SkProofs SkProofs2 SkProofs3 SkProofs4 SkProofs5 SkProofs6 SkProofs7.
Import ListNotations.
Open Scope R_scope.

Section Deriv.
Context (nimg : nat) (no : nat -> nat) (O : nat -> m3) (t : nat -> v3) (r : nat -> v3)
  (DT : nat -> nat -> nat -> R) (phase : nat -> cplx) (tab dtab : nat -> nat -> R -> nat -> R) (r1 r2 : nat -> nat -> R) (i j : nat).
Context (Hid : O 0%nat = eye /\ t 0%nat = vzero) (Hno : (no i <= 9)%nat /\ (no j <= 9)%nat).
Context (Hsmooth : forall n, (n < nimg)%nat -> ~ (i = j /\ n = 0%nat) -> 0 < mdist (place O t r) n i j /\ mdist (place O t r) n i j <> r1 i j /\ mdist (place O t r) n i j <> r2 i j /\
    (r1 i j < mdist (place O t r) n i j < r2 i j -> forall c, (c < 14)%nat ->
       derivable_pt_lim (fun d => tab i j d c) (mdist (place O t r) n i j) (dtab i j (mdist (place O t r) n i j) c))).
Lemma element_derivative m u n a b : (n < nimg)%nat -> (a < no i)%nat -> (b < no j)%nat ->
  derivable_pt_lim (fun s => if skipped (place O t (moved r (one m u) s)) r1 r2 n i j then 0
     else ht_image no (place O t (moved r (one m u) s)) DT tab n i j a b) 0
   (if skipped (place O t r) r1 r2 n i j then 0 else
     rsum 3 (fun k => comp k (vadd (if (j =? m)%nat then mv (O n) u else vzero) (if (i =? m)%nat then vscale (-1) u else vzero)) *
        dht_image no (place O t r) DT tab dtab n i j a b k)).
Proof.
  intros Hn Ha Hb. destruct ((i =? j)%nat && (n =? 0)%nat) eqn:SP.
  { assert (SKa : forall Rn, skipped Rn r1 r2 n i j = true) by (intros Rn; unfold skipped; rewrite SP; reflexivity). rewrite SKa.
    apply derivable_local with (g := fun _ => 0) (e := 1); [lra| |apply D_const]. intros s _. rewrite SKa. reflexivity. }
  assert (NS : ~ (i = j /\ n = 0%nat)) by (intros [-> ->]; rewrite !Nat.eqb_refl in SP; discriminate).
  destruct (Hsmooth n Hn NS) as (Hpos & Hr1 & Hr2 & HT).
  set (w := vadd (if (j =? m)%nat then mv (O n) u else vzero) (if (i =? m)%nat then vscale (-1) u else vzero)).
  set (Rn := place O t r) in *. set (p := mrij Rn n i j) in *.
  assert (Hp : 0 < vnorm p) by exact Hpos.
  assert (Hz : p <> vzero) by (intros Z; rewrite Z, vnorm_zero in Hp; lra).
  assert (HE : exists e, 0 < e /\ (forall d, Rabs (d - vnorm p) < e -> leb (r1 i j) d && leb d (r2 i j) = leb (r1 i j) (vnorm p) && leb (vnorm p) (r2 i j))).
  { fold (mdist Rn n i j) in *. change (vnorm p) with (mdist Rn n i j) in *.
    exists (Rmin (Rabs (mdist Rn n i j - r1 i j)) (Rabs (mdist Rn n i j - r2 i j))). split.
    - apply Rmin_pos; apply Rabs_pos_lt; lra.
    - intros d Hd. pose proof (Rmin_l (Rabs (mdist Rn n i j - r1 i j)) (Rabs (mdist Rn n i j - r2 i j))) as M1.
      pose proof (Rmin_r (Rabs (mdist Rn n i j - r1 i j)) (Rabs (mdist Rn n i j - r2 i j))) as M2.
      f_equal.
      + destruct (leb (r1 i j) (mdist Rn n i j)) eqn:E; [apply leb_true in E; apply leb_true|apply leb_false in E; apply leb_false];
          unfold Rabs in *; repeat destruct Rcase_abs; lra.
      + destruct (leb (mdist Rn n i j) (r2 i j)) eqn:E; [apply leb_true in E; apply leb_true|apply leb_false in E; apply leb_false];
          unfold Rabs in *; repeat destruct Rcase_abs; lra. }
  destruct HE as (e & He & Hleb). destruct (near_norm p w Hp e He) as (dd & Hdd & Hnear).
  assert (SK : forall s, Rabs (s - 0) < dd -> skipped (place O t (moved r (one m u) s)) r1 r2 n i j = skipped Rn r1 r2 n i j).
  { intros s Hs. unfold skipped, mdist. rewrite (image_moved O t r i j Hid). fold w. fold Rn. fold p. rewrite Hleb by (apply Hnear; exact Hs). reflexivity. }
  destruct (skipped Rn r1 r2 n i j) eqn:ES.
  - apply derivable_local with (g := fun _ => 0) (e := dd); [exact Hdd| |apply D_const]. intros s Hs. rewrite SK by exact Hs. reflexivity.
  - apply derivable_local with (g := fun s => rsum (no j) (fun k => bond (fun c d => tab i j d c) (vadd p (vscale s w)) a k * DT n k b)) (e := dd); [exact Hdd| |].
    + intros s Hs. rewrite SK by exact Hs. unfold ht_image, rijh, mdist. rewrite (image_moved O t r i j Hid). fold w. fold Rn. fold p. reflexivity.
    + assert (Hin : r1 i j < vnorm p < r2 i j).
      { unfold skipped in ES. apply orb_false_iff in ES. destruct ES as [_ ES]. apply negb_false_iff, andb_true_iff in ES. destruct ES as [L1 L2].
        apply leb_true in L1, L2. change (vnorm p) with (mdist Rn n i j). split; apply Rnot_le_lt; intros K; [apply Hr1|apply Hr2]; lra. }
      eapply D_eq.
      * apply derivable_rsum with (l := fun k => rsum 3 (fun q => comp q w * dht (rijh Rn n i j) (mdist Rn n i j) (tab i j (mdist Rn n i j))
           (fun c q => dtab i j (mdist Rn n i j) c * comp q (rijh Rn n i j)) a k q) * DT n k b).
        intros k Hk. eapply D_eq.
        -- apply (D_mult (fun s => bond (fun c d => tab i j d c) (vadd p (vscale s w)) a k) (fun _ => DT n k b)); [|apply D_const].
           apply (sk_derivative (fun c d => tab i j d c) (fun c => dtab i j (vnorm p) c)); [exact Hz| |lia|lia].
           intros c Hc. apply HT; assumption.
        -- cbn beta. rewrite Rmult_0_r, Rplus_0_r. reflexivity.
      * cbn beta. unfold dht_image.
        rewrite (rsum_ext 3 _ (fun q => rsum (no j) (fun k => comp q w * dht (rijh Rn n i j) (mdist Rn n i j) (tab i j (mdist Rn n i j))
           (fun c q => dtab i j (mdist Rn n i j) c * comp q (rijh Rn n i j)) a k q * DT n k b))).
        -- rewrite rsum_swap. apply rsum_ext. intros k Hk. rewrite <- rsum_scal_r. reflexivity.
        -- intros q Hq. rewrite <- rsum_scal. apply rsum_ext. intros k Hk. ring.
Qed.
Lemma block_derivative m u a b : (a < no i)%nat -> (b < no j)%nat ->
  cderivative (fun s => block nimg no (place O t (moved r (one m u) s)) DT phase tab r1 r2 i j a b) 0
   (csum nimg (fun n => if skipped (place O t r) r1 r2 n i j then (0, 0) else
     cscale (rsum 3 (fun k => comp k (vadd (if (j =? m)%nat then mv (O n) u else vzero) (if (i =? m)%nat then vscale (-1) u else vzero)) *
        dht_image no (place O t r) DT tab dtab n i j a b k)) (phase n))).
Proof.
  intros Ha Hb. unfold cderivative, block, csum. cbn [fst snd].
  split; apply derivable_rsum; intros n Hn; pose proof (element_derivative m u n a b Hn Ha Hb) as D.
  - match type of D with derivable_pt_lim ?f _ ?l =>
      apply derivable_local with (g := fun s => f s * fst (phase n)) (e := 1); [lra| |apply D_eq with (a := l * fst (phase n) + f 0 * 0)] end.
    + intros y _. cbn beta. destruct (skipped (place O t (moved r (one m u) y)) r1 r2 n i j); unfold cscale; cbn [fst snd]; ring.
    + match type of D with derivable_pt_lim ?f _ _ => apply (D_mult f (fun _ => fst (phase n))); [exact D|apply D_const] end.
    + cbn beta. destruct (skipped (place O t r) r1 r2 n i j); unfold cscale; cbn [fst snd]; ring.
  - match type of D with derivable_pt_lim ?f _ ?l =>
      apply derivable_local with (g := fun s => f s * snd (phase n)) (e := 1); [lra| |apply D_eq with (a := l * snd (phase n) + f 0 * 0)] end.
    + intros y _. cbn beta. destruct (skipped (place O t (moved r (one m u) y)) r1 r2 n i j); unfold cscale; cbn [fst snd]; ring.
    + match type of D with derivable_pt_lim ?f _ _ => apply (D_mult f (fun _ => snd (phase n))); [exact D|apply D_const] end.
    + cbn beta. destruct (skipped (place O t r) r1 r2 n i j); unfold cscale; cbn [fst snd]; ring.
Qed.

Notation db := (dblock nimg no (place O t r) DT phase tab dtab r1 r2 i j).
Notation db2 := (dblock2 nimg no (place O t r) O DT phase tab dtab r1 r2 i j).
(** moving atom m along an axis changes the block through its rows and through its columns *)
Lemma block_moved m k a b : (a < no i)%nat -> (b < no j)%nat -> (k < 3)%nat ->
  cderivative (fun s => block nimg no (place O t (moved r (one m (axis k)) s)) DT phase tab r1 r2 i j a b) 0
    (cadd (if (i =? m)%nat then db a b k else (0, 0)) (if (j =? m)%nat then cconj (db2 a b k) else (0, 0))).
Proof.
  intros Ha Hb Hk. pose proof (block_derivative m (axis k) a b Ha Hb) as D.
  match goal with |- cderivative _ _ ?y => match type of D with cderivative _ _ ?x => replace y with x; [exact D|] end end.
  assert (E : forall n, cscale (rsum 3 (fun q => comp q (vadd (if (j =? m)%nat then mv (O n) (axis k) else vzero) (if (i =? m)%nat then vscale (-1) (axis k) else vzero)) *
        dht_image no (place O t r) DT tab dtab n i j a b q)) (phase n)
      = cadd (if (i =? m)%nat then cscale (- dht_image no (place O t r) DT tab dtab n i j a b k) (phase n) else (0, 0))
             (if (j =? m)%nat then cscale (rsum 3 (fun q => dht_image no (place O t r) DT tab dtab n i j a b q * m3e (O n) q k)) (phase n) else (0, 0))).
  { intros n. set (F := dht_image no (place O t r) DT tab dtab n i j a b). destruct (phase n) as [x y]. generalize (O n). intros Q. cbn [rsum]. destruct k as [|[|[|k]]]; try lia;
      destruct (i =? m)%nat, (j =? m)%nat; unfold axis, vadd, vzero, vscale, mv, vdot, m3e, cadd, cscale; cbn; f_equal; ring. }
  unfold dblock, dblock2. rewrite cconj_cconj.
  destruct (i =? m)%nat eqn:Ei, (j =? m)%nat eqn:Ej.
  4:{ unfold csum, cadd; cbn [fst snd]. f_equal; rewrite Rplus_0_l; apply rsum_eq0; intros n Hn; (destruct (skipped _ _ _ n i j); [reflexivity|]); rewrite E; unfold cadd; cbn [fst snd]; ring. }
  all: unfold csum, cadd; cbn [fst snd]; rewrite ?Rplus_0_l, ?Rplus_0_r, <- ?rsum_plus; f_equal; apply rsum_ext; intros n Hn; destruct (skipped _ _ _ n i j); try (cbn [fst snd]; ring); rewrite ?E; unfold cadd; cbn [fst snd]; ring.
Qed.
End Deriv.
