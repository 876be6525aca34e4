(** The mixing steps are least-squares optimal. *)
From Coq Require Import Reals Lra Lia List Arith Bool.
From Verif Require Import Vec MixModel MixSpec MixProofs MixProofs2.
Import ListNotations.
Open Scope R_scope.

Lemma dot_comm n u v : dot n u v = dot n v u.
Proof. apply rsum_ext. intros; ring. Qed.

Lemma dot_ext n u u' v v' : (forall k, (k < n)%nat -> u k = u' k) -> (forall k, (k < n)%nat -> v k = v' k) ->
  dot n u v = dot n u' v'.
Proof. intros H H'. apply rsum_ext. intros k Hk. rewrite H, H' by exact Hk. reflexivity. Qed.

(** dot with a linear combination *)
Lemma dot_comb n L w (G : nat -> vec) u :
  dot n u (fun k => rsum L (fun j => w j * G j k)) = rsum L (fun j => w j * dot n u (G j)).
Proof.
  unfold dot. rewrite (rsum_ext n _ (fun k => rsum L (fun j => w j * (u k * G j k)))).
  - rewrite rsum_swap. apply rsum_ext. intros. apply rsum_scal.
  - intros k _. rewrite <- rsum_scal. apply rsum_ext. intros; ring.
Qed.

Lemma dot_self_nonneg n u : 0 <= dot n u u.
Proof. apply rsum_nonneg. intros. apply Rle_0_sqr. Qed.

(** equal projections on all rows give the optimum among weights adding up to one *)
Lemma equal_projection_optimal n L (G : nat -> vec) w lam :
  rsum L w = 1 ->
  (forall j, (j < L)%nat -> dot n (fun k => rsum L (fun j => w j * G j k)) (G j) = lam) ->
  forall d, rsum L d = 1 ->
  dot n (fun k => rsum L (fun j => w j * G j k)) (fun k => rsum L (fun j => w j * G j k)) <=
  dot n (fun k => rsum L (fun j => d j * G j k)) (fun k => rsum L (fun j => d j * G j k)).
Proof.
  intros Hw Hl d Hd.
  set (Fw := fun k => rsum L (fun j => w j * G j k)) in *.
  set (Fd := fun k => rsum L (fun j => d j * G j k)).
  assert (P : forall v, rsum L v = 1 -> dot n Fw (fun k => rsum L (fun j => v j * G j k)) = lam).
  { intros v Hv. rewrite dot_comb. rewrite (rsum_ext L _ (fun j => v j * lam)).
    - rewrite rsum_scal_r, Hv. ring.
    - intros j Hj. rewrite Hl by exact Hj. reflexivity. }
  assert (E1 : dot n Fw Fw = lam) by (apply (P w Hw)).
  assert (E2 : dot n Fw Fd = lam) by (apply (P d Hd)).
  assert (E3 : dot n (fun k => Fd k - Fw k) (fun k => Fd k - Fw k) = dot n Fd Fd - 2 * dot n Fw Fd + dot n Fw Fw).
  { unfold dot. rewrite <- rsum_scal, <- rsum_minus, <- rsum_plus. apply rsum_ext. intros; ring. }
  pose proof (dot_self_nonneg n (fun k => Fd k - Fw k)). lra.
Qed.

Lemma after_snoc m ins : forall s xi yi,
  after m s (ins ++ [(xi, yi)]) = fst (m_call m (after m s ins) xi yi).
Proof.
  induction ins as [|[a b] ins IH]; intros s xi yi; [reflexivity|]. simpl. apply IH.
Qed.

Lemma rev_snoc {A} (l : list A) (x : A) : rev (l ++ [x]) = x :: rev l.
Proof. apply rev_app_distr. Qed.

(** the rows of the Anderson mixer are the history *)
Lemma anderson_rows sv p n s ins :
  let t := after (anderson_mixer sv p n) (anderson_reset s) ins in
  a_it t = List.length ins /\
  forall j, (1 <= j <= Nat.min (List.length ins) (memory p))%nat ->
    a_F t j = hist_F (rev ins) (j - 1) /\ a_x t j = hist_x (rev ins) (j - 1).
Proof.
  induction ins as [|[xi yi] ins IH] using rev_ind; [split; [reflexivity|intros j Hj; simpl in Hj; lia]|].
  rewrite after_snoc. cbv zeta in *. destruct IH as [IH1 IH2].
  set (t := after (anderson_mixer sv p n) (anderson_reset s) ins) in *.
  rewrite app_length, rev_snoc. cbn [anderson_mixer m_call mst]. split.
  - unfold anderson. cbv zeta. cbn [fst a_it]. rewrite IH1. simpl. lia.
  - intros j Hj. unfold anderson. cbv zeta. cbn [fst a_F a_x]. unfold shift_rows. simpl in Hj.
    replace (andb (1 <=? j) (j <=? memory p)) with true
      by (symmetry; apply andb_true_intro; split; apply Nat.leb_le; lia).
    destruct (Nat.eq_dec j 1) as [->|Hne]; [split; reflexivity|].
    rewrite !set_row0_S by lia.
    destruct (Nat.eqb_spec (a_it t) 0) as [E|E]; [rewrite IH1 in E; lia|].
    destruct (IH2 (j - 1)%nat) as [-> ->]; [lia|].
    replace (j - 1)%nat with (S (j - 1 - 1)) at 2 4 by lia. split; reflexivity.
Qed.

Lemma a_sum_rsum M c base rows k :
  a_sum M c base rows k = base k + rsum M (fun j => c j * (rows (S j) k - base k)).
Proof. induction M as [|M IH]; simpl; [ring|rewrite IH; ring]. Qed.

(** weights of the affine form *)
Lemma affine_weights M c (rows : nat -> vec) k :
  rows O k + rsum M (fun j => c j * (rows (S j) k - rows O k)) =
  rsum (S M) (fun j => match j with O => 1 - rsum M c | S i => c i end * rows j k).
Proof.
  rewrite rsum_shift.
  rewrite (rsum_ext M (fun j => c j * (rows (S j) k - rows O k)) (fun j => c j * rows (S j) k - c j * rows O k))
    by (intros; ring).
  rewrite rsum_minus, rsum_scal_r. ring.
Qed.

Definition a_current (n : nat) (t : astate) (xi yi : vec) : nat -> vec :=
  set_row0 (fun k => yi k - xi k) (a_F t).

Lemma anderson_optimal sv p n s ins xi yi :
  solves_system sv -> chop p = None ->
  let t := after (anderson_mixer sv p n) (anderson_reset s) ins in
  let M := Nat.min (List.length ins) (memory p) in
  let xb := snd (snd (anderson sv p n t xi yi)) in
  let G := set_row0 (fun k => yi k - xi k) (a_F t) in
  ((M <= 1)%nat \/ sv M (a_mat n G) (a_rhs n G) = None ->
     forall k, xb k = xi k + beta p * (yi k - xi k)) /\
  ((2 <= M)%nat -> sv M (a_mat n G) (a_rhs n G) <> None ->
     optimal_mix (beta p) n (S M) ((xi, yi) :: rev ins) xb).
Proof.
  intros Hsv Hc. cbv zeta.
  pose proof (anderson_rows sv p n s ins) as X. cbv zeta in X.
  set (t := after (anderson_mixer sv p n) (anderson_reset s) ins) in *.
  destruct X as [Hit Hrows].
  set (M := Nat.min (List.length ins) (memory p)) in *.
  set (G := set_row0 (fun k => yi k - xi k) (a_F t)).
  assert (Hxb : snd (snd (anderson sv p n t xi yi)) =
    match (if M <=? 1 then None else sv M (a_mat n G) (a_rhs n G)) with
    | None => simple_mix p xi yi
    | Some c => a_combine p M c xi G (set_row0 xi (a_x t))
    end).
  { unfold anderson. cbv zeta. cbn [snd]. unfold chopped. rewrite Hc.
    replace (S (a_it t) - 1)%nat with (List.length ins) by lia.
    destruct (Nat.eqb_spec (a_it t) 0) as [E|E]; [|reflexivity].
    assert (HM : M = O) by (unfold M; rewrite <- Hit, E; reflexivity). fold M. rewrite HM. reflexivity. }
  rewrite Hxb. split.
  - intros H. intros k.
    replace (if M <=? 1 then None else sv M (a_mat n G) (a_rhs n G)) with (@None vec).
    + unfold simple_mix. ring.
    + destruct H as [H|H]; [apply Nat.leb_le in H; rewrite H; reflexivity|].
      rewrite H. destruct (M <=? 1); reflexivity.
  - intros HM Hs. replace (M <=? 1) with false by (symmetry; apply Nat.leb_gt; lia).
    destruct (sv M (a_mat n G) (a_rhs n G)) as [c|] eqn:E; [|contradiction Hs; reflexivity].
    set (h := (xi, yi) :: rev ins).
    assert (HG : forall j, (j <= M)%nat -> G j = hist_F h j).
    { intros [|j] Hj; [reflexivity|]. unfold G. rewrite set_row0_S by lia.
      destruct (Hrows (S j)) as [-> _]; [lia|]. replace (S j - 1)%nat with j by lia. reflexivity. }
    assert (HX : forall j, (j <= M)%nat -> set_row0 xi (a_x t) j = hist_x h j).
    { intros [|j] Hj; [reflexivity|]. rewrite set_row0_S by lia.
      destruct (Hrows (S j)) as [_ ->]; [lia|]. replace (S j - 1)%nat with j by lia. reflexivity. }
    set (w := fun j => match j with O => 1 - rsum M c | S i => c i end).
    exists w. split; [rewrite rsum_shift; transitivity (1 - rsum M c + rsum M c); [reflexivity|ring]|].
    assert (HFb : forall k, a_sum M c (G O) G k = rsum (S M) (fun j => w j * hist_F h j k)).
    { intros k. rewrite a_sum_rsum, affine_weights. apply rsum_ext. intros j Hj.
      rewrite HG by lia. reflexivity. }
    split.
    + intros k Hk. unfold a_combine. rewrite HFb.
      change xi with (set_row0 xi (a_x t) O) at 1. rewrite a_sum_rsum, affine_weights.
      rewrite <- rsum_scal, <- rsum_plus. apply rsum_ext. intros j Hj.
      rewrite HX by lia. fold w. unfold w. ring.
    + cbv zeta. intros d Hd. 
      apply equal_projection_optimal with (lam := dot n (a_sum M c (G O) G) (G O)); [rewrite rsum_shift; transitivity (1 - rsum M c + rsum M c); [reflexivity|ring]| |exact Hd].
      intros j Hj.
      transitivity (dot n (a_sum M c (G O) G) (G j)).
      { apply dot_ext; intros k _; [symmetry; apply HFb|]. rewrite HG by lia. reflexivity. }
      destruct j as [|j]; [reflexivity|].
      pose proof (Hsv M _ _ c E j ltac:(lia)) as N. unfold a_mat, a_rhs in N.
      assert (Z : dot n (a_sum M c (G O) G) (fun k => G O k - G (S j) k) = 0).
      { rewrite dot_comm.
        transitivity (dot n (fun k => G O k - G (S j) k) (G O) -
          rsum M (fun i => dot n (fun k => G O k - G (S j) k) (fun k => G O k - G (S i) k) * c i)).
        - rewrite (dot_ext n _ (fun k => G O k - G (S j) k) _ (fun k => G O k - rsum M (fun i => c i * (G O k - G (S i) k)))).
          + rewrite (rsum_ext M _ (fun i => c i * dot n (fun k => G O k - G (S j) k) (fun k => G O k - G (S i) k))) by (intros; ring).
            rewrite <- (dot_comb n M c (fun i k => G O k - G (S i) k)).
            unfold dot. rewrite <- rsum_minus. apply rsum_ext. intros; ring.
          + reflexivity.
          + intros k _. rewrite a_sum_rsum. unfold Rminus at 2. rewrite <- rsum_opp. f_equal.
            apply rsum_ext. intros; ring.
        - rewrite N. ring. }
      assert (Y : dot n (a_sum M c (G O) G) (fun k => G O k - G (S j) k) =
                  dot n (a_sum M c (G O) G) (G O) - dot n (a_sum M c (G O) G) (G (S j))).
      { unfold dot. rewrite <- rsum_minus. apply rsum_ext. intros; ring. }
      lra.
Qed.

(** ** Pulay *)
Lemma pulay_rows iv p n s ins : (1 <= memory p)%nat ->
  let t := after (pulay_mixer iv p n) (pulay_reset s) ins in
  p_it t = List.length ins /\
  forall j, (j < Nat.min (List.length ins) (memory p))%nat ->
    p_R t j = hist_F (rev ins) j /\ p_rho t j = hist_x (rev ins) j.
Proof.
  intros Hmem. induction ins as [|[xi yi] ins IH] using rev_ind; [split; [reflexivity|intros j Hj; simpl in Hj; lia]|].
  rewrite after_snoc. cbv zeta in *. destruct IH as [IH1 IH2].
  set (t := after (pulay_mixer iv p n) (pulay_reset s) ins) in *.
  rewrite app_length, rev_snoc. cbn [pulay_mixer m_call mst]. split.
  - rewrite pulay_it, IH1. simpl. lia.
  - intros j Hj. simpl in Hj.
    assert (E : p_R (fst (pulay iv p n t xi yi)) =
        push_row (Nat.min (S (p_it t)) (memory p)) (fun k => yi k - xi k) (if p_it t =? 0 then zero_rows else p_R t) /\
       p_rho (fst (pulay iv p n t xi yi)) =
        push_row (Nat.min (S (p_it t)) (memory p)) xi (if p_it t =? 0 then zero_rows else p_rho t)).
    { unfold pulay. cbv zeta. destruct (iv _ _); split; reflexivity. }
    destruct E as [-> ->]. rewrite IH1.
    destruct j as [|j]; [split; reflexivity|]. unfold push_row.
    replace (S j <? Nat.min (S (List.length ins)) (memory p)) with true by (symmetry; apply Nat.ltb_lt; lia).
    destruct (Nat.eqb_spec (List.length ins) 0) as [Ez|Ez]; [lia|].
    destruct (IH2 j) as [-> ->]; [lia|]. split; reflexivity.
Qed.

(** a right inverse of a symmetric matrix is symmetric *)
Lemma right_inverse_sym L A B : 
  (forall i j, (i < L)%nat -> (j < L)%nat -> A i j = A j i) ->
  (forall i k, (i < L)%nat -> (k < L)%nat -> rsum L (fun j => A i j * B j k) = if i =? k then 1 else 0) ->
  forall i k, (i < L)%nat -> (k < L)%nat -> B i k = B k i.
Proof.
  intros HA HB i k Hi Hk.
  (* Bt A B two ways *)
  assert (E : forall i k, (i < L)%nat -> (k < L)%nat ->
     rsum L (fun a => rsum L (fun b => B a i * A a b * B b k)) = B k i).
  { clear i k Hi Hk. intros i k Hi Hk.
    rewrite (rsum_ext L _ (fun a => B a i * (if a =? k then 1 else 0))).
    - rewrite (rsum_single L k); [rewrite Nat.eqb_refl; ring|exact Hk|].
      intros a _ Hne. destruct (Nat.eqb_spec a k); [contradiction|ring].
    - intros a Ha. rewrite <- HB by assumption. rewrite <- rsum_scal. apply rsum_ext. intros; ring. }
  rewrite <- (E k i Hk Hi), <- (E i k Hi Hk). rewrite rsum_swap.
  apply rsum_ext. intros a Ha. apply rsum_ext. intros b Hb.
  rewrite (HA b a) by assumption. ring.
Qed.

Lemma pulay_optimal iv p n s ins xi yi :
  inverts iv -> chop p = None -> (1 <= memory p)%nat ->
  let t := after (pulay_mixer iv p n) (pulay_reset s) ins in
  let L := Nat.min (S (List.length ins)) (memory p) in
  let xb := snd (snd (pulay iv p n t xi yi)) in
  (iv L (p_A (fst (pulay iv p n t xi yi))) = None ->
     forall k, xb k = xi k + beta p * (yi k - xi k)) /\
  (iv L (p_A (fst (pulay iv p n t xi yi))) <> None ->
     optimal_mix (beta p) n L ((xi, yi) :: rev ins) xb).
Proof.
  intros Hiv Hc Hmem. cbv zeta.
  pose proof (pulay_rows iv p n s ins Hmem) as X. cbv zeta in X.
  pose proof (pulay_rows iv p n s (ins ++ [(xi, yi)]) Hmem) as Y. cbv zeta in Y.
  rewrite after_snoc, rev_snoc, app_length in Y.
  set (t := after (pulay_mixer iv p n) (pulay_reset s) ins) in *.
  destruct X as [Hit _]. destruct Y as [_ Hrows]. cbn [pulay_mixer m_call mst] in Hrows.
  set (h := (xi, yi) :: rev ins) in *.
  replace (List.length ins + List.length [(xi, yi)])%nat with (S (List.length ins)) in Hrows by (simpl; lia).
  set (L := Nat.min (S (List.length ins)) (memory p)) in *.
  revert Hrows. unfold pulay. cbv zeta. rewrite Hit. fold L.
  set (R' := push_row L (fun k => yi k - xi k) (if List.length ins =? 0 then zero_rows else p_R t)).
  set (rho := push_row L xi (if List.length ins =? 0 then zero_rows else p_rho t)).
  set (A := fun i j => if andb (i <? L) (j <? L) then dot n (R' j) (R' i) else p_A t i j).
  destruct (iv L A) as [B|] eqn:E; cbn [fst snd p_R p_rho p_A]; fold A; rewrite E;
    intros Hrows; unfold chopped; rewrite Hc.
  2:{ split; [intros _ k; unfold simple_mix; ring|intros H; contradiction H; reflexivity]. }
  split; [discriminate|]. intros _.
  assert (HL : (1 <= L)%nat) by (unfold L; lia).
  assert (HAg : forall i j, (i < L)%nat -> (j < L)%nat -> A i j = dot n (R' j) (R' i)).
  { intros i j Hi Hj. unfold A. apply Nat.ltb_lt in Hi, Hj. rewrite Hi, Hj. reflexivity. }
  pose proof (Hiv L A B E) as HB.
  set (down := rsum L (fun i => rsum L (fun j => B i j))).
  assert (Hd : down <> 0) by (apply (gram_sum n L R' A B HL HAg HB)).
  assert (Bs : forall i k, (i < L)%nat -> (k < L)%nat -> B i k = B k i).
  { apply (right_inverse_sym L A B); [|exact HB]. intros i j Hi Hj. rewrite !HAg by assumption. apply dot_comm. }
  set (w := fun i => rsum L (fun j => B j i) / down).
  exists w. split; [|split].
  - unfold w, Rdiv. rewrite rsum_scal_r, rsum_swap. fold down. field. exact Hd.
  - intros k Hk. apply rsum_ext. intros i Hi. destruct (Hrows i Hi) as [E1 E2].
    rewrite <- E1, <- E2. apply Nat.ltb_lt in Hi. rewrite Hi. reflexivity.
  - cbv zeta. apply equal_projection_optimal with (lam := / down).
    + unfold w, Rdiv. rewrite rsum_scal_r, rsum_swap. fold down. field. exact Hd.
    + intros j Hj. rewrite dot_comm, dot_comb.
      rewrite (rsum_ext L _ (fun i => / down * (A j i * rsum L (fun q => B i q)))).
      * rewrite rsum_scal.
        rewrite (rsum_ext L _ (fun i => rsum L (fun q => A j i * B i q))) by (intros; rewrite rsum_scal; reflexivity).
        rewrite rsum_swap.
        rewrite (rsum_ext L _ (fun q => if j =? q then 1 else 0)) by (intros; apply HB; assumption).
        rewrite (rsum_single L j); [rewrite Nat.eqb_refl; ring|exact Hj|].
        intros q _ Hne. destruct (Nat.eqb_spec j q); [congruence|reflexivity].
      * intros i Hi. rewrite HAg by assumption. destruct (Hrows i Hi) as [<- _], (Hrows j Hj) as [<- _].
        unfold w. rewrite (rsum_ext L (fun j0 => B j0 i) (fun q => B i q)) by (intros; apply Bs; assumption).
        rewrite (dot_comm n (R' j)). field. exact Hd.
Qed.

Example cramer2_solves_system : solves_system cramer2.
Proof.
  intros M A b c H i Hi. unfold cramer2 in H.
  destruct M as [|[|[|M]]]; try discriminate. cbv zeta in H.
  destruct (Req_EM_T _ 0) as [|Hd]; [discriminate|]. injection H as <-.
  destruct i as [|[|i]]; [| |lia]; simpl; field; exact Hd.
Qed.
