(** Lemmas about the mixers. *)
From Coq Require Import Reals Lra Lia List Arith Bool String Ascii.
From Verif Require Import Vec MixModel MixSpec.
Import ListNotations.
Open Scope R_scope.

(** ** chop *)
Lemma chopped_spec p n xi xb : exists t, 0 <= t /\
  (forall k, chopped p n xi xb k = xi k + t * (xb k - xi k)) /\
  (chop p = None -> t = 1) /\
  (forall c, chop p = Some c -> 0 < c -> 0 < t <= 1 /\
     forall k, (k < n)%nat -> Rabs (chopped p n xi xb k - xi k) <= c) /\
  (forall c, chop p = Some c -> 0 < c ->
     (forall k, (k < n)%nat -> Rabs (xb k - xi k) <= c) -> t = 1) \/
  (exists c, chop p = Some c /\ c < 0).
Proof.
  unfold chopped. destruct (chop p) as [c|].
  - destruct (Rlt_dec c (maxabs n (fun k => xb k - xi k))) as [H|H].
    + destruct (Rlt_dec c 0) as [Hc|Hc]; [exists 0; right; exists c; auto|].
      set (M := maxabs n (fun k => xb k - xi k)) in *.
      assert (HM : 0 < M) by lra.
      exists (c / M). left. repeat split.
      * apply Rmult_le_pos; [lra|]. left. apply Rinv_0_lt_compat, HM.
      * discriminate.
      * injection H0 as <-. apply Rdiv_lt_0_compat; lra.
      * injection H0 as <-. apply Rmult_le_reg_r with M; [lra|]. unfold Rdiv.
        rewrite Rmult_assoc, Rinv_l by lra. lra.
      * injection H0 as <-. intros k Hk.
        replace (xi k + c / M * (xb k - xi k) - xi k) with (c / M * (xb k - xi k)) by ring.
        rewrite Rabs_mult.
        assert (Rabs (xb k - xi k) <= M) by (apply (maxabs_ge n (fun k => xb k - xi k)); exact Hk).
        rewrite Rabs_right by (apply Rle_ge, Rmult_le_pos; [lra|left; apply Rinv_0_lt_compat, HM]).
        apply Rmult_le_reg_r with M; [lra|]. unfold Rdiv.
        replace (c * / M * Rabs (xb k - xi k) * M) with (c * Rabs (xb k - xi k) * (/ M * M)) by ring.
        rewrite Rinv_l by lra. rewrite Rmult_1_r. apply Rmult_le_compat_l; lra.
      * intros c0 E Hc0 Hall. injection E as ->. exfalso.
        destruct n as [|n']; [unfold M in H; simpl in H; lra|].
        destruct (maxabs_attained (S n') (fun k => xb k - xi k)) as (i & Hi & E); [lia|].
        unfold M in H. rewrite E in H. specialize (Hall i Hi). lra.
    + exists 1. left. repeat split; try lra; try discriminate.
      * intros k. ring.
      * intros k Hk. injection H0 as <-.
        assert (Rabs (xb k - xi k) <= maxabs n (fun k => xb k - xi k))
          by (apply (maxabs_ge n (fun k => xb k - xi k)); exact Hk). lra.
  - exists 1. left. repeat split; try lra; try discriminate. intros; ring.
Qed.

(** what the chop always does: a multiple of the step *)
Lemma chopped_affine p n xi xb : exists t, forall k,
  chopped p n xi xb k = xi k + t * (xb k - xi k).
Proof.
  unfold chopped. destruct (chop p) as [c|].
  - destruct (Rlt_dec _ _); [eexists; intros; reflexivity|exists 1; intros; ring].
  - exists 1; intros; ring.
Qed.

Lemma chopped_total p n Q xi xb : total n Q xi -> total n Q xb -> total n Q (chopped p n xi xb).
Proof.
  unfold total. intros H1 H2. destruct (chopped_affine p n xi xb) as [t Ht].
  rewrite (rsum_ext n _ (fun k => xi k + t * (xb k - xi k))) by (intros; apply Ht).
  rewrite rsum_plus, rsum_scal, rsum_minus, H1, H2. ring.
Qed.

Lemma simple_total p n Q xi yi : total n Q xi -> total n Q yi -> total n Q (simple_mix p xi yi).
Proof.
  unfold total, simple_mix. intros H1 H2.
  rewrite rsum_plus, !rsum_scal, H1, H2. ring.
Qed.

(** ** Anderson *)
Lemma a_sum_total M c base rows n Qb :
  rsum n base = Qb -> (forall j, (1 <= j <= M)%nat -> rsum n (rows j) = Qb) ->
  rsum n (a_sum M c base rows) = Qb.
Proof.
  intros Hb. induction M as [|M IH]; intros Hr; simpl; [exact Hb|].
  rewrite rsum_plus, rsum_scal, rsum_minus, IH by (intros; apply Hr; lia).
  rewrite Hb, Hr by lia. ring.
Qed.

Definition a_inv (p : params) (n : nat) (Q : R) (s : astate) : Prop :=
  forall j, (1 <= j <= Nat.min (a_it s) (memory p))%nat ->
    rsum n (a_F s j) = 0 /\ rsum n (a_x s j) = Q.

Lemma set_row0_S v a j : (1 <= j)%nat -> set_row0 v a j = a j.
Proof. destruct j; [lia|reflexivity]. Qed.

Lemma anderson_inv sv p n Q s xi yi : a_inv p n Q s -> total n Q xi -> total n Q yi ->
  a_inv p n Q (fst (anderson sv p n s xi yi)) /\ total n Q (snd (snd (anderson sv p n s xi yi))).
Proof.
  intros I Hx Hy. unfold anderson. cbv zeta. cbn [fst snd].
  set (F1 := if a_it s =? 0 then zero_rows else a_F s).
  set (x1 := if a_it s =? 0 then zero_rows else a_x s).
  assert (HF : forall j, (1 <= j <= Nat.min (a_it s) (memory p))%nat -> rsum n (F1 j) = 0).
  { intros j Hj. unfold F1. destruct (Nat.eqb_spec (a_it s) 0); [lia|]. apply I, Hj. }
  assert (HX : forall j, (1 <= j <= Nat.min (a_it s) (memory p))%nat -> rsum n (x1 j) = Q).
  { intros j Hj. unfold x1. destruct (Nat.eqb_spec (a_it s) 0); [lia|]. apply I, Hj. }
  assert (H0 : rsum n (fun k => yi k - xi k) = 0).
  { rewrite rsum_minus. unfold total in Hx, Hy. rewrite Hx, Hy. ring. }
  split.
  - intros j Hj. cbn [a_it a_F a_x] in *. unfold shift_rows.
    replace (andb (1 <=? j) (j <=? memory p)) with true
      by (symmetry; apply andb_true_intro; split; apply Nat.leb_le; lia).
    destruct (Nat.eq_dec j 1) as [->|Hne].
    + simpl. split; [exact H0|exact Hx].
    + rewrite !set_row0_S by lia. split; [apply HF|apply HX]; lia.
  - apply chopped_total; [exact Hx|].
    replace (S (a_it s) - 1)%nat with (a_it s) by lia.
    set (M := Nat.min (a_it s) (memory p)).
    destruct (M <=? 1); [apply simple_total; assumption|].
    destruct (sv M _ _) as [c|]; [|apply simple_total; assumption].
    unfold total, a_combine. rewrite rsum_plus, rsum_scal.
    rewrite (a_sum_total M c xi _ n Q), (a_sum_total M c _ _ n 0); try assumption.
    + ring.
    + intros j Hj. rewrite set_row0_S by lia. apply HF. exact Hj.
    + intros j Hj. rewrite set_row0_S by lia. apply HX. exact Hj.
Qed.

Lemma anderson_fresh_inv p n Q s : a_it s = O -> a_inv p n Q s.
Proof. intros H j Hj. rewrite H in Hj. simpl in Hj. lia. Qed.

Lemma anderson_conserves sv p n Q ins : forall s, a_inv p n Q s ->
  (forall io, In io ins -> total n Q (fst io) /\ total n Q (snd io)) ->
  forall o, In o (answers_of (anderson_mixer sv p n) s ins) -> total n Q (snd o).
Proof.
  induction ins as [|[xi yi] ins IH]; intros s I H o Ho;
    [contradiction|cbn [answers_of anderson_mixer pulay_mixer m_call] in Ho].
  destruct (H (xi, yi) (or_introl eq_refl)) as [Hx Hy]. simpl in Hx, Hy.
  destruct (anderson_inv sv p n Q s xi yi I Hx Hy) as [I' T].
  destruct (anderson sv p n s xi yi) as [s' o'] eqn:E. simpl in I', T.
  rewrite ?E in Ho. destruct Ho as [<-|Ho]; [exact T|].
  apply (IH s'); auto. intros io Hio. apply H. right. exact Hio.
Qed.

(** ** Pulay *)
Definition p_inv (p : params) (n : nat) (Q : R) (s : pstate) : Prop :=
  forall j, (j < Nat.min (p_it s) (memory p))%nat ->
    rsum n (p_R s j) = 0 /\ rsum n (p_rho s j) = Q.

(** the weights of a Gram matrix inverse do not sum to zero *)
Lemma gram_sum n L (G : nat -> vec) (A B : nat -> nat -> R) : (1 <= L)%nat ->
  (forall i j, (i < L)%nat -> (j < L)%nat -> A i j = dot n (G j) (G i)) ->
  (forall i k, (i < L)%nat -> (k < L)%nat ->
     rsum L (fun j => A i j * B j k) = if i =? k then 1 else 0) ->
  rsum L (fun i => rsum L (fun j => B i j)) <> 0.
Proof.
  intros HL HA HB Hd.
  set (u := fun i => rsum L (fun j => B i j)).
  assert (Au : forall i, (i < L)%nat -> rsum L (fun j => A i j * u j) = 1).
  { intros i Hi. unfold u.
    rewrite (rsum_ext L _ (fun j => rsum L (fun k => A i j * B j k)))
      by (intros; rewrite rsum_scal; reflexivity).
    rewrite rsum_swap.
    rewrite (rsum_ext L _ (fun k => if i =? k then 1 else 0)) by (intros; apply HB; assumption).
    rewrite (rsum_single L i); [rewrite Nat.eqb_refl; reflexivity|exact Hi|].
    intros k Hk Hne. destruct (Nat.eqb_spec i k); [congruence|reflexivity]. }
  set (v := fun k => rsum L (fun j => u j * G j k)).
  assert (Av : forall i, (i < L)%nat -> dot n v (G i) = 1).
  { intros i Hi. rewrite <- (Au i Hi). unfold dot, v.
    rewrite (rsum_ext n _ (fun k => rsum L (fun j => u j * G j k * G i k)))
      by (intros; rewrite rsum_scal_r; reflexivity).
    rewrite rsum_swap. apply rsum_ext. intros j Hj. rewrite HA by assumption.
    unfold dot. rewrite <- rsum_scal_r. apply rsum_ext. intros. ring. }
  assert (Vv : dot n v v = 0).
  { transitivity (rsum L (fun i => u i * dot n v (G i))).
    - unfold dot. unfold v at 2.
      rewrite (rsum_ext n _ (fun k => rsum L (fun i => v k * (u i * G i k))))
        by (intros; rewrite rsum_scal; reflexivity).
      rewrite rsum_swap. apply rsum_ext. intros i Hi. rewrite <- rsum_scal.
      apply rsum_ext. intros. ring.
    - rewrite (rsum_ext L _ u); [exact Hd|]. intros i Hi. rewrite Av by exact Hi. ring. }
  assert (V0 : forall k, (k < n)%nat -> v k = 0).
  { clear - Vv. unfold dot in Vv. revert Vv. induction n as [|m IH]; intros Vv k Hk; [lia|].
    simpl in Vv. assert (0 <= rsum m (fun k => v k * v k)) by (apply rsum_nonneg; intros; apply Rle_0_sqr).
    assert (0 <= v m * v m) by apply Rle_0_sqr.
    destruct (Nat.eq_dec k m) as [->|Hne].
    - apply Rsqr_eq_0. unfold Rsqr. lra.
    - apply IH; [lra|lia]. }
  assert (E := Av O HL). unfold dot in E.
  rewrite rsum_eq0 in E; [lra|]. intros k Hk. rewrite V0 by exact Hk. ring.
Qed.

Lemma rsum_if_lt L f g : rsum L (fun i => if i <? L then f i else g i) = rsum L f.
Proof. apply rsum_ext. intros i Hi. replace (i <? L) with true; [reflexivity|symmetry; apply Nat.ltb_lt, Hi]. Qed.

Lemma pulay_inv iv p n Q s xi yi : inverts iv -> (1 <= memory p)%nat ->
  p_inv p n Q s -> total n Q xi -> total n Q yi ->
  p_inv p n Q (fst (pulay iv p n s xi yi)) /\ total n Q (snd (snd (pulay iv p n s xi yi))).
Proof.
  intros Hiv Hmem I Hx Hy. unfold pulay. cbv zeta.
  set (R0 := if p_it s =? 0 then zero_rows else p_R s).
  set (rho0 := if p_it s =? 0 then zero_rows else p_rho s).
  set (L := Nat.min (S (p_it s)) (memory p)).
  set (R' := push_row L (fun k => yi k - xi k) R0).
  set (rho := push_row L xi rho0).
  assert (HL : (1 <= L)%nat) by (unfold L; lia).
  assert (HR : forall j, (j < L)%nat -> rsum n (R' j) = 0 /\ rsum n (rho j) = Q).
  { intros [|j] Hj.
    - unfold R', rho. simpl. split; [|exact Hx]. rewrite rsum_minus.
      unfold total in Hx, Hy. rewrite Hx, Hy. ring.
    - unfold R', rho, push_row. replace (S j <? L) with true by (symmetry; apply Nat.ltb_lt, Hj).
      unfold R0, rho0. destruct (Nat.eqb_spec (p_it s) 0) as [E|E]; [unfold L in Hj; lia|].
      apply I. unfold L in Hj. lia. }
  set (A := fun i j => if andb (i <? L) (j <? L) then dot n (R' j) (R' i) else p_A s i j).
  destruct (iv L A) as [B|] eqn:EB; cbn [fst snd].
  - split; [intros j Hj; cbn [p_it p_R p_rho] in *; apply HR; exact Hj|].
    apply chopped_total; [exact Hx|]. unfold total.
    set (down := rsum L (fun i => rsum L (fun j => B i j))).
    assert (Hd : down <> 0).
    { apply (gram_sum n L R' A B); [exact HL| |apply (Hiv L A B EB)].
      intros i j Hi Hj. unfold A. apply Nat.ltb_lt in Hi, Hj. rewrite Hi, Hj. reflexivity. }
    rewrite rsum_swap.
    set (alfa := fun i => if i <? L then rsum L (fun j => B j i) / down else p_alfa s i).
    rewrite (rsum_ext L _ (fun i => alfa i * Q)).
    + rewrite rsum_scal_r. unfold alfa. rewrite rsum_if_lt. unfold Rdiv. rewrite rsum_scal_r.
      rewrite rsum_swap. fold down. field. exact Hd.
    + intros i Hi. rewrite rsum_scal, rsum_plus, rsum_scal.
      destruct (HR i Hi) as [E1 E2]. unfold alfa. fold (rho i). rewrite E1, E2. ring.
  - split; [intros j Hj; cbn [p_it p_R p_rho] in *; apply HR; exact Hj|].
    apply chopped_total; [exact Hx|]. apply simple_total; assumption.
Qed.

Lemma pulay_fresh_inv p n Q s : p_it s = O -> p_inv p n Q s.
Proof. intros H j Hj. rewrite H in Hj. simpl in Hj. lia. Qed.

Lemma pulay_conserves iv p n Q ins : inverts iv -> (1 <= memory p)%nat -> forall s, p_inv p n Q s ->
  (forall io, In io ins -> total n Q (fst io) /\ total n Q (snd io)) ->
  forall o, In o (answers_of (pulay_mixer iv p n) s ins) -> total n Q (snd o).
Proof.
  intros Hiv Hm. induction ins as [|[xi yi] ins IH]; intros s I H o Ho;
    [contradiction|cbn [answers_of anderson_mixer pulay_mixer m_call] in Ho].
  destruct (H (xi, yi) (or_introl eq_refl)) as [Hx Hy]. simpl in Hx, Hy.
  destruct (pulay_inv iv p n Q s xi yi Hiv Hm I Hx Hy) as [I' T].
  destruct (pulay iv p n s xi yi) as [s' o'] eqn:E. simpl in I', T.
  rewrite ?E in Ho. destruct Ho as [<-|Ho]; [exact T|].
  apply (IH s'); auto. intros io Hio. apply H. right. exact Hio.
Qed.

(** ** chop, both mixers *)
Lemma anderson_out sv p n s xi yi : exists xb,
  snd (snd (anderson sv p n s xi yi)) = chopped p n xi xb.
Proof. unfold anderson. cbv zeta. cbn [snd]. eexists; reflexivity. Qed.

Lemma pulay_out iv p n s xi yi : exists xb,
  snd (snd (pulay iv p n s xi yi)) = chopped p n xi xb.
Proof.
  unfold pulay. cbv zeta. destruct (iv _ _); cbn [snd]; eexists; reflexivity.
Qed.

(** The same mixer without the chop. *)
Definition unlimited (p : params) : params :=
  mkparams (beta p) (memory p) (convergence p) None.

Lemma anderson_unlimited sv p n s xi yi :
  snd (snd (anderson sv p n s xi yi)) =
  chopped p n xi (snd (snd (anderson sv (unlimited p) n s xi yi))).
Proof. reflexivity. Qed.

Lemma pulay_unlimited iv p n s xi yi :
  snd (snd (pulay iv p n s xi yi)) =
  chopped p n xi (snd (snd (pulay iv (unlimited p) n s xi yi))).
Proof.
  unfold pulay. cbv zeta. cbn [memory unlimited].
  destruct (iv _ _); reflexivity.
Qed.

Lemma chop_bound p n xi xb c : chop p = Some c -> 0 < c ->
  exists t, 0 < t <= 1 /\ (forall k, chopped p n xi xb k = xi k + t * (xb k - xi k)) /\
  (forall k, (k < n)%nat -> Rabs (chopped p n xi xb k - xi k) <= c) /\
  ((forall k, (k < n)%nat -> Rabs (xb k - xi k) <= c) -> t = 1).
Proof.
  intros Hc Hpos. destruct (chopped_spec p n xi xb) as [t [(H0 & H1 & H2 & H3 & H4)|(c' & E & N)]].
  - exists t. destruct (H3 c Hc Hpos) as [Ht Hb]. repeat split; try tauto; try apply Ht.
    apply (H4 c Hc Hpos).
  - rewrite Hc in E. injection E as ->. lra.
Qed.

(** ** Convergence test and fixed points *)
Lemma shift_row0 m a : shift_rows m a O = a O.
Proof. reflexivity. Qed.

Lemma anderson_done sv p n s xi yi : (0 < n)%nat ->
  fst (snd (anderson sv p n s xi yi)) = true <->
  (forall k, (k < n)%nat -> Rabs (yi k - xi k) < convergence p).
Proof.
  intros Hn. unfold anderson. cbv zeta. cbn [fst snd]. rewrite shift_row0. simpl.
  destruct (Rlt_dec (maxabs n (fun k => yi k - xi k)) (convergence p)) as [H|H].
  - split; [intros _|reflexivity]. intros k Hk.
    eapply Rle_lt_trans; [apply (maxabs_ge n (fun k => yi k - xi k)), Hk|exact H].
  - split; [discriminate|]. intros Hall. exfalso. apply H.
    destruct (maxabs_attained n (fun k => yi k - xi k) Hn) as (i & Hi & ->). apply Hall, Hi.
Qed.

Lemma a_sum_zero M c base rows k : (forall j, (j < M)%nat -> c j = 0) ->
  a_sum M c base rows k = base k.
Proof.
  induction M as [|M IH]; intros H; simpl; [reflexivity|].
  rewrite IH, H by (intros; try apply H; lia). ring.
Qed.

Lemma chopped_same p n xi xb : (forall k, (k < n)%nat -> xb k = xi k) ->
  forall k, (k < n)%nat -> chopped p n xi xb k = xi k.
Proof.
  intros H k Hk. destruct (chopped_affine p n xi xb) as [t Ht]. rewrite Ht, H by exact Hk. ring.
Qed.

Lemma anderson_fixed sv p n s xi yi : solves sv ->
  (forall k, (k < n)%nat -> yi k = xi k) ->
  forall k, (k < n)%nat -> snd (snd (anderson sv p n s xi yi)) k = xi k.
Proof.
  intros Hsv Heq. unfold anderson. cbv zeta. cbn [fst snd].
  apply chopped_same. intros k Hk.
  destruct (_ <=? 1); [unfold simple_mix; rewrite Heq by exact Hk; ring|].
  set (F := set_row0 _ (if a_it s =? 0 then zero_rows else a_F s)).
  set (M := Nat.min _ _).
  destruct (sv M (a_mat n F) (a_rhs n F)) as [c|] eqn:E;
    [|unfold simple_mix; rewrite Heq by exact Hk; ring].
  assert (Hc : forall j, (j < M)%nat -> c j = 0).
  { intros j Hj. symmetry. apply (Hsv M (a_mat n F) (a_rhs n F) c E (fun _ => 0)); [|exact Hj].
    intros i Hi. rewrite rsum_eq0 by (intros; ring).
    unfold a_rhs, dot. symmetry. apply rsum_eq0. intros q Hq. simpl. rewrite Heq by exact Hq. ring. }
  unfold a_combine. rewrite !a_sum_zero by exact Hc. simpl. rewrite Heq by exact Hk. ring.
Qed.

(** the Pulay mixer accepts on three small residuals in a row *)
Lemma pulay_done iv p n s xi yi : 
  fst (snd (pulay iv p n s xi yi)) = true ->
  forall k, (k < n)%nat -> Rabs (yi k - xi k) < convergence p.
Proof.
  unfold pulay. cbv zeta. destruct (iv _ _); cbn [fst snd]; intros H k Hk;
  apply andb_prop in H; destruct H as [_ H]; simpl in H;
  apply andb_prop in H; destruct H as [H _];
  destruct (Rlt_dec _ _) as [L|]; try discriminate;
  (eapply Rle_lt_trans; [|exact L]); apply (maxabs_ge n (fun k => yi k - xi k)), Hk.
Qed.

Lemma pulay_it iv p n s xi yi : p_it (fst (pulay iv p n s xi yi)) = S (p_it s).
Proof. unfold pulay. cbv zeta. destruct (iv _ _); reflexivity. Qed.

Lemma pulay_done_it iv p n s xi yi :
  fst (snd (pulay iv p n s xi yi)) = true -> (3 <= p_it s)%nat.
Proof.
  unfold pulay. cbv zeta. destruct (iv _ _); cbn [fst snd]; intros H;
  apply andb_prop in H; destruct H as [H _]; apply Nat.ltb_lt in H; lia.
Qed.

(** ** Reset *)
Lemma anderson_at0 sv p n s s' xi yi : a_it s = O -> a_it s' = O -> a_fmax s = a_fmax s' ->
  anderson sv p n s xi yi = anderson sv p n s' xi yi.
Proof. intros H H' Hf. unfold anderson. rewrite H, H', Hf. reflexivity. Qed.

Lemma anderson_reset_forgets sv p n s ins :
  answers_of (anderson_mixer sv p n) (anderson_reset s) ins =
  answers_of (anderson_mixer sv p n) anderson_new ins.
Proof.
  destruct ins as [|[xi yi] ins]; [reflexivity|]. cbn [answers_of anderson_mixer m_call].
  rewrite (anderson_at0 sv p n (anderson_reset s) anderson_new) by reflexivity. reflexivity.
Qed.

(** The inverter reads only the matrix it is given (A[:lim,:lim]). *)
Definition reads_block (iv : inverter) : Prop :=
  forall L A A', (forall i j, (i < L)%nat -> (j < L)%nat -> A i j = A' i j) -> iv L A = iv L A'.

Definition p_sim (s s' : pstate) : Prop :=
  p_it s = p_it s' /\ p_fmax s = p_fmax s' /\
  (p_it s <> O -> p_R s = p_R s' /\ p_rho s = p_rho s').

Lemma pulay_sim iv p n s s' xi yi : reads_block iv -> p_sim s s' ->
  p_sim (fst (pulay iv p n s xi yi)) (fst (pulay iv p n s' xi yi)) /\
  (fst (snd (pulay iv p n s xi yi)) = fst (snd (pulay iv p n s' xi yi)) /\
   forall k, snd (snd (pulay iv p n s xi yi)) k = snd (snd (pulay iv p n s' xi yi)) k).
Proof.
  intros Hiv (Hit & Hf & Hrows). unfold pulay. cbv zeta. rewrite <- Hit, <- Hf.
  assert (HR : (if p_it s =? 0 then zero_rows else p_R s') = (if p_it s =? 0 then zero_rows else p_R s)).
  { destruct (Nat.eqb_spec (p_it s) 0); [reflexivity|]. symmetry. apply Hrows. assumption. }
  assert (Hr : (if p_it s =? 0 then zero_rows else p_rho s') = (if p_it s =? 0 then zero_rows else p_rho s)).
  { destruct (Nat.eqb_spec (p_it s) 0); [reflexivity|]. symmetry. apply Hrows. assumption. }
  rewrite HR, Hr. clear HR Hr.
  set (L := Nat.min (S (p_it s)) (memory p)).
  set (R' := push_row L _ (if p_it s =? 0 then zero_rows else p_R s)).
  set (A := fun i j => if andb (i <? L) (j <? L) then dot n (R' j) (R' i) else p_A s i j).
  set (A' := fun i j => if andb (i <? L) (j <? L) then dot n (R' j) (R' i) else p_A s' i j).
  rewrite (Hiv L A' A).
  2:{ intros i j Hi Hj. unfold A, A'. apply Nat.ltb_lt in Hi, Hj. rewrite Hi, Hj. reflexivity. }
  destruct (iv L A) as [B|]; cbn [fst snd].
  - split; [split; [reflexivity|split; [reflexivity|intros; split; reflexivity]]|].
    split; [reflexivity|].
    intros k. unfold chopped.
    assert (E : forall q,
      rsum L (fun i => (if i <? L then rsum L (fun j => B j i) /
          rsum L (fun i0 => rsum L (fun j => B i0 j)) else p_alfa s i) *
        (push_row L xi (if p_it s =? 0 then zero_rows else p_rho s) i q + beta p * R' i q)) =
      rsum L (fun i => (if i <? L then rsum L (fun j => B j i) /
          rsum L (fun i0 => rsum L (fun j => B i0 j)) else p_alfa s' i) *
        (push_row L xi (if p_it s =? 0 then zero_rows else p_rho s) i q + beta p * R' i q))).
    { intros q. apply rsum_ext. intros i Hi. apply Nat.ltb_lt in Hi. rewrite Hi. reflexivity. }
    destruct (chop p) as [c|]; [|apply E].
    rewrite (maxabs_ext n _ (fun k0 => rsum L (fun i => (if i <? L then rsum L (fun j => B j i) /
          rsum L (fun i0 => rsum L (fun j => B i0 j)) else p_alfa s' i) *
        (push_row L xi (if p_it s =? 0 then zero_rows else p_rho s) i k0 + beta p * R' i k0)) - xi k0))
      by (intros; rewrite E; reflexivity).
    destruct (Rlt_dec _ _); rewrite ?E; reflexivity.
  - split; [split; [reflexivity|split; [reflexivity|intros; split; reflexivity]]|].
    split; reflexivity.
Qed.

(** two answers agree: same verdict and same vector *)
Definition same_answer (a b : bool * vec) : Prop := fst a = fst b /\ forall k, snd a k = snd b k.

Lemma pulay_sim_answers iv p n ins : reads_block iv -> forall s s', p_sim s s' ->
  Forall2 same_answer (answers_of (pulay_mixer iv p n) s ins) (answers_of (pulay_mixer iv p n) s' ins).
Proof.
  intros Hiv. induction ins as [|[xi yi] ins IH]; intros s s' H; [constructor|].
  cbn [answers_of pulay_mixer m_call].
  destruct (pulay_sim iv p n s s' xi yi Hiv H) as [H1 H2].
  destruct (pulay iv p n s xi yi) as [t o], (pulay iv p n s' xi yi) as [t' o']. simpl in H1, H2.
  constructor; [exact H2|apply IH, H1].
Qed.

Lemma pulay_reset_forgets iv p n s ins : reads_block iv ->
  Forall2 same_answer (answers_of (pulay_mixer iv p n) (pulay_reset s) ins)
                      (answers_of (pulay_mixer iv p n) pulay_new ins).
Proof.
  intros Hiv. apply pulay_sim_answers; [exact Hiv|].
  split; [reflexivity|split; [reflexivity|]]. intros H. contradiction H. reflexivity.
Qed.
