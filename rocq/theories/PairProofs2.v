From Coq Require Import Reals Lra Lia ZArith List Bool Arith String Ascii ZifyBool.
From Verif Require Import Vec GeomModel GeomProofs PairModel PairSpec PairProofs.
Import ListNotations.
Ltac Zify.zify_post_hook ::= Z.div_mod_to_equations.

(** ** Keys *)
Open Scope Z_scope.
Definition val (l : list Z) : Z := fold_left (fun a d => 10 * a + d) l 0.
Lemma val_app_one l d : val (l ++ [d]) = 10 * val l + d.
Proof. unfold val. rewrite fold_left_app. reflexivity. Qed.
Lemma digits_aux_val f : forall n, 0 <= n < 2 ^ Z.of_nat f -> (0 < f)%nat -> val (digits_aux f n) = n.
Proof.
  induction f as [|f IH]; intros n Hn Hf; [lia|]. cbn [digits_aux]. destruct (n <? 10) eqn:L; [cbn; lia|].
  rewrite val_app_one. rewrite Nat2Z.inj_succ, Z.pow_succ_r in Hn by lia.
  rewrite IH; [lia|lia|]. destruct f; [cbn in Hn; lia|lia].
Qed.
Lemma digits_val n : 0 <= n -> val (digits n) = n.
Proof.
  intros Hn. unfold digits. apply digits_aux_val; [|lia]. split; [exact Hn|].
  rewrite Nat2Z.inj_succ, Z2Nat.id by apply Z.log2_nonneg.
  destruct (Z.eq_dec n 0) as [->|H]; [cbn; lia|]. apply Z.log2_spec. lia.
Qed.
Lemma digits_aux_length f k : forall n, 0 <= n < 10 ^ Z.of_nat k -> (0 < k)%nat -> (List.length (digits_aux f n) <= k)%nat.
Proof.
  revert k. induction f as [|f IH]; intros k n Hn Hk; [cbn; lia|]. cbn [digits_aux].
  destruct (n <? 10) eqn:L; [cbn; lia|]. rewrite app_length. cbn [List.length].
  destruct k as [|k]; [lia|]. rewrite Nat2Z.inj_succ, Z.pow_succ_r in Hn by lia.
  destruct k as [|k]; [cbn in Hn; lia|]. specialize (IH (S k) (n / 10)). lia.
Qed.
Lemma val_zeros k l : val (repeat 0 k ++ l) = val l.
Proof. induction k as [|k IH]; [reflexivity|]. cbn. exact IH. Qed.
Lemma fmt04_val n : 0 <= n -> val (fmt04 n) = n.
Proof. intros. unfold fmt04. rewrite val_zeros. apply digits_val. assumption. Qed.
Lemma fmt04_length n : 0 <= n < 10000 -> List.length (fmt04 n) = 4%nat.
Proof.
  intros Hn. unfold fmt04. rewrite app_length, repeat_length.
  assert (List.length (digits n) <= 4)%nat; [|lia]. unfold digits. apply digits_aux_length; [cbn; lia|lia].
Qed.
Lemma app_inj_len {X} (a b c d : list X) : List.length a = List.length c -> a ++ b = c ++ d -> a = c /\ b = d.
Proof.
  revert c. induction a as [|x a IH]; destruct c as [|y c]; cbn; intros L E; try discriminate; [auto|].
  injection L as L. injection E as -> E. destruct (IH c L E) as [-> ->]. auto.
Qed.
Lemma keys_injective i j k l : 0 <= i < 10000 -> 0 <= j -> 0 <= k < 10000 -> 0 <= l ->
  ij2s i j = ij2s k l -> i = k /\ j = l.
Proof.
  intros Hi Hj Hk Hl E. unfold ij2s in E.
  assert (L : List.length (fmt04 i) = List.length (fmt04 k)) by (rewrite !fmt04_length by assumption; reflexivity).
  pose proof (app_inj_len _ _ _ _ L E) as E'. clear E. rename E' into E.
  destruct E as [E1 E2]. apply (f_equal val) in E1. apply (f_equal val) in E2. rewrite !fmt04_val in E1 by lia. rewrite !fmt04_val in E2 by lia. auto.
Qed.
Lemma keys_collide : exists i j k l, 0 <= i /\ 0 <= j /\ 0 <= k /\ 0 <= l /\ (i, j) <> (k, l) /\ ij2s i j = ij2s k l.
Proof. exists 12345, 6789, 1234, 56789. do 4 (split; [lia|]). split; [congruence|]. vm_compute. reflexivity. Qed.

(** ** Symbols *)
Lemma lower_not_upper a : is_lower a = true -> is_upper a = true -> False.
Proof. unfold is_lower, is_upper. lia. Qed.
Lemma lower_prefix : forall r1 r3 s2 s4, all_lower r1 = true -> all_lower r3 = true -> symbol s2 -> symbol s4 ->
  (r1 ++ s2 = r3 ++ s4)%string -> r1 = r3 /\ s2 = s4.
Proof.
  induction r1 as [|a r1 IH]; destruct r3 as [|b r3]; cbn; intros s2 s4 L1 L3 S2 S4 E.
  - auto.
  - subst s2. destruct S2 as [U _]. exfalso. apply andb_prop in L3. eapply lower_not_upper; [apply L3|exact U].
  - subst s4. destruct S4 as [U _]. exfalso. apply andb_prop in L1. eapply lower_not_upper; [apply L1|exact U].
  - injection E as -> E. apply andb_prop in L1, L3. destruct (IH r3 s2 s4) as [-> ->]; auto; [apply L1|apply L3].
Qed.
Lemma symbols_unique s1 s2 s3 s4 : symbol s1 -> symbol s2 -> symbol s3 -> symbol s4 ->
  (s1 ++ s2 = s3 ++ s4)%string -> s1 = s3 /\ s2 = s4.
Proof.
  destruct s1 as [|a r1], s3 as [|b r3]; cbn; try contradiction. intros [U1 L1] S2 [U3 L3] S4 E.
  injection E as -> E. destruct (lower_prefix r1 r3 s2 s4) as [-> ->]; auto.
Qed.
Lemma separate_spec s1 s2 : symbol s1 -> symbol s2 -> (String.length s1 <= 2)%nat ->
  separate_symbols (s1 ++ s2) = Some (s1, s2).
Proof.
  destruct s1 as [|a [|b [|c s1]]]; cbn; try contradiction; try lia; intros [U L] S _.
  - destruct s2 as [|b r]; [contradiction|]. destruct S as [U2 L2].
    destruct (is_lower b) eqn:E; [exfalso; eapply lower_not_upper; eauto|]. reflexivity.
  - rewrite andb_true_r in L. rewrite L. reflexivity.
Qed.
Lemma separate_long_refuted : exists s1 s2, symbol s1 /\ symbol s2 /\ separate_symbols (s1 ++ s2) <> Some (s1, s2).
Proof. exists "Uuo"%string, "C"%string. vm_compute. repeat split; try reflexivity. discriminate. Qed.

Open Scope R_scope.
(** ** Histories of add_pair_potential *)
Section PP.
Variables Bohr Hartree : R.
Definition symmetric_state (s : ppstate) : Prop :=
  (forall i j, (0 <= i < 10000)%Z -> (0 <= j < 10000)%Z -> atomv s (ij2s i j) = atomv s (ij2s j i)) /\
  (forall si sj, symbol si -> symbol sj -> elemv s (si ++ sj)%string = elemv s (sj ++ si)%string).

Lemma updk_sym f i j v : (0 <= i < 10000)%Z -> (0 <= j < 10000)%Z ->
  (forall a b, (0 <= a < 10000)%Z -> (0 <= b < 10000)%Z -> f (ij2s a b) = f (ij2s b a)) ->
  forall a b, (0 <= a < 10000)%Z -> (0 <= b < 10000)%Z ->
    updk (updk f (ij2s i j) v) (ij2s j i) v (ij2s a b) = updk (updk f (ij2s i j) v) (ij2s j i) v (ij2s b a).
Proof.
  intros Hi Hj Hf a b Ha Hb. unfold updk.
  destruct (keyeq (ij2s a b) (ij2s j i)) as [E1|E1], (keyeq (ij2s a b) (ij2s i j)) as [E2|E2],
           (keyeq (ij2s b a) (ij2s j i)) as [E3|E3], (keyeq (ij2s b a) (ij2s i j)) as [E4|E4]; auto; exfalso;
   repeat match goal with E : ij2s _ _ = ij2s _ _ |- _ => apply keys_injective in E; try lia end;
   repeat match goal with E : _ /\ _ |- _ => destruct E end; subst; tauto.
Qed.
Lemma upds_sym f si sj v : symbol si -> symbol sj ->
  (forall a b, symbol a -> symbol b -> f (a ++ b)%string = f (b ++ a)%string) ->
  forall a b, symbol a -> symbol b ->
    upds (upds f (si ++ sj)%string v) (sj ++ si)%string v (a ++ b)%string = upds (upds f (si ++ sj)%string v) (sj ++ si)%string v (b ++ a)%string.
Proof.
  intros Hi Hj Hf a b Ha Hb. unfold upds.
  destruct (string_dec (a ++ b) (sj ++ si)) as [E1|E1], (string_dec (a ++ b) (si ++ sj)) as [E2|E2],
           (string_dec (b ++ a) (sj ++ si)) as [E3|E3], (string_dec (b ++ a) (si ++ sj)) as [E4|E4]; auto; exfalso;
   repeat match goal with E : (_ ++ _)%string = (_ ++ _)%string |- _ => apply symbols_unique in E; try assumption end;
   repeat match goal with E : _ /\ _ |- _ => destruct E end; subst; tauto.
Qed.

Lemma run_inv (Q : potential -> Prop) cs :
  (forall id v e, In (id, v, e) cs -> valid_id id /\ Q (to_atomic Bohr Hartree e v)) ->
  let s := run Bohr Hartree cs in
  symmetric_state s /\ (forall k v, atomv s k = Some v -> Q v) /\ (forall k v, elemv s k = Some v -> Q v) /\
  (ex s = false -> (forall k, atomv s k = None) /\ forall k, elemv s k = None).
Proof.
  unfold run. assert (G : forall s, symmetric_state s -> (forall k v, atomv s k = Some v -> Q v) -> (forall k v, elemv s k = Some v -> Q v) ->
    (ex s = false -> (forall k, atomv s k = None) /\ forall k, elemv s k = None) ->
    (forall id v e, In (id, v, e) cs -> valid_id id /\ Q (to_atomic Bohr Hartree e v)) ->
    let s := fold_left (add_pair_potential Bohr Hartree) cs s in
    symmetric_state s /\ (forall k v, atomv s k = Some v -> Q v) /\ (forall k v, elemv s k = Some v -> Q v) /\
    (ex s = false -> (forall k, atomv s k = None) /\ forall k, elemv s k = None)).
  { induction cs as [|[[id v] e] cs IH]; intros s [H1a H1b] H2 H3 H4 Hc; [cbn zeta; cbn [fold_left]; split; [split; assumption|]; split; [exact H2|]; split; [exact H3|exact H4]|]. cbn [fold_left].
    assert (Hcs : forall id v e, In (id, v, e) cs -> valid_id id /\ Q (to_atomic Bohr Hartree e v)) by (intros; apply Hc; right; assumption).
    destruct (Hc id v e (or_introl eq_refl)) as [Hid HQ].
    apply IH; [| | | |exact Hcs]; unfold add_pair_potential; destruct id as [i j|si sj]; cbn [atomv elemv ex]; auto; cbn in Hid; destruct Hid as [Hi Hj].
    - split; [apply updk_sym; assumption|assumption].
    - split; [assumption|apply upds_sym; assumption].
    - intros k p. unfold updk. destruct (keyeq k _); [congruence|]. destruct (keyeq k _); [congruence|]. apply H2.
    - intros k p. unfold upds. destruct (string_dec k _); [congruence|]. destruct (string_dec k _); [congruence|]. apply H3.
    - discriminate.
    - discriminate. }
  intros Hc. apply G; auto; cbn; try discriminate. split; auto.
Qed.

Lemma full_v_sym s sym proj i j d N : symmetric_state s -> (Z.of_nat N <= 10000)%Z -> (forall i, (i < N)%nat -> symbol (sym i)) ->
  (i < N)%nat -> (j < N)%nat -> full_v s sym proj i j d = full_v s sym proj j i d.
Proof.
  intros [Ha He] HN Hs Hi Hj. unfold full_v.

  rewrite (Ha (Z.of_nat i) (Z.of_nat j)) by lia. rewrite (He (sym i) (sym j)) by auto. reflexivity.
Qed.
Lemma full_v_der s sym i j d :
  (forall k v, atomv s k = Some v -> derivable_pt_lim (pv v) d (pd v d)) ->
  (forall k v, elemv s k = Some v -> derivable_pt_lim (pv v) d (pd v d)) ->
  derivable_pt_lim (full_v s sym pv i j) d (full_v s sym pd i j d).
Proof.
  intros Ha He. unfold full_v.
  destruct (atomv s _) as [a|] eqn:Ea, (elemv s _) as [e|] eqn:Ee.
  - apply (derivable_pt_lim_plus (pv a) (pv e)); [eapply Ha|eapply He]; eassumption.
  - eapply Ha; eassumption.
  - eapply He; eassumption.
  - apply derivable_pt_lim_const.
Qed.

Lemma pp_forces cs N nimg O t inv sym r u :
  (forall id v e, In (id, v, e) cs -> valid_id id /\ e = false /\ consistent v) ->
  (Z.of_nat N <= 10000)%Z -> (forall i, (i < N)%nat -> symbol (sym i)) -> images nimg O t inv ->
  (forall i j n, (i < N)%nat -> (j < N)%nat -> (n < nimg)%nat -> ~ (i = j /\ n = 0%nat) ->
     0 < dist (place O t r) n i j /\ dist (place O t r) n i j <> rcut (run Bohr Hartree cs)) ->
  derivable_pt_lim (fun s => pp_energy (run Bohr Hartree cs) N nimg (place O t (moved r u s)) sym) 0
    (- rsum N (fun i => vdot (pp_force (run Bohr Hartree cs) N nimg (place O t r) sym i) (u i))).
Proof.
  intros Hc HN Hs Him Hd.
  destruct (run_inv consistent cs) as (H1 & H2 & H3 & H4).
  { intros id v e Hin. destruct (Hc id v e Hin) as (A1 & -> & A2). split; assumption. }
  unfold pp_energy, pp_force. destruct (ex (run Bohr Hartree cs)) eqn:Ex.
  - apply (energy_derivative N nimg O t inv Him (full_v (run Bohr Hartree cs) sym pv) (full_v (run Bohr Hartree cs) sym pd) (rcut (run Bohr Hartree cs)) r u).
    + intros i j d Hi Hj. apply (full_v_sym _ _ _ _ _ _ N); assumption.
    + intros i j n Hi Hj Hn S. destruct (Hd i j n Hi Hj Hn) as [P1 P2].
      { unfold self_pair in S. intros [-> ->]. rewrite !Nat.eqb_refl in S. discriminate. }
      split; [exact P1|]. split; [exact P2|]. intros _. apply full_v_der; intros k v E; [eapply H2|eapply H3]; eassumption.
  - destruct (H4 eq_refl) as [Ea Ee].
    rewrite rsum_eq0; [rewrite Ropp_0; apply derivable_pt_lim_const|].
    intros i Hi.
    assert (Z0 : forall i j n, pair_force (place O t r) (full_v (run Bohr Hartree cs) sym pd) (rcut (run Bohr Hartree cs)) i j n = vzero).
    { intros a b n. unfold pair_force. destruct (self_pair n a b); [reflexivity|]. destruct (ltb _ _); [|reflexivity].
      unfold full_v. rewrite Ea, Ee. unfold Rdiv. apply v3_eq; vunf; ring. }
    unfold force, vsum. unfold vdot. cbn [vx vy vz].
    rewrite !(rsum_eq0 N); [ring| | |]; intros j _; apply rsum_eq0; intros n _; rewrite Z0; reflexivity.
Qed.
End PP.

(** ** Units *)
Lemma units_wrong Bohr Hartree : 0 < Bohr -> Bohr <> 1 -> 0 < Hartree ->
  exists p d, consistent p /\ 0 < d /\
   pv (to_atomic Bohr Hartree true p) d <> pv p (d * Bohr) / Hartree /\
   ~ derivable_pt_lim (pv (to_atomic Bohr Hartree true p)) d (pd (to_atomic Bohr Hartree true p) d).
Proof.
  intros HB HB1 HH. exists {| pv := fun x => x; pd := fun _ => 1; prange := 10 |}, 1.
  assert (NE : / Bohr <> Bohr).
  { intros E. apply HB1. apply (f_equal (fun x => x * Bohr)) in E. rewrite Rinv_l in E by lra. nra. }
  assert (DH : 0 < / Hartree) by (apply Rinv_0_lt_compat; exact HH).
  split; [intros d _; apply derivable_pt_lim_id|]. split; [lra|]. cbn. split.
  - intros E. apply NE. unfold Rdiv in E. rewrite !Rmult_1_l in E. nra.
  - intros D. assert (D2 : derivable_pt_lim (fun r => r / Bohr / Hartree) 1 (/ Bohr * / Hartree)).
    { replace (/ Bohr * / Hartree) with (/ Bohr * / Hartree * 1) by ring.
      apply derivable_local with (g := fun r => (/ Bohr * / Hartree) * r) (e := 1); [lra|intros; unfold Rdiv; ring|].
      apply (derivable_pt_lim_scal (fun r => r)). apply derivable_pt_lim_id. }
    pose proof (uniqueness_limite _ _ _ _ D D2) as U. unfold Rdiv in U. apply NE.
    assert (0 < / Bohr) by (apply Rinv_0_lt_compat; exact HB). nra.
Qed.
Lemma proper_consistent Bohr Hartree p : 0 < Bohr -> consistent p -> consistent (proper_atomic Bohr Hartree p).
Proof.
  intros HB Hp d Hd. cbn.
  apply derivable_local with (g := fun r => / Hartree * comp (pv p) (fun r => Bohr * r) r) (e := 1); [lra|intros y _; unfold comp, Rdiv; rewrite (Rmult_comm y); ring|].
  replace (pd p (d * Bohr) * Bohr / Hartree) with (/ Hartree * (pd p (d * Bohr) * (Bohr * 1))) by (unfold Rdiv; ring).
  apply (derivable_pt_lim_scal (comp (pv p) (fun r => Bohr * r))). apply derivable_pt_lim_comp.
  - apply (derivable_pt_lim_scal (fun r => r)). apply derivable_pt_lim_id.
  - rewrite (Rmult_comm Bohr d). apply Hp. nra.
Qed.
Lemma range_units Bohr Hartree p : prange (to_atomic Bohr Hartree true p) = prange p / Bohr.
Proof. reflexivity. Qed.
Lemma atomic_unchanged Bohr Hartree p : to_atomic Bohr Hartree false p = p.
Proof. reflexivity. Qed.

(** ** van der Waals *)
Lemma Neff_pos n : 0 <= n -> 0 < Neff n. Proof. unfold Neff. lra. Qed.
Lemma C6_p p n : 0 <= n -> 0 <= p -> p_from_C6 (C6_from_p p n) n = p.
Proof.
  intros Hn Hp. pose proof (Neff_pos n Hn). unfold p_from_C6, C6_from_p.
  replace (75 / 100 * sqrt (Neff n * p) / (75 / 100)) with (sqrt (Neff n * p)) by field.
  rewrite <- Rsqr_pow2, Rsqr_sqrt by nra. field. lra.
Qed.
Lemma p_C6 c n : 0 <= n -> 0 <= c -> C6_from_p (p_from_C6 c n) n = c.
Proof.
  intros Hn Hc. pose proof (Neff_pos n Hn). unfold p_from_C6, C6_from_p.
  replace (Neff n * ((c / (75 / 100)) ^ 2 / Neff n)) with (Rsqr (c / (75 / 100))) by (unfold Rsqr; field; lra).
  rewrite sqrt_Rsqr by lra. field.
Qed.
Lemma cross_sym a p b q : C6_cross a p b q = C6_cross b q a p.
Proof. unfold C6_cross. rewrite (Rplus_comm (p ^ 2 * a)). unfold Rdiv. ring. Qed.
Lemma R0_sym a b : R0_cross a b = R0_cross b a.
Proof. unfold R0_cross. rewrite (Rplus_comm (a ^ 3)), (Rplus_comm (a ^ 2)). reflexivity. Qed.
Lemma cross_same a p : a <> 0 -> p <> 0 -> C6_cross a p a p = a.
Proof. intros Ha Hp. unfold C6_cross.
  replace (p ^ 2 * a + p ^ 2 * a) with (2 * p ^ 2 * a) by ring. field. auto. Qed.
Lemma R0_same a : a <> 0 -> R0_cross a a = a.
Proof. intros Ha. unfold R0_cross.
  replace (a ^ 2 + a ^ 2) with (2 * a ^ 2) by ring. field. auto. Qed.
Lemma R0_between a b : 0 < a -> 0 < b -> Rmin a b <= R0_cross a b <= Rmax a b.
Proof.
  intros Ha Hb. unfold R0_cross. assert (P : 0 < a ^ 2 + b ^ 2) by nra.
  split; apply Rmult_le_reg_r with (a ^ 2 + b ^ 2); try exact P; unfold Rdiv; rewrite Rmult_assoc, Rinv_l, Rmult_1_r by lra.
  - unfold Rmin. destruct (Rle_dec a b); nra.
  - unfold Rmax. destruct (Rle_dec a b); nra.
Qed.

Lemma vdw_derivative C6 R0 d N M r : (1 <= N)%nat -> (1 <= M)%nat -> 0 < r ->
  derivable_pt_lim (vdw C6 R0 d N M) r (dvdw C6 R0 d N M r).
Proof.
  intros HN HM Hr. set (h2 := vdw_h2 R0 d N). set (h1 := vdw_h1 R0 d N).
  assert (D1 : derivable_pt_lim h1 r (h1 r * (- h2 * (INR N * r ^ (N - 1))))).
  { unfold h1, vdw_h1. fold h2. apply (derivable_pt_lim_comp (fun r => - h2 * r ^ N) exp).
    - apply (derivable_pt_lim_scal (fun r => r ^ N)). replace (N - 1)%nat with (Nat.pred N) by lia. apply derivable_pt_lim_pow.
    - apply derivable_pt_lim_exp. }
  assert (D2 : derivable_pt_lim (fun r => 1 - h1 r) r (- (h1 r * (- h2 * (INR N * r ^ (N - 1)))))).
  { replace (- (h1 r * (- h2 * (INR N * r ^ (N - 1))))) with (0 - h1 r * (- h2 * (INR N * r ^ (N - 1)))) by ring.
    apply (derivable_pt_lim_minus (fun _ => 1) h1); [apply derivable_pt_lim_const|exact D1]. }
  assert (D3 : derivable_pt_lim (fun r => (1 - h1 r) ^ M) r (INR M * (1 - h1 r) ^ (M - 1) * - (h1 r * (- h2 * (INR N * r ^ (N - 1)))))).
  { apply (derivable_pt_lim_comp (fun r => 1 - h1 r) (fun x => x ^ M)); [exact D2|].
    replace (M - 1)%nat with (Nat.pred M) by lia. apply derivable_pt_lim_pow. }
  assert (D4 : derivable_pt_lim (fun r => C6 / r ^ 6) r ((0 * r ^ 6 - (INR 6 * r ^ 5) * C6) / (r ^ 6)²)).
  { apply (derivable_pt_lim_div (fun _ => C6) (fun r => r ^ 6)).
    - apply derivable_pt_lim_const.
    - apply (derivable_pt_lim_pow r 6).
    - apply pow_nonzero. lra. }
  pose proof (derivable_pt_lim_opp _ _ _ D3) as D5.
  pose proof (derivable_pt_lim_mult _ _ _ _ _ D5 D4) as D6.
  match type of D6 with derivable_pt_lim ?gg _ _ => apply derivable_local with (g := gg) (e := 1); [lra| |] end.
  - intros y _. unfold mult_fct, opp_fct. reflexivity.
  - match type of D6 with derivable_pt_lim _ _ ?x => replace (dvdw C6 R0 d N M r) with x; [exact D6|] end.
    unfold dvdw, opp_fct. fold h2. fold h1. unfold Rsqr. cbn [INR]. field. lra.
Qed.

Lemma vdw_bounds C6 R0 d N M r : 0 <= C6 -> 0 < R0 -> 0 <= d -> 0 < r ->
  - (C6 / r ^ 6) <= vdw C6 R0 d N M r <= 0.
Proof.
  intros HC HR Hd Hr. unfold vdw.
  assert (P6 : 0 <= C6 / r ^ 6). { unfold Rdiv. apply Rmult_le_pos; [exact HC|]. apply Rlt_le, Rinv_0_lt_compat, pow_lt, Hr. }
  assert (H1 : 0 < vdw_h1 R0 d N r <= 1).
  { unfold vdw_h1. split; [apply exp_pos|]. rewrite <- exp_0.
    assert (E : - vdw_h2 R0 d N * r ^ N <= 0).
    { assert (0 <= vdw_h2 R0 d N) by (unfold vdw_h2, Rdiv; apply Rmult_le_pos; [exact Hd|apply Rlt_le, Rinv_0_lt_compat, pow_lt, HR]).
   assert (HrN : 0 < r ^ N) by (apply pow_lt, Hr). pose proof (Rmult_le_pos _ _ H (Rlt_le _ _ HrN)). lra. }
    destruct E as [E|E]; [apply Rlt_le, exp_increasing, E|rewrite E; lra]. }
  assert (Hf : 0 <= (1 - vdw_h1 R0 d N r) ^ M <= 1).
  { split; [apply pow_le; lra|]. assert (Q := pow_incr (1 - vdw_h1 R0 d N r) 1 M ltac:(lra)). rewrite pow1 in Q. exact Q. }
  nra.
Qed.
Lemma vdw_coefficients_sym Ca pa na Ra Cb pb nb Rb :
  vdw_coefficients Ca pa na Ra (Some (Cb, pb, nb)) (Some Rb) = vdw_coefficients Cb pb nb Rb (Some (Ca, pa, na)) (Some Ra).
Proof.
  unfold vdw_coefficients. destruct (complete Ca pa na) as [[ca qa]|], (complete Cb pb nb) as [[cb qb]|]; try reflexivity.
  rewrite cross_sym, R0_sym. reflexivity.
Qed.
Lemma vdw_coefficients_same C p n R0 : C <> 0 -> p <> 0 -> R0 <> 0 ->
  vdw_coefficients (Some C) (Some p) n R0 None None = Some (C, R0).
Proof. intros. unfold vdw_coefficients, complete. rewrite cross_same, R0_same by assumption. reflexivity. Qed.

(** ** Example: a two-atom cell of a chain with three images *)
Definition ex_t (L : R) (n : nat) : v3 := match n with 1%nat => V3 L 0 0 | 2%nat => V3 (- L) 0 0 | _ => vzero end.
Definition ex_inv (n : nat) : nat := match n with 1%nat => 2%nat | 2%nat => 1%nat | k => k end.
Example ex_images L : images 3 (fun _ => eye) (ex_t L) ex_inv.
Proof.
  split; [lia|split; reflexivity| |reflexivity| |].
  - intros. vunf. ring.
  - intros n Hn. destruct n as [|[|[|n]]]; cbn; lia.
  - intros n p Hn. destruct n as [|[|[|n]]]; [| | |lia]; apply v3_eq; cbn [ex_t ex_inv]; vunf; ring.
Qed.
Definition ex_r (i : nat) : v3 := match i with 0%nat => vzero | _ => V3 1 0 0 end.
Lemma norm_x x : vnorm (V3 x 0 0) = Rabs x.
Proof. unfold vnorm, vdot. cbn [vx vy vz]. rewrite <- sqrt_Rsqr_abs. f_equal. unfold Rsqr. ring. Qed.
Lemma ex_dist x v : vsub x v = V3 (vx x - vx v) (vy x - vy v) (vz x - vz v). Proof. reflexivity. Qed.
Example ex_distances i j n : (i < 2)%nat -> (j < 2)%nat -> (n < 3)%nat -> ~ (i = j /\ n = 0%nat) ->
  0 < dist (place (fun _ => eye) (ex_t 4) ex_r) n i j /\ dist (place (fun _ => eye) (ex_t 4) ex_r) n i j <> 10.
Proof.
  intros Hi Hj Hn Hs. unfold dist.
  assert (E : exists x, rijn (place (fun _ => eye) (ex_t 4) ex_r) n i j = V3 x 0 0 /\ (0 < Rabs x <= 5)).
  { destruct i as [|[|i]]; [| |lia]; (destruct j as [|[|j]]; [| |lia]); (destruct n as [|[|[|n]]]; [| | |lia]);
     try (exfalso; apply Hs; split; reflexivity);
     (eexists; split; [unfold rijn, place; apply v3_eq; cbn [ex_r ex_t]; vunf; [reflexivity|ring|ring]|]);
     unfold Rabs; destruct (Rcase_abs _); lra. }
  destruct E as (x & -> & Hx). rewrite norm_x. lra.
Qed.
Example ex_consistent : consistent {| pv := fun d => (10 - d) ^ 2; pd := fun d => - (2 * (10 - d)); prange := 10 |}.
Proof.
  intros d _. cbn [pv pd].
  replace (- (2 * (10 - d))) with (INR 2 * (10 - d) ^ 1 * (0 - 1)) by (cbn; ring).
  apply (derivable_pt_lim_comp (fun d => 10 - d) (fun x => x ^ 2)).
  - apply (derivable_pt_lim_minus (fun _ => 10) (fun d => d)); [apply derivable_pt_lim_const|apply derivable_pt_lim_id].
  - apply (derivable_pt_lim_pow _ 2).
Qed.
Example ex_symbols : symbol "Au" /\ symbol "C" /\ separate_symbols "AuC" = Some ("Au"%string, "C"%string).
Proof. vm_compute. auto. Qed.
