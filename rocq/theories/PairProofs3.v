From Coq Require Import Reals Lra Lia ZArith List Bool Arith String Ascii.
From Verif Require Import Vec GeomModel GeomProofs PairModel PairSpec PairProofs PairProofs2.
Import ListNotations.
Open Scope R_scope.

Lemma in_seq0 i n : (i < n)%nat -> In i (seq 0 n). Proof. intros. apply in_seq. lia. Qed.
Lemma distances_ok_spec N nimg Rn rmax : distances_ok N nimg Rn rmax = true <->
  forall i j n, (i <= j < N)%nat -> (n < nimg)%nat -> self_pair n i j = false -> dist Rn n i j <= rmax -> / 10 ^ 10 < dist Rn n i j.
Proof.
  unfold distances_ok. split.
  - intros H i j n Hij Hn S D. rewrite forallb_forall in H. specialize (H i (in_seq0 i N ltac:(lia))).
    rewrite forallb_forall in H. specialize (H j (in_seq0 j N ltac:(lia))).
    rewrite (proj2 (Nat.ltb_ge j i)) in H by lia. cbn [orb] in H.
    rewrite forallb_forall in H. specialize (H n (in_seq0 n nimg ltac:(lia))).
    rewrite S in H. cbn [orb] in H. rewrite (proj2 (ltb_false _ _) D) in H. cbn [orb] in H. apply ltb_true in H. exact H.
  - intros H. apply forallb_forall. intros i Hi. apply in_seq in Hi. apply forallb_forall. intros j Hj. apply in_seq in Hj.
    destruct (Nat.ltb_spec j i) as [L|L]; [reflexivity|]. cbn [orb]. apply forallb_forall. intros n Hn. apply in_seq in Hn.
    destruct (self_pair n i j) eqn:S; [reflexivity|]. cbn [orb].
    destruct (ltb rmax (dist Rn n i j)) eqn:D; [reflexivity|]. apply ltb_false in D. cbn [orb]. apply ltb_true.
    apply H; auto; lia.
Qed.

Lemma self_pair_spec n i j : self_pair n i j = false <-> ~ (i = j /\ n = 0%nat).
Proof.
  unfold self_pair. destruct (Nat.eqb_spec i j), (Nat.eqb_spec n 0); cbn; split; try tauto; try discriminate.
Qed.

Lemma repulsion_error N nimg Rn sym vrep rmax Hartree :
  repulsive_energy N nimg Rn sym vrep rmax Hartree = None <->
  exists i j n, (i <= j < N)%nat /\ (n < nimg)%nat /\ ~ (i = j /\ n = 0%nat) /\ dist Rn n i j <= rmax /\ dist Rn n i j <= / 10 ^ 10.
Proof.
  unfold repulsive_energy. destruct (distances_ok N nimg Rn rmax) eqn:D.
  - rewrite distances_ok_spec in D. split; [discriminate|]. intros (i & j & n & H1 & H2 & H3 & H4 & H5). exfalso.
    specialize (D i j n H1 H2 (proj2 (self_pair_spec _ _ _) H3) H4). lra.
  - split; [intros _|reflexivity]. 
    assert (ND : ~ (forall i j n, (i <= j < N)%nat -> (n < nimg)%nat -> self_pair n i j = false -> dist Rn n i j <= rmax -> / 10 ^ 10 < dist Rn n i j)).
    { intros H. apply distances_ok_spec in H. congruence. }
    unfold distances_ok in D.
    (* find the pair *)
    assert (F : forall A (f : A -> bool) l, forallb f l = false -> exists x, In x l /\ f x = false).
    { intros A f l. induction l as [|a l IH]; cbn; [discriminate|]. destruct (f a) eqn:E; cbn.
      - intros H. destruct (IH H) as (x & Hx & Hf). exists x. auto.
      - intros _. exists a. auto. }
    apply F in D. destruct D as (i & Hi & D). apply F in D. destruct D as (j & Hj & D). apply orb_false_elim in D. destruct D as [D0 D].
    apply F in D. destruct D as (n & Hn & D). apply orb_false_elim in D. destruct D as [D D3]. apply orb_false_elim in D. destruct D as [D1 D2].
    apply in_seq in Hi, Hj, Hn. apply Nat.ltb_ge in D0. apply ltb_false in D2, D3. apply self_pair_spec in D1.
    exists i, j, n. repeat split; try lia; assumption.
Qed.

Lemma ok_positive N nimg O t inv r rmax : images nimg O t inv -> 0 <= rmax -> distances_ok N nimg (place O t r) rmax = true ->
  forall i j n, (i < N)%nat -> (j < N)%nat -> (n < nimg)%nat -> self_pair n i j = false -> 0 < dist (place O t r) n i j.
Proof.
  intros Him Hr D. rewrite distances_ok_spec in D.
  assert (P : 0 < / 10 ^ 10) by (apply Rinv_0_lt_compat, pow_lt; lra).
  assert (W : forall i j n, (i <= j < N)%nat -> (n < nimg)%nat -> self_pair n i j = false -> 0 < dist (place O t r) n i j).
  { intros i j n Hij Hn S. destruct (Rle_lt_dec (dist (place O t r) n i j) rmax) as [L|L]; [|lra].
    specialize (D i j n Hij Hn S L). lra. }
  intros i j n Hi Hj Hn S. destruct (Nat.le_gt_cases i j) as [L|L]; [apply W; auto; lia|].
  rewrite <- (dist_inverse nimg O t inv Him r n i j Hn). destruct (im_inv _ _ _ _ Him n Hn) as [Hin _].
  apply W; [lia|exact Hin|]. rewrite (self_inverse nimg O t inv Him n i j Hn). exact S.
Qed.

Section Rep.
Variables (N nimg : nat) (O : nat -> m3) (t : nat -> v3) (inv : nat -> nat).
Variables (sym : nat -> string) (vrep dvrep : string -> R -> R) (rmax Hartree : R) (r u : nat -> v3).

Lemma repulsion_gradient E e :
  images nimg O t inv -> 0 <= rmax ->
  (forall i j d, (i < N)%nat -> (j < N)%nat -> dvrep (sym i ++ sym j)%string d = dvrep (sym j ++ sym i)%string d) ->
  (forall i j d, (i < N)%nat -> (j < N)%nat -> 0 < d < rmax ->
     derivable_pt_lim (vrep (sym i ++ sym j)%string) d (dvrep (sym i ++ sym j)%string d)) ->
  (forall i j n, (i < N)%nat -> (j < N)%nat -> (n < nimg)%nat -> dist (place O t r) n i j <> rmax) ->
  0 < e -> (forall s, Rabs s < e -> repulsive_energy N nimg (place O t (moved r u s)) sym vrep rmax Hartree = Some (E s)) ->
  derivable_pt_lim E 0 (- (Hartree * rsum N (fun i => vdot (repulsive_force N nimg (place O t r) sym dvrep rmax i) (u i)))).
Proof.
  intros Him Hr Hsym Hder Hne He HE.
  assert (D0 : distances_ok N nimg (place O t r) rmax = true).
  { specialize (HE 0 ltac:(rewrite Rabs_R0; exact He)). unfold repulsive_energy in HE.
    assert (Q : place O t (moved r u 0) = place O t (moved r u 0)) by reflexivity.
    destruct (distances_ok N nimg (place O t (moved r u 0)) rmax) eqn:D; [|discriminate].
    rewrite distances_ok_spec in D |- *. intros i j n Hij Hn S L. specialize (D i j n Hij Hn S).
    assert (X : dist (place O t (moved r u 0)) n i j = dist (place O t r) n i j).
    { unfold dist, rijn, place, moved. f_equal. apply v3_eq; vunf; ring. }
    rewrite X in D. auto. }
  apply derivable_local with (g := fun s => Hartree * total_energy N nimg (place O t (moved r u s)) (vrep_ij sym vrep) rmax) (e := e).
  - exact He.
  - intros s Hs. rewrite Rminus_0_r in Hs. specialize (HE s Hs). unfold repulsive_energy in HE.
    destruct (distances_ok _ _ _ _); [|discriminate]. injection HE as <-. ring.
  - rewrite Ropp_mult_distr_r. apply (derivable_pt_lim_scal (fun s => total_energy N nimg (place O t (moved r u s)) (vrep_ij sym vrep) rmax)).
    unfold repulsive_force. apply (energy_derivative N nimg O t inv Him).
    + intros i j d Hi Hj. apply Hsym; assumption.
    + intros i j n Hi Hj Hn S. pose proof (ok_positive N nimg O t inv r rmax Him Hr D0 i j n Hi Hj Hn S) as P.
      split; [exact P|]. split; [apply Hne; assumption|]. intros L. apply Hder; auto.
Qed.

Lemma repulsion_sum_zero w :
  images nimg O t inv -> 0 <= rmax -> (forall n, (n < nimg)%nat -> O n = eye) ->
  (forall i j d, (i < N)%nat -> (j < N)%nat -> dvrep (sym i ++ sym j)%string d = dvrep (sym j ++ sym i)%string d) ->
  repulsive_energy N nimg (place O t r) sym vrep rmax Hartree <> None ->
  rsum N (fun i => vdot (repulsive_force N nimg (place O t r) sym dvrep rmax i) w) = 0.
Proof.
  intros Him Hr HO Hsym HE. unfold repulsive_force. apply (forces_sum_zero N nimg O t inv); auto.
  apply (ok_positive N nimg O t inv r rmax Him Hr). unfold repulsive_energy in HE. destruct (distances_ok _ _ _ _); congruence.
Qed.

Lemma repulsion_pairs x : repulsive_energy N nimg (place O t r) sym vrep rmax Hartree = Some x ->
  x = Hartree * rsum N (fun i => rsum N (fun j => if (i <=? j)%nat then pair_repulsive_energy nimg (place O t r) sym vrep rmax i j else 0)).
Proof.
  unfold repulsive_energy. destruct (distances_ok _ _ _ _); [|discriminate]. intros [= <-].
  rewrite energy_is_sum_of_pairs. apply Rmult_comm.
Qed.
End Rep.

(** ** Concrete case: the chain of PairProofs2, one element, (10-d)^2 *)
Definition ex_sym (_ : nat) : string := "C".
Definition ex_v (_ : string) (d : R) : R := (10 - d) ^ 2.
Definition ex_dv (_ : string) (d : R) : R := - (2 * (10 - d)).
Definition ex_u (i : nat) : v3 := match i with 0%nat => V3 1 0 0 | _ => vzero end.
Lemma ex_rijn s i j n : (i < 2)%nat -> (j < 2)%nat -> (n < 3)%nat -> ~ (i = j /\ n = 0%nat) -> Rabs s < / 2 ->
  exists x, rijn (place (fun _ => eye) (ex_t 4) (moved ex_r ex_u s)) n i j = V3 x 0 0 /\ (/ 4 < Rabs x <= 6).
Proof.
  intros Hi Hj Hn Hs Hx. assert (Q : -/ 2 < s < / 2) by (apply Rabs_def2 in Hx; lra).
  destruct i as [|[|i]]; [| |lia]; (destruct j as [|[|j]]; [| |lia]); (destruct n as [|[|[|n]]]; [| | |lia]);
   try (exfalso; apply Hs; split; reflexivity);
   (eexists; split; [unfold rijn, place, moved; apply v3_eq; cbn [ex_r ex_t ex_u]; vunf; [reflexivity|ring|ring]|]);
   unfold Rabs; destruct (Rcase_abs _); lra.
Qed.
Example ex_repulsion_hyps :
  images 3 (fun _ => eye) (ex_t 4) ex_inv /\
  (forall i j d, (i < 2)%nat -> (j < 2)%nat -> 0 < d < 10 ->
     derivable_pt_lim (ex_v (ex_sym i ++ ex_sym j)%string) d (ex_dv (ex_sym i ++ ex_sym j)%string d)) /\
  (forall i j n, (i < 2)%nat -> (j < 2)%nat -> (n < 3)%nat -> dist (place (fun _ => eye) (ex_t 4) ex_r) n i j <> 10) /\
  exists E, forall s, Rabs s < / 2 ->
    repulsive_energy 2 3 (place (fun _ => eye) (ex_t 4) (moved ex_r ex_u s)) ex_sym ex_v 10 27 = Some (E s).
Proof.
  split; [apply ex_images|]. split; [|split].
  - intros i j d _ _ Hd. exact (ex_consistent d (proj1 Hd)).
  - intros i j n Hi Hj Hn. destruct (self_pair n i j) eqn:S.
    + unfold self_pair in S. apply andb_prop in S. destruct S as [S1 S2]. apply Nat.eqb_eq in S1, S2. subst.
      unfold dist, rijn. replace (vsub _ _) with (V3 0 0 0) by (apply v3_eq; vunf; ring). rewrite norm_x, Rabs_R0. lra.
    + apply self_pair_spec in S. apply ex_distances; assumption.
  - exists (fun s => total_energy 2 3 (place (fun _ => eye) (ex_t 4) (moved ex_r ex_u s)) (vrep_ij ex_sym ex_v) 10 * 27).
    intros s Hs. unfold repulsive_energy.
    assert (D : distances_ok 2 3 (place (fun _ => eye) (ex_t 4) (moved ex_r ex_u s)) 10 = true); [|rewrite D; reflexivity].
    apply distances_ok_spec. intros i j n Hij Hn S _. apply self_pair_spec in S.
    destruct (ex_rijn s i j n) as (x & E & Hx); try lia; auto. unfold dist. rewrite E, norm_x.
    apply Rlt_trans with (/ 4); [|lra]. apply Rinv_lt_contravar; [|].
    + apply Rmult_lt_0_compat; [lra|apply pow_lt; lra].
    + apply Rlt_le_trans with (10 ^ 1); [lra|apply Rle_pow; [lra|lia]].
Qed.

(** ** Different tables for the two orderings of an element pair *)
Definition rf_sym (i : nat) : string := match i with 0%nat => "C" | _ => "H" end.
Definition rf_c (s : string) : R := if string_dec s "CH" then 1 else 2.
Definition rf_v (s : string) (d : R) : R := rf_c s * d.
Definition rf_dv (s : string) (d : R) : R := rf_c s.
Definition rf_u (i : nat) : v3 := match i with 1%nat => V3 1 0 0 | _ => vzero end.
Lemma one_image : images 1 (fun _ => eye) (fun _ => vzero) (fun n => n).
Proof.
  split; [lia|split; reflexivity| |reflexivity|auto|].
  - intros. vunf. ring.
  - intros. apply v3_eq; vunf; ring.
Qed.
Lemma asymmetric_tables : exists N nimg O t inv sym vrep dvrep rmax Hartree r u,
  images nimg O t inv /\ 0 <= rmax /\
  (forall s d, derivable_pt_lim (vrep s) d (dvrep s d)) /\
  (forall i j n, (i < N)%nat -> (j < N)%nat -> (n < nimg)%nat -> dist (place O t r) n i j <> rmax) /\
  exists E e, 0 < e /\ (forall s, Rabs s < e -> repulsive_energy N nimg (place O t (moved r u s)) sym vrep rmax Hartree = Some (E s)) /\
  ~ derivable_pt_lim E 0 (- (Hartree * rsum N (fun i => vdot (repulsive_force N nimg (place O t r) sym dvrep rmax i) (u i)))).
Proof.
  exists 2%nat, 1%nat, (fun _ => eye), (fun _ => vzero), (fun n => n), rf_sym, rf_v, rf_dv, 10, 1, ex_r, rf_u.
  assert (RX : forall s i j, (i < 2)%nat -> (j < 2)%nat -> rijn (place (fun _ => eye) (fun _ => vzero) (moved ex_r rf_u s)) 0 i j =
     V3 (if (i =? j)%nat then 0 else if (i =? 0)%nat then 1 + s else - (1 + s)) 0 0).
  { intros s i j Hi Hj. destruct i as [|[|i]]; [| |lia]; (destruct j as [|[|j]]; [| |lia]);
    unfold rijn, place, moved; apply v3_eq; cbn [ex_r rf_u Nat.eqb]; vunf; ring. }
  assert (RX0 : forall i j, (i < 2)%nat -> (j < 2)%nat -> rijn (place (fun _ => eye) (fun _ => vzero) ex_r) 0 i j =
     V3 (if (i =? j)%nat then 0 else if (i =? 0)%nat then 1 else - 1) 0 0).
  { intros i j Hi Hj. destruct i as [|[|i]]; [| |lia]; (destruct j as [|[|j]]; [| |lia]);
    unfold rijn, place, moved; apply v3_eq; cbn [ex_r rf_u Nat.eqb]; vunf; ring. }
  assert (D01 : forall s, Rabs s < / 2 -> dist (place (fun _ => eye) (fun _ => vzero) (moved ex_r rf_u s)) 0 0 1 = 1 + s).
  { intros s Hs. apply Rabs_def2 in Hs. unfold dist. rewrite RX by lia. cbn [Nat.eqb]. rewrite norm_x. apply Rabs_right. lra. }
  assert (Dr : forall i j, (i < 2)%nat -> (j < 2)%nat -> dist (place (fun _ => eye) (fun _ => vzero) ex_r) 0 i j = if (i =? j)%nat then 0 else 1).
  { intros i j Hi Hj. unfold dist. rewrite RX0, norm_x by assumption.
    destruct (i =? j)%nat; [apply Rabs_R0|]. destruct (i =? 0)%nat; [apply Rabs_right; lra|rewrite Rabs_left; lra]. }
  split; [exact one_image|]. split; [lra|]. split; [|split].
  - intros s d. unfold rf_v, rf_dv.
    pose proof (derivable_pt_lim_scal (fun d => d) (rf_c s) d 1 (derivable_pt_lim_id d)) as X. rewrite Rmult_1_r in X.
    apply derivable_local with (g := mult_real_fct (rf_c s) (fun d => d)) (e := 1); [lra| |exact X]. intros y _. unfold mult_real_fct. ring.
  - intros i j n Hi Hj Hn. destruct n; [|lia]. rewrite Dr by assumption. destruct (i =? j)%nat; lra.
  - exists (fun s => 1 + s), (/ 2). split; [lra|]. split.
    + intros s Hs. pose proof (D01 s Hs) as DS. pose proof (Rabs_def2 _ _ Hs) as B. unfold repulsive_energy.
      assert (D : distances_ok 2 1 (place (fun _ => eye) (fun _ => vzero) (moved ex_r rf_u s)) 10 = true).
      { apply distances_ok_spec. intros i j n Hij Hn S _. apply self_pair_spec in S. destruct n; [|lia].
        assert (i = 0 /\ j = 1)%nat as [-> ->] by lia. rewrite DS. apply Rlt_trans with (/ 4); [|lra].
        apply Rinv_lt_contravar; [apply Rmult_lt_0_compat; [lra|apply pow_lt; lra]|].
        apply Rlt_le_trans with (10 ^ 1); [lra|apply Rle_pow; [lra|lia]]. }
      rewrite D. f_equal. unfold total_energy. cbn [rsum Nat.sub Nat.add]. unfold pair_energy. cbn [rsum self_pair Nat.eqb andb].
      rewrite DS. rewrite (proj2 (ltb_false 10 (1 + s))) by lra. unfold vrep_ij, rf_v, rf_c, rf_sym.
      destruct (string_dec ("C" ++ "H") "CH") as [_|C]; [ring|exfalso; apply C; reflexivity].
    + intros H. assert (H1 : derivable_pt_lim (fun s => 1 + s) 0 (0 + 1)) by
        (apply (derivable_pt_lim_plus (fun _ => 1) (fun s => s)); [apply derivable_pt_lim_const|apply derivable_pt_lim_id]).
      pose proof (uniqueness_limite _ _ _ _ H H1) as U. revert U.
      unfold repulsive_force, force, pair_force, vsum. cbn [rsum self_pair Nat.eqb andb].
      rewrite !Dr by lia. rewrite !RX0 by lia. cbn [Nat.eqb rf_u]. rewrite (proj2 (ltb_true 1 10)) by lra.
      unfold dvrep_ij, rf_dv, rf_c, rf_sym. destruct (string_dec ("H" ++ "C") "CH") as [C|_]; [discriminate|].
      unfold vdot, vscale, vzero. cbn [vx vy vz]. lra.
Qed.

(** ** What a history of calls stores *)
Section Stored.
Variables Bohr Hartree : R.
Lemma given_last_app hit cs id v e : given_last hit (cs ++ [(id, v, e)]) =
  if hit id then Some (v, e) else given_last hit cs.
Proof.
  induction cs as [|[[id' v'] e'] cs IH]; cbn; [destruct (hit id); reflexivity|].
  rewrite IH. destruct (hit id); [reflexivity|]. reflexivity.
Qed.
Definition conv (x : potential * bool) : potential := to_atomic Bohr Hartree (snd x) (fst x).
Lemma run_app cs c : run Bohr Hartree (cs ++ [c]) = add_pair_potential Bohr Hartree (run Bohr Hartree cs) c.
Proof. unfold run. rewrite fold_left_app. reflexivity. Qed.

Lemma stored_atoms cs i j : (forall id v e, In (id, v, e) cs -> valid_id id) -> (0 <= i < 10000)%Z -> (0 <= j < 10000)%Z ->
  atomv (run Bohr Hartree cs) (ij2s i j) = option_map conv (given_last (hits_atoms i j) cs).
Proof.
  intros Hv Hi Hj. induction cs as [|[[id v] e] cs IH] using rev_ind; [reflexivity|].
  assert (Hid : valid_id id) by (apply (Hv id v e); apply in_or_app; right; left; reflexivity).
  assert (IH' := IH (fun id v e H => Hv id v e (in_or_app _ _ _ (or_introl H)))).
  rewrite run_app, given_last_app. destruct id as [a b|a b]; cbn [add_pair_potential atomv hits_atoms]; [|exact IH'].
  cbn in Hid. destruct Hid as [Ha Hb]. unfold updk.
  destruct (Z.eqb_spec a i) as [E1|E1], (Z.eqb_spec b j) as [E2|E2], (Z.eqb_spec a j) as [E3|E3], (Z.eqb_spec b i) as [E4|E4]; cbn [andb orb];
   subst; destruct (keyeq _ _) as [K|K]; try reflexivity;
   try (destruct (keyeq _ _) as [K2|K2]; try reflexivity);
   try (apply keys_injective in K; try lia; destruct K; exfalso; lia);
   try (apply keys_injective in K2; try lia; destruct K2; exfalso; lia); try (exfalso; congruence); try exact IH'.
Qed.
Lemma stored_elements cs si sj : (forall id v e, In (id, v, e) cs -> valid_id id) -> symbol si -> symbol sj ->
  elemv (run Bohr Hartree cs) (si ++ sj)%string = option_map conv (given_last (hits_elements si sj) cs).
Proof.
  intros Hv Hi Hj. induction cs as [|[[id v] e] cs IH] using rev_ind; [reflexivity|].
  assert (Hid : valid_id id) by (apply (Hv id v e); apply in_or_app; right; left; reflexivity).
  assert (IH' := IH (fun id v e H => Hv id v e (in_or_app _ _ _ (or_introl H)))).
  rewrite run_app, given_last_app. destruct id as [a b|a b]; cbn [add_pair_potential elemv hits_elements]; [exact IH'|].
  cbn in Hid. destruct Hid as [Ha Hb]. unfold upds.
  destruct (String.eqb_spec a si) as [E1|E1], (String.eqb_spec b sj) as [E2|E2], (String.eqb_spec a sj) as [E3|E3], (String.eqb_spec b si) as [E4|E4]; cbn [andb orb];
   subst; destruct (string_dec _ _) as [K|K]; try reflexivity;
   try (destruct (string_dec _ _) as [K2|K2]; try reflexivity);
   try (apply symbols_unique in K; try assumption; destruct K; exfalso; congruence);
   try (apply symbols_unique in K2; try assumption; destruct K2; exfalso; congruence); try (exfalso; congruence); try exact IH'.
Qed.
Lemma stored_full cs sym proj i j r : (forall id v e, In (id, v, e) cs -> valid_id id) ->
  (Z.of_nat i < 10000)%Z -> (Z.of_nat j < 10000)%Z -> symbol (sym i) -> symbol (sym j) ->
  full_v (run Bohr Hartree cs) sym proj i j r =
  value_of Bohr Hartree proj (given_last (hits_atoms (Z.of_nat i) (Z.of_nat j)) cs) r +
  value_of Bohr Hartree proj (given_last (hits_elements (sym i) (sym j)) cs) r.
Proof.
  intros Hv Hi Hj Si Sj. unfold full_v. rewrite stored_atoms, stored_elements by (auto; lia).
  destruct (given_last (hits_atoms _ _) cs) as [[v e]|], (given_last (hits_elements _ _) cs) as [[v' e']|]; cbn [option_map value_of]; unfold conv; cbn [fst snd]; ring.
Qed.
Lemma stored_range cs : (forall id v e, In (id, v, e) cs -> prange (to_atomic Bohr Hartree e v) <= rcut (run Bohr Hartree cs)) /\
  (rcut (run Bohr Hartree cs) = 0 \/ exists id v e, In (id, v, e) cs /\ prange (to_atomic Bohr Hartree e v) = rcut (run Bohr Hartree cs)).
Proof.
  induction cs as [|[[id v] e] cs [IH1 IH2]] using rev_ind; [split; [intros ? ? ? []|left; reflexivity]|].
  rewrite run_app. assert (E : rcut (add_pair_potential Bohr Hartree (run Bohr Hartree cs) (id, v, e)) = Rmax (rcut (run Bohr Hartree cs)) (prange (to_atomic Bohr Hartree e v))).
  { unfold add_pair_potential. destruct id; reflexivity. }
  rewrite E. split.
  - intros id' v' e' H. apply in_app_or in H. destruct H as [H|[H|[]]].
    + eapply Rle_trans; [apply (IH1 _ _ _ H)|apply Rmax_l].
    + injection H as -> -> ->. apply Rmax_r.
  - unfold Rmax. destruct (Rle_dec _ _).
    + right. exists id, v, e. split; [apply in_or_app; right; left; reflexivity|reflexivity].
    + destruct IH2 as [H|(a & b & c & H & H')]; [left; exact H|]. right. exists a, b, c. split; [apply in_or_app; left; exact H|exact H'].
Qed.
End Stored.
