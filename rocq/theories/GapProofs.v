From Coq Require Import Reals List Bool Arith Lra Lia.
From Verif Require Import Vec GeomModel GeomProofs GapModel GapSpec.
Import ListNotations.
Open Scope R_scope.

Lemma big_gt : 100 < big. Proof. unfold big. lra. Qed.
Local Opaque big.
(** ** flat arrays *)
Lemma flat_in {A} nk norb (x : nat -> nat -> A) v : In v (flat nk norb x) <-> exists k a, state nk norb k a /\ v = x k a.
Proof.
  unfold flat, state. rewrite in_map_iff. split.
  - intros (n & <- & H). apply in_seq in H. assert (Hn : (norb <> 0)%nat) by (intros ->; rewrite Nat.mul_0_r in H; lia).
    exists (n / norb)%nat, (n mod norb)%nat. split; [|reflexivity]. split; [apply Nat.div_lt_upper_bound; lia|apply Nat.mod_upper_bound; exact Hn].
  - intros (k & a & [Hk Ha] & ->). exists (k * norb + a)%nat. split.
    + rewrite Nat.div_add_l, Nat.div_small, Nat.add_0_r by lia. rewrite Nat.add_comm, Nat.mod_add, Nat.mod_small by lia. reflexivity.
    + apply in_seq. nia.
Qed.
Lemma flat_length {A} nk norb (x : nat -> nat -> A) : length (flat nk norb x) = (nk * norb)%nat.
Proof. unfold flat. rewrite map_length, seq_length. reflexivity. Qed.
Lemma flat_combine {A B} nk norb (x : nat -> nat -> A) (y : nat -> nat -> B) : combine (flat nk norb x) (flat nk norb y) = flat nk norb (fun k a => (x k a, y k a)).
Proof. unfold flat. induction (seq 0 (nk * norb)) as [|n l IH]; [reflexivity|]. cbn [map combine]. rewrite IH. reflexivity. Qed.
Lemma flat_nth {A} nk norb (x : nat -> nat -> A) n d : (n < nk * norb)%nat -> nth n (flat nk norb x) d = x (n / norb)%nat (n mod norb)%nat.
Proof. intros H. unfold flat. set (g := fun n => x (n / norb)%nat (n mod norb)%nat). rewrite (nth_indep _ d (g 0%nat)) by (rewrite map_length, seq_length; exact H). rewrite (map_nth g), seq_nth by exact H. reflexivity. Qed.
(** ** the gap *)
Definition lo_ok (seen : list (R * R)) (e : R) (o : option R) : Prop :=
  match o with
  | None => e = - big /\ forall x, In x seen -> 0 < fst x
  | Some f => In (e, f) seen /\ e <= 0 /\ forall x, In x seen -> fst x <= 0 -> fst x <= e
  end.
Definition hi_ok (seen : list (R * R)) (e : R) (o : option R) : Prop :=
  match o with
  | None => e = big /\ forall x, In x seen -> fst x <= 0
  | Some f => In (e, f) seen /\ 0 < e /\ forall x, In x seen -> 0 < fst x -> e <= fst x
  end.
Lemma gap_inv l : forall seen s, (forall x, In x (seen ++ l) -> Rabs (fst x) < big) -> lo_ok seen (elo s) (flo s) -> hi_ok seen (ehi s) (fhi s) ->
  let t := fold_left gap_step l s in lo_ok (seen ++ l) (elo t) (flo t) /\ hi_ok (seen ++ l) (ehi t) (fhi t).
Proof.
  induction l as [|[e f] l IH]; intros seen s B L Hh; cbn [fold_left].
  - rewrite app_nil_r. split; assumption.
  - replace (seen ++ (e, f) :: l) with ((seen ++ [(e, f)]) ++ l) in * by (rewrite <- app_assoc; reflexivity).
    assert (Be : - big < e < big). { assert (X : Rabs e < big) by (apply (B (e, f)); apply in_or_app; left; apply in_or_app; right; left; reflexivity). apply Rabs_def2 in X. lra. }
    apply IH; [exact B| |]; unfold gap_step.
    + destruct (ltb (elo s) e) eqn:E1; cbn [andb]; [apply ltb_true in E1|apply ltb_false in E1].
      * destruct (leb e 0) eqn:E2; [apply leb_true in E2|apply leb_false in E2].
        -- cbn [elo flo lo_ok]. split; [apply in_or_app; right; left; reflexivity|]. split; [exact E2|]. intros x Hx Hn. apply in_app_or in Hx. destruct Hx as [Hx|[<-|[]]]; [|cbn [fst]; lra].
           destruct (flo s) as [f0|]; cbn in L; [destruct L as (_ & _ & L); specialize (L x Hx Hn); lra|]. destruct L as [_ L]. specialize (L x Hx). lra.
        -- rewrite (proj2 (ltb_true 0 e)) by lra. cbn [andb].
           assert (Q : lo_ok (seen ++ [(e, f)]) (elo s) (flo s)).
           { destruct (flo s) as [f0|]; cbn in *.
             - destruct L as (L1 & L2 & L3). split; [apply in_or_app; left; exact L1|]. split; [exact L2|]. intros x Hx Hn. apply in_app_or in Hx. destruct Hx as [Hx|[<-|[]]]; [auto|cbn [fst] in Hn; lra].
             - destruct L as (L1 & L2). split; [exact L1|]. intros x Hx. apply in_app_or in Hx. destruct Hx as [Hx|[<-|[]]]; [auto|cbn [fst]; lra]. }
           destruct (ltb e (ehi s)); exact Q.
      * assert (Q : lo_ok (seen ++ [(e, f)]) (elo s) (flo s)).
        { destruct (flo s) as [f0|]; cbn in *.
          - destruct L as (L1 & L2 & L3). split; [apply in_or_app; left; exact L1|]. split; [exact L2|]. intros x Hx Hn. apply in_app_or in Hx. destruct Hx as [Hx|[<-|[]]]; [auto|cbn [fst] in *; lra].
          - destruct L as (L1 & L2). lra. }
        destruct (ltb 0 e && ltb e (ehi s)); exact Q.
    + destruct (ltb (elo s) e && leb e 0) eqn:E1.
      * apply andb_true_iff in E1. destruct E1 as [_ E1]. apply leb_true in E1. cbn [ehi fhi].
        destruct (fhi s) as [f0|]; cbn in *.
        -- destruct Hh as (L1 & L2 & L3). split; [apply in_or_app; left; exact L1|]. split; [exact L2|]. intros x Hx Hn. apply in_app_or in Hx. destruct Hx as [Hx|[<-|[]]]; [auto|cbn [fst] in Hn; lra].
        -- destruct Hh as (L1 & L2). split; [exact L1|]. intros x Hx. apply in_app_or in Hx. destruct Hx as [Hx|[<-|[]]]; [auto|cbn [fst]; lra].
      * destruct (ltb 0 e) eqn:E2; [apply ltb_true in E2|apply ltb_false in E2]; cbn [andb].
        -- destruct (ltb e (ehi s)) eqn:E3; [apply ltb_true in E3|apply ltb_false in E3]; cbn [ehi fhi].
           ++ cbn [hi_ok]. split; [apply in_or_app; right; left; reflexivity|]. split; [exact E2|]. intros x Hx Hn. apply in_app_or in Hx. destruct Hx as [Hx|[<-|[]]]; [|cbn [fst]; lra].
              destruct (fhi s) as [f0|]; cbn in Hh; [destruct Hh as (_ & _ & L0); specialize (L0 x Hx Hn); lra|]. destruct Hh as [_ L0]. specialize (L0 x Hx). lra.
           ++ destruct (fhi s) as [f0|]; cbn in *.
              ** destruct Hh as (L1 & L2 & L3). split; [apply in_or_app; left; exact L1|]. split; [exact L2|]. intros x Hx Hn. apply in_app_or in Hx. destruct Hx as [Hx|[<-|[]]]; [auto|cbn [fst] in *; lra].
              ** destruct Hh as (L1 & _). lra.
        -- destruct (fhi s) as [f0|]; cbn in *.
           ++ destruct Hh as (L1 & L2 & L3). split; [apply in_or_app; left; exact L1|]. split; [exact L2|]. intros x Hx Hn. apply in_app_or in Hx. destruct Hx as [Hx|[<-|[]]]; [auto|cbn [fst] in Hn; lra].
           ++ destruct Hh as (L1 & L2). split; [exact L1|]. intros x Hx. apply in_app_or in Hx. destruct Hx as [Hx|[<-|[]]]; [auto|cbn [fst]; lra].
Qed.
Lemma gap_final nk norb e f mu : sized nk norb e mu ->
  let l := flat nk norb (fun k a => (e k a - mu, f k a)) in let t := fold_left gap_step l (GS (- big) None big None) in
  lo_ok l (elo t) (flo t) /\ hi_ok l (ehi t) (fhi t).
Proof.
  intros S l. apply (gap_inv l [] (GS (- big) None big None)).
  - intros x Hx. cbn [app] in Hx. apply flat_in in Hx. destruct Hx as (k & a & Hs & ->). cbn [fst]. apply S, Hs.
  - cbn. split; [reflexivity|]. intros x [].
  - cbn. split; [reflexivity|]. intros x [].
Qed.
Lemma gap_value nk norb e f mu g p : sized nk norb e mu -> get_energy_gap nk norb e f mu = Some (g, p) ->
  exists k a k' a', highest_below nk norb e mu k a /\ lowest_above nk norb e mu k' a' /\ g = e k' a' - e k a /\ p = (f k a - f k' a') / 2.
Proof.
  intros S. unfold get_energy_gap, energy_gap. rewrite flat_combine. destruct (gap_final nk norb e f mu S) as [L Hh]. cbn zeta in *.
  set (l := flat nk norb (fun k a => (e k a - mu, f k a))) in *. destruct (fold_left gap_step l (GS (- big) None big None)) as [el fl eh fh]. cbn [elo flo ehi fhi] in *.
  destruct fl as [fl|]; [|discriminate]. destruct fh as [fh|]; [|discriminate]. intros E. injection E as <- <-.
  destruct L as (L1 & L2 & L3). destruct Hh as (H1 & H2 & H3). apply flat_in in L1, H1. destruct L1 as (k & a & Hs & E1). destruct H1 as (k' & a' & Hs' & E2).
  injection E1 as E1 E1'. injection E2 as E2 E2'. subst. exists k, a, k', a'. split; [|split; [|split; [lra|reflexivity]]].
  - split; [exact Hs|]. split; [lra|]. intros k2 a2 Hs2 He. specialize (L3 (e k2 a2 - mu, f k2 a2)). cbn [fst] in L3.
    assert (In (e k2 a2 - mu, f k2 a2) l) by (apply flat_in; exists k2, a2; split; [exact Hs2|reflexivity]). specialize (L3 H ltac:(lra)). lra.
  - split; [exact Hs'|]. split; [lra|]. intros k2 a2 Hs2 He. specialize (H3 (e k2 a2 - mu, f k2 a2)). cbn [fst] in H3.
    assert (In (e k2 a2 - mu, f k2 a2) l) by (apply flat_in; exists k2, a2; split; [exact Hs2|reflexivity]). specialize (H3 H ltac:(lra)). lra.
Qed.
Lemma gap_error nk norb e f mu : sized nk norb e mu -> (get_energy_gap nk norb e f mu = None <-> ~ (has_below nk norb e mu /\ has_above nk norb e mu)).
Proof.
  intros S. unfold get_energy_gap, energy_gap. rewrite flat_combine. destruct (gap_final nk norb e f mu S) as [L Hh]. cbn zeta in *.
  set (l := flat nk norb (fun k a => (e k a - mu, f k a))) in *. destruct (fold_left gap_step l (GS (- big) None big None)) as [el fl eh fh]. cbn [elo flo ehi fhi] in *.
  assert (I : forall k a, state nk norb k a -> In (e k a - mu, f k a) l) by (intros k a Hs; apply flat_in; exists k, a; split; [exact Hs|reflexivity]).
  destruct fl as [fl|].
  - destruct fh as [fh|].
    + split; [discriminate|]. intros X. exfalso. apply X. destruct L as (L1 & L2 & _). destruct Hh as (H1 & H2 & _). apply flat_in in L1, H1.
      destruct L1 as (k & a & Hs & E1). destruct H1 as (k' & a' & Hs' & E2). injection E1 as E1 _. injection E2 as E2 _.
      split; [exists k, a|exists k', a']; split; try assumption; lra.
    + split; [|reflexivity]. intros _ [_ (k & a & Hs & He)]. destruct Hh as [_ H2]. specialize (H2 _ (I k a Hs)). cbn [fst] in H2. lra.
  - split; [|reflexivity]. intros _ [(k & a & Hs & He) _]. destruct L as [_ L2]. specialize (L2 _ (I k a Hs)). cbn [fst] in L2. lra.
Qed.
Lemma gap_probability nk norb e f mu g p : sized nk norb e mu -> filling nk norb e f -> get_energy_gap nk norb e f mu = Some (g, p) -> 0 < g /\ 0 <= p <= 1.
Proof.
  intros S [F1 F2] E. destruct (gap_value _ _ _ _ _ _ _ S E) as (k & a & k' & a' & (S1 & L1 & _) & (S2 & L2 & _) & -> & ->).
  split; [lra|]. pose proof (F1 k a S1). pose proof (F1 k' a' S2). assert (f k' a' <= f k a) by (apply F2; try assumption; lra). lra.
Qed.
(** ** masked argmax and argmin *)
Section Arg.
Variable better : option R -> option R -> bool.
Hypothesis b_irr : forall x, better x x = false.
Hypothesis b_tr : forall x y z, better y x = false -> better z y = false -> better z x = false.
Hypothesis b_as : forall x y, better x y = true -> better y x = false.
Lemma argbest_ok l : forall pre bi bx, nth_error pre bi = Some bx -> (forall x, In x pre -> better x bx = false) ->
  exists x, nth_error (pre ++ l) (argbest better l (length pre) bi bx) = Some x /\ forall y, In y (pre ++ l) -> better y x = false.
Proof.
  induction l as [|x l IH]; intros pre bi bx Hn Hb; cbn [argbest].
  - rewrite app_nil_r. exists bx. split; assumption.
  - replace (pre ++ x :: l) with ((pre ++ [x]) ++ l) by (rewrite <- app_assoc; reflexivity).
    replace (S (length pre)) with (length (pre ++ [x])) by (rewrite app_length; cbn; lia).
    destruct (better x bx) eqn:E.
    + apply IH.
      * rewrite nth_error_app2, Nat.sub_diag by lia. reflexivity.
      * intros y Hy. apply in_app_or in Hy. destruct Hy as [Hy|[<-|[]]]; [|apply b_irr]. apply (b_tr x bx y); [apply b_as; exact E|apply Hb; exact Hy].
    + apply IH.
      * rewrite nth_error_app1; [exact Hn|]. apply nth_error_Some. rewrite Hn. discriminate.
      * intros y Hy. apply in_app_or in Hy. destruct Hy as [Hy|[<-|[]]]; [apply Hb; exact Hy|exact E].
Qed.
Lemma arg_ok l : l <> [] -> exists x, nth_error l (arg better l) = Some x /\ forall y, In y l -> better y x = false.
Proof.
  destruct l as [|x l]; [congruence|]. intros _. apply (argbest_ok l [x] 0%nat x); [reflexivity|]. intros y [<-|[]]. apply b_irr.
Qed.
End Arg.
Lemma above_ok l : l <> [] -> exists x, nth_error l (arg above l) = Some x /\ forall y, In y l -> above y x = false.
Proof.
  apply arg_ok.
  - intros [a|]; cbn; [apply ltb_false; lra|reflexivity].
  - intros [x|] [y|] [z|]; cbn; try congruence; rewrite ?ltb_false; try lra; intros; reflexivity.
  - intros [x|] [y|]; cbn; try congruence. rewrite ltb_true, ltb_false. lra.
Qed.
Lemma below_ok l : l <> [] -> exists x, nth_error l (arg below l) = Some x /\ forall y, In y l -> below y x = false.
Proof.
  apply arg_ok.
  - intros [a|]; cbn; [apply ltb_false; lra|reflexivity].
  - intros [x|] [y|] [z|]; cbn; try congruence; rewrite ?ltb_false; try lra; intros; reflexivity.
  - intros [x|] [y|]; cbn; try congruence. rewrite ltb_true, ltb_false. lra.
Qed.
Lemma flat_nonempty {A} nk norb (x : nat -> nat -> A) k a : state nk norb k a -> flat nk norb x <> [].
Proof. intros Hs E. assert (I : In (x k a) (flat nk norb x)) by (apply flat_in; exists k, a; auto). rewrite E in I. exact I. Qed.
Lemma flat_nth_error {A} nk norb (x : nat -> nat -> A) n v : nth_error (flat nk norb x) n = Some v -> (n < nk * norb)%nat /\ v = x (n / norb)%nat (n mod norb)%nat.
Proof.
  intros E. assert (L : (n < nk * norb)%nat). { rewrite <- (flat_length nk norb x). apply nth_error_Some. rewrite E. discriminate. }
  split; [exact L|]. apply (nth_error_nth _ _ v) in E. rewrite <- E. apply flat_nth. exact L.
Qed.
Lemma unravel_state nk norb n : (n < nk * norb)%nat -> state nk norb (n / norb) (n mod norb).
Proof.
  intros H. assert (norb <> 0)%nat by (intros ->; rewrite Nat.mul_0_r in H; lia). split; [apply Nat.div_lt_upper_bound; lia|apply Nat.mod_upper_bound; assumption].
Qed.
Lemma homo_index nk norb e mu : has_below nk norb e mu -> let '(k, a) := get_state_indices nk norb e mu HOMO in highest_below nk norb e mu k a.
Proof.
  intros (k0 & a0 & Hs & He). unfold get_state_indices. cbv zeta. set (x := fun k a => if ltb 0 (e k a - mu) then None else Some (e k a - mu)).
  destruct (above_ok (flat nk norb x) (flat_nonempty _ _ _ _ _ Hs)) as (v & E & M). apply flat_nth_error in E. destruct E as [L E].
  set (n := arg above (flat nk norb x)) in *. pose proof (unravel_state _ _ _ L) as Sn. set (k := (n / norb)%nat) in *. set (a := (n mod norb)%nat) in *.
  assert (I : forall k a, state nk norb k a -> In (x k a) (flat nk norb x)) by (intros; apply flat_in; eauto).
  pose proof (M _ (I _ _ Hs)) as M0. subst v. unfold x in M0 at 1. rewrite (proj2 (ltb_false 0 (e k0 a0 - mu))) in M0 by lra.
  unfold x in M0. destruct (ltb 0 (e k a - mu)) eqn:E2; [discriminate|]. apply ltb_false in E2. split; [exact Sn|]. split; [lra|].
  intros k' a' Hs' He'. specialize (M _ (I _ _ Hs')). unfold x in M. rewrite (proj2 (ltb_false 0 (e k' a' - mu))) in M by lra. rewrite (proj2 (ltb_false 0 (e k a - mu))) in M by lra.
  cbn in M. apply ltb_false in M. lra.
Qed.
Lemma lumo_index nk norb e mu : (exists k a, state nk norb k a /\ mu <= e k a) -> let '(k, a) := get_state_indices nk norb e mu LUMO in lowest_not_below nk norb e mu k a.
Proof.
  intros (k0 & a0 & Hs & He). unfold get_state_indices. cbv zeta. set (x := fun k a => if ltb (e k a - mu) 0 then None else Some (e k a - mu)).
  destruct (below_ok (flat nk norb x) (flat_nonempty _ _ _ _ _ Hs)) as (v & E & M). apply flat_nth_error in E. destruct E as [L E].
  set (n := arg below (flat nk norb x)) in *. pose proof (unravel_state _ _ _ L) as Sn. set (k := (n / norb)%nat) in *. set (a := (n mod norb)%nat) in *.
  assert (I : forall k a, state nk norb k a -> In (x k a) (flat nk norb x)) by (intros; apply flat_in; eauto).
  pose proof (M _ (I _ _ Hs)) as M0. subst v. unfold x in M0 at 1. rewrite (proj2 (ltb_false (e k0 a0 - mu) 0)) in M0 by lra.
  unfold x in M0. destruct (ltb (e k a - mu) 0) eqn:E2; [discriminate|]. apply ltb_false in E2. split; [exact Sn|]. split; [lra|].
  intros k' a' Hs' He'. specialize (M _ (I _ _ Hs')). unfold x in M. rewrite (proj2 (ltb_false (e k' a' - mu) 0)) in M by lra. rewrite (proj2 (ltb_false (e k a - mu) 0)) in M by lra.
  cbn in M. apply ltb_false in M. lra.
Qed.
(** gap and indices agree when no state lies exactly at the Fermi level *)
Lemma gap_indices nk norb e f mu g p : sized nk norb e mu -> (forall k a, state nk norb k a -> e k a <> mu) -> get_energy_gap nk norb e f mu = Some (g, p) ->
  let '(k, a) := get_state_indices nk norb e mu HOMO in let '(k', a') := get_state_indices nk norb e mu LUMO in g = e k' a' - e k a.
Proof.
  intros S Hne E. destruct (gap_value _ _ _ _ _ _ _ S E) as (k & a & k' & a' & (S1 & L1 & M1) & (S2 & L2 & M2) & -> & _).
  pose proof (homo_index nk norb e mu ltac:(exists k, a; split; assumption)) as P. pose proof (lumo_index nk norb e mu ltac:(exists k', a'; split; [assumption|lra])) as Q.
  destruct (get_state_indices nk norb e mu HOMO) as [k1 a1]. destruct (get_state_indices nk norb e mu LUMO) as [k2 a2].
  destruct P as (P1 & P2 & P3). destruct Q as (Q1 & Q2 & Q3). assert (e k2 a2 <> mu) by (apply Hne; exact Q1).
  assert (e k a <= e k1 a1) by (apply P3; assumption). assert (e k1 a1 <= e k a) by (apply M1; assumption).
  assert (e k' a' <= e k2 a2) by (apply M2; [assumption|lra]). assert (e k2 a2 <= e k' a') by (apply Q3; [assumption|lra]). lra.
Qed.
(** a state at the Fermi level is both; no state below: (0,0) is returned *)
Lemma lumo_refuted : exists nk norb e mu, has_above nk norb e mu /\ (let '(k, a) := get_state_indices nk norb e mu LUMO in ~ lowest_above nk norb e mu k a).
Proof.
  exists 1%nat, 2%nat, (fun _ a => INR a), 0. split.
  - exists 0%nat, 1%nat. split; [split; lia|cbn; lra].
  - assert (P : exists k a, state 1 2 k a /\ 0 <= INR a) by (exists 0%nat, 0%nat; split; [split; lia|cbn; lra]).
    pose proof (lumo_index 1 2 (fun _ a => INR a) 0 P) as Q. destruct (get_state_indices 1 2 (fun _ a => INR a) 0 LUMO) as [k a]. destruct Q as (Q1 & Q2 & Q3).
    assert (INR a <= INR 0) by (apply (Q3 0%nat 0%nat); [split; lia|cbn; lra]). intros (_ & X & _). cbn in *. lra.
Qed.
Lemma homo_refuted : exists nk norb e mu, (0 < nk * norb)%nat /\ (let '(k, a) := get_state_indices nk norb e mu HOMO in state nk norb k a /\ mu < e k a).
Proof.
  exists 1%nat, 1%nat, (fun _ _ => 1), 0. split; [cbn; lia|]. unfold get_state_indices, flat. cbn [Nat.mul seq map Nat.add].
  rewrite (proj2 (ltb_true 0 (1 - 0))) by lra. cbn. split; [split; lia|lra].
Qed.
(** ** get_homo, get_lumo *)
Lemma any_iff n p : any n p = true <-> exists i, (i < n)%nat /\ p i = true.
Proof. unfold any. rewrite existsb_exists. split; intros (i & H & E); exists i; (split; [|exact E]); apply in_seq in H || apply in_seq; lia. Qed.
Lemma find_seq_some p n : forall s i, find p (seq s n) = Some i <-> (s <= i < s + n)%nat /\ p i = true /\ forall j, (s <= j < i)%nat -> p j = false.
Proof.
  induction n as [|n IH]; intros s i; cbn [seq find].
  - split; [discriminate|intros [? _]; lia].
  - destruct (p s) eqn:E.
    + split.
      * intros X. injection X as <-. split; [lia|]. split; [exact E|]. intros; lia.
      * intros (H & Hp & Hj). destruct (Nat.eq_dec s i) as [->|]; [reflexivity|]. rewrite Hj in E by lia. discriminate.
    + rewrite IH. split.
      * intros (H & Hp & Hj). split; [lia|]. split; [exact Hp|]. intros j Hl. destruct (Nat.eq_dec s j) as [<-|]; [exact E|apply Hj; lia].
      * intros (H & Hp & Hj). split; [|split; [exact Hp|intros; apply Hj; lia]]. destruct (Nat.eq_dec s i) as [<-|]; [congruence|lia].
Qed.
Lemma find_seq_none p s n : find p (seq s n) = None <-> forall j, (s <= j < s + n)%nat -> p j = false.
Proof.
  split.
  - intros E j Hj. apply (find_none _ _ E). apply in_seq. lia.
  - intros H. destruct (find p (seq s n)) as [i|] eqn:E; [|reflexivity]. apply find_seq_some in E. destruct E as (E1 & E2 & _). rewrite H in E2 by lia. discriminate.
Qed.
Lemma find_rev_seq p n : forall i, find p (rev (seq 0 n)) = Some i <-> (i < n)%nat /\ p i = true /\ forall j, (i < j < n)%nat -> p j = false.
Proof.
  induction n as [|n IH]; intros i.
  - cbn. split; [discriminate|intros [? _]; lia].
  - rewrite seq_S, rev_app_distr. cbn [rev app Nat.add find]. destruct (p n) eqn:E.
    + split.
      * intros X. injection X as <-. split; [lia|]. split; [exact E|]. intros; lia.
      * intros (H & Hp & Hj). destruct (Nat.eq_dec i n) as [->|]; [reflexivity|]. rewrite Hj in E by lia. discriminate.
    + rewrite IH. split.
      * intros (H & Hp & Hj). split; [lia|]. split; [exact Hp|]. intros j Hl. destruct (Nat.eq_dec j n) as [->|]; [exact E|apply Hj; lia].
      * intros (H & Hp & Hj). split; [|split; [exact Hp|intros; apply Hj; lia]]. destruct (Nat.eq_dec i n) as [->|]; [congruence|lia].
Qed.
Lemma homo_spec nk norb f occu i : get_homo nk norb f occu = Some i <->
  (i < norb)%nat /\ (exists k, (k < nk)%nat /\ occu < f k i) /\ forall j k, (i < j < norb)%nat -> (k < nk)%nat -> f k j <= occu.
Proof.
  unfold get_homo. rewrite find_rev_seq. setoid_rewrite any_iff. setoid_rewrite ltb_true. split.
  - intros (A & B & C). split; [exact A|]. split; [exact B|]. intros j k Hj Hk. specialize (C j Hj). apply not_true_iff_false in C. rewrite any_iff in C.
    apply Rnot_lt_le. intros X. apply C. exists k. split; [exact Hk|apply ltb_true; exact X].
  - intros (A & B & C). split; [exact A|]. split; [exact B|]. intros j Hj. apply not_true_iff_false. rewrite any_iff. intros (k & Hk & X). apply ltb_true in X. specialize (C j k Hj Hk). lra.
Qed.
Lemma lumo_spec nk norb f occu i : get_lumo nk norb f occu = Some i <->
  (i < norb)%nat /\ (exists k, (k < nk)%nat /\ f k i < occu) /\ forall j k, (j < i)%nat -> (k < nk)%nat -> occu <= f k j.
Proof.
  unfold get_lumo. rewrite find_seq_some. setoid_rewrite any_iff. setoid_rewrite ltb_true. split.
  - intros (A & B & C). split; [lia|]. split; [exact B|]. intros j k Hj Hk. specialize (C j ltac:(lia)). apply not_true_iff_false in C. rewrite any_iff in C.
    apply Rnot_lt_le. intros X. apply C. exists k. split; [exact Hk|apply ltb_true; exact X].
  - intros (A & B & C). split; [lia|]. split; [exact B|]. intros j Hj. apply not_true_iff_false. rewrite any_iff. intros (k & Hk & X). apply ltb_true in X. specialize (C j k ltac:(lia) Hk). lra.
Qed.
(** with one k-point and decreasing occupations the LUMO is at most one above the HOMO, and exactly one above unless a level is half filled *)
Lemma homo_lumo norb f h l : (forall i j, (i <= j < norb)%nat -> f 0%nat j <= f 0%nat i) -> get_homo 1 norb f 0.99 = Some h -> get_lumo 1 norb f 1.01 = Some l ->
  (l <= h + 1)%nat /\ (l = (h + 1)%nat <-> forall i, (i < norb)%nat -> ~ 0.99 < f 0%nat i < 1.01).
Proof.
  intros M Hh Hl. apply homo_spec in Hh. apply lumo_spec in Hl. destruct Hh as (H1 & (k & Hk & H2) & H3). destruct Hl as (L1 & (k' & Hk' & L2) & L3).
  replace k with 0%nat in * by lia. replace k' with 0%nat in * by lia.
  assert (Le : (l <= h + 1)%nat). { destruct (le_lt_dec l (h + 1)) as [X|X]; [exact X|]. specialize (H3 (h + 1)%nat 0%nat ltac:(lia) ltac:(lia)). specialize (L3 (h + 1)%nat 0%nat X ltac:(lia)). lra. }
  split; [exact Le|]. split.
  - intros -> i Hi [A B]. destruct (le_lt_dec i h) as [X|X]; [specialize (L3 i 0%nat ltac:(lia) ltac:(lia)); lra|specialize (H3 i 0%nat ltac:(lia) ltac:(lia)); lra].
  - intros X. destruct (Nat.eq_dec l (h + 1)) as [E|E]; [exact E|]. exfalso. assert (l <= h)%nat by lia. apply (X l L1). split; [|exact L2].
    specialize (M l h ltac:(lia)). lra.
Qed.
