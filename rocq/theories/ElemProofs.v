From Coq Require Import Reals ZArith List Bool Arith Lia Lra FinFun.
From Verif Require Import Vec GeomModel GeomProofs ElemModel ElemSpec.
Import ListNotations.
Open Scope R_scope.

Definition zipped (e : edata) : list (shell * R) := combine (get_orbital_types e) (e_onsite e).
Fixpoint mk (i k n : nat) (l : list (shell * R)) : list orbital :=
  match l with
  | [] => []
  | (ao, e) :: l => {| o_atom := i; o_type := ao; o_index := n; o_energy := e; o_atomindex := k |} :: mk i (S k) (S n) l
  end.
Lemma add_orbitals_eq i : forall l k n oa acc, add_orbitals i k l n oa acc = ((n + length l)%nat, oa ++ repeat i (length l), acc ++ mk i k n l).
Proof.
  induction l as [|[ao e] l IH]; intros k n oa acc; cbn [add_orbitals length repeat mk].
  - rewrite Nat.add_0_r, !app_nil_r. reflexivity.
  - rewrite IH. rewrite <- !app_assoc. cbn [app]. replace (S n - 1)%nat with n by lia. replace (S n + length l)%nat with (n + S (length l))%nat by lia. reflexivity.
Qed.
Fixpoint blocks (i n : nat) (els : list edata) : list (list orbital) :=
  match els with [] => [] | e :: els => mk i 0 n (zipped e) :: blocks (S i) (n + length (zipped e)) els end.
Fixpoint firsts (n : nat) (els : list edata) : list nat :=
  match els with [] => [] | e :: els => n :: firsts (n + length (zipped e)) els end.
Fixpoint owners (i : nat) (els : list edata) : list nat :=
  match els with [] => [] | e :: els => repeat i (length (zipped e)) ++ owners (S i) els end.
Lemma mk_length i : forall l k n, length (mk i k n l) = length l.
Proof. induction l as [|[ao e] l IH]; intros; cbn; [|rewrite IH]; reflexivity. Qed.
Lemma add_atoms_eq : forall els s i, add_atoms s i els =
  {| norb := norb s + list_sum (map (fun e => length (zipped e)) els); orb := orb s ++ concat (blocks i (norb s) els);
     atomorb := atomorb s ++ blocks i (norb s) els; nr_orbitals := nr_orbitals s ++ map (fun e => length (zipped e)) els;
     first_orbitals := first_orbitals s ++ firsts (norb s) els; orbital_atoms := orbital_atoms s ++ owners i els |}.
Proof.
  induction els as [|e els IH]; intros s i; cbn [add_atoms].
  - cbn. rewrite Nat.add_0_r, !app_nil_r. destruct s. reflexivity.
  - rewrite IH. unfold add_atom. fold (zipped e). rewrite add_orbitals_eq. cbn [app].
    cbn [norb orb atomorb nr_orbitals first_orbitals orbital_atoms blocks firsts owners concat map list_sum fold_right].
    rewrite <- !app_assoc. cbn [app]. rewrite mk_length. unfold list_sum. rewrite Nat.add_assoc. reflexivity.
Qed.
Lemma zipped_length e : well_formed e -> length (zipped e) = e_no e.
Proof.
  intros [H L]. unfold zipped, get_orbital_types. rewrite combine_length, firstn_length, L. change (length orbital_list) with 9%nat. lia.
Qed.
Lemma zipped_nth e k : well_formed e -> (k < e_no e)%nat -> nth_error (zipped e) k = Some (nth k orbital_list Sh_s, nth k (e_onsite e) 0).
Proof.
  intros [H L] Hk. unfold zipped, get_orbital_types.
  assert (A : nth_error (firstn (e_no e) orbital_list) k = Some (nth k orbital_list Sh_s)).
  { rewrite <- (firstn_skipn (e_no e) orbital_list) at 2. rewrite app_nth1 by (rewrite firstn_length; change (length orbital_list) with 9%nat; lia).
    apply nth_error_nth'. rewrite firstn_length. change (length orbital_list) with 9%nat. lia. }
  assert (B : nth_error (e_onsite e) k = Some (nth k (e_onsite e) 0)) by (apply nth_error_nth'; lia).
  revert A B. generalize (nth k orbital_list Sh_s) (nth k (e_onsite e) 0). intros a b.
  generalize (firstn (e_no e) orbital_list) (e_onsite e). clear. intros l. revert k.
  induction l as [|x l IH]; intros [|k] l' A B; cbn in *; try discriminate; destruct l' as [|y l']; try discriminate; cbn in *.
  - injection A as ->. injection B as ->. reflexivity.
  - apply IH; assumption.
Qed.
Lemma mk_nth i : forall l k n q, nth_error (mk i k n l) q =
  match nth_error l q with Some (ao, e) => Some {| o_atom := i; o_type := ao; o_index := (n + q)%nat; o_energy := e; o_atomindex := (k + q)%nat |} | None => None end.
Proof.
  induction l as [|[ao e] l IH]; intros k n [|q]; cbn [mk nth_error]; try reflexivity.
  - rewrite !Nat.add_0_r. reflexivity.
  - rewrite IH. destruct (nth_error l q) as [[? ?]|]; [|reflexivity]. f_equal; f_equal; lia.
Qed.
Lemma mk_index i : forall l k n, map o_index (mk i k n l) = seq n (length l).
Proof. induction l as [|[ao e] l IH]; intros; cbn; [|rewrite IH]; reflexivity. Qed.
Section WF.
Variable els : list edata.
Hypothesis WF : Forall well_formed els.
Lemma lengths_eq : map (fun e => length (zipped e)) els = map e_no els.
Proof. induction WF as [|e l He Hl IH]; [reflexivity|]. cbn [map]. rewrite zipped_length by exact He. f_equal. apply IH. exact Hl. Qed.
Lemma init_eq : initialize els = {| norb := list_sum (map e_no els); orb := concat (blocks 0 0 els); atomorb := blocks 0 0 els;
  nr_orbitals := map e_no els; first_orbitals := firsts 0 els; orbital_atoms := owners 0 els |}.
Proof. unfold initialize. rewrite add_atoms_eq. cbn [norb orb atomorb nr_orbitals first_orbitals orbital_atoms start app]. rewrite lengths_eq. reflexivity. Qed.
End WF.
Lemma offset_S e els i : offset (e :: els) (S i) = (e_no e + offset els i)%nat.
Proof. reflexivity. Qed.
Lemma firsts_eq : forall els n, Forall well_formed els -> firsts n els = map (fun i => (n + offset els i)%nat) (seq 0 (length els)).
Proof.
  induction els as [|e els IH]; intros n H; [reflexivity|]. inversion H as [|? ? He Hl]; subst. cbn [firsts length seq map]. rewrite zipped_length by exact He.
  rewrite (IH _ Hl). unfold offset at 2. cbn [firstn map list_sum fold_right]. rewrite Nat.add_0_r. f_equal.
  rewrite <- seq_shift, map_map. apply map_ext. intros i. rewrite offset_S. lia.
Qed.
Lemma blocks_nth : forall els i n q e, Forall well_formed els -> nth_error els q = Some e ->
  nth_error (blocks i n els) q = Some (mk (i + q) 0 (n + offset els q) (zipped e)).
Proof.
  induction els as [|e0 els IH]; intros i n [|q] e H E; cbn in E; try discriminate; inversion H as [|? ? He Hl]; subst; cbn [blocks nth_error].
  - injection E as ->. f_equal; f_equal; [lia|unfold offset; cbn; lia].
  - rewrite (IH _ _ _ _ Hl E). rewrite offset_S, zipped_length by exact He. f_equal; f_equal; lia.
Qed.
Lemma blocks_length : forall els i n, length (blocks i n els) = length els.
Proof. induction els as [|e els IH]; intros; cbn; [|rewrite IH]; reflexivity. Qed.
Lemma concat_nth_blocks : forall els i n q e k, Forall well_formed els -> nth_error els q = Some e -> (k < e_no e)%nat ->
  nth_error (concat (blocks i n els)) (offset els q + k) =
  Some {| o_atom := i + q; o_type := nth k orbital_list Sh_s; o_index := n + offset els q + k; o_energy := nth k (e_onsite e) 0; o_atomindex := k |}.
Proof.
  induction els as [|e0 els IH]; intros i n [|q] e k H E Hk; cbn in E; try discriminate; inversion H as [|? ? He Hl]; subst; cbn [blocks concat].
  - injection E as ->. unfold offset. cbn [firstn map list_sum fold_right Nat.add]. rewrite nth_error_app1 by (rewrite mk_length, zipped_length by exact He; exact Hk).
    rewrite mk_nth, (zipped_nth e k He Hk). rewrite !Nat.add_0_r. reflexivity.
  - rewrite offset_S. rewrite nth_error_app2 by (rewrite mk_length, zipped_length by exact He; lia). rewrite mk_length, zipped_length by exact He.
    replace (e_no e0 + offset els q + k - e_no e0)%nat with (offset els q + k)%nat by lia. rewrite (IH _ _ q e k Hl E Hk). f_equal; f_equal; lia.
Qed.
Lemma concat_index : forall els i n, Forall well_formed els -> concat (map (map o_index) (blocks i n els)) = seq n (list_sum (map e_no els)).
Proof.
  induction els as [|e els IH]; intros i n H; [reflexivity|]. inversion H as [|? ? He Hl]; subst. cbn [blocks map concat]. rewrite mk_index, (IH _ _ Hl), zipped_length by exact He.
  cbn [map list_sum fold_right]. rewrite seq_app. reflexivity.
Qed.
Lemma owners_nth : forall els i m q, Forall well_formed els ->
  nth_error (owners i els) m = Some q <-> exists p e, q = (i + p)%nat /\ nth_error els p = Some e /\ (offset els p <= m < offset els p + e_no e)%nat.
Proof.
  induction els as [|e els IH]; intros i m q H; cbn [owners].
  - split; [destruct m; discriminate|]. intros (p & e & _ & E & _). destruct p; discriminate.
  - inversion H as [|? ? He Hl]; subst. rewrite zipped_length by exact He. destruct (lt_dec m (e_no e)) as [L|L].
    + rewrite nth_error_app1 by (rewrite repeat_length; exact L). rewrite nth_error_repeat by exact L. split.
      * intros [= <-]. exists 0%nat, e. split; [lia|]. split; [reflexivity|]. unfold offset. cbn. lia.
      * intros (p & e' & -> & E & B). destruct p as [|p]; [rewrite Nat.add_0_r; reflexivity|]. rewrite offset_S in B. lia.
    + rewrite nth_error_app2 by (rewrite repeat_length; lia). rewrite repeat_length, (IH (S i) _ q Hl). split.
      * intros (p & e' & -> & E & B). exists (S p), e'. split; [lia|]. split; [exact E|]. rewrite offset_S. lia.
      * intros (p & e' & -> & E & B). destruct p as [|p]; [unfold offset in B; cbn in *; injection E as ->; lia|]. rewrite offset_S in B.
        exists p, e'. split; [lia|]. split; [exact E|lia].
Qed.

(** ** C23 *)
Lemma partition_indices els : Forall well_formed els -> let s := initialize els in
  norb s = list_sum (map e_no els) /\ nr_orbitals s = map e_no els /\ first_orbitals s = map (offset els) (seq 0 (length els)) /\
  length (atom_orb_indices s) = length els /\
  (forall i e, nth_error els i = Some e -> nth_error (atom_orb_indices s) i = Some (seq (offset els i) (e_no e))) /\
  concat (atom_orb_indices s) = seq 0 (norb s).
Proof.
  intros H s. unfold s. rewrite (init_eq els H). unfold atom_orb_indices. cbn [norb nr_orbitals first_orbitals atomorb].
  split; [reflexivity|]. split; [reflexivity|]. split; [apply firsts_eq; exact H|]. split; [rewrite map_length; apply blocks_length|]. split.
  - intros i e E. rewrite nth_error_map, (blocks_nth els 0 0 i e H E). cbn [option_map]. rewrite mk_index, zipped_length; [reflexivity|].
    rewrite Forall_forall in H. apply H. apply nth_error_In in E. exact E.
  - apply concat_index. exact H.
Qed.
Lemma owner_inverse els m i : Forall well_formed els ->
  nth_error (orbital_atoms (initialize els)) m = Some i <-> exists e, nth_error els i = Some e /\ (offset els i <= m < offset els i + e_no e)%nat.
Proof.
  intros H. rewrite (init_eq els H). cbn [orbital_atoms]. rewrite (owners_nth els 0 m i H). split.
  - intros (p & e & -> & E & B). exists e. split; assumption.
  - intros (e & E & B). exists i, e. split; [reflexivity|split; assumption].
Qed.
Lemma orbital_data els i e k : Forall well_formed els -> nth_error els i = Some e -> (k < e_no e)%nat ->
  nth_error (orb (initialize els)) (offset els i + k) =
  Some {| o_atom := i; o_type := nth k orbital_list Sh_s; o_index := offset els i + k; o_energy := nth k (e_onsite e) 0; o_atomindex := k |}.
Proof. intros H E Hk. rewrite (init_eq els H). cbn [orb]. apply (concat_nth_blocks els 0 0 i e k H E Hk). Qed.
Lemma indices2_row els i e k : Forall well_formed els -> nth_error els i = Some e -> (k < 9)%nat ->
  exists row, nth_error (atom_orb_indices2 (initialize els)) i = Some row /\ length row = 9%nat /\
    nth_error row k = Some (if (k <? e_no e)%nat then Z.of_nat (offset els i + k) else (-1)%Z).
Proof.
  intros H E Hk. assert (W : well_formed e) by (rewrite Forall_forall in H; apply H; apply nth_error_In in E; exact E).
  rewrite (init_eq els H). unfold atom_orb_indices2. cbn [atomorb]. rewrite nth_error_map, (blocks_nth els 0 0 i e H E). cbn [option_map Nat.add].
  eexists. split; [reflexivity|]. rewrite app_length, map_length, repeat_length, mk_length, zipped_length by exact W. destruct W as [W1 W2]. split; [lia|].
  destruct (Nat.ltb_spec k (e_no e)) as [L|L].
  - rewrite nth_error_app1 by (rewrite map_length, mk_length, zipped_length by (split; assumption); exact L).
    rewrite nth_error_map, mk_nth, (zipped_nth e k (conj W1 W2) L). reflexivity.
  - rewrite nth_error_app2 by (rewrite map_length, mk_length, zipped_length by (split; assumption); exact L).
    rewrite map_length, mk_length, zipped_length by (split; assumption). apply nth_error_repeat. lia.
Qed.

(** ** C66 *)
Lemma orb_owner els o : Forall well_formed els -> In o (orb (initialize els)) ->
  exists i e k, nth_error els i = Some e /\ (k < e_no e)%nat /\ o_atom o = i /\ o_type o = nth k orbital_list Sh_s /\ o_atomindex o = k.
Proof.
  intros H Ho. rewrite (init_eq els H) in Ho. cbn [orb] in Ho.
  assert (G : forall els i n, Forall well_formed els -> In o (concat (blocks i n els)) -> exists p e k, nth_error els p = Some e /\ (k < e_no e)%nat /\ o_atom o = (i + p)%nat /\ o_type o = nth k orbital_list Sh_s /\ o_atomindex o = k).
  { clear. induction els as [|e els IH]; intros i n H Ho; [destruct Ho|]. inversion H as [|? ? He Hl]; subst. cbn [blocks concat] in Ho. apply in_app_or in Ho as [Ho|Ho].
    - apply In_nth_error in Ho as [k E]. assert (L : (k < e_no e)%nat).
      { rewrite <- (zipped_length e He), <- (mk_length i (zipped e) 0 n). apply nth_error_Some. rewrite E. discriminate. }
      rewrite mk_nth, (zipped_nth e k He L) in E. injection E as <-. exists 0%nat, e, k. cbn. rewrite Nat.add_0_r. auto.
    - destruct (IH (S i) _ Hl Ho) as (p & e' & k & E & L & A & B & C). exists (S p), e', k. rewrite Nat.add_succ_r. auto. }
  destruct (G els 0%nat 0%nat H Ho) as (p & e & k & E & L & A & B & C). exists p, e, k. auto.
Qed.
Lemma has_d els i e : Forall well_formed els -> nth_error els i = Some e ->
  existsb (fun q => is_d q && (o_atom q =? i)%nat) (orb (initialize els)) = (e_no e =? 9)%nat.
Proof.
  intros H E. assert (W : well_formed e) by (rewrite Forall_forall in H; apply H; apply nth_error_In in E; exact E).
  apply eq_true_iff_eq. rewrite existsb_exists, Nat.eqb_eq. split.
  - intros (o & Ho & B). apply andb_prop in B as [B1 B2]. apply Nat.eqb_eq in B2.
    destruct (orb_owner els o H Ho) as (p & e' & k & E' & L & A & T & _). rewrite A in B2. subst p. rewrite E in E'. injection E' as <-.
    unfold is_d in B1. rewrite T in B1. destruct W as [[W|[W|W]] _]; [exfalso|exfalso|exact W]; rewrite W in L.
    + destruct k as [|k]; [discriminate B1|lia].
    + do 4 (destruct k as [|k]; [discriminate B1|]). lia.
  - intros E9. pose proof (orbital_data els i e 4 H E ltac:(lia)) as D. apply nth_error_In in D. eexists. split; [exact D|]. cbn. apply Nat.eqb_refl.
Qed.
Definition clamp (t : R) : R := Rmax 0 (Rmin 2 t).
Definition pop (e : edata) (k : nat) : R :=
  match nth k orbital_list Sh_s with
  | Sh_s => e_socc e
  | t => clamp (e_val e + (2 - e_socc e) - 2 * (if (e_no e =? 9)%nat then match t with Sh_p => INR k + 5 | _ => INR k - 3 end else INR k))
  end.
Lemma free_population_eq els i e k : Forall well_formed els -> nth_error els i = Some e -> (k < e_no e)%nat ->
  free_population els (offset els i + k) = Some (pop e k).
Proof.
  intros H E Hk. unfold free_population. rewrite (orbital_data els i e k H E Hk). cbn [o_atom o_type o_atomindex]. rewrite E, (has_d els i e H E).
  unfold pop, clamp. rewrite INR_IZR_INZ. destruct (nth k orbital_list Sh_s); reflexivity.
Qed.
Lemma population_sum_app els l l' a b : population_sum els l = Some a -> population_sum els l' = Some b -> population_sum els (l ++ l') = Some (a + b).
Proof.
  revert a. induction l as [|m l IH]; intros a A B; cbn in *.
  - injection A as <-. rewrite B. f_equal. ring.
  - destruct (free_population els m) as [u|]; [|discriminate]. destruct (population_sum els l) as [w|]; [|discriminate]. injection A as <-.
    rewrite (IH w eq_refl B). f_equal. ring.
Qed.
Lemma population_atom els i e : Forall well_formed els -> nth_error els i = Some e ->
  population_sum els (seq (offset els i) (e_no e)) = Some (lsumR (map (pop e) (seq 0 (e_no e)))).
Proof.
  intros H E. assert (G : forall n k, (k + n <= e_no e)%nat -> population_sum els (seq (offset els i + k) n) = Some (lsumR (map (pop e) (seq k n)))).
  { induction n as [|n IH]; intros k Hk; [reflexivity|]. cbn [seq map population_sum lsumR]. rewrite (free_population_eq els i e k H E) by lia.
    replace (S (offset els i + k)) with (offset els i + S k)%nat by lia. rewrite (IH (S k)) by lia. reflexivity. }
  specialize (G (e_no e) 0%nat ltac:(lia)). rewrite Nat.add_0_r in G. exact G.
Qed.
Lemma clamp_bounds t : 0 <= clamp t <= 2.
Proof. unfold clamp. split; [apply Rmax_l|]. apply Rmax_lub; [lra|]. apply Rmin_l. Qed.
Lemma clamp_cases u : (u <= 0 -> clamp u = 0) /\ (0 <= u <= 2 -> clamp u = u) /\ (2 <= u -> clamp u = 2).
Proof.
  unfold clamp. repeat split; intros H.
  - apply Rmax_left. apply Rle_trans with u; [apply Rmin_r|exact H].
  - rewrite Rmin_right by lra. apply Rmax_right. lra.
  - rewrite Rmin_left by lra. apply Rmax_right. lra.
Qed.
Lemma pops_sum e : well_formed e -> fillable e -> lsumR (map (pop e) (seq 0 (e_no e))) = e_val e.
Proof.
  intros [[W|[W|W]] _] [F1 F2]; unfold room in F2; rewrite W in F2; rewrite W; cbn [seq map lsumR]; unfold pop; rewrite W; cbn [nth orbital_list Nat.eqb].
  - cbn in F2. lra.
  - cbn [INR Nat.sub] in F2. cbn [INR]. set (t := e_val e - e_socc e) in *. replace (e_val e) with (t + e_socc e) by (unfold t; ring).
    replace (t + e_socc e + (2 - e_socc e) - 2 * 1) with t by ring. replace (t + e_socc e + (2 - e_socc e) - 2 * (1 + 1)) with (t - 2) by ring. replace (t + e_socc e + (2 - e_socc e) - 2 * (1 + 1 + 1)) with (t - 4) by ring.
    assert (C : clamp t + clamp (t - 2) + clamp (t - 4) = t) by (
      clear - F2; assert (D : 0 <= t <= 2 \/ 2 <= t <= 4 \/ 4 <= t <= 6) by lra;
      destruct (clamp_cases t) as (?&?&?), (clamp_cases (t-2)) as (?&?&?), (clamp_cases (t-4)) as (?&?&?); destruct D as [D|[D|D]];
      repeat match goal with Q : ?P -> clamp _ = _ |- _ => first [specialize (Q ltac:(lra)) | clear Q] end; lra). lra.
  - cbn [INR Nat.sub] in F2. cbn [INR]. set (t := e_val e - e_socc e) in *. replace (e_val e) with (t + e_socc e) by (unfold t; ring).
    match goal with |- e_socc e + (clamp ?a1 + (clamp ?a2 + (clamp ?a3 + (clamp ?a4 + (clamp ?a5 + (clamp ?a6 + (clamp ?a7 + (clamp ?a8 + 0)))))))) = _ =>
      replace a1 with (t - 10) by ring; replace a2 with (t - 12) by ring; replace a3 with (t - 14) by ring; replace a4 with t by ring;
      replace a5 with (t - 2) by ring; replace a6 with (t - 4) by ring; replace a7 with (t - 6) by ring; replace a8 with (t - 8) by ring end.
    assert (D : (0 <= t <= 2 \/ 2 <= t <= 4 \/ 4 <= t <= 6 \/ 6 <= t <= 8 \/ 8 <= t <= 10 \/ 10 <= t <= 12 \/ 12 <= t <= 14 \/ 14 <= t <= 16)) by lra.
    destruct (clamp_cases (t)) as (?&?&?), (clamp_cases (t-2)) as (?&?&?), (clamp_cases (t-4)) as (?&?&?), (clamp_cases (t-6)) as (?&?&?), (clamp_cases (t-8)) as (?&?&?), (clamp_cases (t-10)) as (?&?&?), (clamp_cases (t-12)) as (?&?&?), (clamp_cases (t-14)) as (?&?&?).
    destruct D as [D|[D|[D|[D|[D|[D|[D|D]]]]]]];
    repeat match goal with Q : ?P -> clamp _ = _ |- _ => first [specialize (Q ltac:(lra)) | clear Q] end; lra.
Qed.
Lemma populations_atom els i e : Forall well_formed els -> nth_error els i = Some e -> fillable e ->
  population_sum els (seq (offset els i) (e_no e)) = Some (e_val e).
Proof.
  intros H E F. rewrite (population_atom els i e H E). f_equal. apply pops_sum; [|exact F]. rewrite Forall_forall in H. apply H. apply nth_error_In in E. exact E.
Qed.
Lemma populations_total els charge : Forall well_formed els -> Forall fillable els ->
  population_sum els (seq 0 (norb (initialize els))) = Some (electrons els charge + charge).
Proof.
  intros H F. rewrite (init_eq els H). cbn [norb]. unfold electrons.
  assert (G : forall q, (q <= length els)%nat -> population_sum els (seq 0 (offset els q)) = Some (lsumR (map e_val (firstn q els)))).
  { induction q as [|q IH]; intros Hq; [reflexivity|].
    destruct (nth_error els q) as [e|] eqn:E; [|apply nth_error_None in E; lia].
    assert (S1 : firstn (S q) els = firstn q els ++ [e]).
    { clear - E. revert q E. induction els as [|a els IH]; intros [|q] E; cbn in *; try discriminate; [injection E as ->; reflexivity|]. f_equal. apply IH. exact E. }
    unfold offset at 1. rewrite S1, map_app, list_sum_app. cbn [map list_sum fold_right]. rewrite Nat.add_0_r. fold (offset els q). rewrite seq_app. cbn [Nat.add].
    rewrite (population_sum_app _ _ _ _ _ (IH ltac:(lia)) (populations_atom els q e H E ltac:(rewrite Forall_forall in F; apply F; apply nth_error_In in E; exact E))).
    f_equal. rewrite map_app. clear. generalize (map e_val (firstn q els)). induction l as [|a l IH]; cbn; [lra|]. cbn in IH. lra. }
  specialize (G (length els) (le_n _)). unfold offset in G. rewrite firstn_all in G. rewrite G. f_equal. ring.
Qed.
Lemma population_range els m : Forall well_formed els -> Forall fillable els -> (m < norb (initialize els))%nat ->
  exists p, free_population els m = Some p /\ 0 <= p <= 2.
Proof.
  intros H F Hm.
  assert (O : exists i, nth_error (orbital_atoms (initialize els)) m = Some i).
  { destruct (nth_error (orbital_atoms (initialize els)) m) as [i|] eqn:E; [exists i; reflexivity|]. exfalso. apply nth_error_None in E. rewrite (init_eq els H) in *. cbn [norb orbital_atoms] in *.
    assert (L : forall els i, Forall well_formed els -> length (owners i els) = list_sum (map e_no els)).
    { clear. induction els as [|e els IH]; intros i H; [reflexivity|]. inversion H as [|? ? He Hl]; subst. cbn [owners map list_sum fold_right]. rewrite app_length, repeat_length, (IH _ Hl), zipped_length by exact He. reflexivity. }
    rewrite (L els 0%nat H) in E. lia. }
  destruct O as [i O]. apply (owner_inverse els m i H) in O as (e & E & B).
  exists (pop e (m - offset els i)). split; [rewrite <- (free_population_eq els i e (m - offset els i) H E) by lia; f_equal; lia|].
  rewrite Forall_forall in F. destruct (F e (nth_error_In _ _ E)) as [F1 _]. unfold pop. destruct (nth (m - offset els i) orbital_list Sh_s); [exact F1|apply clamp_bounds|apply clamp_bounds].
Qed.

(** ** C67 *)
Lemma in_triples r1 r2 r3 a b c : In (a, b, c) (triples r1 r2 r3) <-> In a r1 /\ In b r2 /\ In c r3.
Proof.
  unfold triples. rewrite in_flat_map. split.
  - intros (x & Hx & H). apply in_flat_map in H as (y & Hy & H). apply in_map_iff in H as (z & E & Hz). injection E as -> -> ->. auto.
  - intros (A & B & C). exists a. split; [exact A|]. apply in_flat_map. exists b. split; [exact B|]. apply in_map_iff. exists c. auto.
Qed.
Lemma nt_eqb_eq a b : nt_eqb a b = true <-> a = b.
Proof.
  destruct a as [[a1 a2] a3], b as [[b1 b2] b3]. cbn. rewrite !andb_true_iff, !Z.eqb_eq. split; [intros [[-> ->] ->]; reflexivity|intros [= -> -> ->]; auto].
Qed.
Lemma d2_norm p q : d2 p q = vnorm (vsub p q) * vnorm (vsub p q).
Proof. unfold d2, vnorm. rewrite sqrt_sqrt; [reflexivity|]. unfold vdot. nra. Qed.
Lemma d2_sym p q : d2 p q = d2 q p.
Proof. unfold d2, vdot, vsub. cbn [vx vy vz]. ring. Qed.
Lemma addn_true N pos hscut nt : addn N pos hscut nt = true <-> exists a b, (a < N)%nat /\ (b < N)%nat /\ d2 (pos n000 b) (pos nt a) <= hscut a b * hscut a b.
Proof.
  unfold addn. rewrite existsb_exists. split.
  - intros (a & Ha & H). apply existsb_exists in H as (b & Hb & H). apply in_seq in Ha. apply in_seq in Hb. apply leb_true in H. exists a, b. split; [lia|]. split; [lia|exact H].
  - intros (a & b & Ha & Hb & H). exists a. split; [apply in_seq; lia|]. apply existsb_exists. exists b. split; [apply in_seq; lia|]. apply leb_true. exact H.
Qed.
Lemma vnorm_nonneg v : 0 <= vnorm v.
Proof. unfold vnorm. apply sqrt_pos. Qed.
Lemma images_complete N pos hscut r1 r2 r3 i j n : (i < N)%nat -> (j < N)%nat -> (forall a b, hscut a b = hscut b a) ->
  In n (triples r1 r2 r3) -> interacting pos hscut i j n -> In n (ntuples N pos hscut r1 r2 r3).
Proof.
  intros Hi Hj Sy Hn H. unfold ntuples. destruct (nt_eqb n n000) eqn:E; [left; symmetry; apply nt_eqb_eq; exact E|]. right.
  apply filter_In. split; [exact Hn|]. rewrite E. cbn [negb andb]. apply addn_true. exists j, i. split; [exact Hj|]. split; [exact Hi|].
  rewrite d2_sym, d2_norm, (Sy j i). unfold interacting in H. pose proof (vnorm_nonneg (vsub (pos n j) (pos n000 i))). nra.
Qed.
Lemma images_sound N pos hscut r1 r2 r3 n : (forall a b, 0 <= hscut a b) -> (forall a b, hscut a b = hscut b a) -> n <> n000 ->
  In n (ntuples N pos hscut r1 r2 r3) -> In n (triples r1 r2 r3) /\ exists i j, (i < N)%nat /\ (j < N)%nat /\ interacting pos hscut i j n.
Proof.
  intros Hp Sy Nz [E|H]; [congruence|]. apply filter_In in H as [H1 H2]. apply andb_prop in H2 as [_ H2]. split; [exact H1|].
  apply addn_true in H2 as (a & b & Ha & Hb & H). exists b, a. split; [exact Hb|]. split; [exact Ha|]. unfold interacting. rewrite d2_sym, d2_norm, (Sy a b) in H.
  pose proof (Hp b a). pose proof (vnorm_nonneg (vsub (pos n a) (pos n000 b))). apply Rsqr_incr_0; unfold Rsqr; assumption.
Qed.
Lemma images_once N pos hscut r1 r2 r3 : NoDup r1 -> NoDup r2 -> NoDup r3 -> NoDup (ntuples N pos hscut r1 r2 r3).
Proof.
  intros N1 N2 N3. unfold ntuples. constructor.
  - intros H. apply filter_In in H as [_ H]. apply andb_prop in H as [H _]. assert (nt_eqb n000 n000 = true) as E by (apply nt_eqb_eq; reflexivity). rewrite E in H. discriminate.
  - apply NoDup_filter. unfold triples.
    assert (F : forall {A B} (f : A -> list B) (l : list A), NoDup l -> (forall a, In a l -> NoDup (f a)) -> (forall a b x, In a l -> In b l -> In x (f a) -> In x (f b) -> a = b) -> NoDup (flat_map f l)).
    { clear. intros A B f l Nl. induction Nl as [|a l Na Nl IH]; intros H1 H2; cbn; [constructor|].
      assert (D : forall l1 l2 : list B, NoDup l1 -> NoDup l2 -> (forall x, In x l1 -> ~ In x l2) -> NoDup (l1 ++ l2)).
      { clear. induction l1 as [|x l1 IH]; intros l2 H1 H2 H; [exact H2|]. cbn. inversion H1; subst. constructor.
        - rewrite in_app_iff. intros [G|G]; [contradiction|]. apply (H x); [left; reflexivity|exact G].
        - apply IH; [assumption|exact H2|]. intros y Hy. apply H. right. exact Hy. }
      apply D; [apply H1; left; reflexivity|apply IH; [intros; apply H1; right; assumption|intros; eapply H2; eauto; right; assumption]|].
      intros x Hx Hx'. apply in_flat_map in Hx' as (b & Hb & Hx'). rewrite (H2 a b x) in Na; [contradiction|left; reflexivity|right; exact Hb|exact Hx|exact Hx']. }
    apply F; [exact N1| |].
    + intros a _. apply F; [exact N2| |].
      * intros b _. apply Injective_map_NoDup; [|exact N3]. intros x y [= ->]. reflexivity.
      * intros b b' x _ _ H H'. apply in_map_iff in H as (z & <- & _). apply in_map_iff in H' as (z' & E & _). congruence.
    + intros a a' x _ _ H H'. apply in_flat_map in H as (b & _ & H). apply in_flat_map in H' as (b' & _ & H'). apply in_map_iff in H as (z & <- & _). apply in_map_iff in H' as (z' & E & _). congruence.
Qed.
(** two files with different ranges for A-B and B-A: an interacting image is left out *)
Lemma images_asymmetric_refuted : exists N pos hscut r1 r2 r3 i j n, (i < N)%nat /\ (j < N)%nat /\ (forall a b, 0 <= hscut a b) /\
  In n (triples r1 r2 r3) /\ interacting pos hscut i j n /\ ~ In n (ntuples N pos hscut r1 r2 r3).
Proof.
  (* atom 0 at 0, atom 1 at 10, images at 100 and 12: only atom 1's image at distance 2... *)
  exists 2%nat, (fun nt a => if nt_eqb nt n000 then match a with O => V3 0 0 0 | _ => V3 100 0 0 end else match a with O => V3 50 0 0 | _ => V3 2 0 0 end),
    (fun a b => match a, b with O, S _ => 3 | _, _ => 1 end), [1%Z], [0%Z], [0%Z], 0%nat, 1%nat, (1, 0, 0)%Z.
  split; [lia|]. split; [lia|]. split; [intros [|a] [|b]; lra|]. split; [left; reflexivity|]. split.
  - unfold interacting. cbn [nt_eqb n000 Z.eqb andb Pos.eqb]. unfold vnorm, vdot, vsub. cbn [vx vy vz]. replace ((2 - 0) * (2 - 0) + (0 - 0) * (0 - 0) + (0 - 0) * (0 - 0)) with (2 * 2) by ring. rewrite sqrt_square by lra. lra.
  - intros [E|H]; [discriminate|]. apply filter_In in H as [_ H]. apply andb_prop in H as [_ H]. apply addn_true in H as (a & b & Ha & Hb & H).
    unfold d2, vdot, vsub in H. cbn [nt_eqb n000 Z.eqb andb Pos.eqb] in H.
    destruct a as [|[|a]]; [| |lia]; (destruct b as [|[|b]]; [| |lia]); cbn [vx vy vz] in H; lra.
Qed.
Lemma zr_in a b k : In k (map (fun k => (a + Z.of_nat k)%Z) (seq 0 (Z.to_nat (b - a + 1)))) <-> (a <= k <= b)%Z.
Proof.
  rewrite in_map_iff. split.
  - intros (m & <- & H). apply in_seq in H. lia.
  - intros H. exists (Z.to_nat (k - a)). split; [lia|]. apply in_seq. lia.
Qed.
Lemma range_scanned pbc lo hi M r : (0 <= M)%Z -> set_range pbc lo hi M = Some r ->
  forall k, In k r <-> (match lo with Some a => (a <= k)%Z | None => True end /\ match hi with Some b => (k <= b)%Z | None => True end /\
    match lo with Some a => (a < - M)%Z -> (- M <= k <= M)%Z | None => (- M <= k <= M)%Z end).
Proof.
  intros HM H k. unfold set_range in H. destruct lo as [a|], hi as [b|].
  - destruct (Z.leb_spec a b) as [L|L]; [|discriminate]. cbn [negb] in H. destruct (negb pbc && negb ((a =? b)%Z && (b =? 0)%Z)); [discriminate|].
    destruct (Z.ltb_spec a (- M)) as [L2|L2].
    + destruct (Z.leb_spec M b) as [L3|L3]; [|discriminate]. injection H as <-. rewrite zr_in. split; [intros; repeat split; lia|]. intros (A & B & C). apply C. lia.
    + injection H as <-. rewrite zr_in. split; [intros; repeat split; lia|]. intros (A & B & C). lia.
  - destruct (pbc && (a <? - M)%Z) eqn:E; [|discriminate]. injection H as <-. apply andb_prop in E as [_ E]. apply Z.ltb_lt in E. rewrite zr_in. split; [intros; repeat split; lia|]. intros (A & B & C). apply C. exact E.
  - discriminate.
  - destruct pbc; [|discriminate]. injection H as <-. rewrite zr_in. split; [intros; repeat split; lia|]. intros (A & B & C). exact C.
Qed.
(** an infinite chain whose cell is short compared with the interaction range: images beyond symop_range are left out *)
Lemma images_truncated_refuted : forall M, (0 <= M)%Z -> exists pos hscut r j n, set_range true None None M = Some r /\
  (forall nt, pos nt j = V3 (IZR (fst (fst nt))) 0 0) /\ interacting pos hscut 0 j n /\ ~ In n (ntuples 1 pos hscut r [0%Z] [0%Z]).
Proof.
  intros M HM. exists (fun nt _ => V3 (IZR (fst (fst nt))) 0 0), (fun _ _ => IZR (M + 1)). eexists. exists 0%nat, (M + 1, 0, 0)%Z.
  split; [reflexivity|]. split; [reflexivity|]. split.
  - unfold interacting, vnorm, vdot, vsub. cbn [vx vy vz fst n000]. replace ((IZR (M + 1) - 0) * (IZR (M + 1) - 0) + (0 - 0) * (0 - 0) + (0 - 0) * (0 - 0)) with (IZR (M + 1) * IZR (M + 1)) by ring.
    rewrite sqrt_square; [lra|]. apply IZR_le. lia.
  - intros [E|H]; [injection E; lia|]. apply filter_In in H as [H _]. apply in_triples in H as (H & _). apply zr_in in H. lia.
Qed.

(** ** Examples: water and a transition metal *)
Definition hydrogen : edata := {| e_no := 1; e_onsite := [-(1/4)]; e_val := 1; e_socc := 1 |}.
Definition oxygen : edata := {| e_no := 4; e_onsite := [-1; -(1/3); -(1/3); -(1/3)]; e_val := 6; e_socc := 2 |}.
Definition gold : edata := {| e_no := 9; e_onsite := repeat 0 9; e_val := 11; e_socc := 1 |}.
Example well_formed_example : Forall well_formed [hydrogen; oxygen; gold].
Proof. repeat (apply Forall_cons || apply Forall_nil); (split; [cbn; lia|reflexivity]). Qed.
Example fillable_example : Forall fillable [hydrogen; oxygen; gold].
Proof. repeat (apply Forall_cons || apply Forall_nil); unfold fillable, room; cbn; lra. Qed.
Example offset_example : offset [hydrogen; oxygen; gold] 2 = 5%nat.
Proof. reflexivity. Qed.
Example interacting_example : interacting (fun nt _ => V3 (IZR (fst (fst nt))) 0 0) (fun _ _ => 3) 0 0 (1, 0, 0)%Z /\ In (1, 0, 0)%Z (triples [0; 1]%Z [0]%Z [0]%Z).
Proof.
  split; [|right; left; reflexivity]. unfold interacting, vnorm, vdot, vsub. cbn [vx vy vz fst n000].
  replace ((1 - 0) * (1 - 0) + (0 - 0) * (0 - 0) + (0 - 0) * (0 - 0)) with (1 * 1) by ring. rewrite sqrt_square by lra. lra.
Qed.
