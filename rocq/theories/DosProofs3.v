From Coq Require Import Reals List Bool Arith Lra Lia Psatz.
From Verif Require Import Vec GeomModel GeomProofs SkModel SkSpec Cpx RhoModel RhoSpec RhoProofs RhoProofs5 DosModel DosSpec DosProofs2.
Import ListNotations.
Open Scope R_scope.

(** ** sums over lists *)
Lemma total_seq n h : total (map h (seq 0 n)) = rsum n h.
Proof. induction n as [|n IH]; [reflexivity|]. rewrite seq_S, map_app, total_app, IH. cbn [map total rsum Nat.add]. ring. Qed.
Lemma total_blocks {A B} (h : B -> R) (g : A -> list B) l : total (map h (flat_map g l)) = total (map (fun k => total (map h (g k))) l).
Proof. induction l as [|a l IH]; [reflexivity|]. cbn [flat_map map total]. rewrite map_app, total_app, IH. reflexivity. Qed.
Lemma total_states {B} (h : B -> R) (q : nat -> nat -> B) n m : total (map h (flat_map (fun k => map (fun a => q k a) (seq 0 m)) (seq 0 n))) = rsum n (fun k => rsum m (fun a => h (q k a))).
Proof.
  rewrite total_blocks, total_seq. apply rsum_ext. intros k _. rewrite map_map. apply total_seq.
Qed.
Lemma total_filter {B} (h : B -> R) p l : total (map h (filter p l)) = total (map (fun t => if p t then h t else 0) l).
Proof. induction l as [|a l IH]; [reflexivity|]. cbn [filter map total]. destruct (p a); cbn [map total]; rewrite IH; ring. Qed.
Lemma total_ext {B} (h g : B -> R) l : (forall x, In x l -> h x = g x) -> total (map h l) = total (map g l).
Proof. intros H. rewrite (map_ext_in _ _ _ H). reflexivity. Qed.
Lemma total_rsum {B} n (h : nat -> B -> R) l : rsum n (fun I => total (map (h I) l)) = total (map (fun t => rsum n (fun I => h I t)) l).
Proof. induction l as [|a l IH]; cbn [map total]; [apply rsum_zero|]. rewrite <- IH, <- rsum_plus. reflexivity. Qed.
Lemma total_scal {B} c (h : B -> R) l : total (map (fun t => c * h t) l) = c * total (map h l).
Proof. induction l as [|a l IH]; cbn [map total]; [ring|]. rewrite IH. ring. Qed.
Lemma combine_map {A B C} (f : A -> B) (g : A -> C) l : combine (map f l) (map g l) = map (fun t => (f t, g t)) l.
Proof. induction l as [|a l IH]; [reflexivity|]. cbn. rewrite IH. reflexivity. Qed.
Lemma superposition_map {A} s w (X Y : A -> R) l g : superposition s w (map X l) (map Y l) g = total (map (fun t => Y t * peak s w (X t) g) l).
Proof. unfold superposition. rewrite combine_map, map_map. reflexivity. Qed.
Lemma broaden_given x y w N mn mx : broaden x (Some y) w Gaussian false N (Some mn) (Some mx) None = DOk (linspace mn mx N, map (superposition Gaussian w x y) (linspace mn mx N)).
Proof. unfold broaden. cbn [limit]. f_equal. f_equal. apply map_ext. intros t. apply curve_total. Qed.
Lemma nth_map_lin (h : R -> R) mn mx N i : (i < N)%nat -> nth i (map h (linspace mn mx N)) 0 = h (nth i (linspace mn mx N) 0).
Proof. intros hi. rewrite (nth_indep _ 0 (h 0)) by (rewrite map_length, linspace_length; exact hi). apply map_nth. Qed.

Section Dos.
Variables (norb N nk : nat) (o1 no : nat -> nat) (wk : nat -> R) (e f : nat -> nat -> R) (wf : nat -> nat -> nat -> cplx) (Sm : kmatrix).
Hypothesis hnk : (0 < nk)%nat.
Hypothesis hnorb : (0 < norb)%nat.
Lemma eflat_in x : In x (eflat norb nk e) <-> exists k a, (k < nk)%nat /\ (a < norb)%nat /\ x = e k a.
Proof.
  clear - hnk hnorb.
  unfold eflat. rewrite in_flat_map. split.
  - intros [k [hk h]]. apply in_map_iff in h. destruct h as [a [<- ha]]. apply in_seq in hk, ha. exists k, a. repeat split; lia.
  - intros (k & a & hk & ha & ->). exists k. split; [apply in_seq; lia|]. apply in_map_iff. exists a. split; [reflexivity|apply in_seq; lia].
Qed.
Lemma erange_some window : exists w, erange norb nk e window = Some w /\
  match window with Some v => w = v | None => forall k a, (k < nk)%nat -> (a < norb)%nat -> fst w <= e k a <= snd w end.
Proof.
  clear - hnk hnorb.
  unfold erange. destruct (list_min (eflat norb nk e)) as [mn|] eqn:E1.
  - destruct (list_max (eflat norb nk e)) as [mx|] eqn:E2.
    + eexists. split; [reflexivity|]. destruct window; [reflexivity|]. apply list_min_spec in E1. apply list_max_spec in E2.
      intros k a hk ha. assert (hi : In (e k a) (eflat norb nk e)) by (apply eflat_in; exists k, a; auto). cbn [fst snd]. split; [apply E1, hi|apply E2, hi].
    + exfalso. destruct (eflat norb nk e) as [|x l] eqn:E; [|discriminate]. assert (hi : In (e 0%nat 0%nat) (eflat norb nk e)) by (apply eflat_in; exists 0%nat, 0%nat; auto). rewrite E in hi. destruct hi.
  - exfalso. destruct (eflat norb nk e) as [|x l] eqn:E; [|discriminate]. assert (hi : In (e 0%nat 0%nat) (eflat norb nk e)) by (apply eflat_in; exists 0%nat, 0%nat; auto). rewrite E in hi. destruct hi.
Qed.
Notation gdos := (get_dos norb N nk o1 no wk e f wf Sm).
(** occupations together with broadening or projection are refused *)
Lemma dos_refused b p o w win n : (b && o) || (p && o) = true -> gdos b p o w win n = DFail DAssertion.
Proof. intros h. unfold get_dos. rewrite h. reflexivity. Qed.
(** ** without broadening *)
Lemma by_band_nth v k a : (k < nk)%nat -> (a < norb)%nat -> nth_error (by_band norb nk v) (a * nk + k) = Some (v k a).
Proof.
  clear - hnk hnorb.
  intros hk ha. unfold by_band.
  assert (K : forall n s, (a < n)%nat -> nth_error (flat_map (fun a => map (fun k => v k a) (seq 0 nk)) (seq s n)) (a * nk + k) = Some (v k (s + a)%nat)).
  { clear ha. induction a as [|a' IH]; intros [|n] s ha; try lia; cbn [seq flat_map].
    - rewrite nth_error_app1 by (rewrite map_length, seq_length; lia). rewrite Nat.add_0_r. cbn [Nat.mul Nat.add].
      rewrite nth_error_map. rewrite (nth_error_nth' _ 0%nat) by (rewrite seq_length; lia). rewrite seq_nth by lia. reflexivity.
    - rewrite nth_error_app2 by (rewrite map_length, seq_length; lia). rewrite map_length, seq_length.
      replace (S a' * nk + k - nk)%nat with (a' * nk + k)%nat by lia. rewrite IH by lia. f_equal. f_equal. lia. }
  apply (K norb 0%nat ha).
Qed.
Lemma by_band_length v : length (by_band norb nk v) = (norb * nk)%nat.
Proof.
  clear - hnk hnorb.
  unfold by_band. rewrite <- (seq_length norb 0) at 2. clear hnorb. generalize (seq 0 norb) as l. induction l as [|a l IH]; [reflexivity|]. cbn [flat_map length]. rewrite app_length, map_length, seq_length, IH. lia.
Qed.
Lemma dos_plain o w win n : exists d, gdos false false o w win n = DOk (if o then Triple (by_band norb nk e) d (by_band norb nk f) else Pair (by_band norb nk e) d) /\
  d = by_band norb nk (fun k _ => wk k).
Proof.
  unfold get_dos. cbn [andb orb]. destruct (erange_some win) as [v [-> _]]. exists (by_band norb nk (fun k _ => wk k)). split; [|reflexivity]. destruct o; reflexivity.
Qed.
Lemma weights_total : rsum nk wk = 1 -> total (by_band norb nk (fun k _ => wk k)) = INR norb.
Proof.
  intros h. rewrite <- (map_id (by_band norb nk (fun k _ => wk k))). unfold by_band. rewrite (total_states (fun x => x) (fun a k => wk k)).
  rewrite (rsum_ext norb _ (fun _ => 1)) by (intros; exact h). rewrite rsum_const. ring.
Qed.
(** ** with broadening *)
Lemma dos_broad w win n : exists g d, gdos true false false w win n = DOk (Pair g d) /\ length g = n /\ d = map (dos_at norb nk wk e w) g.
Proof.
  unfold get_dos. cbn [andb orb]. destruct (erange_some win) as [v [-> _]]. rewrite broaden_given.
  eexists _, _. split; [reflexivity|]. split; [apply linspace_length|]. apply map_ext. intros t. unfold by_band.
  assert (E : forall v : nat -> nat -> R, flat_map (fun a => map (fun k => v k a) (seq 0 nk)) (seq 0 norb) = map (fun x => v (snd x) (fst x)) (flat_map (fun a => map (fun k => (a, k)) (seq 0 nk)) (seq 0 norb))).
  { intros u. clear. generalize (seq 0 norb) as l. induction l as [|a l IH]; [reflexivity|]. cbn [flat_map]. rewrite map_app, IH, map_map. reflexivity. }
  rewrite (E e), (E (fun k _ => wk k)), superposition_map, (total_states (fun x => wk (snd x) * peak Gaussian w (e (snd x) (fst x)) t) (fun a k => (a, k))).
  rewrite rsum_swap. unfold dos_at. apply rsum_ext. intros k _. rewrite <- rsum_scal. reflexivity.
Qed.
Lemma dos_area w : 0 < w -> rsum nk wk = 1 -> integrates_to (dos_at norb nk wk e w) (INR norb).
Proof.
  intros hw h1.
  assert (P : forall n (g : nat -> R -> R) (s : nat -> R), (forall i, integrates_to (g i) (s i)) -> integrates_to (fun x => rsum n (fun i => g i x)) (rsum n s)).
  { intros n g s h. induction n as [|n IH]; cbn [rsum]; [apply integral_zero|]. apply integral_plus; [exact IH|apply h]. }
  replace (INR norb) with (rsum nk (fun k => wk k * rsum norb (fun _ => 1))).
  - unfold dos_at. apply P. intros k. apply integral_scal. apply P. intros a. apply peak_integral; [left; reflexivity|exact hw].
  - rewrite rsum_scal_r, h1, rsum_const. ring.
Qed.
(** ** local density of states *)
Lemma inside_sum w (h : nat * nat -> R) : total (map h (inside norb nk e w)) = rsum nk (fun k => rsum norb (fun a => if in_window w (e k a) then h (k, a) else 0)).
Proof.
  clear f.
  unfold inside. rewrite total_filter, (total_states _ (fun k a => (k, a))). apply rsum_ext. intros k _. apply rsum_ext. intros a _. cbn [fst snd].
  unfold in_window. destruct (leb (fst w) (e k a)) eqn:E1.
  - apply leb_true in E1. destruct (Rle_dec (fst w) (e k a)) as [_|hc]; [|contradiction]. cbn [andb]. destruct (leb (e k a) (snd w)) eqn:E2.
    + apply leb_true in E2. destruct (Rle_dec (e k a) (snd w)) as [_|hc]; [reflexivity|contradiction].
    + apply leb_false in E2. destruct (Rle_dec (e k a) (snd w)) as [hc|_]; [lra|reflexivity].
  - apply leb_false in E1. destruct (Rle_dec (fst w) (e k a)) as [hc|_]; [lra|reflexivity].
Qed.
Lemma inside_in w k a : In (k, a) (inside norb nk e w) <-> (k < nk)%nat /\ (a < norb)%nat /\ fst w <= e k a <= snd w.
Proof.
  clear f.
  unfold inside. rewrite filter_In, in_flat_map. cbn [fst snd]. rewrite andb_true_iff, !leb_true. split.
  - intros [[k' [hk h]] hw]. apply in_map_iff in h. destruct h as [a' [h ha]]. inversion h; subst. apply in_seq in hk, ha. repeat split; try lia; apply hw.
  - intros (hk & ha & hw). split; [|exact hw]. exists k. split; [apply in_seq; lia|]. apply in_map_iff. exists a. split; [reflexivity|apply in_seq; lia].
Qed.
(** population of an atom by the states in the window *)
Definition ldos_at (w : R * R) (width : R) (I : nat) (g : R) : R :=
  total (map (fun x => atom_wf_mulliken norb o1 no wk wf Sm I (fst x) (snd x) true * peak Gaussian width (e (fst x) (snd x)) g) (inside norb nk e w)).
Lemma ldos_row_value width w npts I : ldos_row norb nk o1 no wk e wf Sm width w npts I = DOk (linspace (fst w) (snd w) npts, map (ldos_at w width I) (linspace (fst w) (snd w) npts)).
Proof.
  clear f. unfold ldos_row. rewrite broaden_given. f_equal. f_equal. apply map_ext. intros t. apply superposition_map. Qed.
Lemma first_error_ok {A} (l : list (dres A)) : (forall x, In x l -> exists v, x = DOk v) -> first_error l = None.
Proof. induction l as [|a l IH]; intros h; [reflexivity|]. destruct (h a (or_introl eq_refl)) as [v ->]. cbn. apply IH. intros x hx. apply h. right. exact hx. Qed.
Lemma ldos_sum w width g : layout norb N o1 no -> normalised norb nk Sm wf -> rsum N (fun I => ldos_at w width I g) = dos_within norb nk wk e w width g.
Proof.
  clear f.
  intros hl hn. unfold ldos_at. rewrite total_rsum.
  transitivity (total (map (fun x => wk (fst x) * peak Gaussian width (e (fst x) (snd x)) g) (inside norb nk e w))).
  - apply total_ext. intros [k a] hx. apply inside_in in hx. rewrite rsum_scal_r. cbn [fst snd].
    rewrite (wf_atoms_total norb N nk o1 no wk Sm wf k a true hl hn) by tauto. reflexivity.
  - rewrite inside_sum. unfold dos_within. apply rsum_ext. intros k _. rewrite <- rsum_scal. apply rsum_ext. intros a _. cbn [fst snd]. destruct (in_window w (e k a)); ring.
Qed.
Lemma local_dos_value width win npts : (0 < N)%nat -> layout norb N o1 no -> normalised norb nk Sm wf ->
  exists g d w, local_dos norb N nk o1 no wk e wf Sm width win npts = DOk (g, d) /\ erange norb nk e win = Some w /\ length g = npts /\
  forall i, (i < npts)%nat -> rsum N (fun I => nth i (d I) 0) = dos_within norb nk wk e w width (nth i g 0).
Proof.
  clear f.
  intros hN hl hn. destruct (erange_some win) as [w [Ew _]]. unfold local_dos. rewrite Ew. replace (N =? 0)%nat with false by (symmetry; apply Nat.eqb_neq; lia).
  rewrite first_error_ok by (intros x hx; apply in_map_iff in hx; destruct hx as [I [<- _]]; rewrite ldos_row_value; eexists; reflexivity).
  eexists _, _, w. split; [reflexivity|]. split; [reflexivity|]. split; [apply linspace_length|]. intros i hi. rewrite <- (ldos_sum w width _ hl hn). apply rsum_ext. intros I _.
  rewrite ldos_row_value. cbn [values]. apply nth_map_lin. exact hi.
Qed.
(** angular momenta *)
Definition pldos_at (w : R * R) (width : R) (I m : nat) (g : R) : R :=
  total (map (fun x => match atom_wf_all_angmom norb o1 no wk wf Sm I (fst x) (snd x) m true with Some q => q | None => 0 end * peak Gaussian width (e (fst x) (snd x)) g) (inside norb nk e w)).
Lemma all_some_map {A} (h : A -> option R) l : (forall x, h x <> None) -> all_some (map h l) = Some (map (fun x => match h x with Some q => q | None => 0 end) l).
Proof. intros H. induction l as [|a l IH]; [reflexivity|]. cbn [map all_some]. destruct (h a) eqn:E; [|elim (H a E)]. rewrite IH. reflexivity. Qed.
Lemma pldos_row_value width w npts I m : (0 < no I)%nat -> inside norb nk e w <> [] ->
  pldos_row norb nk o1 no wk e wf Sm width w npts I m = DOk (linspace (fst w) (snd w) npts, map (pldos_at w width I m) (linspace (fst w) (snd w) npts)).
Proof.
  clear f.
  intros hI hin. unfold pldos_row.
  pose proof (all_some_map (fun x => atom_wf_all_angmom norb o1 no wk wf Sm I (fst x) (snd x) m true) (inside norb nk e w)) as E0.
  unfold pldos_at. destruct (inside norb nk e w) as [|x l] eqn:E; [contradiction|]. cbv zeta. rewrite E0.
  - rewrite broaden_given. f_equal. f_equal. apply map_ext. intros t. rewrite superposition_map. reflexivity.
  - intros y. unfold atom_wf_all_angmom, angmom. replace (no I =? 0)%nat with false by (symmetry; apply Nat.eqb_neq; lia). discriminate.
Qed.
Lemma pldos_sum w width I g : (0 < no I)%nat -> rsum 3 (fun m => pldos_at w width I m g) = ldos_at w width I g.
Proof.
  clear f.
  intros hI. unfold pldos_at, ldos_at. rewrite total_rsum. apply total_ext. intros [k a] _. cbn [fst snd]. rewrite rsum_scal_r. f_equal.
  destruct (atom_wf_angmom norb o1 no wk wf Sm I k a true hI) as (s & p & d & Es & Ep & Ed & E). cbn [rsum]. rewrite Es, Ep, Ed. lra.
Qed.
Lemma local_pdos_value width win npts : (0 < N)%nat -> (forall I, (I < N)%nat -> (0 < no I)%nat) ->
  forall w, erange norb nk e win = Some w -> (exists k a, (k < nk)%nat /\ (a < norb)%nat /\ fst w <= e k a <= snd w) ->
  exists g d p, local_pdos norb N nk o1 no wk e wf Sm width win npts = DOk (g, d, p) /\ length g = npts /\
  (forall I i, (I < N)%nat -> (i < npts)%nat -> nth i (d I) 0 = nth i (p I 0%nat) 0 + nth i (p I 1%nat) 0 + nth i (p I 2%nat) 0) /\
  (exists g0 d0, local_dos norb N nk o1 no wk e wf Sm width win npts = DOk (g0, d0) /\ g = g0 /\ forall I, (I < N)%nat -> d I = d0 I).
Proof.
  clear f.
  intros hN hno w Ew (k & a & hk & ha & hw). assert (hin : inside norb nk e w <> []) by (intros E; assert (h : In (k, a) (inside norb nk e w)) by (apply inside_in; auto); rewrite E in h; destruct h).
  unfold local_pdos, local_dos. rewrite Ew. replace (N =? 0)%nat with false by (symmetry; apply Nat.eqb_neq; lia).
  rewrite (first_error_ok (map _ _)) by (intros x hx; apply in_map_iff in hx; destruct hx as [I [<- _]]; rewrite ldos_row_value; eexists; reflexivity).
  rewrite first_error_ok.
  2: { intros x hx. apply in_flat_map in hx. destruct hx as [I [hI hx]]. apply in_seq in hI. specialize (hno I ltac:(lia)).
       destruct hx as [<- |[<- |[<- |[<- |[]]]]]; [rewrite ldos_row_value|rewrite pldos_row_value by assumption..]; eexists; reflexivity. }
  assert (V : forall I i, (I < N)%nat -> (i < npts)%nat -> nth i (values (ldos_row norb nk o1 no wk e wf Sm width w npts I)) 0 = rsum 3 (fun m => nth i (values (pldos_row norb nk o1 no wk e wf Sm width w npts I m)) 0)).
  { intros I i hI hi. specialize (hno I hI). rewrite ldos_row_value. cbn [values]. rewrite nth_map_lin by exact hi. rewrite <- pldos_sum by exact hno. apply rsum_ext. intros m _.
    rewrite pldos_row_value by assumption. cbn [values]. rewrite nth_map_lin by exact hi. reflexivity. }
  match goal with |- context [if ?b then _ else _] => assert (Eb : b = true) end.
  { apply forallb_forall. intros I hI. apply in_seq in hI. apply forallb_forall. intros i hi. apply in_seq in hi. apply ltb_true. rewrite V by lia. rewrite Rminus_diag_eq by reflexivity. rewrite Rabs_R0. apply Rinv_0_lt_compat. lra. }
  rewrite Eb. eexists _, _, _. split; [reflexivity|]. split; [apply linspace_length|]. split.
  - intros I i hI hi. rewrite V by assumption. cbn [rsum]. ring.
  - eexists _, _. split; [reflexivity|]. split; [reflexivity|]. intros. reflexivity.
Qed.
(** an empty window *)
Lemma pdos_empty width v npts : (0 < N)%nat -> (forall k a, (k < nk)%nat -> (a < norb)%nat -> ~ (fst v <= e k a <= snd v)) ->
  local_pdos norb N nk o1 no wk e wf Sm width (Some v) npts = DFail DIndexError.
Proof.
  clear f.
  intros hN h. assert (hin : inside norb nk e v = []).
  { destruct (inside norb nk e v) as [|[k a] l] eqn:E; [reflexivity|]. exfalso. assert (hi : In (k, a) (inside norb nk e v)) by (rewrite E; left; reflexivity). apply inside_in in hi. apply (h k a); tauto. }
  unfold local_pdos. destruct (erange_some (Some v)) as [w [Ew hw]]. rewrite Ew. subst w. replace (N =? 0)%nat with false by (symmetry; apply Nat.eqb_neq; lia).
  destruct N as [|n]; [lia|]. cbn [seq flat_map app first_error]. rewrite ldos_row_value. unfold pldos_row at 1. rewrite hin. reflexivity.
Qed.
(** projected density of states *)
Lemma axis_nth npts v i : (i < npts)%nat -> nth i (axis_sum N npts v) 0 = rsum N (fun I => nth i (v I) 0).
Proof.
  intros hi. unfold axis_sum. rewrite (nth_indep _ 0 ((fun i => rsum N (fun I => nth i (v I) 0)) 0%nat)) by (rewrite map_length, seq_length; exact hi).
  rewrite (map_nth (fun i => rsum N (fun I => nth i (v I) 0))), seq_nth by exact hi. reflexivity.
Qed.
Lemma dos_projected b width win npts : (0 < N)%nat -> (forall I, (I < N)%nat -> (0 < no I)%nat) -> layout norb N o1 no -> normalised norb nk Sm wf ->
  forall w, erange norb nk e win = Some w -> (exists k a, (k < nk)%nat /\ (a < norb)%nat /\ fst w <= e k a <= snd w) ->
  exists g d p, gdos b true false width win npts = DOk (Projected g d p) /\ length g = npts /\ length d = npts /\
  forall i, (i < npts)%nat -> nth i d 0 = dos_within norb nk wk e w width (nth i g 0) /\ nth i d 0 = nth i (p 0%nat) 0 + nth i (p 1%nat) 0 + nth i (p 2%nat) 0.
Proof.
  intros hN hno hl hn w Ew hex. destruct (local_pdos_value width win npts hN hno w Ew hex) as (g & d & p & E & hg & hsum & (g0 & d0 & E0 & -> & hd)).
  destruct (local_dos_value width win npts hN hl hn) as (g1 & d1 & w1 & E1 & Ew1 & hg1 & hv). rewrite Ew in Ew1. injection Ew1 as <-. rewrite E0 in E1. injection E1 as <- <-.
  unfold get_dos. rewrite andb_false_r. cbn [andb orb]. rewrite E. eexists _, _, _. split; [reflexivity|]. split; [exact hg|]. split; [unfold axis_sum; rewrite map_length, seq_length; reflexivity|].
  intros i hi. rewrite !axis_nth by exact hi. split.
  - rewrite <- hv by exact hi. apply rsum_ext. intros I hI. rewrite hd by exact hI. reflexivity.
  - rewrite <- !rsum_plus. apply rsum_ext. intros I hI. apply hsum; assumption.
Qed.
Lemma within_all w width g : (forall k a, (k < nk)%nat -> (a < norb)%nat -> fst w <= e k a <= snd w) -> dos_within norb nk wk e w width g = dos_at norb nk wk e width g.
Proof.
  intros h. unfold dos_within, dos_at. apply rsum_ext. intros k hk. f_equal. apply rsum_ext. intros a ha. specialize (h k a hk ha). unfold in_window.
  destruct (Rle_dec (fst w) (e k a)); [|lra]. destruct (Rle_dec (e k a) (snd w)); [reflexivity|lra].
Qed.
(** without a window the projected and the plain densities agree *)
Lemma dos_agree width npts : (0 < N)%nat -> (forall I, (I < N)%nat -> (0 < no I)%nat) -> layout norb N o1 no -> normalised norb nk Sm wf ->
  exists g d g' d' p, gdos true false false width None npts = DOk (Pair g d) /\ gdos true true false width None npts = DOk (Projected g' d' p) /\ g = g' /\ d = d'.
Proof.
  intros hN hno hl hn. destruct (erange_some None) as [w [Ew hw]].
  destruct (dos_projected true width None npts hN hno hl hn w Ew) as (g' & d' & p & E' & hg' & hd' & hv); [exists 0%nat, 0%nat; auto|].
  destruct (dos_broad width None npts) as (g & d & E & hg & hd). exists g, d, g', d', p. split; [exact E|]. split; [exact E'|].
  assert (Eg : g = g').
  { unfold get_dos in E, E'. rewrite andb_false_r in E'. cbn [andb orb] in E, E'. rewrite Ew, broaden_given in E. injection E as <- _. unfold local_pdos in E'. rewrite Ew in E'.
    destruct (N =? 0)%nat; [discriminate|]. destruct (first_error _); [discriminate|]. destruct (forallb _ _); [|discriminate]. injection E' as <- _ _. reflexivity. }
  split; [exact Eg|]. subst g'. apply (nth_ext _ _ 0 0); [rewrite hd, map_length, hg, hd'; reflexivity|].
  intros i hi. rewrite hd, map_length in hi. rewrite hg in hi. destruct (hv i hi) as [-> _]. rewrite (within_all w width _ hw), hd.
  rewrite (nth_indep _ 0 (dos_at norb nk wk e width 0)) by (rewrite map_length, hg; exact hi). apply map_nth.
Qed.
End Dos.
