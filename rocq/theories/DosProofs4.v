From Coq Require Import Reals List Bool Arith Lra Lia Psatz.
From Verif Require Import Vec GeomModel GeomProofs SkModel SkSpec Cpx RhoModel RhoSpec RhoProofs RhoProofs5 DosModel DosSpec DosProofs2 DosProofs3.
Import ListNotations.
Open Scope R_scope.

(** the meaning of the width *)
Lemma peak_width w xi : 0 < w ->
  peak Lorentzian w xi (xi + w) = peak Lorentzian w xi xi / 2 /\ peak Gaussian w xi (xi + w) = exp (- / 2) * peak Gaussian w xi xi.
Proof.
  intros hw. pose proof PI_RGT_0 as hp. assert (hs : 0 < sqrt (2 * PI)) by (apply sqrt_lt_R0; lra). split.
  - unfold peak. replace (xi + w - xi) with w by ring. replace (xi - xi) with 0 by ring. field. repeat split; nra.
  - unfold peak. replace (- (xi + w - xi) ^ 2 / (2 * w ^ 2)) with (- / 2) by (field; lra). replace (- (xi - xi) ^ 2 / (2 * w ^ 2)) with 0 by (field; lra).
    rewrite exp_0. field. split; lra.
Qed.
Lemma weighted_total norb nk (u v : nat -> nat -> R) :
  total (map (fun p => fst p * snd p) (combine (by_band norb nk u) (by_band norb nk v))) = rsum nk (fun k => rsum norb (fun a => u k a * v k a)).
Proof.
  unfold by_band.
  assert (E : forall v : nat -> nat -> R, flat_map (fun a => map (fun k => v k a) (seq 0 nk)) (seq 0 norb) = map (fun x => v (snd x) (fst x)) (flat_map (fun a => map (fun k => (a, k)) (seq 0 nk)) (seq 0 norb))).
  { intros t. generalize (seq 0 norb) as l. induction l as [|a l IH]; [reflexivity|]. cbn [flat_map]. rewrite map_app, IH, map_map. reflexivity. }
  rewrite (E u), (E v), combine_map, map_map, (total_states _ (fun a k => (a, k))), rsum_swap. reflexivity.
Qed.

(** ** C94 *)
Lemma get_dos_states norb N nk o1 no wk e f wf S o w win n : (0 < nk)%nat -> (0 < norb)%nat ->
  exists g d c, get_dos norb N nk o1 no wk e f wf S false false o w win n = DOk (if o then Triple g d c else Pair g d) /\
  length g = (norb * nk)%nat /\ length d = (norb * nk)%nat /\ length c = (norb * nk)%nat /\
  (forall k a, (k < nk)%nat -> (a < norb)%nat ->
    nth_error g (a * nk + k) = Some (e k a) /\ nth_error d (a * nk + k) = Some (wk k) /\ nth_error c (a * nk + k) = Some (f k a)) /\
  (rsum nk wk = 1 -> total d = INR norb) /\ total (map (fun p => fst p * snd p) (combine d c)) = filling norb nk wk f.
Proof.
  intros hnk hn. destruct (dos_plain norb N nk o1 no wk e f wf S hnk hn o w win n) as [d [E Ed]]. exists (by_band norb nk e), d, (by_band norb nk f).
  split; [exact E|]. subst d. rewrite !by_band_length by assumption. repeat split; try (apply by_band_nth; assumption).
  - apply weights_total.
  - rewrite weighted_total. unfold filling. apply rsum_ext. intros k _. apply rsum_scal.
Qed.
Lemma get_dos_broad norb N nk o1 no wk e f wf S w win n : (0 < nk)%nat -> (0 < norb)%nat ->
  exists g d, get_dos norb N nk o1 no wk e f wf S true false false w win n = DOk (Pair g d) /\ length g = n /\ d = map (dos_at norb nk wk e w) g /\
  ((1 < n)%nat -> match win with
    | Some v => nth 0 g 0 = fst v /\ nth (n - 1) g 0 = snd v
    | None => forall k a, (k < nk)%nat -> (a < norb)%nat -> nth 0 g 0 <= e k a <= nth (n - 1) g 0
    end).
Proof.
  intros hnk hn. destruct (dos_broad norb N nk o1 no wk e f wf S hnk hn w win n) as (g & d & E & hg & hd). exists g, d. split; [exact E|]. split; [exact hg|]. split; [exact hd|].
  intros h1. unfold get_dos in E. cbn [andb orb] in E. destruct (erange_some norb nk e hnk hn win) as [v [Ev hv]]. rewrite Ev, broaden_given in E. injection E as <- _.
  destruct (linspace_ends (fst v) (snd v) n 0 h1) as [-> ->]. destruct win as [u|]; [subst; split; reflexivity|exact hv].
Qed.
Lemma dos_at_area norb nk wk e w : 0 < w -> rsum nk wk = 1 -> integrates_to (dos_at norb nk wk e w) (INR norb).
Proof. apply dos_area. Qed.
Lemma get_dos_refused norb N nk o1 no wk e f wf S b p w win n : b = true \/ p = true -> get_dos norb N nk o1 no wk e f wf S b p true w win n = DFail DAssertion.
Proof. intros h. apply dos_refused. rewrite !andb_true_r. apply orb_true_iff. exact h. Qed.

(** ** C95 *)
Lemma get_ldos norb N nk o1 no wk e wf S width win npts : (0 < nk)%nat -> (0 < norb)%nat -> (0 < N)%nat -> layout norb N o1 no -> normalised norb nk S wf ->
  exists g d, local_dos norb N nk o1 no wk e wf S width win npts = DOk (g, d) /\ length g = npts /\
  forall i, (i < npts)%nat -> rsum N (fun I => nth i (d I) 0) =
    match win with Some w => dos_within norb nk wk e w width (nth i g 0) | None => dos_at norb nk wk e width (nth i g 0) end.
Proof.
  intros hnk hn hN hl ho. destruct (local_dos_value norb N nk o1 no wk e wf S hnk hn width win npts hN hl ho) as (g & d & w & E & Ew & hg & hv).
  exists g, d. split; [exact E|]. split; [exact hg|]. intros i hi. rewrite (hv i hi). destruct (erange_some norb nk e hnk hn win) as [v [Ev hw]]. rewrite Ew in Ev. injection Ev as <-.
  destruct win as [u|]; [subst; reflexivity|]. apply within_all. exact hw.
Qed.
Lemma occupied_range norb nk e win w : (0 < nk)%nat -> (0 < norb)%nat -> occupied_window norb nk e win -> erange norb nk e win = Some w ->
  exists k a, (k < nk)%nat /\ (a < norb)%nat /\ fst w <= e k a <= snd w.
Proof.
  intros hnk hn h Ew. destruct (erange_some norb nk e hnk hn win) as [v [Ev hw]]. rewrite Ew in Ev. injection Ev as <-. destruct win as [u|]; [subst; exact h|].
  exists 0%nat, 0%nat. split; [exact hnk|]. split; [exact hn|]. apply hw; assumption.
Qed.
Lemma get_pldos norb N nk o1 no wk e wf S width win npts : (0 < nk)%nat -> (0 < norb)%nat -> (0 < N)%nat -> (forall I, (I < N)%nat -> (0 < no I)%nat) ->
  occupied_window norb nk e win ->
  exists g d d' p, local_pdos norb N nk o1 no wk e wf S width win npts = DOk (g, d, p) /\ local_dos norb N nk o1 no wk e wf S width win npts = DOk (g, d') /\ length g = npts /\
  forall I, (I < N)%nat -> d I = d' I /\ forall i, (i < npts)%nat -> nth i (d I) 0 = nth i (p I 0%nat) 0 + nth i (p I 1%nat) 0 + nth i (p I 2%nat) 0.
Proof.
  intros hnk hn hN hno h. destruct (erange_some norb nk e hnk hn win) as [w [Ew _]].
  destruct (local_pdos_value norb N nk o1 no wk e wf S hnk hn width win npts hN hno w Ew (occupied_range _ _ _ _ _ hnk hn h Ew)) as (g & d & p & E & hg & hs & (g0 & d0 & E0 & -> & hd)).
  exists g0, d, d0, p. split; [exact E|]. split; [exact E0|]. split; [exact hg|]. intros I hI. split; [apply hd, hI|]. intros i hi. apply hs; assumption.
Qed.
Lemma get_pdos norb N nk o1 no wk e f wf S b width win npts : (0 < nk)%nat -> (0 < norb)%nat -> (0 < N)%nat -> (forall I, (I < N)%nat -> (0 < no I)%nat) ->
  layout norb N o1 no -> normalised norb nk S wf -> occupied_window norb nk e win ->
  exists g d p, get_dos norb N nk o1 no wk e f wf S b true false width win npts = DOk (Projected g d p) /\ length g = npts /\ length d = npts /\
  forall i, (i < npts)%nat -> nth i d 0 = nth i (p 0%nat) 0 + nth i (p 1%nat) 0 + nth i (p 2%nat) 0 /\
    nth i d 0 = match win with Some w => dos_within norb nk wk e w width (nth i g 0) | None => dos_at norb nk wk e width (nth i g 0) end.
Proof.
  intros hnk hn hN hno hl ho h. destruct (erange_some norb nk e hnk hn win) as [w [Ew hw]].
  destruct (dos_projected norb N nk o1 no wk e f wf S hnk hn b width win npts hN hno hl ho w Ew (occupied_range _ _ _ _ _ hnk hn h Ew)) as (g & d & p & E & hg & hd & hv).
  exists g, d, p. split; [exact E|]. split; [exact hg|]. split; [exact hd|]. intros i hi. destruct (hv i hi) as [h1 h2]. split; [exact h2|]. rewrite h1.
  destruct win as [u|]; [subst; reflexivity|]. apply within_all. exact hw.
Qed.
Lemma get_pdos_agrees norb N nk o1 no wk e f wf S width npts : (0 < nk)%nat -> (0 < norb)%nat -> (0 < N)%nat -> (forall I, (I < N)%nat -> (0 < no I)%nat) ->
  layout norb N o1 no -> normalised norb nk S wf ->
  exists g d p, get_dos norb N nk o1 no wk e f wf S true false false width None npts = DOk (Pair g d) /\
    get_dos norb N nk o1 no wk e f wf S true true false width None npts = DOk (Projected g d p).
Proof.
  intros hnk hn hN hno hl ho. destruct (dos_agree norb N nk o1 no wk e f wf S hnk hn width npts hN hno hl ho) as (g & d & g' & d' & p & E & E' & -> & ->). exists g', d', p. split; assumption.
Qed.
Lemma get_pdos_empty norb N nk o1 no wk e f wf S b width v npts : (0 < nk)%nat -> (0 < norb)%nat -> (0 < N)%nat -> ~ occupied_window norb nk e (Some v) ->
  get_dos norb N nk o1 no wk e f wf S b true false width (Some v) npts = DFail DIndexError.
Proof.
  intros hnk hn hN h. unfold get_dos. rewrite andb_false_r. cbn [andb orb]. rewrite pdos_empty; try assumption; [reflexivity|].
  intros k a hk ha hw. apply h. exists k, a. auto.
Qed.

(** ** two atoms with one orbital each, states on one atom, energies 0 and 1 *)
Definition z_S : kmatrix := fun _ i j => if (i =? j)%nat then c1 else c0.
Definition z_wf : nat -> nat -> nat -> cplx := fun _ a i => if (a =? i)%nat then c1 else c0.
Definition z_e : nat -> nat -> R := fun _ a => INR a.
Lemma z_normalised : normalised 2 1 z_S z_wf.
Proof.
  intros k a _ ha. unfold bracket, z_S, z_wf. destruct a as [|[|a]]; [| |lia]; apply cplx_eq; cbn; ring.
Qed.
Example z_window : occupied_window 2 1 z_e (Some (- (1/2), 1/2)).
Proof. exists 0%nat, 0%nat. unfold z_e. cbn. repeat split; try lia; lra. Qed.
Example z_none : ~ occupied_window 2 1 z_e (Some (2, 3)).
Proof. intros (k & a & _ & ha & h). unfold z_e in h. cbn [fst snd] in h. assert (INR a <= 1) by (replace 1 with (INR 1) by reflexivity; apply le_INR; lia). lra. Qed.
(** with a window the projected density lacks the tails of the states outside, the plain one does not *)
Lemma pdos_window_differs : exists norb N nk o1 no wk e f wf S width w npts g d p d',
  (0 < width) /\ rsum nk wk = 1 /\ layout norb N o1 no /\ normalised norb nk S wf /\
  get_dos norb N nk o1 no wk e f wf S true true false width (Some w) npts = DOk (Projected g d p) /\
  get_dos norb N nk o1 no wk e f wf S true false false width (Some w) npts = DOk (Pair g d') /\
  (0 < npts)%nat /\ forall i, (i < npts)%nat -> nth i d 0 < nth i d' 0.
Proof.
  assert (hno : forall I, (I < 2)%nat -> (0 < x_no I)%nat) by (intros I _; unfold x_no; lia).
  destruct (get_pdos 2 2 1 x_o1 x_no (fun _ => 1) z_e x_f z_wf z_S true 1 (Some (- (1/2), 1/2)) 3 ltac:(lia) ltac:(lia) ltac:(lia) hno x_layout z_normalised z_window) as (g & d & p & E & hg & hd & hv).
  destruct (get_dos_broad 2 2 1 x_o1 x_no (fun _ => 1) z_e x_f z_wf z_S 1 (Some (- (1/2), 1/2)) 3 ltac:(lia) ltac:(lia)) as (g' & d' & E' & hg' & hd' & _).
  assert (Eg : g = g').
  { unfold get_dos in E, E'. cbn [andb orb] in E, E'. destruct (erange_some 2 1 z_e ltac:(lia) ltac:(lia) (Some (- (1/2), 1/2))) as [w [Ew _]]. rewrite Ew, broaden_given in E'. injection E' as <- _.
    unfold local_pdos in E. rewrite Ew in E. cbn [Nat.eqb] in E. destruct (first_error _); [discriminate|]. destruct (forallb _ _); [|discriminate]. injection E as <- _ _. reflexivity. }
  subst g'. exists 2%nat, 2%nat, 1%nat, x_o1, x_no, (fun _ => 1), z_e, x_f, z_wf, z_S, 1, (- (1/2), 1/2), 3%nat, g, d, p, d'.
  split; [lra|]. split; [cbn; ring|]. split; [exact x_layout|]. split; [exact z_normalised|]. split; [exact E|]. split; [exact E'|]. split; [lia|].
  intros i hi. destruct (hv i hi) as [_ ->]. rewrite hd'. rewrite (nth_indep (map _ g) 0 (dos_at 2 1 (fun _ => 1) z_e 1 0)) by (rewrite map_length, hg; exact hi). rewrite map_nth.
  unfold dos_within, dos_at. cbn [rsum]. unfold in_window, z_e. cbn [fst snd INR].
  destruct (Rle_dec (- (1/2)) 0); [|lra]. destruct (Rle_dec 0 (1/2)); [|lra]. destruct (Rle_dec (- (1/2)) 1); [|lra]. destruct (Rle_dec 1 (1/2)); [lra|].
  destruct (peak_shape Gaussian 1 1 (nth i g 0) (or_introl eq_refl) ltac:(lra)) as [hp _]. lra.
Qed.
Example broaden_case : exists g v, broaden [0; 1] (Some [1; 2]) (1/20) Lorentzian true 500 None (Some 3) None = DOk (g, v).
Proof. eexists _, _. reflexivity. Qed.
