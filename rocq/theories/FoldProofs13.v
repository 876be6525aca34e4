From Coq Require Import Reals ZArith List Bool Arith Lia Lra Psatz.
From Verif Require Import Vec GeomModel GeomSpec GeomProofs CoulModel CoulProofs MixModel PairModel PairSpec SkModel SkSpec SkProofs SkProofs2 SkProofs3 SkProofs4 SkProofs5 SkProofs6 SkProofs7 PairProofs Cpx RhoModel RhoSpec EigModel EigSpec InvModel InvSpec InvProofs InvProofs5 InvProofs6 InvProofs7 InvProofs8 GamModel InvProofs9 InvProofs10 InvProofs11 FoldSpec FoldProofs FoldProofs5 FoldProofs6 FoldProofs9 FoldProofs12.
Import ListNotations.
Open Scope R_scope.

Definition longer_image (m : nat) (z z' : nat -> Z) (ng nh : nat) (c c' P : nat) : option nat :=
  if ((c' <? m) && (P <? nh))%nat then find (fun n => (z n =? Z.of_nat m * z' P + Z.of_nat c' - Z.of_nat c)%Z) (seq 0 ng) else None.
Definition longer_cell (m c c' : nat) (P : cell) : option cell :=
  let l := (Z.of_nat m * t3 P + Z.of_nat c' - Z.of_nat c)%Z in
  if ((t1 P =? 0)%Z && (t2 P =? 0)%Z && (c' <? m)%nat && (Z.abs l <=? 5)%Z) then Some (0, 0, l)%Z else None.
Lemma vscale_plus x y a : vscale (x + y) a = vadd (vscale x a) (vscale y a).
Proof. apply v3_eq; vunf; ring. Qed.
Lemma vscale_mult x y a : vscale x (vscale y a) = vscale (x * y) a.
Proof. apply v3_eq; vunf; ring. Qed.
Lemma vnorm_opp x : vnorm (vscale (-1) x) = vnorm x.
Proof. unfold vnorm. f_equal. vunf. ring. Qed.
Section Longer.
Context (m : nat) (z z' : nat -> Z) (beta : R) (a : v3) (kappa kappa' : nat -> R) (D : database) (Bohr : R) (g h : structure) (L : longer m z z' beta a kappa kappa' D Bohr g h).
Let N := g_N g.
Let Cg := i_g _ _ _ _ _ _ _ _ _ _ _ L.
Let Ch := i_h _ _ _ _ _ _ _ _ _ _ _ L.
Let PL := i_placed _ _ _ _ _ _ _ _ _ _ _ L.
Lemma m_pos : (0 < m)%nat. Proof. exact (i_m _ _ _ _ _ _ _ _ _ _ _ L). Qed.
Lemma m_real : INR m <> 0. Proof. pose proof m_pos. apply not_0_INR. lia. Qed.
Lemma axis_nat c x : mv (rotz (INR c * beta)) (vscale x a) = vscale x a.
Proof. rewrite mv_scale, INR_IZR_INZ, (n_axis _ _ _ _ _ Cg). reflexivity. Qed.
Lemma axis_z l x : mv (rotz (IZR l * beta)) (vscale x a) = vscale x a.
Proof. rewrite mv_scale, (n_axis _ _ _ _ _ Cg). reflexivity. Qed.
(** where repetition q of copy c' of atom J is, seen from copy c *)
Lemma placed_at q c c' J : (c < m)%nat -> (c' < m)%nat -> (J < N)%nat ->
  vadd (mv (rotz (IZR q * (INR m * beta))) (g_r h (c' * N + J)%nat)) (vscale (IZR q) (vscale (INR m) a)) =
  vadd (mv (rotz (INR c * beta)) (vadd (mv (rotz (IZR (Z.of_nat m * q + Z.of_nat c' - Z.of_nat c) * beta)) (g_r g J)) (vscale (IZR (Z.of_nat m * q + Z.of_nat c' - Z.of_nat c)) a))) (vscale (INR c) a).
Proof.
  intros Hc Hc' HJ. unfold N. rewrite (a_r _ _ _ _ _ PL c' J Hc' HJ). set (l := (Z.of_nat m * q + Z.of_nat c' - Z.of_nat c)%Z).
  assert (El : IZR l = INR m * IZR q + INR c' - INR c) by (unfold l; rewrite minus_IZR, plus_IZR, mult_IZR, <- !INR_IZR_INZ; reflexivity).
  rewrite !mv_add, axis_nat, <- !mv_mm, !rotz_plus. replace (IZR q * (INR m * beta)) with (IZR (q * Z.of_nat m) * beta) by (rewrite mult_IZR, <- INR_IZR_INZ; ring). rewrite axis_z. rewrite mult_IZR, <- INR_IZR_INZ.
  replace (IZR q * INR m * beta + INR c' * beta) with (INR c * beta + IZR l * beta) by (rewrite El; ring). rewrite vscale_mult. rewrite El. set (X := mv (rotz _) (g_r g J)). clearbody X. apply v3_eq; vunf; ring.
Qed.
Lemma seen q c c' I J : (c < m)%nat -> (c' < m)%nat -> (I < N)%nat -> (J < N)%nat ->
  vsub (g_r h (c * N + I)%nat) (vadd (mv (rotz (IZR q * (INR m * beta))) (g_r h (c' * N + J)%nat)) (vscale (IZR q) (vscale (INR m) a))) =
  mv (rotz (INR c * beta)) (reach g beta a (Z.of_nat m * q + Z.of_nat c' - Z.of_nat c) I J).
Proof.
  intros Hc Hc' HI HJ. rewrite (placed_at q c c' J Hc Hc' HJ). unfold N. rewrite (a_r _ _ _ _ _ PL c I Hc HI). unfold reach. rewrite mv_sub. set (A := mv _ (vadd _ _)). set (B := mv _ (g_r g I)). clearbody A B. apply v3_eq; vunf; ring.
Qed.
Lemma far_g n I J : (n < g_nimg g)%nat -> (I < N)%nat -> (J < N)%nat -> dist (g_Rn Bohr g) n I J = vnorm (vscale (/ Bohr) (reach g beta a (z n) I J)).
Proof.
  intros Hn HI HJ. unfold dist, rijn, g_Rn, reach. rewrite (n_O _ _ _ _ _ Cg n Hn), (n_t _ _ _ _ _ Cg n Hn), (n_O _ _ _ _ _ Cg 0%nat (n_some _ _ _ _ _ Cg)), (n_t _ _ _ _ _ Cg 0%nat (n_some _ _ _ _ _ Cg)), (n_first _ _ _ _ _ Cg).
  rewrite Rmult_0_l, rotz_0, mv_eye. rewrite <- (vnorm_opp (vscale (/ Bohr) _)). f_equal. set (A := mv _ _). clearbody A. apply v3_eq; vunf; ring.
Qed.
Lemma far_h P c c' I J : (P < g_nimg h)%nat -> (c < m)%nat -> (c' < m)%nat -> (I < N)%nat -> (J < N)%nat ->
  dist (g_Rn Bohr h) P (c * N + I)%nat (c' * N + J)%nat = vnorm (vscale (/ Bohr) (reach g beta a (Z.of_nat m * z' P + Z.of_nat c' - Z.of_nat c) I J)).
Proof.
  intros HP Hc Hc' HI HJ. unfold dist, rijn, g_Rn. rewrite (n_O _ _ _ _ _ Ch P HP), (n_t _ _ _ _ _ Ch P HP), (n_O _ _ _ _ _ Ch 0%nat (n_some _ _ _ _ _ Ch)), (n_t _ _ _ _ _ Ch 0%nat (n_some _ _ _ _ _ Ch)), (n_first _ _ _ _ _ Ch).
  rewrite Rmult_0_l, rotz_0, mv_eye. transitivity (vnorm (vscale (-1) (vscale (/ Bohr) (mv (rotz (INR c * beta)) (reach g beta a (Z.of_nat m * z' P + Z.of_nat c' - Z.of_nat c) I J))))).
  - f_equal. rewrite <- (seen (z' P) c c' I J) by assumption. set (A := vadd _ _). set (B := g_r h (c * N + I)%nat). clearbody A B. apply v3_eq; vunf; ring.
  - rewrite vnorm_opp, <- mv_scale. apply mv_norm. apply rotz_orthogonal.
Qed.
Let w := longer_image m z z' (g_nimg g) (g_nimg h).
Lemma w_some c c' P n : w c c' P = Some n -> (c' < m)%nat /\ (P < g_nimg h)%nat /\ (n < g_nimg g)%nat /\ (z n = Z.of_nat m * z' P + Z.of_nat c' - Z.of_nat c)%Z.
Proof.
  unfold w, longer_image. destruct ((c' <? m) && (P <? g_nimg h))%nat eqn:E; [|discriminate]. apply andb_prop in E. rewrite !Nat.ltb_lt in E. intros F. apply find_some in F. destruct F as [I F]. apply in_seq in I. apply Z.eqb_eq in F. repeat split; try tauto; lia.
Qed.
Lemma w_found c c' P n : (c' < m)%nat -> (P < g_nimg h)%nat -> (n < g_nimg g)%nat -> (z n = Z.of_nat m * z' P + Z.of_nat c' - Z.of_nat c)%Z -> w c c' P = Some n.
Proof.
  intros Hc HP Hn E. destruct (w c c' P) as [n'|] eqn:F.
  - f_equal. destruct (w_some _ _ _ _ F) as (_ & _ & Hn' & E'). apply (n_once _ _ _ _ _ Cg); try assumption. lia.
  - exfalso. unfold w, longer_image in F. rewrite (proj2 (Nat.ltb_lt _ _) Hc), (proj2 (Nat.ltb_lt _ _) HP) in F. cbn [andb] in F. pose proof (find_none _ _ F n ltac:(apply in_seq; lia)) as K. cbv beta in K. apply Z.eqb_neq in K. contradiction.
Qed.
Lemma unique_copy c c1 q1 c2 q2 : (c1 < m)%nat -> (c2 < m)%nat -> (Z.of_nat m * q1 + Z.of_nat c1 - Z.of_nat c = Z.of_nat m * q2 + Z.of_nat c2 - Z.of_nat c)%Z -> c1 = c2 /\ q1 = q2.
Proof. intros H1 H2 E. assert (q1 = q2) by nia. subst. split; [lia|reflexivity]. Qed.
Lemma longer_copies : copies m (chain_phase m kappa) (fun c => rotz (INR c * beta)) (fun c => vscale (INR c) a) w D Bohr g h.
Proof.
  pose proof m_pos as HM. pose proof m_real as HR.
  constructor; try (first [exact HM|apply (a_some _ _ _ _ _ PL)|apply (a_N _ _ _ _ _ PL)|apply (a_kind _ _ _ _ _ PL)|apply (a_r _ _ _ _ _ PL)|apply (a_pp _ _ _ _ _ PL)|apply (a_dpp _ _ _ _ _ PL)|apply (a_rc _ _ _ _ _ PL)|apply (a_ext _ _ _ _ _ PL)|apply (a_charge _ _ _ _ _ PL)]).
  - intros c _. apply rotz_orthogonal.
  - exact (i_nk _ _ _ _ _ _ _ _ _ _ _ L).
  - intros k Hk. apply (csum_characters m (fun j c => cis ((kappa' k / INR m + 2 * PI * INR j / INR m) * INR c))); [|apply shifted_characters; exact HM]. intros j c Hj _. unfold chain_phase. rewrite (i_kappa _ _ _ _ _ _ _ _ _ _ _ L k j Hk Hj). f_equal. field. exact HR.
  - exact (i_wk _ _ _ _ _ _ _ _ _ _ _ L).
  - intros c c' P n Hc Hc' HP E. destruct (w_some _ _ _ _ E) as (_ & _ & Hn & El). split; [exact Hn|].
    assert (Er : IZR (z n) = INR m * IZR (z' P) + INR c' - INR c) by (rewrite El, minus_IZR, plus_IZR, mult_IZR, <- !INR_IZR_INZ; reflexivity).
    rewrite (n_O _ _ _ _ _ Ch P HP), (n_t _ _ _ _ _ Ch P HP), (n_O _ _ _ _ _ Cg n Hn), (n_t _ _ _ _ _ Cg n Hn). split; [|split].
    + rewrite !rotz_plus. f_equal. rewrite Er. ring.
    + rewrite axis_nat. replace (IZR (z' P) * (INR m * beta)) with (IZR (z' P * Z.of_nat m) * beta) by (rewrite mult_IZR, <- INR_IZR_INZ; ring). rewrite axis_z, Er. apply v3_eq; vunf; ring.
    + intros k j Hk Hj. rewrite (n_phase _ _ _ _ _ Ch k P Hk HP). rewrite (n_phase _ _ _ _ _ Cg (k * m + j)%nat n ltac:(rewrite (i_nk _ _ _ _ _ _ _ _ _ _ _ L); nia) Hn). unfold chain_phase. rewrite cis_conj, !cis_plus.
      apply (cis_whole _ _ (Z.of_nat j * z' P)). rewrite (i_kappa _ _ _ _ _ _ _ _ _ _ _ L k j Hk Hj), Er, mult_IZR, <- INR_IZR_INZ. field. exact HR.
  - intros c c1 P1 c2 P2 n Hc E1 E2. destruct (w_some _ _ _ _ E1) as (H1 & HP1 & _ & Q1). destruct (w_some _ _ _ _ E2) as (H2 & HP2 & _ & Q2). destruct (unique_copy c c1 (z' P1) c2 (z' P2) H1 H2 ltac:(lia)) as [-> E]. split; [reflexivity|]. apply (n_once _ _ _ _ _ Ch); assumption.
  - intros c Hc. apply w_found; [exact Hc|apply (n_some _ _ _ _ _ Ch)|apply (n_some _ _ _ _ _ Cg)|]. rewrite (n_first _ _ _ _ _ Cg), (n_first _ _ _ _ _ Ch). lia.
  - intros c c' P I J Hc Hc' HP E HI HJ. rewrite far_h by assumption. set (l := (Z.of_nat m * z' P + Z.of_nat c' - Z.of_nat c)%Z). destruct (i_reach _ _ _ _ _ _ _ _ _ _ _ L l I J HI HJ) as [[(n & Hn & El) _]|B]; [|exact B]. exfalso. rewrite (w_found c c' P n Hc' HP Hn El) in E. discriminate E.
  - intros c n I J Hc Hn H HI HJ. rewrite far_g by assumption. destruct (i_reach _ _ _ _ _ _ _ _ _ _ _ L (z n) I J HI HJ) as [[_ K]|B]; [|exact B]. exfalso. destruct (K c Hc) as (c' & P & Hc' & HP & El). exact (H c' P Hc' HP (w_found c c' P n Hc' HP Hn El)).
Qed.
Lemma longer_cells cut : visited cut beta a g -> copied_cells m (fun c => rotz (INR c * beta)) (fun c => vscale (INR c) a) (longer_cell m) cut g h (triples [0%Z] [0%Z] (zrange (-5) 6)) (triples [0%Z] [0%Z] (zrange (-5) 6)).
Proof.
  intros V. pose proof m_pos as HM. destruct cut as [k|]; [|destruct V]. cbn [visited] in V.
  assert (S : forall c c' P n, longer_cell m c c' P = Some n -> exists x, P = (0, 0, x)%Z /\ (c' < m)%nat /\ n = (0, 0, Z.of_nat m * x + Z.of_nat c' - Z.of_nat c)%Z /\ (Z.abs (Z.of_nat m * x + Z.of_nat c' - Z.of_nat c) <= 5)%Z).
  { intros c c' [[u1 u2] x] n. unfold longer_cell, t1, t2, t3. cbn [fst snd]. destruct (Z.eqb_spec u1 0) as [->|]; [|discriminate]. destruct (Z.eqb_spec u2 0) as [->|]; [|discriminate]. destruct (Nat.ltb_spec c' m); [|discriminate]. destruct (Z.leb_spec (Z.abs (Z.of_nat m * x + Z.of_nat c' - Z.of_nat c)) 5); [|discriminate].
    cbn [andb]. intros E. injection E as <-. exists x. auto. }
  assert (A : forall c c' x, (c' < m)%nat -> (Z.abs (Z.of_nat m * x + Z.of_nat c' - Z.of_nat c) <= 5)%Z -> longer_cell m c c' (0, 0, x)%Z = Some (0, 0, Z.of_nat m * x + Z.of_nat c' - Z.of_nat c)%Z).
  { intros c c' x Hc Hl. unfold longer_cell, t1, t2, t3. cbn [fst snd]. rewrite (proj2 (Nat.ltb_lt _ _) Hc), (proj2 (Z.leb_le _ _) Hl). reflexivity. }
  assert (IN : forall P, In P (triples [0%Z] [0%Z] (zrange (-5) 6)) -> exists x, P = (0, 0, x)%Z /\ (-5 <= x < 6)%Z).
  { intros [[u1 u2] x] H. apply in_triples in H. unfold t1, t2, t3 in H. cbn [fst snd] in H. destruct H as ([<-|[]] & [<-|[]] & H). apply in_zrange in H. exists x. auto. }
  assert (DR : forall c c' x I J, (c < m)%nat -> (c' < m)%nat -> (I < N)%nat -> (J < N)%nat -> drv (g_r h) (g_tr0 h) (g_rot h) (0, 0, x)%Z (c * N + I)%nat (c' * N + J)%nat = mv (rotz (INR c * beta)) (reach g beta a (Z.of_nat m * x + Z.of_nat c' - Z.of_nat c) I J)).
  { intros c c' x I J Hc Hc' HI HJ. rewrite <- (seen x c c' I J) by assumption. unfold drv, GamModel.image. rewrite (n_rot _ _ _ _ _ Ch), (n_tr0 _ _ _ _ _ Ch). unfold t3. cbn [snd]. f_equal. set (X := mv _ _). clearbody X. apply v3_eq; vunf; ring. }
  constructor.
  - unfold scan. rewrite (n_ranges _ _ _ _ _ Cg). reflexivity.
  - unfold scan. rewrite (n_ranges _ _ _ _ _ Ch). reflexivity.
  - intros c c' P n Hc Hc' HP E. destruct (S _ _ _ _ E) as (x & -> & _ & -> & Hl). set (l := (Z.of_nat m * x + Z.of_nat c' - Z.of_nat c)%Z) in *. assert (Er : IZR l = INR m * IZR x + INR c' - INR c) by (unfold l; rewrite minus_IZR, plus_IZR, mult_IZR, <- !INR_IZR_INZ; reflexivity). split; [|split].
    + apply in_triples. unfold t1, t2, t3. cbn [fst snd]. split; [left; reflexivity|]. split; [left; reflexivity|]. apply in_zrange. lia.
    + rewrite (n_rot _ _ _ _ _ Ch), (n_rot _ _ _ _ _ Cg). unfold t3. cbn [snd]. rewrite !rotz_plus. f_equal. rewrite Er. ring.
    + rewrite (n_rot _ _ _ _ _ Ch), (n_tr0 _ _ _ _ _ Ch), (n_tr0 _ _ _ _ _ Cg). unfold t3. cbn [snd]. rewrite axis_nat. replace (IZR x * (INR m * beta)) with (IZR (x * Z.of_nat m) * beta) by (rewrite mult_IZR, <- INR_IZR_INZ; ring). rewrite axis_z, Er. apply v3_eq; vunf; ring.
  - intros c c1 P1 c2 P2 n Hc E1 E2. destruct (S _ _ _ _ E1) as (x1 & -> & H1 & -> & _). destruct (S _ _ _ _ E2) as (x2 & -> & H2 & E & _). injection E as E. destruct (unique_copy c c1 x1 c2 x2 H1 H2 E) as [-> ->]. split; reflexivity.
  - intros c Hc. rewrite A by lia. f_equal. f_equal. lia.
  - intros c c' P I J Hc Hc' HP E HI HJ. destruct (IN P HP) as (x & -> & _). fold N. rewrite DR by assumption. cbn [cut_off]. rewrite mv_norm by apply rotz_orthogonal. apply V; try assumption. destruct (Z_lt_le_dec 5 (Z.abs (Z.of_nat m * x + Z.of_nat c' - Z.of_nat c))) as [?|Hl]; [assumption|]. rewrite (A c c' x Hc' Hl) in E. discriminate E.
  - intros c n I J Hc Hn H HI HJ. exfalso. destruct (IN n Hn) as (l & -> & Hl). assert (Q : (0 < Z.of_nat m)%Z) by lia. set (x := ((l + Z.of_nat c) / Z.of_nat m)%Z). set (d := ((l + Z.of_nat c) mod Z.of_nat m)%Z). pose proof (Z.div_mod (l + Z.of_nat c) (Z.of_nat m) ltac:(lia)) as DM. pose proof (Z.mod_pos_bound (l + Z.of_nat c) _ Q) as B. fold x d in DM. fold d in B.
    apply (H (Z.to_nat d) (0, 0, x)%Z ltac:(lia)).
    + apply in_triples. unfold t1, t2, t3. cbn [fst snd]. split; [left; reflexivity|]. split; [left; reflexivity|]. apply in_zrange. split.
      * destruct (Z_lt_le_dec x (-5)); [|lia]. nia.
      * destruct (Z_lt_le_dec x 6); [lia|]. nia.
    + rewrite A by lia. f_equal. f_equal. lia.
Qed.
End Longer.
