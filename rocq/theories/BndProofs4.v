From Coq Require Import Reals ZArith String List Bool Arith Lia Lra.
From Verif Require Import Vec GeomModel GeomProofs UtilModel KptModel KptSpec KptProofs KptProofs2 CoulModel MixModel OccModel PairModel PairSpec SkModel SkSpec Cpx RhoModel RhoSpec EigModel EigSpec GamModel InvModel InvSpec InvProofs3 InvProofs13 BndModel BndSpec BndProofs BndProofs2 BndProofs3.
Import ListNotations.
Open Scope R_scope.

Section Two.
Context (erfc : R -> R) (Bohr Hartree : R) (gaussian : bool) (gamma_cut : option R) (goal width sepsilon : R) (D : database) (g : structure) (nt : nat -> ntuple) (inv : nat -> nat) (SI : sound_images D g nt inv).
Let asm (scc : bool) (ks : list v3) (wk : list R) := assemble erfc Bohr Hartree gaussian gamma_cut goal width sepsilon scc D (at_kpoints g nt ks wk).
Lemma matrix_formula scc ks wk X : asm scc ks wk = Some X -> s_norb X = first_orbital (g_no D g) (g_N g) /\ s_nk X = List.length ks /\ proper X /\
  (forall k, s_H0 X k = flat D (at_kpoints g nt ks wk) (g_matrix Bohr D (at_kpoints g nt ks wk) (fun I => d_onsite D (g_kind g I)) (d_H D) k)) /\
  (forall k, s_S X k = flat D (at_kpoints g nt ks wk) (g_matrix Bohr D (at_kpoints g nt ks wk) (fun _ _ => 1 + sepsilon) (d_S D) k)).
Proof.
  intros E. pose proof (s_N_assembled _ _ _ _ _ _ _ _ _ _ _ _ E) as (HN & Hk & Hn). pose proof (assembled_proper _ _ _ _ _ _ _ _ _ _ _ _ _ (sound_at D g nt inv ks wk SI) E) as P.
  split; [exact Hn|]. split; [exact Hk|]. split; [exact P|]. clear P Hk Hn HN. revert E. unfold asm, assemble. destruct (too_close _ _ _); [discriminate|]. destruct scc.
  - destruct (g_gamma _ _ _ _ _ _ _); try discriminate. destruct (get_neighbours _ _ _ _ _ _); try discriminate. intros E. injection E as <-. split; reflexivity.
  - intros E. injection E as <-. split; reflexivity.
Qed.
Lemma same_matrices scc scc' ks wk ks' wk' X Y k j b m : asm scc ks wk = Some X -> asm scc' ks' wk' = Some Y ->
  nth k ks vzero = vadd (if b : bool then vneg (nth j ks' vzero) else nth j ks' vzero) (vscale (2 * PI) (real_tuple m)) ->
  (forall i l, s_H0 X k i l = mirrored b (s_H0 Y j i l)) /\ (forall i l, s_S X k i l = mirrored b (s_S Y j i l)).
Proof.
  intros EX EY E. destruct (matrix_formula _ _ _ _ EX) as (_ & _ & _ & HX & SX). destruct (matrix_formula _ _ _ _ EY) as (_ & _ & _ & HY & SY).
  assert (PH : forall n, phase_at (nt n) (nth k ks vzero) = mirrored b (phase_at (nt n) (nth j ks' vzero))) by (intros n; rewrite E; apply phase_same).
  split; intros i l; [rewrite HX, HY|rewrite SX, SY]; unfold flat, g_matrix; apply matrix_mirrored; intros n _; cbn [at_kpoints g_phase]; apply PH.
Qed.
(** energies of two diagonalisations at one point *)
Lemma same_energies scc scc' ks wk ks' wk' X Y k j z z' w0 w0' evmin evmin' tol_norm H1 : asm scc ks wk = Some X -> asm scc' ks' wk' = Some Y -> 0 <= tol_norm ->
  reliable z w0 X -> reliable z' w0' Y -> (forall h, H1 = Some h -> forall i l, h i l = h l i) -> (k < List.length ks)%nat -> (j < List.length ks')%nat -> same_point (nth j ks' vzero) (nth k ks vzero) ->
  forall e wf e' wf', all_k z (s_norb X) (s_nk X) tol_norm evmin w0 (s_H0 X) (s_S X) H1 = inr (e, wf) -> all_k z' (s_norb Y) (s_nk Y) tol_norm evmin' w0' (s_H0 Y) (s_S Y) H1 = inr (e', wf') ->
  forall a, (a < first_orbital (g_no D g) (g_N g))%nat -> e k a = e' j a.
Proof.
  intros EX EY Ht RX RY Sym Hk Hj (b & m & E) e wf e' wf' E1 E2 a Ha.
  destruct (matrix_formula _ _ _ _ EX) as (NX & KX & PX & _ & _). destruct (matrix_formula _ _ _ _ EY) as (NY & KY & PY & _ & _).
  destruct (same_matrices _ _ _ _ _ _ _ _ k j b m EX EY E) as [MH MS].
  destruct (solve_system X z w0 evmin tol_norm H1 Ht PX RX Sym) as (e1 & wf1 & F1 & O1 & W1 & S1). destruct (solve_system Y z' w0' evmin' tol_norm H1 Ht PY RY Sym) as (e2 & wf2 & F2 & O2 & W2 & S2).
  rewrite F1 in E1. rewrite F2 in E2. assert (A : e1 = e /\ wf1 = wf) by (split; congruence). assert (B : e2 = e' /\ wf2 = wf') by (split; congruence). destruct A as [<- <-], B as [<- <-].
  set (h := match H1 with Some h => h | None => fun _ _ => 0 end) in *. assert (Hs : forall i l : nat, h i l = h l i) by (intros i l; unfold h; destruct H1 as [x|]; [apply (Sym x eq_refl)|reflexivity]).
  set (n := first_orbital (g_no D g) (g_N g)) in *. rewrite NX in O1, W1, S1. rewrite NY in O2, W2, S2. rewrite KX in W1, S1. rewrite KY in W2, S2.
  refine (proj1 (one_point X Y n b k j h e1 wf1 e2 wf2 NX NY PX _ _ (fun i l _ _ => MH i l) (fun i l _ _ => MS i l) Hs O1 O2 (W1 k Hk) h (fun _ _ _ _ => eq_refl) (W2 j Hj) (S1 k Hk) (S2 j Hj)) a Ha); [rewrite KX; exact Hk|rewrite KY; exact Hj].
Qed.
Let bands (z : lapack) evmin w0 tol_norm bravais := get_band_energies erfc Bohr Hartree gaussian gamma_cut goal width sepsilon D g nt bravais z evmin w0 tol_norm.
Let mats := matrices_at erfc Bohr Hartree gaussian gamma_cut goal width sepsilon D g nt.
Lemma bands_inv bravais z evmin w0 tol_norm st ks shift h1 E ph : bands z evmin w0 tol_norm bravais st (Some ks) shift "kappa" h1 = inr (E, ph) ->
  ph = ks /\ exists X e wf H1, mats ks = Some X /\ H1 = (if h1 then b_h1 st else None) /\ (h1 = true -> b_h1 st <> None) /\
    all_k z (s_norb X) (s_nk X) tol_norm evmin w0 (s_H0 X) (s_S X) H1 = inr (e, wf) /\ E = (fun k a => e k a * Hartree - (if shift then b_mu st * Hartree else 0)).
Proof.
  unfold bands, get_band_energies. change ("kappa" =? "k")%string with false. change ("kappa" =? "kappa")%string with true. cbv iota.
  change (matrices_at erfc Bohr Hartree gaussian gamma_cut goal width sepsilon D g nt ks) with (mats ks). destruct (mats ks) as [X|] eqn:EX; [|discriminate]. unfold bands_of. destruct h1.
  - destruct (b_h1 st) as [h|] eqn:EH; [|discriminate]. destruct (all_k z _ _ _ _ _ _ _ (Some h)) as [x|[e wf]] eqn:EA; [discriminate|]. intros Q. split; [congruence|]. exists X, e, wf, (Some h). split; [reflexivity|]. split; [reflexivity|]. split; [discriminate|]. split; [exact EA|congruence].
  - destruct (all_k z _ _ _ _ _ _ _ None) as [x|[e wf]] eqn:EA; [discriminate|]. intros Q. split; [congruence|]. exists X, e, wf, None. split; [reflexivity|]. split; [reflexivity|]. split; [discriminate|]. split; [exact EA|congruence].
Qed.
(** C175 *)
Lemma bands_periodic z z' evmin evmin' w0 w0' tol_norm bravais bravais' st ks ks' shift h1 E ph E' ph' k j : 0 <= tol_norm ->
  (forall X, mats ks = Some X -> reliable z w0 X) -> (forall Y, mats ks' = Some Y -> reliable z' w0' Y) -> (forall h, b_h1 st = Some h -> forall i l, h i l = h l i) ->
  bands z evmin w0 tol_norm bravais st (Some ks) shift "kappa" h1 = inr (E, ph) -> bands z' evmin' w0' tol_norm bravais' st (Some ks') shift "kappa" h1 = inr (E', ph') ->
  (k < List.length ks)%nat -> (j < List.length ks')%nat -> same_point (nth j ks' vzero) (nth k ks vzero) ->
  forall a, (a < first_orbital (g_no D g) (g_N g))%nat -> E k a = E' j a.
Proof.
  intros Ht RX RY Sym B B' Hk Hj SP a Ha. apply bands_inv in B. apply bands_inv in B'. destruct B as (_ & X & e & wf & H1 & EX & EH & _ & EA & ->). destruct B' as (_ & Y & e' & wf' & H1' & EY & EH' & _ & EA' & ->).
  rewrite <- EH in EH'. subst H1'. f_equal. f_equal. refine (same_energies false false ks [] ks' [] X Y k j z z' w0 w0' evmin evmin' tol_norm H1 EX EY Ht (RX X EX) (RY Y EY) _ Hk Hj SP e wf e' wf' EA EA' a Ha).
  intros h Eh. apply Sym. subst H1. destruct h1; [exact Eh|discriminate].
Qed.
(** and no exception occurs *)
Lemma bands_found z evmin w0 tol_norm bravais st ks shift h1 X : 0 <= tol_norm -> mats ks = Some X -> reliable z w0 X -> (forall h, b_h1 st = Some h -> forall i l, h i l = h l i) -> (h1 = true -> b_h1 st <> None) ->
  exists E, bands z evmin w0 tol_norm bravais st (Some ks) shift "kappa" h1 = inr (E, ks).
Proof.
  intros Ht EX RX Sym HH. destruct (matrix_formula _ _ _ _ EX) as (NX & KX & PX & _ & _). unfold bands, get_band_energies. change ("kappa" =? "k")%string with false. change ("kappa" =? "kappa")%string with true. cbv iota.
  change (matrices_at erfc Bohr Hartree gaussian gamma_cut goal width sepsilon D g nt ks) with (mats ks). rewrite EX. unfold bands_of. destruct h1.
  - destruct (b_h1 st) as [h|]; [|exfalso; apply HH; reflexivity]. destruct (solve_system X z w0 evmin tol_norm (Some h) Ht PX RX) as (e & wf & -> & _); [intros h' Eh; apply Sym; congruence|]. eexists. reflexivity.
  - destruct (solve_system X z w0 evmin tol_norm None Ht PX RX) as (e & wf & -> & _); [discriminate|]. eexists. reflexivity.
Qed.
(** C176 *)
Lemma loop_pass X z evmin w0 tol_norm MAXE brentq tol_mull m todo : forall i ms u p it n,
  scc_loop (fun dq => pass z evmin w0 tol_norm X (Some (h1_of X dq))) (charges MAXE brentq tol_mull X) m todo i ms u = (Returned p it, n) -> exists dq, pass z evmin w0 tol_norm X (Some (h1_of X dq)) = Some p.
Proof.
  induction todo as [|todo IH]; intros i ms u p it n; [discriminate|]. cbn [scc_loop]. destruct (pass z evmin w0 tol_norm X (Some (h1_of X u))) as [q|] eqn:EP; [|discriminate]. destruct (charges _ _ _ _ q) as [o|]; [|discriminate].
  destruct (m_call m ms u o) as [ms1 [d1 q1]]. destruct d1.
  - intros E. exists u. rewrite EP. congruence.
  - destruct todo as [|todo]; [discriminate|]. destruct (scc_loop _ _ m (S todo) (S i) ms1 q1) as [r c] eqn:EL. intros E. apply (IH (S i) ms1 q1 p it c). rewrite EL. congruence.
Qed.
Lemma states_pass X z evmin w0 tol_norm MAXE brentq tol_mull m scc maxiter ms u p it n :
  get_states (fun dq => pass z evmin w0 tol_norm X (Some (h1_of X dq))) (pass z evmin w0 tol_norm X None) (charges MAXE brentq tol_mull X) m scc maxiter ms u = (Returned p it, n) ->
  exists H1, pass z evmin w0 tol_norm X H1 = Some p /\ (forall h, H1 = Some h -> forall i j, h i j = h j i) /\ (H1 = None <-> scc = false).
Proof.
  unfold get_states. destruct scc.
  - intros E. apply loop_pass in E. destruct E as [dq E]. exists (Some (h1_of X dq)). split; [exact E|]. split; [|split; discriminate]. intros h Eh. replace h with (h1_of X dq) by congruence. apply h1_sym.
  - destruct maxiter; [discriminate|]. destruct (pass z evmin w0 tol_norm X None) as [q|] eqn:EP; [|discriminate]. destruct (charges _ _ _ _ q); [|discriminate]. intros E. exists None. split; [rewrite EP; congruence|]. split; [discriminate|split; reflexivity].
Qed.
Lemma bands_after z z' evmin evmin' w0 w0' tol_norm MAXE brentq tol_mull m scc maxiter ms u p it n mu l X bravais ks shift E ph E0 ph0 k j : 0 <= tol_norm ->
  system_at erfc Bohr Hartree gaussian gamma_cut goal width sepsilon scc D g nt l = Some X -> reliable z w0 X -> (forall Y, mats ks = Some Y -> reliable z' w0' Y) ->
  get_states (fun dq => pass z evmin w0 tol_norm X (Some (h1_of X dq))) (pass z evmin w0 tol_norm X None) (charges MAXE brentq tol_mull X) m scc maxiter ms u = (Returned p it, n) ->
  bands z' evmin' w0' tol_norm bravais (kept scc p mu (map fst l)) (Some ks) shift "kappa" scc = inr (E, ph) ->
  bands z' evmin' w0' tol_norm bravais (kept scc p mu (map fst l)) None shift "kappa" scc = inr (E0, ph0) ->
  (k < List.length ks)%nat -> (j < List.length l)%nat -> same_point (nth j (map fst l) vzero) (nth k ks vzero) ->
  forall a, (a < first_orbital (g_no D g) (g_N g))%nat -> E k a = E0 j a.
Proof.
  intros Ht EX RX RY GS B B0 Hk Hj SP a Ha. apply states_pass in GS. destruct GS as (H1 & EP & Sym & HS). apply bands_inv in B. destruct B as (_ & Y & e' & wf' & H1' & EY & EH & _ & EA & ->).
  destruct p as [[h e] wf]. unfold pass in EP. destruct (all_k z (s_norb X) (s_nk X) tol_norm evmin w0 (s_H0 X) (s_S X) H1) as [x|[e1 wf1]] eqn:EAX; [discriminate|].
  unfold bands, get_band_energies, kept in B0. cbn [b_e b_mu] in B0. assert (Q : (fun k a => e k a * Hartree - (if shift then mu * Hartree else 0)) = E0) by congruence. rewrite <- Q. unfold kept. cbn [b_mu]. f_equal. f_equal.
  assert (H1' = H1). { subst H1'. unfold kept. cbn [b_h1]. destruct scc; [|symmetry; apply HS; reflexivity]. destruct H1 as [h'|]; [congruence|]. destruct HS as [HS _]. specialize (HS eq_refl). discriminate. }
  subst H1'. replace e with e1 by congruence. rewrite H in EA.
  assert (Hj' : (j < List.length (map fst l))%nat) by (rewrite map_length; exact Hj).
  exact (same_energies false scc ks [] (map fst l) (map snd l) Y X k j z' z w0' w0 evmin' evmin tol_norm H1 EY EX Ht (RY Y EY) RX Sym Hk Hj' SP e' wf' e1 wf1 EA EAX a Ha).
Qed.
(** without SCC there is no h1 *)
Lemma bands_no_h1 z evmin w0 tol_norm bravais p mu l ks shift X : mats ks = Some X -> bands z evmin w0 tol_norm bravais (kept false p mu l) (Some ks) shift "kappa" true = inl NoH1.
Proof. intros EX. unfold bands, get_band_energies. change ("kappa" =? "k")%string with false. change ("kappa" =? "kappa")%string with true. cbv iota. change (matrices_at erfc Bohr Hartree gaussian gamma_cut goal width sepsilon D g nt ks) with (mats ks). rewrite EX. destruct p as [[h e] wf]. reflexivity. Qed.
(** C177 *)
Lemma phases_kept z evmin w0 tol_norm bravais st shift rs h1 : exists E, bands z evmin w0 tol_norm bravais st None shift rs h1 = inr (E, b_phases st).
Proof. eexists. reflexivity. Qed.
Lemma phases_replaced z evmin w0 tol_norm bravais st ks shift h1 E ph k : bands z evmin w0 tol_norm bravais st (Some ks) shift "kappa" h1 = inr (E, ph) ->
  grid_phases nt ph k = match nth_error ks k with Some q => Some (fun n => phase_at (nt n) q) | None => None end.
Proof. intros B. apply bands_inv in B. destruct B as [-> _]. reflexivity. Qed.
(** C178 *)
Lemma bands_bravais z evmin w0 tol_norm L st ks shift h1 : bands z evmin w0 tol_norm (Some L) st (Some ks) shift "k" h1 = bands z evmin w0 tol_norm (Some L) st (Some (map (mv L) ks)) shift "kappa" h1.
Proof. reflexivity. Qed.
Lemma bands_not_bravais z evmin w0 tol_norm st ks shift h1 : bands z evmin w0 tol_norm None st (Some ks) shift "k" h1 = inl NotBravais.
Proof. reflexivity. Qed.
Lemma bands_other_rs z evmin w0 tol_norm bravais st ks shift rs h1 : rs <> "k"%string -> rs <> "kappa"%string -> bands z evmin w0 tol_norm bravais st (Some ks) shift rs h1 = inl Unbound.
Proof. intros A B. unfold bands, get_band_energies. apply String.eqb_neq in A. apply String.eqb_neq in B. rewrite A, B. reflexivity. Qed.
End Two.
Lemma kappa_is_bloch L n k : phase_at n (mv L k) = bloch_factor L n k.
Proof.
  destruct n as [[a b] c]. unfold phase_at, bloch_factor, real_tuple.
  replace (vdot (V3 (IZR a) (IZR b) (IZR c)) (mv L k)) with (vdot k (vadd (vadd (vscale (IZR a) (mv (tr L) (V3 1 0 0))) (vscale (IZR b) (mv (tr L) (V3 0 1 0)))) (vscale (IZR c) (mv (tr L) (V3 0 0 1))))); [reflexivity|].
  destruct L as [[l11 l12 l13] [l21 l22 l23] [l31 l32 l33]], k as [x y w]. vunf. ring.
Qed.
(** k, -k and k plus a vector of the reciprocal lattice *)
Lemma bands_reciprocal erfc Bohr Hartree gaussian gamma_cut goal width sepsilon D g nt inv z z' evmin evmin' w0 w0' tol_norm L st ks ks' shift h1 E ph E' ph' k j (b : bool) G m : sound_images D g nt inv -> 0 <= tol_norm ->
  (forall X, matrices_at erfc Bohr Hartree gaussian gamma_cut goal width sepsilon D g nt (map (mv L) ks) = Some X -> reliable z w0 X) ->
  (forall Y, matrices_at erfc Bohr Hartree gaussian gamma_cut goal width sepsilon D g nt (map (mv L) ks') = Some Y -> reliable z' w0' Y) -> (forall h, b_h1 st = Some h -> forall i l, h i l = h l i) ->
  get_band_energies erfc Bohr Hartree gaussian gamma_cut goal width sepsilon D g nt (Some L) z evmin w0 tol_norm st (Some ks) shift "k" h1 = inr (E, ph) ->
  get_band_energies erfc Bohr Hartree gaussian gamma_cut goal width sepsilon D g nt (Some L) z' evmin' w0' tol_norm st (Some ks') shift "k" h1 = inr (E', ph') ->
  (k < List.length ks)%nat -> (j < List.length ks')%nat -> mv L G = vscale (2 * PI) (real_tuple m) -> nth k ks vzero = vadd (if b then vneg (nth j ks' vzero) else nth j ks' vzero) G ->
  forall a, (a < first_orbital (g_no D g) (g_N g))%nat -> E k a = E' j a.
Proof.
  intros SI Ht RX RY Sym B B' Hk Hj HG Ek a Ha. rewrite bands_bravais in B, B'.
  refine (bands_periodic erfc Bohr Hartree gaussian gamma_cut goal width sepsilon D g nt inv SI z z' evmin evmin' w0 w0' tol_norm (Some L) (Some L) st (map (mv L) ks) (map (mv L) ks') shift h1 E ph E' ph' k j Ht RX RY Sym B B' _ _ _ a Ha); rewrite ?map_length; try assumption.
  exists b, m. assert (Z : vzero = mv L vzero) by (destruct L as [[? ? ?] [? ? ?] [? ? ?]]; apply v3_eq; vunf; ring). rewrite Z, !map_nth, <- HG, Ek.
  destruct L as [[l11 l12 l13] [l21 l22 l23] [l31 l32 l33]], (nth j ks' vzero) as [x y w], G as [gx gy gz]. destruct b; apply v3_eq; unfold vneg; vunf; ring.
Qed.
Example ex_reciprocal : mv (M3 (V3 2 0 0) (V3 0 1 0) (V3 0 0 1)) (V3 PI 0 0) = vscale (2 * PI) (real_tuple (1, 0, 0)%Z).
Proof. unfold real_tuple. apply v3_eq; vunf; ring. Qed.
