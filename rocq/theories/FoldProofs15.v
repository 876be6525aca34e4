From Coq Require Import Reals ZArith List Bool Arith Lia Lra.
From Verif Require Import Vec GeomModel GeomSpec CoulModel MixModel PairModel PairSpec SkModel SkSpec Cpx RhoModel RhoSpec EigModel EigSpec InvModel InvSpec GamModel FoldSpec FoldProofs FoldProofs3 FoldProofs4 FoldProofs11 FoldProofs12 FoldProofs13.
Import ListNotations.
Open Scope R_scope.

(** ** systems *)
Theorem system_multiple m p D Q X Y z z' w0 w0' evmin evmin' MAXE brentq mx my tol_norm tol_mull tol_im Hartree Bohr scc maxiter (sx : mst mx) (sy : mst my) u v :
  unfolds m p D Q X Y -> layout (s_norb X) (s_N X) (s_o1 X) (s_no X) -> proper X -> reliable z w0 X -> reliable z' w0' Y -> 0 <= tol_norm -> scale_free brentq ->
  fresh_pair (s_N X) (s_N Y) mx my sx sy -> repeated m (s_N X) u v ->
  multiple_answer m p D Q X Y (calculate z evmin w0 MAXE brentq mx tol_norm tol_mull tol_im Hartree Bohr scc maxiter X sx u) (calculate z' evmin' w0' MAXE brentq my tol_norm tol_mull tol_im Hartree Bohr scc maxiter Y sy v).
Proof. intros. apply (fold_multiple _ _ _ _ _ _ brentq tol_mull). apply copies_multiply; assumption. Qed.
Theorem system_exact m p D Q X Y z z' w0 w0' evmin evmin' MAXE brentq mx my tol_norm tol_mull tol_im Hartree Bohr scc maxiter (sx : mst mx) (sy : mst my) u v :
  unfolds m p D Q X Y -> layout (s_norb X) (s_N X) (s_o1 X) (s_no X) -> proper X -> reliable z w0 X -> reliable z' w0' Y -> 0 <= tol_norm -> scale_free brentq ->
  fresh_pair (s_N X) (s_N Y) mx my sx sy -> repeated m (s_N X) u v -> exact_roots brentq -> 0 <= tol_mull -> s_nel X = rsum (s_N X) (s_val X) - s_charge X ->
  exact_multiple m p D Q X Y (calculate z evmin w0 MAXE brentq mx tol_norm tol_mull tol_im Hartree Bohr scc maxiter X sx u) (calculate z' evmin' w0' MAXE brentq my tol_norm tol_mull tol_im Hartree Bohr scc maxiter Y sy v).
Proof. intros. apply (fold_exact _ _ _ _ _ _ brentq tol_mull); [repeat split; assumption|]. apply copies_multiply; assumption. Qed.
(** ** structures *)
Theorem structure_multiple m p W v w D Bohr g h inv inv' erfc Hartree gaussian gamma_cut goal width sepsilon scc X Y z z' w0 w0' evmin evmin' MAXE brentq mx my tol_norm tol_mull tol_im maxiter (sx : mst mx) (sy : mst my) u u' :
  copies m p W v w D Bohr g h -> (scc = true -> exists wc cs cs', copied_cells m W v wc gamma_cut g h cs cs') -> sound D g inv -> sound D h inv' -> one_table D ->
  assemble erfc Bohr Hartree gaussian gamma_cut goal width sepsilon scc D g = Some X -> assemble erfc Bohr Hartree gaussian gamma_cut goal width sepsilon scc D h = Some Y ->
  reliable z w0 X -> reliable z' w0' Y -> 0 <= tol_norm -> scale_free brentq -> fresh_pair (s_N X) (s_N Y) mx my sx sy -> repeated m (s_N X) u u' ->
  let x := calculate z evmin w0 MAXE brentq mx tol_norm tol_mull tol_im Hartree Bohr scc maxiter X sx u in
  let y := calculate z' evmin' w0' MAXE brentq my tol_norm tol_mull tol_im Hartree Bohr scc maxiter Y sy u' in
  multiple_answer m p (fun c => turned_orbitals D g (W c)) (fun c => m3e (W c)) X Y x y /\
  (exact_roots brentq -> 0 <= tol_mull -> exact_multiple m p (fun c => turned_orbitals D g (W c)) (fun c => m3e (W c)) X Y x y).
Proof.
  intros C HT Sg Sh OT EX EY RX RY Ht SF F Hu x y.
  pose proof (structure_multiplies m p W v w D Bohr g h inv inv' erfc Hartree gaussian gamma_cut goal width sepsilon scc X Y z z' w0 w0' evmin evmin' MAXE brentq mx my tol_norm tol_mull tol_im maxiter sx sy u u' C HT Sg Sh OT EX EY RX RY Ht SF F Hu) as A.
  split; [exact (fold_multiple _ _ _ _ _ _ _ _ _ _ A)|]. intros ER HM. apply (fold_exact _ _ _ _ _ _ brentq tol_mull); [|exact A]. split; [exact ER|split; [exact (assembled_nel _ _ _ _ _ _ _ _ _ _ _ _ EX)|exact HM]].
Qed.
(** ** wedges and rings *)
Theorem wedge_systems M z D Bohr g h inv inv' erfc Hartree gaussian gamma_cut goal width sepsilon scc :
  wedge M z g -> molecule h -> placed M (wedge_turn M) (fun _ => vzero) g h -> sound D g inv -> sound D h inv' -> one_table D ->
  (assemble erfc Bohr Hartree gaussian gamma_cut goal width sepsilon scc D g = None <-> assemble erfc Bohr Hartree gaussian gamma_cut goal width sepsilon scc D h = None).
Proof.
  intros Wg Mh P Sg Sh OT. pose proof (assembled_copies _ _ _ _ _ D Bohr g h (wedge_copies M z D Bohr g h Wg Mh P) inv inv' Sg Sh OT erfc Hartree gaussian gamma_cut goal width sepsilon scc) as U.
  specialize (U ltac:(intros _; eexists _, _, _; apply (wedge_cells M z g h Wg Mh gamma_cut))).
  destruct (assemble _ _ _ _ _ _ _ _ _ D g), (assemble _ _ _ _ _ _ _ _ _ D h); split; intros E; try reflexivity; try discriminate; contradiction.
Qed.
Theorem wedge_is_ring M z D Bohr g h inv inv' erfc Hartree gaussian gamma_cut goal width sepsilon scc X Y za zb w0 w0' evmin evmin' MAXE brentq mx my tol_norm tol_mull tol_im maxiter (sx : mst mx) (sy : mst my) u u' :
  wedge M z g -> molecule h -> placed M (wedge_turn M) (fun _ => vzero) g h -> sound D g inv -> sound D h inv' -> one_table D ->
  assemble erfc Bohr Hartree gaussian gamma_cut goal width sepsilon scc D g = Some X -> assemble erfc Bohr Hartree gaussian gamma_cut goal width sepsilon scc D h = Some Y ->
  reliable za w0 X -> reliable zb w0' Y -> 0 <= tol_norm -> scale_free brentq -> fresh_pair (s_N X) (s_N Y) mx my sx sy -> repeated M (s_N X) u u' ->
  let x := calculate za evmin w0 MAXE brentq mx tol_norm tol_mull tol_im Hartree Bohr scc maxiter X sx u in
  let y := calculate zb evmin' w0' MAXE brentq my tol_norm tol_mull tol_im Hartree Bohr scc maxiter Y sy u' in
  multiple_answer M (wedge_phase M) (fun c => turned_orbitals D g (wedge_turn M c)) (fun c => m3e (wedge_turn M c)) X Y x y /\
  (exact_roots brentq -> 0 <= tol_mull -> exact_multiple M (wedge_phase M) (fun c => turned_orbitals D g (wedge_turn M c)) (fun c => m3e (wedge_turn M c)) X Y x y).
Proof.
  intros Wg Mh P Sg Sh OT EX EY RX RY Ht SF F Hu. apply (structure_multiple _ _ _ _ _ D Bohr g h inv inv' erfc Hartree gaussian gamma_cut goal width sepsilon) with (1 := wedge_copies M z D Bohr g h Wg Mh P); try assumption.
  intros _. eexists _, _, _. apply (wedge_cells M z g h Wg Mh gamma_cut).
Qed.
(** ** longer cells of a chain *)
Theorem longer_systems m z z' beta a kappa kappa' D Bohr g h inv inv' erfc Hartree gaussian gamma_cut goal width sepsilon scc :
  longer m z z' beta a kappa kappa' D Bohr g h -> (scc = true -> visited gamma_cut beta a g) -> sound D g inv -> sound D h inv' -> one_table D ->
  (assemble erfc Bohr Hartree gaussian gamma_cut goal width sepsilon scc D g = None <-> assemble erfc Bohr Hartree gaussian gamma_cut goal width sepsilon scc D h = None).
Proof.
  intros L V Sg Sh OT. pose proof (assembled_copies _ _ _ _ _ D Bohr g h (longer_copies m z z' beta a kappa kappa' D Bohr g h L) inv inv' Sg Sh OT erfc Hartree gaussian gamma_cut goal width sepsilon scc) as U.
  specialize (U ltac:(intros Hs; eexists _, _, _; apply (longer_cells m z z' beta a kappa kappa' D Bohr g h L gamma_cut (V Hs)))).
  destruct (assemble _ _ _ _ _ _ _ _ _ D g), (assemble _ _ _ _ _ _ _ _ _ D h); split; intros E; try reflexivity; try discriminate; contradiction.
Qed.
Theorem longer_is_same m z z' beta a kappa kappa' D Bohr g h inv inv' erfc Hartree gaussian gamma_cut goal width sepsilon scc X Y za zb w0 w0' evmin evmin' MAXE brentq mx my tol_norm tol_mull tol_im maxiter (sx : mst mx) (sy : mst my) u u' :
  longer m z z' beta a kappa kappa' D Bohr g h -> (scc = true -> visited gamma_cut beta a g) -> sound D g inv -> sound D h inv' -> one_table D ->
  assemble erfc Bohr Hartree gaussian gamma_cut goal width sepsilon scc D g = Some X -> assemble erfc Bohr Hartree gaussian gamma_cut goal width sepsilon scc D h = Some Y ->
  reliable za w0 X -> reliable zb w0' Y -> 0 <= tol_norm -> scale_free brentq -> fresh_pair (s_N X) (s_N Y) mx my sx sy -> repeated m (s_N X) u u' ->
  let x := calculate za evmin w0 MAXE brentq mx tol_norm tol_mull tol_im Hartree Bohr scc maxiter X sx u in
  let y := calculate zb evmin' w0' MAXE brentq my tol_norm tol_mull tol_im Hartree Bohr scc maxiter Y sy u' in
  let W := fun c => rotz (INR c * beta) in
  multiple_answer m (chain_phase m kappa) (fun c => turned_orbitals D g (W c)) (fun c => m3e (W c)) X Y x y /\
  (exact_roots brentq -> 0 <= tol_mull -> exact_multiple m (chain_phase m kappa) (fun c => turned_orbitals D g (W c)) (fun c => m3e (W c)) X Y x y).
Proof.
  intros L V Sg Sh OT EX EY RX RY Ht SF F Hu x y W. apply (structure_multiple _ _ _ _ _ D Bohr g h inv inv' erfc Hartree gaussian gamma_cut goal width sepsilon) with (1 := longer_copies m z z' beta a kappa kappa' D Bohr g h L); try assumption.
  intros Hs. eexists _, _, _. apply (longer_cells m z z' beta a kappa kappa' D Bohr g h L gamma_cut (V Hs)).
Qed.
