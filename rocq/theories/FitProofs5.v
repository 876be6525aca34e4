(** Histories of calls: points, comments, colours *)
From Coquelicot Require Import Coquelicot.
From Coq Require Import Reals ZArith String List Bool Arith Lia Lra Psatz Sorting.Permutation Sorting.Sorted.
From Verif Require Import Vec GeomModel GeomProofs ContProofs PairModel FitModel FitSpec FitProofs FitProofs2 FitProofs3 FitProofs4.
Import ListNotations.
Open Scope R_scope.

Lemma append_assoc a b c : ((a ++ b) ++ c = a ++ (b ++ c))%string.
Proof. induction a as [|x a IH]; cbn; [reflexivity|]. rewrite IH. reflexivity. Qed.
Lemma append_nil_r a : (a ++ "" = a)%string.
Proof. induction a as [|x a IH]; cbn; [reflexivity|]. rewrite IH. reflexivity. Qed.
Lemma join_snoc l t : join (l ++ [t]) = match l with [] => t | _ => (join l ++ "|" ++ t)%string end.
Proof.
  induction l as [|a l IH]; [reflexivity|]. cbn [app]. destruct l as [|b l]; [reflexivity|].
  change (join (a :: (b :: l) ++ [t])) with (a ++ "|" ++ join ((b :: l) ++ [t]))%string. rewrite IH.
  change (join (a :: b :: l)) with (a ++ "|" ++ join (b :: l))%string. rewrite !append_assoc. reflexivity.
Qed.
Lemma join_empty l : Forall (fun s => s <> ""%string) l -> (String.length (join l) =? 0)%nat = match l with [] => true | _ => false end.
Proof.
  intros h. destruct l as [|a l]; [reflexivity|]. inversion h as [|x y h1 h2]; subst. destruct a as [|c a]; [contradiction|].
  destruct l; reflexivity.
Qed.
Lemma shown_nonempty c : Forall (fun s => s <> ""%string) (shown c).
Proof.
  destruct c as [s|]; [|constructor]. cbn [shown]. destruct ((s =? "")%string || (s =? "_nolegend_")%string) eqn:E; [constructor|].
  constructor; [|constructor]. apply orb_false_iff in E. destruct E as [E _]. apply String.eqb_neq, E.
Qed.
Lemma add_comment_join f l s : comments f = join l -> Forall (fun s => s <> ""%string) l -> s <> Some "_nolegend_"%string ->
  comments (add_comment f s) = join (l ++ shown s).
Proof.
  intros h hn hs. destruct s as [[|c s]|].
  - cbn. rewrite app_nil_r. exact h.
  - cbn [add_comment comments with_points]. unfold shown.
    replace ((String c s =? "")%string) with false by reflexivity. cbn [orb].
    destruct (String c s =? "_nolegend_")%string eqn:E; [apply String.eqb_eq in E; rewrite E in hs; contradiction|].
    rewrite join_snoc, h, (join_empty l hn). destruct l as [|a l]; reflexivity.
  - cbn. rewrite app_nil_r. exact h.
Qed.
Lemma append_point_comments f l w r dv c lab col : comments f = join l -> Forall (fun s => s <> ""%string) l ->
  comments (append_point f w r dv c lab col) = join (l ++ shown (or_else c lab)).
Proof.
  intros h hn. unfold append_point. change (match c with None => lab | Some _ => c end) with (or_else c lab). destruct (or_else c lab) as [s|] eqn:E.
  - destruct (s =? "_nolegend_")%string eqn:E2.
    + cbn [comments with_points shown]. rewrite E2, orb_true_r, app_nil_r. exact h.
    + apply add_comment_join; [exact h|exact hn|]. intros e. injection e as ->. discriminate E2.
  - cbn. rewrite app_nil_r. exact h.
Qed.
Lemma curve_points_comments w col : forall l f c com label, comments f = join c -> Forall (fun s => s <> ""%string) c ->
  comments (curve_points f w l com label col) = join (c ++ match l with [] => [] | _ => shown (or_else com label) end).
Proof.
  induction l as [|[r dv] l IH]; intros f c com label h hn; cbn [curve_points].
  - rewrite app_nil_r. exact h.
  - rewrite (IH _ (c ++ shown (or_else com label))).
    + destruct l; rewrite app_nil_r; reflexivity.
    + apply append_point_comments; assumption.
    + apply Forall_app. split; [exact hn|apply shown_nonempty].
Qed.
(** the fields that no call changes *)
Definition same_setup (f g : fitting) : Prop := r_cut f = r_cut g /\ tol f = tol g /\ scale f = scale g /\ structures f = structures g.
Lemma add_comment_same f s : same_setup f (add_comment f s) /\ pot (add_comment f s) = pot f.
Proof. destruct s as [[|c s]|]; repeat split; reflexivity. Qed.
Lemma append_point_same f w r dv c l col : let g := append_point f w r dv c l col in
  same_setup f g /\ pot g = pot f /\ colors g = colors f /\ colori g = colori f.
Proof.
  cbv zeta. unfold append_point. destruct (match c with None => l | Some _ => c end) as [[|x s]|]; try (repeat split; reflexivity).
  destruct (_ =? _)%string; repeat split; reflexivity.
Qed.
Lemma curve_points_same w col : forall l f com label, let g := curve_points f w l com label col in
  same_setup f g /\ pot g = pot f /\ colors g = colors f /\ colori g = colori f.
Proof.
  induction l as [|[r dv] l IH]; intros f com label; cbv zeta; cbn [curve_points]; [repeat split; reflexivity|].
  specialize (IH (append_point f w r dv com label col) None (Some "_nolegend_"%string)). cbv zeta in IH.
  pose proof (append_point_same f w r dv com label col) as h. cbv zeta in h.
  destruct IH as ((a1 & a2 & a3 & a4) & b & c & d). destruct h as ((e1 & e2 & e3 & e4) & g & h & i).
  repeat split; congruence.
Qed.
Lemma get_color_same f c : let g := fst (get_color f c) in same_setup f g /\ pot g = pot f /\ deriv g = deriv f /\ comments g = comments f.
Proof.
  unfold get_color. destruct c as [c|]; [cbn; repeat split|]. destruct (colors f) as [l|]; [|cbn; repeat split].
  destruct (_ =? _)%nat; cbn; repeat split.
Qed.
Section Histories.
Variables (wtext : R -> string) (slope : list (R * R) -> Z -> R -> R) (sort : list datum -> list datum)
  (splfit : list datum -> R -> Z -> R -> R) (quad : (R -> R) -> R -> R -> R) (interp : list (R * R) -> R -> R).
Notation step := (step wtext slope sort splfit quad interp).
Notation run := (run wtext slope sort splfit quad interp).

(** what one call does to the points and the comments *)
Definition grows (f g : fitting) (c : list string) : Prop :=
  same_setup f g /\ (exists new, deriv g = deriv f ++ new) /\
  (forall l, comments f = join l -> Forall (fun s => s <> ""%string) l -> comments g = join (l ++ c)).
Definition unchanged (f g : fitting) : Prop := same_setup f g /\ deriv g = deriv f /\ comments g = comments f /\ pot g = pot f.
Lemma unchanged_color f c : unchanged f (fst (get_color f c)).
Proof. pose proof (get_color_same f c) as h. cbv zeta in h. unfold unchanged. tauto. Qed.
Lemma unchanged_trans f g h : unchanged f g -> unchanged g h -> unchanged f h.
Proof. intros ((a1 & a2 & a3 & a4) & b & c & d) ((e1 & e2 & e3 & e4) & g1 & h1 & i1). unfold unchanged, same_setup. repeat split; congruence. Qed.
Lemma grows_after f g h c : unchanged f g -> grows g h c -> grows f h c.
Proof.
  intros ((a1 & a2 & a3 & a4) & b & d & e) ((e1 & e2 & e3 & e4) & (new & hn) & hc). split; [unfold same_setup; repeat split; congruence|]. split.
  - exists new. congruence.
  - intros l hl. apply hc. congruence.
Qed.
Lemma grows_point f w r dv c l col : grows f (append_point f w r dv c l col) (shown (or_else c l)).
Proof.
  split; [apply append_point_same|]. split.
  - destruct (append_point_deriv f w r dv c l col) as (lab & h). eexists. exact h.
  - intros k h hn. apply append_point_comments; assumption.
Qed.
Lemma grows_curve f w x l c lab col : grows f (curve_points f w (x :: l) c lab col) (shown (or_else c lab)).
Proof.
  split; [apply (curve_points_same w col (x :: l) f c lab)|]. split.
  - destruct (curve_points_deriv w col (x :: l) f c lab) as (new & h & _). exists new. exact h.
  - intros k h hn. apply (curve_points_comments w col (x :: l)); assumption.
Qed.
Lemma unchanged_refl f : unchanged f f. Proof. repeat split. Qed.
Lemma step_scalable f w e d c l col : let (g, r) := append_scalable wtext f w e d c l col in
  if succeeded r then grows f g (shown (op_comment wtext (OpScalable w e d c l col))) else unchanged f g.
Proof.
  unfold append_scalable. destruct (bonds _ _) as [[r [n|]]|x]; try apply unchanged_refl. pose proof (unchanged_color f col) as hc.
  destruct (get_color f col) as [g [cc|x]]; cbn [fst] in hc; [|exact hc]. cbn [op_comment]. destruct (or_else c l) as [s|]; [|exact hc].
  cbn [succeeded]. apply (grows_after f g); [exact hc|]. apply (grows_point g).
Qed.
Lemma step_curve f w fr c l col : let (g, r) := append_curve wtext slope f w fr c l col in
  if succeeded r then grows f g (shown (op_comment wtext (OpCurve w fr c l col))) else unchanged f g.
Proof.
  unfold append_curve. destruct (_ <? _)%nat; [apply unchanged_refl|]. destruct (collect _ _ _) as [[|[[[r a] b] n] t]|x]; try apply unchanged_refl.
  destruct (existsb _ t); [apply unchanged_refl|]. cbv zeta.
  set (sl := sort_by _ _). destruct (splrep_check _ _); [apply unchanged_refl|].
  assert (hsl : sl <> []).
  { intros e. pose proof (Permutation_length (sort_by_perm (fun '(r, _, _, _) => r) ((r, a, b, n) :: t))) as hp. fold sl in hp. rewrite e in hp. discriminate hp. }
  pose proof (unchanged_color f col) as hc.
  destruct (get_color f col) as [g [cc|x]]; cbn [fst] in hc; [|exact hc]. cbn [op_comment]. destruct (or_else c l) as [s|]; [|exact hc].
  cbn [succeeded]. apply (grows_after f g); [exact hc|]. destruct sl as [|[[[r1 a1] b1] n1] sl]; [contradiction|]. cbn [map]. apply grows_curve.
Qed.
Lemma step_grows f o : let (g, r) := step f o in
  if succeeded r then grows f g (shown (op_comment wtext o)) else same_setup f g /\ deriv g = deriv f /\ comments g = comments f /\ pot g = pot f.
Proof.
  destruct o as [w r dv c l col|w e d c l col|w r e c l col|w fr c l col|w fr c l col|w d p c l col|]; cbn [FitSpec.step].
  - apply grows_point.
  - apply step_scalable.
  - unfold append_dimer. pose proof (unchanged_color (with_dimer f r) col) as hc. destruct (get_color (with_dimer f r) col) as [g [cc|x]]; cbn [fst] in hc.
    + pose proof (step_scalable g w e (if leb r (r_cut g) then [r] else []) (or_else c (Some l)) (Some l) (Some cc)) as hs.
      assert (hu : unchanged f g) by (apply (unchanged_trans f (with_dimer f r)); [repeat split|exact hc]).
      destruct (append_scalable _ _ _ _ _ _ _ _) as [h [u|x]]; cbn [succeeded] in *.
      * cbn [op_comment] in *. replace (or_else (or_else c (Some l)) (Some l)) with (or_else c (Some l)) in hs by (destruct c; reflexivity).
        apply (grows_after f g); assumption.
      * apply (unchanged_trans f g); assumption.
    + apply (unchanged_trans f (with_dimer f r)); [repeat split|exact hc].
  - apply step_curve.
  - apply step_curve.
  - unfold append_cluster. destruct d as [|a d]; [apply unchanged_refl|]. pose proof (unchanged_color f col) as hc.
    destruct (get_color f col) as [g [cc|x]]; cbn [fst] in hc; [|exact hc]. cbn [succeeded]. apply (grows_after f g); [exact hc|]. 
    cbn [seq map op_comment]. apply (grows_curve g).
  - unfold fit. cbv zeta. destruct (fit_data _ _) as [dd|e].
    + destruct (splrep_check _ _) as [e|]; cbn [succeeded].
      * repeat split.
      * split; [repeat split|]. split; [exists []; rewrite app_nil_r; reflexivity|]. intros k hk hn. cbn. rewrite app_nil_r. exact hk.
    + repeat split.
Qed.
(** a call that fails leaves points, comments and potential alone *)
Lemma failed_call f o g e : step f o = (g, FErr e) -> deriv g = deriv f /\ comments g = comments f /\ pot g = pot f.
Proof. intros h. pose proof (step_grows f o) as hs. rewrite h in hs. cbn in hs. tauto. Qed.
(** points are never lost, whatever is called *)
Lemma points_kept l : forall f g rs, run f l = (g, rs) -> exists new, deriv g = deriv f ++ new.
Proof.
  induction l as [|o l IH]; intros f g rs; cbn [FitSpec.run].
  - intros h. injection h as <- _. exists []. rewrite app_nil_r. reflexivity.
  - pose proof (step_grows f o) as hs. destruct (step f o) as [f1 r] eqn:E. destruct (run f1 l) as [f2 rs2] eqn:E2. intros h. injection h as <- _.
    destruct (IH f1 f2 rs2 E2) as (new & hn). destruct (succeeded r).
    + destruct hs as (_ & (n1 & h1) & _). exists (n1 ++ new). rewrite hn, h1, app_assoc. reflexivity.
    + destruct hs as (_ & h1 & _). exists new. rewrite hn, h1. reflexivity.
Qed.
Lemma run_comments l : forall f c g rs, run f l = (g, rs) -> comments f = join c -> Forall (fun s => s <> ""%string) c ->
  comments g = join (c ++ comments_of wtext l rs).
Proof.
  induction l as [|o l IH]; intros f c g rs; cbn [FitSpec.run].
  - intros h hc hn. injection h as <- <-. cbn. rewrite app_nil_r. exact hc.
  - pose proof (step_grows f o) as hs. destruct (step f o) as [f1 r] eqn:E. destruct (run f1 l) as [f2 rs2] eqn:E2. intros h hc hn. injection h as <- <-.
    unfold comments_of. cbn [combine flat_map fst snd]. fold (comments_of wtext l rs2). destruct (succeeded r) eqn:E3.
    + destruct hs as (_ & _ & h1). rewrite (IH f1 (c ++ shown (op_comment wtext o)) f2 rs2 E2); [rewrite app_assoc; reflexivity|apply h1; assumption|].
      apply Forall_app. split; [exact hn|apply shown_nonempty].
    + destruct hs as (_ & _ & h1 & _). cbn [app]. apply (IH f1 c f2 rs2 E2); [congruence|exact hn].
Qed.
(** the comments are those of the successful calls, in order, separated by bars *)
Lemma comments_joined rc s k t l g rs : run (new_fitting rc s k t) l = (g, rs) -> comments g = join (comments_of wtext l rs).
Proof. intros h. apply (run_comments l _ [] g rs h); [reflexivity|constructor]. Qed.

(** ** Colours *)
Definition color_state (f : fitting) (n : nat) : Prop :=
  (colors f = Some all_colors /\ (n <= colori f <= 8)%nat) \/ (colors f = None /\ (n <= 8)%nat).
Lemma get_color_state f n c g r : color_state f n -> get_color f c = (g, r) ->
  color_state g (match c, r with None, FOk _ => S n | _, _ => n end).
Proof.
  intros h. unfold get_color. destruct c as [c|]; [intros e; injection e as <- <-; exact h|].
  destruct h as [[h1 h2]|[h1 h2]]; rewrite h1.
  - cbn [length all_colors]. destruct (S (colori f) =? 9)%nat eqn:E; intros e; injection e as <- <-.
    + right. split; [reflexivity|]. apply Nat.eqb_eq in E. lia.
    + apply Nat.eqb_neq in E. destruct (nth_error _ _) as [s|]; left; cbn [colors colori with_colors]; (split; [reflexivity|lia]).
  - intros e. injection e as <- <-. right. split; [reflexivity|exact h2].
Qed.
Lemma color_state_le f n m : color_state f n -> (m <= n)%nat -> color_state f m.
Proof. intros [[h1 h2]|[h1 h2]] h; [left|right]; (split; [exact h1|lia]). Qed.
Lemma color_state_eq f g n : color_state f n -> colors g = colors f -> colori g = colori f -> color_state g n.
Proof. unfold color_state. intros h -> ->. exact h. Qed.
Definition bump (o : op) (r : fres unit) (n : nat) : nat := if auto o && succeeded r then S n else n.
Lemma scalable_color f n w e d c l col : color_state f n -> let (g, r) := append_scalable wtext f w e d c l col in
  color_state g (match col, r with None, FOk _ => S n | _, _ => n end).
Proof.
  intros h. unfold append_scalable. destruct (bonds _ _) as [[r [m|]]|x]; [|destruct col; exact h|destruct col; exact h].
  destruct (get_color f col) as [g [cc|x]] eqn:E; pose proof (get_color_state f n col g _ h E) as hs.
  - destruct (or_else c l) as [s|].
    + match goal with |- context [append_point ?a ?b ?c ?d ?e ?f ?g] => pose proof (append_point_same a b c d e f g) as (_ & _ & h1 & h2) end.
      destruct col; (eapply color_state_eq; [exact hs|exact h1|exact h2]).
    + destruct col; [exact hs|]. eapply color_state_le; [exact hs|lia].
  - destruct col; exact hs.
Qed.
Lemma curve_color f n w fr c l col : color_state f n -> let (g, r) := append_curve wtext slope f w fr c l col in
  color_state g (match col, r with None, FOk _ => S n | _, _ => n end).
Proof.
  intros h. unfold append_curve. destruct (_ <? _)%nat; [destruct col; exact h|].
  destruct (collect _ _ _) as [[|[[[r a] b] m] t]|x]; [destruct col; exact h| |destruct col; exact h].
  destruct (existsb _ t); [destruct col; exact h|]. cbv zeta. destruct (splrep_check _ _); [destruct col; exact h|].
  destruct (get_color f col) as [g [cc|x]] eqn:E; pose proof (get_color_state f n col g _ h E) as hs.
  - destruct (or_else c l) as [s|].
    + match goal with |- context [curve_points ?a ?b ?c ?d ?e ?f] => pose proof (curve_points_same b f c a d e) as (_ & _ & h1 & h2) end.
      destruct col; (eapply color_state_eq; [exact hs|exact h1|exact h2]).
    + destruct col; [exact hs|]. eapply color_state_le; [exact hs|lia].
  - destruct col; exact hs.
Qed.
Lemma step_color f n o : color_state f n -> let (g, r) := step f o in color_state g (bump o r n).
Proof.
  intros h. destruct o as [w r dv c l col|w e d c l col|w r e c l col|w fr c l col|w fr c l col|w d p c l col|]; cbn [FitSpec.step]; unfold bump; cbn [auto].
  - cbn [andb]. pose proof (append_point_same f w r dv c l col) as (_ & _ & h1 & h2). eapply color_state_eq; [exact h|exact h1|exact h2].
  - pose proof (scalable_color f n w e d c l col h) as hs. destruct (append_scalable _ _ _ _ _ _ _ _) as [g [u|x]], col; exact hs.
  - unfold append_dimer. destruct (get_color (with_dimer f r) col) as [g [cc|x]] eqn:E;
      pose proof (get_color_state (with_dimer f r) n col g _ (color_state_eq f _ n h eq_refl eq_refl) E) as hs.
    + pose proof (scalable_color g _ w e (if leb r (r_cut g) then [r] else []) (or_else c (Some l)) (Some l) (Some cc) hs) as h2.
      destruct (append_scalable _ _ _ _ _ _ _ _) as [k [u|x]], col; cbn [andb succeeded]; try exact h2. eapply color_state_le; [exact h2|lia].
    + destruct col; exact hs.
  - pose proof (curve_color f n w fr c l col h) as hs. destruct (append_curve _ _ _ _ _ _ _ _) as [g [u|x]], col; exact hs.
  - unfold append_equilibrium. set (fr2 := map _ fr). pose proof (curve_color f n w fr2 c l col h) as hs. destruct (append_curve _ _ _ _ _ _ _ _) as [g [u|x]], col; exact hs.
  - unfold append_cluster. destruct d as [|a d]; [destruct col; exact h|].
    destruct (get_color f col) as [g [cc|x]] eqn:E; pose proof (get_color_state f n col g _ h E) as hs.
    + match goal with |- context [curve_points ?a ?b ?c ?d ?e ?f] => pose proof (curve_points_same b f c a d e) as (_ & _ & h1 & h2) end.
      destruct col; cbn [andb succeeded]; (eapply color_state_eq; [exact hs|exact h1|exact h2]).
    + destruct col; exact hs.
  - cbn [andb]. unfold fit. cbv zeta. destruct (fit_data _ _); [destruct (splrep_check _ _)|]; exact h.
Qed.
Lemma run_color l : forall f n g rs, color_state f n -> run f l = (g, rs) -> color_state g (n + auto_done l rs).
Proof.
  induction l as [|o l IH]; intros f n g rs h; cbn [FitSpec.run].
  - intros e. injection e as <- <-. cbn. rewrite Nat.add_0_r. exact h.
  - pose proof (step_color f n o h) as hs. destruct (step f o) as [f1 r]. destruct (run f1 l) as [f2 rs2] eqn:E. intros e. injection e as <- <-.
    specialize (IH f1 (bump o r n) f2 rs2 hs E). unfold auto_done. cbn [combine filter fst snd]. unfold bump in IH.
    destruct (auto o && succeeded r); cbn [length]; fold (auto_done l rs2).
    + rewrite <- plus_n_Sm. exact IH.
    + exact IH.
Qed.
(** no more than eight systems get an automatic colour *)
Lemma eight_colors rc s k t l g rs : run (new_fitting rc s k t) l = (g, rs) -> (auto_done l rs <= 8)%nat.
Proof.
  intros h. destruct (run_color l (new_fitting rc s k t) 0 g rs) as [[_ h1]|[_ h1]]; [|exact h|lia|lia].
  left. split; [reflexivity|cbn; lia].
Qed.
End Histories.
