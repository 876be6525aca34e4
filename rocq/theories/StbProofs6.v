(** Selection of integrals, tables, ranges, timing *)
From Coq Require Import Reals ZArith String Ascii List Bool Arith Lia Lra Psatz.
From Verif Require Import Vec GeomModel TimerModel TimerProofs StbModel StbSpec StbProofs2 StbProofs3 StbProofs4.
Import ListNotations.
Open Scope R_scope.

(** ** Selection *)
Lemma last_match_app a b c : last_match (a ++ b) c = match last_match b c with Some x => Some x | None => last_match a c end.
Proof.
  unfold last_match. rewrite fold_left_app. generalize (fold_left (fun r nl => if is_letter (letter nl) c then Some nl else r) a None) as r. induction b as [|x b IH]; intros r; cbn [fold_left]; [destruct r; reflexivity|].
  rewrite IH. destruct (is_letter (letter x) c) eqn:E; [|reflexivity]. rewrite (IH (Some x)). destruct (fold_left _ b None); reflexivity.
Qed.
Lemma last_match_cons x b c : last_match (x :: b) c = match last_match b c with Some y => Some y | None => if is_letter (letter x) c then Some x else None end.
Proof. change (x :: b) with ([x] ++ b). rewrite last_match_app. reflexivity. Qed.
Lemma last_none val c : last_match val c = None <-> List.Forall (fun x => is_letter (letter x) c = false) val.
Proof.
  induction val as [|x b IH]; [split; [constructor|reflexivity]|]. rewrite last_match_cons. split.
  - intros h. destruct (last_match b c) eqn:E; [discriminate|]. destruct (is_letter (letter x) c) eqn:F; [discriminate|]. constructor; [exact F|]. apply IH. reflexivity.
  - intros h. inversion h as [|? ? h1 h2]; subst. rewrite (proj2 IH h2), h1. reflexivity.
Qed.
Lemma last_spec val c nl : last_match val c = Some nl <-> is_last val c nl.
Proof.
  split.
  - induction val as [|x b IH]; [discriminate|]. rewrite last_match_cons. destruct (last_match b c) as [y|] eqn:E.
    + intros e. injection e as ->. destruct (IH eq_refl) as (p & q & -> & h1 & h2). exists (x :: p), q. repeat split; assumption.
    + destruct (is_letter (letter x) c) eqn:F; [|discriminate]. intros e. injection e as ->. exists [], b. repeat split; [exact F|apply last_none; exact E].
  - intros (a & b & -> & h1 & h2). rewrite last_match_app, last_match_cons, (proj2 (last_none b c) h2), h1. reflexivity.
Qed.
Lemma has_last val c : has_letter val c <-> exists nl, is_last val c nl.
Proof.
  split.
  - intros (nl & hin & hl). destruct (last_match val c) as [y|] eqn:E; [exists y; apply last_spec; exact E|]. apply last_none in E. rewrite Forall_forall in E. rewrite (E nl hin) in hl. discriminate.
  - intros (nl & a & b & -> & hl & _). exists nl. split; [apply in_or_app; right; left; reflexivity|exact hl].
Qed.
Theorem select_spec val1 val2 i a b : In (i, a, b) (select_integrals val1 val2) <-> In i integrals /\ is_last val1 (String.get 0 i) a /\ is_last val2 (String.get 1 i) b.
Proof.
  unfold select_integrals. rewrite in_flat_map. split.
  - intros (x & hx & h). unfold select_orbitals in h. destruct (last_match val1 _) as [p|] eqn:E1; [|destruct h]. destruct (last_match val2 _) as [q|] eqn:E2; [|destruct h]. destruct h as [h|[]]. injection h as <- <- <-.
    split; [exact hx|]. split; apply last_spec; assumption.
  - intros (hi & h1 & h2). exists i. split; [exact hi|]. apply last_spec in h1. apply last_spec in h2. unfold select_orbitals. rewrite h1, h2. left. reflexivity.
Qed.
(** the names of the selected integrals: those for which both elements have orbitals, each once, in the order of the table *)
Theorem select_names val1 val2 : exists keep, map (fun s => fst (fst s)) (select_integrals val1 val2) = filter keep integrals /\
  forall i, keep i = true <-> has_letter val1 (String.get 0 i) /\ has_letter val2 (String.get 1 i).
Proof.
  exists (fun i => match select_orbitals val1 val2 i with (Some _, Some _) => true | _ => false end). split.
  - unfold select_integrals. induction integrals as [|i l IH]; [reflexivity|]. cbn [flat_map filter]. rewrite map_app, IH. destruct (select_orbitals val1 val2 i) as [[p|] [q|]]; reflexivity.
  - intros i. unfold select_orbitals. rewrite !has_last. split.
    + destruct (last_match val1 _) as [p|] eqn:E1; [|discriminate]. destruct (last_match val2 _) as [q|] eqn:E2; [|discriminate]. intros _. split; [exists p|exists q]; apply last_spec; assumption.
    + intros [[p h1] [q h2]]. apply last_spec in h1. apply last_spec in h2. rewrite h1, h2. reflexivity.
Qed.
Lemma select_nodup val1 val2 : NoDup (map (fun s => fst (fst s)) (select_integrals val1 val2)).
Proof.
  destruct (select_names val1 val2) as (k & -> & _). apply NoDup_filter. unfold integrals. repeat (constructor; [cbn; intuition discriminate|]). constructor.
Qed.

(** ** Rows *)
Lemma set_nth_len i x l : length (set_nth i x l) = length l.
Proof.
  unfold set_nth. rewrite app_length, firstn_length. destruct (skipn i l) as [|y t] eqn:E; assert (h : length (skipn i l) = (length l - i)%nat) by apply skipn_length; rewrite E in h; cbn [length] in *; lia.
Qed.
Lemma set_nth_get i x l k : (i < length l)%nat -> nth k (set_nth i x l) 0 = if Nat.eqb k i then x else nth k l 0.
Proof.
  revert i k. induction l as [|y l IH]; intros i k hi; [cbn in hi; lia|]. destruct i as [|i]; destruct k as [|k]; try reflexivity. cbn [length] in hi. change (set_nth (S i) x (y :: l)) with (y :: set_nth i x l). cbn [nth Nat.eqb]. apply IH. lia.
Qed.
Lemma index_of_ge s l : forall i k, index_of s l i = Some k -> (i <= k < i + length l)%nat /\ nth (k - i) l EmptyString = s.
Proof.
  induction l as [|x l IH]; intros i k; cbn [index_of]; [discriminate|]. destruct (String.eqb_spec x s) as [->|ne].
  - intros e. injection e as <-. cbn [length]. split; [lia|]. rewrite Nat.sub_diag. reflexivity.
  - intros e. destruct (IH _ _ e) as [h1 h2]. cbn [length]. split; [lia|]. replace (k - i)%nat with (S (k - S i)) by lia. exact h2.
Qed.
Lemma index_of_in s l : forall i, In s l -> exists k, index_of s l i = Some k.
Proof.
  induction l as [|x l IH]; intros i h; [destruct h|]. cbn [index_of]. destruct (String.eqb_spec x s) as [->|ne]; [eauto|]. destruct h as [->|h]; [destruct (ne eq_refl)|]. apply IH. exact h.
Qed.
Lemma index_integrals k : (k < 10)%nat -> index_of (nth k integrals EmptyString) integrals 0 = Some k.
Proof. intros h. destruct k as [|[|[|[|[|[|[|[|[|[|k]]]]]]]]]]; [reflexivity..|lia]. Qed.
Lemma mels_fold e1 e2 Rz grid sel : forall S0 H0 H20, length S0 = 10%nat -> length H0 = 10%nat -> length H20 = 10%nat -> NoDup (map (fun s => fst (fst s)) sel) -> (forall s, In s sel -> In (fst (fst s)) integrals) ->
  let r := fold_left (fun SHH s => let '(i, nl1, nl2) := s in
    match index_of i integrals 0 with
    | None => SHH
    | Some k => let l2 := match letter nl2 with Some c => match angular_momentum c with Some l => l | None => 0%nat end | None => 0%nat end in
        (set_nth k (int_S e1 e2 Rz grid k nl1 nl2) (fst (fst SHH)), set_nth k (int_H e1 e2 Rz grid k l2 nl1 nl2) (snd (fst SHH)), set_nth k (int_H2 e1 e2 Rz grid k nl1 nl2) (snd SHH))
    end) sel (S0, H0, H20) in
  (length (fst (fst r)) = 10%nat /\ length (snd (fst r)) = 10%nat /\ length (snd r) = 10%nat) /\
  forall k, (k < 10)%nat -> 
    (forall a b, In (nth k integrals EmptyString, a, b) sel -> nth k (fst (fst r)) 0 = int_S e1 e2 Rz grid k a b /\
       nth k (snd (fst r)) 0 = int_H e1 e2 Rz grid k (match letter b with Some c => match angular_momentum c with Some l => l | None => 0%nat end | None => 0%nat end) a b) /\
    ((forall a b, ~ In (nth k integrals EmptyString, a, b) sel) -> nth k (fst (fst r)) 0 = nth k S0 0 /\ nth k (snd (fst r)) 0 = nth k H0 0).
Proof.
  induction sel as [|[[i nl1] nl2] sel IH]; intros S0 H0 H20 hS hH hH2 nd hin.
  - cbn [fold_left fst snd]. split; [repeat split; assumption|]. intros k hk. split; [intros a b []|]. intros _. split; reflexivity.
  - cbn [fold_left]. destruct (index_of_in i integrals 0 (hin _ (or_introl eq_refl))) as [j hj]. rewrite hj. cbn [fst snd]. destruct (index_of_ge _ _ _ _ hj) as [j1 j2]. change (length integrals) with 10%nat in j1. rewrite Nat.sub_0_r in j2.
    inversion nd as [|? ? nd1 nd2]; subst. cbn [fst] in nd1. specialize (IH (set_nth j (int_S e1 e2 Rz grid j nl1 nl2) S0) (set_nth j (int_H e1 e2 Rz grid j (match letter nl2 with Some c => match angular_momentum c with Some l => l | None => 0%nat end | None => 0%nat end) nl1 nl2) H0) (set_nth j (int_H2 e1 e2 Rz grid j nl1 nl2) H20)).
    rewrite !set_nth_len in IH. specialize (IH hS hH hH2 nd2 (fun s h => hin s (or_intror h))). destruct IH as [IHl IHk]. split; [exact IHl|]. intros k hk. destruct (IHk k hk) as [A B].
    destruct (Nat.eq_dec k j) as [->|ne].
    + split.
      * intros a b [h|h]; [injection h as e1' e2'; subst a b|].
        -- assert (no : forall a b, ~ In (nth j integrals EmptyString, a, b) sel). { intros a b h. apply nd1. rewrite in_map_iff. exists (nth j integrals EmptyString, a, b). split; [reflexivity|exact h]. }
           destruct (B no) as [q1 q2]. rewrite set_nth_get, Nat.eqb_refl in q1 by lia. rewrite set_nth_get, Nat.eqb_refl in q2 by lia. split; [exact q1|exact q2].
        -- apply A. exact h.
      * intros no. exfalso. apply (no nl1 nl2). left. reflexivity.
    + assert (nn : nth k integrals EmptyString <> nth j integrals EmptyString). { intros e. apply ne. pose proof (index_integrals k hk) as a1. rewrite e, hj in a1. injection a1 as ->. reflexivity. }
      split.
      * intros a b [h|h]; [injection h as e1' _ _; exfalso; apply nn; symmetry; exact e1'|apply A; exact h].
      * intros no. destruct B as [q1 q2]; [intros a b h; apply (no a b); right; exact h|]. assert (kj : Nat.eqb k j = false) by (apply Nat.eqb_neq; exact ne). rewrite set_nth_get, kj in q1 by lia. rewrite set_nth_get, kj in q2 by lia. split; [exact q1|exact q2].
Qed.
(** what the rows of the tables hold: 10 elements of H, then 10 overlaps; zero for integrals that are not selected *)
Theorem row_entries e1 e2 Rz grid k : (k < 10)%nat -> length (fst (fst (row e1 e2 Rz grid))) = 20%nat /\
  (forall a b, is_last (valence e1) (String.get 0 (nth k integrals EmptyString)) a -> is_last (valence e2) (String.get 1 (nth k integrals EmptyString)) b ->
     nth (10 + k) (fst (fst (row e1 e2 Rz grid))) 0 = int_S e1 e2 Rz grid k a b /\
     nth k (fst (fst (row e1 e2 Rz grid))) 0 = int_H e1 e2 Rz grid k (snd (fst (nth k lm_of (0, 0, 0)%nat))) a b) /\
  (~ (has_letter (valence e1) (String.get 0 (nth k integrals EmptyString)) /\ has_letter (valence e2) (String.get 1 (nth k integrals EmptyString))) ->
     nth (10 + k) (fst (fst (row e1 e2 Rz grid))) 0 = 0 /\ nth k (fst (fst (row e1 e2 Rz grid))) 0 = 0).
Proof.
  intros hk. unfold row, calculate_mels. pose proof (mels_fold e1 e2 Rz grid (select_integrals (valence e1) (valence e2)) (repeat 0 10) (repeat 0 10) (repeat 0 10) eq_refl eq_refl eq_refl (select_nodup _ _)) as M.
  assert (hin : forall s, In s (select_integrals (valence e1) (valence e2)) -> In (fst (fst s)) integrals). { intros [[i a] b] h. apply select_spec in h. apply h. } specialize (M hin). cbv zeta in M.
  set (r := fold_left _ _ _) in *. destruct r as [[Sv H] H2]. cbn [fst snd] in *. destruct M as [(l1 & l2 & l3) M]. destruct (M k hk) as [A B].
  assert (ink : In (nth k integrals EmptyString) integrals) by (apply nth_In; exact hk).
  assert (hl : length H = 10%nat) by exact l2. split; [rewrite app_length; lia|]. rewrite (app_nth2 H) by lia. replace (10 + k - length H)%nat with k by lia. rewrite (app_nth1 H) by lia. split.
  - intros a b ha hb. destruct (A a b) as [-> ->]; [apply select_spec; repeat split; assumption|]. split; [reflexivity|]. f_equal.
    destruct hb as (p & q & _ & hl' & _). clear - hl' hk. unfold is_letter in hl'. destruct (letter b) as [c|]; [|discriminate].
    destruct k as [|[|[|[|[|[|[|[|[|[|k]]]]]]]]]]; [..|lia]; cbn [nth integrals String.get] in hl'; apply Ascii.eqb_eq in hl'; subst c; reflexivity.
  - intros no. destruct B as [-> ->].
    + intros a b h. apply select_spec in h. apply no. split; apply has_last; [exists a|exists b]; apply h.
    + split; (destruct k as [|[|[|[|[|[|[|[|[|[|k]]]]]]]]]]; [reflexivity..|lia]).
Qed.

(** ** Runs *)
Lemma linspace_len a b n : length (linspace a b n) = n.
Proof. unfold linspace. rewrite map_length, seq_length. reflexivity. Qed.
Definition rpoint (a b : R) (n i : nat) : R := a + INR i * ((b - a) / INR (n - 1)).
Lemma linspace_nth a b n i : (i < n)%nat -> nth i (linspace a b n) 0 = a + INR i * ((b - a) / INR (n - 1)).
Proof. intros h. unfold linspace. rewrite (nth_indep _ 0 (a + INR 0 * ((b - a) / INR (n - 1)))) by (rewrite map_length, seq_length; exact h). rewrite map_nth with (f := fun i => a + INR i * ((b - a) / INR (n - 1))) (d := 0%nat). rewrite seq_nth by exact h. reflexivity. Qed.
Lemma rows_fold ps Rz grid : forall acc m, fst (fold_left (fun s p => let '(r, m, _) := row (fst p) (snd p) Rz grid in (fst s ++ [r], fmax (snd s) m)) ps (acc, m)) = acc ++ map (fun p => fst (fst (row (fst p) (snd p) Rz grid))) ps.
Proof.
  induction ps as [|p ps IH]; intros acc m; cbn [fold_left map]; [rewrite app_nil_r; reflexivity|]. destruct (row (fst p) (snd p) Rz grid) as [[r m1] m2] eqn:E. cbn [fst snd]. rewrite IH, <- app_assoc. reflexivity.
Qed.
Lemma rows_at_spec ps Rz grid m : fst (rows_at ps Rz grid m) = map (fun p => fst (fst (row (fst p) (snd p) Rz grid))) ps.
Proof. unfold rows_at. rewrite rows_fold. reflexivity. Qed.
Lemma loop_spec w ps nt nr Rs : forall hm l hm', run_loop w ps nt nr Rs hm = SOk (l, hm') -> length l = length Rs /\
  forall i, (i < length Rs)%nat -> (forall j, (j <= i)%nat -> nth j Rs 0 <= 2 * w) -> exists grid, make_grid w (nth i Rs 0) nt nr = SOk grid /\ nth i l None = Some (map (fun p => fst (fst (row (fst p) (snd p) (nth i Rs 0) grid))) ps).
Proof.
  induction Rs as [|r Rs IH]; intros hm l hm' h; cbn [run_loop] in h.
  - injection h as <- <-. split; [reflexivity|]. intros i hi. cbn in hi. lia.
  - destruct (ltb (2 * w) r) eqn:E.
    + injection h as <- <-. split; [cbn [length]; rewrite map_length; reflexivity|]. intros i hi hj. specialize (hj 0%nat ltac:(lia)). cbn [nth] in hj. apply ltb_true in E. lra.
    + destruct (make_grid w r nt nr) as [grid|e] eqn:G; [|discriminate]. destruct (rows_at ps r grid hm) as [rows m] eqn:Rw. destruct (run_loop w ps nt nr Rs m) as [[l' m']|e] eqn:L; [|discriminate]. injection h as <- <-.
      destruct (IH _ _ _ L) as [h1 h2]. split; [cbn [length]; lia|]. intros i hi hj. destruct i as [|i].
      * exists grid. split; [exact G|]. cbn [nth]. f_equal. change rows with (fst (rows, m)). rewrite <- Rw. apply rows_at_spec.
      * cbn [nth]. apply h2; [cbn [length] in hi; lia|]. intros j hle. apply (hj (S j)). lia.
Qed.
Lemma loop_beyond w ps nt nr Rs : forall hm l hm', run_loop w ps nt nr Rs hm = SOk (l, hm') -> forall i, (i < length Rs)%nat -> (exists j, (j <= i)%nat /\ 2 * w < nth j Rs 0) -> nth i l None = None.
Proof.
  induction Rs as [|r Rs IH]; intros hm l hm' h i hi hex; cbn [run_loop] in h; [cbn in hi; lia|]. destruct (ltb (2 * w) r) eqn:E.
  - injection h as <- <-. change (None :: map (fun _ : R => None) Rs) with (map (fun _ : R => @None (list (list R))) (r :: Rs)). clear. revert i. induction (r :: Rs) as [|x t IH]; intros [|i]; try reflexivity. cbn [map nth]. apply IH.
  - destruct (make_grid w r nt nr) as [grid|e]; [|discriminate]. destruct (rows_at ps r grid hm) as [rows m]. destruct (run_loop w ps nt nr Rs m) as [[l' m']|e] eqn:L; [|discriminate]. injection h as <- <-.
    apply ltb_false in E. destruct hex as (j & hj & hlt). destruct j as [|j]; [cbn [nth] in hlt; lra|]. destruct i as [|i]; [lia|]. cbn [nth]. apply (IH _ _ _ L); [cbn [length] in hi; lia|]. exists j. split; [lia|exact hlt].
Qed.
Lemma ranges_spec limit es : forall w0 w, ranges limit es w0 = SOk w -> w0 <= w /\ forall e nl, In e es -> In nl (valence e) -> wf_range e limit nl <= w.
Proof.
  assert (fm : forall a b, a <= fmax a b /\ b <= fmax a b). { intros a b. unfold fmax. destruct (ltb a b) eqn:E; [apply ltb_true in E|apply ltb_false in E]; lra. }
  assert (fl : forall l x, x <= fold_left fmax l x /\ forall y, In y l -> y <= fold_left fmax l x). { induction l as [|y l IH]; intros x; cbn [fold_left]; [split; [lra|intros y []]|]. destruct (IH (fmax x y)) as [h1 h2]. destruct (fm x y). split; [lra|]. intros z [->|hz]; [lra|apply h2; exact hz]. }
  induction es as [|e es IH]; intros w0 w h; cbn [ranges] in h; [injection h as <-; split; [lra|intros e nl []]|].
  unfold list_max in h. destruct (map (wf_range e limit) (valence e)) as [|x l] eqn:E; [discriminate|]. destruct (IH _ _ h) as [h1 h2]. destruct (fm (fold_left fmax l x) w0) as [f1 f2]. split; [lra|]. intros e' nl [<-|he] hn; [|apply h2; assumption].
  assert (hin : In (wf_range e limit nl) (x :: l)) by (rewrite <- E; apply in_map; exact hn). destruct (fl l x) as [g1 g2]. destruct hin as [<-|hin]; [lra|]. specialize (g2 _ hin). lra.
Qed.
Theorem range_covers limit es w : get_range limit es = SOk w -> 0 <= w <= 20 /\ forall e nl, In e es -> In nl (valence e) -> wf_range e limit nl <= w.
Proof.
  unfold get_range. destruct (ranges limit es 0) as [w'|] eqn:E; [|discriminate]. destruct (ltb 20 w') eqn:L; [discriminate|]. intros e. injection e as <-. destruct (ranges_spec _ _ _ _ E) as [h1 h2]. apply ltb_false in L. split; [lra|exact h2].
Qed.
Lemma linspace_mono a b n i j : a <= b -> (i <= j < n)%nat -> nth i (linspace a b n) 0 <= nth j (linspace a b n) 0.
Proof.
  intros h hij. rewrite !linspace_nth by lia. destruct (Nat.eq_dec (n - 1) 0) as [e|ne]; [replace i with 0%nat by lia; replace j with 0%nat by lia; lra|]. assert (0 < INR (n - 1)) by (apply lt_0_INR; lia). apply Rplus_le_compat_l, Rmult_le_compat_r; [apply Rmult_le_pos; [lra|apply Rlt_le, Rinv_0_lt_compat; assumption]|apply le_INR; lia].
Qed.
Lemma nth_map_lt {A B} (F : A -> B) l i d e : (i < length l)%nat -> nth i (map F l) d = F (nth i l e).
Proof. intros h. rewrite (nth_indep _ d (F e)) by (rewrite map_length; exact h). apply map_nth. Qed.
(** the tables: one entry for each of the N distances and each pair; zeros beyond twice the range *)
Theorem run_tables ela elb R1 R2 N nt nr limit t : run ela elb R1 R2 N nt nr limit = SOk t -> R1 <= R2 ->
  / 1000 <= R1 /\ length t = N /\ exists w, get_range limit (elements ela elb) = SOk w /\ R1 <= 2 * w /\
  forall i, (i < N)%nat -> let Ri := R1 + INR i * ((R2 - R1) / INR (N - 1)) in
    (Ri <= 2 * w -> exists grid, make_grid w Ri nt nr = SOk grid /\ nth i t [] = map (fun p => fst (fst (row (fst p) (snd p) Ri grid))) (pairs ela elb)) /\
    (2 * w < Ri -> nth i t [] = repeat (repeat 0 20) (length (pairs ela elb))).
Proof.
  intros h hR. unfold run in h. destruct (ltb R1 (/ 1000)) eqn:E1; [discriminate|]. apply ltb_false in E1. split; [lra|]. destruct (get_range limit (elements ela elb)) as [w|] eqn:G; [|discriminate].
  destruct (run_loop w (pairs ela elb) nt nr (linspace R1 R2 N) 0) as [[l hm]|] eqn:L; [|discriminate]. destruct (leb hm 0) eqn:Z; [discriminate|]. apply leb_false in Z. apply (f_equal (fun r => match r with SOk x => x | SErr _ => [] end)) in h. cbv beta iota zeta in h. subst t.
  destruct (loop_spec _ _ _ _ _ _ _ _ L) as [h1 h2]. rewrite linspace_len in *. split; [rewrite map_length; exact h1|]. exists w. split; [reflexivity|]. split.
  - apply Rnot_lt_le. intros hlt. destruct N as [|N]; [cbn in L; injection L as <- <-; lra|]. unfold linspace in L. cbn [seq map run_loop] in L. rewrite Rmult_0_l, Rplus_0_r in L. assert (b : ltb (2 * w) R1 = true) by (apply ltb_true; exact hlt). rewrite b in L. injection L as <- <-. lra.
  - intros i hi Ri. pose proof (linspace_nth R1 R2 N i hi) as eRi. fold Ri in eRi.
    assert (nm : nth i (map (fun o => match o with Some rows => rows | None => repeat (repeat 0 20) (length (pairs ela elb)) end) l) [] = match nth i l None with Some rows => rows | None => repeat (repeat 0 20) (length (pairs ela elb)) end).
    { apply (nth_map_lt (fun o => match o with Some rows => rows | None => repeat (repeat 0 20) (length (pairs ela elb)) end)). lia. }
    rewrite nm. split.
    + intros hle. destruct (h2 i hi) as (grid & g1 & g2). { intros j hj. eapply Rle_trans; [apply (linspace_mono R1 R2 N j i); [exact hR|lia]|]. rewrite eRi. exact hle. } rewrite eRi in *. exists grid. rewrite g2. split; [exact g1|reflexivity].
    + intros hlt. rewrite (loop_beyond _ _ _ _ _ _ _ _ L i); [reflexivity|rewrite linspace_len; exact hi|]. exists i. split; [lia|]. rewrite eRi. exact hlt.
Qed.
Theorem run_rejects ela elb R1 R2 N nt nr limit : (R1 < / 1000 -> run ela elb R1 R2 N nt nr limit = SErr AssertionError) /\
  (forall w, / 1000 <= R1 -> get_range limit (elements ela elb) = SOk w -> 2 * w < R1 -> run ela elb R1 R2 N nt nr limit = SErr ZeroDivision).
Proof.
  unfold run. split.
  - intros h. assert (b : ltb R1 (/ 1000) = true) by (apply ltb_true; exact h). rewrite b. reflexivity.
  - intros w h G hlt. assert (b : ltb R1 (/ 1000) = false) by (apply ltb_false; exact h). rewrite b, G.
    assert (L : exists l, run_loop w (pairs ela elb) nt nr (linspace R1 R2 N) 0 = SOk (l, 0)).
    { destruct N as [|N]; [eexists; reflexivity|]. unfold linspace. cbn [seq map run_loop]. rewrite Rmult_0_l, Rplus_0_r. assert (b2 : ltb (2 * w) R1 = true) by (apply ltb_true; exact hlt). rewrite b2. eexists. reflexivity. }
    destruct L as [l ->]. assert (b3 : leb 0 0 = true) by (apply leb_true; lra). rewrite b3. reflexivity.
Qed.
Lemma loop_error w ps nt nr Rs : rmin < w -> (2 <= nt)%nat -> (2 <= nr)%nat -> (forall r, In r Rs -> 0 < r) -> forall hm i, (i < length Rs)%nat -> (forall j, (j <= i)%nat -> nth j Rs 0 <= 2 * w) -> make_grid w (nth i Rs 0) nt nr = SErr IndexError -> run_loop w ps nt nr Rs hm = SErr IndexError.
Proof.
  intros hw ht hr. induction Rs as [|r Rs IH]; intros hp hm i hi hj hg; [cbn in hi; lia|]. cbn [run_loop]. assert (b : ltb (2 * w) r = false) by (apply ltb_false; apply (hj 0%nat); lia). rewrite b.
  destruct (make_grid w r nt nr) as [grid|e] eqn:G.
  - destruct i as [|i]; [cbn [nth] in hg; congruence|]. destruct (rows_at ps r grid hm) as [rows m]. rewrite (IH (fun x h => hp x (or_intror h)) m i); [reflexivity|cbn [length] in hi; lia|intros j hle; apply (hj (S j)); lia|exact hg].
  - unfold make_grid in G. rewrite (never_illegal w r nt nr hw (hp r (or_introl eq_refl)) ht hr) in G. destruct (half_grid w r nt nr); congruence.
Qed.
(** a table that includes a distance between the sum of the range and the largest radius of a point, and twice the range, is not made *)
Theorem run_near_range ela elb R1 R2 N nt nr limit w i : / 1000 <= R1 -> R1 <= R2 -> (2 <= nt)%nat -> (2 <= nr)%nat -> get_range limit (elements ela elb) = SOk w -> rmin < w -> (i < N)%nat ->
  w + (rgrid w nr (nr - 2) + w) / 2 <= R1 + INR i * ((R2 - R1) / INR (N - 1)) <= 2 * w -> run ela elb R1 R2 N nt nr limit = SErr IndexError.
Proof.
  intros h1 hR ht hr G hw hi hI. unfold run. assert (b : ltb R1 (/ 1000) = false) by (apply ltb_false; exact h1). rewrite b, G. pose proof (linspace_nth R1 R2 N i hi) as e. assert (k : 0 < / 1000) by lra.
  assert (pos : forall r, In r (linspace R1 R2 N) -> 0 < r). { intros r hin. apply (In_nth _ _ 0) in hin. destruct hin as (j & hj & <-). rewrite linspace_len in hj. pose proof (linspace_mono R1 R2 N 0 j hR ltac:(lia)) as q. rewrite (linspace_nth R1 R2 N 0) in q by lia. cbn [INR] in q. lra. }
  rewrite (loop_error w (pairs ela elb) nt nr (linspace R1 R2 N) hw ht hr pos 0 i); [reflexivity|rewrite linspace_len; exact hi| |].
  - intros j hj. eapply Rle_trans; [apply (linspace_mono R1 R2 N j i hR); lia|]. rewrite e. apply hI.
  - rewrite e. apply grid_empty; [exact hw| |exact ht|exact hr|apply hI]. rewrite <- e. apply pos, nth_In. rewrite linspace_len. exact hi.
Qed.
(** in particular one that ends at twice the range *)
Theorem run_to_range ela elb R1 N nt nr limit w : / 1000 <= R1 -> (2 <= nt)%nat -> (2 <= nr)%nat -> (2 <= N)%nat -> get_range limit (elements ela elb) = SOk w -> rmin < w -> R1 <= 2 * w -> run ela elb R1 (2 * w) N nt nr limit = SErr IndexError.
Proof.
  intros h1 ht hr hN G hw hR. apply (run_near_range ela elb R1 (2 * w) N nt nr limit w (N - 1)); try assumption; [lia|]. assert (0 < INR (N - 1)) by (apply lt_0_INR; lia). replace (R1 + INR (N - 1) * ((2 * w - R1) / INR (N - 1))) with (2 * w) by (field; lra). pose proof (r_range w nr (nr - 2) hr hw ltac:(lia)). lra.
Qed.

(** ** Ranges of wave functions *)
Lemma wf_max_spec rw : 0 <= wf_max rw /\ (forall p, In p rw -> Rabs (snd p) <= wf_max rw) /\ (wf_max rw = 0 \/ exists p, In p rw /\ Rabs (snd p) = wf_max rw).
Proof.
  unfold wf_max. assert (g : forall l x, 0 <= x -> x <= fold_left fmax (map (fun p : R * R => Rabs (snd p)) l) x /\ (forall p, In p l -> Rabs (snd p) <= fold_left fmax (map (fun p : R * R => Rabs (snd p)) l) x) /\ (fold_left fmax (map (fun p : R * R => Rabs (snd p)) l) x = x \/ exists p, In p l /\ Rabs (snd p) = fold_left fmax (map (fun p : R * R => Rabs (snd p)) l) x)).
  { induction l as [|p l IH]; intros x hx; cbn [map fold_left]; [split; [lra|split; [intros p []|left; reflexivity]]|]. assert (fm : x <= fmax x (Rabs (snd p)) /\ Rabs (snd p) <= fmax x (Rabs (snd p)) /\ (fmax x (Rabs (snd p)) = x \/ fmax x (Rabs (snd p)) = Rabs (snd p))).
    { unfold fmax. destruct (ltb x (Rabs (snd p))) eqn:E; [apply ltb_true in E|apply ltb_false in E]; repeat split; try lra; tauto. }
    destruct fm as (f1 & f2 & f3). destruct (IH (fmax x (Rabs (snd p))) ltac:(lra)) as (h1 & h2 & h3). split; [lra|]. split.
    - intros q [<-|hq]; [lra|apply h2; exact hq].
    - destruct h3 as [h3|(q & hq & e)]; [|right; exists q; split; [right; exact hq|exact e]]. rewrite h3. destruct f3 as [f3|f3]; [left; exact f3|right; exists p; split; [left; reflexivity|symmetry; exact f3]]. }
  destruct (g rw 0 (Rle_refl 0)) as (h1 & h2 & h3). repeat split; assumption.
Qed.
Theorem range_tail limit rw r : find_range limit rw = Some r -> exists a wf b, rw = a ++ (r, wf) :: b /\ limit * wf_max rw < Rabs wf /\ List.Forall (fun p => Rabs (snd p) <= limit * wf_max rw) b.
Proof.
  unfold find_range. generalize (limit * wf_max rw) as c. intros c. destruct (find _ (rev rw)) as [p|] eqn:E; [|discriminate]. intros e. injection e as <-.
  assert (g : forall l, find (fun p : R * R => ltb c (Rabs (snd p))) l = Some p -> exists x y, l = x ++ p :: y /\ c < Rabs (snd p) /\ List.Forall (fun q => Rabs (snd q) <= c) x).
  { induction l as [|q l IH]; cbn [find]; [discriminate|]. destruct (ltb c (Rabs (snd q))) eqn:F; [apply ltb_true in F|apply ltb_false in F].
    - intros e. injection e as ->. exists [], l. repeat split; [exact F|constructor].
    - intros e. destruct (IH e) as (x & y & -> & h1 & h2). exists (q :: x), y. repeat split; [exact h1|]. constructor; assumption. }
  destruct (g _ E) as (x & y & e & h1 & h2). exists (rev y), (snd p), (rev x). split; [|split; [exact h1|]].
  - rewrite <- (rev_involutive rw), e, rev_app_distr. cbn [rev]. rewrite <- app_assoc. cbn [app]. rewrite <- surjective_pairing. reflexivity.
  - rewrite Forall_forall in *. intros q hq. apply h2. apply in_rev. exact hq.
Qed.
Theorem range_found limit rw : limit < 1 -> (exists p, In p rw /\ snd p <> 0) -> exists r, find_range limit rw = Some r.
Proof.
  intros hl (p & hp & hn). destruct (wf_max_spec rw) as (h1 & h2 & h3). assert (m0 : 0 < wf_max rw). { specialize (h2 p hp). pose proof (Rabs_pos_lt _ hn). lra. } destruct h3 as [h3|(q & hq & e)]; [lra|].
  unfold find_range. destruct (find _ (rev rw)) as [x|] eqn:F; [eexists; reflexivity|]. exfalso. apply in_rev in hq. pose proof (find_none _ _ F q hq) as k. cbn beta in k. apply ltb_false in k. rewrite e in k. nra.
Qed.

(** ** Timing *)
Local Open Scope string_scope.
(** whether a label is being timed *)
Definition view (t : timer) (l : string) : bool := match get_timer l t with Some i => running i | None => false end.
Definition upd (v : string -> bool) (l : string) (b : bool) : string -> bool := fun x => if string_dec x l then b else v x.
Fixpoint vrun (v : string -> bool) (ls : list (bool * string)) : option (string -> bool) :=
  match ls with [] => Some v | (b, l) :: ls => if Bool.eqb (v l) b then None else vrun (upd v l b) ls end.
Lemma timed_cons b l ls clock k0 : timed ((b, l) :: ls) clock k0 = (if b then Start l (clock k0) else Stop l (clock k0)) :: timed ls clock (S k0).
Proof.
  unfold timed. cbn [length seq map]. rewrite Nat.sub_diag. cbn [nth]. f_equal. apply map_ext_in. intros k hk. apply in_seq in hk. replace (k - k0)%nat with (S (k - S k0)) by lia. reflexivity.
Qed.
Lemma view_step t b l now : l <> t_label t -> running (t_info t) = true -> view t l = negb b ->
  let r := tstep t (if b then Start l now else Stop l now) in snd r = true /\ t_label (fst r) = t_label t /\ running (t_info (fst r)) = true /\ forall x, view (fst r) x = upd (view t) l b x.
Proof.
  intros hl hr hv. assert (main : forall t', t_label t' = t_label t -> get_timer (t_label t) t' = get_timer (t_label t) t -> running (t_info t') = true).
  { intros t' e g. rewrite <- e in g at 1. rewrite get_main in g. rewrite get_main in g. injection g as ->. exact hr. }
  unfold view in hv. destruct b; cbn [negb] in hv; cbn [tstep].
  - rewrite hr. destruct (get_timer l t) as [i|] eqn:E.
    + rewrite hv. unfold start_self. rewrite hv. cbn [fst snd]. split; [reflexivity|]. split; [apply label_put|]. split.
      * apply main; [apply label_put|]. rewrite get_put by eauto. destruct (string_dec (t_label t) l) as [e|_]; [destruct (hl (eq_sym e))|reflexivity].
      * intros x. unfold view, upd. rewrite get_put by eauto. destruct (string_dec x l); reflexivity.
    + unfold start_self. cbn [running fresh_info fst snd]. split; [reflexivity|]. split; [apply label_add|]. split.
      * apply main; [apply label_add|]. rewrite get_add by exact E. destruct (string_dec (t_label t) l) as [e|_]; [destruct (hl (eq_sym e))|reflexivity].
      * intros x. unfold view, upd. rewrite get_add by exact E. destruct (string_dec x l); reflexivity.
  - destruct (get_timer l t) as [i|] eqn:E; [|discriminate]. unfold stop_self. rewrite hv. cbn [fst snd]. split; [reflexivity|]. split; [apply label_put|]. split.
    + apply main; [apply label_put|]. rewrite get_put by eauto. destruct (string_dec (t_label t) l) as [e|_]; [destruct (hl (eq_sym e))|reflexivity].
    + intros x. unfold view, upd. rewrite get_put by eauto. destruct (string_dec x l); reflexivity.
Qed.
Lemma vrun_ext ls : forall v v', (forall x, v x = v' x) -> match vrun v ls, vrun v' ls with Some a, Some b => forall x, a x = b x | None, None => True | _, _ => False end.
Proof.
  induction ls as [|[b l] ls IH]; intros v v' h; cbn [vrun]; [exact h|]. rewrite h. destruct (Bool.eqb (v' l) b); [exact I|]. apply IH. intros x. unfold upd. destruct (string_dec x l); [reflexivity|apply h].
Qed.
Lemma view_run ls clock : forall t k0 v, (forall b l, In (b, l) ls -> l <> t_label t) -> running (t_info t) = true -> vrun (view t) ls = Some v ->
  let r := trun t (timed ls clock k0) in List.Forall (fun b => b = true) (snd r) /\ t_label (fst r) = t_label t /\ running (t_info (fst r)) = true /\ forall x, view (fst r) x = v x.
Proof.
  induction ls as [|[b l] ls IH]; intros t k0 v hl hr hv.
  - cbn in hv. injection hv as <-. cbn. repeat split; [constructor|exact hr].
  - rewrite timed_cons. cbn [trun]. cbn [vrun] in hv. destruct (Bool.eqb (view t l) b) eqn:E; [discriminate|]. assert (nb : view t l = negb b) by (destruct (view t l), b; cbn in E; congruence || reflexivity).
    destruct (view_step t b l (clock k0) (hl b l (or_introl eq_refl)) hr nb) as (s1 & s2 & s3 & s4). destruct (tstep t _) as [t' ok]. cbn [fst snd] in *. subst ok.
    pose proof (vrun_ext ls _ _ s4) as X. rewrite hv in X. destruct (vrun (view t') ls) as [v'|] eqn:V; [|destruct X].
    assert (hl' : forall b l, In (b, l) ls -> l <> t_label t') by (intros b' l' h; rewrite s2; apply (hl b' l'); right; exact h).
    destruct (IH t' (S k0) v' hl' s3 V) as (r1 & r2 & r3 & r4). destruct (trun t' (timed ls clock (S k0))) as [t'' bs]. cbn [fst snd] in *. repeat split; [constructor; [reflexivity|exact r1]|rewrite r2; exact s2|exact r3|intros x; rewrite r4; apply X].
Qed.
Lemma vrun_app a b v : vrun v (a ++ b) = match vrun v a with Some w => vrun w b | None => None end.
Proof. revert v. induction a as [|[c l] a IH]; intros v; cbn [app vrun]; [reflexivity|]. destruct (Bool.eqb (v l) c); [reflexivity|apply IH]. Qed.
(** starts and stops that leave no label running *)
Definition neutral (ls : list (bool * string)) : Prop := forall v, v "make grid" = false -> v "symmetrize" = false -> v "calculate_mels" = false -> v "prelude" = false -> exists w, vrun v ls = Some w /\ forall x, w x = v x.
Lemma neutral_app a b : neutral a -> neutral b -> neutral (a ++ b).
Proof.
  intros ha hb v h1 h2 h3 h4. destruct (ha v h1 h2 h3 h4) as (w & e & hw). rewrite vrun_app, e. destruct (hb w) as (u & e2 & hu); [rewrite hw; assumption..|]. exists u. split; [exact e2|]. intros x. rewrite hu. apply hw.
Qed.
Lemma neutral_nest o i : In o ["make grid"; "symmetrize"; "calculate_mels"; "prelude"] -> In i ["make grid"; "symmetrize"; "calculate_mels"; "prelude"] -> o <> i -> neutral [(true, o); (true, i); (false, i); (false, o)].
Proof.
  intros ho hi ne v h1 h2 h3 h4. assert (vo : v o = false) by (destruct ho as [<-|[<-|[<-|[<-|[]]]]]; assumption). assert (vi : v i = false) by (destruct hi as [<-|[<-|[<-|[<-|[]]]]]; assumption).
  assert (u1 : forall w l b, upd w l b l = b) by (intros w l b; unfold upd; destruct (string_dec l l); congruence). assert (u2 : forall w l l' b, l' <> l -> upd w l b l' = w l') by (intros w l l' b h; unfold upd; destruct (string_dec l' l); congruence).
  cbn [vrun]. rewrite vo. cbn [Bool.eqb]. rewrite (u2 v o i true) by congruence. rewrite vi. cbn [Bool.eqb]. rewrite u1. cbn [Bool.eqb]. rewrite (u2 _ i o false), (u2 _ i o true) by congruence. rewrite u1. cbn [Bool.eqb]. eexists. split; [reflexivity|].
  intros x. unfold upd. destruct (string_dec x o) as [->|]; [symmetry; exact vo|]. destruct (string_dec x i) as [->|]; [symmetry; exact vi|reflexivity].
Qed.
Lemma neutral_repeat a n : neutral a -> neutral (concat (repeat a n)).
Proof. intros h. induction n as [|n IH]; [intros v _ _ _ _; exists v; split; reflexivity|]. cbn [repeat concat]. apply neutral_app; assumption. Qed.
Lemma neutral_distance np : neutral (distance_calls np).
Proof.
  unfold distance_calls. apply neutral_app; [apply neutral_nest; [left; reflexivity|right; left; reflexivity|discriminate]|]. apply neutral_repeat. apply neutral_nest; [right; right; left; reflexivity|right; right; right; left; reflexivity|discriminate].
Qed.
Lemma run_view n np v : (forall l, In l ["calculate tables"; "define ranges"; "make grid"; "symmetrize"; "calculate_mels"; "prelude"] -> v l = false) ->
  exists w, vrun v (run_calls n np) = Some w /\ w "define ranges" = true /\ w "calculate tables" = false.
Proof.
  intros h. assert (u2 : forall w l l' b, l' <> l -> upd w l b l' = w l') by (intros w l l' b k; unfold upd; destruct (string_dec l' l); congruence). assert (u1 : forall w l b, upd w l b l = b) by (intros w l b; unfold upd; destruct (string_dec l l); congruence).
  unfold run_calls. rewrite vrun_app. cbn [vrun]. rewrite (h "calculate tables") by (left; reflexivity). cbn [Bool.eqb]. rewrite u2 by discriminate. rewrite (h "define ranges") by (right; left; reflexivity). cbn [Bool.eqb]. rewrite vrun_app.
  set (v2 := upd (upd v "calculate tables" true) "define ranges" true). destruct (neutral_repeat (distance_calls np) n (neutral_distance np) v2) as (w & e & hw).
  1-4: unfold v2; rewrite !u2 by discriminate; apply h; cbn; tauto.
  rewrite e. cbn [vrun]. rewrite hw. unfold v2 at 1. rewrite (u2 _ "define ranges") by discriminate. rewrite u1. cbn [Bool.eqb]. eexists. split; [reflexivity|]. rewrite u2 by discriminate. rewrite hw. unfold v2. rewrite !u1. split; reflexivity.
Qed.
Lemma run_labels n np b l : In (b, l) (run_calls n np) -> l <> "SlaterKosterTable".
Proof.
  assert (g : List.Forall (fun p => snd p <> "SlaterKosterTable") (run_calls n np)); [|intros h; rewrite Forall_forall in g; exact (g _ h)].
  unfold run_calls. assert (c : forall (ls : list (bool * string)) k, List.Forall (fun p => snd p <> "SlaterKosterTable") ls -> List.Forall (fun p => snd p <> "SlaterKosterTable") (concat (repeat ls k))). { intros ls k hls. induction k as [|k IH]; [constructor|]. cbn [repeat concat]. apply Forall_app. split; assumption. }
  apply Forall_app. split; [repeat constructor; discriminate|]. apply Forall_app. split; [|repeat constructor; discriminate]. apply c. apply Forall_app. split; [repeat constructor; discriminate|]. apply c. repeat constructor; discriminate.
Qed.
(** with timing, every call of the first run succeeds; the second run raises at its second call of the timer *)
Theorem second_run n np clock n' np' clock' t0 :
  let '(t1, oks) := trun (new_timer "SlaterKosterTable" t0) (timed (run_calls n np) clock 0) in
  List.Forall (fun b => b = true) oks /\ nth 1 (snd (trun t1 (timed (run_calls n' np') clock' 0))) true = false.
Proof.
  set (t := new_timer "SlaterKosterTable" t0). assert (hv : forall l, In l ["calculate tables"; "define ranges"; "make grid"; "symmetrize"; "calculate_mels"; "prelude"] -> view t l = false) by (intros l hl; cbn in hl; repeat (destruct hl as [<-|hl]; [reflexivity|]); destruct hl).
  destruct (run_view n np (view t) hv) as (w & e & w1 & w2). destruct (view_run (run_calls n np) clock t 0 w (fun b l => run_labels n np b l) eq_refl e) as (r1 & r2 & r3 & r4).
  destruct (trun t (timed (run_calls n np) clock 0)) as [t1 oks]. cbn [fst snd] in *. split; [exact r1|]. unfold run_calls. cbn [app]. rewrite !timed_cons. cbn [trun].
  assert (hl : "calculate tables" <> t_label t1) by (rewrite r2; discriminate). assert (hc : view t1 "calculate tables" = negb true) by (rewrite r4; exact w2).
  destruct (view_step t1 true "calculate tables" (clock' 0%nat) hl r3 hc) as (s1 & s2 & s3 & s4). destruct (tstep t1 (Start "calculate tables" (clock' 0%nat))) as [t2 ok]. cbn [fst snd] in *.
  assert (hd : view t2 "define ranges" = true). { rewrite s4. unfold upd. destruct (string_dec "define ranges" "calculate tables"); [discriminate|]. rewrite r4. exact w1. }
  unfold view in hd. assert (k : snd (tstep t2 (Start "define ranges" (clock' 1%nat))) = false). { cbn [tstep]. rewrite s3. destruct (get_timer "define ranges" t2) as [i|]; [|discriminate]. rewrite hd. reflexivity. }
  destruct (tstep t2 (Start "define ranges" (clock' 1%nat))) as [t3 ok3]. cbn [snd] in k. subst ok3. destruct (trun t3 _) as [t4 bs]. reflexivity.
Qed.
