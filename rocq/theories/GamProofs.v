From Coq Require Import Reals ZArith List Bool Arith Permutation Lra Lia.
From Verif Require Import Vec GeomModel GeomProofs PairModel PairSpec PairProofs CoulModel CoulProofs GamModel GamSpec.
Import ListNotations.
Open Scope R_scope.

(** ** sums over lists *)
Lemma lsum_ext {A} (l : list A) f g : (forall a, In a l -> f a = g a) -> lsum l f = lsum l g.
Proof. induction l as [|a l IH]; intros H; cbn [lsum]; [reflexivity|]. rewrite H by (left; reflexivity). rewrite IH; [reflexivity|]. intros b Hb. apply H. right. exact Hb. Qed.
Lemma lsum_app {A} (l l' : list A) f : lsum (l ++ l') f = lsum l f + lsum l' f.
Proof. induction l as [|a l IH]; cbn [lsum app]; [ring|]. rewrite IH. ring. Qed.
Lemma lsum_flat_map {A B} (l : list A) (g : A -> list B) f : lsum (flat_map g l) f = lsum l (fun a => lsum (g a) f).
Proof. induction l as [|a l IH]; cbn [lsum flat_map]; [reflexivity|]. rewrite lsum_app, IH. reflexivity. Qed.
Lemma lsum_map {A B} (l : list A) (g : A -> B) f : lsum (map g l) f = lsum l (fun a => f (g a)).
Proof. induction l as [|a l IH]; cbn [lsum map]; [reflexivity|]. rewrite IH. reflexivity. Qed.
Lemma lsum_filter {A} (l : list A) p f : lsum (filter p l) f = lsum l (fun a => if p a then f a else 0).
Proof. induction l as [|a l IH]; cbn [lsum filter]; [reflexivity|]. destruct (p a); cbn [lsum]; rewrite IH; ring. Qed.
Lemma lsum_plus {A} (l : list A) f g : lsum l (fun a => f a + g a) = lsum l f + lsum l g.
Proof. induction l as [|a l IH]; cbn [lsum]; [ring|]. rewrite IH. ring. Qed.
Lemma lsum_scal {A} (l : list A) k f : lsum l (fun a => k * f a) = k * lsum l f.
Proof. induction l as [|a l IH]; cbn [lsum]; [ring|]. rewrite IH. ring. Qed.
Lemma lsum_zero {A} (l : list A) : lsum l (fun _ => 0) = 0.
Proof. induction l as [|a l IH]; cbn [lsum]; [reflexivity|]. rewrite IH. ring. Qed.
Lemma lsum_perm {A} (l l' : list A) f : Permutation l l' -> lsum l f = lsum l' f.
Proof. induction 1; cbn [lsum]; try lra. Qed.
Lemma rsum_last n f : rsum (S n) f = rsum n f + f n.
Proof. reflexivity. Qed.
Lemma lsum_seq n f : lsum (seq 0 n) f = rsum n f.
Proof. induction n as [|n IH]; [reflexivity|]. rewrite seq_S, lsum_app, IH. cbn [lsum Nat.add rsum]. ring. Qed.
Lemma rsum_lsum {A} n (l : list A) f : rsum n (fun i => lsum l (fun a => f i a)) = lsum l (fun a => rsum n (fun i => f i a)).
Proof.
  induction l as [|a l IH]; cbn [lsum]; [apply rsum_zero|]. rewrite <- IH. rewrite <- rsum_plus. reflexivity.
Qed.
Lemma lsum_rsum_pick n k f : (k < n)%nat -> rsum n (fun i => if (k =? i)%nat then f i else 0) = f k.
Proof.
  intros H. rewrite (rsum_single n k); [rewrite Nat.eqb_refl; reflexivity|exact H|].
  intros i Hi Hne. rewrite (proj2 (Nat.eqb_neq k i)) by lia. reflexivity.
Qed.
Lemma D_lsum {A} (l : list A) (f : A -> R -> R) (f' : A -> R) x : (forall a, In a l -> derivable_pt_lim (f a) x (f' a)) ->
  derivable_pt_lim (fun t => lsum l (fun a => f a t)) x (lsum l f').
Proof.
  induction l as [|a l IH]; intros H; cbn [lsum]; [apply derivable_pt_lim_const|].
  apply (derivable_pt_lim_plus (f a) (fun t => lsum l (fun a => f a t))); [apply H; left; reflexivity|apply IH; intros b Hb; apply H; right; exact Hb].
Qed.
(** ** the neighbour list *)
Section Nb.
Variables (N : nat) (r : nat -> v3) (tr0 : cell -> v3) (rot : cell -> m3) (cutoff : option R).
Lemma zero_cell_iff c : zero_cell c = true <-> c = origin_cell.
Proof.
  unfold zero_cell, origin_cell, t1, t2, t3. destruct c as [[a b] c]. cbn [fst snd]. rewrite !andb_true_iff, !Z.eqb_eq. split; [intros [[-> ->] ->]; reflexivity|].
  intros H. injection H as -> -> ->. repeat split.
Qed.
Definition mk (x : cell * nat * nat) : neighbour :=
  let '(c, i, j) := x in let d := vnorm (drv r tr0 rot c i j) in Nb i j d (vscale (/ d) (drv r tr0 rot c i j)).
Definition trips (cs : list cell) : list (cell * nat * nat) :=
  flat_map (fun c => flat_map (fun i => map (fun j => (c, i, j)) (filter (mask r tr0 rot cutoff c i) (seq 0 N))) (seq 0 N)) cs.
Lemma trips_list cs : flat_map (cell_neighbours N r tr0 rot cutoff) cs = map mk (trips cs).
Proof.
  unfold trips, cell_neighbours. rewrite flat_map_concat_map, (flat_map_concat_map _ cs), concat_map, map_map. f_equal. apply map_ext. intros c.
  rewrite flat_map_concat_map, (flat_map_concat_map _ (seq 0 N)), concat_map, map_map. f_equal. apply map_ext. intros i. rewrite map_map. reflexivity.
Qed.
Lemma mask_iff c i j : mask r tr0 rot cutoff c i j = true <-> ~ (c = origin_cell /\ i = j) /\
  match cutoff with None => True | Some k => vnorm (drv r tr0 rot c i j) < k end.
Proof.
  clear N. unfold mask. rewrite andb_true_iff, negb_true_iff, andb_false_iff. rewrite <- !not_true_iff_false, zero_cell_iff, Nat.eqb_eq.
  destruct cutoff as [k|]; [rewrite ltb_true|]; split; intros [A B]; (split; [|assumption || tauto]); try tauto.
Qed.
Lemma in_trips cs x : In x (trips cs) <-> wanted N r tr0 rot cutoff cs x.
Proof.
  destruct x as [[c i] j]. unfold trips, wanted. rewrite in_flat_map. setoid_rewrite in_flat_map. setoid_rewrite in_map_iff. setoid_rewrite filter_In. setoid_rewrite in_seq. setoid_rewrite mask_iff.
  fold (image r tr0 rot c j). fold (drv r tr0 rot c i j). split.
  - intros (c' & Hc & i' & Hi & j' & E & Hj & A & B). injection E as -> -> ->. repeat split; try assumption; lia.
  - intros (Hc & Hi & Hj & A & B). exists c. split; [exact Hc|]. exists i. split; [lia|]. exists j. repeat split; try assumption; lia.
Qed.
Lemma nodup_filter {A} p (l : list A) : NoDup l -> NoDup (filter p l).
Proof. apply NoDup_filter. Qed.
Lemma nodup_trips cs : NoDup cs -> NoDup (trips cs).
Proof.
  intros H. apply nodup_flat_map; [exact H| |].
  - intros c _. apply nodup_flat_map; [apply seq_NoDup| |].
    + intros i _. apply FinFun.Injective_map_NoDup; [intros a b E; injection E as ->; reflexivity|]. apply NoDup_filter, seq_NoDup.
    + intros i i' x _ _ Hx Hx'. apply in_map_iff in Hx. destruct Hx as (j & <- & _). apply in_map_iff in Hx'. destruct Hx' as (j' & E & _). injection E. intros; subst; reflexivity.
  - intros c c' x _ _ Hx Hx'. apply in_flat_map in Hx. destruct Hx as (i & _ & Hx). apply in_map_iff in Hx. destruct Hx as (j & <- & _).
    apply in_flat_map in Hx'. destruct Hx' as (i' & _ & Hx'). apply in_map_iff in Hx'. destruct Hx' as (j' & E & _). injection E. intros; subst; reflexivity.
Qed.
Lemma vscale_norm k v : vnorm (vscale k v) = Rabs k * vnorm v.
Proof.
  unfold vnorm. replace (vdot (vscale k v) (vscale k v)) with (k * k * vdot v v) by (vunf; ring).
  rewrite sqrt_mult_alt by nra. rewrite <- sqrt_Rsqr_abs. reflexivity.
Qed.
Lemma mk_entry x : entry_of r tr0 rot x (mk x).
Proof.
  destruct x as [[c i] j]. unfold entry_of, mk. cbn [nb_i nb_j nb_d nb_n]. fold (image r tr0 rot c j). fold (drv r tr0 rot c i j). set (v := drv r tr0 rot c i j).
  repeat split.
  - apply v3_eq; vunf; field; assumption.
  - rewrite vscale_norm. pose proof (vnorm_nonneg v). rewrite Rabs_right by (left; apply Rinv_0_lt_compat; lra). field. assumption.
Qed.
(** contributions to one matrix element *)
Section Sum.
Variables (Bohr : R) (U : nat -> R) (term : nat -> nat -> R -> R * R).
Lemma G_fold l : forall G i j, fold_left (add_G Bohr term) l G i j =
  G i j + lsum l (fun b => if ((nb_i b =? i) && (nb_j b =? j))%nat then fst (term i j (nb_d b / Bohr)) else 0).
Proof.
  induction l as [|b l IH]; intros G i j; cbn [fold_left lsum]; [ring|]. rewrite IH. unfold add_G.
  rewrite (Nat.eqb_sym i), (Nat.eqb_sym j). destruct (nb_i b =? i)%nat eqn:E1; destruct (nb_j b =? j)%nat eqn:E2; cbn [andb]; try ring.
  apply Nat.eqb_eq in E1, E2. rewrite E1, E2. ring.
Qed.
Lemma dG_fold (p : v3 -> R) : (forall a b, p (vadd a b) = p a + p b) -> forall l G i j, p (fold_left (add_dG Bohr term) l G i j) =
  p (G i j) + lsum l (fun b => if ((nb_i b =? i) && (nb_j b =? j))%nat then p (vscale (snd (term i j (nb_d b / Bohr))) (nb_n b)) else 0).
Proof.
  intros Hp. induction l as [|b l IH]; intros G i j; cbn [fold_left lsum]; [ring|]. rewrite IH. unfold add_dG.
  rewrite (Nat.eqb_sym i), (Nat.eqb_sym j). destruct (nb_i b =? i)%nat eqn:E1; destruct (nb_j b =? j)%nat eqn:E2; cbn [andb]; try ring.
  apply Nat.eqb_eq in E1, E2. rewrite E1, E2, Hp. ring.
Qed.
Lemma pick_sum cs i j (h : cell -> R) (g : neighbour -> R) : (i < N)%nat -> (j < N)%nat -> (forall c, g (mk (c, i, j)) = h c) ->
  lsum (map mk (trips cs)) (fun b => if ((nb_i b =? i) && (nb_j b =? j))%nat then g b else 0) =
  lsum cs (fun c => if mask r tr0 rot cutoff c i j then h c else 0).
Proof.
  intros Hi Hj Hg. rewrite lsum_map. unfold trips. rewrite lsum_flat_map. apply lsum_ext. intros c _.
  rewrite lsum_flat_map, lsum_seq.
  rewrite (rsum_single N i); [|exact Hi|].
  - rewrite lsum_map, lsum_filter, lsum_seq. rewrite (rsum_single N j); [|exact Hj|].
    + cbn [mk nb_i nb_j]. rewrite !Nat.eqb_refl. cbn [andb]. rewrite <- Hg. reflexivity.
    + intros j' Hj' Hne. cbn [mk nb_i nb_j]. rewrite (proj2 (Nat.eqb_neq j' j)) by lia. rewrite andb_false_r. destruct (mask _ _ _ _ _ _ _); reflexivity.
  - intros i' Hi' Hne. rewrite lsum_map. transitivity (lsum (filter (mask r tr0 rot cutoff c i') (seq 0 N)) (fun _ => 0)); [|apply lsum_zero].
    apply lsum_ext. intros j' _. cbn [mk nb_i nb_j]. rewrite (proj2 (Nat.eqb_neq i' i)) by lia. reflexivity.
Qed.
Lemma G_value cs i j : (i < N)%nat -> (j < N)%nat ->
  gamma_G Bohr U term (flat_map (cell_neighbours N r tr0 rot cutoff) cs) i j =
  (if (i =? j)%nat then U i else 0) + lsum cs (fun c => if mask r tr0 rot cutoff c i j then fst (term i j (vnorm (drv r tr0 rot c i j) / Bohr)) else 0).
Proof. intros Hi Hj. unfold gamma_G. rewrite G_fold, trips_list. f_equal. apply pick_sum; try assumption. intros c. reflexivity. Qed.
Lemma dG_value (p : v3 -> R) cs i j : (forall a b, p (vadd a b) = p a + p b) -> p vzero = 0 -> (i < N)%nat -> (j < N)%nat ->
  p (gamma_dG Bohr term (flat_map (cell_neighbours N r tr0 rot cutoff) cs) i j) =
  lsum cs (fun c => if mask r tr0 rot cutoff c i j then
    p (vscale (snd (term i j (vnorm (drv r tr0 rot c i j) / Bohr))) (vscale (/ vnorm (drv r tr0 rot c i j)) (drv r tr0 rot c i j))) else 0).
Proof.
  intros Hp H0 Hi Hj. unfold gamma_dG. rewrite dG_fold by exact Hp. rewrite H0, trips_list, Rplus_0_l.
  apply (pick_sum cs i j _ (fun b => p (vscale (snd (term i j (nb_d b / Bohr))) (nb_n b)))); try assumption. intros c. reflexivity.
Qed.
End Sum.
End Nb.
