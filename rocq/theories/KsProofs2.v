From Coq Require Import Reals ZArith String Ascii List Bool Arith Lra Lia.
From Verif Require Import Vec GeomModel GeomProofs AtomModel AtomSpec AtomProofs AtomProofs2 AtomProofs3 AtomProofs5 SkProofs6 KsModel KsSpec KsProofs.
Import ListNotations.
Open Scope R_scope.

(** ** names *)
Definition table : list (nat * nat * string) :=
  flat_map (fun l => flat_map (fun n => match to_name n l with Some nl => [(n, l, nl)] | None => [] end) (seq 1 9)) (seq 0 10).
Definition occurs (occu : list (string * R)) (s : string) : bool := match lookup s occu with Some _ => true | None => false end.
Lemma filter_flat_map {A B} (p : B -> bool) (f : A -> list B) l : filter p (flat_map f l) = flat_map (fun a => filter p (f a)) l.
Proof. induction l as [|a l IH]; [reflexivity|]. cbn [flat_map]. rewrite filter_app, IH. reflexivity. Qed.
Lemma flat_map_ext' {A B} (f g : A -> list B) l : (forall a, f a = g a) -> flat_map f l = flat_map g l.
Proof. intros H. induction l as [|a l IH]; [reflexivity|]. cbn [flat_map]. rewrite H, IH. reflexivity. Qed.
Lemma list_states_table occu : list_states occu = filter (fun st => occurs occu (snd st)) table.
Proof.
  unfold list_states, table. rewrite filter_flat_map. apply flat_map_ext'. intros l. rewrite filter_flat_map. apply flat_map_ext'. intros n.
  destruct (to_name n l) as [nl|]; [|reflexivity]. cbn [filter snd]. unfold occurs. destruct (lookup nl occu); reflexivity.
Qed.
Fixpoint nodupb (l : list string) : bool := match l with [] => true | a :: l => negb (existsb (String.eqb a) l) && nodupb l end.
Lemma nodupb_ok l : nodupb l = true -> NoDup l.
Proof.
  induction l as [|a l IH]; [constructor|]. cbn [nodupb]. intros H. apply andb_prop in H. destruct H as [H1 H2]. constructor; [|apply IH; exact H2].
  intros Hin. apply Bool.negb_true_iff in H1. assert (existsb (String.eqb a) l = true) by (apply existsb_exists; exists a; split; [exact Hin|apply String.eqb_refl]). congruence.
Qed.
Lemma table_nodup : NoDup (map snd table). Proof. apply nodupb_ok. vm_compute. reflexivity. Qed.
Lemma NoDup_filter_map {A B} (f : A -> B) p l : NoDup (map f l) -> NoDup (map f (filter p l)).
Proof.
  induction l as [|a l IH]; [constructor|]. cbn [map filter]. intros H. inversion H as [|? ? H1 H2]. subst. destruct (p a); [|apply IH; exact H2].
  cbn [map]. constructor; [|apply IH; exact H2]. intros Hin. apply H1. apply in_map_iff in Hin. destruct Hin as (x & <- & Hx). apply filter_In in Hx. apply in_map. apply Hx.
Qed.
Lemma states_nodup occu : NoDup (map snd (list_states occu)).
Proof. rewrite list_states_table. apply NoDup_filter_map, table_nodup. Qed.
Lemma to_name_spec n l nl : to_name n l = Some nl -> (1 <= n <= 9)%nat -> (l <= 9)%nat /\ exists c, nth_error letters l = Some c /\ nl = String (digit n) (String c EmptyString).
Proof.
  unfold to_name. intros H Hn. destruct (nth_error letters l) as [c|] eqn:E; [|discriminate]. injection H as <-. split.
  - apply le_S_n. change 10%nat with (length letters). apply nth_error_Some. congruence.
  - exists c. split; [reflexivity|]. cbn [dec]. assert (X : (n <? 10)%nat = true) by (apply Nat.ltb_lt; lia). rewrite X. reflexivity.
Qed.
Lemma in_states occu n l nl : In (n, l, nl) (list_states occu) <-> (1 <= n <= 9)%nat /\ (l <= 9)%nat /\ to_name n l = Some nl /\ lookup nl occu <> None.
Proof.
  unfold list_states. rewrite in_flat_map. split.
  - intros (l' & Hl & H). apply in_flat_map in H. destruct H as (n' & Hn & H). apply in_seq in Hl. apply in_seq in Hn.
    destruct (to_name n' l') as [nl'|] eqn:E; [|destruct H]. destruct (lookup nl' occu) eqn:L; [|destruct H]. destruct H as [H|[]]. injection H as -> -> ->.
    repeat split; try lia; [exact E|congruence].
  - intros (Hn & Hl & E & L). exists l. split; [apply in_seq; lia|]. apply in_flat_map. exists n. split; [apply in_seq; lia|]. rewrite E.
    destruct (lookup nl occu); [left; reflexivity|congruence].
Qed.
Lemma name_round_trip n l s : (n <= 9)%nat -> to_name n l = Some s -> of_name s = Some (n, l).
Proof.
  intros Hn H. assert (Hl : (l <= 9)%nat). { apply le_S_n. change 10%nat with (length letters). apply nth_error_Some. unfold to_name in H. destruct (nth_error letters l); congruence. }
  assert (A : existsb (fun n => existsb (fun l => negb (match to_name n l with Some s => match of_name s with Some (a, b) => (a =? n)%nat && (b =? l)%nat | None => false end | None => false end)) (seq 0 10)) (seq 0 10) = false) by (vm_compute; reflexivity).
  destruct (of_name s) as [[a b]|] eqn:E.
  - assert (X : negb ((a =? n)%nat && (b =? l)%nat) = false); [|apply Bool.negb_false_iff in X; apply andb_prop in X; destruct X as [X1 X2]; apply Nat.eqb_eq in X1, X2; subst; reflexivity].
    destruct (negb _) eqn:X; [|reflexivity]. exfalso. rewrite <- Bool.not_true_iff_false in A. apply A. apply existsb_exists. exists n. split; [apply in_seq; lia|].
    apply existsb_exists. exists l. split; [apply in_seq; lia|]. rewrite H, E. exact X.
  - exfalso. rewrite <- Bool.not_true_iff_false in A. apply A. apply existsb_exists. exists n. split; [apply in_seq; lia|].
    apply existsb_exists. exists l. split; [apply in_seq; lia|]. rewrite H, E. reflexivity.
Qed.

(** ** sums *)
Lemma total_ext {A} (f g : A -> R) l : (forall a, In a l -> f a = g a) -> total f l = total g l.
Proof. induction l as [|a l IH]; intros H; [reflexivity|]. unfold total in *. cbn [fold_right]. rewrite (H a) by (left; reflexivity). rewrite IH; [reflexivity|]. intros x Hx. apply H. right. exact Hx. Qed.
Lemma fold_total {A} (f : A -> R) l s : fold_left (fun s a => s + f a) l s = s + total f l.
Proof. revert s. induction l as [|a l IH]; intros s; unfold total in *; cbn [fold_left fold_right]; [ring|]. rewrite IH. ring. Qed.
Lemma rsum_total {A} (f : A -> R) l d : rsum (length l) (fun a => f (nth a l d)) = total f l.
Proof.
  induction l as [|a l IH]; [reflexivity|]. unfold total in *. cbn [fold_right length]. rewrite <- IH. 
  change (S (length l)) with (1 + length l)%nat. rewrite rsum_split. cbn [rsum nth]. rewrite Rplus_0_l. f_equal.
Qed.
Lemma nel_total P : nel P = total snd (p_occu P).
Proof. unfold nel, electrons. rewrite fold_total. ring. Qed.
(** adding the states in the order of the table or in that of the configuration *)
Lemma lookup_cons {A} s (p : string * A) d : lookup s (p :: d) = if (fst p =? s)%string then Some (snd p) else lookup s d.
Proof. unfold lookup. cbn [find]. destruct (fst p =? s)%string; reflexivity. Qed.
Lemma total_names (ns : list string) occu : NoDup ns -> NoDup (map fst occu) ->
  total (fun s => val (lookup s occu)) ns = total (fun p => if existsb (String.eqb (fst p)) ns then snd p else 0) occu.
Proof.
  intros Hn. induction occu as [|[k x] occu IH]; intros Ho.
  - unfold total. cbn. induction ns as [|n ns IHn]; [reflexivity|]. cbn [fold_right]. inversion Hn. subst. rewrite IHn by assumption. cbn. ring.
  - cbn [map] in Ho. inversion Ho as [|? ? H1 H2]. subst. cbn [fst] in H1. transitivity ((if existsb (String.eqb k) ns then x else 0) + total (fun s => val (lookup s occu)) ns).
    2:{ rewrite IH by exact H2. reflexivity. }
    assert (L : forall s, lookup s ((k, x) :: occu) = if (k =? s)%string then Some x else lookup s occu) by (intros s; apply lookup_cons).
    assert (K : lookup k occu = None). { unfold lookup. destruct (find _ occu) as [q|] eqn:F; [|reflexivity]. apply find_some in F. destruct F as [F1 F2]. apply String.eqb_eq in F2. exfalso. apply H1. rewrite <- F2. apply in_map. exact F1. }
    clear IH Ho. induction ns as [|n ns IHn]; unfold total in *; cbn [fold_right existsb]; [ring|]. inversion Hn as [|? ? N1 N2]. subst. rewrite (IHn N2). rewrite L.
    rewrite (String.eqb_sym k n). destruct (n =? k)%string eqn:E.
    + apply String.eqb_eq in E. subst n. rewrite K. 
      assert (X : existsb (String.eqb k) ns = false). { rewrite <- Bool.not_true_iff_false. intros X. apply existsb_exists in X. destruct X as (y & Y1 & Y2). apply String.eqb_eq in Y2. subst. contradiction. }
      rewrite X. cbn [orb val]. ring.
    + cbn [orb]. ring.
Qed.
Lemma orbital_table s : existsb (String.eqb s) orbital_names = existsb (String.eqb s) (map snd table).
Proof.
  assert (I : forall a b, forallb (fun x => existsb (String.eqb x) b) a = true -> existsb (String.eqb s) a = true -> existsb (String.eqb s) b = true).
  { intros a b H1 H2. apply existsb_exists in H2. destruct H2 as (x & X1 & X2). apply String.eqb_eq in X2. subst x. apply (proj1 (forallb_forall _ _) H1). exact X1. }
  destruct (existsb (String.eqb s) orbital_names) eqn:A.
  - symmetry. apply (I orbital_names); [vm_compute; reflexivity|exact A].
  - destruct (existsb (String.eqb s) (map snd table)) eqn:B; [|reflexivity]. exfalso. rewrite (I (map snd table) orbital_names) in A; [discriminate|vm_compute; reflexivity|exact B].
Qed.
Lemma states_electrons P : NoDup (map fst (p_occu P)) -> total (fun st => occ_of P (snd st)) (states P) = calculated (p_occu P).
Proof.
  intros H. unfold calculated. rewrite (total_ext _ (fun p => if existsb (String.eqb (fst p)) (map snd table) then snd p else 0)) by (intros a _; rewrite orbital_table; reflexivity).
  rewrite <- (total_names (map snd table) (p_occu P) table_nodup H). unfold states. rewrite list_states_table.
  induction table as [|st t IH]; [reflexivity|]. cbn [filter map]. unfold total in *. cbn [fold_right]. rewrite <- IH. clear IH.
  destruct (lookup (snd st) (p_occu P)) as [x|] eqn:L.
  - assert (O : occurs (p_occu P) (snd st) = true) by (unfold occurs; rewrite L; reflexivity). rewrite O. cbn [fold_right]. f_equal. unfold occ_of. rewrite L. reflexivity.
  - assert (O : occurs (p_occu P) (snd st) = false) by (unfold occurs; rewrite L; reflexivity). rewrite O. cbn [val]. ring.
Qed.

(** ** grid *)
Section Run.
Variable P : params.
Hypothesis Hg : fine_grid P.
Notation N := (gN P).
Lemma g_log : ln (p_rmax P / g_rmin P) = ln (100 * p_Z P * p_rmax P).
Proof. destruct Hg as (HZ & _ & HR). f_equal. unfold g_rmin. field. lra. Qed.
Lemma g_N : (2 <= N)%nat.
Proof. destruct Hg as (_ & [A B] & _). destruct (le_lt_dec 2 N) as [h|h]; [exact h|]. exfalso. replace (N - 1)%nat with 0%nat in B by lia. cbn [INR] in B. lra. Qed.
Lemma g_dx : 0 < dx P < 2.
Proof.
  pose proof g_N as HN. destruct Hg as (_ & [A B] & _). assert (I : 0 < INR (N - 1)) by (apply lt_0_INR; lia).
  assert (E : dx P = ln (100 * p_Z P * p_rmax P) / INR (N - 1)) by (unfold dx, xgrid; rewrite g_log; cbn [INR]; field; lra).
  rewrite E. split; [apply Rdiv_lt_0_compat; lra|]. apply Rmult_lt_reg_r with (INR (N - 1)); [exact I|]. unfold Rdiv. rewrite Rmult_assoc, Rinv_l by lra. lra.
Qed.
Lemma g_pos i : 0 < rgrid P i.
Proof. unfold rgrid, g_rmin. destruct Hg as (HZ & _). apply Rmult_lt_0_compat; [|apply exp_pos]. apply Rdiv_lt_0_compat; lra. Qed.
Lemma g_inc : increasing N (rgrid P).
Proof.
  intros i _. unfold rgrid. apply Rmult_lt_compat_l; [unfold g_rmin; destruct Hg as (HZ & _); apply Rdiv_lt_0_compat; lra|]. apply exp_increasing.
  pose proof g_dx as [D _]. unfold dx in D. unfold xgrid in *. rewrite S_INR. cbn [INR] in D. lra.
Qed.
(** ** eigenstates of one pass *)
Lemma solves_norm n l v eps u : solves P n l v eps u -> g_integrate N (rgrid P) (fun i => u i ^ 2) false = 1.
Proof. unfold solves, eigenstate. destruct (p_scalarrel P); tauto. Qed.
Lemma solves_relativistic veff n l epsmax fuel u eps0 delta dir e : p_scalarrel P = true ->
  eig_loop N (rgrid P) (dx P) (coefs P veff l) l (nodes_of n l) epsmax fuel u eps0 delta dir = KOk e -> 0 < e_u e 1%nat -> solves P n l veff (e_eps e) (e_u e).
Proof.
  intros Hs E U. pose proof g_N as HN. pose proof g_dx as Hdx. unfold solves. rewrite Hs.
  destruct (eig_ok _ _ _ _ _ _ _ _ _ _ _ _ _ E) as (u0 & c0 & c1 & c2 & s & C & B1 & B2 & Sh & _ & Eu & En & _).
  unfold coefs in C. rewrite Hs in C. apply pair_equal_spec in C. destruct C as [C C2]. apply pair_equal_spec in C. destruct C as [C0 C1].
  set (r := rgrid P) in *. set (dv := p_deriv P veff) in *. set (eps := e_eps e) in *. set (h := dx P) in *.
  set (k := norm_of N r s) in *.
  assert (K : 0 < k). { destruct (Rlt_le_dec 0 k) as [x|x]; [exact x|]. exfalso. rewrite Eu in U. rewrite (sqrt_neg_0 k x) in U. unfold Rdiv in U. rewrite Rinv_0, Rmult_0_r in U. lra. }
  pose proof (sqrt_lt_R0 k K) as K2.
  split. { rewrite Eu. apply (integrate_norm N r (sh_u s) k HN K). reflexivity. }
  split; [exact U|]. cbv zeta. intros Hq.
  assert (MM : forall i, 1 + / 2 * (eps - veff i) / (137036 / 1000) ^ 2 = rel_mass (veff i) eps) by (intros i; unfold rel_mass; field).
  assert (C1' : forall i, c1 i = rel_weight (r i) (veff i) (dv i) eps - 1). { intros i. rewrite <- C1. cbv beta. rewrite MM. reflexivity. }
  assert (C0' : forall i, (1 <= i <= N - 2)%nat -> c0 i = - (INR l * (INR l + 1)) - 2 * rel_mass (veff i) eps * r i ^ 2 * (veff i - eps) - rel_weight (r i) (veff i) (dv i) eps).
  { intros i Hi. rewrite <- C0. cbv beta. rewrite MM. unfold rel_weight. field. destruct (Hq i Hi) as (M & _). lra. }
  assert (C2' : forall i, c2 i = 1) by (intros i; rewrite <- C2; reflexivity).
  assert (Hm : forall i, (1 <= i <= N - 2)%nat -> fm h c2 c1 i <> 0).
  { intros i Hi Z. destruct (Hq i Hi) as (_ & _ & Q). apply Q. unfold fm in Z. rewrite C1', C2' in Z. set (q := rel_weight _ _ _ _) in *. apply (f_equal (fun x => x * (2 * h ^ 2))) in Z. replace ((1 / h ^ 2 - / 2 * (q - 1) / h) * (2 * h ^ 2)) with (2 + h * (1 - q)) in Z by (field; lra). lra. }
  assert (Hp : forall i, (1 <= i <= N - 2)%nat -> fp h c2 c1 i <> 0).
  { intros i Hi Z. destruct (Hq i Hi) as (_ & Q & _). apply Q. unfold fp in Z. rewrite C1', C2' in Z. set (q := rel_weight _ _ _ _) in *. apply (f_equal (fun x => x * (2 * h ^ 2))) in Z. replace ((1 / h ^ 2 + / 2 * (q - 1) / h) * (2 * h ^ 2)) with (2 - h * (1 - q)) in Z by (field; lra). lra. }
  assert (U1 : sh_u s 1%nat <> 0). { intros Z. rewrite Eu in U. rewrite Z in U. unfold Rdiv in U. rewrite Rmult_0_l in U. lra. }
  assert (Dn : h <> 0) by lra. pose proof (shoot_ctp _ _ _ _ _ _ _ HN Dn Hm Hp Sh U1) as Uc.
  destruct (shoot_spec h c2 c1 c0 (N) Dn Hm Hp u0 s HN Sh Uc U1) as (T1 & T2 & _).
  assert (Nd : sh_nodes s = length (filter (fun j => ltb (sh_u s j * sh_u s (j + 1)%nat) 0) (seq 0 (sh_ctp s - 1)))).
  { revert Sh. unfold shoot. destruct (back _ _ _ _ _ _ _) as [[u2 c]|]; [|discriminate]. intros X. injection X as <-. reflexivity. }
  exists (sh_ctp s). split; [exact T1|]. split.
  { unfold nodes_of in En. rewrite <- En, Nd. f_equal. rewrite Eu. apply sign_scale. exact K2. }
  intros i Hi Hne. specialize (T2 i Hi Hne). rewrite Eu. transitivity (residual h c2 c1 c0 (sh_u s) i / sqrt k); [|rewrite T2; unfold Rdiv; ring].
  rewrite <- residual_scale. unfold residual, scalar_relativistic. rewrite (C0' i Hi), C1', C2'. fold h. field. lra.
Qed.
Lemma solve_state_spec it veff n l nl o o' k : solve_state P it veff n l nl o = KOk (o', k) ->
  solves P n l veff (o_enl o' nl) (o_unl o' nl) /\ o_denl o' nl = Rabs (o_enl o' nl - o_enl o nl) /\
  (forall s, s <> nl -> o_enl o' s = o_enl o s /\ o_denl o' s = o_denl o s /\ o_unl o' s = o_unl o s) /\ (1 <= k <= 101)%nat /\
  o_enl o' nl <= Rmax (match it with O => - (p_Z P ^ 2 / INR n ^ 2) | _ => o_enl o nl end) (veff (N - 1)%nat - INR l * (INR l + 1) / (2 * rgrid P (N - 1) ^ 2)).
Proof.
  unfold solve_state. set (eps := match it with O => _ | _ => _ end). set (delta := if (it <=? 3)%nat then _ else _). set (epsmax := _ - _).
  destruct (eig_loop _ _ _ _ _ _ _ _ _ _ _ _) as [e|] eqn:E; [|discriminate]. destruct (ltb 0 (e_u e 1%nat)) eqn:U; [|discriminate]. apply ltb_true in U.
  intros H. apply (f_equal (fun x => match x with KOk y => y | KErr _ => (o, 0%nat) end)) in H. cbv beta iota in H. apply pair_equal_spec in H. destruct H as [H1 H2]. subst o' k. cbn [o_enl o_denl o_unl].
  assert (Q : forall {T} (f : string -> T) x, set_str f nl x nl = x) by (intros; unfold set_str; rewrite String.eqb_refl; reflexivity).
  rewrite !Q. destruct (eig_ok _ _ _ _ _ _ _ _ _ _ _ _ _ E) as (_ & _ & _ & _ & _ & _ & _ & _ & _ & _ & _ & _ & _ & _ & B & C).
  split.
  - destruct (p_scalarrel P) eqn:Hs; [exact (solves_relativistic _ _ _ _ _ _ _ _ _ _ Hs E U)|]. unfold solves. rewrite Hs. unfold coefs in E. rewrite Hs in E.
    exact (proj1 (eig_state N (rgrid P) (dx P) veff n l epsmax 101 (fun _ => 0) eps delta DNone e g_N g_dx (fun i _ => g_pos i) E U)).
  - split; [reflexivity|]. split; [|split; [lia|exact C]].
    intros s Hne. unfold set_str. apply String.eqb_neq in Hne. rewrite Hne. repeat split.
Qed.
Lemma solve_states_spec it veff ss o d o' d' : NoDup (map snd ss) -> solve_states P it veff ss o d = KOk (o', d') ->
  d <= d' /\ (d' = d \/ exists st, In st ss /\ d' = Rabs (o_enl o' (snd st) - o_enl o (snd st))) /\
  (forall n l nl, In (n, l, nl) ss -> solves P n l veff (o_enl o' nl) (o_unl o' nl) /\ Rabs (o_enl o' nl - o_enl o nl) <= d') /\
  (forall s, ~ In s (map snd ss) -> o_enl o' s = o_enl o s /\ o_denl o' s = o_denl o s /\ o_unl o' s = o_unl o s).
Proof.
  revert o d. induction ss as [|[[n l] nl] ss IH]; intros o d Hd; cbn [solve_states].
  - intros H. injection H as <- <-. split; [lra|]. split; [left; reflexivity|]. split; [intros ? ? ? []|]. intros s _. repeat split.
  - cbn [map snd] in Hd. inversion Hd as [|? ? D1 D2]. subst. destruct (solve_state P it veff n l nl o) as [[o1 k]|] eqn:E; [|discriminate]. intros H.
    destruct (solve_state_spec _ _ _ _ _ _ _ _ E) as (A1 & A2 & A3 & _). destruct (IH _ _ D2 H) as (B1 & B0 & B2 & B3).
    destruct (B3 nl D1) as (C1 & C2 & C3).
    assert (M : d <= d' /\ o_denl o1 nl <= d'). { destruct (ltb d (o_denl o1 nl)) eqn:L; [apply ltb_true in L; lra|apply ltb_false in L; lra]. }
    split; [apply M|]. split.
    { destruct B0 as [B0|(st & I & B0)].
      - destruct (ltb d (o_denl o1 nl)); [|left; exact B0]. right. exists (n, l, nl). split; [left; reflexivity|]. cbn [snd]. rewrite C1, <- A2. exact B0.
      - right. exists st. split; [right; exact I|]. rewrite <- (proj1 (A3 (snd st) ltac:(intros h; apply D1; rewrite <- h; apply (in_map snd _ _ I)))). exact B0. }
    split.
    + intros n' l' nl' [Hin|Hin].
      * injection Hin as <- <- <-. rewrite C1, C3. split; [exact A1|]. rewrite <- A2. apply M.
      * destruct (B2 _ _ _ Hin) as [P1 P2]. split; [exact P1|]. rewrite <- (proj1 (A3 nl' ltac:(intros ->; apply D1; apply (in_map snd _ _ Hin)))). exact P2.
    + intros s Hns. cbn [map snd In] in Hns. destruct (B3 s ltac:(tauto)) as (E1 & E2 & E3). destruct (A3 s ltac:(intros ->; tauto)) as (F1 & F2 & F3). rewrite E1, E2, E3. repeat split; assumption.
Qed.
(** ** density *)
Definition dens_sum (o : orbitals) (i : nat) : R := total (fun st => occ_of P (snd st) * o_unl o (snd st) i ^ 2) (states P).
Lemma calc_dens_sum o i : rsum (length (map (fun s => occ_of P (snd s)) (states P)))
    (fun a => nth a (map (fun s => occ_of P (snd s)) (states P)) 0 * o_unl o (snd (nth a (states P) (0%nat, 0%nat, EmptyString))) i ^ 2) = dens_sum o i.
Proof.
  unfold dens_sum. rewrite <- (rsum_total _ (states P) (0%nat, 0%nat, EmptyString)). rewrite map_length. apply rsum_ext. intros a Ha.
  rewrite (nth_indep _ 0 (occ_of P (snd (0%nat, 0%nat, EmptyString)))) by (rewrite map_length; exact Ha). rewrite (map_nth (fun s => occ_of P (snd s))). reflexivity.
Qed.
Lemma density_spec o dens : density P o = KOk dens ->
  Rabs (g_integrate N (rgrid P) (dens_sum o) false - nel P) <= / 10 ^ 10 /\ forall i, dens i = dens_sum o i / (4 * PI * rgrid P i ^ 2).
Proof.
  unfold density. set (occ := map _ _). set (unl := fun a => _).
  assert (I : g_integrate N (rgrid P) (fun j => rsum (length occ) (fun a => nth a occ 0 * unl a j ^ 2)) false = g_integrate N (rgrid P) (dens_sum o) false).
  { apply integrate_ext; [exact g_N|]. intros i _. apply calc_dens_sum. }
  assert (D : forall i, calculate_density N (rgrid P) (nel P) occ unl i = if ltb (/ 10 ^ 10) (Rabs (g_integrate N (rgrid P) (dens_sum o) false - nel P)) then None else Some (dens_sum o i / (4 * PI * rgrid P i ^ 2))).
  { intros i. unfold calculate_density. rewrite I. destruct (ltb _ _); [reflexivity|]. f_equal. f_equal. apply calc_dens_sum. }
  rewrite D. destruct (ltb (/ 10 ^ 10) _) eqn:L; [discriminate|]. apply ltb_false in L. intros H. injection H as <-. split; [exact L|]. intros i. rewrite D. reflexivity.
Qed.
Lemma integrate_total {A} (f : A -> nat -> R) l b : g_integrate N (rgrid P) (fun i => total (fun a => f a i) l) b = total (fun a => g_integrate N (rgrid P) (f a) b) l.
Proof.
  assert (Z : g_integrate N (rgrid P) (fun _ => 0) b = 0) by (rewrite <- (integrate_ext N _ g_N (fun i => 0 * 0) (fun _ => 0) b) by (intros; ring); rewrite integrate_scale; ring).
  assert (Pl : forall f g, g_integrate N (rgrid P) (fun i => f i + g i) b = g_integrate N (rgrid P) f b + g_integrate N (rgrid P) g b).
  { intros g h. unfold g_integrate. destruct b; rewrite <- Rmult_plus_distr_r, <- rsum_plus; f_equal; apply rsum_ext; intros; ring. }
  induction l as [|a l IH]; [exact Z|]. unfold total in *. cbn [fold_right]. rewrite <- IH. apply Pl.
Qed.
Lemma dens_electrons veff o : (forall n l nl, In (n, l, nl) (states P) -> solves P n l veff (o_enl o nl) (o_unl o nl)) ->
  g_integrate N (rgrid P) (dens_sum o) false = total (fun st => occ_of P (snd st)) (states P).
Proof.
  intros H. unfold dens_sum. rewrite (integrate_total (fun st i => occ_of P (snd st) * o_unl o (snd st) i ^ 2)). apply total_ext. intros [[n l] nl] Hin. cbn [snd].
  rewrite (integrate_ext N _ g_N _ (fun i => o_unl o nl i ^ 2 * occ_of P nl)) by (intros; ring). rewrite integrate_scale. rewrite (solves_norm _ _ _ _ _ (H n l nl Hin)). ring.
Qed.
(** ** passes *)
Definition V_of (n : nat -> R) (i : nat) : R := ks_potential P n i.
Lemma step_spec it s s' b : s_hart s = hartree N (rgrid P) (nel P) (s_dens s) -> scf_step P it s = KOk (s', b) ->
  (forall i, s_veff s' i = p_mix P * ks_potential P (s_dens s) i + (1 - p_mix P) * s_veff s i) /\
  (forall n l nl, In (n, l, nl) (states P) -> solves P n l (s_veff s') (o_enl (s_orb s') nl) (o_unl (s_orb s') nl)) /\
  (forall i, s_dens s' i = dens_sum (s_orb s') i / (4 * PI * rgrid P i ^ 2)) /\
  Rabs (total (fun st => occ_of P (snd st)) (states P) - nel P) <= / 10 ^ 10 /\
  (forall i, s_vxc s' i = pw_vxc (s_dens s i)) /\ s_it s' = it /\
  (b = true <-> (5 < it)%nat /\ g_integrate N (rgrid P) (fun i => Rabs (s_dens s' i - s_dens s i)) true < p_tol_density P /\ 0 < p_tol_energies P /\
     forall n l nl, In (n, l, nl) (states P) -> Rabs (o_enl (s_orb s') nl - o_enl (s_orb s) nl) < p_tol_energies P) /\ (b = true -> s_hart s' = s_hart s) /\
  (b = false -> s_hart s' = hartree N (rgrid P) (nel P) (s_dens s')).
Proof.
  intros Hh. unfold scf_step. set (veff := fun i => _ + _). destruct (solve_states P it veff (states P) (s_orb s) 0) as [[o d]|] eqn:E; [|discriminate].
  destruct (solve_states_spec _ _ _ _ _ _ _ (states_nodup _) E) as (A1 & A0 & A2 & _).
  destruct (density P o) as [dens|] eqn:D; [|discriminate]. destruct (density_spec _ _ D) as [D1 D2].
  set (conv := _ && _ && _). intros H. injection H as <- <-. cbn [s_veff s_dens s_orb s_vxc s_hart s_it].
  rewrite (dens_electrons veff o (fun n l nl h => proj1 (A2 n l nl h))) in D1.
  split. { intros i. unfold veff, calc_veff, ks_potential, nucl_at, conf_at. rewrite Hh. ring. }
  split; [intros n l nl h; exact (proj1 (A2 n l nl h))|]. split; [exact D2|]. split; [exact D1|]. split; [reflexivity|]. split; [reflexivity|]. split.
  - unfold conv. rewrite !andb_true_iff, !ltb_true, Nat.ltb_lt. split.
    + intros [[C1 C2] C3]. split; [exact C3|]. split; [exact C1|]. split; [lra|]. intros n l nl h. apply (Rle_lt_trans _ d); [exact (proj2 (A2 n l nl h))|exact C2].
    + intros (C3 & C1 & C2 & C4). repeat split; try assumption. destruct A0 as [->|([[n l] nl] & I & ->)]; [exact C2|]. cbn [snd]. exact (C4 n l nl I).
  - split; intros C; rewrite C; reflexivity.
Qed.
(** ** the sequence of passes *)
Variable rs : option ((nat -> R) * (nat -> R)).
Fixpoint iter (k : nat) : scf := match k with O => start P rs | S k => match scf_step P k (iter k) with KOk (s, _) => s | KErr _ => iter k end end.
Definition the_trace : trace := Trace (fun k => s_veff (iter k)) (fun k => s_dens (iter k)) (fun k => o_enl (s_orb (iter k))) (fun k => o_unl (s_orb (iter k))).
Lemma loop_iter fuel it s : scf_loop P fuel it (iter it) = KOk s -> exists m, (it < m <= it + fuel)%nat /\ s = iter m /\
  (forall k, (it <= k < m - 1)%nat -> scf_step P k (iter k) = KOk (iter (S k), false)) /\ scf_step P (m - 1) (iter (m - 1)) = KOk (iter m, true).
Proof.
  revert it. induction fuel as [|f IH]; intros it; [discriminate|]. cbn [scf_loop]. destruct (scf_step P it (iter it)) as [[s1 b]|] eqn:E; [|discriminate].
  assert (I : iter (S it) = s1) by (cbn [iter]; rewrite E; reflexivity). destruct b.
  - intros H. injection H as <-. exists (S it). split; [lia|]. rewrite I. split; [reflexivity|]. split; [intros; lia|]. replace (S it - 1)%nat with it by lia. exact E.
  - destruct (it =? p_itmax P - 1)%nat; [discriminate|]. intros H. rewrite <- I in H. destruct (IH (S it) H) as (m & A & B & C & D). exists m. split; [lia|]. split; [exact B|]. split; [|exact D].
    intros k Hk. destruct (Nat.eq_dec k it) as [->|Hne]; [rewrite I; exact E|]. apply C. lia.
Qed.
Lemma start_hart : s_hart (start P rs) = hartree N (rgrid P) (nel P) (s_dens (start P rs)).
Proof. unfold start. destruct rs as [[v d]|]; reflexivity. Qed.
Lemma start_starts : starts P rs (s_veff (start P rs)) (s_dens (start P rs)).
Proof.
  unfold start, starts. destruct rs as [[v d]|]; [split; reflexivity|]. cbn [s_veff s_dens]. split; [intros i; reflexivity|]. destruct Hg as (HZ & _). split.
  - apply guess_electrons; [exact g_N|exact g_inc|apply g_pos|exact HZ].
  - eexists. intros i. unfold guess_density. set (G := g_integrate _ _ _ _). replace (- rgrid P i / (2 / 100 * p_Z P / ln 2)) with (- rgrid P i * (50 * ln 2 / p_Z P)).
    + set (e := exp _). transitivity (nel P / G * e); [unfold Rdiv; ring|reflexivity].
    + assert (0 < ln 2) by (rewrite <- ln_1; apply ln_increasing; lra). field. lra.
Qed.
Lemma run_spec s : run P rs = KOk s -> exists m, let t := the_trace in
  (7 <= m <= p_itmax P)%nat /\ s_it s = (m - 1)%nat /\ scf_trace P rs m t /\ converged P t (m - 1) /\ (forall k, (k < m - 1)%nat -> ~ converged P t k) /\
  s_veff s = t_v t m /\ s_dens s = t_n t m /\ o_enl (s_orb s) = t_e t m /\ o_unl (s_orb s) = t_u t m /\
  s_hart s = hartree N (rgrid P) (nel P) (t_n t (m - 1)%nat) /\ (forall i, s_vxc s i = pw_vxc (t_n t (m - 1)%nat i)) /\
  Rabs (total (fun st => occ_of P (snd st)) (states P) - nel P) <= / 10 ^ 10.
Proof.
  unfold run. change (start P rs) with (iter 0). intros H. destruct (loop_iter _ _ _ H) as (m & A & B & C & D). exists m. cbv zeta.
  assert (Hh : forall k, (k < m)%nat -> s_hart (iter k) = hartree N (rgrid P) (nel P) (s_dens (iter k))).
  { induction k as [|k IH]; intros Hk; [exact start_hart|]. destruct (step_spec k (iter k) (iter (S k)) false (IH ltac:(lia)) (C k ltac:(lia))) as (_ & _ & _ & _ & _ & _ & _ & _ & Q). exact (Q eq_refl). }
  assert (St : forall k, (k < m)%nat -> exists b, scf_step P k (iter k) = KOk (iter (S k), b) /\ (b = true <-> k = (m - 1)%nat)).
  { intros k Hk. destruct (Nat.eq_dec k (m - 1)) as [->|Hne]; [exists true|exists false].
    - replace (S (m - 1)) with m by lia. split; [exact D|split; [reflexivity|reflexivity]].
    - split; [apply C; lia|]. split; [discriminate|intros; contradiction]. }
  destruct (step_spec (m - 1) (iter (m - 1)) (iter m) true (Hh (m - 1)%nat ltac:(lia)) D) as (Q1 & Q2 & Q3 & Q4 & Q5 & Q6 & Q7 & Q8 & _). rewrite <- B in *.
  assert (Cv : forall k, (k < m)%nat -> (converged P the_trace k <-> k = (m - 1)%nat)).
  { intros k Hk. destruct (St k Hk) as (b & Sb & Hb). destruct (step_spec k (iter k) (iter (S k)) b (Hh k Hk) Sb) as (_ & _ & _ & _ & _ & _ & R7 & _).
    rewrite <- Hb, R7. unfold converged. cbn [t_n t_e the_trace]. rewrite Nat.add_1_r. tauto. }
  assert (m7 : (5 < m - 1)%nat) by (apply (proj1 Q7 eq_refl)).
  split; [lia|]. split; [exact Q6|]. split.
  { split; [exact start_starts|]. intros k Hk. cbn [t_v t_n t_e t_u the_trace]. rewrite Nat.add_1_r. destruct (St k Hk) as (b & Sb & _).
    destruct (step_spec k (iter k) (iter (S k)) b (Hh k Hk) Sb) as (R1 & R2 & R3 & _). split; [exact R1|]. split; [exact R2|exact R3]. }
  split; [apply Cv; lia|]. split; [intros k Hk h; apply Cv in h; lia|]. cbn [t_v t_n t_e t_u the_trace]. rewrite <- B.
  repeat (split; [reflexivity|]). split; [rewrite (Q8 eq_refl); apply Hh; lia|]. split; [exact Q5|exact Q4].
Qed.
Lemma attr_loop fuel it s : (it + fuel = p_itmax P)%nat -> (0 < fuel)%nat -> scf_loop P fuel it s <> KErr KAttribute.
Proof.
  revert it s. induction fuel as [|f IH]; intros it s H1 H2; [lia|]. cbn [scf_loop].
  assert (EL : forall fuel u eps delta dir v l nn em e, eig_loop N (rgrid P) (dx P) (coefs P v l) l nn em fuel u eps delta dir = KErr e -> e <> KAttribute).
  { clear. induction fuel as [|f IH]; intros u eps delta dir v l nn em e; cbn [eig_loop]; [intros H; injection H as <-; discriminate|].
    destruct (coefs P v l eps) as [[c0 c1] c2]. destruct (negb _); [intros H; injection H as <-; discriminate|]. destruct (shoot _ _ _ _ _ _); [|intros H; injection H as <-; discriminate].
    cbv zeta. destruct (_ <? _)%Z; [apply IH|]. destruct (_ <? _)%Z; [apply IH|]. destruct (ltb _ _); [discriminate|apply IH]. }
  assert (SL : forall ss o d v e, solve_states P it v ss o d = KErr e -> e <> KAttribute).
  { clear -EL. induction ss as [|[[n l] nl] ss IH]; intros o d v e; cbn [solve_states]; [discriminate|]. unfold solve_state.
    destruct (eig_loop _ _ _ _ _ _ _ _ _ _ _ _) as [r|e'] eqn:E.
    - destruct (ltb 0 (e_u r 1%nat)); [apply IH|intros H; injection H as <-; discriminate].
    - intros H. injection H as <-. exact (EL _ _ _ _ _ _ _ _ _ _ E). }
  unfold scf_step. destruct (solve_states _ _ _ _ _ _) as [[o d]|e] eqn:E.
  - unfold density. destruct (calculate_density _ _ _ _ _ _); [|discriminate]. destruct (_ && _ && _); [discriminate|].
    destruct (it =? p_itmax P - 1)%nat eqn:L; [discriminate|]. apply Nat.eqb_neq in L. apply IH; lia.
  - pose proof (SL _ _ _ _ _ E). congruence.
Qed.
(** ** energies *)
Lemma integ_lin f g k : integ P (fun i => f i + k * g i) = integ P f + k * integ P g.
Proof.
  unfold integ, g_integrate. replace (rsum (N - 1) (fun i => (f i + k * g i + (f (i + 1)%nat + k * g (i + 1)%nat)) * g_dV N (rgrid P) i))
    with (rsum (N - 1) (fun i => (f i + f (i + 1)%nat) * g_dV N (rgrid P) i) + k * rsum (N - 1) (fun i => (g i + g (i + 1)%nat) * g_dV N (rgrid P) i)); [ring|].
  rewrite <- rsum_scal, <- rsum_plus. apply rsum_ext. intros; ring.
Qed.
Lemma integ_ext f g : (forall i, f i = g i) -> integ P f = integ P g.
Proof. intros H. unfold integ. apply integrate_ext; [exact g_N|]. intros i _. apply H. Qed.
Lemma run_energy s n0 : s_hart s = hartree N (rgrid P) (nel P) n0 -> (forall i, s_vxc s i = pw_vxc (n0 i)) ->
  total_energy P s = kinetic P (o_enl (s_orb s)) (s_veff s) (s_dens s) + external P (s_dens s) + hartree_int P n0 (s_dens s) + xc_int P (s_dens s)
    + g_integrate N (rgrid P) (fun i => (s_veff s i - ks_potential P n0 i) * s_dens s i) true.
Proof.
  intros Hh Hx. set (n := s_dens s). unfold total_energy, kinetic, external, hartree_int, xc_int, bs_energy, hartree_energy, vxc_energy, exc_energy. fold (integ P). fold n.
  rewrite fold_total.
  set (hp := hartree N (rgrid P) (nel P) n0). fold (integ P (fun i => s_veff s i * n i)).
  fold (integ P (fun i => (- p_Z P / rgrid P i + confine (p_conf P) (rgrid P i)) * n i)). fold (integ P (fun i => hp i * n i)).
  fold (integ P (fun i => pw_exc (n i) false * n i)). fold (integ P (fun i => (s_veff s i - ks_potential P n0 i) * n i)).
  rewrite (integ_ext (fun i => s_hart s i * n i) (fun i => hp i * n i)) by (intros i; rewrite Hh; reflexivity).
  rewrite (integ_ext (fun i => s_vxc s i * n i) (fun i => pw_vxc (n0 i) * n i)) by (intros i; rewrite Hx; reflexivity).
  rewrite (integ_ext (fun i => s_veff s i * n i) (fun i => ((- p_Z P / rgrid P i + confine (p_conf P) (rgrid P i)) * n i + 1 * (hp i * n i) + 1 * (pw_vxc (n0 i) * n i)) + 1 * ((s_veff s i - ks_potential P n0 i) * n i))).
  - rewrite integ_lin. rewrite (integ_lin (fun i => (- p_Z P / rgrid P i + confine (p_conf P) (rgrid P i)) * n i + 1 * (hp i * n i)) (fun i => pw_vxc (n0 i) * n i)).
    rewrite (integ_lin (fun i => (- p_Z P / rgrid P i + confine (p_conf P) (rgrid P i)) * n i) (fun i => hp i * n i)). field.
  - intros i. unfold ks_potential, hp. ring.
Qed.
End Run.
