From Coq Require Import Reals ZArith List Bool Arith Lia Lra.
From Verif Require Import Vec GeomModel GeomSpec GeomProofs PairModel PairSpec PairProofs SkModel SkSpec SkProofs SkProofs2 SkProofs3 SkProofs4 SkProofs5 SkProofs6 SkProofs7 Cpx RhoModel RhoSpec RhoProofs InvModel InvSpec InvLin InvProofs InvProofs2 InvProofs5 InvProofs6 InvProofs7.
Import ListNotations.
Open Scope R_scope.

Lemma first_nsum no i : first_orbital no i = nsum i no.
Proof. induction i as [|i IH]; [reflexivity|]. cbn [first_orbital nsum]. rewrite IH. reflexivity. Qed.
Lemma orbital_layout no N : layout (first_orbital no N) N (first_orbital no) no.
Proof. split; [intros I _; apply first_nsum|apply first_nsum]. Qed.
Lemma atom_of_spec D g N I mu : (I < N)%nat -> belongs (first_orbital (g_no D g)) (g_no D g) mu I -> atom_of D g N mu = I.
Proof.
  induction N as [|N IH]; intros HI B; [lia|]. cbn [atom_of]. destruct ((first_orbital (g_no D g) N <=? mu)%nat && (mu <? first_orbital (g_no D g) N + g_no D g N)%nat) eqn:E.
  - apply andb_true_iff in E. rewrite Nat.leb_le, Nat.ltb_lt in E. symmetry. apply (belongs_unique _ _ _ _ mu I N (orbital_layout (g_no D g) (S N))); [exact HI|lia|exact B|exact E].
  - apply IH; [|exact B]. destruct (Nat.eq_dec I N) as [->|Ne]; [|lia]. exfalso. destruct B as [B1 B2]. rewrite (proj2 (Nat.leb_le _ _) B1), (proj2 (Nat.ltb_lt _ _) B2) in E. discriminate E.
Qed.
Lemma belongs_first no I a : (a < no I)%nat -> belongs (first_orbital no) no (first_orbital no I + a) I.
Proof. unfold belongs. lia. Qed.
Lemma flat_at D g M I a J b : (I < g_N g)%nat -> (J < g_N g)%nat -> (a < g_no D g I)%nat -> (b < g_no D g J)%nat ->
  flat D g M (first_orbital (g_no D g) I + a) (first_orbital (g_no D g) J + b) = M I a J b.
Proof.
  intros HI HJ Ha Hb. unfold flat. rewrite (atom_of_spec D g (g_N g) I), (atom_of_spec D g (g_N g) J) by (try assumption; apply belongs_first; assumption). f_equal; lia.
Qed.
Lemma nsum_perm N s f : permutes N s -> nsum N (fun I => f (s I)) = nsum N f.
Proof.
  intros P. apply INR_eq. assert (E : forall f, INR (nsum N f) = rsum N (fun i => INR (f i))).
  { clear. intros f. induction N as [|N IH]; [reflexivity|]. cbn [nsum rsum]. rewrite plus_INR, IH. reflexivity. }
  rewrite !E. apply (rsum_perm N s (fun i => INR (f i)) P).
Qed.
Section Map.
Context (D : database) (g h : structure) (s : nat -> nat) (P : m3).
Context (HN : g_N h = g_N g) (Hs : permutes (g_N g) s) (HP : orthogonal P) (Hk : forall I, (I < g_N g)%nat -> g_kind h (s I) = g_kind g I) (Hno : forall K, In (d_no D K) [1; 4; 9]%nat).
Let N := g_N g.
Let no := g_no D g.
Let no' := g_no D h.
Let o1 := first_orbital no.
Let o1' := first_orbital no'.
Let n := o1 N.
Lemma no_s I : (I < N)%nat -> no' (s I) = no I.
Proof. intros HI. unfold no', no, g_no. rewrite Hk by exact HI. reflexivity. Qed.
Lemma same_norb : o1' (g_N h) = n.
Proof.
  rewrite HN. fold N. unfold n, o1, o1'. rewrite !first_nsum. rewrite <- (nsum_perm N s no' Hs). clear - Hk. assert (E : forall M, (M <= N)%nat -> nsum M (fun I => no' (s I)) = nsum M no).
  { induction M as [|M IH]; intros HM; [reflexivity|]. cbn [nsum]. rewrite IH by lia. f_equal. unfold no', no, g_no. rewrite Hk; [reflexivity|exact HM]. }
  apply E. lia.
Qed.
Let T := orbital_map D g h s P 0%nat.
Lemma map_at I a J c : (I < N)%nat -> (J < N)%nat -> (a < no I)%nat -> (c < no J)%nat -> T (o1' (s I) + a) (o1 J + c) = if (I =? J)%nat then rc (Drep P a c) else c0.
Proof.
  intros HI HJ Ha Hc. unfold T, orbital_map. pose proof (proj1 Hs I HI) as HsI.
  rewrite (atom_of_spec D h (g_N h) (s I)) by (try (rewrite HN; exact HsI); apply belongs_first; change (a < no' (s I))%nat; rewrite no_s by exact HI; exact Ha).
  rewrite (atom_of_spec D g (g_N g) J) by (try assumption; apply belongs_first; exact Hc).
  destruct (Nat.eqb_spec I J) as [->|Ne].
  - rewrite Nat.eqb_refl. f_equal. f_equal; [unfold o1', no'|unfold o1, no]; lia.
  - destruct (Nat.eqb_spec (s I) (s J)) as [E|_]; [exfalso; apply Ne; apply (proj2 Hs); assumption|reflexivity].
Qed.
Lemma orbitals_X j : (j < n)%nat -> exists I a, (I < N)%nat /\ (a < no I)%nat /\ j = (o1 I + a)%nat.
Proof. intros H. destruct (belongs_exists _ _ _ _ j (orbital_layout no N) H) as (I & HI & B1 & B2). exists I, (j - o1 I)%nat. unfold o1. split; [exact HI|]. lia. Qed.
Lemma orbitals_Y i : (i < n)%nat -> exists I a, (I < N)%nat /\ (a < no I)%nat /\ i = (o1' (s I) + a)%nat.
Proof.
  intros H. rewrite <- same_norb in H. destruct (belongs_exists _ _ _ _ i (orbital_layout no' (g_N h)) H) as (J & HJ & B1 & B2). rewrite HN in HJ. destruct (permutes_onto N s J Hs HJ) as (I & HI & <-).
  exists I, (i - o1' (s I))%nat. rewrite <- (no_s I HI). unfold o1'. split; [exact HI|]. lia.
Qed.
Lemma csum_X f : csum n f = csum N (fun I => csum (no I) (fun a => f (o1 I + a)%nat)).
Proof. symmetry. apply (csum_atoms n N o1 no f). apply orbital_layout. Qed.
Lemma csum_Y f : csum n f = csum N (fun I => csum (no I) (fun a => f (o1' (s I) + a)%nat)).
Proof.
  rewrite <- same_norb. rewrite <- (csum_atoms (o1' (g_N h)) (g_N h) o1' no' f (orbital_layout no' (g_N h))). rewrite HN. rewrite <- (csum_perm (g_N g) s _ Hs). apply csum_ext'. intros I HI. rewrite (no_s I HI). reflexivity.
Qed.
Lemma o1_inj I a J b : (I < N)%nat -> (J < N)%nat -> (a < no I)%nat -> (b < no J)%nat -> (o1 I + a = o1 J + b)%nat -> I = J /\ a = b.
Proof.
  intros HI HJ Ha Hb E. assert (I = J). { apply (belongs_unique _ _ _ _ (o1 I + a)%nat I J (orbital_layout no N) HI HJ); [apply belongs_first; exact Ha|unfold o1 in *; rewrite E; apply belongs_first; exact Hb]. }
  subst J. split; [reflexivity|lia].
Qed.
Lemma o1_inj' I a J b : (I < N)%nat -> (J < N)%nat -> (a < no I)%nat -> (b < no J)%nat -> (o1' (s I) + a = o1' (s J) + b)%nat -> I = J /\ a = b.
Proof.
  intros HI HJ Ha Hb E. assert (s I = s J).
  { apply (belongs_unique _ _ _ _ (o1' (s I) + a)%nat (s I) (s J) (orbital_layout no' N)); [apply (proj1 Hs); exact HI|apply (proj1 Hs); exact HJ| |].
    - apply belongs_first. rewrite no_s by exact HI. exact Ha.
    - unfold o1' in *. rewrite E. apply belongs_first. rewrite no_s by exact HJ. exact Hb. }
  assert (I = J) by (apply (proj2 Hs); assumption). subst J. split; [reflexivity|lia].
Qed.
Lemma no9 I : (no I <= 9)%nat. Proof. apply at_most_nine. apply Hno. Qed.
Lemma D_rows k a b : In k [1; 4; 9]%nat -> (a < k)%nat -> (b < k)%nat -> csum k (fun c => cmul (rc (Drep P a c)) (cconj (rc (Drep P b c)))) = if (a =? b)%nat then c1 else c0.
Proof.
  intros Hk' Ha Hb. pose proof (at_most_nine k Hk'). rewrite (csum_ext' k _ (fun c => rc (Drep P a c * Drep P b c))) by (intros; unfold rc, cmul, cconj; cbn; f_equal; ring).
  unfold csum, rc. cbn [fst snd]. rewrite rsum_zero, <- (rsum_whole k P (fun c => Drep P b c) a Hk' Ha), Drep_orth by (assumption || lia). unfold dlt. destruct (a =? b)%nat; reflexivity.
Qed.
Lemma D_cols k a b : In k [1; 4; 9]%nat -> (a < k)%nat -> (b < k)%nat -> csum k (fun c => cmul (cconj (rc (Drep P c a))) (rc (Drep P c b))) = if (a =? b)%nat then c1 else c0.
Proof.
  intros Hk' Ha Hb. pose proof (at_most_nine k Hk'). rewrite (csum_ext' k _ (fun c => rc (Drep P c a * Drep P c b))) by (intros; unfold rc, cmul, cconj; cbn; f_equal; ring).
  unfold csum, rc. cbn [fst snd]. rewrite rsum_zero, <- (rsum_whole_r k P (fun c => Drep P c a) b Hk' Hb). rewrite (rsum_ext 9 _ (fun c => Drep (tr P) a c * Drep (tr P) b c)) by (intros; rewrite !Drep_tr by lia; reflexivity).
  rewrite Drep_orth by (try apply orthogonal_tr; assumption || lia). unfold dlt. destruct (a =? b)%nat; reflexivity.
Qed.
Lemma map_unitary : unitary n T.
Proof.
  split; intros i l Hi Hl.
  - destruct (orbitals_Y i Hi) as (I & a & HI & Ha & ->). destruct (orbitals_Y l Hl) as (J & b & HJ & Hb & ->). rewrite csum_X. rewrite (csum_single N I); [|exact HI|].
    + destruct (Nat.eq_dec I J) as [<-|Ne].
      * rewrite (csum_ext' _ _ (fun c => cmul (rc (Drep P a c)) (cconj (rc (Drep P b c))))) by (intros c Hc; rewrite !map_at, Nat.eqb_refl by assumption; reflexivity).
        rewrite D_rows by (try assumption; apply Hno). destruct (Nat.eqb_spec a b) as [->|N1]; [rewrite Nat.eqb_refl; reflexivity|]. replace (o1' (s I) + a =? o1' (s I) + b)%nat with false by (symmetry; apply Nat.eqb_neq; lia). reflexivity.
      * destruct (Nat.eqb_spec (o1' (s I) + a) (o1' (s J) + b)) as [E|_]; [exfalso; apply Ne; apply (o1_inj' I a J b); assumption|].
        apply csum_all0. intros c Hc. rewrite (map_at J b I c) by assumption. replace (J =? I)%nat with false by (symmetry; apply Nat.eqb_neq; auto). unfold cconj, c0, cmul. cbn. f_equal; ring.
    + intros K HK Ne. apply csum_all0. intros c Hc. rewrite (map_at I a K c) by assumption. replace (I =? K)%nat with false by (symmetry; apply Nat.eqb_neq; auto). unfold c0, cmul. cbn. f_equal; ring.
  - destruct (orbitals_X i Hi) as (I & a & HI & Ha & ->). destruct (orbitals_X l Hl) as (J & b & HJ & Hb & ->). rewrite csum_Y. rewrite (csum_single N I); [|exact HI|].
    + destruct (Nat.eq_dec I J) as [<-|Ne].
      * rewrite (csum_ext' _ _ (fun c => cmul (cconj (rc (Drep P c a))) (rc (Drep P c b)))) by (intros c Hc; rewrite !map_at, Nat.eqb_refl by assumption; reflexivity).
        rewrite D_cols by (try assumption; apply Hno). destruct (Nat.eqb_spec a b) as [->|N1]; [rewrite Nat.eqb_refl; reflexivity|]. replace (o1 I + a =? o1 I + b)%nat with false by (symmetry; apply Nat.eqb_neq; lia). reflexivity.
      * destruct (Nat.eqb_spec (o1 I + a) (o1 J + b)) as [E|_]; [exfalso; apply Ne; apply (o1_inj I a J b); assumption|].
        apply csum_all0. intros c Hc. rewrite (map_at I c J b) by assumption. replace (I =? J)%nat with false by (symmetry; apply Nat.eqb_neq; auto). unfold cconj, c0, cmul. cbn. f_equal; ring.
    + intros K HK Ne. apply csum_all0. intros c Hc. rewrite (map_at K c I a) by assumption. replace (K =? I)%nat with false by (symmetry; apply Nat.eqb_neq; auto). unfold cconj, c0, cmul. cbn. f_equal; ring.
Qed.
Lemma map_atoms i j I J : (I < N)%nat -> (J < N)%nat -> belongs o1' no' i J -> belongs o1 no j I -> J <> s I -> T i j = c0.
Proof.
  intros HI HJ Bi Bj Ne. unfold T, orbital_map. rewrite (atom_of_spec D h (g_N h) J) by (try (rewrite HN; exact HJ); exact Bi). rewrite (atom_of_spec D g (g_N g) I) by (assumption || exact Bj).
  apply Nat.eqb_neq in Ne. rewrite Ne. reflexivity.
Qed.
Lemma transported_at A I a J b : (I < N)%nat -> (J < N)%nat -> (a < no I)%nat -> (b < no J)%nat ->
  transported n T A (o1' (s I) + a) (o1' (s J) + b) = turned2 P (no I) (no J) (fun c f => A (o1 I + c)%nat (o1 J + f)%nat) a b.
Proof.
  intros HI HJ Ha Hb. unfold transported, turned2. rewrite csum_X. rewrite (csum_single N I); [|exact HI|].
  - apply csum_ext'. intros c Hc. rewrite csum_X. rewrite (csum_single N J); [|exact HJ|].
    + apply csum_ext'. intros f Hf. rewrite !map_at, !Nat.eqb_refl by assumption. rewrite cscale_rc. unfold rc, cmul, cconj. cbn. f_equal; ring.
    + intros K HK Ne. apply csum_all0. intros f Hf. rewrite (map_at J b K f) by assumption. replace (J =? K)%nat with false by (symmetry; apply Nat.eqb_neq; auto). unfold cconj, c0, cmul. cbn. f_equal; ring.
  - intros K HK Ne. apply csum_all0. intros c Hc. apply csum_all0. intros f Hf. rewrite (map_at I a K c) by assumption. replace (I =? K)%nat with false by (symmetry; apply Nat.eqb_neq; auto). unfold cconj, c0, cmul. cbn. f_equal; ring.
Qed.
(** matrices that agree block by block *)
Lemma transported_blocks M M' : (forall I a J b, (I < N)%nat -> (J < N)%nat -> (a < no I)%nat -> (b < no J)%nat -> M' (s I) a (s J) b = turned2 P (no I) (no J) (fun c f => M I c J f) a b) ->
  forall i l, (i < n)%nat -> (l < n)%nat -> flat D h M' i l = transported n T (flat D g M) i l.
Proof.
  intros H i l Hi Hl. destruct (orbitals_Y i Hi) as (I & a & HI & Ha & ->). destruct (orbitals_Y l Hl) as (J & b & HJ & Hb & ->). rewrite transported_at by assumption.
  unfold o1', no'. rewrite (flat_at D h M') by (try (rewrite HN; apply (proj1 Hs); assumption); change ((a < no' (s I))%nat) || change ((b < no' (s J))%nat); rewrite no_s; assumption).
  rewrite H by assumption. apply turned2_ext. intros c f Hc Hf. symmetry. apply flat_at; assumption.
Qed.
End Map.
