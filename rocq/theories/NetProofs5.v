From Coq Require Import Reals ZArith List Bool Arith Lia Lra FunctionalExtensionality.
From Verif Require Import Vec GeomModel GeomSpec GeomProofs CoulModel PairModel PairSpec SkModel SkSpec SkProofs6 SkProofs7 Cpx RhoModel RhoSpec RhoProofs GamModel InvModel InvSpec InvLin InvProofs InvProofs2 InvProofs3 InvProofs8 InvProofs9 InvProofs10 InvProofs11 FrcSpec NetSpec NetProofs NetProofs2 NetProofs3.
Import ListNotations.
Open Scope R_scope.

Section Global.
Context (D : database) (g : structure) (inv : nat -> nat) (Bohr : R) (Sg : sound D g inv) (OT : one_table D) (HB : Bohr <> 0).
Context (HC : too_close (g_N g) (g_nimg g) (g_Rn Bohr g) = false).
Context (w om : v3) (Mo : forall n, (n < g_nimg g)%nat -> moves_along w om (g_O g n) (g_t g n)).
Context (L : nat -> nat -> R) (SR : small_rotation om L).
Notation fo := (first_orbital (g_no D g)).
Notation norb := (first_orbital (g_no D g) (g_N g)).
Notation at_ := (atom_of D g (g_N g)).
(** the turning of all orbitals, the velocities of their atoms *)
Definition turning (i l : nat) : R := if (at_ i =? at_ l)%nat then Bohr * L (i - fo (at_ i)) (l - fo (at_ l)) else 0.
Definition uo (c i : nat) : R := vel g w om c (at_ i).
Lemma at_orbital I a : (I < g_N g)%nat -> (a < g_no D g I)%nat -> at_ (fo I + a) = I.
Proof. intros HI Ha. apply atom_of_spec; [exact HI|apply belongs_first; exact Ha]. Qed.
Lemma turning_at I a J b : (I < g_N g)%nat -> (J < g_N g)%nat -> (a < g_no D g I)%nat -> (b < g_no D g J)%nat -> turning (fo I + a) (fo J + b) = if (I =? J)%nat then Bohr * L a b else 0.
Proof. intros HI HJ Ha Hb. unfold turning. rewrite !at_orbital by assumption. replace (fo I + a - fo I)%nat with a by lia. replace (fo J + b - fo J)%nat with b by lia. reflexivity. Qed.
Lemma turning_sum I a (F : nat -> cplx) : (I < g_N g)%nat -> (a < g_no D g I)%nat ->
  csum norb (fun l => cmul (rc (turning (fo I + a) l)) (F l)) = csum (g_no D g I) (fun c => cmul (rc (Bohr * L a c)) (F (fo I + c)%nat)).
Proof.
  intros HI Ha. rewrite <- (csum_atoms norb (g_N g) fo (g_no D g) _ (orbital_layout (g_no D g) (g_N g))). rewrite (csum_single (g_N g) I); [|exact HI|].
  - apply csum_ext'. intros c Hc. rewrite turning_at, Nat.eqb_refl by assumption. reflexivity.
  - intros J HJ Ne. apply csum_zero. intros c Hc. rewrite turning_at by assumption. replace (I =? J)%nat with false by (symmetry; apply Nat.eqb_neq; lia). apply cplx_eq; cbn; ring.
Qed.
Lemma two_conj (M : nat -> nat -> cplx) i j : hermitian norb M -> (i < norb)%nat -> (j < norb)%nat -> cconj (two_sided norb turning M j i) = two_sided norb turning M i j.
Proof.
  intros HM Hi Hj. unfold two_sided. rewrite cconj_add, !csum_conj.
  rewrite (csum_ext' norb (fun l => cconj (cmul (rc (turning j l)) (M l i))) (fun l => cmul (rc (turning j l)) (M i l))).
  2:{ intros l Hl. rewrite cconj_mul, cconj_rc. rewrite (HM i l) by assumption. reflexivity. }
  rewrite (csum_ext' norb (fun l => cconj (cmul (rc (turning i l)) (M j l))) (fun l => cmul (rc (turning i l)) (M l j))).
  2:{ intros l Hl. rewrite cconj_mul, cconj_rc. rewrite (HM l j) by assumption. reflexivity. }
  ring.
Qed.
Section One.
Context (onsite : nat -> nat -> R) (tab dtab : nat -> nat -> R -> nat -> R).
Context (HT : forall K L d, exists tij tji, same_integrals tij tji /\ (forall c, (c < 14)%nat -> tab K L d c = read_integral tij tji c) /\ forall c, (c < 14)%nat -> tab L K d c = read_integral tji tij c).
Context (HT' : forall K L d, exists tij tji, same_integrals tij tji /\ (forall c, (c < 14)%nat -> dtab K L d c = read_integral tij tji c) /\ forall c, (c < 14)%nat -> dtab L K d c = read_integral tji tij c).
Context (HTT : forall K d, exists T, forall c, (c < 14)%nat -> tab K K d c = read_integral T T c).
Context (Hon : forall i a b, shell a = shell b -> onsite i a = onsite i b).
Lemma along_velo k I a J b : (I < g_N g)%nat -> (J < g_N g)%nat -> (a < g_no D g I)%nat -> (b < g_no D g J)%nat ->
  along uo (fun c k => flat D g (g_dmatrix Bohr D g tab dtab c k)) k (fo I + a) (fo J + b) = velo D g Bohr w om k tab dtab I a J b.
Proof. intros HI HJ Ha Hb. unfold along, velo. apply csum_ext'. intros c _. rewrite flat_at by assumption. unfold uo. rewrite at_orbital by assumption. reflexivity. Qed.
Lemma turned_matrix k i j : (k < g_nk g)%nat -> (i < norb)%nat -> (j < norb)%nat ->
  cadd (along uo (fun c k => flat D g (g_dmatrix Bohr D g tab dtab c k)) k i j) (cconj (along uo (fun c k => flat D g (g_dmatrix Bohr D g tab dtab c k)) k j i)) =
  two_sided norb turning (flat D g (g_matrix Bohr D g onsite tab k)) i j.
Proof.
  intros Hk.
  assert (Up : forall I a J b, (I <= J)%nat -> (I < g_N g)%nat -> (J < g_N g)%nat -> (a < g_no D g I)%nat -> (b < g_no D g J)%nat ->
    cadd (along uo (fun c k => flat D g (g_dmatrix Bohr D g tab dtab c k)) k (fo I + a) (fo J + b)) (cconj (along uo (fun c k => flat D g (g_dmatrix Bohr D g tab dtab c k)) k (fo J + b) (fo I + a))) =
    two_sided norb turning (flat D g (g_matrix Bohr D g onsite tab k)) (fo I + a) (fo J + b)).
  { intros I a J b Le HI HJ Ha Hb. rewrite !along_velo by assumption. unfold two_sided. rewrite !turning_sum by assumption.
    rewrite (velo_upper D g inv Bohr Sg OT HB HC w om Mo L SR k Hk onsite tab dtab HT HT' Hon I a J b) by assumption.
    f_equal; apply csum_ext'; intros c Hc; rewrite flat_at by assumption; reflexivity. }
  intros Hi Hj. pose proof (H_hermitian D g inv Bohr Sg HC onsite tab k Hk HTT) as HM.
  destruct (orbitals_X D g g eq_refl i Hi) as (I & a & HI & Ha & Ei). destruct (orbitals_X D g g eq_refl j Hj) as (J & b & HJ & Hb & Ej). subst i j.
  destruct (Nat.le_ge_cases I J) as [Le|Ge]; [apply Up; assumption|].
  rewrite <- two_conj by assumption. rewrite <- Up by assumption. rewrite cconj_add, cconj_conj. ring.
Qed.
End One.
(** a potential that is constant on the orbitals of an atom *)
Definition by_atoms (h : nat -> nat -> R) : Prop := (forall i j, h i j = h j i) /\ exists hb, forall I a J b, (I < g_N g)%nat -> (J < g_N g)%nat -> (a < g_no D g I)%nat -> (b < g_no D g J)%nat -> h (fo I + a)%nat (fo J + b)%nat = hb I J.
Lemma h_turning h i l j : by_atoms h -> (i < norb)%nat -> (l < norb)%nat -> (j < norb)%nat -> turning i l * h l j = h i j * turning i l.
Proof.
  intros (_ & hb & H) Hi Hl Hj. destruct (orbitals_X D g g eq_refl i Hi) as (I & a & HI & Ha & Ei). destruct (orbitals_X D g g eq_refl j Hj) as (J & b & HJ & Hb & Ej). destruct (orbitals_X D g g eq_refl l Hl) as (K & c & HK & Hc & El). subst i j l.
  rewrite turning_at, !H by assumption. destruct (Nat.eqb_spec I K) as [->|]; ring.
Qed.
Lemma two_h h (A B : nat -> nat -> cplx) i j : by_atoms h -> (i < norb)%nat -> (j < norb)%nat ->
  two_sided norb turning (fun i j => cadd (A i j) (cscale (h i j) (B i j))) i j = cadd (two_sided norb turning A i j) (cscale (h i j) (two_sided norb turning B i j)).
Proof.
  intros Hh Hi Hj. unfold two_sided.
  rewrite (csum_ext' norb (fun l => cmul (rc (turning i l)) (cadd (A l j) (cscale (h l j) (B l j)))) (fun l => cadd (cmul (rc (turning i l)) (A l j)) (cmul (rc (h i j)) (cmul (rc (turning i l)) (B l j))))).
  2:{ intros l Hl. rewrite cscale_rc. pose proof (h_turning h i l j Hh Hi Hl Hj) as E. transitivity (cadd (cmul (rc (turning i l)) (A l j)) (cmul (rc (turning i l * h l j)) (B l j))); [rewrite rc_mul; ring|rewrite E, rc_mul; ring]. }
  rewrite (csum_ext' norb (fun l => cmul (rc (turning j l)) (cadd (A i l) (cscale (h i l) (B i l)))) (fun l => cadd (cmul (rc (turning j l)) (A i l)) (cmul (rc (h i j)) (cmul (rc (turning j l)) (B i l))))).
  2:{ intros l Hl. rewrite cscale_rc. pose proof (h_turning h j l i Hh Hj Hl Hi) as E. rewrite (proj1 Hh l i), (proj1 Hh j i) in E.
      transitivity (cadd (cmul (rc (turning j l)) (A i l)) (cmul (rc (turning j l * h i l)) (B i l))); [rewrite rc_mul; ring|rewrite E, rc_mul; ring]. }
  rewrite !csum_add, !csum_mul, cscale_rc. ring.
Qed.
Lemma along_h h (dA dB : nat -> kmatrix) k i j : along uo (fun c k i j => cadd (dA c k i j) (cscale (h i j) (dB c k i j))) k i j = cadd (along uo dA k i j) (cscale (h i j) (along uo dB k i j)).
Proof. unfold along. rewrite cscale_rc, <- csum_mul, <- csum_add. apply csum_ext'. intros c _. rewrite !cscale_rc. ring. Qed.
Lemma sum_h h (dA dB : nat -> kmatrix) (A B : nat -> nat -> cplx) k i j : by_atoms h -> (i < norb)%nat -> (j < norb)%nat ->
  cadd (along uo dA k i j) (cconj (along uo dA k j i)) = two_sided norb turning A i j -> cadd (along uo dB k i j) (cconj (along uo dB k j i)) = two_sided norb turning B i j ->
  cadd (along uo (fun c k i j => cadd (dA c k i j) (cscale (h i j) (dB c k i j))) k i j) (cconj (along uo (fun c k i j => cadd (dA c k i j) (cscale (h i j) (dB c k i j))) k j i)) =
  two_sided norb turning (fun i j => cadd (A i j) (cscale (h i j) (B i j))) i j.
Proof.
  intros Hh Hi Hj EA EB. rewrite two_h, !along_h by assumption. rewrite <- EA, <- EB. rewrite cconj_add, !cscale_rc, cconj_mul, cconj_rc, (proj1 Hh j i). ring.
Qed.
Lemma h1_atoms (X : system) dq : s_N X = g_N g -> s_o1 X = fo -> s_no X = g_no D g -> by_atoms (h1_of X dq).
Proof.
  intros EN Eo En. split; [apply h1_sym|].
  set (eps := epsilon (s_N X) (s_G X) (s_phi X dq) dq).
  exists (fun I J => let h := / 2 * (eps I + eps J) in if existsb (fun I => ltb (/ 10 ^ 12) (Rabs (s_ext X I))) (seq 0 (s_N X)) then h + / 2 * -1 * (s_ext X I + s_ext X J) else h).
  intros I a J b HI HJ Ha Hb. unfold h1_of, construct_h1. rewrite Eo, En. fold eps. rewrite EN in *. 
  rewrite !(aux_rows_value norb (g_N g) fo (g_no D g) _ (fo I + a) I (orbital_layout _ _) HI (belongs_first _ _ _ Ha)).
  rewrite !(aux_rows_value norb (g_N g) fo (g_no D g) _ (fo J + b) J (orbital_layout _ _) HJ (belongs_first _ _ _ Hb)). reflexivity.
Qed.
Lemma zero_atoms : by_atoms (fun _ _ => 0).
Proof. split; [reflexivity|]. exists (fun _ _ => 0). reflexivity. Qed.
End Global.
