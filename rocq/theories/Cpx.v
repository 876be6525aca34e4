(** Complex numbers as pairs (SkModel.cplx): ring structure, finite sums and derivatives. *)
From Coq Require Import Reals Arith Lia Lra Ring.
From Verif Require Import Vec SkModel SkSpec.
Open Scope R_scope.

Definition cmul (x y : cplx) : cplx := (fst x * fst y - snd x * snd y, fst x * snd y + snd x * fst y).
Definition copp (x : cplx) : cplx := (- fst x, - snd x).
Definition csub (x y : cplx) : cplx := cadd x (copp y).
Definition c0 : cplx := (0, 0).
Definition c1 : cplx := (1, 0).
Definition rc (x : R) : cplx := (x, 0).

Lemma cplx_eq (x y : cplx) : fst x = fst y -> snd x = snd y -> x = y.
Proof. destruct x, y. cbn. intros -> ->. reflexivity. Qed.
Ltac cpx := intros; apply cplx_eq; unfold csub, cmul, cadd, copp, c0, c1, rc, cconj, cscale; cbn [fst snd]; ring.
Lemma cplx_ring : ring_theory c0 c1 cadd cmul csub copp eq.
Proof. constructor; cpx. Qed.
Add Ring cplx_ring_inst : cplx_ring.

Lemma cconj_add x y : cconj (cadd x y) = cadd (cconj x) (cconj y). Proof. cpx. Qed.
Lemma cconj_mul x y : cconj (cmul x y) = cmul (cconj x) (cconj y). Proof. cpx. Qed.
Lemma cconj_conj x : cconj (cconj x) = x. Proof. cpx. Qed.
Lemma cconj_rc r : cconj (rc r) = rc r. Proof. cpx. Qed.
Lemma cscale_rc k x : cscale k x = cmul (rc k) x. Proof. cpx. Qed.
Lemma rc_add a b : rc (a + b) = cadd (rc a) (rc b). Proof. cpx. Qed.
Lemma rc_mul a b : rc (a * b) = cmul (rc a) (rc b). Proof. cpx. Qed.
Lemma fst_add x y : fst (cadd x y) = fst x + fst y. Proof. reflexivity. Qed.
Lemma fst_rc_mul k x : fst (cmul (rc k) x) = k * fst x. Proof. unfold cmul, rc; cbn [fst snd]. ring. Qed.
Lemma fst_conj x : fst (cconj x) = fst x. Proof. reflexivity. Qed.

Lemma csum_ext' n f g : (forall i, (i < n)%nat -> f i = g i) -> csum n f = csum n g.
Proof. intros H. unfold csum. f_equal; apply rsum_ext; intros k Hk; rewrite H by exact Hk; reflexivity. Qed.
Lemma csum_S n f : csum (S n) f = cadd (csum n f) (f n).
Proof. reflexivity. Qed.
Lemma csum_add n f g : csum n (fun i => cadd (f i) (g i)) = cadd (csum n f) (csum n g).
Proof. unfold csum, cadd. cbn [fst snd]. f_equal; apply rsum_plus. Qed.
Lemma csum_mul n c f : csum n (fun i => cmul c (f i)) = cmul c (csum n f).
Proof. induction n as [|n IH]; [apply cplx_eq; cbn; ring|]. rewrite !csum_S, IH. ring. Qed.
Lemma csum_mul_r n c f : csum n (fun i => cmul (f i) c) = cmul (csum n f) c.
Proof. induction n as [|n IH]; [apply cplx_eq; cbn; ring|]. rewrite !csum_S, IH. ring. Qed.
Lemma csum_conj n f : cconj (csum n f) = csum n (fun i => cconj (f i)).
Proof. induction n as [|n IH]; [apply cplx_eq; cbn; ring|]. rewrite !csum_S, cconj_add, IH. reflexivity. Qed.
Lemma csum_swap n m (f : nat -> nat -> cplx) : csum n (fun i => csum m (f i)) = csum m (fun j => csum n (fun i => f i j)).
Proof. unfold csum. cbn [fst snd]. f_equal; apply rsum_swap. Qed.
Lemma csum_fst n f : fst (csum n f) = rsum n (fun i => fst (f i)). Proof. reflexivity. Qed.
Lemma csum_zero n f : (forall i, (i < n)%nat -> f i = c0) -> csum n f = c0.
Proof. intros H. apply cplx_eq; cbn [csum fst snd c0]; apply rsum_eq0; intros i Hi; rewrite H by exact Hi; reflexivity. Qed.
Lemma csum_single n k f : (k < n)%nat -> (forall i, (i < n)%nat -> i <> k -> f i = c0) -> csum n f = f k.
Proof.
  intros Hk H. apply cplx_eq; cbn [csum fst snd]; apply (rsum_single n k); try exact Hk; intros i Hi Hne; rewrite H by assumption; reflexivity.
Qed.
Lemma csum_split n m f : csum (n + m) f = cadd (csum n f) (csum m (fun i => f (n + i)%nat)).
Proof. unfold csum, cadd. cbn [fst snd]. f_equal; apply rsum_split. Qed.

(** derivatives *)
Lemma CD_const c t : cderivative (fun _ => c) t c0.
Proof. split; cbn [fst snd c0]; apply derivable_pt_lim_const. Qed.
Lemma CD_add f g t x y : cderivative f t x -> cderivative g t y -> cderivative (fun s => cadd (f s) (g s)) t (cadd x y).
Proof. intros [A B] [C D]. split; cbn [fst snd cadd]; apply derivable_pt_lim_plus; assumption. Qed.
Lemma CD_mul f g t x y : cderivative f t x -> cderivative g t y ->
  cderivative (fun s => cmul (f s) (g s)) t (cadd (cmul x (g t)) (cmul (f t) y)).
Proof.
  intros [A B] [C D]. split; cbn [fst snd cadd cmul].
  - assert (P := derivable_pt_lim_mult _ _ _ _ _ A C). assert (Q := derivable_pt_lim_mult _ _ _ _ _ B D).
    assert (W := derivable_pt_lim_minus _ _ _ _ _ P Q).
    match goal with |- derivable_pt_lim _ _ ?r => match type of W with derivable_pt_lim _ _ ?l => replace r with l by ring end end. exact W.
  - assert (P := derivable_pt_lim_mult _ _ _ _ _ A D). assert (Q := derivable_pt_lim_mult _ _ _ _ _ B C).
    assert (W := derivable_pt_lim_plus _ _ _ _ _ P Q).
    match goal with |- derivable_pt_lim _ _ ?r => match type of W with derivable_pt_lim _ _ ?l => replace r with l by ring end end. exact W.
Qed.
Lemma CD_conj f t x : cderivative f t x -> cderivative (fun s => cconj (f s)) t (cconj x).
Proof. intros [A B]. split; cbn [fst snd cconj]; [exact A|]. apply derivable_pt_lim_opp. exact B. Qed.
Lemma CD_sum n F t D : (forall i, (i < n)%nat -> cderivative (F i) t (D i)) -> cderivative (fun s => csum n (fun i => F i s)) t (csum n D).
Proof.
  induction n as [|n IH]; intros H; [exact (CD_const c0 t)|].
  rewrite csum_S. apply (CD_add (fun s => csum n (fun i => F i s)) (F n)); [apply IH; intros; apply H; lia|apply H; lia].
Qed.
Lemma CD_eq f t x y : cderivative f t x -> x = y -> cderivative f t y. Proof. intros H <-. exact H. Qed.
Lemma CD_fst f t x : cderivative f t x -> derivable_pt_lim (fun s => fst (f s)) t (fst x). Proof. intros [A _]. exact A. Qed.
