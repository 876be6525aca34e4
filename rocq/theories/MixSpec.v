(** Specifications used by the statements about mixers and the SCC loop. *)
From Coq Require Import Reals List Arith Bool String Ascii.
From Verif Require Import Vec MixModel.
Import ListNotations.
Open Scope R_scope.

(** The components of a charge vector of length n add up to Q. *)
Definition total (n : nat) (Q : R) (v : vec) : Prop := rsum n v = Q.

(** A linear solver that, when it answers, gives the only solution. *)
Definition solves (sv : solver) : Prop :=
  forall M A b c, sv M A b = Some c ->
  forall z : vec, (forall i, (i < M)%nat -> rsum M (fun j => A i j * z j) = b i) ->
  forall i, (i < M)%nat -> z i = c i.

(** A matrix inverter that, when it answers, gives a right inverse. *)
Definition inverts (iv : inverter) : Prop :=
  forall M A B, iv M A = Some B ->
  forall i k, (i < M)%nat -> (k < M)%nat ->
  rsum M (fun j => A i j * B j k) = if i =? k then 1 else 0.

(** The self-consistency cycle without any counter: [at_pass i s dq] says that
    pass number i is entered with mixer state s and charges dq, none of the
    passes before having been accepted. *)
Section Cycle.
  Variable states : Type.
  Variable eigen : vec -> option states.
  Variable occupy : states -> option vec.
  Variable m : mixer.
  Variable s0 : mst m.
  Variable dq0 : vec.

  Inductive at_pass : nat -> mst m -> vec -> Prop :=
  | pass_first : at_pass 0 (m_reset m s0) dq0
  | pass_next i s dq e out s' dq' :
      at_pass i s dq -> eigen dq = Some e -> occupy e = Some out ->
      m_call m s dq out = (s', (false, dq')) ->
      at_pass (S i) s' dq'.

  (** pass i produces the states e, and the mixer accepts *)
  Definition accepted_at (i : nat) (e : states) : Prop :=
    exists s dq out s' dq', at_pass i s dq /\ eigen dq = Some e /\
      occupy e = Some out /\ m_call m s dq out = (s', (true, dq')).

  (** pass i raises *)
  Definition breaks_at (i : nat) : Prop :=
    exists s dq, at_pass i s dq /\
      (eigen dq = None \/ exists e, eigen dq = Some e /\ occupy e = None).
End Cycle.
Arguments at_pass {states}. Arguments accepted_at {states}. Arguments breaks_at {states}.

(** Largest/smallest element of a list *)
Definition is_max (x : nat) (h : list nat) : Prop := In x h /\ forall y, In y h -> (y <= x)%nat.
Definition is_min (x : nat) (h : list nat) : Prop := In x h /\ forall y, In y h -> (x <= y)%nat.

(** Two names are equal up to letter case. *)
Definition same_letter (a b : ascii) : Prop :=
  a = b \/
  (exists k, (65 <= k <= 90)%nat /\
     ((nat_of_ascii a = k /\ nat_of_ascii b = (k + 32)%nat) \/
      (nat_of_ascii b = k /\ nat_of_ascii a = (k + 32)%nat))).
Fixpoint same_name (a b : string) : Prop :=
  match a, b with
  | EmptyString, EmptyString => True
  | String x r, String y q => same_letter x y /\ same_name r q
  | _, _ => False
  end.

(** Least-squares optimal mixing.  The history is the list of (input, output)
    pairs, newest first; x_j and F_j are its inputs and residuals. *)
Definition hist_x (h : list (vec * vec)) (j : nat) : vec := fst (nth j h (fun _ => 0, fun _ => 0)).
Definition hist_F (h : list (vec * vec)) (j : nat) : vec :=
  fun k => snd (nth j h (fun _ => 0, fun _ => 0)) k - fst (nth j h (fun _ => 0, fun _ => 0)) k.

(** [xb] mixes the newest L entries of h with weights that add up to one and
    make the norm of the combined residual the smallest possible. *)
Definition optimal_mix (beta : R) (n L : nat) (h : list (vec * vec)) (xb : vec) : Prop :=
  exists w : vec, rsum L w = 1 /\
    (forall k, (k < n)%nat -> xb k = rsum L (fun j => w j * (hist_x h j k + beta * hist_F h j k))) /\
    (forall d : vec, rsum L d = 1 ->
       let Fw := fun k => rsum L (fun j => w j * hist_F h j k) in
       let Fd := fun k => rsum L (fun j => d j * hist_F h j k) in
       dot n Fw Fw <= dot n Fd Fd).

(** A linear solver whose answers solve the system. *)
Definition solves_system (sv : solver) : Prop :=
  forall M A b c, sv M A b = Some c ->
  forall i, (i < M)%nat -> rsum M (fun j => A i j * c j) = b i.

(** The mixer state after a list of calls (oldest first). *)
Fixpoint after (m : mixer) (s : mst m) (ins : list (vec * vec)) : mst m :=
  match ins with
  | [] => s
  | (xi, yi) :: r => after m (fst (m_call m s xi yi)) r
  end.
