From Coq Require Import Reals List Arith Bool String.
From Verif Require Import TimerModel TimerSpec TimerProofs.
Import ListNotations.
Open Scope R_scope.

(** C43 is false as stated: a sequence that is not nested is accepted. *)
Theorem C43_nesting_refuted : exists l t0 cs,
  ~ nested [] cs /\ Forall (fun ok => ok = true) (snd (trun (new_timer l t0) cs)).
Proof. exact nesting_refuted. Qed.
Print Assumptions C43_nesting_refuted.

(** C43: even nested use can give a sub-timer more time than the timer it is listed under. *)
Theorem C43_subtimer_time_refuted : exists l t0 cs,
  nested [] cs /\
  match fst (trun (new_timer l t0) cs) with
  | Node _ _ _ [Node la ia _ [Node lb ib _ []]] => la = "a"%string /\ lb = "b"%string /\ elapsed ia < elapsed ib
  | _ => False
  end.
Proof. exact outside_refuted. Qed.
Print Assumptions C43_subtimer_time_refuted.

(** C43: what does hold, for all call sequences: the timer tree accepts and
    rejects exactly as independent stop-watches, one per label (which can only be
    started while the main one runs), and shows their number of completed intervals
    and total time. *)
Theorem C43_timers_are_stop_watches : forall l t0 cs,
  let '(t, oks) := trun (new_timer l t0) cs in
  let '(b, oks') := brun (new_board l t0) cs in
  oks = oks' /\
  forall x, match get_timer x t, watches b x with
            | Some i, Some w => shows i w
            | None, None => True
            | _, _ => False
            end.
Proof. exact timer_refines. Qed.
Print Assumptions C43_timers_are_stop_watches.

(** C43: strictly hierarchical use never raises. *)
Theorem C43_hierarchical_accepted : forall l t0 cs, hierarchical l [] cs ->
  Forall (fun ok => ok = true) (snd (trun (new_timer l t0) cs)).
Proof. exact hierarchical_accepted. Qed.
Print Assumptions C43_hierarchical_accepted.

(** C53: after a summary no timer runs and none can be started by label. *)
Theorem C53_summary_stops_everything : forall l t0 cs now x now',
  let t := fst (tstep (fst (trun (new_timer l t0) cs)) (Summary now)) in
  (forall i, get_timer x t = Some i -> running i = false) /\ tstep t (Start x now') = (t, false).
Proof. exact timer_summary_final. Qed.
Print Assumptions C53_summary_stops_everything.

(** C54 is false: hours, minutes and seconds do not add up to the time. *)
Theorem C54_human_readable_refuted : exists s, (0 <= s)%Z /\
  let '(h, m, sec) := human_readable (IZR s) in (3600 * h + 60 * m + sec <> s)%Z.
Proof. exact human_readable_refuted. Qed.
Print Assumptions C54_human_readable_refuted.

(** C54: for every time the minutes and seconds shown are zero. *)
Theorem C54_human_readable_value : forall s, human_readable s = (Int_part (s / 3600), 0%Z, 0%Z).
Proof. exact human_readable_value. Qed.
Print Assumptions C54_human_readable_value.
