From Coq Require Import Ascii List Bool Arith.
From Verif Require Import IndModel IndSpec IndProofs.
Import ListNotations.

(** C201: indentation of strings.  Case: ex_indent *)
Theorem C201_common :
  forall ls : list (list ascii),
  ls <> [] ->
  (forall l : list ascii, In l ls -> length l <= 1 -> blank l) ->
  exists (k : nat) (rests : list (list ascii)) (j : nat),
    Forall2 (fun l r : list ascii => indented k l r \/ length l <= 1 /\ blank l /\ blank r) ls rests /\
    join rests = repeat newline j ++ clean_indentation ls /\
    hd_error (clean_indentation ls) <> Some newline /\
    (k = 100 \/ (exists l r : list ascii, In l ls /\ 2 <= length l /\ indented k l r /\ hd_error r <> Some space)).
Proof. exact common. Qed.
Theorem C201_kept :
  forall ls : list (list ascii),
  (forall l : list ascii, In l ls -> length l <= 1 -> blank l) -> filter visible (clean_indentation ls) = filter visible (concat ls).
Proof. exact visible_kept. Qed.
Theorem C201_lost_refuted :
  exists ls : list (list ascii), Forall no_newline ls /\ filter visible (concat ls) = ["x"%char] /\ clean_indentation ls = [].
Proof. exact lost_refuted. Qed.
Theorem C201_lost_among_refuted :
  exists ls : list (list ascii), length ls = 2 /\ In ["x"%char] ls /\ ~ In "x"%char (clean_indentation ls) /\ clean_indentation ls <> [].
Proof. exact lost_among_refuted. Qed.
Print Assumptions C201_common.
Print Assumptions C201_kept.
Print Assumptions C201_lost_refuted.
Print Assumptions C201_lost_among_refuted.
