(** C68 parameter files, C69 table splines *)
From Coq Require Import Reals List Bool Arith String.
From Verif Require Import Vec SkModel SplModel SplSpec TabModel TabSpec TabProofs.
Import ListNotations.

Theorem C68_files : forall isfile dir present t f a b, NoDup (map fst (given t)) -> use_files isfile dir present t = Some f -> In a present -> In b present ->
  match requested dir (given t) a b with
  | Some v => f (a, b) = Some v /\ isfile v = true
  | None => rest t = true /\ f (a, b) = f (b, a) /\ exists v, f (a, b) = Some v /\ isfile v = true /\ (v = join dir (par a b) \/ v = join dir (par b a))
  end.
Proof. exact files_used. Qed.
Theorem C68_error : forall isfile dir present t, NoDup (map fst (given t)) -> use_files isfile dir present t = None <->
  (exists k v, In (k, v) (given t) /\ isfile (chosen dir v) = false) \/
  (exists a b, In a present /\ In b present /\ requested dir (given t) a b = None /\
    (rest t = false \/ isfile (join dir (par a b)) = false /\ isfile (join dir (par b a)) = false)).
Proof. exact files_error. Qed.
Theorem C68_elements : forall isfile dir symbols t f s, NoDup (map fst (egiven t)) -> element_files isfile dir symbols t = Some f -> In s symbols ->
  match slookup (egiven t) s with
  | Some v => f s = Some v /\ isfile v = true
  | None => erest t = true /\ f s = Some (join dir (s ++ ".elm")%string) /\ isfile (join dir (s ++ ".elm")%string) = true
  end.
Proof. exact element_files_used. Qed.
Theorem C68_order_refuted : exists isfile dir p1 p2 f1 f2 a b, (forall s, In s p1 <-> In s p2) /\ NoDup p1 /\ NoDup p2 /\
  use_files isfile dir p1 NoTables = Some f1 /\ use_files isfile dir p2 NoTables = Some f2 /\ In a p1 /\ In b p1 /\ f1 (a, b) <> f2 (a, b).
Proof. exact order_refuted. Qed.

Open Scope R_scope.
(** tables of both orders on the same distances *)
Theorem C69_tables_partial : forall tij tji h q i, same_grid tij tji -> linear (rows tij) (grid tij) h -> (q < 14)%nat -> (0 < i < rows tij)%nat ->
  htab tij tji q (grid tij i) = Some (flip q * col (source tij tji q) (column q) i) /\
  stab tij tji q (grid tij i) = Some (flip q * col (source tij tji q) (column q + 10) i).
Proof. exact tables_ok. Qed.
Theorem C69_own_table_partial : forall tij tji h q i, linear (rows tij) (grid tij) h -> (q < 10)%nat -> (0 < i < rows tij)%nat -> htab tij tji q (grid tij i) = Some (col tij q i).
Proof. exact own_grid_h. Qed.
Theorem C69_grids_refuted : exists tij tji hi hj i, linear (rows tij) (grid tij) hi /\ linear (rows tji) (grid tji) hj /\ rows tij = rows tji /\ (0 < i < rows tij)%nat /\
  stab tij tji 9 (grid tij i) <> Some (col tij 19 i) /\ htab tij tji 13 (grid tji i) <> Some (- col tji 8 i).
Proof. exact tables_refuted. Qed.
Print Assumptions C68_files.
Print Assumptions C68_error.
Print Assumptions C68_elements.
Print Assumptions C68_order_refuted.
Print Assumptions C69_tables_partial.
Print Assumptions C69_own_table_partial.
Print Assumptions C69_grids_refuted.
