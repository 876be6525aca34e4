From Coq Require Import Reals ZArith List Arith Bool Ascii Sorted.
From Verif Require Import UtilModel UtilProofs.
Import ListNotations.
Open Scope Z_scope.

(** C39: with non-negative costs every item goes to exactly one CPU: the lists of the
    CPUs, one after the other, are the items from last to first. *)
Theorem C39_all_items_assigned : forall (A : Type) (w : A -> Z) items ncpu res,
  even_cpu_load w items ncpu = Some res -> (forall x, In x items -> 0 <= w x) ->
  length res = ncpu /\ concat res = rev items.
Proof. exact @even_cpu_load_all. Qed.
Print Assumptions C39_all_items_assigned.

(** C39, the two return modes: sizes, or positions in the given list. *)
Theorem C39_sizes : forall N ncpu power res, cpu_sizes N ncpu power = Some res -> Forall (Z.le 0) N ->
  length res = ncpu /\ concat res = rev N.
Proof. exact cpu_sizes_all. Qed.
Print Assumptions C39_sizes.

Theorem C39_indices : forall N ncpu power res, cpu_indices N ncpu power = Some res -> Forall (Z.le 0) N ->
  length res = ncpu /\ concat res = rev (seq 0 (length N)).
Proof. exact cpu_indices_all. Qed.
Print Assumptions C39_indices.

Theorem C39_modes_agree : forall N ncpu power,
  cpu_sizes N ncpu power = option_map (map (map (fun i => nth i N 0))) (cpu_indices N ncpu power).
Proof. exact cpu_modes_agree. Qed.
Print Assumptions C39_modes_agree.

(** C39: without its last item no CPU exceeds the average load. *)
Theorem C39_load_bound : forall (A : Type) (w : A -> Z) items ncpu res,
  even_cpu_load w items ncpu = Some res -> (forall x, In x items -> 0 <= w x) ->
  forall l c x, In l res -> l = c ++ [x] ->
  fold_right (fun x s => w x + s) 0 c * Z.of_nat ncpu <= fold_right (fun x s => w x + s) 0 items.
Proof. exact @even_cpu_load_bound. Qed.
Print Assumptions C39_load_bound.

Theorem C39_raises : forall (A : Type) (w : A -> Z) items ncpu,
  even_cpu_load w items ncpu = None <-> (length items < ncpu)%nat \/ ncpu = O.
Proof. exact @even_cpu_load_raises. Qed.
Print Assumptions C39_raises.

(** C40 *)
Theorem C40_divisors : forall x, 0 < x ->
  (forall i, In i (divisors x) <-> 0 < i /\ (i | x)) /\ StronglySorted Z.gt (divisors x).
Proof. exact divisors_spec. Qed.
Print Assumptions C40_divisors.

(** C40: the greatest common divisor for non-negative numbers, up to sign for
    negative ones; the loop ends for all integers. *)
Theorem C40_gcd : forall a b, exists g,
  gcd a b = Some g /\ Z.abs g = Z.gcd a b /\ (0 <= a -> 0 <= b -> g = Z.gcd a b).
Proof. exact gcd_spec. Qed.
Print Assumptions C40_gcd.

(** C45: integer times *)
Theorem C45_sec_to_time_int : forall secs,
  let '(d, h, m, s) := sec_to_time_int secs in
  secs = 86400 * d + 3600 * h + 60 * m + s /\ 0 <= h < 24 /\ 0 <= m < 60 /\ 0 <= s < 60.
Proof. exact sec_to_time_int_spec. Qed.
Print Assumptions C45_sec_to_time_int.

(** C45: real times; the seconds may read 60 *)
Theorem C45_sec_to_time_partial : forall secs : R,
  let '(d, h, m, s) := sec_to_time secs in
  (Rabs (secs - IZR (86400 * d + 3600 * h + 60 * m + s)) <= / 2)%R /\
  0 <= h < 24 /\ 0 <= m < 60 /\ 0 <= s <= 60.
Proof. exact sec_to_time_spec. Qed.
Print Assumptions C45_sec_to_time_partial.

Theorem C45_sec_to_time_refuted : exists secs : R, (0 <= secs)%R /\
  let '(d, h, m, s) := sec_to_time secs in 60 <= s.
Proof. exact sec_to_time_refuted. Qed.
Print Assumptions C45_sec_to_time_refuted.

Theorem C45_base_and_extension_partial : forall f, In "."%char f ->
  let '(b, e) := base_and_extension f in f = b ++ "."%char :: e /\ ~ In "."%char e.
Proof. exact base_and_extension_spec. Qed.
Print Assumptions C45_base_and_extension_partial.

Theorem C45_base_and_extension_refuted : exists f, f <> [] /\ ~ In "."%char f /\
  let '(b, e) := base_and_extension f in b <> f /\ e = f /\ b ++ e <> f.
Proof. exact base_and_extension_refuted. Qed.
Print Assumptions C45_base_and_extension_refuted.

(** C55 *)
Theorem C55_appendix_before_extension : forall file app,
  (~ In "."%char file -> add_file_appendix file app = file ++ "_"%char :: app) /\
  (forall b e, file = b ++ "."%char :: e -> ~ In "."%char e ->
     add_file_appendix file app = b ++ "_"%char :: app ++ "."%char :: e).
Proof. exact add_file_appendix_spec. Qed.
Print Assumptions C55_appendix_before_extension.

Theorem C55_directory_refuted : exists dir name app, ~ In "/"%char name /\ ~ In "/"%char app /\
  forall name', ~ In "/"%char name' ->
  add_file_appendix (dir ++ "/"%char :: name) app <> dir ++ "/"%char :: name'.
Proof. exact add_file_appendix_refuted. Qed.
Print Assumptions C55_directory_refuted.
