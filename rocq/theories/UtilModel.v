(** Helpers of box/mix.py on integers and names. *)
From Coq Require Import Reals ZArith List Arith Bool Ascii.
Import ListNotations.
Open Scope Z_scope.

(** ** even_cpu_load; box/mix.py 20-67

    [w] is the cost N2**power of an item, computed for every element; the limit
    float(times.sum())/size is compared exactly: cput > total/size iff
    cput*size > total (the float division rounds monotonically, so this is what the
    code computes as long as the sums are below 2^53). *)
Section Load.
  Variable A : Type.
  Variable w : A -> Z.

  (** the inner loop 52-59: items for one CPU, starting with load [acc]; returns
      the items taken and those left *)
  Fixpoint fill (total : Z) (ncpu : Z) (acc : Z) (items : list A) : list A * list A :=
    match items with
    | [] => ([], [])
    | x :: r =>
        let acc := acc + w x in
        if total <? acc * ncpu then ([x], r)
        else let '(a, b) := fill total ncpu acc r in (x :: a, b)
    end.

  (** the outer loop 51-62 over the remaining [k] CPUs; when the items are used up
      (j==n) the other CPUs keep their empty list *)
  Fixpoint cpus (total ncpu : Z) (k : nat) (items : list A) : list (list A) :=
    match k with
    | O => []
    | S k' => match items with
              | [] => repeat [] k
              | _ => let '(a, b) := fill total ncpu 0 items in a :: cpus total ncpu k' b
              end
    end.

  (** None: AssertionError (fewer items than CPUs) or, for 0 CPUs, the division by zero *)
  Definition even_cpu_load (items : list A) (ncpu : nat) : option (list (list A)) :=
    let N2 := rev items in
    let total := fold_right (fun x s => w x + s) 0 N2 in
    if (length N2 <? ncpu)%nat then None
    else match ncpu with
         | O => None
         | S _ => Some (cpus total (Z.of_nat ncpu) ncpu N2)
         end.
End Load.
Arguments fill {A}. Arguments cpus {A}. Arguments even_cpu_load {A}.

(** the two return modes, 43-59: sizes, or (indices=True) positions in N; n-1-i is
    the position in N of N2[i].  [power] is a non-negative integer. *)
Definition cpu_sizes (N : list Z) (ncpu : nat) (power : nat) : option (list (list Z)) :=
  even_cpu_load (fun n => n ^ Z.of_nat power) N ncpu.
Definition cpu_indices (N : list Z) (ncpu : nat) (power : nat) : option (list (list nat)) :=
  option_map (map (map snd))
    (even_cpu_load (fun p => fst p ^ Z.of_nat power) (combine N (seq 0 (length N))) ncpu).

(** ** divisors; box/mix.py 201-211: [x] and then x//2, ..., 1 *)
Fixpoint down (k : nat) : list Z :=
  match k with O => [] | S k' => Z.of_nat k :: down k' end.
Definition divisors (x : Z) : list Z :=
  x :: filter (fun i => x mod i =? 0) (down (Z.to_nat (x / 2))).

(** ** gcd; box/mix.py 213-218.  The loop runs while b<>0; |b| decreases, so
    |b|+1 rounds are enough; None would mean the fuel is exhausted. *)
Fixpoint gcd_loop (fuel : nat) (a b : Z) : option Z :=
  match fuel with
  | O => None
  | S f => if b =? 0 then Some a else gcd_loop f b (a mod b)
  end.
Definition gcd (a b : Z) : option Z := gcd_loop (S (Z.to_nat (Z.abs b))) a b.

(** ** sec_to_time; box/mix.py 344-360, for integer and for real arguments *)
Definition sec_to_time_int (secs : Z) : Z * Z * Z * Z :=
  let d := secs / 86400 in
  let s := secs mod 86400 in
  let h := s / 3600 in
  let s := secs mod 3600 in
  let m := s / 60 in
  let s := secs mod 60 in
  (d, h, m, s).

Local Open Scope R_scope.
(** float // and % *)
Definition fdiv (x k : R) : Z := Int_part (x / k).
Definition fmod (x k : R) : R := x - k * IZR (fdiv x k).
(** int(s+.5) truncates; s+.5 is positive *)
Definition sec_to_time (secs : R) : Z * Z * Z * Z :=
  let d := fdiv secs 86400 in
  let s := fmod secs 86400 in
  let h := fdiv s 3600 in
  let s := fmod secs 3600 in
  let m := fdiv s 60 in
  let s := fmod secs 60 in
  (d, h, m, Int_part (s + / 2)).
Local Open Scope Z_scope.

(** ** File names.  Text is a list of characters. *)
Definition text := list ascii.

(** str.rfind of one character; None for -1 *)
Fixpoint rfind (c : ascii) (s : text) : option nat :=
  match s with
  | [] => None
  | x :: r => match rfind c r with
              | Some i => Some (S i)
              | None => if ascii_dec x c then Some O else None
              end
  end.
Definition dot_char : ascii := "."%char.

(** base_and_extension; box/mix.py 339-342.  With i = -1: filename[:-1], filename[0:] *)
Definition base_and_extension (f : text) : text * text :=
  match rfind dot_char f with
  | Some i => (firstn i f, skipn (S i) f)
  | None => (removelast f, f)
  end.

(** add_file_appendix; box/mix.py 803-815 *)
Definition add_file_appendix (file app : text) : text :=
  match rfind dot_char file with
  | None => (file ++ ["_"%char] ++ app)%list
  | Some i => (firstn i file ++ ["_"%char] ++ app ++ skipn i file)%list
  end.
