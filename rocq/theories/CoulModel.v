(** Coulomb solvers: caching, image bookkeeping and index arithmetic.
    hotbit/coulomb/direct_coulomb.py, hotbit/coulomb/multipole_expansion.py, hotbit/coulomb/multipole.py,
    hotbit/neighbors.py, hotbit/c/multipole.c, hotbit/c/spherical.c *)
From Coq Require Import ZArith List Bool Arith.
Import ListNotations.
Open Scope Z_scope.

(** ** Cache of the solvers *)
Section Cache.
(** positions, charges, everything else the result depends on (cell, symmetry), results *)
Variables Pos Chg Env Res : Type.
Variables (poseq : forall a b : Pos, {a = b} + {a <> b}) (chgeq : forall a b : Chg, {a = b} + {a <> b}).
(** the calculation itself; None: it raises an exception (multipole_expansion.py 150-157) *)
Variable compute : Env -> Pos -> Chg -> option Res.

(** r_av and q_a; phi_a and E_av *)
Record solver := { last : option (Pos * Chg); res : option Res }.
(** __init__ *)
Definition fresh : solver := {| last := None; res := None |}.

(** _update: positions and charges are stored before anything is computed (direct_coulomb.py 83-86,
    multipole_expansion.py 135-136).  The flag tells whether the call returned normally. *)
Definition do_update (s : solver) (e : Env) (p : Pos) (q : Chg) : solver * bool :=
  match compute e p q with
  | Some r => ({| last := Some (p, q); res := Some r |}, true)
  | None => ({| last := Some (p, q); res := res s |}, false)
  end.
(** update, direct_coulomb.py 59-68 and multipole_expansion.py 110-119 *)
Definition update (s : solver) (e : Env) (p : Pos) (q : Chg) : solver * bool :=
  match last s with
  | None => do_update s e p q
  | Some (p', q') => if poseq p p' then if chgeq q q' then (s, true) else do_update s e p q else do_update s e p q
  end.
(** a sequence of updates *)
Fixpoint updates (s : solver) (l : list (Env * Pos * Chg)) : solver * bool :=
  match l with
  | [] => (s, true)
  | (e, p, q) :: l => let (s1, ok) := update s e p q in
      let (s2, ok2) := updates s1 l in (s2, ok && ok2)
  end.
End Cache.

(** ** Ranges of symmetry operations; None is an infinite end *)
Definition zrange (a b : Z) : list Z := map (fun i => a + Z.of_nat i) (seq 0 (Z.to_nat (b - a))).
(** n_from_ranges for one direction, neighbors.py 33-44 *)
Definition n_from_range (cn cm : Z) (s : option Z * option Z) : Z * Z :=
  (match fst s with None => cn | Some i => i end, match snd s with None => cm + 1 | Some i => i + 1 end).

Definition cell := (Z * Z * Z)%type.
Definition triples (l1 l2 l3 : list Z) : list cell :=
  flat_map (fun a => flat_map (fun b => map (fun c => (a, b, c)) l3) l2) l1.
Definition t1 (c : cell) : Z := fst (fst c).
Definition t2 (c : cell) : Z := snd (fst c).
Definition t3 (c : cell) : Z := snd c.
Definition tmap2 (f : Z -> Z -> Z) (a b : cell) : cell := (f (t1 a) (t1 b), f (t2 a) (t2 b), f (t3 a) (t3 b)).
Definition tmap (f : Z -> Z) (a : cell) : cell := (f (t1 a), f (t2 a), f (t3 a)).

Section Telescope.
(** multipole_expansion.py 65-94: n and k after conversion to 3-vectors *)
Variables n kk : cell.
Variables s1 s2 s3 : option Z * option Z.
Definition lo_of (n : Z) : Z := - ((n - 1) / 2).
Definition hi_of (n : Z) : Z := n / 2.
Definition span (s : option Z * option Z) (n : Z) : list Z :=
  let r := n_from_range (lo_of n) (hi_of n) s in zrange (fst r) (snd r).
Definition kmax : nat := Z.to_nat (Z.max (t1 kk) (Z.max (t2 kk) (t3 kk))).
(** [0,1] or the full range, lines 169-182 and 233-246 *)
Definition sel (c : bool) (l : list Z) : list Z := if c then zrange 0 1 else l.
Definition level (i : nat) : cell := tmap (fun x => x ^ Z.of_nat i) n.

(** The images whose charges the telescoped multipole M[i] contains: lines 160-218.
    Image c stands for the symmetry operation with these three exponents; the operations commute and
    compose by addition (C18), so that operation x*level applied to image y is image x*level+y. *)
Fixpoint block (i : nat) : list cell :=
  match i with
  | O => [(0, 0, 0)]
  | S i =>
      let k := Z.of_nat i in
      flat_map (fun x => map (fun y => tmap2 Z.add (tmap2 Z.mul x (level i)) y) (block i))
        (triples (sel (t1 kk - 2 <=? k) (span s1 (t1 n)))
                 (sel (t2 kk - 2 <=? k) (span s2 (t2 n)))
                 (sel (t3 kk - 2 <=? k) (span s3 (t3 n))))
  end.
(** "np.any(x < self.n1) or np.any(x > self.n2)", line 256 *)
Definition outside (x : cell) : bool :=
  (t1 x <? lo_of (t1 n)) || (t2 x <? lo_of (t2 n)) || (t3 x <? lo_of (t3 n)) ||
  (hi_of (t1 n) <? t1 x) || (hi_of (t2 n) <? t2 x) || (hi_of (t3 n) <? t3 x).
(** images entering the local expansion in step k, lines 225-265; the multipole used is M[kmax-2-k] *)
Definition far_step (k : nat) : list cell :=
  let i := (kmax - 2 - k)%nat in
  let kz := Z.of_nat k in
  flat_map (fun x => map (fun y => tmap2 Z.add (tmap2 Z.mul x (level i)) y) (block i))
    (filter outside (triples (sel (t1 kk - 1 <=? kz) (span s1 (t1 n ^ 2)))
                             (sel (t2 kk - 1 <=? kz) (span s2 (t2 n ^ 2)))
                             (sel (t3 kk - 1 <=? kz) (span s3 (t3 n ^ 2))))).
Definition far : list cell := flat_map far_step (seq 0 (kmax - 1)).
(** near field with the cell itself, lines 294-332 *)
Definition near : list cell := triples (span s1 (t1 n)) (span s2 (t2 n)) (span s3 (t3 n)).
End Telescope.

(** ** Index arithmetic of the multipole arrays *)
(** spherical.h 13 and multipole.py 19-31 *)
Definition lm2index (l m : Z) : Z := Z.quot (l * (l - 1)) 2 + m - 1.
(** inclusive integer loop *)
Definition upto (a b : Z) : list Z := zrange a (b + 1).
(** An array access: (declared size, index). *)
Definition acc := (Z * Z)%type.
Definition in_bounds (a : acc) : Prop := 0 <= snd a < fst a.

(** solid_harmonic_R, spherical.c 50-118.  Sizes: Pl0, Rl0: l_max+1; Plm, Rlm: lm2index(l_max,l_max)+1; ang: l_max *)
Definition acc_R (L : Z) : list acc :=
  let A0 i := (L + 1, i) in let A i := (lm2index L L + 1, i) in let ang i := (L, i) in
  [A0 0; A0 1; A (lm2index 1 1)] ++
  flat_map (fun l => [A (lm2index l l); A (lm2index (l - 1) (l - 1)); A (lm2index l (l - 1)); A0 l; A0 (l - 1); A0 (l - 2)] ++
    flat_map (fun m => [A (lm2index l 0 + m); A (lm2index (l - 1) m); A (lm2index (l - 2) m)]) (upto 1 (l - 2))) (upto 2 L) ++
  map (fun m => ang (m - 1)) (upto 1 L) ++
  [A0 0; A0 1; A (lm2index 1 1); ang 0] ++
  flat_map (fun l => A0 l :: flat_map (fun m => [A (lm2index l 0 + m); ang (m - 1)]) (upto 1 l)) (upto 2 L).

(** solid_harmonic_I, spherical.c 129-209 *)
Definition acc_I (L : Z) : list acc :=
  let A0 i := (L + 1, i) in let A i := (lm2index L L + 1, i) in let ang i := (L, i) in
  [A0 0; A0 1; A (lm2index 1 1)] ++
  flat_map (fun l => [A (lm2index l l); A (lm2index (l - 1) (l - 1)); A (lm2index l (l - 1)); A0 l; A0 (l - 1); A0 (l - 2)] ++
    flat_map (fun m => [A (lm2index l m); A (lm2index (l - 1) m); A (lm2index (l - 2) m)]) (upto 1 (l - 2))) (upto 2 L) ++
  map (fun m => ang (m - 1)) (upto 1 L) ++
  [A0 0; A0 1; A (lm2index 1 1); ang 0] ++
  flat_map (fun l => A0 l :: flat_map (fun m => [A (lm2index l 0 + m); ang (m - 1)]) (upto 1 l)) (upto 2 L).

(** the (l,m) pairs in the order of the loops "for l, for m = 1..l"; the running counters j and k of the C code
    are positions in this order *)
Definition lm_order (L : Z) : list (Z * Z) := flat_map (fun l => map (fun m => (l, m)) (upto 1 l)) (upto 0 L).
Definition counted (L : Z) : list (Z * (Z * Z)) := combine (map Z.of_nat (seq 0 (length (lm_order L)))) (lm_order L).

(** multipole_to_multipole, multipole.c 34-129 (dr = 0 gives the first branch) *)
Definition acc_m2m (zero : bool) (L : Z) : list acc :=
  let A0 i := (L + 1, i) in let A i := (lm2index L L + 1, i) in
  if zero then map A0 (upto 0 L) ++ map A (upto 0 (lm2index L L))
  else acc_R L ++
  flat_map (fun l => flat_map (fun la => [A0 l; A0 (l - la); A0 la] ++
     flat_map (fun mu => [A (lm2index (l - la) mu); A (lm2index la mu)]) (upto 1 (Z.min la (- la + l)))) (upto 0 l)) (upto 0 L) ++
  flat_map (fun jlm => let '(j, (l, m)) := jlm in
     flat_map (fun la => flat_map (fun mu =>
        [if m - mu <? 0 then A (lm2index (l - la) (mu - m)) else if m - mu =? 0 then A0 (l - la) else A (lm2index (l - la) (m - mu));
         if mu <? 0 then A (lm2index la (- mu)) else if mu =? 0 then A0 la else A (lm2index la mu);
         A j]) (upto (Z.max (- la) (la - l + m)) (Z.min la (- la + l + m)))) (upto 0 l)) (counted L).

(** multipole_to_local, multipole.c 137-234 *)
Definition acc_m2l (L : Z) : list acc :=
  let A0 i := (L + 1, i) in let A i := (lm2index L L + 1, i) in
  let I0 i := (2 * L + 1, i) in let I i := (lm2index (2 * L) (2 * L) + 1, i) in
  acc_I (2 * L) ++
  flat_map (fun l => flat_map (fun la => [A0 l; A0 la; I0 (l + la)] ++
     flat_map (fun mu => [A (lm2index la mu); I (lm2index (l + la) mu)]) (upto 1 la)) (upto 0 L)) (upto 0 L) ++
  flat_map (fun klm => let '(k, (l, m)) := klm in
     flat_map (fun la => flat_map (fun mu =>
        [if m + mu <? 0 then I (lm2index (l + la) (- m - mu)) else if m + mu =? 0 then I0 (l + la) else I (lm2index (l + la) (m + mu));
         if mu <? 0 then A (lm2index la (- mu)) else if mu =? 0 then A0 la else A (lm2index la mu);
         A k]) (upto (- la) la)) (upto 0 L)) (counted L).

(** local_to_local, multipole.c 240-360 *)
Definition acc_l2l (zero : bool) (L L2 : Z) : list acc :=
  let A0 i := (L + 1, i) in let A i := (lm2index L L + 1, i) in
  let O0 i := (L2 + 1, i) in let O i := (lm2index L2 L2 + 1, i) in
  if zero then let m := Z.min L L2 in
    flat_map (fun l => [O0 l; A0 l]) (upto 0 m) ++ flat_map (fun l => [O l; A l]) (upto 0 (lm2index m m))
  else acc_R L ++
  flat_map (fun l => flat_map (fun la => [O0 l; A0 (l + la); A0 la] ++
     flat_map (fun mu => [A (lm2index (l + la) mu); A (lm2index la mu)]) (upto 1 la)) (upto 0 (L - l))) (upto 0 L2) ++
  flat_map (fun klm => let '(k, (l, m)) := klm in
     flat_map (fun la => flat_map (fun mu =>
        [if m + mu <? 0 then A (lm2index (l + la) (- m - mu)) else if m + mu =? 0 then A0 (l + la) else A (lm2index (l + la) (m + mu));
         if mu <? 0 then A (lm2index la (- mu)) else if mu =? 0 then A0 la else A (lm2index la mu);
         O k]) (upto (- la) la)) (upto 0 (L - l))) (counted L2).

(** idx and arrsize, multipole.c 367-368 *)
Definition idx (l i j : Z) : Z := (2 + l + j) + (2 + l + i) * (2 * (l + 2) + 1).
Definition arrsize (l : Z) : Z := idx l (l + 2) (l + 2) + 1.
(** matrix_dot_multipole, multipole.c 374-428; D has the size declared in transform_multipole *)
Definition acc_dot (L l : Z) : list acc :=
  let A0 i := (L + 1, i) in let A i := (lm2index L L + 1, i) in let D i := (arrsize L, i) in
  [A0 l; D (idx l 0 0)] ++
  flat_map (fun m => [D (idx l 0 m); D (idx l 0 (- m)); A (lm2index l m)]) (upto 1 l) ++
  flat_map (fun n => [A (lm2index l n); D (idx l n 0); A0 l] ++
     flat_map (fun m => [D (idx l n m); D (idx l n (- m)); A (lm2index l m)]) (upto 1 l)) (upto 1 l).
(** transform_multipole, multipole.c 443-559; a block copy of s elements accesses index s-1 *)
Definition acc_transform (L : Z) : list acc :=
  let A0 i := (L + 1, i) in let D1 i := (arrsize 1, i) in let D i := (arrsize L, i) in
  [A0 0] ++
  flat_map (fun i => map (fun j => D1 (idx 1 i j)) (upto (-1) 1)) (upto (-1) 1) ++
  [D (arrsize 1 - 1); D1 (arrsize 1 - 1)] ++ acc_dot L 1 ++
  flat_map (fun l =>
    [D (arrsize (l - 1) - 1); D (arrsize l - 1)] ++
    flat_map (fun n =>
      [D (idx l (- l) n); D (idx (l - 1) (- l + 1) (n + 1)); D (idx (l - 1) (- l + 1) n); D (idx (l - 1) (- l + 1) (n - 1))] ++
      flat_map (fun m => [D (idx l m n); D (idx (l - 1) m (n + 1)); D (idx (l - 1) m n); D (idx (l - 1) m (n - 1))]) (upto (- l + 1) (l - 1)) ++
      [D (idx l l n); D (idx (l - 1) (l - 1) (n + 1)); D (idx (l - 1) (l - 1) n); D (idx (l - 1) (l - 1) (n - 1))]) (upto (- l) l) ++
    acc_dot L l) (upto 2 L).
