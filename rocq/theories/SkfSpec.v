(** Specification of element data and .skf files. *)
From Coq Require Import Reals ZArith List Arith Bool Ascii String.
From Verif Require Import Vec UtilModel GeomModel ElemModel IoModel IoSpec SkfModel.
Import ListNotations.
Open Scope list_scope.

(** ** On-site energies *)
(** the letter of an orbital such as 3d *)
Definition letter (s : shell) : ascii := match s with Sh_s => "s" | Sh_p => "p" | Sh_d => "d" end%char.
Definition in_shell (o : text) (s : shell) : Prop := exists n, o = [n; letter s].
(** every basis orbital has the energy of the valence orbital of its own kind, and
    every valence orbital has its basis orbitals *)
Definition energies_match (types : list shell) (energies : list R) (eps : list (text * R)) : Prop :=
  List.length types = List.length energies /\
  (forall k t, nth_error types k = Some t -> exists o e, In (o, e) eps /\ in_shell o t /\ nth_error energies k = Some e) /\
  (forall o e t, In (o, e) eps -> in_shell o t -> count_occ (fun a b : shell => ltac:(decide equality) : {a = b} + {a <> b}) types t = degeneracy t).

(** ** Written numbers *)
Definition prints (parse : text -> option R) (fmt : R -> text) (rnd : R -> R) (v : R) : Prop :=
  exists a w, fmt v = a ++ w /\ Forall (fun c => is_space c = true) a /\ numeral parse w (rnd v).

(** ** The repulsion of a .skf file *)
(** the pieces follow one another without gap *)
Fixpoint chain (from : R) (ps : list piece) : Prop :=
  match ps with [] => True | p :: ps => p_from p = from /\ (p_from p < p_to p)%R /\ chain (p_to p) ps end.
(** the function in force at the distance [r]: [f] up to the knot, then the pieces *)
Fixpoint in_force (f : R -> R) (knot : R) (ps : list piece) (r : R) : R -> R :=
  match ps with [] => f | p :: ps => if Rlt_dec r knot then f else in_force (piece_at p) (p_to p) ps r end.
(** the repulsion that the file describes *)
Definition described (f : R -> R) (knot : R) (ps : list piece) (r : R) : R := in_force f knot ps r r.
(** it is continuous at the knots *)
Fixpoint continuous_pieces (f : R -> R) (knot : R) (ps : list piece) : Prop :=
  match ps with [] => True | p :: ps => piece_at p knot = f knot /\ continuous_pieces (piece_at p) (p_to p) ps end.
(** where pieces begin *)
Definition knots (ps : list piece) : list R := map p_from ps.
Definition lipschitz (L a b : R) (g : R -> R) : Prop := forall u v, (a <= u <= v)%R -> (v <= b)%R -> (Rabs (g v - g u) <= L * (v - u))%R.
(** a line of numbers with the bounds and [n] coefficients of a piece *)
Definition piece_line (parse : text -> option R) (n : nat) (l : line) (p : piece) : Prop :=
  fortran_readline parse l = Ok (p_from p :: p_to p :: p_coef p) /\ List.length (p_coef p) = n.
(** the splines of an .skf file: after the keyword, the number of pieces and the cutoff, the
    exponential, and a line per piece that begins where the previous one ends *)
Definition exponential (c1 c2 c3 r : R) : R := (c3 + exp (c2 - c1 * r))%R.
Definition spline_file (parse : text -> option R) (f : file) (cutoff c1 c2 c3 : R) (p1 : piece) (cs : list piece) (q : piece) : Prop :=
  exists pre keyword h e l1 ls l rest, f = pre ++ keyword :: h :: e :: l1 :: ls ++ l :: rest /\
    Forall (fun l => is_spline l = false) pre /\ is_spline keyword = true /\
    fortran_readline parse h = Ok [INR (2 + List.length cs); cutoff] /\ fortran_readline parse e = Ok [c1; c2; c3] /\
    piece_line parse 4 l1 p1 /\ Forall2 (piece_line parse 4) ls cs /\ piece_line parse 6 l q /\ chain (p_from p1) (p1 :: cs ++ [q]).
Definition ascending (x : list R) : Prop := forall i j a b, (i < j)%nat -> nth_error x i = Some a -> nth_error x j = Some b -> (a < b)%R.

(** ** Files written by the converter *)
(** how a written number reads back: rounded by the format *)
Record rounding : Type := { r12 : R -> R; r8 : R -> R; r6 : R -> R; r1 : R -> R; r2 : R -> R; re : R -> R }.
Definition reads_back (parse : text -> option R) (fm : formats) (rd : rounding) : Prop :=
  (forall v, prints parse (f12 fm) (r12 rd) v) /\ (forall v, prints parse (f8 fm) (r8 rd) v) /\ (forall v, prints parse (f6 fm) (r6 rd) v) /\
  (forall v, prints parse (f1 fm) (r1 rd) v) /\ (forall v, prints parse (f2 fm) (r2 rd) v) /\ (forall v, prints parse (e12 fm) (re rd) v) /\
  parse (txt "0.0") = Some 0%R /\ parse (txt "1.0") = Some 1%R /\ (forall n, parse (str n) = Some (INR n)).
(** the number read back for a table entry *)
Definition entry (is0 : R -> bool) (rd : rounding) (v : R) : R := if is0 v then 0%R else re rd v.
(** the last number of the row is not zero *)
Definition ends_nonzero (is0 : R -> bool) (row : list R) : Prop := forall r v, row = r ++ [v] -> is0 v = false.
