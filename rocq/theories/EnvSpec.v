From Coq Require Import Reals List Bool Arith.
From Verif Require Import Vec EnvModel.
Import ListNotations.
Open Scope R_scope.

(** sum of potentials at a point and time *)
Definition superposition (fs : list potential) (r : nat -> R) (t : R) : R := fold_right (fun f s => f r t + s) 0 fs.
(** the potentials added and the time elapsed in a history *)
Fixpoint added {A} (xs : list (ecall A)) : list potential := match xs with [] => [] | AddPhi f :: xs => f :: added xs | _ :: xs => added xs end.
Fixpoint elapsed {A} (xs : list (ecall A)) : R := match xs with [] => 0 | Propagate dt :: xs => dt + elapsed xs | _ :: xs => elapsed xs end.
(** the atoms that the last solution belongs to, and the history before it: solved again only if atoms change *)
Fixpoint last_solution {A} (same : A -> A -> bool) (done : list (ecall A)) (cur : option (A * list (ecall A))) (xs : list (ecall A)) : option (A * list (ecall A)) :=
  match xs with
  | [] => cur
  | Solve a :: xs =>
      let fresh := Some (a, done) in
      last_solution same (done ++ [Solve a]) (match cur with None => fresh | Some (b, _) => if same b a then cur else fresh end) xs
  | x :: xs => last_solution same (done ++ [x]) cur xs
  end.
Definition is_solve {A} (x : ecall A) : bool := match x with Solve _ => true | _ => false end.
(** calculation made before a potential is added *)
Definition starts_with_solve {A} (xs : list (ecall A)) : Prop := match xs with [] => True | x :: _ => is_solve x = true end.
