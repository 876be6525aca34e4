(** k-point sampling (hotbit/states.py 79-175). *)
From Coq Require Import Reals ZArith List Bool Arith.
From Verif Require Import GeomModel UtilModel.
Import ListNotations.
Open Scope R_scope.

Definition e10 : R := / 10 ^ 10.
Definition dirs : list nat := [0; 1; 2]%nat.
(** component i of a 3-vector, and its assignment *)
Definition comp (i : nat) (v : v3) : R := match i with 0%nat => vx v | 1%nat => vy v | _ => vz v end.
Definition set_comp (i : nat) (x : R) (v : v3) : v3 :=
  match i with
  | 0%nat => V3 x (vy v) (vz v) | 1%nat => V3 (vx v) x (vz v) | _ => V3 (vx v) (vy v) x
  end.
(** np.linspace(a,b,n)[j] *)
Definition linspace (a b : R) (n j : nat) : R :=
  if (n =? 1)%nat then a else a + INR j * ((b - a) / (INR n - 1)).

Record kentry := { kpt : v3; wgt : R; kind : nat * nat * nat }.

Section Mesh.
(** number of transformations per direction, None: Inf (elements.py 436-447) *)
Variable M : nat -> option Z.
(** container.get_table()[i]['equivalent'], if any *)
Variable table : nat -> option v3.
Variable pbc : nat -> bool.

(** kl[i]; lines 103-123.  None: Warning (not physical), or ValueError from linspace for n<=0 *)
Definition kline (physical : bool) (i : nat) (n : Z) : option (nat -> R) :=
  let N := Z.to_nat n in
  if (n <? 1)%Z then None else
  match M i with
  | None => let spacing := 2 * PI / IZR n in
            Some (linspace (- PI + spacing / 2) (PI - spacing / 2) N)
  | Some m => if negb (existsb (Z.eqb n) (divisors m)) && physical then None
              else Some (linspace 0 (2 * PI - 2 * PI / IZR n) N)
  end.

(** the loop over 'equivalent' entries, lines 133-142.
    None: NotImplementedError or the assertion n[i]==0 *)
Fixpoint shear (l : list nat) (one : bool) (k : v3) : option v3 :=
  match l with
  | [] => Some k
  | i :: l' =>
      match table i with
      | None => shear l' one k
      | Some n =>
          if one then None
          else if Req_EM_T (comp i n) 0 then
            let d := match M i with None => 0 | Some m => vdot n k / IZR m end in
            shear l' true (set_comp i (comp i k + d) k)
          else None
      end
  end.

(** one round of the loop, lines 145-156 *)
Definition inverse (p : v3) (o : kentry) : bool := ltb (vnorm (vadd (kpt o) p)) e10.
Definition merge (nk0 : R) (acc : list kentry) (p : v3) (ind : nat * nat * nat) : list kentry :=
  if existsb (inverse p) acc
  then map (fun o => if inverse p o then {| kpt := kpt o; wgt := wgt o + 1 / nk0; kind := kind o |} else o) acc
  else acc ++ [{| kpt := p; wgt := 1 / nk0; kind := ind |}].

(** all (a,b,c), lines 129-131 *)
Definition indices (n1 n2 n3 : nat) : list (nat * nat * nat) :=
  flat_map (fun a => flat_map (fun b => map (fun c => (a, b, c)) (seq 0 n3)) (seq 0 n2)) (seq 0 n1).

Fixpoint sample (nk0 : R) (kl1 kl2 kl3 : nat -> R) (l : list (nat * nat * nat)) (acc : list kentry) : option (list kentry) :=
  match l with
  | [] => Some acc
  | (a, b, c) :: l' =>
      match shear dirs false (V3 (kl1 a) (kl2 b) (kl3 c)) with
      | None => None
      | Some p => sample nk0 kl1 kl2 kl3 l' (merge nk0 acc p (a, b, c))
      end
  end.

(** the final check, lines 170-174; false: AssertionError *)
Definition periodic_ok (ks : list v3) : bool :=
  forallb (fun i => forallb (fun k => negb (ltb e10 (comp i k) && negb (pbc i))) ks) dirs.

(** setup_k_sampling with a tuple; lines 93-161.  None: an exception *)
Definition setup_mesh (width : R) (physical : bool) (n1 n2 n3 : Z) : option (list kentry) :=
  if negb ((n1 =? 1) && (n2 =? 1) && (n3 =? 1))%Z && ltb width e10 then None
  else if ((n1 =? 0) || (n2 =? 0) || (n3 =? 0))%Z then None
  else match kline physical 0 n1, kline physical 1 n2, kline physical 2 n3 with
       | Some kl1, Some kl2, Some kl3 =>
           match sample (IZR (n1 * n2 * n3)) kl1 kl2 kl3
                        (indices (Z.to_nat n1) (Z.to_nat n2) (Z.to_nat n3)) [] with
           | None => None
           | Some l => if periodic_ok (map kpt l) then Some l else None
           end
       | _, _, _ => None
       end.

(** setup_k_sampling with a list of k-points; lines 93-94, 162-175 and
    k_to_kappa_points (auxil.py 4-18).  [rsk]: rs=='k'; [bravais]: container type and cell *)
Definition setup_list (width : R) (rsk : bool) (bravais : option m3) (kpts : list v3) : option (list (v3 * R)) :=
  if (length kpts =? 1)%nat && ltb width e10 then None
  else
    let ks := if rsk then match bravais with None => None | Some L => Some (map (mv L) kpts) end
              else Some kpts in
    match ks with
    | None => None
    | Some ks =>
        if periodic_ok ks then Some (map (fun k => (k, 1 / INR (length kpts))) ks) else None
    end.
End Mesh.
