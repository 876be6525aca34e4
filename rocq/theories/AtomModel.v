(** Parametrisation: smooth tails, ionisation energies, radial equation, radial grid, Hartree potential and the PW92
    functional.  hotbit/parametrization/util.py and atom.py.  Arrays are functions on indices. *)
From Coq Require Import Reals List Bool Arith.
From Verif Require Import Vec GeomModel.
Import ListNotations.
Open Scope R_scope.

Definition upd (u : nat -> R) (i : nat) (v : R) : nat -> R := fun j => if (j =? i)%nat then v else u j.
(** np.sign *)
Definition sgn (x : R) : R := if ltb 0 x then 1 else if ltb x 0 then -1 else 0.

(** ** tail_smoothening, util.py 157-203.  Results: the array, RuntimeError 'too large tail', UnboundLocalError (k),
    RuntimeError 'Problems with function smoothening' *)
Inductive tail_result := TOk (y : nat -> R) | TLarge | TUnbound | TProblem.
Section Tail.
Variables (N : nat) (x : nat -> R).
Definition xmax : R := x (N - 1)%nat.
(** lines 176-177; numpy: the slope +0 makes y/slope +inf, -inf or nan *)
Definition crosses (y : nat -> R) (i : nat) : bool :=
  if Req_EM_T (y (S i)) (y i) then ltb 0 (y i)
  else ltb (x i - y i / ((y (S i) - y i) / (x (S i) - x i))) xmax.
(** loop 175-179 from i down to 2 *)
Fixpoint find_k (y : nat -> R) (i : nat) : option nat :=
  match i with
  | O | S O => None
  | S i' => if crosses y i then Some i else find_k y i'
  end.
(** c3 and c2 of lines 192-195 *)
Definition tail_c3 (y : nat -> R) (k m : nat) : R :=
  let a1 := (xmax - x k) ^ m in let a2 := (xmax - x k) ^ (m + 1) in
  let b1 := (xmax - x (S k)) ^ m in let b2 := (xmax - x (S k)) ^ (m + 1) in
  (y k - a1 * y (S k) / b1) / (a2 - a1 * b2 / b1).
Definition tail_c2 (y : nat -> R) (k m : nat) : R :=
  (y k - (xmax - x k) ^ (m + 1) * tail_c3 y k m) / (xmax - x k) ^ m.
(** lines 196-198 *)
Definition tail_fill (y : nat -> R) (k m : nat) : nat -> R :=
  upd (fun i => if ((k + 2 <=? i) && (i <? N))%nat
                then tail_c2 y k m * (xmax - x i) ^ 2 + tail_c3 y k m * (xmax - x i) ^ 3 else y i) (N - 1) 0.
(** np.all(y[k:]*sgn>=0) *)
Definition tail_signs (y : nat -> R) (k : nat) (s : R) : bool := forallb (fun i => leb 0 (y i * s)) (seq k (N - k)).
(** loop 191-202; n = 9 - m *)
Fixpoint tail_try (s : R) (k n : nat) (y : nat -> R) : tail_result :=
  let y' := tail_fill y k (9 - n) in
  if tail_signs y' k s then TOk y'
  else match n with O => TProblem | S n' => tail_try s k n' y' end.
Definition tail_smoothening (y : nat -> R) : tail_result :=
  if forallb (fun i => ltb (Rabs (y i)) (/ 10 ^ 10)) (seq 0 N) then TOk y
  else match find_k y (N - 3) with
  | None => TUnbound
  | Some k => if (4 * k <? N)%nat then TLarge
    else if (k =? N - 3)%nat then TOk (upd y (N - 1) 0)
    else tail_try (sgn (y k)) k 7 y
  end.
End Tail.

(** ** IP_EA, util.py 247-257: energies of the negative ion, the neutral atom and the positive ion are results of KSAllElectron.
    None: ZeroDivisionError *)
Definition IP_EA (e_neg e_0 e_pos remove add : R) : option (R * R) :=
  if Req_EM_T remove 0 then None else
  if Req_EM_T (add * (remove + add)) 0 then None else
  let en := e_neg - e_0 in let ep := e_pos - e_0 in
  let c2 := (en + ep * add / remove) / (add * (remove + add)) in
  let c1 := (c2 * remove ^ 2 - ep) / remove in
  Some (- c1 + c2, - (c1 + c2)).

(** ** shoot, atom.py 645-702 *)
Section Shoot.
Variables (dx : R) (c2 c1 c0 : nat -> R) (N : nat).
(** lines 664-666 *)
Definition fp (i : nat) : R := c2 i / dx ^ 2 + / 2 * c1 i / dx.
Definition fm (i : nat) : R := c2 i / dx ^ 2 - / 2 * c1 i / dx.
Definition f0 (i : nat) : R := c0 i - 2 * c2 i / dx ^ 2.
Definition all_negative : bool := forallb (fun i => ltb (c0 i) 0) (seq 0 N).
(** loop 674-682 from i down to 1; None: the loop ends without ctp *)
Definition back_step (i : nat) (u : nat -> R) : nat -> R :=
  let u1 := upd u (i - 1) ((- fp i * u (i + 1)%nat - f0 i * u i) / fm i) in
  if ltb (10 ^ 10) (Rabs (u1 (i - 1)%nat)) then fun j => if (i - 1 <=? j)%nat then u1 j * / 10 ^ 10 else u1 j else u1.
Fixpoint back (i : nat) (u : nat -> R) : option ((nat -> R) * nat) :=
  match i with
  | O => None
  | S i' =>
    let u2 := back_step i u in
    if ltb 0 (c0 i) then Some (u2, i)
    else if all_negative && (i =? N / 2)%nat then Some (u2, (N / 2)%nat)
    else back i' u2
  end.
(** loop 688-689, i = 1..n *)
Fixpoint fwd (n : nat) (u : nat -> R) : nat -> R :=
  match n with
  | O => u
  | S n' => let v := fwd n' u in upd v (n + 1) ((- f0 n * v n - fm n * v (n - 1)%nat) / fp n)
  end.
Record shot := Shot { sh_u : nat -> R; sh_nodes : nat; sh_A : R; sh_ctp : nat }.
(** None: UnboundLocalError (ctp) *)
Definition shoot (u : nat -> R) : option shot :=
  let u0 := upd u (N - 1) 1 in
  let u1 := upd u0 (N - 2) (u0 (N - 1)%nat * f0 (N - 1) / fm (N - 1)) in
  match back (N - 2) u1 with
  | None => None
  | Some (u2, ctp) =>
    let utp := u2 ctp in let utp1 := u2 (ctp + 1)%nat in
    let dright := (u2 (ctp + 1)%nat - u2 (ctp - 1)%nat) / (2 * dx) in
    let u3 := fwd ctp u2 in
    let dleft := (u3 (ctp + 1)%nat - u3 (ctp - 1)%nat) / (2 * dx) in
    let scale := utp / u3 ctp in
    let u4 := fun j => if (j <=? ctp)%nat then u3 j * scale else u3 j in
    let u5 := upd u4 (ctp + 1) utp1 in
    let s := sgn (u5 1%nat) in
    let u6 := fun j => u5 j * s in
    let nodes := length (filter (fun j => ltb (u6 j * u6 (j + 1)%nat) 0) (seq 0 (ctp - 1))) in
    Some (Shot u6 nodes ((dright - dleft * scale) * utp) ctp)
  end.
End Shoot.
(** construct_coefficients without relativistic corrections, atom.py 475-480; r: grid point, v: effective potential there *)
Definition coef0 (l : nat) (r v eps : R) : R := - 2 * (/ 2 * INR l * (INR l + 1) + r ^ 2 * (v - eps)).
Definition coef1 : R := -1.
Definition coef2 : R := 1.

(** ** RadialGrid, atom.py 705-763; N grid points *)
Section Radial.
Variables (N : nat) (grid : nat -> R).
Definition g_dr (i : nat) : R := grid (i + 1)%nat - grid i.
Definition g_r0 (i : nat) : R := grid i + g_dr i / 2.
Definition g_dV0 (i : nat) : R := 4 * PI * g_r0 i ^ 2 * g_dr i.
Definition g_dV (i : nat) : R := g_dV0 i * ((4 * PI * grid (N - 1)%nat ^ 3 / 3) / rsum (N - 1) g_dV0).
Definition g_integrate (f : nat -> R) (use_dV : bool) : R :=
  if use_dV then rsum (N - 1) (fun i => (f i + f (i + 1)%nat) * g_dV i) * / 2
  else rsum (N - 1) (fun i => (f i + f (i + 1)%nat) * g_dr i) * / 2.
(** calculate_Hartree_potential, 224-251 *)
Definition h_n0 (nel : R) (dens : nat -> R) (i : nat) : R :=
  let n0 := fun i => / 2 * (dens (i + 1)%nat + dens i) in
  n0 i * (nel / rsum (N - 1) (fun i => n0 i * g_dV i)).
Fixpoint h_lo (nel : R) (dens : nat -> R) (i : nat) : R :=
  match i with O => 0 | S i' => h_lo nel dens i' + g_dV i' * h_n0 nel dens i' end.
(** hi[N-1-d] *)
Fixpoint h_hi (nel : R) (dens : nat -> R) (d : nat) : R :=
  match d with O => 0 | S d' => h_hi nel dens d' + (let i := (N - 1 - d)%nat in h_n0 nel dens i * g_dV i / g_r0 i) end.
Definition hartree (nel : R) (dens : nat -> R) (i : nat) : R := h_lo nel dens i / grid i + h_hi nel dens (N - 1 - i).
(** guess_density 268-273 *)
Definition guess_density (Z nel : R) (i : nat) : R :=
  let d := fun i => exp (- grid i / (2 / 100 * Z / ln 2)) in d i / g_integrate d true * nel.
(** calculate_density 207-219; dens: sum of occupation times u^2.  None: RuntimeError *)
Definition calculate_density (nel : R) (occ : list R) (unl : nat -> nat -> R) (i : nat) : option R :=
  let d := fun j => rsum (length occ) (fun a => nth a occ 0 * unl a j ^ 2) in
  if ltb (/ 10 ^ 10) (Rabs (g_integrate d false - nel)) then None else Some (d i / (4 * PI * grid i ^ 2)).
End Radial.

(** ** XC_PW92, atom.py 813-884; (x)**p for positive x is Rpower *)
Definition pw_a1 : R := 21370 / 100000.
Definition pw_c0 : R := 31091 / 1000000.
Definition pw_c1 : R := 46644 / 1000000.
Definition pw_b1 : R := 1 / 2 / pw_c0 * exp (- pw_c1 / 2 / pw_c0).
Definition pw_b2 : R := 2 * pw_c0 * pw_b1 ^ 2.
Definition pw_b3 : R := 16382 / 10000.
Definition pw_b4 : R := 49294 / 100000.
Definition e_x (n : R) (der : bool) : R :=
  if negb der then - 3 / 4 * Rpower (3 * n / PI) (1 / 3) else - 3 / (4 * PI) * Rpower (3 * n / PI) (- 2 / 3).
Definition e_corr (n : R) (der : bool) : R :=
  let sqrtrs := Rpower (3 / (4 * PI * n)) (1 / 6) in
  let rs := sqrtrs * sqrtrs in
  let aux := 2 * pw_c0 * (pw_b1 * sqrtrs + pw_b2 * rs + pw_b3 * Rpower rs (3 / 2) + pw_b4 * rs ^ 2) in
  let auxinv := 1 / aux in
  if negb der then - 2 * pw_c0 * (1 + pw_a1 * rs) * ln (1 + auxinv)
  else
    let aux_new := 2 * sqrt PI * n * rs in
    let maux_new2inv := - 1 / (aux_new * aux_new) in
    (- 2 * pw_c0 * pw_a1 * ln (1 + auxinv)
     - 2 * pw_c0 * (1 + pw_a1 * rs) * / (1 + auxinv) * (- auxinv * auxinv)
       * 2 * pw_c0 * (pw_b1 / (2 * sqrtrs) + pw_b2 + 3 * pw_b3 * sqrtrs / 2 + 2 * pw_b4 * rs)) * maux_new2inv.
Definition small : R := / 10 ^ 90.
Definition pw_exc (n : R) (der : bool) : R := if ltb n small then 0 else e_x n der + e_corr n der.
Definition pw_vxc (n : R) : R := pw_exc n false + n * pw_exc n true.
