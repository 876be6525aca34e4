(** Exchange-correlation functionals of libxc.  hotbit/parametrization/pylibxc_helper.py, pylibxc_functionals.py, pylibxc_interface.py *)
From Coq Require Import Reals String Ascii List Bool Arith.
From Verif Require Import GeomModel UtilModel IoModel.
Import ListNotations.
Open Scope R_scope.

(** XNameError: a local variable that was never assigned (UnboundLocalError is a NameError; here e_x is no variable at all) *)
Inductive xerror := XValueError | XNameError.
Inductive xres (A : Type) := XOk (x : A) | XFail (e : xerror).
Arguments XOk {A} _. Arguments XFail {A} _.

(** xc2libxc, pylibxc_functionals.py 6-31 (entries that are commented out left out).  All keys are lower case, so that the loop of
    lines 52-53 does nothing *)
Definition xc2libxc : list (string * string) :=
  [("gl", "LDA_X,LDA_C_GL"); ("hl", "LDA_X,LDA_C_HL"); ("pw92", "LDA_X,LDA_C_PW"); ("pz", "LDA_X,LDA_C_PZ"); ("svwn", "LDA_X,LDA_C_VWN");
   ("teter93", "LDA_XC_TETER93"); ("zlp", "LDA_XC_ZLP"); ("b96pbe", "GGA_X_B86_MGC,GGA_C_PBE"); ("beefvdw", "GGA_XC_BEEFVDW");
   ("blyp", "GGA_X_B88,GGA_C_LYP"); ("bp86", "GGA_X_B88,GGA_C_P86"); ("gam", "GGA_X_GAM,GGA_C_GAM"); ("pbe", "GGA_X_PBE,GGA_C_PBE");
   ("pbeint", "GGA_X_PBEINT,GGA_C_PBEINT"); ("pw86pbe", "GGA_X_PW86,GGA_C_PBE"); ("pw91", "GGA_X_PW91,GGA_C_PW91");
   ("revpbe", "GGA_X_PBE_R,GGA_C_PBE"); ("rpbe", "GGA_X_RPBE,GGA_C_PBE"); ("sogga", "GGA_X_SOGGA,GGA_C_PBE");
   ("sogga11", "GGA_X_SOGGA11,GGA_C_SOGGA11"); ("vv10", "GGA_XC_VV10"); ("xlyp", "GGA_XC_XLYP")]%string.
(** translate_xc, pylibxc_helper.py 32-36; names are strings (other types raise ValueError too) *)
Fixpoint lookup (k : text) (d : list (string * string)) : option string :=
  match d with [] => None | (k', v) :: d => if list_eq_dec ascii_dec k (txt k') then Some v else lookup k d end.
Definition translate_xc (xc : text) : xres string := match lookup (lower xc) xc2libxc with Some v => XOk v | None => XFail XValueError end.

(** a functional of libxc at one point: its family, energy per particle, derivatives of the energy density by density and by
    squared gradient *)
Record functional := Fun { is_gga : bool; zk : R -> R -> R; vrho : R -> R -> R; vsigma : R -> R -> R }.
Inductive libxc := Sep (x c : functional) | One (xc : functional).
(** the name has a comma, pylibxc_interface.py 35 *)
Fixpoint comma (s : string) : option (string * string) :=
  match s with
  | EmptyString => None
  | String ch r => if ascii_dec ch ","%char then Some (EmptyString, r) else option_map (fun p => (String ch (fst p), snd p)) (comma r)
  end.
(** __init__ 30-47.  [load]: pylibxc.LibXCFunctional(name, "unpolarized") *)
Definition init (load : string -> functional) (name : text) : xres libxc :=
  match translate_xc name with
  | XFail e => XFail e
  | XOk s => match comma s with Some (x, c) => XOk (Sep (load x) (load c)) | None => XOk (One (load s)) end
  end.
Definition any_gga (F : libxc) : bool := match F with Sep x c => is_gga x || is_gga c | One xc => is_gga xc end.
(** self.mini 31 *)
Definition mini : R := / 10 ^ 90.
(** the grid: radii and the derivative of an array (atom.py RadialGrid.derivative) *)
Record grid := Grid { g_r : nat -> R; g_der : (nat -> R) -> nat -> R }.
(** 60-61 and 83-85 *)
Definition drho_dr (g : grid) (rho : nat -> R) (i : nat) : R := if ltb (rho i) mini then 0 else g_der g rho i.
(** input of libxc; without gradient for pure LDAs, sigma is then not used (0 here) *)
Definition sigma (F : libxc) (g : option grid) (rho : nat -> R) (i : nat) : R :=
  match any_gga F, g with true, Some g => drho_dr g rho i * drho_dr g rho i | _, _ => 0 end.
Definition no_grid (F : libxc) (g : option grid) : bool := any_gga F && match g with None => true | Some _ => false end.
(** exc 55-76.  In the branch of separate functionals the energy of exchange is computed but not stored, and line 70 uses e_x *)
Definition exc (F : libxc) (g : option grid) (rho : nat -> R) : xres (nat -> R) :=
  if no_grid F g then XFail XValueError else
  match F with
  | Sep _ _ => XFail XNameError
  | One xc => XOk (fun i => zk xc (rho i) (sigma F g rho i))
  end.
(** v_gga 110-130 *)
Definition v_gga (g : grid) (de_dsigma grad : nat -> R) (i : nat) : R :=
  let de_dgrad := fun i => 2 * de_dsigma i * grad i in
  let r := Rmax (g_r g i) mini in
  2 * de_dgrad i / r + g_der g de_dgrad i.
(** potential of one functional, 89-92, 95-98, 103-106 *)
Definition part (P : functional) (F : libxc) (g : option grid) (rho : nat -> R) (i : nat) : R :=
  vrho P (rho i) (sigma F g rho i) -
  match is_gga P, g with true, Some gr => v_gga gr (fun i => vsigma P (rho i) (sigma F g rho i)) (drho_dr gr rho) i | _, _ => 0 end.
(** vxc 79-107 *)
Definition vxc (F : libxc) (g : option grid) (rho : nat -> R) : xres (nat -> R) :=
  if no_grid F g then XFail XValueError else
  match F with
  | Sep x c => XOk (fun i => part x F g rho i + part c F g rho i)
  | One xc => XOk (part xc F g rho)
  end.
(** atom.py 114-119 and 175-177: the functional of the all-electron calculation.  [pw92]: energy by XC_PW92 *)
Definition ks_exc (pw92 : (nat -> R) -> nat -> R) (load : string -> functional) (name : text) (g : grid) (dens : nat -> R) : xres (nat -> R) :=
  if list_eq_dec ascii_dec name (txt "PW92") then XOk (pw92 dens) else
  match init load name with XFail e => XFail e | XOk F => exc F (Some g) dens end.
