From Coq Require Import Reals List Bool Arith.
From Verif Require Import Vec GeomModel SkModel SkSpec Cpx RhoModel RhoSpec RhoProofs5 DosModel DosSpec DosProofs2 DosProofs3 DosProofs4.
Import ListNotations.
Open Scope R_scope.

(** C93 *)
Theorem C93_values : forall x y w s ext N a b xg g v,
  broaden x (Some y) w s ext N a b xg = DOk (g, v) ->
  v = map (superposition s w x y) g /\ match xg with Some q => g = q | None => length g = N end.
Proof. exact broaden_values. Qed.
Theorem C93_default_heights : forall x w s ext N a b xg,
  broaden x None w s ext N a b xg = broaden x (Some (map (fun _ => 1) x)) w s ext N a b xg.
Proof. exact broaden_ones. Qed.
Theorem C93_grid : forall x y w s ext N a b g v,
  (1 < N)%nat -> broaden x (Some y) w s ext N a b None = DOk (g, v) ->
  (match a with Some a => nth 0 g 0 = a | None => exists m, In m x /\ (forall z, In z x -> m <= z) /\ nth 0 g 0 = m - (if ext then 4 * w else 0) end) /\
  (match b with Some b => nth (N - 1) g 0 = b | None => exists m, In m x /\ (forall z, In z x -> z <= m) /\ nth (N - 1) g 0 = m + (if ext then 4 * w else 0) end) /\
  forall i, (i + 1 < N)%nat -> nth (i + 1) g 0 - nth i g 0 = (nth (N - 1) g 0 - nth 0 g 0) / INR (N - 1).
Proof. exact broaden_grid. Qed.
Theorem C93_errors : forall x y w s ext N a b xg,
  match broaden x (Some y) w s ext N a b xg with
  | DFail DValueError => x = [] /\ (a = None \/ b = None)
  | DFail DUnboundLocal => s = OtherShape /\ combine x y <> []
  | DFail _ => False
  | DOk _ => (x <> [] \/ (a <> None /\ b <> None)) /\ (known s \/ combine x y = [])
  end.
Proof. exact broaden_errors. Qed.
Theorem C93_area : forall s w x y,
  known s -> 0 < w -> length x = length y -> integrates_to (superposition s w x y) (total y).
Proof. exact area. Qed.
Theorem C93_area_unique : forall f s t,
  integrates_to f s -> integrates_to f t -> s = t.
Proof. exact integral_unique. Qed.
Theorem C93_peak_area : forall s w xi,
  known s -> 0 < w -> integrates_to (peak s w xi) 1.
Proof. exact peak_integral. Qed.
Theorem C93_peak_shape : forall s w xi g,
  known s -> 0 < w ->
  0 < peak s w xi g /\ peak s w xi (xi + g) = peak s w xi (xi - g) /\ (forall h, Rabs (h - xi) < Rabs (g - xi) -> peak s w xi g < peak s w xi h).
Proof. exact peak_shape. Qed.
Theorem C93_peak_width : forall w xi,
  0 < w ->
  peak Lorentzian w xi (xi + w) = peak Lorentzian w xi xi / 2 /\ peak Gaussian w xi (xi + w) = exp (- / 2) * peak Gaussian w xi xi.
Proof. exact peak_width. Qed.
Theorem C93_superposition : forall s w x y x' y' g,
  length x = length y -> superposition s w (x ++ x') (y ++ y') g = superposition s w x y g + superposition s w x' y' g.
Proof. exact superpose. Qed.
Theorem C93_gauss_fct : forall m w,
  0 < w -> integrates_to (fun x => gauss_fct x m w) 1.
Proof. exact gauss_integral. Qed.
Theorem C93_lorentzian : forall m w,
  0 < w -> integrates_to (fun x => lorentzian x m w) 1.
Proof. exact lorentz_integral. Qed.
(** C94 *)
Theorem C94_states : forall norb N nk o1 no wk e f wf S o w win n,
  (0 < nk)%nat -> (0 < norb)%nat ->
  exists g d c, get_dos norb N nk o1 no wk e f wf S false false o w win n = DOk (if o then Triple g d c else Pair g d) /\
  length g = (norb * nk)%nat /\ length d = (norb * nk)%nat /\ length c = (norb * nk)%nat /\
  (forall k a, (k < nk)%nat -> (a < norb)%nat ->
    nth_error g (a * nk + k) = Some (e k a) /\ nth_error d (a * nk + k) = Some (wk k) /\ nth_error c (a * nk + k) = Some (f k a)) /\
  (rsum nk wk = 1 -> total d = INR norb) /\ total (map (fun p => fst p * snd p) (combine d c)) = filling norb nk wk f.
Proof. exact get_dos_states. Qed.
Theorem C94_broadened : forall norb N nk o1 no wk e f wf S w win n,
  (0 < nk)%nat -> (0 < norb)%nat ->
  exists g d, get_dos norb N nk o1 no wk e f wf S true false false w win n = DOk (Pair g d) /\ length g = n /\ d = map (dos_at norb nk wk e w) g /\
  ((1 < n)%nat -> match win with
    | Some v => nth 0 g 0 = fst v /\ nth (n - 1) g 0 = snd v
    | None => forall k a, (k < nk)%nat -> (a < norb)%nat -> nth 0 g 0 <= e k a <= nth (n - 1) g 0
    end).
Proof. exact get_dos_broad. Qed.
Theorem C94_area : forall norb nk wk e w,
  0 < w -> rsum nk wk = 1 -> integrates_to (dos_at norb nk wk e w) (INR norb).
Proof. exact dos_at_area. Qed.
Theorem C94_refused : forall norb N nk o1 no wk e f wf S b p w win n,
  b = true \/ p = true -> get_dos norb N nk o1 no wk e f wf S b p true w win n = DFail DAssertion.
Proof. exact get_dos_refused. Qed.
(** C95.  Cases: x_layout in RhoProofs5, z_normalised, z_window, z_none in DosProofs4 *)
Theorem C95_atoms : forall norb N nk o1 no wk e wf S width win npts,
  (0 < nk)%nat -> (0 < norb)%nat -> (0 < N)%nat -> layout norb N o1 no -> normalised norb nk S wf ->
  exists g d, local_dos norb N nk o1 no wk e wf S width win npts = DOk (g, d) /\ length g = npts /\
  forall i, (i < npts)%nat -> rsum N (fun I => nth i (d I) 0) =
    match win with Some w => dos_within norb nk wk e w width (nth i g 0) | None => dos_at norb nk wk e width (nth i g 0) end.
Proof. exact get_ldos. Qed.
Theorem C95_angular_momenta : forall norb N nk o1 no wk e wf S width win npts,
  (0 < nk)%nat -> (0 < norb)%nat -> (0 < N)%nat -> (forall I, (I < N)%nat -> (0 < no I)%nat) ->
  occupied_window norb nk e win ->
  exists g d d' p, local_pdos norb N nk o1 no wk e wf S width win npts = DOk (g, d, p) /\ local_dos norb N nk o1 no wk e wf S width win npts = DOk (g, d') /\ length g = npts /\
  forall I, (I < N)%nat -> d I = d' I /\ forall i, (i < npts)%nat -> nth i (d I) 0 = nth i (p I 0%nat) 0 + nth i (p I 1%nat) 0 + nth i (p I 2%nat) 0.
Proof. exact get_pldos. Qed.
Theorem C95_projected : forall norb N nk o1 no wk e f wf S b width win npts,
  (0 < nk)%nat -> (0 < norb)%nat -> (0 < N)%nat -> (forall I, (I < N)%nat -> (0 < no I)%nat) ->
  layout norb N o1 no -> normalised norb nk S wf -> occupied_window norb nk e win ->
  exists g d p, get_dos norb N nk o1 no wk e f wf S b true false width win npts = DOk (Projected g d p) /\ length g = npts /\ length d = npts /\
  forall i, (i < npts)%nat -> nth i d 0 = nth i (p 0%nat) 0 + nth i (p 1%nat) 0 + nth i (p 2%nat) 0 /\
    nth i d 0 = match win with Some w => dos_within norb nk wk e w width (nth i g 0) | None => dos_at norb nk wk e width (nth i g 0) end.
Proof. exact get_pdos. Qed.
Theorem C95_agreement : forall norb N nk o1 no wk e f wf S width npts,
  (0 < nk)%nat -> (0 < norb)%nat -> (0 < N)%nat -> (forall I, (I < N)%nat -> (0 < no I)%nat) ->
  layout norb N o1 no -> normalised norb nk S wf ->
  exists g d p, get_dos norb N nk o1 no wk e f wf S true false false width None npts = DOk (Pair g d) /\
    get_dos norb N nk o1 no wk e f wf S true true false width None npts = DOk (Projected g d p).
Proof. exact get_pdos_agrees. Qed.
Theorem C95_empty_window : forall norb N nk o1 no wk e f wf S b width v npts,
  (0 < nk)%nat -> (0 < norb)%nat -> (0 < N)%nat -> ~ occupied_window norb nk e (Some v) ->
  get_dos norb N nk o1 no wk e f wf S b true false width (Some v) npts = DFail DIndexError.
Proof. exact get_pdos_empty. Qed.
Theorem C95_window_refuted :
  exists norb N nk o1 no wk e f wf S width w npts g d p d',
  (0 < width) /\ rsum nk wk = 1 /\ layout norb N o1 no /\ normalised norb nk S wf /\
  get_dos norb N nk o1 no wk e f wf S true true false width (Some w) npts = DOk (Projected g d p) /\
  get_dos norb N nk o1 no wk e f wf S true false false width (Some w) npts = DOk (Pair g d') /\
  (0 < npts)%nat /\ forall i, (i < npts)%nat -> nth i d 0 < nth i d' 0.
Proof. exact pdos_window_differs. Qed.
Print Assumptions C93_values.
Print Assumptions C93_default_heights.
Print Assumptions C93_grid.
Print Assumptions C93_errors.
Print Assumptions C93_area.
Print Assumptions C93_area_unique.
Print Assumptions C93_peak_area.
Print Assumptions C93_peak_shape.
Print Assumptions C93_peak_width.
Print Assumptions C93_superposition.
Print Assumptions C93_gauss_fct.
Print Assumptions C93_lorentzian.
Print Assumptions C94_states.
Print Assumptions C94_broadened.
Print Assumptions C94_area.
Print Assumptions C94_refused.
Print Assumptions C95_atoms.
Print Assumptions C95_angular_momenta.
Print Assumptions C95_projected.
Print Assumptions C95_agreement.
Print Assumptions C95_empty_window.
Print Assumptions C95_window_refuted.
