(** Construction of Slater-Koster tables.  hotbit/parametrization/slako.py. *)
From Coq Require Import Reals ZArith String Ascii List Bool Arith.
From Verif Require Import Vec GeomModel.
Import ListNotations.
Open Scope R_scope.

(** ** Angular parts and selection of integrals *)
(** integrals, line 434 *)
Definition integrals : list string := ["dds"; "ddp"; "ddd"; "pds"; "pdp"; "pps"; "ppp"; "sds"; "sps"; "sss"]%string.
(** angular_momentum, line 435; other letters raise KeyError *)
Definition angular_momentum (c : ascii) : option nat :=
  if (c =? "s")%char then Some 0%nat else if (c =? "p")%char then Some 1%nat else if (c =? "d")%char then Some 2%nat else None.
(** g, lines 466-488 *)
Definition gphi (t1 t2 : R) : list R :=
  let c1 := cos t1 in let c2 := cos t2 in let s1 := sin t1 in let s2 := sin t2 in
  [5 / 8 * (3 * c1 ^ 2 - 1) * (3 * c2 ^ 2 - 1);
   15 / 4 * s1 * c1 * s2 * c2;
   15 / 16 * s1 ^ 2 * s2 ^ 2;
   sqrt 15 / 4 * c1 * (3 * c2 ^ 2 - 1);
   sqrt 45 / 4 * s1 * s2 * c2;
   3 / 2 * c1 * c2;
   3 / 4 * s1 * s2;
   sqrt 5 / 4 * (3 * c2 ^ 2 - 1);
   sqrt 3 / 2 * c2;
   1 / 2].
(** nl[1]; orbitals have at least two characters, e.g. '2p' *)
Definition letter (nl : string) : option ascii := String.get 1 nl.
Definition is_letter (a b : option ascii) : bool :=
  match a, b with Some x, Some y => (x =? y)%char | _, _ => false end.
(** one loop of select_orbitals, lines 443-448: the last match *)
Definition last_match (val : list string) (c : option ascii) : option string :=
  fold_left (fun r nl => if is_letter (letter nl) c then Some nl else r) val None.
(** select_orbitals, lines 438-449 *)
Definition select_orbitals (val1 val2 : list string) (integral : string) : option string * option string :=
  (last_match val1 (String.get 0 integral), last_match val2 (String.get 1 integral)).
(** select_integrals, lines 452-462 *)
Definition select_integrals (val1 val2 : list string) : list (string * string * string) :=
  flat_map (fun i => match select_orbitals val1 val2 i with (Some a, Some b) => [(i, a, b)] | _ => [] end) integrals.

(** ** The grid *)
(** what becomes of one element of the polar grid; the area, and the polar coordinates of the point *)
Inductive piece : Type := Piece (r0 t0 area : R) | Outside | Illegal.
(** make_grid, lines 363-404: the element between the radii ra < rb and the angles ta < tb, cut at z = h.
    Outside: A=-1, which line 406 never keeps; r0 and t0 are then those of the element before (the
    first element is never outside if Rz > 2*rmin).  Illegal: RuntimeError *)
Definition make_piece (h ra rb ta tb : R) : piece :=
  let z1 := rb * cos ta in let z2 := ra * cos ta in let z3 := ra * cos tb in let z4 := rb * cos tb in
  let A0 := (rb ^ 2 - ra ^ 2) * (tb - ta) / 2 in
  let rm := 1 / 2 * (ra + rb) in
  if leb z1 h then Piece rm (1 / 2 * (ta + tb)) A0
  else if ltb h z1 && leb z2 h && leb z4 h then
    let th := acos (h / rb) in
    Piece rm (1 / 2 * (th + tb)) (A0 - (1 / 2 * rb ^ 2 * (th - ta) - 1 / 2 * h ^ 2 * (tan th - tan ta)))
  else if ltb h z1 && ltb h z2 && leb z3 h && leb z4 h then
    let th1 := acos (h / ra) in let th2 := acos (h / rb) in
    Piece rm (1 / 2 * (th2 + tb))
      (A0 - A0 * (th1 - ta) / (tb - ta) - (1 / 2 * rb ^ 2 * (th2 - th1) - 1 / 2 * h ^ 2 * (tan th2 - tan th1)))
  else if ltb h z1 && ltb h z2 && ltb h z4 && leb z3 h then
    let th := acos (h / ra) in
    Piece (1 / 2 * (ra + h / cos tb)) (1 / 2 * (th + tb)) (1 / 2 * h ^ 2 * (tan tb - tan th) - 1 / 2 * ra ^ 2 * (tb - th))
  else if ltb h z1 && ltb h z4 && leb z2 h && leb z3 h then
    Piece (1 / 2 * (ra + h / cos tb)) (1 / 2 * (ta + tb)) (1 / 2 * h ^ 2 * (tan tb - tan ta) - 1 / 2 * ra ^ 2 * (tb - ta))
  else if ltb h z3 then Outside
  else Illegal.
(** np.linspace(0,1,n)[i] *)
Definition lin01 (n i : nat) : R := INR i / INR (n - 1).
Definition rmin : R := / 10 ^ 7.
(** T and R, lines 353-354, with p = q = 2 *)
Definition tgrid (nt j : nat) : R := lin01 nt j ^ 2 * PI.
Definition rgrid (rmax : R) (nr i : nat) : R := rmin + lin01 nr i ^ 2 * (rmax - rmin).
(** a grid point (d, z) and its area *)
Definition gpoint : Type := ((R * R) * R)%type.
(** all elements in the order of the loops, lines 360-361 *)
Definition pieces (rmax Rz : R) (nt nr : nat) : list piece :=
  flat_map (fun j => map (fun i => make_piece (Rz / 2) (rgrid rmax nr i) (rgrid rmax nr (i + 1)) (tgrid nt j) (tgrid nt (j + 1))) (seq 0 (nr - 1))) (seq 0 (nt - 1)).
(** lines 405-408 *)
Definition keep (rmax Rz : R) (p : piece) : list gpoint :=
  match p with
  | Piece r0 t0 A =>
      let d := r0 * sin t0 in let z := r0 * cos t0 in
      if ltb 0 A && ltb (sqrt (d ^ 2 + z ^ 2)) rmax && ltb (sqrt (d ^ 2 + (Rz - z) ^ 2)) rmax then [((d, z), A)] else []
  | _ => []
  end.
Definition half_grid (rmax Rz : R) (nt nr : nat) : list gpoint := flat_map (keep rmax Rz) (pieces rmax Rz nt nr).
Definition mirror (Rz : R) (p : gpoint) : gpoint := ((fst (fst p), - snd (fst p) + 2 * (Rz / 2)), snd p).
Inductive serr : Type := AssertionError | RuntimeError | IndexError | ZeroDivision | KeyError | ValueError.
Inductive sres (A : Type) : Type := SOk (a : A) | SErr (e : serr).
Arguments SOk {A} a. Arguments SErr {A} e.
Definition is_illegal (p : piece) : bool := match p with Illegal => true | _ => false end.
(** make_grid, lines 350-429: an array without rows has no second dimension, so grid2[:,1] raises IndexError *)
Definition make_grid (rmax Rz : R) (nt nr : nat) : sres (list gpoint) :=
  if existsb is_illegal (pieces rmax Rz nt nr) then SErr RuntimeError else
  match half_grid rmax Rz nt nr with
  | [] => SErr IndexError
  | l => SOk (l ++ map (mirror Rz) l)
  end.

(** ** Integration *)
(** what the table construction uses of an element object; the radial functions are splines, here any functions *)
Record element : Type := Element {
  symbol : string; valence : list string;
  Rnl : string -> R -> R; ddunl : string -> R -> R;  (** unl(r,nl,der=2) *)
  veff : R -> R; conf : R -> R; epsilon : string -> R;
  wf_range : R -> string -> R }.                         (** get_wf_range *)
Definition rad1 (p : gpoint) : R := sqrt (fst (fst p) ^ 2 + snd (fst p) ^ 2).
Definition rad2 (Rz : R) (p : gpoint) : R := sqrt (fst (fst p) ^ 2 + (Rz - snd (fst p)) ^ 2).
(** aux of line 287; t1, t2 of line 272 *)
Definition aux (Rz : R) (index : nat) (p : gpoint) : R :=
  nth index (gphi (acos (snd (fst p) / rad1 p)) (acos ((snd (fst p) - Rz) / rad2 Rz p))) 0 * snd p * fst (fst p).
Definition lsum {A} (l : list A) (f : A -> R) : R := fold_right (fun x s => f x + s) 0 l.
(** the sums S, H and H2 of one integral, lines 282-297 *)
Definition int_S (e1 e2 : element) (Rz : R) (grid : list gpoint) (index : nat) (nl1 nl2 : string) : R :=
  lsum grid (fun p => Rnl e1 nl1 (rad1 p) * Rnl e2 nl2 (rad2 Rz p) * aux Rz index p).
Definition v_part (e : element) (r : R) : R := veff e r - conf e r.
Definition int_H (e1 e2 : element) (Rz : R) (grid : list gpoint) (index l2 : nat) (nl1 nl2 : string) : R :=
  lsum grid (fun p => let r1 := rad1 p in let r2 := rad2 Rz p in
    Rnl e1 nl1 r1 * (- (1 / 2) * ddunl e2 nl2 r2 / r2 + (v_part e1 r1 + v_part e2 r2 + INR l2 * (INR l2 + 1) / (2 * r2 ^ 2)) * Rnl e2 nl2 r2) * aux Rz index p).
Definition int_H2 (e1 e2 : element) (Rz : R) (grid : list gpoint) (index : nat) (nl1 nl2 : string) : R :=
  lsum grid (fun p => let r1 := rad1 p in let r2 := rad2 Rz p in
    Rnl e1 nl1 r1 * Rnl e2 nl2 r2 * aux Rz index p * (v_part e2 r2 - conf e1 r1)) + epsilon e1 nl1 * int_S e1 e2 Rz grid index nl1 nl2.
(** integrals.index(integral) *)
Fixpoint index_of (s : string) (l : list string) (i : nat) : option nat :=
  match l with [] => None | x :: l => if (x =? s)%string then Some i else index_of s l (S i) end.
(** a row of ten zeros with the selected integrals filled in; calculate_mels, lines 236-300.
    The letters of selected orbitals are letters of integrals, so angular_momentum does not fail (stuck: l2 = 0) *)
Definition set_nth (i : nat) (x : R) (l : list R) : list R := firstn i l ++ match skipn i l with [] => [] | _ :: t => x :: t end.
Definition calculate_mels (selected : list (string * string * string)) (e1 e2 : element) (Rz : R) (grid : list gpoint) : list R * list R * list R :=
  fold_left (fun SHH s =>
    let '(i, nl1, nl2) := s in
    match index_of i integrals 0 with
    | None => SHH
    | Some k =>
        let l2 := match letter nl2 with Some c => match angular_momentum c with Some l => l | None => 0%nat end | None => 0%nat end in
        (set_nth k (int_S e1 e2 Rz grid k nl1 nl2) (fst (fst SHH)), set_nth k (int_H e1 e2 Rz grid k l2 nl1 nl2) (snd (fst SHH)),
         set_nth k (int_H2 e1 e2 Rz grid k nl1 nl2) (snd SHH))
    end) selected (repeat 0 10, repeat 0 10, repeat 0 10).

(** ** Tables *)
(** self.pairs and self.elements, lines 39-47 *)
Definition pairs (ela elb : element) : list (element * element) :=
  if (symbol ela =? symbol elb)%string then [(ela, elb)] else [(ela, elb); (elb, ela)].
Definition elements (ela elb : element) : list element :=
  if (symbol ela =? symbol elb)%string then [ela] else [ela; elb].
Definition fmax (a b : R) : R := if ltb a b then b else a.
(** max of a list; ValueError if empty *)
Definition list_max (l : list R) : option R := match l with [] => None | x :: l => Some (fold_left fmax l x) end.
(** get_range, lines 166-177 *)
Fixpoint ranges (limit : R) (es : list element) (w : R) : sres R :=
  match es with
  | [] => SOk w
  | e :: es => match list_max (map (wf_range e limit) (valence e)) with None => SErr ValueError | Some r => ranges limit es (fmax r w) end
  end.
Definition get_range (limit : R) (es : list element) : sres R :=
  match ranges limit es 0 with SErr e => SErr e | SOk w => if ltb 20 w then SErr AssertionError else SOk w end.
(** a row of the table: H then S, lines 221-224; and the row of H2 *)
Definition row (e1 e2 : element) (Rz : R) (grid : list gpoint) : list R * R * R :=
  let '(Sv, H, H2) := calculate_mels (select_integrals (valence e1) (valence e2)) e1 e2 Rz grid in
  (H ++ Sv, fold_left fmax (map Rabs H) 0, fold_left fmax (map (fun p => Rabs (fst p - snd p)) (combine H H2)) 0).
(** one distance: rows for all pairs, with self.Hmax updated *)
Definition rows_at (ps : list (element * element)) (Rz : R) (grid : list gpoint) (hmax : R) : list (list R) * R :=
  fold_left (fun s p => let '(r, m, _) := row (fst p) (snd p) Rz grid in (fst s ++ [r], fmax (snd s) m)) ps ([], hmax).
(** the loop over distances, lines 206-224; each entry has one row per pair, None is a row left at zero *)
Fixpoint run_loop (w : R) (ps : list (element * element)) (nt nr : nat) (Rs : list R) (hmax : R) : sres (list (option (list (list R))) * R) :=
  match Rs with
  | [] => SOk ([], hmax)
  | r :: Rs =>
      if ltb (2 * w) r then SOk (map (fun _ => None) (r :: Rs), hmax) else
      match make_grid w r nt nr with
      | SErr e => SErr e
      | SOk grid =>
          let '(rows, m) := rows_at ps r grid hmax in
          match run_loop w ps nt nr Rs m with SErr e => SErr e | SOk (l, m') => SOk (Some rows :: l, m') end
      end
  end.
(** numpy.linspace *)
Definition linspace (a b : R) (n : nat) : list R := map (fun i => a + INR i * ((b - a) / INR (n - 1))) (seq 0 n).
(** run, lines 180-231: the table has a row of 20 numbers for each distance and pair.  The relative error printed in line 228
    is dH/Hmax of Python floats *)
Definition run (ela elb : element) (R1 R2 : R) (N nt nr : nat) (limit : R) : sres (list (list (list R))) :=
  if ltb R1 (/ 1000) then SErr AssertionError else
  match get_range limit (elements ela elb) with
  | SErr e => SErr e
  | SOk w =>
      let ps := pairs ela elb in
      match run_loop w ps nt nr (linspace R1 R2 N) 0 with
      | SErr e => SErr e
      | SOk (l, hmax) =>
          if leb hmax 0 then SErr ZeroDivision
          else SOk (map (fun o => match o with Some rows => rows | None => repeat (repeat 0 20) (length ps) end) l)
      end
  end.
(** get_wf_range of KSAllElectron (parametrization/atom.py 538-542) and Element (element.py 190-197): rw is the list of pairs
    (r, Rnl(r)); None if no value exceeds the limit *)
Definition wf_max (rw : list (R * R)) : R := fold_left fmax (map (fun p => Rabs (snd p)) rw) 0.
Definition find_range (limit : R) (rw : list (R * R)) : option R :=
  let m := wf_max rw in
  match find (fun p => ltb (limit * m) (Rabs (snd p))) (rev rw) with Some p => Some (fst p) | None => None end.

(** ** Timing *)
(** the labels of the timer that run starts (true) and stops (false), in order, for distances Rs of which n are computed, with np
    pairs: lines 195-229.  get_range returns before its stop('define ranges') in line 177 *)
Definition mels_calls : list (bool * string) := [(true, "calculate_mels"); (true, "prelude"); (false, "prelude"); (false, "calculate_mels")]%string.
Definition distance_calls (np : nat) : list (bool * string) :=
  [(true, "make grid"); (true, "symmetrize"); (false, "symmetrize"); (false, "make grid")]%string ++ concat (repeat mels_calls np).
Definition run_calls (n np : nat) : list (bool * string) :=
  [(true, "calculate tables"); (true, "define ranges")]%string ++ concat (repeat (distance_calls np) n) ++ [(false, "calculate tables")]%string.
