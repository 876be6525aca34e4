From Coq Require Import Reals ZArith String Ascii List Bool Arith.
From Coquelicot Require Import Coquelicot.
From Verif Require Import Vec GeomModel TimerModel StbModel StbSpec StbProofs StbProofs2 StbProofs3 StbProofs4 StbProofs5 StbProofs6 StbProofs7.
Import ListNotations.
Open Scope R_scope.

(** C129: angular parts. *)
Theorem C129_angular :
  forall (i : nat) (t1 t2 : R),
  (i < 10)%nat ->
  let '(l1, l2, m) := nth i lm_of (0%nat, 0%nat, 0%nat) in is_RInt (fun p0 : R => Y l1 m t1 p0 * Y l2 m t2 p0) 0 (2 * PI) (nth i (gphi t1 t2) 0).
Proof. exact angular_integral. Qed.
Theorem C129_normal :
  forall i : nat,
  (i < 10)%nat ->
  let '(l1, l2, _) := nth i lm_of (0%nat, 0%nat, 0%nat) in is_RInt (fun t : R => nth i (gphi t t) 0 * sin t) 0 PI (if l1 =? l2 then 1 else 0).
Proof. exact angular_normal. Qed.
(** C130: areas of the grid.  A case: ex_grid *)
Theorem C130_area :
  forall h ra rb ta tb : R,
  0 < h ->
  0 < ra ->
  ra < rb -> 0 <= ta -> ta < tb -> tb <= PI -> make_piece h ra rb ta tb <> Illegal /\ is_area h ra rb ta tb (area_of (make_piece h ra rb ta tb)).
Proof. exact piece_area. Qed.
Theorem C130_total :
  forall (w Rz : R) (nt nr : nat),
  rmin < w -> 0 < Rz -> (2 <= nt)%nat -> (2 <= nr)%nat -> is_area (Rz / 2) rmin w 0 PI (lsum (pieces w Rz nt nr) area_of).
Proof. exact total_area. Qed.
Theorem C130_points :
  forall (w Rz : R) (nt nr : nat),
  rmin < w ->
  0 < Rz ->
  (2 <= nt)%nat ->
  (2 <= nr)%nat ->
  forall grid : list gpoint,
  make_grid w Rz nt nr = SOk grid -> forall p : gpoint, In p grid -> rad1 p < w /\ rad2 Rz p < w /\ 0 < snd p /\ 0 < fst (fst p).
Proof. exact grid_points. Qed.
Theorem C130_complete :
  forall (w Rz : R) (nt nr : nat),
  rmin < w ->
  0 < Rz ->
  (2 <= nt)%nat ->
  (2 <= nr)%nat -> forall grid : list gpoint, make_grid w Rz nt nr = SOk grid -> lsum grid snd = 2 * lsum (pieces w Rz nt nr) (counted w Rz).
Proof. exact grid_sum. Qed.
Theorem C130_center_partial :
  forall h ra rb ta tb : R,
  0 < h ->
  0 < ra ->
  ra < rb ->
  0 <= ta ->
  ta < tb ->
  tb <= PI ->
  forall r0 t0 A : R,
  make_piece h ra rb ta tb = Piece r0 t0 A -> ra <= r0 < rb /\ ta <= t0 <= tb /\ 0 < t0 < PI /\ (rb * cos tb <= h -> r0 * cos t0 <= h).
Proof. exact piece_center. Qed.
Theorem C130_beyond_refuted :
  forall (w : R) (nt nr : nat),
  (3 <= nt)%nat ->
  (3 <= nr)%nat ->
  rmin * INR (nr - 1) ^ 2 < w - rmin -> exists p : gpoint, In p (half_grid w (2 * rgrid w nr 1) nt nr) /\ 2 * rgrid w nr 1 / 2 < snd (fst p).
Proof. exact point_beyond. Qed.
(** C131: exchange of the atoms.  Cases: ex_grid, ex_radial *)
Theorem C131_exchange :
  forall (w Rz : R) (nt nr : nat) (grid : list gpoint),
  rmin < w ->
  0 < Rz ->
  (2 <= nt)%nat ->
  (2 <= nr)%nat ->
  make_grid w Rz nt nr = SOk grid ->
  forall (e1 e2 : element) (l1 l2 m : nat) (nl1 nl2 : string),
  (l1 <= 2)%nat ->
  (l2 <= 2)%nat ->
  (m <= l1)%nat -> (m <= l2)%nat -> overlap e1 e2 Rz grid l1 l2 m nl1 nl2 = (-1) ^ (l1 + l2) * overlap e2 e1 Rz grid l2 l1 m nl2 nl1.
Proof. exact overlap_exchange. Qed.
Theorem C131_overlap :
  forall (w Rz : R) (nt nr : nat) (grid : list gpoint),
  rmin < w ->
  0 < Rz ->
  (2 <= nt)%nat ->
  (2 <= nr)%nat ->
  make_grid w Rz nt nr = SOk grid ->
  forall (e1 e2 : element) (i : nat) (nl1 nl2 : string),
  (i < 10)%nat ->
  let
  '(l1, l2, m) := nth i lm_of (0%nat, 0%nat, 0%nat) in
   int_S e1 e2 Rz grid i nl1 nl2 = overlap e1 e2 Rz grid l1 l2 m nl1 nl2 /\
   int_S e1 e2 Rz grid i nl1 nl2 = (-1) ^ (l1 + l2) * overlap e2 e1 Rz grid l2 l1 m nl2 nl1.
Proof. exact table_overlap. Qed.
Theorem C131_symmetric :
  forall (w Rz : R) (nt nr : nat) (grid : list gpoint),
  rmin < w ->
  0 < Rz ->
  (2 <= nt)%nat ->
  (2 <= nr)%nat ->
  make_grid w Rz nt nr = SOk grid ->
  forall (e1 e2 : element) (i : nat) (nl1 nl2 : string),
  In i [0%nat; 1%nat; 2%nat; 5%nat; 6%nat; 9%nat] -> int_S e1 e2 Rz grid i nl1 nl2 = int_S e2 e1 Rz grid i nl2 nl1.
Proof. exact table_symmetric. Qed.
Theorem C131_hamiltonian :
  forall (w Rz : R) (nt nr : nat) (grid : list gpoint),
  rmin < w ->
  0 < Rz ->
  (2 <= nt)%nat ->
  (2 <= nr)%nat ->
  make_grid w Rz nt nr = SOk grid ->
  forall (e1 e2 : element) (i : nat) (nl1 nl2 : string),
  In i [0%nat; 1%nat; 2%nat; 5%nat; 6%nat; 9%nat] ->
  let l := snd (fst (nth i lm_of (0%nat, 0%nat, 0%nat))) in
  (forall r : R,
   0 < r -> - (1 / 2) * ddunl e2 nl2 r / r + (veff e2 r + INR l * (INR l + 1) / (2 * r ^ 2)) * Rnl e2 nl2 r = epsilon e2 nl2 * Rnl e2 nl2 r) ->
  int_H e1 e2 Rz grid i l nl1 nl2 = int_H2 e2 e1 Rz grid i nl2 nl1.
Proof. exact table_hamiltonian. Qed.
(** C132: tables.  Cases: ex_run, ex_run_fails *)
Theorem C132_tables :
  forall (ela elb : element) (R1 R2 : R) (N nt nr : nat) (limit : R) (t : list (list (list R))),
  run ela elb R1 R2 N nt nr limit = SOk t ->
  R1 <= R2 ->
  / 1000 <= R1 /\
  length t = N /\
  (exists w : R,
     get_range limit (if (symbol ela =? symbol elb)%string then [ela] else [ela; elb]) = SOk w /\
     R1 <= 2 * w /\
     (forall i : nat,
      (i < N)%nat ->
      let Ri := R1 + INR i * ((R2 - R1) / INR (N - 1)) in
      (Ri <= 2 * w ->
       exists grid : list gpoint,
         make_grid w Ri nt nr = SOk grid /\
         nth i t [] = map (fun p : element * element => fst (fst (row (fst p) (snd p) Ri grid))) (if (symbol ela =? symbol elb)%string then [(ela, elb)] else [(ela, elb); (elb, ela)])) /\
      (2 * w < Ri -> nth i t [] = repeat (repeat 0 20) (length (if (symbol ela =? symbol elb)%string then [(ela, elb)] else [(ela, elb); (elb, ela)]))))).
Proof. exact run_tables. Qed.
Theorem C132_rows :
  forall (e1 e2 : element) (Rz : R) (grid : list gpoint) (k : nat),
  (k < 10)%nat ->
  length (fst (fst (row e1 e2 Rz grid))) = 20%nat /\
  (forall a b : string,
   is_last (valence e1) (get 0 (nth k integrals ""%string)) a ->
   is_last (valence e2) (get 1 (nth k integrals ""%string)) b ->
   nth (10 + k) (fst (fst (row e1 e2 Rz grid))) 0 = int_S e1 e2 Rz grid k a b /\
   nth k (fst (fst (row e1 e2 Rz grid))) 0 = int_H e1 e2 Rz grid k (snd (fst (nth k lm_of (0%nat, 0%nat, 0%nat)))) a b) /\
  (~ (has_letter (valence e1) (get 0 (nth k integrals ""%string)) /\ has_letter (valence e2) (get 1 (nth k integrals ""%string))) ->
   nth (10 + k) (fst (fst (row e1 e2 Rz grid))) 0 = 0 /\ nth k (fst (fst (row e1 e2 Rz grid))) 0 = 0).
Proof. exact row_entries. Qed.
Theorem C132_rejects :
  forall (ela elb : element) (R1 R2 : R) (N nt nr : nat) (limit : R),
  (R1 < / 1000 -> run ela elb R1 R2 N nt nr limit = SErr AssertionError) /\
  (forall w : R, / 1000 <= R1 -> get_range limit (elements ela elb) = SOk w -> 2 * w < R1 -> run ela elb R1 R2 N nt nr limit = SErr ZeroDivision).
Proof. exact run_rejects. Qed.
Theorem C132_range_refuted :
  forall (ela elb : element) (R1 R2 : R) (N nt nr : nat) (limit w : R) (i : nat),
  / 1000 <= R1 ->
  R1 <= R2 ->
  (2 <= nt)%nat ->
  (2 <= nr)%nat ->
  get_range limit (elements ela elb) = SOk w ->
  rmin < w ->
  (i < N)%nat ->
  w + (rgrid w nr (nr - 2) + w) / 2 <= R1 + INR i * ((R2 - R1) / INR (N - 1)) <= 2 * w -> run ela elb R1 R2 N nt nr limit = SErr IndexError.
Proof. exact run_near_range. Qed.
Theorem C132_end_refuted :
  forall (ela elb : element) (R1 : R) (N nt nr : nat) (limit w : R),
  / 1000 <= R1 ->
  (2 <= nt)%nat ->
  (2 <= nr)%nat ->
  (2 <= N)%nat ->
  get_range limit (elements ela elb) = SOk w -> rmin < w -> R1 <= 2 * w -> run ela elb R1 (2 * w) N nt nr limit = SErr IndexError.
Proof. exact run_to_range. Qed.
Theorem C132_timing_refuted :
  forall (n np : nat) (clock : nat -> R) (n' np' : nat) (clock' : nat -> R) (t0 : R),
  let
  '(t1, oks) := trun (new_timer "SlaterKosterTable" t0) (timed (run_calls n np) clock 0) in
   List.Forall (fun b : bool => b = true) oks /\ nth 1 (snd (trun t1 (timed (run_calls n' np') clock' 0))) true = false.
Proof. exact second_run. Qed.
(** C133: selected integrals.  A case: ex_select *)
Theorem C133_selected :
  forall (val1 val2 : list string) (i a b : string),
  In (i, a, b) (select_integrals val1 val2) <-> In i integrals /\ is_last val1 (get 0 i) a /\ is_last val2 (get 1 i) b.
Proof. exact select_spec. Qed.
Theorem C133_names :
  forall val1 val2 : list string,
  exists keep : string -> bool,
    map (fun s : string * string * string => fst (fst s)) (select_integrals val1 val2) = filter keep integrals /\
    (forall i : string, keep i = true <-> has_letter val1 (get 0 i) /\ has_letter val2 (get 1 i)).
Proof. exact select_names. Qed.
(** C134: ranges.  A case: ex_find *)
Theorem C134_covers :
  forall (limit : R) (es : list element) (w : R),
  get_range limit es = SOk w -> 0 <= w <= 20 /\ (forall (e : element) (nl : string), In e es -> In nl (valence e) -> wf_range e limit nl <= w).
Proof. exact range_covers. Qed.
Theorem C134_tail :
  forall (limit : R) (rw : list (R * R)) (r : R),
  find_range limit rw = Some r ->
  exists (a : list (R * R)) (wf : R) (b : list (R * R)),
    rw = a ++ (r, wf) :: b /\ limit * wf_max rw < Rabs wf /\ List.Forall (fun p : R * R => Rabs (snd p) <= limit * wf_max rw) b.
Proof. exact range_tail. Qed.
Theorem C134_found :
  forall (limit : R) (rw : list (R * R)), limit < 1 -> (exists p : R * R, In p rw /\ snd p <> 0) -> exists r : R, find_range limit rw = Some r.
Proof. exact range_found. Qed.
Print Assumptions C129_angular.
Print Assumptions C129_normal.
Print Assumptions C130_area.
Print Assumptions C130_total.
Print Assumptions C130_points.
Print Assumptions C130_complete.
Print Assumptions C130_center_partial.
Print Assumptions C130_beyond_refuted.
Print Assumptions C131_exchange.
Print Assumptions C131_overlap.
Print Assumptions C131_symmetric.
Print Assumptions C131_hamiltonian.
Print Assumptions C132_tables.
Print Assumptions C132_rows.
Print Assumptions C132_rejects.
Print Assumptions C132_range_refuted.
Print Assumptions C132_end_refuted.
Print Assumptions C132_timing_refuted.
Print Assumptions C133_selected.
Print Assumptions C133_names.
Print Assumptions C134_covers.
Print Assumptions C134_tail.
Print Assumptions C134_found.
