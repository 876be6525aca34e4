From Coq Require Import Reals ZArith List Bool Arith Ascii String.
From Verif Require Import Vec UtilModel GeomModel ElemModel IoModel IoSpec IoProofs IoProofs2 IoProofs3 SkfModel SkfSpec SkfProofs SkfProofs2 SkfProofs3 SkfProofs4 SkfProofs5 SkfProofs6 SkfProofs7.
Import ListNotations.
Open Scope list_scope.

(** C103.  Cases: c_elm, ti_skf in SkfProofs *)
Theorem C103_skf :
  forall parse f symbol el, read_element_from_skf parse f symbol = Ok el ->
  energies_match (orbital_types el) (el_energies el) (el_epsilon el).
Proof. exact skf_match. Qed.
Theorem C103_skf_fields :
  forall parse h l rest ed ep es q ud up us a b c symbol orbs,
  fortran_readline parse l = Ok [ed; ep; es; q; ud; up; us; a; b; c] -> valence symbol = Some orbs ->
  exists el, read_element_from_skf parse (h :: l :: rest) symbol = Ok el /\ el_U el = us /\
    map fst (el_epsilon el) = orbs /\
    (forall o e t, In (o, e) (el_epsilon el) -> in_shell o t -> e = match t with Sh_s => es | Sh_p => ep | Sh_d => ed end).
Proof. exact skf_fields. Qed.
Theorem C103_native :
  forall parse f symbol el, read_element_from_elm parse f symbol = Ok el -> ~ In symbol ["Ti"; "Fe"; "Ni"]%string ->
  energies_match (orbital_types el) (el_energies el) (el_epsilon el).
Proof. exact elm_match. Qed.
Theorem C103_native_refuted :
  forall parse f symbol el, read_element_from_elm parse f symbol = Ok el -> In symbol ["Ti"; "Fe"; "Ni"]%string ->
  exists ed es ep, el_epsilon el = [(txt "3d", ed); (txt "4s", es); (txt "4p", ep)] /\
    el_energies el = repeat ed 5 ++ es :: repeat ep 3 /\
    (ed <> es -> ~ energies_match (orbital_types el) (el_energies el) (el_epsilon el)).
Proof. exact elm_mismatch. Qed.
Theorem C103_titanium_refuted :
  exists f el, read_element_from_elm zparse f "Ti" = Ok el /\ ~ energies_match (orbital_types el) (el_energies el) (el_epsilon el).
Proof. exact ti_refuted. Qed.
(** C104.  Cases: wfmts_back, shifted_case in SkfProofs4 *)
Theorem C104_element :
  forall parse fm rd is0 x0 x1 rows symbol orbs (e : text -> R) config u mass rest,
  reads_back parse fm rd -> valence symbol = Some orbs -> NoDup (map fst config) -> incl orbs (map fst config) ->
  exists el, read_element_from_skf parse (skf_header fm is0 true x0 x1 rows (map (fun o => (o, e o)) orbs) config orbs u mass ++ rest) symbol = Ok el /\
    el_U el = r6 rd u /\ el_epsilon el = map (fun o => (o, r8 rd (e o))) orbs.
Proof. exact element_back. Qed.
Theorem C104_row :
  forall parse fm rd is0, reads_back parse fm rd -> forall row, ends_nonzero is0 row ->
  fortran_readline parse (row_line fm is0 row) = Ok (map (entry is0 rd) row).
Proof. exact row_ok. Qed.
Theorem C104_table :
  forall parse fm rd is0 (homo : bool) x0 x1 rows eps config orbs u mass keyword rest k,
  reads_back parse fm rd -> parse (txt "Spline") = None ->
  rows <> [] -> Forall (fun r => List.length r = 20%nat /\ ends_nonzero is0 r) rows ->
  (0 < x1 - x0)%R -> x0 = (INR k * (x1 - x0))%R -> is_spline keyword = true ->
  exists x, read_HS_from_skf parse (skf_header fm is0 homo x0 x1 rows eps config orbs u mass ++ keyword :: rest) homo =
      Ok (x, (r2 rd mass :: repeat 1%R 19) :: repeat (repeat 1%R 20) k ++ map (map (entry is0 rd)) rows) /\
    forall j, (j < List.length rows)%nat -> nth_error x (1 + k + j) = Some (r12 rd (x1 - x0) * INR (1 + k + j))%R.
Proof. exact file_back. Qed.
Theorem C104_row_refuted :
  forall parse fm rd is0, reads_back parse fm rd -> forall r v, is0 v = true ->
  fortran_readline parse (row_line fm is0 (r ++ [v])) = Ok (map (entry is0 rd) (r ++ [v]) ++ [re rd v]).
Proof. exact row_longer. Qed.
Theorem C104_grid_refuted :
  forall parse fm rd is0 (homo : bool) x0 x1 rows eps config orbs u mass keyword rest k,
  reads_back parse fm rd -> parse (txt "Spline") = None ->
  rows <> [] -> Forall (fun r => List.length r = 20%nat /\ ends_nonzero is0 r) rows ->
  (0 < x1 - x0)%R -> x0 = (INR k * (x1 - x0))%R -> r12 rd (x1 - x0) = (x1 - x0)%R -> is_spline keyword = true ->
  exists x t, read_HS_from_skf parse (skf_header fm is0 homo x0 x1 rows eps config orbs u mass ++ keyword :: rest) homo = Ok (x, t) /\
    forall j row, nth_error rows j = Some row ->
      nth_error t (1 + k + j) = Some (map (entry is0 rd) row) /\ nth_error x (1 + k + j) = Some (x0 + INR j * (x1 - x0) + (x1 - x0))%R.
Proof. exact shifted. Qed.
(** C105.  Case: shifted_case *)
Theorem C105_read :
  forall parse (homo : bool) h e rows vals rest dx n more,
  fortran_readline parse h = Ok (dx :: n :: more) -> (homo = true \/ more = []) ->
  Forall2 (fun l v => fortran_readline parse l = Ok v) rows vals -> Forall (fun l => is_spline l = false) rows ->
  (rest = [] \/ exists l r, rest = l :: r /\ is_spline l = true) ->
  (forall a b, In a vals -> In b vals -> List.length a = List.length b) ->
  exists x, read_HS_from_skf parse (h :: (if homo then [e] else []) ++ rows ++ rest) homo = Ok (x, vals) /\
    List.length x = List.length vals /\ forall i, (i < List.length vals)%nat -> nth_error x i = Some (dx * INR i)%R.
Proof. exact hs_read. Qed.
Theorem C105_ragged :
  forall parse (homo : bool) h e rows vals rest dx n more,
  fortran_readline parse h = Ok (dx :: n :: more) -> (homo = true \/ more = []) ->
  Forall2 (fun l v => fortran_readline parse l = Ok v) rows vals -> Forall (fun l => is_spline l = false) rows ->
  (rest = [] \/ exists l r, rest = l :: r /\ is_spline l = true) ->
  (exists a b, In a vals /\ In b vals /\ List.length a <> List.length b) ->
  read_HS_from_skf parse (h :: (if homo then [e] else []) ++ rows ++ rest) homo = Raise ValueError.
Proof. exact hs_ragged. Qed.
Theorem C105_header :
  forall parse h f l, fortran_readline parse h = Ok l -> List.length l <> 2%nat ->
  read_HS_from_skf parse (h :: f) false = Raise ValueError.
Proof. exact hetero_header. Qed.
Open Scope R_scope.
(** C106.  Case: knots_case in SkfProofs7 *)
Theorem C106_values :
  forall parse f cutoff c1 c2 c3 p1 cs q x0 dx, spline_file parse f cutoff c1 c2 c3 p1 cs q -> 0 < dx -> x0 + dx <= cutoff ->
  exists x y s, read_repulsion_from_skf parse f x0 dx = Ok (x, y) /\ List.length y = List.length x /\ dx <= s < 2 * dx /\
  (2 <= List.length x)%nat /\ (forall i, (i < List.length x)%nat -> nth_error x i = Some (x0 + INR i * s)) /\ nth_error x (List.length x - 1) = Some cutoff /\
  (forall a, nth_error x 0 = Some a -> nth_error y 0 = Some (exponential c1 c2 c3 a)) /\
  (forall i a b, nth_error x (S i) = Some a -> nth_error x i = Some b -> b < p_to q ->
     nth_error y (S i) = Some (in_force (exponential c1 c2 c3) (p_from p1) (p1 :: cs ++ [q]) b a)).
Proof. exact spline_values. Qed.
Theorem C106_exact :
  forall parse f cutoff c1 c2 c3 p1 cs q x0 dx, spline_file parse f cutoff c1 c2 c3 p1 cs q -> 0 < dx -> x0 + dx <= cutoff ->
  continuous_pieces (exponential c1 c2 c3) (p_from p1) (p1 :: cs ++ [q]) ->
  exists x y, read_repulsion_from_skf parse f x0 dx = Ok (x, y) /\ List.length y = List.length x /\
  (forall a, nth_error x 0 = Some a -> a <= p_from p1 -> nth_error y 0 = Some (described (exponential c1 c2 c3) (p_from p1) (p1 :: cs ++ [q]) a)) /\
  (forall i a b, nth_error x (S i) = Some a -> nth_error x i = Some b -> b < p_to q -> (forall p, In p (p1 :: cs ++ [q]) -> ~ (b < p_from p < a)) ->
     nth_error y (S i) = Some (described (exponential c1 c2 c3) (p_from p1) (p1 :: cs ++ [q]) a)).
Proof. exact spline_exact. Qed.
Theorem C106_error :
  forall parse f cutoff c1 c2 c3 p1 cs q x0 dx L, spline_file parse f cutoff c1 c2 c3 p1 cs q -> 0 < dx -> x0 + dx <= cutoff ->
  continuous_pieces (exponential c1 c2 c3) (p_from p1) (p1 :: cs ++ [q]) -> lipschitz L x0 cutoff (exponential c1 c2 c3) ->
  Forall (fun p => lipschitz L x0 cutoff (piece_at p)) (p1 :: cs ++ [q]) -> cutoff <= p_to q ->
  exists x y, read_repulsion_from_skf parse f x0 dx = Ok (x, y) /\ List.length y = List.length x /\
  (forall i a, nth_error x (S i) = Some a -> exists v, nth_error y (S i) = Some v /\ Rabs (v - described (exponential c1 c2 c3) (p_from p1) (p1 :: cs ++ [q]) a) <= 4 * L * dx).
Proof. exact spline_error. Qed.
Theorem C106_gap :
  forall parse pre keyword h e l1 p1 l2 p2 rest cutoff c1 c2 c3 x0 dx n,
  Forall (fun l => is_spline l = false) pre -> is_spline keyword = true -> (2 <= n)%nat ->
  fortran_readline parse h = Ok [INR n; cutoff] -> fortran_readline parse e = Ok [c1; c2; c3] ->
  piece_line parse 4 l1 p1 -> piece_line parse (if (n =? 2)%nat then 6 else 4) l2 p2 -> p_from p2 <> p_to p1 -> 0 < dx -> x0 <= cutoff ->
  read_repulsion_from_skf parse (pre ++ keyword :: h :: e :: l1 :: l2 :: rest) x0 dx = Raise AssertionError.
Proof. exact gap_error. Qed.
Theorem C106_exact_refuted :
  exists parse f cutoff c1 c2 c3 p1 cs q x y a v, spline_file parse f cutoff c1 c2 c3 p1 cs q /\
  continuous_pieces (exponential c1 c2 c3) (p_from p1) (p1 :: cs ++ [q]) /\
  read_repulsion_from_skf parse f (1 / 10) (5 / 1000) = Ok (x, y) /\ nth_error x 1 = Some a /\ nth_error y 1 = Some v /\
  v = 1 /\ described (exponential c1 c2 c3) (p_from p1) (p1 :: cs ++ [q]) a = 101 / 100.
Proof. exact spline_wrong. Qed.
Theorem C106_single_interval_refuted :
  forall parse pre keyword h e l p rest cutoff c1 c2 c3 x0 dx n,
  Forall (fun l => is_spline l = false) pre -> is_spline keyword = true ->
  fortran_readline parse h = Ok [n; cutoff] -> fortran_readline parse e = Ok [c1; c2; c3] -> piece_line parse 6 l p ->
  read_repulsion_from_skf parse (pre ++ keyword :: h :: e :: l :: rest) x0 dx = Raise ValueError.
Proof. exact single_interval. Qed.
(** C107.  Case: poly_case *)
Theorem C107_table :
  forall parse head second third f m dx' n' c2 c3 c4 c5 c6 c7 c8 c9 cutoff more second_numbers x0 dx,
  Forall (fun l => is_spline l = false) (head :: second :: third :: f) ->
  fortran_readline parse head = Ok [dx'; n'] -> fortran_readline parse second = Ok second_numbers ->
  (if (List.length second_numbers <? 20)%nat then fortran_readline parse third else Ok second_numbers) = Ok (m :: c2 :: c3 :: c4 :: c5 :: c6 :: c7 :: c8 :: c9 :: cutoff :: more) ->
  0 < dx -> x0 + dx <= cutoff ->
  exists x y s, read_repulsion_from_skf parse (head :: second :: third :: f) x0 dx = Ok (x, y) /\ List.length y = List.length x /\ dx <= s < 2 * dx /\
    (forall i, (i < List.length x)%nat -> nth_error x i = Some (x0 + INR i * s)) /\ nth_error x (List.length x - 1) = Some cutoff /\
    nth_error y (List.length x - 1) = Some 0 /\
    (forall i, (i < List.length x)%nat -> nth_error y i = Some (rsum 8 (fun k => nth k [c2; c3; c4; c5; c6; c7; c8; c9] 0 * (cutoff - (x0 + INR i * s)) ^ (k + 2)))).
Proof. exact poly_read. Qed.
Theorem C107_smooth :
  forall c2 c3 c4 c5 c6 c7 c8 c9 cutoff,
  rsum 8 (fun k => nth k [c2; c3; c4; c5; c6; c7; c8; c9] 0 * (cutoff - cutoff) ^ (k + 2)) = 0 /\
  derivable_pt_lim (fun r => rsum 8 (fun k => nth k [c2; c3; c4; c5; c6; c7; c8; c9] 0 * (cutoff - r) ^ (k + 2))) cutoff 0.
Proof. exact poly_smooth. Qed.
Print Assumptions C103_skf.
Print Assumptions C103_skf_fields.
Print Assumptions C103_native.
Print Assumptions C103_native_refuted.
Print Assumptions C103_titanium_refuted.
Print Assumptions C104_element.
Print Assumptions C104_row.
Print Assumptions C104_table.
Print Assumptions C104_row_refuted.
Print Assumptions C104_grid_refuted.
Print Assumptions C105_read.
Print Assumptions C105_ragged.
Print Assumptions C105_header.
Print Assumptions C106_values.
Print Assumptions C106_exact.
Print Assumptions C106_error.
Print Assumptions C106_gap.
Print Assumptions C106_exact_refuted.
Print Assumptions C106_single_interval_refuted.
Print Assumptions C107_table.
Print Assumptions C107_smooth.
