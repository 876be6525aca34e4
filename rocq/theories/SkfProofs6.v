(** Proofs about reading the repulsion of .skf files. *)
From Coq Require Import Reals ZArith List Arith Bool Ascii String Lia Lra.
From Verif Require Import Vec UtilModel GeomModel ElemModel IoModel IoSpec IoProofs IoProofs2 IoProofs3 SkfModel SkfSpec SkfProofs5.
Import ListNotations.
Open Scope R_scope.

Lemma after_pre : forall pre keyword f, Forall (fun l => is_spline l = false) pre -> is_spline keyword = true -> after_spline (pre ++ keyword :: f) = Some f.
Proof. intros pre keyword f P K. induction P as [|l pre L P IH]; cbn [app after_spline]; [rewrite K; reflexivity|rewrite L; exact IH]. Qed.
Lemma after_none : forall f, Forall (fun l => is_spline l = false) f -> after_spline f = None.
Proof. intros f P. induction P as [|l f L P IH]; cbn [after_spline]; [reflexivity|rewrite L; exact IH]. Qed.

Lemma piece_line_read : forall parse n l p f, piece_line parse n l p ->
  fortran parse (l :: f) = Ok (p_from p :: p_to p :: p_coef p, f) /\ piece_of n (p_from p :: p_to p :: p_coef p) = Ok p.
Proof.
  intros parse n l p f [E L]. unfold fortran. cbn [readline fst snd]. rewrite E. split; [reflexivity|].
  unfold piece_of. rewrite L, Nat.eqb_refl. destruct p. reflexivity.
Qed.
Lemma pieces_read : forall parse ls cs l q rest knot, Forall2 (piece_line parse 4) ls cs -> piece_line parse 6 l q -> chain knot (cs ++ [q]) ->
  more_pieces parse (List.length cs) knot (ls ++ l :: rest) = Ok (cs ++ [q]).
Proof.
  intros parse ls cs l q rest knot F P. revert knot. induction F as [|l' c ls cs Lc F IH]; intros knot C.
  - destruct (piece_line_read parse 6 l q rest P) as [A B]. cbn [List.length more_pieces app]. rewrite A. cbn [bind fst]. rewrite B. cbn [bind].
    cbn [app chain] in C. destruct (Req_EM_T (p_from q) knot) as [_|N]; [reflexivity|]. contradiction (N (proj1 C)).
  - destruct (piece_line_read parse 4 l' c (ls ++ l :: rest) Lc) as [A B]. cbn [List.length more_pieces app]. rewrite A. cbn [bind fst snd]. rewrite B. cbn [bind].
    cbn [app chain] in C. destruct C as [C1 [_ C3]]. destruct (Req_EM_T (p_from c) knot) as [_|N]; [|contradiction (N C1)]. rewrite (IH _ C3). reflexivity.
Qed.

Lemma trunc_INR : forall n, trunc (INR n) = Z.of_nat n.
Proof. intros n. unfold trunc. destruct (Rlt_dec (INR n) 0) as [L|_]; [pose proof (pos_INR n); lra|]. apply Int_part_INR. Qed.

(** what the reader returns *)
Lemma rep_read : forall parse pre keyword h e l1 p1 ls cs l q rest cutoff c1 c2 c3 x0 dx,
  Forall (fun l => is_spline l = false) pre -> is_spline keyword = true ->
  fortran_readline parse h = Ok [INR (2 + List.length cs); cutoff] -> fortran_readline parse e = Ok [c1; c2; c3] ->
  piece_line parse 4 l1 p1 -> Forall2 (piece_line parse 4) ls cs -> piece_line parse 6 l q -> chain (p_from p1) (p1 :: cs ++ [q]) ->
  read_repulsion_from_skf parse (pre ++ keyword :: h :: e :: l1 :: ls ++ l :: rest) x0 dx =
    bind (rep_grid x0 dx cutoff) (fun x => Ok (x, assign_pieces x (S (searchsorted x (p_from p1))) (p1 :: cs ++ [q]) (map (fun v => c3 + exp (c2 - c1 * v)) x))).
Proof.
  intros parse pre keyword h e l1 p1 ls cs l q rest cutoff c1 c2 c3 x0 dx P K Hh He L1 F Lq C.
  unfold read_repulsion_from_skf. rewrite (after_pre pre keyword _ P K). unfold spline_table.
  unfold fortran at 1. cbn [readline fst snd]. rewrite Hh. cbn [bind fst snd].
  unfold fortran at 1. cbn [readline fst snd]. rewrite He. cbn [bind fst snd].
  destruct (piece_line_read parse 4 l1 p1 (ls ++ l :: rest) L1) as [A B]. rewrite A. cbn [bind fst snd]. rewrite B. cbn [bind].
  destruct (rep_grid x0 dx cutoff) as [x|]; [|reflexivity]. cbn [bind].
  assert (T : Z.to_nat (trunc (INR (2 + List.length cs)) - 1) = S (List.length cs)) by (rewrite trunc_INR; lia).
  rewrite T. replace (S (List.length cs) - 1)%nat with (List.length cs) by lia.
  cbn [chain] in C. destruct C as [_ [_ C]]. rewrite (pieces_read parse ls cs l q rest (p_to p1) F Lq C). reflexivity.
Qed.

Lemma last_map : forall (cs : list piece) q k, last (map p_to (cs ++ [q])) k = p_to q.
Proof. intros. rewrite map_app. cbn [map]. apply last_last. Qed.


Section Table.
Variables (parse : text -> option R) (pre : file) (keyword h e l1 l : line) (p1 q : piece) (ls rest : file) (cs : list piece) (cutoff c1 c2 c3 x0 dx : R).
Hypotheses (P : Forall (fun l => is_spline l = false) pre) (K : is_spline keyword = true)
  (Hh : fortran_readline parse h = Ok [INR (2 + List.length cs); cutoff]) (He : fortran_readline parse e = Ok [c1; c2; c3])
  (L1 : piece_line parse 4 l1 p1) (F : Forall2 (piece_line parse 4) ls cs) (Lq : piece_line parse 6 l q)
  (C : chain (p_from p1) (p1 :: cs ++ [q])) (D : 0 < dx) (G : x0 + dx <= cutoff).
Definition f0 (r : R) : R := c3 + exp (c2 - c1 * r).
Definition the_file : file := pre ++ keyword :: h :: e :: l1 :: ls ++ l :: rest.
Definition the_pieces : list piece := p1 :: cs ++ [q].

Lemma rep_values : exists x y s, read_repulsion_from_skf parse the_file x0 dx = Ok (x, y) /\ List.length y = List.length x /\ dx <= s < 2 * dx /\
  (2 <= List.length x)%nat /\ (forall i, (i < List.length x)%nat -> nth_error x i = Some (x0 + INR i * s)) /\ nth_error x (List.length x - 1) = Some cutoff /\
  (forall a, nth_error x 0 = Some a -> nth_error y 0 = Some (f0 a)) /\
  (forall i a b, nth_error x (S i) = Some a -> nth_error x i = Some b -> b < p_to q ->
     nth_error y (S i) = Some (in_force f0 (p_from p1) the_pieces b a)).
Proof.
  destruct (grid_ok x0 dx cutoff D G) as [x [s [E [A [Hs [L2 [N1 N2]]]]]]].
  set (y0 := map f0 x).
  destruct (pieces_inv x the_pieces (p_from p1) y0 A) as [I1 [I2 I3]]; [unfold y0; rewrite map_length; reflexivity|exact C|].
  exists x, (assign_pieces x (S (searchsorted x (p_from p1))) the_pieces y0), s.
  split; [|split; [|split; [exact Hs|split; [exact L2|split; [exact N1|split; [exact N2|split]]]]]].
  - unfold the_file. rewrite (rep_read parse pre keyword h e l1 p1 ls cs l q rest cutoff c1 c2 c3 x0 dx P K Hh He L1 F Lq C), E. reflexivity.
  - rewrite I1. unfold y0. apply map_length.
  - intros a Xa. rewrite I2. unfold y0. rewrite nth_error_map, Xa. reflexivity.
  - intros i a b Xa Xb B. destruct (I3 i a b Xa Xb) as [J1 J2].
    assert (Lst : last (map p_to the_pieces) (p_from p1) = p_to q) by (unfold the_pieces; rewrite app_comm_cons; apply last_map).
    destruct (Rlt_dec b (p_from p1)) as [O|O].
    + rewrite J1 by (left; exact O). unfold y0. rewrite nth_error_map, Xa. cbn [option_map]. unfold the_pieces. cbn [in_force].
      destruct (Rlt_dec b (p_from p1)); [reflexivity|contradiction].
    + apply J2; [lra|rewrite Lst; exact B].
Qed.

(** exact where no knot lies strictly between a grid point and the one before *)
Lemma rep_exact : continuous_pieces f0 (p_from p1) the_pieces ->
  exists x y, read_repulsion_from_skf parse the_file x0 dx = Ok (x, y) /\ List.length y = List.length x /\
  (forall a, nth_error x 0 = Some a -> a <= p_from p1 -> nth_error y 0 = Some (described f0 (p_from p1) the_pieces a)) /\
  (forall i a b, nth_error x (S i) = Some a -> nth_error x i = Some b -> b < p_to q -> (forall p, In p the_pieces -> ~ (b < p_from p < a)) ->
     nth_error y (S i) = Some (described f0 (p_from p1) the_pieces a)).
Proof.
  intros Cn. destruct rep_values as [x [y [s [E [L [Hs [L2 [N1 [N2 [V0 V]]]]]]]]]]. exists x, y. split; [exact E|split; [exact L|split]].
  - intros a Xa O. rewrite (V0 a Xa). f_equal. unfold described, the_pieces. cbn [in_force]. destruct (Rlt_dec a (p_from p1)) as [B|B]; [reflexivity|].
    assert (a = p_from p1) as -> by lra. unfold the_pieces in Cn. cbn [continuous_pieces] in Cn. destruct Cn as [Cn _]. rewrite <- Cn.
    cbn [chain] in C. destruct C as [_ [C2 C3]]. symmetry. exact (described_at_from p1 (cs ++ [q]) C3 C2).
  - intros i a b Xa Xb B N. rewrite (V i a b Xa Xb B). f_equal. apply force_exact; [exact C|exact Cn| |exact N].
    assert (I : (S i < List.length x)%nat) by (apply nth_error_Some; rewrite Xa; discriminate).
    rewrite (N1 (S i) I) in Xa. rewrite (N1 i ltac:(lia)) in Xb. rewrite S_INR in Xa. injection Xa as Xa. injection Xb as Xb. lra.
Qed.
(** everywhere within the order of the grid spacing *)
Lemma rep_error : forall L, continuous_pieces f0 (p_from p1) the_pieces -> lipschitz L x0 cutoff f0 -> Forall (fun p => lipschitz L x0 cutoff (piece_at p)) the_pieces -> cutoff <= p_to q ->
  exists x y, read_repulsion_from_skf parse the_file x0 dx = Ok (x, y) /\ List.length y = List.length x /\
  (forall i a, nth_error x (S i) = Some a -> exists v, nth_error y (S i) = Some v /\ Rabs (v - described f0 (p_from p1) the_pieces a) <= 2 * L * (2 * dx)).
Proof.
  intros L Cn Lf Lp Q. destruct rep_values as [x [y [s [E [Ln [Hs [L2 [N1 [N2 [V0 V]]]]]]]]]]. exists x, y. split; [exact E|split; [exact Ln|]].
  intros i a Xa. assert (I : (S i < List.length x)%nat) by (apply nth_error_Some; rewrite Xa; discriminate).
  pose proof (N1 i ltac:(lia)) as Xb. assert (Ea : a = x0 + INR (S i) * s) by (rewrite (N1 (S i) I) in Xa; injection Xa as <-; reflexivity).
  assert (Top : a <= cutoff).
  { rewrite (N1 (List.length x - 1)%nat ltac:(lia)) in N2. injection N2 as N2. rewrite <- N2, Ea. apply Rplus_le_compat_l. apply Rmult_le_compat_r; [lra|]. apply le_INR. lia. }
  assert (Step : a = x0 + INR i * s + s) by (rewrite Ea, S_INR; ring). assert (0 <= INR i * s) by (apply Rmult_le_pos; [apply pos_INR|lra]).
  exists (in_force f0 (p_from p1) the_pieces (x0 + INR i * s) a). split; [apply (V i a _ Xa Xb); lra|].
  assert (L0 : 0 <= L).
  { pose proof (Lf x0 cutoff ltac:(lra) ltac:(lra)) as X. pose proof (Rabs_pos (f0 cutoff - f0 x0)). nra. }
  eapply Rle_trans; [apply (force_error L x0 cutoff the_pieces f0 (p_from p1) C Cn Lf Lp); lra|].
  apply Rmult_le_compat_l; lra.
Qed.
End Table.

(** a file with a single interval cannot be read *)
Lemma single_interval : forall parse pre keyword h e l p rest cutoff c1 c2 c3 x0 dx n,
  Forall (fun l => is_spline l = false) pre -> is_spline keyword = true ->
  fortran_readline parse h = Ok [n; cutoff] -> fortran_readline parse e = Ok [c1; c2; c3] -> piece_line parse 6 l p ->
  read_repulsion_from_skf parse (pre ++ keyword :: h :: e :: l :: rest) x0 dx = Raise ValueError.
Proof.
  intros parse pre keyword h e l p rest cutoff c1 c2 c3 x0 dx n P K Hh He [E L].
  unfold read_repulsion_from_skf. rewrite (after_pre pre keyword _ P K). unfold spline_table.
  unfold fortran at 1. cbn [readline fst snd]. rewrite Hh. cbn [bind fst snd].
  unfold fortran at 1. cbn [readline fst snd]. rewrite He. cbn [bind fst snd].
  unfold fortran at 1. cbn [readline fst snd]. rewrite E. cbn [bind fst snd]. unfold piece_of. rewrite L. reflexivity.
Qed.
(** pieces that do not join are an error *)
Lemma gap_error : forall parse pre keyword h e l1 p1 l2 p2 rest cutoff c1 c2 c3 x0 dx n,
  Forall (fun l => is_spline l = false) pre -> is_spline keyword = true -> (2 <= n)%nat ->
  fortran_readline parse h = Ok [INR n; cutoff] -> fortran_readline parse e = Ok [c1; c2; c3] ->
  piece_line parse 4 l1 p1 -> piece_line parse (if (n =? 2)%nat then 6 else 4) l2 p2 -> p_from p2 <> p_to p1 -> 0 < dx -> x0 <= cutoff ->
  read_repulsion_from_skf parse (pre ++ keyword :: h :: e :: l1 :: l2 :: rest) x0 dx = Raise AssertionError.
Proof.
  intros parse pre keyword h e l1 p1 l2 p2 rest cutoff c1 c2 c3 x0 dx n P K N2 Hh He L1 L2 N D X.
  unfold read_repulsion_from_skf. rewrite (after_pre pre keyword _ P K). unfold spline_table.
  unfold fortran at 1. cbn [readline fst snd]. rewrite Hh. cbn [bind fst snd].
  unfold fortran at 1. cbn [readline fst snd]. rewrite He. cbn [bind fst snd].
  destruct (piece_line_read parse 4 l1 p1 (l2 :: rest) L1) as [A B]. rewrite A. cbn [bind fst snd]. rewrite B. cbn [bind].
  assert (Gd : exists x, rep_grid x0 dx cutoff = Ok x).
  { unfold rep_grid. assert (Q : 0 <= (cutoff - x0) / dx) by (apply Rmult_le_pos; [lra|apply Rlt_le, Rinv_0_lt_compat; exact D]).
    destruct (trunc_nonneg _ Q) as [T _]. destruct (Z.ltb_spec (trunc ((cutoff - x0) / dx) + 1) 0); [lia|]. eexists. reflexivity. }
  destruct Gd as [x ->]. cbn [bind]. rewrite trunc_INR.
  replace (Z.to_nat (Z.of_nat n - 1) - 1)%nat with (n - 2)%nat by lia.
  assert (M : more_pieces parse (n - 2) (p_to p1) (l2 :: rest) = Raise AssertionError).
  { destruct (piece_line_read parse _ l2 p2 rest L2) as [A2 B2]. destruct (Nat.eqb_spec n 2) as [-> |Nn].
    - cbn [Nat.sub more_pieces]. rewrite A2. cbn [bind fst]. rewrite B2. cbn [bind]. destruct (Req_EM_T (p_from p2) (p_to p1)); [contradiction|reflexivity].
    - destruct (n - 2)%nat as [|k] eqn:E; [lia|]. cbn [more_pieces]. rewrite A2. cbn [bind fst]. rewrite B2. cbn [bind]. destruct (Req_EM_T (p_from p2) (p_to p1)); [contradiction|reflexivity]. }
  rewrite M. reflexivity.
Qed.

(** ** A smooth repulsion whose table is wrong: the default grid 0.1, 0.105, ...; the
    pieces begin at 0.1025.  Numbers are written in units of 1/400. *)
Definition parse400 (w : text) : option R := option_map (fun z => IZR z / 400) (int_of w).
Definition rep_lines : file := [txt "Spline"; txt "800 48"; txt "0 0 0"; txt "41 47 400 0 640000 0"; txt "47 48 544 19200 640000 0 0 0"].
Definition rp1 : piece := {| p_from := 41 / 400; p_to := 47 / 400; p_coef := [400 / 400; 0 / 400; 640000 / 400; 0 / 400] |}.
Definition rq : piece := {| p_from := 47 / 400; p_to := 48 / 400; p_coef := [544 / 400; 19200 / 400; 640000 / 400; 0 / 400; 0 / 400; 0 / 400] |}.
Definition flat (r : R) : R := 0 / 400 + exp (0 / 400 - 0 / 400 * r).
Lemma flat1 : forall r, flat r = 1.
Proof. intros r. unfold flat. replace (0 / 400 - 0 / 400 * r) with 0 by field. rewrite exp_0. field. Qed.
Lemma rep_wrong : exists parse f p1 q x y a v, read_repulsion_from_skf parse f (1 / 10) (5 / 1000) = Ok (x, y) /\
  f = rep_lines /\ chain (p_from p1) [p1; q] /\ continuous_pieces flat (p_from p1) [p1; q] /\ (forall r, flat r = 1) /\
  parse = parse400 /\ piece_line parse 4 (txt "41 47 400 0 640000 0") p1 /\ piece_line parse 6 (txt "47 48 544 19200 640000 0 0 0") q /\
  nth_error x 1 = Some a /\ nth_error y 1 = Some v /\ v = 1 /\ described flat (p_from p1) [p1; q] a = 101 / 100.
Proof.
  assert (A1 : piece_line parse400 4 (txt "41 47 400 0 640000 0") rp1) by (split; reflexivity).
  assert (A2 : piece_line parse400 6 (txt "47 48 544 19200 640000 0 0 0") rq) by (split; reflexivity).
  assert (Ch : chain (p_from rp1) [rp1; rq]) by (unfold rp1, rq; cbn [chain p_from p_to]; repeat split; lra).
  assert (Hh : fortran_readline parse400 (txt "800 48") = Ok [INR 2; 48 / 400]).
  { transitivity (Ok [800 / 400; 48 / 400] : res (list R)); [reflexivity|]. repeat f_equal. cbn. lra. }
  destruct (rep_values parse400 [] (txt "Spline") (txt "800 48") (txt "0 0 0") (txt "41 47 400 0 640000 0") (txt "47 48 544 19200 640000 0 0 0") rp1 rq [] [] []
    (48 / 400) (0 / 400) (0 / 400) (0 / 400) (1 / 10) (5 / 1000)) as [x [y [s [E [L [Hs [L2 [N1 [N2 [V0 V]]]]]]]]]]; try assumption; try reflexivity; try constructor; try lra.
  (* the spacing is 0.005 *)
  assert (S5 : s = 5 / 1000).
  { rewrite (N1 (List.length x - 1)%nat ltac:(lia)) in N2. injection N2 as N2.
    set (m := (List.length x - 1)%nat) in *. assert (M : INR m * s = 20 / 1000) by lra.
    assert (3 <= m)%nat. { assert (2 < INR m) by (apply (Rmult_lt_reg_r s); [lra|]; lra). change 2 with (INR 2) in H. apply INR_lt in H. lia. }
    assert (m <= 4)%nat. { assert (INR m <= 4) by (apply (Rmult_le_reg_r s); [lra|]; lra). replace 4 with (INR 4) in H0 by (cbn; lra). apply INR_le in H0. exact H0. }
    assert (m = 4 \/ m = 3)%nat as [Q|Q] by lia; rewrite Q in M; [cbn in M; lra|].
    exfalso. (* three intervals would need a spacing above 0.005 with 4 fitting *)
    assert (GE : rep_grid (1 / 10) (5 / 1000) (48 / 400) = Ok x).
    { revert E. unfold the_file. cbn [app]. rewrite (rep_read parse400 [] (txt "Spline") (txt "800 48") (txt "0 0 0") (txt "41 47 400 0 640000 0") rp1 [] [] (txt "47 48 544 19200 640000 0 0 0") rq [] (48 / 400) (0 / 400) (0 / 400) (0 / 400));
        try assumption; try reflexivity; try constructor. destruct (rep_grid (1 / 10) (5 / 1000) (48 / 400)); cbn [bind]; intros X; [injection X as -> _; reflexivity|discriminate]. }
    unfold rep_grid in GE. replace ((48 / 400 - 1 / 10) / (5 / 1000)) with (INR 4) in GE by (cbn; field). rewrite trunc_INR in GE. cbn [Z.of_nat Pos.of_succ_nat Pos.succ Z.add Z.ltb Z.compare Pos.add] in GE.
    injection GE as GE. apply (f_equal (@List.length R)) in GE. rewrite linspace_length in GE. unfold m in Q. rewrite <- GE in Q. cbn in Q. discriminate. }
  assert (X0 : nth_error x 0 = Some (1 / 10)) by (rewrite (N1 0%nat ltac:(lia)); f_equal; cbn; lra).
  assert (X1 : nth_error x 1 = Some (105 / 1000)) by (rewrite (N1 1%nat ltac:(lia)); f_equal; cbn; rewrite S5; lra).
  exists parse400, rep_lines, rp1, rq, x, y, (105 / 1000), 1.
  split; [exact E|split; [reflexivity|split; [exact Ch|split; [|split; [exact flat1|split; [reflexivity|split; [exact A1|split; [exact A2|split; [exact X1|split; [|split; [reflexivity|]]]]]]]]]]].
  - cbn [continuous_pieces]. rewrite flat1. unfold piece_at, rp1, rq. cbn [p_from p_to p_coef powers]. repeat split; field.
  - rewrite (V 0%nat _ _ X1 X0) by (cbn [p_to rq]; lra). f_equal. unfold the_pieces. cbn [app in_force]. destruct (Rlt_dec (1 / 10) (p_from rp1)) as [_|B]; [|cbn [p_from rp1] in B; lra].
    exact (flat1 _).
  - unfold described. cbn [in_force]. destruct (Rlt_dec (105 / 1000) (p_from rp1)) as [B|_]; [cbn [p_from rp1] in B; lra|].
    destruct (Rlt_dec (105 / 1000) (p_to rp1)) as [_|B]; [|cbn [p_to rp1] in B; lra]. unfold piece_at. cbn [rp1 p_from p_coef powers]. field.
Qed.
