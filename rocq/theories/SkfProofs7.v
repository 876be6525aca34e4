(** Proofs about the polynomial form of the repulsion in .skf files. *)
From Coq Require Import Reals ZArith List Arith Bool Ascii String Lia Lra.
From Verif Require Import Vec UtilModel GeomModel ElemModel IoModel IoSpec IoProofs IoProofs2 IoProofs3 SkfModel SkfSpec SkfProofs5 SkfProofs6 SkProofs6.
Import ListNotations.
Open Scope R_scope.

Lemma poly_value : forall c2 c3 c4 c5 c6 c7 c8 c9 cutoff x, poly_rep [0; 0; c2; c3; c4; c5; c6; c7; c8; c9] cutoff x =
  rsum 8 (fun i => nth i [c2; c3; c4; c5; c6; c7; c8; c9] 0 * (cutoff - x) ^ (i + 2)).
Proof. intros. unfold poly_rep. cbn [seq fold_left nth rsum Nat.add]. ring. Qed.

(** a file without splines: the table is the polynomial of the second line, or of the third
    line when the second is short *)
Lemma poly_read : forall parse head second third f m dx' n' c2 c3 c4 c5 c6 c7 c8 c9 cutoff more second_numbers x0 dx,
  Forall (fun l => is_spline l = false) (head :: second :: third :: f) ->
  fortran_readline parse head = Ok [dx'; n'] -> fortran_readline parse second = Ok second_numbers ->
  (if (List.length second_numbers <? 20)%nat then fortran_readline parse third else Ok second_numbers) = Ok (m :: c2 :: c3 :: c4 :: c5 :: c6 :: c7 :: c8 :: c9 :: cutoff :: more) ->
  0 < dx -> x0 + dx <= cutoff ->
  exists x y s, read_repulsion_from_skf parse (head :: second :: third :: f) x0 dx = Ok (x, y) /\ List.length y = List.length x /\ dx <= s < 2 * dx /\
    (forall i, (i < List.length x)%nat -> nth_error x i = Some (x0 + INR i * s)) /\ nth_error x (List.length x - 1) = Some cutoff /\
    nth_error y (List.length x - 1) = Some 0 /\
    (forall i, (i < List.length x)%nat -> nth_error y i = Some (rsum 8 (fun k => nth k [c2; c3; c4; c5; c6; c7; c8; c9] 0 * (cutoff - (x0 + INR i * s)) ^ (k + 2)))).
Proof.
  intros parse head second third f m dx' n' c2 c3 c4 c5 c6 c7 c8 c9 cutoff more sn x0 dx Sp Hd Sc Th D G.
  destruct (grid_ok x0 dx cutoff D G) as [x [s [E [A [Hs [L2 [N1 N2]]]]]]].
  assert (Ev : read_repulsion_from_skf parse (head :: second :: third :: f) x0 dx = Ok (x, map (poly_rep [0; 0; c2; c3; c4; c5; c6; c7; c8; c9] cutoff) x)).
  { unfold read_repulsion_from_skf. rewrite (after_none _ Sp). unfold poly_table.
    unfold fortran at 1. cbn [readline fst snd]. rewrite Hd. cbn [bind fst snd].
    unfold fortran at 1. cbn [readline fst snd]. rewrite Sc. cbn [bind fst snd].
    destruct (List.length sn <? 20)%nat.
    - unfold fortran at 1. cbn [readline fst snd]. rewrite Th. cbn [bind fst snd nth_error]. rewrite E. reflexivity.
    - injection Th as ->. cbn [bind fst snd nth_error]. rewrite E. reflexivity. }
  exists x, (map (poly_rep [0; 0; c2; c3; c4; c5; c6; c7; c8; c9] cutoff) x), s.
  split; [exact Ev|split; [apply map_length|split; [exact Hs|split; [exact N1|split; [exact N2|split]]]]].
  - rewrite nth_error_map, N2. cbn [option_map]. f_equal. rewrite poly_value. cbn [rsum Nat.add nth]. replace (cutoff - cutoff) with 0 by ring. ring.
  - intros i I. rewrite nth_error_map, (N1 i I). cbn [option_map]. reflexivity.
Qed.
(** the polynomial vanishes with its derivative at the cutoff *)
Lemma poly_smooth : forall c2 c3 c4 c5 c6 c7 c8 c9 cutoff,
  rsum 8 (fun k => nth k [c2; c3; c4; c5; c6; c7; c8; c9] 0 * (cutoff - cutoff) ^ (k + 2)) = 0 /\
  derivable_pt_lim (fun r => rsum 8 (fun k => nth k [c2; c3; c4; c5; c6; c7; c8; c9] 0 * (cutoff - r) ^ (k + 2))) cutoff 0.
Proof.
  intros c2 c3 c4 c5 c6 c7 c8 c9 cutoff. split; [cbn [rsum Nat.add nth]; replace (cutoff - cutoff) with 0 by ring; ring|].
  set (g := fun r => c2 + c3 * (cutoff - r) + c4 * (cutoff - r) ^ 2 + c5 * (cutoff - r) ^ 3 + c6 * (cutoff - r) ^ 4 + c7 * (cutoff - r) ^ 5 + c8 * (cutoff - r) ^ 6 + c9 * (cutoff - r) ^ 7).
  assert (C : continuity_pt g cutoff) by (unfold g; reg).
  intros eps He.
  (* |F(cutoff+h)/h| = |h g(cutoff+h)| *)
  destruct (C 1 ltac:(lra)) as [d [Hd Cd]].
  set (B := Rabs (g cutoff) + 1).
  assert (HB : 0 < B) by (unfold B; pose proof (Rabs_pos (g cutoff)); lra).
  assert (Hm : 0 < Rmin d (eps / B)) by (apply Rmin_pos; [exact Hd|apply Rdiv_lt_0_compat; assumption]).
  exists (mkposreal _ Hm). intros h hn hh. cbn [pos] in hh.
  assert (Q : (rsum 8 (fun k => nth k [c2; c3; c4; c5; c6; c7; c8; c9] 0 * (cutoff - (cutoff + h)) ^ (k + 2)) - rsum 8 (fun k => nth k [c2; c3; c4; c5; c6; c7; c8; c9] 0 * (cutoff - cutoff) ^ (k + 2))) / h - 0 = h * g (cutoff + h)).
  { unfold g. cbn [rsum Nat.add nth]. replace (cutoff - (cutoff + h)) with (- h) by ring. replace (cutoff - cutoff) with 0 by ring. field. exact hn. }
  rewrite Q, Rabs_mult.
  assert (G1 : Rabs (g (cutoff + h) - g cutoff) < 1).
  { apply Cd. split; [split; [exact I|lra]|]. unfold dist, R_met, R_dist. cbn. unfold R_dist. replace (cutoff + h - cutoff) with h by ring. eapply Rlt_le_trans; [exact hh|apply Rmin_l]. }
  assert (G2 : Rabs (g (cutoff + h)) < B).
  { unfold B. replace (g (cutoff + h)) with (g cutoff + (g (cutoff + h) - g cutoff)) by ring. eapply Rle_lt_trans; [apply Rabs_triang|lra]. }
  assert (H2 : Rabs h < eps / B) by (eapply Rlt_le_trans; [exact hh|apply Rmin_r]).
  pose proof (Rabs_pos h). pose proof (Rabs_pos (g (cutoff + h))).
  apply Rle_lt_trans with (Rabs h * B); [apply Rmult_le_compat_l; lra|].
  apply (Rmult_lt_reg_r (/ B)); [apply Rinv_0_lt_compat; exact HB|]. rewrite Rmult_assoc, Rinv_r by lra. unfold Rdiv in H2. lra.
Qed.

(** ** Spline files *)
Lemma spline_values : forall parse f cutoff c1 c2 c3 p1 cs q x0 dx, spline_file parse f cutoff c1 c2 c3 p1 cs q -> 0 < dx -> x0 + dx <= cutoff ->
  exists x y s, read_repulsion_from_skf parse f x0 dx = Ok (x, y) /\ List.length y = List.length x /\ dx <= s < 2 * dx /\
  (2 <= List.length x)%nat /\ (forall i, (i < List.length x)%nat -> nth_error x i = Some (x0 + INR i * s)) /\ nth_error x (List.length x - 1) = Some cutoff /\
  (forall a, nth_error x 0 = Some a -> nth_error y 0 = Some (exponential c1 c2 c3 a)) /\
  (forall i a b, nth_error x (S i) = Some a -> nth_error x i = Some b -> b < p_to q ->
     nth_error y (S i) = Some (in_force (exponential c1 c2 c3) (p_from p1) (p1 :: cs ++ [q]) b a)).
Proof.
  intros parse f cutoff c1 c2 c3 p1 cs q x0 dx (pre & keyword & h & e & l1 & ls & l & rest & -> & P & K & Hh & He & L1 & F & Lq & C) D G.
  exact (rep_values parse pre keyword h e l1 l p1 q ls rest cs cutoff c1 c2 c3 x0 dx P K Hh He L1 F Lq C D G).
Qed.
Lemma spline_exact : forall parse f cutoff c1 c2 c3 p1 cs q x0 dx, spline_file parse f cutoff c1 c2 c3 p1 cs q -> 0 < dx -> x0 + dx <= cutoff ->
  continuous_pieces (exponential c1 c2 c3) (p_from p1) (p1 :: cs ++ [q]) ->
  exists x y, read_repulsion_from_skf parse f x0 dx = Ok (x, y) /\ List.length y = List.length x /\
  (forall a, nth_error x 0 = Some a -> a <= p_from p1 -> nth_error y 0 = Some (described (exponential c1 c2 c3) (p_from p1) (p1 :: cs ++ [q]) a)) /\
  (forall i a b, nth_error x (S i) = Some a -> nth_error x i = Some b -> b < p_to q -> (forall p, In p (p1 :: cs ++ [q]) -> ~ (b < p_from p < a)) ->
     nth_error y (S i) = Some (described (exponential c1 c2 c3) (p_from p1) (p1 :: cs ++ [q]) a)).
Proof.
  intros parse f cutoff c1 c2 c3 p1 cs q x0 dx (pre & keyword & h & e & l1 & ls & l & rest & -> & P & K & Hh & He & L1 & F & Lq & C) D G Cn.
  exact (rep_exact parse pre keyword h e l1 l p1 q ls rest cs cutoff c1 c2 c3 x0 dx P K Hh He L1 F Lq C D G Cn).
Qed.
Lemma spline_error : forall parse f cutoff c1 c2 c3 p1 cs q x0 dx L, spline_file parse f cutoff c1 c2 c3 p1 cs q -> 0 < dx -> x0 + dx <= cutoff ->
  continuous_pieces (exponential c1 c2 c3) (p_from p1) (p1 :: cs ++ [q]) -> lipschitz L x0 cutoff (exponential c1 c2 c3) ->
  Forall (fun p => lipschitz L x0 cutoff (piece_at p)) (p1 :: cs ++ [q]) -> cutoff <= p_to q ->
  exists x y, read_repulsion_from_skf parse f x0 dx = Ok (x, y) /\ List.length y = List.length x /\
  (forall i a, nth_error x (S i) = Some a -> exists v, nth_error y (S i) = Some v /\ Rabs (v - described (exponential c1 c2 c3) (p_from p1) (p1 :: cs ++ [q]) a) <= 4 * L * dx).
Proof.
  intros parse f cutoff c1 c2 c3 p1 cs q x0 dx L (pre & keyword & h & e & l1 & ls & l & rest & -> & P & K & Hh & He & L1 & F & Lq & C) D G Cn Lf Lp Q.
  destruct (rep_error parse pre keyword h e l1 l p1 q ls rest cs cutoff c1 c2 c3 x0 dx P K Hh He L1 F Lq C D G L Cn Lf Lp Q) as [x [y [E [Ln V]]]].
  exists x, y. split; [exact E|split; [exact Ln|]]. intros i a Xa. destruct (V i a Xa) as [v [V1 V2]]. exists v. split; [exact V1|]. unfold the_pieces, f0 in V2. unfold exponential. lra.
Qed.
Lemma rep_lines_file : spline_file parse400 rep_lines (48 / 400) (0 / 400) (0 / 400) (0 / 400) rp1 [] rq.
Proof.
  exists [], (txt "Spline"), (txt "800 48"), (txt "0 0 0"), (txt "41 47 400 0 640000 0"), [], (txt "47 48 544 19200 640000 0 0 0"), [].
  split; [reflexivity|]. split; [constructor|]. split; [reflexivity|]. split; [transitivity (Ok [800 / 400; 48 / 400] : res (list R)); [reflexivity|]; repeat f_equal; cbn; lra|].
  split; [reflexivity|]. split; [split; reflexivity|]. split; [constructor|]. split; [split; reflexivity|]. unfold rp1, rq; cbn [app chain p_from p_to]; repeat split; lra.
Qed.
Lemma piece_line_fun : forall parse n l p q, piece_line parse n l p -> piece_line parse n l q -> p = q.
Proof. intros parse n l [a b c] [a' b' c'] [E _] [E' _]. cbn [p_from p_to p_coef] in *. rewrite E in E'. injection E' as -> -> ->. reflexivity. Qed.
(** not so in general: with the standard grid, a continuous repulsion is read wrongly *)
Lemma spline_wrong : exists parse f cutoff c1 c2 c3 p1 cs q x y a v, spline_file parse f cutoff c1 c2 c3 p1 cs q /\
  continuous_pieces (exponential c1 c2 c3) (p_from p1) (p1 :: cs ++ [q]) /\
  read_repulsion_from_skf parse f (1 / 10) (5 / 1000) = Ok (x, y) /\ nth_error x 1 = Some a /\ nth_error y 1 = Some v /\
  v = 1 /\ described (exponential c1 c2 c3) (p_from p1) (p1 :: cs ++ [q]) a = 101 / 100.
Proof.
  destruct rep_wrong as (parse & f & p1 & q & x & y & a & v & E & -> & Ch & Cn & _ & -> & A1 & A2 & X1 & Y1 & V & De).
  assert (P1 : p1 = rp1) by (apply (piece_line_fun _ _ _ _ _ A1); split; reflexivity).
  assert (Q1 : q = rq) by (apply (piece_line_fun _ _ _ _ _ A2); split; reflexivity).
  subst p1 q. exists parse400, rep_lines, (48 / 400), (0 / 400), (0 / 400), (0 / 400), rp1, [], rq, x, y, a, v.
  split; [exact rep_lines_file|]. split; [exact Cn|]. split; [exact E|]. split; [exact X1|]. split; [exact Y1|]. split; [exact V|exact De].
Qed.

(** ** Cases *)
(** the table of a polynomial file *)
Definition zp (w : text) : option R := option_map IZR (int_of w).
Example poly_case : exists x y, read_repulsion_from_skf zp [txt "1 5"; txt "12 3 0 0 0 0 0 0 0 4"; txt "12 3 0 0 0 0 0 0 0 4 0 0 0"; txt "0 0"] 0 1 = Ok (x, y) /\ nth_error y (List.length x - 1) = Some 0.
Proof.
  assert (Sp : Forall (fun l => is_spline l = false) [txt "1 5"; txt "12 3 0 0 0 0 0 0 0 4"; txt "12 3 0 0 0 0 0 0 0 4 0 0 0"; txt "0 0"]) by (repeat constructor; vm_compute; reflexivity).
  destruct (poly_read zp _ _ _ _ 12 1 5 3 0 0 0 0 0 0 0 4 [0; 0; 0] [12; 3; 0; 0; 0; 0; 0; 0; 0; 4] 0 1 Sp eq_refl eq_refl eq_refl ltac:(lra) ltac:(lra)) as [x [y [s [E [_ [_ [_ [_ [Z _]]]]]]]]].
  exists x, y. split; [exact E|exact Z].
Qed.
(** the hypotheses of the theorems on splines: the file of the refutation, read on a grid
    that contains its knots *)
Example knots_case : exists x y, read_repulsion_from_skf parse400 rep_lines (1 / 10) (1 / 400) = Ok (x, y) /\ List.length y = List.length x /\
  (forall i a b, nth_error x (S i) = Some a -> nth_error x i = Some b -> b < 48 / 400 -> (forall p, In p [rp1; rq] -> ~ (b < p_from p < a)) ->
     nth_error y (S i) = Some (described flat (41 / 400) [rp1; rq] a)).
Proof.
  destruct (spline_exact parse400 rep_lines _ _ _ _ _ _ _ (1 / 10) (1 / 400) rep_lines_file) as [x [y [E [L [_ V]]]]]; [lra|lra| |].
  - cbn [app continuous_pieces]. change (exponential (0 / 400) (0 / 400) (0 / 400)) with flat. rewrite flat1. unfold piece_at, rp1, rq. cbn [p_from p_to p_coef powers]. repeat split; field.
  - exists x, y. split; [exact E|split; [exact L|exact V]].
Qed.
