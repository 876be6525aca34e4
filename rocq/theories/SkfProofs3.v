(** Proofs about reading tables and about files that were written. *)
From Coq Require Import Reals ZArith List Arith Bool Ascii String Lia Lra Permutation.
From Verif Require Import Vec UtilModel GeomModel ElemModel IoModel IoSpec IoProofs IoProofs2 IoProofs3 SkfModel SkfSpec SkfProofs SkfProofs2.
Import ListNotations.
Open Scope list_scope.

Lemma hs_read : forall parse (homo : bool) h e rows vals rest dx n more,
  fortran_readline parse h = Ok (dx :: n :: more) -> (homo = true \/ more = []) ->
  Forall2 (fun l v => fortran_readline parse l = Ok v) rows vals -> Forall (fun l => is_spline l = false) rows ->
  (rest = [] \/ exists l r, rest = l :: r /\ is_spline l = true) ->
  (forall a b, In a vals -> In b vals -> List.length a = List.length b) ->
  exists x, read_HS_from_skf parse (h :: (if homo then [e] else []) ++ rows ++ rest) homo = Ok (x, vals) /\
    List.length x = List.length vals /\ forall i, (i < List.length vals)%nat -> nth_error x i = Some (dx * INR i)%R.
Proof.
  intros parse homo h e rows vals rest dx n more F M V S E L.
  exists (map (fun i => (dx * INR i)%R) (seq 0 (List.length vals))). split; [|split].
  - unfold read_HS_from_skf. unfold fortran. cbn [readline fst snd]. rewrite F. cbn [bind fst snd].
    assert (X : rect vals = true).
    { destruct vals as [|v vals]; [reflexivity|]. unfold rect. apply forallb_forall. intros b B. apply Nat.eqb_eq. apply L; [right; exact B|left; reflexivity]. }
    destruct homo.
    + cbn [app bind readline fst snd]. replace (table_rows parse (rows ++ rest)) with (Ok vals) by (symmetry; exact (rows_read parse rows vals rest V S E)). cbn [bind]. rewrite X. reflexivity.
    + destruct M as [M| ->]; [discriminate|]. cbn [app bind fst snd]. replace (table_rows parse (rows ++ rest)) with (Ok vals) by (symmetry; exact (rows_read parse rows vals rest V S E)). cbn [bind]. rewrite X. reflexivity.
  - rewrite map_length, seq_length. reflexivity.
  - intros i I. rewrite nth_error_map, (nth_error_nth' _ 0%nat) by (rewrite seq_length; exact I). rewrite seq_nth by exact I. reflexivity.
Qed.
Lemma hs_ragged : forall parse (homo : bool) h e rows vals rest dx n more,
  fortran_readline parse h = Ok (dx :: n :: more) -> (homo = true \/ more = []) ->
  Forall2 (fun l v => fortran_readline parse l = Ok v) rows vals -> Forall (fun l => is_spline l = false) rows ->
  (rest = [] \/ exists l r, rest = l :: r /\ is_spline l = true) ->
  (exists a b, In a vals /\ In b vals /\ List.length a <> List.length b) ->
  read_HS_from_skf parse (h :: (if homo then [e] else []) ++ rows ++ rest) homo = Raise ValueError.
Proof.
  intros parse homo h e rows vals rest dx n more F M V S E [a [b [A [B L]]]].
  assert (X : rect vals = false).
  { destruct (rect vals) eqn:Q; [|reflexivity]. exfalso. destruct vals as [|v vals]; [contradiction A|]. unfold rect in Q.
    assert (K : forall c, In c (v :: vals) -> List.length c = List.length v).
    { intros c [<-|C]; [reflexivity|]. apply Nat.eqb_eq. exact (proj1 (forallb_forall _ _) Q c C). }
    apply L. rewrite (K a A), (K b B). reflexivity. }
  unfold read_HS_from_skf. unfold fortran. cbn [readline fst snd]. rewrite F. cbn [bind fst snd]. destruct homo.
  - cbn [app bind readline fst snd]. replace (table_rows parse (rows ++ rest)) with (Ok vals) by (symmetry; exact (rows_read parse rows vals rest V S E)). cbn [bind]. rewrite X. reflexivity.
  - destruct M as [M| ->]; [discriminate|]. cbn [app bind fst snd]. replace (table_rows parse (rows ++ rest)) with (Ok vals) by (symmetry; exact (rows_read parse rows vals rest V S E)). cbn [bind]. rewrite X. reflexivity.
Qed.
Lemma hetero_header : forall parse h f l, fortran_readline parse h = Ok l -> List.length l <> 2%nat ->
  read_HS_from_skf parse (h :: f) false = Raise ValueError.
Proof.
  intros parse h f l F N. unfold read_HS_from_skf. unfold fortran. cbn [readline fst snd]. rewrite F. cbn [bind fst snd].
  destruct l as [|a [|b [|c l]]]; try reflexivity. contradiction (N eq_refl).
Qed.

(** ** Written files *)
Lemma comma_space : separator (txt ", "). Proof. constructor; [right; reflexivity|exact sep1]. Qed.
Lemma dec_head : forall parse fm rd, reads_back parse fm rd -> forall v n,
  fortran_readline parse (f12 fm v ++ txt ", " ++ str n ++ [nl_char]) = Ok [r12 rd v; INR n].
Proof.
  intros parse fm rd H v n. pose proof H as [P [_ [_ [_ [_ [_ [_ [_ S]]]]]]]].
  rewrite app_assoc. change (fortran_readline parse) with (dec parse).
  destruct (dec_number parse (f12 fm) (r12 rd) v (txt ", ") (P v) comma_space ltac:(discriminate)) as [D C].
  change [r12 rd v; INR n] with ([r12 rd v] ++ [INR n]). apply dec_app; [exact C|exact D|].
  destruct (dec_number parse (fun _ => str n) (fun _ => INR n) 0%R [nl_char]) as [Dn _]; [|exact sepn|discriminate|exact Dn].
  exists [], (str n). split; [reflexivity|split; [constructor|]]. destruct (digits_str n) as [Q N]. split; [exact N|split].
  - eapply Forall_impl; [|exact Q]. intros c X. destruct (digit_plain c X) as [? [? [? _]]]. auto.
  - replace (plain_exponent (str n)) with (str n); [apply S|]. symmetry. unfold plain_exponent. transitivity (map (fun c : ascii => c) (str n)); [|apply map_id].
    apply map_ext_in. intros c I. destruct (digit_plain c (proj1 (Forall_forall _ _) Q c I)) as [_ [_ [_ B]]]. destruct (ascii_dec c "d"); [contradiction|reflexivity].
Qed.
Lemma dec_mass : forall parse fm rd, reads_back parse fm rd -> forall m,
  fortran_readline parse (f2 fm m ++ txt ", 19*1.0," ++ [nl_char]) = Ok (r2 rd m :: repeat 1%R 19).
Proof.
  intros parse fm rd H m. pose proof H as [_ [_ [_ [_ [P _]]]]].
  destruct (dec_number parse (f2 fm) (r2 rd) m (txt ", ") (P m) comma_space ltac:(discriminate)) as [D C].
  replace (f2 fm m ++ txt ", 19*1.0," ++ [nl_char]) with ((f2 fm m ++ txt ", ") ++ (txt "19*1.0," ++ [nl_char])) by (rewrite <- app_assoc; reflexivity).
  change (r2 rd m :: repeat 1%R 19) with ([r2 rd m] ++ repeat 1%R 19). apply (dec_app parse); [exact C|exact D|].
  destruct (dec_times parse 19 (txt "1.0") 1%R (","%char :: [nl_char]) (parse1 parse fm rd H) sepc ltac:(discriminate)) as [E _]. exact E.
Qed.
Lemma dec_fill : forall parse fm rd, reads_back parse fm rd -> forall n,
  fortran_readline parse (str n ++ txt "*1.0," ++ [nl_char]) = Ok (repeat 1%R n).
Proof.
  intros parse fm rd H n.
  destruct (dec_times parse n (txt "1.0") 1%R (","%char :: [nl_char]) (parse1 parse fm rd H) sepc ltac:(discriminate)) as [E _]. exact E.
Qed.

Lemma file_back : forall parse fm rd is0 (homo : bool) x0 x1 rows eps config orbs u mass keyword rest k,
  reads_back parse fm rd -> parse (txt "Spline") = None ->
  rows <> [] -> Forall (fun r => List.length r = 20%nat /\ ends_nonzero is0 r) rows ->
  (0 < x1 - x0)%R -> x0 = (INR k * (x1 - x0))%R -> is_spline keyword = true ->
  exists x, read_HS_from_skf parse (skf_header fm is0 homo x0 x1 rows eps config orbs u mass ++ keyword :: rest) homo =
      Ok (x, (r2 rd mass :: repeat 1%R 19) :: repeat (repeat 1%R 20) k ++ map (map (entry is0 rd)) rows) /\
    forall j, (j < List.length rows)%nat -> nth_error x (1 + k + j) = Some (r12 rd (x1 - x0) * INR (1 + k + j))%R.
Proof.
  intros parse fm rd is0 homo x0 x1 rows eps config orbs u mass keyword rest k H NS N L P X K.
  assert (T : Z.to_nat (trunc (x0 / (x1 - x0))) = k).
  { rewrite X at 1. replace (INR k * (x1 - x0) / (x1 - x0))%R with (INR k) by (field; lra).
    unfold trunc. destruct (Rlt_dec (INR k) 0) as [B|_]; [pose proof (pos_INR k); lra|]. rewrite Int_part_INR. apply Nat2Z.id. }
  set (fills := if Req_EM_T x0 0 then [] else map (fun _ : nat => str (List.length (hd [] rows)) ++ txt "*1.0," ++ [nl_char]) (seq 0 k)).
  assert (Lf : Forall2 (fun l v => fortran_readline parse l = Ok v) fills (repeat (repeat 1%R 20) k)).
  { assert (G : forall s n, Forall2 (fun l v => fortran_readline parse l = Ok v) (map (fun _ : nat => str (List.length (hd [] rows)) ++ txt "*1.0," ++ [nl_char]) (seq s n)) (repeat (repeat 1%R 20) n)).
    { intros s n. revert s. induction n as [|n IH]; intros s; [constructor|]. cbn [seq map repeat]. constructor; [|apply IH].
      assert (Q : List.length (hd [] rows) = 20%nat) by (destruct rows; [contradiction (N eq_refl)|exact (proj1 (Forall_inv L))]).
      rewrite Q. exact (dec_fill parse fm rd H 20). }
    unfold fills. destruct (Req_EM_T x0 0) as [Z|_]; [|apply G].
    assert (k = 0)%nat as ->; [|constructor].
    destruct k as [|k]; [reflexivity|]. exfalso. rewrite Z in X. rewrite S_INR in X. pose proof (pos_INR k).
    assert (0 < (INR k + 1) * (x1 - x0))%R by (apply Rmult_lt_0_compat; lra). rewrite Z in *. lra. }
  set (lines := (f2 fm mass ++ txt ", 19*1.0," ++ [nl_char]) :: fills ++ map (row_line fm is0) rows).
  set (vals := (r2 rd mass :: repeat 1%R 19) :: repeat (repeat 1%R 20) k ++ map (map (entry is0 rd)) rows).
  assert (V : Forall2 (fun l v => fortran_readline parse l = Ok v) lines vals).
  { constructor; [apply dec_mass; exact H|]. apply Forall2_app; [exact Lf|].
    clear - H L. induction L as [|r rows [_ E] L IH]; [constructor|]. cbn [map]. constructor; [|exact IH]. exact (row_back parse fm rd is0 H r E). }
  assert (S : Forall (fun l => is_spline l = false) lines).
  { clear - V NS. induction V as [|l v ls vs A B IH]; [constructor|]. constructor; [|exact IH]. exact (spline_no_number parse NS l v A). }
  assert (LV : List.length vals = (1 + k + List.length rows)%nat) by (unfold vals; cbn [List.length]; rewrite app_length, repeat_length, map_length; reflexivity).
  destruct (hs_read parse homo (f12 fm (x1 - x0) ++ txt ", " ++ str (List.length rows + k) ++ [nl_char]) (element_line fm eps config orbs u) lines vals (keyword :: rest)
    (r12 rd (x1 - x0)) (INR (List.length rows + k)) []) as [x [E [_ G]]].
  - apply dec_head. exact H.
  - right. reflexivity.
  - exact V.
  - exact S.
  - right. exists keyword, rest. split; [reflexivity|exact K].
  - assert (A : forall a, In a vals -> List.length a = 20%nat).
    { intros a [<-|I]; [reflexivity|]. apply in_app_or in I as [I|I].
      - apply repeat_spec in I. subst a. apply repeat_length.
      - apply in_map_iff in I as [r [<- I]]. rewrite map_length. exact (proj1 (proj1 (Forall_forall _ _) L r I)). }
    intros a b Ia Ib. rewrite (A a Ia), (A b Ib). reflexivity.
  - exists x. split.
    + unfold skf_header. rewrite T. fold fills. cbv zeta.
      etransitivity; [|exact E]. apply (f_equal (fun f : file => read_HS_from_skf parse f homo)). unfold lines. destruct homo; cbn [app]; rewrite <- ?app_assoc; reflexivity.
    + intros j J. apply G. rewrite LV. lia.
Qed.

(** every row comes back one grid point further out *)
Lemma shifted : forall parse fm rd is0 (homo : bool) x0 x1 rows eps config orbs u mass keyword rest k,
  reads_back parse fm rd -> parse (txt "Spline") = None ->
  rows <> [] -> Forall (fun r => List.length r = 20%nat /\ ends_nonzero is0 r) rows ->
  (0 < x1 - x0)%R -> x0 = (INR k * (x1 - x0))%R -> r12 rd (x1 - x0) = (x1 - x0)%R -> is_spline keyword = true ->
  exists x t, read_HS_from_skf parse (skf_header fm is0 homo x0 x1 rows eps config orbs u mass ++ keyword :: rest) homo = Ok (x, t) /\
    forall j row, nth_error rows j = Some row ->
      nth_error t (1 + k + j) = Some (map (entry is0 rd) row) /\ nth_error x (1 + k + j) = Some (x0 + INR j * (x1 - x0) + (x1 - x0))%R.
Proof.
  intros parse fm rd is0 homo x0 x1 rows eps config orbs u mass keyword rest k H NS N L P X D K.
  destruct (file_back parse fm rd is0 homo x0 x1 rows eps config orbs u mass keyword rest k H NS N L P X K) as [x [E G]].
  eexists x, _. split; [exact E|]. intros j row J.
  assert (Lj : (j < List.length rows)%nat) by (apply nth_error_Some; rewrite J; discriminate). split.
  - change (1 + k + j)%nat with (S (k + j)). cbn [nth_error]. rewrite nth_error_app2 by (rewrite repeat_length; lia).
    rewrite repeat_length. replace (k + j - k)%nat with j by lia. rewrite nth_error_map, J. reflexivity.
  - rewrite (G j Lj), D. f_equal. rewrite !plus_INR. change (INR 1) with 1%R. rewrite X at 2. ring.
Qed.
