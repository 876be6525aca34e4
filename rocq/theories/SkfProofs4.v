(** Proofs about the element line of written .skf files, and cases. *)
From Coq Require Import Reals ZArith List Arith Bool Ascii String Lia Lra Permutation.
From Verif Require Import Vec UtilModel GeomModel ElemModel IoModel IoSpec IoProofs IoProofs2 IoProofs3 SkfModel SkfSpec SkfProofs SkfProofs2 SkfProofs3.
Import ListNotations.
Open Scope list_scope.

Lemma dec_each : forall parse (fmt : R -> text) rnd l, (forall v, prints parse fmt rnd v) ->
  dec parse (flat_map (fun v => fmt v ++ txt " ") l) = Ok (map rnd l) /\ closed (flat_map (fun v => fmt v ++ txt " ") l).
Proof.
  intros parse fmt rnd l P. induction l as [|v l [D C]]; [split; [reflexivity|left; reflexivity]|]. cbn [flat_map map].
  destruct (dec_number parse fmt rnd v (txt " ") (P v) sep1 ltac:(discriminate)) as [D1 C1]. split.
  - change (rnd v :: map rnd l) with ([rnd v] ++ map rnd l). apply dec_app; assumption.
  - destruct C as [-> |C]; [rewrite app_nil_r; exact C1|]. apply closed_app; [right; exact C|].
    destruct C as [r [c [-> _]]]. destruct r; discriminate.
Qed.
Lemma prints0 : forall parse, parse (txt "0.0") = Some 0%R -> forall v, prints parse (fun _ => txt "0.0") (fun _ => 0%R) v.
Proof.
  intros parse P v. exists [], (txt "0.0"). split; [reflexivity|split; [constructor|]]. split; [discriminate|split; [|exact P]]. repeat constructor; discriminate.
Qed.
Lemma dec_padded : forall parse (fmt : R -> text) rnd n l, (forall v, prints parse fmt rnd v) -> parse (txt "0.0") = Some 0%R ->
  dec parse (padded n fmt l) = Ok (repeat 0%R (3 - n) ++ map rnd l) /\ closed (padded n fmt l).
Proof.
  intros parse fmt rnd n l P Z. unfold padded. destruct (dec_each parse fmt rnd l P) as [D C].
  assert (G : forall s k, dec parse (flat_map (fun _ : nat => txt "0.0 ") (seq s k)) = Ok (repeat 0%R k) /\ closed (flat_map (fun _ : nat => txt "0.0 ") (seq s k))).
  { intros s k. revert s. induction k as [|k IH]; intros s; [split; [reflexivity|left; reflexivity]|].
    cbn [seq flat_map repeat]. destruct (IH (S s)) as [D' C']. destruct (dec_number parse (fun _ => txt "0.0") (fun _ => 0%R) 0%R (txt " ") (prints0 parse Z 0%R) sep1 ltac:(discriminate)) as [D1 C1].
    split; [exact (dec_app parse _ _ [0%R] _ C1 D1 D')|]. destruct C' as [-> |C']; [rewrite app_nil_r; exact C1|]. apply closed_app; [right; exact C'|].
    destruct C' as [r [c [-> _]]]. destruct r; discriminate. }
  destruct (G 0%nat (3 - n)%nat) as [D0 C0]. split; [apply dec_app; assumption|].
  destruct C as [-> |C]; [rewrite app_nil_r; exact C0|]. apply closed_app; [right; exact C|]. destruct C as [r [c [-> _]]]. destruct r; discriminate.
Qed.

Lemma dec_element : forall parse fm rd, reads_back parse fm rd -> forall eps config orbs u,
  fortran_readline parse (element_line fm eps config orbs u) =
    Ok (repeat 0%R (3 - List.length eps) ++ map (fun p => r8 rd (snd p)) (sorted_keys eps) ++ 0%R :: repeat (r6 rd u) 3 ++
        repeat 0%R (3 - List.length orbs) ++ map (fun p => r1 rd (snd p)) (filter (fun p => existsb (text_eqb (fst p)) orbs) (sorted_keys config))).
Proof.
  intros parse fm rd H eps config orbs u. pose proof H as [_ [P8 [P6 [P1 [_ [_ [Z _]]]]]]]. unfold element_line.
  destruct (dec_padded parse (f8 fm) (r8 rd) (List.length eps) (map snd (sorted_keys eps)) P8 Z) as [D1 C1].
  destruct (dec_padded parse (f1 fm) (r1 rd) (List.length orbs) (map snd (filter (fun p => existsb (text_eqb (fst p)) orbs) (sorted_keys config))) P1 Z) as [D4 C4].
  destruct (dec_number parse (f6 fm) (r6 rd) u (txt " ") (P6 u) sep1 ltac:(discriminate)) as [D3 C3].
  rewrite !map_map in D1, D4.
  assert (D2 : dec parse (txt ", 0.0, ") = Ok [0%R] /\ closed (txt ", 0.0, ")).
  { split.
    - apply (fortran_items parse [(txt ", ", One (txt "0.0"))] [[0%R]] (txt ", ")).
      + split; [|constructor]. constructor; [exact comma_space|constructor].
      + exact comma_space.
      + constructor; [|constructor]. apply one_value. exact (parse0 parse fm rd H).
    - right. exists (txt ", 0.0,"), " "%char. split; [reflexivity|left; reflexivity]. }
  destruct D2 as [D2 C2].
  assert (D5 : dec parse [nl_char] = Ok []) by (apply dec_sep; exact sepn).
  change (fortran_readline parse) with (dec parse).
  set (A := padded _ _ _) in *. set (B := padded (List.length orbs) _ _) in *.
  rewrite app_assoc with (l := repeat 0%R (3 - List.length eps)).
  apply dec_app; [exact C1|exact D1|]. change (0%R :: ?x) with ([0%R] ++ x). apply dec_app; [exact C2|exact D2|].
  cbn [seq flat_map repeat app]. rewrite app_nil_r.
  set (T := repeat 0%R (3 - List.length orbs) ++ _) in *.
  assert (D6 : dec parse (B ++ [nl_char]) = Ok T) by (rewrite <- (app_nil_r T); apply dec_app; assumption).
  rewrite <- app_assoc. change (r6 rd u :: r6 rd u :: r6 rd u :: T) with ([r6 rd u] ++ [r6 rd u] ++ [r6 rd u] ++ T).
  apply dec_app; [exact C3|exact D3|]. rewrite <- app_assoc. apply dec_app; [exact C3|exact D3|]. apply dec_app; [exact C3|exact D3|exact D6].
Qed.

Lemma insert_perm : forall p l, Permutation (insert_key p l) (p :: l).
Proof.
  intros p l. induction l as [|q l IH]; [apply Permutation_refl|]. cbn [insert_key]. destruct (text_leb (fst p) (fst q)); [apply Permutation_refl|].
  eapply perm_trans; [apply perm_skip; exact IH|apply perm_swap].
Qed.
Lemma sorted_perm : forall l, Permutation (sorted_keys l) l.
Proof. induction l as [|p l IH]; [constructor|]. cbn [sorted_keys fold_right]. eapply perm_trans; [apply insert_perm|apply perm_skip; exact IH]. Qed.
Lemma filter_fst : forall (P : text -> bool) (l : list (text * R)), map fst (filter (fun p => P (fst p)) l) = filter P (map fst l).
Proof. intros P l. induction l as [|p l IH]; [reflexivity|]. cbn [filter map]. destruct (P (fst p)); cbn [map]; rewrite IH; reflexivity. Qed.
Lemma config_length : forall config orbs, NoDup (map fst config) -> NoDup orbs -> incl orbs (map fst config) ->
  List.length (filter (fun p => existsb (text_eqb (fst p)) orbs) (sorted_keys config)) = List.length orbs.
Proof.
  intros config orbs N M I. rewrite <- (map_length fst), (filter_fst (fun o => existsb (text_eqb o) orbs)).
  apply Permutation_length. pose proof (Permutation_map fst (sorted_perm config)) as P. apply NoDup_Permutation.
  - apply NoDup_filter. eapply Permutation_NoDup; [apply Permutation_sym; exact P|exact N].
  - exact M.
  - intros o. rewrite filter_In, existsb_exists. split.
    + intros [_ [x [X E]]]. apply text_eqb_spec in E. subst x. exact X.
    + intros O. split; [eapply Permutation_in; [apply Permutation_sym; exact P|apply I; exact O]|]. exists o. split; [exact O|apply text_eqb_spec; reflexivity].
Qed.

Lemma element_back : forall parse fm rd is0 x0 x1 rows symbol orbs (e : text -> R) config u mass rest,
  reads_back parse fm rd -> valence symbol = Some orbs -> NoDup (map fst config) -> incl orbs (map fst config) ->
  exists el, read_element_from_skf parse (skf_header fm is0 true x0 x1 rows (map (fun o => (o, e o)) orbs) config orbs u mass ++ rest) symbol = Ok el /\
    el_U el = r6 rd u /\ el_epsilon el = map (fun o => (o, r8 rd (e o))) orbs.
Proof.
  intros parse fm rd is0 x0 x1 rows symbol orbs e config u mass rest H V N I.
  unfold skf_header. cbn [app]. unfold read_element_from_skf. unfold fortran. cbn [readline fst snd].
  rewrite (dec_element parse fm rd H). cbn [bind fst].
  assert (K : NoDup orbs).
  { destruct (orbital_shapes symbol orbs V) as [-> |[-> |[[n [_ ->]]|[[n [m [_ [_ ->]]]]|[_ ->]]]]]; repeat constructor; cbn; intuition discriminate. }
  pose proof (config_length config orbs N K I) as L. rewrite <- (map_length (fun p => r1 rd (snd p))) in L.
  destruct (map (fun p => r1 rd (snd p)) (filter (fun p => existsb (text_eqb (fst p)) orbs) (sorted_keys config))) as [|a [|b [|c [|]]]] eqn:Q;
    destruct (orbital_shapes symbol orbs V) as [-> |[-> |[[n [M ->]]|[[n [m [M [M' ->]]]]|[_ ->]]]]]; try discriminate L; rewrite V.
  - eexists. split; [reflexivity|]. split; reflexivity.
  - eexists. split; [reflexivity|]. split; reflexivity.
  - cbn in M. repeat (destruct M as [<-|M]; [eexists; split; [reflexivity|split; reflexivity]|]). contradiction.
  - cbn in M, M'. repeat (destruct M as [<-|M]; [repeat (destruct M' as [<-|M']; [eexists; split; [reflexivity|split; reflexivity]|]); contradiction|]). contradiction.
  - eexists. split; [reflexivity|split; reflexivity].
Qed.

(** ** Cases *)
(** numbers written as the natural number below them *)
Definition dparse (w : text) : option R :=
  if text_eqb w (txt "0.0") then Some 0%R else if text_eqb w (txt "1.0") then Some 1%R else zparse w.
Definition whole (v : R) : nat := Z.to_nat (Int_part v).
Definition wfmt (v : R) : text := str (whole v).
Definition wfmts : formats := {| f12 := wfmt; f8 := wfmt; f6 := wfmt; f1 := wfmt; f2 := wfmt; e12 := wfmt |}.
Definition wr (v : R) : R := INR (whole v).
Definition wrd : rounding := {| r12 := wr; r8 := wr; r6 := wr; r1 := wr; r2 := wr; re := wr |}.
Lemma dparse_str : forall n, dparse (str n) = Some (INR n).
Proof.
  intros n. unfold dparse. destruct (digits_str n) as [D _].
  assert (G : forall w, In "."%char w -> text_eqb (str n) w = false).
  { intros w I. destruct (text_eqb (str n) w) eqn:E; [|reflexivity]. apply text_eqb_spec in E. rewrite <- E in I.
    pose proof (proj1 (Forall_forall _ _) D _ I) as X. unfold digit in X. cbn in X. intuition discriminate. }
  rewrite !G by (cbn; tauto). unfold zparse. rewrite int_of_str. cbn [option_map]. rewrite INR_IZR_INZ. reflexivity.
Qed.
Example wfmts_back : reads_back dparse wfmts wrd /\ dparse (txt "Spline") = None.
Proof.
  assert (P : forall v, prints dparse wfmt wr v).
  { intros v. exists [], (str (whole v)). split; [reflexivity|split; [constructor|]]. destruct (digits_str (whole v)) as [D N]. split; [exact N|split].
    - eapply Forall_impl; [|exact D]. intros c X. destruct (digit_plain c X) as [? [? [? _]]]. auto.
    - replace (plain_exponent (str (whole v))) with (str (whole v)); [apply dparse_str|]. symmetry. unfold plain_exponent. transitivity (map (fun c : ascii => c) (str (whole v))); [|apply map_id].
      apply map_ext_in. intros c I. destruct (digit_plain c (proj1 (Forall_forall _ _) D c I)) as [_ [_ [_ B]]]. destruct (ascii_dec c "d"); [contradiction|reflexivity]. }
  split; [|reflexivity]. repeat split; try exact P. exact dparse_str.
Qed.
(** a table of one row that starts at the grid point 3 *)
Definition some_row : list R := repeat 0%R 19 ++ [5%R].
Example shifted_case : ends_nonzero (fun v => if Req_EM_T v 0 then true else false) some_row /\ List.length some_row = 20%nat /\
  (3 = INR 3 * (4 - 3))%R /\ r12 wrd (4 - 3) = (4 - 3)%R.
Proof.
  split; [|split; [reflexivity|split; [cbn; lra|]]].
  - intros r v E. unfold some_row in E. apply app_inj_tail in E as [_ <-]. destruct (Req_EM_T 5 0); [lra|reflexivity].
  - cbn [r12 wrd]. unfold wr, whole. replace (4 - 3)%R with (INR 1) by (cbn; lra). rewrite Int_part_INR, Nat2Z.id. reflexivity.
Qed.
Lemma extra_column : exists row, fortran_readline dparse (row_line wfmts (fun v => if Req_EM_T v 0 then true else false) row) = Ok (map wr row ++ [0%R]) /\ row <> [].
Proof.
  exists [5%R; 0%R]. split; [|discriminate]. pose proof (row_extra dparse wfmts wrd (fun v => if Req_EM_T v 0 then true else false) (proj1 wfmts_back) [5%R] 0%R) as X.
  cbn beta in X. destruct (Req_EM_T 0 0) as [_|C]; [|contradiction (C eq_refl)]. specialize (X eq_refl). cbn [app] in X. unfold dec in X. rewrite X.
  assert (W : wr 0 = 0%R).
  { unfold wr, whole. replace 0%R with (INR 0) by reflexivity. rewrite Int_part_INR. reflexivity. }
  f_equal. cbn [map app]. unfold entry. destruct (Req_EM_T 5 0) as [C|_]; [lra|]. destruct (Req_EM_T 0 0) as [_|C]; [|contradiction (C eq_refl)].
  cbn [re wrd]. rewrite W. reflexivity.
Qed.

Lemma row_ok : forall parse fm rd is0, reads_back parse fm rd -> forall row, ends_nonzero is0 row ->
  fortran_readline parse (row_line fm is0 row) = Ok (map (entry is0 rd) row).
Proof. exact row_back. Qed.
Lemma row_longer : forall parse fm rd is0, reads_back parse fm rd -> forall r v, is0 v = true ->
  fortran_readline parse (row_line fm is0 (r ++ [v])) = Ok (map (entry is0 rd) (r ++ [v]) ++ [re rd v]).
Proof. exact row_extra. Qed.
