(** Proofs about written .skf files. *)
From Coq Require Import Reals ZArith List Arith Bool Ascii String Lia Lra Permutation.
From Verif Require Import Vec UtilModel GeomModel ElemModel IoModel IoSpec IoProofs IoProofs2 IoProofs3 SkfModel SkfSpec SkfProofs.
Import ListNotations.
Open Scope list_scope.

Lemma words_nonempty : forall d s, is_space d = false -> words (d :: s) <> [].
Proof.
  intros d s D. cbn [words]. rewrite D. destruct s as [|e s]; [discriminate|]. destruct (is_space e); [discriminate|].
  destruct (words (e :: s)); discriminate.
Qed.
Lemma words_app : forall s c t, is_space c = true -> words (s ++ c :: t) = words s ++ words t.
Proof.
  intros s c t C. induction s as [|a s IH].
  - cbn [app words]. rewrite C. reflexivity.
  - change ((a :: s) ++ c :: t) with (a :: (s ++ c :: t)). cbn [words]. rewrite IH. destruct (is_space a) eqn:A; [reflexivity|].
    destruct s as [|d s].
    + cbn [app]. rewrite C. reflexivity.
    + cbn [app]. destruct (is_space d) eqn:D; [reflexivity|]. destruct (words (d :: s)) as [|w ws] eqn:E; [contradiction (words_nonempty d s D E)|]. reflexivity.
Qed.

Section Reading.
Variable parse : text -> option R.
Definition dec (s : text) : res (list R) := fortran_readline parse s.

Lemma items_app : forall l1 l2, items parse (l1 ++ l2) = bind (items parse l1) (fun a => bind (items parse l2) (fun b => Ok (a ++ b))).
Proof.
  induction l1 as [|e l1 IH]; intros l2.
  - cbn [app items bind]. destruct (items parse l2); reflexivity.
  - cbn [app items]. destruct (match cut "*" e with None => _ | Some _ => _ end) as [r|x]; [|reflexivity]. cbn [bind]. rewrite IH.
    destruct (items parse l1) as [a|]; [|reflexivity]. cbn [bind]. destruct (items parse l2) as [b|]; [|reflexivity]. cbn [bind]. rewrite app_assoc. reflexivity.
Qed.

Definition closed (s : text) : Prop := s = [] \/ exists r c, s = r ++ [c] /\ (is_space c = true \/ c = ","%char).
Lemma dec_app : forall s t a b, closed s -> dec s = Ok a -> dec t = Ok b -> dec (s ++ t) = Ok (a ++ b).
Proof.
  intros s t a b C A B. unfold dec, fortran_readline in *. fold (cooked s) in A. fold (cooked t) in B. fold (cooked (s ++ t)).
  destruct C as [-> |[r [c [-> C]]]].
  - cbn in A. injection A as <-. exact B.
  - rewrite cooked_app in *. assert (X : exists d, cooked [c] = [d] /\ is_space d = true).
    { eexists. split; [reflexivity|]. assert (Sc : separator [c]) by (constructor; [exact C|constructor]). exact (Forall_inv (cooked_sep [c] Sc)). }
    destruct X as [d [E D]]. rewrite cooked_app in *. rewrite E in *. rewrite <- app_assoc. cbn [app]. rewrite (words_app _ d _ D), items_app.
    rewrite (words_app _ d [] D) in A. cbn [words] in A. rewrite app_nil_r in A. rewrite A, B. reflexivity.
Qed.
Lemma closed_app : forall s t, closed t -> t <> [] -> closed (s ++ t).
Proof. intros s t [-> |[r [c [-> C]]]] N; [contradiction (N eq_refl)|]. right. exists (s ++ r), c. rewrite app_assoc. split; [reflexivity|exact C]. Qed.
Lemma closed_sp : forall s, closed (s ++ [" "%char]). Proof. intros. right. exists s, " "%char. split; [reflexivity|left; reflexivity]. Qed.
Lemma dec_sep : forall s, separator s -> dec s = Ok [].
Proof. intros s S. exact (fortran_items parse [] [] s (conj (Forall_nil _) (Forall_nil _)) S (Forall2_nil _)). Qed.
Lemma closed_sep : forall s, separator s -> closed s.
Proof.
  intros s S.
  destruct s as [|x s]; [left; reflexivity|]. destruct (exists_last (l := x :: s)) as [r [c E]]; [discriminate|].
  right. exists r, c. split; [exact E|]. rewrite E in S. apply Forall_app in S as [_ S]. exact (Forall_inv S).
Qed.
Lemma dec_number : forall fmt rnd v t, prints parse fmt rnd v -> separator t -> t <> [] -> dec (fmt v ++ t) = Ok [rnd v] /\ closed (fmt v ++ t).
Proof.
  intros fmt rnd v t [a [w [E [A W]]]] S N. split.
  - rewrite E, <- app_assoc. apply (fortran_items parse [(a, One w)] [[rnd v]] t).
    + split; [|constructor]. constructor; [|constructor]. cbn [fst]. eapply Forall_impl; [|exact A]. intros c C. left. exact C.
    + exact S.
    + cbn [map snd]. constructor; [apply one_value; exact W|constructor].
  - apply closed_app; [apply closed_sep; exact S|exact N].
Qed.
Lemma dec_times : forall n w v t, numeral parse w v -> separator t -> t <> [] -> dec (str n ++ "*"%char :: w ++ t) = Ok (repeat v n) /\ closed (str n ++ "*"%char :: w ++ t).
Proof.
  intros n w v t W S N. split.
  - pose proof (fortran_items parse [([], Times n w)] [repeat v n] t) as F. cbn [line_of item_text app List.concat map snd] in F. rewrite app_nil_r in F.
    rewrite <- app_assoc in F. apply F.
    + split; constructor; [constructor|constructor].
    + exact S.
    + constructor; [apply times_value; exact W|constructor].
  - replace (str n ++ "*"%char :: w ++ t) with ((str n ++ "*"%char :: w) ++ t) by (rewrite <- app_assoc; reflexivity).
    apply closed_app; [apply closed_sep; exact S|exact N].
Qed.

Variable fm : formats.
Variable rd : rounding.
Variable is0 : R -> bool.
Hypothesis H : reads_back parse fm rd.

Lemma parse0 : numeral parse (txt "0.0") 0%R.
Proof. destruct H as [_ [_ [_ [_ [_ [_ [P _]]]]]]]. split; [discriminate|split; [|exact P]]. repeat constructor; discriminate. Qed.
Lemma parse1 : numeral parse (txt "1.0") 1%R.
Proof. destruct H as [_ [_ [_ [_ [_ [_ [_ [P _]]]]]]]]. split; [discriminate|split; [|exact P]]. repeat constructor; discriminate. Qed.
Lemma sep1 : separator [" "%char]. Proof. repeat constructor. Qed.
Lemma sep2 : separator (txt "  "). Proof. repeat constructor. Qed.
Lemma sepn : separator [nl_char]. Proof. repeat constructor. Qed.
Lemma sepc : separator (","%char :: [nl_char]). Proof. constructor; [right; reflexivity|exact sepn]. Qed.

Definition pending (ct : nat) : text := match ct with O => [] | _ => str ct ++ txt "*0.0 " end.
Lemma dec_pending : forall ct, dec (pending ct) = Ok (repeat 0%R ct) /\ closed (pending ct).
Proof.
  intros [|n]; [split; [reflexivity|left; reflexivity]|]. unfold pending.
  exact (dec_times (S n) (txt "0.0") 0%R [" "%char] parse0 sep1 ltac:(discriminate)).
Qed.
Lemma prints_e : forall v, prints parse (e12 fm) (re rd) v. Proof. intros v. apply H. Qed.

Lemma row_state : forall row ct header a, closed header -> dec header = Ok a ->
  exists ct' header' a', table_row fm is0 ct (pending ct) header row = (ct', pending ct', header') /\ closed header' /\ dec header' = Ok a' /\
    a' ++ repeat 0%R ct' = a ++ repeat 0%R ct ++ map (entry is0 rd) row.
Proof.
  induction row as [|v row IH]; intros ct header a C D.
  - exists ct, header, a. cbn [table_row map]. rewrite app_nil_r. repeat split; assumption.
  - cbn [table_row]. destruct (is0 v) eqn:Z.
    + change (str (S ct) ++ txt "*0.0 ") with (pending (S ct)). destruct (IH (S ct) header a C D) as [ct' [h' [a' [E [C' [D' X]]]]]].
      exists ct', h', a'. repeat split; [exact E|exact C'|exact D'|]. rewrite X. cbn [map]. unfold entry at 2. rewrite Z.
      f_equal. change (repeat 0%R (S ct)) with (0%R :: repeat 0%R ct). rewrite repeat_cons, <- app_assoc. reflexivity.
    + destruct (dec_pending ct) as [Dp Cp]. destruct (dec_number (e12 fm) (re rd) v (txt "  ") (prints_e v) sep2 ltac:(discriminate)) as [Dv Cv].
      assert (D2 : dec (header ++ pending ct ++ e12 fm v ++ txt "  ") = Ok (a ++ repeat 0%R ct ++ [re rd v])).
      { apply dec_app; [exact C|exact D|]. apply dec_app; assumption. }
      assert (C2 : closed (header ++ pending ct ++ e12 fm v ++ txt "  ")).
      { rewrite !app_assoc. apply closed_app; [apply closed_sep; exact sep2|discriminate]. }
      destruct (IH 0%nat _ _ C2 D2) as [ct' [h' [a' [E [C' [D' X]]]]]]. exists ct', h', a'. repeat split; [exact E|exact C'|exact D'|].
      rewrite X. cbn [map repeat app]. unfold entry at 2. rewrite Z. rewrite <- !app_assoc. reflexivity.
Qed.
Lemma row_count : forall row ct th header, let '(ct', _, _) := table_row fm is0 ct th header row in
  (forall r v, row = r ++ [v] -> (is0 v = false -> ct' = 0%nat) /\ (is0 v = true -> ct' <> 0%nat)) /\ (row = [] -> ct' = ct).
Proof.
  induction row as [|x row IH]; intros ct th header.
  - cbn [table_row]. split; [|reflexivity]. intros [|? r] v E; discriminate.
  - cbn [table_row]. destruct (is0 x) eqn:Z.
    + specialize (IH (S ct) (str (S ct) ++ txt "*0.0 ") header). destruct (table_row fm is0 (S ct) (str (S ct) ++ txt "*0.0 ") header row) as [[ct' th'] h'].
      destruct IH as [A B]. split; [|discriminate]. intros [|y r] v E.
      * injection E as -> ->. rewrite (B eq_refl). split; [intros; congruence|discriminate].
      * injection E as <- E. exact (A r v E).
    + specialize (IH 0%nat [] (header ++ th ++ e12 fm x ++ txt "  ")). destruct (table_row fm is0 0 [] (header ++ th ++ e12 fm x ++ txt "  ") row) as [[ct' th'] h'].
      destruct IH as [A B]. split; [|discriminate]. intros [|y r] v E.
      * injection E as -> ->. rewrite (B eq_refl). split; [reflexivity|intros; congruence].
      * injection E as <- E. exact (A r v E).
Qed.

Lemma row_back : forall row, ends_nonzero is0 row -> dec (row_line fm is0 row) = Ok (map (entry is0 rd) row).
Proof.
  intros row E. unfold row_line. destruct (row_state row 0 [] [] (or_introl eq_refl) eq_refl) as [ct [h [a [T [C [D X]]]]]].
  cbn [pending] in T. pose proof (row_count row 0 [] []) as N. rewrite T in N |- *. destruct N as [N1 N2].
  assert (Z : ct = 0%nat).
  { destruct row as [|x row]; [exact (N2 eq_refl)|]. destruct (exists_last (l := x :: row)) as [r [v Q]]; [discriminate|].
    exact (proj1 (N1 r v Q) (E r v Q)). }
  subst ct. cbn [pending repeat] in *. rewrite app_nil_r in X. cbn [app] in X. rewrite <- X.
  rewrite <- (app_nil_r a). apply dec_app; [exact C|exact D|apply dec_sep; exact sepn].
Qed.
Lemma row_extra : forall r v, is0 v = true -> dec (row_line fm is0 (r ++ [v])) = Ok (map (entry is0 rd) (r ++ [v]) ++ [re rd v]).
Proof.
  intros r v Z. unfold row_line. destruct (row_state (r ++ [v]) 0 [] [] (or_introl eq_refl) eq_refl) as [ct [h [a [T [C [D X]]]]]].
  cbn [pending] in T. pose proof (row_count (r ++ [v]) 0 [] []) as N. rewrite T in N |- *. destruct N as [N1 _].
  pose proof (proj2 (N1 r v eq_refl) Z) as Q. destruct (dec_pending ct) as [Dp Cp].
  destruct (dec_number (e12 fm) (re rd) v (txt "  " ++ [nl_char]) (prints_e v)) as [Dv _]; [apply Forall_app; split; [exact sep2|exact sepn]|discriminate|].
  cbn [repeat app] in X. rewrite <- X. destruct (pending ct) as [|c p] eqn:P.
  - exfalso. destruct ct as [|ct]; [exact (Q eq_refl)|]. unfold pending in P. destruct (digits_str (S ct)) as [_ M]. destruct (str (S ct)); [exact (M eq_refl)|discriminate].
  - rewrite <- P in *. rewrite last_last. rewrite <- !app_assoc. apply dec_app; [exact C|exact D|]. apply dec_app; [exact Cp|exact Dp|exact Dv].
Qed.

(** ** The file *)
Lemma rows_read : forall ls vs rest, Forall2 (fun l v => dec l = Ok v) ls vs -> Forall (fun l => is_spline l = false) ls ->
  (rest = [] \/ exists l r, rest = l :: r /\ is_spline l = true) -> table_rows parse (ls ++ rest) = Ok vs.
Proof.
  intros ls vs rest F S E. induction F as [|l v ls vs L F IH].
  - cbn [app]. destruct E as [-> |[l [r [-> Q]]]]; [reflexivity|]. cbn [table_rows]. rewrite Q. reflexivity.
  - cbn [app table_rows]. rewrite (Forall_inv S). fold (dec l). rewrite L. cbn [bind]. rewrite (IH (Forall_inv_tail S)). reflexivity.
Qed.
(** a line that reads as numbers is not the keyword *)
Hypothesis NS : parse (txt "Spline") = None.
Lemma spline_no_number : forall l v, dec l = Ok v -> is_spline l = false.
Proof.
  intros l v D. destruct (is_spline l) eqn:S; [|reflexivity]. apply text_eqb_spec in S. exfalso.
  destruct (content_strip l) as [a [b [E [Q _]]]]. rewrite S in E. apply Forall_app in Q as [A B].
  assert (X : dec l = Raise ValueError).
  { rewrite E. rewrite app_assoc. rewrite <- app_assoc.
    apply (fortran_rejects parse [] [] a (txt "Spline") [] b).
    - split; [|constructor]. constructor; [|constructor]. eapply Forall_impl; [|exact A]. intros c C. left. exact C.
    - eapply Forall_impl; [|exact B]. intros c C. left. exact C.
    - constructor.
    - constructor; [|constructor]. split; [discriminate|]. repeat constructor; discriminate.
    - exact NS. }
  rewrite X in D. discriminate.
Qed.
End Reading.
