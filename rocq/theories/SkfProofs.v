(** Proofs about element data. *)
From Coq Require Import Reals ZArith List Arith Bool Ascii String Lia Lra.
From Verif Require Import Vec UtilModel GeomModel ElemModel IoModel IoSpec IoProofs IoProofs2 IoProofs3 SkfModel SkfSpec.
Import ListNotations.
Open Scope list_scope.

Lemma valence_cases : forall symbol orbs, valence symbol = Some orbs -> exists p, In (symbol, p) valence_table /\ orbs = map txt p.
Proof.
  intros symbol orbs H. unfold valence in H. destruct (find _ valence_table) as [[a p]|] eqn:F; [|discriminate].
  apply find_some in F as [I E]. cbn [fst] in E. apply String.eqb_eq in E as ->. injection H as <-. exists p. split; [exact I|reflexivity].
Qed.

Ltac nth_cases := let k := fresh "k" in let t := fresh "t" in intros k t;
  do 10 (destruct k as [|k]; [cbn; intros Q; first [discriminate | injection Q as <-];
    first [ do 2 eexists; split; [left; reflexivity|split; [eexists; reflexivity|reflexivity]]
          | do 2 eexists; split; [right; left; reflexivity|split; [eexists; reflexivity|reflexivity]]
          | do 2 eexists; split; [right; right; left; reflexivity|split; [eexists; reflexivity|reflexivity]] ]|]); cbn; destruct k; discriminate.
Ltac in_cases := let o := fresh "o" in let e := fresh "e" in let t := fresh "t" in let n := fresh "nn" in let E := fresh "EE" in intros o e t I [n E]; cbn in I;
  repeat (destruct I as [I|I]; [injection I as <- <-; destruct t; cbn in E; first [discriminate E|reflexivity]|]); contradiction.

Lemma table_shapes : forall symbol p, In (symbol, p) valence_table ->
  p = [] \/ p = ["1s"%string] \/ (exists s d, p = [s; d] /\ exists n, In n ["2"; "3"; "4"; "5"]%char /\ txt s = [n; "s"%char] /\ txt d = [n; "p"%char]) \/
  (exists n m, In n ["5"; "6"]%char /\ In m ["4"; "5"]%char /\ map txt p = [[n; "s"]; [n; "p"]; [m; "d"]]%char) \/
  (In symbol ["Ti"; "Fe"; "Ni"]%string /\ p = ["3d"; "4s"; "4p"]%string).
Proof.
  intros symbol p I. unfold valence_table in I. cbn [In] in I.
  repeat (destruct I as [I|I]; [injection I as <- <-;
    first [left; reflexivity
          |right; left; reflexivity
          |right; right; left; do 2 eexists; split; [reflexivity|]; eexists; split; [|split; reflexivity]; cbn; tauto
          |right; right; right; left; do 2 eexists; split; [|split; [|reflexivity]]; cbn; tauto
          |right; right; right; right; split; [cbn; tauto|reflexivity]]|]).
  contradiction.
Qed.
Lemma orbital_shapes : forall symbol orbs, valence symbol = Some orbs ->
  orbs = [] \/ orbs = [["1"; "s"]]%char \/ (exists n, In n ["2"; "3"; "4"; "5"]%char /\ orbs = [[n; "s"]; [n; "p"]]%char) \/
  (exists n m, In n ["5"; "6"]%char /\ In m ["4"; "5"]%char /\ orbs = [[n; "s"]; [n; "p"]; [m; "d"]]%char) \/
  (In symbol ["Ti"; "Fe"; "Ni"]%string /\ orbs = [["3"; "d"]; ["4"; "s"]; ["4"; "p"]]%char).
Proof.
  intros symbol orbs H. destruct (valence_cases symbol orbs H) as [p [I ->]]. destruct (table_shapes symbol p I) as [-> |[-> |[[s [d [-> [n [N [Es Ed]]]]]]|[X|[X ->]]]]].
  - left. reflexivity.
  - right; left. reflexivity.
  - right; right; left. exists n. split; [exact N|]. cbn [map]. rewrite Es, Ed. reflexivity.
  - right; right; right; left. exact X.
  - right; right; right; right. split; [exact X|reflexivity].
Qed.

(** the four arrangements *)
Lemma match_none : energies_match [] [] [].
Proof. split; [reflexivity|split; [nth_cases|in_cases]]. Qed.
Lemma match_s : forall n e, energies_match (firstn 1 orbital_list) [e] [([n; "s"%char], e)].
Proof. intros. split; [reflexivity|split; [nth_cases|in_cases]]. Qed.
Lemma match_sp : forall n m e1 e2, energies_match (firstn 4 orbital_list) (e1 :: repeat e2 3) [([n; "s"%char], e1); ([m; "p"%char], e2)].
Proof. intros. split; [reflexivity|split; [nth_cases|in_cases]]. Qed.
Lemma match_spd : forall n m q e1 e2 e3, energies_match (firstn 9 orbital_list) (e1 :: repeat e2 3 ++ repeat e3 5) [([n; "s"%char], e1); ([m; "p"%char], e2); ([q; "d"%char], e3)].
Proof. intros. split; [reflexivity|split; [nth_cases|in_cases]]. Qed.
Lemma match_dsp : forall n m q e1 e2 e3, energies_match (firstn 9 orbital_list) (e1 :: repeat e2 3 ++ repeat e3 5) [([q; "d"%char], e3); ([n; "s"%char], e1); ([m; "p"%char], e2)].
Proof. intros. split; [reflexivity|split; [nth_cases|in_cases]]. Qed.

(** ** .skf files *)
Lemma skf_fields : forall parse h l rest ed ep es q ud up us a b c symbol orbs,
  fortran_readline parse l = Ok [ed; ep; es; q; ud; up; us; a; b; c] -> valence symbol = Some orbs ->
  exists el, read_element_from_skf parse (h :: l :: rest) symbol = Ok el /\ el_U el = us /\
    map fst (el_epsilon el) = orbs /\
    (forall o e t, In (o, e) (el_epsilon el) -> in_shell o t -> e = match t with Sh_s => es | Sh_p => ep | Sh_d => ed end).
Proof.
  intros parse h l rest ed ep es q ud up us a b c symbol orbs F V. unfold read_element_from_skf, fortran. cbn [readline fst snd].
  rewrite F. cbn [bind fst]. rewrite V. eexists. split; [reflexivity|]. cbn [el_U el_epsilon]. split; [reflexivity|].
  destruct (orbital_shapes symbol orbs V) as [-> |[-> |[[n [N ->]]|[[n [m [N [M ->]]]]|[_ ->]]]]].
  - split; [reflexivity|]. intros o e t [].
  - split; [reflexivity|in_cases].
  - cbn in N. repeat (destruct N as [<-|N]; [split; [reflexivity|in_cases]|]); contradiction.
  - cbn in N, M. repeat (destruct N as [<-|N]; [repeat (destruct M as [<-|M]; [split; [reflexivity|in_cases]|]); contradiction|]); contradiction.
  - split; [reflexivity|in_cases].
Qed.

Lemma skf_match : forall parse f symbol el, read_element_from_skf parse f symbol = Ok el ->
  energies_match (orbital_types el) (el_energies el) (el_epsilon el).
Proof.
  intros parse f symbol el H. unfold read_element_from_skf in H. destruct (fortran parse (snd (readline f))) as [[l r]|]; [|discriminate].
  cbn [bind fst] in H. destruct l as [|ed [|ep [|es [|? [|? [|? [|us [|? [|? [|? [|]]]]]]]]]]]; try discriminate.
  destruct (valence symbol) as [orbs|] eqn:V; [|discriminate]. injection H as <-. unfold orbital_types. cbn [el_energies el_epsilon].
  destruct (orbital_shapes symbol orbs V) as [-> |[-> |[[n [N ->]]|[[n [m [N [M ->]]]]|[_ ->]]]]].
  - exact match_none.
  - exact (match_s _ _).
  - cbn in N. repeat (destruct N as [<-|N]; [exact (match_sp _ _ _ _)|]); contradiction.
  - cbn in N, M. repeat (destruct N as [<-|N]; [repeat (destruct M as [<-|M]; [exact (match_spd _ _ _ _ _ _)|]); contradiction|]); contradiction.
  - exact (match_dsp _ _ _ _ _ _).
Qed.

(** ** .elm files *)
Lemma epsilons_keys : forall parse f l eps, epsilons parse f l = Ok eps -> map fst eps = l.
Proof.
  intros parse f l. induction l as [|o l IH]; intros eps H; cbn [epsilons] in H; [injection H as <-; reflexivity|].
  destruct (number parse f (txt "epsilon_" ++ o)) as [e|]; [|discriminate]. cbn [bind] in H.
  destruct (epsilons parse f l) as [r|] eqn:E; [|discriminate]. injection H as <-. cbn [map fst]. rewrite (IH r eq_refl). reflexivity.
Qed.
Lemma elm_read : forall parse f symbol el, read_element_from_elm parse f symbol = Ok el ->
  exists orbs, valence symbol = Some orbs /\ map fst (el_epsilon el) = orbs /\ elm_energies None (el_epsilon el) = Ok (el_energies el) /\
    epsilons parse f orbs = Ok (el_epsilon el).
Proof.
  intros parse f symbol el H. unfold read_element_from_elm in H.
  destruct (find_value parse f (txt "symbol") VDefault None) as [v|]; [|discriminate]. cbn [bind] in H. destruct v as [w| | | | |]; try discriminate.
  destruct (text_eqb (strip w) (txt symbol)); [|discriminate]. destruct (valence symbol) as [orbs|] eqn:V; [|discriminate].
  destruct (number parse f (txt "U")) as [u|]; [|discriminate]. cbn [bind] in H.
  destruct (epsilons parse f orbs) as [eps|] eqn:E; [|discriminate]. cbn [bind] in H.
  destruct (elm_energies None eps) as [en|] eqn:N; [|discriminate]. injection H as <-.
  exists orbs. cbn [el_epsilon el_energies]. repeat split; [exact (epsilons_keys _ _ _ _ E)|exact N|exact E].
Qed.

Lemma elm_match : forall parse f symbol el, read_element_from_elm parse f symbol = Ok el -> ~ In symbol ["Ti"; "Fe"; "Ni"]%string ->
  energies_match (orbital_types el) (el_energies el) (el_epsilon el).
Proof.
  intros parse f symbol el H T. destruct (elm_read _ _ _ _ H) as [orbs [V [K [E _]]]]. unfold orbital_types.
  destruct el as [u eps en]. cbn [el_epsilon el_energies] in *.
  destruct (orbital_shapes symbol orbs V) as [-> |[-> |[[n [N ->]]|[[n [m [N [M ->]]]]|[X _]]]]].
  - destruct eps; [|discriminate]. injection E as <-. exact match_none.
  - destruct eps as [|[o e] [|]]; try discriminate. cbn [map fst] in K. injection K as ->. injection E as <-. exact (match_s _ _).
  - destruct eps as [|[o e] [|[o2 e2] [|]]]; try discriminate. cbn [map fst] in K. injection K as -> ->.
    cbn in N. repeat (destruct N as [<-|N]; [injection E as <-; exact (match_sp _ _ _ _)|]); contradiction.
  - destruct eps as [|[o e] [|[o2 e2] [|[o3 e3] [|]]]]; try discriminate. cbn [map fst] in K. injection K as -> -> ->.
    cbn in N, M. repeat (destruct N as [<-|N]; [repeat (destruct M as [<-|M]; [injection E as <-; exact (match_spd _ _ _ _ _ _)|]); contradiction|]); contradiction.
  - contradiction (T X).
Qed.

(** for titanium, iron and nickel the d energy goes to the s orbital, and so on *)
Lemma elm_mismatch : forall parse f symbol el, read_element_from_elm parse f symbol = Ok el -> In symbol ["Ti"; "Fe"; "Ni"]%string ->
  exists ed es ep, el_epsilon el = [(txt "3d", ed); (txt "4s", es); (txt "4p", ep)] /\
    el_energies el = repeat ed 5 ++ es :: repeat ep 3 /\
    (ed <> es -> ~ energies_match (orbital_types el) (el_energies el) (el_epsilon el)).
Proof.
  intros parse f symbol el H T. destruct (elm_read _ _ _ _ H) as [orbs [V [K [E _]]]]. unfold orbital_types.
  assert (O : orbs = [txt "3d"; txt "4s"; txt "4p"]).
  { cbn in T. repeat (destruct T as [<-|T]; [injection V as <-; reflexivity|]). contradiction. }
  destruct el as [u eps en]. cbn [el_epsilon el_energies] in *. rewrite O in K.
  destruct eps as [|[o e] [|[o2 e2] [|[o3 e3] [|]]]]; try discriminate. cbn [map fst] in K. injection K as -> -> ->. injection E as <-.
  exists e, e2, e3. split; [reflexivity|split; [reflexivity|]]. intros N [_ [A _]].
  destruct (A 0%nat Sh_s eq_refl) as [o [x [I [[n S] X]]]]. cbn in X. injection X as <-. cbn in I.
  destruct I as [I|[I|[I|[]]]]; injection I; intros; subst; first [discriminate|contradiction (N eq_refl)|idtac].
  all: cbn in *; try discriminate; congruence.
Qed.

Definition ti_elm : file := [txt "symbol=Ti"; txt "U=2"; txt "epsilon_3d=5"; txt "epsilon_4s=7"; txt "epsilon_4p=9"].
Lemma ti_refuted : exists f el, read_element_from_elm zparse f "Ti" = Ok el /\ ~ energies_match (orbital_types el) (el_energies el) (el_epsilon el).
Proof.
  exists ti_elm, {| el_U := 2; el_epsilon := [(txt "3d", 5); (txt "4s", 7); (txt "4p", 9)]%R; el_energies := repeat 5%R 5 ++ [7; 9; 9; 9]%R |}.
  assert (E : read_element_from_elm zparse ti_elm "Ti" = Ok {| el_U := 2; el_epsilon := [(txt "3d", 5); (txt "4s", 7); (txt "4p", 9)]%R; el_energies := repeat 5%R 5 ++ [7; 9; 9; 9]%R |}) by reflexivity.
  split; [exact E|]. destruct (elm_mismatch _ _ _ _ E ltac:(cbn; tauto)) as [ed [es [ep [X [_ Y]]]]]. apply Y.
  cbn [el_epsilon] in X. injection X as <- <- _. lra.
Qed.
Example c_elm : exists el, read_element_from_elm zparse [txt "symbol=C"; txt "U=2"; txt "epsilon_2s=5"; txt "epsilon_2p=7"] "C" = Ok el.
Proof. eexists. reflexivity. Qed.
Example ti_skf : exists el, read_element_from_skf zparse [txt "1 2"; txt "5 9 7 0 1 2 3 2 0 2"] "Ti" = Ok el.
Proof. eexists. reflexivity. Qed.
