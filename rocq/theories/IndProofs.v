From Coq Require Import Ascii List Bool Arith Lia.
From Verif Require Import IndModel IndSpec.
Import ListNotations.

Lemma spaces_cut l : forall k, k <= spaces l -> l = repeat space k ++ skipn k l.
Proof.
  induction l as [|c l IH]; intros [|k] h; try reflexivity; [cbn in h; lia|]. cbn [spaces] in h. destruct (Ascii.eqb c space) eqn:E; [|lia]. apply Ascii.eqb_eq in E. subst c. cbn [repeat app skipn]. f_equal. apply IH. lia.
Qed.
Lemma spaces_hd l : hd_error (skipn (spaces l) l) <> Some space.
Proof. induction l as [|c l IH]; [discriminate|]. cbn [spaces]. destruct (Ascii.eqb c space) eqn:E; [exact IH|]. cbn. intros h. injection h as ->. rewrite Ascii.eqb_refl in E. discriminate. Qed.
Lemma lowest_gen ls : forall m, let k := fold_left (fun mn l => if length l <=? 1 then mn else Nat.min (spaces l) mn) ls m in
  k <= m /\ (forall l, In l ls -> 2 <= length l -> k <= spaces l) /\ (k = m \/ exists l, In l ls /\ 2 <= length l /\ spaces l = k).
Proof.
  induction ls as [|l ls IH]; intros m; cbn [fold_left]; [split; [lia|split; [intros l []|left; reflexivity]]|].
  cbv zeta in *. destruct (Nat.leb_spec (length l) 1) as [q|q].
  - destruct (IH m) as [h1 [h2 h3]]. split; [exact h1|]. split; [intros l' [<-|hl] hn; [lia|auto]|]. destruct h3 as [h3|[l' [a b]]]; [left; exact h3|right; exists l'; split; [right; exact a|exact b]].
  - destruct (IH (Nat.min (spaces l) m)) as [h1 [h2 h3]]. split; [lia|]. split; [intros l' [<-|hl] hn; [lia|auto]|]. destruct h3 as [h3|[l' [a b]]]; [|right; exists l'; split; [right; exact a|exact b]].
    destruct (Nat.min_dec (spaces l) m) as [e|e]; rewrite e in h3; [right; exists l; split; [left; reflexivity|split; [lia|rewrite e; congruence]]|left; rewrite e; congruence].
Qed.
Lemma cut_join k ls : ls <> [] -> cut k ls = join (map (skipn k) ls) ++ [newline].
Proof.
  intros h. induction ls as [|l ls IH]; [congruence|]. unfold cut in *. cbn [flat_map map]. destruct ls as [|l' ls]; [cbn [flat_map map join]; rewrite app_nil_r; reflexivity|].
  rewrite IH by discriminate. cbn [map join]. rewrite <- !app_assoc. reflexivity.
Qed.
Lemma drop_true s : forall new, drop_first s new true = new. Proof. induction s as [|c s IH]; intros new; [reflexivity|]. cbn [drop_first negb]. rewrite andb_false_r. apply IH. Qed.
(** ends of lines at the start are removed *)
Lemma drop_strip s : exists j, s = repeat newline j ++ drop_first s s false /\ hd_error (drop_first s s false) <> Some newline.
Proof.
  assert (G : forall s, exists j, s = repeat newline j ++ drop_first s s false /\ hd_error (drop_first s s false) <> Some newline); [|apply G].
  clear s. induction s as [|c s IH]; [exists 0; split; [reflexivity|discriminate]|]. cbn [drop_first negb]. rewrite andb_true_r. destruct (Ascii.eqb c newline) eqn:E.
  - apply Ascii.eqb_eq in E. subst c. cbn [skipn]. destruct IH as [j [h1 h2]]. exists (S j). split; [cbn [repeat app]; f_equal; exact h1|exact h2].
  - rewrite drop_true. exists 0. split; [reflexivity|]. cbn. intros h. injection h as ->. rewrite Ascii.eqb_refl in E. discriminate.
Qed.
Lemma strip_last t : exists j, let new := drop_first (t ++ [newline]) (t ++ [newline]) false in t = repeat newline j ++ firstn (length new - 1) new /\ hd_error (firstn (length new - 1) new) <> Some newline.
Proof.
  destruct (drop_strip (t ++ [newline])) as [j [h1 h2]]. cbv zeta. set (new := drop_first (t ++ [newline]) (t ++ [newline]) false) in *. clearbody new.
  destruct (list_eq_dec ascii_dec new []) as [->|ne].
  - rewrite app_nil_r in h1. exists (j - 1). cbn [length firstn Nat.sub]. split; [|discriminate]. rewrite app_nil_r. destruct j as [|j]; [destruct t; discriminate|]. replace (S j) with (j + 1) in h1 by lia. rewrite repeat_app in h1. cbn [repeat] in h1. apply app_inj_tail in h1. destruct h1 as [-> _]. f_equal. lia.
  - destruct (exists_last ne) as [n' [c e]]. subst new. rewrite app_assoc in h1. apply app_inj_tail in h1. destruct h1 as [h1 <-]. exists j. rewrite app_length. cbn [length]. replace (length n' + 1 - 1) with (length n' + 0) by lia. rewrite firstn_app_2. cbn [firstn]. rewrite app_nil_r. split; [exact h1|].
    destruct n' as [|c n']; [discriminate|exact h2].
Qed.
(** all lines lose the same spaces, then ends of lines at the start are removed *)
Lemma common ls : ls <> [] -> (forall l, In l ls -> length l <= 1 -> blank l) ->
  exists k rests j, Forall2 (fun l r => indented k l r \/ (length l <= 1 /\ blank l /\ blank r)) ls rests /\
    join rests = repeat newline j ++ clean_indentation ls /\ hd_error (clean_indentation ls) <> Some newline /\
    (k = 100 \/ exists l r, In l ls /\ 2 <= length l /\ indented k l r /\ hd_error r <> Some space).
Proof.
  intros hn hb. destruct (lowest_gen ls 100) as [h1 [h2 h3]]. fold (lowest ls) in *. destruct (strip_last (join (map (skipn (lowest ls)) ls))) as [j [s1 s2]]. exists (lowest ls), (map (skipn (lowest ls)) ls), j.
  unfold clean_indentation. rewrite cut_join by exact hn. split; [|split; [exact s1|split; [exact s2|]]].
  - clear s1 s2 h3 hn h1. revert hb h2. generalize (lowest ls) as k. intros k hb h2. induction ls as [|l ls IH]; [constructor|]. cbn [map]. constructor.
    + destruct (le_lt_dec (length l) 1) as [q|q]; [right|left; apply spaces_cut, h2; [left; reflexivity|lia]]. split; [exact q|]. assert (B := hb l (or_introl eq_refl) q). split; [exact B|]. intros c hc. apply B. rewrite <- (firstn_skipn k l). apply in_app_iff. right. exact hc.
    + exact (IH (fun l' hl => hb l' (or_intror hl)) (fun l' hl => h2 l' (or_intror hl))).
  - destruct h3 as [h3|[l [a [b c]]]]; [left; exact h3|right]. exists l, (skipn (spaces l) l). split; [exact a|]. split; [exact b|]. split; [unfold indented; rewrite <- c; apply spaces_cut; lia|apply spaces_hd].
Qed.
Lemma vis_blank l : blank l -> filter visible l = [].
Proof. induction l as [|c l IH]; intros h; [reflexivity|]. cbn [filter]. rewrite (h c (or_introl eq_refl)). cbn. apply IH. intros d hd. apply h. right. exact hd. Qed.
Lemma vis_join ls : filter visible (join ls) = filter visible (concat ls).
Proof. induction ls as [|l [|l' ls] IH]; [reflexivity|cbn [join concat]; rewrite app_nil_r; reflexivity|]. cbn [join concat] in *. rewrite !filter_app in *. cbn [filter]. change (visible "010"%char) with false. cbn iota. rewrite IH. reflexivity. Qed.
Lemma vis_newlines j : filter visible (repeat newline j) = []. Proof. induction j as [|j IH]; [reflexivity|exact IH]. Qed.
(** no visible character is lost *)
Lemma visible_kept ls : (forall l, In l ls -> length l <= 1 -> blank l) -> filter visible (clean_indentation ls) = filter visible (concat ls).
Proof.
  intros hb. destruct (list_eq_dec (list_eq_dec ascii_dec) ls []) as [->|hn]; [reflexivity|]. destruct (common ls hn hb) as [k [rs [j [h1 [h2 _]]]]].
  assert (A : filter visible (join rs) = filter visible (clean_indentation ls)) by (rewrite h2, filter_app, vis_newlines; reflexivity).
  rewrite <- A, vis_join. clear - h1. induction h1 as [|l r ls rs h _ IH]; [reflexivity|]. cbn [concat]. rewrite !filter_app, IH. f_equal. destruct h as [h|[_ [h1 h2]]]; [|rewrite !vis_blank by assumption; reflexivity].
  rewrite h, filter_app. rewrite (vis_blank (repeat " "%char k)); [reflexivity|]. intros c hc. apply repeat_spec in hc. exact hc.
Qed.
(** a line of one character is lost *)
Lemma lost_refuted : exists ls, Forall no_newline ls /\ filter visible (concat ls) = ["x"%char] /\ clean_indentation ls = [].
Proof. exists [["x"%char]]. split; [constructor; [|constructor]; intros [h|[]]; discriminate|]. split; reflexivity. Qed.
Lemma lost_among_refuted : exists ls, length ls = 2 /\ In ["x"%char] ls /\ ~ In "x"%char (clean_indentation ls) /\ clean_indentation ls <> [].
Proof. exists [[" "; " "; "a"; "b"]%char; ["x"%char]]. split; [reflexivity|]. split; [right; left; reflexivity|]. split; [|discriminate]. cbn. intros [h|[h|[h|[]]]]; discriminate. Qed.
Example ex_indent : clean_indentation [[]; [" "; " "; "a"; "b"]%char; [" "; " "; " "; "c"]%char; []] = ["a"; "b"; "010"; " "; "c"; "010"]%char.
Proof. reflexivity. Qed.
