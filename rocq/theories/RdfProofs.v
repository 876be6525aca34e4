From Coq Require Import Ascii List Bool Arith Lia Permutation.
From Verif Require Import RdfModel RdfSpec.
Import ListNotations.

Lemma white_spec c : white c = true <-> is_white c.
Proof.
  unfold white, is_white. generalize (nat_of_ascii c) as n. intros n. rewrite orb_true_iff, !andb_true_iff, !Nat.leb_le. cbn [In]. lia.
Qed.
Lemma lstrip_spec l : stripped l (lstrip l).
Proof.
  induction l as [|c l IH]; [exists []; split; [reflexivity|split; [constructor|discriminate]]|]. cbn [lstrip]. destruct (white c) eqn:E.
  - destruct IH as [ws [h1 [h2 h3]]]. exists (c :: ws). split; [cbn [app]; f_equal; exact h1|]. split; [constructor; [apply white_spec, E|exact h2]|exact h3].
  - exists []. split; [reflexivity|]. split; [constructor|]. cbn. intros d h. injection h as <-. intros w. apply white_spec in w. congruence.
Qed.
Lemma all_stripped lines : Forall2 stripped lines (map lstrip lines). Proof. induction lines; constructor; [apply lstrip_spec|assumption]. Qed.
Lemma comments_gen cc lines : forall ret, fold_left (fun ret line => keep RComments [cc] line ret) lines ret = ret ++ filter (starts cc) (map lstrip lines).
Proof.
  induction lines as [|l lines IH]; intros ret; cbn [fold_left map filter]; [rewrite app_nil_r; reflexivity|]. rewrite IH. unfold keep, starts at 2. cbv zeta. destruct (lstrip l) as [|c r]; [reflexivity|].
  cbn [is_char]. rewrite andb_true_r, andb_false_r. destruct (Ascii.eqb c cc); [rewrite <- app_assoc|]; reflexivity.
Qed.
Lemma nocomments_gen cc lines : forall ret, fold_left (fun ret line => keep RNocomments [cc] line ret) lines ret = ret ++ filter (fun r => filled r && negb (starts cc r)) (map lstrip lines).
Proof.
  induction lines as [|l lines IH]; intros ret; cbn [fold_left map filter]; [rewrite app_nil_r; reflexivity|]. rewrite IH. unfold keep. cbv zeta. destruct (lstrip l) as [|c r]; [reflexivity|].
  cbn [is_char starts filled andb]. rewrite andb_true_r, andb_false_r. destruct (Ascii.eqb c cc); cbn [negb]; [|rewrite <- app_assoc]; reflexivity.
Qed.
(** the lines in their order, without the white characters at their start *)
Lemma modes cc lines : exists rs, Forall2 stripped lines rs /\ read_file RComments [cc] lines = filter (starts cc) rs /\ read_file RNocomments [cc] lines = filter (fun r => filled r && negb (starts cc r)) rs /\ read_file RAll [cc] lines = lines.
Proof. exists (map lstrip lines). split; [apply all_stripped|]. split; [apply comments_gen|]. split; [apply nocomments_gen|reflexivity]. Qed.
(** each line that is not blank is in one of both *)
Lemma parts cc lines : exists rs, Forall2 stripped lines rs /\ Permutation (read_file RComments [cc] lines ++ read_file RNocomments [cc] lines) (filter filled rs).
Proof.
  exists (map lstrip lines). split; [apply all_stripped|]. cbn [read_file]. rewrite comments_gen, nocomments_gen. cbn [app]. generalize (map lstrip lines) as rs. induction rs as [|r rs IH]; [constructor|].
  cbn [filter]. destruct r as [|c r]; [exact IH|]. cbn [starts filled andb]. destruct (Ascii.eqb c cc); cbn [negb app]; [constructor; exact IH|]. etransitivity; [apply Permutation_sym, Permutation_middle|]. constructor. exact IH.
Qed.
Lemma separate cc lines r : (In r (read_file RComments [cc] lines) -> hd_error r = Some cc) /\ (In r (read_file RNocomments [cc] lines) -> hd_error r <> Some cc /\ r <> []).
Proof.
  cbn [read_file]. rewrite comments_gen, nocomments_gen. cbn [app]. split; intros h; apply filter_In in h; destruct h as [_ h]; destruct r as [|c r]; try discriminate; cbn in h.
  - apply Ascii.eqb_eq in h. subst c. reflexivity.
  - split; [|discriminate]. cbn. intros e. injection e as ->. rewrite Ascii.eqb_refl in h. discriminate.
Qed.
(** any other mode returns nothing, and no error *)
Lemma other_mode commentchar lines : read_file ROther commentchar lines = [].
Proof.
  cbn [read_file]. assert (G : forall ret, fold_left (fun ret line => keep ROther commentchar line ret) lines ret = ret); [|apply G]. induction lines as [|l lines IH]; intros ret; [reflexivity|]. cbn [fold_left]. rewrite IH. unfold keep. cbv zeta. destruct (lstrip l); [reflexivity|]. rewrite !andb_false_r. reflexivity.
Qed.
Example ex_lines : read_file RNocomments ["#"%char] [["#"; "a"]%char; [" "; "1"]%char; [" "; "010"]%char; [" "; "#"]%char; ["2"]%char] = [["1"]%char; ["2"]%char] /\ read_file RComments ["#"%char] [["#"; "a"]%char; [" "; "1"]%char; [" "; "010"]%char; [" "; "#"]%char; ["2"]%char] = [["#"; "a"]%char; ["#"]%char].
Proof. split; reflexivity. Qed.
