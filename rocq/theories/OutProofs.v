From Coq Require Import Ascii String List Bool Arith Lia.
From Verif Require Import OutModel OutSpec.
Import ListNotations.

(** what a file will contain *)
Definition pending (s : ostate) (f : string) : otext := match txt s with OFile g b => if String.eqb f g then b else [] | _ => [] end.
Definition whole (s : ostate) (f : string) : otext := files s f ++ pending s f.
Definition agrees (s : ostate) (t : target) : Prop :=
  match txt s, t with OStdout, ToStdout => True | OFile f _, ToFile g => f = g | OClosed, ToNothing => True | _, _ => False end.
Definition agrees0 (s : ostate) (t : target) : Prop := agrees s t \/ (txt s = ONone /\ t = ToStdout).
Lemma written_whole s f : files (written s) f = whole s f.
Proof. destruct s as [fs so [| |g b|]]; unfold written, whole, pending; cbn; try (rewrite app_nil_r; reflexivity). unfold append. destruct (String.eqb f g); [|rewrite app_nil_r]; reflexivity. Qed.
Lemma written_pending s f : pending (written s) f = [].
Proof. destruct s as [fs so [| |g b|]]; try reflexivity. unfold pending, written. cbn. destruct (String.eqb f g); reflexivity. Qed.
Lemma written_stdout s : stdout (written s) = stdout s. Proof. destruct s as [fs so [| |g b|]]; reflexivity. Qed.
Lemma step_ok s t o : agrees0 s t -> agrees0 (step s o) (next t o) /\
  (forall f, whole (step s o) f = whole s f ++ match o with OPrint x => if same (ToFile f) t then x else [] | _ => [] end) /\
  stdout (step s o) = stdout s ++ match o with OPrint x => if same ToStdout t then x else [] | _ => [] end.
Proof.
  intros h. destruct o as [n|x| | |k].
  - cbn [step]. split; [destruct n; left; cbn; auto|]. split; [|rewrite app_nil_r; destruct n; cbn; apply written_stdout]. intros f. rewrite app_nil_r. destruct n as [g|]; unfold set_text, whole at 1, pending; cbn [files txt]; [match goal with |- context [if String.eqb f ?g then _ else _] => destruct (String.eqb f g) end|]; rewrite app_nil_r; apply written_whole.
  - destruct s as [fs so [| |g b|]], t as [|g'|]; destruct h as [h|[h1 h2]]; try contradiction; try discriminate; cbn in *; unfold whole, pending, agrees0, agrees; cbn; try subst g'.
    + split; [right; auto|]. split; [intros f; rewrite !app_nil_r; reflexivity|reflexivity].
    + split; [left; auto|]. split; [intros f; rewrite !app_nil_r; reflexivity|reflexivity].
    + split; [left; auto|]. split; [intros f; destruct (String.eqb f g); [rewrite app_assoc|rewrite !app_nil_r]; reflexivity|rewrite app_nil_r; reflexivity].
    + split; [left; auto|]. split; [intros f; rewrite !app_nil_r; reflexivity|rewrite app_nil_r; reflexivity].
  - cbn [step]. rewrite app_nil_r. unfold flush. destruct s as [fs so [| |g b|]]; cbn [txt fst]; (split; [destruct t, h as [h|[h1 h2]]; try contradiction; try discriminate; first [left; exact h|right; auto]|split; [intros f; rewrite app_nil_r|]]); try reflexivity.
    unfold whole at 1. rewrite written_whole, written_pending, app_nil_r. reflexivity.
  - cbn [step]. rewrite app_nil_r. unfold close_output, flush. destruct s as [fs so [| |g b|]]; cbn [txt fst written].
    + split; [destruct t, h as [h|[h1 h2]]; try contradiction; try discriminate; right; auto|]. split; [intros f; rewrite app_nil_r|]; reflexivity.
    + split; [destruct t, h as [h|[h1 h2]]; try contradiction; try discriminate; left; exact I|]. split; [intros f; rewrite app_nil_r|]; reflexivity.
    + split; [destruct t, h as [h|[h1 h2]]; try contradiction; try discriminate; left; exact I|]. split; [|reflexivity]. intros f. unfold whole, pending, append. cbn. rewrite !app_nil_r. destruct (String.eqb f g); [|rewrite app_nil_r]; reflexivity.
    + split; [destruct t, h as [h|[h1 h2]]; try contradiction; try discriminate; left; exact I|]. split; [intros f; rewrite app_nil_r|]; reflexivity.
  - cbn [step]. rewrite app_nil_r. unfold spill. destruct s as [fs so [| |g b|]]; cbn [txt]; (split; [destruct t, h as [h|[h1 h2]]; try contradiction; try discriminate; first [left; exact h|right; auto]|split; [intros f; rewrite app_nil_r|]]); try reflexivity.
    unfold whole, pending, append. cbn. destruct (String.eqb f g); [rewrite <- app_assoc, firstn_skipn|]; reflexivity.
Qed.
Lemma run_ok l : forall s t, agrees0 s t -> (forall f, whole (run s l) f = whole s f ++ printed (ToFile f) t l) /\ stdout (run s l) = stdout s ++ printed ToStdout t l.
Proof.
  induction l as [|o l IH]; intros s t h; cbn [run fold_left printed]; [split; [intros f|]; rewrite app_nil_r; reflexivity|].
  destruct (step_ok s t o h) as [h1 [h2 h3]]. destruct (IH (step s o) (next t o) h1) as [i1 i2]. unfold run in *. split; [intros f; rewrite i1, h2|rewrite i2, h3]; rewrite <- app_assoc; reflexivity.
Qed.
Lemma start_ok fs : agrees0 (start fs) ToStdout. Proof. right. auto. Qed.
(** whenever the program ends, a file has its former contents and a first part of what was printed to it *)
Lemma any_time fs l f : prefix (fs f) (files (run (start fs) l) f) /\ prefix (files (run (start fs) l) f) (fs f ++ printed (ToFile f) ToStdout l).
Proof.
  destruct (run_ok l (start fs) ToStdout (start_ok fs)) as [h _]. specialize (h f). split.
  - assert (G : forall l s, prefix (files s f) (files (run s l) f)).
    { clear. induction l as [|o l IH]; intros s; [exists []; cbn; rewrite app_nil_r; reflexivity|]. destruct (IH (step s o)) as [c hc]. unfold run in *. cbn [fold_left].
      assert (S1 : prefix (files s f) (files (step s o) f)).
      { assert (W : forall s, prefix (files s f) (files (written s) f)) by (intros s'; rewrite written_whole; eexists; reflexivity).
        assert (Z : forall a : otext, prefix a a) by (intros a; exists []; rewrite app_nil_r; reflexivity).
        destruct o as [[n|]|x| | |k]; cbn [step]; [exact (W s)|exact (W s)| | | |].
        - destruct s as [fs so [| |g b|]]; apply Z.
        - destruct s as [fs so [| |g b|]]; try apply Z. exact (W (OState fs so (OFile g b))).
        - destruct s as [fs so [| |g b|]]; try apply Z. exact (W (OState fs so (OFile g b))).
        - destruct s as [fs so [| |g b|]]; try apply Z. unfold spill, append. cbn. destruct (String.eqb f g); [eexists; reflexivity|apply Z]. }
      destruct S1 as [d hd]. rewrite hc, hd. exists (d ++ c). rewrite app_assoc. reflexivity. }
    apply (G l (start fs)).
  - unfold whole in h. cbn [start pending txt files] in h. rewrite app_nil_r in h. rewrite <- h. eexists. reflexivity.
Qed.
(** after flush, close_output or set_text everything is in the file *)
Lemma complete fs l o f : o = OFlush \/ o = OClose \/ (exists n, o = OSet n) -> files (run (start fs) (l ++ [o])) f = fs f ++ printed (ToFile f) ToStdout l.
Proof.
  intros ho. destruct (run_ok l (start fs) ToStdout (start_ok fs)) as [h _]. specialize (h f). unfold whole at 2 in h. cbn [start pending txt files] in h. rewrite app_nil_r in h. rewrite <- h.
  unfold run. rewrite fold_left_app. cbn [fold_left]. set (s := fold_left step l (start fs)). clearbody s. clear h. unfold run.
  destruct ho as [->|[->|[n ->]]]; cbn [step].
  - unfold flush. destruct s as [gs so [| |g b|]]; cbn [txt fst]; try (unfold whole, pending; cbn; rewrite app_nil_r; reflexivity). apply written_whole.
  - unfold close_output, flush. destruct s as [gs so [| |g b|]]; cbn [txt fst written]; try (unfold whole, pending; cbn; rewrite app_nil_r; reflexivity). exact (written_whole (OState gs so (OFile g b)) f).
  - destruct n; cbn; apply written_whole.
Qed.
Lemma to_stdout fs l : stdout (run (start fs) l) = printed ToStdout ToStdout l.
Proof. apply (run_ok l (start fs) ToStdout (start_ok fs)). Qed.
(** standard output is never closed; printing fails only after a file has been closed *)
Lemma print_fails fs l t : snd (print (run (start fs) l) t) = None <-> fold_left next l ToStdout <> ToNothing.
Proof.
  assert (G : forall l s u, agrees0 s u -> agrees0 (run s l) (fold_left next l u)). { clear. induction l as [|o l IH]; intros s u h; [exact h|]. apply IH, step_ok, h. }
  specialize (G l (start fs) ToStdout (start_ok fs)). destruct (run (start fs) l) as [gs so [| |g b|]], (fold_left next l ToStdout); destruct G as [G|[G1 G2]]; try contradiction; try discriminate; cbn; split; congruence.
Qed.
Example ex_out : files (run (start (fun _ => ["a"%char])) [OPrint ["x"%char]; OSet (Some "f"%string); OPrint ["b"%char]; OSet None; OPrint ["y"%char]; OSet (Some "f"%string); OPrint ["c"%char]; OClose]) "f"%string = ["a"; "b"; "c"]%char.
Proof. reflexivity. Qed.
Example ex_null : files (run (start (fun _ => ["a"%char])) [OSet (Some "-"%string); OPrint ["b"%char]; OClose]) "-"%string = ["a"%char].
Proof. reflexivity. Qed.
