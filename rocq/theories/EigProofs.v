From Coq Require Import Reals ZArith List Bool Arith Lia Lra.
From Verif Require Import Vec GeomModel SkModel SkSpec Cpx RhoModel RhoSpec EigModel EigSpec.
Import ListNotations.
Open Scope R_scope.

(** ** workspaces *)
Lemma int32_id z : (0 <= z < 2 ^ 31)%Z -> int32 z = z.
Proof. intros H. unfold int32. rewrite Z.mod_small; lia. Qed.
Lemma need_small N : (1 <= N <= 32766)%Z -> need_rr N = (1 + 6 * N + 2 * N * N)%Z /\ need_i N = (3 + 5 * N)%Z /\ need_c N = (2 * N + N * N)%Z /\ need_rc N = (1 + 5 * N + 2 * N * N)%Z.
Proof. intros H. unfold need_rr, need_i, need_c, need_rc. repeat split; apply int32_id; nia. Qed.
(** a length and its buffer *)
Definition buffer_ok (l : Z) (b : option Z) : Prop := (0 <= l)%Z /\ ((0 < l)%Z -> b = Some l).
Definition ws_ok (s : ws) : Prop := buffer_ok (li s) (bi s) /\ buffer_ok (lr s) (br s) /\ buffer_ok (lc s) (bc s).
Lemma ws0_ok : ws_ok ws0.
Proof. unfold ws_ok, buffer_ok, ws0. cbn. repeat split; lia. Qed.
Lemma grow_ok n l b : buffer_ok l b -> (0 <= n)%Z -> exists b', grow true n l b = (Z.max l n, b', true) /\ buffer_ok (Z.max l n) b'.
Proof.
  intros [A B] Hn. unfold grow. destruct (Z.ltb_spec l n).
  - exists (Some n). rewrite Z.max_r by lia. split; [reflexivity|]. split; [lia|reflexivity].
  - exists b. rewrite Z.max_l by lia. split; [reflexivity|]. split; assumption.
Qed.
Lemma step_ok s c : ws_ok s -> small c -> memory_left c -> exists s' l, gstep s c = (s', l) /\ ws_ok s' /\
  (forall x, l = Some x -> enough x) /\ (size_of c <> None -> l <> None) /\
  li s' = (match size_of c with Some _ => Z.max (li s) (i_need c) | None => 0 end)%Z /\
  lr s' = (match size_of c with Some _ => Z.max (lr s) (r_need c) | None => 0 end)%Z /\
  lc s' = (match size_of c with Some _ => Z.max (lc s) (c_need c) | None => 0 end)%Z.
Proof.
  intros (W1 & W2 & W3) Hs Hm. destruct c as [a b N|a b c N|]; cbn [small size_of memory_left i_need r_need c_need] in *.
  - destruct Hm as [-> ->]. unfold small in Hs. cbn [size_of] in Hs. destruct (need_small N Hs) as (Q1 & Q2 & Q3 & Q4). assert (N2 : (1 <= N * N)%Z) by nia. unfold gstep, geigr. rewrite Q1, Q2.
    destruct (grow_ok (1 + 6 * N + 2 * N * N) _ _ W2 ltac:(lia)) as (b1 & -> & B1). cbn [negb].
    destruct (grow_ok (3 + 5 * N) _ _ W1 ltac:(lia)) as (b2 & -> & B2). cbn [negb]. eexists; eexists; split; [reflexivity|].
    cbn [li lr lc bi br bc]. split; [split; [|split]; assumption|]. split; [|split; [discriminate|]].
    + intros x Hx. apply (f_equal (fun o => match o with Some y => y | None => x end)) in Hx. cbv beta iota in Hx. rewrite <- Hx. cbn [enough]. split; [split; lia|]. split; [exists (Z.max (lr s) (1 + 6 * N + 2 * N * N))|exists (Z.max (li s) (3 + 5 * N))]; (split; [|lia]); [apply B1; lia|apply B2; lia].
    + split; [reflexivity|]. split; [reflexivity|]. destruct W3 as [C _]. lia.
  - destruct Hm as (-> & -> & ->). unfold small in Hs. cbn [size_of] in Hs. destruct (need_small N Hs) as (Q1 & Q2 & Q3 & Q4). assert (N2 : (1 <= N * N)%Z) by nia. unfold gstep, geigc. rewrite Q2, Q3, Q4.
    destruct (grow_ok (2 * N + N * N) _ _ W3 ltac:(lia)) as (b0 & -> & B0). cbn [negb].
    destruct (grow_ok (1 + 5 * N + 2 * N * N) _ _ W2 ltac:(lia)) as (b1 & -> & B1). cbn [negb].
    destruct (grow_ok (3 + 5 * N) _ _ W1 ltac:(lia)) as (b2 & -> & B2). cbn [negb]. eexists; eexists; split; [reflexivity|].
    cbn [li lr lc bi br bc]. split; [split; [|split]; assumption|]. split; [|split; [discriminate|]].
    + intros x Hx. apply (f_equal (fun o => match o with Some y => y | None => x end)) in Hx. cbv beta iota in Hx. rewrite <- Hx. cbn [enough]. split; [repeat split; lia|].
      split; [|split]; [exists (Z.max (lc s) (2 * N + N * N))|exists (Z.max (lr s) (1 + 5 * N + 2 * N * N))|exists (Z.max (li s) (3 + 5 * N))]; (split; [|lia]).
      * apply B0; lia.
      * apply B1; lia.
      * apply B2; lia.
    + repeat split; reflexivity.
  - unfold gstep. eexists; eexists; split; [reflexivity|]. split; [exact ws0_ok|]. split; [discriminate|]. split; [congruence|]. repeat split; reflexivity.
Qed.

Lemma runs_ok cs s : ws_ok s -> List.Forall small cs -> List.Forall memory_left cs ->
  (forall x, In (Some x) (snd (gruns s cs)) -> enough x) /\ List.Forall2 (fun c l => size_of c <> None <-> l <> None) cs (snd (gruns s cs)) /\
  li (fst (gruns s cs)) = largest i_need cs (li s) /\ lr (fst (gruns s cs)) = largest r_need cs (lr s) /\ lc (fst (gruns s cs)) = largest c_need cs (lc s).
Proof.
  revert s. induction cs as [|c cs IH]; intros s W Hs Hm; [cbn; repeat split; try constructor; contradiction|].
  inversion Hs as [|? ? S1 S2]. inversion Hm as [|? ? M1 M2]. subst. destruct (step_ok s c W S1 M1) as (s' & l & E & W' & A & B & C1 & C2 & C3).
  cbn [gruns]. rewrite E. destruct (IH s' W' S2 M2) as (D1 & D2 & D3). destruct (gruns s' cs) as [s'' ls] eqn:G. cbn [fst snd] in *.
  split; [intros x [Hx|Hx]; [apply A; exact Hx|apply D1; exact Hx]|]. split.
  - constructor; [|exact D2]. split; [exact B|]. intros Hl Hc. destruct c; cbn [size_of] in Hc; try discriminate. cbn [gstep] in E. injection E as <- <-. apply Hl. reflexivity.
  - rewrite C1, C2, C3 in D3. destruct c; cbn [size_of] in D3; exact D3.
Qed.
Lemma workspaces cs : List.Forall small cs -> List.Forall memory_left cs ->
  let '(s, ls) := gruns ws0 cs in
  (forall x, In (Some x) ls -> enough x) /\ List.Forall2 (fun c l => size_of c <> None <-> l <> None) cs ls /\
  li s = largest i_need cs 0 /\ lr s = largest r_need cs 0 /\ lc s = largest c_need cs 0.
Proof. intros A B. pose proof (runs_ok cs ws0 ws0_ok A B) as H. destruct (gruns ws0 cs) as [s ls]. exact H. Qed.
(** malloc fails for a matrix of 100; then a matrix of 2 *)
(** sizes that grow, shrink and change type *)
Example ex_calls : List.Forall small [GReal true true 4; GComplex true true true 8; GFree; GReal true true 2] /\ List.Forall memory_left [GReal true true 4; GComplex true true true 8; GFree; GReal true true 2].
Proof. split; repeat constructor; cbv; discriminate. Qed.
Lemma after_failure : exists cs c x, List.Forall small (cs ++ [c]) /\ memory_left c /\ size_of c = Some 2%Z /\
  snd (gstep (fst (gruns ws0 cs)) c) = Some x /\ ~ enough x /\ (exists l i b, x = Dsygvd 2 l None i b).
Proof.
  exists [GReal false true 100], (GReal true true 2), (Dsygvd 2 (need_rr 100) None (need_i 2) (Some (need_i 2))).
  split; [repeat constructor; unfold small; cbn; lia|]. split; [split; reflexivity|]. split; [reflexivity|]. split; [reflexivity|]. split; [|do 3 eexists; reflexivity].
  cbn [enough]. intros (_ & (m & A & _) & _). discriminate.
Qed.
(** the size of the workspace overflows *)
Lemma overflow : exists x, snd (gstep ws0 (GReal true true 32767)) = Some x /\ ~ enough x.
Proof.
  exists (Dsygvd 32767 0 None (need_i 32767) (Some (need_i 32767))). split; [vm_compute; reflexivity|]. cbn [enough]. intros (_ & (m & A & _) & _). discriminate.
Qed.
Lemma buffers N t : (0 <= N)%Z -> t = TDouble \/ t = TComplex -> py_geig (N, N) (N, N) t t = Some (N * N * itemsize t, N * N * itemsize t, N * 8, t)%Z.
Proof. intros _ [-> | ->]; unfold py_geig; cbn [fst snd]; rewrite !Z.eqb_refl; reflexivity. Qed.
Lemma buffer_short N : (1 <= N)%Z -> exists a b w, py_geig (N, N) (N, N) TDouble TComplex = Some (a, b, w, TComplex) /\ (a < N * N * itemsize TComplex)%Z.
Proof. intros H. eexists _, _, _. split; [unfold py_geig; cbn [fst snd]; rewrite !Z.eqb_refl; reflexivity|]. cbn [itemsize]. nia. Qed.
