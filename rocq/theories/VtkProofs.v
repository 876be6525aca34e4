From Coq Require Import Reals List Bool Arith String Lia Lra.
From Verif Require Import GeomModel VtkModel VtkSpec.
Import ListNotations.
Open Scope R_scope.
Open Scope string_scope.

Lemma numbers_spec a l : numbers (List.length a) (map Num a ++ l) = Some (a, l).
Proof. induction a as [|x a IH]; [reflexivity|]. cbn [List.length map app numbers]. rewrite IH. reflexivity. Qed.
Lemma numbers_a2s fmt a l : numbers (List.length a) (a2s fmt a ++ l) = Some (map fmt a, l).
Proof. unfold a2s. rewrite <- (map_map fmt Num). rewrite <- (map_length fmt a). apply numbers_spec. Qed.
Lemma axis_spec s fmt a l : axis s (List.length a) (Word s :: Int (List.length a) :: Word "double" :: (a2s fmt a ++ l)%list) = Some (map fmt a, l).
Proof. unfold axis. rewrite String.eqb_refl, Nat.eqb_refl. cbn [andb]. apply numbers_a2s. Qed.
Lemma concat_single {A} (l : list A) : List.concat (map (fun x => [x]) l) = l.
Proof. induction l as [|x l IH]; [reflexivity|]. cbn. rewrite IH. reflexivity. Qed.
Section Formats.
Variables g14 printed f14 f6 : R -> R.
(** ** order of the points *)
Lemma row_length nx (j k : nat) : List.length (map (fun i => (i, j, k)) (seq 0 nx)) = nx.
Proof. rewrite map_length, seq_length. reflexivity. Qed.
Lemma flat_nth {A B} (f : A -> list B) n (l : list A) : (forall x, List.length (f x) = n) -> forall m i, (i < n)%nat -> nth_error (flat_map f l) (i + n * m) = match nth_error l m with Some x => nth_error (f x) i | None => None end.
Proof.
  intros H. induction l as [|x l IH]; intros m i Hi.
  - cbn. destruct m; cbn; destruct (i + _)%nat; reflexivity.
  - cbn [flat_map]. destruct m as [|m].
    + rewrite Nat.mul_0_r, Nat.add_0_r. cbn [nth_error]. apply nth_error_app1. rewrite H. exact Hi.
    + rewrite nth_error_app2 by (rewrite H; lia). rewrite H. replace (i + n * S m - n)%nat with (i + n * m)%nat by lia. cbn [nth_error]. apply IH. exact Hi.
Qed.
Lemma flat_len {A B} (f : A -> list B) n (l : list A) : (forall x, List.length (f x) = n) -> List.length (flat_map f l) = (n * List.length l)%nat.
Proof. intros H. induction l as [|x l IH]; [cbn; lia|]. cbn [flat_map List.length]. rewrite app_length, H, IH. lia. Qed.
Lemma seq_nth_error n i : (i < n)%nat -> nth_error (seq 0 n) i = Some i.
Proof. intros H. rewrite (nth_error_nth' _ 0%nat) by (rewrite seq_length; exact H). rewrite seq_nth by exact H. reflexivity. Qed.
Lemma loop_length nx ny nz : List.length (loop nx ny nz) = (nx * ny * nz)%nat.
Proof.
  unfold loop. rewrite (flat_len _ (nx * ny)%nat); [rewrite seq_length; reflexivity|]. intros k. rewrite (flat_len _ nx); [rewrite seq_length; reflexivity|]. intros j. apply row_length.
Qed.
Lemma loop_nth nx ny nz i j k : (i < nx)%nat -> (j < ny)%nat -> (k < nz)%nat -> nth_error (loop nx ny nz) (i + nx * (j + ny * k)) = Some (i, j, k).
Proof.
  intros Hi Hj Hk. unfold loop. replace (i + nx * (j + ny * k))%nat with ((i + nx * j) + (nx * ny) * k)%nat by ring.
  rewrite flat_nth.
  - rewrite seq_nth_error by exact Hk. rewrite flat_nth; [|intros x; apply row_length|exact Hi]. rewrite seq_nth_error by exact Hj. rewrite nth_error_map, seq_nth_error by exact Hi. reflexivity.
  - intros x. rewrite (flat_len _ nx); [rewrite seq_length; reflexivity|]. intros y. apply row_length.
  - nia.
Qed.
Lemma loop_in nx ny nz i j k : In (i, j, k) (loop nx ny nz) <-> (i < nx /\ j < ny /\ k < nz)%nat.
Proof.
  unfold loop. rewrite in_flat_map. split.
  - intros (z & Hz & H). apply in_flat_map in H. destruct H as (y & Hy & H). apply in_map_iff in H. destruct H as (x & E & Hx). injection E as -> -> ->. apply in_seq in Hx, Hy, Hz. lia.
  - intros (A & B & C). exists k. split; [apply in_seq; lia|]. apply in_flat_map. exists j. split; [apply in_seq; lia|]. apply in_map_iff. exists i. split; [reflexivity|apply in_seq; lia].
Qed.
(** ** writing *)
Definition value (d : array) (p : nat * nat * nat) : R := let '(i, j, k) := p in printed (at_ d i j k).
Lemma written d l : (forall p, In p l -> in_shape d p = true) -> write_points printed d l = (map (fun p => [Num (value d p)]) l, None).
Proof.
  induction l as [|[[i j] k] l IH]; intros H; [reflexivity|]. cbn [write_points]. rewrite (H (i, j, k)) by (left; reflexivity). rewrite IH by (intros p Hp; apply H; right; exact Hp). reflexivity.
Qed.
Lemma stopped d l p : In p l -> in_shape d p = false -> exists o, write_points printed d l = (o, Some IndexError) /\ (List.length o < List.length l)%nat /\ Forall (fun x => exists y, x = [Num y]) o.
Proof.
  induction l as [|[[i j] k] l IH]; intros Hp E; [contradiction|]. cbn [write_points]. destruct (in_shape d (i, j, k)) eqn:E'.
  - destruct Hp as [<-|Hp]; [congruence|]. destruct (IH Hp E) as (o & -> & L & Q). eexists. split; [reflexivity|]. cbn. split; [lia|]. constructor; [eexists; reflexivity|exact Q].
  - exists []. split; [reflexivity|]. cbn. split; [lia|constructor].
Qed.
Lemma covered d nx ny nz p : covers d nx ny nz -> In p (loop nx ny nz) -> in_shape d p = true.
Proof.
  destruct p as [[i j] k]. intros C H. apply loop_in in H. unfold covers in C. unfold in_shape. destruct (shape d) as [[a b] c]. destruct C as (A & B & C).
  rewrite !andb_true_iff, !Nat.ltb_lt. lia.
Qed.
Lemma grid_words gx gy gz (d : array) body : words (fst (andthen ([[Word "#"; Word "vtk"; Word "DataFile"; Word "Version"; Num 2]; [Word "...some"; Word "rectilinear"; Word "grid"; Word "data."]; [Word "ASCII"];
    [Word "DATASET"; Word "RECTILINEAR_GRID"]; [Word "DIMENSIONS"; Int (List.length gx); Int (List.length gy); Int (List.length gz)];
    [Word "X_COORDINATES"; Int (List.length gx); Word "double"]; a2s g14 gx; [Word "Y_COORDINATES"; Int (List.length gy); Word "double"]; a2s g14 gy; [Word "Z_COORDINATES"; Int (List.length gz); Word "double"]; a2s g14 gz;
    [Word "POINT_DATA"; Int (List.length gx * List.length gy * List.length gz)]; [Word "SCALARS"; Word "some_data"; Word "double"]; [Word "LOOKUP_TABLE"; Word "default"]], None) body)) =
  (Word "ASCII" :: Word "DATASET" :: Word "RECTILINEAR_GRID" :: Word "DIMENSIONS" :: Int (List.length gx) :: Int (List.length gy) :: Int (List.length gz) ::
   Word "X_COORDINATES" :: Int (List.length gx) :: Word "double" :: (a2s g14 gx ++
   Word "Y_COORDINATES" :: Int (List.length gy) :: Word "double" :: (a2s g14 gy ++
   Word "Z_COORDINATES" :: Int (List.length gz) :: Word "double" :: (a2s g14 gz ++
   Word "POINT_DATA" :: Int (List.length gx * List.length gy * List.length gz) :: Word "SCALARS" :: Word "some_data" :: Word "double" :: Word "LOOKUP_TABLE" :: Word "default" :: List.concat (fst body)))))%list.
Proof. unfold andthen, words. cbn [fst snd app skipn List.concat]. reflexivity. Qed.
Lemma read_grid gx gy gz l : forall f, words f = (Word "ASCII" :: Word "DATASET" :: Word "RECTILINEAR_GRID" :: Word "DIMENSIONS" :: Int (List.length gx) :: Int (List.length gy) :: Int (List.length gz) ::
   Word "X_COORDINATES" :: Int (List.length gx) :: Word "double" :: (a2s g14 gx ++
   Word "Y_COORDINATES" :: Int (List.length gy) :: Word "double" :: (a2s g14 gy ++
   Word "Z_COORDINATES" :: Int (List.length gz) :: Word "double" :: (a2s g14 gz ++
   Word "POINT_DATA" :: Int (List.length gx * List.length gy * List.length gz) :: Word "SCALARS" :: Word "some_data" :: Word "double" :: Word "LOOKUP_TABLE" :: Word "default" :: l))))%list ->
  read_rectilinear f = match all_scalars (List.length gx * List.length gy * List.length gz) 1 (Word "SCALARS" :: Word "some_data" :: Word "double" :: Word "LOOKUP_TABLE" :: Word "default" :: l) with
    | Some [(_, a)] => Some (Rectilinear (map g14 gx) (map g14 gy) (map g14 gz) (fun i j k => if ((i <? List.length gx) && (j <? List.length gy) && (k <? List.length gz))%nat then nth_error a (i + List.length gx * (j + List.length gy * k)) else None))
    | _ => None end.
Proof. intros f E. unfold read_rectilinear. rewrite E, !axis_spec, Nat.eqb_refl. reflexivity. Qed.
Lemma rectilinear_read gx gy gz d : covers d (List.length gx) (List.length gy) (List.length gz) -> gx <> [] -> gy <> [] -> gz <> [] ->
  snd (rectilinear_vtk g14 printed gx gy gz d) = None /\
  exists v, read_rectilinear (fst (rectilinear_vtk g14 printed gx gy gz d)) = Some v /\ v_x v = map g14 gx /\ v_y v = map g14 gy /\ v_z v = map g14 gz /\
    forall i j k, (i < List.length gx)%nat -> (j < List.length gy)%nat -> (k < List.length gz)%nat -> v_value v i j k = Some (printed (at_ d i j k)).
Proof.
  intros C X Y Z. unfold rectilinear_vtk. cbv zeta. rewrite (written d) by (intros p; apply covered; exact C).
  assert (S : (let '(a, b, c) := shape d in if (a * b * c =? 0)%nat then Some ValueError else None) = None).
  { unfold covers in C. destruct (shape d) as [[a b] c]. destruct C as (A & B & C). destruct gx, gy, gz; try contradiction. cbn [List.length] in *. destruct (Nat.eqb_spec (a * b * c) 0) as [E|_]; [exfalso|reflexivity]. apply Nat.eq_mul_0 in E; destruct E as [E|E]; [apply Nat.eq_mul_0 in E; destruct E|]; lia. }
  rewrite S. split; [reflexivity|]. set (body := andthen (map (fun p => [Num (value d p)]) (loop (List.length gx) (List.length gy) (List.length gz)), None) ([], None)).
  assert (EB : List.concat (fst body) = map Num (map (value d) (loop (List.length gx) (List.length gy) (List.length gz)))).
  { unfold body, andthen. cbn [fst snd]. rewrite app_nil_r. rewrite <- concat_single, !map_map. f_equal. }
  pose proof (grid_words gx gy gz d body) as W. rewrite EB in W. apply read_grid in W. rewrite W. cbn [all_scalars scalars_of].
  rewrite <- (app_nil_r (map Num _)), <- (loop_length (List.length gx) (List.length gy) (List.length gz)), <- (map_length (value d)), numbers_spec.
  eexists. split; [reflexivity|]. cbn [v_x v_y v_z v_value]. repeat split. intros i j k Hi Hj Hk. rewrite (proj2 (Nat.ltb_lt _ _) Hi), (proj2 (Nat.ltb_lt _ _) Hj), (proj2 (Nat.ltb_lt _ _) Hk).
  cbn [andb]. rewrite nth_error_map, loop_nth by assumption. reflexivity.
Qed.
Lemma numbers_short n l : (List.length l < n)%nat -> numbers n l = None.
Proof. revert l. induction n as [|n IH]; intros l H; [lia|]. destruct l as [|w l]; [reflexivity|]. cbn. destruct w; try reflexivity. rewrite IH by (cbn in H; lia). reflexivity. Qed.
Lemma rectilinear_short gx gy gz d : ~ covers d (List.length gx) (List.length gy) (List.length gz) -> gx <> [] -> gy <> [] -> gz <> [] ->
  snd (rectilinear_vtk g14 printed gx gy gz d) = Some IndexError /\ read_rectilinear (fst (rectilinear_vtk g14 printed gx gy gz d)) = None.
Proof.
  intros C X Y Z. unfold rectilinear_vtk. cbv zeta.
  assert (P : exists p, In p (loop (List.length gx) (List.length gy) (List.length gz)) /\ in_shape d p = false).
  { unfold covers in C. exists (List.length gx - 1, List.length gy - 1, List.length gz - 1)%nat. destruct gx, gy, gz; try contradiction. cbn [List.length] in *. split; [apply loop_in; lia|].
    unfold in_shape. destruct (shape d) as [[a b] c]. apply not_true_is_false. rewrite !andb_true_iff, !Nat.ltb_lt. lia. }
  destruct P as (p & Hp & E). destruct (stopped d _ p Hp E) as (o & -> & L & Q). rewrite loop_length in L.
  split; [reflexivity|]. set (body := andthen (o, Some IndexError) _).
  assert (EB : fst body = o) by reflexivity.
  pose proof (grid_words gx gy gz d body) as W. rewrite EB in W. apply read_grid in W. rewrite W. cbn [all_scalars scalars_of].
  rewrite numbers_short; [reflexivity|]. enough (List.length (List.concat o) = List.length o) by lia. clear - Q. induction Q as [|x o [y ->] Q IH]; [reflexivity|]. cbn. rewrite IH. reflexivity.
Qed.
(** ** atoms *)
Lemma scalars_read N scalars : Forall (fun s => List.length (snd s) = N) scalars ->
  all_scalars N (List.length scalars) (List.concat (flat_map (scalar_lines f6) scalars)) = Some (map (fun s => (fst s, map f6 (snd s))) scalars).
Proof.
  induction 1 as [|[s a] l H Q IH]; [reflexivity|]. cbn [List.length all_scalars flat_map]. unfold scalar_lines at 1. cbn [fst snd app List.concat]. rewrite concat_app.
  assert (E : List.concat (map (fun x => [Num (f6 (x * 1.0))]) a) = map Num (map f6 a)). { rewrite <- concat_single, !map_map. f_equal. apply map_ext. intros x. do 3 f_equal. lra. }
  rewrite E. cbn [scalars_of]. cbn [snd] in H. rewrite <- H, <- (map_length f6 a), numbers_spec. rewrite (map_length f6 a), H, IH. reflexivity.
Qed.
Lemma triples_flat r : triples (flat_map (fun v => [f14 (vx v); f14 (vy v); f14 (vz v)]) r) = map (rounded f14) r.
Proof. induction r as [|v r IH]; [reflexivity|]. cbn. rewrite IH. reflexivity. Qed.
Lemma positions_flat r : List.concat (map (fun v => a2s f14 [vx v; vy v; vz v]) r) = map Num (flat_map (fun v => [f14 (vx v); f14 (vy v); f14 (vz v)]) r).
Proof. induction r as [|v r IH]; [reflexivity|]. cbn in *. rewrite IH. reflexivity. Qed.
Lemma atoms_read name r scalars : Forall (fun s => List.length (snd s) = List.length r) scalars ->
  snd (atoms_vtk f14 f6 name r scalars []) = None /\
  read_atoms (List.length scalars) (fst (atoms_vtk f14 f6 name r scalars [])) = Some (map (rounded f14) r, map (fun s => (fst s, map f6 (snd s))) scalars).
Proof.
  intros H. split; [reflexivity|]. unfold atoms_vtk, andthen, read_atoms, words. cbv zeta. cbn [fst snd app skipn]. rewrite app_nil_r. cbn [List.concat app]. rewrite concat_app. cbn [List.concat app].
  rewrite positions_flat. assert (L : (3 * List.length r)%nat = List.length (flat_map (fun v => [f14 (vx v); f14 (vy v); f14 (vz v)]) r)) by (rewrite (flat_len _ 3%nat); [reflexivity|intros; reflexivity]).
  rewrite L, numbers_spec, Nat.eqb_refl, scalars_read by exact H. rewrite triples_flat. reflexivity.
Qed.
Lemma no_vectors name r scalars vectors : vectors <> [] -> snd (atoms_vtk f14 f6 name r scalars vectors) = Some NameError.
Proof. intros H. destruct vectors as [|[s v] vectors]; [contradiction|]. reflexivity. Qed.
End Formats.
Lemma unchecked : exists r, snd (atoms_vtk (fun x => x) (fun x => x) [] r one_more []) = None /\ read_atoms 1 (fst (atoms_vtk (fun x => x) (fun x => x) [] r one_more [])) = None.
Proof. exists [vzero; V3 1 0 0]. split; reflexivity. Qed.
(** a case: a grid of 2 x 1 x 3 points; two atoms with charges *)
Definition ramp : array := Array (2, 1, 3)%nat (fun i j k => INR i + 10 * INR k).
Example ex_ramp : covers ramp (List.length [0; 1]) (List.length [0]) (List.length [0; 1; 2]) /\ ~ covers ramp 3 1 3 /\ Forall (fun s => List.length (snd s) = List.length [vzero; V3 1 0 0]) [("q", [1; -1])].
Proof. split; [cbn; lia|]. split; [cbn; lia|]. constructor; [reflexivity|constructor]. Qed.
