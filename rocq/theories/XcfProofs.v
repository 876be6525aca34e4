From Coq Require Import Reals String Ascii List Bool Arith Lia Lra Psatz.
From Coquelicot Require Import Coquelicot.
From Verif Require Import GeomModel UtilModel IoModel XcfModel XcfSpec.
Import ListNotations.
Open Scope R_scope.

Lemma mini_pos : 0 < mini. Proof. unfold mini. apply Rinv_0_lt_compat, pow_lt. lra. Qed.
Lemma no_grid_spec F g : no_grid F g = true <-> any_gga F = true /\ g = None.
Proof. unfold no_grid. rewrite andb_true_iff. destruct g; split; intros [h1 h2]; split; auto; discriminate. Qed.
Lemma grid_needed F g rho : (vxc F g rho = XFail XValueError <-> any_gga F = true /\ g = None) /\ (exc F g rho = XFail XValueError <-> any_gga F = true /\ g = None) /\
  (forall e, vxc F g rho = XFail e -> e = XValueError).
Proof.
  rewrite <- no_grid_spec. unfold vxc, exc. destruct (no_grid F g), F; repeat split; try discriminate; auto; intros e h; injection h; auto.
Qed.
(** the energy of functionals that libxc has as one *)
Lemma ltb_false a b : b <= a -> ltb a b = false.
Proof. intros h. unfold ltb. destruct (Rlt_dec a b); [lra|reflexivity]. Qed.
Section Density.
Variables (N : nat) (g : grid) (n dn : R -> R) (rho : nat -> R).
Hypothesis hrho : forall j, (j < N)%nat -> rho j = n (g_r g j).
Hypothesis hmin : forall j, (j < N)%nat -> mini <= n (g_r g j).
Hypothesis hder : differentiates N g n dn.
Lemma drho i : (i < N)%nat -> drho_dr g rho i = dn (g_r g i).
Proof. intros hi. unfold drho_dr. rewrite ltb_false; [|rewrite hrho by exact hi; apply hmin, hi]. apply hder; [exact hrho|exact hi]. Qed.
Lemma sigma_gga F i : (i < N)%nat -> any_gga F = true -> sigma F (Some g) rho i = dn (g_r g i) ^ 2.
Proof. intros hi hg. unfold sigma. rewrite hg, drho by exact hi. ring. Qed.
Lemma energy F e i : exc F (Some g) rho = XOk e -> (i < N)%nat -> (any_gga F = false -> forall P, In P (parts F) -> forall m s s', 0 < m -> zk P m s = zk P m s') ->
  rho i * e i = energy_density F (n (g_r g i)) (dn (g_r g i) ^ 2).
Proof.
  intros he hi hl. unfold exc in he. destruct (no_grid F (Some g)); [discriminate|]. destruct F as [x c|xc]; [discriminate|]. injection he as <-.
  unfold energy_density. cbn [parts map add]. rewrite <- hrho by exact hi. destruct (any_gga (One xc)) eqn:G.
  - rewrite sigma_gga by assumption. ring.
  - rewrite (hl eq_refl xc (or_introl eq_refl) (rho i) (sigma (One xc) (Some g) rho i) (dn (g_r g i) ^ 2)); [ring|]. pose proof mini_pos. pose proof (hmin i hi). rewrite hrho by exact hi. lra.
Qed.
(** the part of one functional *)
Lemma part_value F P dh i : (i < N)%nat -> In P (parts F) -> mini <= g_r g i -> (is_gga P = true -> differentiates N g (flux P n dn) dh) -> (is_gga P = false -> any_gga F = false -> forall m s s', 0 < m -> 0 <= s -> 0 <= s' -> vrho P m s = vrho P m s') ->
  part P F (Some g) rho i = vrho P (n (g_r g i)) (dn (g_r g i) ^ 2) - (if is_gga P then 2 * flux P n dn (g_r g i) / g_r g i + dh (g_r g i) else 0).
Proof.
  intros hi hP hr hd hl. unfold part. destruct (is_gga P) eqn:G.
  - assert (A : any_gga F = true). { destruct F as [x c|xc]; cbn in hP |- *; [destruct hP as [<-|[<-|[]]]; rewrite G; auto using orb_true_r|destruct hP as [<-|[]]; exact G]. }
    rewrite sigma_gga, hrho by assumption. f_equal. unfold v_gga. rewrite Rmax_left by exact hr.
    assert (E : forall j, (j < N)%nat -> 2 * vsigma P (rho j) (sigma F (Some g) rho j) * drho_dr g rho j = flux P n dn (g_r g j)).
    { intros j hj. unfold flux. rewrite G, sigma_gga, drho, hrho by assumption. reflexivity. }
    rewrite (hd eq_refl _ E i hi). rewrite E by exact hi. reflexivity.
  - rewrite !Rminus_0_r. rewrite hrho by exact hi. destruct (any_gga F) eqn:A.
    + rewrite sigma_gga by assumption. reflexivity.
    + apply hl; auto; [pose proof mini_pos; pose proof (hmin i hi); lra|unfold sigma; rewrite A; lra|apply pow2_ge_0].
Qed.
End Density.
(** variation of the energy density at one point *)
Lemma vary P n dn eta deta : contract P -> 0 < n -> derivable_pt_lim (fun t => (n + t * eta) * zk P (n + t * eta) ((dn + t * deta) ^ 2)) 0
  (vrho P n (dn ^ 2) * eta + (if is_gga P then 2 * vsigma P n (dn ^ 2) * dn else 0) * deta).
Proof.
  intros hc hn.
  assert (h1 : derivable_pt_lim (fun t => n + t * eta) 0 eta). { apply is_derive_Reals. auto_derive; [exact I|ring]. }
  assert (h2 : derivable_pt_lim (fun t => (dn + t * deta) ^ 2) 0 (2 * dn * deta)). { apply is_derive_Reals. auto_derive; [exact I|ring]. }
  assert (D : differentiable_pt_lim (fun n s => n * zk P n s) (n + 0 * eta) ((dn + 0 * deta) ^ 2) (vrho P n (dn ^ 2)) (if is_gga P then vsigma P n (dn ^ 2) else 0)).
  { replace (n + 0 * eta) with n by ring. replace (dn + 0 * deta) with dn by ring. apply hc; [exact hn|]. apply pow2_ge_0. }
  pose proof (derivable_pt_lim_comp_2d _ _ _ 0 _ _ _ _ D h1 h2) as H. cbv beta in H.
  replace (vrho P n (dn ^ 2) * eta + (if is_gga P then 2 * vsigma P n (dn ^ 2) * dn else 0) * deta) with (vrho P n (dn ^ 2) * eta + (if is_gga P then vsigma P n (dn ^ 2) else 0) * (2 * dn * deta)) by (destruct (is_gga P); ring).
  exact H.
Qed.
Lemma lda_vrho P m s s' : contract P -> is_gga P = false -> (forall m s s', 0 < m -> zk P m s = zk P m s') -> 0 < m -> 0 <= s -> 0 <= s' -> vrho P m s = vrho P m s'.
Proof.
  intros hc hg hz hm hs hs'.
  assert (D : forall s, 0 <= s -> derivable_pt_lim (fun t => t * zk P t 0) m (vrho P m s)).
  { intros u hu. pose proof (derivable_pt_lim_comp_2d (fun n s => n * zk P n s) (fun t => t) (fun _ => u) m (vrho P m u) (if is_gga P then vsigma P m u else 0) 1 0 (hc m u hm hu) (derivable_pt_lim_id m) (derivable_pt_lim_const u m)) as H.
    cbv beta in H. apply is_derive_Reals in H. apply is_derive_Reals.
    replace (vrho P m u) with (vrho P m u * 1 + (if is_gga P then vsigma P m u else 0) * 0) by ring.
    eapply is_derive_ext_loc; [|exact H]. exists (mkposreal m hm). intros t ht. rewrite (hz t u 0); [reflexivity|].
    unfold ball in ht. cbn in ht. unfold AbsRing_ball, abs, minus, plus, opp in ht. cbn in ht. apply Rabs_def2 in ht. lra. }
  apply (uniqueness_limite (fun t => t * zk P t 0) m); apply D; assumption.
Qed.

Lemma add_derive {A} (l : list A) (f : A -> R -> R) (df : A -> R) x : (forall P, In P l -> derivable_pt_lim (f P) x (df P)) -> derivable_pt_lim (fun t => add (map (fun P => f P t) l)) x (add (map df l)).
Proof.
  induction l as [|P l IH]; intros h; cbn [map add].
  - apply derivable_pt_lim_const.
  - apply (derivable_pt_lim_plus (f P) (fun t => add (map (fun P => f P t) l))); [apply h; left; reflexivity|apply IH; intros Q hQ; apply h; right; exact hQ].
Qed.
Lemma add_scal {A} c (l : list A) (f : A -> R) : add (map (fun P => c * f P) l) = c * add (map f l).
Proof. induction l as [|P l IH]; cbn [map add]; [ring|rewrite IH; ring]. Qed.
Lemma add_plus {A} (l : list A) (f h : A -> R) : add (map (fun P => f P + h P) l) = add (map f l) + add (map h l).
Proof. induction l as [|P l IH]; cbn [map add]; [ring|rewrite IH; ring]. Qed.
Lemma add_ext {A} (l : list A) (f h : A -> R) : (forall P, In P l -> f P = h P) -> add (map f l) = add (map h l).
Proof. induction l as [|P l IH]; intros e; cbn [map add]; [reflexivity|]. rewrite (e P (or_introl eq_refl)), IH; [reflexivity|]. intros Q hQ. apply e. right. exact hQ. Qed.
Lemma vxc_parts F g rho v : vxc F (Some g) rho = XOk v -> forall i, v i = add (map (fun P => part P F (Some g) rho i) (parts F)).
Proof. unfold vxc. destruct (no_grid F (Some g)); [discriminate|]. destruct F as [x c|xc]; intros h i; injection h as <-; cbn [parts map add]; ring. Qed.
(** the potential is the functional derivative of the energy: the variation of r^2 times the energy density is r^2 v eta up to the
    derivative of a term that vanishes where eta does *)
Lemma potential N g n dn rho F v dh eta deta i :
  (forall j, (j < N)%nat -> rho j = n (g_r g j)) -> (forall j, (j < N)%nat -> mini <= n (g_r g j)) -> differentiates N g n dn ->
  (forall P, In P (parts F) -> contract P /\ (is_gga P = false -> forall m s s', 0 < m -> zk P m s = zk P m s')) ->
  (forall P, In P (parts F) -> is_gga P = true -> differentiates N g (flux P n dn) (dh P)) ->
  vxc F (Some g) rho = XOk v -> (i < N)%nat -> let r := g_r g i in mini <= r ->
  (forall P, In P (parts F) -> derivable_pt_lim (flux P n dn) r (dh P r)) -> derivable_pt_lim eta r deta ->
  exists D B,
    derivable_pt_lim (fun t => r ^ 2 * energy_density F (n r + t * eta r) ((dn r + t * deta) ^ 2)) 0 D /\
    derivable_pt_lim (fun s => s ^ 2 * (add (map (fun P => flux P n dn s) (parts F)) * eta s)) r B /\
    D = r ^ 2 * v i * eta r + B.
Proof.
  intros hrho hmin hder hc hd hv hi r hr hf he.
  pose proof mini_pos as hm. assert (hn : 0 < n r) by (pose proof (hmin i hi); unfold r; lra). assert (hr0 : 0 < r) by lra.
  pose (D1 := fun P => vrho P (n r) (dn r ^ 2) * eta r + flux P n dn r * deta).
  exists (r ^ 2 * add (map D1 (parts F))).
  exists (2 * r * (add (map (fun P => flux P n dn r) (parts F)) * eta r) + r ^ 2 * (add (map (fun P => dh P r) (parts F)) * eta r + add (map (fun P => flux P n dn r) (parts F)) * deta)).
  split; [|split].
  - apply (derivable_pt_lim_scal (fun t => energy_density F (n r + t * eta r) ((dn r + t * deta) ^ 2)) (r ^ 2)).
    apply is_derive_Reals. apply (is_derive_ext (fun t => add (map (fun P => (n r + t * eta r) * zk P (n r + t * eta r) ((dn r + t * deta) ^ 2)) (parts F)))).
    + intros t. unfold energy_density. apply add_scal.
    + apply is_derive_Reals. apply (add_derive (parts F) (fun P t => (n r + t * eta r) * zk P (n r + t * eta r) ((dn r + t * deta) ^ 2)) D1).
      intros P hP. unfold D1, flux. apply vary; [apply hc, hP|exact hn].
  - apply (derivable_pt_lim_mult (fun s => s ^ 2) (fun s => add (map (fun P => flux P n dn s) (parts F)) * eta s)).
    + apply is_derive_Reals. auto_derive; [exact I|ring].
    + apply (derivable_pt_lim_mult (fun s => add (map (fun P => flux P n dn s) (parts F))) eta); [|exact he].
      apply (add_derive (parts F) (fun P => flux P n dn) (fun P => dh P r)). exact hf.
  - rewrite (vxc_parts F g rho v hv i).
    rewrite (add_ext (parts F) (fun P => part P F (Some g) rho i) (fun P => vrho P (n r) (dn r ^ 2) + ((- (2 / r)) * flux P n dn r + (-1) * dh P r))).
    + rewrite add_plus, add_plus, !add_scal. unfold D1. rewrite add_plus.
      rewrite (add_ext (parts F) (fun P => vrho P (n r) (dn r ^ 2) * eta r) (fun P => eta r * vrho P (n r) (dn r ^ 2))) by (intros; ring).
      rewrite (add_ext (parts F) (fun P => flux P n dn r * deta) (fun P => deta * flux P n dn r)) by (intros; ring).
      rewrite !add_scal. field. lra.
    + intros P hP. destruct (hc P hP) as [hcP hz].
      rewrite (part_value N g n dn rho hrho hmin hder F P (dh P) i hi hP hr (hd P hP)).
      * fold r. destruct (is_gga P) eqn:G; [field; lra|].
        assert (E0 : flux P n dn r = 0) by (unfold flux; rewrite G; reflexivity).
        assert (E1 : dh P r = 0).
        { apply (uniqueness_limite (flux P n dn) r); [apply hf, hP|]. apply is_derive_Reals. apply (is_derive_ext (fun _ => 0)); [intros t; unfold flux; rewrite G; reflexivity|]. auto_derive; [exact I|reflexivity]. }
        rewrite E0, E1. ring.
      * intros G _ m s s' h1 h2 h3. apply lda_vrho; auto.
Qed.

(** ** names *)
Definition inb (k : text) (l : list string) : bool := if in_dec (list_eq_dec ascii_dec) k (map txt l) then true else false.
Lemma inb_true k l : inb k l = true <-> In k (map txt l). Proof. unfold inb. destruct in_dec; split; auto; discriminate. Qed.
Lemma table k : match lookup k xc2libxc with
  | None => inb k joint = false /\ inb k separate = false
  | Some v => match comma v with Some _ => inb k joint = false /\ inb k separate = true | None => inb k joint = true /\ inb k separate = false end end.
Proof.
  unfold xc2libxc. cbn [lookup].
  repeat (destruct (list_eq_dec ascii_dec k (txt _)) as [->|]; [vm_compute; split; reflexivity|]).
  assert (Q : forall l, (forall s, In s l -> k <> txt s) -> inb k l = false).
  { intros l h. unfold inb. destruct in_dec as [i|]; [|reflexivity]. apply in_map_iff in i. destruct i as [s [e hs]]. symmetry in e. destruct (h s hs e). }
  split; apply Q; intros s hs; unfold joint, separate in hs; cbn [In] in hs; repeat (destruct hs as [<-|hs]; [assumption|]); destruct hs.
Qed.
Lemma known_names load name : (exists F, init load name = XOk F) <-> In (lower name) (map txt (joint ++ separate)).
Proof.
  unfold init, translate_xc. pose proof (table (lower name)) as T. rewrite map_app, in_app_iff, <- !inb_true. destruct (lookup (lower name) xc2libxc) as [v|].
  - destruct (comma v) as [[x c]|]; destruct T as [-> ->]; split; eauto.
  - destruct T as [-> ->]. split; [intros [F h]; discriminate|intros [h|h]; discriminate].
Qed.
Lemma any_case load name name' : lower name = lower name' -> init load name = init load name'.
Proof. intros h. unfold init, translate_xc. rewrite h. reflexivity. Qed.
Lemma energies pw92 load name g dens : name <> txt "PW92" ->
  match ks_exc pw92 load name g dens with
  | XOk e => In (lower name) (map txt joint)
  | XFail XNameError => In (lower name) (map txt separate)
  | XFail XValueError => ~ In (lower name) (map txt (joint ++ separate))
  end.
Proof.
  intros h. unfold ks_exc. destruct (list_eq_dec ascii_dec name (txt "PW92")) as [e|_]; [contradiction|].
  unfold init, translate_xc. pose proof (table (lower name)) as T. destruct (lookup (lower name) xc2libxc) as [v|].
  - destruct (comma v) as [[x c]|]; destruct T as [T1 T2]; unfold exc, no_grid; rewrite andb_false_r; apply inb_true; assumption.
  - rewrite map_app, in_app_iff, <- !inb_true. destruct T as [-> ->]. intros [q|q]; discriminate.
Qed.
(** separate functionals never have an energy *)
Lemma separate_fails x c g rho : exc (Sep x c) g rho = XFail (if no_grid (Sep x c) g then XValueError else XNameError).
Proof. unfold exc. destruct no_grid; reflexivity. Qed.
Lemma pbe_refuted : forall pw92 load g dens, ks_exc pw92 load (txt "PBE") g dens = XFail XNameError /\ ks_exc pw92 load (txt "pw92") g dens = XFail XNameError.
Proof.
  intros. assert (Q : forall name x c, name <> txt "PW92" -> init load name = XOk (Sep x c) -> ks_exc pw92 load name g dens = XFail XNameError).
  { intros name x c h e. unfold ks_exc. destruct (list_eq_dec ascii_dec name (txt "PW92")) as [q|_]; [contradiction|]. rewrite e, separate_fails. unfold no_grid. rewrite andb_false_r. reflexivity. }
  split; (eapply Q; [discriminate|reflexivity]).
Qed.
(** a case: n = exp(-r) and a functional of the squared gradient; the derivative of arrays is right for exponentials *)
Example ex_gradient : let P := Fun true (fun n s => s / (2 * n)) (fun _ _ => 0) (fun _ _ => / 2) in let n := fun r => exp (- r) in let dn := fun r => - exp (- r) in
  let g := Grid (fun i => INR i + 1) (fun a i => - a i) in
  contract P /\ differentiates 10 g n dn /\ differentiates 10 g (flux P n dn) n /\ (forall r, derivable_pt_lim (flux P n dn) r (n r)) /\
  mini <= g_r g 0 /\ exists v, vxc (One P) (Some g) (fun i => n (g_r g i)) = XOk v.
Proof.
  cbv zeta. assert (F : forall r, flux (Fun true (fun n s => s / (2 * n)) (fun _ _ => 0) (fun _ _ => / 2)) (fun r => exp (- r)) (fun r => - exp (- r)) r = - exp (- r)) by (intros r; unfold flux; cbn [is_gga vsigma]; field).
  repeat split.
  - intros n s hn hs. cbn [is_gga zk vrho vsigma].
    assert (D : differentiable_pt_lim (fun _ s => / 2 * s) n s 0 (/ 2)).
    { intros eps. exists (mkposreal 1 Rlt_0_1). intros u v _ _. replace (/ 2 * v - / 2 * s - (0 * (u - n) + / 2 * (v - s))) with 0 by ring. rewrite Rabs_R0.
      apply Rmult_le_pos; [left; apply cond_pos|]. apply Rle_trans with (Rabs (u - n)); [apply Rabs_pos|apply Rmax_l]. }
    eapply differentiable_pt_lim_ext; [|exact D]. exists (mkposreal n hn). intros u v hu hv. apply Rabs_def2 in hu. cbn in hu. field. lra.
  - intros a ha i hi. cbn [g_der g_r] in *. rewrite ha by exact hi. reflexivity.
  - intros a ha i hi. cbn [g_der g_r] in *. rewrite ha by exact hi. rewrite F. ring.
  - intros r. apply is_derive_Reals. apply (is_derive_ext (fun r => - exp (- r))); [intros t; symmetry; apply F|]. auto_derive; [exact I|ring].
  - cbn [g_r INR]. unfold mini. rewrite Rplus_0_l. apply Rle_trans with (/ 1); [|lra]. apply Rinv_le_contravar; [lra|]. apply pow_R1_Rle. lra.
  - eexists. reflexivity.
Qed.
